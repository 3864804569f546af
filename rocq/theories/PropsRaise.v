(** C96: simplifying on a higher level afterwards. *)
From Verif Require Import Base Stream Node Rule Parse Grammar SpecStream SpecRule SpecNode PropsNode NodeLean SpecDriver DriverFacts WfDec PropsDriver CliFacts SpecStill StillFacts PropsStill RaiseFacts SpecBones BonesFacts SpecMarks MarksFacts.

(** The full claim: what was simplified on a level can be brought to any higher level afterwards. *)
Definition C96_full : Prop := forall level level' a, Forall proper a -> noMore level level' -> simplify level' (simplify level a) = simplify level' a.
(** The same for the texts alone. *)
Definition C96_full_text : Prop := forall level level' a, Forall proper a -> noMore level level' -> ink (astText (simplify level' (simplify level a))) = ink (astText (simplify level' a)).

Lemma c95_proper : Forall proper c95.
Proof. unfold c95. repeat (first [apply Forall_nil | apply Forall_cons | apply proper_intro; [first [left; reflexivity | right; reflexivity]|cbn [n_kids]]]). Qed.

(** The unnamed group that has the mark is gone after level 1: its text cannot be dropped any more. *)
Theorem C96_text_refuted : ~ C96_full_text.
Proof. intros F. specialize (F 1 2 c95 c95_proper). assert (N : noMore 1 2) by (unfold noMore; lia). specialize (F N). vm_compute in F. discriminate. Qed.
Print Assumptions C96_text_refuted.

(** [r = ( "a" #x ) "d"], [x = "b"] on [abd]: all that is dropped has a name, and still the trees
    differ. On level 2 the group takes the text of its one child and stays behind without a
    position; on level 1 it had two children and went. *)
Definition c96 : ast := Eval vm_compute in rawTree (rs "r = ( ""a"" #x ) ""d""" ++ [10] ++ rs "x = ""b""" ++ [10]) (rs "abd").
Lemma c96_proper : Forall proper c96.
Proof. unfold c96. repeat (first [apply Forall_nil | apply Forall_cons | apply proper_intro; [first [left; reflexivity | right; reflexivity]|cbn [n_kids]]]). Qed.
Lemma c96_named : forall m, inside m (astMerge c96) -> dropsAt 2 m = true -> n_name m <> [].
Proof.
  apply (proj2 (all_deep (fun m => dropsAt 2 m = true -> n_name m <> []) (astMerge c96))).
  vm_compute astMerge. repeat (first [apply Forall_nil | apply Forall_cons | apply deep_intro; [cbn; discriminate|cbn [n_kids]]]).
Qed.
Theorem C96_tree_refuted : ~ C96_full.
Proof. intros F. specialize (F 1 2 c96 c96_proper). assert (N : noMore 1 2) by (unfold noMore; lia). specialize (F N). vm_compute in F. discriminate. Qed.
Print Assumptions C96_tree_refuted.

(** Each level keeps the named nodes that hold text, their nesting and the texts of the leaves in
    them, but for what it drops. *)
Theorem C96_level : forall level a, level <> -1 -> Forall proper a -> bonesOf everything (simplify level a) = bonesOf (dropsAt level) (astMerge a).
Proof. exact simplify_bones. Qed.
Print Assumptions C96_level.
(** When all that the higher level drops has a name, both ways keep the same named nodes with text,
    nested in the same way, with the same texts in the leaves. Missing to the full claim: unnamed
    marks, and the unnamed nodes left (their number, types and positions). *)
Theorem C96_raise_partial : forall level level' a, Forall proper a -> noMore level level' ->
  (forall m, inside m (astMerge a) -> dropsAt level' m = true -> n_name m <> []) ->
  bonesOf everything (simplify level' (simplify level a)) = bonesOf everything (simplify level' a).
Proof. exact simplify_raise_bones. Qed.
Print Assumptions C96_raise_partial.
(** The bones have all the text. *)
Theorem C96_same_text : forall a b, bonesOf everything a = bonesOf everything b ->
  piecesOf everything a = piecesOf everything b /\ ink (astText a) = ink (astText b).
Proof. exact same_text. Qed.
Print Assumptions C96_same_text.

Example C96_example : c96 = rawTree (rs "r = ( ""a"" #x ) ""d""" ++ [10] ++ rs "x = ""b""" ++ [10]) (rs "abd") /\ Forall proper c96 /\ noMore 1 2 /\
  (forall m, inside m (astMerge c96) -> dropsAt 2 m = true -> n_name m <> []) /\
  astText (simplify 1 c96) = rs "a b d" /\ simplify 2 (simplify 1 c96) <> simplify 2 c96 /\
  bonesOf everything (simplify 2 c96) = [Named (TConcat, rs "r", Some (1, 3), false, false, false, false) [Leaf (rs "a"); Leaf (rs "d")]] /\
  bonesOf everything (simplify 1 c96) = [Named (TConcat, rs "r", Some (1, 3), false, false, false, false)
    [Leaf (rs "a"); Named (TString, rs "x", Some (1, 2), false, false, true, false) [Leaf (rs "b")]; Leaf (rs "d")]].
Proof. split; [vm_compute; reflexivity|]. split; [exact c96_proper|]. split; [unfold noMore; lia|]. split; [exact c96_named|]. vm_compute. repeat split; discriminate. Qed.

(** For evaluations of grammars in which only named rules and references carry the marks: what Eval
    returns on a level, simplified on a higher one, has the bones of what it returns there. *)
Theorem C96_eval_partial : forall loopFuel fuel g roots o s level level' a s1 b s2,
  wfRules g -> wfRoots roots -> legal roots o -> runesOk (rest s) -> marksOnNames g roots -> noMore level level' ->
  evalTop loopFuel fuel g o s level = Ok (RawOk a, s1) -> evalTop loopFuel fuel g o s level' = Ok (RawOk b, s2) ->
  bonesOf everything (simplify level' a) = bonesOf everything b.
Proof. exact eval_raise. Qed.
Print Assumptions C96_eval_partial.
Definition c96G : grammar := Eval vm_compute in grammarOf (rs "r = ( ""a"" #x ) ""d""" ++ [10] ++ rs "x = ""b""" ++ [10]).
Example C96_eval_example : wfRules (rules_of c96G) /\ wfRoots (rootsOf c96G) /\ legal (rootsOf c96G) (storedOrder c96G) /\ runesOk (rest (newStream (rs "abd"))) /\
  marksOnNames (rules_of c96G) (rootsOf c96G) /\ length (rootsOf c96G) = 1%nat /\
  match evalTop 20 50 (rules_of c96G) (storedOrder c96G) (newStream (rs "abd")) 1, evalTop 20 50 (rules_of c96G) (storedOrder c96G) (newStream (rs "abd")) 2 with
  | Ok (RawOk a, _), Ok (RawOk b, _) => a = simplify 1 c96 /\ b = simplify 2 c96
  | _, _ => False
  end.
Proof.
  split; [apply okRules_ok; reflexivity|]. split; [apply okRoots_ok; reflexivity|]. split; [apply storedOrder_legal|]. split; [apply okRunes_ok; reflexivity|].
  split; [apply marksOk_ok; vm_compute; reflexivity|]. vm_compute. auto.
Qed.
