(** C72: the JSON grammar shipped in main/samples/json, from the text to the trees. *)
From Verif Require Import Base Stream Node Rule Grammar SpecStream SpecRule SpecEval SpecEv SpecDriver DriverFacts WfDec RepoSamples SpecJson EraseFacts JsonLex JsonTree JsonText JsonDriver.

(** Full claim: a JSON text, white space being allowed around tokens, is accepted by
    Eval, and the one tree it gets is that of its value. *)
Definition C72_claim (after : list Z -> Prop) : Prop :=
  forall ords v t w level, legal (rootsOf gJson) ords -> Spells v t -> white w -> after w -> runesOk (t ++ w) -> level = 0 \/ level = 1 ->
  exists N, forall lf fuel, (length (t ++ w) < lf)%nat -> (N <= fuel)%nat ->
    exists a s', evalTop lf fuel (rules_of gJson) ords (newStream (t ++ w)) level = Ok (RawOk a, s') /\ List.map erase a = [treeOf v].
(** False for white space at the end, a newline say. *)
Theorem C72_trailing_refuted : ~ C72_claim (fun _ => True).
Proof.
  intros H. destruct (H (storedOrder gJson) (JNum false [49] None) [49] [10] 0 (storedOrder_legal gJson)) as (N & X).
  - apply (sp_num [] false [49] None); [constructor| |discriminate]. split; [discriminate|]. repeat constructor; lia.
  - constructor; [cbn; lia|constructor].
  - exact I.
  - repeat constructor; lia.
  - now left.
  - destruct (X (3 + N)%nat (40 + N)%nat ltac:(cbn; lia) ltac:(lia)) as (a & s' & E & _).
    assert (NO : forall vs, ~ SpellsAll vs [49; 10]).
    { destruct (top_out (newStream [49; 10]) (storedOrder gJson) ltac:(repeat constructor; lia) ltac:(intros I; cbn in I; lia) ltac:(discriminate) (storedOrder_legal gJson)
        10 40 0 (match evalTop 10 40 (rules_of gJson) (storedOrder gJson) (newStream [49; 10]) 0 with Ok (r, _) => r | _ => RawEmpty end)
        (match evalTop 10 40 (rules_of gJson) (storedOrder gJson) (newStream [49; 10]) 0 with Ok (_, s) => s | _ => newStream [] end) ltac:(now left) ltac:(vm_compute; reflexivity)) as [(vs & a' & _ & R & _)|(NO & _)].
      - exfalso. revert R. vm_compute. discriminate.
      - exact NO. }
    destruct (top_out (newStream [49; 10]) (storedOrder gJson) ltac:(repeat constructor; lia) ltac:(intros I; cbn in I; lia) ltac:(discriminate) (storedOrder_legal gJson)
      _ _ 0 _ _ ltac:(now left) E) as [(vs & a' & SA & _)|(_ & d & e & R)]; [now apply NO in SA|discriminate].
Qed.
Print Assumptions C72_trailing_refuted.

(** True without it. *)
Theorem C72_values_partial : C72_claim (fun w => w = []).
Proof. exact json_values. Qed.
Print Assumptions C72_values_partial.

(** On every text without backslashes: what Eval answers, whatever the order in which
    maps are iterated over.  Values may follow one another. *)
Theorem C72_eval_partial lf fuel ords s level r s' : legal (rootsOf gJson) ords -> runesOk (rest s) -> ~ In 92 (rest s) -> rest s <> [] -> level = 0 \/ level = 1 ->
  evalTop lf fuel (rules_of gJson) ords s level = Ok (r, s') ->
  (exists vs a, SpellsAll vs (rest s) /\ r = RawOk a /\ List.map erase a = List.map treeOf vs) \/
  ((forall vs, ~ SpellsAll vs (rest s)) /\ exists d e, r = RawNoMatch d e).
Proof. exact (json_eval lf fuel ords s level r s'). Qed.
Print Assumptions C72_eval_partial.
Theorem C72_returns_partial ords s level : legal (rootsOf gJson) ords -> runesOk (rest s) -> ~ In 92 (rest s) -> rest s <> [] ->
  exists N, forall lf fuel, (length (rest s) < lf)%nat -> (N <= fuel)%nat -> exists r s', evalTop lf fuel (rules_of gJson) ords s level = Ok (r, s').
Proof. exact (json_returns ords s level). Qed.
Print Assumptions C72_returns_partial.
(** With a single tree the text is a text of the value of that tree. *)
Theorem C72_sound_partial lf fuel ords s level v a s' : legal (rootsOf gJson) ords -> runesOk (rest s) -> ~ In 92 (rest s) -> spellable v -> level = 0 \/ level = 1 ->
  evalTop lf fuel (rules_of gJson) ords s level = Ok (RawOk a, s') -> List.map erase a = [treeOf v] -> Spells v (rest s).
Proof. exact (json_sound lf fuel ords s level v a s'). Qed.
Print Assumptions C72_sound_partial.

(** A text has one value, a row of values is one row; and the tree tells the value. *)
Theorem C72_one_value v v' t : runesOk t -> Spells v t -> Spells v' t -> v = v'.
Proof. exact (one_value v v' t). Qed.
Print Assumptions C72_one_value.
Theorem C72_one_row vs vs' t : runesOk t -> ~ In 92 t -> SpellsAll vs t -> SpellsAll vs' t -> vs = vs'.
Proof. exact (fun R D => all_once vs t vs' R D). Qed.
Print Assumptions C72_one_row.
Theorem C72_tree_tells v v' : spellable v -> spellable v' -> treeOf v = treeOf v' -> v = v'.
Proof. exact (tree_inj v v'). Qed.
Print Assumptions C72_tree_tells.
(** The spellable values are those that have a text. *)
Theorem C72_spellable v : spellable v <-> exists t, runesOk t /\ Spells v t.
Proof. exact (spellable_iff v). Qed.
Print Assumptions C72_spellable.

(** Printing: the text of the tree is a text of the same value, with one blank between
    tokens; so reading it again gives the same tree and the same text. *)
Theorem C72_print v : spellable v -> text (treeOf v) = neat v /\ Spells v (neat v) /\ runesOk (neat v).
Proof. exact (print_value v). Qed.
Print Assumptions C72_print.
Theorem C72_print_read ords v level : legal (rootsOf gJson) ords -> spellable v -> level = 0 \/ level = 1 ->
  exists N, forall lf fuel, (length (neat v) < lf)%nat -> (N <= fuel)%nat ->
    exists a s', evalTop lf fuel (rules_of gJson) ords (newStream (text (treeOf v))) level = Ok (RawOk a, s') /\ List.map erase a = [treeOf v] /\ astText a = neat v.
Proof. exact (print_read ords v level). Qed.
Print Assumptions C72_print_read.

(** The claim that the text of the answer reads as the same values is false for
    several values in a row: 1 2 is printed as 12. *)
Definition C72_print_claim : Prop := forall lf fuel s a s', runesOk (rest s) -> ~ In 92 (rest s) ->
  evalTop lf fuel (rules_of gJson) (storedOrder gJson) s 0 = Ok (RawOk a, s') ->
  forall vs, SpellsAll vs (rest s) -> SpellsAll vs (astText a).
Theorem C72_print_refuted : ~ C72_print_claim.
Proof.
  intros H. set (one := JNum false [49] None). set (two := JNum false [50] None). set (twelve := JNum false [49; 50] None).
  assert (DR : forall l, l <> [] -> Forall (fun c => 48 <= c <= 57) l -> Spells (JNum false l None) l).
  { intros l NE F. rewrite <- (app_nil_r l) at 2. apply (sp_num [] false l None); [constructor|split; assumption|discriminate]. }
  assert (S12 : SpellsAll [one; two] [49; 32; 50]).
  { apply (sa_more one [49] [two] [32; 50]).
    - apply DR; [discriminate|repeat constructor; lia].
    - split; [intros (c & t & E & C); injection E as <- _; lia|]. intros _ t E. discriminate.
    - apply all_single. apply (sp_num [32] false [50] None); [constructor; [cbn; lia|constructor]| |discriminate]. split; [discriminate|repeat constructor; lia]. }
  specialize (H 10%nat 60%nat (newStream [49; 32; 50])).
  destruct (evalTop 10 60 (rules_of gJson) (storedOrder gJson) (newStream [49; 32; 50]) 0) as [[[a| | | |] s']| |] eqn:E; try (revert E; vm_compute; discriminate).
  specialize (H a s' ltac:(repeat constructor; lia) ltac:(intros I; cbn in I; lia) eq_refl _ S12).
  assert (AT : astText a = [49; 50]).
  { assert (X : match evalTop 10 60 (rules_of gJson) (storedOrder gJson) (newStream [49; 32; 50]) 0 with Ok (RawOk a, _) => astText a | _ => [] end = [49; 50]) by (vm_compute; reflexivity).
    rewrite E in X. exact X. }
  rewrite AT in H. assert (S : SpellsAll [twelve] [49; 50]) by (apply all_single, DR; [discriminate|repeat constructor; lia]).
  pose proof (all_once _ [49; 50] _ ltac:(repeat constructor; lia) ltac:(intros I; cbn in I; lia) H S). discriminate.
Qed.
Print Assumptions C72_print_refuted.
(** At level 2 (data only) the tree does not tell the value: [1,""] and [1]. *)
Definition C72_data_claim : Prop := forall lf fuel v v' a a' s s', spellable v -> spellable v' ->
  evalTop lf fuel (rules_of gJson) (storedOrder gJson) (newStream (neat v)) 2 = Ok (RawOk a, s) ->
  evalTop lf fuel (rules_of gJson) (storedOrder gJson) (newStream (neat v')) 2 = Ok (RawOk a', s') -> List.map erase a = List.map erase a' -> v = v'.
Definition c72Short : json := JArr [JNum false [49] None].
Definition c72Long : json := JArr [JNum false [49] None; JStr []].
Lemma c72_short : spellable c72Short.
Proof. split; [|exact I]. split; [|discriminate]. split; [discriminate|repeat constructor; lia]. Qed.
Lemma c72_long : spellable c72Long.
Proof. split; [|split; [constructor|exact I]]. split; [|discriminate]. split; [discriminate|repeat constructor; lia]. Qed.
Definition treesIn (x : outcome (rawRes * stream)) : list node := match x with Ok (RawOk a, _) => List.map erase a | _ => [] end.
Lemma trees_in x l : treesIn x = l -> l <> [] -> exists a s, x = Ok (RawOk a, s) /\ List.map erase a = l.
Proof. intros <- NE. destruct x as [[[a| | | |] s]| |]; try (now destruct NE). eauto. Qed.
Definition c72Data : list node := Eval vm_compute in treesIn (evalTop 20 60 (rules_of gJson) (storedOrder gJson) (newStream (neat c72Short)) 2).
Theorem C72_data_refuted : ~ C72_data_claim.
Proof.
  intros H.
  destruct (trees_in (evalTop 20 60 (rules_of gJson) (storedOrder gJson) (newStream (neat c72Long)) 2) c72Data ltac:(vm_compute; reflexivity) ltac:(discriminate)) as (a & s & E & X).
  destruct (trees_in (evalTop 20 60 (rules_of gJson) (storedOrder gJson) (newStream (neat c72Short)) 2) c72Data ltac:(vm_compute; reflexivity) ltac:(discriminate)) as (a' & s' & E' & X').
  pose proof (H 20%nat 60%nat c72Long c72Short a a' s s' c72_long c72_short E E' (eq_trans X (eq_sym X'))) as Y. discriminate.
Qed.
Print Assumptions C72_data_refuted.
(** With an escape in a string the text of the tree is another one: the backslash of a
    and newline is doubled. *)
Definition C72_escape_claim : Prop := forall lf fuel s a s', runesOk (rest s) ->
  evalTop lf fuel (rules_of gJson) (storedOrder gJson) s 0 = Ok (RawOk a, s') -> (forall c, In c (rest s) -> ~ In c whiteSpaces) -> In 34 (rest s) ->
  (forall c, In c (rest s) -> ~ In c [44; 58; 91; 93; 123; 125]) -> astText a = rest s.
Theorem C72_escape_refuted : ~ C72_escape_claim.
Proof.
  intros H. specialize (H 10%nat 60%nat (newStream [34; 97; 92; 110; 34])).
  destruct (evalTop 10 60 (rules_of gJson) (storedOrder gJson) (newStream [34; 97; 92; 110; 34]) 0) as [[[a| | | |] s']| |] eqn:E; try (revert E; vm_compute; discriminate).
  assert (X : match evalTop 10 60 (rules_of gJson) (storedOrder gJson) (newStream [34; 97; 92; 110; 34]) 0 with Ok (RawOk a, _) => astText a | _ => [] end = [34; 97; 92; 92; 110; 34]) by (vm_compute; reflexivity).
  rewrite E in X. specialize (H a s' ltac:(repeat constructor; lia) eq_refl). rewrite X in H.
  discriminate H; [intros c I J; cbn in I, J; lia|cbn; auto|intros c I J; cbn in I, J; lia].
Qed.
Print Assumptions C72_escape_refuted.

(** EvalRule on the rules value and json: the longest value in front. *)
Theorem C72_rule_partial fuel name sample res : name = rs "value" \/ name = rs "json" -> runesOk sample -> ~ In 92 sample -> evalRule fuel gJson name sample = Ok res ->
  (exists v tv t' nd, sample = tv ++ t' /\ Spells v tv /\ mayFollow v t' /\ r_node res = Some nd /\ simplify 0 [erase nd] = [treeOf v] /\
     (length (r_read res) - length (r_unused res) = length tv)%nat) \/
  ((forall v tv t', sample = tv ++ t' -> Spells v tv -> ~ mayFollow v t') /\ r_node res = None).
Proof. exact (json_rule fuel name sample res). Qed.
Print Assumptions C72_rule_partial.
Theorem C72_rule_returns_partial name sample : name = rs "value" \/ name = rs "json" -> runesOk sample -> ~ In 92 sample ->
  exists N res, forall fuel, (N <= fuel)%nat -> evalRule fuel gJson name sample = Ok res.
Proof. exact (rule_returns name sample). Qed.
Print Assumptions C72_rule_returns_partial.

(** A text with all kinds of values, and its tree. *)
Definition c72Text : list Z := rs "{ ""a"" : [1, -2.50,""x y""], ""b"":{},""c"" :[ true ,null ] }".
Definition c72Value : json := JObj [(rs "a", JArr [JNum false (rs "1") None; JNum true (rs "2") (Some (rs "50")); JStr (rs "x y")]); (rs "b", JObj []); (rs "c", JArr [JBool true; JNull])].
Example C72_example : match evalTop 60 80 (rules_of gJson) (storedOrder gJson) (newStream c72Text) 0 with Ok (RawOk a, _) => List.map erase a | _ => [] end = [treeOf c72Value].
Proof. vm_compute. reflexivity. Qed.
Example C72_example_text : spellable c72Value /\ neat c72Value = rs "{ ""a"" : [ 1 , -2.50 , ""x y"" ] , ""b"" : { } , ""c"" : [ true , null ] }".
Proof.
  split; [apply spellableB_ok; vm_compute; reflexivity|vm_compute; reflexivity].
Qed.
Example C72_example_spells : Spells c72Value c72Text.
Proof.
  destruct (trees_in (evalTop 60 80 (rules_of gJson) (storedOrder gJson) (newStream c72Text) 0) [treeOf c72Value] C72_example ltac:(discriminate)) as (a & s' & E & X).
  refine (C72_sound_partial _ _ _ (newStream c72Text) _ _ _ _ (storedOrder_legal gJson) _ _ (proj1 C72_example_text) (or_introl eq_refl) E X).
  - apply okRunes_ok. vm_compute. reflexivity.
  - intros I. vm_compute in I. intuition lia.
Qed.
