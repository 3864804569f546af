(** C54: the positions of the leaves. *)
From Verif Require Import Base Stream Node Rule Parse Grammar SpecStream SpecRule SpecEval WfDec PropsEval SpecPlace PlaceFacts.

(** Full claim: a leaf stands somewhere in the text and carries the line and column
    of that place. *)
Fixpoint leafs (n : node) : list node :=
  match n_kids n with [] => [n] | _ => flat_map leafs (n_kids n) end.
Definition C54_claim (is : rule -> Prop) : Prop :=
  forall T g fuel r f res s' nd leaf, runesOk T -> wfRules g -> wfRule r -> is r ->
  eval fuel g r (newStream T) f = Ok (res, s') -> r_node res = Some nd -> In leaf (leafs nd) -> n_chars leaf <> [] -> n_type leaf <> TEOF ->
  exists a, stands T a (n_chars leaf) /\ n_pos leaf = Some (lineCol (firstn a T)).

(** False for ranges: the position is that of the rune before. *)
Definition c54Range : rule := Eval vm_compute in ruleOf (rs "r = 'a'-'z'").
Theorem C54_range_refuted : ~ C54_claim (fun r => match r with RRange _ _ _ _ _ => True | _ => False end).
Proof.
  intros H. set (s := newStream (rs "q")).
  assert (X : match eval 20 [] c54Range s SUGGEST_SKIP with
    | Ok (mkRes (Some nd) _ _ _ _ _, s') => leafs nd = [nd] /\ n_chars nd <> [] /\ n_type nd <> TEOF /\ n_pos nd = None | _ => False end)
    by (vm_compute; repeat split; discriminate).
  destruct (eval 20 [] c54Range s SUGGEST_SKIP) as [[[[nd|] er ei rd un st] s']| |] eqn:E; [|exact X..].
  destruct X as (L & NE & NT & P).
  destruct (H (rs "q") [] 20%nat c54Range SUGGEST_SKIP _ s' nd nd (okRunes_ok (rs "q") eq_refl) (okRules_ok [] eq_refl) (okRule_ok c54Range eq_refl) I E eq_refl
    ltac:(rewrite L; now left) NE NT) as (a & _ & P'). congruence.
Qed.
Print Assumptions C54_range_refuted.

(** False in the first line once the newline after it has been read:
    [r = ('a' "b" "c" 'x') > ('a' "b")] on two lines gives column -1. *)
Definition c54Rule : rule := Eval vm_compute in
  ruleOf (rs "r = ('a' ""b"" ""c"" 'x') > ('a' ""b"")").
Definition c54Text : list Z := rs "ab" ++ [10] ++ rs "cd".
Theorem C54_first_line_refuted : ~ C54_claim (fun r => match r with RRange _ _ _ _ _ => False | _ => True end).
Proof.
  intros H. set (s := newStream c54Text).
  assert (X : match eval 20 [] c54Rule s SUGGEST_SKIP with
    | Ok (mkRes (Some nd) _ _ _ _ _, s') => exists a b, leafs nd = [a; b] /\ n_chars b = rs "b" /\ n_type b <> TEOF /\ n_pos b = Some (2, -1) | _ => False end)
    by (vm_compute; do 2 eexists; repeat split; discriminate).
  destruct (eval 20 [] c54Rule s SUGGEST_SKIP) as [[[[nd|] er ei rd un st] s']| |] eqn:E; [|exact X..].
  destruct X as (a & b & L & CB & NT & P).
  destruct (H c54Text [] 20%nat c54Rule SUGGEST_SKIP _ s' nd b (okRunes_ok c54Text eq_refl) (okRules_ok [] eq_refl) (okRule_ok c54Rule eq_refl) I E eq_refl
    ltac:(rewrite L; right; now left) ltac:(rewrite CB; discriminate) NT) as (i & (pre & post & ET & LP) & P'). rewrite P in P'. rewrite CB in ET.
  destruct pre as [|p0 [|p1 pre]]; [discriminate|cbn in LP; subst i; vm_compute in P'; discriminate|].
  exfalso. unfold c54Text in ET. cbn in ET. injection ET as _ _ ET.
  destruct pre as [|? [|? [|? [|? ?]]]]; discriminate.
Qed.
Print Assumptions C54_first_line_refuted.

(** What is missing: ranges, literals that begin with white space, and the places the
    line table gets wrong (see SpecPlace.v); and the uses of look-ahead listed in
    SpecEval.v ([SUnsafe]).  Otherwise the leaves of the tree stand one after the other
    in the runes it covers, with nothing but white space between, and carry the line
    and column of their first rune. *)
Theorem C54_leaves_in_place_partial : forall T cs g fuel r f res s', runesOk T -> wfRules g -> wfRule r ->
  let s := snd (run cs (newStream T)) in
  eval fuel g r s f = Ok (res, s') -> sem fuel g r f (rest s) <> SUnsafe ->
  forall nd, r_node res = Some nd ->
  placed T (Z.to_nat (cursor s)) (Z.to_nat (cursor s) + (length (r_read res) - length (r_unused res))) nd.
Proof. exact eval_placed. Qed.
Print Assumptions C54_leaves_in_place_partial.

(** [list] of C15 over several lines. *)
Definition c54Sample : list Z := Eval vm_compute in [10] ++ rs "[ a ,[b," ++ [10; 10] ++ rs " c] , d ] e".
Example C54_example :
  okRules c15G = true /\ okRule c15Rule = true /\ okRunes c54Sample = true /\
  match sem 30 c15G c15Rule SUGGEST_SKIP c54Sample with SOk (Match _ u k _) => u = 20%nat | _ => False end /\
  match eval 30 c15G c15Rule (newStream c54Sample) SUGGEST_SKIP with
  | Ok (mkRes (Some nd) _ _ _ _ _, _) =>
      List.map (fun n => (n_chars n, n_pos n)) (List.filter (fun n => rtype_eqb (n_type n) TString) (leafs nd)) =
      [(rs "[", Some (2, 1)); (rs ",", Some (2, 5)); (rs "[", Some (2, 6)); (rs ",", Some (2, 8)); (rs "]", Some (4, 3)); (rs ",", Some (4, 5)); (rs "]", Some (4, 9))]
  | _ => False
  end.
Proof. vm_compute. repeat split. Qed.
