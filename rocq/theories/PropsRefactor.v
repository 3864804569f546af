(** C76: parentheses and named parts do not change what is matched. *)
From Verif Require Import Base Stream StreamFacts Node Rule Parse Grammar PropsDriver SpecRule WfDec SpecRefactor RefactorFacts.

(* ---------------- C76 ---------------- *)

(** Where a part may be put in parentheses or given a name, the answer is the same
    apart from the inner nodes of the tree and the wording of an error, and the text is
    left in the same state.  Missing: parentheses around an option, and parentheses
    around an ambiguous choice directly in an option, a repetition or as the close of a
    block; there the claim is false, see below. *)
Theorem C76_eval_partial g g' tight fuel st r r' s f X s2 : rewrites g g' tight -> wfRules g' -> rewritten g g' tight st r r' -> wfRule r' ->
  eval fuel g r s f = Ok (X, s2) ->
  exists X' F, (forall n, (F <= n)%nat -> eval n g' r' s f = Ok (X', s2)) /\ alikeRes st X X'.
Proof. exact (fun RW WF R W E => eval_mirror g g' tight RW WF fuel st r r' R W s f X s2 E). Qed.
Print Assumptions C76_eval_partial.
(** The same for EvalRaw, with the maps visited in corresponding orders. *)
Theorem C76_raw_partial g g' tight lf fuel o o' s a s2 : rewrites g g' tight -> wfRules g' -> alikeOrders g g' tight o o' ->
  evalRaw lf fuel g o s = Ok (a, s2) ->
  exists a' F, (forall n m, (F <= n)%nat -> (F <= m)%nat -> evalRaw m n g' o' s = Ok (a', s2)) /\ alikeRaw a a'.
Proof. exact (fun RW WF O E => evalRaw_mirror g g' tight RW WF o o' lf fuel s a s2 O E). Qed.
Print Assumptions C76_raw_partial.
(** The rewriting can be undone, so both theorems hold in both directions. *)
Theorem C76_back g g' tight : rewrites g g' tight -> rewrites g' g tight /\ forall st r r', rewritten g g' tight st r r' -> rewritten g' g tight st r' r.
Proof. exact (fun RW => conj (rewrites_sym g g' tight RW) (fun st r r' => rewritten_sym g g' tight st r r')). Qed.
Print Assumptions C76_back.

Definition c76G : grammar := Eval vm_compute in grammarOf (rs "sum = num { ""+"" num }
num = {'0'-'9'}<1>").
Definition c76G' : grammar := Eval vm_compute in grammarOf (rs "sum = term { plus term }
term = ( num )
plus = ""+""
num = ({'0'-'9'}<1>)").
Lemma lookup_in (g : rules_t) n x : lookup g n = Some x -> In (n, x) g.
Proof.
  induction g as [|[k y] g IH]; cbn [lookup]; [discriminate|]. destruct (runes_eqb k n) eqn:E.
  - intros [= ->]. left. apply runes_eqb_eq in E. now rewrite E.
  - intros H. right. now apply IH.
Qed.
Definition nowhere (n : list Z) : Prop := False.
Lemma c76_num : rewritten (rules_of c76G) (rules_of c76G') nowhere false (RRef noBase (rs "num")) (RRef noBase (rs "term")).
Proof.
  eapply rw_name; [vm_compute; reflexivity|]. apply rw_paren; [|eapply no_ref; [vm_compute; reflexivity|constructor]|exact I].
  apply rw_ref; [split; vm_compute; discriminate|exact I].
Qed.
Lemma c76_rewrites : rewrites (rules_of c76G) (rules_of c76G') nowhere.
Proof.
  intros n x x' L L'. split; [|contradiction]. apply lookup_in in L. destruct L as [Q|[Q|[]]]; injection Q as <- <-; vm_compute in L'; injection L' as <-.
  - apply rw_concat. constructor; [exact c76_num|]. constructor; [|constructor]. apply rw_rep, rw_concat. constructor; [|constructor; [exact c76_num|constructor]].
    eapply rw_name; [vm_compute; reflexivity|constructor].
  - apply rw_paren; [|constructor|exact I]. apply rw_rep. constructor.
Qed.
Example C76_example : rewrites (rules_of c76G) (rules_of c76G') nowhere /\ wfRules (rules_of c76G') /\
  alikeOrders (rules_of c76G) (rules_of c76G') nowhere (storedOrder c76G) (storedOrder c76G') /\
  match evalRaw 9 30 (rules_of c76G) (storedOrder c76G) (newStream (rs "1 + 23")), evalRaw 9 30 (rules_of c76G') (storedOrder c76G') (newStream (rs "1 + 23")) with
  | Ok (RawOk [n], _), Ok (RawOk [n'], _) => leaves n = leaves n' /\ List.map (fun x => snd (fst (fst x))) (leaves n) = [rs "1"; rs "+"; rs "2"; rs "3"] /\ n <> n'
  | _, _ => False
  end.
Proof.
  split; [exact c76_rewrites|]. assert (W : wfRules (rules_of c76G')) by (apply okRules_ok; vm_compute; reflexivity). split; [exact W|]. split.
  - constructor; [|intros k l l' H; exact H]. intros k. constructor; [|constructor]. split; [reflexivity|]. split; [|apply (W (rs "sum")); vm_compute; reflexivity].
    apply (proj1 (c76_rewrites (rs "sum") _ _ eq_refl eq_refl)).
  - vm_compute. split; [reflexivity|]. split; [reflexivity|discriminate].
Qed.

(** With parentheses around an option the claim is false: an option that is not taken
    leaves the advice about white space as it was, the same option in parentheses
    replaces it (rule_concatenate.go:80-90 looks at the type of the node). *)
Theorem C76_option_refuted : ~ forall fuel g b b' l x r s X X' s2 s2', wfRules g -> wfRule (RConcat b [l; x; r]) ->
  eval fuel g (RConcat b [l; x; r]) s SUGGEST_SKIP = Ok (X, s2) -> eval fuel g (RConcat b [l; RGroup b' x; r]) s SUGGEST_SKIP = Ok (X', s2') ->
  (r_node X = None <-> r_node X' = None).
Proof.
  intros H. set (l := RString noBase (rs "a")). set (x := ROption noBase (RChar noBase 45 false)). set (r := RChar noBase 98 false).
  destruct (eval 9 [] (RConcat noBase [l; x; r]) (newStream (rs "a b")) SUGGEST_SKIP) as [[X s2]| |] eqn:E; [|vm_compute in E; discriminate..].
  destruct (eval 9 [] (RConcat noBase [l; RGroup noBase x; r]) (newStream (rs "a b")) SUGGEST_SKIP) as [[X' s2']| |] eqn:E'; [|vm_compute in E'; discriminate..].
  assert (W : wfRule (RConcat noBase [l; x; r])) by (apply okRule_ok; vm_compute; reflexivity).
  destruct (H 9%nat [] _ _ _ _ _ _ _ _ _ _ (okRules_ok [] eq_refl) W E E') as (_ & Q).
  assert (N' : r_node X' = None) by (vm_compute in E'; injection E' as <- <-; reflexivity). apply Q in N'. vm_compute in E. injection E as <- <-. discriminate.
Qed.
Print Assumptions C76_option_refuted.
(** With parentheses around an ambiguous choice in an option it is false as well: the
    choice says that it leaves nothing unused (rule_choice.go:84-102), so the option loses
    what was read; the group gives all of it back (rule_group.go:29-32). *)
Theorem C76_tie_refuted : ~ forall fuel g b b' c x r s X X' s2 s2', wfRules g -> wfRule (RConcat b [ROption c x; r]) ->
  eval fuel g (RConcat b [ROption c x; r]) s SUGGEST_SKIP = Ok (X, s2) -> eval fuel g (RConcat b [ROption c (RGroup b' x); r]) s SUGGEST_SKIP = Ok (X', s2') ->
  (r_node X = None <-> r_node X' = None).
Proof.
  intros H. set (x := RChoice noBase [[RChar noBase 120 false; RChar noBase 120 false]]). set (r := RChar noBase 120 false).
  destruct (eval 9 [] (RConcat noBase [ROption noBase x; r]) (newStream (rs "x")) SUGGEST_SKIP) as [[X s2]| |] eqn:E; [|vm_compute in E; discriminate..].
  destruct (eval 9 [] (RConcat noBase [ROption noBase (RGroup noBase x); r]) (newStream (rs "x")) SUGGEST_SKIP) as [[X' s2']| |] eqn:E'; [|vm_compute in E'; discriminate..].
  assert (W : wfRule (RConcat noBase [ROption noBase x; r])) by (apply okRule_ok; vm_compute; reflexivity).
  destruct (H 9%nat [] _ _ _ _ _ _ _ _ _ _ (okRules_ok [] eq_refl) W E E') as (Q & _).
  assert (N : r_node X = None) by (vm_compute in E; injection E as <- <-; reflexivity). apply Q in N. vm_compute in E'. injection E' as <- <-. discriminate.
Qed.
Print Assumptions C76_tie_refuted.
