(** C60: the listing of a grammar. *)
From Coq Require Import Permutation Sorted.
From Verif Require Import Base Stream Node Rule SpecStream SpecRule Parse Grammar Print SpecParse SpecGrammar GrammarFacts GrammarText HistoryFacts Show SpecShow SpecSerial SerialFacts WfDec PropsDriver.

(* ---------------- C60 ---------------- *)

(** Serialize of a grammar read from a text: whatever order the maps deliver, it names
    the rules nobody refers to, lists the users of every other rule, one for every
    reference, and then all rules in the order of their lines, in one column, "[T]" after
    exactly the rules that refer to no rule. *)
Theorem C60_listing : forall detail txt g recs recs2, runesOk txt -> newGrammarFromString txt = inl g ->
  Permutation recs (g_records g) -> Permutation recs2 (g_records g) ->
  exists marked, (forall n, marked n = true <-> exists r, getRule g n = Some r /\ refs r = []) /\ isListing detail g marked (serialize detail g recs recs2).
Proof. exact fromString_listing. Qed.
Print Assumptions C60_listing.
(** The same after a history of calls in which no rule was refused; here "[T]" stands
    after the rules that referred to no rule and were there at a successful Validate. *)
Theorem C60_history_listing : forall detail calls recs recs2, decoded calls -> addsSucceed calls ->
  Permutation recs (g_records (history calls)) -> Permutation recs2 (g_records (history calls)) ->
  exists marked,
    (forall n, marked n = true <-> exists before after r, calls = before ++ Validate :: after /\ succeeds (history before) Validate /\
      getRule (history before) n = Some r /\ refs r = []) /\
    isListing detail (history calls) marked (serialize detail (history calls) recs recs2).
Proof. exact history_listing. Qed.
Print Assumptions C60_history_listing.
(** The part with the rules is right after every history. *)
Theorem C60_rules : forall detail calls recs, decoded calls -> Permutation recs (g_records (history calls)) ->
  exists marked w lines, inOrder (g_records (history calls)) /\ Forall2 (listed detail marked w) (g_records (history calls)) lines /\
    rulesText detail (g_terminals (history calls)) recs = concat lines.
Proof. exact history_rules. Qed.
Print Assumptions C60_rules.
(** The loop that prints the rules does not depend on the order of the map. *)
Theorem C60_rules_any_order : forall detail calls recs recs' recs2, decoded calls ->
  Permutation recs (g_records (history calls)) -> Permutation recs' (g_records (history calls)) ->
  serialize detail (history calls) recs recs2 = serialize detail (history calls) recs' recs2.
Proof. intros detail calls recs recs' recs2 D. exact (serialize_any_rules detail _ recs recs' recs2 (ginv_history calls D)). Qed.
Print Assumptions C60_rules_any_order.

(** StringRuleRelation walks over the map itself, so the output as a whole is not
    determined by the grammar. *)
Theorem C60_determined_refuted : ~ (forall detail txt g recs2 recs2', runesOk txt -> newGrammarFromString txt = inl g ->
  Permutation recs2 (g_records g) -> Permutation recs2' (g_records g) -> serialize detail g (g_records g) recs2 = serialize detail g (g_records g) recs2').
Proof.
  intros H. set (src := rs "a = 'x'" ++ [10] ++ rs "b = 'y'").
  assert (C : runesOk src) by (apply okRunes_ok; vm_compute; reflexivity).
  assert (E : newGrammarFromString src = inl (grammarOf src)) by (vm_compute; reflexivity).
  specialize (H false src _ (g_records (grammarOf src)) (rev (g_records (grammarOf src))) C E (Permutation_refl _) (Permutation_sym (Permutation_rev _))).
  revert H. vm_compute. discriminate.
Qed.
Print Assumptions C60_determined_refuted.
(** A definition that was refused leaves its references behind: the rule that later takes
    the name is not marked although it refers to nothing. *)
Theorem C60_marks_refuted : ~ (forall calls n r, decoded calls -> getRule (history (calls ++ [Validate])) n = Some r -> succeeds (history calls) Validate ->
  refs r = [] -> hasKey n (g_terminals (history (calls ++ [Validate]))) = true).
Proof.
  intros H. set (calls := [AddRule (rs "a = b ("); AddRule (rs "b = 'y'"); AddRule (rs "a = 'x'")]).
  assert (D : decoded calls) by (repeat constructor; cbn; lia).
  assert (G : match getRule (history (calls ++ [Validate])) (rs "a") with Some r => refs r = [] | None => False end) by (vm_compute; reflexivity).
  destruct (getRule (history (calls ++ [Validate])) (rs "a")) as [r|] eqn:E; [|exact G].
  specialize (H calls (rs "a") r D E eq_refl G). revert H. vm_compute. discriminate.
Qed.
Print Assumptions C60_marks_refuted.

Definition c60Src : list Z := rs "s = n | (n list)" ++ [10] ++ rs "n = '0'-'9'" ++ [10] ++ [10] ++ rs "list = ~(',' s)" ++ [10] ++ rs "t = n n".
Example C60_example :
  serialize false (grammarOf c60Src) (rev (g_records (grammarOf c60Src))) (g_records (grammarOf c60Src)) =
  rs "Root Rules: t," ++ [10] ++ rs "Rule Reference Map: " ++ [10]
  ++ rs "    s       : list," ++ [10]
  ++ rs "    n       : s,s,t,t," ++ [10]
  ++ rs "    list    : s," ++ [10]
  ++ rs "Rules:" ++ [10]
  ++ rs "    L0001: s        = n | ( n list )" ++ [10]
  ++ rs "    L0002: n[T]     = '0'-'9'" ++ [10]
  ++ rs "    L0004: !list    = ~( ',' s )" ++ [10]
  ++ rs "    L0005: t        = n n" ++ [10] ++ rs "    ".
Proof. vm_compute. reflexivity. Qed.
