(** C81: the order of the definitions does not matter. *)
From Coq Require Import Permutation.
From Verif Require Import Base Stream StreamFacts SpecStream Node Rule Parse Grammar SpecRule SpecParse SpecGrammar GrammarText GrammarFacts SpecDriver WfDec DriverFacts PropsDriver SpecOrder OrderFacts.

(** Two texts with the same definitions, in any order and between any empty lines and comments,
    are both accepted or both refused. *)
Theorem C81_accepted : forall t ls d t' ls' d', runesOk t -> runesOk t' -> linesOf t ls -> linesOf t' ls' -> says ls d -> says ls' d' -> Permutation d d' ->
  (exists g, newGrammarFromString t = inl g) <-> exists g', newGrammarFromString t' = inl g'.
Proof. exact order_accepted. Qed.
Print Assumptions C81_accepted.
(** Exactly when: the names are good and different, the bodies can be read, and every name in a
    body is defined. *)
Theorem C81_when : forall txt ls d, runesOk txt -> linesOf txt ls -> says ls d ->
  (exists g, newGrammarFromString txt = inl g) <->
  (NoDup (List.map fst d) /\ (forall n b, In (n, b) d -> goodName n /\ ~ unreadable n b)) /\
  forall m n b r, In (n, b) d -> readAs n b r -> In m (refs r) -> exists b', In (m, b') d.
Proof. exact says_accepted. Qed.
Print Assumptions C81_when.
(** The rules and the root rules are the same. *)
Theorem C81_rules : forall t ls d t' ls' d' g g', runesOk t -> runesOk t' -> linesOf t ls -> linesOf t' ls' -> says ls d -> says ls' d' -> Permutation d d' ->
  newGrammarFromString t = inl g -> newGrammarFromString t' = inl g' -> sameRules g g'.
Proof. exact order_rules. Qed.
Print Assumptions C81_rules.
(** The answers are the same: trees, positions, errors; for Eval under every iteration order of
    the maps, and the two grammars have the same iteration orders. *)
Theorem C81_answers : forall t ls d t' ls' d' g g', runesOk t -> runesOk t' -> linesOf t ls -> linesOf t' ls' -> says ls d -> says ls' d' -> Permutation d d' ->
  newGrammarFromString t = inl g -> newGrammarFromString t' = inl g' ->
  (forall fuel name sample, evalRule fuel g name sample = evalRule fuel g' name sample) /\
  (forall lf fuel name sample, evalEmbed lf fuel g name sample = evalEmbed lf fuel g' name sample) /\
  (forall o, legal (rootsOf g) o <-> legal (rootsOf g') o) /\
  forall o, legal (rootsOf g) o -> forall lf fuel s level, evalTop lf fuel (rules_of g) o s level = evalTop lf fuel (rules_of g') o s level.
Proof. exact order_answers. Qed.
Print Assumptions C81_answers.
(** The same for any two complete grammars with the same rules, however they were built. *)
Theorem C81_same_rules : forall g g', closedGrammar g -> (forall n r, In (n, r) (rootsOf g) -> getRule g n = Some r) -> sameRules g g' ->
  (forall fuel name sample, evalRule fuel g name sample = evalRule fuel g' name sample) /\
  (forall lf fuel name sample, evalEmbed lf fuel g name sample = evalEmbed lf fuel g' name sample) /\
  (forall o, legal (rootsOf g) o <-> legal (rootsOf g') o) /\
  forall o, legal (rootsOf g) o -> forall lf fuel s level, evalTop lf fuel (rules_of g) o s level = evalTop lf fuel (rules_of g') o s level.
Proof. exact same_answers. Qed.
Print Assumptions C81_same_rules.

(** Three definitions forwards, and backwards with a comment, empty lines and other spaces. *)
Definition c81T : list Z := rs "num = {'0'-'9'}<1>
sum = num { '+' num }
top = sum EOF".
Definition c81T' : list Z := rs "// the same
  top =sum EOF

sum=num { '+' num } 
num   =   {'0'-'9'}<1>
".
Definition c81G : grammar := Eval vm_compute in grammarOf c81T.
Definition c81G' : grammar := Eval vm_compute in grammarOf c81T'.
Definition c81D : list (list Z * list Z) := Eval vm_compute in [(rs "num", rs "{'0'-'9'}<1>"); (rs "sum", rs "num { '+' num }"); (rs "top", rs "sum EOF")].
Lemma c81_define ln name body ls d a b : negb (nonempty (trim ln)) || isComment (trim ln) = false -> splitEq (trim ln) = Some (a, b) -> trim a = name -> trim b = body ->
  says ls d -> says (ln :: ls) ((name, body) :: d).
Proof. intros N E A B S. apply says_define; [rewrite inert_iff; congruence| |exact S]. apply defines_iff. eauto. Qed.
Lemma c81_inert ln ls d : negb (nonempty (trim ln)) || isComment (trim ln) = true -> says ls d -> says (ln :: ls) d.
Proof. intros N S. apply says_inert; [now apply inert_iff|exact S]. Qed.
Definition c81L : list (list Z) := Eval vm_compute in splitLines c81T.
Definition c81L' : list (list Z) := Eval vm_compute in splitLines c81T'.
Definition c81D' : list (list Z * list Z) := Eval vm_compute in rev c81D.
Example C81_example : newGrammarFromString c81T = inl c81G /\ newGrammarFromString c81T' = inl c81G' /\ c81G <> c81G' /\
  linesOf c81T c81L /\ linesOf c81T' c81L' /\ says c81L c81D /\ says c81L' c81D' /\ Permutation c81D c81D'.
Proof.
  split; [vm_compute; reflexivity|]. split; [vm_compute; reflexivity|]. split; [intros X; revert X; vm_compute; discriminate|].
  split; [assert (E : c81L = splitLines c81T) by (vm_compute; reflexivity); rewrite E; apply splitLines_lines|].
  split; [assert (E : c81L' = splitLines c81T') by (vm_compute; reflexivity); rewrite E; apply splitLines_lines|]. split; [|split].
  - unfold c81L, c81D. do 3 (eapply c81_define; [vm_compute; reflexivity ..|]). apply says_nil.
  - unfold c81L', c81D'. apply c81_inert; [vm_compute; reflexivity|]. eapply c81_define; [vm_compute; reflexivity ..|]. apply c81_inert; [vm_compute; reflexivity|].
    do 2 (eapply c81_define; [vm_compute; reflexivity ..|]). apply c81_inert; [vm_compute; reflexivity|]. apply says_nil.
  - assert (E : c81D' = rev c81D) by (vm_compute; reflexivity). rewrite E. apply Permutation_rev.
Qed.
(** The answers include one with an error. *)
Example C81_instance : exists res, evalRule 40 c81G (rs "top") (rs "1 + 23 -") = Ok res /\ evalRule 40 c81G' (rs "top") (rs "1 + 23 -") = Ok res /\ r_err res <> None.
Proof. eexists. split; [vm_compute; reflexivity|]. split; [vm_compute; reflexivity|]. discriminate. Qed.
