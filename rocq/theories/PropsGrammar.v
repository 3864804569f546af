(** C39-C43, and C11 for grammars that were read from text: definitions,
    validation and roots. *)
From Verif Require Import Base Stream Node Rule Parse Grammar SpecStream SpecRule TermFacts WfDec SpecParse SpecGrammar GrammarFacts GrammarText HistoryFacts
  SpecDriver DriverFacts PropsEval PropsDriver.

(** A text with a comment, an empty line and three definitions. *)
Definition exText : list Z := rs "// sums
num = {'0'-'9'}<1>

sum = num { '+' num } // as usual
 top = sum EOF".
Definition exLines : list (list Z) := Eval vm_compute in splitLines exText.
Definition exGrammar : grammar := Eval vm_compute in grammarOf exText.
Example exText_ok : okRunes exText = true /\ newGrammarFromString exText = inl exGrammar.
Proof. split; vm_compute; reflexivity. Qed.
Example exText_lines : linesOf exText exLines.
Proof. assert (E : exLines = splitLines exText) by (vm_compute; reflexivity). rewrite E. apply splitLines_lines. Qed.

(* ---------------- C39 ---------------- *)

Theorem C39_closed : forall txt g, runesOk txt -> newGrammarFromString txt = inl g -> closedGrammar g.
Proof. exact fromString_closed. Qed.
Print Assumptions C39_closed.
Theorem C39_undefined_fails : forall txt ls m g, runesOk txt -> linesOf txt ls -> mentioned ls m -> ~ defined ls m -> newGrammarFromString txt <> inl g.
Proof. exact fromString_missing. Qed.
Print Assumptions C39_undefined_fails.
(** Evaluation never meets an undefined rule. *)
Theorem C39_never_undefined : forall txt g fuel n r sample res, runesOk txt -> newGrammarFromString txt = inl g -> getRule g n = Some r ->
  evalRule fuel g n sample = Ok res -> ~ blamesUndefined res.
Proof. exact evalRule_spared. Qed.
Print Assumptions C39_never_undefined.

(** The error of an undefined rule does occur in grammars that were not validated. *)
Example C39_example :
  (exists r, getRule exGrammar (rs "top") = Some r /\ refs r = [rs "sum"]) /\
  newGrammarFromString (rs "a = 'x' b") = inr (0, GUndefined) /\
  match evalRule 20 (history [AddRule (rs "a = 'x' b")]) (rs "a") (rs "xy") with Ok res => blamesUndefined res | _ => False end.
Proof.
  split; [eexists; split; vm_compute; reflexivity|]. split; [vm_compute; reflexivity|]. vm_compute. eexists. split; [reflexivity|exact I].
Qed.

(* ---------------- C40 ---------------- *)

Theorem C40_one_line_per_name : forall txt ls g, runesOk txt -> linesOf txt ls -> newGrammarFromString txt = inl g ->
  (forall j k n b b', line ls j n b -> line ls k n b' -> j = k) /\ (forall k n b, line ls k n b -> goodName n).
Proof. exact fromString_unique. Qed.
Print Assumptions C40_one_line_per_name.
Theorem C40_unique_in_history : forall calls, decoded calls ->
  NoDup (List.map fst (g_records (history calls))) /\ forall n r, getRule (history calls) n = Some r -> goodName n.
Proof. exact names_history. Qed.
Print Assumptions C40_unique_in_history.
Theorem C40_invalid_rejected : forall g name str, ~ goodName name -> parseRule g name str = (inr GName, g).
Proof. exact invalid_name. Qed.
Print Assumptions C40_invalid_rejected.
Theorem C40_duplicate_rejected : forall g name str rec, goodName name -> getRecord g name = Some rec -> parseRule g name str = (inr GDuplicate, g).
Proof. exact duplicate_name. Qed.
Print Assumptions C40_duplicate_rejected.
Theorem C40_invalid_definition_rejected : forall g def a b, def = a ++ 61 :: b -> ~ In 61 a -> ~ goodName (trim a) -> addRule g def = (inr GName, g).
Proof. exact invalid_add. Qed.
Print Assumptions C40_invalid_definition_rejected.
Theorem C40_duplicate_definition_rejected : forall g def a b rec, def = a ++ 61 :: b -> ~ In 61 a -> goodName (trim a) -> getRecord g (trim a) = Some rec ->
  addRule g def = (inr GDuplicate, g).
Proof. exact duplicate_add. Qed.
Print Assumptions C40_duplicate_definition_rejected.
(** Whatever happens later, a definition stays. *)
Theorem C40_definitions_stay : forall before later n rec, getRecord (history before) n = Some rec -> getRecord (history (before ++ later)) n = Some rec.
Proof. exact history_keeps. Qed.
Print Assumptions C40_definitions_stay.

Example C40_example :
  fst (addRule exGrammar (rs "num = 'x'")) = inr GDuplicate /\ fst (addRule exGrammar (rs "2x = 'x'")) = inr GName /\ fst (addRule exGrammar (rs "_x = 'x'")) = inr GName /\
  newGrammarFromString (rs "a = 'x'
b = 'y'
a = 'z'") = inr (3, GDuplicate).
Proof. repeat split; vm_compute; reflexivity. Qed.

(* ---------------- C41 ---------------- *)

(** A rule that was a root once stays one. *)
Theorem C41_roots_refuted :
  ~ forall calls, decoded calls -> addsSucceed calls -> succeeds (history calls) Validate ->
      forall n, isRoot (history (calls ++ [Validate])) n <-> topmost (history (calls ++ [Validate])) n.
Proof.
  intros H. set (calls := [AddRule (rs "a = 'x'"); Validate; AddRule (rs "b = a")]).
  assert (A : addsSucceed calls).
  { intros b c x E N. destruct b as [|c1 [|c2 [|c3 b]]]; cbn in E; injection E as E1; subst; [eexists; vm_compute; reflexivity|congruence|eexists; vm_compute; reflexivity|].
    destruct b; discriminate. }
  assert (D : decoded calls) by (constructor; [exact (okRunes_ok (rs "a = 'x'") eq_refl)|constructor; [exact (okRunes_ok [] eq_refl)|constructor; [exact (okRunes_ok (rs "b = a") eq_refl)|constructor]]]).
  destruct (proj1 (H calls D A ltac:(vm_compute; reflexivity) (rs "a"))) as [_ T]; [vm_compute; auto|].
  apply T. exists (rs "b"). eexists. split; [vm_compute; reflexivity|]. vm_compute. auto.
Qed.
Print Assumptions C41_roots_refuted.

(** The exact rule, when no definition failed: the roots are the rules that
    were topmost at some validation that succeeded. *)
Theorem C41_roots_partial : forall calls, decoded calls -> addsSucceed calls -> forall n,
  isRoot (history calls) n <-> exists before after, calls = before ++ Validate :: after /\ succeeds (history before) Validate /\ topmost (history before) n.
Proof. exact roots_history. Qed.
Print Assumptions C41_roots_partial.
(** So with one validation at the end the claim holds ... *)
Theorem C41_one_validation : forall calls, decoded calls -> addsSucceed calls -> ~ In Validate calls -> succeeds (history calls) Validate ->
  forall n, isRoot (history (calls ++ [Validate])) n <-> topmost (history (calls ++ [Validate])) n.
Proof. exact roots_first. Qed.
Print Assumptions C41_one_validation.
(** ... and no topmost rule is ever missing. *)
Theorem C41_no_root_missing_partial : forall calls, decoded calls -> addsSucceed calls -> succeeds (history calls) Validate -> forall n,
  topmost (history (calls ++ [Validate])) n -> isRoot (history (calls ++ [Validate])) n.
Proof. exact roots_above. Qed.
Print Assumptions C41_no_root_missing_partial.
Theorem C41_grammar_text : forall txt g, runesOk txt -> newGrammarFromString txt = inl g -> forall n, isRoot g n <-> topmost g n.
Proof. exact fromString_roots. Qed.
Print Assumptions C41_grammar_text.
Theorem C41_roots_are_rules : forall calls, decoded calls -> forall n r, In (n, r) (rootsOf (history calls)) -> getRule (history calls) n = Some r.
Proof. exact root_defined. Qed.
Print Assumptions C41_roots_are_rules.

Example C41_example : List.map fst (g_roots exGrammar) = [rs "top"]. Proof. vm_compute. reflexivity. Qed.

(* ---------------- C42 ---------------- *)

(** The references of a rejected definition stay behind: a later validation
    fails although the grammar is closed. *)
Theorem C42_unchanged_refuted :
  ~ forall calls def e g', decoded calls -> runesOk def -> addRule (history calls) def = (inr e, g') -> fst (validate g') = fst (validate (history calls)).
Proof.
  intros H. set (calls := [AddRule (rs "a = 'x'")]).
  assert (D : decoded calls) by (repeat (constructor; [exact (okRunes_ok (rs "a = 'x'") eq_refl)|]); constructor).
  destruct (addRule (history calls) (rs "b = c |")) as [res g'] eqn:E. assert (X : res = inr GParse) by (change res with (fst (res, g')); rewrite <- E; vm_compute; reflexivity). subst res.
  specialize (H calls _ _ _ D (okRunes_ok (rs "b = c |") eq_refl) E). assert (G : g' = snd (addRule (history calls) (rs "b = c |"))) by now rewrite E.
  rewrite G in H. revert H. vm_compute. discriminate.
Qed.
Print Assumptions C42_unchanged_refuted.
(** It can hide a root as well. *)
Example C42_hidden_root :
  List.map fst (g_roots (history [AddRule (rs "a = 'x'"); AddRule (rs "b = a |"); Validate])) = [] /\
  List.map fst (g_roots (history [AddRule (rs "a = 'x'"); Validate])) = [rs "a"].
Proof. split; vm_compute; reflexivity. Qed.

(** What is missing: validations after a definition that could not be read.
    Evaluation and further definitions do not notice a rejected definition ... *)
Theorem C42_unchanged_partial : forall g def e g' later, addRule g def = (inr e, g') -> ~ In Validate later ->
  (forall def', fst (addRule (fold_left perform later g) def') = fst (addRule (fold_left perform later g') def')) /\
  sameGrammar (fold_left perform later g) (fold_left perform later g').
Proof. exact failed_later. Qed.
Print Assumptions C42_unchanged_partial.
(** ... and nothing at all is left behind unless the definition text itself could
    not be read. *)
Theorem C42_other_errors : forall g def e g', addRule g def = (inr e, g') -> e <> GParse -> g' = g.
Proof. exact add_failed_exact. Qed.
Print Assumptions C42_other_errors.
Theorem C42_failed_validation : forall g e g', validate g = (Some e, g') -> g' = g.
Proof. exact validate_failed. Qed.
Print Assumptions C42_failed_validation.

Example C42_example : exists g', addRule exGrammar (rs "b = c |") = (inr GParse, g') /\ g' <> exGrammar /\ sameGrammar exGrammar g'.
Proof. eexists. split; [vm_compute; reflexivity|]. split; [discriminate|]. repeat split. Qed.

(* ---------------- C43 ---------------- *)

(** The records of an accepted text: exactly the definitions in its lines, read
    as they stand there, each with its line number. *)
Theorem C43_records : forall txt ls g, runesOk txt -> linesOf txt ls -> newGrammarFromString txt = inl g ->
  forall n rec, getRecord g n = Some rec <-> exists k body, line ls k n body /\ readAs n body (rec_rule rec) /\ rec_line rec = Z.of_nat k + 1.
Proof. exact fromString_rules. Qed.
Print Assumptions C43_records.
Example C43_example : List.map (fun kr => (fst kr, rec_line (snd kr))) (g_records exGrammar) = [(rs "num", 2); (rs "sum", 4); (rs "top", 5)].
Proof. vm_compute. reflexivity. Qed.

(* ---------------- C50: the verdict on a grammar text ---------------- *)

Theorem C50_accepted : forall txt ls, runesOk txt -> linesOf txt ls ->
  ((exists g, newGrammarFromString txt = inl g) <-> (forall k e, ~ badLine ls k e) /\ forall m, mentioned ls m -> defined ls m).
Proof. exact fromString_ok. Qed.
Print Assumptions C50_accepted.
Theorem C50_error_line : forall txt ls k e, runesOk txt -> linesOf txt ls -> (newGrammarFromString txt = inr (Z.of_nat k + 1, e) <-> firstBad ls k e).
Proof. exact fromString_line. Qed.
Print Assumptions C50_error_line.
Theorem C50_undefined : forall txt ls, runesOk txt -> linesOf txt ls ->
  (newGrammarFromString txt = inr (0, GUndefined) <-> (forall k e, ~ badLine ls k e) /\ exists m, mentioned ls m /\ ~ defined ls m).
Proof. exact fromString_undefined. Qed.
Print Assumptions C50_undefined.
Example C50_example : newGrammarFromString (rs "a = 'x'

// next
b = 'x' |
oops") = inr (4, GParse) /\ newGrammarFromString (rs "a = 'x'
oops") = inr (2, GNoEq).
Proof. split; vm_compute; reflexivity. Qed.

(* ---------------- C51: later definitions have no effect ---------------- *)

Theorem C51_later_definitions : forall before later n r fuel sample, decoded before -> closedGrammar (history before) -> getRule (history before) n = Some r ->
  evalRule fuel (history before) n sample = evalRule fuel (history (before ++ later)) n sample.
Proof. exact later_irrelevant. Qed.
Print Assumptions C51_later_definitions.
Definition exLeaf : grammar := Eval vm_compute in history [AddRule (rs "b = 'y'")].
(** Not so for rules that were not closed. *)
Example C51_example :
  let before := [AddRule (rs "a = 'x' b")] in
  match evalRule 20 (history before) (rs "a") (rs "xy"), evalRule 20 (history (before ++ [AddRule (rs "b = 'y'")])) (rs "a") (rs "xy") with
  | Ok x, Ok y => r_node x = None /\ r_node y <> None
  | _, _ => False
  end /\
  closedGrammar (history [AddRule (rs "b = 'y'")]) /\ exists r, getRule (history [AddRule (rs "b = 'y'")]) (rs "b") = Some r.
Proof.
  split; [vm_compute; split; [reflexivity|discriminate]|]. assert (E : history [AddRule (rs "b = 'y'")] = exLeaf) by (vm_compute; reflexivity). rewrite E.
  split; [|eexists; vm_compute; reflexivity]. intros m (n & r & G & I). exfalso.
  unfold getRule, getRecord in G. unfold exLeaf in G. cbn [g_records find_rec] in G. destruct (runes_eqb _ _); [|discriminate]. cbn [option_map rec_rule] in G. injection G as <-. vm_compute in I. exact I.
Qed.

(* ---------------- C11: grammars read from text ---------------- *)

Theorem C11_text_never_panics : forall txt g loopFuel fuel name sample, runesOk txt -> runesOk sample -> newGrammarFromString txt = inl g ->
  evalRule fuel g name sample <> Panic /\ (forall x, evalEmbed loopFuel fuel g name sample = Some x -> x <> Panic) /\
  forall o level, legal (rootsOf g) o -> evalTop loopFuel fuel (rules_of g) o (newStream sample) level <> Panic.
Proof. exact text_total. Qed.
Print Assumptions C11_text_never_panics.
Theorem C11_history_never_panics : forall calls loopFuel fuel name sample, decoded calls -> runesOk sample ->
  evalRule fuel (history calls) name sample <> Panic /\ (forall x, evalEmbed loopFuel fuel (history calls) name sample = Some x -> x <> Panic) /\
  forall o level, legal (rootsOf (history calls)) o -> evalTop loopFuel fuel (rules_of (history calls)) o (newStream sample) level <> Panic.
Proof. exact history_total. Qed.
Print Assumptions C11_history_never_panics.
Example C11_text_example : match evalRaw 20 60 (rules_of exGrammar) (storedOrder exGrammar) (newStream (rs "1+23+4")) with
  | Ok (RawOk ns, _) => List.map n_name ns = [rs "top"] | _ => False end.
Proof. vm_compute. reflexivity. Qed.
