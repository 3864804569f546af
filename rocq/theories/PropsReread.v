(** C83: the text of a match is matched in the same way. *)
From Verif Require Import Base Stream StreamFacts SpecStream Node Rule Parse Grammar SpecRule SpecNode SpecEval SpecEv SpecDriver WfDec DriverFacts PropsDriver SpecLL SpecLang SpecLayout LayoutDec
  SpecReread RereadFacts.

(** The claim is false: behind ['x'], which is sticky, Text puts a space in front of the group,
    which is not sticky because of ["bc"]; but its ['a'] does not skip it. *)
Definition c83Bad : grammar := Eval vm_compute in grammarOf (rs "s = 'x' ( 'a' ""bc"" )").
Definition c83Run (g : grammar) (t : list Z) : option (list Z * list Z) :=
  match evalRule 40 g (rs "s") t with
  | Ok res => match r_node res with Some n => Some (text n, r_unused res) | None => None end
  | _ => None
  end.
Theorem C83_reread_refuted : ~ forall fuel g name t res n fuel' res', wfRules (rules_of g) -> runesOk t ->
  evalRule fuel g name t = Ok res -> r_node res = Some n -> usesAll res t -> evalRule fuel' g name (text n) = Ok res' -> r_node res' <> None.
Proof.
  intros H. destruct (evalRule 40 c83Bad (rs "s") (rs "xabc")) as [res| |] eqn:E; [|vm_compute in E; discriminate..].
  destruct (r_node res) as [n|] eqn:N; [|vm_compute in E; injection E as <-; discriminate].
  assert (T : text n = rs "x a bc") by (vm_compute in E; injection E as <-; injection N as <-; vm_compute; reflexivity).
  destruct (evalRule 40 c83Bad (rs "s") (rs "x a bc")) as [res'| |] eqn:E'; [|vm_compute in E'; discriminate..].
  apply (H 40%nat c83Bad (rs "s") (rs "xabc") res n 40%nat res'); auto.
  - apply okRules_ok. vm_compute. reflexivity.
  - apply okRunes_ok. vm_compute. reflexivity.
  - split; [congruence|]. vm_compute in E. injection E as <-. split; reflexivity.
  - now rewrite T.
  - vm_compute in E'. injection E' as <-. reflexivity.
Qed.
Print Assumptions C83_reread_refuted.
(** The escapes of a block are not in its text either. *)
Definition c83Esc : grammar := Eval vm_compute in grammarOf (rs "s = <""("" '\\' "")""> EOF").
Example C83_escape : c83Run c83Esc (rs "(a\)b)") = Some (rs "(a)b)", []) /\ c83Run c83Esc (rs "(a)b)") = None.
Proof. vm_compute. split; reflexivity. Qed.

(** What is missing: texts without white space in a place where Text has a separator, escapes,
    white space in terminals, and the look-ahead of C14.  Otherwise Text is matched, to its end,
    with the same tree (but for the layout of block contents). *)
Theorem C83_reread_partial : forall W, (forall x, In x W -> isWS x = true) -> In 32 W -> forall g, layoutFreeRules W [] (rules_of g) -> wfRules (rules_of g) ->
  forall name r t res n fuel, lookup (rules_of g) name = Some r -> runesOk t -> careful (rules_of g) r SUGGEST_SKIP t -> evalRule fuel g name t = Ok res ->
  r_node res = Some n -> usesAll res t -> laidOut W n t -> careful (rules_of g) r SUGGEST_SKIP (text n) ->
  exists fuel' res' n', evalRule fuel' g name (text n) = Ok res' /\ usesAll res' (text n) /\ r_node res' = Some n' /\ sameTree W (erase n) (erase n').
Proof. exact reread. Qed.
Print Assumptions C83_reread_partial.

(** An assignment with a block, laid out freely; its text has one space in each place. *)
Definition c83W : list Z := [9; 10; 13; 32].
Definition c83G : grammar := Eval vm_compute in grammarOf (rs "s = {'a'-'z'}<1> ""="" ( {'0'-'9'}<1> | <'""' '""'> ) "";""").
Definition c83T : list Z := Eval vm_compute in rs "ab  =" ++ [10; 9] ++ rs """x  y""" ++ [13] ++ rs ";".
Definition c83R : rule := Eval vm_compute in match lookup (rules_of c83G) (rs "s") with Some r => r | None => REOF noBase end.
Definition c83Res : result := Eval vm_compute in match evalRule 40 c83G (rs "s") c83T with Ok res => res | _ => mkRes None None 0 [] [] false end.
Definition c83N : node := Eval vm_compute in match r_node c83Res with Some n => n | None => textNode [] end.
Lemma c83_last n pre c t gap t' T : n_chars n = [] -> n_kids n = pre ++ [c] -> laidOut c83W (set_kids n pre) t -> laidOut c83W c t' ->
  (spaced n pre c /\ run c83W gap) \/ (~ spaced n pre c /\ gap = []) -> T = t ++ gap ++ t' -> laidOut c83W n T.
Proof. intros. subst T. eapply lay_more; eauto. Qed.
Ltac c83_off := vm_compute; intuition discriminate.
Ltac c83_spaced := left; split; [split; [discriminate|]; split; [c83_off|]; split; [c83_off|]; split; [c83_off|]; split; [c83_off|];
  intros [_ X]; vm_compute in X; discriminate X|split; [discriminate|]; apply Forall_forall; intros x X; vm_compute in X |- *; tauto].
Example C83_laid : laidOut c83W c83N c83T.
Proof.
  assert (W32 : In 32 c83W) by (vm_compute; auto).
  eapply (c83_last _ (firstn 3 (n_kids c83N)) (nth 3 (n_kids c83N) c83N) _ [13]); [reflexivity|reflexivity| |apply laid_text, W32|c83_spaced|].
  { eapply (c83_last _ (firstn 2 (n_kids c83N)) (nth 2 (n_kids c83N) c83N) _ [10; 9]); [reflexivity|reflexivity| |apply laid_text, W32|c83_spaced|reflexivity].
    eapply (c83_last _ (firstn 1 (n_kids c83N)) (nth 1 (n_kids c83N) c83N) _ [32; 32]); [reflexivity|reflexivity|apply laid_text, W32|apply laid_text, W32|c83_spaced|reflexivity]. }
  vm_compute. reflexivity.
Qed.
Example C83_example : (forall x, In x c83W -> isWS x = true) /\ layoutFreeRules c83W [] (rules_of c83G) /\ wfRules (rules_of c83G) /\ lookup (rules_of c83G) (rs "s") = Some c83R /\ runesOk c83T /\
  careful (rules_of c83G) c83R SUGGEST_SKIP c83T /\ evalRule 40 c83G (rs "s") c83T = Ok c83Res /\ r_node c83Res = Some c83N /\ usesAll c83Res c83T /\
  text c83N = rs "ab = ""x  y"" ;" /\ careful (rules_of c83G) c83R SUGGEST_SKIP (text c83N).
Proof.
  split; [intros x [<-|[<-|[<-|[<-|[]]]]]; reflexivity|]. split; [apply okFreeRules_ok; vm_compute; reflexivity|]. split; [apply okRules_ok; vm_compute; reflexivity|].
  split; [vm_compute; reflexivity|]. split; [apply okRunes_ok; vm_compute; reflexivity|]. split; [apply (isCareful_ok 60); vm_compute; reflexivity|]. split; [vm_compute; reflexivity|].
  split; [reflexivity|]. split; [split; [discriminate|split; reflexivity]|]. split; [vm_compute; reflexivity|]. apply (isCareful_ok 60). vm_compute. reflexivity.
Qed.
