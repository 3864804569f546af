(** C78, C79: what an evaluation has looked at decides its answer. *)
From Verif Require Import Base Stream StreamFacts SpecStream Node Rule Parse Grammar PropsDriver SpecRule WfDec SpecEval SpecDriver DriverFacts LookRule.

(* ---------------- C78 ---------------- *)

(** Texts that agree up to and including the rune behind the last one taken give the same
    result: tree, positions, error, CharsRead, CharsUnused, and the same line table. *)
Theorem C78_looks : forall fuel g r f t res s', eval fuel g r (newStream t) f = Ok (res, s') ->
  forall t', firstn (S (cs_cur (sbase s'))) t' = firstn (S (cs_cur (sbase s'))) t ->
  exists s'', eval fuel g r (newStream t') f = Ok (res, s'') /\ cs_cur (sbase s'') = cs_cur (sbase s') /\ cs_lines (sbase s'') = cs_lines (sbase s').
Proof. exact eval_looks. Qed.
Print Assumptions C78_looks.
(** Hence, if the text has not been taken to its end, anything may be appended. *)
Theorem C78_append : forall fuel g r f t res s', eval fuel g r (newStream t) f = Ok (res, s') -> (cs_cur (sbase s') < length t)%nat ->
  forall x, exists s'', eval fuel g r (newStream (t ++ x)) f = Ok (res, s'') /\ cs_cur (sbase s'') = cs_cur (sbase s').
Proof. exact eval_append. Qed.
Print Assumptions C78_append.

(** [s = { 'a' }<1> ( 'b' | 'bc' ) [ 'd' ]] on [aabcx yz] looks at five of eight runes; the
    fifth, the first one not taken, does count. *)
Definition c78G : grammar := Eval vm_compute in grammarOf (rs "s = {'a'}<1> ( 'b' | 'bc' ) [ 'd' ]").
Definition c78R : rule := Eval vm_compute in match lookup (rules_of c78G) (rs "s") with Some r => r | None => REOF noBase end.
Definition c78Run (t : list Z) : option (option (list Z) * nat) := match eval 20 (rules_of c78G) c78R (newStream t) SUGGEST_SKIP with
  | Ok (res, s') => Some (option_map text (r_node res), cs_cur (sbase s'))
  | _ => None
  end.
Example C78_example : c78R <> REOF noBase /\ c78Run (rs "aabcx yz") = Some (Some (rs "aabc"), 4%nat) /\
  firstn 5 (rs "aabcx(*") = firstn 5 (rs "aabcx yz") /\ c78Run (rs "aabcx(*") = Some (Some (rs "aabc"), 4%nat) /\
  firstn 4 (rs "aabcd yz") = firstn 4 (rs "aabcx yz") /\ c78Run (rs "aabcd yz") = Some (Some (rs "aabcd"), 5%nat).
Proof. split; [discriminate|]. vm_compute. repeat split. Qed.

(* ---------------- C79 ---------------- *)

(** For EvalRule the same with what it reports as read.  Missing: the uses of look-ahead after
    which CharsRead is not what was read (see C14); there the claim is false, see below. *)
Theorem C79_reported_partial : forall fuel g name r t res, wfRules (rules_of g) -> lookup (rules_of g) name = Some r -> runesOk t ->
  careful (rules_of g) r SUGGEST_SKIP t -> evalRule fuel g name t = Ok res ->
  forall t', firstn (S (length (r_read res))) t' = firstn (S (length (r_read res))) t -> evalRule fuel g name t' = Ok res.
Proof. exact rule_looks. Qed.
Print Assumptions C79_reported_partial.
Example C79_example : wfRules (rules_of c78G) /\ lookup (rules_of c78G) (rs "s") = Some c78R /\ runesOk (rs "aabcx yz") /\
  careful (rules_of c78G) c78R SUGGEST_SKIP (rs "aabcx yz") /\
  match evalRule 20 c78G (rs "s") (rs "aabcx yz") with Ok res => r_read res = rs "aabc" /\ r_node res <> None | _ => False end.
Proof.
  split; [apply okRules_ok; vm_compute; reflexivity|]. split; [vm_compute; reflexivity|]. split; [apply okRunes_ok; vm_compute; reflexivity|].
  split; [apply (isCareful_ok 60); vm_compute; reflexivity|]. vm_compute. split; [reflexivity|discriminate].
Qed.

(** [r = <'(' ^'x' ^'x' ')'>] on [(xyxy)]: the two excludes tie, what they read is not reported.
    EvalRule says it read [(yy)], but six runes were decisive. *)
Definition c79G : grammar := Eval vm_compute in grammarOf (rs "r = <'(' ^'x' ^'x' ')'>").
Theorem C79_reported_refuted : ~ forall fuel g name r t res, wfRules (rules_of g) -> lookup (rules_of g) name = Some r -> runesOk t ->
  evalRule fuel g name t = Ok res ->
  forall t', firstn (S (length (r_read res))) t' = firstn (S (length (r_read res))) t -> evalRule fuel g name t' = Ok res.
Proof.
  intros H. destruct (lookup (rules_of c79G) (rs "r")) as [r|] eqn:L; [|vm_compute in L; discriminate].
  assert (X : match evalRule 20 c79G (rs "r") (rs "(xyxy)"), evalRule 20 c79G (rs "r") (rs "(xyxya") with
    | Ok a, Ok b => r_node a <> None /\ r_node b = None /\ firstn (S (length (r_read a))) (rs "(xyxya") = firstn (S (length (r_read a))) (rs "(xyxy)") | _, _ => False end)
    by (vm_compute; split; [discriminate|auto]).
  destruct (evalRule 20 c79G (rs "r") (rs "(xyxy)")) as [a| |] eqn:E; [|exact X..].
  destruct (evalRule 20 c79G (rs "r") (rs "(xyxya")) as [b| |] eqn:E2; [|exact X..].
  destruct X as (N & N2 & F).
  rewrite (H 20%nat c79G (rs "r") r (rs "(xyxy)") a) in E2.
  - injection E2 as ->. exact (N N2).
  - apply okRules_ok. vm_compute. reflexivity.
  - exact L.
  - apply okRunes_ok. vm_compute. reflexivity.
  - exact E.
  - exact F.
Qed.
Print Assumptions C79_reported_refuted.
