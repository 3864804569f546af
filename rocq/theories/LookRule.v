(** What [eval_loco] says about texts. *)
From Verif Require Import Base Stream StreamFacts SpecStream SpecRule Node Rule Grammar SpecEval SpecDriver EvalInv RuleFacts EvalSem DriverFacts LookFacts LookEval.

Lemma firstn_nth_error {A} n (l l' : list A) : firstn n l = firstn n l' -> forall i, (i < n)%nat -> nth_error l i = nth_error l' i.
Proof.
  revert l l'. induction n as [|n IH]; intros l l' E i L; [lia|].
  destruct l as [|x l], l' as [|y l']; try discriminate; [reflexivity|].
  cbn in E. injection E as <- E. destruct i as [|i]; [reflexivity|]. cbn. apply IH; [exact E|lia].
Qed.

Theorem eval_looks fuel g r f t res s1 : eval fuel g r (newStream t) f = Ok (res, s1) ->
  forall t', firstn (S (cs_cur (sbase s1))) t' = firstn (S (cs_cur (sbase s1))) t ->
  exists s1', eval fuel g r (newStream t') f = Ok (res, s1') /\ cs_cur (sbase s1') = cs_cur (sbase s1) /\ cs_lines (sbase s1') = cs_lines (sbase s1).
Proof.
  intros E t' A. destruct (eval_loco fuel g r f (newStream t) res s1 ltac:(unfold fits, at_; cbn; lia) E) as (_ & _ & R).
  destruct (R (S (cs_cur (sbase s1))) (newStream t')) as (s1' & E' & _ & C & LN & _).
  - unfold at_. lia.
  - split; [reflexivity|]. unfold alike. cbn. repeat split; [|lia..]. apply firstn_nth_error. now symmetry.
  - exists s1'. auto.
Qed.

Lemma firstn_app_lt {A} n (t x : list A) : (n <= length t)%nat -> firstn n (t ++ x) = firstn n t.
Proof. intros L. rewrite firstn_app. replace (n - length t)%nat with O by lia. cbn. apply app_nil_r. Qed.

Theorem eval_append fuel g r f t res s1 : eval fuel g r (newStream t) f = Ok (res, s1) ->
  (cs_cur (sbase s1) < length t)%nat ->
  forall x, exists s1', eval fuel g r (newStream (t ++ x)) f = Ok (res, s1') /\ cs_cur (sbase s1') = cs_cur (sbase s1).
Proof.
  intros E L x. destruct (eval_looks fuel g r f t res s1 E (t ++ x)) as (s1' & E' & C & _); [|eauto].
  apply firstn_app_lt. lia.
Qed.

Lemma layers_none fuel g r f t res s1 : wfRules g -> wfRule r -> runesOk t -> eval fuel g r (newStream t) f = Ok (res, s1) ->
  layers s1 = [] /\ cs_chars (sbase s1) = t /\ (cs_cur (sbase s1) <= length t)%nat.
Proof.
  intros W WR C E. destruct (accounting g fuel r (newStream t) f res s1 W WR C E) as (_ & _ & _ & _ & CH & D).
  destruct (eval_loco fuel g r f (newStream t) res s1 ltac:(unfold fits, at_; cbn; lia) E) as (_ & F & _).
  unfold depth in D. cbn in D, CH. unfold fits, at_ in F. rewrite CH in F. destruct (layers s1); [auto|discriminate].
Qed.

Theorem rule_looks fuel g name r t res : wfRules (rules_of g) -> lookup (rules_of g) name = Some r -> runesOk t ->
  careful (rules_of g) r SUGGEST_SKIP t -> evalRule fuel g name t = Ok res ->
  forall t', firstn (S (length (r_read res))) t' = firstn (S (length (r_read res))) t -> evalRule fuel g name t' = Ok res.
Proof.
  intros W LK C CF E t' A. pose proof (W _ _ LK) as WR. unfold evalRule in *. rewrite getRule_rules, LK in *.
  destruct (eval fuel (rules_of g) r (newStream t) SUGGEST_SKIP) as [(res0, s1)| |] eqn:EV; [|discriminate..].
  cbn [bind] in E. injection E as ->.
  destruct (read_exact _ _ _ _ (newStream t) _ _ W WR C EV (CF fuel)) as (RE & _).
  destruct (layers_none _ _ _ _ _ _ _ W WR C EV) as (LY & CH & LE).
  assert (K : length (r_read res) = cs_cur (sbase s1)).
  { unfold rest in RE. rewrite LY in RE. cbn in RE. rewrite CH in RE. apply (f_equal (@length Z)) in RE.
    rewrite app_length, skipn_length in RE. lia. }
  rewrite K in A. destruct (eval_looks _ _ _ _ _ _ _ EV t' A) as (s1' & EV' & _). rewrite EV'. reflexivity.
Qed.
