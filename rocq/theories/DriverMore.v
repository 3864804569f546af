(** EvalRule and Eval in terms of the specifications. *)
From Coq Require Import Permutation.
From Verif Require Import Base Stream Node Rule Grammar SpecStream SpecRule SpecEval SpecEv SemFacts EvFacts EvalSem SpecNode NodeLean NodeExact SpecDriver DriverFacts.

Lemma evalRule_shows fuel g name sample r res : wfRules (rules_of g) -> runesOk sample -> lookup (rules_of g) name = Some r ->
  careful (rules_of g) r SUGGEST_SKIP sample -> evalRule fuel g name sample = Ok res ->
  exists o, Ev (rules_of g) r SUGGEST_SKIP sample o /\ shows sample o res.
Proof.
  intros W C L S E. unfold evalRule in E. rewrite getRule_rules, L in E.
  destruct (eval fuel (rules_of g) r (newStream sample) SUGGEST_SKIP) as [[res0 s']| |] eqn:X; try discriminate. cbn [bind] in E. injection E as ->.
  destruct (refine_sound _ _ _ _ (newStream sample) _ _ W (W _ _ L) C X (S fuel)) as (o & EV & SH & _). eauto.
Qed.
Lemma evalRule_answers g name sample r o : wfRules (rules_of g) -> runesOk sample -> lookup (rules_of g) name = Some r ->
  careful (rules_of g) r SUGGEST_SKIP sample -> Ev (rules_of g) r SUGGEST_SKIP sample o ->
  exists fuel res, evalRule fuel g name sample = Ok res /\ shows sample o res.
Proof.
  intros W C L S EV. destruct (refine_complete _ _ _ (newStream sample) _ W (W _ _ L) C EV) as [(fuel & X)|(fuel & res & s' & X & SH & _)]; [destruct (S fuel X)|].
  exists fuel, res. split; [|exact SH]. unfold evalRule. rewrite getRule_rules, L, X. reflexivity.
Qed.

Lemma evalTop_simplified loopFuel fuel g roots o s level out s' : wfRules g -> wfRoots roots -> legal roots o -> runesOk (rest s) ->
  evalTop loopFuel fuel g o s level = Ok (RawOk out, s') <->
  exists a, evalRaw loopFuel fuel g o s = Ok (RawOk a, s') /\ simplified level a out.
Proof.
  intros W WR LG C. assert (P : forall a s', evalRaw loopFuel fuel g o s = Ok (RawOk a, s') -> Forall proper a).
  { intros a s1 E. destruct (evalRaw_trees _ _ _ _ _ _ _ _ W WR LG C E) as (_ & T & _). apply Forall_forall. intros n Hn. destruct (T n Hn) as (x & _ & D). exact (derives_proper _ _ _ D). }
  unfold evalTop. destruct (evalRaw loopFuel fuel g o s) as [[r0 s0]| |] eqn:E; cbn [bind].
  - split.
    + destruct r0 as [a| | | |]; try discriminate. intros [= <- <-]. exists a. split; [reflexivity|]. apply simplify_simplified. eapply P; eauto.
    + intros (a & [= -> ->] & S). f_equal. f_equal. f_equal. eapply simplified_det; [exact S|]. apply simplify_simplified. eapply P; eauto.
  - split; [discriminate|intros (a & [=] & _)].
  - split; [discriminate|intros (a & [=] & _)].
Qed.
Lemma evalTop_errors loopFuel fuel g o s level res s' : (forall a, res <> RawOk a) ->
  evalTop loopFuel fuel g o s level = Ok (res, s') <-> evalRaw loopFuel fuel g o s = Ok (res, s').
Proof.
  intros N. unfold evalTop. destruct (evalRaw loopFuel fuel g o s) as [[r0 s0]| |]; cbn [bind]; try reflexivity.
  split; intros H; injection H as <- <-; destruct r0 as [a| | | |]; try reflexivity; [destruct (N (simplify level a) eq_refl)|destruct (N a eq_refl)].
Qed.
