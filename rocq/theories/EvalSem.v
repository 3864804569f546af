(** What the evaluation properties C14 and C15 take from the agreement of [eval],
    [sem] and [Ev]. *)
From Verif Require Import Base Stream StreamFacts CallFacts Node Rule SpecStream SpecRule EvalInv EvalFuel SpecEval SemFacts SpecEv EvFacts EvDet.

Lemma says_shows t y res : says t y res -> shows t (noAmb y) res.
Proof.
  destruct y; cbn [noAmb says shows reads]; intros (L & R & H).
  - destruct H as (U & X & S & N). auto.
  - destruct H as (N & X & S). auto.
  - destruct H as (N & X & S). auto.
Qed.

Lemma looked_noAmb y : looked (noAmb y) = reads y.
Proof. now destruct y. Qed.

Theorem refine_sound g fuel r f s res s' : wfRules g -> wfRule r -> runesOk (rest s) ->
  eval fuel g r s f = Ok (res, s') -> sem fuel g r f (rest s) <> SUnsafe ->
  exists o, Ev g r f (rest s) o /\ shows (rest s) o res /\ rest s' = skipn (looked o) (rest s).
Proof.
  intros G W C E S. pose proof (sem_lock g fuel G r f s _ W C eq_refl) as L. unfold lock in L.
  destruct (sem fuel g r f (rest s)) as [y| |] eqn:Y; [|tauto|congruence].
  destruct L as (res0 & s0 & E' & SA & M). rewrite E in E'. injection E' as <- <-. exists (noAmb y).
  split; [eapply sem_sound; eauto|]. split; [now apply says_shows|]. rewrite looked_noAmb. now apply moves_rest.
Qed.

Theorem refine_complete g r f s o : wfRules g -> wfRule r -> runesOk (rest s) -> Ev g r f (rest s) o ->
  (exists fuel, sem fuel g r f (rest s) = SUnsafe) \/
  exists fuel res s', eval fuel g r s f = Ok (res, s') /\ shows (rest s) o res /\ rest s' = skipn (looked o) (rest s).
Proof.
  intros G W C E. destruct (ev_complete _ _ _ _ _ E) as (n & H).
  destruct (H n (le_n _)) as [U|(y & Y & <-)]; [left; eauto|right].
  pose proof (sem_lock g n G r f s _ W C eq_refl) as L. rewrite Y in L. destruct L as (res & s' & X & SA & M).
  exists n, res, s'. split; [exact X|]. split; [now apply says_shows|]. rewrite looked_noAmb. now apply moves_rest.
Qed.

Theorem read_exact g fuel r f s res s' : wfRules g -> wfRule r -> runesOk (rest s) ->
  eval fuel g r s f = Ok (res, s') -> sem fuel g r f (rest s) <> SUnsafe ->
  rest s = r_read res ++ rest s' /\ (exists used, r_read res = used ++ r_unused res) /\
  (r_node res = None -> r_unused res = r_read res \/ exists k, sem fuel g r f (rest s) = SOk (Amb k)).
Proof.
  intros G W C E S. pose proof (sem_lock g fuel G r f s _ W C eq_refl) as L. unfold lock in L.
  destruct (sem fuel g r f (rest s)) as [y| |] eqn:Y; [|tauto|congruence].
  destruct L as (res0 & s0 & E' & SA & M). rewrite E in E'. injection E' as <- <-.
  destruct SA as (L & R & H). split; [|split].
  - rewrite R, (moves_rest _ _ _ M). symmetry. apply firstn_skipn.
  - destruct y; cbn [reads] in *.
    + destruct H as (LU & -> & _). rewrite R. exists (firstn used (firstn read (rest s))). symmetry. apply firstn_skipn.
    + destruct H as (_ & -> & _). now exists [].
    + destruct H as (_ & -> & _). exists (r_read res). now rewrite app_nil_r.
  - intros N. destruct y; [|left; apply H|right; eauto]. destruct H as (_ & _ & _ & nd & X & _). congruence.
Qed.
