(** The class of SpecLL.v, with rules for which safety is known by other means. *)
From Verif Require Import Base Stream StreamFacts CallFacts Node Rule Grammar SpecStream SpecRule TermFacts TermSpec EvalFuel SpecEval SpecEv EvFacts EvDet EvalSem
  SpecTerm LoopFacts SpecDriver DriverFacts SpecLL LLFacts.

Fixpoint rangeFree (r : rule) : bool :=
  match r with
  | RRange _ _ _ _ _ => false
  | RGroup _ x | ROption _ x | RRep _ x _ _ => rangeFree x
  | RChoice _ gs => forallb (forallb rangeFree) gs
  | RConcat _ l => forallb rangeFree l
  | _ => true
  end.

Section Known.
Variables (g : rules_t) (known : rule -> Prop) (dom : list Z -> Prop).
Definition inClass (r : rule) : Prop := (LL g r /\ rangeFree r = true) \/ known r.
Hypothesis HD : forall p t, dom t -> dom (skipn p t).
Hypothesis HG : forall n r, lookup g n = Some r -> inClass r.
Hypothesis HK : forall fuel, (forall fuel' r f t, (fuel' <= fuel)%nat -> inClass r -> dom t -> goodOut g r t (sem fuel' g r f t)) ->
  forall r f t, known r -> dom t -> goodOut g r t (sem (S fuel) g r f t).

Lemma class_layer r : LL g r -> rangeFree r = true -> layer g inClass dom r.
Proof.
  intros H R. destruct H; cbn [rangeFree] in R.
  - eapply la_literal; eassumption.
  - discriminate.
  - apply la_eof.
  - eapply la_ref; eauto.
  - apply la_group. now left.
  - apply la_option. now left.
  - apply la_rep; [now left|assumption..].
  - apply la_choice; [|assumption..]. intros grp r I J. left. split; [eauto|]. rewrite forallb_forall in R. specialize (R _ I). rewrite forallb_forall in R. now apply R.
  - apply la_concat; [|assumption|intros pre r s post; now apply H1]. intros r I. left. split; [auto|]. rewrite forallb_forall in R. now apply R.
  - eapply la_block; eassumption.
Qed.

Theorem class_good : forall fuel r f t, inClass r -> dom t -> goodOut g r t (sem fuel g r f t).
Proof.
  intros fuel. induction fuel as [fuel IH] using lt_wf_ind. intros r f t C D. destruct fuel as [|fuel]; [exact I|].
  destruct C as [[L R]|K].
  - cbn [sem]. apply (step_good g (sem fuel g) inClass dom HD); [| |now apply class_layer|exact D].
    + intros r' f' t' C' D'. apply IH; [lia|exact C'|exact D'].
    + intros r' f' t'. destruct fuel as [|fuel']; [now left|right]. exists (S fuel'), (sem fuel' g). reflexivity.
  - apply HK; [|exact K|exact D]. intros fuel' r' f' t' LE C' D'. apply IH; [lia|exact C'|exact D'].
Qed.

Lemma class_clear r f t : inClass r -> dom t -> clearCut g r f t.
Proof.
  intros H D fuel. pose proof (class_good fuel r f t H D) as X. destruct (sem fuel g r f t) as [o| |]; cbn in X; [|contradiction|split; [|intros k]; discriminate].
  split; [discriminate|]. intros k E. injection E as ->. exact X.
Qed.

Lemma class_exact r f s fuel res s' : wfRules g -> wfRule r -> inClass r -> runesOk (rest s) -> dom (rest s) ->
  eval fuel g r s f = Ok (res, s') ->
  exists o, Ev g r f (rest s) o /\ shows (rest s) o res /\ rest s' = skipn (looked o) (rest s) /\
    (r_node res = None -> r_unused res = r_read res).
Proof.
  intros W WR H C P E. destruct (class_clear r f (rest s) H P fuel) as [S A].
  destruct (refine_sound _ _ _ _ _ _ _ W WR C E S) as (o & EV & SH & R). exists o. split; [exact EV|]. split; [exact SH|]. split; [exact R|].
  intros N. destruct (read_exact _ _ _ _ _ _ _ W WR C E S) as (_ & _ & X). destruct (X N) as [Y|[k Y]]; [exact Y|]. now apply A in Y.
Qed.

Lemma class_returns r f s o : wfRules g -> wfRule r -> inClass r -> runesOk (rest s) -> dom (rest s) -> Ev g r f (rest s) o ->
  exists fuel res s', (forall fuel', (fuel <= fuel')%nat -> eval fuel' g r s f = Ok (res, s')) /\
    shows (rest s) o res /\ rest s' = skipn (looked o) (rest s).
Proof.
  intros W WR H C P E. destruct (refine_complete _ _ _ _ _ W WR C E) as [(fuel & U)|(fuel & res & s' & X & SH & R)].
  - exfalso. exact (proj1 (class_clear r f (rest s) H P fuel) U).
  - exists fuel, res, s'. split; [|auto]. intros fuel' LE. exact (ple_ok _ _ _ (eval_mono g fuel fuel' r s f LE) X).
Qed.

Lemma ev_good r f t o : inClass r -> dom t -> Ev g r f t o ->
  good g r t (match o with OMatch n u k st => Match n u k st | OFail k st => Fail k st end).
Proof.
  intros H D E. destruct (ev_complete _ _ _ _ _ E) as (fuel & X). specialize (X fuel (Nat.le_refl _)).
  pose proof (class_good fuel r f t H D) as G. destruct X as [X|(y & X & Y)]; rewrite X in G; cbn [goodOut] in G; [destruct G|].
  destruct y as [n u k st|k st|k]; cbn [noAmb] in Y; subst o; [exact G|exact G|destruct G].
Qed.
End Known.
