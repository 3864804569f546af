(** The evaluator in the grammars of SpecLL.v. *)
From Verif Require Import Base Stream StreamFacts CallFacts Node Rule Grammar SpecStream SpecRule TermFacts EvalInv EvalFuel SpecEval SpecEv EvFacts EvDet EvalSem
  SpecTerm LoopFacts SpecDriver DriverFacts SpecLL LLFacts SpecLang LangFacts.

Lemma ll_clear g r f t : LLs g -> LL g r -> plainSpace t -> clearCut g r f t.
Proof.
  intros HG H P fuel. pose proof (sem_good g HG fuel r f t H P) as X. destruct (sem fuel g r f t) as [o| |]; cbn in X; [|contradiction|split; [|intros k]; discriminate].
  split; [discriminate|]. intros k E. injection E as ->. exact X.
Qed.

Lemma ll_exact g r f s fuel res s' : wfRules g -> LLs g -> wfRule r -> LL g r -> runesOk (rest s) -> plainSpace (rest s) ->
  eval fuel g r s f = Ok (res, s') ->
  exists o, Ev g r f (rest s) o /\ shows (rest s) o res /\ rest s' = skipn (looked o) (rest s) /\
    (r_node res = None -> r_unused res = r_read res).
Proof.
  intros W HG WR H C P E. destruct (ll_clear g r f (rest s) HG H P fuel) as [S A].
  destruct (refine_sound _ _ _ _ _ _ _ W WR C E S) as (o & EV & SH & R). exists o. split; [exact EV|]. split; [exact SH|]. split; [exact R|].
  intros N. destruct (read_exact _ _ _ _ _ _ _ W WR C E S) as (_ & _ & X). destruct (X N) as [Y|[k Y]]; [exact Y|]. now apply A in Y.
Qed.

Lemma ll_returns nulls ranks g n r f s : wfRules g -> LLs g -> noCircles nulls ranks g = true -> lookup g n = Some r ->
  runesOk (rest s) -> plainSpace (rest s) ->
  exists fuel res s', (forall fuel', (fuel <= fuel')%nat -> eval fuel' g r s f = Ok (res, s')) /\
    exists o, Ev g r f (rest s) o /\ shows (rest s) o res /\ rest s' = skipn (looked o) (rest s).
Proof.
  intros W HG NC L C P. destruct (noCircles_total _ _ _ W NC n r f (rest s) L) as (o & E).
  destruct (refine_complete _ _ _ _ _ W (W _ _ L) C E) as [(fuel & U)|(fuel & res & s' & X & SH & R)].
  - exfalso. exact (proj1 (ll_clear g r f (rest s) HG (HG n r L) P fuel) U).
  - exists fuel, res, s'. split; [|exists o; auto]. intros fuel' LE. exact (ple_ok _ _ _ (eval_mono g fuel fuel' r s f LE) X).
Qed.

Lemma plain_any p t : plainSpace t -> plainSpace (skipn p t).
Proof. unfold plainSpace. intros H. rewrite <- (firstn_skipn p t) in H. apply Forall_app in H. apply H. Qed.

Lemma ll_embed nulls ranks g name sample r : wfRules (rules_of g) -> LLs (rules_of g) -> noCircles nulls ranks (rules_of g) = true ->
  lookup (rules_of g) name = Some r -> nullable nulls r = false -> runesOk sample -> plainSpace sample ->
  exists fuel n items, evalEmbed (S (length sample)) fuel g name sample = Some (Ok n) /\
    Embeds (rules_of g) r sample items /\ concat (List.map chars items) = sample /\ List.map erase (n_kids n) = render [] items.
Proof.
  intros W HG NC L NN C P.
  assert (CC : forall p, clearCut (rules_of g) r NOT_SKIP (skipn p sample)) by (intros p; apply ll_clear; [exact HG|exact (HG name r L)|now apply plain_any]).
  destruct (embed_class nulls ranks g name sample r W C L NC NN (fun p fuel => proj1 (CC p fuel))) as (fuel & n & E).
  destruct (embed_partition _ _ _ _ _ _ _ W C L CC E) as (items & A). exists fuel, n, items. split; [exact E|exact A].
Qed.

(* ---------------- the language ---------------- *)

Definition ends (nulls : list (list Z)) (r : rule) : Prop := wfRule r /\ loopsEnd nulls r = true.

Lemma language_exact strict nulls ranks g n r f t : (forall n r, lookup g n = Some r -> LLk strict g r) -> wfRules g -> noCircles nulls ranks g = true ->
  lookup g n = Some r -> noSpace t ->
  ((exists nd k st, Ev g r f t (OMatch nd (length t) k st)) <-> inLanguage g r t).
Proof.
  intros HG W NC L N. split.
  - intros (nd & k & st & E). exact (accepted strict g HG _ _ _ _ _ _ _ (HG n r L) (dark_plain _ N) E).
  - intros G. destruct (ranks_bounded ranks) as [K HK].
    assert (X : forall n r, lookup g n = Some r -> loopsEnd nulls r = true /\ leftBelow nulls ranks (rankIn ranks n) r = true /\
      (nullable nulls r = true -> isIn n nulls = true)).
    { intros m x Hx. destruct (lookup_In _ _ _ Hx) as (m' & I & ->). unfold noCircles in NC. rewrite forallb_forall in NC. specialize (NC _ I). cbn in NC.
      rewrite !andb_true_iff, orb_true_iff, negb_true_iff in NC. destruct NC as [[A B] C]. split; [exact A|]. split; [exact B|]. intros NX. destruct C; congruence. }
    refine (complete strict g HG (ends nulls) _ _ _ _ _ _ _ r t (HG n r L) _ N G f).
    + intros x f' t' [WX LX]. eapply (ev_total nulls ranks g) with (K := K); eauto; intros m y Hy; apply X in Hy; tauto.
    + intros m x Hx. split; [exact (W m x Hx)|]. now apply X in Hx.
    + intros b x [WX LX]. split; [now inversion WX|exact LX].
    + intros b x [WX LX]. split; [now inversion WX|exact LX].
    + intros b x mn mx [WX LX]. split; [now inversion WX|]. cbn [loopsEnd] in LX. rewrite andb_true_iff in LX. apply LX.
    + intros b gs grp x [WX LX] I1 I2. split; [inversion WX; eauto|]. cbn [loopsEnd] in LX. rewrite forallb_forall in LX. specialize (LX _ I1). rewrite forallb_forall in LX. now apply LX.
    + intros b l x [WX LX] I1. split; [inversion WX; auto|]. cbn [loopsEnd] in LX. rewrite forallb_forall in LX. now apply LX.
    + split; [exact (W n r L)|]. now apply X in L.
Qed.

(** The rule decides its language. *)
Lemma shows_all t o res : shows t o res -> (usesAll res t <-> exists n k st, o = OMatch n (length t) k st).
Proof.
  intros SH. unfold usesAll. destruct o as [n u k st|k st]; cbn in SH.
  - destruct SH as (LE & R & U & _ & nd & EN & _). split.
    + intros (_ & RT & UT). rewrite R in RT. rewrite U in UT. exists n, k, st. f_equal.
      assert (length (firstn k t) = length t) by now rewrite RT. assert (length (skipn u (firstn k t)) = 0%nat) by now rewrite UT.
      rewrite skipn_length in *. rewrite firstn_length in *. lia.
    + intros (n' & k' & st' & E). injection E as -> -> -> ->. split; [rewrite EN; discriminate|]. assert (k' = length t) as -> by lia.
      rewrite firstn_all in R, U. split; [exact R|]. rewrite U. apply skipn_all.
  - destruct SH as (_ & _ & _ & NN). split; [intros (X & _); contradiction|]. intros (n & k' & st' & E). discriminate.
Qed.

Lemma language_decided nulls ranks g name sample r : wfRules (rules_of g) -> LLs (rules_of g) -> noCircles nulls ranks (rules_of g) = true ->
  lookup (rules_of g) name = Some r -> runesOk sample -> noSpace sample ->
  exists fuel res, (forall fuel', (fuel <= fuel')%nat -> evalRule fuel' g name sample = Ok res) /\
    (usesAll res sample <-> inLanguage (rules_of g) r sample).
Proof.
  intros W HG NC L C N.
  destruct (ll_returns nulls ranks _ name r SUGGEST_SKIP (newStream sample) W HG NC L C (dark_plain _ N)) as (fuel & res & s' & E & o & EV & SH & _).
  exists fuel, res. split.
  - intros fuel' LE. unfold evalRule. rewrite getRule_rules, L, (E fuel' LE). reflexivity.
  - change (rest (newStream sample)) with sample in *. rewrite (shows_all _ _ _ SH), <- (language_exact true nulls ranks _ name r SUGGEST_SKIP sample HG W NC L N). split.
    + intros (nd & k & st & ->). eauto.
    + intros (nd & k & st & E'). rewrite (ev_det _ _ _ _ _ _ EV E'). eauto.
Qed.

Lemma language_sound fuel g name sample r res : wfRules (rules_of g) -> LLs (rules_of g) ->
  lookup (rules_of g) name = Some r -> runesOk sample -> plainSpace sample ->
  evalRule fuel g name sample = Ok res -> usesAll res sample -> inLanguage (rules_of g) r sample.
Proof.
  intros W HG L C P E U. unfold evalRule in E. rewrite getRule_rules, L in E.
  destruct (eval fuel (rules_of g) r (newStream sample) SUGGEST_SKIP) as [[res' s']| |] eqn:EV; cbn in E; [|discriminate..]. injection E as ->.
  pose proof (ll_exact _ _ _ (newStream sample) _ _ _ W HG (W _ _ L) (HG _ _ L) C P EV) as X. change (rest (newStream sample)) with sample in X.
  destruct X as (o & X & SH & _).
  destruct (proj1 (shows_all _ _ _ SH) U) as (n & k & st & EO). rewrite EO in X. exact (accepted true _ HG _ _ _ _ _ _ _ (HG _ _ L) P X).
Qed.
