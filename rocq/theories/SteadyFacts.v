(** Without white space in front the mode makes no difference (C92). *)
From Verif Require Import Base Stream StreamFacts CallFacts Node Rule Grammar SpecStream SpecRule TermFacts TermSpec SpecEval SpecEv EvFacts EvDet EvalFuel EvalSem
  SpecTerm WfDec LoopFacts SpecDriver DriverFacts LLFacts LangFacts SpecSteady.

Definition steadySeq (g : rules_t) (steadies : list (list Z)) := fix go l := match l with [] => true | x :: l' => steady g steadies x && (negb (mayBeOption g x) || go l') end.
Lemma dark_prefix t : darkFirst t -> ws_prefix t = [].
Proof. destruct t as [|c t]; [reflexivity|]. cbn [darkFirst ws_prefix]. intros D. destruct (isWS c) eqn:W; [|reflexivity]. now apply isWS_In in W. Qed.
Lemma tchar_any c f f' t : darkFirst t -> tchar c f t = tchar c f' t.
Proof.
  intros D. unfold tchar. destruct t as [|x t]; [reflexivity|]. rewrite (dark_prefix _ D). cbv zeta. rewrite andb_false_r. cbn [length skipn app].
  destruct (f =? SUGGEST_SKIP), (f' =? SUGGEST_SKIP), (headIs c (x :: t)); reflexivity.
Qed.
Lemma tlit_any a a' l t : darkFirst t -> darkWord l = true -> tlit a l t = tlit a' l t.
Proof.
  intros D W. unfold tlit. destruct t as [|x t]; [reflexivity|]. rewrite (dark_prefix _ D).
  assert (P : ws_prefix l = []) by (destruct l as [|y l]; [reflexivity|]; cbn [darkWord] in W; apply negb_true_iff in W; cbn [ws_prefix]; now rewrite W). rewrite P. now destruct a, a'.
Qed.
Lemma trange_any lo hi f f' t : darkFirst t -> trange lo hi f t = trange lo hi f' t.
Proof. intros D. unfold trange. destruct t as [|x t]; [reflexivity|]. rewrite (dark_prefix _ D). now destruct (f =? SUGGEST_SKIP), (f' =? SUGGEST_SKIP). Qed.
Lemma teof_any f f' t : darkFirst t -> teof f t = teof f' t.
Proof. intros D. unfold teof. rewrite (dark_prefix _ D). now destruct (f =? 1), (f' =? 1). Qed.

Section Steady.
Variables (g : rules_t) (steadies : list (list Z)).
Notation steady := (steady g steadies).
Hypothesis HS : forall n r, lookup g n = Some r -> isIn n steadies = true -> steady r = true.

Definition absent (n : node) : Prop := n_type n = TOption /\ n_kids n = [] /\ n_chars n = [].
Lemma mode_same f f' n s : nextMode f n s = nextMode f' n s \/ absent n.
Proof. unfold nextMode, absent. destruct (n_type n), (n_kids n), (n_chars n); auto. Qed.
Lemma term_type ty b s x n u k st : ofTerm ty b s x = OMatch n u k st -> n_type n = ty.
Proof. destruct x as [[[cs|] rd] un]; cbn [ofTerm]; [|discriminate]. intros [= <- _ _ _]. reflexivity. Qed.
Lemma seq_type b rules f t p m st kids o : EvSeq g b rules f t p m st kids o -> match o with OMatch n _ _ _ => n_type n = TConcat | _ => True end.
Proof. induction 1; try exact I; try reflexivity. assumption. Qed.
Lemma end_type b mn p m st kids o : EvEnd b mn p m st kids o -> match o with OMatch n _ _ _ => n_type n = TRepetition | _ => True end.
Proof. intros H. inversion H; subst; [exact I|reflexivity]. Qed.
Lemma rep_type b r mn mx f t p m st kids o : EvRep g b r mn mx f t p m st kids o -> match o with OMatch n _ _ _ => n_type n = TRepetition | _ => True end.
Proof. induction 1; try (eapply end_type; eassumption). assumption. Qed.
Lemma choice_type b gs f t m st o : EvChoice g b gs f t m st o -> match o with OMatch n _ _ _ => n_type n = TChoice | _ => True end.
Proof. induction 1; try exact I; try reflexivity. assumption. Qed.
Lemma scan_type b on v cl esc excl t p m c o : EvScan g b on v cl esc excl t p m c o -> match o with OMatch n _ _ _ => n_type n = TBlock | _ => True end.
Proof. induction 1; try exact I; try reflexivity; assumption. Qed.
(** Only options, and references to them, give nodes of options. *)
Lemma direct_option r f t n u k s : Ev g r f t (OMatch n u k s) -> n_type n = TOption -> match r with ROption _ _ | RRef _ _ => True | _ => False end.
Proof.
  intros E T. inversion E; subst; try exact I;
    try (match goal with H : ofTerm _ _ _ _ = _ |- _ => apply term_type in H; rewrite T in H; discriminate H end);
    try (cbn in T; discriminate T);
    try (match goal with H : EvSeq _ _ _ _ _ _ _ _ _ _ |- _ => apply seq_type in H; rewrite T in H; discriminate H end);
    try (match goal with H : EvRep _ _ _ _ _ _ _ _ _ _ _ _ |- _ => apply rep_type in H; rewrite T in H; discriminate H end);
    try (match goal with H : EvChoice _ _ _ _ _ _ _ _ |- _ => apply choice_type in H; rewrite T in H; discriminate H end);
    try (match goal with H : EvScan _ _ _ _ _ _ _ _ _ _ _ _ |- _ => apply scan_type in H; rewrite T in H; discriminate H end).
Qed.
Lemma option_may r f t n u k s : Ev g r f t (OMatch n u k s) -> n_type n = TOption -> mayBeOption g r = true.
Proof.
  intros E T. pose proof (direct_option _ _ _ _ _ _ _ E T) as X. destruct r; try destruct X; [|reflexivity]. cbn [mayBeOption].
  inversion E as [| | | | | |? ? r' ? ? nd ? ? ? L E'| | | | | | | | | |]; subst. rewrite L. cbn in T. pose proof (direct_option _ _ _ _ _ _ _ E' T) as X'. now destruct r'.
Qed.
Lemma absent_used r f t n u k s : Ev g r f t (OMatch n u k s) -> absent n -> u = 0%nat.
Proof.
  intros E. remember (OMatch n u k s) as o eqn:O. revert n u k s O. induction E; intros ? ? ? ? O (T & K & C); try discriminate;
    try (injection O as <- <- <- <-); try reflexivity; try (cbn in K; discriminate K); try (cbn in T; discriminate T);
    try (apply term_type in O; rewrite T in O; discriminate O);
    try (match goal with H : EvSeq _ _ _ _ _ _ _ _ _ ?o |- _ => apply seq_type in H; rewrite O in H; rewrite T in H; discriminate H end);
    try (match goal with H : EvRep _ _ _ _ _ _ _ _ _ _ _ _ |- _ => apply rep_type in H; rewrite O in H; rewrite T in H; discriminate H end);
    try (match goal with H : EvChoice _ _ _ _ _ _ _ _ |- _ => apply choice_type in H; rewrite O in H; rewrite T in H; discriminate H end);
    try (match goal with H : EvScan _ _ _ _ _ _ _ _ _ _ _ _ |- _ => apply scan_type in H; rewrite O in H; rewrite T in H; discriminate H end).
  eapply IHE; [reflexivity|]. repeat split; assumption.
Qed.

Lemma steady_mut :
  (forall r f t o, Ev g r f t o -> darkFirst t -> steady r = true -> forall f', Ev g r f' t o) /\
  (forall b rules f t p m st kids o, EvSeq g b rules f t p m st kids o -> darkFirst t -> p = 0%nat -> steadySeq g steadies rules = true ->
     forall f', EvSeq g b rules f' t p m st kids o) /\
  (forall b r mn mx f t p m st kids o, EvRep g b r mn mx f t p m st kids o -> True) /\
  (forall rules f t m st ml m' st', EvAlts g rules f t m st ml m' st' -> darkFirst t -> forallb steady rules = true -> forall f', EvAlts g rules f' t m st ml m' st') /\
  (forall b groups f t m st o, EvChoice g b groups f t m st o -> darkFirst t -> forallb (forallb steady) groups = true -> forall f', EvChoice g b groups f' t m st o) /\
  (forall excl t p m ml m2, EvExcl g excl t p m ml m2 -> True) /\
  (forall esc t p m m1, EvPlain g esc t p m m1 -> True) /\
  (forall b o0 v cl esc excl t p m c o, EvScan g b o0 v cl esc excl t p m c o -> True).
Proof.
  apply Ev_mut; try (intros; exact I).
  - intros b c u f t D _ f'. rewrite (tchar_any c f f' t D). apply ev_char.
  - intros b l f t D S f'. rewrite (tlit_any _ (skips f' false) l t D S). apply ev_chars.
  - intros b l f t D S f'. rewrite (tlit_any _ (skips f' true) l t D S). apply ev_string.
  - intros b lo lu hi hu f t D _ f'. rewrite (trange_any lo hi f f' t D). apply ev_range.
  - intros b f t D _ f'. rewrite (teof_any f f' t D). apply ev_eof.
  - intros b n f t L D _ f'. now apply ev_undef.
  - intros b n r f t nd u k st L _ IH D S f'. eapply ev_ref; [exact L|]. apply IH; [exact D|eapply HS; eauto].
  - intros b n r f t k st L _ IH D S f'. eapply ev_ref_fail; [exact L|]. apply IH; [exact D|eapply HS; eauto].
  - intros b r f t nd u k st _ IH D S f'. apply ev_group. now apply IH.
  - intros b r f t k st _ IH D S f'. apply ev_group_fail. now apply IH.
  - intros b r f t nd u k st _ IH D S f'. apply ev_option. now apply IH.
  - intros b r f t k st _ IH D S f'. apply ev_option_none. now apply IH.
  - intros b l f t o _ IH D S f'. apply ev_concat. now apply IH.
  - intros b r mn mx f t o _ _ D S. discriminate S.
  - intros b gs f t o _ IH D S f'. apply ev_choice. now apply IH.
  - intros b op v cl esc excl f t k st _ IH D S f'. eapply ev_block_fail. now apply IH.
  - intros b op v cl esc excl f t o0 u k st o _ IH SC _ D S f'. eapply ev_block; [now apply IH|exact SC].
  (* sequence *)
  - intros b f t p m st kids D P S f'. apply es_done.
  - intros b r rules f t p m st kids n u k s o E IH F IH2 D -> S f'. cbn [steadySeq] in S. apply andb_prop in S as [S1 S2]. cbn [skipn] in E, IH. pose proof (IH D S1 f') as E'.
    eapply es_step; [exact E'|]. destruct (mode_same f' f n s) as [M|A]; [rewrite M; exact F|].
    pose proof (absent_used _ _ _ _ _ _ _ E A) as ->. apply IH2; [exact D|reflexivity|]. rewrite (option_may _ _ _ _ _ _ _ E (proj1 A)) in S2. exact S2.
  - intros b r rules f t p m st kids k s _ IH D -> S f'. cbn [steadySeq] in S. apply andb_prop in S as [S1 _]. apply es_fail. cbn [skipn] in *. now apply IH.
  (* alternatives *)
  - intros. apply ea_nil.
  - intros r rules f t m st n u k s ml m' st' _ IH1 _ IH2 D S f'. cbn [forallb] in S. apply andb_prop in S as [S1 S2]. eapply ea_match; [now apply IH1|now apply IH2].
  - intros r rules f t m st k s ml m' st' _ IH1 _ IH2 D S f'. cbn [forallb] in S. apply andb_prop in S as [S1 S2]. eapply ea_fail; [now apply IH1|now apply IH2].
  (* choice *)
  - intros. apply ec_none.
  - intros b grp groups f t m st m' st' o _ IH1 _ IH2 D S f'. cbn [forallb] in S. apply andb_prop in S as [S1 S2]. eapply ec_next; [now apply IH1|now apply IH2].
  - intros b grp groups f t m st ml m' st' n u _ IH1 SL D S f'. cbn [forallb] in S. apply andb_prop in S as [S1 S2]. eapply ec_pick; [now apply IH1|exact SL].
  - intros b grp groups f t m st ml m' st' _ IH1 NN SL D S f'. cbn [forallb] in S. apply andb_prop in S as [S1 S2]. eapply ec_tie; [now apply IH1|exact NN|exact SL].
Qed.
End Steady.

Lemma steady_ev g steadies r f f' t o : steadyRules g steadies = true -> steady g steadies r = true -> darkFirst t -> Ev g r f t o -> Ev g r f' t o.
Proof.
  intros H S D E. refine (proj1 (steady_mut g steadies _) r f t o E D S f'). intros n x L X. destruct (lookup_In _ _ _ L) as (m & I & ->).
  unfold steadyRules in H. rewrite forallb_forall in H. specialize (H _ I). cbn in H. now rewrite X in H.
Qed.
Lemma shows_alike t o a b : shows t o a -> shows t o b -> alikeAnswers a b.
Proof.
  unfold alikeAnswers. destruct o as [n u k st|k st]; cbn [shows].
  - intros (_ & RA & UA & SA & na & NA & EA) (_ & RB & UB & SB & nb & NB & EB). rewrite NA, NB. cbn [option_map]. repeat split; congruence.
  - intros (_ & RA & SA & NA) (_ & RB & SB & NB). rewrite NA, NB. repeat split; congruence.
Qed.
Theorem steady_eval g steadies r fuel fuel' s s' f f' a b sa sb : steadyRules g steadies = true -> steady g steadies r = true -> wfRules g -> wfRule r -> runesOk (rest s) -> rest s' = rest s ->
  darkFirst (rest s) -> careful g r f (rest s) -> careful g r f' (rest s) -> eval fuel g r s f = Ok (a, sa) -> eval fuel' g r s' f' = Ok (b, sb) -> alikeAnswers a b /\ rest sa = rest sb.
Proof.
  intros H S W WR R ES D CA CB EA EB. destruct (refine_sound g fuel r f s a sa W WR R EA (CA fuel)) as (o & E & SH & RA).
  rewrite <- ES in R, CB. destruct (refine_sound g fuel' r f' s' b sb W WR R EB (CB fuel')) as (o' & E' & SH' & RB). rewrite ES in *.
  pose proof (steady_ev g steadies r f f' (rest s) o H S D E) as E2. rewrite <- (ev_det _ _ _ _ _ _ E2 E') in *. split; [exact (shows_alike _ _ _ _ SH SH')|congruence].
Qed.

Lemma render_text l : forall c run, exists run' l', render (c :: run) l = asText (c :: run') :: l'.
Proof. induction l as [|[d|n cs] l IH]; intros c run; cbn [render app]; eauto. Qed.
Theorem steady_embed g steadies r name sample fuel lf fuel' res n : steadyRules (rules_of g) steadies = true -> steady (rules_of g) steadies r = true -> wfRules (rules_of g) -> runesOk sample ->
  lookup (rules_of g) name = Some r -> darkFirst sample -> careful (rules_of g) r SUGGEST_SKIP sample -> (forall p, clearCut (rules_of g) r NOT_SKIP (skipn p sample)) ->
  evalRule fuel g name sample = Ok res -> evalEmbed lf fuel' g name sample = Some (Ok n) -> firstPart sample res (n_kids n).
Proof.
  intros H S W R L D CA CC ER EE. destruct (embed_partition _ _ _ _ _ _ _ W R L CC EE) as (items & EM & _ & K).
  unfold evalRule in ER. rewrite getRule_rules, L in ER. destruct (eval fuel (rules_of g) r (newStream sample) SUGGEST_SKIP) as [[res' s']| |] eqn:EV; cbn in ER; [|discriminate..]. injection ER as ->.
  destruct (refine_sound _ _ _ _ (newStream sample) _ _ W (W _ _ L) R EV (CA fuel)) as (o & E & SH & _). change (rest (newStream sample)) with sample in *.
  pose proof (steady_ev _ steadies r _ NOT_SKIP sample o H S D E) as E2. unfold firstPart.
  inversion EM as [k st X|c t k st l X EM'|t m u k st l X LE EM']; subst; rewrite (ev_det _ _ _ _ _ _ E2 X) in SH; cbn [shows] in SH.
  - destruct SH as (_ & _ & _ & ->). left. split; [reflexivity|]. cbn [render] in K. now apply map_eq_nil in K.
  - destruct SH as (_ & _ & _ & ->). right. cbn [render app] in K. destruct (render_text l c []) as (run' & l' & X'). rewrite X' in K. destruct (n_kids n) as [|k0 ks]; [discriminate|].
    cbn [List.map] in K. injection K as K _. exists c, k0, ks, run'. split; [reflexivity|]. split; [exact K|eauto].
  - destruct SH as (_ & _ & _ & _ & nd & -> & EN). cbn [render app] in K. destruct (n_kids n) as [|k0 ks]; [discriminate|]. cbn [List.map] in K. injection K as K _. exists k0, ks. split; [reflexivity|congruence].
Qed.
