(** How far the rules of the shipped arithmetic grammar look behind what they match. *)
From Verif Require Import Base Stream StreamFacts CallFacts Node Rule Grammar SpecStream SpecRule TermFacts TermSpec SpecEval SpecEv EvFacts EvDet EvalFuel EvalSem
  SpecTerm WfDec LoopFacts SpecDriver DriverFacts LLMain NodeText SpecLL LLFacts LLDec LLKnown LangFacts EraseFacts JsonLex JsonSafe JsonLang JsonDriver RepoSamples SpecArith ArithLex ArithSafe ArithLang ArithNum ArithExpr ArithRule.

(** The runes a number looks at in front of the text [l]: a digit there may belong to the
    integer part of a number with a dot. *)
Definition digitFirst (l : list Z) : bool := match skipn (lead l) l with c :: _ => isDec c | [] => false end.
Definition fl (l : list Z) : nat := if digitFirst l then looked (floatOut SK l) else 0%nat.
Definition ahead (l : list Z) : nat := Nat.max (S (lead l)) (fl l).

Lemma int_ev_facts f t x : plainSpace t -> Ev gA (ref aInteger) f t x -> intFacts (sp f t) (skipn (sp f t) t) (asSem x).
Proof.
  intros P E. apply (inv_ref_any gA _ _ _ _ _ look_int) in E. destruct (ev_complete _ _ _ _ _ E) as (fuel & X).
  assert (G : forall fuel' r f t, (fuel' <= S fuel)%nat -> aClass r -> plainSpace t -> goodOut gA r t (sem fuel' gA r f t)) by (intros; now apply arith_good).
  assert (KC : aClass xInteger) by (right; now left).
  destruct (int_sem (S fuel) G f t fuel ltac:(lia) P) as [F|(y & F & I)].
  - destruct (X (S fuel) ltac:(lia)) as [Y|(y & Y & _)]; rewrite F in Y; discriminate.
  - destruct (exact_out gA xInteger f t (S fuel) x (arith_good _ _ _ _ KC P) E) as [Y|Y]; rewrite F in Y; [discriminate|]. injection Y as <-. exact I.
Qed.
(** At least this far the rule for numbers with a dot looks. *)
Lemma float_far f t : headIs 45 (skipn (sp f t) t) = false ->
  (gone isDec f t + sp f (skipn (gone isDec f t) t) <= looked (floatOut f t))%nat /\ (gone isDec f t + (if headIs 46 (skipn (gone isDec f t) t) then 1 else 0) <= looked (floatOut f t))%nat.
Proof.
  intros H. unfold floatOut. cbv zeta. rewrite H. set (q := gone isDec f t). unfold dotOut. destruct (headIs 46 (skipn q t)); cbn [shift].
  - unfold runOut. destruct (runP isDec (tl (skipn q t))); cbn [shift atLeast looked]; lia.
  - cbn [atLeast looked]. lia.
Qed.
Lemma digit_head l : digitFirst l = true -> exists d r, skipn (lead l) l = d :: r /\ isDec d = true /\ headIs 45 (skipn (lead l) l) = false.
Proof.
  unfold digitFirst. destruct (skipn (lead l) l) as [|d r]; [discriminate|]. intros D. exists d, r. split; [reflexivity|]. split; [exact D|]. cbn. apply Z.eqb_neq. apply isDec_iff in D. unfold decDigit in D. lia.
Qed.

Lemma dark_lead c l : isWS c = false -> lead (c :: l) = 0%nat.
Proof. intros D. unfold lead. cbn [ws_prefix]. now rewrite D. Qed.
Lemma lead_done t : lead (skipn (lead t) t) = 0%nat.
Proof.
  destruct (skipn (lead t) t) as [|c l] eqn:E; [reflexivity|]. apply dark_lead. unfold lead in E. induction t as [|x t IH]; [discriminate|]. cbn [ws_prefix] in E. destruct (isWS x) eqn:W.
  - cbn [length skipn] in E. now apply IH.
  - cbn [length skipn] in E. now injection E as <- <-.
Qed.
(** White space in front is looked at too. *)
Lemma fl_shift l : (fl l <= lead l + fl (skipn (lead l) l))%nat.
Proof.
  unfold fl. destruct (digitFirst l) eqn:D; [|lia]. assert (D' : digitFirst (skipn (lead l) l) = true) by (unfold digitFirst; rewrite lead_done; exact D). rewrite D'.
  destruct (digit_head _ D) as (d & r & E & ID & H). destruct (digit_head _ D') as (d' & r' & E' & _ & H'). set (l' := skipn (lead l) l) in *.
  assert (L0 : lead l' = 0%nat) by apply lead_done. 
  destruct (loose_step isDec SK l d r E ID) as [_ G]. rewrite sp_skip in G.
  assert (E0 : skipn (sp SK l') l' = d :: r) by (rewrite sp_skip, L0; exact E).
  destruct (loose_step isDec SK l' d r E0 ID) as [_ G']. rewrite sp_skip, L0 in G'.
  assert (GG : gone isDec SK l = (lead l + gone isDec SK l')%nat) by lia.
  assert (SE : skipn (gone isDec SK l) l = skipn (gone isDec SK l') l') by (rewrite GG; unfold l'; now rewrite skipn_plus).
  assert (H1 : headIs 45 (skipn (sp SK l) l) = false) by exact H. assert (H2 : headIs 45 (skipn (sp SK l') l') = false) by exact H'. clear H H'. rename H1 into H. rename H2 into H'. pose proof (float_far SK l' H') as [F1 F2]. unfold floatOut at 1. cbv zeta. rewrite H. rewrite SE, GG. set (q := gone isDec SK l') in *.
  set (kids := [minusNode false; manyNode decNode (taken isDec SK l)]). destruct (dotOut_cases kids (skipn q l')) as [(k & -> & K1 & K2 & K3)|(n & u & D2 & U & HD)]; cbn [shift atLeast looked].
  - destruct (headIs 46 (skipn q l')); [lia|]. specialize (K3 eq_refl). lia.
  - rewrite D2. cbn [shift atLeast looked]. unfold floatOut. cbv zeta. rewrite H'. fold q. 
    assert (exists n', dotOut [minusNode false; manyNode decNode (taken isDec SK l')] (skipn q l') = OMatch n' u u true) as (n' & ->).
    { unfold dotOut in *. destruct (headIs 46 (skipn q l')); [|discriminate]. unfold runOut in *. destruct (runP isDec (tl (skipn q l'))); [discriminate|]. cbn [shift] in *. injection D2 as _ <-. eauto. }
    cbn [shift atLeast looked]. lia.
Qed.

Definition near (f : Z) (r : rule) (t : list Z) : Prop := forall n u k s, Ev gA r f t (OMatch n u k s) -> (k <= u + ahead (skipn u t))%nat.
Lemma ahead_pos l : (1 <= ahead l)%nat. Proof. unfold ahead. lia. Qed.
Lemma mode_sp f t : mode f -> sp f t = 0%nat \/ f = SK. Proof. intros [->| ->]; [now right|now left]. Qed.

Lemma near_literal f t : mode f -> plainSpace t -> near f (ref aLiteral) t.
Proof.
  intros MF P n u k s E. apply (inv_ref_any gA _ _ _ _ _ look_lit) in E. inversion E as [| | | | | | | | | | | | | |? ? ? ? ? C| |]; subst.
  destruct (aTotal aInteger _ f t look_int) as (xi & EI). pose proof (int_ev_facts f t xi P EI) as FI. pose proof (flt_ev f t P) as EF.
  inversion C as [|? ? ? ? ? ? ? ? ? ? A EL|? ? ? ? ? ? ? ml ? ? n1 ? A SL|]; subst; [inversion EL|].
  assert (K : k = Nat.max (looked xi) (looked (floatOut f t)) /\ (forall v, In v (List.map snd ml) <-> (exists n k s, xi = OMatch n v k s) \/ exists n k s, floatOut f t = OMatch n v k s)).
  { inversion A as [|? ? ? ? ? ? n2 u2 k2 s2 ? ? ? E2 A2|? ? ? ? ? ? k2 s2 ? ? ? E2 A2]; subst; pose proof (ev_det _ _ _ _ _ _ EI E2); subst xi;
    inversion A2 as [|? ? ? ? ? ? n3 u3 k3 s3 ? ? ? E3 A3|? ? ? ? ? ? k3 s3 ? ? ? E3 A3]; subst; pose proof (ev_det _ _ _ _ _ _ EF E3) as EQ; rewrite EQ; inversion A3; subst; cbn [looked List.map snd In];
    (split; [lia|]); intros v; split; intros H; repeat match goal with X : _ \/ _ |- _ => destruct X | X : False |- _ => destruct X | X : exists _, _ |- _ => destruct X end; subst; try discriminate; eauto 6;
    match goal with X : OMatch _ _ _ _ = OMatch _ _ _ _ |- _ => injection X as; subst; auto end. }
  destruct K as (-> & K). destruct SL as (l1 & l2 & EML & FO).
  assert (IN : In u (List.map snd ml)) by (rewrite EML, map_app; apply in_or_app; right; now left).
  assert (MAX : forall v, In v (List.map snd ml) -> (v <= u)%nat).
  { intros v H. apply in_map_iff in H as ((n2 & u2) & <- & H). cbn [snd]. rewrite EML in H. rewrite Forall_forall in FO. apply in_app_or in H as [H|[H|H]]; [|injection H as _ <-; lia|];
      (assert (X : (snd (n2, u2) < u)%nat) by (apply FO; apply in_or_app; auto)); cbn [snd] in X; lia. }
  pose proof (ahead_pos (skipn u t)) as AP. apply K in IN.
  pose proof (sp_lead f t) as SPL.
  destruct (float_cases f t) as [(kf & EF' & KF & _ & K45 & K4)|(nf & uf & EF' & UF & _)]; rewrite EF' in *; cbn [looked].
  - destruct IN as [(ni & ki & si & ->)|(? & ? & ? & ?)]; [|discriminate]. cbn [asSem intFacts looked] in *. destruct FI as (A1 & A2 & A3 & NH & CS). set (l := skipn (sp f t) t) in *.
    destruct (headIs 45 l) eqn:H45.
    + specialize (K45 eq_refl). destruct CS as [[CU _]|(c & l' & EL & _)]; [lia|]. rewrite EL in H45. discriminate.
    + specialize (K4 eq_refl). destruct NH as (d & l' & EL & DD). assert (ID : isDec d = true). { destruct DD as [->|DD]; [rewrite EL in H45; discriminate|exact DD]. }
      destruct CS as [[CU _]|(c & l2' & EL2 & C1 & C2 & C3)].
      * assert (G : gone isDec f t = (u + gone isDec f (skipn u t))%nat).
        { pose proof (gone_after isDec f t d l' isDec_dark EL ID) as G. cbv zeta in G. rewrite <- EL in G. unfold decLen in CU. rewrite H45 in CU. rewrite <- CU in G. exact G. }
        set (r := skipn u t) in *. assert (SR : skipn (gone isDec f t) t = skipn (gone isDec f r) r) by (rewrite G; unfold r; now rewrite skipn_plus). rewrite SR, G in K4.
        destruct (Nat.eq_dec (gone isDec f r) 0) as [Z0|NZ].
        { rewrite Z0 in K4. cbn [skipn] in K4. unfold ahead in *. pose proof (sp_lead f r). destruct (headIs 46 r); lia. }
        destruct (gone_pos isDec f r NZ) as (d2 & l3 & E3 & D3). destruct (mode_sp f r MF) as [S0|FS].
        -- (* not skipping: the digits end at u *)
           destruct MF as [->| ->]; [|].
           ++ (* skipping, but no white space *)
              rewrite sp_skip in *. assert (DF : digitFirst r = true) by (unfold digitFirst; rewrite E3; exact D3). destruct (digit_head _ DF) as (_ & _ & _ & _ & HR). rewrite <- sp_skip in HR.
              destruct (float_far SK r HR) as [F1 F2]. unfold ahead, fl. rewrite DF. rewrite sp_skip in F1. destruct (headIs 46 _); lia.
           ++ exfalso. rewrite sp_not in *. cbn [skipn] in E3. unfold decLen in CU. rewrite H45 in CU. cbn [Nat.add] in CU. pose proof (runP_stop isDec l) as ST. rewrite <- CU in ST. change (skipn u l) with r in ST.
              rewrite E3 in ST. congruence.
        -- subst f. rewrite sp_skip in *. assert (DF : digitFirst r = true) by (unfold digitFirst; rewrite E3; exact D3). destruct (digit_head _ DF) as (_ & _ & _ & _ & HR). rewrite <- sp_skip in HR.
           destruct (float_far SK r HR) as [F1 F2]. unfold ahead, fl. rewrite DF. rewrite sp_skip in F1. destruct (headIs 46 _); lia.
      * assert (G : gone isDec f t = S (sp f t)).
        { destruct (loose_step isDec f t 48 (c :: l2')) as [_ ->]; [exact EL2|reflexivity|]. destruct (loose_stop isDec f (c :: l2')) as [_ ->]; [rewrite sp_here by exact C3; exact C2|lia]. }
        assert (SR : skipn (gone isDec f t) t = c :: l2') by (rewrite G; replace (S (sp f t)) with (sp f t + 1)%nat by lia; rewrite <- skipn_plus; fold l; rewrite EL2; reflexivity).
        rewrite SR, G, sp_here in K4 by exact C3. cbn [headIs] in K4. destruct (Z.eqb_spec c 46); lia.
  - assert (UU : (uf <= u)%nat) by (apply MAX, K; right; eauto). destruct xi as [ni ui ki si|ki si]; cbn [asSem intFacts looked] in *.
    + assert (UI : (ui <= u)%nat) by (apply MAX, K; left; eauto). lia.
    + destruct IN as [(? & ? & ? & ?)|(? & ? & ? & Y)]; [discriminate|]. injection Y as <- <- <- <-. lia.
Qed.
Lemma near_var f t : plainSpace t -> near f (ref aVar) t.
Proof.
  intros P n u k s E. pose proof (ev_det _ _ _ _ _ _ E (var_ev f t P)) as X. unfold varOut in X. destruct (skipn (sp f t) t) as [|c l]; [discriminate|]. destruct (isLetter c); [|discriminate]. cbn [shift] in X. injection X as _ -> -> _. lia.
Qed.
Lemma near_looks f r t : aClass r -> plainSpace t -> nulC aEnv r = false -> looC aEnv r = false -> near f r t.
Proof.
  intros C D NU LO n u k s E. apply (arith_ev _ _ _ _ C D) in E. cbn in E. destruct E as (_ & [(N & _)|(_ & _ & [->|(L & _)])]).
  - apply (nul_sound gA aEnv aEnv_closed) in N. congruence.
  - lia.
  - apply (loo_sound gA aEnv aEnv_closed) in L. congruence.
Qed.
Lemma alts_look f rules t B : (forall r o, In r rules -> Ev gA r f t o -> (looked o <= B)%nat) -> forall m st ml m' st', EvAlts gA rules f t m st ml m' st' -> (m <= B)%nat -> (m' <= B)%nat.
Proof.
  induction rules as [|r rules IH]; intros H m st ml m' st' E L; inversion E as [|? ? ? ? ? ? n1 u1 k1 s1 ml1 ? ? E1 F|? ? ? ? ? ? k1 s1 ? ? ? E1 F]; subst; [exact L| |];
    (refine (IH _ _ _ _ _ _ F _); [intros r' o' I; apply H; now right|]; apply (H r) in E1; [cbn [looked] in E1; lia|now left]).
Qed.
Definition distinct (rules : list rule) : Prop := forall r r', In r rules -> In r' rules -> r = r' \/ disjoint (firC aEnv r) (firC aEnv r') = true.
Lemma near_choice b f rules t : (forall r, In r rules -> aClass r /\ nulC aEnv r = false /\ near f r t) -> distinct rules -> plainSpace t -> near f (RChoice b [rules]) t.
Proof.
  intros HR DJ D n u k s H. inversion H as [| | | | | | | | | | | | | |? ? ? ? ? C| |]; subst. inversion C as [|? ? ? ? ? ? ? ? ? ? A E|? ? ? ? ? ? ? ? ? ? n1 ? A SL|]; subst; [inversion E|].
  destruct SL as (l1 & l2 & -> & _). destruct (alts_in gA _ _ _ _ _ _ _ _ A n1 u) as (r & k1 & s1 & I & R); [apply in_or_app; right; now left|].
  destruct (HR r I) as (RC & RN & RK). pose proof (RK _ _ _ _ R) as K1. pose proof (arith_ev _ _ _ _ RC D R) as G. cbn in G.
  destruct G as (_ & [(N & _)|(LU & (c & DC & FC) & _)]); [apply (nul_sound gA aEnv aEnv_closed) in N; congruence|].
  refine (alts_look _ _ _ _ _ _ _ _ _ _ A _); [|lia]. intros r' o I' R'. destruct (HR r' I') as (RC' & RN' & _). pose proof (arith_ev _ _ _ _ RC' D R') as G.
  assert (SAME : forall c', darkAt t c' -> First gA c' r' -> (looked o <= u + ahead (skipn u t))%nat).
  { intros c' DC' FC'. rewrite (darkAt_fun _ _ _ DC' DC) in FC'. destruct (DJ r r' I I') as [<-|X].
    - rewrite (ev_det _ _ _ _ _ _ R' R). exact K1.
    - exfalso. eapply disjoint_ok; [exact X| |]; apply (fir_sound gA aEnv aEnv_closed); eassumption. }
  destruct o as [n' u' k' s'|k' s']; cbn [asSem good looked] in *.
  - destruct G as (_ & [(N & _)|(_ & (c' & DC' & FC') & _)]); [apply (nul_sound gA aEnv aEnv_closed) in N; congruence|]. now apply (SAME c').
  - destruct G as (_ & [G|(c' & DC' & FC')]); [lia|now apply (SAME c')].
Qed.
Lemma class_ref n r : lookup gA n = Some r -> n <> aExprs -> aClass (ref n).
Proof. intros L N. left. split; [now apply (ll_ref true gA nb n r)|]. cbn [noTop ref]. apply negb_true_iff. apply runes_eqb_neq. exact N. Qed.
Lemma near_factor f t : mode f -> plainSpace t -> near f (ref aFactor) t.
Proof.
  intros MF D n u k s E. apply (inv_ref_any gA _ _ _ _ _ look_factor) in E. revert E. apply near_choice; [| |exact D].
  - intros r I. bits.
    + split; [now apply (class_ref aLiteral xLiteral)|]. split; [vm_compute; reflexivity|now apply near_literal].
    + split; [now apply (class_ref aVar xVar)|]. split; [vm_compute; reflexivity|now apply near_var].
    + assert (C : aClass xParen) by (apply in_class; vm_compute; reflexivity). split; [exact C|]. split; [vm_compute; reflexivity|]. apply near_looks; [exact C|exact D|vm_compute; reflexivity..].
  - intros r r' I I'. bits; try (now left); right; vm_compute; reflexivity.
Qed.

(* ---------------- stickiness ---------------- *)

Definition stickyOf (o : ores) : bool := match o with OMatch _ _ _ s => s | OFail _ s => s end.
Lemma seq_false b rules : forall f t p m kids o, EvSeq gA b rules f t p m false kids o -> stickyOf o = false.
Proof. induction rules as [|r rules IH]; intros f t p m kids o H; inversion H; subst; [reflexivity|eapply IH; eassumption|reflexivity]. Qed.
Lemma alts_false f rules t : forall m ml m' st', EvAlts gA rules f t m false ml m' st' -> st' = false.
Proof. induction rules as [|r rules IH]; intros m ml m' st' H; inversion H; subst; [reflexivity| |]; eapply IH; eassumption. Qed.
Lemma alts_soft_in f r rules t : In r rules -> (forall o, Ev gA r f t o -> stickyOf o = false) -> forall m st ml m' st', EvAlts gA rules f t m st ml m' st' -> st' = false.
Proof.
  induction rules as [|r' rules IH]; intros J SO m st ml m' st' H; [destruct J|]. destruct J as [->|J].
  - inversion H as [|? ? ? ? ? ? n1 u1 k1 s1 ? ? ? E1 F|? ? ? ? ? ? k1 s1 ? ? ? E1 F]; subst; apply SO in E1; cbn in E1; subst s1; rewrite andb_false_r in F; exact (alts_false _ _ _ _ _ _ _ F).
  - inversion H; subst; eapply IH; eassumption.
Qed.
Lemma paren_soft f t o : Ev gA xParen f t o -> stickyOf o = false.
Proof.
  assert (W : forall t o, Ev gA (RString nb [40]) f t o -> stickyOf o = false).
  { intros t' o' H. inversion H; subst. destruct (tlit (skips f true) [40] t') as [[[cs|] rd] un]; reflexivity. }
  assert (CS : forall o, Ev gA (RConcat nb [RString nb [40]; ref aExpr; RString nb [41]]) f t o -> stickyOf o = false).
  { intros o' H. inversion H as [| | | | | | | | | | | |? ? ? ? ? C| | | |]; subst. inversion C as [|? ? ? ? ? ? ? ? ? n1 u1 k1 s1 ? E1 F|? ? ? ? ? ? ? ? ? k1 s1 E1]; subst; apply W in E1; cbn in E1; subst s1.
    - exact (seq_false _ _ _ _ _ _ _ _ F).
    - reflexivity. }
  intros H. inversion H; subst; match goal with X : Ev _ (RConcat _ _) _ _ _ |- _ => exact (CS _ X) end.
Qed.
Lemma factor_node f t n u k st : Ev gA (ref aFactor) f t (OMatch n u k st) -> st = false /\ n_type n <> TOption.
Proof.
  intros E. apply (inv_ref_any gA _ _ _ _ _ look_factor) in E. inversion E as [| | | | | | | | | | | | | |? ? ? ? ? C| |]; subst.
  inversion C as [|? ? ? ? ? ? ? ? ? ? AL EL|? ? ? ? ? ? ? ? ? ? n1 ? AL SL|]; subst; [inversion EL|]. split; [|discriminate].
  eapply (alts_soft_in f xParen); [|apply paren_soft|exact AL]. right. right. now left.
Qed.
Lemma mode_next f n : n_type n <> TOption -> nextMode f n false = SK.
Proof. intros N. unfold nextMode. destruct (n_type n); try reflexivity. congruence. Qed.

(* ---------------- things with operators between them ---------------- *)

Section ChainLook.
Variables (name opName arg : list Z) (a b : Z) (rArg : rule) (inner : list Z -> Prop).
Definition oneOp (c : Z) : Prop := c = a \/ c = b.
Hypothesis Lop : lookup gA opName = Some (xOp opName a b).
Hypothesis Larg : lookup gA arg = Some rArg.
Hypothesis Lname : lookup gA name = Some (xChain name opName arg).
Hypothesis Cop : aClass (ref opName).
Hypothesis Nop : nulC aEnv (ref opName) = false.
Hypothesis Oop : looC aEnv (ref opName) = false.
Hypothesis Fop : forall c, First gA c (ref opName) -> oneOp c.
Hypothesis Carg : aClass (ref arg).
Hypothesis Ops : forall c, oneOp c -> isWS c = false /\ isDec c = false.
Hypothesis NE : a <> b.
Hypothesis NEAR : forall f t n u k s, mode f -> plainSpace t -> Ev gA (ref arg) f t (OMatch n u k s) -> (k <= u + ahead (skipn u t))%nat \/ inner (skipn u t).
Hypothesis NODE : forall f t n u k s, Ev gA (ref arg) f t (OMatch n u k s) -> s = false /\ n_type n <> TOption.
Hypothesis INNER : forall l c r, inner l -> skipn (lead l) l = c :: r -> ~ oneOp c.

Definition opFirst (l : list Z) (c : Z) (r : list Z) : Prop := skipn (lead l) l = c :: r /\ oneOp c.
Definition stuckOp (l : list Z) : Prop := exists c r, opFirst l c r /\ exists k s, Ev gA (ref arg) SK r (OFail k s).

Lemma skip_next l c r : skipn (lead l) l = c :: r -> skipn (lead l + 1) l = r.
Proof. intros E. rewrite <- skipn_plus, E. reflexivity. Qed.
Lemma op_look t o : plainSpace t -> Ev gA (ref opName) SK t o ->
  (exists c r n, opFirst t c r /\ o = OMatch n (lead t + 1) (lead t + 1) false /\ nextMode SK n false = SK) \/ (exists k s, o = OFail k s /\ (k <= S (lead t))%nat).
Proof.
  intros P E. destruct (Ops a (or_introl eq_refl)) as [Wa _]. destruct (Ops b (or_intror eq_refl)) as [Wb _]. pose proof (arith_ev _ _ _ _ Cop P E) as G.
  destruct (op_ev opName a b t Lop Wa Wb NE) as [(c & k & C & HC & EM)|(NO & k & s & EM)]; rewrite (ev_det _ _ _ _ _ _ E EM) in *; cbn [asSem good] in G.
  - left. destruct (skipn (lead t) t) as [|x r] eqn:L; [discriminate|]. cbn in HC. apply Z.eqb_eq in HC. subst x. exists c, r, (opNode opName c). split; [split; [exact L|exact C]|]. split; [|reflexivity]. f_equal.
    destruct G as (_ & [(N & _)|(_ & _ & [->|(LK & _)])]); [|reflexivity|].
    + apply (nul_sound gA aEnv aEnv_closed) in N. congruence.
    + apply (loo_sound gA aEnv aEnv_closed) in LK. congruence.
  - right. exists k, s. split; [reflexivity|]. destruct G as (_ & [G|(c & (r & DC) & FC)]); [exact G|]. exfalso. apply Fop in FC. specialize (NO c FC). rewrite DC in NO. cbn in NO. rewrite Z.eqb_refl in NO. discriminate.
Qed.
Notation link := (RConcat nb [ref opName; ref arg]).
Lemma link_look t n u k s : plainSpace t -> Ev gA link SK t (OMatch n u k s) ->
  exists c r, opFirst t c r /\ (S (lead t) <= u <= length t)%nat /\ ((k <= u + ahead (skipn u t))%nat \/ inner (skipn u t)).
Proof.
  intros P E. inversion E as [| | | | | | | | | | | |? ? ? ? ? C| | | |]; subst. destruct (inv_seq _ _ _ _ _ _ _ _ _ _ _ _ _ _ C) as (n1 & u1 & k1 & s1 & E1 & C1). cbn [skipn] in E1.
  destruct (op_look t _ P E1) as [(c & r & n' & OF & EQ & NM)|(? & ? & ? & _)]; [|discriminate]. injection EQ as -> -> -> ->. rewrite NM in C1. cbn [andb app Nat.add Nat.max] in C1.
  destruct (inv_seq _ _ _ _ _ _ _ _ _ _ _ _ _ _ C1) as (n2 & u2 & k2 & s2 & E2 & C2). destruct OF as [OF OC]. rewrite (skip_next _ _ _ OF) in E2. inversion C2; subst.
  exists c, r. split; [now split|]. assert (PR : plainSpace r) by (rewrite <- (skip_next _ _ _ OF); now apply plain_skipn).
  pose proof (arith_ev _ _ _ _ Carg PR E2) as G. cbn [asSem good] in G. pose proof (f_equal (@length Z) OF) as LL. rewrite skipn_length in LL. cbn [length] in LL. pose proof (lead_le t).
  split; [lia|]. destruct (NEAR _ _ _ _ _ _ (or_introl eq_refl) PR E2) as [K|K]; rewrite <- (skip_next _ _ _ OF), skipn_plus in K; [left|now right].
  pose proof (ahead_pos (skipn (lead t + 1 + u2) t)). lia.
Qed.
Lemma link_fail t k s : plainSpace t -> Ev gA link SK t (OFail k s) -> (k <= ahead t)%nat \/ stuckOp t.
Proof.
  intros P E. inversion E as [| | | | | | | | | | | |? ? ? ? ? C| | | |]; subst. inversion C as [|? ? ? ? ? ? ? ? ? n1 u1 k1 s1 ? E1 F|? ? ? ? ? ? ? ? ? k1 s1 E1]; subst; cbn [skipn] in E1.
  - destruct (op_look t _ P E1) as [(c & r & n' & OF & EQ & NM)|(? & ? & ? & _)]; [|discriminate]. injection EQ as -> -> -> ->. rewrite NM in F. cbn [andb app Nat.add Nat.max] in F.
    inversion F as [|? ? ? ? ? ? ? ? ? n2 u2 k2 s2 ? E2 F2|? ? ? ? ? ? ? ? ? k2 s2 E2]; subst; [inversion F2|]. rewrite (skip_next _ _ _ (proj1 OF)) in E2. right. exists c, r. split; [exact OF|eauto].
  - destruct (op_look t _ P E1) as [(c & r & n' & OF & EQ & NM)|(k2 & s2 & EQ & K)]; [discriminate|]. injection EQ as -> ->. left. unfold ahead. lia.
Qed.

Definition seen (l : list Z) (u k : nat) : Prop := (k <= u + ahead (skipn u l))%nat \/ inner (skipn u l) \/ stuckOp (skipn u l).
Lemma op_ahead l c r : opFirst l c r -> ahead l = S (lead l).
Proof. intros [E C]. unfold ahead, fl, digitFirst. rewrite E. destruct (Ops c C) as [_ ->]. lia. Qed.
Lemma seen_max l u k k' : seen l u k -> seen l u k' -> seen l u (Nat.max k k').
Proof. unfold seen. intros [A|A] [B|B]; auto. left. lia. Qed.
Lemma links_look t : plainSpace t -> forall d p m st kids n u k s, (length t - p <= d)%nat -> (p <= length t)%nat ->
  EvRep gA nb link 0 0 SK t p m st kids (OMatch n u k s) -> seen t p m -> seen t u k /\ (u = p \/ exists c r, opFirst (skipn p t) c r /\ (p + S (lead (skipn p t)) <= u)%nat).
Proof.
  intros P. induction d as [|d IH]; intros p m st kids n u k s LE PL E SE.
  - assert (NIL : skipn p t = []) by (apply length_zero_iff_nil; rewrite skipn_length; lia).
    inversion E as [? ? ? ? ? ? ? ? ? ? ? N EE|? ? ? ? ? ? ? ? ? ? k1 s1 ? N E1 EE|? ? ? ? ? ? ? ? ? ? ? ? ? ? ? N|? ? ? ? ? ? ? ? ? ? ? ? ? ? ? N]; subst; try congruence. inversion EE; subst. split; [exact SE|now left].
  - inversion E as [? ? ? ? ? ? ? ? ? ? ? N EE|? ? ? ? ? ? ? ? ? ? k1 s1 ? N E1 EE|? ? ? ? ? ? ? ? ? ? n1 u1 k1 s1 ? N E1 MX|? ? ? ? ? ? ? ? ? ? n1 u1 k1 s1 ? N E1 MX ER]; subst; [| |lia|].
    + inversion EE; subst. split; [exact SE|now left].
    + inversion EE; subst. split; [|now left]. apply seen_max; [exact SE|]. destruct (link_fail _ _ _ (plain_skipn _ t P) E1) as [K|K]; [left; lia|right; now right].
    + destruct (link_look _ _ _ _ _ (plain_skipn p t P) E1) as (c & r & OF & B & K). rewrite skipn_length in B. rewrite skipn_plus in K.
      assert (SE' : seen t (p + u1) (Nat.max m (p + k1))).
      { apply seen_max.
        - destruct SE as [X|[X|X]].
          + left. rewrite (op_ahead _ _ _ OF) in X. lia.
          + exfalso. destruct OF as [OF OC]. exact (INNER _ _ _ X OF OC).
          + exfalso. destruct X as (c' & r' & [OF' _] & k' & s' & EF). destruct OF as [OF OC]. rewrite OF in OF'. injection OF' as <- <-.
            inversion E1 as [| | | | | | | | | | | |? ? ? ? ? C| | | |]; subst. destruct (inv_seq _ _ _ _ _ _ _ _ _ _ _ _ _ _ C) as (n2 & u2 & k2 & s2 & E2 & C1). cbn [skipn] in E2.
            destruct (op_look _ _ (plain_skipn p t P) E2) as [(c2 & r2 & n' & OF2 & EQ & NM)|(? & ? & ? & _)]; [|discriminate]. injection EQ as -> -> -> ->. rewrite NM in C1. cbn [andb app Nat.add Nat.max] in C1.
            destruct (inv_seq _ _ _ _ _ _ _ _ _ _ _ _ _ _ C1) as (n3 & u3 & k3 & s3 & E3 & C3). rewrite (skip_next _ _ _ OF) in E3. pose proof (ev_det _ _ _ _ _ _ E3 EF). discriminate.
        - destruct K as [K|K]; [left; lia|right; now left]. }
      destruct (IH (p + u1)%nat _ _ _ _ _ _ _ ltac:(lia) ltac:(lia) ER SE') as [A B']. split; [exact A|]. right. exists c, r. split; [exact OF|]. destruct B' as [->|(c' & r' & _ & X)]; lia.
Qed.
Lemma chain_look f t n u k s : mode f -> plainSpace t -> Ev gA (ref name) f t (OMatch n u k s) -> seen t u k.
Proof.
  intros MF P E. apply (inv_ref_any gA name _ _ _ _ Lname) in E. inversion E as [| | | | | | | | | | | |? ? ? ? ? C| | | |]; subst.
  destruct (inv_seq _ _ _ _ _ _ _ _ _ _ _ _ _ _ C) as (n1 & u1 & k1 & s1 & E1 & C1). cbn [skipn] in E1. destruct (NODE _ _ _ _ _ _ E1) as [-> NT]. rewrite (mode_next f n1 NT) in C1. cbn [andb app Nat.add Nat.max] in C1.
  destruct (inv_seq _ _ _ _ _ _ _ _ _ _ _ _ _ _ C1) as (n2 & u2 & k2 & s2 & E2 & C2). inversion C2; subst. unfold many in E2. inversion E2 as [| | | | | | | | | | | | |? ? ? ? ? ? ? R| | |]; subst. set (t1 := skipn u1 t) in *.
  destruct (links_look t1 (plain_skipn u1 t P) (length t1) 0 0 _ _ _ _ _ _ ltac:(lia) ltac:(lia) R ltac:(left; lia)) as [S2 UU]. cbn [skipn] in UU.
  assert (S2' : seen t (u1 + u2) (u1 + k2)).
  { unfold seen in *. unfold t1 in S2. rewrite skipn_plus in S2. destruct S2 as [X|X]; [left; lia|now right]. }
  apply seen_max; [|exact S2']. pose proof (NEAR _ _ _ _ _ _ MF P E1) as K1. fold t1 in K1. destruct UU as [->|(c & r & OF & LU)].
  - rewrite Nat.add_0_r. destruct K1; [now left|right; now left].
  - left. destruct K1 as [K1|K1]; [rewrite (op_ahead _ _ _ OF) in K1; lia|]. exfalso. destruct OF as [OF OC]. exact (INNER _ _ _ K1 OF OC).
Qed.
Lemma chain_node f t n u k s : Ev gA (ref name) f t (OMatch n u k s) -> s = false /\ n_type n <> TOption.
Proof.
  intros E. apply (inv_ref_any gA name _ _ _ _ Lname) in E. inversion E as [| | | | | | | | | | | |? ? ? ? ? C| | | |]; subst.
  destruct (inv_seq _ _ _ _ _ _ _ _ _ _ _ _ _ _ C) as (n1 & u1 & k1 & s1 & E1 & C1). destruct (NODE _ _ _ _ _ _ E1) as [-> NT]. cbn [andb] in C1. split; [exact (seq_false _ _ _ _ _ _ _ _ C1)|].
  destruct (inv_seq _ _ _ _ _ _ _ _ _ _ _ _ _ _ C1) as (n2 & u2 & k2 & s2 & E2 & C2). inversion C2; subst. discriminate.
Qed.
End ChainLook.

(* ---------------- products and sums ---------------- *)

Lemma ops_dark a b : isWS a = false -> isWS b = false -> isDec a = false -> isDec b = false -> forall c, oneOp a b c -> isWS c = false /\ isDec c = false.
Proof. intros A B C D c [->| ->]; auto. Qed.
Lemma memb_two c a b : memb c [(b, b); (a, a)] -> oneOp a b c.
Proof. intros (x & [<-|[<-|[]]] & L); cbn in L; unfold oneOp; lia. Qed.
Definition timesFirst (l : list Z) : Prop := exists c r, skipn (lead l) l = c :: r /\ (c = 42 \/ c = 47).
Lemma first_fop c : First gA c (ref aFop) -> oneOp 42 47 c.
Proof. intros H. apply memb_two. apply (fir_sound gA aEnv aEnv_closed) in H. assert (E : firC aEnv (ref aFop) = [(47, 47); (42, 42)]) by (vm_compute; reflexivity). rewrite E in H. exact H. Qed.
Lemma first_top c : First gA c (ref aTop) -> oneOp 43 45 c.
Proof. intros H. apply memb_two. apply (fir_sound gA aEnv aEnv_closed) in H. assert (E : firC aEnv (ref aTop) = [(45, 45); (43, 43)]) by (vm_compute; reflexivity). rewrite E in H. exact H. Qed.
Lemma term_look f t n u k s : mode f -> plainSpace t -> Ev gA (ref aTerm) f t (OMatch n u k s) -> (k <= u + ahead (skipn u t))%nat \/ timesFirst (skipn u t).
Proof.
  intros MF P E. destruct (chain_look aTerm aFop aFactor 42 47 (fun _ => False) look_fop look_term ltac:(now apply (class_ref aFop _ look_fop)) ltac:(vm_compute; reflexivity) ltac:(vm_compute; reflexivity) first_fop
    ltac:(now apply (class_ref aFactor _ look_factor)) ltac:(now apply ops_dark) ltac:(discriminate) (fun f t n u k s M P E => or_introl (near_factor f t M P n u k s E)) factor_node ltac:(intros ? ? ? []) f t n u k s MF P E) as [X|[[]|(c & r & [X C] & _)]].
  - now left.
  - right. exists c, r. split; [exact X|exact C].
Qed.
Lemma term_node f t n u k s : Ev gA (ref aTerm) f t (OMatch n u k s) -> s = false /\ n_type n <> TOption.
Proof. exact (chain_node aTerm aFop aFactor look_term factor_node f t n u k s). Qed.
Lemma expr_node f t n u k s : Ev gA (ref aExpr) f t (OMatch n u k s) -> s = false /\ n_type n <> TOption.
Proof. exact (chain_node aExpr aTop aTerm look_expr term_node f t n u k s). Qed.

(** Nothing can be read behind: an operator without a product behind it. *)
Definition stuck (l : list Z) : Prop := exists c r, skipn (lead l) l = c :: r /\ (c = 42 \/ c = 47 \/ ((c = 43 \/ c = 45) /\ forall p s s', r = s ++ s' -> ~ Product found p s)).
Lemma product_longest t o : plainSpace t -> Ev gA (ref aTerm) SK t o -> ArithLang.longest (Product found) productTree (goesOn timesDivide) t o.
Proof. intros PS E. exact (term_longest (length t) (fun t o _ P E => sum_longest t o P E) expr_soft t o (Nat.le_refl _) PS E). Qed.
Lemma expr_look f t n u k s : mode f -> plainSpace t -> Ev gA (ref aExpr) f t (OMatch n u k s) -> (k <= u + ahead (skipn u t))%nat \/ stuck (skipn u t).
Proof.
  intros MF P E. destruct (chain_look aExpr aTop aTerm 43 45 timesFirst look_top look_expr ltac:(now apply (class_ref aTop _ look_top)) ltac:(vm_compute; reflexivity) ltac:(vm_compute; reflexivity) first_top
    ltac:(now apply (class_ref aTerm _ look_term)) ltac:(now apply ops_dark) ltac:(discriminate) term_look term_node
    ltac:(intros l c r (c' & r' & X & C) X' O; rewrite X in X'; injection X' as <- <-; destruct O as [O|O]; lia) f t n u k s MF P E) as [X|[(c & r & X & C)|(c & r & [X C] & k1 & s1 & EF)]].
  - now left.
  - right. exists c, r. split; [exact X|]. tauto.
  - right. exists c, r. split; [exact X|]. right. right. split; [exact C|]. assert (PR : plainSpace r).
    { pose proof (plain_skipn (lead (skipn u t) + 1) _ (plain_skipn u t P)) as Q. now rewrite (skip_next _ _ _ X) in Q. }
    exact (product_longest r _ PR EF).
Qed.

(** A sum that starts with a minus starts with a number, and behind the minus there is a product. *)
Lemma sum_minus e s s' l r : Sum found e s -> l = s ++ s' -> skipn (lead l) l = 45 :: r -> exists p z z', r = z ++ z' /\ Product found p z.
Proof.
  intros X EL ER. destruct X as [x t1 l1 t2 X _]. destruct X as [y t3 l3 t4 Y _]. rewrite <- !app_assoc in EL. set (s'' := t4 ++ t2 ++ s') in *. clearbody s''.
  assert (ONE : forall n z, Number found n z -> Product found (FNum n, []) z).
  { intros n z N. rewrite <- (app_nil_r z). constructor; [now constructor|constructor]. }
  destruct Y as [n t N|w c v W C F|w e' t w' W H W'].
  - destruct N as [w m ds W D|w ds W D|w ds W D|w ds W D|m ds es t D F FO].
    + destruct m; cbn [sign] in EL.
      * rewrite <- app_assoc in EL. destruct (white_head w 45 (ds ++ s'') l W eq_refl EL) as (_ & A & _). rewrite A in ER. injection ER as <-. exists (FNum (NDec false ds), []), ds, s''. split; [reflexivity|]. apply ONE. apply (nu_dec found [] false ds); [constructor|exact D].
      * exfalso. destruct D as [NE D]. destruct ds as [|d ds]; [congruence|]. cbn [app] in EL. rewrite <- app_assoc in EL. pose proof (Forall_inv D) as DD.
        destruct (white_head w d (ds ++ s'') l W (dec_dark d DD) EL) as (_ & A & _). rewrite A in ER. injection ER as -> _. unfold decDigit in DD. lia.
    + exfalso. rewrite <- app_assoc in EL. destruct (white_head w 48 _ l W eq_refl EL) as (_ & A & _). rewrite A in ER. discriminate.
    + exfalso. rewrite <- app_assoc in EL. destruct (white_head w 48 _ l W eq_refl EL) as (_ & A & _). rewrite A in ER. discriminate.
    + exfalso. rewrite <- app_assoc in EL. destruct (white_head w 48 _ l W eq_refl EL) as (_ & A & _). rewrite A in ER. discriminate.
    + destruct m; cbn [found] in FO.
      * destruct FO as (w & W & ->). cbn [sign] in EL. rewrite <- app_assoc in EL. destruct (white_head w 45 ((ds ++ 46 :: es) ++ s'') l W eq_refl EL) as (_ & A & _). rewrite A in ER. injection ER as <-.
        exists (FNum (NFloat false ds es), []), (ds ++ 46 :: es), s''. split; [reflexivity|]. apply ONE. apply nu_float; [exact D|exact F|]. exists ds. split; [now apply spread_run|reflexivity].
      * exfalso. destruct FO as (v & SD & ->). destruct SD as [|w0 d0 ds' v' W0 D0 SD].
        -- cbn [app] in EL. destruct (white_head [] 46 (es ++ s'') l (Forall_nil _) eq_refl EL) as (_ & A & _). rewrite A in ER. discriminate.
        -- rewrite <- !app_assoc in EL. cbn [app] in EL. destruct (white_head w0 d0 _ l W0 (dec_dark d0 D0) EL) as (_ & A & _). rewrite A in ER. injection ER as -> _. unfold decDigit in D0. lia.
  - exfalso. rewrite <- app_assoc in EL. destruct (white_head w c _ l W (letter_dark c C) EL) as (_ & A & _). rewrite A in ER. injection ER as -> _. unfold letter in C. lia.
  - exfalso. rewrite <- app_assoc in EL. destruct (white_head w 40 _ l W eq_refl EL) as (_ & A & _). rewrite A in ER. discriminate.
Qed.
Lemma sum_head e s s' l c r : Sum found e s -> l = s ++ s' -> skipn (lead l) l = c :: r -> decDigit c \/ c = 45 \/ c = 46 \/ letter c \/ c = 40.
Proof.
  intros X EL ER. destruct X as [x t1 l1 t2 X _]. destruct X as [y t3 l3 t4 Y _]. rewrite <- !app_assoc in EL. destruct Y as [n t N|w d v W C F|w e' t w' W H W'].
  - destruct (num_head l n t _ N EL) as (d & q & A & D). rewrite A in ER. injection ER as <- _. tauto.
  - rewrite <- app_assoc in EL. destruct (white_head w d _ l W (letter_dark d C) EL) as (_ & A & _). rewrite A in ER. injection ER as <- _. tauto.
  - rewrite <- app_assoc in EL. destruct (white_head w 40 _ l W eq_refl EL) as (_ & A & _). rewrite A in ER. injection ER as <- _. tauto.
Qed.
Lemma stuck_no l : stuck l -> forall e s s', l = s ++ s' -> ~ Sum found e s.
Proof.
  intros (c & r & E & C) e s s' EL X. pose proof (sum_head e s s' l c r X EL E) as H. unfold decDigit, letter in H. destruct C as [->|[->|[[->| ->] N]]]; try lia.
  destruct (sum_minus e s s' l r X EL E) as (p & z & z' & EZ & PZ). exact (N p z z' EZ PZ).
Qed.
Lemma stuck_skip l : stuck l -> stuck (skipn (lead l) l).
Proof. intros (c & r & E & C). exists c, r. rewrite lead_done. split; [exact E|exact C]. Qed.
Lemma stuck_ev l n u k s : plainSpace l -> stuck l -> Ev gA (ref aExpr) SK l (OMatch n u k s) -> False.
Proof. intros P S E. destruct (sum_longest l _ P E) as (_ & e & X & _). apply (stuck_no l S e (firstn u l) (skipn u l)); [now rewrite firstn_skipn|exact X]. Qed.

(* ---------------- at least this far a sum is looked at ---------------- *)

Lemma seq_far b rules : forall f t p m st kids o, EvSeq gA b rules f t p m st kids o -> (m <= looked o)%nat.
Proof. induction rules as [|r rules IH]; intros f t p m st kids o H; inversion H as [|? ? ? ? ? ? ? ? ? ? ? ? ? ? E F|]; subst; cbn [looked]; try lia. apply IH in F. lia. Qed.
Lemma alts_more f rules t : forall m st ml m' st', EvAlts gA rules f t m st ml m' st' -> (m <= m')%nat.
Proof. induction rules as [|r rules IH]; intros m st ml m' st' H; inversion H as [|? ? ? ? ? ? ? ? ? ? ? ? ? E F|? ? ? ? ? ? ? ? ? ? ? E F]; subst; try lia; apply IH in F; lia. Qed.
Lemma alts_far f rules t r o : In r rules -> Ev gA r f t o -> forall m st ml m' st', EvAlts gA rules f t m st ml m' st' -> (looked o <= m')%nat.
Proof.
  induction rules as [|r' rules IH]; intros J E m st ml m' st' H; [destruct J|]. inversion H as [|? ? ? ? ? ? n1 u1 k1 s1 ? ? ? E1 F|? ? ? ? ? ? k1 s1 ? ? ? E1 F]; subst; (destruct J as [->|J]; [|now apply (IH J E _ _ _ _ _ F)]);
    rewrite (ev_det _ _ _ _ _ _ E E1); apply alts_more in F; cbn [looked]; lia.
Qed.
Lemma choice_far b f rules t r o o' : In r rules -> Ev gA r f t o -> Ev gA (RChoice b [rules]) f t o' -> (looked o <= looked o')%nat.
Proof.
  intros J E H. inversion H as [| | | | | | | | | | | | | |? ? ? ? ? C| |]; subst. inversion C as [|? ? ? ? ? ? ? ? ? ? A EL|? ? ? ? ? ? ? ? ? ? n1 ? A SL|? ? ? ? ? ? ? ? ? ? A]; subst.
  - inversion EL; subst. exact (alts_far _ _ _ _ _ J E _ _ _ _ _ A).
  - exact (alts_far _ _ _ _ _ J E _ _ _ _ _ A).
  - exact (alts_far _ _ _ _ _ J E _ _ _ _ _ A).
Qed.
Lemma chain_far name op arg r f t o o' : lookup gA name = Some (xChain name op arg) -> lookup gA arg = Some r -> Ev gA (ref arg) f t o -> Ev gA (ref name) f t o' -> (looked o <= looked o')%nat.
Proof.
  intros L LA E H. apply (inv_ref_any gA name _ _ _ _ L) in H. inversion H as [| | | | | | | | | | | |? ? ? ? ? C| | | |]; subst. inversion C as [|? ? ? ? ? ? ? ? ? n1 u1 k1 s1 ? E1 F|? ? ? ? ? ? ? ? ? k1 s1 E1]; subst; cbn [skipn] in E1; rewrite (ev_det _ _ _ _ _ _ E E1).
  - apply seq_far in F. cbn [looked]. lia.
  - cbn [looked]. lia.
Qed.
Lemma expr_far l n u k s : plainSpace l -> Ev gA (ref aExpr) SK l (OMatch n u k s) -> (ahead l <= k)%nat /\ (lead l < u <= k)%nat /\ (k <= length l)%nat.
Proof.
  intros P E. pose proof (arith_ev _ _ _ _ (class_ref aExpr _ look_expr ltac:(discriminate)) P E) as G. cbn [asSem good] in G.
  destruct G as (B & [(N & _)|(LU & _)]); [apply (nul_sound gA aEnv aEnv_closed) in N; vm_compute in N; discriminate|].
  split; [|lia]. unfold ahead, fl. destruct (digitFirst l); [|lia].
  destruct (aTotal aTerm _ SK l look_term) as (o1 & E1). destruct (aTotal aFactor _ SK l look_factor) as (o2 & E2). destruct (aTotal aLiteral _ SK l look_lit) as (o3 & E3). pose proof (flt_ev SK l P) as E4.
  pose proof (chain_far aExpr aTop aTerm _ SK l _ _ look_expr look_term E1 E) as L1. pose proof (chain_far aTerm aFop aFactor _ SK l _ _ look_term look_factor E2 E1) as L2.
  apply (inv_ref_any gA _ _ _ _ _ look_factor) in E2. pose proof (choice_far (named aFactor) SK [ref aLiteral; ref aVar; xParen] l (ref aLiteral) o3 o2 (or_introl eq_refl) E3 E2) as L3.
  apply (inv_ref_any gA _ _ _ _ _ look_lit) in E3. pose proof (choice_far (named aLiteral) SK [ref aInteger; ref aFloat] l (ref aFloat) _ o3 (or_intror (or_introl eq_refl)) E4 E3) as L4. cbn [looked] in L1. lia.
Qed.
