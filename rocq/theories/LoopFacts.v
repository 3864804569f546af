(** Grammars without circles have an outcome on every text. *)
From Verif Require Import Base Stream StreamFacts CallFacts Node Rule SpecStream SpecRule TermFacts TermSpec EvalInv
  SpecEval SpecEv EvFacts EvalSem WfDec SpecTerm BlockFacts.

Lemma ofTerm_match ty b st x n u k s : ofTerm ty b st x = OMatch n u k s ->
  exists cs rd un, x = (Some cs, rd, un) /\ u = (length rd - length un)%nat.
Proof. destruct x as [[[cs|] rd] un]; cbn [ofTerm]; intros H; inversion H; subst. eauto 6. Qed.

Lemma tchar_uses c f t cs rd un : tchar c f t = (Some cs, rd, un) -> (1 <= length rd - length un)%nat /\ t <> [].
Proof. intros H. split; [|destruct t; [discriminate|congruence]]. apply tchar_sound in H as (_ & pre & post & _ & ->). rewrite !app_length. cbn. lia. Qed.
Lemma tlit_uses k l t cs rd un : tlit k l t = (Some cs, rd, un) -> l <> [] -> (1 <= length rd - length un)%nat /\ t <> [].
Proof.
  intros H N. split; [|destruct t; [discriminate|congruence]]. apply tlit_sound in H as (_ & -> & pre & post & _ & ->).
  rewrite !app_length. destruct l; cbn; [congruence|lia].
Qed.
Lemma trange_uses lo hi f t cs rd un : trange lo hi f t = (Some cs, rd, un) -> (1 <= length rd - length un)%nat /\ t <> [].
Proof.
  unfold trange. destruct t as [|c0 t0]; [discriminate|]. intros H. split; [|congruence]. revert H. set (t := c0 :: t0). cbv zeta.
  set (sp := if f =? SUGGEST_SKIP then ws_prefix t else []).
  destruct (find_idxp _ sp) as [i|] eqn:F.
  - intros H. injection H as <- <- <-. apply find_idxp_spec in F as [L _]. rewrite skipn_length. lia.
  - destruct (skipn (length sp) t) as [|c l]; [discriminate|]. destruct (_ && _); [|discriminate].
    intros H. injection H as <- <- <-. rewrite app_length. cbn. lia.
Qed.
Lemma skipn_full {A} p (t : list A) : skipn p t <> [] -> t <> [].
Proof. intros H ->. now rewrite skipn_nil in H. Qed.

Lemma list_cases {A} (l : list A) : l = [] \/ exists x l', l = x :: l'.
Proof. destruct l; eauto. Qed.

Section Class.
Variables (nulls : list (list Z)) (ranks : list (list Z * nat)) (g : rules_t).
Notation nullable := (nullable nulls).
Notation leftBelow := (leftBelow nulls ranks).
Notation loopsEnd := (loopsEnd nulls).
Hypothesis HN : forall n r, lookup g n = Some r -> nullable r = true -> isIn n nulls = true.
Hypothesis HL : forall n r, lookup g n = Some r -> leftBelow (rankIn ranks n) r = true.
Hypothesis HE : forall n r, lookup g n = Some r -> loopsEnd r = true.
Hypothesis HW : wfRules g.

Definition um (P : nat -> Prop) (o : ores) : Prop := match o with OMatch _ u _ _ => P u | OFail _ _ => True end.

Lemma end_um b mn p m st kids o : EvEnd b mn p m st kids o -> um (fun u => u = p /\ mn <= Z.of_nat (length kids)) o.
Proof. intros H. inversion H; subst; cbn; auto. Qed.

(** A rule that is not nullable uses text. *)
Lemma uses_mut :
  (forall r f t o, Ev g r f t o -> wfRule r -> nullable r = false -> um (fun u => (1 <= u)%nat /\ t <> []) o) /\
  (forall b rules f t p m st kids o, EvSeq g b rules f t p m st kids o -> (forall x, In x rules -> wfRule x) ->
     um (fun u => (p <= u)%nat /\ (forallb nullable rules = false -> (p < u)%nat /\ t <> [])) o) /\
  (forall b r mn mx f t p m st kids o, EvRep g b r mn mx f t p m st kids o -> wfRule r ->
     um (fun u => (p <= u)%nat /\ (nullable r = false -> Z.of_nat (length kids) < mn -> (p < u)%nat /\ t <> [])) o) /\
  (forall rules f t m st ml m' st', EvAlts g rules f t m st ml m' st' -> (forall x, In x rules -> wfRule x) ->
     existsb nullable rules = false -> forall x, In x ml -> (1 <= snd x)%nat /\ t <> []) /\
  (forall b groups f t m st o, EvChoice g b groups f t m st o -> (forall grp x, In grp groups -> In x grp -> wfRule x) ->
     existsb (existsb nullable) groups = false -> um (fun u => (1 <= u)%nat /\ t <> []) o) /\
  (forall excl t p m ml m2, EvExcl g excl t p m ml m2 -> True) /\
  (forall esc t p m m1, EvPlain g esc t p m m1 -> True) /\
  (forall b on v cl esc excl t p m c o, EvScan g b on v cl esc excl t p m c o -> um (fun u => p <= u)%nat o).
Proof.
  apply Ev_mut; try (cbn; intros; exact I).
  - intros b c u f t _ _. destruct (ofTerm TChar b true (tchar c f t)) eqn:E; [|exact I].
    apply ofTerm_match in E as (cs & rd & un & E & ->). eapply tchar_uses; eauto.
  - intros b l f t W _. inversion W; subst. destruct (ofTerm TChars b true _) eqn:E; [|exact I].
    apply ofTerm_match in E as (cs & rd & un & E & ->). eapply tlit_uses; eauto. destruct l; [cbn in *; lia|congruence].
  - intros b l f t _ NL. destruct (ofTerm TString b false _) eqn:E; [|exact I].
    apply ofTerm_match in E as (cs & rd & un & E & ->). eapply tlit_uses; eauto. destruct l; [discriminate|congruence].
  - intros b lo lu hi hu f t _ _. destruct (ofTerm TChars b true _) eqn:E; [|exact I].
    apply ofTerm_match in E as (cs & rd & un & E & ->). eapply trange_uses; eauto.
  - intros b f t _ H. discriminate H.
  - intros b n r f t nd u k st EL _ IH _ NL. cbn in *. apply IH; [eapply HW; eauto|].
    destruct (nullable r) eqn:NR; [|reflexivity]. rewrite (HN _ _ EL NR) in NL. discriminate.
  - intros b r f t nd u k st _ IH W NL. inversion W; subst. cbn in *. auto.
  - cbn. discriminate.
  - cbn. discriminate.
  - intros b l f t o _ IH W NL. inversion W; subst. cbn [SpecTerm.nullable] in NL. specialize (IH ltac:(assumption)).
    destruct o; [|exact I]. cbn in *. destruct IH as [_ IH]. specialize (IH NL). split; [lia|tauto].
  - intros b r mn mx f t o _ IH W NL. inversion W; subst. cbn [SpecTerm.nullable] in NL. apply orb_false_iff in NL as [N1 N2].
    specialize (IH ltac:(assumption)). destruct o; [|exact I]. cbn in *. destruct IH as [_ IH]. specialize (IH N2 ltac:(lia)). split; [lia|tauto].
  - intros b gs f t o _ IH W NL. inversion W; subst. apply IH; assumption.
  - intros b op v cl esc excl f t on u k st o _ IH1 _ IH2 W NL. inversion W; subst. specialize (IH1 ltac:(assumption) NL).
    destruct o; [|exact I]. cbn in *. split; [lia|tauto].
  (* sequence *)
  - intros. cbn. split; [lia|discriminate].
  - intros b r rules f t p m st kids n u k s o _ IH1 _ IH2 W. specialize (IH2 (fun x Hx => W x (or_intror Hx))).
    specialize (IH1 (W r (or_introl eq_refl))). destruct o; [|exact I]. cbn in *. destruct IH2 as [A B]. split; [lia|].
    intros F. apply andb_false_iff in F as [F|F].
    + destruct (IH1 F) as [X Y]. split; [lia|]. eapply skipn_full; eauto.
    + destruct (B F) as [X Y]. split; [lia|exact Y].
  (* repetition *)
  - intros b r mn mx f t p m st kids o _ EE W. apply end_um in EE. destruct o; [|exact I]. cbn in *. split; [lia|]. intros. lia.
  - intros b r mn mx f t p m st kids k s o _ _ _ EE W. apply end_um in EE. destruct o; [|exact I]. cbn in *. split; [lia|]. intros. lia.
  - intros b r mn mx f t p m st kids n u k s o NE _ IH1 _ _ EE W. apply end_um in EE. specialize (IH1 W). destruct o; [|exact I]. cbn in *.
    split; [lia|]. intros F _. specialize (IH1 F). split; [lia|]. eapply skipn_full; eauto.
  - intros b r mn mx f t p m st kids n u k s o NE _ IH1 _ _ IH2 W. specialize (IH1 W). specialize (IH2 W). destruct o; [|exact I]. cbn in *.
    split; [lia|]. intros F _. specialize (IH1 F). split; [lia|]. eapply skipn_full; eauto.
  (* alternatives *)
  - intros f t m st _ _ x [].
  - intros r rules f t m st n u k s ml m' st' _ IH1 _ IH2 W F x. cbn in F. apply orb_false_iff in F as [F1 F2]. intros [<-|Hx].
    + exact (IH1 (W r (or_introl eq_refl)) F1).
    + apply IH2; auto. intros y Hy. apply W. now right.
  - intros r rules f t m st k s ml m' st' _ IH1 _ IH2 W F x Hx. cbn in F. apply orb_false_iff in F as [F1 F2]. apply IH2; auto.
    intros y Hy. apply W. now right.
  (* choice *)
  - intros b grp groups f t m st m' st' o _ IH1 _ IH2 W F. cbn in F. apply orb_false_iff in F as [F1 F2]. apply IH2; auto.
    intros gr x Hg. apply (W gr x). now right.
  - intros b grp groups f t m st ml m' st' n u _ IH1 (l1 & l2 & -> & _) W F. cbn in F. apply orb_false_iff in F as [F1 F2].
    cbn. apply (IH1 (fun x => W grp x (or_introl eq_refl)) F1 (n, u)). apply in_or_app. right. now left.
  (* scan *)
  - intros b on v cl esc excl t p m c m1 m2 nc u k st _ _ _ _ _ _. cbn. destruct v; lia.
  - intros b on v cl esc excl t p m c m1 m2 k st x l o _ _ _ _ _ _ _ _ IH. destruct o; [|exact I]. cbn in *. lia.
  - intros. destruct o; [|exact I]. cbn in *. lia.
  - intros. destruct o; [|exact I]. cbn in *. lia.
  - intros. destruct o; [|exact I]. cbn in *. lia.
Qed.
Lemma uses r f t n u k st : wfRule r -> nullable r = false -> Ev g r f t (OMatch n u k st) -> (1 <= u)%nat /\ t <> [].
Proof. intros W NL E. exact (proj1 uses_mut _ _ _ _ E W NL). Qed.

Definition leftSeq (k : nat) := fix go l := match l with [] => true | x :: l' => leftBelow k x && (negb (nullable x) || go l') end.

Lemma leftBelow_top K : (forall n, (rankIn ranks n < K)%nat) -> forall r, leftBelow K r = true.
Proof.
  intros HK r. remember (rsize r) as n eqn:E. assert (L : (rsize r <= n)%nat) by lia. clear E. revert r L.
  induction n as [|n IH]; intros r L; [destruct r; cbn in L; lia|].
  destruct r as [b c u|b l|b l|b lo lu hi hu|b|b nm|b x|b x|b x mn mx|b gs|b l|b op v cl e xs]; cbn [rsize SpecTerm.leftBelow] in *; auto.
  - apply Nat.ltb_lt. apply HK.
  - apply IH. lia.
  - apply IH. lia.
  - apply IH. lia.
  - apply forallb_forall. intros gr Hg. apply forallb_forall. intros x Hx. apply IH.
    pose proof (list_sum_in rsize gr x Hx). pose proof (list_sum_in (fun g => list_sum (List.map rsize g)) gs gr Hg). cbn beta in *. lia.
  - change (leftSeq K l = true).
    assert (H : forall x, In x l -> leftBelow K x = true) by (intros x Hx; apply IH; pose proof (list_sum_in rsize l x Hx); lia).
    clear L. induction l as [|x l IHl]; [reflexivity|]. cbn [leftSeq]. fold (leftSeq K).
    rewrite (H x (or_introl eq_refl)), IHl by (intros y Hy; apply H; now right). now rewrite orb_true_r.
  - rewrite !IH by lia. destruct e as [e|]; [rewrite IH by lia|].
    all: replace (forallb (leftBelow K) xs) with true by (symmetry; apply forallb_forall; intros x Hx; apply IH; pose proof (list_sum_in rsize xs x Hx); lia).
    all: now rewrite orb_true_r.
Qed.
Variable K : nat.
Hypothesis HK : forall n, (rankIn ranks n < K)%nat.

Definition defined r f t := exists o, Ev g r f t o.

Section Here.
Variables (t : list Z).
Hypothesis shorter : forall r f t', (length t' < length t)%nat -> wfRule r -> loopsEnd r = true -> defined r f t'.

(** An element at [p]: a shorter text, or the same text. *)
Lemma def_at r f p : wfRule r -> loopsEnd r = true -> (p = 0%nat \/ t = [] -> defined r f t) -> defined r f (skipn p t).
Proof.
  intros W E H. destruct p as [|p]; [apply H; now left|]. destruct t as [|c l] eqn:ET; [rewrite skipn_nil; apply H; now right|].
  apply shorter; auto. rewrite skipn_length. cbn. lia.
Qed.

Lemma end_total b mn p m st kids : exists o, EvEnd b mn p m st kids o.
Proof. destruct (Z.ltb_spec (Z.of_nat (length kids)) mn); eexists; [apply ee_few; lia|apply ee_ok; lia]. Qed.

Lemma seq_total b k : forall rules, (forall x, In x rules -> wfRule x /\ loopsEnd x = true) ->
  (forall x f, In x rules -> leftBelow k x = true -> defined x f t) ->
  forall f p m st kids, (p = 0%nat \/ t = [] -> leftSeq k rules = true) -> exists o, EvSeq g b rules f t p m st kids o.
Proof.
  induction rules as [|r rules IH]; intros W D f p m st kids G; [eexists; constructor|].
  destruct (W r (or_introl eq_refl)) as [Wr Er]. cbn [leftSeq] in G. fold (leftSeq k) in G.
  assert (X : defined r f (skipn p t)).
  { apply def_at; auto. intros C. apply D; [now left|]. specialize (G C). now apply andb_true_iff in G as [? _]. }
  destruct X as ([n u kk s|kk s] & E).
  - destruct (IH (fun x Hx => W x (or_intror Hx)) (fun x f Hx => D x f (or_intror Hx)) (nextMode f n s) (p + u)%nat (Nat.max m (p + kk)) (st && s)%bool (kids ++ [n])) as (o & Ho).
    + intros C. assert (C' : p = 0%nat \/ t = []) by (destruct C; [left; lia|now right]). specialize (G C'). apply andb_true_iff in G as [_ G].
      destruct (nullable r) eqn:NL; [exact G|]. destruct (uses _ _ _ _ _ _ _ Wr NL E) as [U1 U2].
      destruct C as [C|C]; [lia|]. rewrite C, skipn_nil in U2. congruence.
    + exists o. eapply es_step; eauto.
  - eexists. eapply es_fail; eauto.
Qed.

Lemma rep_total b r mn mx : wfRule r -> (forall f p, defined r f (skipn p t)) -> (0 < mx \/ nullable r = false) ->
  forall f p m st kids, (0 < mx -> Z.of_nat (length kids) < mx) -> exists o, EvRep g b r mn mx f t p m st kids o.
Proof.
  intros W D B f.
  enough (H : forall n p m st kids, (0 < mx -> Z.of_nat (length kids) < mx) ->
    (0 < mx /\ mx - Z.of_nat (length kids) <= Z.of_nat n) \/ (nullable r = false /\ (length (skipn p t) < n)%nat) -> 
    exists o, EvRep g b r mn mx f t p m st kids o).
  { intros p m st kids I. destruct B as [B|B]; [apply (H (Z.to_nat (mx - Z.of_nat (length kids)))); auto; left; lia|].
    apply (H (S (length (skipn p t)))); [exact I|right; split; [exact B|lia]]. }
  induction n as [|n IH]; intros p m st kids I M.
  { destruct M as [M|M]; [|lia]. specialize (I ltac:(lia)). lia. }
  destruct (skipn p t) as [|x l] eqn:ES.
  { destruct (end_total b mn p m st kids) as (o & Ho). exists o. now apply er_end. }
  assert (NE : skipn p t <> []) by (rewrite ES; discriminate).
  destruct (D f p) as ([nd u kk s|kk s] & E).
  - destruct (Z_lt_dec 0 mx) as [PM|PM].
    + destruct (Z.eq_dec (Z.of_nat (length (kids ++ [nd]))) mx) as [EQ|NQ].
      * destruct (end_total b mn (p + u) (Nat.max m (p + kk)) (st && s) (kids ++ [nd])) as (o & Ho). exists o. eapply er_full; eauto.
      * specialize (I PM). rewrite app_length in NQ. cbn [length] in NQ.
        destruct (IH (p + u)%nat (Nat.max m (p + kk)) (st && s)%bool (kids ++ [nd])) as (o & Ho); [rewrite app_length; cbn; lia| |].
        -- destruct M as [M|[M1 M2]]; [left; rewrite app_length; cbn [length]; lia|]. right. split; [exact M1|].
           destruct (uses _ _ _ _ _ _ _ W M1 E). rewrite <- ES, skipn_length in M2. rewrite skipn_length. assert (length (skipn p t) > 0)%nat by (rewrite ES; cbn; lia). rewrite skipn_length in *. lia.
        -- exists o. eapply er_step; eauto. rewrite app_length. cbn. lia.
    + destruct M as [M|[M1 M2]]; [lia|]. destruct (IH (p + u)%nat (Nat.max m (p + kk)) (st && s)%bool (kids ++ [nd])) as (o & Ho); [lia| |].
      * right. split; [exact M1|]. destruct (uses _ _ _ _ _ _ _ W M1 E). rewrite <- ES, skipn_length in M2. rewrite skipn_length.
        assert (length (skipn p t) > 0)%nat by (rewrite ES; cbn; lia). rewrite skipn_length in *. lia.
      * exists o. eapply er_step; eauto. lia.
  - destruct (end_total b mn p (Nat.max m (p + kk)) (st && s) kids) as (o & Ho). exists o. eapply er_stop; eauto.
Qed.

Lemma alts_total tt f : forall rules, (forall x, In x rules -> defined x f tt) ->
  forall m st, exists ml m' st', EvAlts g rules f tt m st ml m' st'.
Proof.
  induction rules as [|r rules IH]; intros D m st; [do 3 eexists; constructor|].
  destruct (D r (or_introl eq_refl)) as ([n u k s|k s] & E).
  - destruct (IH (fun x Hx => D x (or_intror Hx)) (Nat.max m k) (st && s)%bool) as (ml & m' & st' & A). do 3 eexists. eapply ea_match; eauto.
  - destruct (IH (fun x Hx => D x (or_intror Hx)) (Nat.max m k) (st && s)%bool) as (ml & m' & st' & A). do 3 eexists. eapply ea_fail; eauto.
Qed.
Lemma strict_dec ml : (exists n u, strictlyLongest ml n u) \/ (forall n u, ~ strictlyLongest ml n u).
Proof.
  destruct (List.filter (fun x => (snd x =? longest ml)%nat) ml) as [|[n u] [|y l]] eqn:E.
  - right. intros n u H. apply strictly_filter in H. congruence.
  - left. exists n, u. now apply strictly_filter.
  - right. intros n' u' H. apply strictly_filter in H. congruence.
Qed.
Lemma choice_total b f : forall groups, (forall grp x, In grp groups -> In x grp -> defined x f t) ->
  forall m st, exists o, EvChoice g b groups f t m st o.
Proof.
  induction groups as [|grp groups IH]; intros D m st; [eexists; constructor|].
  destruct (alts_total t f grp (fun x => D grp x (or_introl eq_refl)) m st) as (ml & m' & st' & A).
  destruct ml as [|x ml].
  - destruct (IH (fun gr x Hg => D gr x (or_intror Hg)) m' st') as (o & Ho). exists o. eapply ec_next; eauto.
  - destruct (strict_dec (x :: ml)) as [(n & u & S)|S]; eexists; [eapply ec_pick; eauto|eapply ec_tie; eauto; discriminate].
Qed.

Lemma excl_total excl p m : (forall x f, In x excl -> defined x f (skipn p t)) -> exists ml m2, EvExcl g excl t p m ml m2.
Proof.
  intros D. destruct excl as [|x excl]; [do 2 eexists; constructor|].
  destruct (alts_total (skipn p t) NOT_SKIP (x :: excl) (fun y => D y NOT_SKIP) 0 true) as (ml & k & st & A). do 2 eexists. econstructor; eauto.
Qed.
Lemma excl_single excl p m ml m2 : (length excl <= 1)%nat -> EvExcl g excl t p m ml m2 -> ml = [] \/ exists n u, ml = [(n, u)].
Proof.
  intros L H. destruct H as [|x excl tt p m ml k st A]; [now left|]. destruct excl; [|cbn in L; lia].
  inversion A; subst; match goal with H : EvAlts _ [] _ _ _ _ _ _ _ |- _ => inversion H; subst end; eauto.
Qed.
Lemma scan_total b on v cl esc excl p0 :
  (forall x, esc = Some x -> wfRule x /\ nullable x = false /\ (length excl <= 1)%nat) ->
  (forall x f p, (p0 <= p)%nat -> x = cl \/ esc = Some x \/ In x excl -> defined x f (skipn p t)) ->
  forall n p m c, (p0 <= p)%nat -> (length (skipn p t) < n)%nat -> exists o, EvScan g b on v cl esc excl t p m c o.
Proof.
  intros HEsc D. induction n as [|n IH]; intros p m c LP LN; [lia|].
  assert (PL : (exists m1, EvPlain g esc t p m m1) \/ exists e ne ue ke se, esc = Some e /\ Ev g e NOT_SKIP (skipn p t) (OMatch ne ue ke se)).
  { destruct esc as [e|]; [|left; eexists; constructor]. destruct (D e NOT_SKIP p LP (or_intror (or_introl eq_refl))) as ([ne ue ke se|ke se] & E).
    - right. eauto 8.
    - left. eexists. econstructor; eauto. }
  destruct PL as [(m1 & PL)|(e & ne & ue & ke & se & -> & E)].
  - destruct (excl_total excl p m1) as (ml & m2 & X); [intros; apply D; auto|]. destruct ml as [|y ml].
    + destruct (D cl NOT_SKIP p LP (or_introl eq_refl)) as ([nc u k st|k st] & C).
      * eexists. eapply sc_close; eauto.
      * destruct (list_cases (skipn p t)) as [ES|(x & l & ES)]; [eexists; eapply sc_eof; eauto|].
        destruct (IH (S p) (Nat.max (Nat.max m2 (p + k)) (S p)) (c ++ [x])) as (o & Ho); [lia| |].
        { rewrite skipn_length in *. assert (length (skipn p t) > 0)%nat by (rewrite ES; cbn; lia). rewrite skipn_length in *. lia. }
        exists o. eapply sc_next; eauto.
    + eexists. eapply sc_exclude; eauto. discriminate.
  - destruct (HEsc e eq_refl) as (We & Ne & LX). destruct (uses _ _ _ _ _ _ _ We Ne E) as [U1 U2].
    assert (SH : forall q, (p + ue <= q)%nat -> (length (skipn q t) < n)%nat).
    { intros q Hq. assert (length (skipn p t) > 0)%nat by (destruct (skipn p t); [congruence|cbn; lia]). rewrite skipn_length in *. lia. }
    destruct (excl_total excl (p + ue) (Nat.max m (p + ke))) as (ml & m2 & X); [intros; apply D; auto; lia|].
    destruct (excl_single _ _ _ _ _ LX X) as [->|(n1 & u & ->)].
    + destruct (D cl NOT_SKIP (p + ue)%nat ltac:(lia) (or_introl eq_refl)) as ([nc u k st|k st] & C).
      * destruct (IH (p + ue + u)%nat (Nat.max m2 (p + ue + k)) (c ++ firstn u (skipn (p + ue) t)) ltac:(lia) (SH (p + ue + u)%nat ltac:(lia))) as (o & Ho).
        exists o. eapply sc_esc_close; eauto.
      * destruct (list_cases (skipn (p + ue) t)) as [ES|(x & l & ES)]; [eexists; eapply sc_esc_eof; eauto|].
        destruct (IH (S (p + ue)) (Nat.max (Nat.max m2 (p + ue + k)) (S (p + ue))) (c ++ firstn ue (skipn p t) ++ [x]) ltac:(lia) (SH (S (p + ue)) ltac:(lia))) as (o & Ho).
        exists o. eapply sc_esc_other; eauto.
    + destruct (IH (p + ue + u)%nat m2 (c ++ firstn u (skipn (p + ue) t)) ltac:(lia) (SH (p + ue + u)%nat ltac:(lia))) as (o & Ho).
      exists o. eapply sc_esc_exclude; eauto. exists [], []. split; [reflexivity|constructor].
Qed.
End Here.

Theorem ev_total : forall t r f, wfRule r -> loopsEnd r = true -> defined r f t.
Proof.
  induction t as [t IHt] using list_len_ind.
  assert (shorter : forall r f t', (length t' < length t)%nat -> wfRule r -> loopsEnd r = true -> defined r f t') by (intros; now apply IHt).
  enough (H : forall k r f, wfRule r -> loopsEnd r = true -> leftBelow k r = true -> defined r f t).
  { intros r f W E. apply (H K); auto. now apply leftBelow_top. }
  induction k as [k IHk] using (well_founded_induction lt_wf). intros r.
  remember (rsize r) as sz eqn:E. assert (L : (rsize r <= sz)%nat) by lia. clear E. revert r L.
  induction sz as [|sz IH]; intros r L f W LE LB; [destruct r; cbn in L; lia|].
  destruct r as [b c u|b l|b l|b lo lu hi hu|b|b nm|b x|b x|b x mn mx|b gs|b l|b op v cl e xs];
    cbn [rsize SpecTerm.leftBelow SpecTerm.loopsEnd] in *.
  1-5: eexists; constructor.
  - destruct (lookup g nm) as [r|] eqn:EL; [|eexists; now apply ev_undef]. apply Nat.ltb_lt in LB.
    destruct (IHk _ LB r f (HW _ _ EL) (HE _ _ EL) (HL _ _ EL)) as ([n u kk s|kk s] & E); eexists; [eapply ev_ref; eauto|eapply ev_ref_fail; eauto].
  - inversion W; subst. destruct (IH x ltac:(lia) f ltac:(assumption) LE LB) as ([n u kk s|kk s] & E); eexists; [eapply ev_group; eauto|eapply ev_group_fail; eauto].
  - inversion W; subst. destruct (IH x ltac:(lia) f ltac:(assumption) LE LB) as ([n u kk s|kk s] & E); eexists; [eapply ev_option; eauto|eapply ev_option_none; eauto].
  - inversion W as [| | | | | | | |? ? ? ? Wx| | |]; subst. apply andb_true_iff in LE as [LE1 LE2].
    destruct (rep_total t b x mn mx Wx) with (f := f) (p := 0%nat) (m := 0%nat) (st := true) (kids := @nil node) as (o & Ho).
    + intros f' p. apply (def_at t shorter); auto. intros _. apply IH; auto. lia.
    + apply orb_true_iff in LE2 as [Y|Y]; [left; lia|right; now apply negb_true_iff].
    + cbn. lia.
    + exists o. now apply ev_rep.
  - inversion W as [| | | | | | | | |? ? _ _ Wx| |]; subst.
    destruct (choice_total t b f gs) with (m := 0%nat) (st := true) as (o & Ho); [|exists o; now apply ev_choice].
    intros gr x Hg Hx. rewrite forallb_forall in LE, LB. pose proof (LE gr Hg) as A. pose proof (LB gr Hg) as B. rewrite forallb_forall in A, B.
    apply IH; eauto. pose proof (list_sum_in rsize gr x Hx). pose proof (list_sum_in (fun g => list_sum (List.map rsize g)) gs gr Hg). cbn beta in *. lia.
  - inversion W as [| | | | | | | | | |? ? _ Wx|]; subst. rewrite forallb_forall in LE.
    destruct (seq_total t shorter b k l) with (f := f) (p := 0%nat) (m := 0%nat) (st := true) (kids := @nil node) as (o & Ho); [| | |exists o; now apply ev_concat].
    + intros x Hx. split; auto.
    + intros x f' Hx B. apply IH; auto. pose proof (list_sum_in rsize l x Hx). lia.
    + intros _. exact LB.
  - inversion W as [| | | | | | | | | | |? ? ? ? ? ? Wo Wc We Wx]; subst. rewrite !andb_true_iff in LE. destruct LE as [[[LE1 LE2] LE3] LE4].
    apply andb_true_iff in LB as [LB1 LB2]. destruct (IH op ltac:(lia) f Wo LE1 LB1) as ([on u kk s|kk s] & E); [|eexists; eapply ev_block_fail; eauto].
    assert (NB : u = 0%nat \/ t = [] -> leftBelow k cl = true /\ (forall x, e = Some x -> leftBelow k x = true) /\ (forall x, In x xs -> leftBelow k x = true)).
    { intros C. destruct (nullable op) eqn:NO.
      - cbn [negb orb] in LB2. rewrite !andb_true_iff in LB2. destruct LB2 as [[X Y] V]. rewrite forallb_forall in V. split; [exact X|]. split; [|exact V].
        intros x ->. exact Y.
      - destruct (uses _ _ _ _ _ _ _ Wo NO E). destruct C; [lia|congruence]. }
    destruct (scan_total t shorter b on v cl e xs u) with (n := S (length (skipn u t))) (p := u) (m := kk) (c := @nil Z) as (o & Ho); [| |lia|lia|exists o; eapply ev_block; eauto].
    + intros x ->. rewrite !andb_true_iff in LE4. destruct LE4 as [[Y V] U]. split; [auto|]. split; [now apply negb_true_iff|now apply Nat.leb_le].
    + rewrite forallb_forall in LE3.
      intros x f' p LP [->|[->|Hx]].
      * apply (def_at t shorter); auto. intros C. assert (C' : u = 0%nat \/ t = []) by (destruct C; [left; lia|now right]). destruct (NB C') as (A & _). apply IH; auto. lia.
      * rewrite !andb_true_iff in LE4. destruct LE4 as [[Y V] U]. apply (def_at t shorter); auto. intros C. assert (C' : u = 0%nat \/ t = []) by (destruct C; [left; lia|now right]). destruct (NB C') as (_ & A & _). apply IH; auto. cbn in L. lia.
      * apply (def_at t shorter); auto. intros C. assert (C' : u = 0%nat \/ t = []) by (destruct C; [left; lia|now right]). destruct (NB C') as (_ & _ & A). apply IH; auto.
        pose proof (list_sum_in rsize xs x Hx). lia.
Qed.
End Class.

Lemma lookup_In g n r : lookup g n = Some r -> exists m, In (m, r) g /\ m = n.
Proof.
  induction g as [|[m x] g IH]; cbn; [discriminate|]. destruct (runes_eqb m n) eqn:E.
  - intros H. injection H as ->. apply runes_eqb_eq in E. eauto.
  - intros H. destruct (IH H) as (k & A & B). eauto.
Qed.
Lemma ranks_bounded ranks : exists K, forall n, (rankIn ranks n < K)%nat.
Proof.
  induction ranks as [|[m k] l [K H]]; [exists 1%nat; cbn; lia|]. exists (S (Nat.max K k)). intros n. cbn.
  destruct (runes_eqb m n); [lia|]. specialize (H n). lia.
Qed.

Theorem noCircles_total nulls ranks g : wfRules g -> noCircles nulls ranks g = true ->
  forall n r f t, lookup g n = Some r -> exists o, Ev g r f t o.
Proof.
  intros W H n r f t EL. destruct (ranks_bounded ranks) as [K HK].
  assert (X : forall n r, lookup g n = Some r -> loopsEnd nulls r = true /\ leftBelow nulls ranks (rankIn ranks n) r = true /\
    (nullable nulls r = true -> isIn n nulls = true)).
  { intros m x Hx. destruct (lookup_In _ _ _ Hx) as (m' & I & ->). unfold noCircles in H. rewrite forallb_forall in H. specialize (H _ I). cbn in H.
    rewrite !andb_true_iff, orb_true_iff, negb_true_iff in H. destruct H as [[A B] C]. split; [exact A|]. split; [exact B|]. intros NX. destruct C; congruence. }
  eapply (ev_total nulls ranks g) with (K := K); eauto.
  - intros m x Hx. apply X. exact Hx.
  - intros m x Hx. apply X. exact Hx.
  - intros m x Hx. apply X in Hx. tauto.
  - apply X in EL. tauto.
Qed.

Theorem noCircles_ends nulls ranks g n r f s : wfRules g -> noCircles nulls ranks g = true -> lookup g n = Some r -> runesOk (rest s) ->
  (exists fuel, sem fuel g r f (rest s) = SUnsafe) \/ exists fuel res s', eval fuel g r s f = Ok (res, s').
Proof.
  intros W H EL C. destruct (noCircles_total nulls ranks g W H n r f (rest s) EL) as (o & E).
  destruct (refine_complete _ _ _ _ _ W (W _ _ EL) C E) as [U|(fuel & res & s' & X & _)]; eauto.
Qed.
