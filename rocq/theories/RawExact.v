(** EvalRaw answers whenever the rounds come to an end. *)
From Verif Require Import Base Stream Node Rule Grammar StreamFacts SpecStream SpecRule SpecError EvalInv RuleFacts SpecEval SpecEv SemFacts EvFacts EvalSem ChoiceFacts SpecDriver DriverFacts DriverErr.

Section Exact.
Variables (g : rules_t) (t : list Z) (roots : list (list Z * rule)).
Hypothesis W : wfRules g.
Hypothesis C : runesOk t.
Hypothesis HR : wfRoots roots.
Hypothesis SAFE : forall x f p, In x roots -> mode f -> careful g (snd x) f (skipn p t).
Hypothesis ORD : orderly g (List.map snd roots) t.
Notation rules := (List.map snd roots).
Notation hits outs := (flat_map (fun o => match o with OMatch n u _ _ => [(n, u)] | OFail _ _ => [] end) outs).

Lemma all_sem f t' : forall rs outs, (forall r, In r rs -> careful g r f t') -> Forall2 (fun r o => Ev g r f t' o) rs outs ->
  exists N, forall fuel, (N <= fuel)%nat -> exists ys, semAll fuel g f t' rs = SOk ys /\ List.map noAmb ys = outs /\ Forall2 (fun r y => sem fuel g r f t' = SOk y) rs ys.
Proof.
  intros rs outs SF F. induction F as [|r o rs outs EV F IH].
  - exists 0%nat. intros fuel _. exists []. repeat split. constructor.
  - destruct (IH (fun r' H => SF r' (or_intror H))) as (N & HN). destruct (ev_complete _ _ _ _ _ EV) as (M & HM). exists (Nat.max N M). intros fuel L.
    destruct (HN fuel ltac:(lia)) as (ys & EY & MY & FY). destruct (HM fuel ltac:(lia)) as [U|(y & EQ & NY)]; [now destruct (SF r (or_introl eq_refl) fuel)|].
    exists (y :: ys). cbn [semAll]. rewrite EQ, EY. cbn [sbind List.map]. split; [reflexivity|]. split; [congruence|]. constructor; auto.
Qed.
Lemma all_careful f p r : mode f -> In r rules -> careful g r f (skipn p t).
Proof. intros MF H. apply in_map_iff in H as (x & <- & Hx). now apply SAFE. Qed.

Definition settles (f : Z) (t' : list Z) (F : list node -> verdict) : Prop := exists N, forall lf fuel nodes, (N <= lf)%nat -> (N <= fuel)%nat -> rawText lf fuel g rules f t' nodes = Ok (F nodes).
Lemma settle_end f : settles f [] (fun nodes => match nodes with [] => VNoNode | _ => VTree (rev nodes) end).
Proof. exists 1%nat. intros [|lf] fuel nodes L _; [lia|]. reflexivity. Qed.
Lemma settle_dead f p : mode f -> deadEnd g rules f (skipn p t) -> settles f (skipn p t) (fun _ => VNoMatch).
Proof.
  intros MF (NE & D). assert (X : exists outs, Forall2 (fun r o => Ev g r f (skipn p t) o) rules outs /\ hits outs = []).
  { clear - D. induction rules as [|r rs IH]; [exists []; repeat constructor|]. destruct IH as (outs & F & H0); [intros r' H; apply D; now right|].
    destruct (D r (or_introl eq_refl)) as (k & st & EV). exists (OFail k st :: outs). split; [now constructor|exact H0]. }
  destruct X as (outs & F & H0). destruct (all_sem f (skipn p t) rules outs (fun r => all_careful f p r MF) F) as (N & HN). exists (S N). intros [|lf] fuel nodes L L'; [lia|].
  destruct (HN fuel ltac:(lia)) as (ys & EY & MY & _). cbn [rawText]. destruct (skipn p t) as [|c l] eqn:ET; [congruence|]. rewrite EY, <- hits_noAmb, MY, H0. reflexivity.
Qed.
Lemma settle_torn f p : mode f -> torn g rules f (skipn p t) -> settles f (skipn p t) (fun _ => VAmbiguity).
Proof.
  intros MF (outs & u & l1 & x & l2 & y & l3 & NE & F & EQ & LX & LY & MX). destruct (all_sem f (skipn p t) rules outs (fun r => all_careful f p r MF) F) as (N & HN). exists (S N). intros [|lf] fuel nodes L L'; [lia|].
  destruct (HN fuel ltac:(lia)) as (ys & EY & MY & _). cbn [rawText]. destruct (skipn p t) as [|c l] eqn:ET; [congruence|]. rewrite EY, <- hits_noAmb, MY.
  destruct x as [n v k s|]; [|discriminate]. destruct y as [n' v' k' s'|]; [|discriminate]. cbn in LX, LY. injection LX as ->. injection LY as ->.
  assert (P : pick (hits outs) = PTie); [|now rewrite P].
  apply pick_tie.
  - intros H. assert (I0 : In (n, u) (hits outs)) by (rewrite EQ, flat_map_app; apply in_or_app; right; now left). rewrite H in I0. exact I0.
  - intros m w (a1 & a2 & EA & FA). assert (MW : (w <= u)%nat).
    { assert (IW : In (m, w) (hits outs)) by (rewrite EA; apply in_or_app; right; now left). apply in_flat_map in IW as (o & IO & IW). destruct o as [n0 v0 k0 s0|]; [|destruct IW]. destruct IW as [IW|[]]. injection IW as -> ->. exact (MX _ w IO eq_refl). }
    assert (EH : hits outs = hits l1 ++ (n, u) :: hits l2 ++ (n', u) :: hits l3) by (rewrite EQ, flat_map_app; cbn [flat_map]; rewrite flat_map_app; reflexivity).
    assert (CT : forall q, (length (List.filter (fun z => (u <=? snd z)%nat) q) = 0)%nat <-> Forall (fun z : node * nat => (snd z < u)%nat) q).
    { induction q as [|z q IHl]; cbn [List.filter]; [split; [constructor|reflexivity]|]. destruct (Nat.leb_spec u (snd z)); cbn [length]; split; intros Q; try lia; [inversion Q; lia|constructor; [lia|now apply IHl]|inversion Q; now apply IHl]. }
    assert (LE : (length (List.filter (fun z => (u <=? snd z)%nat) (hits outs)) <= 1)%nat).
    { rewrite EA, filter_app, app_length. apply Forall_app in FA as (F1 & F2). assert (G1 : Forall (fun z : node * nat => (snd z < u)%nat) a1) by (eapply Forall_impl; [|exact F1]; cbn; intros; lia).
      assert (G2 : Forall (fun z : node * nat => (snd z < u)%nat) a2) by (eapply Forall_impl; [|exact F2]; cbn; intros; lia). apply CT in G1, G2. cbn [List.filter snd]. destruct (u <=? w)%nat; cbn [length]; lia. }
    rewrite EH, !filter_app, app_length in LE. cbn [List.filter snd] in LE. rewrite Nat.leb_refl in LE. cbn [length] in LE. rewrite filter_app, app_length in LE. cbn [List.filter snd] in LE. rewrite Nat.leb_refl in LE. cbn [length] in LE. lia.
Qed.
Lemma settle_round f p outs n u st F : mode f -> skipn p t <> [] -> Forall2 (fun r o => Ev g r f (skipn p t) o) rules outs -> strictlyLongest (hits outs) n u -> (exists k, In (OMatch n u k st) outs) ->
  settles (if st then SUGGEST_NOT_SKIP else SUGGEST_SKIP) (skipn u (skipn p t)) F -> settles f (skipn p t) (fun nodes => F (n :: nodes)).
Proof.
  intros MF NE FE SL (k & IN) (M & HM). destruct (all_sem f (skipn p t) rules outs (fun r => all_careful f p r MF) FE) as (N & HN). exists (S (Nat.max N M)). intros [|lf] fuel nodes L L'; [lia|].
  destruct (HN fuel ltac:(lia)) as (ys & EY & MY & FY). cbn [rawText]. destruct (skipn p t) as [|c l] eqn:ET; [congruence|]. rewrite <- ET in *. rewrite EY.
  assert (SL' : strictlyLongest (hitsOf ys) n u) by (rewrite <- hits_noAmb, MY; exact SL). pose proof (nodup_hits g t roots ORD fuel f p ys n u MF FY SL') as ND.
  assert (P : pick (hitsOf ys) = POne n u). { apply strictly_filter in SL'. unfold pick. now rewrite SL', (early_none _ None ND ltac:(discriminate)). }
  rewrite P. assert (ST : n_sticky n = st).
  { rewrite <- MY in IN. apply in_map_iff in IN as (y & NY & IY). destruct y as [n0 u0 k0 s0|? ?|?]; try discriminate. cbn in NY. injection NY as -> -> -> ->.
    assert (X : exists r, In r rules /\ sem fuel g r f (skipn p t) = SOk (Match n u k st)).
    { clear - FY IY. induction FY as [|r y l ys R F IH]; [destruct IY|]. destruct IY as [->|IY]; [exists r; split; [now left|exact R]|]. destruct (IH IY) as (r2 & I2 & X). exists r2. split; [now right|exact X]. }
    destruct X as (r & IR & Y). assert (WR : wfRule r) by (apply in_map_iff in IR as (x & <- & Hx); now apply HR). apply (sem_match _ _ _ _ _ _ _ _ _ W WR (clean_skipn p t C) Y). }
  rewrite ST. apply HM; lia.
Qed.
(** After the rounds: what happens at the place they lead to. *)
Lemma settle_rounds f0 t0 f t' : Rounds g rules f0 t0 f t' -> mode f0 -> (exists p, t0 = skipn p t) -> forall F, settles f t' F ->
  exists ns, settles f0 t0 (fun nodes => F (ns ++ nodes)) /\ (t0 <> t' -> ns <> []).
Proof.
  induction 1 as [f1 t1|f1 t1 outs n u st f2 t2 NE FE SL IN LE RD IH]; intros MF (p & ->) F S0.
  - exists []. split; [exact S0|congruence].
  - assert (MF' : mode (if st then SUGGEST_NOT_SKIP else SUGGEST_SKIP)) by (unfold mode; destruct st; auto).
    destruct (IH MF' (ex_intro _ (p + u)%nat (skipn_skipn' u p t)) F S0) as (ns & S1 & _). exists (ns ++ [n]). split; [|intros _; destruct ns; discriminate].
    pose proof (settle_round f1 p outs n u st _ MF NE FE SL IN S1) as (N & HN). exists N. intros lf fuel nodes L L'. rewrite (HN lf fuel nodes L L'), <- app_assoc. reflexivity.
Qed.
Lemma settle_whole f t0 l : Whole g rules f t0 l -> mode f -> (exists p, t0 = skipn p t) -> t0 <> [] -> settles f t0 (fun nodes => VTree (rev nodes ++ List.map fst l)).
Proof.
  assert (X : forall f t0 l, Whole g rules f t0 l -> mode f -> (exists p, t0 = skipn p t) -> settles f t0 (fun nodes => match rev nodes ++ List.map fst l with [] => VNoNode | a => VTree a end)).
  { induction 1 as [f1|f1 t1 outs n u st l1 NE FE SL IN LE WH IH]; intros MF (p & EP).
    - destruct (settle_end f1) as (N & HN). exists N. intros lf fuel nodes L L'. rewrite (HN lf fuel nodes L L'). cbn [List.map]. rewrite app_nil_r. destruct nodes as [|n nodes]; [reflexivity|]. cbn [rev]. destruct (rev nodes); reflexivity.
    - subst t1. assert (MF' : mode (if st then SUGGEST_NOT_SKIP else SUGGEST_SKIP)) by (unfold mode; destruct st; auto).
      pose proof (settle_round f1 p outs n u st _ MF NE FE SL IN (IH MF' (ex_intro _ (p + u)%nat (skipn_skipn' u p t)))) as (N & HN). exists N. intros lf fuel nodes L L'. rewrite (HN lf fuel nodes L L'). cbn [rev List.map fst]. now rewrite <- app_assoc. }
  intros WH MF EX NE. destruct (X f t0 l WH MF EX) as (N & HN). exists N. intros lf fuel nodes L L'. rewrite (HN lf fuel nodes L L').
  inversion WH; subst; [congruence|]. cbn [List.map fst]. destruct (rev nodes); reflexivity.
Qed.
End Exact.

Section Raw.
Variables (g : rules_t) (s : stream) (roots : list (list Z * rule)).
Hypothesis W : wfRules g.
Hypothesis HR : wfRoots roots.
Hypothesis C : runesOk (rest s).
Hypothesis SAFE : forall x f p, In x roots -> mode f -> careful g (snd x) f (skipn p (rest s)).
Hypothesis ORD : orderly g (List.map snd roots) (rest s).
Hypothesis AGAIN : looksAgain g (List.map snd roots) (rest s).

Lemma raw_settles F o : legal roots o -> rest s <> [] -> settles g roots SUGGEST_SKIP (rest s) F ->
  exists N, forall lf fuel, (N <= lf)%nat -> (N <= fuel)%nat -> exists r s', evalRaw lf fuel g o s = Ok (r, s') /\ verdictOf r = F [].
Proof.
  intros HO NE (N & HN). exists N. intros lf fuel L L'. pose proof (evalRaw_text g roots s W HR C SAFE ORD AGAIN o lf fuel HO NE) as X. rewrite (HN lf fuel [] L L') in X.
  destruct (evalRaw lf fuel g o s) as [[r s']| |]; [|destruct X..]. exists r, s'. split; [reflexivity|]. now symmetry.
Qed.
Lemma evalRaw_answers o l : legal roots o -> rest s <> [] -> Whole g (List.map snd roots) SUGGEST_SKIP (rest s) l ->
  exists N, forall lf fuel, (N <= lf)%nat -> (N <= fuel)%nat -> exists a s', evalRaw lf fuel g o s = Ok (RawOk a, s') /\ List.map erase a = List.map fst l.
Proof.
  intros HO NE WH. destruct (raw_settles _ o HO NE (settle_whole g (rest s) roots W C HR SAFE ORD _ _ _ WH (or_introl eq_refl) (ex_intro _ 0%nat eq_refl) NE)) as (N & HN).
  exists N. intros lf fuel L L'. destruct (HN lf fuel L L') as (r & s' & E & V). destruct r; try discriminate. cbn in V. injection V as V. eauto.
Qed.
Lemma evalRaw_refuses o f' t' : legal roots o -> rest s <> [] -> Rounds g (List.map snd roots) SUGGEST_SKIP (rest s) f' t' ->
  (deadEnd g (List.map snd roots) f' t' -> exists N, forall lf fuel, (N <= lf)%nat -> (N <= fuel)%nat -> exists r s', evalRaw lf fuel g o s = Ok (r, s') /\ verdictOf r = VNoMatch) /\
  (torn g (List.map snd roots) f' t' -> exists N, forall lf fuel, (N <= lf)%nat -> (N <= fuel)%nat -> exists r s', evalRaw lf fuel g o s = Ok (r, s') /\ verdictOf r = VAmbiguity).
Proof.
  intros HO NE RD. destruct (rounds_skip _ _ _ _ _ _ RD (or_introl eq_refl)) as (MF & p & EP). split; intros D.
  - rewrite EP in D. pose proof (settle_dead g (rest s) roots SAFE f' p MF D) as S0. rewrite <- EP in S0.
    destruct (settle_rounds g (rest s) roots W C HR SAFE ORD _ _ _ _ RD (or_introl eq_refl) (ex_intro _ 0%nat eq_refl) _ S0) as (ns & S1 & _). exact (raw_settles _ o HO NE S1).
  - rewrite EP in D. pose proof (settle_torn g (rest s) roots SAFE f' p MF D) as S0. rewrite <- EP in S0.
    destruct (settle_rounds g (rest s) roots W C HR SAFE ORD _ _ _ _ RD (or_introl eq_refl) (ex_intro _ 0%nat eq_refl) _ S0) as (ns & S1 & _). exact (raw_settles _ o HO NE S1).
Qed.
End Raw.
