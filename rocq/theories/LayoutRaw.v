(** Layout through the drivers. *)
From Verif Require Import Base Stream Node Rule Grammar StreamFacts SpecStream SpecRule SpecError EvalInv RuleFacts SpecEval SpecEv SemFacts EvFacts EvDet EvalSem ChoiceFacts SpecDriver DriverFacts DriverErr RawExact DriverMore SpecLayout LayoutFacts.

Definition mirror (P : list piece) : list piece := List.map (fun p => match p with PRune x => PRune x | PRun w w' => PRun w' w end) P.
Lemma mirror_left P : left (mirror P) = right P. Proof. induction P as [|[x|w w'] P IH]; cbn; [reflexivity|f_equal; exact IH|f_equal; exact IH]. Qed.
Lemma mirror_right P : right (mirror P) = left P. Proof. induction P as [|[x|w w'] P IH]; cbn; [reflexivity|f_equal; exact IH|f_equal; exact IH]. Qed.
Lemma mirror_ok W E P : okPieces W E P -> okPieces W E (mirror P).
Proof. induction 1 as [|x P O IH M|w w' P R R' O IH M]; cbn; constructor; auto; destruct P as [|[y|v v'] P]; cbn; auto. Qed.
Lemma layout_sym W E t t' : sameLayout W E t t' -> sameLayout W E t' t.
Proof. intros (P & O & -> & ->). exists (mirror P). rewrite mirror_left, mirror_right. split; [now apply mirror_ok|auto]. Qed.

Section Raw.
Variables W E : list Z.
Hypothesis WW : forall x, In x W -> isWS x = true.
Variable g : rules_t.
Hypothesis LF : layoutFreeRules W E g.
Notation okP := (okPieces W E).
Notation sameTree := (sameTree W).
Notation osame := (osame W).
Notation topSame := (topSame W).
Notation hits outs := (flat_map (fun o => match o with OMatch n u _ _ => [(n, u)] | OFail _ _ => [] end) outs).

Lemma layout_ev r f P o : layoutFree W E r -> okP P -> Ev g r f (left P) o -> exists o', Ev g r f (right P) o' /\ osame P o o'.
Proof. intros FR O EV. exact (proj1 (layout_mut W E WW g LF) r f (left P) o EV FR P O eq_refl). Qed.
Lemma cut_firstn P u u' : cutAt P u u' -> exists A B, P = A ++ B /\ firstn u (left P) = left A /\ firstn u' (right P) = right A /\ skipn u (left P) = left B /\ skipn u' (right P) = right B /\ (u <= length (left P))%nat /\ (u' <= length (right P))%nat.
Proof.
  intros (A & B & -> & -> & ->). exists A, B. rewrite !left_app, !right_app, !firstn_app, !skipn_app, !firstn_all, !skipn_all, !Nat.sub_diag, !app_length. cbn. rewrite !app_nil_r. repeat split; lia.
Qed.
Lemma layout_outcome r f t t' o : layoutFree W E r -> sameLayout W E t t' -> Ev g r f t o -> exists o', Ev g r f t' o' /\ sameOutcome W E t t' o o'.
Proof.
  intros FR (P & O & -> & ->) EV. destruct (layout_ev r f P o FR O EV) as (o' & EV' & OS). exists o'. split; [exact EV'|]. destruct o as [n u k s|k s], o' as [n' u' k' s'|k' s']; try exact OS.
  destruct OS as (T & <- & C). cbn. split; [now apply top_tree|]. split; [reflexivity|]. destruct (cut_firstn _ _ _ C) as (A & B & EQ & H1 & H2 & H3 & H4 & _). exists A, B. rewrite <- EQ. auto.
Qed.

(** ** Rounds *)
Section Roots.
Variable roots : list rule.
Hypothesis FR : forall r, In r roots -> layoutFree W E r.
Lemma outs_same f P outs : okP P -> Forall2 (fun r o => Ev g r f (left P) o) roots outs -> exists outs', Forall2 (fun r o => Ev g r f (right P) o) roots outs' /\ Forall2 (osame P) outs outs'.
Proof.
  intros O F. induction F as [|r o rs outs EV F IH]; [exists []; split; constructor|]. destruct (layout_ev r f P o (FR r (or_introl eq_refl)) O EV) as (o' & EV' & OS).
  destruct IH as (outs' & F' & FS); [intros r' H; apply FR; now right|]. exists (o' :: outs'). split; constructor; auto.
Qed.
Lemma hits_same P outs outs' : Forall2 (osame P) outs outs' -> mlSame W P (hits outs) (hits outs').
Proof.
  induction 1 as [|o o' outs outs' OS F IH]; [constructor|]. destruct o as [n u k s|k s], o' as [n' u' k' s'|k' s']; try destruct OS; cbn [flat_map app]; [|exact IH]. constructor; [|exact IH]. cbn. tauto.
Qed.
Lemma in_same P outs outs' n u k s : Forall2 (osame P) outs outs' -> In (OMatch n u k s) outs -> exists n' u' k', In (OMatch n' u' k' s) outs' /\ topSame n n' /\ cutAt P u u'.
Proof.
  induction 1 as [|o o' outs outs' OS F IH]; [intros []|]. intros [->|H].
  - apply osame_match in OS as (n' & u' & k' & -> & T & C). exists n', u', k'. split; [now left|auto].
  - destruct (IH H) as (n' & u' & k' & I' & R). exists n', u', k'. split; [now right|exact R].
Qed.
Lemma hit_in outs n u k s : In (OMatch n u k s) outs -> In (n, u) (hits outs).
Proof. intros H. apply in_flat_map. exists (OMatch n u k s). split; [exact H|now left]. Qed.
Lemma strict_in ml n u m : strictlyLongest ml n u -> In (m, u) ml -> m = n.
Proof.
  intros (l1 & l2 & -> & F) H. apply in_app_or in H. rewrite Forall_forall in F. destruct H as [H|[H|H]]; [|congruence|].
  - specialize (F (m, u) (in_or_app _ _ _ (or_introl H))). cbn in F. lia.
  - specialize (F (m, u) (in_or_app _ _ _ (or_intror H))). cbn in F. lia.
Qed.
Lemma cut_fun P u u' u2 : okP P -> cutAt P u u' -> cutAt P u u2 -> u' = u2.
Proof. intros O C1 C2. apply ok_all in O. pose proof (cut_lt W P O _ _ _ _ C1 C2). pose proof (cut_lt W P O _ _ _ _ C2 C1). lia. Qed.
Lemma round_same P outs outs' n u k s : okP P -> Forall2 (osame P) outs outs' -> strictlyLongest (hits outs) n u -> In (OMatch n u k s) outs ->
  exists n' u' k', strictlyLongest (hits outs') n' u' /\ In (OMatch n' u' k' s) outs' /\ topSame n n' /\ cutAt P u u'.
Proof.
  intros O F SL IN. destruct (ml_strict W E P _ _ n u O (hits_same _ _ _ F) SL) as (n1 & u1 & SL' & _ & C1). destruct (in_same _ _ _ _ _ _ _ F IN) as (n' & u' & k' & IN' & T & C).
  pose proof (cut_fun P u u' u1 O C C1). subst u1. pose proof (strict_in _ _ _ _ SL' (hit_in _ _ _ _ _ IN')). subst n1. exists n', u', k'. auto.
Qed.
Lemma rest_ne P : okP P -> left P <> [] -> right P <> [].
Proof. intros O N H. apply (right_nil W E P O) in H. subst P. now apply N. Qed.
Lemma whole_same f t l : Whole g roots f t l -> forall P, okP P -> t = left P -> exists l', Whole g roots f (right P) l' /\ Forall2 (fun x x' => sameTree (fst x) (fst x') /\ sameLayout W E (snd x) (snd x')) l l'.
Proof.
  induction 1 as [f|f t outs n u st l NE FE SL IN LE WH IH]; intros P O EQ.
  - symmetry in EQ. apply (left_nil W E P O) in EQ. subst P. exists []. split; constructor.
  - subst t. destruct IN as (k & IN). destruct (outs_same f P outs O FE) as (outs' & FE' & FS). destruct (round_same P outs outs' n u k st O FS SL IN) as (n' & u' & k' & SL' & IN' & T & C).
    destruct (cut_firstn _ _ _ C) as (A & B & EP & H1 & H2 & H3 & H4 & LU & LU'). assert (OB : okP B) by (apply (ok_suffix W E A); now rewrite <- EP).
    destruct (IH B OB H3) as (l' & WH' & FL). rewrite <- H4 in WH'. exists ((n', firstn u' (right P)) :: l'). split.
    + apply wh_round with (outs := outs') (st := st); [exact (rest_ne P O NE)|exact FE'|exact SL'|eauto|exact LU'|exact WH'].
    + constructor; [|exact FL]. cbn [fst snd]. split; [now apply top_tree|]. rewrite H1, H2. exists A. split; [|auto].
      clear - O EP. subst P. revert O. induction A as [|[x|w w'] A IH]; intros O; [constructor| |].
      * cbn [app] in O. inversion O; subst. constructor; [now apply IH|]. destruct A as [|[y|v v'] A]; cbn in *; auto.
      * cbn [app] in O. inversion O; subst. constructor; auto. destruct A as [|[y|v v'] A]; cbn in *; auto.
Qed.
Lemma rounds_same f t f' t' : Rounds g roots f t f' t' -> forall P, okP P -> t = left P -> exists A B, P = A ++ B /\ t' = left B /\ Rounds g roots f (right P) f' (right B).
Proof.
  induction 1 as [f t|f t outs n u st f2 t2 NE FE SL IN LE RD IH]; intros P O EQ.
  - exists [], P. split; [reflexivity|]. split; [exact EQ|constructor].
  - subst t. destruct IN as (k & IN). destruct (outs_same f P outs O FE) as (outs' & FE' & FS). destruct (round_same P outs outs' n u k st O FS SL IN) as (n' & u' & k' & SL' & IN' & T & C).
    destruct (cut_firstn _ _ _ C) as (A & B & EP & H1 & H2 & H3 & H4 & LU & LU'). assert (OB : okP B) by (apply (ok_suffix W E A); now rewrite <- EP).
    destruct (IH B OB H3) as (A2 & B2 & EB & ET & RD'). rewrite <- H4 in RD'. exists (A ++ A2), B2. split; [rewrite <- app_assoc, <- EB; exact EP|]. split; [exact ET|].
    apply rd_round with (outs := outs') (n := n') (u := u') (st := st); [exact (rest_ne P O NE)|exact FE'|exact SL'|eauto|exact LU'|exact RD'].
Qed.
Lemma dead_same f P : okP P -> deadEnd g roots f (left P) -> deadEnd g roots f (right P).
Proof.
  intros O (NE & D). split; [now apply rest_ne|]. intros r Hr. destruct (D r Hr) as (k & st & EV). destruct (layout_ev r f P _ (FR r Hr) O EV) as (o' & EV' & OS). apply osame_fail in OS as (k' & ->). eauto.
Qed.
Lemma len_same P o o' u : osame P o o' -> lengths o = Some u -> exists u', lengths o' = Some u' /\ cutAt P u u'.
Proof. intros OS L. destruct o as [n v k s|]; [|discriminate]. injection L as ->. apply osame_match in OS as (n' & u' & k' & -> & _ & C). exists u'. split; [reflexivity|exact C]. Qed.
Lemma len_same' P o o' u' : osame P o o' -> lengths o' = Some u' -> exists u, lengths o = Some u /\ cutAt P u u'.
Proof. intros OS L. destruct o' as [n v k s|]; [|discriminate]. injection L as ->. destruct o as [n0 u k0 s0|]; [|destruct OS]. exists u. split; [reflexivity|]. apply OS. Qed.
Lemma torn_same f P : okP P -> torn g roots f (left P) -> torn g roots f (right P).
Proof.
  intros O (outs & u & l1 & x & l2 & y & l3 & NE & FE & EQ & LX & LY & MX). destruct (outs_same f P outs O FE) as (outs' & FE' & FS). pose proof FS as FS0. rewrite EQ in FS.
  apply Forall2_app_inv_l in FS as (l1' & q & F1 & FS & EQ'). inversion FS as [|? x' ? q' OX FS2]; subst. apply Forall2_app_inv_l in FS2 as (l2' & q2 & F2 & FS3 & EQ2). inversion FS3 as [|? y' ? l3' OY F3]; subst.
  destruct (len_same _ _ _ _ OX LX) as (u' & LX' & CX). destruct (len_same _ _ _ _ OY LY) as (u2 & LY' & CY). pose proof (cut_fun P _ _ _ O CX CY). subst u2.
  exists (l1' ++ x' :: l2' ++ y' :: l3'), u', l1', x', l2', y', l3'. split; [now apply rest_ne|]. split; [exact FE'|]. split; [reflexivity|]. split; [exact LX'|]. split; [exact LY'|].
  intros o' v' IO LO. assert (IX : exists o, In o (l1 ++ x :: l2 ++ y :: l3) /\ osame P o o').
  { clear - FS0 IO. induction FS0 as [|a a' la la' OA F IH]; [destruct IO|]. destruct IO as [->|IO]; [exists a; split; [now left|exact OA]|]. destruct (IH IO) as (o & I0 & OS). exists o. split; [now right|exact OS]. }
  destruct IX as (o & I0 & OS). destruct (len_same' _ _ _ _ OS LO) as (v & LV & CV). pose proof (MX o v I0 LV). pose proof (cut_lt W P (ok_all W E P O) _ _ _ _ CX CV). lia.
Qed.
End Roots.

(** ** The answers of EvalRaw *)
Lemma raw_layout roots s s2 o o2 : wfRules g -> wfRoots roots -> (forall x, In x roots -> layoutFree W E (snd x)) -> sameLayout W E (rest s) (rest s2) ->
  runesOk (rest s) -> (forall x f p, In x roots -> mode f -> careful g (snd x) f (skipn p (rest s))) -> orderly g (List.map snd roots) (rest s) -> looksAgain g (List.map snd roots) (rest s) ->
  runesOk (rest s2) -> (forall x f p, In x roots -> mode f -> careful g (snd x) f (skipn p (rest s2))) -> orderly g (List.map snd roots) (rest s2) -> looksAgain g (List.map snd roots) (rest s2) ->
  legal roots o -> legal roots o2 -> forall lf fuel r s', evalRaw lf fuel g o s = Ok (r, s') ->
  exists N, forall lf2 fuel2, (N <= lf2)%nat -> (N <= fuel2)%nat -> exists r2 s2', evalRaw lf2 fuel2 g o2 s2 = Ok (r2, s2') /\ sameVerdict W (verdictOf r) (verdictOf r2).
Proof.
  intros WF HR FR (P & O & E1 & E2) C1 SAFE1 ORD1 AG1 C2 SAFE2 ORD2 AG2 L1 L2 lf fuel r s' EV.
  assert (FR' : forall r, In r (List.map snd roots) -> layoutFree W E r) by (intros x Hx; apply in_map_iff in Hx as (y & <- & Hy); auto).
  destruct (list_nil_or (rest s)) as [ES|(c & tl & ES)].
  - rewrite E1 in ES. apply (left_nil W E P O) in ES. subst P. exists 0%nat. intros lf2 fuel2 _ _. unfold evalRaw in EV. rewrite peek_rest, E1 in EV. injection EV as <- _. exists RawEmpty, s2. split; [|exact I]. now apply evalRaw_exhausted.
  - assert (NE : rest s <> []) by (rewrite ES; discriminate). assert (NE2 : rest s2 <> []) by (rewrite E2; apply rest_ne; [exact O|now rewrite <- E1]).
    destruct (evalRaw_why g roots s WF HR C1 SAFE1 ORD1 AG1 o lf fuel r s' L1 EV) as (f' & t' & RD & X). destruct (rounds_same _ FR' _ _ _ _ RD P O E1) as (A & B & EP & -> & RD2). rewrite <- E2 in RD2. assert (OB : okP B) by (apply (ok_suffix W E A); now rewrite <- EP).
    destruct r as [a| |ch er|ch ns|].
    + destruct (evalRaw_whole g roots s WF HR C1 SAFE1 ORD1 AG1 o lf fuel a s' L1 EV) as (l & WH & EA & _). destruct (whole_same _ FR' _ _ _ WH P O E1) as (l' & WH' & FL). rewrite <- E2 in WH'.
      destruct (evalRaw_answers g s2 roots WF HR C2 SAFE2 ORD2 AG2 o2 l' L2 NE2 WH') as (N & HN). exists N. intros lf2 fuel2 LA LB. destruct (HN lf2 fuel2 LA LB) as (a' & s2' & EV2 & EA'). exists (RawOk a'), s2'. split; [exact EV2|]. cbn [verdictOf sameVerdict]. rewrite EA, EA'.
      clear - FL. induction FL as [|x x' l l' (T & _) F IH]; constructor; auto.
    + congruence.
    + destruct (proj1 (evalRaw_refuses g s2 roots WF HR C2 SAFE2 ORD2 AG2 o2 _ _ L2 NE2 RD2) (dead_same _ FR' _ _ OB X)) as (N & HN). exists N. intros lf2 fuel2 LA LB. destruct (HN lf2 fuel2 LA LB) as (r2 & s2' & EV2 & V). exists r2, s2'. split; [exact EV2|]. rewrite V. exact I.
    + destruct (proj2 (evalRaw_refuses g s2 roots WF HR C2 SAFE2 ORD2 AG2 o2 _ _ L2 NE2 RD2) (torn_same _ FR' _ _ OB X)) as (N & HN). exists N. intros lf2 fuel2 LA LB. destruct (HN lf2 fuel2 LA LB) as (r2 & s2' & EV2 & V). exists r2, s2'. split; [exact EV2|]. rewrite V. exact I.
    + destruct X.
Qed.
(** ** EvalRule *)
Lemma rule_layout gr name r t t' res res' fuel fuel' : g = rules_of gr -> wfRules g -> lookup g name = Some r -> runesOk t -> runesOk t' -> sameLayout W E t t' ->
  careful g r SUGGEST_SKIP t -> careful g r SUGGEST_SKIP t' -> evalRule fuel gr name t = Ok res -> evalRule fuel' gr name t' = Ok res' ->
  exists o o', shows t o res /\ shows t' o' res' /\ sameOutcome W E t t' o o'.
Proof.
  intros EG WF L C C' SL CF CF' E1 E2. pose proof (LF _ _ L) as FR. rewrite EG in WF, L, CF, CF'. destruct (evalRule_shows fuel gr name t r res WF C L CF E1) as (o & EV & SH). destruct (evalRule_shows fuel' gr name t' r res' WF C' L CF' E2) as (o' & EV' & SH').
  rewrite <- EG in EV, EV'. destruct (layout_outcome r SUGGEST_SKIP t t' o FR SL EV) as (o2 & EV2 & OS). pose proof (ev_det _ _ _ _ _ _ EV' EV2). subst o2. exists o, o'. auto.
Qed.
Lemma rule_layout_answers gr name r t t' res fuel : g = rules_of gr -> wfRules g -> lookup g name = Some r -> runesOk t -> runesOk t' -> sameLayout W E t t' ->
  careful g r SUGGEST_SKIP t -> careful g r SUGGEST_SKIP t' -> evalRule fuel gr name t = Ok res ->
  exists fuel' res' o o', evalRule fuel' gr name t' = Ok res' /\ shows t o res /\ shows t' o' res' /\ sameOutcome W E t t' o o'.
Proof.
  intros EG WF L C C' SL CF CF' E1. pose proof (LF _ _ L) as FR. rewrite EG in WF, L, CF, CF'. destruct (evalRule_shows fuel gr name t r res WF C L CF E1) as (o & EV & SH). rewrite <- EG in EV.
  destruct (layout_outcome r SUGGEST_SKIP t t' o FR SL EV) as (o2 & EV2 & OS). rewrite EG in EV2. destruct (evalRule_answers gr name t' r o2 WF C' L CF' EV2) as (fuel' & res' & E2 & SH'). exists fuel', res', o, o2. auto.
Qed.
End Raw.
