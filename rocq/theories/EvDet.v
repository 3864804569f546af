(** The textbook semantics gives at most one outcome. *)
From Verif Require Import Base Stream Node Rule SpecRule TermFacts SpecEval SpecEv EvFacts.

Lemma strictly_unique ml n u n' u' : strictlyLongest ml n u -> strictlyLongest ml n' u' -> n = n' /\ u = u'.
Proof. intros A B. apply strictly_filter in A, B. rewrite A in B. injection B as -> ->. auto. Qed.
Lemma strictly_nil n u : ~ strictlyLongest [] n u.
Proof. intros (l1 & l2 & E & _). destruct l1; discriminate. Qed.
Lemma end_det b mn p m st kids o o' : EvEnd b mn p m st kids o -> EvEnd b mn p m st kids o' -> o = o'.
Proof. intros A B. inversion A; subst; inversion B; subst; try lia; reflexivity. Qed.

Ltac use :=
  repeat match goal with
  | IH : forall o', Ev ?g ?r ?f ?t o' -> _ = o', H : Ev ?g ?r ?f ?t _ |- _ =>
      let E := fresh "E" in pose proof (IH _ H) as E; clear H; (discriminate E || (injection E; clear E; intros; subst))
  | IH : forall _ _ _, EvAlts ?g ?r ?f ?t ?m ?st _ _ _ -> _, H : EvAlts ?g ?r ?f ?t ?m ?st _ _ _ |- _ =>
      destruct (IH _ _ _ H) as (? & ? & ?); clear H; subst
  | IH : forall _ _, EvExcl ?g ?x ?t ?p ?m _ _ -> _, H : EvExcl ?g ?x ?t ?p ?m _ _ |- _ =>
      destruct (IH _ _ H) as (? & ?); clear H; subst
  end.

Lemma ev_det_mut g :
  (forall r f t o, Ev g r f t o -> forall o', Ev g r f t o' -> o = o') /\
  (forall b rules f t p m st kids o, EvSeq g b rules f t p m st kids o ->
     forall o', EvSeq g b rules f t p m st kids o' -> o = o') /\
  (forall b r mn mx f t p m st kids o, EvRep g b r mn mx f t p m st kids o ->
     forall o', EvRep g b r mn mx f t p m st kids o' -> o = o') /\
  (forall rules f t m st ml m' st', EvAlts g rules f t m st ml m' st' ->
     forall ml2 m2 st2, EvAlts g rules f t m st ml2 m2 st2 -> ml = ml2 /\ m' = m2 /\ st' = st2) /\
  (forall b groups f t m st o, EvChoice g b groups f t m st o ->
     forall o', EvChoice g b groups f t m st o' -> o = o') /\
  (forall excl t p m ml m2, EvExcl g excl t p m ml m2 ->
     forall ml' m2', EvExcl g excl t p m ml' m2' -> ml = ml' /\ m2 = m2') /\
  (forall esc t p m m1, EvPlain g esc t p m m1 ->
     (forall m1', EvPlain g esc t p m m1' -> m1 = m1') /\
     (forall e n u k s, esc = Some e -> ~ Ev g e NOT_SKIP (skipn p t) (OMatch n u k s))) /\
  (forall b on v cl esc excl t p m c o, EvScan g b on v cl esc excl t p m c o ->
     forall o', EvScan g b on v cl esc excl t p m c o' -> o = o').
Proof.
  apply Ev_mut.
  1-5: intros; match goal with H : Ev _ _ _ _ _ |- _ => inversion H; subst; reflexivity end.
  - intros b n f t EL o' H; inversion H; subst; congruence.
  - intros b n r f t nd u k st EL _ IH o' H; inversion H; subst; try congruence;
      replace r0 with r in * by congruence; use; congruence.
  - intros b n r f t k st EL _ IH o' H; inversion H; subst; try congruence;
      replace r0 with r in * by congruence; use; congruence.
  - intros b r f t nd u k st _ IH o' H; inversion H; subst; use; congruence.
  - intros b r f t k st _ IH o' H; inversion H; subst; use; congruence.
  - intros b r f t nd u k st _ IH o' H; inversion H; subst; use; congruence.
  - intros b r f t k st _ IH o' H; inversion H; subst; use; congruence.
  - intros b l f t o _ IH o' H; inversion H; subst; auto.
  - intros b r mn mx f t o _ IH o' H; inversion H; subst; auto.
  - intros b gs f t o _ IH o' H; inversion H; subst; auto.
  - intros b op v cl esc excl f t k st _ IH o' H; inversion H; subst; use; congruence.
  - intros b op v cl esc excl f t on u k st o _ IH _ IS o' H; inversion H; subst; use; auto.
  - intros b f t p m st kids o' H; inversion H; subst; reflexivity.
  - intros b r rules f t p m st kids n u k s o _ IH _ IS o' H; inversion H; subst; use; auto.
  - intros b r rules f t p m st kids k s _ IH o' H; inversion H; subst; use; auto.
  - intros b r mn mx f t p m st kids o ESK EE o' H; inversion H; subst; try congruence. eapply end_det; eauto.
  - intros b r mn mx f t p m st kids k s o ESK _ IH EE o' H; inversion H; subst; try congruence; use. eapply end_det; eauto.
  - intros b r mn mx f t p m st kids n u k s o ESK _ IH P1 P2 EE o' H; inversion H; subst; try congruence; use; try tauto.
    eapply end_det; eauto.
  - intros b r mn mx f t p m st kids n u k s o ESK _ IH NP _ IS o' H; inversion H; subst; try congruence; use; try tauto. auto.
  - intros f t m st ml2 m2 st2 H; inversion H; subst; auto.
  - intros r rules f t m st n u k s ml m' st' _ IH _ IS ml2 m2 st2 H; inversion H; subst; use; auto.
  - intros r rules f t m st k s ml m' st' _ IH _ IS ml2 m2 st2 H; inversion H; subst; use; auto.
  - intros b f t m st o' H; inversion H; subst; reflexivity.
  - intros b grp groups f t m st m' st' o _ IH _ IS o' H; inversion H; subst; use; auto; try congruence.
    exfalso. eapply strictly_nil; eauto.
  - intros b grp groups f t m st ml m' st' n u _ IH SL o' H; inversion H; subst; use.
    + exfalso. eapply strictly_nil; eauto.
    + match goal with A : strictlyLongest _ n u, B : strictlyLongest _ _ _ |- _ => destruct (strictly_unique _ _ _ _ _ A B); subst end. reflexivity.
    + match goal with A : strictlyLongest ?a ?b ?c, B : forall n u, ~ strictlyLongest ?a n u |- _ => destruct (B _ _ A) end.
  - intros b grp groups f t m st ml m' st' _ IH NE NS o' H; inversion H; subst; use; try congruence. match goal with A : strictlyLongest ?a ?b ?c, B : forall n u, ~ strictlyLongest ?a n u |- _ => destruct (B _ _ A) end.
  - intros t p m ml' m2' H; inversion H; subst; auto.
  - intros x excl t p m ml k st _ IH ml' m2' H; inversion H; subst; use; auto.
  - intros t p m. split; [|discriminate]. intros m1' H; inversion H; subst; reflexivity.
  - intros e t p m k st _ IH. split.
    + intros m1' H; inversion H; subst; use; reflexivity.
    + intros e' n u k' s [= <-] H. use.
  - intros b on v cl esc excl t p m c m1 ml m2 _ [IP IE] _ IX NE o' H; inversion H; subst;
      try (exfalso; eapply IE; eauto; fail);
      match goal with Q : EvPlain _ _ _ _ _ _ |- _ => apply IP in Q; subst end; use; congruence.
  - intros b on v cl esc excl t p m c m1 m2 nc u k st _ [IP IE] _ IX _ IC o' H; inversion H; subst;
      try (exfalso; eapply IE; eauto; fail);
      match goal with Q : EvPlain _ _ _ _ _ _ |- _ => apply IP in Q; subst end; use; congruence.
  - intros b on v cl esc excl t p m c m1 m2 k st _ [IP IE] _ IX _ IC ESK o' H; inversion H; subst;
      try (exfalso; eapply IE; eauto; fail);
      match goal with Q : EvPlain _ _ _ _ _ _ |- _ => apply IP in Q; subst end; use; congruence.
  - intros b on v cl esc excl t p m c m1 m2 k st x l o _ [IP IE] _ IX _ IC ESK _ IS o' H; inversion H; subst;
      try (exfalso; eapply IE; eauto; fail);
      match goal with Q : EvPlain _ _ _ _ _ _ |- _ => apply IP in Q; subst end; use; try congruence.
    match goal with A : skipn p t = x :: l, B : skipn p t = _ :: _ |- _ => rewrite A in B; injection B as <- <- end. auto.
  - intros b on v cl e excl t p m c ne ue ke se ml m2 n u o _ IE _ IX SL _ IS o' H; inversion H; subst;
      try (match goal with Q : EvPlain _ _ _ _ _ _ |- _ => inversion Q; subst; use; fail end); use;
      try (exfalso; eapply strictly_nil; eauto; fail).
    match goal with A : strictlyLongest _ n u, B : strictlyLongest _ _ _ |- _ => destruct (strictly_unique _ _ _ _ _ A B); subst end. auto.
  - intros b on v cl e excl t p m c ne ue ke se m2 nc u k st o _ IE _ IX _ IC _ IS o' H; inversion H; subst;
      try (match goal with Q : EvPlain _ _ _ _ _ _ |- _ => inversion Q; subst; use; fail end); use;
      try (exfalso; eapply strictly_nil; eauto; fail). auto.
  - intros b on v cl e excl t p m c ne ue ke se m2 k st x l o _ IE _ IX _ IC ESK _ IS o' H; inversion H; subst;
      try (match goal with Q : EvPlain _ _ _ _ _ _ |- _ => inversion Q; subst; use; fail end); use;
      try (exfalso; eapply strictly_nil; eauto; fail); try congruence.
    match goal with A : skipn _ t = x :: l, B : skipn _ t = _ :: _ |- _ => rewrite A in B; injection B as <- <- end. auto.
  - intros b on v cl e excl t p m c ne ue ke se m2 k st _ IE _ IX _ IC ESK o' H; inversion H; subst;
      try (match goal with Q : EvPlain _ _ _ _ _ _ |- _ => inversion Q; subst; use; fail end); use;
      try (exfalso; eapply strictly_nil; eauto; fail); try congruence.
Qed.

Theorem ev_det g r f t o o' : Ev g r f t o -> Ev g r f t o' -> o = o'.
Proof. intros A B. exact (proj1 (ev_det_mut g) r f t o A o' B). Qed.
