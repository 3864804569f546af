(** What is accepted is in the language; in LL(1) grammars, what is in the
    language is accepted. *)
From Verif Require Import Base Stream StreamFacts CallFacts Node Rule SpecStream SpecRule TermFacts TermSpec SpecEval SpecEv EvFacts EvDet
  SpecTerm LoopFacts SpecLL SpecLang.

Scheme Gen_m := Minimality for Gen Sort Prop
  with GenRep_m := Minimality for GenRep Sort Prop
  with GenSeq_m := Minimality for GenSeq Sort Prop.
Combined Scheme Gen_mut from Gen_m, GenRep_m, GenSeq_m.

Lemma skipn_plus {A} p u (t : list A) : skipn u (skipn p t) = skipn (p + u) t.
Proof. revert t. induction p as [|p IH]; intros t; [reflexivity|]. destruct t; [now rewrite !skipn_nil|]. apply IH. Qed.

(* ---------------- literals ---------------- *)

Lemma lit_match g r w f t n u k st : literal r w -> w <> [] -> Ev g r f t (OMatch n u k st) ->
  exists pre post, t = pre ++ w ++ post /\ white pre /\ u = (length pre + length w)%nat /\ (f = NOT_SKIP -> pre = []).
Proof.
  intros L NE E. remember (OMatch n u k st) as o eqn:X. destruct E; inversion L; subst.
  - apply ofTerm_match in X as (cs & rd & un & T & ->).
    apply tchar_sound in T as (_ & pre & post & (A & B & _ & D) & ->). exists pre, post. repeat split; [exact A|exact B| |].
    + rewrite !app_length. cbn. lia.
    + intros ->. now apply D.
  - apply ofTerm_match in X as (cs & rd & un & T & ->).
    apply tlit_sound in T as (_ & -> & pre & post & (A & B & C & _) & ->). exists pre, post. repeat split; [exact A|exact B| |].
    + rewrite !app_length. cbn. lia.
    + intros ->. now apply C.
  - apply ofTerm_match in X as (cs & rd & un & T & ->).
    apply tlit_sound in T as (_ & -> & pre & post & (A & B & C & _) & ->). exists pre, post. repeat split; [exact A|exact B| |].
    + rewrite !app_length. cbn. lia.
    + intros ->. now apply C.
Qed.

Lemma lit_hit g r w f post : literal r w -> w <> [] -> (f = NOT_SKIP \/ forall c, In c w -> dark c) ->
  exists n k st, Ev g r f (w ++ post) (OMatch n (length w) k st).
Proof.
  intros L NE D. inversion L; subst.
  - destruct (tchar_complete c f (c :: post) [] post) as (un & T).
    { split; [reflexivity|]. split; [constructor|]. split; [intros []|reflexivity]. }
    pose proof (ev_char g b c u f (c :: post)) as E. rewrite T in E. cbn [ofTerm] in E.
    replace (length (([] ++ [c]) ++ un) - length un)%nat with (length [c]) in E by (rewrite !app_length; cbn [length]; lia). cbn [app]. eauto.
  - assert (T : tlit (skips f false) w (w ++ post) = (Some w, [] ++ w, [])).
    { apply tlit_complete with (post := post); [destruct w; [congruence|discriminate]|]. split; [reflexivity|]. split; [constructor|]. split; [reflexivity|].
      destruct D as [->|D]; [discriminate|]. intros _ W. destruct w as [|x w]; [congruence|]. inversion W; subst. exfalso. apply (D x); [now left|assumption]. }
    pose proof (ev_chars g b w f (w ++ post)) as E. rewrite T in E. cbn [ofTerm app length] in E. rewrite Nat.sub_0_r in E. eauto.
  - assert (T : tlit (skips f true) w (w ++ post) = (Some w, [] ++ w, [])).
    { apply tlit_complete with (post := post); [destruct w; [congruence|discriminate]|]. split; [reflexivity|]. split; [constructor|]. split; [reflexivity|].
      destruct D as [->|D]; [discriminate|]. intros _ W. destruct w as [|x w]; [congruence|]. inversion W; subst. exfalso. apply (D x); [now left|assumption]. }
    pose proof (ev_string g b w f (w ++ post)) as E. rewrite T in E. cbn [ofTerm app length] in E. rewrite Nat.sub_0_r in E. eauto.
Qed.

Lemma lit_miss g r w t k st : literal r w -> w <> [] -> Ev g r NOT_SKIP t (OFail k st) -> ~ startsWith w t.
Proof.
  intros L NE E [post ->]. destruct (lit_hit g r w NOT_SKIP post L NE (or_introl eq_refl)) as (n & k' & st' & E').
  pose proof (ev_det _ _ _ _ _ _ E E'). discriminate.
Qed.

Lemma lit_total g r w f t : literal r w -> exists o, Ev g r f t o.
Proof. intros L. inversion L; subst; eexists; constructor. Qed.

(* ---------------- accepted texts are in the language ---------------- *)

Definition says (P : nat -> Prop) (o : ores) : Prop := match o with OMatch _ u _ _ => P u | OFail _ _ => True end.

Section Sound.
Variables (strict : bool) (g : rules_t).
Hypothesis HG : forall n r, lookup g n = Some r -> LLk strict g r.

Lemma plain_skip p t : plainSpace t -> plainSpace (skipn p t).
Proof. unfold plainSpace. intros H. rewrite <- (firstn_skipn p t) in H. apply Forall_app in H. apply H. Qed.

Lemma term_gen (r : rule) w f t o : literal r w -> w <> [] -> Ev g r f t o -> says (Gen g r t) o.
Proof.
  intros L NE E. destruct o as [n u k st|]; [|exact I]. destruct (lit_match _ _ _ _ _ _ _ _ _ L NE E) as (pre & post & -> & W & -> & _). now constructor.
Qed.

Lemma end_says b mn p m st kids o : EvEnd b mn p m st kids o -> says (fun u => u = p /\ mn <= Z.of_nat (length kids)) o.
Proof. intros H. inversion H; subst; cbn; auto. Qed.

Lemma ll_lit r : LLk strict g r -> match r with RChar _ c _ => True | RChars _ l | RString _ l => l <> [] | _ => True end.
Proof. intros H. inversion H as [r' c l L D| | | | | | | | |]; subst; try exact I. inversion L; subst; try exact I; discriminate. Qed.

Lemma accepted_mut :
  (forall r f t o, Ev g r f t o -> LLk strict g r -> plainSpace t -> says (Gen g r t) o) /\
  (forall b rules f t p m st kids o, EvSeq g b rules f t p m st kids o -> (forall x, In x rules -> LLk strict g x) -> plainSpace t ->
     says (fun u => (p <= u)%nat /\ GenSeq g rules (skipn p t) (u - p)) o) /\
  (forall b r mn mx f t p m st kids o, EvRep g b r mn mx f t p m st kids o -> LLk strict g r -> plainSpace t ->
     (0 < mx -> Z.of_nat (length kids) < mx) ->
     says (fun u => (p <= u)%nat /\ exists n, GenRep g r n (skipn p t) (u - p) /\ mn <= Z.of_nat (length kids + n) /\ (0 < mx -> Z.of_nat (length kids + n) <= mx)) o) /\
  (forall rules f t m st ml m' st', EvAlts g rules f t m st ml m' st' -> (forall x, In x rules -> LLk strict g x) -> plainSpace t ->
     forall y, In y ml -> exists r, In r rules /\ Gen g r t (snd y)) /\
  (forall b groups f t m st o, EvChoice g b groups f t m st o -> (forall grp x, In grp groups -> In x grp -> LLk strict g x) -> plainSpace t ->
     says (fun u => exists grp r, In grp groups /\ In r grp /\ Gen g r t u) o) /\
  (forall excl t p m ml m2, EvExcl g excl t p m ml m2 -> True) /\
  (forall esc t p m m1, EvPlain g esc t p m m1 -> True) /\
  (forall b on v cl esc excl t p m c o, EvScan g b on v cl esc excl t p m c o -> forall w, esc = None -> excl = [] -> literal cl w -> w <> [] -> (p <= length t)%nat ->
     says (fun u => exists j post, (p <= j)%nat /\ skipn j t = w ++ post /\ u = (j + (if v then 0 else length w))%nat /\
        forall i, (p <= i < j)%nat -> ~ startsWith w (skipn i t)) o).
Proof.
  apply Ev_mut; try (cbn; intros; exact I).
  - intros b c u f t H _. apply (term_gen (RChar b c u) [c] f); [constructor|discriminate|constructor].
  - intros b l f t H _. apply (term_gen (RChars b l) l f); [constructor|exact (ll_lit _ H)|constructor].
  - intros b l f t H _. apply (term_gen (RString b l) l f); [constructor|exact (ll_lit _ H)|constructor].
  - intros b lo lu hi hu f t H P. inversion H as [r' c l L D| | | | | | | | |]; subst; [inversion L|].
    pose proof (trange_exact lo hi f t) as T.
    assert (X : f = SUGGEST_SKIP -> forall c, In c t -> In c whiteSpaces -> c < lo \/ c < hi).
    { intros _ c I W. unfold plainSpace in P. rewrite Forall_forall in P. specialize (P c I W). lia. }
    specialize (T X). destruct (trange lo hi f t) as [[[cs|] rd] un]; cbn [ofTerm says]; [|exact I].
    destruct T as (c & pre & post & -> & R & (-> & W & _) & -> & ->). rewrite app_length. cbn [length].
    replace (length pre + 1 - 0)%nat with (S (length pre)) by lia. now constructor.
  - intros b f t _ _. destruct (teof f t) as [[[cs|] rd] un] eqn:T; cbn [ofTerm says]; [|exact I].
    apply teof_sound in T as (_ & -> & -> & W). cbn. rewrite Nat.sub_0_r. now constructor.
  - intros b n r f t nd u k st L _ IH _ P. cbn in *. apply (ge_ref g b n r); [exact L|]. apply IH; [exact (HG n r L)|exact P].
  - intros b r f t nd u k st _ IH H P. cbn in *. apply ge_group. apply IH; [|exact P]. inversion H as [r' c l L D| | | | | | | | |]; subst; [inversion L|assumption].
  - intros b r f t nd u k st _ IH H P. cbn in *. apply ge_option. apply IH; [|exact P]. inversion H as [r' c l L D| | | | | | | | |]; subst; [inversion L|assumption].
  - intros. apply ge_option_none.
  - (* concatenation *) intros b l f t o _ IH H P. destruct o as [n u k st|]; [|exact I]. cbn in IH |- *. rewrite Nat.sub_0_r in IH. apply ge_concat. apply IH; [|exact P].
    inversion H as [r' c l' L D| | | | | | | | |]; subst; [inversion L|assumption].
  - (* repetition *) intros b r mn mx f t o _ IH H P. destruct o as [n u k st|]; [|exact I]. cbn in IH |- *. rewrite Nat.sub_0_r in IH.
    destruct IH as (_ & j & A & B & C); [inversion H as [r' c l' L D| | | | | | | | |]; subst; [inversion L|assumption]|exact P|lia|].
    exact (ge_rep g b r mn mx j t u A B C).
  - (* choice *) intros b gs f t o _ IH H P. destruct o as [n u k st|]; [|exact I]. cbn in IH |- *.
    destruct IH as (grp & r & A & B & C); [inversion H as [r' c l' L D| | | | | | | | |]; subst; [inversion L|assumption]|exact P|].
    exact (ge_choice g b gs grp r t u A B C).
  - (* block *) intros b op v cl esc excl f t on u k st o EO _ _ IH H P. destruct o as [n u' k' st'|]; [|exact I].
    inversion H as [r' c l' L D| | | | | | | | |b' o' v' cl' c l w LO D LC NW V]; subst; [inversion L|].
    destruct (lit_match _ _ _ _ _ _ _ _ _ LO ltac:(discriminate) EO) as (pre & post & -> & W & -> & _).
    assert (LP : (length pre + length (c :: l) <= length (pre ++ (c :: l) ++ post))%nat) by (rewrite !app_length; lia).
    specialize (IH w eq_refl eq_refl LC NW LP). cbn [says] in IH |- *. destruct IH as (j & q & LJ & EJ & -> & NJ).
    rewrite app_assoc, <- app_length in *. set (a := pre ++ c :: l) in *.
    assert (SK : forall i, skipn (length a + i) (a ++ post) = skipn i post).
    { intros i. rewrite <- skipn_plus. now rewrite skipn_app_exact. }
    replace j with (length a + (j - length a))%nat in EJ by lia. rewrite SK in EJ.
    set (d := (j - length a)%nat) in *. assert (EP : post = firstn d post ++ w ++ q) by (rewrite <- EJ; now rewrite firstn_skipn).
    assert (LD : (d <= length post)%nat).
    { destruct (Nat.le_gt_cases d (length post)) as [|G]; [assumption|]. rewrite skipn_all2 in EJ by lia. destruct w; [congruence|discriminate]. }
    assert (LB : length (firstn d post) = d) by (rewrite firstn_length; lia).
    replace (j + (if v then 0 else length w))%nat with (length pre + length (c :: l) + length (firstn d post) + (if v then 0 else length w))%nat
      by (rewrite LB; pose proof (app_length pre (c :: l)) as LA; fold a in LA; unfold d in *; destruct v; lia).
    rewrite EP at 1. unfold a. rewrite <- app_assoc. apply ge_block; try assumption; [discriminate|].
    intros i Hi. rewrite <- EP. rewrite LB in Hi. specialize (NJ (length a + i)%nat). rewrite SK in NJ. apply NJ. lia.
  - (* sequences *) intros. cbn. split; [lia|]. rewrite Nat.sub_diag. constructor.
  - intros b r rules f t p m st kids n u k s o _ IH1 _ IH2 H P. destruct o as [n' u' k' st'|]; [|exact I]. cbn in IH1, IH2 |- *.
    destruct IH2 as [A B]; [intros x X; apply H; now right|exact P|]. split; [lia|].
    replace (u' - p)%nat with (u + (u' - (p + u)))%nat by lia. apply gs_more; [apply IH1; [apply H; now left|now apply plain_skip]|].
    now rewrite skipn_plus.
  - (* repetitions *) intros b r mn mx f t p m st kids o _ EE H P M. apply end_says in EE. destruct o as [n u k s|]; [|exact I]. cbn in EE |- *. destruct EE as [-> EE].
    split; [lia|]. exists 0%nat. rewrite Nat.sub_diag, Nat.add_0_r. split; [constructor|]. split; [exact EE|]. intros X. specialize (M X). lia.
  - intros b r mn mx f t p m st kids k0 s0 o _ _ _ EE H P M. apply end_says in EE. destruct o as [n u k s|]; [|exact I]. cbn in EE |- *. destruct EE as [-> EE].
    split; [lia|]. exists 0%nat. rewrite Nat.sub_diag, Nat.add_0_r. split; [constructor|]. split; [exact EE|]. intros X. specialize (M X). lia.
  - intros b r mn mx f t p m st kids n u k s o _ _ IH1 MX EQ EE H P M. apply end_says in EE. destruct o as [n' u' k' s'|]; [|exact I]. cbn in IH1, EE |- *.
    destruct EE as [-> EE]. rewrite app_length in *. cbn [length] in *. split; [lia|]. exists 1%nat. split; [|split; [lia|]].
    + replace (p + u - p)%nat with (u + 0)%nat by lia. apply gr_more; [apply IH1; [exact H|now apply plain_skip]|constructor].
    + intros _. lia.
  - intros b r mn mx f t p m st kids n u k s o _ _ IH1 NF _ IH2 H P M. destruct o as [n' u' k' s'|]; [|exact I]. cbn in IH1, IH2 |- *.
    rewrite app_length in *. cbn [length] in *. destruct IH2 as (A & j & B & C & D); [exact H|exact P|lia|]. split; [lia|].
    exists (S j). split; [|split; [lia|intros X; specialize (D X); lia]]. replace (u' - p)%nat with (u + (u' - (p + u)))%nat by lia.
    apply gr_more; [apply IH1; [exact H|now apply plain_skip]|]. now rewrite skipn_plus.
  - (* alternatives *) intros f t m st _ _ y [].
  - intros r rules f t m st n u k s ml m' st' _ IH1 _ IH2 H P y [<-|Y].
    + exists r. split; [now left|]. cbn in *. apply IH1; [apply H; now left|exact P].
    + destruct (IH2 (fun x X => H x (or_intror X)) P y Y) as (x & A & B). exists x. split; [now right|exact B].
  - intros r rules f t m st k s ml m' st' _ IH1 _ IH2 H P y Y. destruct (IH2 (fun x X => H x (or_intror X)) P y Y) as (x & A & B). exists x. split; [now right|exact B].
  - (* groups *) intros b grp groups f t m st m' st' o _ _ _ IH H P. destruct o as [n u k s|]; [|exact I]. cbn in IH |- *.
    destruct IH as (grp' & r & A & B & C); [intros q x X; apply H; now right|exact P|]. exists grp', r. split; [now right|auto].
  - intros b grp groups f t m st ml m' st' n u _ IH (l1 & l2 & -> & _) H P. cbn.
    destruct (IH (fun x X => H grp x (or_introl eq_refl) X) P (n, u)) as (r & A & B); [apply in_or_app; right; now left|].
    exists grp, r. split; [now left|auto].
  - (* the close *) intros b on v cl esc excl t p m c m1 m2 nc u k st _ _ _ _ EC _ w -> -> L NE LP. cbn.
    destruct (lit_match _ _ _ _ _ _ _ _ _ L NE EC) as (pre & post & ES & _ & -> & N). rewrite (N eq_refl) in *. cbn in ES |- *.
    exists p, post. split; [lia|]. split; [exact ES|]. split; [destruct v; lia|]. intros i Hi. lia.
  - intros b on v cl esc excl t p m c m1 m2 k st x l o _ _ _ _ EC _ ES _ IH w -> -> L NE LP.
    assert (LT : (S p <= length t)%nat).
    { pose proof (skipn_length p t) as X. rewrite ES in X. cbn in X. lia. }
    specialize (IH w eq_refl eq_refl L NE LT). destruct o as [n' u' k' s'|]; [|exact I]. cbn in IH |- *. destruct IH as (j & post & A & B & C & D).
    exists j, post. split; [lia|]. split; [exact B|]. split; [exact C|]. intros i Hi.
    destruct (Nat.eq_dec i p) as [->|NI]; [exact (lit_miss _ _ _ _ _ _ L NE EC)|apply D; lia].
  - intros. discriminate.
  - intros. discriminate.
  - intros. discriminate.
Qed.

Theorem accepted r f t n u k st : LLk strict g r -> plainSpace t -> Ev g r f t (OMatch n u k st) -> Gen g r t u.
Proof. intros H P E. exact (proj1 accepted_mut _ _ _ _ E H P). Qed.
End Sound.

(* ---------------- what the first rune tells ---------------- *)

Lemma dark_white pre t : white pre -> noSpace (pre ++ t) -> pre = [].
Proof. intros W D. destruct pre as [|c pre]; [reflexivity|]. inversion W; subst. inversion D; subst. contradiction. Qed.
Lemma dark_skip p t : noSpace t -> noSpace (skipn p t).
Proof. unfold noSpace. intros H. rewrite <- (firstn_skipn p t) in H. apply Forall_app in H. apply H. Qed.
Lemma dark_plain t : noSpace t -> plainSpace t.
Proof. unfold noSpace, plainSpace. intros H. eapply Forall_impl; [|exact H]. unfold dark. intros c D W. contradiction. Qed.

Lemma first_mut g :
  (forall r t u, Gen g r t u -> noSpace t -> (u = 0%nat -> Nullable g r) /\ ((0 < u)%nat -> exists c l, t = c :: l /\ First g c r)) /\
  (forall r n t u, GenRep g r n t u -> noSpace t -> (u = 0%nat -> n = 0%nat \/ Nullable g r) /\ ((0 < u)%nat -> exists c l, t = c :: l /\ First g c r)) /\
  (forall l t u, GenSeq g l t u -> noSpace t -> (u = 0%nat -> forall r, In r l -> Nullable g r) /\
     ((0 < u)%nat -> exists pre r post c t', l = pre ++ r :: post /\ (forall x, In x pre -> Nullable g x) /\ t = c :: t' /\ First g c r)).
Proof.
  apply Gen_mut.
  - intros r w pre post L NE W D. rewrite (dark_white _ _ W D) in *. cbn. destruct w as [|c w]; [congruence|]. split; [discriminate|].
    intros _. exists c, (w ++ post). split; [reflexivity|]. inversion L; subst; constructor.
  - intros b lo lu hi hu c pre post R W D. rewrite (dark_white _ _ W D) in *. cbn. split; [discriminate|]. intros _. exists c, post. split; [reflexivity|]. now constructor.
  - intros b pre W D. rewrite <- (app_nil_r pre) in D. rewrite (dark_white _ _ W D). cbn. split; [constructor|lia].
  - intros b n r t u L _ IH D. destruct (IH D) as [A B]. split; [intros X; econstructor; eauto|]. intros X. destruct (B X) as (c & l & E & F). exists c, l. split; [exact E|]. econstructor; eauto.
  - intros b r t u _ IH D. destruct (IH D) as [A B]. split; [intros X; constructor; auto|]. intros X. destruct (B X) as (c & l & E & F). exists c, l. split; [exact E|]. now constructor.
  - intros b r t D. split; [constructor|lia].
  - intros b r t u _ IH D. destruct (IH D) as [A B]. split; [intros X; constructor; auto|]. intros X. destruct (B X) as (c & l & E & F). exists c, l. split; [exact E|]. now constructor.
  - intros b r mn mx n t u _ IH M _ D. destruct (IH D) as [A B]. split.
    + intros X. destruct (A X) as [->|N]; [apply nu_rep; lia|now apply nu_rep_body].
    + intros X. destruct (B X) as (c & l & E & F). exists c, l. split; [exact E|]. now constructor.
  - intros b gs grp r t u IG IR _ IH D. destruct (IH D) as [A B]. split; [intros X; econstructor; eauto|]. intros X. destruct (B X) as (c & l & E & F). exists c, l. split; [exact E|]. econstructor; eauto.
  - intros b l t u _ IH D. destruct (IH D) as [A B]. split; [intros X; constructor; auto|]. intros X. destruct (B X) as (pre & r & post & c & t' & -> & N & E & F). exists c, t'. split; [exact E|]. now constructor.
  - intros b o wo v cl w pre body post LO NO W LC NC _ D. rewrite (dark_white _ _ W D) in *. cbn. destruct wo as [|c wo]; [congruence|]. split; [discriminate|].
    intros _. exists c, (wo ++ body ++ w ++ post). split; [reflexivity|]. constructor. inversion LO; subst; constructor.
  - intros r t D. split; [now left|lia].
  - intros r n t u u' _ IH1 _ IH2 D. destruct (IH1 D) as [A B]. destruct (IH2 (dark_skip u t D)) as [A' B']. split; [intros X; right; apply A; lia|]. intros X.
    destruct u as [|u]; [|apply B; lia]. cbn in B'. apply B'. lia.
  - intros t D. split; [intros _ r []|lia].
  - intros r l t u u' _ IH1 _ IH2 D. destruct (IH1 D) as [A B]. destruct (IH2 (dark_skip u t D)) as [A' B']. split.
    + intros X x [<-|I]; [apply A; lia|apply A'; [lia|exact I]].
    + intros X. destruct u as [|u].
      * destruct B' as (pre & x & post & c & t' & -> & N & E & F); [lia|]. exists (r :: pre), x, post, c, t'. split; [reflexivity|]. split; [|auto].
        intros y [<-|I]; [apply A; reflexivity|now apply N].
      * destruct B as (c & t' & E & F); [lia|]. exists [], r, l, c, t'. split; [reflexivity|]. split; [intros y []|auto].
Qed.

Lemma gen_first g r t u : Gen g r t u -> noSpace t -> (0 < u)%nat -> exists c l, t = c :: l /\ First g c r.
Proof. intros H D. exact (proj2 (proj1 (first_mut g) r t u H D)). Qed.
Lemma gen_null g r t : Gen g r t 0 -> noSpace t -> Nullable g r.
Proof. intros H D. exact (proj1 (proj1 (first_mut g) r t _ H D) eq_refl). Qed.

(* ---------------- texts of the language are accepted ---------------- *)

Lemma alts_app g f t : forall A m st ml m1 st1, EvAlts g A f t m st ml m1 st1 -> forall B ml2 m2 st2, EvAlts g B f t m1 st1 ml2 m2 st2 ->
  EvAlts g (A ++ B) f t m st (ml ++ ml2) m2 st2.
Proof. induction A as [|r A IH]; intros m st ml m1 st1 H; inversion H; subst; intros B ml2 m2 st2 H'; cbn; [exact H'|eapply ea_match; eauto|eapply ea_fail; eauto]. Qed.

Lemma alts_says g f t P : forall A, (forall x, In x A -> exists o, Ev g x f t o /\ says P o) ->
  forall m st, exists ml m' st', EvAlts g A f t m st ml m' st' /\ Forall (fun y => P (snd y)) ml.
Proof.
  induction A as [|r A IH]; intros H m st; [exists [], m, st; split; constructor|].
  specialize (IH (fun x X => H x (or_intror X))). destruct (H r (or_introl eq_refl)) as ([n u k s|k s] & E & S).
  - destruct (IH (Nat.max m k) (st && s)%bool) as (ml & m' & st' & A' & F). exists ((n, u) :: ml), m', st'. split; [eapply ea_match; eauto|now constructor].
  - destruct (IH (Nat.max m k) (st && s)%bool) as (ml & m' & st' & A' & F). exists ml, m', st'. split; [eapply ea_fail; eauto|exact F].
Qed.

Lemma groups_fail g b f t o groups : forall G, (forall grp x, In grp G -> In x grp -> exists y, Ev g x f t y /\ says (fun _ => False) y) ->
  (forall m st, exists n k s, EvChoice g b groups f t m st (OMatch n o k s)) ->
  forall m st, exists n k s, EvChoice g b (G ++ groups) f t m st (OMatch n o k s).
Proof.
  induction G as [|grp G IH]; intros H K m st; [exact (K m st)|]. cbn.
  destruct (alts_says g f t (fun _ => False) grp (fun x X => H grp x (or_introl eq_refl) X) m st) as (ml & m' & st' & A & F).
  destruct ml as [|y ml]; [|inversion F; contradiction].
  destruct (IH (fun q x Q => H q x (or_intror Q)) K m' st') as (n & k & s & E). exists n, k, s. eapply ec_next; eauto.
Qed.

Lemma FOP_mid {A} (R : A -> A -> Prop) (a b : list A) x : ForallOrdPairs R (a ++ x :: b) ->
  (forall y, In y a -> R y x) /\ (forall y, In y b -> R x y).
Proof.
  induction a as [|z a IH]; cbn; intros H; inversion H; subst.
  - split; [intros y []|]. intros y Y. rewrite Forall_forall in *. auto.
  - destruct (IH ltac:(assumption)) as [A1 A2]. split; [|exact A2]. intros y [<-|Y]; [|auto]. rewrite Forall_forall in *. apply H2. apply in_or_app. right. now left.
Qed.

Section Complete.
Variables (strict : bool) (g : rules_t).
Hypothesis HG : forall n r, lookup g n = Some r -> LLk strict g r.
(** Rules that always have an outcome. *)
Variable D : rule -> Prop.
Hypothesis DT : forall r f t, D r -> exists o, Ev g r f t o.
Hypothesis DR : forall n r, lookup g n = Some r -> D r.
Hypothesis DG : forall b r, D (RGroup b r) -> D r.
Hypothesis DO : forall b r, D (ROption b r) -> D r.
Hypothesis DP : forall b r mn mx, D (RRep b r mn mx) -> D r.
Hypothesis DC : forall b gs grp r, D (RChoice b gs) -> In grp gs -> In r grp -> D r.
Hypothesis DS : forall b l r, D (RConcat b l) -> In r l -> D r.

(** The rule could not go on with the rest. *)
Definition closed (r : rule) (rest : list Z) : Prop := Looks g r -> forall c l, rest = c :: l -> ~ Tail g c r.

(** What an outcome says. *)
Lemma outcome r f t : LLk strict g r -> D r -> noSpace t -> exists o, Ev g r f t o /\
  says (fun u => (u = 0%nat /\ Nullable g r) \/ exists c l, t = c :: l /\ First g c r) o.
Proof.
  intros H DD N. destruct (DT r f t DD) as [o E]. exists o. split; [exact E|]. destruct o as [n u k st|]; [|exact I]. cbn.
  apply (accepted strict g HG) in E; [|exact H|now apply dark_plain]. destruct u as [|u]; [left; split; [reflexivity|exact (gen_null _ _ _ E N)]|].
  right. apply (gen_first _ _ _ _ E N). lia.
Qed.

Lemma tail_close r c l b mn mx : (Looks g (RRep b r mn mx) -> forall c' l', c :: l = c' :: l' -> ~ Tail g c' (RRep b r mn mx)) -> ~ First g c r /\ ~ Tail g c r.
Proof. intros H. specialize (H (lo_rep _ _ _ _ _) c l eq_refl). split; intros X; apply H; [now apply ta_rep_first|now apply ta_rep]. Qed.

Lemma seq_closed b l rest : closed (RConcat b l) rest ->
  forall pre r post, l = pre ++ r :: post -> (forall x, In x post -> Nullable g x) -> closed r rest.
Proof.
  intros C pre r post -> N LK c t' E T. refine (C _ c t' E _).
  - destruct post as [|x post _] using rev_ind; [now apply lo_concat|]. rewrite app_comm_cons, app_assoc.
    apply lo_concat, lo_nullable, N. apply in_or_app. right. now left.
  - now apply ta_concat.
Qed.

Lemma scan_hits b on (v : bool) cl w t post : literal cl w -> w <> [] -> forall body p m c, skipn p t = body ++ w ++ post ->
  (forall i, (i < length body)%nat -> ~ startsWith w (skipn i (body ++ w ++ post))) ->
  exists n k st, EvScan g b on v cl None [] t p m c (OMatch n (p + length body + (if v then 0 else length w)) k st).
Proof.
  intros L NE. induction body as [|x body IH]; intros p m c E NB.
  - cbn in E. destruct (lit_hit g cl w NOT_SKIP post L NE (or_introl eq_refl)) as (n & k & st & EC). rewrite <- E in EC.
    do 3 eexists. replace (p + length [] + (if v then 0 else length w))%nat with (if v then p else (p + length w)%nat) by (destruct v; cbn; lia).
    eapply sc_close; [constructor|constructor|exact EC].
  - destruct (lit_total g cl w NOT_SKIP (skipn p t) L) as [o EC]. destruct o as [n u k st|k st].
    + exfalso. destruct (lit_match _ _ _ _ _ _ _ _ _ L NE EC) as (pre & q & ES & _ & _ & N0). rewrite (N0 eq_refl) in ES.
      apply (NB 0%nat); [cbn; lia|]. exists q. cbn [skipn]. now rewrite <- E.
    + assert (E' : skipn (S p) t = body ++ w ++ post).
      { replace (S p) with (p + 1)%nat by lia. rewrite <- skipn_plus, E. reflexivity. }
      destruct (IH (S p) (Nat.max (Nat.max m (p + k)) (S p)) (c ++ [x]) E') as (n' & k' & st' & X).
      { intros i Hi. specialize (NB (S i)). apply NB. cbn. lia. }
      exists n', k', st'. replace (p + length (x :: body) + (if v then 0 else length w))%nat with (S p + length body + (if v then 0 else length w))%nat by (cbn; lia).
      eapply sc_next; [constructor|constructor|exact EC|exact E|exact X].
Qed.

Lemma lit_dark r w post f : literal r w -> w <> [] -> noSpace (w ++ post) -> exists n k st, Ev g r f (w ++ post) (OMatch n (length w) k st).
Proof. intros L NE N. apply lit_hit; auto. right. unfold noSpace in N. rewrite Forall_app, Forall_forall in N. apply N. Qed.

Lemma complete_mut :
  (forall r t u, Gen g r t u -> LLk strict g r -> D r -> noSpace t -> closed r (skipn u t) -> forall f, exists n k st, Ev g r f t (OMatch n u k st)) /\
  (forall r n t u, GenRep g r n t u -> LLk strict g r -> ~ Nullable g r -> apart (fun c => Tail g c r) (fun c => First g c r) -> D r -> noSpace t ->
     (forall c l, skipn u t = c :: l -> ~ First g c r /\ ~ Tail g c r) ->
     forall b mn mx f T p m st kids, skipn p T = t -> mn <= Z.of_nat (length kids + n) -> (0 < mx -> Z.of_nat (length kids + n) <= mx) ->
       (0 < mx -> Z.of_nat (length kids) < mx) -> exists n' k' st', EvRep g b r mn mx f T p m st kids (OMatch n' (p + u) k' st')) /\
  (forall l t u, GenSeq g l t u -> (forall r, In r l -> LLk strict g r /\ D r) -> noSpace t ->
     (forall pre r mid s post, l = pre ++ r :: mid ++ s :: post -> (forall x, In x mid -> Nullable g x) ->
        apart (fun c => Tail g c r) (fun c => First g c s)) ->
     (forall pre r post, l = pre ++ r :: post -> (forall x, In x post -> Nullable g x) -> closed r (skipn u t)) ->
     forall b f T p m st kids, skipn p T = t -> exists n' k' st', EvSeq g b l f T p m st kids (OMatch n' (p + u) k' st')).
Proof.
  apply Gen_mut.
  - (* literal *) intros r w pre post L NE W H DD N C f. pose proof (dark_white _ _ W N) as ->. cbn [app length Nat.add] in *. now apply lit_dark.
  - (* range *) intros b lo lu hi hu c pre post R W H DD N C f. pose proof (dark_white _ _ W N) as ->. cbn [app length Nat.add] in *.
    pose proof (ev_range g b lo lu hi hu f (c :: post)) as E. pose proof (trange_exact lo hi f (c :: post)) as T.
    assert (X : f = SUGGEST_SKIP -> forall x, In x (c :: post) -> In x whiteSpaces -> x < lo \/ x < hi).
    { intros _ x Hx Wx. exfalso. unfold noSpace in N. rewrite Forall_forall in N. exact (N x Hx Wx). }
    specialize (T X). destruct (trange lo hi f (c :: post)) as [[[cs|] rd] un]; cbn [ofTerm] in E.
    + destruct T as (x & pre' & post' & -> & _ & (EQ & W' & _) & -> & ->). cbn [app] in N. rewrite EQ in N. rewrite (dark_white _ _ W' N) in *. cbn in E. eauto.
    + exfalso. destruct T as [_ T]. apply (T c [] post R). split; [reflexivity|]. split; [constructor|]. split; [|reflexivity].
      intros _. inversion N; assumption.
  - (* end *) intros b pre W H DD N C f. rewrite <- (app_nil_r pre) in N. rewrite (dark_white _ _ W N). pose proof (ev_eof g b f []) as E.
    unfold teof in E. destruct (f =? 1); cbn in E; eauto.
  - (* reference *) intros b n r t u L _ IH H DD N C f.
    assert (C' : closed r (skipn u t)). { intros LK c l E T. apply (C (lo_ref _ _ _ _ L LK) c l E). now apply (ta_ref _ _ _ _ r). }
    destruct (IH (HG n r L) (DR n r L) N C' f) as (nd & k & st & E). exists (flip b nd), k, st. eapply ev_ref; eauto.
  - (* group *) intros b r t u _ IH H DD N C f.
    assert (C' : closed r (skipn u t)). { intros LK c l E T. apply (C (lo_group _ _ _ LK) c l E). now apply ta_group. }
    assert (H' : LLk strict g r) by (inversion H as [r' c l' L X| | | | | | | | |]; subst; [inversion L|assumption]).
    destruct (IH H' (DG _ _ DD) N C' f) as (nd & k & st & E). do 3 eexists. eapply ev_group; eauto.
  - (* nothing *) intros b r t H DD N C f.
    assert (H' : LLk strict g r) by (inversion H as [r' c l' L X| | | | | | | | |]; subst; [inversion L|assumption]).
    destruct (outcome r f t H' (DO _ _ DD) N) as ([nd u k st|k st] & E & S); [|do 3 eexists; eapply ev_option_none; eauto].
    destruct S as [[-> _]|(c & l & -> & F)]; [do 3 eexists; eapply ev_option; eauto|]. exfalso.
    apply (C (lo_nullable _ _ (nu_option _ _ _)) c l eq_refl). apply ta_nullable; [apply nu_option|now apply fi_option].
  - (* something *) intros b r t u _ IH H DD N C f.
    assert (C' : closed r (skipn u t)). { intros LK c l E T. apply (C (lo_nullable _ _ (nu_option _ _ _)) c l E). now apply ta_option. }
    assert (H' : LLk strict g r) by (inversion H as [r' c l' L X| | | | | | | | |]; subst; [inversion L|assumption]).
    destruct (IH H' (DO _ _ DD) N C' f) as (nd & k & st & E). do 3 eexists. eapply ev_option; eauto.
  - (* repetition *) intros b r mn mx n t u _ IH M1 M2 H DD N C f.
    inversion H as [r' c l' L X| | | | | |b' r' mn' mx' H' NN AP| | |]; subst; [inversion L|].
    destruct (IH H' NN AP (DP _ _ _ _ DD) N) with (b := b) (mn := mn) (mx := mx) (f := f) (T := t) (p := 0%nat) (m := 0%nat) (st := true) (kids := @nil node)
      as (n' & k' & st' & E); [|reflexivity|exact M1|exact M2|cbn [length]; lia|].
    + intros c l E. apply (tail_close r c l b mn mx). intros LK c' l' X. injection X as <- <-. exact (C LK c l E).
    + do 3 eexists. apply ev_rep. exact E.
  - (* choice *) intros b gs grp r t u IG IR GR IH H DD N C f.
    inversion H as [r' c l' L X| | | | | | |b' gs' H' AP ON LAST| |]; subst; [inversion L|].
    assert (C' : closed r (skipn u t)). { intros LK c l E T. apply (C (lo_choice _ _ _ _ _ IG IR LK) c l E). now apply (ta_choice _ _ _ _ grp r). }
    destruct (IH (H' _ _ IG IR) (DC _ _ _ _ DD IG IR) N C' f) as (nd & k & st & E).
    apply in_split in IG as (G1 & G2 & ->). apply in_split in IR as (A & B & ->).
    assert (O : forall grp' x, In grp' (G1 ++ (A ++ r :: B) :: G2) -> In x grp' -> exists o, Ev g x f t o /\
      says (fun u => (u = 0%nat /\ Nullable g x) \/ exists c l, t = c :: l /\ First g c x) o).
    { intros grp' x I1 I2. apply outcome; [exact (H' _ _ I1 I2)|exact (DC _ _ _ _ DD I1 I2)|exact N]. }
    assert (AP' : forall x, In x (concat G1) \/ In x A \/ In x B -> apart (fun c => First g c x) (fun c => First g c r)).
    { rewrite concat_app in AP. cbn [concat] in AP. rewrite <- app_assoc, <- app_comm_cons, app_assoc in AP.
      apply FOP_mid in AP as [P1 P2]. intros x [I|[I|I]] c F1 F2.
      - refine (P1 x _ c F1 F2). apply in_or_app. now left.
      - refine (P1 x _ c F1 F2). apply in_or_app. now right.
      - refine (P2 x _ c F2 F1). apply in_or_app. now left. }
    assert (IG' : In (A ++ r :: B) (G1 ++ (A ++ r :: B) :: G2)) by (apply in_or_app; right; now left).
    assert (IR' : forall x, In x A \/ In x B -> In x (A ++ r :: B)).
    { intros x [I|I]; apply in_or_app; [now left|right; now right]. }
    (* earlier groups have no match *)
    assert (EARLY : forall grp' x, In grp' G1 -> In x grp' -> exists o, Ev g x f t o /\ says (fun _ => False) o).
    { intros grp' x I1 I2. destruct (O grp' x) as (o & Eo & So); [apply in_or_app; now left|exact I2|]. exists o. split; [exact Eo|].
      destruct o as [n' u' k' st'|]; [|exact I]. cbn in *.
      apply in_split in I1 as (Ga & Gb & ->). rewrite <- app_assoc in LAST. cbn [app] in LAST.
      destruct So as [[-> NX]|(c & l & -> & FX)].
      - apply (LAST Ga grp' (Gb ++ (A ++ r :: B) :: G2) x eq_refl); [destruct Gb; discriminate|exact I2|exact NX].
      - destruct u as [|u].
        + (* nullable: only the last group *) pose proof (gen_null _ _ _ GR N) as NR. refine (C _ c l eq_refl _).
          * apply lo_nullable. apply (nu_choice _ _ _ (A ++ r :: B) r); auto. apply in_or_app. right. now left.
          * apply ta_nullable; [apply (nu_choice _ _ _ (A ++ r :: B) r); auto; apply in_or_app; right; now left|].
            apply (fi_choice _ _ _ _ grp' x); auto. apply in_or_app. left. apply in_or_app. right. now left.
        + destruct (gen_first _ _ _ _ GR N) as (c' & l'' & EQ & FR); [lia|]. injection EQ as <- <-.
          refine (AP' x _ c FX FR). left. apply in_concat. exists grp'. split; [apply in_or_app; right; now left|exact I2]. }
    (* the others of the group are shorter *)
    assert (SHORT : forall x, In x A \/ In x B -> exists o, Ev g x f t o /\ says (fun u' => (u' < u)%nat) o).
    { intros x I0. destruct (O _ x IG' (IR' x I0)) as (o & Eo & So). exists o. split; [exact Eo|].
      destruct o as [n' u' k' st'|]; [|exact I]. cbn in *. destruct u as [|u].
      - exfalso. pose proof (gen_null _ _ _ GR N) as NR. destruct So as [[-> NX]|(c & l & -> & FX)].
        + pose proof (ON _ IG') as P. apply FOP_mid in P as [P1 P2]. destruct I0 as [I0|I0]; [exact (P1 x I0 (conj NX NR))|exact (P2 x I0 (conj NR NX))].
        + refine (C _ c l eq_refl _).
          * apply lo_nullable. apply (nu_choice _ _ _ (A ++ r :: B) r); auto. apply in_or_app. right. now left.
          * apply ta_nullable; [apply (nu_choice _ _ _ (A ++ r :: B) r); auto; apply in_or_app; right; now left|].
            apply (fi_choice _ _ _ _ (A ++ r :: B) x); auto.
      - destruct So as [[-> _]|(c & l & -> & FX)]; [lia|]. exfalso.
        destruct (gen_first _ _ _ _ GR N) as (c' & l'' & EQ & FR); [lia|]. injection EQ as <- <-.
        refine (AP' x _ c FX FR). now right. }
    destruct (groups_fail g b f t u ((A ++ r :: B) :: G2) G1 EARLY) with (m := 0%nat) (st := true) as (n' & k' & s' & EC).
    { intros m st0. destruct (alts_says g f t (fun u' => (u' < u)%nat) A (fun x I0 => SHORT x (or_introl I0)) m st0) as (ml1 & m1 & st1 & A1 & F1).
      destruct (alts_says g f t (fun u' => (u' < u)%nat) B (fun x I0 => SHORT x (or_intror I0)) (Nat.max m1 k) (st1 && st)%bool) as (ml2 & m2 & st2 & A2 & F2).
      do 3 eexists. eapply ec_pick; [eapply alts_app; [exact A1|eapply ea_match; [exact E|exact A2]]|]. exists ml1, ml2. split; [reflexivity|].
      apply Forall_app. split; assumption. }
    do 3 eexists. apply ev_choice. exact EC.
  - (* concatenation *) intros b l t u _ IH H DD N C f.
    inversion H as [r' c l' L X| | | | | | | |b' l' H' AP _|]; subst; [inversion L|].
    destruct (IH (fun r I0 => conj (H' r I0) (DS _ _ _ DD I0)) N AP (seq_closed b l _ C) b f t 0%nat 0%nat true [] eq_refl) as (n' & k' & st' & E).
    do 3 eexists. apply ev_concat. exact E.
  - (* block *) intros b o wo v cl w pre body post LO NO W LC NC NB H DD N C f. pose proof (dark_white _ _ W N) as ->. cbn [app length Nat.add] in *.
    destruct (lit_dark o wo (body ++ w ++ post) f LO NO N) as (on & k & st & EO).
    destruct (scan_hits b on v cl w (wo ++ body ++ w ++ post) post LC NC body (length wo) k []) as (n' & k' & st' & ES); [now rewrite skipn_app_exact|exact NB|].
    do 3 eexists. eapply ev_block; eauto.
  - (* end of a repetition *) intros r t H NN AP DD N CL b mn mx f T p m st kids E M1 M2 M3. rewrite Nat.add_0_r in *.
    destruct t as [|c t].
    + do 3 eexists. apply er_end; [exact E|]. now constructor.
    + destruct (outcome r f (c :: t) H DD N) as ([nd u k s|k s] & EO & S).
      * exfalso. destruct S as [[_ NX]|(c' & l & EQ & FX)]; [contradiction|]. injection EQ as <- <-. exact (proj1 (CL c t eq_refl) FX).
      * do 3 eexists. eapply er_stop; [rewrite E; discriminate|rewrite E; exact EO|]. now constructor.
  - (* iteration *) intros r n t u u' GR IH1 GP IH2 H NN AP DD N CL b mn mx f T p m st kids E M1 M2 M3.
    assert (PU : (0 < u)%nat). { destruct u; [|lia]. exfalso. apply NN. exact (gen_null _ _ _ GR N). }
    destruct (gen_first _ _ _ _ GR N PU) as (c0 & t0 & ET & _).
    assert (CU : closed r (skipn u t)).
    { intros LK c l ER T'. destruct u' as [|u'].
      - rewrite Nat.add_0_r in CL. now apply (CL c l ER).
      - destruct (proj2 (proj1 (proj2 (first_mut g)) _ _ _ _ GP (dark_skip u t N))) as (c' & l' & EQ & FX); [lia|].
        rewrite ER in EQ. injection EQ as <- <-. exact (AP c T' FX). }
    destruct (IH1 H DD N CU f) as (nd & k & s & EV). rewrite <- E in EV.
    assert (NE : skipn p T <> []) by (rewrite E, ET; discriminate).
    destruct n as [|n].
    + (* the last one *) inversion GP; subst. rewrite Nat.add_0_r in *.
      destruct (Z.ltb_spec 0 mx) as [PM|PM]; [destruct (Z.eq_dec (Z.of_nat (length (kids ++ [nd]))) mx) as [FU|FU]|].
      * do 3 eexists. eapply er_full; eauto. constructor. rewrite app_length. cbn [length]. lia.
      * destruct (IH2 H NN AP DD (dark_skip u _ N)) with (b := b) (mn := mn) (mx := mx) (f := f) (T := T) (p := (p + u)%nat) (m := Nat.max m (p + k)) (st := (st && s)%bool) (kids := kids ++ [nd])
          as (n' & k' & st' & X); try (rewrite app_length in *; cbn [length] in *; lia); [intros c l; rewrite skipn_plus, Nat.add_0_r; apply CL|now rewrite skipn_plus|].
        rewrite Nat.add_0_r in X. exists n', k', st'. eapply er_step; eauto. tauto.
      * destruct (IH2 H NN AP DD (dark_skip u _ N)) with (b := b) (mn := mn) (mx := mx) (f := f) (T := T) (p := (p + u)%nat) (m := Nat.max m (p + k)) (st := (st && s)%bool) (kids := kids ++ [nd])
          as (n' & k' & st' & X); try (rewrite app_length in *; cbn [length] in *; lia); [intros c l; rewrite skipn_plus, Nat.add_0_r; apply CL|now rewrite skipn_plus|].
        rewrite Nat.add_0_r in X. exists n', k', st'. eapply er_step; eauto. lia.
    + destruct (IH2 H NN AP DD (dark_skip u _ N)) with (b := b) (mn := mn) (mx := mx) (f := f) (T := T) (p := (p + u)%nat) (m := Nat.max m (p + k)) (st := (st && s)%bool) (kids := kids ++ [nd])
        as (n' & k' & st' & X); try (rewrite app_length in *; cbn [length] in *; lia); [intros c l; rewrite skipn_plus; apply CL|now rewrite <- E, skipn_plus|].
      rewrite <- Nat.add_assoc in X. exists n', k', st'. eapply er_step; eauto. rewrite app_length. cbn [length]. lia.
  - (* end of a sequence *) intros t H N AP CL b f T p m st kids E. rewrite Nat.add_0_r. do 3 eexists. constructor.
  - intros r l t u u' GR IH1 GS IH2 H N AP CL b f T p m st kids E. destruct (H r (or_introl eq_refl)) as [HR DD].
    assert (CU : closed r (skipn u t)).
    { intros LK c l0 ER T'. destruct (proj2 (proj2 (first_mut g)) _ _ _ GS (dark_skip u t N)) as [NU FI]. destruct u' as [|u'].
      - rewrite Nat.add_0_r in CL. exact (CL [] r l eq_refl (NU eq_refl) LK c l0 ER T').
      - destruct FI as (mid & s & post & c' & l' & -> & NM & EQ & FX); [lia|]. rewrite ER in EQ. injection EQ as <- <-.
        exact (AP [] r mid s post eq_refl NM c T' FX). }
    destruct (IH1 HR DD N CU f) as (nd & k & s & EV). rewrite <- E in EV.
    destruct (IH2 (fun x I0 => H x (or_intror I0)) (dark_skip u t N)) with (b := b) (f := nextMode f nd s) (T := T) (p := (p + u)%nat) (m := Nat.max m (p + k)) (st := (st && s)%bool) (kids := kids ++ [nd])
      as (n' & k' & st' & X).
    + intros pre x mid y post -> NM. exact (AP (r :: pre) x mid y post eq_refl NM).
    + intros pre x post -> NP. rewrite skipn_plus. exact (CL (r :: pre) x post eq_refl NP).
    + now rewrite <- E, skipn_plus.
    + rewrite <- Nat.add_assoc in X. exists n', k', st'. eapply es_step; eauto.
Qed.

Theorem complete r t : LLk strict g r -> D r -> noSpace t -> inLanguage g r t -> forall f, exists n k st, Ev g r f t (OMatch n (length t) k st).
Proof.
  intros H DD N L. apply (proj1 complete_mut _ _ _ L H DD N). rewrite skipn_all. intros _ c l X. discriminate.
Qed.
End Complete.
