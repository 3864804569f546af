(** The texts the shipped arithmetic grammar accepts, and their trees: the textbook
    semantics against SpecArith.v. *)
From Verif Require Import Base Stream StreamFacts CallFacts Node Rule Grammar SpecStream SpecRule TermFacts TermSpec SpecEval SpecEv EvFacts EvDet
  SpecTerm WfDec LoopFacts SpecDriver SpecLL LLFacts LLDec LangFacts JsonLex JsonLang RepoSamples SpecArith ArithLex ArithSafe.

(* ---------------- the grammar is well formed and its rules have outcomes ---------------- *)

Lemma gA_wf : wfRules gA. Proof. apply okRules_ok. vm_compute. reflexivity. Qed.
Definition aRanks : list (list Z * nat) := [(aDec, 0); (aOct, 0); (aHex, 0); (aBin, 0); (aLow, 0); (aUp, 0); (aLetter, 1); (aIntDec, 1); (aIntOct, 0); (aIntHex, 0); (aIntBin, 0);
  (aInteger, 2); (aFloat, 2); (aLiteral, 3); (aVar, 2); (aFactor, 4); (aFop, 0); (aTerm, 5); (aTop, 0); (aExpr, 6); (aExprs, 7)]%nat.
Lemma gA_ends : noCircles [] aRanks gA = true. Proof. vm_compute. reflexivity. Qed.
Lemma aTotal n r f t : lookup gA n = Some r -> exists o, Ev gA (ref n) f t o.
Proof.
  intros L. destruct (noCircles_total [] aRanks gA gA_wf gA_ends n r f t L) as (o & E). exists o. now apply (ref_any n r).
Qed.

(* ---------------- what an outcome should be ---------------- *)

(** The match is the longest text of a kind; a shorter one is followed by something
    that makes it go on.  [P x s]: the text [s] stands for [x]. *)
Definition longest {A} (P : A -> list Z -> Prop) (T : A -> node) (on : list Z -> Prop) (t : list Z) (o : ores) : Prop :=
  match o with
  | OFail _ _ => forall x s s', t = s ++ s' -> ~ P x s
  | OMatch n u _ _ => (u <= length t)%nat /\ exists x, P x (firstn u t) /\ bare n = T x /\
      forall y s s', t = s ++ s' -> P y s -> (s = firstn u t /\ y = x) \/ ((length s < u)%nat /\ on s')
  end.

Lemma longest_le {A} P T on t n u k st : @longest A P T on t (OMatch n u k st) -> forall y s s', t = s ++ s' -> P y s -> (length s <= u)%nat.
Proof.
  intros (U & x & _ & _ & H) y s s' E Y. destruct (H y s s' E Y) as [[-> _]|[L _]]; [rewrite firstn_length; lia|lia].
Qed.
Lemma longest_iff {A} (P Q : A -> list Z -> Prop) T on t o : (forall x s, P x s <-> Q x s) -> longest P T on t o -> longest Q T on t o.
Proof.
  intros I H. destruct o as [n u k st|k st]; cbn in *.
  - destruct H as (U & x & X & B & H). split; [exact U|]. exists x. split; [now apply I|]. split; [exact B|]. intros y s s' E Y. apply (H y s s' E). now apply I.
  - intros x s s' E Y. apply (H x s s' E). now apply I.
Qed.
Lemma longest_map {A B} (f : A -> B) P (T : A -> node) (T' : B -> node) on t o : (forall a, T' (f a) = T a) -> longest P T on t o ->
  longest (fun b s => exists a, b = f a /\ P a s) T' on t o.
Proof.
  intros F H. destruct o as [n u k st|k st]; cbn in *.
  - destruct H as (U & x & X & E & H). split; [exact U|]. exists (f x). split; [eauto|]. split; [now rewrite F|].
    intros y s s' S (a & -> & Y). destruct (H a s s' S Y) as [[-> ->]|X']; auto.
  - intros b s s' S (a & -> & Y). now apply (H a s s' S).
Qed.

(* ---------------- choices ---------------- *)

Section Choice.
Context {A : Type}.
Definition branch : Type := (rule * (A -> list Z -> Prop) * (A -> node))%type.
Definition ruleIn (x : branch) : rule := fst (fst x).
Definition spells (x : branch) : A -> list Z -> Prop := snd (fst x).
Variables (b : rbase) (on : list Z -> Prop) (T : A -> node) (t : list Z) (alts : list branch).
Hypothesis HT : forall x, In x alts -> forall a s, spells x a s -> T a = nd TChoice (b_name b) [] [snd x a].
Hypothesis HB : b_virtual b = false /\ b_nondata b = false /\ b_tokenized b = false.
Hypothesis HE : forall x, In x alts -> forall o, Ev gA (ruleIn x) SK t o -> longest (spells x) (snd x) on t o.
Definition apartAt (x y : branch) : Prop := forall a s s' c z z', t = s ++ s' -> t = z ++ z' -> spells x a s -> spells y c z ->
  ((length s < length z)%nat /\ on s') \/ ((length z < length s)%nat /\ on z').
Hypothesis HA : ForallOrdPairs apartAt alts.

Lemma apart_sym x y : apartAt x y -> apartAt y x.
Proof. intros H a s s' c z z' E1 E2 S1 S2. destruct (H c z z' a s s' E2 E1 S2 S1); auto. Qed.

Lemma alts_outs : forall l, (forall x, In x l -> In x alts) -> forall m st ml m' st', EvAlts gA (List.map ruleIn l) SK t m st ml m' st' ->
  ForallOrdPairs apartAt l ->
  (ml = [] -> forall x, In x l -> forall a s s', t = s ++ s' -> ~ spells x a s) /\
  (ml <> [] -> exists n u, strictlyLongest ml n u) /\
  (forall n u, In (n, u) ml -> exists x, In x l /\ longest (spells x) (snd x) on t (OMatch n u 0 true)) /\
  (forall n u, strictlyLongest ml n u -> exists l1 x l2 k s, l = l1 ++ x :: l2 /\ longest (spells x) (snd x) on t (OMatch n u k s) /\
     forall y, In y (l1 ++ l2) -> forall a z z', t = z ++ z' -> spells y a z -> (length z < u)%nat).
Proof.
  induction l as [|x l IH]; intros I m st ml m' st' H OP.
  { cbn [List.map] in H. inversion H; subst. split; [intros _ x []|]. split; [congruence|]. split; [intros n u []|]. intros n u (l1 & l2 & E & _). destruct l1; discriminate. }
  cbn [List.map] in H. inversion OP as [|? ? O1 O2]; subst.
  inversion H as [|? ? ? ? ? ? n1 u1 k1 s1 ml1 ? ? E F|? ? ? ? ? ? k1 s1 ? ? ? E F]; subst; specialize (HE x (I x (or_introl eq_refl)) _ E) as L1;
    destruct (IH (fun y Y => I y (or_intror Y)) _ _ _ _ _ F O2) as (IA & IC & IB & ID).
  - pose proof L1 as L1'. destruct L1' as (U1 & a1 & X1 & _ & _).
    assert (DIF : forall n u, In (n, u) ml1 -> u <> u1).
    { intros n u J ->. destruct (IB n u1 J) as (y & Y & (_ & a2 & X2 & _)). rewrite Forall_forall in O1. specialize (O1 y Y).
      destruct (O1 a1 _ (skipn u1 t) a2 _ (skipn u1 t) ltac:(now rewrite firstn_skipn) ltac:(now rewrite firstn_skipn) X1 X2) as [[Q _]|[Q _]]; lia. }
    split; [discriminate|]. split; [intros _|split].
    + destruct ml1 as [|p ml1].
      { exists n1, u1, [], []. split; [reflexivity|constructor]. }
      destruct (IC ltac:(discriminate)) as (n & u & l1 & l2 & E1 & SL). assert (J : In (n, u) (p :: ml1)) by (rewrite E1; apply in_or_app; right; now left). specialize (DIF n u J).
      destruct (Nat.lt_ge_cases u1 u) as [LT|GE].
      * exists n, u, ((n1, u1) :: l1), l2. rewrite E1. split; [reflexivity|]. cbn [app]. now constructor.
      * exists n1, u1, [], (p :: ml1). split; [reflexivity|]. cbn [app]. rewrite E1. apply Forall_app in SL as [S1 S2]. apply Forall_app. split; [|constructor; [cbn; lia|]].
        -- eapply Forall_impl; [|exact S1]. intros q Q. cbn in Q. lia.
        -- eapply Forall_impl; [|exact S2]. intros q Q. cbn in Q. lia.
    + intros n u [J|J]; [injection J as <- <-; exists x; split; [now left|exact L1]|]. destruct (IB n u J) as (y & Y & L). exists y. split; [now right|exact L].
    + intros n u (l1 & l2 & E1 & SL). destruct l1 as [|p l1].
      * injection E1 as <- <- <-. exists [], x, l, k1, s1. split; [reflexivity|]. split; [exact L1|]. cbn [app] in *. intros y Y a z z' Z S.
        destruct (in_split _ _ Y) as (q1 & q2 & ->). rewrite Forall_forall in O1. specialize (O1 y Y).
        destruct (O1 a1 _ (skipn u1 t) a z z' ltac:(now rewrite firstn_skipn) Z X1 S) as [[Q _]|[Q _]]; rewrite firstn_length in Q; [|lia].
        exfalso. destruct (Nat.eq_dec (length ml1) 0) as [M0|M0].
        { apply length_zero_iff_nil in M0. exact (IA M0 y Y a z z' Z S). }
        assert (ml1 <> []) by (intros ->; now apply M0). destruct (IC H0) as (n & u & C). pose proof C as C'. destruct C' as (c1 & c2 & CE & _).
        destruct (ID n u C) as (d1 & x' & d2 & k' & s' & DE & DL & DO).
        assert (J : In (n, u) ml1) by (rewrite CE; apply in_or_app; right; now left). rewrite Forall_forall in SL. specialize (SL _ J). cbn in SL.
        assert (length z <= u)%nat; [|lia]. rewrite DE in Y. apply in_app_or in Y. destruct Y as [Y|[->|Y]].
        -- apply Nat.lt_le_incl. apply (DO y ltac:(apply in_or_app; now left) a z z' Z S).
        -- exact (longest_le _ _ _ _ _ _ _ _ DL a z z' Z S).
        -- apply Nat.lt_le_incl. apply (DO y ltac:(apply in_or_app; now right) a z z' Z S).
      * injection E1 as <- E1. cbn [app] in SL. inversion SL as [|? ? S1 S2]; subst. cbn in S1.
        destruct (ID n u (ex_intro _ l1 (ex_intro _ l2 (conj eq_refl S2)))) as (d1 & x' & d2 & k' & s' & DE & DL & DO).
        exists (x :: d1), x', d2, k', s'. split; [now rewrite DE|]. split; [exact DL|]. intros y [<-|Y] a z z' Z S; [|now apply (DO y Y a z z')].
        pose proof (longest_le _ _ _ _ _ _ _ _ L1 a z z' Z S). lia.
  - split; [intros M y [<-|Y] a s s' S X; [exact (L1 a s s' S X)|exact (IA M y Y a s s' S X)]|]. split; [exact IC|]. split.
    + intros n u J. destruct (IB n u J) as (y & Y & L). exists y. split; [now right|exact L].
    + intros n u SL. destruct (ID n u SL) as (d1 & x' & d2 & k' & s' & DE & DL & DO). exists (x :: d1), x', d2, k', s'. split; [now rewrite DE|]. split; [exact DL|].
      intros y [<-|Y] a z z' Z S; [destruct (L1 a z z' Z S)|now apply (DO y Y a z z')].
Qed.

Lemma choice_longest o : Ev gA (RChoice b [List.map ruleIn alts]) SK t o -> longest (fun a s => exists x, In x alts /\ spells x a s) T on t o.
Proof.
  intros H. inversion H as [| | | | | | | | | | | | | |? ? ? ? ? C| |]; subst.
  inversion C as [|? ? ? ? ? ? ? ? ? ? AL EL|? ? ? ? ? ? ? ? ? ? n1 ? AL SL|? ? ? ? ? ? ? ? ? ? AL NE TI]; subst;
    destruct (alts_outs alts (fun x X => X) _ _ _ _ _ AL HA) as (IA & IC & IB & ID).
  - inversion EL; subst. intros a s s' S (x & X & Y). exact (IA eq_refl x X a s s' S Y).
  - destruct (ID n1 u SL) as (l1 & x & l2 & k' & s' & E & (U & a & X & B & L) & O). split; [exact U|]. exists a. assert (IX : In x alts) by (rewrite E; apply in_or_app; right; now left).
    split; [exists x; split; [exact IX|exact X]|]. split.
    + rewrite (HT x IX a _ X). unfold tree, build. destruct HB as (-> & -> & ->). cbn. unfold nd. now rewrite B.
    + intros y s s'' S (z & Z & Y). rewrite E in Z. apply in_app_or in Z. assert (ZZ : z = x \/ In z (l1 ++ l2)) by (destruct Z as [Z|[->|Z]]; [right; apply in_or_app; now left|now left|right; apply in_or_app; now right]).
      destruct ZZ as [->|ZZ]; [exact (L y s s'' S Y)|]. right. specialize (O z ZZ y s s'' S Y). split; [exact O|].
      assert (AP : apartAt x z).
      { rewrite E in HA. destruct (FOP_split _ _ _ _ HA) as [F1 F2]. apply in_app_or in ZZ. destruct ZZ as [ZZ|ZZ]; [apply apart_sym; now apply F1|now apply F2]. }
      destruct (AP a (firstn u t) (skipn u t) y s s'' ltac:(now rewrite firstn_skipn) S X Y) as [[Q _]|[Q G]]; [rewrite firstn_length in Q; lia|exact G].
  - destruct (IC NE) as (n & u & X). destruct (TI n u X).
Qed.
End Choice.

(* ---------------- words ---------------- *)

Lemma isWS_dark c : isWS c = false -> In c whiteSpaces -> False.
Proof. intros H X. apply isWS_In in X. congruence. Qed.
Lemma one_word c t : isWS c = false -> Ev gA (RString nb [c]) SK t
  (if headIs c (skipn (lead t) t) then OMatch (wordNode nb [c]) (lead t + 1) (lead t + 1) false else OFail (length (fst (litmatch [c] (skipn (lead t) t))) + lead t) false).
Proof.
  intros D. eapply ev_eq'; [now apply word_ev|]. unfold wOut. destruct (skipn (lead t) t) as [|x l]; [cbn; f_equal; lia|]. cbn [headIs litmatch].
  destruct (x =? c); cbn; f_equal; lia.
Qed.
(** Behind white space. *)
Lemma white_head w c r t : white w -> isWS c = false -> t = w ++ c :: r -> lead t = length w /\ skipn (lead t) t = c :: r /\ firstn (lead t) t = w.
Proof.
  intros W D ->. destruct (white_lead w c r W D) as [A B]. split; [exact A|]. split; [exact B|]. rewrite A. rewrite firstn_app, Nat.sub_diag, firstn_all. apply app_nil_r.
Qed.
Lemma head_white c t : headIs c (skipn (lead t) t) = true -> exists r, t = firstn (lead t) t ++ c :: r /\ white (firstn (lead t) t) /\ skipn (lead t + 1) t = r.
Proof.
  intros H. pose proof (head_tail _ _ _ H) as E. destruct (lead_white t) as (A & B & _). exists (skipn (lead t + 1) t). rewrite <- E. auto.
Qed.

Definition opNode (name : list Z) (c : Z) : node := tree TGroup (named name) [tree TChoice nb [wordNode nb [c]] false] false.
Lemma op_ev name a b t : lookup gA name = Some (xOp name a b) -> isWS a = false -> isWS b = false -> a <> b ->
  (exists c k, (c = a \/ c = b) /\ headIs c (skipn (lead t) t) = true /\ Ev gA (ref name) SK t (OMatch (opNode name c) (lead t + 1) k false)) \/
  ((forall c, c = a \/ c = b -> headIs c (skipn (lead t) t) = false) /\ exists k s, Ev gA (ref name) SK t (OFail k s)).
Proof.
  intros L Wa Wb NE. pose proof (one_word a t Wa) as Ea. pose proof (one_word b t Wb) as Eb. set (l := skipn (lead t) t) in *.
  destruct (headIs a l) eqn:Ha; [|destruct (headIs b l) eqn:Hb].
  - left. exists a. assert (Hb : headIs b l = false).
    { destruct l as [|x l]; [discriminate|]. cbn in *. apply Z.eqb_eq in Ha. apply Z.eqb_neq. congruence. }
    rewrite Hb in Eb. eexists. split; [now left|]. split; [exact Ha|]. apply (ref_any _ _ _ _ _ L). eapply ev_group. apply ev_choice.
    eapply evch_eq; [eapply ec_pick with (ml := [(wordNode nb [a], (lead t + 1)%nat)]); [eapply ea_match; [exact Ea|eapply ea_fail; [exact Eb|apply ea_nil]]|exists [], []; split; [reflexivity|constructor]]|]. reflexivity.
  - left. exists b. eexists. split; [now right|]. split; [exact Hb|]. apply (ref_any _ _ _ _ _ L). eapply ev_group. apply ev_choice.
    eapply evch_eq; [eapply ec_pick with (ml := [(wordNode nb [b], (lead t + 1)%nat)]); [eapply ea_fail; [exact Ea|eapply ea_match; [exact Eb|apply ea_nil]]|exists [], []; split; [reflexivity|constructor]]|]. reflexivity.
  - right. split; [intros c [->| ->]; assumption|]. eexists. eexists. apply (ref_any _ _ _ _ _ L). eapply ev_group_fail. apply ev_choice. eapply ec_next; [|apply ec_none].
    eapply ea_fail; [exact Ea|]. eapply ea_fail; [exact Eb|]. apply ea_nil.
Qed.

(* ---------------- things with operators between them ---------------- *)

Lemma app_inv_len {A} (a b c d : list A) : a ++ b = c ++ d -> length a = length c -> a = c /\ b = d.
Proof.
  revert c. induction a as [|x a IH]; intros [|y c] H L; try discriminate; [now split|]. cbn in *. injection H as -> H. injection L as L. destruct (IH c H L) as [-> ->]. now split.
Qed.
Lemma firstn_len {A} (s s' : list A) : firstn (length s) (s ++ s') = s.
Proof. rewrite firstn_app, Nat.sub_diag, firstn_all. apply app_nil_r. Qed.
Lemma skipn_len {A} (s s' : list A) : skipn (length s) (s ++ s') = s'.
Proof. rewrite skipn_app, Nat.sub_diag, skipn_all. reflexivity. Qed.

Section Chains.
Context {A : Type}.
Variables (name opName arg : list Z) (a b : Z) (rArg : rule) (P : A -> list Z -> Prop) (T : A -> node) (on0 on1 : list Z -> Prop).
Definition isOp (c : Z) : Prop := c = a \/ c = b.
Hypothesis Lop : lookup gA opName = Some (xOp opName a b).
Hypothesis Larg : lookup gA arg = Some rArg.
Hypothesis Wa : isWS a = false. Hypothesis Wb : isWS b = false. Hypothesis NE : a <> b.
Hypothesis H0 : forall w o r, white w -> isOp o -> ~ on0 (w ++ o :: r).
Hypothesis H1 : forall w o r, white w -> isOp o -> on1 (w ++ o :: r).
Hypothesis H01 : forall s, on0 s -> on1 s.
Hypothesis Hst : forall t n u k st, Ev gA (ref arg) SK t (OMatch n u k st) -> st = false.
Variable bound : nat.
Hypothesis HR : forall t o, (length t <= bound)%nat -> plainSpace t -> Ev gA (ref arg) SK t o -> longest P T on0 t o.

Definition linkTree (x : Z * A) : node := nd TConcat [] [] [opTree opName (fst x); T (snd x)].
Lemma op_dark o : isOp o -> isWS o = false. Proof. intros [->| ->]; assumption. Qed.
Lemma arg_mode f n : nextMode f n false = SK \/ nextMode f n false = f.
Proof. unfold nextMode. destruct (n_type n), (n_kids n), (n_chars n); auto. Qed.
Lemma arg_mode' n : nextMode SK n false = SK.
Proof. destruct (arg_mode SK n); assumption. Qed.

(** One more: an operator and what follows. *)
Definition xLink : rule := RConcat nb [ref opName; ref arg].
Lemma link_ev t : plainSpace t -> (length t <= bound)%nat ->
  (exists w o r, t = w ++ o :: r /\ white w /\ isOp o /\
     ((exists n u k x, Ev gA xLink SK t (OMatch (tree TConcat nb [opNode opName o; n] false) (length w + 1 + u) k false) /\ (u <= length r)%nat /\
         P x (firstn u r) /\ bare n = T x /\ forall y s s', r = s ++ s' -> P y s -> (s = firstn u r /\ y = x) \/ ((length s < u)%nat /\ on0 s')) \/
      ((exists k s, Ev gA xLink SK t (OFail k s)) /\ forall y s s', r = s ++ s' -> ~ P y s))) \/
  ((exists k s, Ev gA xLink SK t (OFail k s)) /\ forall w o r, white w -> isOp o -> t <> w ++ o :: r).
Proof.
  intros PS LE. destruct (op_ev opName a b t Lop Wa Wb NE) as [(c & k & C & HC & E)|(NO & k & s & E)].
  - left. destruct (head_white c t HC) as (r & TE & W & S1). exists (firstn (lead t) t), c, r. split; [exact TE|]. split; [exact W|]. split; [exact C|].
    assert (LR : (length r <= bound)%nat) by (rewrite <- S1, skipn_length; lia). assert (PR : plainSpace r) by (rewrite <- S1; now apply plain_skipn).
    destruct (aTotal arg rArg SK r Larg) as (o & EO). pose proof (HR r o LR PR EO) as LO. destruct o as [n u k1 st|k1 st].
    + left. assert (st = false) by (eapply Hst; exact EO). subst st. destruct LO as (U & x & X & B & O). exists n, u. eexists. exists x. split; [|now repeat split].
      apply ev_concat. eapply es_step; [exact E|]. change (nextMode SK (opNode opName c) false) with SK. cbn [andb app]. eapply es_step.
      { rewrite Nat.add_0_l, S1. exact EO. }
      eapply evseq_eq; [apply es_done|]. cbn [andb app]. rewrite firstn_length. pose proof (lead_le t). f_equal. lia.
    + right. split; [|exact LO]. eexists. eexists. apply ev_concat. eapply es_step; [exact E|]. change (nextMode SK (opNode opName c) false) with SK. cbn [andb app]. eapply es_fail.
      rewrite Nat.add_0_l, S1. exact EO.
  - right. split.
    + eexists. eexists. apply ev_concat. eapply es_fail. exact E.
    + intros w o r W O TE. destruct (white_head w o r t W (op_dark o O) TE) as (_ & X & _). specialize (NO o O). rewrite X in NO. cbn in NO. rewrite Z.eqb_refl in NO. discriminate.
Qed.

Lemma links_inv w o r l s s' : white w -> isOp o -> w ++ o :: r = s ++ s' -> Links isOp P l s ->
  (l = [] /\ s = []) \/ exists y ty l' tl, l = (o, y) :: l' /\ P y ty /\ Links isOp P l' tl /\ s = (w ++ o :: ty) ++ tl /\ r = ty ++ tl ++ s'.
Proof.
  intros W O E L. destruct L as [|w2 o2 y ty l' tl W2 O2 Y L]; [now left|right]. repeat rewrite <- app_assoc in E. cbn [app] in E.
  destruct (white_head w o r _ W (op_dark o O) eq_refl) as (A1 & A2 & A3). destruct (white_head w2 o2 (ty ++ tl ++ s') _ W2 (op_dark o2 O2) E) as (B1 & B2 & B3).
  rewrite A2 in B2. injection B2 as <- ->. rewrite A3 in B3. subst w2. exists y, ty, l', tl. auto.
Qed.
Lemma links_stop l s r : Links isOp P l s -> on0 (s ++ r) -> l = [] /\ s = [].
Proof. intros L ON. destruct L as [|w o y ty l' tl W O Y L]; [now split|]. exfalso. repeat rewrite <- app_assoc in ON. cbn [app] in ON. exact (H0 w o _ W O ON). Qed.

Lemma links_rep t : plainSpace t -> (length t <= bound)%nat -> forall d p m st kids, (length t - p <= d)%nat -> (p <= length t)%nat ->
  exists l ns u k s, EvRep gA nb xLink 0 0 SK t p m st kids (OMatch (tree TRepetition nb (kids ++ ns) s) (p + u) k s) /\ (u <= length (skipn p t))%nat /\
    List.map bare ns = List.map linkTree l /\ Links isOp P l (firstn u (skipn p t)) /\
    forall l' z z', skipn p t = z ++ z' -> Links isOp P l' z -> (z = firstn u (skipn p t) /\ l' = l) \/ ((length z < u)%nat /\ on1 z').
Proof.
  intros PS LT. induction d as [d IH] using lt_wf_ind. intros p m st kids LD LP. pose proof (skipn_length p t) as SL. set (t0 := skipn p t) in *.
  assert (STOP : (t0 = [] \/ exists k s, Ev gA xLink SK t0 (OFail k s)) -> exists k s, EvRep gA nb xLink 0 0 SK t p m st kids (OMatch (tree TRepetition nb (kids ++ []) s) (p + 0) k s)).
  { intros S. rewrite app_nil_r, Nat.add_0_r. destruct t0 as [|c t1] eqn:T0.
    - exists m, st. apply er_end; [exact T0|]. apply ee_ok. lia.
    - destruct S as [S|(k & s & S)]; [discriminate|]. eexists. eexists. eapply er_stop; [fold t0; rewrite T0; discriminate|fold t0; rewrite T0; exact S|]. apply ee_ok. lia. }
  assert (P0 : plainSpace t0) by now apply plain_skipn. assert (L0 : (length t0 <= bound)%nat) by lia.
  destruct (link_ev t0 P0 L0) as [(w & o & r & TE & W & O & X)|(X & N)].
  2:{ destruct (STOP (or_intror X)) as (k & s & E). exists [], [], 0%nat, k, s. split; [exact E|]. split; [lia|]. split; [reflexivity|]. split; [constructor|].
      intros l' z z' Z L. left. destruct L as [|w o y ty l' tl W O Y L]; [now split|]. exfalso. repeat rewrite <- app_assoc in Z. cbn [app] in Z. exact (N w o _ W O Z). }
  assert (LT0 : length t0 = (length w + 1 + length r)%nat) by (rewrite TE, app_length; cbn [length]; lia).
  destruct X as [(n & u1 & k1 & x & E & U & X & B & OTH)|(X & NP)].
  2:{ destruct (STOP (or_intror X)) as (k & s & E). exists [], [], 0%nat, k, s. split; [exact E|]. split; [lia|]. split; [reflexivity|]. split; [constructor|].
      intros l' z z' Z L. left. rewrite TE in Z. destruct (links_inv w o r l' z z' W O Z L) as [[-> ->]|(y & ty & l'' & tl & _ & Y & _ & _ & R)]; [now split|]. destruct (NP y ty (tl ++ z') R Y). }
  clear STOP. set (q := (p + (length w + 1 + u1))%nat).
  destruct (IH (length t - q)%nat ltac:(unfold q; lia) q (Nat.max m (p + k1)) (st && false) (kids ++ [tree TConcat nb [opNode opName o; n] false]) (Nat.le_refl _) ltac:(unfold q; lia))
    as (l & ns & u & k & s & ER & UL & MB & LK & OT).
  assert (SQ : skipn q t = skipn u1 r).
  { unfold q. rewrite <- skipn_plus. fold t0. rewrite TE. rewrite <- skipn_plus. f_equal. change (w ++ o :: r) with (w ++ [o] ++ r). rewrite app_assoc. replace (length w + 1)%nat with (length (w ++ [o])) by (rewrite app_length; reflexivity). apply skipn_len. }
  rewrite SQ in *. rewrite skipn_length in UL.
  exists ((o, x) :: l), (tree TConcat nb [opNode opName o; n] false :: ns), (length w + 1 + u1 + u)%nat, k, s.
  assert (F : firstn (length w + 1 + u1 + u) t0 = (w ++ o :: firstn u1 r) ++ firstn u (skipn u1 r)).
  { rewrite TE. replace (length w + 1 + u1 + u)%nat with (length w + S (u1 + u))%nat by lia. rewrite firstn_app_2. rewrite <- app_assoc. f_equal. cbn [firstn app]. f_equal.
    rewrite <- (firstn_skipn u1 r) at 1. rewrite firstn_app. rewrite firstn_length. replace (u1 + u - Nat.min u1 (length r))%nat with u by lia. f_equal.
    rewrite firstn_all2; [reflexivity|]. rewrite firstn_length. lia. }
  split; [|split; [lia|]; split; [|split]].
  - eapply er_step; [fold t0; rewrite TE; now destruct w|fold t0; exact E|lia|]. replace (p + (length w + 1 + u1 + u))%nat with (q + u)%nat by (unfold q; lia).
    rewrite <- app_assoc in ER. exact ER.
  - cbn [List.map]. rewrite MB. f_equal. unfold linkTree, tree, build, nd. cbn. now rewrite B.
  - rewrite F. now constructor.
  - intros l' z z' Z L. rewrite TE in Z. rewrite F. destruct (links_inv w o r l' z z' W O Z L) as [[-> ->]|(y & ty & l'' & tl & -> & Y & LK' & -> & R)].
    + right. split; [cbn; lia|]. cbn [app] in Z. rewrite <- Z. now apply H1.
    + destruct (OTH y ty (tl ++ z') R Y) as [[ET ->]|[LL ON]].
      * assert (R' : skipn u1 r = tl ++ z').
        { rewrite R. replace u1 with (length ty); [apply skipn_len|]. rewrite ET, firstn_length. lia. }
        destruct (OT l'' tl z' R' LK') as [[-> ->]|[L2 O2]].
        -- left. split; [now rewrite ET|reflexivity].
        -- right. split; [|exact O2]. rewrite !app_length. cbn [length]. rewrite ET, firstn_length. lia.
      * destruct (links_stop l'' tl z' LK' ON) as [-> ->]. right. rewrite app_nil_r, app_length. cbn [length app] in *. split; [lia|now apply H01].
Qed.

Definition chTree (x : A * list (Z * A)) : node := chainTree name opName (T (fst x)) (List.map (fun y => (fst y, T (snd y))) (snd x)).
Hypothesis Lname : lookup gA name = Some (xChain name opName arg).
Lemma chain_longest t o : plainSpace t -> (length t <= bound)%nat -> Ev gA (ref name) SK t o -> longest (Chain isOp P) chTree on1 t o.
Proof.
  intros PS LT E. destruct (aTotal arg rArg SK t Larg) as (oa & EA). pose proof (HR t oa LT PS EA) as LA. destruct oa as [n u k st|k st].
  - assert (st = false) by (eapply Hst; exact EA). subst st. destruct LA as (U & x & X & B & OT).
    set (t0 := skipn u t) in *. pose proof (skipn_length u t) as SL. fold t0 in SL.
    destruct (links_rep t0 (plain_skipn u t PS) ltac:(lia) (length t0) 0 0 true [] ltac:(lia) ltac:(lia)) as (l & ns & v & k2 & s & ER & UV & MB & LK & OL).
    change (skipn 0 t0) with t0 in *. cbn [app Nat.add] in ER.
    assert (EV : exists k' s', Ev gA (ref name) SK t (OMatch (tree TConcat (named name) [n; tree TRepetition nb ns s] s') (u + v) k' s')).
    { eexists. eexists. apply (ref_any _ _ _ _ _ Lname). apply ev_concat. eapply es_step; [exact EA|]. rewrite arg_mode'. cbn [andb app].
      eapply es_step; [rewrite Nat.add_0_l; apply ev_rep; exact ER|]. eapply evseq_eq; [apply es_done|]. cbn [app]. f_equal. }
    destruct EV as (k' & s' & EV). rewrite (ev_det _ _ _ _ _ _ E EV). split; [lia|]. exists (x, l).
    assert (F : firstn (u + v) t = firstn u t ++ firstn v t0).
    { rewrite <- (firstn_skipn u t) at 1. rewrite firstn_app, firstn_length. replace (u + v - Nat.min u (length t))%nat with v by lia. fold t0. f_equal. apply firstn_all2. rewrite firstn_length. lia. }
    rewrite F. split; [now constructor|]. split.
    + unfold chTree, chainTree, tree, build, nd. cbn. rewrite B, MB. rewrite map_map. reflexivity.
    + intros y z z' Z Y. destruct Y as [y ty l' tl Y L']. rewrite <- app_assoc in Z. destruct (OT y ty (tl ++ z') Z Y) as [[ET ->]|[LL ON]].
      * assert (R' : t0 = tl ++ z').
        { unfold t0. rewrite Z. replace u with (length ty); [apply skipn_len|]. rewrite ET, firstn_length. lia. }
        destruct (OL l' tl z' R' L') as [[-> ->]|[L2 O2]].
        -- left. split; [now rewrite ET|reflexivity].
        -- right. split; [|exact O2]. rewrite app_length, ET, firstn_length. lia.
      * destruct (links_stop l' tl z' L' ON) as [-> ->]. right. rewrite app_nil_r. cbn [app] in ON. split; [lia|now apply H01].
  - assert (EV : exists k' s', Ev gA (ref name) SK t (OFail k' s')).
    { eexists. eexists. apply (ref_any _ _ _ _ _ Lname). apply ev_concat. eapply es_fail. exact EA. }
    destruct EV as (k' & s' & EV). rewrite (ev_det _ _ _ _ _ _ E EV). intros y z z' Z Y. destruct Y as [y ty l' tl Y L']. rewrite <- app_assoc in Z. exact (LA y ty (tl ++ z') Z Y).
Qed.
Lemma chain_soft t n u k st : Ev gA (ref name) SK t (OMatch n u k st) -> st = false.
Proof.
  intros E. apply (inv_ref_any gA name _ _ _ _ Lname) in E. inversion E as [| | | | | | | | | | | |? ? ? ? ? C| | | |]; subst.
  destruct (inv_seq _ _ _ _ _ _ _ _ _ _ _ _ _ _ C) as (n1 & u1 & k1 & s1 & E1 & C1). cbn [skipn] in E1. apply Hst in E1. subst s1. cbn [andb] in C1.
  exact (seq_soft gA _ _ _ _ _ _ _ _ C1).
Qed.
End Chains.

(* ---------------- tokens ---------------- *)

(** With this behind it a token, a product or a sum could have been longer. *)
Definition goesOn (ops : Z -> Prop) (s : list Z) : Prop :=
  (exists w c r, s = w ++ c :: r /\ white w /\ (ops c \/ decDigit c)) \/ (exists c r, s = c :: r /\ (nameRune c \/ c = 46)).
Definition nothing (c : Z) : Prop := False.
Lemma goesOn_mono (p q : Z -> Prop) s : (forall c, p c -> q c) -> goesOn p s -> goesOn q s.
Proof. intros H [(w & c & r & E & W & X)|X]; [left|now right]. exists w, c, r. split; [exact E|]. split; [exact W|]. destruct X; auto. Qed.
Lemma goes_name ops c r : nameRune c -> goesOn ops (c :: r). Proof. intros H. right. eauto. Qed.

(** A token behind white space. *)
Lemma token_inv w c body s' t : white w -> isWS c = false -> t = (w ++ c :: body) ++ s' -> skipn (lead t) t = c :: body ++ s' /\ firstn (lead t) t = w /\ lead t = length w.
Proof.
  intros W D E. rewrite <- app_assoc in E. cbn [app] in E. destruct (white_head w c (body ++ s') t W D E) as (A & B & C). auto.
Qed.
Lemma firstn_plus (a u : nat) (t : list Z) : firstn (a + u) t = firstn a t ++ firstn u (skipn a t).
Proof. revert t; induction a as [|a IH]; intros [|x t]; cbn [Nat.add firstn skipn app]; try reflexivity; [now destruct u|now rewrite IH]. Qed.
Lemma token_text t u : firstn (lead t + u) t = firstn (lead t) t ++ firstn u (skipn (lead t) t).
Proof. apply firstn_plus. Qed.
Lemma token_same t u w body s' : white w -> firstn (lead t) t = w -> skipn (lead t) t = body ++ s' -> length body = u -> w ++ body = firstn (lead t + u) t.
Proof. intros W E S <-. rewrite token_text, E, S, firstn_len. reflexivity. Qed.

Lemma run_cmp p es l s' : Forall (fun c => p c = true) es -> l = es ++ s' ->
  (es = runP p l /\ s' = skipn (length es) l) \/ ((length es < length (runP p l))%nat /\ exists d r, s' = d :: r /\ p d = true).
Proof.
  intros F ->. rewrite skipn_len. induction F as [|e es E _ IH]; cbn [app runP].
  - destruct s' as [|d r]; [left; now split|]. cbn [runP]. destruct (p d) eqn:D; [right|left; now split]. cbn [length]. split; [lia|eauto].
  - rewrite E. destruct IH as [[<- _]|[L X]]; [left; now split|right]. cbn [length]. split; [lia|exact X].
Qed.
Lemma run_none p d es l s' : p d = true -> l = d :: es ++ s' -> runP p l <> [].
Proof. intros D ->. cbn [runP]. rewrite D. discriminate. Qed.
Lemma dec_all ds : Forall decDigit ds <-> Forall (fun c => isDec c = true) ds.
Proof. rewrite !Forall_forall. split; intros H x X; [now apply isDec_iff, H|now apply isDec_iff, H]. Qed.
Lemma firstn_run p l : firstn (length (runP p l)) l = runP p l.
Proof. rewrite (runP_split p l) at 2. apply firstn_len. Qed.
Lemma bare_run dn tr ds : Forall (fun d => bare (dn d) = tr d) ds -> List.map bare (runNodes dn ds) = runTree tr ds.
Proof.
  intros F. destruct F as [|d ds D F]; [reflexivity|]. cbn [runNodes runTree List.map]. rewrite D. do 2 f_equal. unfold manyNode, tree, build, nd. cbn. f_equal.
  rewrite map_map. induction F as [|e ds E F IH]; [reflexivity|]. cbn. now rewrite E, IH.
Qed.
Lemma bare_many dn tr ds : Forall (fun d => bare (dn d) = tr d) ds -> bare (manyNode dn ds) = nd TRepetition [] [] (List.map tr ds).
Proof. intros F. unfold manyNode, tree, build, nd. cbn. f_equal. rewrite map_map. induction F as [|e ds E F IH]; [reflexivity|]. cbn. now rewrite E, IH. Qed.
Lemma all_true {X} (Q : X -> Prop) l : (forall x, Q x) -> Forall Q l. Proof. intros H. induction l; constructor; auto. Qed.

Definition intDecTree (x : number) : node := match x with NDec m ds => nd TConcat (rs "integer_dec") [] (signTree m :: runTree decTree ds) | _ => nd TEOF [] [] [] end.
Definition IsDec (x : number) (s : list Z) : Prop := exists w m ds, x = NDec m ds /\ white w /\ some decDigit ds /\ s = w ++ sign m ++ ds.

Lemma dec_inv t x s s' : IsDec x s -> t = s ++ s' -> exists w m ds, x = NDec m ds /\ some decDigit ds /\ firstn (lead t) t = w /\ s = w ++ sign m ++ ds /\ white w /\
  skipn (lead t) t = sign m ++ ds ++ s' /\ lead t = length w.
Proof.
  intros (w & m & ds & -> & W & D & ->) E. exists w, m, ds. split; [reflexivity|]. split; [exact D|]. destruct m; cbn [sign app] in *.
  - destruct (token_inv w 45 ds s' t W eq_refl E) as (A & B & C). auto.
  - destruct D as [NE F]. destruct ds as [|d ds]; [congruence|]. pose proof (Forall_inv F) as D1. destruct (token_inv w d ds s' t W) as (A & B & C); [apply isDec_dark; now apply isDec_iff|exact E|]. auto 10.
Qed.
Lemma digits_here ds s' l : some decDigit ds -> l = ds ++ s' -> runP isDec l <> [] /\ headIs 45 l = false.
Proof.
  intros [NE F] ->. destruct ds as [|d ds]; [congruence|]. inversion F as [|? ? D _]; subst. cbn [app runP headIs]. rewrite (proj2 (isDec_iff d) D). split; [discriminate|].
  apply Z.eqb_neq. unfold decDigit in D. lia.
Qed.
Lemma some_run l : runP isDec l <> [] -> some decDigit (runP isDec l).
Proof. intros H. split; [exact H|]. apply dec_all. apply runP_all. Qed.
Lemma intDec_longest t o : plainSpace t -> Ev gA (ref aIntDec) SK t o -> longest IsDec intDecTree (goesOn nothing) t o.
Proof.
  intros PS E. rewrite (ev_det _ _ _ _ _ _ E (intDec_ev SK t PS)). clear E. rewrite sp_skip. unfold decOut, runOut. destruct (lead_white t) as (TE & W & LW). pose proof (lead_le t) as LE.
  pose proof (skipn_length (lead t) t) as LL.
  destruct (headIs 45 (skipn (lead t) t)) eqn:H.
  - pose proof (head_tail _ _ _ H) as HT. rewrite HT. cbn [tl]. set (l := skipn (lead t + 1) t) in *.
    assert (INV : forall y s s', t = s ++ s' -> IsDec y s -> exists ds, y = NDec true ds /\ some decDigit ds /\ s = firstn (lead t) t ++ 45 :: ds /\ l = ds ++ s').
    { intros y s s' S Y. destruct (dec_inv t y s s' Y S) as (w & m & ds & -> & D & <- & -> & _ & B & _). rewrite HT in B. destruct m; cbn [sign app] in *.
      - injection B as B. exists ds. auto.
      - destruct (digits_here ds s' _ D B) as [_ X]. discriminate. }
    rewrite HT in LL. cbn [length] in LL. pose proof (runP_len isDec l) as RL. destruct (runP isDec l) as [|d ds] eqn:R; cbn [shift longest].
    + intros y s s' S Y. destruct (INV y s s' S Y) as (ds & _ & D & _ & B). destruct (digits_here ds s' l D B) as [X _]. congruence.
    + rewrite <- R. assert (SR : some decDigit (runP isDec l)) by (apply some_run; rewrite R; discriminate).
      change (1 + length (runP isDec l))%nat with (S (length (runP isDec l))).
      assert (TX : firstn (lead t + S (length (runP isDec l))) t = firstn (lead t) t ++ 45 :: runP isDec l) by (rewrite token_text, HT; cbn [firstn]; now rewrite firstn_run).
      rewrite TX. split; [rewrite R; cbn [length]in *; lia|]. exists (NDec true (runP isDec l)). split; [|split].
      * exists (firstn (lead t) t), true, (runP isDec l). auto.
      * unfold intDecTree, tree, build, nd. cbn. do 2 f_equal. apply bare_run. now apply all_true.
      * intros y s s' S Y. destruct (INV y s s' S Y) as (es & -> & D & -> & B). destruct (run_cmp isDec es l s' ltac:(apply dec_all; apply D) B) as [[-> _]|[L (e & r & -> & X)]]; [now left|right].
        split; [rewrite app_length, LW; cbn [length]; lia|]. apply goes_name. right. left. now apply isDec_iff.
  - set (l := skipn (lead t) t) in *.
    assert (INV : forall y s s', t = s ++ s' -> IsDec y s -> exists ds, y = NDec false ds /\ some decDigit ds /\ s = firstn (lead t) t ++ ds /\ l = ds ++ s').
    { intros y s s' S Y. destruct (dec_inv t y s s' Y S) as (w & m & ds & -> & D & <- & -> & _ & B & _). fold l in B. destruct m; cbn [sign app] in *; [rewrite B in H; discriminate|]. exists ds. auto. }
    pose proof (runP_len isDec l) as RL. destruct (runP isDec l) as [|d ds] eqn:R; cbn [shift longest].
    + intros y s s' S Y. destruct (INV y s s' S Y) as (ds & _ & D & _ & B). destruct (digits_here ds s' l D B) as [X _]. congruence.
    + rewrite <- R. assert (SR : some decDigit (runP isDec l)) by (apply some_run; rewrite R; discriminate).
      rewrite <- R in RL.
      assert (TX : firstn (lead t + length (runP isDec l)) t = firstn (lead t) t ++ runP isDec l) by (rewrite token_text; fold l; now rewrite firstn_run).
      rewrite TX. split; [lia|]. exists (NDec false (runP isDec l)). split; [|split].
      * exists (firstn (lead t) t), false, (runP isDec l). auto.
      * unfold intDecTree, tree, build, nd. cbn. do 2 f_equal. apply bare_run. now apply all_true.
      * intros y s s' S Y. destruct (INV y s s' S Y) as (es & -> & D & -> & B). destruct (run_cmp isDec es l s' ltac:(apply dec_all; apply D) B) as [[-> _]|[L (e & r & -> & X)]]; [now left|right].
        split; [rewrite app_length, LW; lia|]. apply goes_name. right. left. now apply isDec_iff.
Qed.

(** Numbers with a prefix. *)
Definition basedTree (name : list Z) (c : Z) (tr : Z -> node) (ds : list Z) : node := nd TConcat name [] (nd TChars [] [48; c] [] :: runTree tr ds).
Lemma based_longest name c p dn (Q : Z -> Prop) tr (mk : list Z -> number) T t o : plainSpace t -> (forall d, p d = true <-> Q d) -> (forall d, Q d -> nameRune d) ->
  (forall d, Q d -> bare (dn d) = tr d) -> (forall ds, T (mk ds) = basedTree name c tr ds) -> Ev gA (ref name) SK t o ->
  (Ev gA (ref name) SK t (shift (lead t) (basedOut name c p dn (skipn (lead t) t)))) ->
  longest (fun x s => exists w ds, x = mk ds /\ white w /\ some Q ds /\ s = w ++ 48 :: c :: ds) T (goesOn nothing) t o.
Proof.
  intros PS PQ QN BT TM E E'. rewrite (ev_det _ _ _ _ _ _ E E'). clear E E'. unfold basedOut, runOut. cbv zeta. destruct (lead_white t) as (TE & W & LW). pose proof (lead_le t) as LE.
  pose proof (skipn_length (lead t) t) as LL. set (l := skipn (lead t) t) in *.
  assert (INV : forall y s s', t = s ++ s' -> (exists w ds, y = mk ds /\ white w /\ some Q ds /\ s = w ++ 48 :: c :: ds) ->
    exists ds, y = mk ds /\ some Q ds /\ s = firstn (lead t) t ++ 48 :: c :: ds /\ l = 48 :: c :: ds ++ s').
  { intros y s s' S (w & ds & -> & Ww & D & ->). destruct (token_inv w 48 (c :: ds) s' t Ww eq_refl S) as (A & B & _). fold l in A. exists ds. rewrite B. auto. }
  assert (AQ : forall ds, Forall Q ds <-> Forall (fun d => p d = true) ds) by (intros ds; rewrite !Forall_forall; split; intros X d D; now apply PQ, X).
  destruct (snd (litmatch [48; c] l)) eqn:M.
  2:{ cbn [shift longest]. intros y s s' S Y. destruct (INV y s s' S Y) as (ds & _ & _ & _ & B). rewrite B in M. cbn in M. rewrite !Z.eqb_refl in M. discriminate. }
  destruct (litmatch_inv _ _ M) as (r & LR). cbn [app] in LR. rewrite LR. cbn [skipn]. rewrite LR in LL. cbn [length] in LL. pose proof (runP_len p r) as RL.
  assert (INV' : forall y s s', t = s ++ s' -> (exists w ds, y = mk ds /\ white w /\ some Q ds /\ s = w ++ 48 :: c :: ds) ->
    exists ds, y = mk ds /\ some Q ds /\ s = firstn (lead t) t ++ 48 :: c :: ds /\ r = ds ++ s').
  { intros y s s' S Y. destruct (INV y s s' S Y) as (ds & A & B & C & D). rewrite LR in D. injection D as D. eauto. }
  destruct (runP p r) as [|d ds] eqn:R; cbn [shift longest].
  - intros y s s' S Y. destruct (INV' y s s' S Y) as (ds & _ & D & _ & B). destruct D as [NE F]. destruct ds as [|d ds]; [congruence|]. pose proof (Forall_inv F) as D1.
    apply (run_none p d ds r s'); [now apply PQ|exact B|exact R].
  - rewrite <- R in *. assert (SR : some Q (runP p r)) by (split; [rewrite R; discriminate|apply AQ, runP_all]).
    assert (TX : firstn (lead t + (2 + length (runP p r))) t = firstn (lead t) t ++ 48 :: c :: runP p r).
    { rewrite token_text. fold l. rewrite LR. cbn [Nat.add firstn]. now rewrite firstn_run. }
    rewrite TX. split; [lia|]. exists (mk (runP p r)). split; [|split].
    + exists (firstn (lead t) t), (runP p r). auto.
    + rewrite TM. unfold basedTree, tree, build, nd. cbn. do 2 f_equal. apply bare_run. destruct SR as [_ SR]. revert SR. apply Forall_impl. exact BT.
    + intros y s s' S Y. destruct (INV' y s s' S Y) as (es & -> & D & -> & B). destruct (run_cmp p es r s' ltac:(apply AQ; apply D) B) as [[-> _]|[L (e & q & -> & X)]]; [now left|right].
      split; [rewrite app_length, LW; cbn [length]; lia|]. apply goes_name. apply QN. now apply PQ.
Qed.
