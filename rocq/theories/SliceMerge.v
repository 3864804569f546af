(** The passes over the tree on slices show what the passes on lists compute. *)
From Coq Require Import Permutation.
From Verif Require Import Base Stream StreamFacts Node Rule Grammar Slices SliceFacts SliceEval SliceDrive SliceAst SliceFresh.

(** Of the arrays of [h] only those of the slices [A] have changed. *)
Definition frame (A : list slice) (h h' : heap) : Prop :=
  grows h h' /\ forall a, (a < length h)%nat -> ~ In a (arrs A) -> array h' a = array h a.
Definition sub (A : list slice) (h : heap) (B : list slice) : Prop := forall a, In a (arrs B) -> In a (arrs A) \/ (length h <= a)%nat.
(** The slices [A] in [h] become the slices [B] in [h']. *)
Definition turns (A : list slice) (h : heap) (B : list slice) (h' : heap) : Prop := frame A h h' /\ fresh 0 h' B /\ sub A h B.
Definition kept (h h' : heap) (s : slice) : Prop := cells h' s = cells h s.

Lemma frame_refl A h : frame A h h.
Proof. split; auto. apply grows_refl. Qed.
Lemma frame_trans A B h h1 h2 : frame A h h1 -> frame B h1 h2 -> sub A h B -> frame A h h2.
Proof.
  intros [G1 F1] [G2 F2] S. split; [eapply grows_trans; eauto|]. intros a L N. rewrite F2; [now apply F1| |].
  - destruct G1. lia.
  - intros Q. destruct (S a Q); [auto|lia].
Qed.
Lemma frame_more A B h h' : (forall a, In a (arrs A) -> In a (arrs B)) -> frame A h h' -> frame B h h'.
Proof. intros I [G F]. split; auto. Qed.
Lemma turns_trans A B C h h1 h2 : turns A h B h1 -> turns B h1 C h2 -> turns A h C h2.
Proof.
  intros (F1 & X1 & S1) (F2 & X2 & S2). split; [eapply frame_trans; eauto|]. split; auto. intros a I. destruct (S2 a I) as [Q|Q]; auto. right. destruct F1 as [[G _] _]. lia.
Qed.
Lemma turns_refl A h : fresh 0 h A -> turns A h A h.
Proof. intros F. split; [apply frame_refl|]. split; auto. intros a I. auto. Qed.
Lemma turns_sub A h B C h' : turns A h (B ++ C) h' -> turns A h B h' /\ turns A h C h'.
Proof.
  intros (F & X & S). apply fresh_sub in X. destruct X. split; (split; [auto|split; auto]); intros a I; apply S; rewrite arrs_app; apply in_or_app; auto.
Qed.
Lemma kept_frame A h h' s : frame A h h' -> solid h s -> (In (sl_arr s) (arrs A) -> sl_cap s = 0%nat) -> kept h h' s.
Proof.
  intros [_ F] S N. unfold kept. destruct S as [[C E]|(S1 & S2 & S3 & S4)]; [now rewrite !cells_nil|]. unfold cells. rewrite F; auto. intros Q. apply N in Q. lia.
Qed.
Lemma in_arrs s l : In s l -> sl_cap s <> 0%nat -> In (sl_arr s) (arrs l).
Proof. intros I N. unfold arrs. apply in_flat_map. exists s. split; auto. destruct (Nat.eqb_spec (sl_cap s) 0); [lia|now left]. Qed.
Lemma kept_away A B h h' : frame A h h' -> fresh 0 h (A ++ B) -> Forall (kept h h') B.
Proof.
  intros F (X & Y & _). apply Forall_app in X. destruct X as [_ X]. rewrite arrs_app in Y. rewrite Forall_forall in *. intros s I. eapply kept_frame; [exact F|auto|]. intros Q.
  destruct (Nat.eq_dec (sl_cap s) 0) as [|N]; auto. exfalso. apply (in_arrs _ _ I) in N. clear - Y Q N. induction (arrs A) as [|a x IH]; [destruct Q|]. cbn in Y. inversion Y; subst. destruct Q as [->|Q]; auto. apply H1. apply in_or_app. auto.
Qed.
Lemma nodup_app (x y : list nat) : NoDup x -> NoDup y -> (forall a, In a x -> In a y -> False) -> NoDup (x ++ y).
Proof.
  intros X Y D. induction X as [|a x N X IH]; auto. cbn. constructor.
  - intros Q. apply in_app_or in Q. destruct Q; auto. apply (D a); cbn; auto.
  - apply IH. intros b I J. apply (D b); cbn; auto.
Qed.
Lemma nodup_apart (x y : list nat) a : NoDup (x ++ y) -> In a x -> In a y -> False.
Proof. intros N I J. induction x as [|b x IH]; [destruct I|]. cbn in N. inversion N; subst. destruct I as [->|I]; auto. apply H1. apply in_or_app. auto. Qed.
Lemma fresh_low lo h l : fresh lo h l -> fresh 0 h l.
Proof. apply fresh_weak. lia. Qed.
(** The other slices stay. *)
Lemma turns_in L A R h A' h' : fresh 0 h (L ++ A ++ R) -> turns A h A' h' -> turns (L ++ A ++ R) h (L ++ A' ++ R) h' /\ Forall (kept h h') L /\ Forall (kept h h') R.
Proof.
  intros X (F & Y & S).
  assert (P : Permutation (L ++ A ++ R) (A ++ (L ++ R))) by (rewrite !app_assoc; apply Permutation_app_tail, Permutation_app_comm).
  assert (P' : Permutation (L ++ A' ++ R) (A' ++ (L ++ R))) by (rewrite !app_assoc; apply Permutation_app_tail, Permutation_app_comm).
  assert (X2 := fresh_perm _ _ _ _ P X). assert (K := kept_away _ _ _ _ F X2). apply Forall_app in K. split; [|exact K]. split; [|split].
  - eapply frame_more; [|exact F]. intros a I. rewrite !arrs_app. apply in_or_app. right. apply in_or_app. now left.
  - eapply fresh_perm; [symmetry; exact P'|]. destruct Y as (Y1 & Y2 & Y3). assert (X3 := X2). apply fresh_sub in X3. destruct X3 as [_ X3]. apply (fresh_grows _ _ _ _ (proj1 F)) in X3. destruct X3 as (Z1 & Z2 & Z3).
    split; [apply Forall_app; auto|]. split; [|rewrite arrs_app; apply Forall_app; auto]. rewrite arrs_app. apply nodup_app; auto. intros a I J. destruct (S a I) as [Q|Q].
    + destruct X2 as (_ & N & _). rewrite arrs_app in N. eapply nodup_apart; eauto.
    + assert (B := solid_below h (L ++ R)). destruct X2 as (W & _). apply Forall_app in W. specialize (B (proj2 W)). rewrite Forall_forall in B. specialize (B _ J). cbn in B. lia.
  - intros a I. rewrite !arrs_app in *. repeat rewrite in_app_iff in *. specialize (S a). tauto.
Qed.

Lemma snode_ind' (P : snode -> Prop) : (forall n, Forall P (m_kids n) -> P n) -> forall n, P n.
Proof.
  intros H. fix IH 1. intros [ty nm ch ks po st vi nd tk]. apply H. cbn [m_kids]. induction ks as [|k ks IHks]; constructor; [apply IH|exact IHks].
Qed.
Lemma slices_eq n : slicesOf n = m_chars n :: slicesOfAll (m_kids n).
Proof. now destruct n. Qed.
Lemma nodeIn_kept h h' n : Forall (kept h h') (slicesOf n) -> nodeIn h' n = nodeIn h n.
Proof.
  induction n as [n IH] using snode_ind'. rewrite slices_eq. intros K. inversion K as [|? ? K1 K2]; subst. destruct n as [ty nm ch ks po st vi nd tk]. cbn [m_chars m_kids nodeIn m_type m_name m_pos m_sticky m_virtual m_nondata m_tokenized] in *. rewrite K1. f_equal.
  clear K K1. induction IH as [|k ks X IH IHk]; auto. cbn [slicesOfAll flat_map] in K2. apply Forall_app in K2. destruct K2. cbn. rewrite X by auto. now rewrite IHk.
Qed.
Lemma nodes_kept h h' l : Forall (kept h h') (slicesOfAll l) -> List.map (nodeIn h') l = List.map (nodeIn h) l.
Proof. induction l as [|n l IH]; auto. cbn [slicesOfAll flat_map]. intros K. apply Forall_app in K. destruct K. cbn. rewrite (nodeIn_kept h h' n) by auto. now rewrite IH. Qed.
Lemma solid_len h s : solid h s -> length (cells h s) = sl_len s.
Proof. unfold cells. intros [[_ ->]|(S1 & S2 & S3 & S4)]; [reflexivity|]. rewrite S1. cbn [skipn]. rewrite firstn_length. lia. Qed.
Lemma solid_nonempty h s : solid h s -> (0 <? sl_len s)%nat = nonempty (cells h s).
Proof. intros S. rewrite <- (solid_len _ _ S). now destruct (cells h s). Qed.

Section Alloc.
Variable grow : heap -> slice -> list Z -> nat.

(** ** append *)
Lemma add_turns s l h : fresh 0 h [s] -> exists s' h', add grow s l h = Ok (s', h') /\ turns [s] h [s'] h' /\ cells h' s' = cells h s ++ l.
Proof.
  intros X. assert (P := post_addF grow 0 s l h (Nat.le_0_l _) X). unfold post in P. destruct X as (A & B & _). inversion A as [|? ? S _]; subst. unfold add in *.
  destruct l as [|x l0]; cbn [negb nonempty] in *. { exists s, h. split; auto. split; [|now rewrite app_nil_r]. apply turns_refl. apply P. }
  set (l := x :: l0) in *. assert (NE : (0 < length l)%nat) by (cbn; lia). clearbody l. destruct (_ <=? _)%nat eqn:G.
  - apply Nat.leb_le in G. destruct S as [S|(S1 & S2 & S3 & S4)]; [lia|]. eexists. eexists. split; [reflexivity|]. destruct P as [PG PF]. split.
    + split; [|split; [exact PF|]].
      * split; [exact PG|]. intros a L N. rewrite array_write by auto. destruct (Nat.eqb_spec a (sl_arr s)) as [->|]; auto. exfalso. apply N. apply in_arrs; [now left|lia].
      * intros a I. left. exact I.
    + unfold cells. cbn [sl_len sl_off sl_arr]. rewrite array_write, Nat.eqb_refl, S1 by auto. cbn [skipn plus]. rewrite app_assoc.
      replace (sl_len s + length l)%nat with (length (firstn (sl_len s) (array h (sl_arr s)) ++ l)) by (rewrite app_length, firstn_length; lia). rewrite firstn_app, Nat.sub_diag, firstn_all. cbn [firstn]. now rewrite app_nil_r.
  - eexists. eexists. split; [reflexivity|]. destruct P as [PG PF]. split.
    + split; [|split; [exact PF|]].
      * split; [exact PG|]. intros a L N. rewrite array_app. destruct (Nat.eqb_spec a (length h)); [lia|auto].
      * intros a I. right. cbn [arrs flat_map sl_cap sl_arr] in I. destruct (_ =? _)%nat; [destruct I|destruct I as [<-|[]]; auto].
    + unfold cells at 1. cbn [sl_len sl_off sl_arr]. rewrite array_app, Nat.eqb_refl. cbn [skipn]. rewrite app_assoc. assert (E := solid_len _ _ S).
      replace (sl_len s + length l)%nat with (length (cells h s ++ l)) by (rewrite app_length; lia). rewrite firstn_app, Nat.sub_diag, firstn_all. cbn [firstn]. now rewrite app_nil_r.
Qed.

(** ** Text *)
Definition texts (n : snode) : Prop := forall h, Forall (solid h) (slicesOf n) ->
  exists t h', hText grow n h = Ok (t, h') /\ frame [] h h' /\ solid h' t /\ cells h' t = text (nodeIn h n) /\ (t = m_chars n \/ sl_cap t = 0%nat \/ (length h <= sl_arr t)%nat).
Lemma solid_frame A h h' s : frame A h h' -> solid h s -> solid h' s.
Proof. intros [G _]. now apply solid_grows. Qed.
Lemma solids_frame A h h' l : frame A h h' -> Forall (solid h) l -> Forall (solid h') l.
Proof. intros F. apply Forall_impl. intros s. now apply (solid_frame A). Qed.
Lemma kept_all h h' l : frame [] h h' -> Forall (solid h) l -> Forall (kept h h') l.
Proof. intros F. apply Forall_impl. intros s S. eapply kept_frame; [exact F|exact S|]. intros []. Qed.
Lemma textFold_ok block kids : Forall texts kids -> forall h0 h acc ps, frame [] h0 h -> Forall (solid h0) (slicesOfAll kids) -> fresh (length h0) h [acc] ->
  exists t h', hTextFold grow block acc ps (List.map (fun c => (hText grow c, m_sticky c)) kids) h = Ok (t, h') /\ frame [] h0 h' /\ fresh (length h0) h' [t] /\
    cells h' t = textFold block (cells h acc) ps (List.map (fun c => (text c, n_sticky c)) (List.map (nodeIn h0) kids)).
Proof.
  intros A. induction A as [|k kids T A IH]; intros h0 h acc ps F0 S0 X; cbn [List.map hTextFold textFold].
  - exists acc, h. split; [reflexivity|]. split; auto.
  - cbn [slicesOfAll flat_map] in S0. apply Forall_app in S0. destruct S0 as [SK S0].
    destruct (T h (solids_frame _ _ _ _ F0 SK)) as (t & h1 & E1 & F1 & S1 & C1 & W1). unfold pbind at 1. rewrite E1. cbn [bind]. unfold pbind at 1, look at 1. cbn [bind]. unfold pbind at 1, look at 1. cbn [bind]. cbv zeta.
    assert (XX := X). destruct X as (X1 & X2 & X3). inversion X1 as [|? ? XA _]; subst.
    assert (KA : kept h h1 acc) by (eapply kept_frame; [exact F1|exact XA|intros []]). unfold kept in KA.
    assert (TX : text (nodeIn h k) = text (nodeIn h0 k)) by (f_equal; apply nodeIn_kept; now apply kept_all).
    rewrite C1, KA, TX. set (sep := if _ : bool then [32] else []). assert (ST : n_sticky (nodeIn h0 k) = m_sticky k) by now destruct k. rewrite ST. fold sep.
    assert (F01 : frame [] h0 h1) by (eapply frame_trans; [exact F0|exact F1|intros a []]).
    assert (X' : fresh 0 h1 [acc]) by (eapply fresh_low, fresh_grows; [apply F1|exact XX]).
    destruct (add_turns acc sep h1 X') as (a1 & h2 & E2 & T2 & C2). unfold pbind at 1. rewrite E2. cbn [bind].
    assert (KT : kept h1 h2 t).
    { eapply kept_frame; [apply T2|exact S1|]. intros Q. destruct W1 as [->|[W|W]]; auto.
      - rewrite slices_eq in SK. inversion SK as [|? ? SKk _]; subst. destruct SKk as [SKk|SKk]; [apply SKk|]. exfalso. rewrite Forall_forall in X3. specialize (X3 _ Q). cbn in X3. lia.
      - exfalso. assert (B := solid_below _ _ X1). rewrite Forall_forall in B. specialize (B _ Q). cbn in B. lia. }
    assert (F12 : frame [acc] h1 h2) by apply T2.
    assert (SB : sub [] h0 [acc]). { intros a I. right. rewrite Forall_forall in X3. exact (X3 _ I). }
    assert (F02 : frame [] h0 h2) by (eapply frame_trans; [exact F01|exact F12|exact SB]).
    assert (LO : forall B h h', (length h0 <= length h)%nat -> fresh (length h0) h B -> forall C, turns B h C h' -> fresh (length h0) h' C).
    { intros B g g' LG FB C (TF & TX2 & TS). destruct TX2 as (Y1 & Y2 & Y3). split; [auto|split; auto]. rewrite Forall_forall. intros a I. destruct (TS a I) as [Q|Q]; [|lia]. destruct FB as (_ & _ & FB). rewrite Forall_forall in FB. now apply FB. }
    assert (X1' : fresh (length h0) h1 [acc]) by (eapply fresh_grows; [apply F1|exact XX]).
    assert (X2' : fresh (length h0) h2 [a1]) by (eapply LO; [|exact X1'|exact T2]; apply F01).
    unfold addS. unfold pbind at 1, pbind at 1, look at 1. cbn [bind].
    destruct (add_turns a1 (cells h2 t) h2 (fresh_low _ _ _ X2')) as (a2 & h3 & E3 & T3 & C3). rewrite E3. cbn [bind].
    assert (SB2 : sub [] h0 [a1]). { intros a I. right. destruct X2' as (_ & _ & Q). rewrite Forall_forall in Q. exact (Q _ I). }
    assert (F03 : frame [] h0 h3) by (eapply frame_trans; [exact F02|apply T3|exact SB2]).
    destruct (IH h0 h3 a2 (m_sticky k) F03 S0) as (t' & h4 & E4 & F4 & X4 & C4). { eapply LO; [|exact X2'|exact T3]. apply F02. }
    exists t', h4. split; [exact E4|]. split; [exact F4|]. split; [exact X4|]. rewrite C4, C3, C2, KA. unfold kept in KT. rewrite KT, C1, TX. now rewrite <- app_assoc.
Qed.
Lemma text_ok n : texts n.
Proof.
  induction n as [n IH] using snode_ind'. intros h S. rewrite slices_eq in S. inversion S as [|? ? S1 S2]; subst. destruct n as [ty nm ch ks po st vi nd tk]. cbn [m_chars m_kids] in *. cbn [hText m_chars m_kids m_type nodeIn text n_chars n_kids n_type m_name m_pos m_sticky m_virtual m_nondata m_tokenized].
  rewrite (solid_nonempty _ _ S1). destruct (cells h ch) as [|c0 cs0] eqn:EC; cbn [nonempty].
  - destruct (textFold_ok (rtype_eqb ty TBlock) ks IH h h nilS false (frame_refl _ _) S2 (fresh_none _ _ _ (fresh_nil _ _))) as (t & h' & E & F & X & C). exists t, h'. split; [exact E|]. split; [exact F|]. destruct X as (X1 & X2 & X3). inversion X1 as [|? ? XS _]; subst. split; [exact XS|]. split; [exact C|].
    right. destruct (Nat.eq_dec (sl_cap t) 0) as [|N]; auto. right. rewrite Forall_forall in X3. apply (X3 (sl_arr t)). apply in_arrs; [now left|exact N].
  - unfold pbind, look, ret. cbn [bind]. rewrite EC. destruct (isEOFText (c0 :: cs0)).
    + exists nilS, h. split; [reflexivity|]. split; [apply frame_refl|]. split; [left; auto|]. split; auto.
    + exists ch, h. split; [reflexivity|]. split; [apply frame_refl|]. split; auto.
Qed.

(** ** MergeStickyNodes *)
Definition becomes (f : snode -> prog snode) (g : node -> node) (n : snode) : Prop := forall h, fresh 0 h (slicesOf n) ->
  exists m h', f n h = Ok (m, h') /\ turns (slicesOf n) h (slicesOf m) h' /\ nodeIn h' m = g (nodeIn h n).
Lemma all_turns f g l : Forall (becomes f g) l -> forall h, fresh 0 h (slicesOfAll l) ->
  exists ms h', hAll (List.map f l) h = Ok (ms, h') /\ turns (slicesOfAll l) h (slicesOfAll ms) h' /\ List.map (nodeIn h') ms = List.map g (List.map (nodeIn h) l).
Proof.
  intros A. induction A as [|n l B A IH]; intros h X; cbn [List.map hAll].
  - exists [], h. split; [reflexivity|]. split; [now apply turns_refl|reflexivity].
  - cbn [slicesOfAll flat_map] in X. fold (slicesOfAll l) in X. destruct (B h (proj1 (fresh_sub _ _ _ _ X))) as (m & h1 & E1 & T1 & V1). unfold pbind at 1. rewrite E1. cbn [bind].
    destruct (turns_in [] _ _ _ _ _ X T1) as (T1' & _ & KR). cbn [app] in T1'. assert (X1 : fresh 0 h1 (slicesOf m ++ slicesOfAll l)) by apply T1'.
    destruct (IH h1 (proj2 (fresh_sub _ _ _ _ X1))) as (ms & h2 & E2 & T2 & V2). unfold pbind. rewrite E2. cbn [bind]. exists (m :: ms), h2. split; [reflexivity|].
    assert (X1' : fresh 0 h1 (slicesOf m ++ slicesOfAll l ++ [])) by now rewrite app_nil_r.
    destruct (turns_in _ _ _ _ _ _ X1' T2) as (T2' & KL & _). rewrite !app_nil_r in T2'. split; [eapply turns_trans; eauto|]. cbn [List.map]. rewrite V2, (nodeIn_kept h1 h2 m KL), V1, (nodes_kept h h1 l KR). reflexivity.
Qed.
Definition slicesP (p : option snode) : list slice := match p with Some n => slicesOf n | None => [] end.
Lemma nodeIn_chars h n c : nodeIn h (hSetChars n c) = set_chars (nodeIn h n) (cells h c).
Proof. now destruct n. Qed.
Lemma nodeIn_kids h n ks : nodeIn h (hSetKids n ks) = set_kids (nodeIn h n) (List.map (nodeIn h) ks).
Proof. now destruct n. Qed.
Lemma nodeIn_sticky h n b : nodeIn h (hSetSticky n b) = set_sticky (nodeIn h n) b.
Proof. now destruct n. Qed.
Lemma slices_sticky n b : slicesOf (hSetSticky n b) = slicesOf n.
Proof. now destruct n. Qed.
Lemma turns_drop A h B h' : turns A h B h' -> turns A h [] h'.
Proof. intros T. apply (turns_sub A h [] B h'). exact T. Qed.
Lemma text_turns n h : fresh 0 h (slicesOf n) -> exists t h', hText grow n h = Ok (t, h') /\ turns (slicesOf n) h [t] h' /\ cells h' t = text (nodeIn h n).
Proof.
  intros (X1 & X2 & X3). destruct (text_ok n h X1) as (t & h' & E & F & S & C & W). exists t, h'. split; auto. split; auto. split; [eapply frame_more; [|exact F]; intros a []|]. split.
  - split; [constructor; auto|]. cbn. destruct (_ =? _)%nat; repeat constructor; try (intros []). cbn. lia.
  - intros a I. cbn in I. destruct (Nat.eqb_spec (sl_cap t) 0) as [|N]; [destruct I|]. destruct I as [<-|[]]. destruct W as [->|[W|W]]; [left; apply in_arrs; auto; rewrite slices_eq; now left|lia|auto].
Qed.
Lemma mergeFold_turns l : Forall (becomes (hMergeNode grow) mergeNode) l -> forall prev h, fresh 0 h (slicesP prev ++ slicesOfAll l) ->
  exists ms h', hMergeFold grow prev (List.map (fun c => (c, hMergeNode grow c)) l) h = Ok (ms, h') /\ turns (slicesP prev ++ slicesOfAll l) h (slicesOfAll ms) h' /\
    List.map (nodeIn h') ms = mergeFold (option_map (nodeIn h) prev) (List.map (fun c => (c, mergeNode c)) (List.map (nodeIn h) l)).
Proof.
  intros A. induction A as [|c l B A IH]; intros prev h X; cbn [List.map hMergeFold mergeFold].
  - destruct prev as [p|]; cbn [slicesP slicesOfAll flat_map option_map] in *.
    + exists [hSetSticky p false], h. split; [reflexivity|]. cbn [slicesOfAll flat_map List.map]. rewrite slices_sticky, nodeIn_sticky. split; [now apply turns_refl|reflexivity].
    + exists [], h. split; [reflexivity|]. split; [now apply turns_refl|reflexivity].
  - cbn [slicesOfAll flat_map] in X |- *. fold (slicesOfAll l) in *. assert (ST : n_sticky (nodeIn h c) = m_sticky c) by now destruct c. rewrite ST. assert (XC : fresh 0 h (slicesOf c)) by (apply fresh_sub in X; destruct X as [_ X]; now apply fresh_sub in X).
    destruct (m_sticky c).
    + destruct (text_turns c h XC) as (t & h1 & E1 & T1 & C1). unfold pbind at 1. rewrite E1. cbn [bind]. destruct prev as [p|]; cbn [slicesP option_map] in *.
      * destruct (turns_in _ _ _ _ _ _ X (turns_drop _ _ _ _ T1)) as (T1' & KL & KR). cbn [app] in T1'. assert (X1 : fresh 0 h1 (slicesOf p ++ slicesOfAll l)) by apply T1'.
        unfold addS. unfold pbind at 1, pbind at 1, look. cbn [bind]. rewrite slices_eq in X1. change ((m_chars p :: slicesOfAll (m_kids p)) ++ slicesOfAll l) with ([] ++ [m_chars p] ++ (slicesOfAll (m_kids p) ++ slicesOfAll l)) in X1.
        destruct (add_turns (m_chars p) (cells h1 t) h1 (proj1 (fresh_sub _ _ [m_chars p] _ X1))) as (c2 & h2 & E2 & T2 & C2). rewrite E2. cbn [bind].
        destruct (turns_in _ _ _ _ _ _ X1 T2) as (T2' & _ & KR2). cbn [app] in T2'. assert (SP : slicesOf (hSetChars p c2) = c2 :: slicesOfAll (m_kids p)) by now destruct p.
        destruct (IH (Some (hSetChars p c2)) h2) as (ms & h3 & E3 & T3 & V3). { cbn [slicesP]. rewrite SP. apply T2'. }
        exists ms, h3. split; [exact E3|]. cbn [slicesP] in T3. rewrite SP in T3. split. { eapply turns_trans; [exact T1'|]. rewrite slices_eq. eapply turns_trans; [exact T2'|exact T3]. }
        rewrite V3. cbn [option_map]. apply Forall_app in KR2. destruct KR2 as [KR2 KR3]. rewrite (nodes_kept h1 h2 l KR3), (nodes_kept h h1 l KR). f_equal. f_equal. rewrite nodeIn_chars, C2, C1.
        rewrite slices_eq in KL. inversion KL as [|? ? KC KK]; subst. assert (CE : cells h1 (m_chars p) = n_chars (nodeIn h p)) by (destruct p; exact KC). rewrite CE.
        destruct p as [ty nm ch ks po st vi nd tk]. unfold set_chars. cbn [nodeIn n_type n_name n_kids n_pos n_sticky n_virtual n_nondata n_tokenized m_chars m_kids m_type m_name m_pos m_sticky m_virtual m_nondata m_tokenized n_chars]. f_equal. cbn [m_kids] in *. rewrite (nodes_kept h1 h2 ks KR2). apply (nodes_kept h h1 ks KK).
      * cbn [app] in X. destruct (turns_in [] _ _ _ _ _ X T1) as (T1' & _ & KR). cbn [app] in T1'. assert (SP : slicesOf (hSetKids (hSetChars c t) []) = [t]) by now destruct c.
        destruct (IH (Some (hSetKids (hSetChars c t) [])) h1) as (ms & h3 & E3 & T3 & V3). { cbn [slicesP]. rewrite SP. apply T1'. }
        exists ms, h3. split; [exact E3|]. cbn [slicesP] in T3. rewrite SP in T3. split; [eapply turns_trans; [exact T1'|exact T3]|]. rewrite V3, (nodes_kept h h1 l KR). f_equal. cbn [option_map]. f_equal. rewrite nodeIn_kids, nodeIn_chars, C1. now destruct c.
    + destruct (B h XC) as (m & h1 & E1 & T1 & V1). unfold pbind at 1. rewrite E1. cbn [bind]. destruct (turns_in _ _ _ _ _ _ X T1) as (T1' & KP & KR).
      assert (X1 : fresh 0 h1 (slicesP prev ++ slicesOf m ++ slicesOfAll l)) by apply T1'. destruct (IH None h1) as (ms & h2 & E2 & T2 & V2). { cbn [slicesP app]. apply fresh_sub in X1. destruct X1 as [_ X1]. now apply fresh_sub in X1. }
      unfold pbind at 1. rewrite E2. cbn [bind]. exists ((match prev with None => [] | Some p => [hSetSticky p false] end) ++ m :: ms), h2. split; [reflexivity|].
      cbn [slicesP app] in T2. assert (X1' : fresh 0 h1 ((slicesP prev ++ slicesOf m) ++ slicesOfAll l ++ [])) by now rewrite app_nil_r, <- app_assoc.
      destruct (turns_in _ _ _ _ _ _ X1' T2) as (T2' & KL & _). rewrite !app_nil_r, <- !app_assoc in T2'. apply Forall_app in KL. destruct KL as [KP2 KM].
      assert (SP : slicesOfAll ((match prev with None => [] | Some p => [hSetSticky p false] end) ++ m :: ms) = slicesP prev ++ slicesOf m ++ slicesOfAll ms).
      { unfold slicesOfAll. rewrite flat_map_app. cbn [flat_map]. destruct prev as [p|]; [|reflexivity]. cbn [flat_map slicesP]. rewrite slices_sticky. now rewrite app_nil_r. }
      rewrite SP. split; [eapply turns_trans; eauto|]. rewrite map_app. cbn [List.map]. rewrite V2, (nodeIn_kept h1 h2 m KM), V1, (nodes_kept h h1 l KR). cbn [option_map]. f_equal. destruct prev as [p|]; cbn [slicesP List.map option_map] in *; auto.
      rewrite nodeIn_sticky, (nodeIn_kept h1 h2 p KP2), (nodeIn_kept h h1 p KP). reflexivity.
Qed.
Lemma merge_node n : becomes (hMergeNode grow) mergeNode n.
Proof.
  induction n as [n IH] using snode_ind'. intros h X. destruct n as [ty nm ch ks po st vi nd tk]. cbn [m_kids] in *. cbn [hMergeNode nodeIn mergeNode m_type m_kids n_kids n_type m_chars m_name m_pos m_sticky m_virtual m_nondata m_tokenized].
  destruct ks as [|k ks'] eqn:EK. { eexists. eexists. split; [reflexivity|]. split; [now apply turns_refl|]. reflexivity. }
  assert (Q : nonempty ks = true) by now rewrite EK. rewrite <- EK in *. clear EK. cbn [slicesOf m_chars m_kids] in X. fold (slicesOfAll ks) in X. change (ch :: slicesOfAll ks) with ([ch] ++ slicesOfAll ks) in X. assert (X' : fresh 0 h ([ch] ++ slicesOfAll ks ++ [])) by now rewrite app_nil_r.
  assert (XK := proj2 (fresh_sub _ _ _ _ X)).
  assert (NE : forall (T : Type) (a b : T), match List.map (nodeIn h) ks with [] => a | _ :: _ => b end = if nonempty ks then b else a) by (intros; now destruct ks).
  rewrite NE, Q. destruct (rtype_eqb ty TBlock).
  - destruct (all_turns _ _ ks IH h XK) as (ms & h' & E & T & V). unfold pbind. rewrite E. cbn [bind]. eexists. eexists. split; [reflexivity|]. destruct (turns_in _ _ _ _ _ _ X' T) as (T' & KC & _). rewrite !app_nil_r in T'.
    inversion KC as [|? ? K1 _]; subst. unfold kept in K1. split.
    + rewrite slices_sticky. cbn [hSetKids slicesOf m_chars m_kids]. assert (SE : flat_map slicesOf (List.map (fun c => hSetSticky c false) ms) = slicesOfAll ms). { clear. induction ms as [|m ms IHm]; auto. cbn [List.map flat_map]. rewrite IHm, slices_sticky. reflexivity. } rewrite SE. exact T'.
    + rewrite nodeIn_sticky. cbn [hSetKids nodeIn m_type m_kids m_chars m_name m_pos m_sticky m_virtual m_nondata m_tokenized]. unfold set_kids, set_sticky. cbn [n_type n_kids n_chars n_name n_pos n_sticky n_virtual n_nondata n_tokenized]. rewrite K1. f_equal.
      rewrite map_map. transitivity (List.map (fun c => set_sticky c false) (List.map (nodeIn h') ms)); [rewrite map_map; apply map_ext; intros; apply nodeIn_sticky|]. rewrite V. now rewrite !map_map.
  - destruct (mergeFold_turns ks IH None h XK) as (ms & h' & E & T & V). cbn [slicesP app] in T. unfold pbind. rewrite E. cbn [bind]. eexists. eexists. split; [reflexivity|]. destruct (turns_in _ _ _ _ _ _ X' T) as (T' & KC & _). rewrite !app_nil_r in T'.
    inversion KC as [|? ? K1 _]; subst. unfold kept in K1. split; [exact T'|]. cbn [hSetKids nodeIn m_type m_kids m_chars m_name m_pos m_sticky m_virtual m_nondata m_tokenized]. unfold set_kids. cbn [n_type n_kids n_chars n_name n_pos n_sticky n_virtual n_nondata n_tokenized]. rewrite K1. f_equal. exact V.
Qed.
Lemma merge_nodes l h : fresh 0 h (slicesOfAll l) -> exists ms h', hMergeNodes grow l h = Ok (ms, h') /\ turns (slicesOfAll l) h (slicesOfAll ms) h' /\ List.map (nodeIn h') ms = mergeNodes (List.map (nodeIn h) l).
Proof. intros X. apply (mergeFold_turns l) with (prev := None); [|exact X]. apply Forall_forall. intros n _. apply merge_node. Qed.

(** ** Removing nodes *)
Lemma virtual_view h n : nodeIn h (hRemoveVirtual n) = removeVirtual (nodeIn h n).
Proof.
  induction n as [n IH] using snode_ind'. destruct n as [ty nm ch ks po st vi nd tk]. cbn [m_kids] in IH. cbn [hRemoveVirtual m_kids]. rewrite nodeIn_kids. cbn [nodeIn removeVirtual n_kids m_kids]. f_equal.
  induction IH as [|k ks X IH IHk]; auto. cbn [flat_map List.map]. rewrite map_app, IHk. f_equal. assert (V : n_virtual (nodeIn h k) = m_virtual k) by now destruct k. rewrite V. destruct (m_virtual k); auto. cbn. now rewrite X.
Qed.
Lemma nonData_view h n : nodeIn h (hRemoveNonData n) = removeNonData (nodeIn h n).
Proof.
  induction n as [n IH] using snode_ind'. destruct n as [ty nm ch ks po st vi nd tk]. cbn [m_kids] in IH. cbn [hRemoveNonData m_kids]. rewrite nodeIn_kids. cbn [nodeIn removeNonData n_kids m_kids]. f_equal.
  induction IH as [|k ks X IH IHk]; auto. cbn [flat_map List.map]. rewrite map_app, IHk. f_equal. assert (V : n_nondata (nodeIn h k) = m_nondata k) by now destruct k. rewrite V. destruct (m_nondata k); auto. cbn. now rewrite X.
Qed.
Lemma virtuals_view h l : List.map (nodeIn h) (hAstVirtual l) = astRemoveVirtual (List.map (nodeIn h) l).
Proof.
  unfold hAstVirtual, astRemoveVirtual. induction l as [|k l IH]; auto. cbn [flat_map List.map]. rewrite map_app, IH. f_equal. assert (V : n_virtual (nodeIn h k) = m_virtual k) by now destruct k. rewrite V. destruct (m_virtual k); auto. cbn. now rewrite virtual_view.
Qed.
Lemma nonDatas_view h l : List.map (nodeIn h) (hAstNonData l) = astRemoveNonData (List.map (nodeIn h) l).
Proof.
  unfold hAstNonData, astRemoveNonData. induction l as [|k l IH]; auto. cbn [flat_map List.map]. rewrite map_app, IH. f_equal. assert (V : n_nondata (nodeIn h k) = m_nondata k) by now destruct k. rewrite V. destruct (m_nondata k); auto. cbn. now rewrite nonData_view.
Qed.
Definition okSlices (h : heap) (n : snode) : Prop := Forall (solid h) (slicesOf n).
Lemma ok_eq h n : okSlices h n <-> solid h (m_chars n) /\ Forall (okSlices h) (m_kids n).
Proof.
  unfold okSlices. rewrite slices_eq. split.
  - intros A. inversion A as [|? ? A1 A2]; subst. split; auto. clear A A1. induction (m_kids n) as [|k ks IH]; constructor; cbn [slicesOfAll flat_map] in A2; apply Forall_app in A2; destruct A2; auto.
  - intros [A B]. constructor; auto. induction B as [|k ks X B IH]; [constructor|]. cbn [slicesOfAll flat_map]. apply Forall_app. auto.
Qed.
Lemma virtual_ok h n : okSlices h n -> okSlices h (hRemoveVirtual n).
Proof.
  induction n as [n IH] using snode_ind'. rewrite !ok_eq. destruct n as [ty nm ch ks po st vi nd tk]. cbn [hRemoveVirtual hSetKids m_kids m_chars] in *. intros [A B]. split; auto. clear A. induction IH as [|k ks X IH IHk]; [constructor|]. inversion B; subst. cbn [flat_map]. apply Forall_app. split; auto. destruct (m_virtual k); auto.
Qed.
Lemma nonData_ok h n : okSlices h n -> okSlices h (hRemoveNonData n).
Proof.
  induction n as [n IH] using snode_ind'. rewrite !ok_eq. destruct n as [ty nm ch ks po st vi nd tk]. cbn [hRemoveNonData hSetKids m_kids m_chars] in *. intros [A B]. split; auto. clear A. induction IH as [|k ks X IH IHk]; [constructor|]. inversion B; subst. cbn [flat_map]. apply Forall_app. split; auto. destruct (m_nondata k); auto.
Qed.
Lemma virtuals_ok h l : Forall (okSlices h) l -> Forall (okSlices h) (hAstVirtual l).
Proof. intros A. induction A as [|k l X A IH]; [constructor|]. cbn [hAstVirtual flat_map]. apply Forall_app. split; auto. destruct (m_virtual k); auto. constructor; auto. now apply virtual_ok. Qed.
Lemma nonDatas_ok h l : Forall (okSlices h) l -> Forall (okSlices h) (hAstNonData l).
Proof. intros A. induction A as [|k l X A IH]; [constructor|]. cbn [hAstNonData flat_map]. apply Forall_app. split; auto. destruct (m_nondata k); auto. constructor; auto. now apply nonData_ok. Qed.
Lemma oks_all h l : Forall (okSlices h) l <-> Forall (solid h) (slicesOfAll l).
Proof.
  induction l as [|k l IH]; cbn [slicesOfAll flat_map]; [split; constructor|]. rewrite Forall_app. split.
  - intros A. inversion A; subst. split; auto. now apply IH.
  - intros [A B]. constructor; auto. now apply IH.
Qed.

(** ** RemoveRedundantNodes *)
Definition reduces (f : snode -> prog snode) (g : node -> node) (n : snode) : Prop := forall h, okSlices h n ->
  exists m h', f n h = Ok (m, h') /\ frame [] h h' /\ okSlices h' m /\ nodeIn h' m = g (nodeIn h n).
Lemma frame_trans0 h h1 h2 : frame [] h h1 -> frame [] h1 h2 -> frame [] h h2.
Proof. intros A B. eapply frame_trans; eauto. intros a []. Qed.
Lemma ok_frame h h' n : frame [] h h' -> okSlices h n -> okSlices h' n /\ nodeIn h' n = nodeIn h n.
Proof. intros F O. split; [eapply solids_frame; eauto|]. apply nodeIn_kept. now apply kept_all. Qed.
Lemma oks_frame h h' l : frame [] h h' -> Forall (okSlices h) l -> Forall (okSlices h') l /\ List.map (nodeIn h') l = List.map (nodeIn h) l.
Proof. intros F A. induction A as [|n l O A IH]; [split; auto|]. destruct (ok_frame _ _ _ F O), IH. split; [auto|]. cbn. congruence. Qed.
Lemma all_reduces f g l : Forall (reduces f g) l -> forall h, Forall (okSlices h) l ->
  exists ms h', hAll (List.map f l) h = Ok (ms, h') /\ frame [] h h' /\ Forall (okSlices h') ms /\ List.map (nodeIn h') ms = List.map g (List.map (nodeIn h) l).
Proof.
  intros A. induction A as [|n l B A IH]; intros h X; cbn [List.map hAll].
  - exists [], h. split; [reflexivity|]. split; [apply frame_refl|]. split; auto.
  - inversion X as [|? ? X1 X2]; subst. destruct (B h X1) as (m & h1 & E1 & F1 & O1 & V1). unfold pbind at 1. rewrite E1. cbn [bind]. destruct (oks_frame _ _ _ F1 X2) as [X2' VX]. destruct (IH h1 X2') as (ms & h2 & E2 & F2 & O2 & V2). unfold pbind. rewrite E2. cbn [bind].
    destruct (ok_frame _ _ _ F2 O1) as [O1' VM]. exists (m :: ms), h2. split; [reflexivity|]. split; [eapply frame_trans0; eauto|]. split; [auto|]. cbn. rewrite VM, V1, V2, VX. reflexivity.
Qed.
Lemma promote1_ok h n : okSlices h n -> okSlices h (hPromote1 n) /\ nodeIn h (hPromote1 n) = promote1 (nodeIn h n).
Proof.
  intros O. assert (O' := O). rewrite ok_eq in O. destruct O as [A B]. destruct n as [ty nm ch ks po st vi nd tk]. unfold hPromote1, promote1. cbn [m_kids m_chars nodeIn n_kids] in *. destruct ks as [|k [|k2 ks]]; cbn [List.map]; [split; auto| |split; auto].
  inversion B as [|? ? OK _]; subst. assert (NM : n_name (nodeIn h k) = m_name k) by now destruct k. rewrite NM. destruct (nonempty (m_name k)); [split; auto|]. rewrite ok_eq in OK. destruct OK as [KC KK].
  assert (CH : n_chars (nodeIn h k) = cells h (m_chars k)) by now destruct k. rewrite CH, <- (solid_nonempty _ _ KC). destruct (0 <? _)%nat.
  - split; [rewrite ok_eq; cbn; auto|reflexivity].
  - split; [rewrite ok_eq; cbn; auto|]. rewrite nodeIn_kids. f_equal. now destruct k.
Qed.
Lemma promote2_ok h n : okSlices h n -> okSlices h (hPromote2 n) /\ nodeIn h (hPromote2 n) = promote2 (nodeIn h n).
Proof.
  intros O. assert (O' := O). rewrite ok_eq in O. destruct O as [A B]. destruct n as [ty nm ch ks po st vi nd tk]. unfold hPromote2, promote2. cbn [m_kids m_chars nodeIn n_kids] in *. destruct ks as [|k [|k2 ks]]; cbn [List.map]; [split; auto| |split; auto].
  inversion B as [|? ? OK _]; subst. assert (NM : n_name (nodeIn h k) = m_name k) by now destruct k. assert (NK : nonempty (n_kids (nodeIn h k)) = nonempty (m_kids k)) by (destruct k as [? ? ? [|? ?] ? ? ? ? ?]; reflexivity). rewrite NM, NK. destruct (_ && _); [|split; auto].
  rewrite ok_eq in OK. destruct OK as [KC KK]. split; [rewrite ok_eq; cbn; auto|]. now destruct k.
Qed.
Lemma splice_ok l : forall h, Forall (okSlices h) l -> exists ms h', hSplice grow l h = Ok (ms, h') /\ frame [] h h' /\ Forall (okSlices h') ms /\ List.map (nodeIn h') ms = splice (List.map (nodeIn h) l).
Proof.
  induction l as [|c l IH]; intros h X; cbn [hSplice].
  - exists [], h. split; [reflexivity|]. split; [apply frame_refl|]. split; auto.
  - inversion X as [|? ? X1 X2]; subst. destruct (text_ok c h X1) as (t & h1 & E1 & F1 & S1 & C1 & _). unfold pbind at 1. rewrite E1. cbn [bind]. destruct (oks_frame _ _ _ F1 X2) as [X2' VX]. destruct (IH h1 X2') as (ms & h2 & E2 & F2 & O2 & V2). unfold pbind. rewrite E2. cbn [bind].
    assert (F := frame_trans0 _ _ _ F1 F2). destruct (ok_frame _ _ _ F X1) as [X1' VC]. eexists. eexists. split; [reflexivity|]. split; [exact F|]. cbn [List.map splice flat_map]. fold (splice (List.map (nodeIn h) l)). rewrite VX in V2.
    assert (TE : (sl_len t =? 0)%nat = negb (nonempty (text (nodeIn h c)))) by (rewrite <- C1, <- (solid_nonempty _ _ S1); destruct (sl_len t); reflexivity). rewrite TE.
    assert (NM : n_name (nodeIn h c) = m_name c) by now destruct c. assert (NK : nonempty (n_kids (nodeIn h c)) = nonempty (m_kids c)) by (destruct c as [? ? ? [|? ?] ? ? ? ? ?]; reflexivity). rewrite NM, NK. rewrite map_app, V2.
    destruct (negb (nonempty (text (nodeIn h c))) && negb (nonempty (m_name c))); [split; [exact O2|reflexivity]|]. destruct (negb (nonempty (m_name c)) && nonempty (m_kids c)).
    + split; [apply Forall_app; split; auto; now apply ok_eq in X1'|]. f_equal. rewrite <- VC. now destruct c.
    + split; [apply Forall_app; split; auto|]. f_equal. cbn [List.map]. now rewrite VC.
Qed.
Lemma redundant_ok n : reduces (hRemoveRedundant grow) removeRedundant n.
Proof.
  induction n as [n IH] using snode_ind'. intros h O. destruct n as [ty nm ch ks po st vi nd tk]. cbn [m_kids] in *. cbn [hRemoveRedundant nodeIn removeRedundant m_type m_kids n_kids n_type m_chars m_name m_pos m_sticky m_virtual m_nondata m_tokenized].
  destruct ks as [|k ks'] eqn:EK. { eexists. eexists. split; [reflexivity|]. split; [apply frame_refl|]. split; [exact O|reflexivity]. }
  assert (Q : nonempty ks = true) by now rewrite EK. rewrite <- EK in *. clear EK.
  assert (NE : forall (T : Type) (a b : T), match List.map (nodeIn h) ks with [] => a | _ :: _ => b end = if nonempty ks then b else a) by (intros; now destruct ks). rewrite NE, Q.
  apply ok_eq in O. cbn [m_chars m_kids] in O. destruct O as [OC OK]. destruct (all_reduces _ _ ks IH h OK) as (ms & h1 & E1 & F1 & O1 & V1). unfold pbind at 1. rewrite E1. cbn [bind]. cbv zeta.
  set (n1 := hSetKids (SNode ty nm ch ks po st vi nd tk) ms). assert (N1 : okSlices h1 n1) by (apply ok_eq; split; [eapply solid_frame; eauto|exact O1]).
  destruct (promote1_ok h1 n1 N1) as [P1 W1]. assert (P1' := proj1 (ok_eq _ _) P1). destruct P1' as [PC PK]. destruct (splice_ok _ h1 PK) as (qs & h2 & E2 & F2 & O2 & V2). unfold pbind. rewrite E2. cbn [bind].
  destruct (ok_frame _ _ _ F2 P1) as [P1' WP]. set (n2 := hSetKids (hPromote1 n1) qs). assert (N2 : okSlices h2 n2). { apply ok_eq. split; [|exact O2]. apply ok_eq in P1'. apply P1'. }
  destruct (promote2_ok h2 n2 N2) as [P2 W2]. eexists. eexists. split; [reflexivity|]. split; [eapply frame_trans0; eauto|]. split; [exact P2|]. rewrite W2. unfold n2. rewrite nodeIn_kids, V2, WP, W1. f_equal.
  assert (VN : nodeIn h1 n1 = set_kids (Node ty nm (cells h ch) (List.map (nodeIn h) ks) po st vi nd tk) (List.map removeRedundant (List.map (nodeIn h) ks))).
  { unfold n1. rewrite nodeIn_kids, V1. cbn [nodeIn m_chars]. unfold set_kids. cbn [n_type n_chars n_name n_pos n_sticky n_virtual n_nondata n_tokenized m_type m_kids m_chars m_name m_pos m_sticky m_virtual m_nondata m_tokenized]. f_equal. apply (kept_frame [] h h1 ch F1 OC). intros []. }
  rewrite <- VN, <- W1. assert (KS : forall g m, List.map (nodeIn g) (m_kids m) = n_kids (nodeIn g m)) by (intros g m; now destruct m). now rewrite KS.
Qed.
Lemma redundants_ok l h : Forall (okSlices h) l -> exists ms h', hAstRedundant grow l h = Ok (ms, h') /\ frame [] h h' /\ Forall (okSlices h') ms /\ List.map (nodeIn h') ms = astRemoveRedundant (List.map (nodeIn h) l).
Proof.
  intros X. unfold hAstRedundant, astRemoveRedundant. apply (all_reduces (fun c => if m_nondata c then ret c else hRemoveRedundant grow c) (fun c => if n_nondata c then c else removeRedundant c)); auto. apply Forall_forall. intros n _ g O. assert (ND : n_nondata (nodeIn g n) = m_nondata n) by now destruct n. rewrite ND. destruct (m_nondata n); [|now apply redundant_ok].
  exists n, g. split; [reflexivity|]. split; [apply frame_refl|]. split; auto.
Qed.

(** ** The simplification *)
Lemma simplify_ok level l h : fresh 0 h (slicesOfAll l) -> exists ms h', hSimplify grow level l h = Ok (ms, h') /\ frame (slicesOfAll l) h h' /\ List.map (nodeIn h') ms = simplify level (List.map (nodeIn h) l).
Proof.
  intros X. unfold hSimplify, simplify. destruct (level =? -1). { exists l, h. split; [reflexivity|]. split; [apply frame_refl|reflexivity]. }
  destruct (merge_nodes l h X) as (ms & h1 & E1 & T1 & V1). unfold pbind. rewrite E1. cbn [bind]. destruct T1 as (F1 & X1 & _). assert (O1 : Forall (okSlices h1) ms) by (apply oks_all, X1).
  assert (GO : forall a b, Forall (okSlices h1) a -> List.map (nodeIn h1) a = b -> exists ms' h', hAstRedundant grow a h1 = Ok (ms', h') /\ frame (slicesOfAll l) h h' /\ List.map (nodeIn h') ms' = astRemoveRedundant b).
  { intros a b OA <-. destruct (redundants_ok a h1 OA) as (qs & h2 & E2 & F2 & O2 & V2). exists qs, h2. split; auto. split; auto. eapply frame_trans; [exact F1|exact F2|]. intros x []. }
  destruct (level =? 2); [|destruct (level =? 1)]; apply GO.
  - now apply nonDatas_ok, virtuals_ok.
  - unfold astMerge. now rewrite nonDatas_view, virtuals_view, V1.
  - now apply virtuals_ok.
  - unfold astMerge. now rewrite virtuals_view, V1.
  - exact O1.
  - exact V1.
Qed.
End Alloc.

(** ** Eval *)
Lemma frame_old lo h0 h h' l : lo = length h0 -> fresh lo h l -> frame l h h' -> (exists more, h = h0 ++ more) -> exists more, h' = h0 ++ more.
Proof.
  intros -> (_ & _ & C) [[G _] F] [m ->]. exists (skipn (length h0) h'). rewrite app_length in G. rewrite <- (firstn_skipn (length h0) h') at 1. f_equal. apply nth_ext with (d := []) (d' := []).
  - rewrite firstn_length. lia.
  - intros a A. rewrite firstn_length in A. assert (L : (a < length h0)%nat) by lia. assert (E : array h' a = array (h0 ++ m) a). { apply F; [rewrite app_length; lia|]. intros I. rewrite Forall_forall in C. specialize (C _ I). cbn in C. lia. }
    unfold array in E. rewrite app_nth1 in E by auto. rewrite <- E. rewrite <- (firstn_skipn (length h0) h') at 2. rewrite app_nth1; auto. rewrite firstn_length. lia.
Qed.
Lemma inside_cells h m1 m2 s : inside h s -> cells (h ++ m1) s = cells (h ++ m2) s.
Proof.
  intros [E|I]; [now rewrite !cells_nil|]. destruct (Nat.eq_dec (sl_len s) 0) as [E|N]; [now rewrite !cells_nil|]. unfold cells, array in *. destruct (Nat.lt_ge_cases (sl_arr s) (length h)); [now rewrite !app_nth1|]. rewrite nth_overflow in I by auto. cbn in I. lia.
Qed.
Lemma keeps_view h m1 m2 s s' : within h s -> keeps s s' -> deep s' = deep s -> streamIn (h ++ m1) s' = streamIn (h ++ m2) s'.
Proof.
  intros [A B] [EC [ls EL]] D. assert (ls = []). { apply length_zero_iff_nil. apply (f_equal (@length _)) in EL. rewrite app_length, !map_length in EL. unfold deep in D. lia. } subst ls. cbn [app] in EL. unfold streamIn. f_equal.
  - assert (A' : Forall (fun x => inside h (fst x)) (ss_layers s')). { rewrite <- Forall_map in *. now rewrite EL. } clear - A'. induction A' as [|[p k] l X A IH]; auto. cbn. rewrite IH. f_equal. unfold layerIn. cbn [fst snd] in *. f_equal. now apply inside_cells.
  - f_equal. rewrite EC. now apply inside_cells.
Qed.
Lemma slices_top grow lf fuel g o s level h : within h s ->
  match hEvalTop grow lf fuel g o s level h with
  | Ok (x, s', h') => evalTop lf fuel g (ordersOf o) (streamIn h s) level = Ok (rawIn h' x, streamIn h' s') /\ exists more, h' = h ++ more
  | Panic => evalTop lf fuel g (ordersOf o) (streamIn h s) level = Panic
  | OutOfFuel => evalTop lf fuel g (ordersOf o) (streamIn h s) level = OutOfFuel
  end.
Proof.
  intros W. unfold hEvalTop, evalTop, pbind. assert (R := slices_raw grow lf fuel g o s h W). assert (P := post_raw grow lf fuel g o s h). unfold post in P. destruct (hEvalRaw grow lf fuel g o s h) as [[[x s'] h1]| |]; cbn [bind]; [|now rewrite R|now rewrite R].
  destruct R as [-> [m ->]]. destruct P as [G (K & D & N)]. cbn [fst snd] in *. cbn [bind]. destruct x as [a| | | |]; cbn [rawIn]; try (split; [reflexivity|exists m; reflexivity]).
  destruct (simplify_ok grow level a (h ++ m) (fresh_low _ _ _ N)) as (ms & h2 & E & F & V). rewrite E. cbn [bind ret]. assert (X := frame_old _ _ _ _ _ eq_refl N F (ex_intro _ m eq_refl)). split; [|exact X]. destruct X as [m2 ->]. cbn [rawIn]. rewrite V. f_equal. f_equal. now apply (keeps_view h m m2 s s').
Qed.
Lemma raw_own grow lf fuel g o s h x s' h' : hEvalRaw grow lf fuel g o s h = Ok (HRawOk x, s', h') ->
  (forall c, In c (slicesOfAll x) -> sl_cap c = 0%nat /\ sl_len c = 0%nat \/ (sl_off c = 0 /\ length h <= sl_arr c < length h' /\ sl_len c <= sl_cap c <= length (array h' (sl_arr c)))%nat) /\
  (forall a b c d e, slicesOfAll x = a ++ b :: c ++ d :: e -> sl_cap b = 0%nat \/ sl_cap d = 0%nat \/ sl_arr b <> sl_arr d).
Proof.
  intros E. assert (P := post_raw grow lf fuel g o s h). unfold post in P. rewrite E in P. destruct P as [_ (_ & _ & (A & B & C))]. cbn [fst] in A, B, C. rewrite Forall_forall in A, C. split.
  - intros c I. destruct (A c I) as [Q|(Q1 & Q2 & Q3 & Q4)]; auto. right. assert (L := C _ (in_arrs _ _ I (Nat.neq_sym _ _ (Nat.lt_neq _ _ Q3)))). cbn in L. lia.
  - intros a b c d e EQ. destruct (Nat.eq_dec (sl_cap b) 0) as [|NB]; auto. destruct (Nat.eq_dec (sl_cap d) 0) as [|ND]; auto. right. right. intros EA. rewrite EQ in B.
    change (b :: c ++ d :: e) with ([b] ++ c ++ [d] ++ e) in B. rewrite !arrs_app in B. apply NoDup_remove_2 with (l := arrs a) (l' := arrs c ++ arrs [d] ++ arrs e) (a := sl_arr b).
    + assert (S1 : arrs [b] = [sl_arr b]) by (cbn; destruct (Nat.eqb_spec (sl_cap b) 0); [lia|reflexivity]). rewrite S1 in B. exact B.
    + apply in_or_app. right. apply in_or_app. right. apply in_or_app. left. rewrite EA. apply in_arrs; [now left|auto].
Qed.
Lemma simplify_views grow level l h : fresh 0 h (slicesOfAll l) -> exists ms h', hSimplify grow level l h = Ok (ms, h') /\
  List.map (nodeIn h') ms = simplify level (List.map (nodeIn h) l) /\ frame (slicesOfAll l) h h'.
Proof. intros X. destruct (simplify_ok grow level l h X) as (ms & h' & E & F & V). eauto 6. Qed.
Lemma text_views grow n h : Forall (solid h) (slicesOf n) ->
  exists t h', hText grow n h = Ok (t, h') /\ cells h' t = text (nodeIn h n) /\ forall a, (a < length h)%nat -> array h' a = array h a.
Proof. intros X. destruct (text_ok grow n h X) as (t & h' & E & [_ F] & _ & C & _). exists t, h'. auto. Qed.
