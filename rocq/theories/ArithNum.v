(** The numbers and names of the shipped arithmetic grammar: the textbook semantics
    against SpecArith.v. *)
From Verif Require Import Base Stream StreamFacts CallFacts Node Rule Grammar SpecStream SpecRule TermFacts TermSpec SpecEval SpecEv EvFacts EvDet
  SpecTerm WfDec LoopFacts SpecDriver SpecLL LLFacts LLDec LangFacts JsonLex JsonLang RepoSamples SpecArith ArithLex ArithSafe ArithLang.

Lemma within_iff lo hi d : within lo hi d = true <-> lo <= d <= hi.
Proof. unfold within. rewrite andb_true_iff, !Z.leb_le. reflexivity. Qed.
Lemma isHex_iff d : isHex d = true <-> hexDigit d.
Proof.
  unfold isHex, hexAlts, someOf, which. cbn [fst snd]. unfold hexDigit. destruct (within 48 57 d) eqn:A, (within 65 70 d) eqn:B, (within 97 102 d) eqn:C;
    unfold within in A, B, C; rewrite ?andb_true_iff, ?andb_false_iff, ?Z.leb_le, ?Z.leb_gt in *; split; intros H; try discriminate; try lia; reflexivity.
Qed.
Lemma bare_hex d : hexDigit d -> bare (hexNode d) = hexTree d.
Proof.
  intros H. apply isHex_iff in H. unfold isHex, someOf in H. unfold hexNode, choiceNode. unfold hexAlts, which in *. cbn [fst snd] in *.
  destruct (within 48 57 d); [reflexivity|]. destruct (within 65 70 d); [reflexivity|]. destruct (within 97 102 d); [reflexivity|discriminate].
Qed.
Lemma bare_letter d : letter d -> bare (letterNode d) = letterTree d.
Proof.
  intros H. unfold letterNode, choiceNode, letterTree, isLower. unfold letterAlts, which. cbn [fst snd]. change ((97 <=? d) && (d <=? 122)) with (within 97 122 d).
  destruct (within 97 122 d) eqn:A; [reflexivity|]. assert (B : within 65 90 d = true); [|rewrite B; reflexivity]. apply within_iff. unfold within in A.
  rewrite andb_false_iff, !Z.leb_gt in A. unfold letter in H. lia.
Qed.
Lemma isName_iff d : isName d = true <-> nameRune d.
Proof.
  unfold isName, nameAlts, someOf, which. cbn [fst snd]. unfold nameRune. rewrite <- isLetter_iff, <- isDec_iff, <- Z.eqb_eq. destruct (isLetter d), (isDec d), (d =? 95); intuition discriminate.
Qed.
Lemma bare_name d : nameRune d -> bare (nameNode d) = nameTree d.
Proof.
  intros H. unfold nameNode, choiceNode, nameTree. unfold nameAlts, which. cbn [fst snd]. change ((48 <=? d) && (d <=? 57)) with (isDec d).
  destruct (isLetter d) eqn:A.
  - apply isLetter_iff in A. assert (B : (d =? 95) = false) by (apply Z.eqb_neq; unfold letter in A; lia).
    assert (C : isDec d = false) by (apply not_true_is_false; rewrite isDec_iff; unfold letter in A; unfold decDigit; lia). rewrite B, C. change (nd TChoice [] [] [bare (letterNode d)] = nd TChoice [] [] [letterTree d]). now rewrite bare_letter.
  - destruct (isDec d) eqn:B.
    + assert (C : (d =? 95) = false) by (apply isDec_iff in B; apply Z.eqb_neq; unfold decDigit in B; lia). rewrite C. reflexivity.
    + destruct (Z.eqb_spec d 95) as [->|N]; [reflexivity|]. exfalso. destruct H as [H|[H|H]]; [apply isLetter_iff in H|apply isDec_iff in H|]; congruence.
Qed.

Definition IsBased (mk : list Z -> number) (c : Z) (Q : Z -> Prop) (x : number) (s : list Z) : Prop := exists w ds, x = mk ds /\ white w /\ some Q ds /\ s = w ++ 48 :: c :: ds.
Definition octT (x : number) : node := match x with NOct ds => basedTree (rs "integer_oct") 111 octTree ds | _ => nd TEOF [] [] [] end.
Definition hexT (x : number) : node := match x with NHex ds => basedTree (rs "integer_hex") 120 hexTree ds | _ => nd TEOF [] [] [] end.
Definition binT (x : number) : node := match x with NBin ds => basedTree (rs "integer_bin") 98 binTree ds | _ => nd TEOF [] [] [] end.
Lemma oct_longest t o : plainSpace t -> Ev gA (ref aIntOct) SK t o -> longest (IsBased NOct 111 octDigit) octT (goesOn nothing) t o.
Proof.
  intros PS E. apply (based_longest aIntOct 111 (within 48 55) (runeNode (named aOct)) octDigit octTree NOct octT t o PS).
  - apply within_iff.
  - intros d D. right. left. unfold octDigit in D. unfold decDigit. lia.
  - reflexivity.
  - reflexivity.
  - exact E.
  - pose proof (intOct_ev SK t PS) as X. rewrite sp_skip in X. exact X.
Qed.
Lemma hex_longest t o : plainSpace t -> Ev gA (ref aIntHex) SK t o -> longest (IsBased NHex 120 hexDigit) hexT (goesOn nothing) t o.
Proof.
  intros PS E. apply (based_longest aIntHex 120 isHex hexNode hexDigit hexTree NHex hexT t o PS).
  - apply isHex_iff.
  - intros d D. unfold hexDigit in D. unfold nameRune, letter, decDigit. lia.
  - apply bare_hex.
  - reflexivity.
  - exact E.
  - pose proof (intHex_ev SK t PS) as X. rewrite sp_skip in X. exact X.
Qed.
Lemma bin_longest t o : plainSpace t -> Ev gA (ref aIntBin) SK t o -> longest (IsBased NBin 98 binDigit) binT (goesOn nothing) t o.
Proof.
  intros PS E. apply (based_longest aIntBin 98 (within 48 49) (runeNode (named aBin)) binDigit binTree NBin binT t o PS).
  - apply within_iff.
  - intros d D. right. left. unfold binDigit in D. unfold decDigit. lia.
  - reflexivity.
  - reflexivity.
  - exact E.
  - pose proof (intBin_ev SK t PS) as X. rewrite sp_skip in X. exact X.
Qed.

(** Names. *)
Definition IsVar (x : list Z) (s : list Z) : Prop := exists w c l, x = c :: l /\ white w /\ letter c /\ Forall nameRune l /\ s = w ++ c :: l.
Lemma letter_dark c : letter c -> isWS c = false.
Proof. intros H. apply not_true_is_false. rewrite isWS_In. cbn. unfold letter in H. lia. Qed.
Lemma var_longest t o : plainSpace t -> Ev gA (ref aVar) SK t o -> longest IsVar varTree (goesOn nothing) t o.
Proof.
  intros PS E. pose proof (var_ev SK t PS) as E'. rewrite sp_skip in E'. rewrite (ev_det _ _ _ _ _ _ E E'). clear E E'.
  destruct (lead_white t) as (TE & W & LW). pose proof (lead_le t) as LE. pose proof (skipn_length (lead t) t) as LL. set (l := skipn (lead t) t) in *.
  assert (INV : forall y s s', t = s ++ s' -> IsVar y s -> exists c es, y = c :: es /\ letter c /\ Forall nameRune es /\ s = firstn (lead t) t ++ c :: es /\ l = c :: es ++ s').
  { intros y s s' S (w & c & es & -> & Ww & C & F & ->). destruct (token_inv w c es s' t Ww (letter_dark c C) S) as (A & B & _). fold l in A. exists c, es. rewrite B. auto. }
  assert (AQ : forall ds, Forall nameRune ds <-> Forall (fun d => isName d = true) ds) by (intros ds; rewrite !Forall_forall; split; intros X d D; now apply isName_iff, X).
  unfold varOut. destruct l as [|c r] eqn:L; cbn [shift longest].
  { intros y s s' S Y. destruct (INV y s s' S Y) as (c & es & _ & _ & _ & _ & X). discriminate. }
  destruct (isLetter c) eqn:C; cbn [shift longest].
  2:{ intros y s s' S Y. destruct (INV y s s' S Y) as (c' & es & _ & X & _ & _ & B). injection B as <- _. apply isLetter_iff in X. congruence. }
  apply isLetter_iff in C. cbn [length] in LL. pose proof (runP_len isName r) as RL.
  assert (TX : firstn (lead t + S (length (runP isName r))) t = firstn (lead t) t ++ c :: runP isName r).
  { rewrite token_text. fold l. rewrite L. cbn [firstn]. now rewrite firstn_run. }
  rewrite TX. split; [lia|]. exists (c :: runP isName r). split; [|split].
  - exists (firstn (lead t) t), c, (runP isName r). split; [reflexivity|]. split; [exact W|]. split; [exact C|]. split; [apply AQ, runP_all|reflexivity].
  - change (nd TConcat (rs "variable") [] [bare (letterNode c); bare (manyNode nameNode (runP isName r))] = varTree (c :: runP isName r)).
    rewrite (bare_letter c C), (bare_many nameNode nameTree); [reflexivity|]. eapply Forall_impl; [|exact (proj2 (AQ _) (runP_all isName r))]. exact bare_name.
  - intros y s s' S Y. destruct (INV y s s' S Y) as (c' & es & -> & _ & D & -> & B). injection B as <- B.
    destruct (run_cmp isName es r s' ltac:(now apply AQ) B) as [[-> _]|[LT (e & q & -> & X)]]; [now left|right].
    split; [rewrite app_length, LW; cbn [length]; lia|]. apply goes_name. now apply isName_iff.
Qed.

(* ---------------- numbers with a dot ---------------- *)

Definition fltTree (x : number) : node := match x with
  | NFloat m ds es => nd TConcat (rs "float") [] (signTree m :: nd TRepetition [] [] (List.map decTree ds) :: nd TChar [] [46] [] :: runTree decTree es)
  | _ => nd TEOF [] [] [] end.
Definition IsFloat (x : number) (s : list Z) : Prop := exists m ds es, x = NFloat m ds es /\ Forall decDigit ds /\ some decDigit es /\ found m ds es s.

Lemma dec_dark d : decDigit d -> isWS d = false. Proof. intros H. apply isDec_dark. now apply isDec_iff. Qed.
Lemma spread_taken ds l : Spread ds l -> forall r, taken isDec SK (l ++ 46 :: r) = ds /\ gone isDec SK (l ++ 46 :: r) = length l.
Proof.
  induction 1 as [|w d ds l W D _ IH]; intros r.
  - cbn [app length]. apply loose_stop. rewrite (sp_here SK 46 r eq_refl). reflexivity.
  - rewrite <- app_assoc. cbn [app]. destruct (white_head w d (l ++ 46 :: r) _ W (dec_dark d D) eq_refl) as (A & B & _). destruct (IH r) as [I1 I2].
    destruct (loose_step isDec SK (w ++ d :: l ++ 46 :: r) d (l ++ 46 :: r)) as [X Y]; [rewrite sp_skip; exact B|now apply isDec_iff|].
    rewrite X, Y, I1, I2, sp_skip, A, app_length. cbn [length]. split; [reflexivity|lia].
Qed.
Lemma taken_spread n : forall t, (length t <= n)%nat -> Spread (taken isDec SK t) (firstn (gone isDec SK t) t).
Proof.
  induction n as [|n IH]; intros t L.
  - destruct t as [|c t]; [|cbn in L; lia]. destruct (loose_stop isDec SK [] I) as [-> ->]. constructor.
  - destruct (skipn (sp SK t) t) as [|d l] eqn:E.
    + destruct (loose_stop isDec SK t) as [-> ->]; [now rewrite E|]. constructor.
    + destruct (isDec d) eqn:D.
      2:{ destruct (loose_stop isDec SK t) as [-> ->]; [now rewrite E|]. constructor. }
      destruct (loose_step isDec SK t d l E D) as [-> ->]. rewrite sp_skip in *. destruct (lead_white t) as (TE & W & LW). pose proof (skipn_length (lead t) t) as LS. rewrite E in LS. cbn [length] in LS.
      replace (S (lead t) + gone isDec SK l)%nat with (lead t + S (gone isDec SK l))%nat by lia. rewrite token_text, E. cbn [firstn]. constructor; [exact W|now apply isDec_iff|]. apply IH. lia.
Qed.
Lemma spread_all ds l : Spread ds l -> Forall decDigit ds. Proof. induction 1; constructor; auto. Qed.

Lemma float_inv t y s s' : IsFloat y s -> t = s ++ s' ->
  (exists ds es, y = NFloat true ds es /\ Forall decDigit ds /\ some decDigit es /\ skipn (lead t) t = 45 :: ds ++ 46 :: es ++ s' /\ s = firstn (lead t) t ++ 45 :: ds ++ 46 :: es) \/
  (headIs 45 (skipn (lead t) t) = false /\ exists ds l es, y = NFloat false ds es /\ Spread ds l /\ some decDigit es /\ s = l ++ 46 :: es /\ t = l ++ 46 :: es ++ s').
Proof.
  intros (m & ds & es & -> & D & F & S) E. destruct m; cbn [found] in S.
  - destruct S as (w & W & ->). left. cbn [sign app] in E. destruct (token_inv w 45 (ds ++ 46 :: es) s' t W eq_refl E) as (A & B & _). exists ds, es. rewrite A, B, <- app_assoc. auto 10.
  - destruct S as (l & S & ->). right. rewrite <- app_assoc in E. cbn [app] in E. split; [|exists ds, l, es; auto 10]. destruct S as [|w d ds l W X S].
    + cbn [app] in E. rewrite E. destruct (white_head [] 46 (es ++ s') _ (Forall_nil _) eq_refl eq_refl) as (_ & B & _). cbn [app] in B. rewrite B. reflexivity.
    + rewrite <- app_assoc in E. cbn [app] in E. destruct (white_head w d _ _ W (dec_dark d X) E) as (_ & B & _). rewrite B. cbn. apply Z.eqb_neq. unfold decDigit in X. lia.
Qed.

Lemma dec_run ds r : Forall decDigit ds -> runP isDec (ds ++ 46 :: r) = ds.
Proof. intros F. induction F as [|d ds D _ IH]; [reflexivity|]. cbn [app runP]. rewrite (proj2 (isDec_iff d) D). now rewrite IH. Qed.
Lemma app_cut (a b c d : list Z) : length a = length c -> a ++ b = c ++ d -> b = d.
Proof. intros L E. now destruct (app_inv_len a b c d E L). Qed.

(** The part behind the digits in front of the dot. *)
Lemma dot_longest (m : bool) (ds A : list Z) t q : (forall es, found m ds es (A ++ 46 :: es)) -> Forall decDigit ds -> t = A ++ skipn q t -> length A = q ->
  (forall y s s', t = s ++ s' -> IsFloat y s -> exists es, y = NFloat m ds es /\ some decDigit es /\ s = A ++ 46 :: es) -> forall k,
  longest IsFloat fltTree (goesOn nothing) t (atLeast k (shift q (dotOut [minusNode m; manyNode decNode ds] (skipn q t)))).
Proof.
  intros FO D TA LA INV k. unfold dotOut, runOut. pose proof (f_equal (@length Z) TA) as LT. rewrite app_length in LT.
  assert (CUT : forall es s', t = (A ++ 46 :: es) ++ s' -> skipn q t = 46 :: es ++ s').
  { intros es s' E. rewrite TA, <- app_assoc in E. cbn [app] in E. now apply (app_cut A _ A). }
  destruct (headIs 46 (skipn q t)) eqn:H.
  2:{ cbn [shift longest atLeast]. intros y s s' S Y. destruct (INV y s s' S Y) as (es & _ & _ & ->). rewrite (CUT es s' S) in H. discriminate. }
  pose proof (head_tail _ _ _ H) as HT. rewrite HT in *. cbn [tl length] in *. set (l := skipn (q + 1) t) in *. pose proof (runP_len isDec l) as RL.
  assert (CUT' : forall es s', t = (A ++ 46 :: es) ++ s' -> l = es ++ s') by (intros es s' E; specialize (CUT es s' E); congruence).
  destruct (runP isDec l) as [|d es0] eqn:R; cbn [shift longest atLeast].
  - intros y s s' S Y. destruct (INV y s s' S Y) as (es & _ & SE & ->). destruct (digits_here es s' l SE (CUT' es s' S)) as [X _]. congruence.
  - rewrite <- R in *. assert (SR : some decDigit (runP isDec l)) by (apply some_run; rewrite R; discriminate).
    assert (TX : firstn (q + (1 + length (runP isDec l))) t = A ++ 46 :: runP isDec l).
    { rewrite TA at 1. rewrite firstn_app, LA, firstn_all2 by lia. f_equal. replace (q + (1 + length (runP isDec l)) - q)%nat with (S (length (runP isDec l))) by lia. cbn [firstn]. now rewrite firstn_run. }
    change (S (length es0)) with (length (d :: es0)). rewrite <- R, TX. split; [lia|]. exists (NFloat m ds (runP isDec l)). split; [|split].
    + exists m, ds, (runP isDec l). auto.
    + change (nd TConcat (rs "float") [] (bare (minusNode m) :: bare (manyNode decNode ds) :: bare (charNode nb 46) :: List.map bare (runNodes decNode (runP isDec l))) = fltTree (NFloat m ds (runP isDec l))).
      rewrite (bare_many decNode decTree), (bare_run decNode decTree) by (now apply all_true). destruct m; reflexivity.
    + intros y s s' S Y. destruct (INV y s s' S Y) as (es & -> & SE & ->). specialize (CUT' es s' S).
      destruct (run_cmp isDec es l s' ltac:(apply dec_all; apply SE) CUT') as [[-> _]|[LL (e & r & -> & X)]]; [now left|right].
      split; [rewrite app_length; cbn [length]; lia|]. apply goes_name. right. left. now apply isDec_iff.
Qed.
Lemma atLeast_0 o : atLeast 0 o = o. Proof. now destruct o. Qed.

Lemma flt_longest t o : plainSpace t -> Ev gA (ref aFloat) SK t o -> longest IsFloat fltTree (goesOn nothing) t o.
Proof.
  intros PS E. rewrite (ev_det _ _ _ _ _ _ E (flt_ev SK t PS)). clear E. unfold floatOut. cbv zeta. rewrite sp_skip. destruct (lead_white t) as (TE & W & LW).
  destruct (headIs 45 (skipn (lead t) t)) eqn:H.
  - pose proof (head_tail _ _ _ H) as HT. rewrite HT. cbn [tl]. set (l := skipn (lead t + 1) t) in *. set (ds := runP isDec l).
    assert (SQ : skipn (length ds) l = skipn (lead t + 1 + length ds) t) by (unfold l; apply skipn_plus).
    rewrite SQ. rewrite <- (atLeast_0 (shift _ _)). apply (dot_longest true ds (firstn (lead t) t ++ 45 :: ds)).
    + intros es. exists (firstn (lead t) t). split; [exact W|]. cbn [sign app]. now rewrite <- app_assoc.
    + apply dec_all. apply runP_all.
    + rewrite <- SQ, <- app_assoc. cbn [app]. unfold ds. rewrite <- runP_split, <- HT. exact TE.
    + rewrite app_length, LW. cbn [length]. lia.
    + intros y s s' S Y. destruct (float_inv t y s s' Y S) as [(ds' & es & -> & D & SE & B & ->)|(X & _)]; [|congruence].
      rewrite HT in B. injection B as B. assert (ds = ds') by (unfold ds; rewrite B; now apply dec_run). subst ds'. exists es. rewrite <- app_assoc. auto.
  - set (q := gone isDec SK t). pose proof (taken_spread (length t) t (Nat.le_refl _)) as SP. pose proof (gone_le isDec SK t) as GL. fold q in SP, GL.
    apply (dot_longest false (taken isDec SK t) (firstn q t)).
    + intros es. exists (firstn q t). auto.
    + exact (spread_all _ _ SP).
    + now rewrite firstn_skipn.
    + rewrite firstn_length. lia.
    + intros y s s' S Y. destruct (float_inv t y s s' Y S) as [(ds' & es & -> & D & SE & B & ->)|(_ & ds' & l & es & -> & SD & SE & -> & TE')]; [rewrite B in H; discriminate|].
      destruct (spread_taken ds' l SD (es ++ s')) as [T1 T2]. rewrite <- TE' in T1, T2. exists es. rewrite <- T1. unfold q. rewrite T2. assert (X : firstn (length l) t = l) by (rewrite TE'; apply firstn_len). rewrite X. auto.
Qed.

(* ---------------- which kind of number ---------------- *)

Lemma dec_based t x s s' y z z' mk c Q : letter c -> IsDec x s -> IsBased mk c Q y z -> t = s ++ s' -> t = z ++ z' -> (length s < length z)%nat /\ goesOn nothing s'.
Proof.
  intros C X (w & es & -> & W & _ & ->) E1 E2. destruct (dec_inv t x s s' X E1) as (w' & m & ds & -> & [NE D] & B' & -> & _ & A' & _).
  destruct (token_inv w 48 (c :: es) z' t W eq_refl E2) as (A & B & _). rewrite A in A'. destruct m; cbn [sign app] in *; [discriminate|].
  destruct ds as [|d ds]; [congruence|]. cbn [app] in A'. injection A' as <- A'. destruct ds as [|e ds].
  - cbn [app] in A'. subst s'. rewrite <- B', B. rewrite !app_length. cbn [length]. split; [lia|]. apply goes_name. now left.
  - injection A' as <- _. pose proof (Forall_inv (Forall_inv_tail D)) as G. unfold letter in C. unfold decDigit in G. lia.
Qed.
Lemma based_based t x s s' y z z' mk c Q mk' c' Q' : c <> c' -> IsBased mk c Q x s -> IsBased mk' c' Q' y z -> t = s ++ s' -> t = z ++ z' -> False.
Proof.
  intros NE (w & ds & -> & W & _ & ->) (w' & es & -> & W' & _ & ->) E1 E2. destruct (token_inv w 48 (c :: ds) s' t W eq_refl E1) as (A & _). destruct (token_inv w' 48 (c' :: es) z' t W' eq_refl E2) as (B & _).
  cbn [app] in *. congruence.
Qed.

(** Behind digits in front of a dot there are digits or the dot. *)
Lemma spread_dec ds l : Spread ds l -> forall r w es s', white w -> some decDigit es -> l ++ 46 :: r = (w ++ es) ++ s' -> (length (w ++ es) <= length l)%nat /\ goesOn nothing s'.
Proof.
  induction 1 as [|w0 d0 ds l W0 D0 SD IH]; intros r w es s' W [NE D] E; destruct es as [|e es]; try congruence; pose proof (Forall_inv D) as DE; rewrite <- app_assoc in E; cbn [app] in E.
  - destruct (white_head w e (es ++ s') _ W (dec_dark e DE) E) as (_ & A & _). destruct (white_head [] 46 r _ (Forall_nil _) eq_refl eq_refl) as (_ & B & _). cbn [app] in B. rewrite B in A.
    injection A as <- _. unfold decDigit in DE. lia.
  - rewrite <- app_assoc in E. cbn [app] in E. destruct (white_head w0 d0 (l ++ 46 :: r) _ W0 (dec_dark d0 D0) eq_refl) as (L1 & A1 & B1).
    destruct (white_head w e (es ++ s') _ W (dec_dark e DE) E) as (L2 & A2 & B2). assert (w = w0) by congruence. rewrite A1 in A2. injection A2 as <- A2. subst w0.
    destruct es as [|e' es].
    + cbn [app] in A2. subst s'. rewrite !app_length. cbn [length]. split; [lia|]. destruct SD as [|w1 d1 ds l W1 D1 SD]; [right; cbn; eauto|left].
      exists w1, d1, (l ++ 46 :: r). rewrite <- app_assoc. auto.
    + destruct (IH r [] (e' :: es) s') as [L G]; [constructor|split; [discriminate|exact (Forall_inv_tail D)]|exact A2|]. split; [|exact G]. rewrite !app_length in *. cbn [length app] in *. lia.
Qed.
Lemma dec_float t x s s' y z z' : IsDec x s -> IsFloat y z -> t = s ++ s' -> t = z ++ z' -> (length s < length z)%nat /\ goesOn nothing s'.
Proof.
  intros X Y E1 E2. destruct (dec_inv t x s s' X E1) as (w & m & ds & -> & D & B & SE & W & A & _). destruct (float_inv t y z z' Y E2) as [(es & fs & -> & E & F & A' & ->)|(H & es & l & fs & -> & SD & F & -> & TE)].
  - rewrite A in A'. destruct m; cbn [sign app] in *.
    + injection A' as A'. pose proof (dec_run es (fs ++ z') E) as R. rewrite <- A' in R. destruct (run_cmp isDec ds (ds ++ s') s' ltac:(apply dec_all; apply D) eq_refl) as [[ED _]|[L (d & q & -> & Q)]].
      * rewrite R in ED. rewrite <- ED in A'. apply app_inv_head in A'. subst s'. rewrite SE, B, <- ED, !app_length. cbn [length]. rewrite app_length. cbn [length]. split; [lia|]. right. eauto.
      * rewrite R in L. rewrite SE, B, !app_length. cbn [length]. rewrite app_length. split; [lia|]. apply goes_name. right. left. now apply isDec_iff.
    + destruct (digits_here ds s' _ D eq_refl) as [_ X1]. rewrite A' in X1. discriminate.
  - destruct m; cbn [sign app] in *; [rewrite A in H; discriminate|]. subst s. rewrite TE in E1. destruct (spread_dec es l SD (fs ++ z') w ds s' W D E1) as [L G]. split; [|exact G].
    rewrite (app_length l). cbn [length]. lia.
Qed.
Lemma based_float t x s s' y z z' mk c Q : letter c -> IsBased mk c Q x s -> IsFloat y z -> t = s ++ s' -> t = z ++ z' -> False.
Proof.
  intros C (w & ds & -> & W & _ & ->) Y E1 E2. destruct (token_inv w 48 (c :: ds) s' t W eq_refl E1) as (A & B & _).
  destruct (float_inv t y z z' Y E2) as [(es & fs & -> & E & F & A' & ->)|(H & es & l & fs & -> & SD & F & -> & TE)]; [congruence|].
  destruct SD as [|w0 d0 es l W0 D0 SD].
  - destruct (white_head [] 46 (fs ++ z') _ (Forall_nil _) eq_refl TE) as (_ & B' & _). congruence.
  - rewrite <- app_assoc in TE. cbn [app] in TE. destruct (white_head w0 d0 _ _ W0 (dec_dark d0 D0) TE) as (_ & B' & _). rewrite A in B'. injection B' as _ B'. destruct SD as [|w1 d1 es l W1 D1 SD].
    + injection B' as -> _. unfold letter in C. lia.
    + destruct w1 as [|v w1]; injection B' as -> _; [unfold letter in C; unfold decDigit in D1; lia|]. pose proof (Forall_inv W1) as V. apply isWS_In in V. rewrite (letter_dark v C) in V. discriminate.
Qed.

Definition intBranches : list (@branch number) := [(ref aIntDec, IsDec, intDecTree); (ref aIntOct, IsBased NOct 111 octDigit, octT); (ref aIntHex, IsBased NHex 120 hexDigit, hexT); (ref aIntBin, IsBased NBin 98 binDigit, binT)].
Definition IsInt (x : number) (s : list Z) : Prop := exists b, In b intBranches /\ spells b x s.
Definition intTree (x : number) : node := nd TChoice (rs "integer") [] [match x with NDec _ _ => intDecTree x | NOct _ => octT x | NHex _ => hexT x | NBin _ => binT x | _ => nd TEOF [] [] [] end].
Ltac eachOf := repeat match goal with H : In _ (_ :: _) |- _ => destruct H as [H|H] | H : In _ [] |- _ => destruct H end.
Lemma int_longest t o : plainSpace t -> Ev gA (ref aInteger) SK t o -> longest IsInt intTree (goesOn nothing) t o.
Proof.
  intros PS E. apply (inv_ref_any gA _ _ _ _ _ look_int) in E. apply (choice_longest (named aInteger) (goesOn nothing) intTree t intBranches); [| | | |exact E].
  - intros x X a s Y. unfold intBranches in X. eachOf; subst x; unfold spells in Y; cbn [fst snd] in Y.
    + destruct Y as (w & m & ds & -> & _). reflexivity.
    + destruct Y as (w & ds & -> & _). reflexivity.
    + destruct Y as (w & ds & -> & _). reflexivity.
    + destruct Y as (w & ds & -> & _). reflexivity.
  - now split.
  - intros x X o' E'. unfold intBranches in X. eachOf; subst x; unfold ruleIn, spells in *; cbn [fst snd] in *; [now apply intDec_longest|now apply oct_longest|now apply hex_longest|now apply bin_longest].
  - unfold intBranches. constructor; [|constructor; [|constructor; [|constructor; [constructor|constructor]]]].
    + repeat (constructor; [intros a s s' c z z' E1 E2 X Y; unfold spells in *; cbn [fst snd] in *; left; refine (dec_based t _ _ _ _ _ _ _ _ _ _ X Y E1 E2); unfold letter; lia|]). constructor.
    + repeat (constructor; [intros a s s' c z z' E1 E2 X Y; unfold spells in *; cbn [fst snd] in *; exfalso; refine (based_based t _ _ _ _ _ _ _ _ _ _ _ _ _ X Y E1 E2); discriminate|]). constructor.
    + repeat (constructor; [intros a s s' c z z' E1 E2 X Y; unfold spells in *; cbn [fst snd] in *; exfalso; refine (based_based t _ _ _ _ _ _ _ _ _ _ _ _ _ X Y E1 E2); discriminate|]). constructor.
Qed.

Definition numBranches : list (@branch number) := [(ref aInteger, IsInt, intTree); (ref aFloat, IsFloat, fltTree)].
Lemma lit_longest t o : plainSpace t -> Ev gA (ref aLiteral) SK t o -> longest (Number found) numTree (goesOn nothing) t o.
Proof.
  intros PS E. apply (inv_ref_any gA _ _ _ _ _ look_lit) in E. apply (longest_iff (fun x s => exists b, In b numBranches /\ spells b x s)).
  { intros x s. split.
    - intros (b & B & X). unfold numBranches in B. eachOf; subst b; unfold spells in X; cbn [fst snd] in X.
      + destruct X as (b & B & X). unfold intBranches in B. eachOf; subst b; unfold spells in X; cbn [fst snd] in X.
        * destruct X as (w & m & ds & -> & W & D & ->). now constructor.
        * destruct X as (w & ds & -> & W & D & ->). now constructor.
        * destruct X as (w & ds & -> & W & D & ->). now constructor.
        * destruct X as (w & ds & -> & W & D & ->). now constructor.
      + destruct X as (m & ds & es & -> & D & F & S). now constructor.
    - intros X. destruct X as [w m ds W D|w ds W D|w ds W D|w ds W D|m ds es t' D F S].
      1-4: exists (ref aInteger, IsInt, intTree); (split; [now left|]); unfold spells, IsInt; cbn [fst snd].
      + exists (ref aIntDec, IsDec, intDecTree). split; [now left|]. exists w, m, ds. auto.
      + exists (ref aIntOct, IsBased NOct 111 octDigit, octT). split; [right; now left|]. exists w, ds. auto.
      + exists (ref aIntHex, IsBased NHex 120 hexDigit, hexT). split; [right; right; now left|]. exists w, ds. auto.
      + exists (ref aIntBin, IsBased NBin 98 binDigit, binT). split; [right; right; right; now left|]. exists w, ds. auto.
      + exists (ref aFloat, IsFloat, fltTree). split; [right; now left|]. exists m, ds, es. auto. }
  apply (choice_longest (named aLiteral) (goesOn nothing) numTree t numBranches); [| | | |exact E].
  - intros x X a s Y. unfold numBranches in X. eachOf; subst x; unfold spells in Y; cbn [fst snd] in Y.
    + destruct Y as (b & B & Y). unfold intBranches in B. eachOf; subst b; unfold spells in Y; cbn [fst snd] in Y.
      * destruct Y as (w & m & ds & -> & _). reflexivity.
      * destruct Y as (w & ds & -> & _). reflexivity.
      * destruct Y as (w & ds & -> & _). reflexivity.
      * destruct Y as (w & ds & -> & _). reflexivity.
    + destruct Y as (m & ds & es & -> & _). reflexivity.
  - now split.
  - intros x X o' E'. unfold numBranches in X. eachOf; subst x; unfold ruleIn, spells in *; cbn [fst snd] in *; [now apply int_longest|now apply flt_longest].
  - unfold numBranches. constructor; [|constructor; [constructor|constructor]]. constructor; [|constructor]. intros a s s' c z z' E1 E2 X Y. unfold spells in *. cbn [fst snd] in *.
    destruct X as (b & B & X). unfold intBranches in B. eachOf; subst b; unfold spells in X; cbn [fst snd] in X.
    + left. exact (dec_float t _ _ _ _ _ _ X Y E1 E2).
    + exfalso. refine (based_float t _ _ _ _ _ _ _ _ _ _ X Y E1 E2). unfold letter. lia.
    + exfalso. refine (based_float t _ _ _ _ _ _ _ _ _ _ X Y E1 E2). unfold letter. lia.
    + exfalso. refine (based_float t _ _ _ _ _ _ _ _ _ _ X Y E1 E2). unfold letter. lia.
Qed.
