(** The positions of the nodes (C54) and of the errors (C65). *)
From Verif Require Import Base Stream StreamFacts PosFacts CallFacts Node Rule SpecStream SpecRule TermFacts TermSpec EvalInv SpecEval SemFacts
  SpecPlace SpecFault.

Section Place.
Variable T : list Z.

Definition onText (s : stream) : Prop :=
  wfs s /\ cs_chars (sbase s) = T /\ Forall (fun x => (snd x <= length (fst x))%nat) (layers s).

Lemma on_next s : onText s -> onText (next1 s).
Proof.
  intros (W & C & F). split; [now apply wfs_next|]. split; [rewrite <- C; apply (moves_chars 1); apply same_refl|].
  destruct s as [ls b]. unfold next1, next. cbn [layers sbase] in *.
  assert (X : Forall (fun x => (snd x <= length (fst x))%nat) (fst (snd (next_l ls b)))).
  { clear W C. induction ls as [|[p k] ls IH]; cbn [next_l].
    - destruct (b_next b); constructor.
    - inversion F as [|x l F1 F2]; subst. cbn [fst snd] in *. destruct (nth_error p k) eqn:E.
      + assert (k < length p)%nat by (apply nth_error_Some; congruence). constructor; [cbn; lia|exact F2].
      + specialize (IH F2). destruct (next_l ls b) as [c [l1 b1]]. constructor; [cbn; lia|exact IH]. }
  destruct (next_l ls b) as [c [l1 b1]]. exact X.
Qed.
Lemma on_nextn n : forall s, onText s -> onText (nextn n s).
Proof. induction n as [|n IH]; intros s H; cbn [nextn]; [exact H|]. apply IH. now apply on_next. Qed.
Lemma on_moves n s t : onText s -> moves n s t -> wfs t -> onText t.
Proof.
  intros H M W. apply (on_nextn n) in H as (_ & C & F). unfold moves in M. destruct M as (L & CC & _).
  split; [exact W|]. split; [congruence|]. rewrite <- L. exact F.
Qed.
Lemma on_prepend s l : onText s -> onText (prepend s l).
Proof.
  intros (W & C & F). destruct l as [|c l]; [now split|]. split; [exact W|]. split; [exact C|].
  constructor; [cbn; lia|exact F].
Qed.
Lemma Forall_skipn {A} (P : A -> Prop) n l : Forall P l -> Forall P (skipn n l).
Proof. revert l; induction n as [|n IH]; intros [|x l] H; cbn [skipn]; auto. inversion H; auto. Qed.
Lemma on_unwrap n s : onText s -> onText (unwrap n s).
Proof. intros (W & C & F). split; [exact W|]. split; [exact C|]. cbn [unwrap layers]. now apply Forall_skipn. Qed.
Lemma on_pos s : onText s -> onText (snd (positionOf s)).
Proof. intros H. apply (on_moves 0 s); [exact H|apply moves_0, position_same|]. apply wfs_position, H. Qed.

Lemma on_len s : onText s -> (cs_cur (sbase s) <= length T)%nat.
Proof. intros ((h & H1 & H2 & _) & <- & _). lia. Qed.
Lemma cursor_len_l ls b : Forall (fun x => (snd x <= length (fst x))%nat) ls -> (cs_cur b <= length (cs_chars b))%nat ->
  cursor_l ls b + Z.of_nat (length (rest_l ls b)) = Z.of_nat (length (cs_chars b)) /\ cursor_l ls b <= Z.of_nat (cs_cur b).
Proof.
  intros F L. induction F as [|[p k] ls H F [IH1 IH2]]; cbn [cursor_l rest_l].
  - unfold b_cursor. rewrite skipn_length. lia.
  - cbn [fst snd] in H. rewrite app_length, skipn_length. lia.
Qed.
Lemma on_cursor s : onText s -> cursor s + Z.of_nat (length (rest s)) = Z.of_nat (length T) /\ cursor s <= Z.of_nat (cs_cur (sbase s)).
Proof. intros H. pose proof (on_len s H) as L. destruct H as (_ & <- & F). apply cursor_len_l; assumption. Qed.

Lemma hasNL_firstn n : hasNL (firstn n T) -> In 10 T.
Proof. unfold hasNL. intros H. rewrite <- (firstn_skipn n T). apply in_or_app. now left. Qed.
Lemma lookup_true s a : onText s -> (a < cs_cur (sbase s))%nat -> trueAt T a (positionLookup s (Z.of_nat a)).
Proof.
  intros (W & C & _) L H. unfold positionLookup. rewrite b_lookup_right; [now rewrite C|exact W|exact L|].
  rewrite C. destruct H as [H|[H|H]]; [now left|right; now left|]. right; right. intros X. apply H. exact (hasNL_firstn _ X).
Qed.
Lemma lookup_cursor s a : onText s -> (a < Z.to_nat (cursor s))%nat -> trueAt T a (positionLookup s (Z.of_nat a)).
Proof. intros H L. apply lookup_true; [exact H|]. pose proof (on_cursor s H). lia. Qed.

Lemma position_here s : onText s -> (length (rest s) <= length T)%nat -> rest s <> [] -> trueAt T (Z.to_nat (cursor s)) (fst (positionOf s)).
Proof.
  intros H LR NE. pose proof (on_len s H) as LC. destruct H as (W & C & F). destruct s as [ls b]. unfold positionOf, cursor. unfold rest in NE, LR. cbn [layers sbase] in *.
  assert (X : trueAt T (Z.to_nat (cursor_l ls b)) (fst (position_l ls b))).
  { induction F as [|[p k] ls H F IH]; cbn [position_l cursor_l rest_l] in *.
    - unfold b_cursor. rewrite Nat2Z.id. intros _. unfold wfs in W. cbn in W. rewrite (b_position_spec b W), C.
      destruct (Nat.ltb_spec (cs_cur b) (length T)) as [L|L]; [reflexivity|].
      rewrite C, skipn_all2 in NE by lia. congruence.
    - cbn [fst snd] in H. destruct (Nat.leb_spec (length p) k) as [L|L].
      + rewrite skipn_all2 in NE by lia. cbn [app] in NE. rewrite skipn_all2 in LR by lia. replace (_ - _ + _) with (cursor_l ls b) by lia. now apply IH.
      + cbn [fst]. assert (O : onText (mkStream ls b)) by (split; [exact W|]; split; [exact C|exact F]).
        pose proof (on_cursor _ O) as [_ K]. unfold cursor in K. cbn [layers sbase] in K.
        intros CO. pose proof (lookup_true (mkStream ls b) (Z.to_nat (cursor_l ls b - Z.of_nat (length p) + Z.of_nat k)) O) as LT.
        cbn [sbase] in LT. unfold positionLookup in LT. cbn [sbase] in LT.
        destruct (Z.ltb_spec (cursor_l ls b - Z.of_nat (length p) + Z.of_nat k) 0) as [N|N].
        * exfalso. assert (O2 : onText (mkStream ((p, k) :: ls) b)) by (split; [exact W|]; split; [exact C|]; now constructor).
          pose proof (on_cursor _ O2) as [K2 _]. unfold cursor, rest in K2. cbn [layers sbase cursor_l rest_l] in K2. lia.
        * rewrite Z2Nat.id in LT by lia. apply LT; [lia|exact CO]. }
  destruct (position_l ls b). exact X.
Qed.

(* ------------------------------------------------------------------ *)
(** ** Terminals *)

(** The stream stands at index [i] of the text. *)
Definition upTo (s : stream) (i : nat) : Prop := exists pre, T = pre ++ rest s /\ length pre = i.
Lemma upTo_len s i : upTo s i -> (length (rest s) <= length T)%nat /\ (i + length (rest s) = length T)%nat.
Proof. intros (pre & E & <-). pose proof (f_equal (@length Z) E) as X. rewrite app_length in X. lia. Qed.
Lemma upTo_cursor s i : onText s -> upTo s i -> cursor s = Z.of_nat i.
Proof. intros O U. pose proof (on_cursor s O). pose proof (upTo_len s i U). lia. Qed.
Lemma upTo_moves n s t i : moves n s t -> (n <= length (rest s))%nat -> upTo s i -> upTo t (i + n).
Proof.
  intros M L (pre & E & <-). exists (pre ++ firstn n (rest s)). rewrite (moves_rest _ _ _ M), <- app_assoc, firstn_skipn.
  split; [exact E|]. rewrite app_length, firstn_length. lia.
Qed.
Lemma whites_blank l sp post i : (exists pre, T = pre ++ l /\ length pre = i) -> l = sp ++ post -> Forall (fun c => isWS c = true) sp ->
  blankTo T i (i + length sp).
Proof.
  intros (pre & E & <-) -> W. split; [lia|]. rewrite E, skipn_app, Nat.sub_diag, skipn_all. cbn [app skipn].
  replace (length pre + length sp - length pre)%nat with (length sp) by lia. rewrite firstn_app, Nat.sub_diag, firstn_all, app_nil_r.
  eapply Forall_impl; [|exact W]. cbn. intros c. apply isWS_unicode.
Qed.
Lemma stands_at l sp cs post i : (exists pre, T = pre ++ l /\ length pre = i) -> l = sp ++ cs ++ post -> stands T (i + length sp) cs.
Proof.
  intros (pre & E & <-) ->. exists (pre ++ sp), post. rewrite E, <- app_assoc, app_length. auto.
Qed.

Definition placedRes (i : nat) (res : result) : Prop :=
  forall nd, r_node res = Some nd -> placed T i (i + (length (r_read res) - length (r_unused res))) nd.
Lemma placed_none i res : r_node res = None -> placedRes i res.
Proof. intros E nd H. congruence. Qed.

Lemma find_split x : forall l i, find_idx x l = Some i -> exists a b, l = a ++ x :: b /\ length a = i.
Proof.
  induction l as [|y l IH]; intros i; cbn [find_idx]; [discriminate|]. destruct (Z.eqb_spec y x) as [->|N].
  - intros [= <-]. exists [], l. auto.
  - destruct (find_idx x l) as [j|]; [|discriminate]. intros [= <-]. destruct (IH j eq_refl) as (a & b & -> & <-).
    exists (y :: a), b. auto.
Qed.

Lemma char_placed b t s f i : 0 <= t -> clean (rest s) -> onText s -> upTo s i ->
  onText (snd (evalChar b t s f)) /\ placedRes i (fst (evalChar b t s f)).
Proof.
  intros HT C O U. unfold evalChar. rewrite (peek_eof s C). destruct (rest s) as [|c0 l0] eqn:E0; [split; [exact O|now apply placed_none]|].
  rewrite <- E0 in *. set (s1 := snd (positionOf s)).
  assert (O1 : onText s1) by now apply on_pos. assert (R1 : rest s1 = rest s) by apply rest_pos.
  assert (U1 : upTo s1 i) by (unfold upTo; now rewrite R1).
  assert (TAIL : forall sp s2, onText s2 -> upTo s2 (i + length sp) -> rest s = sp ++ rest s2 -> Forall (fun c => isWS c = true) sp ->
    let x := if negb (peek s2 =? t) then failT (WChar b t) (AtPos (fst (positionOf s))) true sp s2
       else let '(pos, s') := positionOf s2 in
        let '(c, s'') := next s' in
        (mkRes (Some (mkNode TChar b [c] [] pos true)) None 0 (sp ++ [c]) [] true, s'') in
    onText (snd x) /\ placedRes i (fst x)).
  { intros sp s2 O2 U2 R2 W. assert (C2 : clean (rest s2)) by (rewrite R2 in C; now apply clean_app in C).
    rewrite (peek_head _ _ HT C2). destruct (headIs t (rest s2)) eqn:H; cbn [negb]; [|split; [exact O2|now apply placed_none]].
    assert (NE : rest s2 <> []) by (intros X; rewrite X in H; discriminate).
    pose proof (position_here s2 O2 (proj1 (upTo_len _ _ U2)) NE) as P. rewrite (upTo_cursor _ _ O2 U2), Nat2Z.id in P.
    pose proof (on_pos s2 O2) as O3. pose proof (rest_pos s2) as R3. destruct (positionOf s2) as [pos s3]; cbn [fst snd] in *.
    destruct (rest s2) as [|c l] eqn:E2; [congruence|]. cbn [headIs] in H. apply Z.eqb_eq in H as ->.
    destruct (moves_next s3 t l R3) as (u & Hn & Mu & _). rewrite Hn. cbn [fst snd].
    split; [pose proof (on_next s3 O3) as X; unfold next1 in X; now rewrite Hn in X|].
    intros nd [= <-]. cbn [fst r_read r_unused length]. rewrite app_length. cbn [length].
    replace (i + (length sp + 1 - 0))%nat with (S (i + length sp)) by lia. unfold mkNode.
    apply pl_char; [|apply (stands_at (rest s) sp [t] l); [exact U|exact R2]|exact P].
    now apply (whites_blank (rest s) sp (t :: l)). }
  destruct (f =? SUGGEST_SKIP).
  - destruct (skip_spec s1) as (s2 & Hs & M2). pose proof (wfs_skip s1 (proj1 O1)) as W2. rewrite Hs in *. cbn [snd] in W2. rewrite R1 in *.
    pose proof (ws_prefix_len (rest s)) as LP. pose proof (on_moves _ _ _ O1 M2 W2) as O2.
    pose proof (upTo_moves _ _ _ _ M2 ltac:(now rewrite R1) U1) as U2. pose proof (moves_rest _ _ _ M2) as R2. rewrite R1 in R2.
    assert (RS : rest s = ws_prefix (rest s) ++ rest s2) by (rewrite R2; apply ws_prefix_app).
    pose proof (ws_prefix_ws (rest s)) as WS.
    destruct (isWS t && nonempty (ws_prefix (rest s))).
    + destruct (find_idx t (ws_prefix (rest s))) as [k|] eqn:F; [|split; [exact O2|now apply placed_none]].
      split; [exact O2|]. destruct (find_split _ _ _ F) as (x & y & EX & LX). intros nd [= <-]. cbn [fst r_read r_unused].
      rewrite skipn_length. assert (LW : length (ws_prefix (rest s)) = (k + S (length y))%nat) by (rewrite EX, app_length; cbn; lia).
      replace (i + _)%nat with (S (i + k)) by lia. unfold mkNode. rewrite EX in WS. apply Forall_app in WS as [WX WY].
      rewrite EX, <- app_assoc in RS. subst k. apply pl_char.
      * now apply (whites_blank (rest s) x (t :: y ++ rest s2)).
      * now apply (stands_at (rest s) x [t] (y ++ rest s2)).
      * rewrite (upTo_cursor _ _ O2 U2). replace (Z.of_nat (i + length (ws_prefix (rest s))) - Z.of_nat (length (ws_prefix (rest s))) + Z.of_nat (length x))
          with (Z.of_nat (i + length x)) by lia. apply lookup_cursor; [exact O2|]. rewrite (upTo_cursor _ _ O2 U2). lia.
    + now apply TAIL.
  - apply (TAIL [] s1); auto. now rewrite Nat.add_0_r.
Qed.

Lemma on_match s w got ok s' : onText s -> clean (rest s) -> matchRunes s w = (got, ok, s') -> onText s' /\ moves (length got) s s' /\
  rest s = got ++ rest s' /\ (ok = true -> got = w).
Proof.
  intros O C E. destruct (match_spec w s C) as (u & Hm & Mu). pose proof (wfs_match s w (proj1 O)) as W. rewrite E in *.
  injection Hm as -> -> ->. cbn [snd] in W. split; [now apply (on_moves _ _ _ O Mu)|]. split; [exact Mu|].
  destruct (litmatch_prefix w (rest s)) as (r & Hr). split.
  - rewrite (moves_rest _ _ _ Mu). generalize (fst (litmatch w (rest s))) Hr. intros x ->. now rewrite skipn_app, Nat.sub_diag, skipn_all.
  - intros H. now apply litmatch_ok in H.
Qed.

Lemma tail_split sp lead : tail_is sp lead = true -> exists sp0, sp = sp0 ++ lead.
Proof.
  unfold tail_is. intros H. apply runes_eqb_eq in H. exists (firstn (length sp - length lead) sp). rewrite <- H at 2. symmetry. apply firstn_skipn.
Qed.

(** What a matched literal leaves: the text, the stream after it and where it begins. *)
Lemma lit_tail (txt sp lead : list Z) s s2 s' got i : onText s -> upTo s i -> clean (rest s) -> onText s2 -> upTo s2 (i + length sp) ->
  rest s = sp ++ rest s2 -> Forall (fun c => isWS c = true) sp -> tail_is sp lead = true -> lead = firstn (length lead) txt ->
  matchRunes s2 (skipn (length lead) txt) = (got, true, s') ->
  onText s' /\ upTo s' (i + length sp + length got) /\ (length lead <= length sp)%nat /\ (length txt = length lead + length got)%nat /\
  blankTo T i (i + (length sp - length lead)) /\ stands T (i + (length sp - length lead)) txt.
Proof.
  intros O U C O2 U2 R2 W TI LD EM. assert (C2 : clean (rest s2)) by (rewrite R2 in C; now apply clean_app in C).
  destruct (on_match s2 _ _ _ _ O2 C2 EM) as (O3 & M3 & R3 & G). specialize (G eq_refl).
  destruct (tail_split _ _ TI) as (sp0 & ->). rewrite app_length in *. apply Forall_app in W as [W0 _].
  assert (TX : txt = lead ++ got) by (rewrite G, LD at 1; symmetry; apply firstn_skipn).
  assert (RS : rest s = sp0 ++ txt ++ rest s') by (rewrite R2, R3, TX, <- !app_assoc; reflexivity).
  split; [exact O3|]. split.
  { apply (upTo_moves _ _ _ _ M3); [rewrite R3, app_length; lia|exact U2]. }
  split; [lia|]. split; [rewrite TX, app_length; lia|]. replace (length sp0 + length lead - length lead)%nat with (length sp0) by lia. split.
  - now apply (whites_blank (rest s) sp0 (txt ++ rest s')).
  - now apply (stands_at (rest s) sp0 txt (rest s')).
Qed.

Lemma ws_prefix_first t : ws_prefix t = firstn (length (ws_prefix t)) t.
Proof. apply ws_prefix_firstn. Qed.

Lemma skip_on s i : onText s -> upTo s i -> exists s2, skipSpaces s = (ws_prefix (rest s), s2) /\ onText s2 /\
  upTo s2 (i + length (ws_prefix (rest s))) /\ rest s = ws_prefix (rest s) ++ rest s2.
Proof.
  intros O U. destruct (skip_spec s) as (s2 & Hs & M2). pose proof (wfs_skip s (proj1 O)) as W2. rewrite Hs in *. cbn [snd] in W2.
  exists s2. split; [reflexivity|]. split; [exact (on_moves _ _ _ O M2 W2)|].
  split; [exact (upTo_moves _ _ _ _ M2 (ws_prefix_len _) U)|]. rewrite (moves_rest _ _ _ M2). apply ws_prefix_app.
Qed.

Lemma chars_placed b t s f i : clean (rest s) -> onText s -> upTo s i ->
  onText (snd (evalChars b t s f)) /\ placedRes i (fst (evalChars b t s f)).
Proof.
  intros C O U. unfold evalChars. rewrite (peek_eof s C). destruct (rest s) as [|c0 l0] eqn:E0; [split; [exact O|now apply placed_none]|].
  rewrite <- E0 in *. set (s1 := snd (positionOf s)).
  assert (O1 : onText s1) by now apply on_pos. assert (R1 : rest s1 = rest s) by apply rest_pos.
  assert (U1 : upTo s1 i) by (unfold upTo; now rewrite R1). rewrite (upTo_cursor _ _ O1 U1). cbv zeta.
  assert (TAIL : forall sp lead start s2, onText s2 -> upTo s2 (i + length sp) -> rest s = sp ++ rest s2 -> Forall (fun c => isWS c = true) sp ->
    tail_is sp lead = true -> lead = firstn (length lead) t -> (lead = [] \/ exists c l, t = c :: l /\ isWS c = true) -> start = Z.of_nat (i + length sp) ->
    let x := (let '(got, ok, s') := matchRunes s2 (skipn (length lead) t) in
      if ok then
        (mkRes (Some (mkNode TChars b t [] (positionLookup s' start) true)) None 0 (sp ++ got) [] true, s')
      else failT (WChars b t) (AtPos (fst (positionOf s))) true (sp ++ got) s') in
    onText (snd x) /\ placedRes i (fst x)).
  { intros sp lead start s2 O2 U2 R2 W TI LD LW ->. assert (C2 : clean (rest s2)) by (rewrite R2 in C; now apply clean_app in C).
    destruct (matchRunes s2 (skipn (length lead) t)) as [[got ok] s3] eqn:EM. destruct ok.
    2: { split; [|now apply placed_none]. now apply (on_match s2 _ _ _ _ O2 C2 EM). }
    destruct (lit_tail t sp lead s s2 s3 got i O U C O2 U2 R2 W TI LD EM) as (O3 & U3 & L1 & L2 & BL & ST).
    split; [exact O3|]. intros nd [= <-]. cbn [fst r_read r_unused length]. rewrite app_length.
    replace (i + (length sp + length got - 0))%nat with (i + (length sp - length lead) + length t)%nat by lia.
    apply pl_chars; [exact BL|exact ST|]. intros c l -> NW. destruct LW as [->|(c' & l' & [= <- <-] & X)]; [|apply isWS_unicode in X; contradiction].
    cbn [length] in *. rewrite Nat.sub_0_r. apply lookup_cursor; [exact O3|]. rewrite (upTo_cursor _ _ O3 U3). lia. }
  destruct (f =? SUGGEST_SKIP).
  - destruct (skip_on s1 i O1 U1) as (s2 & -> & O2 & U2 & R2). rewrite R1 in *. unfold leadingWS.
    destruct (length (ws_prefix (rest s)) <? length (ws_prefix t))%nat; [split; [exact O2|now apply placed_none]|].
    destruct (tail_is (ws_prefix (rest s)) (ws_prefix t)) eqn:TI; cbn [negb]; [|split; [exact O2|now apply placed_none]].
    apply (TAIL (ws_prefix (rest s)) (ws_prefix t)); auto; [apply ws_prefix_ws|apply ws_prefix_firstn| |lia].
    destruct t as [|c t']; [now left|]. cbn [ws_prefix]. destruct (isWS c) eqn:X; [right; eauto|now left].
  - change t with (skipn (length (@nil Z)) t) at 1. apply (TAIL [] []); auto; cbn [length]; try (now rewrite Nat.add_0_r).
Qed.

Lemma string_placed b t s f i : clean (rest s) -> onText s -> upTo s i ->
  onText (snd (evalString b t s f)) /\ placedRes i (fst (evalString b t s f)).
Proof.
  intros C O U. unfold evalString. rewrite (peek_eof s C). destruct (rest s) as [|c0 l0] eqn:E0; [split; [exact O|now apply placed_none]|].
  rewrite <- E0 in *. set (s1 := snd (positionOf s)).
  assert (O1 : onText s1) by now apply on_pos. assert (R1 : rest s1 = rest s) by apply rest_pos.
  assert (U1 : upTo s1 i) by (unfold upTo; now rewrite R1). cbv zeta.
  assert (TAIL : forall sp lead s2, onText s2 -> upTo s2 (i + length sp) -> rest s = sp ++ rest s2 -> Forall (fun c => isWS c = true) sp ->
    tail_is sp lead = true -> lead = firstn (length lead) t ->
    let x := (let '(got, ok, s') := matchRunes s2 (skipn (length lead) t) in
      if ok then
        (mkRes (Some (mkNode TString b t [] (positionLookup s' (cursor s' - Z.of_nat (length t))) false)) None 0 (sp ++ got) [] false, s')
      else failT (WString b t) (AtPos (fst (positionOf s))) false (sp ++ got) s') in
    onText (snd x) /\ placedRes i (fst x)).
  { intros sp lead s2 O2 U2 R2 W TI LD. assert (C2 : clean (rest s2)) by (rewrite R2 in C; now apply clean_app in C).
    destruct (matchRunes s2 (skipn (length lead) t)) as [[got ok] s3] eqn:EM. destruct ok.
    2: { split; [|now apply placed_none]. now apply (on_match s2 _ _ _ _ O2 C2 EM). }
    destruct (lit_tail t sp lead s s2 s3 got i O U C O2 U2 R2 W TI LD EM) as (O3 & U3 & L1 & L2 & BL & ST).
    split; [exact O3|]. intros nd [= <-]. cbn [fst r_read r_unused length]. rewrite app_length.
    replace (i + (length sp + length got - 0))%nat with (i + (length sp - length lead) + length t)%nat by lia.
    apply pl_string; [exact BL|exact ST|]. intros NE. rewrite (upTo_cursor _ _ O3 U3).
    replace (Z.of_nat (i + length sp + length got) - Z.of_nat (length t)) with (Z.of_nat (i + (length sp - length lead))) by lia.
    apply lookup_cursor; [exact O3|]. rewrite (upTo_cursor _ _ O3 U3). destruct t; [congruence|]. cbn [length] in *. lia. }
  destruct ((f =? SUGGEST_SKIP) || (f =? SUGGEST_NOT_SKIP)).
  - destruct (skip_on s1 i O1 U1) as (s2 & -> & O2 & U2 & R2). rewrite R1 in *. unfold leadingWS.
    destruct (length (ws_prefix (rest s)) <? length (ws_prefix t))%nat; [split; [exact O2|now apply placed_none]|].
    destruct (tail_is (ws_prefix (rest s)) (ws_prefix t)) eqn:TI; cbn [negb]; [|split; [exact O2|now apply placed_none]].
    apply (TAIL (ws_prefix (rest s)) (ws_prefix t)); auto; [apply ws_prefix_ws|apply ws_prefix_firstn].
  - change t with (skipn (length (@nil Z)) t) at 1. apply (TAIL [] []); auto; cbn [length]; try (now rewrite Nat.add_0_r).
Qed.

Lemma findp_split P : forall l i, find_idxp P l = Some i -> exists a b, l = a ++ nth i l 0 :: b /\ length a = i.
Proof.
  induction l as [|y l IH]; intros i; cbn [find_idxp]; [discriminate|]. destruct (P y).
  - intros [= <-]. exists [], l. auto.
  - destruct (find_idxp P l) as [j|]; [|discriminate]. intros [= <-]. destruct (IH j eq_refl) as (a & b & E & L).
    exists (y :: a), b. cbn [nth app length]. rewrite <- E. auto.
Qed.

Lemma before_true s i : onText s -> upTo s i ->
  match i with O => positionLookup s (cursor s - 1) = None | S k => trueAt T k (positionLookup s (cursor s - 1)) end.
Proof.
  intros O U. rewrite (upTo_cursor _ _ O U). destruct i as [|k]; [apply b_lookup_nil; left; lia|].
  replace (Z.of_nat (S k) - 1) with (Z.of_nat k) by lia. apply lookup_cursor; [exact O|]. rewrite (upTo_cursor _ _ O U). lia.
Qed.

Lemma range_placed b lo hi s f i : 0 <= lo -> clean (rest s) -> onText s -> upTo s i ->
  onText (snd (evalRange b lo hi s f)) /\ placedRes i (fst (evalRange b lo hi s f)).
Proof.
  intros HL C O U. unfold evalRange. rewrite (peek_eof s C). destruct (rest s) as [|c0 l0] eqn:E0; [split; [exact O|now apply placed_none]|].
  rewrite <- E0 in *. pose proof (before_true s i O U) as P. set (pos := positionLookup s (cursor s - 1)) in *. clearbody pos.
  assert (TAIL : forall sp s2, onText s2 -> upTo s2 (i + length sp) -> rest s = sp ++ rest s2 -> Forall (fun c => isWS c = true) sp ->
    let x := (let s1 := snd (positionOf s2) in
       let c := peek s1 in
       if (lo <=? c) && (c <=? hi) then
        let '(c', s2) := next s1 in
        (mkRes (Some (mkNode TChars b [c'] [] pos true)) None 0 (sp ++ [c']) [] true, s2)
      else failT (WRange b lo hi) (AtPos (fst (positionOf s2))) true sp s1) in
    onText (snd x) /\ placedRes i (fst x)).
  { intros sp s2 O2 U2 R2 W. pose proof (on_pos s2 O2) as O3. pose proof (rest_pos s2) as R3. destruct (positionOf s2) as [ps s3]; cbn [snd] in *.
    rewrite peek_rest, R3. destruct (rest s2) as [|c l] eqn:E2.
    - replace (lo <=? EOFChar) with false by (symmetry; apply Z.leb_gt; unfold EOFChar; lia). cbn [andb]. split; [exact O3|now apply placed_none].
    - destruct ((lo <=? c) && (c <=? hi)); [|split; [exact O3|now apply placed_none]].
      destruct (moves_next s3 c l R3) as (u & Hn & Mu & _). rewrite Hn. cbn [fst snd].
      split; [pose proof (on_next s3 O3) as X; unfold next1 in X; now rewrite Hn in X|].
      intros nd [= <-]. cbn [fst r_read r_unused length]. rewrite app_length. cbn [length].
      replace (i + (length sp + 1 - 0))%nat with (S (i + length sp)) by lia.
      apply pl_range; [|apply (stands_at (rest s) sp [c] l); [exact U|exact R2]|exact P].
      now apply (whites_blank (rest s) sp (c :: l)). }
  destruct (f =? SUGGEST_SKIP).
  - destruct (skip_on s i O U) as (s2 & -> & O2 & U2 & R2). pose proof (ws_prefix_ws (rest s)) as WS.
    destruct (find_idxp _ (ws_prefix (rest s))) as [k|] eqn:F; [|now apply TAIL].
    split; [exact O2|]. destruct (findp_split _ _ _ F) as (x & y & EX & LX). intros nd [= <-]. cbn [fst r_read r_unused].
    rewrite skipn_length. assert (LW : length (ws_prefix (rest s)) = (k + S (length y))%nat) by (rewrite EX, app_length; cbn; lia).
    replace (i + _)%nat with (S (i + k)) by lia. set (c := nth k (ws_prefix (rest s)) 0) in *. rewrite EX in WS. apply Forall_app in WS as [WX WY].
    assert (RS : rest s = x ++ [c] ++ y ++ rest s2) by (rewrite R2 at 1; rewrite EX, <- app_assoc; reflexivity).
    subst k. apply pl_range; [|now apply (stands_at (rest s) x [c] (y ++ rest s2))|exact P].
    now apply (whites_blank (rest s) x ([c] ++ y ++ rest s2)).
  - apply (TAIL [] s); auto. now rewrite Nat.add_0_r.
Qed.

(** At the end of the text there is no position. *)
Lemma position_end s1 : onText s1 -> rest s1 = [] -> fst (positionOf s1) = None.
Proof.
  intros O1 E1. pose proof (on_len s1 O1) as L. destruct O1 as (W1 & C0 & F). destruct s1 as [ls bb]. unfold positionOf, rest in *. cbn [layers sbase] in *.
  assert (X : fst (position_l ls bb) = None).
  { induction F as [|[p k] ls H F IH]; cbn [position_l rest_l] in *.
    - rewrite (b_position_spec bb W1). destruct (Nat.ltb_spec (cs_cur bb) (length (cs_chars bb))) as [X|X]; [|reflexivity].
      pose proof (f_equal (@length Z) E1) as Y. rewrite skipn_length in Y. cbn in Y. lia.
    - apply app_eq_nil in E1 as [E1 E2]. pose proof (f_equal (@length Z) E1) as Y. rewrite skipn_length in Y. cbn in Y.
      destruct (Nat.leb_spec (length p) k); [now apply IH|lia]. }
  destruct (position_l ls bb). exact X.
Qed.

Lemma eof_placed b s f i : clean (rest s) -> onText s -> upTo s i ->
  onText (snd (evalEOF b s f)) /\ placedRes i (fst (evalEOF b s f)).
Proof.
  intros C O U. unfold evalEOF.
  assert (X : exists sp s1, (if f =? 1 then skipSpaces s else ([], s)) = (sp, s1) /\ onText s1 /\ upTo s1 (i + length sp) /\ rest s = sp ++ rest s1 /\
    Forall (fun c => isWS c = true) sp).
  { destruct (f =? 1).
    - destruct (skip_on s i O U) as (s2 & -> & O2 & U2 & R2). do 2 eexists. split; [reflexivity|]. auto using ws_prefix_ws.
    - exists [], s. rewrite Nat.add_0_r. auto. }
  destruct X as (sp & s1 & -> & O1 & U1 & R1 & W). assert (C1 : clean (rest s1)) by (rewrite R1 in C; now apply clean_app in C).
  rewrite (peek_eof _ C1). destruct (rest s1) as [|c l] eqn:E1; [|split; [exact O1|now apply placed_none]].
  pose proof (position_end s1 O1 E1) as P.
  pose proof (on_pos s1 O1) as O2. destruct (positionOf s1) as [pos s2]. cbn [fst snd] in *. subst pos. split; [exact O2|].
  intros nd [= <-]. cbn [fst r_read r_unused length]. rewrite Nat.sub_0_r.
  pose proof (upTo_len _ _ U1) as [_ L]. rewrite E1 in L. cbn [length] in L. rewrite Nat.add_0_r in L. rewrite L. apply pl_eof. rewrite <- L.
  now apply (whites_blank (rest s) sp []).
Qed.

(* ------------------------------------------------------------------ *)
(** ** What the terminals say is missing *)

Definition missT (w : wanted) (p : place) (x : result * stream) : Prop :=
  r_node (fst x) = None -> r_err (fst x) = Some (EMissing w p) /\ r_erridx (fst x) = cursor (snd x).

Ltac missIt := intros; unfold missT, failT; cbv zeta; repeat match goal with
  | |- context [if ?c then _ else _] => destruct c
  | |- context [match ?c with _ => _ end] => destruct c
  end; cbn [fst snd r_node r_err r_erridx]; first [discriminate|auto].
Lemma char_miss b t s f : (peek s =? EOFChar) = false -> missT (WChar b t) (AtPos (fst (positionOf s))) (evalChar b t s f).
Proof. intros E. unfold evalChar. rewrite E. missIt. Qed.
Lemma chars_miss b t s f : (peek s =? EOFChar) = false -> missT (WChars b t) (AtPos (fst (positionOf s))) (evalChars b t s f).
Proof. intros E. unfold evalChars. rewrite E. missIt. Qed.
Lemma string_miss b t s f : (peek s =? EOFChar) = false -> missT (WString b t) (AtPos (fst (positionOf s))) (evalString b t s f).
Proof. intros E. unfold evalString. rewrite E. missIt. Qed.
Lemma char_miss_eof b t s f : (peek s =? EOFChar) = true -> missT (WChar b t) AtEOF (evalChar b t s f).
Proof. intros E. unfold evalChar. rewrite E. missIt. Qed.
Lemma chars_miss_eof b t s f : (peek s =? EOFChar) = true -> missT (WChars b t) AtEOF (evalChars b t s f).
Proof. intros E. unfold evalChars. rewrite E. missIt. Qed.
Lemma string_miss_eof b t s f : (peek s =? EOFChar) = true -> missT (WString b t) AtEOF (evalString b t s f).
Proof. intros E. unfold evalString. rewrite E. missIt. Qed.
Lemma range_miss_eof b lo hi s f : (peek s =? EOFChar) = true -> missT (WRange b lo hi) AtEOF (evalRange b lo hi s f).
Proof. intros E. unfold evalRange. rewrite E. missIt. Qed.

Definition faultAt (i m : nat) (e : eerr) (k : Z) : Prop := located T i (i + m) e /\ (k = 0 \/ Z.of_nat i <= k <= Z.of_nat (i + m)).
Definition faultRes (i : nat) (res : result) : Prop :=
  r_node res = None -> exists e, r_err res = Some e /\ faultAt i (length (r_read res)) e (r_erridx res).

(** A terminal that tried at [s], index [i]. *)
Lemma fault_here w s s' i res : onText s -> onText s' -> upTo s i -> moves (length (r_read res)) s s' -> (length (r_read res) <= length (rest s))%nat ->
  (rest s = [] -> r_node res = None -> r_err res = Some (EMissing w AtEOF) /\ r_erridx res = cursor s') ->
  (rest s <> [] -> r_node res = None -> r_err res = Some (EMissing w (AtPos (fst (positionOf s)))) /\ r_erridx res = cursor s') ->
  (r_node res = None -> refuses T i w) -> faultRes i res.
Proof.
  intros O O' U M L HE HN HR N. pose proof (upTo_len _ _ U) as [_ LT].
  pose proof (upTo_cursor _ _ O' (upTo_moves _ _ _ _ M L U)) as EC.
  assert (D : rest s = [] \/ rest s <> []) by (destruct (rest s); [now left|now right]). destruct D as [E|NE].
  - destruct (HE E N) as [-> ->]. eexists. split; [reflexivity|]. rewrite EC. split; [|right; lia]. rewrite E in *. cbn [length] in *.
    constructor. lia.
  - destruct (HN NE N) as [-> ->]. eexists. split; [reflexivity|]. rewrite EC. split; [|right; lia].
    assert (LR : (0 < length (rest s))%nat) by (destruct (rest s); [congruence|cbn; lia]).
    apply lo_at with (j := i); [lia|now apply HR| |lia].
    intros _. pose proof (position_here s O (proj1 (upTo_len _ _ U)) NE) as P. now rewrite (upTo_cursor _ _ O U), Nat2Z.id in P.
Qed.

Lemma stands_rest s i cs : upTo s i -> stands T i cs -> exists post, rest s = cs ++ post.
Proof.
  intros (pre & E & L) (pre2 & post & E2 & L2). exists post. rewrite E in E2.
  assert (X : pre = pre2 /\ rest s = cs ++ post); [|apply X]. clear E. subst i. revert pre2 E2 L2.
  induction pre as [|x pre IH]; intros [|y pre2] E2 L2; cbn in *; try discriminate; [auto|]. injection E2 as -> E2. destruct (IH pre2 E2 ltac:(lia)) as [-> ->]. auto.
Qed.

Lemma peek_false s : clean (rest s) -> rest s <> [] -> (peek s =? EOFChar) = false.
Proof. intros C N. rewrite (peek_eof s C). destruct (rest s); congruence. Qed.
Lemma peek_true s : clean (rest s) -> rest s = [] -> (peek s =? EOFChar) = true.
Proof. intros C N. rewrite (peek_eof s C). now rewrite N. Qed.

Lemma char_fault b t s f i : 0 <= t -> clean (rest s) -> onText s -> upTo s i ->
  forall res s', evalChar b t s f = (res, s') -> onText s' -> moves (length (r_read res)) s s' -> (length (r_read res) <= length (rest s))%nat -> faultRes i res.
Proof.
  intros HT C O U res s' EV O' M L. apply (fault_here (WChar b t) s s' i res O O' U M L).
  - intros E. pose proof (char_miss_eof b t s f (peek_true s C E)) as X. now rewrite EV in X.
  - intros E. pose proof (char_miss b t s f (peek_false s C E)) as X. now rewrite EV in X.
  - intros N ST. destruct (stands_rest s i _ U ST) as (post & E). destruct (evalChar_pure b t s f HT C) as (s1 & pos & idx & EP & _).
    destruct (tchar_complete t f (rest s) [] post) as (un & X).
    { rewrite E. split; [reflexivity|]. split; [constructor|]. split; [easy|auto]. }
    rewrite EV, X in EP. injection EP as -> _. discriminate.
Qed.
Lemma lit_refuses k t s i (x : tres) : upTo s i -> tlit k t (rest s) = x -> fst (fst x) = None -> ~ white t -> ~ stands T i t.
Proof.
  intros U <- N NW ST. destruct (stands_rest s i _ U ST) as (post & E).
  assert (NE : rest s <> []) by (rewrite E; destruct t; [exfalso; apply NW; constructor|discriminate]).
  rewrite (tlit_complete k t (rest s) [] post NE) in N; [discriminate|]. rewrite E. split; [reflexivity|]. split; [constructor|]. split; [auto|]. intros _ W. contradiction.
Qed.
Lemma toRes_none ty b st x pos idx : r_node (toRes ty b st x pos idx) = None -> fst (fst x) = None.
Proof. destruct x as [[[cs|] rd] un]; cbn; [discriminate|auto]. Qed.
Lemma chars_fault b t s f i : clean (rest s) -> onText s -> upTo s i ->
  forall res s', evalChars b t s f = (res, s') -> onText s' -> moves (length (r_read res)) s s' -> (length (r_read res) <= length (rest s))%nat -> faultRes i res.
Proof.
  intros C O U res s' EV O' M L. apply (fault_here (WChars b t) s s' i res O O' U M L).
  - intros E. pose proof (chars_miss_eof b t s f (peek_true s C E)) as X. now rewrite EV in X.
  - intros E. pose proof (chars_miss b t s f (peek_false s C E)) as X. now rewrite EV in X.
  - intros N NW. destruct (evalChars_pure b t s f C) as (s1 & pos & idx & EP & _). rewrite EV in EP. injection EP as -> _.
    apply toRes_none in N. eapply lit_refuses; eauto.
Qed.
Lemma string_fault b t s f i : clean (rest s) -> onText s -> upTo s i ->
  forall res s', evalString b t s f = (res, s') -> onText s' -> moves (length (r_read res)) s s' -> (length (r_read res) <= length (rest s))%nat -> faultRes i res.
Proof.
  intros C O U res s' EV O' M L. apply (fault_here (WString b t) s s' i res O O' U M L).
  - intros E. pose proof (string_miss_eof b t s f (peek_true s C E)) as X. now rewrite EV in X.
  - intros E. pose proof (string_miss b t s f (peek_false s C E)) as X. now rewrite EV in X.
  - intros N NW. destruct (evalString_pure b t s f C) as (s1 & pos & idx & EP & _). rewrite EV in EP. injection EP as -> _.
    apply toRes_none in N. eapply lit_refuses; eauto.
Qed.
Lemma range_fault b lo hi s f i : 0 <= lo -> clean (rest s) -> onText s -> upTo s i -> faultRes i (fst (evalRange b lo hi s f)).
Proof.
  intros HL C O U. unfold evalRange. rewrite (peek_eof s C). destruct (rest s) as [|c0 l0] eqn:E0.
  { intros _. eexists. split; [reflexivity|]. cbn [fst failT r_read length r_erridx]. rewrite (upTo_cursor _ _ O U). split; [|right; lia].
    pose proof (upTo_len _ _ U) as [_ LT]. rewrite E0 in LT. cbn [length] in LT. constructor. lia. }
  rewrite <- E0 in *. set (pos := positionLookup s (cursor s - 1)) in *. clearbody pos.
  assert (TAIL : forall sp s2, onText s2 -> upTo s2 (i + length sp) ->
    faultRes i (fst (let s1 := snd (positionOf s2) in
       let c := peek s1 in
       if (lo <=? c) && (c <=? hi) then
        let '(c', s2) := next s1 in
        (mkRes (Some (mkNode TChars b [c'] [] pos true)) None 0 (sp ++ [c']) [] true, s2)
      else failT (WRange b lo hi) (AtPos (fst (positionOf s2))) true sp s1))).
  { intros sp s2 O2 U2. pose proof (position_here s2 O2 (proj1 (upTo_len _ _ U2))) as P. pose proof (position_end s2 O2) as PE.
    pose proof (on_pos s2 O2) as O3. pose proof (rest_pos s2) as R3. destruct (positionOf s2) as [ps s3]; cbn [fst snd] in *.
    rewrite peek_rest, R3. rewrite (upTo_cursor _ _ O2 U2), Nat2Z.id in P. pose proof (upTo_len _ _ U2) as [_ LT].
    assert (U3 : upTo s3 (i + length sp)) by (unfold upTo; now rewrite R3).
    destruct ((lo <=? _) && (_ <=? hi)) eqn:IN.
    { destruct (next s3). intros N. discriminate. }
    intros _. eexists. split; [reflexivity|]. cbn [fst failT r_read r_erridx]. rewrite (upTo_cursor _ _ O3 U3). split; [|right; lia].
    apply lo_at with (j := (i + length sp)%nat); [lia| | |].
    - cbn [refuses]. intros c HC ST. destruct (stands_rest s2 _ _ U2 ST) as (post & E2). rewrite E2 in IN. cbn [app] in IN. lia.
    - intros LJ. apply P. intros E2. rewrite E2 in LT. cbn in LT. lia.
    - intros LJ. apply PE. destruct (rest s2); [reflexivity|cbn in LT; lia]. }
  destruct (f =? SUGGEST_SKIP).
  - destruct (skip_on s i O U) as (s2 & -> & O2 & U2 & R2).
    destruct (find_idxp _ (ws_prefix (rest s))) as [k|] eqn:F; [intros N; discriminate|now apply TAIL].
  - apply (TAIL [] s); auto. now rewrite Nat.add_0_r.
Qed.
Lemma eof_fault b s f i : clean (rest s) -> onText s -> upTo s i -> faultRes i (fst (evalEOF b s f)).
Proof.
  intros C O U. unfold evalEOF.
  assert (X : exists sp s1, (if f =? 1 then skipSpaces s else ([], s)) = (sp, s1) /\ onText s1 /\ upTo s1 (i + length sp) /\ clean (rest s1)).
  { destruct (f =? 1).
    - destruct (skip_on s i O U) as (s2 & -> & O2 & U2 & R2). do 2 eexists. split; [reflexivity|]. split; [exact O2|]. split; [exact U2|]. rewrite R2 in C. now apply clean_app in C.
    - exists [], s. rewrite Nat.add_0_r. auto. }
  destruct X as (sp & s1 & -> & O1 & U1 & C1).
  rewrite (peek_eof _ C1). destruct (rest s1) as [|c l] eqn:E1; [destruct (positionOf s1); intros N; discriminate|].
  intros _. eexists. split; [reflexivity|]. cbn [fst failT r_read r_erridx]. rewrite (upTo_cursor _ _ O1 U1). split; [|right; lia].
  pose proof (upTo_len _ _ U1) as [_ LT]. rewrite E1 in LT. cbn [length] in LT. apply lo_more with (j := (i + length sp)%nat); cbn; lia.
Qed.

(* ------------------------------------------------------------------ *)
(** ** Evaluations *)

(** The error of a result that read [m] runes of [t]. *)
Definition faultText (t : list Z) (m : nat) (e : eerr) (k : Z) : Prop :=
  (m <= length t)%nat -> forall i, (exists pre, T = pre ++ t /\ length pre = i) -> faultAt i m e k.
Lemma located_wide a b a' b' e : (a' <= a)%nat -> (b <= b' <= length T)%nat -> located T a b e -> located T a' b' e.
Proof.
  intros LA LB H. induction H; try (constructor; first [assumption|lia]).
  - eapply lo_at; eauto. lia.
  - eapply lo_more; eauto. lia.
  - apply lo_excluded with (j := j); [lia|lia|assumption].
Qed.
Lemma upTo_skip s t m i : (exists pre, T = pre ++ t /\ length pre = i) -> rest s = skipn m t -> (m <= length t)%nat -> upTo s (i + m).
Proof.
  intros (pre & E & <-) R L. exists (pre ++ firstn m t). rewrite R, <- app_assoc, firstn_skipn. split; [exact E|]. rewrite app_length, firstn_length. lia.
Qed.

Definition coversText (t : list Z) (u : nat) (nd : node) : Prop :=
  (u <= length t)%nat /\ forall i, (exists pre, T = pre ++ t /\ length pre = i) -> placed T i (i + u) nd.

Lemma covers_len t u nd : coversText t u nd -> (u <= length t)%nat. Proof. now intros []. Qed.

Lemma placedAll_app i j k a b : placedAll T i j a -> placedAll T j k b -> placedAll T i k (a ++ b).
Proof. induction 1 as [|i j m n l P A IH]; intros H; cbn [app]; [exact H|]. econstructor; [exact P|auto]. Qed.

Lemma chain_placed t p kids : chain coversText t p kids -> (p <= length t)%nat /\
  forall i, (exists pre, T = pre ++ t /\ length pre = i) -> placedAll T i (i + p) (rev kids).
Proof.
  induction 1 as [|p kids u n CH [L IH] LP [LU K]].
  - split; [lia|]. intros i _. rewrite Nat.add_0_r. constructor.
  - split; [lia|]. intros i U. cbn [rev]. eapply placedAll_app; [now apply IH|]. destruct U as (pre & E & <-).
    rewrite Nat.add_assoc. econstructor; [|constructor]. apply K. exists (pre ++ firstn p t). rewrite <- app_assoc, firstn_skipn.
    split; [exact E|]. rewrite app_length, firstn_length. lia.
Qed.

(** Every operation keeps the line table right. *)
Lemma wfs_next' s c s' : next s = (c, s') -> wfs s -> wfs s'.
Proof. intros E W. pose proof (wfs_next s W) as X. unfold next1 in X. now rewrite E in X. Qed.
Lemma wfs_pos' s p s' : positionOf s = (p, s') -> wfs s -> wfs s'.
Proof. intros E W. pose proof (wfs_position s W) as X. now rewrite E in X. Qed.
Lemma wfs_skip' s p s' : skipSpaces s = (p, s') -> wfs s -> wfs s'.
Proof. intros E W. pose proof (wfs_skip s W) as X. now rewrite E in X. Qed.
Lemma wfs_match' s w g ok s' : matchRunes s w = (g, ok, s') -> wfs s -> wfs s'.
Proof. intros E W. pose proof (wfs_match s w W) as X. now rewrite E in X. Qed.

Ltac stepWfs :=
  repeat match goal with
  | |- context [match positionOf ?s with _ => _ end] => let E := fresh in destruct (positionOf s) eqn:E; apply wfs_pos' in E; [|first [assumption|apply wfs_position; assumption]]
  | |- context [match next ?s with _ => _ end] => let E := fresh in destruct (next s) eqn:E; apply wfs_next' in E; [|first [assumption|apply wfs_position; assumption]]
  | |- context [match skipSpaces ?s with _ => _ end] => let E := fresh in destruct (skipSpaces s) eqn:E; apply wfs_skip' in E; [|first [assumption|apply wfs_position; assumption]]
  | |- context [match matchRunes ?s ?w with _ => _ end] => let E := fresh in destruct (matchRunes s w) as [[? ?] ?] eqn:E; apply wfs_match' in E; [|first [assumption|apply wfs_position; assumption]]
  | |- context [if ?b then _ else _] => destruct b
  | |- context [match find_idx ?a ?b with _ => _ end] => destruct (find_idx a b)
  | |- context [match find_idxp ?a ?b with _ => _ end] => destruct (find_idxp a b)
  end.
Lemma term_wfs r : terminal r -> forall g rec fuel s f res s', wfs s -> evalStep g rec fuel r s f = Ok (res, s') -> wfs s'.
Proof.
  intros HT g rec fuel s f res s' W E.
  assert (X : forall x : result * stream, Ok x = Ok (res, s') -> wfs (snd x) -> wfs s') by (intros x [= ->]; auto).
  pose proof (wfs_position s W) as W1.
  destruct r; try contradiction; cbn [evalStep] in E; apply (X _ E); clear E X.
  - unfold evalChar, failT. stepWfs; assumption.
  - unfold evalChars, failT. stepWfs; assumption.
  - unfold evalString, failT. stepWfs; assumption.
  - unfold evalRange, failT. cbv zeta. stepWfs; cbn [snd]; try assumption; try (apply wfs_position; assumption).
  - unfold evalEOF, failT. destruct (f =? 1); stepWfs; assumption.
Qed.
Lemma term_moves r : terminal r -> wfRule r -> forall g rec fuel s f res s', clean (rest s) -> evalStep g rec fuel r s f = Ok (res, s') ->
  (length (r_read res) <= length (rest s))%nat /\ moves (length (r_read res)) s s' /\ (length (r_unused res) <= length (r_read res))%nat.
Proof.
  intros HT W g rec fuel s f res s' C E.
  assert (X : forall ty b st x pos idx s1, tshape (rest s) x -> moves (length (readOf x)) s s1 -> Ok (toRes ty b st x pos idx, s1) = Ok (res, s') ->
    (length (r_read res) <= length (rest s))%nat /\ moves (length (r_read res)) s s' /\ (length (r_unused res) <= length (r_read res))%nat).
  { intros ty b st [[[cs|] rd] un] pos idx s1 ((p & Hp) & (u & Hu) & Hf) M [= <- <-]; cbn [toRes readOf unusedOf fst snd r_read r_unused] in *;
      (split; [rewrite Hp, app_length; lia|]; split; [exact M|]; rewrite Hu, app_length; lia). }
  destruct r; try contradiction; cbn [evalStep] in E; inversion W; subst.
  - destruct (evalChar_pure b txt s f) as (s1 & pos & idx & EV & M); auto. rewrite EV in E. apply (X _ _ _ _ _ _ _ (tchar_shape _ _ _) M E).
  - destruct (evalChars_pure b txt s f) as (s1 & pos & idx & EV & M); auto. rewrite EV in E. apply (X _ _ _ _ _ _ _ (tlit_shape _ _ _) M E).
  - destruct (evalString_pure b txt s f) as (s1 & pos & idx & EV & M); auto. rewrite EV in E. apply (X _ _ _ _ _ _ _ (tlit_shape _ _ _) M E).
  - destruct (evalRange_pure b lo hi s f) as (s1 & pos & idx & EV & M); auto. rewrite EV in E. apply (X _ _ _ _ _ _ _ (trange_shape _ _ _ _) M E).
  - destruct (evalEOF_pure b s f) as (s1 & pos & idx & EV & M); auto. rewrite EV in E. apply (X _ _ _ _ _ _ _ (teof_shape _ _) M E).
Qed.

(** [onText] only matters where the remaining text is an end of [T]. *)
Lemma text_keeps : keeps onText coversText faultText.
Proof.
  constructor.
  - intros s l H. now apply on_prepend.
  - intros n s H. now apply on_unwrap.
  - intros s H. now apply on_pos.
  - intros s H. now apply on_next.
  - intros r HT W g rec fuel s f res s' C O EV.
    destruct (term_moves r HT W _ _ _ _ _ _ _ C EV) as (L & M & LU).
    split; [exact (on_moves _ _ _ O M (term_wfs r HT _ _ _ _ _ _ _ (proj1 O) EV))|].
    assert (EU : Z.to_nat (countUsed res) = (length (r_read res) - length (r_unused res))%nat) by (unfold countUsed; lia).
    split.
    2: { intros N. assert (UX : forall i, upTo s i -> faultRes i res).
      { intros i U. pose proof (on_moves _ _ _ O M (term_wfs r HT _ _ _ _ _ _ _ (proj1 O) EV)) as O'.
        destruct r; try contradiction; cbn [evalStep] in EV; inversion W; subst; injection EV as EV.
        - eapply char_fault; eauto.
        - eapply chars_fault; eauto.
        - eapply string_fault; eauto.
        - pose proof (range_fault b lo hi s f i ltac:(assumption) C O U) as H'. now rewrite EV in H'.
        - pose proof (eof_fault b s f i C O U) as H'. now rewrite EV in H'. }
      pose proof (term_err r HT _ _ _ _ _ _ _ EV N) as EE. eexists. split; [exact EE|]. intros LM i U. destruct (UX i U N) as (e & E2 & X). rewrite E2. exact X. }
    intros nd EN. rewrite EU. split; [lia|]. intros i U.
    assert (P : placedRes i res); [|exact (P nd EN)].
    destruct r; try contradiction; cbn [evalStep] in EV; inversion W; subst; injection EV as EV.
    + pose proof (char_placed b txt s f i ltac:(assumption) C O U) as H'. now rewrite EV in H'.
    + pose proof (chars_placed b txt s f i C O U) as H'. now rewrite EV in H'.
    + pose proof (string_placed b txt s f i C O U) as H'. now rewrite EV in H'.
    + pose proof (range_placed b lo hi s f i ltac:(assumption) C O U) as H'. now rewrite EV in H'.
    + pose proof (eof_placed b s f i C O U) as H'. now rewrite EV in H'.
  - intros ty b t p kids pos st HC CH. apply chain_placed in CH as [L H]. split; [exact L|]. intros i U. apply pl_inner; [|now apply H].
    destruct ty; try contradiction; exact I.
  - intros b t u nd [L H]. split; [exact L|]. intros i U. specialize (H i U). unfold toggle.
    inversion H; subst; cbn [n_type n_name n_chars n_kids n_pos n_sticky n_virtual n_nondata n_tokenized].
    all: try (match goal with E : _ = (_ + _)%nat |- _ => rewrite <- E end; now constructor).
    all: try (now constructor).
    econstructor; eassumption.
  - intros b t u p on s kids q pos st [LU H] O R LP LQ HK. split; [lia|]. intros i U.
    assert (US : upTo s (i + u)).
    { destruct U as (pre & E & <-). exists (pre ++ firstn u t). rewrite R, <- app_assoc, firstn_skipn. split; [exact E|].
      rewrite app_length, firstn_length. lia. }
    assert (LC : length (firstn (p - u) (skipn u t)) = (p - u)%nat) by (rewrite firstn_length, skipn_length; lia).
    apply pl_block with (u := (i + u)%nat).
    + now apply H.
    + destruct US as (pre & E & L). exists pre, (skipn (p - u) (skipn u t)). rewrite firstn_skipn, <- R. auto.
    + intros NE. pose proof (position_here s O (proj1 (upTo_len _ _ US))) as P. rewrite (upTo_cursor _ _ O US), Nat2Z.id in P. apply P.
      rewrite R. intros X. rewrite X, firstn_nil in NE. congruence.
    + destruct HK as [[-> ->]|(nc & -> & _)]; cbn; lia.
    + rewrite LC. replace (i + u + (p - u))%nat with (i + p)%nat by lia. destruct HK as [[-> ->]|(nc & -> & LN & HN)].
      * rewrite Nat.add_0_r. constructor.
      * rewrite Nat.add_assoc. econstructor; [|constructor]. apply HN. destruct U as (pre & E & <-). exists (pre ++ firstn p t).
        rewrite <- app_assoc, firstn_skipn. split; [exact E|]. rewrite app_length, firstn_length. lia.
  - intros t p k m e i H L LM j (pre & E & <-). destruct (H ltac:(rewrite skipn_length; lia) (length pre + p)%nat) as [H1 H2].
    { exists (pre ++ firstn p t). rewrite <- app_assoc, firstn_skipn. split; [exact E|]. rewrite app_length, firstn_length. lia. }
    assert (LT : length T = (length pre + length t)%nat) by (rewrite E; apply app_length).
    split; [eapply located_wide; [| |exact H1]; lia|]. destruct H2; [now left|right; lia].
  - intros t m e k s H O R LM _ j U. destruct (H LM j U) as [H1 _]. split; [exact H1|]. right. rewrite (upTo_cursor _ _ O (upTo_skip _ _ _ _ U R LM)). lia.
  - intros t m self e k H L j U. destruct (H L j U) as [H1 H2]. split; [now constructor|exact H2].
  - intros t m self e k H L j U. destruct (H L j U) as [H1 H2]. split; [now constructor|exact H2].
  - intros t m self L j U. split; [constructor|now left].
  - intros t m nm ns L j U. split; [constructor|now left].
  - intros t b n L j U. split; [constructor|now left].
  - intros t m self n s O R LM _ j U. split; [constructor|]. right. rewrite (upTo_cursor _ _ O (upTo_skip _ _ _ _ U R LM)). lia.
  - intros t p u m s O R LM _ j U. assert (LU : length (firstn u (skipn p t)) = u) by (rewrite firstn_length, skipn_length; lia).
    split; [|right; rewrite (upTo_cursor _ _ O (upTo_skip _ _ _ _ U R ltac:(lia))); lia].
    apply lo_excluded with (j := (j + p)%nat); [lia|rewrite LU; lia|]. destruct U as (pre & E & <-).
    exists (pre ++ firstn p t), (skipn u (skipn p t)). rewrite firstn_skipn, <- app_assoc, firstn_skipn. split; [exact E|]. rewrite app_length, firstn_length. lia.
  - intros t c s O R _ j U. assert (X : upTo s (j + length t)) by (apply (upTo_skip s t); [exact U|now rewrite skipn_all|lia]).
    split; [|right; rewrite (upTo_cursor _ _ O X); lia]. constructor. destruct U as (pre & E & <-). rewrite E. now rewrite app_length.
Qed.
End Place.

(** C54. *)
Theorem eval_placed T cs g fuel r f res s' : runesOk T -> wfRules g -> wfRule r ->
  let s := snd (run cs (newStream T)) in
  eval fuel g r s f = Ok (res, s') -> sem fuel g r f (rest s) <> SUnsafe ->
  forall nd, r_node res = Some nd ->
  placed T (Z.to_nat (cursor s)) (Z.to_nat (cursor s) + (length (r_read res) - length (r_unused res))) nd.
Proof.
  intros RT HG W s EV SU nd EN. destruct (run_shape T cs RT) as (L & CT & K & WF). fold s in L, CT, K, WF.
  destruct (stream_delivery T cs RT) as (_ & R & RG). fold s in R, RG.
  assert (O : onText T s) by (split; [exact WF|]; split; [exact CT|]; rewrite L; constructor).
  pose proof (sem_lockK _ _ _ g fuel (text_keeps T) HG r f s (rest s) W ltac:(rewrite R; now apply clean_skipn) eq_refl O) as LK.
  unfold lockK in LK. destruct (sem fuel g r f (rest s)) as [y| |]; [|tauto|congruence].
  destruct LK as (res0 & s0 & E0 & SA & M & O' & CV). rewrite EV in E0. injection E0 as <- <-.
  destruct (proj1 CV nd EN) as [LU P].
  assert (EU : Z.to_nat (countUsed res) = (length (r_read res) - length (r_unused res))%nat) by (unfold countUsed; lia).
  rewrite EU in P. apply P. exists (firstn (Z.to_nat (cursor s)) T). rewrite R, firstn_skipn, firstn_length. split; [reflexivity|]. lia.
Qed.

(** C65. *)
Theorem eval_located T cs g fuel r f res s' : runesOk T -> wfRules g -> wfRule r ->
  let s := snd (run cs (newStream T)) in
  eval fuel g r s f = Ok (res, s') -> sem fuel g r f (rest s) <> SUnsafe -> r_node res = None ->
  let a := Z.to_nat (cursor s) in let b := (a + length (r_read res))%nat in
  exists e, r_err res = Some e /\ located T a b e /\ (r_erridx res = 0 \/ Z.of_nat a <= r_erridx res <= Z.of_nat b).
Proof.
  intros RT HG W s EV SU EN a b. destruct (run_shape T cs RT) as (L & CT & K & WF). fold s in L, CT, K, WF.
  destruct (stream_delivery T cs RT) as (_ & R & RG). fold s in R, RG.
  assert (O : onText T s) by (split; [exact WF|]; split; [exact CT|]; rewrite L; constructor).
  pose proof (sem_lockK _ _ _ g fuel (text_keeps T) HG r f s (rest s) W ltac:(rewrite R; now apply clean_skipn) eq_refl O) as LK.
  unfold lockK in LK. destruct (sem fuel g r f (rest s)) as [y| |]; [|tauto|congruence].
  destruct LK as (res0 & s0 & E0 & SA & M & O' & CV). rewrite EV in E0. injection E0 as <- <-.
  destruct (proj2 CV EN) as (e & EE & X). exists e. split; [exact EE|]. apply X.
  - destruct SA as (LR & RR & _). rewrite RR, firstn_length. lia.
  - unfold a. exists (firstn (Z.to_nat (cursor s)) T). rewrite R, firstn_skipn, firstn_length. split; [reflexivity|]. lia.
Qed.
