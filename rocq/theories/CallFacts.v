(** Facts about sequences of client calls. *)
From Verif Require Import Base Stream StreamFacts PosFacts SpecStream.

Lemma prefix_firstn {A} (l a r : list A) : l = a ++ r -> a = firstn (length a) l.
Proof. intros ->. now rewrite firstn_app, Nat.sub_diag, firstn_all, app_nil_r. Qed.
Lemma prefix_skipn {A} (l a r : list A) : l = a ++ r -> r = skipn (length a) l.
Proof. intros ->. now rewrite skipn_app, Nat.sub_diag, skipn_all. Qed.
Lemma prefix_len {A} (l a r : list A) : l = a ++ r -> (length a <= length l)%nat.
Proof. intros ->. rewrite app_length. lia. Qed.

Lemma firstn_plus {A} a b (l : list A) : firstn (a + b) l = firstn a l ++ firstn b (skipn a l).
Proof.
  revert l; induction a as [|a IH]; intros l; cbn [Nat.add firstn skipn app]; [reflexivity|].
  destruct l as [|x l]; [now rewrite firstn_nil|]. cbn. f_equal. apply IH.
Qed.

Lemma run1_moves c s : clean (rest s) ->
  moves (length (delivered1 c (fst (run1 c s)))) s (snd (run1 c s)) /\
  delivered1 c (fst (run1 c s)) = firstn (length (delivered1 c (fst (run1 c s)))) (rest s).
Proof.
  intros C. destruct c as [| | |w| |i|]; cbn [run1].
  - destruct (rest s) as [|r l] eqn:E.
    + rewrite (next_rest_nil s E). cbn. split; [apply moves_refl|reflexivity].
    + destruct (moves_next s r l E) as (t & Hn & Hm & Hr). rewrite Hn. cbn [fst snd delivered1].
      rewrite (clean_not_eof _ _ C). cbn [length firstn]. auto.
  - cbn. split; [apply moves_refl|reflexivity].
  - destruct (skip_spec s) as (t & Hs & Hm). rewrite Hs. cbn [fst snd delivered1].
    split; [exact Hm|apply ws_prefix_firstn].
  - destruct (match_spec w s C) as (t & Hs & Hm). rewrite Hs. cbn [fst snd delivered1].
    split; [exact Hm|]. destruct (litmatch_prefix w (rest s)) as [r Hr].
    exact (prefix_firstn _ _ _ Hr).
  - pose proof (position_same s) as P. destruct (positionOf s) as [p t]; cbn in *.
    split; [exact P|reflexivity].
  - cbn. split; [apply moves_refl|reflexivity].
  - cbn. split; [apply moves_refl|reflexivity].
Qed.

Lemma run_moves cs : forall s, clean (rest s) ->
  moves (length (delivered cs (fst (run cs s)))) s (snd (run cs s)) /\
  delivered cs (fst (run cs s)) = firstn (length (delivered cs (fst (run cs s)))) (rest s).
Proof.
  induction cs as [|c cs IH]; intros s C; cbn [run].
  - cbn. split; [apply moves_refl|reflexivity].
  - destruct (run1_moves c s C) as [M1 D1]. destruct (run1 c s) as [o s1]; cbn [fst snd] in *.
    pose proof (moves_rest _ _ _ M1) as R1.
    assert (clean (rest s1)) as C1 by (rewrite R1; now apply clean_skipn).
    destruct (IH s1 C1) as [M2 D2]. destruct (run cs s1) as [os s2]; cbn [fst snd delivered] in *.
    rewrite app_length. split; [eapply moves_trans; eauto|].
    rewrite firstn_plus, <- R1. congruence.
Qed.

Lemma run1_depth c s : clean (rest s) -> depth (snd (run1 c s)) = depth s.
Proof. intros C. eapply moves_depth. apply (run1_moves c s C). Qed.

Lemma delivered_len cs s : clean (rest s) -> (length (delivered cs (fst (run cs s))) <= length (rest s))%nat.
Proof. intros C. destruct (run_moves cs s C) as [_ D]. rewrite D, firstn_length. lia. Qed.

(** C01 *)
Lemma stream_delivery text cs : runesOk text ->
  delivered cs (fst (run cs (newStream text))) = firstn (Z.to_nat (cursor (snd (run cs (newStream text))))) text /\
  rest (snd (run cs (newStream text))) = skipn (Z.to_nat (cursor (snd (run cs (newStream text))))) text /\
  0 <= cursor (snd (run cs (newStream text))) <= Z.of_nat (length text).
Proof.
  intros C. assert (clean (rest (newStream text))) as C' by exact C.
  destruct (run_moves cs _ C') as [M D].
  pose proof (delivered_len cs _ C') as L.
  pose proof (moves_cursor _ _ _ M L) as K. pose proof (moves_rest _ _ _ M) as R.
  change (rest (newStream text)) with text in *. change (cursor (newStream text)) with 0 in *.
  rewrite K, Z.add_0_l, Nat2Z.id. split; [exact D|]. split; [exact R|]. lia.
Qed.

Lemma observers_do_not_move s :
  (forall i, snd (run1 (CLookup i) s) = s) /\ snd (run1 CPeek s) = s /\ snd (run1 CCursor s) = s /\
  rest (snd (run1 CPos s)) = rest s /\ cursor (snd (run1 CPos s)) = cursor s.
Proof.
  repeat split; auto; cbn [run1]; pose proof (position_same s) as P; destruct (positionOf s) as [p t]; cbn in *.
  - symmetry. now apply same_rest.
  - symmetry. now apply same_cursor.
Qed.

Lemma peek_predicts s : peek s = fst (next s).
Proof.
  rewrite peek_rest. destruct (rest s) as [|c l] eqn:E; [now rewrite (next_rest_nil s E)|].
  symmetry. apply (next_rest_cons s c l E).
Qed.

Lemma next_at_end s : rest s = [] -> next s = (EOFChar, s).
Proof. apply next_rest_nil. Qed.
Lemma next_step s c l : rest s = c :: l -> fst (next s) = c /\ rest (snd (next s)) = l /\ cursor (snd (next s)) = cursor s + 1.
Proof.
  intros H. destruct (next_rest_cons s c l H) as [A B]. unfold next1 in B. repeat split; auto.
  change (snd (next s)) with (next1 s). rewrite next1_cursor, H. reflexivity.
Qed.

(** C02 *)
Lemma white_unicode c : In c whiteSpaces <-> whiteSpace c.
Proof.
  unfold whiteSpace, whiteSpaces. cbn [In]. split; [lia|].
  intros [H|[H|[H|[H|[H|[H|H]]]]]]; try lia.
  all: repeat match goal with |- _ \/ _ => first [left; lia|right] end; lia.
Qed.
Lemma skip_takes_listed s : exists sp,
  fst (skipSpaces s) = sp /\ rest s = sp ++ rest (snd (skipSpaces s)) /\
  Forall (fun c => In c whiteSpaces) sp /\
  (forall c l, rest (snd (skipSpaces s)) = c :: l -> ~ In c whiteSpaces) /\
  cursor (snd (skipSpaces s)) = cursor s + Z.of_nat (length sp).
Proof.
  assert (W : forall c, isWS c = true <-> In c whiteSpaces).
  { intros c. unfold isWS. rewrite existsb_exists. split.
    - intros (x & Hx & E). apply Z.eqb_eq in E. now subst.
    - intros H. exists c. split; [exact H|apply Z.eqb_refl]. }
  destruct (skip_spec s) as (t & Hs & Hm). rewrite Hs. cbn [fst snd].
  exists (ws_prefix (rest s)). split; [reflexivity|].
  pose proof (moves_rest _ _ _ Hm) as R. rewrite R.
  split; [apply ws_prefix_app|]. split.
  - eapply Forall_impl; [|apply ws_prefix_ws]. intros c. apply W.
  - split.
    + intros c l E Hin. pose proof (ws_prefix_stop (rest s)) as P. rewrite E in P. apply W in Hin. congruence.
    + apply (moves_cursor _ _ _ Hm). apply ws_prefix_len.
Qed.
Lemma skip_takes_whitespace s : exists sp,
  fst (skipSpaces s) = sp /\ rest s = sp ++ rest (snd (skipSpaces s)) /\
  Forall whiteSpace sp /\
  (forall c l, rest (snd (skipSpaces s)) = c :: l -> ~ whiteSpace c) /\
  cursor (snd (skipSpaces s)) = cursor s + Z.of_nat (length sp).
Proof.
  destruct (skip_takes_listed s) as (sp & E & R & W & N & C). exists sp. repeat split; auto.
  - eapply Forall_impl; [|exact W]. intros c. apply white_unicode.
  - intros c l X H. apply (N c l X). now apply white_unicode.
Qed.


(** C03 *)
Lemma litmatch_lcp w l :
  litmatch w l = (if runes_eqb (lcp w l) w then w else lcp w l ++ firstn 1 (skipn (length (lcp w l)) l),
                  runes_eqb (lcp w l) w).
Proof.
  revert l; induction w as [|x w IH]; intros l; cbn [litmatch lcp]; [reflexivity|].
  destruct l as [|y l]; cbn [runes_eqb]; [reflexivity|].
  rewrite (Z.eqb_sym y x). destruct (Z.eqb_spec x y) as [->|N].
  - rewrite IH. cbn [runes_eqb length skipn app]. rewrite Z.eqb_refl. cbn [andb].
    destruct (runes_eqb (lcp w l) w); reflexivity.
  - reflexivity.
Qed.
Lemma lcp_full w l : lcp w l = w <-> exists r, l = w ++ r.
Proof.
  revert l; induction w as [|x w IH]; intros l; cbn [lcp].
  - split; [exists l; reflexivity|reflexivity].
  - destruct l as [|y l]; [split; [discriminate|intros [r H]; discriminate]|].
    destruct (Z.eqb_spec x y) as [->|N].
    + split.
      * intros H. injection H as H. apply IH in H as [r ->]. now exists r.
      * intros [r H]. injection H as H. f_equal. apply IH. now exists r.
    + split; [discriminate|]. intros [r H]. injection H as H. congruence.
Qed.

Lemma match_exact w s : runesOk (rest s) -> exists got ok s',
  matchRunes s w = (got, ok, s') /\
  (ok = true <-> exists r, rest s = w ++ r) /\
  (ok = true -> got = w) /\
  (ok = false -> got = lcp w (rest s) ++ firstn 1 (skipn (length (lcp w (rest s))) (rest s))) /\
  rest s = got ++ rest s' /\ cursor s' = cursor s + Z.of_nat (length got).
Proof.
  intros C. destruct (match_spec w s C) as (t & Hs & Hm).
  exists (fst (litmatch w (rest s))), (snd (litmatch w (rest s))), t. split; [exact Hs|].
  pose proof (moves_rest _ _ _ Hm) as R.
  destruct (litmatch_prefix w (rest s)) as [r Hr].
  assert (rest s = fst (litmatch w (rest s)) ++ rest t) as HR.
  { rewrite R, <- (prefix_skipn _ _ _ Hr). exact Hr. }
  assert (cursor t = cursor s + Z.of_nat (length (fst (litmatch w (rest s))))) as HK.
  { apply (moves_cursor _ _ _ Hm). exact (prefix_len _ _ _ Hr). }
  repeat split; try assumption.
  - intros H. now apply litmatch_ok in H as [_ H].
  - intros H. apply lcp_full in H. rewrite litmatch_lcp, H, runes_eqb_refl. reflexivity.
  - intros H. now apply litmatch_ok in H as [H _].
  - intros H. rewrite litmatch_lcp in *. cbn [fst snd] in *. rewrite H. reflexivity.
Qed.

(** C04 *)
Lemma run1_wfs c s : wfs s -> wfs (snd (run1 c s)).
Proof.
  intros H. destruct c as [| | |w| |i|]; cbn [run1]; auto.
  - pose proof (wfs_next s H) as X. unfold next1 in X. destruct (next s); exact X.
  - pose proof (wfs_skip s H) as X. destruct (skipSpaces s); exact X.
  - pose proof (wfs_match s w H) as X. destruct (matchRunes s w) as [[l ok] t]; exact X.
  - pose proof (wfs_position s H) as X. destruct (positionOf s); exact X.
Qed.
Lemma run_wfs cs s : wfs s -> wfs (snd (run cs s)).
Proof.
  revert s; induction cs as [|c cs IH]; intros s H; cbn [run]; [exact H|].
  pose proof (run1_wfs c s H) as X. destruct (run1 c s) as [o s1]; cbn in X.
  specialize (IH s1 X). destruct (run cs s1); exact IH.
Qed.

Lemma run_shape text cs : runesOk text -> let s := snd (run cs (newStream text)) in
  layers s = [] /\ cs_chars (sbase s) = text /\ Z.of_nat (cs_cur (sbase s)) = cursor s /\ wfb (sbase s).
Proof.
  intros C s. assert (clean (rest (newStream text))) as C' by exact C.
  destruct (run_moves cs _ C') as [M D]. fold s in M.
  assert (layers s = []) as L.
  { pose proof (moves_depth _ _ _ M) as X. unfold depth in X. cbn in X. destruct (layers s); [reflexivity|discriminate]. }
  split; [exact L|]. split; [exact (moves_chars _ _ _ M)|]. split.
  - unfold cursor. rewrite L. reflexivity.
  - apply run_wfs. apply wfb_new.
Qed.

Lemma position_true text cs : runesOk text -> let s := snd (run cs (newStream text)) in
  fst (positionOf s) =
  match rest s with [] => None | _ => Some (lineCol (firstn (Z.to_nat (cursor s)) text)) end.
Proof.
  intros C s. destruct (run_shape text cs C) as (L & T & K & W). fold s in L, T, K, W.
  unfold positionOf. rewrite L. cbn [position_l]. pose proof (b_position_spec _ W) as P.
  destruct (b_position (sbase s)) as [p b']; cbn [fst] in *. rewrite P. clear P.
  destruct (stream_delivery text cs C) as (_ & R & _). fold s in R. rewrite R.
  assert (Z.to_nat (cursor s) = cs_cur (sbase s)) as -> by lia. rewrite T.
  destruct (Nat.ltb_spec (cs_cur (sbase s)) (length text)) as [H|H].
  - destruct (skipn (cs_cur (sbase s)) text) eqn:E; [|reflexivity].
    pose proof (skipn_length (cs_cur (sbase s)) text) as X. rewrite E in X. cbn in X. lia.
  - rewrite skipn_all2 by lia. reflexivity.
Qed.

(** A bisimulation for everything but the line table *)
Definition alike (s t : stream) : Prop := rest s = rest t /\ cursor s = cursor t.

Lemma run1_alike c s t : clean (rest s) -> plain c -> alike s t ->
  fst (run1 c s) = fst (run1 c t) /\ alike (snd (run1 c s)) (snd (run1 c t)).
Proof.
  intros C P [R K]. destruct c as [| | |w| |i|]; cbn [run1 plain] in *; try contradiction.
  - destruct (rest s) as [|r l] eqn:E; symmetry in R.
    + rewrite (next_rest_nil s E), (next_rest_nil t R). cbn. split; [reflexivity|]. split; congruence.
    + destruct (moves_next s r l E) as (s' & H1 & M1 & E1), (moves_next t r l R) as (t' & H2 & M2 & E2).
      rewrite H1, H2. cbn. split; [reflexivity|]. split; [congruence|].
      rewrite (moves_cursor _ _ _ M1), (moves_cursor _ _ _ M2); rewrite ?E, ?R; cbn; try lia.
  - cbn. split; [|split; assumption]. rewrite !peek_rest. now rewrite R.
  - destruct (skip_spec s) as (s' & H1 & M1), (skip_spec t) as (t' & H2 & M2).
    rewrite H1, H2. cbn [fst snd]. rewrite R in *. split; [reflexivity|]. split.
    + rewrite (moves_rest _ _ _ M1), (moves_rest _ _ _ M2). now rewrite R.
    + rewrite (moves_cursor _ _ _ M1), (moves_cursor _ _ _ M2) by (rewrite ?R; apply ws_prefix_len). lia.
  - assert (clean (rest t)) as C' by (now rewrite <- R).
    destruct (match_spec w s C) as (s' & H1 & M1), (match_spec w t C') as (t' & H2 & M2).
    rewrite H1, H2. cbn [fst snd]. rewrite R in *. split; [reflexivity|].
    destruct (litmatch_prefix w (rest t)) as [r Hr].
    assert (length (fst (litmatch w (rest t))) <= length (rest t))%nat by exact (prefix_len _ _ _ Hr).
    split.
    + rewrite (moves_rest _ _ _ M1), (moves_rest _ _ _ M2). now rewrite R.
    + rewrite (moves_cursor _ _ _ M1), (moves_cursor _ _ _ M2) by (rewrite ?R; assumption). lia.
  - cbn. split; [|split; assumption]. now rewrite K.
Qed.

Lemma run_alike cs : forall s t, clean (rest s) -> Forall plain cs -> alike s t ->
  fst (run cs s) = fst (run cs t) /\ alike (snd (run cs s)) (snd (run cs t)).
Proof.
  induction cs as [|c cs IH]; intros s t C P A; cbn [run]; [auto|].
  inversion P as [|? ? Pc Pcs]; subst. destruct (run1_alike c s t C Pc A) as [E A1].
  destruct (run1_moves c s C) as [M _]. pose proof (moves_rest _ _ _ M) as R.
  destruct (run1 c s) as [o1 s1], (run1 c t) as [o2 t1]; cbn [fst snd] in *.
  destruct (IH s1 t1) as [E2 A2]; auto; [rewrite R; now apply clean_skipn|].
  destruct (run cs s1), (run cs t1); cbn [fst snd] in *. split; [congruence|exact A2].
Qed.

(** C06: whatever calls [cs] consumed [w] from [s]; wrapping the result with [w]
    gives a stream no client can tell from [s] without asking for positions. *)
Lemma prepend_rewinds s cs w ds : runesOk (rest s) -> w = delivered cs (fst (run cs s)) -> Forall plain ds ->
  fst (run ds (prepend (snd (run cs s)) w)) = fst (run ds s) /\
  rest (prepend (snd (run cs s)) w) = rest s /\ cursor (prepend (snd (run cs s)) w) = cursor s.
Proof.
  intros C -> P. destruct (run_moves cs s C) as [M D].
  set (w := delivered cs (fst (run cs s))) in *. set (t := snd (run cs s)) in *.
  assert (length w <= length (rest s))%nat as L by (rewrite D, firstn_length; lia).
  assert (rest (prepend t w) = rest s) as HR.
  { rewrite prepend_rest, (moves_rest _ _ _ M). rewrite D at 1. apply firstn_skipn. }
  assert (cursor (prepend t w) = cursor s) as HK.
  { pose proof (moves_cursor _ _ _ M L) as K. destruct w as [|c w']; [cbn in *; lia|].
    unfold cursor at 1. cbn [prepend layers sbase cursor_l]. fold (cursor t). rewrite K. lia. }
  split; [|split; assumption]. apply run_alike; auto; [|split; assumption].
  rewrite HR. exact C.
Qed.

(** C04: [Position] leaves every answer but those of [PositionLookup] as it was. *)

Definition twin (s t : stream) : Prop := same s t /\ layers s = [] /\ wfs s /\ wfs t /\ clean (rest s).

Lemma run1_twin c s t : noLookup c -> twin s t ->
  fst (run1 c s) = fst (run1 c t) /\ twin (snd (run1 c s)) (snd (run1 c t)).
Proof.
  intros N (S1 & L & W1 & W2 & C).
  assert (C2 : clean (rest t)) by (now rewrite <- (same_rest _ _ S1)).
  assert (A : alike s t) by (split; [now apply same_rest|now apply same_cursor]).
  assert (O : fst (run1 c s) = fst (run1 c t)).
  { destruct c as [| | |w| |i|]; try (apply run1_alike; [exact C|exact I|exact A]); [|destruct N].
    cbn [run1]. destruct S1 as (SL & SC & SK). unfold positionOf. rewrite <- SL, L. cbn [position_l].
    pose proof (b_position_spec _ W1) as P1. pose proof (b_position_spec _ W2) as P2.
    destruct (b_position (sbase s)) as [p1 b1], (b_position (sbase t)) as [p2 b2]; cbn [fst] in *.
    rewrite P1, P2, SC, SK. reflexivity. }
  split; [exact O|].
  destruct (run1_moves c s C) as [M1 _], (run1_moves c t C2) as [M2 _].
  rewrite <- O in M2.
  assert (same (snd (run1 c s)) (snd (run1 c t))) as S2.
  { eapply same_trans; [apply same_sym; exact M1|]. eapply same_trans; [|exact M2]. now apply nextn_same. }
  split; [exact S2|]. split; [|split; [|split]].
  - pose proof (moves_depth _ _ _ M1) as D. unfold depth in D. rewrite L in D.
    destruct (layers (snd (run1 c s))); [reflexivity|discriminate].
  - now apply run1_wfs.
  - now apply run1_wfs.
  - rewrite (moves_rest _ _ _ M1). now apply clean_skipn.
Qed.
Lemma run_twin cs : forall s t, Forall noLookup cs -> twin s t -> fst (run cs s) = fst (run cs t).
Proof.
  induction cs as [|c cs IH]; intros s t N T; cbn [run]; [reflexivity|].
  inversion N as [|? ? N1 N2]; subst. destruct (run1_twin c s t N1 T) as [E T1].
  destruct (run1 c s) as [o1 s1], (run1 c t) as [o2 t1]; cbn [fst snd] in *.
  specialize (IH s1 t1 N2 T1). destruct (run cs s1), (run cs t1); cbn [fst] in *. congruence.
Qed.

Lemma position_harmless text cs ds : runesOk text -> Forall noLookup ds ->
  let s := snd (run cs (newStream text)) in
  fst (run ds (snd (run1 CPos s))) = fst (run ds s).
Proof.
  intros C N s. destruct (run_shape text cs C) as (L & T & K & W). fold s in L, T, K, W.
  apply run_twin; [exact N|]. cbn [run1].
  pose proof (position_same s) as P. pose proof (wfs_position s W) as W'.
  destruct (positionOf s) as [p t]; cbn [snd] in *.
  split; [now apply same_sym|]. split; [destruct P as (P & _); congruence|]. split; [exact W'|]. split; [exact W|].
  rewrite <- (same_rest _ _ P).
  destruct (stream_delivery text cs C) as (_ & R & _). fold s in R. rewrite R. apply clean_skipn. exact C.
Qed.

(** C05 *)
Lemma lookup_right text cs idx : runesOk text -> let s := snd (run cs (newStream text)) in
  0 <= idx < cursor s ->
  idx = 0 \/ In 10 (firstn (S (Z.to_nat idx)) text) \/ ~ In 10 (firstn (S (Z.to_nat (cursor s))) text) ->
  positionLookup s idx = Some (lineCol (firstn (Z.to_nat idx) text)).
Proof.
  intros C s Hi H. destruct (run_shape text cs C) as (L & T & K & W). fold s in L, T, K, W.
  unfold positionLookup. rewrite <- (Z2Nat.id idx) at 1 by lia. rewrite b_lookup_right; [rewrite T; reflexivity|exact W|lia|].
  rewrite T. replace (cs_cur (sbase s)) with (Z.to_nat (cursor s)) by lia.
  destruct H as [->|H]; [now left|right; exact H].
Qed.
Lemma lookup_nil text cs idx : runesOk text -> let s := snd (run cs (newStream text)) in
  idx < 0 \/ (idx <> 0 /\ cursor s <= idx) -> positionLookup s idx = None.
Proof.
  intros C s H. destruct (run_shape text cs C) as (L & T & K & W). fold s in L, T, K, W.
  apply b_lookup_nil. destruct H as [H|[H1 H2]]; [now left|right]. lia.
Qed.
Lemma lookup_wrong text cs idx : runesOk text -> let s := snd (run cs (newStream text)) in
  0 < idx < cursor s -> ~ In 10 (firstn (S (Z.to_nat idx)) text) -> In 10 (firstn (Z.to_nat (cursor s)) text) ->
  lineCol (firstn (Z.to_nat idx) text) = (1, idx + 1) /\
  exists col, col < 0 /\ positionLookup s idx = Some (2, col).
Proof.
  intros C s Hi N H. destruct (run_shape text cs C) as (L & T & K & W). fold s in L, T, K, W.
  destruct (nls 0 (firstn (cs_cur (sbase s)) (cs_chars (sbase s)))) as [|n ns] eqn:E.
  { apply nls_nil in E. rewrite T in E. replace (cs_cur (sbase s)) with (Z.to_nat (cursor s)) in E by lia. contradiction. }
  destruct (b_lookup_wrong (sbase s) (Z.to_nat idx) n W) as (A & B & D).
  - lia.
  - rewrite T. exact N.
  - rewrite E. reflexivity.
  - rewrite T in D. rewrite Z2Nat.id in * by lia. split; [exact D|].
    eexists. split; [exact B|exact A].
Qed.

(** C06 with positions: a wrapper answers [Position] by [PositionLookup]. *)
Lemma prepend_position s cs w : runesOk (rest s) -> w = delivered cs (fst (run cs s)) -> w <> [] ->
  fst (positionOf (prepend (snd (run cs s)) w)) = positionLookup (snd (run cs s)) (cursor s).
Proof.
  intros C -> NE. destruct (run_moves cs s C) as [M D].
  set (w := delivered cs (fst (run cs s))) in *. set (t := snd (run cs s)) in *.
  assert (length w <= length (rest s))%nat as L by (rewrite D, firstn_length; lia).
  pose proof (moves_cursor _ _ _ M L) as K.
  destruct w as [|c w']; [congruence|]. unfold positionOf. cbn [prepend layers sbase position_l].
  replace (length (c :: w') <=? 0)%nat with false by reflexivity. cbn [fst].
  unfold positionLookup. fold (cursor t). f_equal. lia.
Qed.
Lemma isWS_unicode c : isWS c = true <-> whiteSpace c.
Proof.
  rewrite <- white_unicode. unfold isWS. rewrite existsb_exists. split.
  - intros (x & Hx & E). apply Z.eqb_eq in E. now subst.
  - intros H. exists c. split; [exact H|apply Z.eqb_refl].
Qed.
