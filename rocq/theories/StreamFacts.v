(** Facts about the stream model. *)
From Verif Require Import Base Stream.
#[global] Arguments isWS _ : simpl never.
#[global] Arguments skipn : simpl nomatch.

(* ------------------------------------------------------------------ *)
(** ** Lists *)

Lemma nth_error_skipn {A} (l : list A) k :
  nth_error l k = hd_error (skipn k l).
Proof. revert k; induction l as [|x l IH]; intros [|k]; cbn; auto. Qed.

Lemma skipn_S_tl {A} k (l : list A) : skipn (S k) l = tl (skipn k l).
Proof. revert k; induction l as [|x l IH]; intros [|k]; cbn [skipn]; auto; try (rewrite <- IH; cbn; reflexivity). Qed.

Lemma skipn_skipn' {A} a b (l : list A) : skipn a (skipn b l) = skipn (b + a) l.
Proof.
  revert l; induction b as [|b IH]; intros l; cbn [Nat.add]; [reflexivity|].
  destruct l as [|x l]; cbn [skipn]; [now rewrite skipn_nil|apply IH].
Qed.

Lemma firstn_skipn_len {A} k (l : list A) : length (skipn k l) = (length l - k)%nat.
Proof. apply skipn_length. Qed.

Lemma ws_prefix_app l : l = ws_prefix l ++ skipn (length (ws_prefix l)) l.
Proof. induction l as [|c l IH]; cbn; [reflexivity|]. destruct (isWS c); cbn; congruence. Qed.

Lemma ws_prefix_len l : (length (ws_prefix l) <= length l)%nat.
Proof. induction l as [|c l IH]; cbn; [lia|]. destruct (isWS c); cbn; lia. Qed.

Lemma ws_prefix_ws l : Forall (fun c => isWS c = true) (ws_prefix l).
Proof. induction l as [|c l IH]; cbn; [constructor|]. destruct (isWS c) eqn:E; constructor; auto. Qed.

Lemma ws_prefix_stop l : match skipn (length (ws_prefix l)) l with [] => True | c :: _ => isWS c = false end.
Proof. induction l as [|c l IH]; cbn; [exact I|]. destruct (isWS c) eqn:E; cbn; auto. Qed.

Lemma ws_prefix_firstn l : ws_prefix l = firstn (length (ws_prefix l)) l.
Proof. induction l as [|c l IH]; cbn; [reflexivity|]. destruct (isWS c); cbn; congruence. Qed.

Lemma ws_prefix_none l : Forall (fun c => isWS c = true) l -> forall m,
  match m with [] => True | c :: _ => isWS c = false end -> ws_prefix (l ++ m) = l.
Proof.
  induction 1 as [|c l Hc Hl IH]; intros m Hm; cbn.
  - destruct m as [|c m]; cbn; [reflexivity|]. now rewrite Hm.
  - rewrite Hc. now rewrite IH.
Qed.

Lemma runes_eqb_eq a b : runes_eqb a b = true <-> a = b.
Proof.
  revert b; induction a as [|x a IH]; intros [|y b]; cbn; split; intros H; try congruence; auto.
  - apply andb_true_iff in H as [H1 H2]. apply Z.eqb_eq in H1. apply IH in H2. congruence.
  - injection H as -> ->. apply andb_true_iff; split; [apply Z.eqb_refl|now apply IH].
Qed.
Lemma runes_eqb_refl a : runes_eqb a a = true.
Proof. now apply runes_eqb_eq. Qed.
Lemma runes_eqb_neq a b : runes_eqb a b = false <-> a <> b.
Proof.
  destruct (runes_eqb a b) eqn:E; split; intros H; try congruence.
  - apply runes_eqb_eq in E. congruence.
  - intros ->. rewrite runes_eqb_refl in E. congruence.
Qed.
Lemma runes_eqb_sym a b : runes_eqb a b = runes_eqb b a.
Proof.
  destruct (runes_eqb a b) eqn:E.
  - apply runes_eqb_eq in E as ->. now rewrite runes_eqb_refl.
  - destruct (runes_eqb b a) eqn:E'; [|reflexivity]. apply runes_eqb_eq in E' as ->.
    now rewrite runes_eqb_refl in E.
Qed.

(* ------------------------------------------------------------------ *)
(** ** The part of a stream that reading depends on: everything but the line
       table *)

Definition same (s t : stream) : Prop :=
  layers s = layers t /\ cs_chars (sbase s) = cs_chars (sbase t) /\ cs_cur (sbase s) = cs_cur (sbase t).

Lemma same_refl s : same s s. Proof. repeat split. Qed.
Lemma same_sym s t : same s t -> same t s.
Proof. intros (A & B & C); repeat split; congruence. Qed.
Lemma same_trans s t u : same s t -> same t u -> same s u.
Proof. intros (A & B & C) (A' & B' & C'); repeat split; congruence. Qed.

Lemma rest_l_same ls b b' : cs_chars b = cs_chars b' -> cs_cur b = cs_cur b' -> rest_l ls b = rest_l ls b'.
Proof. intros H1 H2. induction ls as [|[p k] ls IH]; cbn; congruence. Qed.
Lemma same_rest s t : same s t -> rest s = rest t.
Proof. intros (A & B & C). unfold rest. rewrite A. now apply rest_l_same. Qed.

Lemma peek_rest s : peek s = match rest s with [] => EOFChar | c :: _ => c end.
Proof.
  destruct s as [ls b]. unfold peek, rest. cbn [layers sbase].
  induction ls as [|[p k] ls IH]; cbn [peek_l rest_l].
  - unfold b_peek. rewrite nth_error_skipn. now destruct (skipn (cs_cur b) (cs_chars b)).
  - rewrite nth_error_skipn. destruct (skipn k p) as [|c r]; cbn; [exact IH|reflexivity].
Qed.

Lemma same_peek s t : same s t -> peek s = peek t.
Proof. intros H. rewrite !peek_rest. now rewrite (same_rest _ _ H). Qed.

(** One step of reading. *)
Definition next1 (s : stream) : stream := snd (next s).
Fixpoint nextn (n : nat) (s : stream) : stream :=
  match n with O => s | S n' => nextn n' (next1 s) end.

Lemma next_l_same ls b b' : cs_chars b = cs_chars b' -> cs_cur b = cs_cur b' ->
  fst (next_l ls b) = fst (next_l ls b') /\
  fst (snd (next_l ls b)) = fst (snd (next_l ls b')) /\
  cs_chars (snd (snd (next_l ls b))) = cs_chars (snd (snd (next_l ls b'))) /\
  cs_cur (snd (snd (next_l ls b))) = cs_cur (snd (snd (next_l ls b'))).
Proof.
  intros H1 H2. induction ls as [|[p k] ls IH]; cbn [next_l].
  - unfold b_next. rewrite <- H1, <- H2.
    destruct (nth_error (cs_chars b) (cs_cur b)); cbn; auto.
  - destruct (nth_error p k); cbn; [auto|].
    destruct (next_l ls b) as [c [l1 b1]], (next_l ls b') as [c' [l2 b2]]; cbn in *.
    destruct IH as (A & B & C & D). repeat split; congruence.
Qed.

Lemma next_same s t : same s t -> fst (next s) = fst (next t) /\ same (next1 s) (next1 t).
Proof.
  intros (A & B & C). unfold next1, next. rewrite A.
  destruct (next_l_same (layers t) (sbase s) (sbase t) B C) as (D & E & F & G).
  destruct (next_l (layers t) (sbase s)) as [c [l1 b1]], (next_l (layers t) (sbase t)) as [c' [l2 b2]]; cbn in *.
  subst. split; [reflexivity|]. repeat split; cbn; congruence.
Qed.

Lemma nextn_same n s t : same s t -> same (nextn n s) (nextn n t).
Proof. revert s t; induction n as [|n IH]; intros s t H; cbn; [exact H|]. apply IH. now apply next_same. Qed.

Lemma next_rest_cons s c l : rest s = c :: l ->
  fst (next s) = c /\ rest (next1 s) = l.
Proof.
  destruct s as [ls b]. unfold next1, next, rest. cbn [layers sbase].
  revert c l. induction ls as [|[p k] ls IH]; intros c l; cbn [next_l rest_l]; intros H.
  - unfold b_next. rewrite nth_error_skipn, H. cbn [hd_error].
    cbn. split; [reflexivity|]. rewrite skipn_S_tl, H. reflexivity.
  - rewrite nth_error_skipn. destruct (skipn k p) as [|c' r] eqn:E; cbn [hd_error].
    + cbn in H. specialize (IH c l H). destruct (next_l ls b) as [c1 [ls1 b1]]; cbn in *.
      rewrite E. exact IH.
    + cbn in H. injection H as -> <-. cbn -[skipn]. split; [reflexivity|].
      rewrite skipn_S_tl, E. reflexivity.
Qed.

Lemma next_rest_nil s : rest s = [] -> next s = (EOFChar, s).
Proof.
  destruct s as [ls b]. unfold next, rest. cbn [layers sbase].
  intros H.
  assert (next_l ls b = (EOFChar, (ls, b))) as ->; [|reflexivity].
  induction ls as [|[p k] ls IH]; cbn [next_l rest_l] in *.
  - unfold b_next. rewrite nth_error_skipn, H. reflexivity.
  - apply app_eq_nil in H as [H1 H2]. rewrite nth_error_skipn, H1. cbn. now rewrite IH.
Qed.

Lemma next1_rest s : rest (next1 s) = tl (rest s).
Proof.
  destruct (rest s) as [|c l] eqn:E.
  - unfold next1. rewrite (next_rest_nil s E). exact E.
  - apply (next_rest_cons s c l E).
Qed.

Lemma nextn_rest n s : rest (nextn n s) = skipn n (rest s).
Proof.
  revert s; induction n as [|n IH]; intros s; cbn [nextn]; [reflexivity|].
  rewrite IH, next1_rest. destruct (rest s); cbn; [now rewrite skipn_nil|reflexivity].
Qed.

Lemma next_depth s : depth (next1 s) = depth s.
Proof.
  destruct s as [ls b]. unfold next1, next, depth. cbn [layers sbase].
  assert (length (fst (snd (next_l ls b))) = length ls) as H.
  { induction ls as [|[p k] ls IH]; cbn [next_l]; [destruct (b_next b); reflexivity|].
    destruct (nth_error p k); cbn; [reflexivity|].
    destruct (next_l ls b) as [c1 [ls1 b1]]; cbn in *. congruence. }
  destruct (next_l ls b) as [c1 [ls1 b1]]; cbn in *. exact H.
Qed.
Lemma nextn_depth n s : depth (nextn n s) = depth s.
Proof. revert s; induction n as [|n IH]; intros s; cbn; [reflexivity|]. now rewrite IH, next_depth. Qed.
Lemma same_depth s t : same s t -> depth s = depth t.
Proof. intros (A & _). unfold depth. congruence. Qed.

Lemma nextn_add a b s : nextn (a + b) s = nextn b (nextn a s).
Proof. revert s; induction a as [|a IH]; intros s; cbn; auto. Qed.

(** [moves n s t]: reading [n] runes takes [s] to [t], up to the line table. *)
Definition moves (n : nat) (s t : stream) : Prop := same (nextn n s) t.

Lemma moves_0 s t : same s t -> moves 0 s t. Proof. auto. Qed.
Lemma moves_refl s : moves 0 s s. Proof. apply same_refl. Qed.
Lemma moves_trans n m s t u : moves n s t -> moves m t u -> moves (n + m) s u.
Proof.
  unfold moves. intros H1 H2. rewrite nextn_add. eapply same_trans; [|exact H2]. now apply nextn_same.
Qed.
Lemma moves_rest n s t : moves n s t -> rest t = skipn n (rest s).
Proof. intros H. rewrite <- (same_rest _ _ H). apply nextn_rest. Qed.
Lemma moves_depth n s t : moves n s t -> depth t = depth s.
Proof. intros H. rewrite <- (same_depth _ _ H). apply nextn_depth. Qed.

(* ------------------------------------------------------------------ *)
(** ** Wrapping and unwrapping *)

Lemma prepend_rest s p : rest (prepend s p) = p ++ rest s.
Proof. destruct p; reflexivity. Qed.
Lemma prepend_depth s p : (depth (prepend s p) = depth s + match p with [] => 0 | _ => 1 end)%nat.
Proof. destruct p; cbn; unfold depth; cbn; lia. Qed.
Lemma prepend_same s t p : same s t -> same (prepend s p) (prepend t p).
Proof. intros (A & B & C). destruct p; repeat split; cbn; congruence. Qed.
Lemma unwrap_same n s t : same s t -> same (unwrap n s) (unwrap n t).
Proof. intros (A & B & C). repeat split; cbn; congruence. Qed.
Lemma unwrap_id s : unwrap (depth s) s = s.
Proof. destruct s as [ls b]. unfold unwrap, depth. cbn. now rewrite Nat.sub_diag. Qed.
Lemma unwrap_id' n s : depth s = n -> unwrap n s = s.
Proof. intros <-. apply unwrap_id. Qed.
Lemma unwrap_prepend n s p : (n <= depth s)%nat -> unwrap n (prepend s p) = unwrap n s.
Proof.
  destruct p as [|c p]; [reflexivity|]. destruct s as [ls b]. unfold unwrap, depth; cbn [layers sbase prepend].
  intros H. f_equal. cbn [length]. replace (S (length ls) - n)%nat with (S (length ls - n)) by lia. reflexivity.
Qed.
Lemma unwrap_depth n s : (n <= depth s)%nat -> depth (unwrap n s) = n.
Proof. unfold unwrap, depth; cbn. intros H. rewrite skipn_length. lia. Qed.
Lemma unwrap_unwrap n m s : (n <= m)%nat -> (m <= depth s)%nat -> unwrap n (unwrap m s) = unwrap n s.
Proof.
  unfold unwrap, depth; cbn. intros H1 H2. f_equal. rewrite skipn_length, skipn_skipn'. f_equal. lia.
Qed.

(** The runes left in the layers above the bottom [n]. *)
Definition pend (n : nat) (s : stream) : list Z :=
  flat_map (fun pk => skipn (snd pk) (fst pk)) (firstn (depth s - n) (layers s)).

Lemma rest_split n s : (n <= depth s)%nat -> rest s = pend n s ++ rest (unwrap n s).
Proof.
  destruct s as [ls b]. unfold pend, rest, unwrap, depth. cbn [layers sbase].
  intros H. remember (length ls - n)%nat as k eqn:E. clear E H.
  revert k; induction ls as [|[p j] ls IH]; intros [|k]; cbn; auto.
  rewrite <- app_assoc. f_equal. apply IH.
Qed.

Lemma pend_self s : pend (depth s) s = [].
Proof. unfold pend. now rewrite Nat.sub_diag. Qed.
Lemma pend_prepend n s p : (n <= depth s)%nat -> pend n (prepend s p) = p ++ pend n s.
Proof.
  destruct p as [|c p]; [reflexivity|]. destruct s as [ls b]. unfold pend, depth; cbn [layers sbase prepend].
  intros H. cbn [length]. replace (S (length ls) - n)%nat with (S (length ls - n)) by lia. reflexivity.
Qed.
Lemma pend_same n s t : same s t -> pend n s = pend n t.
Proof. intros (A & _). unfold pend, depth. now rewrite A. Qed.

(** Reading one rune through wrappers consumes the wrappers first. *)
Lemma next1_unwrap n s : (n <= depth s)%nat ->
  pend n (next1 s) = tl (pend n s) /\
  unwrap n (next1 s) = (match pend n s with [] => next1 (unwrap n s) | _ => unwrap n s end).
Proof.
  destruct s as [ls b]. unfold pend, next1, next, unwrap, depth. cbn [layers sbase].
  intros H.
  enough (forall k, (k <= length ls)%nat ->
    flat_map (fun pk => skipn (snd pk) (fst pk)) (firstn k (fst (snd (next_l ls b))))
      = tl (flat_map (fun pk => skipn (snd pk) (fst pk)) (firstn k ls)) /\
    (skipn k (fst (snd (next_l ls b))), snd (snd (next_l ls b))) =
      match flat_map (fun pk => skipn (snd pk) (fst pk)) (firstn k ls) with
      | [] => snd (next_l (skipn k ls) b) | _ => (skipn k ls, b) end) as X.
  { assert (length (fst (snd (next_l ls b))) = length ls) as L.
    { pose proof (next_depth (mkStream ls b)) as D. unfold next1, next, depth in D. cbn in D.
      destruct (next_l ls b) as [c [l1 b1]]; exact D. }
    destruct (X (length ls - n)%nat ltac:(lia)) as [X1 X2].
    destruct (next_l ls b) as [c [l1 b1]]; cbn [fst snd layers sbase] in *.
    rewrite L. split; [exact X1|].
    destruct (flat_map _ (firstn (length ls - n) ls)).
    - destruct (next_l (skipn (length ls - n) ls) b) as [c' [l2 b2]]; cbn in *. congruence.
    - injection X2 as X2 X3. cbn. congruence. }
  clear n H. induction ls as [|[p j] ls IH]; intros k Hk.
  - destruct k; [|cbn in Hk; lia]. cbn. destruct (b_next b) as [c b1]; cbn. auto.
  - destruct k as [|k]; cbn [next_l firstn skipn flat_map fst snd].
    + split; [reflexivity|].
      destruct (nth_error p j); cbn; [reflexivity|]. destruct (next_l ls b) as [c [l1 b1]]; reflexivity.
    + rewrite nth_error_skipn. destruct (skipn j p) as [|c r] eqn:E; cbn [hd_error].
      * cbn in Hk. destruct (IH k ltac:(lia)) as [I1 I2].
        destruct (next_l ls b) as [c [l1 b1]]; cbn [fst snd firstn flat_map skipn] in *.
        rewrite E. cbn [app]. rewrite I1. split; [reflexivity|exact I2].
      * cbn [fst snd firstn flat_map skipn app]. rewrite skipn_S_tl, E. cbn [tl app].
        split; reflexivity.
Qed.

Lemma nextn_unwrap k n s : (n <= depth s)%nat ->
  pend n (nextn k s) = skipn k (pend n s) /\
  unwrap n (nextn k s) = nextn (k - length (pend n s)) (unwrap n s).
Proof.
  revert s; induction k as [|k IH]; intros s H; cbn [nextn].
  - cbn [Nat.sub nextn skipn]. auto.
  - destruct (next1_unwrap n s H) as [A B].
    destruct (IH (next1 s)) as [C D]; [now rewrite next_depth|].
    rewrite C, D, A, B. destruct (pend n s) as [|c l]; cbn [tl length Nat.sub skipn].
    + split; [now rewrite skipn_nil|]. rewrite Nat.sub_0_r. reflexivity.
    + split; reflexivity.
Qed.

Lemma moves_unwrap k n s t : (n <= depth s)%nat -> moves k s t ->
  pend n t = skipn k (pend n s) /\ moves (k - length (pend n s)) (unwrap n s) (unwrap n t).
Proof.
  intros H M. destruct (nextn_unwrap k n s H) as [A B]. split.
  - now rewrite <- (pend_same _ _ _ M).
  - unfold moves. rewrite <- B. now apply unwrap_same.
Qed.

(** Reading [k] runes from [prepend s p] and dropping the wrapper. *)
Lemma moves_prepend_unwrap k s p t : moves k (prepend s p) t ->
  moves (k - length p) s (unwrap (depth s) t).
Proof.
  intros M. assert (depth s <= depth (prepend s p))%nat as H by (rewrite prepend_depth; lia).
  destruct (moves_unwrap k (depth s) _ _ H M) as [_ B].
  rewrite pend_prepend, pend_self, app_nil_r, unwrap_prepend, unwrap_id in B by lia. exact B.
Qed.

Lemma moves_prefix n s t : moves n s t -> (n <= length (rest s))%nat ->
  rest s = firstn n (rest s) ++ rest t.
Proof. intros M H. rewrite (moves_rest _ _ _ M). symmetry; apply firstn_skipn. Qed.

(* ------------------------------------------------------------------ *)
(** ** The operations in terms of [rest] and [moves] *)

Lemma moves_next s c l : rest s = c :: l -> exists t, next s = (c, t) /\ moves 1 s t /\ rest t = l.
Proof.
  intros H. destruct (next_rest_cons s c l H) as [A B]. exists (next1 s).
  split; [|split; [apply same_refl|exact B]].
  unfold next1. rewrite <- A. apply surjective_pairing.
Qed.

Lemma p_skip_spec n s : (length (rest s) <= n)%nat ->
  exists t, p_skip n s = (ws_prefix (rest s), t) /\ moves (length (ws_prefix (rest s))) s t.
Proof.
  revert s; induction n as [|n IH]; intros s H; cbn [p_skip].
  - destruct (rest s) eqn:E; [|cbn in H; lia]. exists s. cbn. split; [reflexivity|apply moves_refl].
  - rewrite peek_rest. destruct (rest s) as [|c l] eqn:E.
    + rewrite Z.eqb_refl. exists s. split; [reflexivity|apply moves_refl].
    + destruct (Z.eqb_spec c EOFChar) as [->|Hc].
      { exists s. cbn. split; [reflexivity|apply moves_refl]. }
      destruct (isWS c) eqn:Ec; cbn [negb].
      * destruct (moves_next s c l E) as (t & Hn & Hm & Hr). rewrite Hn.
        destruct (IH t) as (u & Hu & Hmu); [rewrite Hr; cbn in H; lia|]. rewrite Hu. exists u.
        rewrite Hr in *. cbn [ws_prefix]. rewrite Ec. split; [reflexivity|].
        cbn [length]. change (S (length (ws_prefix l))) with (1 + length (ws_prefix l))%nat.
        eapply moves_trans; eauto.
      * exists s. cbn [ws_prefix]. rewrite Ec. split; [reflexivity|apply moves_refl].
Qed.

Lemma nextn_base n b : (cs_cur b + n <= length (cs_chars b))%nat ->
  same (nextn n (mkStream [] b)) (mkStream [] (mkCstr (cs_chars b) (cs_cur b + n) (cs_lines b))).
Proof.
  revert b; induction n as [|n IH]; intros b H; cbn [nextn].
  - repeat split; cbn; lia.
  - unfold next1, next. cbn [layers sbase next_l]. unfold b_next.
    destruct (nth_error (cs_chars b) (cs_cur b)) eqn:E.
    + cbn [snd]. eapply same_trans.
      * apply IH. cbn. lia.
      * repeat split; cbn. lia.
    + apply nth_error_None in E. lia.
Qed.

Lemma skip_spec s : exists t,
  skipSpaces s = (ws_prefix (rest s), t) /\ moves (length (ws_prefix (rest s))) s t.
Proof.
  unfold skipSpaces. destruct (layers s) as [|l0 ls] eqn:EL.
  - destruct s as [ls b]; cbn in EL; subst ls. cbn [sbase].
    assert (rest (mkStream [] b) = skipn (cs_cur b) (cs_chars b)) as R by reflexivity.
    rewrite R. unfold b_skip.
    destruct (ws_prefix (skipn (cs_cur b) (cs_chars b))) as [|c sp] eqn:E.
    + exists (mkStream [] b). split; [reflexivity|apply moves_refl].
    + eexists. split; [reflexivity|]. unfold moves.
      pose proof (ws_prefix_len (skipn (cs_cur b) (cs_chars b))) as L. rewrite E, skipn_length in L.
      eapply same_trans; [apply nextn_base; cbn in *; lia|]. repeat split.
  - apply p_skip_spec. lia.
Qed.

Lemma position_same s : same s (snd (positionOf s)).
Proof.
  destruct s as [ls b]. unfold positionOf. cbn [layers sbase].
  assert (cs_chars (snd (position_l ls b)) = cs_chars b /\ cs_cur (snd (position_l ls b)) = cs_cur b) as [A B].
  { induction ls as [|[p k] ls IH]; cbn [position_l].
    - unfold b_position. destruct (nth_error _ _); [|auto]. destruct (cs_cur b =? 0)%nat; cbn; auto.
    - destruct (length p <=? k)%nat; [exact IH|cbn; auto]. }
  destruct (position_l ls b) as [r b']; cbn in *. repeat split; cbn; congruence.
Qed.

(** Runes of a Go text are not negative, so none is [EOFChar]. *)
Definition clean (l : list Z) : Prop := Forall (fun c => 0 <= c) l.

Lemma clean_app a b : clean (a ++ b) <-> clean a /\ clean b.
Proof. unfold clean. apply Forall_app. Qed.
Lemma clean_skipn k l : clean l -> clean (skipn k l).
Proof. unfold clean. intros H. revert k; induction H; intros [|k]; cbn; auto. Qed.
Lemma clean_firstn k l : clean l -> clean (firstn k l).
Proof. unfold clean. intros H. revert k; induction H; intros [|k]; cbn; auto. Qed.
Lemma clean_not_eof c l : clean (c :: l) -> (c =? EOFChar) = false.
Proof. intros H. inversion H; subst. apply Z.eqb_neq. unfold EOFChar. lia. Qed.

(** Specification of a literal match against a text: the runes consumed, and
    whether the literal is there.  On a mismatch, the mismatching rune is
    consumed too. *)
Fixpoint litmatch (lit l : list Z) : list Z * bool :=
  match lit, l with
  | [], _ => ([], true)
  | _, [] => ([], false)
  | x :: lit', y :: l' =>
    if y =? x then let '(r, ok) := litmatch lit' l' in (y :: r, ok) else ([y], false)
  end.

Lemma match_spec lit s : clean (rest s) -> exists t,
  matchRunes s lit = (fst (litmatch lit (rest s)), snd (litmatch lit (rest s)), t) /\
  moves (length (fst (litmatch lit (rest s)))) s t.
Proof.
  unfold matchRunes. revert s; induction lit as [|x lit IH]; intros s C; cbn [match_l litmatch].
  - exists s. split; [reflexivity|apply moves_refl].
  - destruct (rest s) as [|c l] eqn:E.
    + rewrite (next_rest_nil s E). rewrite Z.eqb_refl. exists s. split; [reflexivity|apply moves_refl].
    + destruct (moves_next s c l E) as (t & Hn & Hm & Hr). rewrite Hn.
      rewrite (clean_not_eof _ _ C). destruct (c =? x) eqn:Ecx; cbn [negb].
      * destruct (IH t) as (u & Hu & Hmu); [rewrite Hr; inversion C; auto|].
        rewrite Hu, Hr in *. destruct (litmatch lit l) as [r ok]; cbn [fst snd] in *.
        exists u. split; [reflexivity|]. cbn [length].
        change (S (length r)) with (1 + length r)%nat. eapply moves_trans; eauto.
      * exists t. split; [reflexivity|exact Hm].
Qed.

Lemma litmatch_prefix lit l : exists r, l = fst (litmatch lit l) ++ r.
Proof.
  revert l; induction lit as [|x lit IH]; intros l; cbn [litmatch]; [exists l; reflexivity|].
  destruct l as [|y l]; [exists []; reflexivity|]. destruct (y =? x).
  - destruct (IH l) as [r Hr]. destruct (litmatch lit l) as [a ok]; cbn in *. exists r. congruence.
  - exists l. reflexivity.
Qed.
Lemma litmatch_ok lit l : snd (litmatch lit l) = true <-> (fst (litmatch lit l) = lit /\ exists r, l = lit ++ r).
Proof.
  revert l; induction lit as [|x lit IH]; intros l; cbn [litmatch].
  - cbn. split; auto. intros _. split; [reflexivity|]. exists l. reflexivity.
  - destruct l as [|y l]; cbn.
    + split; [discriminate|]. intros [H _]. discriminate.
    + destruct (Z.eqb_spec y x) as [->|Hxy].
      * specialize (IH l). destruct (litmatch lit l) as [a ok]; cbn in *. rewrite IH.
        split; intros [H1 [r H2]]; split; try congruence; exists r; congruence.
      * cbn. split; [discriminate|]. intros [_ [r H]]. congruence.
Qed.

(** The text of the stream object never changes; [Cursor] is determined by
    what is left when the wrappers are honest. *)
Lemma moves_chars n s t : moves n s t -> cs_chars (sbase t) = cs_chars (sbase s).
Proof.
  intros (_ & H & _). rewrite <- H. clear H t. revert s; induction n as [|n IH]; intros s; cbn [nextn]; [reflexivity|].
  rewrite IH. unfold next1, next. destruct s as [ls b]; cbn [layers sbase].
  assert (cs_chars (snd (snd (next_l ls b))) = cs_chars b) as X.
  { induction ls as [|[p k] ls IHl]; cbn [next_l].
    - unfold b_next. destruct (nth_error _ _); reflexivity.
    - destruct (nth_error p k); [reflexivity|]. destruct (next_l ls b) as [c [l1 b1]]; exact IHl. }
  destruct (next_l ls b) as [c [l1 b1]]; exact X.
Qed.
Lemma same_cursor s t : same s t -> cursor s = cursor t.
Proof.
  intros (A & B & C). unfold cursor. rewrite A. generalize (layers t).
  induction l as [|[p k] ls IH]; cbn; [unfold b_cursor; now rewrite C|lia].
Qed.

Lemma next1_cursor s : cursor (next1 s) = cursor s + match rest s with [] => 0 | _ => 1 end.
Proof.
  destruct s as [ls b]. unfold next1, next, cursor, rest. cbn [layers sbase].
  enough (cursor_l (fst (snd (next_l ls b))) (snd (snd (next_l ls b))) =
          cursor_l ls b + match rest_l ls b with [] => 0 | _ => 1 end) as X.
  { destruct (next_l ls b) as [c [l1 b1]]; exact X. }
  induction ls as [|[p k] ls IH]; cbn [next_l rest_l cursor_l].
  - unfold b_next. rewrite nth_error_skipn. destruct (skipn (cs_cur b) (cs_chars b)); cbn; unfold b_cursor; cbn; lia.
  - rewrite nth_error_skipn. destruct (skipn k p) as [|c r]; cbn [hd_error app].
    + destruct (next_l ls b) as [c [l1 b1]]; cbn [fst snd cursor_l] in *. lia.
    + cbn [fst snd cursor_l]. lia.
Qed.
Lemma moves_cursor n s t : moves n s t -> (n <= length (rest s))%nat -> cursor t = cursor s + Z.of_nat n.
Proof.
  intros M H. rewrite <- (same_cursor _ _ M). clear M t. revert s H; induction n as [|n IH]; intros s H; cbn [nextn].
  - lia.
  - rewrite IH, next1_cursor.
    + destruct (rest s); cbn in *; lia.
    + rewrite next1_rest. destruct (rest s); cbn in *; lia.
Qed.
