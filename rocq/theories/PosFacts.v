(** The line table and the positions. *)
From Verif Require Import Base Stream StreamFacts.

(* ------------------------------------------------------------------ *)
(** ** Specification *)

(** Line and column of the rune that follows the text [l]. *)
Definition posOf (l : list Z) : position :=
  fold_left (fun p c => if c =? 10 then (fst p + 1, 1) else (fst p, snd p + 1)) l (1, 1).
(** Line and column of the rune at index [idx]. *)
Definition posAt (chars : list Z) (idx : nat) : position := posOf (firstn idx chars).

(* ------------------------------------------------------------------ *)
(** ** Newline indexes *)

Fixpoint nls (i : Z) (l : list Z) : list Z :=
  match l with
  | [] => []
  | c :: l' => if c =? 10 then i :: nls (i + 1) l' else nls (i + 1) l'
  end.

Definition tab (l : list Z) : list Z := nls 0 l ++ [Z.of_nat (length l) - 1].

Lemma nls_app i a b : nls i (a ++ b) = nls i a ++ nls (i + Z.of_nat (length a)) b.
Proof.
  revert i; induction a as [|c a IH]; intros i; cbn [app nls length].
  - now rewrite Z.add_0_r.
  - rewrite IH. replace (i + 1 + Z.of_nat (length a)) with (i + Z.of_nat (S (length a))) by lia.
    destruct (c =? 10); reflexivity.
Qed.
Lemma nls_range i l : Forall (fun n => i <= n < i + Z.of_nat (length l)) (nls i l).
Proof.
  revert i; induction l as [|c l IH]; intros i; cbn [nls length]; [constructor|].
  assert (Forall (fun n => i <= n < i + Z.of_nat (S (length l))) (nls (i + 1) l)).
  { eapply Forall_impl; [|apply IH]. cbn. intros a H. lia. }
  destruct (c =? 10); [constructor; [lia|]|]; assumption.
Qed.

Lemma posOf_snoc l c : posOf (l ++ [c]) =
  if c =? 10 then (fst (posOf l) + 1, 1) else (fst (posOf l), snd (posOf l) + 1).
Proof. unfold posOf. now rewrite fold_left_app. Qed.

Lemma last_app_cons {A} (l : list A) x d : last (l ++ [x]) d = x.
Proof. induction l as [|y l IH]; cbn; [reflexivity|]. destruct (l ++ [x]) eqn:E; [destruct l; discriminate|exact IH]. Qed.

Lemma posOf_nls l :
  posOf l = (1 + Z.of_nat (length (nls 0 l)), Z.of_nat (length l) - last (nls 0 l) (-1)).
Proof.
  induction l as [|c l IH] using rev_ind; [reflexivity|].
  rewrite posOf_snoc, IH, nls_app. cbn [fst snd nls].
  destruct (c =? 10).
  - rewrite !app_length, last_app_cons. cbn [length]. f_equal; lia.
  - rewrite app_nil_r, app_length. cbn [length]. f_equal. lia.
Qed.

(* ------------------------------------------------------------------ *)
(** ** Maintenance of the table *)

Lemma pm_step_new l c : pm_step (tab l) (Z.of_nat (length l)) c = tab (l ++ [c]).
Proof.
  unfold pm_step, tab. rewrite last_app_cons, removelast_last.
  destruct (Z.gtb_spec (Z.of_nat (length l)) (Z.of_nat (length l) - 1)); [|lia].
  rewrite nls_app, app_length. cbn [nls length]. rewrite Z.add_0_l.
  replace (Z.of_nat (length l + 1) - 1) with (Z.of_nat (length l)) by lia.
  destruct (c =? 10); rewrite <- app_assoc; reflexivity.
Qed.
Lemma pm_step_old l k c : (k < length l)%nat -> pm_step (tab l) (Z.of_nat k) c = tab l.
Proof.
  intros H. unfold pm_step. unfold tab at 1. rewrite last_app_cons.
  destruct (Z.gtb_spec (Z.of_nat k) (Z.of_nat (length l) - 1)); [lia|reflexivity].
Qed.

Lemma firstn_S_nth {A} k (l : list A) c : nth_error l k = Some c -> firstn (S k) l = firstn k l ++ [c].
Proof. revert l; induction k as [|k IH]; intros [|x l]; cbn; intros H; try discriminate; [congruence|]. f_equal. now apply IH. Qed.

Lemma pm_steps_tab chars n : forall k h,
  (k <= h)%nat -> (h <= length chars)%nat -> (k + n <= length chars)%nat ->
  pm_steps (tab (firstn h chars)) (Z.of_nat k) (firstn n (skipn k chars)) = tab (firstn (Nat.max h (k + n)) chars).
Proof.
  induction n as [|n IH]; intros k h H1 H2 H3.
  - cbn [firstn pm_steps]. f_equal. f_equal. lia.
  - destruct (nth_error chars k) as [c|] eqn:E; [|apply nth_error_None in E; lia].
    assert (skipn k chars = c :: skipn (S k) chars) as S1.
    { rewrite skipn_S_tl. rewrite nth_error_skipn in E. destruct (skipn k chars); cbn in *; congruence. }
    rewrite S1. cbn [firstn pm_steps].
    replace (Z.of_nat k + 1) with (Z.of_nat (S k)) by lia.
    destruct (Nat.eq_dec k h) as [->|N].
    + replace (Z.of_nat h) with (Z.of_nat (length (firstn h chars))) at 1 by (rewrite firstn_length; lia).
      rewrite pm_step_new, <- (firstn_S_nth h chars c E).
      rewrite IH by lia. f_equal. f_equal. lia.
    + rewrite pm_step_old by (rewrite firstn_length; lia).
      rewrite IH by lia. f_equal. f_equal. lia.
Qed.

Lemma tab_not_nil l : tab l <> [].
Proof. unfold tab. destruct (nls 0 l); discriminate. Qed.
Lemma pm_update_tab l i cs : pm_update (tab l) i cs = pm_steps (tab l) i cs.
Proof. unfold pm_update. destruct (tab l) eqn:E; [destruct (tab_not_nil _ E)|reflexivity]. Qed.

(** A string stream reachable by the operations: the table covers the runes
    read, or one more (after [Position]). *)
Definition wfb (b : cstr) : Prop :=
  exists h, (cs_cur b <= h <= S (cs_cur b))%nat /\ (h <= length (cs_chars b))%nat /\
            cs_lines b = tab (firstn h (cs_chars b)).

Lemma wfb_new text : wfb (newCstr text).
Proof. exists O. cbn. repeat split; auto; lia. Qed.

Lemma firstn1_skipn k (l : list Z) c : nth_error l k = Some c -> firstn 1 (skipn k l) = [c].
Proof. rewrite nth_error_skipn. destruct (skipn k l); cbn; congruence. Qed.

Lemma wfb_next b : wfb b -> wfb (snd (b_next b)).
Proof.
  intros (h & H1 & H2 & H3). unfold b_next.
  destruct (nth_error (cs_chars b) (cs_cur b)) as [c|] eqn:E; cbn [snd]; [|exists h; auto].
  assert (cs_cur b < length (cs_chars b))%nat by (apply nth_error_Some; congruence).
  exists (S (cs_cur b)). cbn [cs_cur cs_chars cs_lines]. repeat split; try lia.
  rewrite H3, pm_update_tab, <- (firstn1_skipn _ _ _ E), pm_steps_tab by lia.
  f_equal. f_equal. lia.
Qed.
Lemma wfb_skip b : wfb b -> wfb (snd (b_skip b)).
Proof.
  intros (h & H1 & H2 & H3). unfold b_skip.
  pose proof (ws_prefix_len (skipn (cs_cur b) (cs_chars b))) as L. rewrite skipn_length in L.
  pose proof (ws_prefix_firstn (skipn (cs_cur b) (cs_chars b))) as F.
  destruct (ws_prefix (skipn (cs_cur b) (cs_chars b))) as [|c sp]; cbn [snd]; [exists h; auto|].
  exists (cs_cur b + length (c :: sp))%nat. cbn [cs_cur cs_chars cs_lines].
  split; [|split].
  - lia.
  - cbn [length] in *. lia.
  - rewrite H3, pm_update_tab. rewrite F at 1. rewrite pm_steps_tab by (cbn [length] in *; lia).
    f_equal. f_equal. cbn [length]. lia.
Qed.
Lemma wfb_position b : wfb b -> wfb (snd (b_position b)).
Proof.
  intros (h & H1 & H2 & H3). unfold b_position.
  destruct (nth_error (cs_chars b) (cs_cur b)) as [c|] eqn:E; cbn [snd]; [|exists h; auto].
  assert (cs_cur b < length (cs_chars b))%nat by (apply nth_error_Some; congruence).
  destruct (cs_cur b =? 0)%nat; cbn [snd]; [exists h; auto|].
  exists (S (cs_cur b)). cbn [cs_cur cs_chars cs_lines]. repeat split; try lia.
  rewrite H3, pm_update_tab, <- (firstn1_skipn _ _ _ E), pm_steps_tab by lia.
  f_equal. f_equal. lia.
Qed.

(* ------------------------------------------------------------------ *)
(** ** Lookup *)

Lemma pm_find_at lines idx m i : (i <= m)%nat -> znth lines i <= idx ->
  (forall j, (i < j <= m)%nat -> idx < znth lines j) -> pm_find lines idx m = i.
Proof.
  intros H1 H2. induction m as [|m IH]; intros H3; cbn [pm_find].
  - assert (i = 0)%nat by lia. subst. destruct (idx >=? znth lines 0); reflexivity.
  - destruct (Nat.eq_dec i (S m)) as [->|N].
    + destruct (Z.geb_spec idx (znth lines (S m))); [reflexivity|lia].
    + destruct (Z.geb_spec idx (znth lines (S m))).
      * specialize (H3 (S m) ltac:(lia)). lia.
      * apply IH; [lia|]. intros j Hj. apply H3. lia.
Qed.
Lemma pm_find_none lines idx m : (forall j, (j <= m)%nat -> idx < znth lines j) -> pm_find lines idx m = O.
Proof.
  induction m as [|m IH]; intros H; cbn [pm_find].
  - now destruct (idx >=? znth lines 0).
  - destruct (Z.geb_spec idx (znth lines (S m))); [specialize (H (S m) ltac:(lia)); lia|].
    apply IH. intros j Hj. apply H. lia.
Qed.

Lemma znth_app_r a b j : (length a <= j)%nat -> znth (a ++ b) j = znth b (j - length a).
Proof. unfold znth. intros H. now rewrite app_nth2 by lia. Qed.
Lemma znth_app_l a b j : (j < length a)%nat -> znth (a ++ b) j = znth a j.
Proof. unfold znth. intros H. now rewrite app_nth1 by lia. Qed.
Lemma znth_in a j : (j < length a)%nat -> In (znth a j) a.
Proof. apply nth_In. Qed.
Lemma znth_last a : a <> [] -> znth a (length a - 1) = last a (-1).
Proof.
  intros H. destruct (exists_last H) as (l & x & ->). rewrite last_app_cons, app_length. cbn [length].
  replace (length l + 1 - 1)%nat with (length l) by lia. unfold znth. rewrite app_nth2, Nat.sub_diag by lia. reflexivity.
Qed.

Lemma firstn_split_at {A} (l : list A) idx : (idx < length l)%nat ->
  exists c l2, l = firstn idx l ++ c :: l2 /\ nth_error l idx = Some c.
Proof.
  intros H. destruct (nth_error l idx) as [c|] eqn:E; [|apply nth_error_None in E; lia].
  exists c, (skipn (S idx) l). split; [|reflexivity].
  rewrite <- (firstn_skipn idx l) at 1. f_equal.
  rewrite nth_error_skipn in E. rewrite skipn_S_tl. destruct (skipn idx l); cbn in *; congruence.
Qed.

Lemma pm_lookup_ne lines idx : lines <> [] -> pm_lookup lines idx =
  if idx <? 0 then None
  else
    let maxLineIdx := (length lines - 1)%nat in
    if idx >? znth lines maxLineIdx then None
    else if (maxLineIdx =? 0)%nat then Some (1, idx + 1)
    else
      let maxLineIdx' :=
        if znth lines maxLineIdx =? znth lines (maxLineIdx - 1) then (maxLineIdx - 1)%nat
        else maxLineIdx in
      let lineIdx := pm_find lines idx maxLineIdx' in
      if idx =? znth lines lineIdx then
        Some (Z.of_nat lineIdx + 1,
              if (0 <? lineIdx)%nat then idx - znth lines (lineIdx - 1) else idx + 1)
      else
        Some (Z.of_nat (lineIdx + 1) + 1, idx - znth lines lineIdx).
Proof. intros H. unfold pm_lookup. destruct lines; [congruence|reflexivity]. Qed.

(** The answer of [lookup] for every index covered by the table. *)
Lemma pm_lookup_tab l idx : (idx < length l)%nat ->
  pm_lookup (tab l) (Z.of_nat idx) =
  match nls 0 (firstn (S idx) l), nls 0 l with
  | [], n :: _ => Some (2, Z.of_nat idx - n)
  | _, _ => Some (posAt l idx)
  end.
Proof.
  intros H. destruct (firstn_split_at l idx H) as (c & l2 & El & Ec).
  rewrite (firstn_S_nth _ _ _ Ec). unfold posAt. remember (firstn idx l) as l1 eqn:E1.
  assert (L1 : length l1 = idx) by (subst l1; rewrite firstn_length; lia).
  clear E1 Ec H. subst l idx.
  rewrite posOf_nls. pose proof (nls_range 0 l1) as R1. rewrite Forall_forall in R1.
  pose proof (nls_range (Z.of_nat (length l1) + 1) l2) as R2. rewrite Forall_forall in R2.
  assert (T : tab (l1 ++ c :: l2) = nls 0 l1 ++ (if c =? 10 then [Z.of_nat (length l1)] else [])
             ++ nls (Z.of_nat (length l1) + 1) l2 ++ [Z.of_nat (length l1 + length l2)]).
  { unfold tab. rewrite nls_app, app_length. cbn [nls length]. rewrite Z.add_0_l.
    replace (Z.of_nat (length l1 + S (length l2)) - 1) with (Z.of_nat (length l1 + length l2)) by lia.
    destruct (c =? 10); rewrite <- !app_assoc; reflexivity. }
  rewrite !nls_app. cbn [nls]. rewrite !Z.add_0_l.
  set (N1 := nls 0 l1) in *. set (N2 := nls (Z.of_nat (length l1) + 1) l2) in *.
  set (i := Z.of_nat (length l1)) in *. set (k := Z.of_nat (length l1 + length l2)) in *.
  rewrite pm_lookup_ne by apply tab_not_nil. rewrite T. clear T.
  assert (HN2 : l2 = [] -> N2 = []) by (intros ->; reflexivity).
  clearbody N1 N2.
  destruct (Z.ltb_spec i 0); [lia|].
  set (lines := N1 ++ (if c =? 10 then [i] else []) ++ N2 ++ [k]) in *.
  assert (LL : length lines = (length N1 + (if (c =? 10)%Z then 1 else 0) + length N2 + 1)%nat).
  { unfold lines. rewrite !app_length. destruct (c =? 10); cbn [length]; lia. }
  assert (ZL : znth lines (length lines - 1) = k).
  { rewrite LL. unfold lines. rewrite !app_assoc. rewrite znth_app_r.
    - rewrite !app_length. destruct (c =? 10); cbn [length];
        match goal with |- znth _ ?e = _ => replace e with O by lia end; reflexivity.
    - rewrite !app_length. destruct (c =? 10); cbn [length]; lia. }
  cbv zeta. fold lines. rewrite ZL. destruct (Z.gtb_spec i k); [lia|].
  (* elements after the runes of interest *)
  assert (A : forall j, (length N1 + (if (c =? 10)%Z then 1 else 0) <= j < length N1 + (if (c =? 10)%Z then 1 else 0) + length N2)%nat ->
              i < znth lines j).
  { intros j Hj. unfold lines. rewrite app_assoc, znth_app_r, app_length.
    - rewrite znth_app_l by (rewrite ?app_length; destruct (c =? 10); cbn [length] in *; lia).
      match goal with |- _ < znth N2 ?e => pose proof (R2 _ (znth_in N2 e ltac:(rewrite ?app_length; destruct (c =? 10); cbn [length] in *; lia))) end.
      lia.
    - rewrite ?app_length. destruct (c =? 10); cbn [length] in *; lia. }
  assert (Lk : l2 <> [] -> i < k) by (destruct l2; [congruence|unfold i, k; cbn [length]; lia]).
  destruct (Z.eqb_spec c 10) as [->|Hc].
  - (* the rune is a newline *)
    assert (Zi : znth lines (length N1) = i).
    { unfold lines. rewrite znth_app_r, Nat.sub_diag by lia. reflexivity. }
    destruct (Nat.eqb_spec (length lines - 1) 0) as [Hz|Hz]; [lia|].
    assert (F : forall m, (length N1 <= m)%nat ->
                (forall j, (length N1 < j <= m)%nat -> i < znth lines j) -> pm_find lines i m = length N1).
    { intros m Hm Hj. apply pm_find_at; [exact Hm|lia|exact Hj]. }
    assert (F' : pm_find lines i (if (k =? znth lines (length lines - 1 - 1))%Z then length lines - 1 - 1 else length lines - 1)%nat = length N1).
    { apply F.
      - destruct (k =? _); lia.
      - intros j Hj. destruct (Nat.eq_dec j (length lines - 1)) as [Ej|Ej].
        + subst j. rewrite ZL. destruct l2 as [|x l2]; [|apply Lk; congruence].
          assert (LL' : length lines = (length N1 + 2)%nat) by (rewrite LL, (HN2 eq_refl); cbn; lia).
          rewrite LL' in Hj.
          replace (length N1 + 2 - 1 - 1)%nat with (length N1) in Hj by lia.
          rewrite Zi in Hj. destruct (Z.eqb_spec k i) as [_|NE]; [lia|]. unfold k, i in *. cbn [length] in *. lia.
        + apply A. destruct (k =? _) in Hj; lia. }
    rewrite F', Zi, Z.eqb_refl.
    assert (G : forall (a b : option position), match N1 ++ [i] with [] => a | _ :: _ => b end = b) by (destruct N1; reflexivity).
    rewrite G. f_equal. f_equal; [lia|].
    destruct (Nat.ltb_spec 0 (length N1)) as [L|L].
    + unfold lines. rewrite znth_app_l by lia. rewrite znth_last; [reflexivity|]. destruct N1; [cbn in L; lia|discriminate].
    + destruct N1; [reflexivity|cbn in L; lia].
  - rewrite !app_nil_r. cbn [app] in *.
    assert (Hl2 : N2 = [] \/ l2 <> []) by (destruct l2; [left; apply HN2; reflexivity|right; congruence]).
    destruct (Nat.eqb_spec (length lines - 1) 0) as [Hz|Hz].
    { assert (N1 = []) as -> by (apply length_zero_iff_nil; lia).
      assert (N2 = []) as -> by (apply length_zero_iff_nil; lia).
      cbn. f_equal; lia. }
    assert (D : N1 = [] \/ N1 <> []) by (destruct N1; [left; reflexivity|right; discriminate]).
    destruct D as [EN1|NZ].
    + (* no newline at or before the rune *)
      rewrite EN1 in *. cbn [app length] in *.
      destruct N2 as [|n N2'] eqn:EN2; [cbn in LL; lia|].
      assert (Hk : i < k) by (apply Lk; destruct Hl2 as [Hl2|Hl2]; [discriminate|exact Hl2]).
      assert (i < n) by (assert (i + 1 <= n < i + 1 + Z.of_nat (length l2)) by (apply R2; left; reflexivity); lia).
      rewrite pm_find_none.
      * assert (Z0 : znth lines 0 = n) by (unfold lines; rewrite EN1; reflexivity). rewrite Z0.
        destruct (Z.eqb_spec i n); [lia|]. reflexivity.
      * intros j Hj. destruct (Nat.eq_dec j (length lines - 1)) as [->|Ej]; [rewrite ZL; exact Hk|].
        apply A. destruct (k =? _) in Hj; cbn [length] in *; lia.
    + (* the last newline before it *)
      assert (P1 : (0 < length N1)%nat) by (destruct N1; [congruence|cbn; lia]).
      assert (Zl : znth lines (length N1 - 1) = last N1 (-1)).
      { unfold lines. rewrite znth_app_l by lia. now apply znth_last. }
      assert (Il : last N1 (-1) < i).
      { rewrite <- znth_last by exact NZ.
        assert (0 <= znth N1 (length N1 - 1) < 0 + i) by (apply R1, znth_in; lia). lia. }
      assert (G : forall (a b : option position), match N1 with [] => a | _ :: _ => b end = b) by (destruct N1; [congruence|reflexivity]).
      rewrite G. clear G.
      assert (D2 : l2 = [] \/ l2 <> []) by (destruct l2; [left; reflexivity|right; discriminate]).
      destruct D2 as [El2|El2].
      * (* the rune is the last one covered *)
        assert (EN2 : N2 = []) by (apply HN2; exact El2).
        assert (Eki : k = i) by (unfold k, i; rewrite El2; cbn; lia). rewrite Eki in *.
        assert (LL2 : length lines = (length N1 + 1)%nat) by (rewrite LL, EN2; cbn; lia).
        rewrite LL2 in *. replace (length N1 + 1 - 1)%nat with (length N1) in * by lia.
        rewrite Zl. destruct (Z.eqb_spec i (last N1 (-1))); [lia|].
        rewrite (pm_find_at lines i (length N1) (length N1)) by lia.
        rewrite ZL, Z.eqb_refl. destruct (Nat.ltb_spec 0 (length N1)); [|lia]. rewrite Zl. f_equal. f_equal. lia.
      * assert (Hk : i < k) by (apply Lk; exact El2).
        rewrite (pm_find_at lines i _ (length N1 - 1)).
        -- rewrite Zl. destruct (Z.eqb_spec i (last N1 (-1))); [lia|]. f_equal. f_equal. lia.
        -- destruct (k =? _); lia.
        -- lia.
        -- intros j Hj. destruct (Nat.eq_dec j (length lines - 1)) as [->|Ej]; [rewrite ZL; exact Hk|].
           apply A. destruct (k =? _) in Hj; lia.
Qed.

(** What [PositionLookup] answers. *)
Definition firstNL (l : list Z) : option Z := hd_error (nls 0 l).

Lemma nls_firstn_firstn n m (l : list Z) : (n <= m)%nat -> firstn n (firstn m l) = firstn n l.
Proof. intros H. rewrite firstn_firstn. f_equal. lia. Qed.

Lemma b_position_spec b : wfb b -> fst (b_position b) =
  if (cs_cur b <? length (cs_chars b))%nat then Some (posAt (cs_chars b) (cs_cur b)) else None.
Proof.
  intros (h & H1 & H2 & H3). unfold b_position.
  destruct (nth_error (cs_chars b) (cs_cur b)) as [c|] eqn:E.
  - assert (cs_cur b < length (cs_chars b))%nat as L by (apply nth_error_Some; congruence).
    destruct (Nat.ltb_spec (cs_cur b) (length (cs_chars b))) as [_|]; [|lia].
    destruct (Nat.eqb_spec (cs_cur b) 0) as [E0|E0]; cbn [fst].
    + rewrite E0. reflexivity.
    + rewrite H3, pm_update_tab, <- (firstn1_skipn _ _ _ E), pm_steps_tab by lia.
      replace (Nat.max h (cs_cur b + 1)) with (S (cs_cur b)) by lia.
      rewrite pm_lookup_tab by (rewrite firstn_length; lia).
      rewrite (nls_firstn_firstn (S (cs_cur b))) by lia.
      unfold posAt. rewrite nls_firstn_firstn by lia.
      destruct (nls 0 (firstn (S (cs_cur b)) (cs_chars b))); reflexivity.
  - apply nth_error_None in E. destruct (Nat.ltb_spec (cs_cur b) (length (cs_chars b))); [lia|reflexivity].
Qed.

Lemma b_lookup_cov b h idx : (cs_cur b <= h)%nat -> (h <= length (cs_chars b))%nat ->
  cs_lines b = tab (firstn h (cs_chars b)) ->
  (0 < idx < cs_cur b)%nat ->
  b_lookup b (Z.of_nat idx) =
  match nls 0 (firstn (S idx) (cs_chars b)), nls 0 (firstn h (cs_chars b)) with
  | [], n :: _ => Some (2, Z.of_nat idx - n)
  | _, _ => Some (posAt (cs_chars b) idx)
  end.
Proof.
  intros H1 H2 H3 H4. unfold b_lookup.
  destruct (Z.eqb_spec (Z.of_nat idx) 0); [lia|].
  destruct (Z.geb_spec (Z.of_nat idx) (Z.of_nat (cs_cur b))); [lia|].
  destruct (Z.geb_spec (Z.of_nat idx) (Z.of_nat (length (cs_chars b)))); [lia|].
  cbn [orb]. rewrite H3, pm_lookup_tab by (rewrite firstn_length; lia).
  rewrite (nls_firstn_firstn (S idx)) by lia. unfold posAt. now rewrite nls_firstn_firstn by lia.
Qed.

Lemma b_lookup_nil b idx : idx < 0 \/ (idx <> 0 /\ Z.of_nat (cs_cur b) <= idx) -> b_lookup b idx = None.
Proof.
  intros H. unfold b_lookup. destruct (Z.eqb_spec idx 0); [lia|].
  destruct (Z.geb_spec idx (Z.of_nat (cs_cur b))); [reflexivity|].
  destruct (Z.geb_spec idx (Z.of_nat (length (cs_chars b)))); [reflexivity|]. cbn [orb].
  unfold pm_lookup. destruct (Z.ltb_spec idx 0); [reflexivity|lia].
Qed.
Lemma b_lookup_zero b : b_lookup b 0 = Some (posAt (cs_chars b) 0).
Proof. reflexivity. Qed.

(** A newline occurs in [l]. *)
Definition hasNL (l : list Z) : Prop := In 10 l.
Lemma nls_nil i l : nls i l = [] <-> ~ hasNL l.
Proof.
  unfold hasNL. revert i; induction l as [|c l IH]; intros i; cbn [nls In]; [tauto|].
  destruct (Z.eqb_spec c 10) as [->|N]; split; intros H; try congruence; try tauto.
  - intros [->|H1]; [congruence|]. exact (proj1 (IH (i + 1)) H H1).
  - apply IH. intros H1. apply H. now right.
Qed.

Lemma b_lookup_right b idx : wfb b -> (idx < cs_cur b)%nat ->
  idx = O \/ hasNL (firstn (S idx) (cs_chars b)) \/ ~ hasNL (firstn (S (cs_cur b)) (cs_chars b)) ->
  b_lookup b (Z.of_nat idx) = Some (posAt (cs_chars b) idx).
Proof.
  intros (h & H1 & H2 & H3) Hi [->|[N|N]]; [reflexivity| |]; (destruct (Nat.eq_dec idx 0) as [->|NZ]; [reflexivity|]).
  - rewrite (b_lookup_cov b h) by (auto; lia).
    destruct (nls 0 (firstn (S idx) (cs_chars b))) eqn:E; [|reflexivity].
    apply nls_nil in E. contradiction.
  - rewrite (b_lookup_cov b h) by (auto; lia).
    assert (~ hasNL (firstn h (cs_chars b))) as N'.
    { intros Hn. apply N. unfold hasNL in *.
      replace (firstn h (cs_chars b)) with (firstn h (firstn (S (cs_cur b)) (cs_chars b))) in Hn.
      - clear - Hn. revert Hn. generalize (firstn (S (cs_cur b)) (cs_chars b)) as l. clear.
        induction h as [|h IH]; intros [|x l]; cbn; intros H; try contradiction. destruct H; auto.
      - apply nls_firstn_firstn. lia. }
    apply (nls_nil 0) in N'. rewrite N'. destruct (nls 0 (firstn (S idx) (cs_chars b))); reflexivity.
Qed.

(** The wrong answers are all the others: an index inside the first line, once
    the newline that ends that line has been recorded. *)
Lemma b_lookup_wrong b idx n : wfb b -> (0 < idx < cs_cur b)%nat ->
  ~ hasNL (firstn (S idx) (cs_chars b)) -> nls 0 (firstn (cs_cur b) (cs_chars b)) = n :: tl (nls 0 (firstn (cs_cur b) (cs_chars b))) ->
  b_lookup b (Z.of_nat idx) = Some (2, Z.of_nat idx - n) /\ Z.of_nat idx - n < 0 /\
  posAt (cs_chars b) idx = (1, Z.of_nat idx + 1).
Proof.
  intros (h & H1 & H2 & H3) Hi N E. rewrite (b_lookup_cov b h) by (auto; lia).
  apply (nls_nil 0) in N. rewrite N.
  assert (exists m, firstn h (cs_chars b) = firstn (cs_cur b) (cs_chars b) ++ m) as [m Em].
  { exists (skipn (cs_cur b) (firstn h (cs_chars b))).
    rewrite <- (firstn_skipn (cs_cur b) (firstn h (cs_chars b))) at 1. f_equal. apply nls_firstn_firstn. lia. }
  rewrite Em, nls_app, E. cbn [app]. split; [reflexivity|]. split.
  - assert (firstn (cs_cur b) (cs_chars b) = firstn (S idx) (cs_chars b) ++ skipn (S idx) (firstn (cs_cur b) (cs_chars b))) as S1.
    { rewrite <- (firstn_skipn (S idx) (firstn (cs_cur b) (cs_chars b))) at 1. f_equal. apply nls_firstn_firstn. lia. }
    rewrite S1, nls_app, N in E. cbn [app] in E.
    match type of E with nls ?i ?l = _ => pose proof (nls_range i l) as R; rewrite E in R end.
    inversion R as [|? ? R1 R2]; subst. rewrite firstn_length in R1. lia.
  - unfold posAt. rewrite posOf_nls.
    assert (nls 0 (firstn idx (cs_chars b)) = []) as ->.
    { apply nls_nil. apply nls_nil in N. intros Hn. apply N. unfold hasNL in *.
      replace (firstn idx (cs_chars b)) with (firstn idx (firstn (S idx) (cs_chars b))) in Hn by (apply nls_firstn_firstn; lia).
      rewrite <- (firstn_skipn idx (firstn (S idx) (cs_chars b))). apply in_or_app. now left. }
    cbn [length last]. rewrite firstn_length. f_equal; lia.
Qed.

(* ------------------------------------------------------------------ *)
(** ** Wrapped streams *)

Definition wfs (s : stream) : Prop := wfb (sbase s).

Lemma wfs_next s : wfs s -> wfs (next1 s).
Proof.
  destruct s as [ls b]. unfold wfs, next1, next. cbn [layers sbase]. intros H.
  assert (wfb (snd (snd (next_l ls b)))) as X.
  { induction ls as [|[p k] ls IH]; cbn [next_l].
    - pose proof (wfb_next b H). destruct (b_next b); exact H0.
    - destruct (nth_error p k); [exact H|]. destruct (next_l ls b) as [c [l1 b1]]; exact IH. }
  destruct (next_l ls b) as [c [l1 b1]]; exact X.
Qed.
Lemma wfs_prepend s p : wfs s -> wfs (prepend s p). Proof. destruct p; auto. Qed.
Lemma wfs_unwrap n s : wfs s -> wfs (unwrap n s). Proof. auto. Qed.
Lemma wfs_position s : wfs s -> wfs (snd (positionOf s)).
Proof.
  destruct s as [ls b]. unfold wfs, positionOf. cbn [layers sbase]. intros H.
  assert (wfb (snd (position_l ls b))) as X.
  { induction ls as [|[p k] ls IH]; cbn [position_l]; [now apply wfb_position|].
    destruct (length p <=? k)%nat; [exact IH|exact H]. }
  destruct (position_l ls b); exact X.
Qed.
Lemma wfs_skip s : wfs s -> wfs (snd (skipSpaces s)).
Proof.
  intros H. unfold skipSpaces. destruct (layers s) eqn:E.
  - pose proof (wfb_skip _ H). destruct (b_skip (sbase s)); exact H0.
  - generalize (length (rest s)). intros n. clear E. revert s H. induction n as [|n IH]; intros s H; cbn [p_skip]; [exact H|].
    destruct (peek s =? EOFChar); [exact H|]. destruct (negb (isWS (peek s))); [exact H|].
    pose proof (wfs_next s H) as H1. unfold next1 in H1. destruct (next s) as [c s1]. cbn in H1.
    specialize (IH s1 H1). destruct (p_skip n s1); exact IH.
Qed.
Lemma wfs_match s w : wfs s -> wfs (snd (matchRunes s w)).
Proof.
  unfold matchRunes. revert s; induction w as [|x w IH]; intros s H; cbn [match_l]; [exact H|].
  pose proof (wfs_next s H) as H1. unfold next1 in H1. destruct (next s) as [c s1]. cbn in H1.
  destruct (c =? EOFChar); [exact H1|]. destruct (negb (c =? x)); [exact H1|].
  specialize (IH s1 H1). destruct (match_l s1 w) as [[r ok] s2]; exact IH.
Qed.
