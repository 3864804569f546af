(** The terminals as functions of the remaining text. *)
From Verif Require Import Base Stream StreamFacts CallFacts Node Rule SpecStream SpecRule.

(** (literal when matched, runes read, runes unused). *)
Definition tres := (option (list Z) * list Z * list Z)%type.
Definition tfail (rd : list Z) : tres := (None, rd, rd).

Definition toRes (ty : rtype) (b : rbase) (sticky : bool) (t : tres) (pos : option position) (idx : Z * eerr) : result :=
  match t with
  | (Some cs, rd, un) => mkRes (Some (mkNode ty b cs [] pos sticky)) None 0 rd un sticky
  | (None, rd, un) => mkRes None (Some (snd idx)) (fst idx) rd un sticky
  end.

Definition headIs (t : Z) (l : list Z) : bool := match l with c :: _ => c =? t | [] => false end.

Definition tchar (t f : Z) (l : list Z) : tres :=
  match l with
  | [] => tfail []
  | _ =>
    if f =? SUGGEST_SKIP then
      let sp := ws_prefix l in
      if isWS t && nonempty sp then
        match find_idx t sp with
        | Some i => (Some [t], sp, skipn (S i) sp)
        | None => tfail sp
        end
      else if headIs t (skipn (length sp) l) then (Some [t], sp ++ [t], []) else tfail sp
    else if headIs t l then (Some [t], [t], []) else tfail []
  end.

Definition tlit (skip : bool) (t : list Z) (l : list Z) : tres :=
  match l with
  | [] => tfail []
  | _ =>
    let sp := if skip then ws_prefix l else [] in
    let lead := if skip then ws_prefix t else [] in
    if (length sp <? length lead)%nat then tfail sp
    else if negb (tail_is sp lead) then tfail sp
    else
      let m := litmatch (skipn (length lead) t) (skipn (length sp) l) in
      if snd m then (Some t, sp ++ fst m, []) else tfail (sp ++ fst m)
  end.

Definition trange (lo hi f : Z) (l : list Z) : tres :=
  match l with
  | [] => tfail []
  | _ =>
    let sp := if f =? SUGGEST_SKIP then ws_prefix l else [] in
    match find_idxp (fun c => (lo <=? c) && (c >=? hi)) sp with
    | Some i => (Some [nth i sp 0], sp, skipn (S i) sp)
    | None =>
      match skipn (length sp) l with
      | c :: _ => if (lo <=? c) && (c <=? hi) then (Some [c], sp ++ [c], []) else tfail sp
      | [] => tfail sp
      end
    end
  end.

Definition teof (f : Z) (l : list Z) : tres :=
  let sp := if f =? 1 then ws_prefix l else [] in
  match skipn (length sp) l with
  | [] => (Some [EOFChar], sp, [])
  | _ => tfail sp
  end.

(** [peek] after moving. *)
Lemma moves_pos n s t : moves n s t -> moves n s (snd (positionOf t)).
Proof. intros M. eapply same_trans; [exact M|apply position_same]. Qed.
Lemma moves_pos' n s t : moves n (snd (positionOf s)) t -> moves n s t.
Proof.
  intros M. unfold moves in *. eapply same_trans; [|exact M]. apply nextn_same, position_same.
Qed.
Lemma rest_pos s : rest (snd (positionOf s)) = rest s.
Proof. symmetry. apply same_rest, position_same. Qed.

Lemma peek_eof s : clean (rest s) -> (peek s =? EOFChar) = match rest s with [] => true | _ => false end.
Proof.
  intros C. rewrite peek_rest. destruct (rest s) as [|c l] eqn:E; [reflexivity|]. eapply clean_not_eof; eauto.
Qed.
Lemma peek_head s t : 0 <= t -> clean (rest s) -> (peek s =? t) = headIs t (rest s).
Proof.
  intros T C. rewrite peek_rest. destruct (rest s); cbn [headIs]; [|reflexivity].
  apply Z.eqb_neq. unfold EOFChar. lia.
Qed.

Definition readOf (t : tres) : list Z := snd (fst t).
Definition unusedOf (t : tres) : list Z := snd t.

Lemma failT_res w p sticky rd s ty b pos : fst (failT w p sticky rd s) = toRes ty b sticky (tfail rd) pos (cursor s, EMissing w p).
Proof. reflexivity. Qed.

Lemma next_head s t : headIs t (rest s) = true -> exists u, next s = (t, u) /\ moves 1 s u.
Proof.
  destruct (rest s) as [|c l] eqn:E; cbn; [discriminate|]. intros H. apply Z.eqb_eq in H as ->.
  destruct (moves_next s t l E) as (u & A & B & _). eauto.
Qed.

Lemma evalChar_pure b t s f : 0 <= t -> clean (rest s) ->
  exists s' pos idx, evalChar b t s f = (toRes TChar b true (tchar t f (rest s)) pos idx, s') /\
    moves (length (readOf (tchar t f (rest s)))) s s'.
Proof.
  intros T C. unfold evalChar, tchar. rewrite (peek_eof s C).
  destruct (rest s) as [|c0 l0] eqn:E0.
  { eexists s, None, (cursor s, _). split; [reflexivity|apply moves_refl]. }
  cbn [negb]. set (l := c0 :: l0) in *. set (s1 := snd (positionOf s)).
  assert (R1 : rest s1 = l) by (unfold s1; rewrite rest_pos; exact E0).
  assert (M1 : forall n u, moves n s1 u -> moves n s u) by (intros; now apply moves_pos').
  assert (TAIL : forall read s2, clean (rest s2) -> moves (length read) s s2 ->
    exists s' pos idx,
      (if negb (peek s2 =? t) then failT (WChar b t) (AtPos (fst (positionOf s))) true read s2
       else let '(pos, s') := positionOf s2 in
        let '(c, s'') := next s' in
        (mkRes (Some (mkNode TChar b [c] [] pos true)) None 0 (read ++ [c]) [] true, s''))
      = (toRes TChar b true (if headIs t (rest s2) then (Some [t], read ++ [t], []) else tfail read) pos idx, s') /\
      moves (length (readOf (if headIs t (rest s2) then (Some [t], read ++ [t], []) else tfail read))) s s').
  { intros read s2 C2 M2. rewrite peek_head by assumption. destruct (headIs t (rest s2)) eqn:H; cbn [negb].
    - pose proof (rest_pos s2) as RP. pose proof (moves_pos _ _ _ M2) as MP. destruct (positionOf s2) as [pos s3]; cbn [snd] in *.
      destruct (next_head s3 t) as (u & Hn & Mu); [now rewrite RP|]. rewrite Hn.
      exists u, pos, (0, EMissing WEOF NoPlace). split; [reflexivity|]. cbn [readOf fst snd]. rewrite app_length. cbn [length].
      eapply moves_trans; eauto.
    - eexists s2, None, (cursor s2, _). split; [reflexivity|exact M2]. }
  destruct (f =? SUGGEST_SKIP).
  - destruct (skip_spec s1) as (s2 & Hs & M2). rewrite Hs. rewrite R1 in *.
    pose proof (moves_rest _ _ _ M2) as R2. rewrite R1 in R2.
    destruct (isWS t && nonempty (ws_prefix l)).
    + destruct (find_idx t (ws_prefix l)) as [i|].
      * eexists s2, _, (0, EMissing WEOF NoPlace). split; [reflexivity|]. cbn [readOf fst snd]. apply M1, M2.
      * eexists s2, None, (cursor s2, _). split; [reflexivity|]. apply M1, M2.
    + destruct (TAIL (ws_prefix l) s2) as (s' & pos & idx & A & B).
      * rewrite R2. apply clean_skipn. exact C.
      * apply M1, M2.
      * rewrite R2 in A, B. eauto.
  - destruct (TAIL [] s1) as (s' & pos & idx & A & B).
    + rewrite R1. exact C.
    + apply M1, moves_refl.
    + rewrite R1 in A, B. cbn [app] in *. eauto.
Qed.

Lemma tail_is_nil sp : tail_is sp [] = true.
Proof. unfold tail_is. cbn [length]. rewrite Nat.sub_0_r, skipn_all. reflexivity. Qed.

Lemma evalChars_pure b t s f : clean (rest s) ->
  exists s' pos idx, evalChars b t s f = (toRes TChars b true (tlit (skips f false) t (rest s)) pos idx, s') /\
    moves (length (readOf (tlit (skips f false) t (rest s)))) s s'.
Proof.
  intros C. unfold evalChars, tlit. rewrite (peek_eof s C).
  destruct (rest s) as [|c0 l0] eqn:E0.
  { eexists s, None, (cursor s, _). split; [reflexivity|apply moves_refl]. }
  set (l := c0 :: l0) in *. set (s1 := snd (positionOf s)).
  assert (R1 : rest s1 = l) by (unfold s1; rewrite rest_pos; exact E0).
  assert (M1 : forall n u, moves n s1 u -> moves n s u) by (intros; now apply moves_pos').
  assert (TAIL : forall read toM start s2, clean (rest s2) -> moves (length read) s s2 ->
    exists s' pos idx,
     (let '(got, ok, s') := matchRunes s2 toM in
      if ok then
        (mkRes (Some (mkNode TChars b t [] (positionLookup s' start) true)) None 0 (read ++ got) [] true, s')
      else failT (WChars b t) (AtPos (fst (positionOf s))) true (read ++ got) s')
      = (toRes TChars b true (let m := litmatch toM (rest s2) in
          if snd m then (Some t, read ++ fst m, []) else tfail (read ++ fst m)) pos idx, s') /\
      moves (length (readOf (let m := litmatch toM (rest s2) in
          if snd m then (Some t, read ++ fst m, []) else tfail (read ++ fst m)))) s s').
  { intros read toM start s2 C2 M2. destruct (match_spec toM s2 C2) as (u & Hm & Mu). rewrite Hm. cbv zeta.
    destruct (snd (litmatch toM (rest s2))); [eexists u, _, (0, EMissing WEOF NoPlace)|eexists u, None, (cursor u, _)];
      (split; [reflexivity|]; cbn [readOf fst snd tfail]; rewrite app_length; eapply moves_trans; eauto). }
  cbv zeta. unfold skips. cbn [andb]. rewrite orb_false_r. destruct (f =? SUGGEST_SKIP).
  - destruct (skip_spec s1) as (s2 & Hs & M2). rewrite Hs. rewrite R1 in *. unfold leadingWS.
    pose proof (moves_rest _ _ _ M2) as R2. rewrite R1 in R2.
    destruct (length (ws_prefix l) <? length (ws_prefix t))%nat; [eexists s2, None, (cursor s2, _); split; [reflexivity|apply M1, M2]|].
    destruct (negb (tail_is (ws_prefix l) (ws_prefix t))); [eexists s2, None, (cursor s2, _); split; [reflexivity|apply M1, M2]|].
    rewrite <- R2. apply TAIL; [|apply M1, M2]. rewrite R2. apply clean_skipn. exact C.
  - cbn [length Nat.ltb Nat.leb]. rewrite tail_is_nil. cbn [negb skipn]. rewrite <- R1.
    apply TAIL; [rewrite R1; exact C|]. apply M1, moves_refl.
Qed.

Lemma evalString_pure b t s f : clean (rest s) ->
  exists s' pos idx, evalString b t s f = (toRes TString b false (tlit (skips f true) t (rest s)) pos idx, s') /\
    moves (length (readOf (tlit (skips f true) t (rest s)))) s s'.
Proof.
  intros C. unfold evalString, tlit. rewrite (peek_eof s C).
  destruct (rest s) as [|c0 l0] eqn:E0.
  { eexists s, None, (cursor s, _). split; [reflexivity|apply moves_refl]. }
  set (l := c0 :: l0) in *. set (s1 := snd (positionOf s)).
  assert (R1 : rest s1 = l) by (unfold s1; rewrite rest_pos; exact E0).
  assert (M1 : forall n u, moves n s1 u -> moves n s u) by (intros; now apply moves_pos').
  assert (TAIL : forall read toM s2, clean (rest s2) -> moves (length read) s s2 ->
    exists s' pos idx,
     (let '(got, ok, s') := matchRunes s2 toM in
      if ok then
        (mkRes (Some (mkNode TString b t [] (positionLookup s' (cursor s' - Z.of_nat (length t))) false)) None 0 (read ++ got) [] false, s')
      else failT (WString b t) (AtPos (fst (positionOf s))) false (read ++ got) s')
      = (toRes TString b false (let m := litmatch toM (rest s2) in
          if snd m then (Some t, read ++ fst m, []) else tfail (read ++ fst m)) pos idx, s') /\
      moves (length (readOf (let m := litmatch toM (rest s2) in
          if snd m then (Some t, read ++ fst m, []) else tfail (read ++ fst m)))) s s').
  { intros read toM s2 C2 M2. destruct (match_spec toM s2 C2) as (u & Hm & Mu). rewrite Hm. cbv zeta.
    destruct (snd (litmatch toM (rest s2))); [eexists u, _, (0, EMissing WEOF NoPlace)|eexists u, None, (cursor u, _)];
      (split; [reflexivity|]; cbn [readOf fst snd tfail]; rewrite app_length; eapply moves_trans; eauto). }
  cbv zeta. unfold skips. cbn [andb]. destruct ((f =? SUGGEST_SKIP) || (f =? SUGGEST_NOT_SKIP)).
  - destruct (skip_spec s1) as (s2 & Hs & M2). rewrite Hs. rewrite R1 in *. unfold leadingWS.
    pose proof (moves_rest _ _ _ M2) as R2. rewrite R1 in R2.
    destruct (length (ws_prefix l) <? length (ws_prefix t))%nat; [eexists s2, None, (cursor s2, _); split; [reflexivity|apply M1, M2]|].
    destruct (negb (tail_is (ws_prefix l) (ws_prefix t))); [eexists s2, None, (cursor s2, _); split; [reflexivity|apply M1, M2]|].
    rewrite <- R2. apply TAIL; [|apply M1, M2]. rewrite R2. apply clean_skipn. exact C.
  - cbn [length Nat.ltb Nat.leb]. rewrite tail_is_nil. cbn [negb skipn]. rewrite <- R1.
    apply TAIL; [rewrite R1; exact C|]. apply M1, moves_refl.
Qed.

Lemma evalRange_pure b lo hi s f : 0 <= lo -> clean (rest s) ->
  exists s' pos idx, evalRange b lo hi s f = (toRes TChars b true (trange lo hi f (rest s)) pos idx, s') /\
    moves (length (readOf (trange lo hi f (rest s)))) s s'.
Proof.
  intros T C. unfold evalRange, trange. rewrite (peek_eof s C).
  destruct (rest s) as [|c0 l0] eqn:E0.
  { eexists s, None, (cursor s, _). split; [reflexivity|apply moves_refl]. }
  set (l := c0 :: l0) in *. set (pos := positionLookup s (cursor s - 1)).
  assert (TAIL : forall read s2, clean (rest s2) -> moves (length read) s s2 ->
    exists s' ps idx,
      (let s1 := snd (positionOf s2) in
       let c := peek s1 in
       if (lo <=? c) && (c <=? hi) then
        let '(c', s2) := next s1 in
        (mkRes (Some (mkNode TChars b [c'] [] pos true)) None 0 (read ++ [c']) [] true, s2)
      else failT (WRange b lo hi) (AtPos (fst (positionOf s2))) true read s1)
      = (toRes TChars b true (match rest s2 with
      | c :: _ => if (lo <=? c) && (c <=? hi) then (Some [c], read ++ [c], []) else tfail read
      | [] => tfail read
      end) ps idx, s') /\
      moves (length (readOf (match rest s2 with
      | c :: _ => if (lo <=? c) && (c <=? hi) then (Some [c], read ++ [c], []) else tfail read
      | [] => tfail read
      end))) s s').
  { intros read s2 C2 M2. cbv zeta. pose proof (rest_pos s2) as RP. pose proof (moves_pos _ _ _ M2) as MP.
    destruct (positionOf s2) as [p s3]; cbn [snd] in *. rewrite peek_rest, RP.
    destruct (rest s2) as [|c r] eqn:E2.
    - replace (lo <=? EOFChar) with false by (symmetry; apply Z.leb_gt; unfold EOFChar; lia). cbn [andb].
      eexists s3, None, (cursor s3, _). split; [reflexivity|exact MP].
    - destruct ((lo <=? c) && (c <=? hi)).
      + destruct (moves_next s3 c r RP) as (u & Hn & Mu & _). rewrite Hn. exists u, pos, (0, EMissing WEOF NoPlace). split; [reflexivity|].
        cbn [readOf fst snd]. rewrite app_length. eapply moves_trans; eauto.
      + eexists s3, None, (cursor s3, _). split; [reflexivity|exact MP]. }
  destruct (f =? SUGGEST_SKIP).
  - destruct (skip_spec s) as (s2 & Hs & M2). rewrite Hs. rewrite E0 in *.
    pose proof (moves_rest _ _ _ M2) as R2. rewrite E0 in R2. fold l in Hs, M2, R2 |- *.
    destruct (find_idxp _ (ws_prefix l)) as [i|].
    + exists s2, pos, (0, EMissing WEOF NoPlace). split; [reflexivity|exact M2].
    + rewrite <- R2. apply TAIL; [rewrite R2; apply clean_skipn; exact C|exact M2].
  - cbn [find_idxp length skipn]. fold l. rewrite <- E0. apply TAIL; [now rewrite E0|apply moves_refl].
Qed.

Lemma evalEOF_pure b s f : clean (rest s) ->
  exists s' pos idx, evalEOF b s f =
    (toRes TEOF (mkBase nameEOF (b_virtual b) (b_nondata b) (b_tokenized b)) true (teof f (rest s)) pos idx, s') /\
    moves (length (readOf (teof f (rest s)))) s s'.
Proof.
  intros C. unfold evalEOF, teof.
  assert (exists s1, (if f =? 1 then skipSpaces s else ([], s)) = ((if f =? 1 then ws_prefix (rest s) else []), s1) /\
            moves (length (if f =? 1 then ws_prefix (rest s) else [])) s s1) as (s1 & E & M).
  { destruct (f =? 1); [apply skip_spec|]. exists s. split; [reflexivity|apply moves_refl]. }
  rewrite E. set (sp := if f =? 1 then ws_prefix (rest s) else []) in *. clearbody sp.
  pose proof (moves_rest _ _ _ M) as R. rewrite peek_eof by (rewrite R; now apply clean_skipn). rewrite <- R.
  destruct (rest s1) eqn:E1.
  - pose proof (moves_pos _ _ _ M) as MP. destruct (positionOf s1) as [p s2]; cbn [snd] in *.
    exists s2, p, (0, EMissing WEOF NoPlace). split; [reflexivity|exact MP].
  - eexists s1, None, (cursor s1, _). split; [reflexivity|exact M].
Qed.
