(** Blocks of single runes. *)
From Verif Require Import Base Stream StreamFacts CallFacts Node Rule SpecStream SpecRule TermFacts TermSpec EvalInv SpecBlock.

Lemma list_len_ind (P : list Z -> Prop) : (forall l, (forall l', (length l' < length l)%nat -> P l') -> P l) -> forall l, P l.
Proof.
  intros H l. remember (length l) as n eqn:E. assert (L : (length l <= n)%nat) by lia. clear E. revert l L.
  induction n as [|n IH]; intros l L; apply H; intros l' L'; [lia|]. apply IH. lia.
Qed.

(** A rune in a block. *)
Lemma char_here fuel g b c u s l : rest s = c :: l -> 0 <= c -> clean l ->
  exists pos s', eval (S fuel) g (RChar b c u) s NOT_SKIP = Ok (mkRes (Some (mkNode TChar b [c] [] pos true)) None 0 [c] [] true, s') /\
    rest s' = l /\ depth s' = depth s.
Proof.
  intros E P C. cbn [eval evalStep]. destruct (evalChar_pure b c s NOT_SKIP) as (s' & pos & idx & -> & M); auto.
  { rewrite E. constructor; auto. }
  rewrite E in *. unfold tchar in *. cbn [headIs] in *. rewrite Z.eqb_refl in *. cbn in M. cbn. exists pos, s'.
  split; [reflexivity|]. split; [rewrite (moves_rest _ _ _ M), E; reflexivity|]. exact (moves_depth _ _ _ M).
Qed.
Lemma char_not fuel g b c u s : clean (rest s) -> 0 <= c -> headIs c (rest s) = false ->
  exists (idx : Z * eerr) s', eval (S fuel) g (RChar b c u) s NOT_SKIP = Ok (mkRes None (Some (snd idx)) (fst idx) [] [] true, s') /\
    rest s' = rest s /\ depth s' = depth s.
Proof.
  intros C P E. cbn [eval evalStep]. destruct (evalChar_pure b c s NOT_SKIP) as (s' & pos & idx & -> & M); auto.
  assert (X : tchar c NOT_SKIP (rest s) = tfail []).
  { unfold tchar. destruct (rest s); [reflexivity|]. change (NOT_SKIP =? SUGGEST_SKIP) with false. now rewrite E. }
  rewrite X in *. cbn in *. exists idx, s'. split; [reflexivity|]. split; [rewrite (moves_rest _ _ _ M); reflexivity|]. exact (moves_depth _ _ _ M).
Qed.
Lemma prepend_nil s : prepend s [] = s.
Proof. reflexivity. Qed.

Section Block.
Variables (fuel0 : nat) (g : rules_t) (bc : rbase) (c : Z) (uc : bool) (esc : option (rbase * Z * bool)).
Hypothesis Pc : 0 <= c.
Hypothesis Pe : forall b e u, esc = Some (b, e, u) -> 0 <= e /\ e <> c.

Definition escRule : option rule := option_map (fun x => let '(b, e, u) := x in RChar b e u) esc.
Definition escRune : option Z := option_map (fun x => snd (fst x)) esc.
Notation rec := (eval (S fuel0) g).
Notation cl := (RChar bc c uc).

Lemma loop_chars : forall body fuel cs used unused content, (length body < fuel)%nat -> rest cs = body -> clean body -> 
  (esc <> None \/ unused = []) ->
  match upToClose 2 escRune c body with
  | Some (ct, after) => exists cs' res used' nc, blockLoop rec fuel cl escRule [] cs used unused content =
      Ok (cs', BClose res used' [] (content ++ ct)) /\ rest cs' = after /\ depth cs' = depth cs /\
      r_node res = Some nc /\ n_chars nc = [c] /\ n_kids nc = []
  | None => exists cs' u un, blockLoop rec fuel cl escRule [] cs used unused content = Ok (cs', BEOF u un) /\
      rest cs' = [] /\ depth cs' = depth cs
  end.
Proof.
  induction body as [body IH] using list_len_ind. intros fuel cs used unused content L E C HU.
  destruct fuel as [|fuel]; [lia|]. cbn [blockLoop].
  (* the end of the text *)
  destruct body as [|x l1].
  { cbn [upToClose].
    assert (B : exists cs' u un, blockIter rec cl escRule [] cs used unused content = Ok (cs', inr (BEOF u un)) /\ rest cs' = [] /\ depth cs' = depth cs).
    { unfold blockIter, escRule in *. destruct esc as [[[be e] ue]|]; cbn [option_map].
      - destruct (Pe _ _ _ eq_refl) as [P1 P2].
        destruct (char_not fuel0 g be e ue cs) as (i & s1 & -> & R1 & D1); [now rewrite E|lia|now rewrite E|]. cbn [bind r_node r_read]. rewrite ?prepend_nil.
        destruct (char_not fuel0 g bc c uc s1) as (i2 & s2 & -> & R2 & D2); [now rewrite R1, E|lia|now rewrite R1, E|]. cbn [bind r_node r_unused].
        rewrite ?prepend_nil, peek_rest, R2, R1, E. cbn. do 3 eexists. split; [reflexivity|]. split; congruence.
      - destruct HU as [HU|HU]; [congruence|]. subst unused. cbn [bind]. rewrite ?prepend_nil.
        destruct (char_not fuel0 g bc c uc cs) as (i2 & s2 & -> & R2 & D2); [now rewrite E|lia|now rewrite E|]. cbn [bind r_node r_unused].
        rewrite ?prepend_nil, peek_rest, R2, E. cbn. do 3 eexists. split; [reflexivity|]. split; congruence. }
    destruct B as (cs' & u & un & -> & R & D). cbn [bind]. eauto 6. }
  inversion C as [|? ? Px Cl]; subst x0 l. clear C.
  set (isEsc := match escRune with Some e => x =? e | None => false end).
  assert (EU : upToClose 2 escRune c (x :: l1) =
    if isEsc then match l1 with [] => None | y :: l2 => match upToClose 2 escRune c l2 with None => None
        | Some (ct, after) => Some ((if y =? c then [c] else repeat x 2 ++ [y]) ++ ct, after) end end
    else if x =? c then Some ([], l1)
    else match upToClose 2 escRune c l1 with None => None | Some (ct, after) => Some (x :: ct, after) end) by reflexivity.
  rewrite EU. clear EU. destruct isEsc eqn:EE; unfold isEsc in EE.
  - (* an escape *)
    unfold escRune, escRule in *. destruct esc as [[[be e] ue]|]; [|discriminate]. cbn [option_map fst snd] in *. apply Z.eqb_eq in EE. subst x.
    destruct (Pe _ _ _ eq_refl) as [P1 P2]. unfold blockIter.
    destruct (char_here fuel0 g be e ue cs l1 E P1 Cl) as (pe & s1 & -> & R1 & D1).
    cbn [bind r_node]. rewrite charsUsed_ok by (constructor; cbn; auto; repeat constructor; auto). cbn [r_read r_unused length Nat.sub firstn bind].
    rewrite ?prepend_nil.
    destruct l1 as [|y l2].
    + destruct (char_not fuel0 g bc c uc s1) as (i2 & s2 & -> & R2 & D2); [now rewrite R1|lia|now rewrite R1|]. cbn [bind r_node r_unused].
      rewrite ?prepend_nil, peek_rest, R2, R1. cbn. do 3 eexists. split; [reflexivity|]. split; congruence.
    + inversion Cl as [|? ? Py Cl2]; subst. destruct (Z.eqb_spec y c) as [->|NE].
      * destruct (char_here fuel0 g bc c uc s1 l2 R1 Pc Cl2) as (pc & s2 & -> & R2 & D2).
        cbn [bind r_node]. rewrite charsUsed_ok by (constructor; cbn; auto; repeat constructor; auto). cbn [r_read r_unused length Nat.sub firstn bind].
        assert (L2 : (length l2 < length (e :: c :: l2))%nat) by (cbn; lia). cbn in L.
        specialize (IH l2 L2 fuel s2 ((used ++ [e]) ++ [c]) [] (content ++ [c]) ltac:(lia) R2 Cl2 ltac:(auto)).
        destruct (upToClose 2 (Some e) c l2) as [[ct after]|].
        -- destruct IH as (cs' & res & u' & nc & -> & R & D & N). do 4 eexists. rewrite <- app_assoc. split; [reflexivity|].
           split; [exact R|]. split; [congruence|exact N].
        -- destruct IH as (cs' & u & un & -> & R & D). do 3 eexists. split; [reflexivity|]. split; congruence.
      * destruct (char_not fuel0 g bc c uc s1) as (i2 & s2 & -> & R2 & D2); [rewrite R1; now constructor|lia|rewrite R1; cbn; lia|].
        cbn [bind r_node r_unused]. rewrite ?prepend_nil, peek_rest, R2, R1. rewrite (clean_not_eof y l2 Cl).
        rewrite R1 in R2. destruct (moves_next _ _ _ R2) as (s3 & -> & M3 & R3). cbn [bind].
        assert (L2 : (length l2 < length (e :: y :: l2))%nat) by (cbn; lia). cbn in L.
        specialize (IH l2 L2 fuel s3 (used ++ [e]) [] (((content ++ [e]) ++ [e] ++ [y])) ltac:(lia) R3 Cl2 ltac:(auto)).
        pose proof (moves_depth _ _ _ M3) as D3.
        destruct (upToClose 2 (Some e) c l2) as [[ct after]|].
        -- destruct IH as (cs' & res & u' & nc & -> & R & D & N). do 4 eexists. split; [|split; [exact R|split; [congruence|exact N]]].
           do 3 f_equal. rewrite <- !app_assoc. reflexivity.
        -- destruct IH as (cs' & u & un & -> & R & D). do 3 eexists. split; [reflexivity|]. split; congruence.
  - (* no escape *)
    assert (B : exists s1, depth s1 = depth cs /\ rest s1 = x :: l1 /\
      blockIter rec cl escRule [] cs used unused content =
        let* (res, cs) := rec cl s1 NOT_SKIP in
        match r_node res with
        | Some _ => let* u := charsUsed res in Ok (cs, inr (BClose res (used ++ content ++ u) (r_unused res) content))
        | None => let cs := prepend cs (r_unused res) in
          if peek cs =? EOFChar then Ok (cs, inr (BEOF (used ++ content ++ []) (r_unused res)))
          else let '(c, cs) := next cs in Ok (cs, inl (used, [], (content ++ []) ++ [] ++ [c]))
        end).
    { unfold blockIter, escRule, escRune in *. destruct esc as [[[be e] ue]|]; cbn [option_map fst snd] in *.
      - destruct (Pe _ _ _ eq_refl) as [P1 P2].
        destruct (char_not fuel0 g be e ue cs) as (i & s1 & -> & R1 & D1); [rewrite E; now constructor|lia|now rewrite E|].
        cbn [bind r_node r_read]. rewrite ?prepend_nil. exists s1. split; [exact D1|]. split; [congruence|]. reflexivity.
      - destruct HU as [HU|HU]; [congruence|]. subst unused. cbn [bind]. rewrite ?prepend_nil. exists cs. auto. }
    destruct B as (s1 & D1 & R1 & ->). destruct (Z.eqb_spec x c) as [->|NE].
    + destruct (char_here fuel0 g bc c uc s1 l1 R1 Pc Cl) as (pc & s2 & -> & R2 & D2).
      cbn [bind r_node]. rewrite charsUsed_ok by (constructor; cbn; auto; repeat constructor; auto). cbn [r_read r_unused length Nat.sub firstn bind].
      do 4 eexists. rewrite app_nil_r. split; [reflexivity|]. split; [exact R2|]. split; [congruence|]. cbn. auto.
    + destruct (char_not fuel0 g bc c uc s1) as (i2 & s2 & -> & R2 & D2); [rewrite R1; now constructor|lia|rewrite R1; cbn; lia|].
      cbn [bind r_node r_unused]. rewrite ?prepend_nil, peek_rest, R2, R1. rewrite (clean_not_eof x l1) by now constructor.
      rewrite R1 in R2. destruct (moves_next _ _ _ R2) as (s3 & -> & M3 & R3). cbn [bind]. pose proof (moves_depth _ _ _ M3) as D3.
      assert (L2 : (length l1 < length (x :: l1))%nat) by (cbn; lia). cbn in L.
      specialize (IH l1 L2 fuel s3 used [] ((content ++ []) ++ [] ++ [x]) ltac:(lia) R3 Cl ltac:(auto)).
      destruct (upToClose 2 escRune c l1) as [[ct after]|].
      * destruct IH as (cs' & res & u' & nc & -> & R & D & N). do 4 eexists. split; [|split; [exact R|split; [congruence|exact N]]].
        do 3 f_equal. rewrite app_nil_r. cbn [app]. now rewrite <- app_assoc.
      * destruct IH as (cs' & u & un & -> & R & D). do 3 eexists. split; [reflexivity|]. split; congruence.
Qed.

Theorem block_chars b bo o uo v s f pre body fuel : 0 <= o -> clean (rest s) -> rest s = pre ++ o :: body -> white pre ->
  (f <> SUGGEST_SKIP -> pre = []) -> (f = SUGGEST_SKIP -> ~ In o whiteSpaces) -> (length body < fuel)%nat ->
  exists res s', evalBlock rec fuel b (RChar bo o uo) v cl escRule [] s f = Ok (res, s') /\
  match upToClose 2 escRune c body with
  | Some (ct, after) => exists n, r_node res = Some n /\ n_type n = TBlock /\
      List.map n_chars (n_kids n) = [o] :: ct :: (if v then [] else [[c]]) /\ rest s' = after
  | None => r_node res = None /\ r_err res = Some (EBlockEOF cl) /\ rest s' = []
  end.
Proof.
  intros Po C E W HP HW LF. unfold evalBlock. change (rec (RChar bo o uo) s f) with (Ok (evalChar bo o s f)).
  destruct (evalChar_pure bo o s f) as (s1 & pos & idx & EV & M); auto. rewrite EV. clear EV.
  assert (TC : tchar o f (rest s) = (Some [o], pre ++ [o], [])).
  { rewrite E. unfold tchar. destruct (Z.eqb_spec f SUGGEST_SKIP) as [EF|EF].
    - assert (WO : isWS o = false) by (apply isWS_nIn; auto).
      assert (WP : ws_prefix (pre ++ o :: body) = pre) by (rewrite ws_prefix_white_app by exact W; cbn [ws_prefix]; rewrite WO; apply app_nil_r).
      rewrite WP, WO. cbn [andb]. rewrite skipn_app_exact. cbn [headIs]. rewrite Z.eqb_refl. destruct pre; reflexivity.
    - rewrite (HP EF). cbn. now rewrite Z.eqb_refl. }
  rewrite TC in M |- *. cbn [toRes bind r_node readOf fst snd] in *.
  rewrite charsUsed_ok by (constructor; cbn; [apply clean_app; split; [rewrite E in C; apply clean_app in C; tauto|repeat constructor; auto]|constructor|lia]).
  cbn [r_read r_unused bind]. rewrite ?prepend_nil.
  pose proof (position_same s1) as PS. destruct (positionOf s1) as [cpos cs]. cbn [snd] in PS.
  assert (RC : rest cs = body).
  { rewrite <- (same_rest _ _ PS), (moves_rest _ _ _ M), E. replace (pre ++ o :: body) with ((pre ++ [o]) ++ body) by now rewrite <- app_assoc.
    apply skipn_app_exact. }
  assert (CB : clean body) by (rewrite E in C; apply clean_app in C as [_ C]; now inversion C).
  pose proof (fun u => loop_chars body fuel cs u [] [] LF RC CB ltac:(auto)) as H.
  match goal with |- context [blockLoop _ _ _ _ _ _ ?u _ _] => specialize (H u) end.
  assert (DC : depth cs = depth s) by (rewrite <- (same_depth _ _ PS); exact (moves_depth _ _ _ M)).
  destruct (upToClose 2 escRune c body) as [[ct after]|].
  - destruct H as (cs' & res & u' & nc & -> & R & D & N & NC & NK). cbn [bind app]. rewrite N.
    do 2 eexists. split; [reflexivity|]. eexists. split; [reflexivity|]. split; [reflexivity|]. split.
    + cbn. destruct v; cbn; [reflexivity|now rewrite NC].
    + rewrite unwrap_id' by congruence. exact R.
  - destruct H as (cs' & u & un & -> & R & D). cbn [bind descOk]. do 2 eexists. split; [reflexivity|]. cbn [r_node r_err].
    split; [reflexivity|]. split; [reflexivity|]. rewrite unwrap_id' by congruence. exact R.
Qed.
End Block.

Lemma copies_same e c k k' : forall body,
  match upToClose k e c body, upToClose k' e c body with
  | Some (_, a), Some (_, a') => a = a'
  | None, None => True
  | _, _ => False
  end.
Proof.
  intros body. induction body as [body IH] using list_len_ind. destruct body as [|x l1]; [exact I|]. cbn [upToClose].
  destruct (match e with Some e0 => x =? e0 | None => false end).
  - destruct l1 as [|y l2]; [exact I|]. specialize (IH l2 ltac:(cbn; lia)).
    destruct (upToClose k e c l2) as [[ct a]|], (upToClose k' e c l2) as [[ct' a']|]; auto.
  - destruct (x =? c); [reflexivity|]. specialize (IH l1 ltac:(cbn; lia)).
    destruct (upToClose k e c l1) as [[ct a]|], (upToClose k' e c l1) as [[ct' a']|]; auto.
Qed.
Lemma copies_irrelevant e c k k' : forall body, escapesClose e c body = true -> upToClose k e c body = upToClose k' e c body.
Proof.
  induction body as [body IH] using list_len_ind. destruct body as [|x l1]; [reflexivity|]. cbn [upToClose escapesClose].
  destruct (match e with Some e0 => x =? e0 | None => false end).
  - destruct l1 as [|y l2]; [reflexivity|]. intros H. apply andb_true_iff in H as [H1 H2]. rewrite H1, (IH l2) by (cbn; auto; lia). reflexivity.
  - destruct (x =? c); [reflexivity|]. intros H. rewrite (IH l1) by (cbn; auto; lia). reflexivity.
Qed.

Theorem block_eval g b bo o uo v bc c uc esc s f pre body fuel : 0 <= o -> 0 <= c ->
  (forall be e ue, esc = Some (be, e, ue) -> 0 <= e /\ e <> c) -> clean (rest s) -> rest s = pre ++ o :: body -> white pre ->
  (f <> SUGGEST_SKIP -> pre = []) -> (f = SUGGEST_SKIP -> ~ In o whiteSpaces) -> (length body + 2 <= fuel)%nat ->
  exists res s', eval fuel g (RBlock b (RChar bo o uo) v (RChar bc c uc) (escRule esc) []) s f = Ok (res, s') /\
  match upToClose 1 (escRune esc) c body with
  | Some (ct, after) => exists n ct', r_node res = Some n /\ n_type n = TBlock /\ rest s' = after /\
      kidChars n = [o] :: ct' :: (if v then [] else [[c]]) /\ upToClose 2 (escRune esc) c body = Some (ct', after) /\
      (escapesClose (escRune esc) c body = true -> ct' = ct)
  | None => r_node res = None /\ r_err res = Some (EBlockEOF (RChar bc c uc)) /\ rest s' = []
  end.
Proof.
  intros Po Pc Pe C E W H1 H2 L. destruct fuel as [|[|fuel]]; [lia..|]. cbn [eval]. fold (eval (S fuel) g). cbn [evalStep].
  destruct (block_chars fuel g bc c uc esc Pc Pe b bo o uo v s f pre body (S (S fuel)) Po C E W H1 H2 ltac:(lia)) as (res & s' & EV & H).
  exists res, s'. split; [exact EV|]. pose proof (copies_same (escRune esc) c 1 2 body) as CS.
  destruct (upToClose 1 (escRune esc) c body) as [[ct after]|] eqn:E1, (upToClose 2 (escRune esc) c body) as [[ct' after']|] eqn:E2; try tauto.
  subst after'. destruct H as (n & N & T & K & R). exists n, ct'. repeat (split; [assumption|]). split; [reflexivity|].
  intros X. pose proof (copies_irrelevant _ _ 1 2 _ X). congruence.
Qed.
