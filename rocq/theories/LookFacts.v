(** Evaluation of a text depends on nothing behind the rune after the last one taken. *)
From Verif Require Import Base Stream Node Rule Grammar SpecStream StreamFacts.

(** Two string streams with the same state whose texts have the same first [D] runes (or end
    at the same place before that). *)
Definition alike (D : nat) (b b' : cstr) : Prop :=
  cs_cur b = cs_cur b' /\ cs_lines b = cs_lines b' /\
  (forall i, (i < D)%nat -> nth_error (cs_chars b) i = nth_error (cs_chars b') i) /\
  (cs_cur b <= length (cs_chars b))%nat /\ (cs_cur b' <= length (cs_chars b'))%nat.
Definition sim (D : nat) (s s' : stream) : Prop := layers s = layers s' /\ alike D (sbase s) (sbase s').

Definition at_ (s : stream) : nat := cs_cur (sbase s).
Definition fits (s : stream) : Prop := (at_ s <= length (cs_chars (sbase s)))%nat.

(** What is needed of every step from [s] to [s'] with answer [a]: it goes forward, and gives
    the same answer on every stream that is alike up to the place reached. *)
Definition loc {A} (go : stream -> A * stream) : Prop := forall s, fits s ->
  (at_ s <= at_ (snd (go s)))%nat /\ fits (snd (go s)) /\
  forall D s', (at_ (snd (go s)) < D)%nat -> sim D s s' ->
    fst (go s') = fst (go s) /\ sim D (snd (go s)) (snd (go s')).
Definition loco {A} (go : stream -> outcome (A * stream)) : Prop := forall s a s1, fits s -> go s = Ok (a, s1) ->
  (at_ s <= at_ s1)%nat /\ fits s1 /\
  forall D s', (at_ s1 < D)%nat -> sim D s s' -> exists s1', go s' = Ok (a, s1') /\ sim D s1 s1'.

Lemma loc_loco {A} (go : stream -> A * stream) : loc go -> loco (fun s => Ok (go s)).
Proof.
  intros H s a s1 F E. destruct (H s F) as (P & Q & R). injection E as E. rewrite E in *. cbn [fst snd] in *.
  split; [exact P|]. split; [exact Q|]. intros D s' L SM. destruct (R D s' L SM) as (R1 & R2).
  exists (snd (go s')). split; [|exact R2]. rewrite <- R1. destruct (go s'); reflexivity.
Qed.

Lemma loco_bind {A B} (go : stream -> outcome (A * stream)) (k : A -> stream -> outcome (B * stream)) :
  loco go -> (forall a, loco (k a)) -> loco (fun s => let* (a, s1) := go s in k a s1).
Proof.
  intros H K s b s2 F E. destruct (go s) as [[a s1]| |] eqn:G; [|discriminate..]. cbn [bind] in E.
  destruct (H s a s1 F G) as (P & Q & R). destruct (K a s1 b s2 Q E) as (P2 & Q2 & R2).
  split; [lia|]. split; [exact Q2|]. intros D s' L SM.
  destruct (R D s' ltac:(lia) SM) as (s1' & G' & SM1). destruct (R2 D s1' L SM1) as (s2' & G2 & SM2).
  exists s2'. rewrite G'. cbn [bind]. auto.
Qed.

Lemma loco_ret {A} (a : A) : loco (fun s => Ok (a, s)).
Proof.
  intros s a' s1 F E. injection E as <- <-. split; [lia|]. split; [exact F|]. intros D s' L SM. exists s'. auto.
Qed.

Lemma loco_none {A} (o : outcome (A * stream)) : (forall x, o <> Ok x) -> loco (fun _ => o).
Proof. intros H s a s1 _ E. destruct (H _ E). Qed.
Lemma loco_panic {A} : loco (fun _ => (Panic : outcome (A * stream))).
Proof. apply loco_none. discriminate. Qed.
Lemma loco_out {A} : loco (fun _ => (OutOfFuel : outcome (A * stream))).
Proof. apply loco_none. discriminate. Qed.

(** A step that only rearranges the layers. *)
Lemma sim_prepend D s s' p : sim D s s' -> sim D (prepend s p) (prepend s' p).
Proof. intros (L & A). destruct p; [split; auto|]. split; [|exact A]. cbn. now rewrite L. Qed.
Lemma sim_unwrap D s s' n : sim D s s' -> sim D (unwrap n s) (unwrap n s').
Proof. intros (L & A). split; [|exact A]. cbn. now rewrite L. Qed.
Lemma at_prepend s p : at_ (prepend s p) = at_ s.
Proof. destruct p; reflexivity. Qed.
Lemma at_unwrap s n : at_ (unwrap n s) = at_ s.
Proof. reflexivity. Qed.
Lemma fits_prepend s p : fits s -> fits (prepend s p).
Proof. destruct p; auto. Qed.
Lemma fits_unwrap s n : fits s -> fits (unwrap n s).
Proof. auto. Qed.

Lemma loco_prepend {A} p (k : stream -> outcome (A * stream)) : loco k -> loco (fun s => k (prepend s p)).
Proof.
  intros K s a s1 F E. destruct (K _ _ _ (fits_prepend s p F) E) as (P & Q & R).
  rewrite at_prepend in P. split; [exact P|]. split; [exact Q|].
  intros D s' L SM. exact (R D _ L (sim_prepend D s s' p SM)).
Qed.
Lemma loco_unwrap {A} n (k : stream -> outcome (A * stream)) : loco k -> loco (fun s => k (unwrap n s)).
Proof.
  intros K s a s1 F E. destruct (K _ _ _ (fits_unwrap s n F) E) as (P & Q & R).
  split; [exact P|]. split; [exact Q|].
  intros D s' L SM. exact (R D _ L (sim_unwrap D s s' n SM)).
Qed.

(** A step that looks at something the two streams have in common. *)
Definition common {A} (h : stream -> A) : Prop := forall D s s', fits s -> (at_ s < D)%nat -> sim D s s' -> h s' = h s.
Lemma loco_look {A B} (h : stream -> B) (k : B -> stream -> outcome (A * stream)) :
  common h -> (forall b, loco (k b)) -> loco (fun s => k (h s) s).
Proof.
  intros H K s a s1 F E. destruct (K _ _ _ _ F E) as (P & Q & R). split; [exact P|]. split; [exact Q|].
  intros D s' L SM. rewrite (H D s s' F ltac:(lia) SM). exact (R D s' L SM).
Qed.

Lemma cursor_sim D s s' : sim D s s' -> cursor s' = cursor s.
Proof.
  intros (L & A & _). unfold cursor. rewrite <- L. clear L. induction (layers s) as [|(p, k) ls IH]; cbn.
  - unfold b_cursor. congruence.
  - now rewrite IH.
Qed.
Lemma common_cursor : common cursor.
Proof. intros D s s' _ _ SM. exact (cursor_sim D s s' SM). Qed.
Lemma common_depth : common depth.
Proof. intros D s s' _ _ (L & _). unfold depth. now rewrite L. Qed.

Lemma lookup_sim D s s' i : sim D s s' -> positionLookup s' i = positionLookup s i.
Proof.
  intros (_ & C & LN & _ & F & F'). unfold positionLookup, b_lookup. rewrite <- C, <- LN in *.
  destruct (i =? 0); [reflexivity|].
  destruct (i >=? Z.of_nat (cs_cur (sbase s))) eqn:G; [reflexivity|]. cbn [orb].
  assert (X : (i >=? Z.of_nat (length (cs_chars (sbase s')))) = false) by lia.
  assert (Y : (i >=? Z.of_nat (length (cs_chars (sbase s)))) = false) by lia. now rewrite X, Y.
Qed.

Lemma common_peek : common peek.
Proof.
  intros D s s' _ L (LY & C & _ & N & _). unfold peek. rewrite <- LY. clear LY.
  induction (layers s) as [|(p, k) ls IH]; cbn.
  - unfold b_peek. rewrite <- C, (N (cs_cur (sbase s))); [reflexivity|exact L].
  - destruct (nth_error p k); auto.
Qed.

Lemma next_loc : loc next.
Proof.
  intros [ls b] F. revert F. unfold fits, at_, sim, next. cbn [layers sbase].
  induction ls as [|(p, k) ls IH]; intros F.
  - cbn [next_l]. unfold b_next. destruct (nth_error (cs_chars b) (cs_cur b)) as [c|] eqn:E; cbn [fst snd layers sbase cs_cur cs_chars].
    + assert (X : (cs_cur b < length (cs_chars b))%nat) by (apply nth_error_Some; rewrite E; discriminate).
      split; [lia|]. split; [lia|]. intros D [ls' b'] L (<- & C & LN & N & _ & F'). cbn [layers sbase] in *.
      cbn [next_l]. unfold b_next. rewrite <- C, <- (N (cs_cur b)), E by lia. cbn [fst snd layers sbase cs_cur cs_chars].
      split; [reflexivity|]. split; [reflexivity|]. unfold alike. cbn [cs_cur cs_lines cs_chars]. rewrite LN.
      split; [reflexivity|]. split; [reflexivity|]. split; [exact N|]. split; [lia|].
      assert (Y : (cs_cur b < length (cs_chars b'))%nat); [|lia].
      apply nth_error_Some. rewrite <- N, E by lia. discriminate.
    + split; [lia|]. split; [lia|]. intros D [ls' b'] L (<- & C & LN & N & Fb & F'). cbn [layers sbase] in *.
      cbn [next_l]. unfold b_next. rewrite <- C, <- (N (cs_cur b)), E by lia. cbn [fst snd layers sbase].
      split; [reflexivity|]. split; [reflexivity|]. unfold alike. auto.
  - cbn [next_l]. destruct (nth_error p k) as [c|] eqn:E.
    + cbn [fst snd layers sbase]. split; [lia|]. split; [exact F|].
      intros D [ls' b'] L (<- & A). cbn [layers sbase next_l] in *. rewrite E. cbn [fst snd layers sbase]. auto.
    + specialize (IH F). destruct (next_l ls b) as [c (ls1, b1)] eqn:G. cbn [fst snd layers sbase] in *.
      destruct IH as (P & Q & R). split; [exact P|]. split; [exact Q|].
      intros D [ls' b'] L (<- & A). cbn [layers sbase next_l] in *. rewrite E.
      destruct (R D (mkStream ls b') L (conj eq_refl A)) as (R1 & R2 & R3). cbn [layers sbase] in *.
      destruct (next_l ls b') as [c' (ls1', b1')] eqn:G'. cbn [fst snd layers sbase] in *. subst. auto.
Qed.

Lemma position_loc : loc positionOf.
Proof.
  intros [ls b] F. revert F. unfold fits, at_, sim, positionOf. cbn [layers sbase].
  intros F.
  assert (X : forall l, let q := position_l l b in
    (cs_cur b <= cs_cur (snd q))%nat /\ (cs_cur (snd q) <= length (cs_chars (snd q)))%nat /\
    forall D b', (cs_cur (snd q) < D)%nat -> alike D b b' ->
      fst (position_l l b') = fst q /\ alike D (snd q) (snd (position_l l b'))).
  { induction l as [|(p, k) l IH]; cbn [position_l].
    - unfold b_position. destruct (nth_error (cs_chars b) (cs_cur b)) as [c|] eqn:E.
      + destruct (cs_cur b =? 0)%nat eqn:Z0; cbn [fst snd cs_cur cs_chars].
        * split; [lia|]. split; [lia|]. intros D b' L (C & LN & N & Fb & F').
          rewrite <- C, <- (N (cs_cur b)), E, Z0 by lia. split; [reflexivity|]. unfold alike; auto.
        * split; [lia|]. split; [lia|]. intros D b' L (C & LN & N & Fb & F').
          rewrite <- C, <- (N (cs_cur b)), E, Z0, LN by lia. split; [reflexivity|]. unfold alike. cbn [fst snd cs_cur cs_chars cs_lines].
          rewrite <- C in *. auto.
      + cbn [fst snd]. split; [lia|]. split; [lia|]. intros D b' L (C & LN & N & Fb & F').
        rewrite <- C, <- (N (cs_cur b)), E by lia. split; [reflexivity|]. unfold alike; auto.
    - destruct (length p <=? k)%nat; [exact IH|]. cbn [fst snd]. split; [lia|]. split; [lia|].
      intros D b' L A. split; [|exact A].
      assert (SM : sim D (mkStream l b) (mkStream l b')) by (split; [reflexivity|exact A]).
      pose proof (cursor_sim D _ _ SM) as CE. unfold cursor in CE. cbn [layers sbase] in CE. rewrite CE.
      exact (lookup_sim D _ _ _ SM). }
  specialize (X ls). cbn zeta in X. destruct X as (P & Q & R). revert P Q R.
  destruct (position_l ls b) as [q b1]. cbn [fst snd layers sbase]. intros P Q R.
  split; [exact P|]. split; [exact Q|]. intros D [ls' b'] L (<- & A). cbn [layers sbase] in *.
  destruct (R D b' L A) as (R1 & R2). revert R1 R2. destruct (position_l ls b') as [q' b1']. cbn [fst snd layers sbase]. auto.
Qed.

Lemma ws_prefix_alike l : forall l', (forall i, (i <= length (ws_prefix l))%nat -> nth_error l i = nth_error l' i) ->
  ws_prefix l' = ws_prefix l.
Proof.
  induction l as [|c l IH]; intros l' N.
  - specialize (N O ltac:(cbn; lia)). destruct l'; [reflexivity|discriminate].
  - pose proof (N O ltac:(lia)) as N0. destruct l' as [|c' l']; [discriminate|]. cbn in N0. injection N0 as <-.
    cbn [ws_prefix] in *. destruct (isWS c) eqn:W; [|reflexivity]. f_equal. apply IH.
    intros i L. exact (N (S i) ltac:(cbn [length]; lia)).
Qed.

Lemma p_skip_loc n : forall s, fits s -> (length (rest s) <= n)%nat ->
  (at_ s <= at_ (snd (p_skip n s)))%nat /\ fits (snd (p_skip n s)) /\
  forall D s' n', (at_ (snd (p_skip n s)) < D)%nat -> sim D s s' -> (length (rest s') <= n')%nat ->
    fst (p_skip n' s') = fst (p_skip n s) /\ sim D (snd (p_skip n s)) (snd (p_skip n' s')).
Proof.
  induction n as [|n IH]; intros s F LN.
  - cbn [p_skip fst snd]. split; [lia|]. split; [exact F|]. intros D s' n' L SM LN'.
    assert (PK : peek s' = EOFChar).
    { rewrite (common_peek D s s' F L SM), peek_rest. destruct (rest s); [reflexivity|cbn in LN; lia]. }
    destruct n' as [|n']; cbn [p_skip fst snd]; [auto|]. rewrite PK. cbn. auto.
  - cbn [p_skip]. destruct (peek s =? EOFChar) eqn:E1.
    + cbn [fst snd]. split; [lia|]. split; [exact F|]. intros D s' n' L SM LN'.
      destruct n' as [|n']; cbn [p_skip fst snd]; [auto|]. rewrite (common_peek D s s' F L SM), E1. cbn. auto.
    + destruct (negb (isWS (peek s))) eqn:E2.
      * cbn [fst snd]. split; [lia|]. split; [exact F|]. intros D s' n' L SM LN'.
        destruct n' as [|n']; cbn [p_skip fst snd]; [auto|]. rewrite (common_peek D s s' F L SM), E1, E2. cbn. auto.
      * assert (RS : exists c l, rest s = c :: l).
        { rewrite peek_rest in E1. destruct (rest s); [discriminate|eauto]. }
        destruct RS as (c0 & l0 & RS). destruct (next_rest_cons s c0 l0 RS) as (_ & RT).
        destruct (next_loc s F) as (P & Q & R). pose proof (next1_rest s) as NR. unfold next1 in NR.
        destruct (next s) as [c s1] eqn:G. cbn [fst snd] in *.
        assert (LN1 : (length (rest s1) <= n)%nat) by (rewrite NR, RS; rewrite RS in LN; cbn in *; lia).
        destruct (IH s1 Q LN1) as (P1 & Q1 & R1).
        destruct (p_skip n s1) as [r s2] eqn:G2. cbn [fst snd] in *. split; [lia|]. split; [exact Q1|].
        intros D s' n' L SM LN'.
        pose proof (common_peek D s s' F ltac:(lia) SM) as PK.
        assert (RS' : exists c l, rest s' = c :: l).
        { rewrite <- PK, peek_rest in E1. destruct (rest s'); [discriminate|eauto]. }
        destruct RS' as (c1 & l1 & RS').
        destruct n' as [|n']; [rewrite RS' in LN'; cbn in LN'; lia|].
        cbn [p_skip]. rewrite PK, E1, E2. destruct (R D s' ltac:(lia) SM) as (Ra & Rb).
        pose proof (next1_rest s') as NR'. unfold next1 in NR'.
        destruct (next s') as [c' s1'] eqn:G'. cbn [fst snd] in *. subst c'.
        assert (LN1' : (length (rest s1') <= n')%nat) by (rewrite NR', RS'; rewrite RS' in LN'; cbn in *; lia).
        destruct (R1 D s1' n' L Rb LN1') as (Rc & Rd).
        destruct (p_skip n' s1') as [r' s2']. cbn [fst snd] in *. subst r'. auto.
Qed.

Lemma nth_error_skipn_add {A} k (l : list A) i : nth_error (skipn k l) i = nth_error l (k + i).
Proof. revert l. induction k as [|k IH]; intros [|x l]; cbn; auto. now destruct i. Qed.

Lemma skip_loc : loc skipSpaces.
Proof.
  intros s F. unfold skipSpaces. destruct (layers s) as [|y ly] eqn:LY.
  - unfold b_skip. set (b := sbase s) in *. set (sp := ws_prefix (skipn (cs_cur b) (cs_chars b))).
    assert (LS : (length sp + cs_cur b <= length (cs_chars b))%nat).
    { unfold sp. pose proof (ws_prefix_len (skipn (cs_cur b) (cs_chars b))) as X. rewrite firstn_skipn_len in X.
      unfold fits, at_ in F. fold b in F. lia. }
    assert (SP : forall D s', (cs_cur b + length sp < D)%nat -> sim D s s' ->
      ws_prefix (skipn (cs_cur (sbase s')) (cs_chars (sbase s'))) = sp).
    { intros D s' L (_ & C & _ & N & _). fold b in C, N. rewrite <- C. apply ws_prefix_alike.
      intros i Li. rewrite !nth_error_skipn_add. apply N. fold sp in Li. lia. }
    destruct sp as [|c0 sp0] eqn:ES.
    + cbn [fst snd]. unfold fits, at_. cbn [sbase]. split; [fold b; lia|]. split; [exact F|].
      intros D s' L SM. pose proof (SP D s' ltac:(fold b in L; cbn; lia) SM) as X.
      destruct SM as (LL & A). rewrite <- LL, LY, X. cbn [fst snd]. split; [reflexivity|].
      split; [reflexivity|]. exact A.
    + rewrite <- ES in *. cbn [fst snd]. unfold fits, at_. cbn [sbase cs_cur cs_chars]. fold b. split; [lia|]. split; [lia|].
      intros D s' L SM. pose proof (SP D s' ltac:(lia) SM) as X.
      destruct SM as (LL & C & LNE & N & _ & F'). fold b in C, LNE, N. rewrite <- LL, LY, X, ES. rewrite <- ES. cbn [fst snd].
      split; [reflexivity|]. split; [reflexivity|]. unfold alike. cbn [sbase cs_cur cs_lines cs_chars].
      rewrite <- C, <- LNE in *. split; [reflexivity|]. split; [reflexivity|]. split; [exact N|]. split; [lia|].
      pose proof (ws_prefix_len (skipn (cs_cur b) (cs_chars (sbase s')))) as Y. rewrite X, firstn_skipn_len in Y. lia.
  - destruct (p_skip_loc (length (rest s)) s F (le_n _)) as (P & Q & R).
    split; [exact P|]. split; [exact Q|]. intros D s' L SM. pose proof SM as (LL & _). rewrite <- LL, LY.
    exact (R D s' _ L SM (le_n _)).
Qed.

Lemma match_loc input : loc (fun s => (fst (match_l s input), snd (match_l s input))).
Proof.
  induction input as [|i input IH]; intros s F.
  - cbn [match_l fst snd]. split; [lia|]. split; [exact F|]. auto.
  - cbn [match_l]. destruct (next_loc s F) as (P & Q & R). destruct (next s) as [c s1] eqn:G. cbn [fst snd] in *.
    destruct (IH s1 Q) as (P1 & Q1 & R1). cbn [fst snd] in *.
    destruct (match_l s1 input) as [[r ok] s2] eqn:G2. cbn [fst snd] in *.
    destruct (c =? EOFChar) eqn:E1; [|destruct (negb (c =? i)) eqn:E2]; cbn [fst snd].
    + split; [exact P|]. split; [exact Q|]. intros D s' L SM. destruct (R D s' L SM) as (Ra & Rb).
      destruct (next s') as [c' s1']. cbn [fst snd] in *. subst c'. rewrite E1. auto.
    + split; [exact P|]. split; [exact Q|]. intros D s' L SM. destruct (R D s' L SM) as (Ra & Rb).
      destruct (next s') as [c' s1']. cbn [fst snd] in *. subst c'. rewrite E1, E2. auto.
    + split; [lia|]. split; [exact Q1|]. intros D s' L SM. destruct (R D s' ltac:(lia) SM) as (Ra & Rb).
      destruct (next s') as [c' s1']. cbn [fst snd] in *. subst c'. rewrite E1, E2.
      destruct (R1 D s1' L Rb) as (Rc & Rd). destruct (match_l s1' input) as [[r' ok'] s2']. cbn [fst snd] in *.
      injection Rc as -> ->. auto.
Qed.
