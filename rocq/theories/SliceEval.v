(** Every [Eval] on slices shows what the one on lists computes. *)
From Verif Require Import Base Stream StreamFacts Node Rule Grammar Slices SliceFacts.

(** ** Streams *)
Definition fine (F : list nat) (h : heap) (s : slice) : Prop := sameS F h s (cells h s).
Definition sameT (F : list nat) (h : heap) (ss : sstream) (s : stream) : Prop :=
  streamIn h ss = s /\ Forall (fun x => fine F h (fst x)) (ss_layers ss) /\ fine F h (ss_chars ss).
Lemma fine_same F h s l : sameS F h s l -> fine F h s /\ cells h s = l.
Proof. intros S. assert (E : cells h s = l) by apply S. unfold fine. rewrite E. auto. Qed.
Lemma fine_step n h F h' F' s : step n h F h' F' -> fine F h s -> fine F' h' s /\ cells h' s = cells h s.
Proof. intros S H. apply (sameS_step n h F h' F' _ _ S) in H. now apply fine_same in H. Qed.
Lemma layers_step n h F h' F' (l : list (slice * nat)) : step n h F h' F' -> Forall (fun x => fine F h (fst x)) l ->
  Forall (fun x => fine F' h' (fst x)) l /\ List.map (layerIn h') l = List.map (layerIn h) l.
Proof.
  intros S A. induction A as [|[p k] l X A IH]; [split; [constructor|reflexivity]|]. destruct (fine_step n h F h' F' p S X) as [Y E], IH as [I1 I2].
  split; [constructor; auto|]. cbn [List.map]. rewrite I2. unfold layerIn at 1 2. cbn [fst snd] in *. now rewrite E.
Qed.
Lemma sameT_step n h F h' F' ss s : step n h F h' F' -> sameT F h ss s -> sameT F' h' ss s.
Proof.
  intros S (<- & A & B). destruct (layers_step n h F h' F' _ S A) as [A' EA], (fine_step n h F h' F' _ S B) as [B' EB]. split; [|split; auto]. unfold streamIn. now rewrite EA, EB.
Qed.

Definition sameSlices (s x : stream) : Prop := List.map fst (layers x) = List.map fst (layers s) /\ cs_chars (sbase x) = cs_chars (sbase s).
Lemma moved_layers h (l : list (slice * nat)) : forall (m : list (list Z * nat)), List.map fst m = List.map fst (List.map (layerIn h) l) ->
  List.map (layerIn h) (combine (List.map fst l) (List.map snd m)) = m.
Proof.
  induction l as [|[p k] l IH]; intros [|[q j] m] E; cbn in E |- *; try discriminate; auto. injection E as E1 E2. rewrite IH by auto. unfold layerIn. cbn [fst snd]. now rewrite E1.
Qed.
Lemma moved_fine F h (l : list (slice * nat)) : forall ks : list nat, Forall (fun x => fine F h (fst x)) l -> Forall (fun x => fine F h (fst x)) (combine (List.map fst l) (ks : list nat)).
Proof. induction l as [|[p k] l IH]; intros [|j ks] A; cbn; auto. inversion A; subst. constructor; auto. Qed.
Lemma sameT_moved F h ss s x : sameT F h ss s -> sameSlices s x -> sameT F h (moved ss x) x.
Proof.
  intros (<- & A & B) (E1 & E2). split; [|split; [apply moved_fine; auto|exact B]]. unfold streamIn, moved. cbn [ss_layers ss_chars ss_cur ss_lines]. rewrite moved_layers by exact E1.
  cbn [streamIn sbase cs_chars] in E2. rewrite <- E2. now destruct x as [l [c k t]].
Qed.

Lemma b_next_chars b : cs_chars (snd (b_next b)) = cs_chars b.
Proof. unfold b_next. now destruct (nth_error (cs_chars b) (cs_cur b)). Qed.
Lemma next_l_same ls : forall b, List.map fst (fst (snd (next_l ls b))) = List.map fst ls /\ cs_chars (snd (snd (next_l ls b))) = cs_chars b.
Proof.
  induction ls as [|[p k] ls IH]; intros b; cbn [next_l].
  - destruct (b_next b) as [c b'] eqn:E. cbn. split; auto. rewrite <- (b_next_chars b). now rewrite E.
  - destruct (nth_error p k); [split; reflexivity|]. destruct (next_l ls b) as [c [ls'' b']] eqn:E. specialize (IH b). rewrite E in IH. cbn [fst snd] in *. destruct IH as [I1 I2]. split; auto. cbn. now rewrite I1.
Qed.
Lemma next_same s : sameSlices s (snd (next s)).
Proof. unfold next. destruct (next_l (layers s) (sbase s)) as [c [ls b]] eqn:E. pose proof (next_l_same (layers s) (sbase s)) as H. rewrite E in H. exact H. Qed.
Lemma position_l_chars ls : forall b, cs_chars (snd (position_l ls b)) = cs_chars b.
Proof.
  induction ls as [|[p k] ls IH]; intros b; cbn [position_l].
  - unfold b_position. destruct (nth_error _ _); auto. destruct (cs_cur b =? 0)%nat; auto.
  - destruct (length p <=? k)%nat; auto.
Qed.
Lemma position_same s : sameSlices s (snd (positionOf s)).
Proof. unfold positionOf. destruct (position_l (layers s) (sbase s)) as [r b] eqn:E. pose proof (position_l_chars (layers s) (sbase s)) as H. rewrite E in H. split; auto. Qed.

Lemma sameT_wrap F h ss s p l : sameT F h ss s -> sameS F h p l -> sameT F h (wrap ss p) (prepend s l).
Proof.
  intros (<- & A & B) P. destruct (fine_same _ _ _ _ P) as [P1 P2]. destruct P as (C & E & _). unfold wrap, prepend. destruct (Nat.eqb_spec (sl_len p) 0) as [Z|Z].
  - destruct l; [|cbn in E; lia]. split; auto.
  - destruct l as [|x l]; [cbn in E; lia|]. split; [|split; [constructor; auto|exact B]]. unfold streamIn. cbn [ss_layers List.map]. unfold layerIn at 1. cbn [fst snd layers sbase ss_chars ss_cur ss_lines]. now rewrite P2.
Qed.
Lemma sameT_peel F h ss s d : sameT F h ss s -> sameT F h (peel d ss) (unwrap d s).
Proof.
  intros (<- & A & B). split; [|split; [|exact B]].
  - unfold streamIn, unwrap, peel. cbn [layers sbase ss_layers ss_chars ss_cur ss_lines]. rewrite map_length. f_equal. apply (fun l => eq_sym (skipn_map (layerIn h) _ l)).
  - cbn [peel ss_layers]. rewrite <- (firstn_skipn (length (ss_layers ss) - d) (ss_layers ss)) in A. apply Forall_app in A. apply A.
Qed.
Lemma sameT_deep F h ss s : sameT F h ss s -> depth s = deep ss.
Proof. intros (<- & _). unfold depth, deep, streamIn. cbn. now rewrite map_length. Qed.

Section Refine.
Variable grow : heap -> slice -> list Z -> nat.
Notation refines := (@refines _ _).

(** What is read off a stream. *)
Lemma ref_peek {D E} n h F ss s (k : Z -> prog D) (o : outcome E) Q : sameT F h ss s -> refines n h F (k (peek s)) o Q -> refines n h F (pbind (hPeek ss) k) o Q.
Proof. intros (<- & _) H. exact H. Qed.
Lemma ref_cursor {D E} n h F ss s (k : Z -> prog D) (o : outcome E) Q : sameT F h ss s -> refines n h F (k (cursor s)) o Q -> refines n h F (pbind (hCursor ss) k) o Q.
Proof. intros (<- & _) H. exact H. Qed.
Lemma ref_lookup {D E} n h F ss s i (k : option position -> prog D) (o : outcome E) Q : sameT F h ss s -> refines n h F (k (positionLookup s i)) o Q -> refines n h F (pbind (hLookup ss i) k) o Q.
Proof. intros (<- & _) H. exact H. Qed.
Lemma ref_next {D E} n h F ss s (k : Z * sstream -> prog D) (o : outcome E) Q : sameT F h ss s ->
  (forall ss', sameT F h ss' (snd (next s)) -> refines n h F (k (fst (next s), ss')) o Q) -> refines n h F (pbind (hNext ss) k) o Q.
Proof. intros T H. assert (E1 : streamIn h ss = s) by apply T. unfold hNext. apply ref_look. rewrite E1. cbv zeta. apply H. eapply sameT_moved; eauto. apply next_same. Qed.
Lemma ref_position {D E} n h F ss s (k : option position * sstream -> prog D) (o : outcome E) Q : sameT F h ss s ->
  (forall ss', sameT F h ss' (snd (positionOf s)) -> refines n h F (k (fst (positionOf s), ss')) o Q) -> refines n h F (pbind (hPosition ss) k) o Q.
Proof. intros T H. assert (E1 : streamIn h ss = s) by apply T. unfold hPosition. apply ref_look. rewrite E1. cbv zeta. apply H. eapply sameT_moved; eauto. apply position_same. Qed.

Lemma skipLoop_ref n0 n : forall h F ss s acc l, (n0 <= length h)%nat -> length F = length h -> sameT F h ss s -> own n0 F h acc l ->
  refines n0 h F (hSkipLoop grow n ss acc) (Ok (p_skip n s)) (fun h' F' a b => own n0 F' h' (fst a) (l ++ fst b) /\ sameT F' h' (snd a) (snd b)).
Proof.
  induction n as [|n IH]; intros h F ss s acc l N L T O; cbn [hSkipLoop p_skip].
  { apply ref_ret with F; [now apply step_refl|]. cbn [fst snd]. rewrite app_nil_r. auto. }
  apply ref_peek with s; auto. destruct (peek s =? EOFChar); [apply ref_ret with F; [now apply step_refl|]; cbn [fst snd]; rewrite app_nil_r; auto|].
  destruct (negb (isWS (peek s))); [apply ref_ret with F; [now apply step_refl|]; cbn [fst snd]; rewrite app_nil_r; auto|].
  apply ref_next with s; auto. intros ss' T'. cbv beta iota. destruct (next s) as [c s'] eqn:E. cbn [fst snd] in *.
  eapply ref_pure; [apply ref_add; eauto|]. intros h1 F1 acc' S1 [O1 _]. cbv beta in O1.
  assert (S1' := S1). destruct S1' as (_ & L1 & N1 & _). specialize (IH h1 F1 ss' s' acc' (l ++ [c])). destruct (p_skip n s') as [r s''] eqn:P.
  apply (sameT_step _ _ _ _ _ _ _ S1) in T'. eapply ref_other; [apply le_n|apply IH; auto; lia|]. cbn [fst snd]. intros h' F' [a1 a2] _. cbn [fst snd]. rewrite <- app_assoc. auto.
Qed.
Lemma ws_prefix_firstn l : ws_prefix l = firstn (length (ws_prefix l)) l.
Proof. induction l as [|x l IH]; cbn; auto. destruct (isWS x); cbn; [now f_equal|auto]. Qed.
Lemma skip_ref h F ss s : length F = length h -> sameT F h ss s ->
  refines (length h) h F (hSkip grow ss) (Ok (skipSpaces s)) (fun h' F' a b => sameS F' h' (fst a) (fst b) /\ sameT F' h' (snd a) (snd b)).
Proof.
  intros L T. unfold hSkip, skipSpaces. assert (E : streamIn h ss = s) by apply T. assert (EL : layers s = List.map (layerIn h) (ss_layers ss)) by (rewrite <- E; reflexivity).
  destruct (ss_layers ss) as [|x xs] eqn:LS; rewrite EL.
  - cbn [List.map]. apply ref_look. rewrite E. unfold b_skip. set (b := sbase s). set (sp := ws_prefix (skipn (cs_cur b) (cs_chars b))). destruct sp as [|y sp'] eqn:SP.
    + cbn [fst snd]. apply ref_ret with F; [now apply step_refl|]. cbn [fst snd]. split; [apply sameS_nil|]. destruct s as [ls bs]. cbn [layers] in EL. rewrite EL in *. exact T.
    + cbn [fst snd]. assert (HC : cs_chars b = cells h (ss_chars ss) /\ cs_cur b = ss_cur ss) by (unfold b; rewrite <- E; auto). destruct HC as [HC1 HC2].
      assert (FC : fine F h (ss_chars ss)) by apply T. assert (LEN : length (cs_chars b) = sl_len (ss_chars ss)) by (rewrite HC1; apply FC).
      assert (LT : (cs_cur b + length (y :: sp') <= length (cs_chars b))%nat).
      { assert (X : (length sp <= length (skipn (cs_cur b) (cs_chars b)))%nat) by (unfold sp; rewrite ws_prefix_firstn, firstn_length; lia). rewrite skipn_length, SP in X. cbn [length] in X. cbn [length]. lia. }
      assert (R1 : slice_from (cs_chars b) (Z.of_nat (ss_cur ss)) = Ok (skipn (cs_cur b) (cs_chars b))).
      { unfold slice_from. rewrite <- HC2. destruct (Z.leb_spec 0 (Z.of_nat (cs_cur b))); [|lia]. destruct (Z.leb_spec (Z.of_nat (cs_cur b)) (Z.of_nat (length (cs_chars b)))); [|lia]. cbn. now rewrite Nat2Z.id. }
      assert (R2 : slice_to (skipn (cs_cur b) (cs_chars b)) (Z.of_nat (length (y :: sp'))) = Ok (y :: sp')).
      { unfold slice_to. rewrite skipn_length. destruct (Z.leb_spec 0 (Z.of_nat (length (y :: sp')))); [|lia]. destruct (Z.leb_spec (Z.of_nat (length (y :: sp'))) (Z.of_nat (length (cs_chars b) - cs_cur b))); [|lia].
        cbn [andb]. rewrite Nat2Z.id. rewrite <- SP. unfold sp. now rewrite <- ws_prefix_firstn. }
      eapply ref_pure; [rewrite <- R1; apply ref_from; auto; rewrite HC1; exact FC|]. intros h1 F1 a1 S1 X1. cbv beta in X1.
      assert (S1' := S1). destruct S1' as (_ & L1 & _). eapply ref_pure; [rewrite <- R2; apply ref_upTo; eauto|]. intros h2 F2 a2 S2 X2. cbv beta in X2.
      assert (S2' := S2). destruct S2' as (_ & L2 & _). apply ref_ret with F2; [now apply step_refl|]. cbn [fst snd]. split; [exact X2|].
      apply (sameT_step _ _ _ _ _ _ _ S1), (sameT_step _ _ _ _ _ _ _ S2) in T. eapply sameT_moved; eauto. split; [now rewrite EL|reflexivity].
  - cbn [List.map]. apply ref_look. rewrite E. assert (N : refines (length h) h F (hSkipLoop grow (length (rest s)) ss nilS) (Ok (p_skip (length (rest s)) s)) (fun h' F' a b => own (length h) F' h' (fst a) ([] ++ fst b) /\ sameT F' h' (snd a) (snd b))).
    { apply skipLoop_ref; auto. apply own_nil. }
    unfold SliceFacts.refines in *. destruct (hSkipLoop grow (length (rest s)) ss nilS h) as [[[a ss'] h1]| |]; auto. destruct N as (F1 & S1 & O1 & T1). cbn [fst snd app] in *.
    assert (S1' := S1). destruct S1' as (_ & L1 & _). destruct (publish _ _ _ _ _ L1 O1) as (F2 & S2 & X2 & _). exists F2. split; [eapply step_trans; eauto|]. split; auto. eapply sameT_step; eauto.
Qed.

Lemma matchLoop_ref n0 input : forall h F ss s acc l, (n0 <= length h)%nat -> length F = length h -> sameT F h ss s -> own n0 F h acc l ->
  refines n0 h F (hMatch grow ss input acc) (Ok (match_l s input)) (fun h' F' a b => own n0 F' h' (fst (fst a)) (l ++ fst (fst b)) /\ snd (fst a) = snd (fst b) /\ sameT F' h' (snd a) (snd b)).
Proof.
  induction input as [|i input IH]; intros h F ss s acc l N L T O; cbn [hMatch match_l].
  { apply ref_ret with F; [now apply step_refl|]. cbn [fst snd]. rewrite app_nil_r. auto. }
  apply ref_next with s; auto. intros ss' T'. cbv beta iota. destruct (next s) as [c s'] eqn:E. cbn [fst snd] in *.
  destruct (c =? EOFChar); [apply ref_ret with F; [now apply step_refl|]; cbn [fst snd]; rewrite app_nil_r; auto|].
  eapply ref_pure; [apply ref_add; eauto|]. intros h1 F1 acc' S1 [O1 _]. cbv beta in O1.
  assert (S1' := S1). destruct S1' as (_ & L1 & N1 & _). apply (sameT_step _ _ _ _ _ _ _ S1) in T'.
  destruct (negb (c =? i)); [apply ref_ret with F1; [now apply step_refl|]; cbn [fst snd]; auto|].
  specialize (IH h1 F1 ss' s' acc' (l ++ [c])). destruct (match_l s' input) as [[r ok] s''] eqn:P.
  eapply ref_other; [apply le_n|apply IH; auto; lia|]. cbn [fst snd]. intros h' F' [[a1 a2] a3] _. cbn [fst snd]. rewrite <- app_assoc. auto.
Qed.
Lemma match_ref h F ss s input : length F = length h -> sameT F h ss s ->
  refines (length h) h F (hMatch grow ss input nilS) (Ok (matchRunes s input)) (fun h' F' a b => sameS F' h' (fst (fst a)) (fst (fst b)) /\ snd (fst a) = snd (fst b) /\ sameT F' h' (snd a) (snd b)).
Proof.
  intros L T. assert (N := matchLoop_ref (length h) input h F ss s nilS [] (le_n _) L T (own_nil _ _ _)). unfold SliceFacts.refines, matchRunes in *.
  destruct (hMatch grow ss input nilS h) as [[[[a ok] ss'] h1]| |]; auto. destruct N as (F1 & S1 & O1 & Q & T1). cbn [fst snd app] in *.
  assert (S1' := S1). destruct S1' as (_ & L1 & _). destruct (publish _ _ _ _ _ L1 O1) as (F2 & S2 & X2 & _). exists F2. split; [eapply step_trans; eauto|]. split; auto. split; auto. eapply sameT_step; eauto.
Qed.

(** ** Nodes and results *)
Inductive okN (F : list nat) (h : heap) : snode -> Prop :=
| okN_intro n : fine F h (m_chars n) -> (forall k, In k (m_kids n) -> okN F h k) -> okN F h n.
Lemma snode_ind' (P : snode -> Prop) : (forall n, (forall k, In k (m_kids n) -> P k) -> P n) -> forall n, P n.
Proof.
  intros H. fix IH 1. intros n. apply H. destruct n as [ty nm ch kids pos a b c d]. cbn [m_kids]. induction kids as [|k kids IK]; [intros _ []|]. intros x [<-|X]; [apply IH|apply IK, X].
Qed.
Lemma okN_step n h F h' F' x : step n h F h' F' -> okN F h x -> okN F' h' x /\ nodeIn h' x = nodeIn h x.
Proof.
  intros S. induction x as [x IH] using snode_ind'. intros O. inversion O as [y A B]; subst. destruct (fine_step n h F h' F' _ S A) as [A' E].
  split; [constructor; [exact A'|]; intros k K; now apply IH, B|]. destruct x as [ty nm ch kids pos c d e f]. cbn [m_kids m_chars] in *. cbn [nodeIn]. cbn [m_type m_name m_chars m_kids m_pos m_sticky m_virtual m_nondata m_tokenized]. rewrite E. f_equal.
  apply map_ext_in. intros k K. apply IH; auto.
Qed.
Definition sameN (F : list nat) (h : heap) (x : snode) (n : node) : Prop := nodeIn h x = n /\ okN F h x.
Definition sameR (F : list nat) (h : heap) (x : sresult) (r : result) : Prop :=
  resultIn h x = r /\ fine F h (a_read x) /\ fine F h (a_unused x) /\ (forall n, a_node x = Some n -> okN F h n).
Definition good (h : heap) (F : list nat) (a : sresult * sstream) (b : result * stream) : Prop :=
  sameR F h (fst a) (fst b) /\ sameT F h (snd a) (snd b).
Lemma sameN_step n h F h' F' x y : step n h F h' F' -> sameN F h x y -> sameN F' h' x y.
Proof. intros S [<- O]. destruct (okN_step n h F h' F' x S O). split; auto. Qed.
Lemma kids_step n h F h' F' l m : step n h F h' F' -> Forall2 (sameN F h) l m -> Forall2 (sameN F' h') l m.
Proof. intros S A. induction A; constructor; auto. eapply sameN_step; eauto. Qed.
Lemma sameR_step n h F h' F' x y : step n h F h' F' -> sameR F h x y -> sameR F' h' x y.
Proof.
  intros S (<- & A & B & C). destruct (fine_step n h F h' F' _ S A) as [A' EA], (fine_step n h F h' F' _ S B) as [B' EB]. split; [|split; [auto|split; auto]].
  - unfold resultIn. rewrite EA, EB. f_equal. destruct (a_node x) as [z|]; auto. cbn. f_equal. apply (okN_step n h F h' F' z S); auto.
  - intros z Z. apply (okN_step n h F h' F' z S); auto.
Qed.
Lemma results_step n h F h' F' l m : step n h F h' F' -> Forall2 (sameR F h) l m -> Forall2 (sameR F' h') l m.
Proof. intros S A. induction A; constructor; auto. eapply sameR_step; eauto. Qed.
Lemma sameR_read F h x r : sameR F h x r -> sameS F h (a_read x) (r_read r).
Proof. intros (<- & A & _). exact A. Qed.
Lemma sameR_unused F h x r : sameR F h x r -> sameS F h (a_unused x) (r_unused r).
Proof. intros (<- & _ & A & _). exact A. Qed.
Lemma sameR_rest F h x r : sameR F h x r -> r_err r = a_err x /\ r_erridx r = a_idx x /\ r_sticky r = a_sticky x.
Proof. intros (<- & _). auto. Qed.
Lemma sameR_node F h x r : sameR F h x r ->
  match a_node x with Some n => exists m, r_node r = Some m /\ sameN F h n m | None => r_node r = None end.
Proof. intros (<- & _ & _ & C). cbn [resultIn r_node]. destruct (a_node x) as [n|]; cbn; auto. exists (nodeIn h n). split; auto. split; auto. Qed.
Lemma sameR_count F h x r : sameR F h x r -> usedCount x = countUsed r.
Proof. intros R. destruct (sameR_read _ _ _ _ R) as (_ & A & _), (sameR_unused _ _ _ _ R) as (_ & B & _). unfold usedCount, countUsed. now rewrite A, B. Qed.
Lemma sameR_make F h nd nd' e i rd rd' un un' st : match nd with Some n => exists m, nd' = Some m /\ sameN F h n m | None => nd' = None end ->
  sameS F h rd rd' -> sameS F h un un' -> sameR F h (mkSR nd e i rd un st) (mkRes nd' e i rd' un' st).
Proof.
  intros N R U. destruct (fine_same _ _ _ _ R) as [R1 R2], (fine_same _ _ _ _ U) as [U1 U2]. split; [|split; [auto|split; auto]].
  - unfold resultIn. cbn. rewrite R2, U2. f_equal. destruct nd as [n|]; [destruct N as (m & -> & N1 & _); cbn; now f_equal|now rewrite N].
  - cbn. intros n ->. now destruct N as (m & _ & _ & N2).
Qed.
Lemma sameN_make F h t b cs cs' kids kids' pos st : sameS F h cs cs' -> Forall2 (sameN F h) kids kids' -> sameN F h (makeNode t b cs kids pos st) (mkNode t b cs' kids' pos st).
Proof.
  intros C K. destruct (fine_same _ _ _ _ C) as [C1 C2]. split.
  - unfold makeNode, mkNode. cbn. rewrite C2. f_equal. induction K as [|x y l m [E _] K IH]; cbn; auto. now rewrite E, IH.
  - constructor; [exact C1|]. cbn. intros k I. induction K as [|x y l m [_ O] K IH]; [contradiction|]. destruct I as [<-|I]; auto.
Qed.

Lemma ref_ghost {A B} n h F F' (m : prog A) (o : outcome B) R : step n h F h F' -> refines n h F' m o R -> refines n h F m o R.
Proof. unfold SliceFacts.refines. intros S H. destruct (m h) as [[a h']| |], o; auto. destruct H as (F2 & S2 & X). exists F2. split; auto. eapply step_trans; eauto. Qed.

Ltac carry S :=
  repeat match type of S with step _ ?h ?F ?h' ?F' =>
    match goal with
    | H : sameS F h _ _ |- _ => apply (sameS_step _ _ _ _ _ _ _ S) in H
    | H : sameT F h _ _ |- _ => apply (sameT_step _ _ _ _ _ _ _ S) in H
    | H : sameN F h _ _ |- _ => apply (sameN_step _ _ _ _ _ _ _ S) in H
    | H : sameR F h _ _ |- _ => apply (sameR_step _ _ _ _ _ _ _ S) in H
    | H : Forall2 (sameN F h) _ _ |- _ => apply (kids_step _ _ _ _ _ _ _ S) in H
    | H : Forall2 (sameR F h) _ _ |- _ => apply (results_step _ _ _ _ _ _ _ S) in H
    end
  end.
Ltac carryO S :=
  repeat match type of S with step _ ?h ?F ?h' ?F' =>
    match goal with H : own _ F h _ _ |- _ => apply (own_call _ _ _ _ _ _ _ S) in H end
  end.
Lemma step_len n h F h' F' : step n h F h' F' -> length F' = length h' /\ (length h <= length h')%nat.
Proof. intros (_ & A & B & _). auto. Qed.

(** ** Terminals *)
Lemma fail_ref n h F w p st rd rd' ss s : length F = length h -> sameS F h rd rd' -> sameT F h ss s ->
  refines n h F (hFail w p st rd ss) (Ok (failT w p st rd' s)) good.
Proof. intros L R T. unfold hFail, failT. apply ref_cursor with s; auto. apply ref_ret with F; [now apply step_refl|]. split; [apply sameR_make; auto|exact T]. Qed.
Lemma fail_own n h F w p st rd rd' ss s : length F = length h -> own n F h rd rd' -> sameT F h ss s ->
  refines n h F (hFail w p st rd ss) (Ok (failT w p st rd' s)) good.
Proof. intros L R T. destruct (publish _ _ _ _ _ L R) as (F' & S & X & _). carry S. eapply ref_ghost; [exact S|]. apply fail_ref; auto. apply (step_len _ _ _ _ _ S). Qed.

(** A leaf made of new runes. *)
Lemma leaf_ref n h F t b cs pos st rd rd' un un' ss s : (n <= length h)%nat -> length F = length h -> own n F h rd rd' -> sameS F h un un' -> sameT F h ss s ->
  refines n h F (do chars <- add grow nilS cs; ret (mkSR (Some (makeNode t b chars [] pos st)) None 0 rd un st, ss))
    (Ok (mkRes (Some (mkNode t b cs [] pos st)) None 0 rd' un' st, s)) good.
Proof.
  intros N L R U T. destruct (publish _ _ _ _ _ L R) as (F1 & S1 & X1 & _). carry S1. eapply ref_ghost; [exact S1|]. destruct (step_len _ _ _ _ _ S1) as [L1 _].
  eapply ref_pure; [apply ref_add; [exact N|exact L1|apply own_nil]|]. intros h2 F2 chars S2 [O2 _]. cbn [app] in O2. carry S2. destruct (step_len _ _ _ _ _ S2) as [L2 _].
  destruct (publish _ _ _ _ _ L2 O2) as (F3 & S3 & X3 & _). carry S3. apply ref_ret with F3; auto. split; [|exact T]. apply sameR_make; auto.
  eexists. split; [reflexivity|]. apply sameN_make; auto.
Qed.
Lemma charTail_ref n h F b txt p0 rd rd' ss s : (n <= length h)%nat -> length F = length h -> own n F h rd rd' -> sameT F h ss s ->
  refines n h F (hCharTail grow b txt p0 rd ss)
    (Ok (if negb (peek s =? txt) then failT (WChar b txt) (AtPos p0) true rd' s
         else let '(pos, s') := positionOf s in let '(c, s'') := next s' in
           (mkRes (Some (mkNode TChar b [c] [] pos true)) None 0 (rd' ++ [c]) [] true, s''))) good.
Proof.
  intros N L R T. unfold hCharTail. apply ref_peek with s; auto. destruct (negb (peek s =? txt)); [now apply fail_own|].
  apply ref_position with s; auto. intros ss1 T1. cbv beta iota. destruct (positionOf s) as [pos s1] eqn:E1. cbn [fst snd] in *.
  apply ref_next with s1; auto. intros ss2 T2. cbv beta iota. destruct (next s1) as [c s2] eqn:E2. cbn [fst snd] in *.
  eapply ref_pure; [apply ref_add; eauto|]. intros h1 F1 rd1 S1 [O1 _]. carry S1. destruct (step_len _ _ _ _ _ S1) as [L1 N1].
  apply leaf_ref; auto; try lia. apply sameS_nil.
Qed.
Lemma find_idx_lt x l : forall i, find_idx x l = Some i -> (i < length l)%nat.
Proof. induction l as [|y l IH]; intros i E; cbn in E; [discriminate|]. destruct (y =? x); [injection E as <-; cbn; lia|]. destruct (find_idx x l); [|discriminate]. injection E as <-. specialize (IH _ eq_refl). cbn. lia. Qed.
Lemma find_idxp_lt p l : forall i, find_idxp p l = Some i -> (i < length l)%nat.
Proof. induction l as [|y l IH]; intros i E; cbn in E; [discriminate|]. destruct (p y); [injection E as <-; cbn; lia|]. destruct (find_idxp p l); [|discriminate]. injection E as <-. specialize (IH _ eq_refl). cbn. lia. Qed.
Lemma slice_from_ok {A} (l : list A) k : (k <= length l)%nat -> slice_from l (Z.of_nat k) = Ok (skipn k l).
Proof. intros L. unfold slice_from. destruct (Z.leb_spec 0 (Z.of_nat k)); [|lia]. destruct (Z.leb_spec (Z.of_nat k) (Z.of_nat (length l))); [|lia]. cbn. now rewrite Nat2Z.id. Qed.
(** [skippedSpaces] goes into [CharsRead]. *)
Lemma skipped_ref {C D} h F ss s (k : slice -> slice -> sstream -> prog C) (o : outcome D) Q : length F = length h -> sameT F h ss s ->
  (forall h' F' sp read ss', length F' = length h' -> (length h <= length h')%nat -> sameS F' h' sp (fst (skipSpaces s)) -> own (length h) F' h' read (fst (skipSpaces s)) ->
     sameT F' h' ss' (snd (skipSpaces s)) -> refines (length h) h' F' (k sp read ss') o Q) ->
  refines (length h) h F (do (sp, s2) <- hSkip grow ss; do read <- addS grow nilS sp; k sp read s2) o Q.
Proof.
  intros L T K. eapply ref_callp; [apply le_n|apply skip_ref; eauto|]. intros h1 F1 [sp ss1] S1 [X1 T1]. cbn [fst snd] in *. destruct (step_len _ _ _ _ _ S1) as [L1 N1].
  eapply ref_pure; [apply ref_addS; [exact N1|exact L1|apply own_nil|apply X1]|]. intros h2 F2 rd S2 [O2 _]. cbn [app] in O2. carry S2. destruct (step_len _ _ _ _ _ S2) as [L2 N2]. apply K; auto. lia.
Qed.
Lemma char_ref h F b txt ss s f : length F = length h -> sameT F h ss s -> refines (length h) h F (hChar grow b txt ss f) (Ok (evalChar b txt s f)) good.
Proof.
  intros L T. unfold hChar, evalChar. apply ref_peek with s; auto. destruct (peek s =? EOFChar); [apply fail_own; auto; apply own_nil|].
  apply ref_position with s; auto. intros ss1 T1. cbv beta iota. cbv zeta. destruct (f =? SUGGEST_SKIP).
  - apply skipped_ref with (s := snd (positionOf s)); auto. intros h1 F1 sp rd ss2 L1 N1 X1 O1 T2. destruct (skipSpaces (snd (positionOf s))) as [spl s2] eqn:E2. cbn [fst snd] in *.
    assert (NE : (0 <? sl_len sp)%nat = nonempty spl). { destruct X1 as (_ & E & _). rewrite <- E. now destruct spl. } rewrite NE.
    destruct (isWS txt && nonempty spl); [|now apply charTail_ref].
    apply ref_look. replace (cells h1 sp) with spl by (symmetry; apply X1). destruct (find_idx txt spl) as [i|] eqn:FI; [|now apply fail_own].
    apply find_idx_lt in FI. destruct (publish _ _ _ _ _ L1 O1) as (F2 & S2 & X2 & _). carry S2. eapply ref_ghost; [exact S2|]. destruct (step_len _ _ _ _ _ S2) as [L2 _].
    eapply ref_pure; [apply ref_add; [exact N1|exact L2|apply own_nil]|]. intros h3 F3 chars S3 [O3 _]. cbn [app] in O3. carry S3. destruct (step_len _ _ _ _ _ S3) as [L3 _].
    apply ref_cursor with s2; auto. apply ref_lookup with s2; auto.
    eapply ref_callp; [destruct (step_len _ _ _ _ _ S3); lia|rewrite <- (slice_from_ok spl (Datatypes.S i)) by lia; apply ref_from; eauto|]. intros h4 F4 un S4 X4. cbv beta in X4. carry S4. carryO S4. destruct (step_len _ _ _ _ _ S4) as [L4 _].
    destruct (publish _ _ _ _ _ L4 O3) as (F5 & S5 & X5 & _). carry S5. apply ref_ret with F5; auto. split; [|exact T2].
    assert (E : sl_len sp = length spl) by (destruct X1 as (_ & E & _); auto). rewrite E. apply sameR_make; auto. eexists. split; [reflexivity|]. apply sameN_make; auto.
  - apply charTail_ref; auto. apply own_nil.
Qed.
Lemma charsTail_ref n h F b txt p0 rd rd' toMatch start ss s : (n <= length h)%nat -> length F = length h -> own n F h rd rd' -> sameT F h ss s ->
  refines n h F (hCharsTail grow b txt p0 rd toMatch start ss)
    (Ok (let '(got, ok, s') := matchRunes s toMatch in
      if ok then (mkRes (Some (mkNode TChars b txt [] (positionLookup s' start) true)) None 0 (rd' ++ got) [] true, s')
      else failT (WChars b txt) (AtPos p0) true (rd' ++ got) s')) good.
Proof.
  intros N L R T. unfold hCharsTail. eapply ref_callp; [exact N|apply match_ref; eauto|]. intros h1 F1 [[got ok] ss1] S1 (X1 & Q1 & T1). cbn [fst snd] in *.
  destruct (matchRunes s toMatch) as [[gotl okl] s1] eqn:E. cbn [fst snd] in *. subst okl. carryO S1. destruct (step_len _ _ _ _ _ S1) as [L1 N1].
  eapply ref_pure; [apply ref_addS; [|exact L1|exact R|apply X1]; lia|]. intros h2 F2 rd1 S2 [O2 _]. carry S2. destruct (step_len _ _ _ _ _ S2) as [L2 N2].
  destruct ok; [|now apply fail_own]. apply ref_lookup with s1; auto. apply leaf_ref; auto; try lia. apply sameS_nil.
Qed.
Lemma stringTail_ref n h F b txt p0 rd rd' toMatch ss s : (n <= length h)%nat -> length F = length h -> own n F h rd rd' -> sameT F h ss s ->
  refines n h F (hStringTail grow b txt p0 rd toMatch ss)
    (Ok (let '(got, ok, s') := matchRunes s toMatch in
      if ok then (mkRes (Some (mkNode TString b txt [] (positionLookup s' (cursor s' - Z.of_nat (length txt))) false)) None 0 (rd' ++ got) [] false, s')
      else failT (WString b txt) (AtPos p0) false (rd' ++ got) s')) good.
Proof.
  intros N L R T. unfold hStringTail. eapply ref_callp; [exact N|apply match_ref; eauto|]. intros h1 F1 [[got ok] ss1] S1 (X1 & Q1 & T1). cbn [fst snd] in *.
  destruct (matchRunes s toMatch) as [[gotl okl] s1] eqn:E. cbn [fst snd] in *. subst okl. carryO S1. destruct (step_len _ _ _ _ _ S1) as [L1 N1].
  eapply ref_pure; [apply ref_addS; [|exact L1|exact R|apply X1]; lia|]. intros h2 F2 rd1 S2 [O2 _]. carry S2. destruct (step_len _ _ _ _ _ S2) as [L2 N2].
  destruct ok; [|now apply fail_own]. apply ref_cursor with s1; auto. apply ref_lookup with s1; auto. apply leaf_ref; auto; try lia. apply sameS_nil.
Qed.
(** The last skipped spaces. *)
Lemma ref_last {C D} n h F sp spl (lead : list Z) (k : list Z -> prog C) (o : outcome D) Q : (n <= length h)%nat -> length F = length h -> sameS F h sp spl -> (length lead <= length spl)%nat ->
  (forall h' F', step (length h) h F h' F' -> refines n h' F' (k (skipn (length spl - length lead) spl)) o Q) ->
  refines n h F (do last <- from sp (Z.of_nat (sl_len sp - length lead)); do lastc <- look (fun h => cells h last); k lastc) o Q.
Proof.
  intros N L X LE K. assert (E : sl_len sp = length spl) by (destruct X as (_ & E & _); auto). rewrite E.
  eapply ref_callp; [exact N|rewrite <- (slice_from_ok spl (length spl - length lead)) by lia; apply ref_from; eauto|]. intros h1 F1 x S1 X1. apply ref_look. destruct X1 as (-> & _). apply K, S1.
Qed.
Lemma chars_ref h F b txt ss s f : length F = length h -> sameT F h ss s -> refines (length h) h F (hChars grow b txt ss f) (Ok (evalChars b txt s f)) good.
Proof.
  intros L T. unfold hChars, evalChars. apply ref_peek with s; auto. destruct (peek s =? EOFChar); [apply fail_own; auto; apply own_nil|].
  apply ref_position with s; auto. intros ss1 T1. cbv beta iota. cbv zeta. apply ref_cursor with (snd (positionOf s)); auto. destruct (f =? SUGGEST_SKIP).
  - apply skipped_ref with (s := snd (positionOf s)); auto. intros h1 F1 sp rd ss2 L1 N1 X1 O1 T2. destruct (skipSpaces (snd (positionOf s))) as [spl s2] eqn:E2. cbn [fst snd] in *.
    assert (E : sl_len sp = length spl) by (destruct X1 as (_ & E & _); auto). rewrite E. destruct (length spl <? length (leadingWS txt))%nat eqn:LT; [now apply fail_own|]. apply Nat.ltb_ge in LT.
    rewrite <- E. apply ref_last with (spl := spl); auto. intros h2 F2 S2. carry S2. carryO S2. destruct (step_len _ _ _ _ _ S2) as [L3 N3]. unfold tail_is.
    destruct (negb (runes_eqb (skipn (length spl - length (leadingWS txt)) spl) (leadingWS txt))); [now apply fail_own|]. rewrite E. apply charsTail_ref; auto. lia.
  - apply charsTail_ref; auto. apply own_nil.
Qed.
Lemma string_ref h F b txt ss s f : length F = length h -> sameT F h ss s -> refines (length h) h F (hString grow b txt ss f) (Ok (evalString b txt s f)) good.
Proof.
  intros L T. unfold hString, evalString. apply ref_peek with s; auto. destruct (peek s =? EOFChar); [apply fail_own; auto; apply own_nil|].
  apply ref_position with s; auto. intros ss1 T1. cbv beta iota. cbv zeta. destruct ((f =? SUGGEST_SKIP) || (f =? SUGGEST_NOT_SKIP)).
  - apply skipped_ref with (s := snd (positionOf s)); auto. intros h1 F1 sp rd ss2 L1 N1 X1 O1 T2. destruct (skipSpaces (snd (positionOf s))) as [spl s2] eqn:E2. cbn [fst snd] in *.
    assert (E : sl_len sp = length spl) by (destruct X1 as (_ & E & _); auto). rewrite E. destruct (length spl <? length (leadingWS txt))%nat eqn:LT; [now apply fail_own|]. apply Nat.ltb_ge in LT.
    rewrite <- E. apply ref_last with (spl := spl); auto. intros h2 F2 S2. carry S2. carryO S2. destruct (step_len _ _ _ _ _ S2) as [L3 N3]. unfold tail_is.
    destruct (negb (runes_eqb (skipn (length spl - length (leadingWS txt)) spl) (leadingWS txt))); [now apply fail_own|]. apply stringTail_ref; auto. lia.
  - apply stringTail_ref; auto. apply own_nil.
Qed.
Lemma rangeTail_ref n h F b lo hi pos rd rd' ss s : (n <= length h)%nat -> length F = length h -> own n F h rd rd' -> sameT F h ss s ->
  refines n h F (hRangeTail grow b lo hi pos rd ss)
    (Ok (let p0 := fst (positionOf s) in let s1 := snd (positionOf s) in let c := peek s1 in
      if (lo <=? c) && (c <=? hi) then
        let '(c', s2) := next s1 in (mkRes (Some (mkNode TChars b [c'] [] pos true)) None 0 (rd' ++ [c']) [] true, s2)
      else failT (WRange b lo hi) (AtPos p0) true rd' s1)) good.
Proof.
  intros N L R T. unfold hRangeTail. apply ref_position with s; auto. intros ss1 T1. cbv beta iota zeta. apply ref_peek with (snd (positionOf s)); auto.
  destruct ((lo <=? peek (snd (positionOf s))) && (peek (snd (positionOf s)) <=? hi)); [|now apply fail_own].
  apply ref_next with (snd (positionOf s)); auto. intros ss2 T2. cbv beta iota. destruct (next (snd (positionOf s))) as [c s2] eqn:E2. cbn [fst snd] in *.
  eapply ref_pure; [apply ref_add; eauto|]. intros h1 F1 rd1 S1 [O1 _]. carry S1. destruct (step_len _ _ _ _ _ S1) as [L1 N1].
  apply leaf_ref; auto; try lia. apply sameS_nil.
Qed.
Lemma range_ref h F b lo hi ss s f : length F = length h -> sameT F h ss s -> refines (length h) h F (hRange grow b lo hi ss f) (Ok (evalRange b lo hi s f)) good.
Proof.
  intros L T. unfold hRange, evalRange. apply ref_peek with s; auto. destruct (peek s =? EOFChar); [apply fail_own; auto; apply own_nil|].
  apply ref_cursor with s; auto. apply ref_lookup with s; auto. cbv zeta. destruct (f =? SUGGEST_SKIP).
  - apply skipped_ref with (s := s); auto. intros h1 F1 sp rd ss2 L1 N1 X1 O1 T2. destruct (skipSpaces s) as [spl s2] eqn:E2. cbn [fst snd] in *.
    apply ref_look. replace (cells h1 sp) with spl by (symmetry; apply X1). destruct (find_idxp _ spl) as [i|] eqn:FI; [|now apply rangeTail_ref].
    apply find_idxp_lt in FI. eapply ref_callp; [exact N1|rewrite <- (slice_from_ok spl (Datatypes.S i)) by lia; apply ref_from; eauto|]. intros h4 F4 un S4 X4. cbv beta in X4. carry S4. carryO S4. destruct (step_len _ _ _ _ _ S4) as [L4 N4].
    apply leaf_ref; auto. lia.
  - apply rangeTail_ref; auto. apply own_nil.
Qed.
Lemma eof_ref h F b ss s f : length F = length h -> sameT F h ss s -> refines (length h) h F (hEOF grow b ss f) (Ok (evalEOF b s f)) good.
Proof.
  intros L T. unfold hEOF, evalEOF.
  assert (G : refines (length h) h F (if f =? 1 then hSkip grow ss else ret (nilS, ss)) (Ok (if f =? 1 then skipSpaces s else ([], s))) (fun h' F' a b => sameS F' h' (fst a) (fst b) /\ sameT F' h' (snd a) (snd b))).
  { destruct (f =? 1); [now apply skip_ref|]. apply ref_ret with F; [now apply step_refl|]. split; [apply sameS_nil|exact T]. }
  eapply ref_callp; [apply le_n|exact G|]. destruct (if f =? 1 then skipSpaces s else ([], s)) as [spl s1]. intros h1 F1 [sp ss1] S1 [X1 T1]. cbn [fst snd] in *. destruct (step_len _ _ _ _ _ S1) as [L1 N1].
  apply ref_peek with s1; auto. destruct (peek s1 =? EOFChar); [|now apply fail_ref].
  eapply ref_pure; [apply ref_add; [exact N1|exact L1|apply own_nil]|]. intros h3 F3 chars S3 [O3 _]. cbn [app] in O3. carry S3. destruct (step_len _ _ _ _ _ S3) as [L3 N3].
  destruct (publish _ _ _ _ _ L3 O3) as (F5 & S5 & X5 & _). carry S5. eapply ref_ghost; [exact S5|]. destruct (step_len _ _ _ _ _ S5) as [L5 _].
  apply ref_position with s1; auto. intros ss2 T2. cbv beta iota. destruct (positionOf s1) as [pos s2]. cbn [fst snd] in *. apply ref_ret with F5; [now apply step_refl|]. split; [|exact T2]. apply sameR_make; auto; [|apply sameS_nil].
  eexists. split; [reflexivity|]. apply (sameN_make F5 h3 TEOF (mkBase nameEOF (b_virtual b) (b_nondata b) (b_tokenized b)) chars [EOFChar] [] [] pos true); auto.
Qed.

(** ** Composite rules *)
Lemma used_ref n h F x r : length F = length h -> sameR F h x r -> refines n h F (usedChars x) (charsUsed r) (fun h' F' s l => sameS F' h' s l).
Proof. intros L R. unfold usedChars, charsUsed. rewrite (sameR_count _ _ _ _ R). apply ref_upTo; auto. now apply sameR_read. Qed.
Lemma sameS_len F h s l : sameS F h s l -> sl_len s = length l.
Proof. intros (_ & E & _). auto. Qed.
Lemma account_ref n h F rd rd' un un' x r : (n <= length h)%nat -> length F = length h -> own n F h rd rd' -> sameS F h un un' -> sameR F h x r ->
  refines n h F (hAccount grow rd un x) (account rd' un' r) (fun h' F' a b => own n F' h' (fst a) (fst b) /\ sameS F' h' (snd a) (snd b)).
Proof.
  intros N L O U R. unfold hAccount, account. assert (RD := sameR_read _ _ _ _ R). assert (RU := sameR_unused _ _ _ _ R).
  rewrite (sameS_len _ _ _ _ U), (sameS_len _ _ _ _ RD). destruct (length un' <? length (r_read r))%nat.
  - eapply ref_call; [exact N|apply ref_from; eauto|]. intros h1 F1 ex exl S1 X1. cbv beta in X1. carry S1. carryO S1. destruct (step_len _ _ _ _ _ S1) as [L1 N1].
    eapply ref_pure; [apply ref_addS; [|exact L1|exact O|apply X1]; lia|]. intros h2 F2 rd2 S2 [O2 _]. carry S2. destruct (step_len _ _ _ _ _ S2) as [L2 N2]. apply ref_ret with F2; [now apply step_refl|]. auto.
  - eapply ref_call; [exact N|apply used_ref; eauto|]. intros h1 F1 u ul S1 X1. cbv beta in X1. carry S1. carryO S1. destruct (step_len _ _ _ _ _ S1) as [L1 N1].
    rewrite (sameS_len _ _ _ _ X1). eapply ref_call; [|apply ref_from; eauto|]; [lia|]. intros h2 F2 lf lfl S2 X2. cbv beta in X2. carry S2. carryO S2. destruct (step_len _ _ _ _ _ S2) as [L2 N2].
    rewrite (sameS_len _ _ _ _ X2). apply ref_ret with F2; [now apply step_refl|]. cbn [fst snd]. split; auto. destruct (length lfl <? length ul)%nat; auto.
Qed.
Lemma sameN_pos F h x n : sameN F h x n -> n_pos n = m_pos x.
Proof. intros [<- _]. now destruct x. Qed.
Lemma sameN_orPos F h x n p : sameN F h x n -> orPos p n = hOrPos p x.
Proof. intros N. unfold orPos, hOrPos. now rewrite (sameN_pos _ _ _ _ N). Qed.
Lemma sameN_flag F h x n f st : sameN F h x n -> nextFlag f n st = hNextFlag f x st.
Proof.
  intros [<- O]. inversion O as [y A _]; subst. unfold nextFlag, hNextFlag. destruct x as [ty nm ch kids pos a b c d]. cbn [nodeIn n_type n_kids n_chars m_type m_kids m_chars] in *.
  replace (nonempty (List.map (nodeIn h) kids)) with (nonempty kids) by now destruct kids.
  replace (nonempty (cells h ch)) with (0 <? sl_len ch)%nat; [reflexivity|]. destruct A as (_ & E & _). rewrite <- E. now destruct (cells h ch).
Qed.
Lemma Forall2_rev' {A B} (P : A -> B -> Prop) l m : Forall2 P l m -> Forall2 P (rev l) (rev m).
Proof. intros X. induction X; cbn; auto. apply Forall2_app; auto. Qed.
Lemma Forall2_len {A B} (P : A -> B -> Prop) l m : Forall2 P l m -> length l = length m.
Proof. intros X. induction X; cbn; auto. Qed.

Section Rec.
Variables (hrec : hevalT) (rec : evalT).
Hypothesis REC : forall r ss s f h F, length F = length h -> sameT F h ss s -> refines (length h) h F (hrec r ss f) (rec r s f) good.

Ltac fields R := let E1 := fresh "E" in let E2 := fresh "E" in let E3 := fresh "E" in
  destruct (sameR_rest _ _ _ _ R) as (E1 & E2 & E3); rewrite ?E1, ?E2, ?E3; clear E1 E2 E3.

Lemma concat_ref n b self d rules : forall h F ss s f rd rd' un un' st kids kids' pos, (n <= length h)%nat -> length F = length h -> sameT F h ss s ->
  own n F h rd rd' -> sameS F h un un' -> Forall2 (sameN F h) kids kids' ->
  refines n h F (hConcat grow hrec b self d rules ss f rd un st kids pos) (concatLoop rec b self d rules s f rd' un' st kids' pos) good.
Proof.
  induction rules as [|r rules IH]; intros h F ss s f rd rd' un un' st kids kids' pos N L T O U K; cbn [hConcat concatLoop].
  - destruct (publish _ _ _ _ _ L O) as (F1 & S1 & X1 & _). carry S1. apply ref_ret with F1; auto. split; [|now apply sameT_peel]. apply sameR_make; auto.
    eexists. split; [reflexivity|]. apply sameN_make; [apply sameS_nil|now apply Forall2_rev'].
  - cbv zeta. eapply ref_call; [exact N|apply REC; [exact L|now apply sameT_wrap]|]. intros h1 F1 [res ss2] [resl s2] S1 [R1 T1]. cbn [fst snd] in *. carry S1. carryO S1. destruct (step_len _ _ _ _ _ S1) as [L1 N1].
    eapply ref_bind; [apply account_ref; eauto; lia|]. intros h2 F2 [rd2 un2] [rd2' un2'] S2 [O2 U2]. cbn [fst snd] in *. carry S2. destruct (step_len _ _ _ _ _ S2) as [L2 N2].
    fields R1. assert (ND := sameR_node _ _ _ _ R1). destruct (a_node res) as [x|].
    + destruct ND as (y & -> & ND). rewrite (sameN_flag _ _ _ _ _ _ ND), (sameN_orPos _ _ _ _ _ ND). apply IH; auto. lia.
    + rewrite ND. destruct (descOk self); [|exact Logic.I]. destruct (publish _ _ _ _ _ L2 O2) as (F3 & S3 & X3 & _). carry S3. apply ref_ret with F3; auto. split; [|now apply sameT_peel]. apply sameR_make; auto.
Qed.

Lemma repDone_ref n h F b self rmin idx err erridx rd rd' un un' st kids kids' pos : length F = length h -> own n F h rd rd' -> sameS F h un un' -> Forall2 (sameN F h) kids kids' ->
  refines n h F (hRepDone b self rmin idx err erridx rd un st kids pos) (repDone b self rmin idx err erridx rd' un' st kids' pos) (fun h' F' a b => sameR F' h' a b).
Proof.
  intros L O U K. destruct (publish _ _ _ _ _ L O) as (F1 & S1 & X1 & _). carry S1. unfold hRepDone, repDone. rewrite (Forall2_len _ _ _ K).
  destruct (Z.of_nat (length kids') <? rmin).
  - destruct err as [e|]; [apply ref_ret with F1; auto; apply sameR_make; auto|]. destruct (descOk self); [|exact Logic.I]. apply ref_ret with F1; auto. apply sameR_make; auto.
  - apply ref_ret with F1; auto. apply sameR_make; auto. eexists. split; [reflexivity|]. apply sameN_make; [apply sameS_nil|now apply Forall2_rev'].
Qed.
Lemma repEnd_ref n h F b self rmin idx err erridx rd rd' un un' st kids kids' pos ss s : length F = length h -> own n F h rd rd' -> sameS F h un un' -> Forall2 (sameN F h) kids kids' -> sameT F h ss s ->
  refines n h F (do res <- hRepDone b self rmin idx err erridx rd un st kids pos; ret (res, ss)) (let* res := repDone b self rmin idx err erridx rd' un' st kids' pos in Ok (res, s)) good.
Proof.
  intros L O U K T. eapply ref_bind; [apply repDone_ref; eauto|]. intros h1 F1 x r S1 X1. cbv beta in X1. carry S1. destruct (step_len _ _ _ _ _ S1) as [L1 N1]. apply ref_ret with F1; [now apply step_refl|]. split; auto.
Qed.
Lemma rep_ref n b self r rmin rmax d fuel : forall h F ss s f rd rd' un un' st kids kids' pos, (n <= length h)%nat -> length F = length h -> sameT F h ss s ->
  own n F h rd rd' -> sameS F h un un' -> Forall2 (sameN F h) kids kids' ->
  refines n h F (hRep grow hrec fuel b self r rmin rmax d ss f rd un st kids pos) (repLoop rec fuel b self r rmin rmax d s f rd' un' st kids' pos) good.
Proof.
  induction fuel as [|fuel IH]; intros h F ss s f rd rd' un un' st kids kids' pos N L T O U K; cbn [hRep repLoop]; [exact Logic.I|]. cbv zeta.
  assert (T0 := sameT_wrap _ _ _ _ _ _ T U). apply ref_peek with (prepend s un'); auto. destruct (peek (prepend s un') =? EOFChar).
  { assert (T1 := sameT_peel _ _ _ _ d T0). apply ref_cursor with (unwrap d (prepend s un')); auto. now apply repEnd_ref. }
  eapply ref_call; [exact N|apply REC; [exact L|exact T0]|]. intros h1 F1 [res ss2] [resl s2] S1 [R1 T1]. cbn [fst snd] in *. carry S1. carryO S1. destruct (step_len _ _ _ _ _ S1) as [L1 N1].
  eapply ref_bind; [apply account_ref; eauto; lia|]. intros h2 F2 [rd2 un2] [rd2' un2'] S2 [O2 U2]. cbn [fst snd] in *. carry S2. destruct (step_len _ _ _ _ _ S2) as [L2 N2].
  assert (T2 := sameT_peel _ _ _ _ d T1). fields R1. assert (ND := sameR_node _ _ _ _ R1). destruct (a_node res) as [x|].
  - destruct ND as (y & -> & ND). rewrite (sameN_orPos _ _ _ _ _ ND). cbn [length]. rewrite (Forall2_len _ _ _ K). destruct ((rmax >? 0) && (Z.of_nat (S (length kids')) =? rmax)); [|apply IH; auto; lia].
    apply ref_cursor with (unwrap d s2); auto. apply repEnd_ref; auto.
  - rewrite ND. apply ref_cursor with (unwrap d s2); auto. now apply repEnd_ref.
Qed.

Definition altsIn (h : heap) (F : list nat) (a : list sresult * slice * bool * option eerr * Z * sstream) (b : list result * list Z * bool * option eerr * Z * stream) : Prop :=
  let '(m, mr, st, e, i, ss) := a in let '(m', mr', st', e', i', s) := b in
  Forall2 (sameR F h) m m' /\ sameS F h mr mr' /\ st = st' /\ e = e' /\ i = i' /\ sameT F h ss s.
Lemma alts_ref n d rules : forall h F ss s f mr mr' st e i m m', (n <= length h)%nat -> length F = length h -> sameT F h ss s -> sameS F h mr mr' -> Forall2 (sameR F h) m m' ->
  refines n h F (hAlts hrec d rules ss f mr st e i m) (altLoop rec d rules s f mr' st e i m') altsIn.
Proof.
  induction rules as [|r rules IH]; intros h F ss s f mr mr' st e i m m' N L T M A; cbn [hAlts altLoop].
  - apply ref_ret with F; [now apply step_refl|]. repeat split; auto; try apply M; try apply T. now apply Forall2_rev'.
  - eapply ref_call; [exact N|apply REC; [exact L|now apply sameT_wrap]|]. intros h1 F1 [res ss2] [resl s2] S1 [R1 T1]. cbn [fst snd] in *. cbv zeta. carry S1. destruct (step_len _ _ _ _ _ S1) as [L1 N1].
    assert (T2 := sameT_peel _ _ _ _ d T1). assert (RD := sameR_read _ _ _ _ R1). rewrite (sameS_len _ _ _ _ M), (sameS_len _ _ _ _ RD). fields R1.
    assert (M1 : sameS F1 h1 (if (length mr' <? length (r_read resl))%nat then a_read res else mr) (if (length mr' <? length (r_read resl))%nat then r_read resl else mr')) by (destruct (length mr' <? length (r_read resl))%nat; auto).
    assert (ND := sameR_node _ _ _ _ R1). destruct (a_node res) as [x|].
    + destruct ND as (y & -> & ND). apply IH; auto. lia.
    + rewrite ND. destruct (a_idx res >? i); apply IH; auto; lia.
Qed.

Definition picked (F : list nat) (h : heap) (a : option (option sresult)) (b : option (option result)) : Prop :=
  match a, b with None, None => True | Some None, Some None => True | Some (Some x), Some (Some r) => sameR F h x r | _, _ => False end.
Lemma selLoop_same F h l l' : Forall2 (sameR F h) l l' -> forall k x y, picked F h (Some x) (Some y) -> picked F h (hSelLoop k x l) (selLoop k y l').
Proof.
  intros A. induction A as [|a b l l' R A IH]; intros k x y P; cbn [hSelLoop selLoop]; auto. rewrite (sameR_count _ _ _ _ R).
  destruct (countUsed b <? k); [now apply IH|]. destruct (countUsed b =? k); [|now apply IH].
  destruct x as [x|], y as [y|]; cbn [picked] in P; try contradiction; [exact Logic.I|now apply IH].
Qed.
Lemma select_same F h l l' : Forall2 (sameR F h) l l' -> picked F h (hSelect l) (select l').
Proof.
  intros A. destruct A as [|a b l l' R A]; [exact Logic.I|]. destruct A as [|a2 b2 l l' R2 A]; [exact R|]. cbn [hSelect select]. apply selLoop_same; [|exact Logic.I]. constructor; [exact R|]. constructor; [exact R2|exact A].
Qed.
Lemma selTie_same F h l l' : Forall2 (sameR F h) l l' -> forall k x y, picked F h (Some x) (Some y) -> Forall2 (sameR F h) (hSelTie k x l) (selTie k y l').
Proof.
  intros A. induction A as [|a b l l' R A IH]; intros k x y P; cbn [hSelTie selTie]; auto. rewrite (sameR_count _ _ _ _ R).
  destruct (countUsed b <? k); [now apply IH|]. destruct (countUsed b =? k); [|now apply IH].
  destruct x as [x|], y as [y|]; cbn [picked] in P; try contradiction; [constructor; [exact P|constructor; [exact R|constructor]]|now apply IH].
Qed.
Lemma ref_tied {D E} n h F l l' (k : list node -> prog D) (o : outcome E) Q : Forall2 (sameR F h) l l' -> refines n h F (k (tied l')) o Q -> refines n h F (pbind (hTied l) k) o Q.
Proof.
  intros A H. unfold hTied. apply ref_look. replace (flat_map _ _) with (tied l'); auto. unfold tied.
  assert (B := selTie_same F h l l' A 0 None None Logic.I). induction B as [|a b m m' R B IB]; cbn [flat_map]; auto. rewrite <- IB. f_equal.
  assert (ND := sameR_node _ _ _ _ R). destruct (a_node a); [destruct ND as (y & -> & <- & _)|rewrite ND]; reflexivity.
Qed.
Lemma choice_ref n b self d groups : forall h F ss s f mr mr' st e i, (n <= length h)%nat -> length F = length h -> sameT F h ss s -> sameS F h mr mr' ->
  refines n h F (hChoice hrec b self d groups ss f mr st e i) (choiceLoop rec b self d groups s f mr' st e i) good.
Proof.
  induction groups as [|g groups IH]; intros h F ss s f mr mr' st e i N L T M; cbn [hChoice choiceLoop].
  - destruct (descOk self); [|exact Logic.I]. apply ref_ret with F; [now apply step_refl|]. split; auto. apply sameR_make; auto.
  - eapply ref_bind; [apply alts_ref; eauto|]. intros h1 F1 [[[[[m mr1] st1] e1] i1] ss1] [[[[[m' mr1'] st1'] e1'] i1'] s1] S1 (A1 & M1 & <- & <- & <- & T1). destruct (step_len _ _ _ _ _ S1) as [L1 N1].
    assert (P := select_same _ _ _ _ A1). destruct (hSelect m) as [[x|]|], (select m') as [[y|]|]; cbn [picked] in P; try contradiction.
    + assert (ND := sameR_node _ _ _ _ P). destruct (a_node x) as [nx|]; [|rewrite ND; exact Logic.I]. destruct ND as (ny & -> & ND). rewrite (sameR_count _ _ _ _ P).
      eapply ref_bind; [apply ref_from; eauto|]. intros h2 F2 un un' S2 U2. cbv beta in U2. carry S2. destruct (step_len _ _ _ _ _ S2) as [L2 N2]. apply ref_ret with F2; [now apply step_refl|]. split; auto.
      rewrite (sameN_pos _ _ _ _ ND). apply sameR_make; auto. eexists. split; [reflexivity|]. apply sameN_make; [apply sameS_nil|auto].
    + apply IH; auto. lia.
    + apply ref_tied with m'; auto. apply ref_ret with F1; [now apply step_refl|]. split; auto. apply sameR_make; auto. apply sameS_nil.
Qed.
Lemma greedy_ref h F rules ss s f : length F = length h -> sameT F h ss s -> refines (length h) h F (hGreedy hrec rules ss f) (mostGreedy rec rules s f) good.
Proof.
  intros L T. unfold hGreedy, mostGreedy. rewrite (sameT_deep _ _ _ _ T). eapply ref_bind; [apply alts_ref; eauto; apply sameS_nil|].
  intros h1 F1 [[[[[m mr1] st1] e1] i1] ss1] [[[[[m' mr1'] st1'] e1'] i1'] s1] S1 (A1 & M1 & <- & <- & <- & T1). destruct (step_len _ _ _ _ _ S1) as [L1 N1].
  assert (P := select_same _ _ _ _ A1). destruct (hSelect m) as [[x|]|], (select m') as [[y|]|]; cbn [picked] in P; try contradiction.
  - rewrite (sameR_count _ _ _ _ P). eapply ref_bind; [apply ref_from; eauto|]. intros h2 F2 un un' S2 U2. cbv beta in U2. carry S2. destruct (step_len _ _ _ _ _ S2) as [L2 N2]. apply ref_ret with F2; [now apply step_refl|]. split; auto.
    fields P. apply sameR_make; auto. apply (sameR_node _ _ _ _ P).
  - apply ref_ret with F1; [now apply step_refl|]. split; auto. apply sameR_make; auto.
  - apply ref_tied with m'; auto. apply ref_ret with F1; [now apply step_refl|]. split; auto. apply sameR_make; auto; apply sameS_nil.
Qed.

Lemma apart_sym s t : apartS s t -> apartS t s.
Proof. unfold apartS. intuition. Qed.
Definition exitIn (n : nat) (h : heap) (F : list nat) (e : hExit) (e' : blockExit) : Prop :=
  match e, e' with
  | HExclude x u c, BExclude r u' c' => sameR F h x r /\ own n F h u u' /\ own n F h c c' /\ apartS u c
  | HAtEOF u un, BEOF u' un' => own n F h u u' /\ sameS F h un un'
  | HClose x u un c, BClose r u' un' c' => sameR F h x r /\ own n F h u u' /\ sameS F h un un' /\ own n F h c c' /\ apartS u c
  | _, _ => False
  end.
Definition iterIn (n : nat) (h : heap) (F : list nat) (a : sstream * ((slice * slice * slice) + hExit)) (b : stream * ((list Z * list Z * list Z) + blockExit)) : Prop :=
  sameT F h (fst a) (fst b) /\
  match snd a, snd b with
  | inl (u, un, c), inl (u', un', c') => own n F h u u' /\ sameS F h un un' /\ own n F h c c' /\ apartS u c
  | inr e, inr e' => exitIn n h F e e'
  | _, _ => False
  end.
(** [append] to one of the two slices. *)
Lemma ref_app {C D} n h F s l t m x xs (k : slice -> prog C) (o : outcome D) Q : (n <= length h)%nat -> length F = length h -> own n F h s l -> own n F h t m -> apartS s t -> cells h x = xs ->
  (forall h' F' s', step n h F h' F' -> length F' = length h' -> (n <= length h')%nat -> own n F' h' s' (l ++ xs) -> own n F' h' t m -> apartS s' t -> refines n h' F' (k s') o Q) ->
  refines n h F (do y <- addS grow s x; k y) o Q.
Proof.
  intros N L O1 O2 AP X K. eapply ref_pure; [apply ref_addS; [exact N|exact L|exact O1|exact X]|]. intros h1 F1 s1 S1 [P1 P2]. cbv beta in P1. destruct (P2 _ _ AP O2) as [P3 P4]. destruct (step_len _ _ _ _ _ S1). apply K; auto. lia.
Qed.
Lemma ref_app1 {C D} n h F s l t m xs (k : slice -> prog C) (o : outcome D) Q : (n <= length h)%nat -> length F = length h -> own n F h s l -> own n F h t m -> apartS s t ->
  (forall h' F' s', step n h F h' F' -> length F' = length h' -> (n <= length h')%nat -> own n F' h' s' (l ++ xs) -> own n F' h' t m -> apartS s' t -> refines n h' F' (k s') o Q) ->
  refines n h F (do y <- add grow s xs; k y) o Q.
Proof.
  intros N L O1 O2 AP K. eapply ref_pure; [apply ref_add; [exact N|exact L|exact O1]|]. intros h1 F1 s1 S1 [P1 P2]. cbv beta in P1. destruct (P2 _ _ AP O2) as [P3 P4]. destruct (step_len _ _ _ _ _ S1). apply K; auto. lia.
Qed.

Definition escIn (n : nat) (content : slice) (cl : list Z) (h : heap) (F : list nat) (a : bool * slice * slice * slice * sstream) (b : bool * list Z * list Z * list Z * stream) : Prop :=
  let '(e, ec, u, un, ss) := a in let '(e', ec', u', un', s) := b in
  e = e' /\ sameS F h ec ec' /\ own n F h u u' /\ sameS F h un un' /\ sameT F h ss s /\ own n F h content cl /\ apartS u content.
Lemma blockIter_ref n h F cl esc excl cs cs' u u' un un' c c' : (n <= length h)%nat -> length F = length h -> sameT F h cs cs' -> own n F h u u' -> sameS F h un un' -> own n F h c c' -> apartS u c ->
  refines n h F (hBlockIter grow hrec cl esc excl cs u un c) (blockIter rec cl esc excl cs' u' un' c') (iterIn n).
Proof.
  intros N L T OU UN OC AP. unfold hBlockIter, blockIter. eapply ref_bind with (R := escIn n c c').
  { destruct esc as [e|].
    - eapply ref_call; [exact N|apply REC; eauto|]. intros h1 F1 [res ss1] [resl s1] S1 [R1 T1]. cbn [fst snd] in *. carry S1. carryO S1. destruct (step_len _ _ _ _ _ S1) as [L1 N1].
      assert (ND := sameR_node _ _ _ _ R1). assert (RD := sameR_read _ _ _ _ R1). assert (RU := sameR_unused _ _ _ _ R1). destruct (a_node res) as [x|].
      + destruct ND as (y & -> & ND). eapply ref_call; [|apply used_ref; eauto|]; [lia|]. intros h2 F2 v vl S2 V. cbv beta in V. carry S2. carryO S2. destruct (step_len _ _ _ _ _ S2) as [L2 N2].
        apply ref_app with (l := u') (t := c) (m := c') (xs := vl); auto; [lia|apply V|]. intros h3 F3 u3 S3 L3 N3 OU3 OC3 AP3. carry S3. apply ref_ret with F3; [now apply step_refl|]. cbn [escIn]. repeat split; auto; try apply V; try apply RU; try apply T1; try apply OU3; try apply OC3.
      + rewrite ND. apply ref_ret with F1; [now apply step_refl|]. exact (conj eq_refl (conj (sameS_nil _ _) (conj OU (conj RD (conj T1 (conj OC AP)))))).
    - apply ref_ret with F; [now apply step_refl|]. exact (conj eq_refl (conj (sameS_nil _ _) (conj OU (conj UN (conj T (conj OC AP)))))). }
  clear OU UN OC AP. intros h1 F1 [[[[es ec] u1] un1] ss1] [[[[es' ec'] u1'] un1'] s1] S1 (<- & EC & OU & UN & T1 & OC & AP). destruct (step_len _ _ _ _ _ S1) as [L1 N1]. clear T L. assert (N' : (n <= length h1)%nat) by lia. clear N N1 S1 h F cs cs' u u' un un'. cbv zeta.
  assert (T2 := sameT_wrap _ _ _ _ _ _ T1 UN).
  eapply ref_call with (R := fun h' F' (a : option sresult * sstream) (b : option result * stream) => sameT F' h' (snd a) (snd b) /\ match fst a, fst b with Some x, Some r => sameR F' h' x r | None, None => True | _, _ => False end); [exact N'| |].
  { destruct excl as [|x0 excl]; [apply ref_ret with F1; [now apply step_refl|]; split; auto; exact Logic.I|]. eapply ref_bind; [apply greedy_ref; eauto|]. intros h2 F2 [res ss2] [resl s2] S2 [R2 T3]. destruct (step_len _ _ _ _ _ S2) as [L2 N2].
    apply ref_ret with F2; [now apply step_refl|]. split; auto. }
  intros h2 F2 [ex ss2] [ex' s2] S2 [T3 EX]. cbn [fst snd] in *. carry S2. carryO S2. destruct (step_len _ _ _ _ _ S2) as [L2 N2]. assert (N3 : (n <= length h2)%nat) by lia. clear T1 T2 N2 N' L1 S2 F1 h1.
  assert (EXN : match ex with Some res => match a_node res with Some _ => true | None => false end | None => false end = match ex' with Some res => match r_node res with Some _ => true | None => false end | None => false end).
  { destruct ex as [x|], ex' as [r|]; try contradiction; auto. assert (ND := sameR_node _ _ _ _ EX). destruct (a_node x); [now destruct ND as (y & -> & _)|now rewrite ND]. }
  rewrite EXN. destruct (match ex' with Some res => match r_node res with Some _ => true | None => false end | None => false end).
  { assert (EX' : sameR F2 h2 match ex with Some res => res | None => mkSR None None 0 nilS nilS false end match ex' with Some res => res | None => mkRes None None 0 [] [] false end).
    { destruct ex as [x|], ex' as [r|]; try contradiction; auto. apply sameR_make; auto; apply sameS_nil. }
    destruct es; [|apply ref_ret with F2; [now apply step_refl|]; split; [exact T3|]; cbn [snd exitIn]; auto].
    eapply ref_call; [exact N3|apply used_ref; eauto|]. intros h3 F3 v vl S3 V. cbv beta in V. carry S3. carryO S3. destruct (step_len _ _ _ _ _ S3) as [L3 N4].
    apply ref_app with (l := u1') (t := c) (m := c') (xs := vl); auto; [lia|apply V|]. intros h4 F4 u4 S4 L4 N5 OU4 OC4 AP4. carry S4.
    apply ref_app with (l := c') (t := u4) (m := u1' ++ vl) (xs := vl); auto; [now apply apart_sym|apply V|]. intros h5 F5 u5 S5 L5 N6 OC5 OU5 AP5. carry S5.
    apply ref_ret with F5; [now apply step_refl|]. split; [exact T3|]. cbn [snd]. split; auto. split; [now apply sameR_unused|]. split; auto. now apply apart_sym. }
  assert (U2 : sameS F2 h2 match ex with Some res => a_read res | None => un1 end match ex' with Some res => r_read res | None => un1' end).
  { destruct ex as [x|], ex' as [r|]; try contradiction; auto. now apply sameR_read. }
  eapply ref_call; [exact N3|apply REC; [exact L2|apply sameT_wrap; eauto]|]. intros h3 F3 [res ss3] [resl s3] S3 [R3 T4]. cbn [fst snd] in *. carry S3. carryO S3. destruct (step_len _ _ _ _ _ S3) as [L3 N4].
  assert (N5 : (n <= length h3)%nat) by lia. clear U2 EXN EX UN T3 S3 N4 N3 L2 F2 h2 ex ex'. cbv zeta.
  assert (ND := sameR_node _ _ _ _ R3). assert (RU := sameR_unused _ _ _ _ R3). destruct (a_node res) as [x|].
  - destruct ND as (y & -> & ND). eapply ref_call; [exact N5|apply used_ref; eauto|]. intros h4 F4 v vl S4 V. cbv beta in V. carry S4. carryO S4. destruct (step_len _ _ _ _ _ S4) as [L4 N6]. destruct es.
    + apply ref_app with (l := u1') (t := c) (m := c') (xs := vl); auto; [lia|apply V|]. intros h5 F5 u5 S5 L5 N7 OU5 OC5 AP5. carry S5.
      apply ref_app with (l := c') (t := u5) (m := u1' ++ vl) (xs := vl); auto; [now apply apart_sym|apply V|]. intros h6 F6 u6 S6 L6 N8 OC6 OU6 AP6. carry S6.
      apply ref_ret with F6; [now apply step_refl|]. split; [exact T4|]. cbn [snd]. split; auto. split; [exact RU|]. split; auto. now apply apart_sym.
    + apply ref_app with (l := u1') (t := c) (m := c') (xs := c'); auto; [lia|apply OC|]. intros h5 F5 u5 S5 L5 N7 OU5 OC5 AP5. carry S5.
      apply ref_app with (l := u1' ++ c') (t := c) (m := c') (xs := vl); auto; [apply V|]. intros h6 F6 u6 S6 L6 N8 OU6 OC6 AP6. carry S6. rewrite <- app_assoc in OU6.
      apply ref_ret with F6; [now apply step_refl|]. split; [exact T4|]. cbn [snd exitIn]. auto.
  - rewrite ND. apply apart_sym in AP. apply ref_app with (l := c') (t := u1) (m := u1') (xs := ec'); auto; [apply EC|]. intros h4 F4 c4 S4 L4 N6 OC4 OU4 AP4. carry S4.
    assert (T5 := sameT_wrap _ _ _ _ _ _ T4 RU). apply ref_peek with (prepend s3 (r_unused resl)); auto. destruct (peek (prepend s3 (r_unused resl)) =? EOFChar).
    + apply apart_sym in AP4. apply ref_app with (l := u1') (t := c4) (m := c' ++ ec') (xs := c' ++ ec'); auto; [apply OC4|]. intros h5 F5 u5 S5 L5 N7 OU5 OC5 AP5. carry S5.
      apply ref_ret with F5; [now apply step_refl|]. split; [exact T5|]. cbn [snd exitIn]. auto.
    + apply ref_next with (prepend s3 (r_unused resl)); auto. intros ss6 T6. cbv beta iota. destruct (next (prepend s3 (r_unused resl))) as [x s6]. cbn [fst snd] in *.
      apply ref_app with (l := c' ++ ec') (t := u1) (m := u1') (xs := ec'); auto; [apply EC|]. intros h5 F5 c5 S5 L5 N7 OC5 OU5 AP5. carry S5.
      apply ref_app1 with (l := (c' ++ ec') ++ ec') (t := u1) (m := u1'); auto. intros h6 F6 c6 S6 L6 N8 OC6 OU6 AP6. carry S6. rewrite <- app_assoc in OC6.
      apply ref_ret with F6; [now apply step_refl|]. split; [exact T6|]. cbn [snd]. split; auto. split; [apply sameS_nil|]. split; auto. now apply apart_sym.
Qed.
Lemma blockLoop_ref n cl esc excl fuel : forall h F cs cs' u u' un un' c c', (n <= length h)%nat -> length F = length h -> sameT F h cs cs' -> own n F h u u' -> sameS F h un un' -> own n F h c c' -> apartS u c ->
  refines n h F (hBlockLoop grow hrec fuel cl esc excl cs u un c) (blockLoop rec fuel cl esc excl cs' u' un' c') (fun h' F' a b => sameT F' h' (fst a) (fst b) /\ exitIn n h' F' (snd a) (snd b)).
Proof.
  induction fuel as [|fuel IH]; intros h F cs cs' u u' un un' c c' N L T OU UN OC AP; cbn [hBlockLoop blockLoop]; [exact Logic.I|].
  eapply ref_bind; [apply blockIter_ref; eauto|]. intros h1 F1 [cs1 r1] [cs1' r1'] S1 [T1 I1]. cbn [fst snd] in *. destruct (step_len _ _ _ _ _ S1) as [L1 N1].
  destruct r1 as [[[u1 un1] c1]|e1], r1' as [[[u1' un1'] c1']|e1']; try contradiction.
  - destruct I1 as (A1 & A2 & A3 & A4). apply IH; auto. lia.
  - apply ref_ret with F1; [now apply step_refl|]. split; auto.
Qed.
Lemma block_ref h F fuel b op vclose cl esc excl ss s f : length F = length h -> sameT F h ss s ->
  refines (length h) h F (hBlock grow hrec fuel b op vclose cl esc excl ss f) (evalBlock rec fuel b op vclose cl esc excl s f) good.
Proof.
  intros L T. unfold hBlock, evalBlock. cbv zeta. rewrite (sameT_deep _ _ _ _ T). set (d := deep ss). clearbody d. set (n := length h). assert (N : (n <= length h)%nat) by (unfold n; lia). clearbody n.
  eapply ref_call; [exact N|apply REC; eauto|]. intros h1 F1 [res ss1] [resl s1] S1 [R1 T1]. cbn [fst snd] in *. destruct (step_len _ _ _ _ _ S1) as [L1 N1].
  assert (ND := sameR_node _ _ _ _ R1). assert (RD := sameR_read _ _ _ _ R1). assert (RU := sameR_unused _ _ _ _ R1). destruct (a_node res) as [x|].
  2:{ rewrite ND. apply ref_cursor with s1; auto. apply ref_ret with F1; [now apply step_refl|]. split; auto. fields R1. apply sameR_make; auto. }
  destruct ND as (y & -> & ND). eapply ref_call; [|apply used_ref; eauto|]; [lia|]. intros h2 F2 v vl S2 V. cbv beta in V. carry S2. destruct (step_len _ _ _ _ _ S2) as [L2 N2].
  apply ref_app with (l := []) (t := nilS) (m := []) (xs := vl); auto; [lia|apply own_nil|apply own_nil|now left|apply V|]. intros h3 F3 u3 S3 L3 N3 OU3 _ _. cbn [app] in OU3. carry S3. clear N2 S2 N1 S1 L1 L2.
  assert (T3 := sameT_wrap _ _ _ _ _ _ T1 RU). apply ref_position with (prepend s1 (r_unused resl)); auto. intros ss4 T4. cbv beta iota. destruct (positionOf (prepend s1 (r_unused resl))) as [cpos s4]. cbn [fst snd] in *.
  eapply ref_bind; [apply blockLoop_ref; eauto; [apply own_nil|now right; left]|]. intros h5 F5 [cs5 e5] [cs5' e5'] S5 [T5 I5]. cbn [fst snd] in *. carry S5. destruct (step_len _ _ _ _ _ S5) as [L5 N5]. assert (N6 : (n <= length h5)%nat) by lia.
  assert (T6 := sameT_peel _ _ _ _ d T5). destruct e5 as [xr u c|u un|xr u un c], e5' as [xr' u' c'|u' un'|xr' u' un' c']; try contradiction; cbn [exitIn] in I5.
  - destruct I5 as (RX & OU & OC & AP). eapply ref_call; [exact N6|apply used_ref; eauto|]. intros h7 F7 w wl S7 W. cbv beta in W. carry S7. carryO S7. destruct (step_len _ _ _ _ _ S7) as [L7 N7].
    apply ref_look. destruct W as (-> & _). apply ref_cursor with (unwrap d cs5'); auto.
    apply ref_app with (l := u') (t := c) (m := c') (xs := c'); auto; [lia|apply OC|]. intros h8 F8 u8 S8 L8 N8 OU8 OC8 AP8. carry S8.
    apply ref_app with (l := u' ++ c') (t := c) (m := c') (xs := r_read xr'); auto; [apply (sameR_read _ _ _ _ RX)|]. intros h9 F9 u9 S9 L9 N9 OU9 OC9 AP9. carry S9. rewrite <- app_assoc in OU9.
    destruct (publish _ _ _ _ _ L9 OU9) as (F10 & S10 & X10 & _). carry S10. apply ref_ret with F10; auto. split; auto. apply sameR_make; auto.
  - destruct I5 as (OU & UN). destruct (descOk cl); [|exact Logic.I]. apply ref_cursor with (unwrap d cs5'); auto.
    apply ref_app with (l := u') (t := nilS) (m := []) (xs := un'); auto; [apply own_nil|now right; left|apply UN|]. intros h8 F8 u8 S8 L8 N8 OU8 _ _. carry S8.
    destruct (publish _ _ _ _ _ L8 OU8) as (F10 & S10 & X10 & _). carry S10. apply ref_ret with F10; auto. split; auto. apply sameR_make; auto.
  - destruct I5 as (RX & OU & UN & OC & AP).
    apply ref_app with (l := u') (t := c) (m := c') (xs := un'); auto; [apply UN|]. intros h8 F8 u8 S8 L8 N8 OU8 OC8 AP8. carry S8.
    destruct (publish _ _ _ _ _ L8 OU8) as (F9 & S9 & X9 & KEEP). carry S9. assert (OC9 := KEEP _ _ AP8 OC8). destruct (step_len _ _ _ _ _ S9) as [L9 _].
    destruct (publish _ _ _ _ _ L9 OC9) as (F10 & S10 & X10 & _). carry S10. apply ref_ret with F10; [eapply step_trans; eauto|]. split; auto. apply sameR_make; auto.
    + eexists. split; [reflexivity|]. rewrite (sameN_pos _ _ _ _ ND). apply sameN_make; [apply sameS_nil|]. constructor; [exact ND|]. constructor.
      { apply (sameN_make F10 h8 TChars (mkBase [] false false false) c c' [] [] cpos true); auto. }
      destruct vclose; [constructor|]. assert (NX := sameR_node _ _ _ _ RX). destruct (a_node xr); [destruct NX as (z & -> & NX); constructor; auto|rewrite NX; constructor].
    + destruct vclose; auto. now apply sameR_read.
Qed.

Lemma sameR_set F h x r nx nr : sameR F h x r -> match nx with Some n => exists m, nr = Some m /\ sameN F h n m | None => nr = None end -> sameR F h (hSetNode x nx) (set_node r nr).
Proof. intros R N. unfold hSetNode, set_node. fields R. apply sameR_make; auto; [now apply sameR_read|now apply sameR_unused]. Qed.
Lemma sameN_toggle F h b x n : sameN F h x n -> sameN F h (hToggle b x) (toggle b n).
Proof. intros [<- O]. inversion O as [z A B]; subst. split; [now destruct x|]. constructor; [exact A|exact B]. Qed.
Lemma step_ref g fuel r h F ss s f : length F = length h -> sameT F h ss s -> refines (length h) h F (hStep grow g hrec fuel r ss f) (evalStep g rec fuel r s f) good.
Proof.
  intros L T. destruct r as [b t esc|b t|b t|b lo le hi he|b|b nm|b x|b x|b x mn mx|b gs|b l|b o v c e x]; cbn [hStep evalStep]; rewrite ?(sameT_deep _ _ _ _ T).
  - now apply char_ref.
  - now apply chars_ref.
  - now apply string_ref.
  - now apply range_ref.
  - now apply eof_ref.
  - destruct (lookup g nm) as [r'|].
    + eapply ref_bind; [apply REC; eauto|]. intros h1 F1 [res ss1] [resl s1] S1 [R1 T1]. cbn [fst snd] in *. destruct (step_len _ _ _ _ _ S1) as [L1 N1]. apply ref_ret with F1; [now apply step_refl|]. split; [|exact T1]. apply sameR_set; auto.
      assert (ND := sameR_node _ _ _ _ R1). destruct (a_node res) as [x|]; [destruct ND as (y & -> & ND)|rewrite ND; reflexivity]. cbn. eexists. split; [reflexivity|now apply sameN_toggle].
    + apply ref_ret with F; [now apply step_refl|]. split; [|exact T]. apply sameR_make; auto; apply sameS_nil.
  - eapply ref_bind; [apply REC; eauto|]. intros h1 F1 [res ss1] [resl s1] S1 [R1 T1]. cbn [fst snd] in *. destruct (step_len _ _ _ _ _ S1) as [L1 N1]. fields R1.
    assert (ND := sameR_node _ _ _ _ R1). assert (RD := sameR_read _ _ _ _ R1). destruct (a_node res) as [z|]; [destruct ND as (y & -> & ND)|rewrite ND].
    + apply ref_ret with F1; [now apply step_refl|]. split; [|exact T1]. apply sameR_set; auto. eexists. split; [reflexivity|]. apply sameN_make; [apply sameS_nil|auto].
    + apply ref_ret with F1; [now apply step_refl|]. split; [|exact T1]. apply sameR_make; auto.
  - eapply ref_bind; [apply REC; eauto|]. intros h1 F1 [res ss1] [resl s1] S1 [R1 T1]. cbn [fst snd] in *. destruct (step_len _ _ _ _ _ S1) as [L1 N1]. fields R1.
    assert (ND := sameR_node _ _ _ _ R1). destruct (a_node res) as [z|]; [destruct ND as (y & -> & ND)|rewrite ND].
    + apply ref_ret with F1; [now apply step_refl|]. split; [|exact T1]. apply sameR_set; auto. rewrite (sameN_pos _ _ _ _ ND). eexists. split; [reflexivity|]. apply sameN_make; [apply sameS_nil|auto].
    + apply ref_ret with F1; [now apply step_refl|]. split; [|exact T1]. apply sameR_set; auto. eexists. split; [reflexivity|]. apply sameN_make; [apply sameS_nil|auto].
  - apply rep_ref; auto; [apply own_nil|apply sameS_nil].
  - apply choice_ref; auto. apply sameS_nil.
  - apply concat_ref; auto; [apply own_nil|apply sameS_nil].
  - now apply block_ref.
Qed.
End Rec.

Lemma eval_ref g fuel : forall r ss s f h F, length F = length h -> sameT F h ss s -> refines (length h) h F (hEval grow fuel g r ss f) (eval fuel g r s f) good.
Proof.
  induction fuel as [|fuel IH]; intros r ss s f h F L T; cbn [hEval eval]; [exact Logic.I|]. apply step_ref; auto.
Qed.
End Refine.
