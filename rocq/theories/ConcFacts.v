(** Linearizability of the shared stream (without Position). *)
From Verif Require Import Base Stream StreamFacts SpecStream Conc.

Lemma upd_length {A} (l : list A) i x : length (upd l i x) = length l.
Proof. revert i; induction l as [|y l IH]; intros [|i]; cbn; auto. Qed.
Lemma nth_upd_same {A} (l : list A) i x y : nth_error l i = Some y -> nth_error (upd l i x) i = Some x.
Proof. revert i; induction l as [|z l IH]; intros [|i]; cbn; intros H; try discriminate; auto. Qed.
Lemma nth_upd_other {A} (l : list A) i j x : i <> j -> nth_error (upd l i x) j = nth_error l j.
Proof. revert i j; induction l as [|z l IH]; intros [|i] [|j] H; cbn; auto; try congruence. Qed.

Lemma run_app cs ds s : run (cs ++ ds) s =
  (fst (run cs s) ++ fst (run ds (snd (run cs s))), snd (run ds (snd (run cs s)))).
Proof.
  revert s; induction cs as [|c cs IH]; intros s; cbn [run app fst snd].
  - destruct (run ds s); reflexivity.
  - destruct (run1 c s) as [o s1]. rewrite IH. destruct (run cs s1) as [os s2]; cbn [fst snd].
    destruct (run ds s2); reflexivity.
Qed.

(** Base-level run. *)
Definition bstr (b : cstr) : stream := mkStream [] b.

(** [wpart b0 b p]: a writer entered with shared state [b0]; now the state is [b]
    and its program counter [p]. *)
Definition wpart (b0 b : cstr) (p : pc) : Prop :=
  match p with
  | Next0 => b = b0
  | Next1 idx c => b = b0 /\ idx = cs_cur b0 /\ nth_error (cs_chars b0) idx = Some c
  | Next2 idx c => b = set_cur b0 (S (cs_cur b0)) /\ idx = cs_cur b0 /\ nth_error (cs_chars b0) idx = Some c
  | Skip0 beg => beg = cs_cur b0 /\ exists k, b = set_cur b0 (cs_cur b0 + k) /\
      ws_prefix (skipn (cs_cur b0) (cs_chars b0)) =
      firstn k (skipn (cs_cur b0) (cs_chars b0)) ++ ws_prefix (skipn (cs_cur b0 + k) (cs_chars b0)) /\
      (k <= length (skipn (cs_cur b0) (cs_chars b0)))%nat
  | Skip1 beg => beg = cs_cur b0 /\ exists k, b = set_cur b0 (cs_cur b0 + k) /\
      ws_prefix (skipn (cs_cur b0) (cs_chars b0)) = firstn k (skipn (cs_cur b0) (cs_chars b0)) /\
      (k <= length (skipn (cs_cur b0) (cs_chars b0)))%nat
  | Match0 w acc inp => match_l (bstr b0) w =
      (let '(r, ok, s') := match_l (bstr b) inp in (acc ++ r, ok, s'))
  | WOut c o => run1 c (bstr b0) = (o, bstr b)
  | _ => False
  end.

(** [rpart b p]: a reader other than Position, while the shared state is [b]. *)
Definition rpart (b : cstr) (p : pc) : Prop :=
  match p with
  | Peek0 | Cursor0 | Lookup0 _ => True
  | Peek1 idx => idx = cs_cur b
  | Lookup1 i => (i =? 0) = false /\ (i >=? Z.of_nat (cs_cur b)) || (i >=? Z.of_nat (length (cs_chars b))) = false
  | ROut c o => run1 c (bstr b) = (o, bstr b)
  | _ => False
  end.

Lemma set_cur_id b : set_cur b (cs_cur b + 0) = b.
Proof. destruct b; unfold set_cur; cbn. f_equal. lia. Qed.

Lemma inner_writer b0 b p : wpart b0 b p ->
  match p with WOut _ _ => True | _ => wpart b0 (fst (inner b p)) (snd (inner b p)) end.
Proof.
  destruct p as [| |idx c|idx c|beg|beg|w acc inp| | | | | | | | | | | |]; cbn [wpart inner]; try tauto.
  - intros ->. destruct (nth_error (cs_chars b0) (cs_cur b0)) as [c|] eqn:E; cbn [fst snd wpart]; auto.
    unfold run1, next, bstr. cbn [layers sbase next_l]. unfold b_next. rewrite E. reflexivity.
  - intros (-> & -> & E). cbn [fst snd wpart]. auto.
  - intros (-> & -> & E). cbn [fst snd wpart].
    unfold run1, next, bstr. cbn [layers sbase next_l]. unfold b_next. rewrite E. reflexivity.
  - intros (-> & k & -> & W & L). cbn [set_cur cs_chars cs_cur].
    rewrite nth_error_skipn. destruct (skipn (cs_cur b0 + k) (cs_chars b0)) as [|c l] eqn:E; cbn [hd_error].
    + cbn [fst snd wpart]. split; [reflexivity|]. exists k. cbn in W. rewrite app_nil_r in W. auto.
    + cbn [ws_prefix] in W. destruct (isWS c) eqn:Ec; cbn [fst snd wpart].
      * split; [reflexivity|]. exists (S k).
        assert (nth_error (skipn (cs_cur b0) (cs_chars b0)) k = Some c) as Hk.
        { rewrite nth_error_skipn, skipn_skipn', E. reflexivity. }
        split; [unfold set_cur; cbn; f_equal; lia|]. split.
        -- rewrite W. replace (cs_cur b0 + S k)%nat with (S (cs_cur b0 + k)) by lia.
           rewrite (skipn_S_tl (cs_cur b0 + k)), E. cbn [tl].
           assert (firstn (S k) (skipn (cs_cur b0) (cs_chars b0)) = firstn k (skipn (cs_cur b0) (cs_chars b0)) ++ [c]) as ->.
           { clear - Hk. revert Hk. generalize (skipn (cs_cur b0) (cs_chars b0)). induction k as [|k IH]; intros [|x l]; cbn; intros H; try discriminate; [congruence|]. f_equal. now apply IH. }
           rewrite <- app_assoc. reflexivity.
        -- assert (k < length (skipn (cs_cur b0) (cs_chars b0)))%nat by (apply nth_error_Some; congruence). lia.
      * split; [reflexivity|]. exists k. rewrite app_nil_r in W. auto.
  - intros (-> & k & -> & W & L). cbn [set_cur cs_chars cs_cur].
    replace (cs_cur b0 + k - cs_cur b0)%nat with k by lia.
    destruct (firstn k (skipn (cs_cur b0) (cs_chars b0))) as [|c l] eqn:E; cbn [fst snd wpart].
    + unfold run1, skipSpaces, bstr. cbn [layers sbase]. unfold b_skip. rewrite W.
      assert (k = 0)%nat as ->. { destruct k; [reflexivity|]. destruct (skipn (cs_cur b0) (cs_chars b0)); [cbn in L; lia|discriminate]. }
      rewrite set_cur_id. reflexivity.
    + unfold run1, skipSpaces, bstr. cbn [layers sbase]. unfold b_skip. rewrite W.
      assert (length (c :: l) = k) as Hl by (rewrite <- E, firstn_length; lia). rewrite Hl. reflexivity.
  - intros H. destruct inp as [|x inp]; cbn [fst snd].
    + cbn [match_l] in H. rewrite app_nil_r in H. cbn [wpart run1 fst snd]. unfold matchRunes. rewrite H. reflexivity.
    +
      destruct (b_next b) as [c sh'] eqn:En. cbn [fst snd] in *.
      destruct (c =? EOFChar) eqn:Ee.
      * cbn [wpart run1 fst snd]. unfold matchRunes. unfold bstr in *. cbn [match_l] in H. unfold next in H. cbn [layers sbase next_l] in H.
        rewrite En in H. rewrite Ee in H. rewrite app_nil_r in H. rewrite H. reflexivity.
      * unfold bstr in *. cbn [match_l] in H. unfold next in H. cbn [layers sbase next_l] in H. rewrite En in H. rewrite Ee in H.
        destruct (negb (c =? x)) eqn:Ex; cbn [wpart run1 fst snd].
        -- unfold matchRunes, bstr. rewrite H. reflexivity.
        -- unfold bstr. rewrite H. destruct (match_l (mkStream [] sh') inp) as [[r ok] s']. rewrite <- app_assoc. reflexivity.
Qed.

Lemma inner_reader b p : rpart b p ->
  match p with ROut _ _ => True | _ => fst (inner b p) = b /\ rpart b (snd (inner b p)) end.
Proof.
  destruct p as [| | | | | | | |idx|i|i| | | | | | | |]; cbn [rpart inner]; try tauto; intros H.
  - split; reflexivity.
  - subst idx. split; [reflexivity|]. cbn. reflexivity.
  - destruct (i =? 0) eqn:E0; cbn [fst snd rpart].
    + split; [reflexivity|]. unfold run1, positionLookup, b_lookup, bstr. cbn [sbase]. rewrite E0. reflexivity.
    + destruct ((i >=? Z.of_nat (cs_cur b)) || (i >=? Z.of_nat (length (cs_chars b)))) eqn:E1; cbn [fst snd rpart]; (split; [reflexivity|]); auto.
      unfold run1, positionLookup, b_lookup, bstr. cbn [sbase]. rewrite E0, E1. reflexivity.
  - destruct H as [H0 H1]. split; [reflexivity|]. cbn [snd rpart].
    unfold run1, positionLookup, b_lookup, bstr. cbn [sbase]. rewrite H0, H1. reflexivity.
  - split; reflexivity.
Qed.

Definition isW (p : pc) : bool :=
  match p with Next0 | Next1 _ _ | Next2 _ _ | Skip0 _ | Skip1 _ | Match0 _ _ _ | WOut _ _ => true | _ => false end.
Definition isR (p : pc) : bool :=
  match p with
  | Peek0 | Peek1 _ | Lookup0 _ | Lookup1 _ | Cursor0 | Pos0 | Pos1 _ _ | Pos2 _ _ | Pos3 _ | Pos4 _ | ROut _ _ => true
  | _ => false end.

Definition countR (l : list thread) : nat := length (filter (fun t => isR (t_pc t)) l).

Lemma countR_upd l i t t' : nth_error l i = Some t ->
  (countR (upd l i t') + (if isR (t_pc t) then 1 else 0) = countR l + (if isR (t_pc t') then 1 else 0))%nat.
Proof.
  unfold countR. revert i; induction l as [|x l IH]; intros [|i] H; cbn in H; try discriminate.
  - injection H as ->. cbn [upd filter]. destruct (isR (t_pc t)), (isR (t_pc t')); cbn [length]; lia.
  - specialize (IH i H). cbn [upd filter]. destruct (isR (t_pc x)); cbn [length]; lia.
Qed.
Lemma countR_pos l i t : nth_error l i = Some t -> isR (t_pc t) = true -> (0 < countR l)%nat.
Proof.
  unfold countR. revert i; induction l as [|x l IH]; intros [|i] H E; cbn in H; try discriminate; cbn [filter].
  - injection H as ->. rewrite E. cbn. lia.
  - specialize (IH i H E). destruct (isR (t_pc x)); cbn [length]; lia.
Qed.

Definition noPosC (c : call) : Prop := match c with CPos => False | _ => True end.

(** Lock invariant (for every program). *)
Record lockInv (cf : config) : Prop := {
  li_count : c_readers cf = countR (c_threads cf);
  li_excl : c_writer cf = true -> c_readers cf = 0%nat;
  li_writer : forall i t, nth_error (c_threads cf) i = Some t -> isW (t_pc t) = true -> c_writer cf = true;
  li_held : c_writer cf = true -> exists i t, nth_error (c_threads cf) i = Some t /\ isW (t_pc t) = true /\
            forall j t', nth_error (c_threads cf) j = Some t' -> isW (t_pc t') = true -> j = i }.

Lemma inner_kind b p : p <> Idle ->
  (forall c o, p <> WOut c o) -> (forall c o, p <> ROut c o) ->
  isW (snd (inner b p)) = isW p /\ isR (snd (inner b p)) = isR p.
Proof.
  intros H H1 H2. destruct p; cbn [inner]; try (split; reflexivity).
  - destruct (nth_error _ _); split; reflexivity.
  - destruct (nth_error _ _) as [c|]; [destruct (isWS c)|]; split; reflexivity.
  - destruct (firstn _ _); split; reflexivity.
  - destruct inp as [|x inp]; [split; reflexivity|]. destruct (b_next b) as [c b'].
    destruct (c =? EOFChar); [split; reflexivity|]. destruct (negb (c =? x)); split; reflexivity.
  - destruct (i =? 0); [split; reflexivity|]. destruct (_ || _); split; reflexivity.
  - destruct (nth_error _ _) as [c|]; [destruct (cs_cur b =? 0)%nat|]; split; reflexivity.
  - destruct (_ >? _); split; reflexivity.
  - destruct (c =? 10); split; reflexivity.
Qed.

Lemma entry_kind sh c : isW (entryPc sh c) = writes c /\ isR (entryPc sh c) = negb (writes c).
Proof. destruct c; split; reflexivity. Qed.

(** The three kinds of steps. *)
Lemma step_cases i cf cf' : stepT i cf = Some cf' ->
  exists p prog, nth_error (c_threads cf) i = Some (mkThread p prog) /\
  ((exists c prog', p = Idle /\ prog = c :: prog' /\ writes c = true /\ c_writer cf = false /\ c_readers cf = 0%nat /\
     cf' = mkConf (c_sh cf) true (c_readers cf) (upd (c_threads cf) i (mkThread (entryPc (c_sh cf) c) prog')) (c_log cf)) \/
   (exists c prog', p = Idle /\ prog = c :: prog' /\ writes c = false /\ c_writer cf = false /\
     cf' = mkConf (c_sh cf) false (S (c_readers cf)) (upd (c_threads cf) i (mkThread (entryPc (c_sh cf) c) prog')) (c_log cf)) \/
   (exists c o, p = WOut c o /\
     cf' = mkConf (c_sh cf) false (c_readers cf) (upd (c_threads cf) i (mkThread Idle prog)) (c_log cf ++ [(i, c, o)])) \/
   (exists c o, p = ROut c o /\
     cf' = mkConf (c_sh cf) (c_writer cf) (pred (c_readers cf)) (upd (c_threads cf) i (mkThread Idle prog)) (c_log cf ++ [(i, c, o)])) \/
   (p <> Idle /\ (forall c o, p <> WOut c o) /\ (forall c o, p <> ROut c o) /\
     cf' = mkConf (fst (inner (c_sh cf) p)) (c_writer cf) (c_readers cf)
             (upd (c_threads cf) i (mkThread (snd (inner (c_sh cf) p)) prog)) (c_log cf))).
Proof.
  unfold stepT. destruct (nth_error (c_threads cf) i) as [[p prog]|] eqn:E; [|discriminate].
  intros H. exists p, prog. split; [reflexivity|].
  destruct p.
  all: try (right; right; right; right; split; [discriminate|]; split; [discriminate|]; split; [discriminate|];
            match type of H with (let '(_, _) := ?e in _) = _ => destruct e eqn:EE end; injection H as <-; reflexivity).
  - destruct prog as [|c prog]; [discriminate|]. destruct (writes c) eqn:W.
    + destruct (c_writer cf) eqn:CW; [discriminate|]. destruct (Nat.eqb_spec (c_readers cf) 0) as [R|R]; [|discriminate].
      left. exists c, prog. injection H as <-. rewrite R. repeat split; auto.
    + destruct (c_writer cf) eqn:CW; [discriminate|]. right; left. exists c, prog. injection H as <-. repeat split; auto.
  - right; right; left. exists c, o. injection H as <-. auto.
  - right; right; right; left. exists c, o. injection H as <-. auto.
Qed.

Lemma lockInv_init text progs : lockInv (init text progs).
Proof.
  assert (forall i t, nth_error (List.map (mkThread Idle) progs) i = Some t -> t_pc t = Idle) as X.
  { intros i t H. apply nth_error_In, in_map_iff in H as (p & <- & _). reflexivity. }
  split; cbn.
  - unfold countR. induction progs as [|p progs IH]; [reflexivity|].
    cbn. apply IH. intros i t H. apply (X (S i) t H).
  - discriminate.
  - intros i t H W. rewrite (X i t H) in W. discriminate.
  - discriminate.
Qed.

Lemma lockInv_step i cf cf' : lockInv cf -> stepT i cf = Some cf' -> lockInv cf'.
Proof.
  intros [IC IE IW IH] S. destruct (step_cases i cf cf' S) as (p & prog & Hp & Cases).
  set (f := fun t' => nth_upd_same (c_threads cf) i t' _ Hp).
  assert (OTH : forall t' j t'', nth_error (upd (c_threads cf) i t') j = Some t'' ->
            (j = i /\ t'' = t') \/ (j <> i /\ nth_error (c_threads cf) j = Some t'')).
  { intros t' j t'' H. destruct (Nat.eq_dec j i) as [->|N].
    - rewrite (f t') in H. left. split; congruence.
    - rewrite nth_upd_other in H by congruence. right. auto. }
  destruct Cases as [(c & prog' & -> & -> & W & CW & CR & ->)|[(c & prog' & -> & -> & W & CW & ->)|[(c & o & -> & ->)|[(c & o & -> & ->)|(N1 & N2 & N3 & ->)]]]].
  - destruct (entry_kind (c_sh cf) c) as [EW ER]. rewrite W in EW, ER. cbn in ER.
    pose proof (countR_upd _ _ _ (mkThread (entryPc (c_sh cf) c) prog') Hp) as X. cbn [t_pc isR] in X. rewrite ER in X.
    split; cbn [c_sh c_readers c_threads c_writer c_log]; try congruence.
    + lia.
    + intros _. exists i, (mkThread (entryPc (c_sh cf) c) prog'). rewrite f. cbn [t_pc]. repeat split; auto.
      intros j t' H Wt. destruct (OTH _ _ _ H) as [[-> _]|[_ H']]; [reflexivity|].
      specialize (IW _ _ H' Wt). congruence.
  - destruct (entry_kind (c_sh cf) c) as [EW ER]. rewrite W in EW, ER. cbn in ER.
    pose proof (countR_upd _ _ _ (mkThread (entryPc (c_sh cf) c) prog') Hp) as X. cbn [t_pc isR] in X. rewrite ER in X.
    split; cbn [c_sh c_readers c_threads c_writer c_log]; try congruence.
    + lia.
    + intros j t' H Wt. destruct (OTH _ _ _ H) as [[-> ->]|[_ H']]; [cbn in Wt; congruence|].
      specialize (IW _ _ H' Wt). congruence.
  - pose proof (countR_upd _ _ _ (mkThread Idle prog) Hp) as X. cbn [t_pc isR] in X.
    destruct (IH (IW _ _ Hp eq_refl)) as (i0 & t0 & H0 & W0 & U0).
    assert (i = i0) as <- by (apply (U0 i _ Hp eq_refl)).
    split; cbn [c_sh c_readers c_threads c_writer c_log]; try congruence.
    + lia.
    + intros j t' H Wt. destruct (OTH _ _ _ H) as [[-> ->]|[N H']]; [discriminate|].
      exfalso. apply N. exact (U0 _ _ H' Wt).
  - pose proof (countR_upd _ _ _ (mkThread Idle prog) Hp) as X. cbn [t_pc isR] in X.
    assert (c_writer cf = false) as CW.
    { destruct (c_writer cf) eqn:CW; [|reflexivity]. pose proof (countR_pos _ _ _ Hp eq_refl). specialize (IE eq_refl). lia. }
    split; cbn [c_sh c_readers c_threads c_writer c_log]; try congruence.
    + lia.
    + intros j t' H Wt. destruct (OTH _ _ _ H) as [[-> ->]|[N H']]; [discriminate|]. exact (IW _ _ H' Wt).
  - destruct (inner_kind (c_sh cf) p N1 N2 N3) as [KW KR].
    pose proof (countR_upd _ _ _ (mkThread (snd (inner (c_sh cf) p)) prog) Hp) as X. cbn [t_pc] in X. rewrite KR in X.
    split; cbn [c_sh c_readers c_threads c_writer c_log]; auto.
    + lia.
    + intros j t' H Wt. destruct (OTH _ _ _ H) as [[-> ->]|[N H']]; [|exact (IW _ _ H' Wt)].
      cbn [t_pc] in Wt. rewrite KW in Wt. exact (IW _ _ Hp Wt).
    + intros CW. destruct (IH CW) as (i0 & t0 & H0 & W0 & U0).
      destruct (Nat.eq_dec i0 i) as [->|N].
      * exists i. eexists. split; [apply f|]. cbn [t_pc]. rewrite KW.
        assert (t0 = mkThread p prog) as -> by congruence. split; [exact W0|].
        intros j t' H Wt. destruct (OTH _ _ _ H) as [[-> ->]|[_ H']]; [reflexivity|]. exact (U0 _ _ H' Wt).
      * exists i0, t0. rewrite nth_upd_other by congruence. split; [exact H0|]. split; [exact W0|].
        intros j t' H Wt. destruct (OTH _ _ _ H) as [[-> ->]|[_ H']]; [|exact (U0 _ _ H' Wt)].
        cbn [t_pc] in Wt. rewrite KW in Wt. exact (U0 _ _ Hp Wt).
Qed.

(** Linearization invariant: [b0] is the state after the logged calls. *)
Record linInv (text : list Z) (cf : config) : Prop := {
  ln_log : fst (run (calls (c_log cf)) (newStream text)) = answers (c_log cf);
  ln_state : exists b0, snd (run (calls (c_log cf)) (newStream text)) = bstr b0 /\
    (c_writer cf = false -> c_sh cf = b0) /\
    (forall i t, nth_error (c_threads cf) i = Some t -> isW (t_pc t) = true -> wpart b0 (c_sh cf) (t_pc t)) /\
    (forall i t, nth_error (c_threads cf) i = Some t -> isR (t_pc t) = true -> rpart (c_sh cf) (t_pc t));
  ln_nopos : forall i t, nth_error (c_threads cf) i = Some t -> Forall noPosC (t_prog t) }.

Lemma linInv_init text progs : Forall (Forall noPosC) progs -> linInv text (init text progs).
Proof.
  intros NP.
  assert (forall i t, nth_error (List.map (mkThread Idle) progs) i = Some t -> t_pc t = Idle) as X.
  { intros i t H. apply nth_error_In, in_map_iff in H as (p & <- & _). reflexivity. }
  split; cbn.
  - reflexivity.
  - exists (newCstr text). split; [reflexivity|]. split; [reflexivity|].
    split; intros i t H W; rewrite (X i t H) in W; discriminate.
  - intros i t H. apply nth_error_In, in_map_iff in H as (p & <- & Hin).
    rewrite Forall_forall in NP. exact (NP p Hin).
Qed.

Lemma writer_no_pos b c : writes c = true -> wpart b b (entryPc b c).
Proof.
  destruct c; cbn; try discriminate; intros _; auto.
  - split; [reflexivity|]. exists O. rewrite set_cur_id. cbn [firstn app]. rewrite Nat.add_0_r. repeat split. lia.
  - destruct (match_l (bstr b) w) as [[r ok] s']. reflexivity.
Qed.
Lemma reader_entry b c : writes c = false -> noPosC c -> rpart b (entryPc b c).
Proof. destruct c; cbn; try discriminate; try contradiction; auto. Qed.

Lemma calls_snoc l i c o : calls (l ++ [(i, c, o)]) = calls l ++ [c].
Proof. unfold calls. now rewrite map_app. Qed.
Lemma answers_snoc l i c o : answers (l ++ [(i, c, o)]) = answers l ++ [o].
Proof. unfold answers. now rewrite map_app. Qed.

Lemma run_snoc cs c s o s' : run1 c (snd (run cs s)) = (o, s') -> run (cs ++ [c]) s = (fst (run cs s) ++ [o], s').
Proof. intros H. rewrite run_app. cbn [run]. rewrite H. reflexivity. Qed.

Lemma linInv_step text i cf cf' : lockInv cf -> linInv text cf -> stepT i cf = Some cf' -> linInv text cf'.
Proof.
  intros LI [LL (b0 & LS & L0 & LW & LR) LN] S.
  destruct LI as [IC IE IW IH]. destruct (step_cases i cf cf' S) as (p & prog & Hp & Cases).
  set (f := fun t' => nth_upd_same (c_threads cf) i t' _ Hp).
  assert (OTH : forall t' j t'', nth_error (upd (c_threads cf) i t') j = Some t'' ->
            (j = i /\ t'' = t') \/ (j <> i /\ nth_error (c_threads cf) j = Some t'')).
  { intros t' j t'' H. destruct (Nat.eq_dec j i) as [->|N].
    - rewrite (f t') in H. left. split; congruence.
    - rewrite nth_upd_other in H by congruence. right. auto. }
  pose proof (LN _ _ Hp) as NPp. cbn [t_prog] in NPp.
  assert (NP : forall p' prog', Forall noPosC prog' -> forall j t'', nth_error (upd (c_threads cf) i (mkThread p' prog')) j = Some t'' -> Forall noPosC (t_prog t'')).
  { intros p' prog' F j t'' H. destruct (OTH _ _ _ H) as [[_ ->]|[_ H']]; [exact F|exact (LN _ _ H')]. }
  destruct Cases as [(c & prog' & -> & -> & W & CW & CR & ->)|[(c & prog' & -> & -> & W & CW & ->)|[(c & o & -> & ->)|[(c & o & -> & ->)|(N1 & N2 & N3 & ->)]]]].
  - (* a writer enters *)
    specialize (L0 CW). inversion NPp; subst. destruct (entry_kind (c_sh cf) c) as [EW ER]. rewrite W in EW, ER.
    split; cbn [c_sh c_readers c_threads c_writer c_log]; auto; [|now apply NP]. exists (c_sh cf). split; [exact LS|]. split; [discriminate|]. split.
    + intros j t H Wt. destruct (OTH _ _ _ H) as [[-> ->]|[_ H']].
      * cbn [t_pc]. now apply writer_no_pos.
      * specialize (IW _ _ H' Wt). congruence.
    + intros j t H Rt. destruct (OTH _ _ _ H) as [[-> ->]|[_ H']]; [cbn in Rt; cbn in ER; congruence|]. exact (LR _ _ H' Rt).
  - (* a reader enters *)
    specialize (L0 CW). inversion NPp as [|? ? Nc Nrest]; subst. destruct (entry_kind (c_sh cf) c) as [EW ER]. rewrite W in EW, ER.
    split; cbn [c_sh c_readers c_threads c_writer c_log]; auto; [|now apply NP]. exists (c_sh cf). split; [exact LS|]. split; [reflexivity|]. split.
    + intros j t H Wt. destruct (OTH _ _ _ H) as [[-> ->]|[_ H']]; [cbn in Wt; congruence|]. specialize (IW _ _ H' Wt). congruence.
    + intros j t H Rt. destruct (OTH _ _ _ H) as [[-> ->]|[_ H']].
      * cbn [t_pc]. now apply reader_entry.
      * exact (LR _ _ H' Rt).
  - (* a writer leaves *)
    pose proof (LW _ _ Hp eq_refl) as WP. cbn [t_pc wpart] in WP.
    pose proof (IW _ _ Hp eq_refl) as CW. specialize (IE CW). destruct (IH CW) as (i0 & t0 & H0 & W0 & U0).
    assert (i = i0) as <- by (apply (U0 i _ Hp eq_refl)).
    assert (RS : run (calls (c_log cf ++ [(i, c, o)])) (newStream text) = (answers (c_log cf) ++ [o], bstr (c_sh cf))).
    { rewrite calls_snoc. rewrite <- LL. apply run_snoc. rewrite LS. exact WP. }
    split; cbn [c_sh c_readers c_threads c_writer c_log]; [rewrite RS, answers_snoc; reflexivity| |now apply NP].
    exists (c_sh cf). rewrite RS. split; [reflexivity|]. split; [reflexivity|]. split.
    + intros j t H Wt. destruct (OTH _ _ _ H) as [[-> ->]|[N H']]; [discriminate|]. exfalso. apply N. exact (U0 _ _ H' Wt).
    + intros j t H Rt. destruct (OTH _ _ _ H) as [[-> ->]|[N H']]; [discriminate|].
      pose proof (countR_pos _ _ _ H' Rt). lia.
  - (* a reader leaves *)
    assert (CW : c_writer cf = false).
    { destruct (c_writer cf) eqn:CW; [|reflexivity]. pose proof (countR_pos _ _ _ Hp eq_refl). specialize (IE eq_refl). lia. }
    specialize (L0 CW). subst b0. pose proof (LR _ _ Hp eq_refl) as RP. cbn [t_pc rpart] in RP.
    assert (RS : run (calls (c_log cf ++ [(i, c, o)])) (newStream text) = (answers (c_log cf) ++ [o], bstr (c_sh cf))).
    { rewrite calls_snoc. rewrite <- LL. apply run_snoc. rewrite LS. exact RP. }
    split; cbn [c_sh c_readers c_threads c_writer c_log]; [rewrite RS, answers_snoc; reflexivity| |now apply NP].
    exists (c_sh cf). rewrite RS. split; [reflexivity|]. split; [reflexivity|]. split.
    + intros j t H Wt. destruct (OTH _ _ _ H) as [[-> ->]|[N H']]; [discriminate|]. specialize (IW _ _ H' Wt). congruence.
    + intros j t H Rt. destruct (OTH _ _ _ H) as [[-> ->]|[N H']]; [discriminate|]. exact (LR _ _ H' Rt).
  - (* inside a method *)
    destruct (inner_kind (c_sh cf) p N1 N2 N3) as [KW KR].
    split; cbn [c_sh c_readers c_threads c_writer c_log]; auto; [|now apply NP]. exists b0. split; [exact LS|].
    destruct (isW p) eqn:EW.
    + pose proof (IW _ _ Hp EW) as CW. specialize (IE CW). destruct (IH CW) as (i0 & t0 & H0 & W0 & U0).
      assert (i = i0) as <- by (apply (U0 i _ Hp EW)).
      split; [congruence|]. split.
      * intros j t H Wt. destruct (OTH _ _ _ H) as [[-> ->]|[N H']]; [|exfalso; apply N; exact (U0 _ _ H' Wt)].
        cbn [t_pc]. pose proof (inner_writer b0 (c_sh cf) p (LW _ _ Hp EW)) as IWr.
        destruct p; try exact IWr; exfalso; eapply N2; reflexivity.
      * intros j t H Rt. destruct (OTH _ _ _ H) as [[-> ->]|[N H']].
        -- cbn [t_pc] in Rt. rewrite KR in Rt. destruct p; discriminate.
        -- pose proof (countR_pos _ _ _ H' Rt). lia.
    + assert (ER : isR p = true).
      { destruct p; try reflexivity; try discriminate. congruence. }
      pose proof (LR _ _ Hp ER) as RP. cbn [t_pc] in RP.
      pose proof (inner_reader _ _ RP) as IRd.
      assert (fst (inner (c_sh cf) p) = c_sh cf /\ rpart (c_sh cf) (snd (inner (c_sh cf) p))) as [E1 E2].
      { destruct p; try exact IRd; exfalso; eapply N3; reflexivity. }
      rewrite E1. split; [exact L0|]. split.
      * intros j t H Wt. destruct (OTH _ _ _ H) as [[-> ->]|[N H']]; [cbn in Wt; congruence|]. exact (LW _ _ H' Wt).
      * intros j t H Rt. destruct (OTH _ _ _ H) as [[-> ->]|[N H']]; [exact E2|]. exact (LR _ _ H' Rt).
Qed.

Lemma reach_inv text progs cf : Forall (Forall noPosC) progs -> reach (init text progs) cf -> lockInv cf /\ linInv text cf.
Proof.
  intros NP R. induction R as [|cf i cf' R [IH1 IH2] S].
  - split; [apply lockInv_init|now apply linInv_init].
  - split; [eapply lockInv_step|eapply linInv_step]; eauto.
Qed.

(** The answers given so far are those of the calls made one after the other. *)
Lemma linearizable text progs cf : Forall (Forall noPosC) progs -> reach (init text progs) cf ->
  answers (c_log cf) = fst (run (calls (c_log cf)) (newStream text)).
Proof. intros NP R. destruct (reach_inv text progs cf NP R) as [_ [L _ _]]. congruence. Qed.

(** Every goroutine gets its calls answered in program order. *)
Definition inFlight (p : pc) : list call :=
  match p with
  | Idle => []
  | Next0 | Next1 _ _ | Next2 _ _ => [CNext]
  | Skip0 _ | Skip1 _ => [CSkip]
  | Match0 w _ _ => [CMatch w]
  | Peek0 | Peek1 _ => [CPeek]
  | Lookup0 i | Lookup1 i => [CLookup i]
  | Cursor0 => [CCursor]
  | Pos0 | Pos1 _ _ | Pos2 _ _ | Pos3 _ | Pos4 _ => [CPos]
  | WOut c _ | ROut c _ => [c]
  end.
Definition ofThread (i : nat) (l : list entry) : list entry := filter (fun e => (e_tid e =? i)%nat) l.

Lemma inner_flight b p : p <> Idle -> inFlight (snd (inner b p)) = inFlight p.
Proof.
  intros H. destruct p; cbn [inner]; try reflexivity.
  - destruct (nth_error _ _); reflexivity.
  - destruct (nth_error _ _) as [c|]; [destruct (isWS c)|]; reflexivity.
  - destruct (firstn _ _); reflexivity.
  - destruct inp as [|x inp]; [reflexivity|]. destruct (b_next b) as [c b'].
    destruct (c =? EOFChar); [reflexivity|]. destruct (negb (c =? x)); reflexivity.
  - destruct (i =? 0); [reflexivity|]. destruct (_ || _); reflexivity.
  - destruct (nth_error _ _) as [c|]; [destruct (cs_cur b =? 0)%nat|]; reflexivity.
  - destruct (_ >? _); reflexivity.
  - destruct (c =? 10); reflexivity.
Qed.

Lemma program_order text progs cf : reach (init text progs) cf ->
  forall i prog, nth_error progs i = Some prog -> exists t, nth_error (c_threads cf) i = Some t /\
  prog = calls (ofThread i (c_log cf)) ++ inFlight (t_pc t) ++ t_prog t.
Proof.
  intros R. induction R as [|cf i cf' R IH S]; intros k prog Hk.
  - cbn. exists (mkThread Idle prog). split; [now apply map_nth_error|reflexivity].
  - destruct (IH k prog Hk) as (t & Ht & E). destruct (step_cases i cf cf' S) as (p & pr & Hp & Cases).
    assert (LOG : forall c o, calls (ofThread k (c_log cf ++ [(i, c, o)])) =
              calls (ofThread k (c_log cf)) ++ (if (i =? k)%nat then [c] else [])).
    { intros c o. unfold ofThread, calls. rewrite filter_app, map_app. f_equal. cbn. destruct (i =? k)%nat; reflexivity. }
    destruct (Nat.eq_dec k i) as [->|N].
    + assert (t = mkThread p pr) as -> by congruence. cbn [t_pc t_prog] in E. rewrite Nat.eqb_refl in LOG.
      destruct Cases as [(c & prog' & -> & -> & W & CW & CR & ->)|[(c & prog' & -> & -> & W & CW & ->)|[(c & o & -> & ->)|[(c & o & -> & ->)|(N1 & N2 & N3 & ->)]]]];
        cbn [c_threads c_log]; eexists; (split; [eapply nth_upd_same; exact Hp|]); cbn [t_pc t_prog].
      * rewrite E. f_equal. destruct c; reflexivity.
      * rewrite E. f_equal. destruct c; reflexivity.
      * rewrite LOG, E, <- app_assoc. reflexivity.
      * rewrite LOG, E, <- app_assoc. reflexivity.
      * rewrite inner_flight by exact N1. exact E.
    + exists t. destruct (Nat.eqb_spec i k) as [X|_]; [congruence|].
      destruct Cases as [(c & prog' & -> & -> & W & CW & CR & ->)|[(c & prog' & -> & -> & W & CW & ->)|[(c & o & -> & ->)|[(c & o & -> & ->)|(N1 & N2 & N3 & ->)]]]];
        cbn [c_threads c_log]; (split; [rewrite nth_upd_other by congruence; exact Ht|]); try exact E;
        rewrite LOG, app_nil_r; exact E.
Qed.

(** No deadlock. *)
Lemma no_deadlock text progs cf : reach (init text progs) cf -> finished cf \/ exists i cf', stepT i cf = Some cf'.
Proof.
  intros R. assert (LI : lockInv cf).
  { induction R as [|cf i cf' R IH S]; [apply lockInv_init|eapply lockInv_step; eauto]. }
  destruct LI as [IC IE IW IH].
  assert (EN : forall i p prog, nth_error (c_threads cf) i = Some (mkThread p prog) -> p <> Idle -> exists cf', stepT i cf = Some cf').
  { intros i p prog H N. unfold stepT. rewrite H. destruct p; try congruence;
      try (destruct (inner _ _); eexists; reflexivity); eexists; reflexivity. }
  destruct (c_writer cf) eqn:CW.
  - right. destruct (IH eq_refl) as (i & [p prog] & H & W & _). exists i. eapply EN; [exact H|].
    intros ->. discriminate.
  - destruct (c_readers cf) as [|n] eqn:CR.
    + assert (DT : forall t, {t = mkThread Idle []} + {t <> mkThread Idle []}).
      { intros [p pr]. destruct p; try (right; discriminate). destruct pr; [left; reflexivity|right; discriminate]. }
      destruct (Forall_Exists_dec (fun t => t = mkThread Idle []) DT (c_threads cf)) as [F|E].
      * left. exact F.
      * right. apply Exists_exists in E as ([p pr] & Hin & Hn). apply In_nth_error in Hin as [i Hi].
        exists i. assert (D : p = Idle \/ p <> Idle) by (destruct p; [left; reflexivity|right; discriminate..]).
        destruct D as [->|D]; [|eapply EN; eauto].
        destruct pr as [|c pr]; [congruence|]. unfold stepT. rewrite Hi, CW, CR. cbn [Nat.eqb negb orb].
        destruct (writes c); eexists; reflexivity.
    + right. unfold countR in IC. destruct (filter (fun t => isR (t_pc t)) (c_threads cf)) as [|[p pr] l] eqn:E; [discriminate|].
      assert (In (mkThread p pr) (filter (fun t => isR (t_pc t)) (c_threads cf))) as Hin by (rewrite E; now left).
      apply filter_In in Hin as [Hin HR]. apply In_nth_error in Hin as [i Hi]. exists i. eapply EN; [exact Hi|].
      intros ->. discriminate.
Qed.

(** C07: goroutines that call only Next. *)
Lemma run_nexts text : runesOk text -> forall n, 
  fst (run (repeat CNext n) (newStream text)) = List.map ORune (firstn n text) ++ repeat (ORune EOFChar) (n - length text).
Proof.
  intros _ n. assert (forall n s, fst (run (repeat CNext n) s) = List.map ORune (firstn n (rest s)) ++ repeat (ORune EOFChar) (n - length (rest s))) as X.
  { clear. induction n as [|n IH]; intros s; cbn [repeat run]; [reflexivity|]. cbn [run1].
    destruct (rest s) as [|c l] eqn:E.
    - rewrite (next_rest_nil s E). specialize (IH s). destruct (run (repeat CNext n) s); cbn [fst] in *. rewrite IH, E.
      rewrite !firstn_nil. cbn. rewrite Nat.sub_0_r. reflexivity.
    - destruct (moves_next s c l E) as (t & Hn & _ & Ht). rewrite Hn. specialize (IH t).
      destruct (run (repeat CNext n) t); cbn [fst] in *. rewrite IH, Ht. reflexivity. }
  apply X.
Qed.

Lemma concurrent_next text progs cf : runesOk text ->
  Forall (Forall (fun c => c = CNext)) progs -> reach (init text progs) cf ->
  answers (c_log cf) =
  List.map ORune (firstn (length (c_log cf)) text) ++ repeat (ORune EOFChar) (length (c_log cf) - length text).
Proof.
  intros C NX R. assert (Forall (Forall noPosC) progs) as NP.
  { eapply Forall_impl; [|exact NX]. intros p H. eapply Forall_impl; [|exact H]. intros c ->. exact I. }
  rewrite (linearizable text progs cf NP R), <- (run_nexts text C). f_equal. f_equal.
  assert (forall e, In e (c_log cf) -> e_call e = CNext) as X.
  { assert (T : length (c_threads cf) = length progs).
    { clear NX NP. induction R as [|cf i cf' R IH S]; [cbn; now rewrite map_length|].
      destruct (step_cases i cf cf' S) as (p & pr & Hp & Cases).
      destruct Cases as [(c & prog' & -> & -> & W & CW & CR & ->)|[(c & prog' & -> & -> & W & CW & ->)|[(c & o & -> & ->)|[(c & o & -> & ->)|(N1 & N2 & N3 & ->)]]]];
        cbn [c_threads]; rewrite upd_length; exact IH. }
    assert (TID : forall e, In e (c_log cf) -> (e_tid e < length progs)%nat).
    { clear NX NP T. induction R as [|cf i cf' R IH S]; [cbn; tauto|]. intros e.
      destruct (step_cases i cf cf' S) as (p & pr & Hp & Cases).
      assert (i < length progs)%nat as Li.
      { assert (length (c_threads cf) = length progs) as T.
        { clear - R. induction R as [|cf i cf' R IH S]; [cbn; now rewrite map_length|].
          destruct (step_cases i cf cf' S) as (p & pr & Hp & Cases).
          destruct Cases as [(c & prog' & -> & -> & W & CW & CR & ->)|[(c & prog' & -> & -> & W & CW & ->)|[(c & o & -> & ->)|[(c & o & -> & ->)|(N1 & N2 & N3 & ->)]]]];
            cbn [c_threads]; rewrite upd_length; exact IH. }
        rewrite <- T. apply nth_error_Some. congruence. }
      destruct Cases as [(c & prog' & -> & -> & W & CW & CR & ->)|[(c & prog' & -> & -> & W & CW & ->)|[(c & o & -> & ->)|[(c & o & -> & ->)|(N1 & N2 & N3 & ->)]]]];
        cbn [c_log]; try exact (IH e);
        (intros H; apply in_app_or in H as [H|[<-|[]]]; [exact (IH e H)|exact Li]). }
    intros e He. specialize (TID e He). apply nth_error_Some in TID.
    destruct (nth_error progs (e_tid e)) as [prog|] eqn:Ep; [|congruence].
    destruct (program_order text progs cf R _ _ Ep) as (t & Ht & E).
    assert (Forall (fun c => c = CNext) prog) as F.
    { rewrite Forall_forall in NX. apply NX. eapply nth_error_In; eauto. }
    rewrite E in F. apply Forall_app in F as [F _]. rewrite Forall_forall in F. apply F.
    unfold calls. apply in_map. unfold ofThread. apply filter_In. split; [exact He|apply Nat.eqb_refl]. }
  unfold calls. clear - X. induction (c_log cf) as [|e l IH]; [reflexivity|]. cbn. f_equal; [apply X; now left|].
  apply IH. intros e' H. apply X. now right.
Qed.
