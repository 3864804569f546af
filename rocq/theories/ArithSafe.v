(** The evaluator is exact in the shipped arithmetic grammar, line breaks aside. *)
From Verif Require Import Base Stream StreamFacts CallFacts Node Rule Grammar SpecStream SpecRule TermFacts TermSpec EvalFuel SpecEval SpecEv EvFacts EvDet EvalSem
  SpecTerm WfDec LoopFacts SpecDriver DriverFacts SpecLL LLFacts LLDec LangFacts JsonLex JsonSafe SpecArith ArithLex.

(** No reference to exprs. *)
Fixpoint noTop (r : rule) : bool :=
  match r with
  | RRef _ n => negb (runes_eqb n aExprs)
  | RGroup _ x | ROption _ x | RRep _ x _ _ => noTop x
  | RChoice _ gs => forallb (forallb noTop) gs
  | RConcat _ l => forallb noTop l
  | _ => true
  end.
Definition aKnown (r : rule) : Prop := r = xInteger \/ r = xFloat \/ r = xLiteral.
Definition aClass (r : rule) : Prop := (LL gA r /\ noTop r = true) \/ aKnown r.
Definition aEnv : env := Eval vm_compute in iterate 60 gA [].
Lemma aEnv_closed : closedEnv gA aEnv = true. Proof. vm_compute. reflexivity. Qed.
Lemma in_class r : llC true gA aEnv r = true -> noTop r = true -> aClass r.
Proof. intros L R. left. split; [|exact R]. exact (llC_ok gA aEnv aEnv_closed true r L). Qed.
Lemma aLookup n r : lookup gA n = Some r -> n <> aExprs -> aClass r.
Proof.
  intros H N. apply lookup_in in H. unfold gA in H. cbn [In] in H.
  repeat (destruct H as [H|H]; [injection H as <- <-; first [now destruct N | apply in_class; vm_compute; reflexivity | right; unfold aKnown; auto]|]). destruct H.
Qed.

(* ---------------- how far the tokens look ---------------- *)

Lemma isDec_dark d : isDec d = true -> isWS d = false.
Proof. exact (digit_dark d). Qed.
Lemma isDec_iff d : isDec d = true <-> decDigit d.
Proof. unfold isDec, within, decDigit. rewrite andb_true_iff, !Z.leb_le. reflexivity. Qed.

Definition numHead (l : list Z) : Prop := exists c l', l = c :: l' /\ (c = 45 \/ isDec c = true).
Definition decLen (l : list Z) : nat := if headIs 45 l then S (length (runP isDec (tl l))) else length (runP isDec l).
Lemma runOut_cases p dn b kids l : (runP p l = [] /\ runOut p dn b kids l = OFail 0 true) \/
  (exists d l' n, l = d :: l' /\ p d = true /\ runOut p dn b kids l = OMatch n (length (runP p l)) (length (runP p l)) true /\ (1 <= length (runP p l) <= length l)%nat).
Proof.
  unfold runOut. pose proof (runP_len p l) as LE. destruct l as [|d l']; [left; now split|]. cbn [runP] in *. destruct (p d) eqn:D; [right|left; now split].
  exists d, l'. eexists. split; [reflexivity|]. split; [exact D|]. split; [reflexivity|]. cbn [length] in *. lia.
Qed.
Lemma dec_cases l : (exists k, decOut l = OFail k true /\ (k <= 1)%nat /\ (k <= length l)%nat) \/
  (exists n, decOut l = OMatch n (decLen l) (decLen l) true /\ (1 <= decLen l <= length l)%nat /\ numHead l).
Proof.
  unfold decOut, decLen. destruct (headIs 45 l) eqn:H.
  - destruct l as [|c l]; [discriminate|]. cbn in H. apply Z.eqb_eq in H. subst c. cbn [tl length].
    destruct (runOut_cases isDec decNode (named aIntDec) [minusNode true] l) as [[_ ->]|(d & l' & n & E & D & -> & B)]; [left|right]; cbn [shift].
    + exists 1%nat. split; [reflexivity|lia].
    + exists n. split; [reflexivity|]. split; [lia|]. exists 45, l. auto.
  - destruct (runOut_cases isDec decNode (named aIntDec) [minusNode false] l) as [[_ ->]|(d & l' & n & E & D & -> & B)]; [left|right].
    + exists 0%nat. split; [reflexivity|lia].
    + exists n. split; [reflexivity|]. split; [lia|]. exists d, l'. auto.
Qed.
Lemma based_cases name c p dn l : c <> 46 -> isDec c = false -> isWS c = false ->
  (exists k, basedOut name c p dn l = OFail k true /\ (k <= 2)%nat /\ (k <= length l)%nat /\ (k = 2%nat -> exists l', l = 48 :: l')) \/
  (exists n u l', basedOut name c p dn l = OMatch n u u true /\ (3 <= u <= length l)%nat /\ l = 48 :: c :: l' /\ decLen l = 1%nat).
Proof.
  intros C1 C2 C3. unfold basedOut. cbv zeta. destruct l as [|x [|y l]].
  - left. exists 0%nat. cbn. split; [reflexivity|]. repeat split; [lia..|discriminate].
  - left. cbn [litmatch]. destruct (x =? 48); cbn; exists 1%nat; (split; [reflexivity|]); repeat split; (lia || discriminate).
  - cbn [litmatch]. destruct (Z.eqb_spec x 48) as [->|].
    2:{ left. exists 1%nat. cbn. split; [reflexivity|]. repeat split; [lia..|discriminate]. }
    destruct (Z.eqb_spec y c) as [->|].
    2:{ left. exists 2%nat. cbn. split; [reflexivity|]. repeat split; [lia..|]. eauto. }
    cbn [snd skipn]. destruct (runOut_cases p dn (named name) [litNode [48; c]] l) as [[_ ->]|(d & l' & n & E & D & -> & B)]; cbn [shift].
    + left. exists 2%nat. split; [reflexivity|]. cbn [length]. repeat split; [lia..|]. eauto.
    + right. exists n, (2 + length (runP p l))%nat, l. split; [reflexivity|]. cbn [length]. split; [lia|]. split; [reflexivity|]. unfold decLen. cbn. rewrite C2. reflexivity.
Qed.

Lemma sp_here f d l : isWS d = false -> sp f (d :: l) = 0%nat.
Proof. intros D. unfold sp, lead. cbn [ws_prefix]. rewrite D. now destruct (f =? SK). Qed.
Lemma gone_run p f l : (forall d, p d = true -> isWS d = false) -> gone p f l = (length (runP p l) + gone p f (skipn (length (runP p l)) l))%nat.
Proof.
  intros W. induction l as [|d l IH]; [reflexivity|]. cbn [runP]. destruct (p d) eqn:D; [|reflexivity]. cbn [length skipn].
  destruct (loose_step p f (d :: l) d l) as [_ ->]; [rewrite sp_here by auto; reflexivity|exact D|]. rewrite sp_here by auto. lia.
Qed.
Lemma gone_after p f t d l : (forall d, p d = true -> isWS d = false) -> skipn (sp f t) t = d :: l -> p d = true ->
  let u := (sp f t + length (runP p (d :: l)))%nat in gone p f t = (u + gone p f (skipn u t))%nat.
Proof.
  intros W E D u. destruct (loose_step p f t d l E D) as [_ ->]. rewrite (gone_run p f l W). unfold u. cbn [runP]. rewrite D. cbn [length].
  rewrite <- (skipn_plus (sp f t)), E. cbn [skipn]. lia.
Qed.
Lemma gone_pos p f t : gone p f t <> 0%nat -> exists d l, skipn (sp f t) t = d :: l /\ p d = true.
Proof.
  intros H. destruct (skipn (sp f t) t) as [|d l] eqn:E; [destruct (loose_stop p f t); [now rewrite E|congruence]|].
  destruct (p d) eqn:D; [eauto|]. destruct (loose_stop p f t); [now rewrite E|congruence].
Qed.
Lemma gone_le p f t : (gone p f t <= length t)%nat. Proof. apply loose_le. Qed.
Lemma skip_sp_le f t : (sp f t <= length t)%nat. Proof. pose proof (sp_lead f t). pose proof (lead_le t). lia. Qed.

(** Without a match, little is read; otherwise the integer ends where the digits do,
    or it has a prefix. *)
Definition intFacts (s : nat) (l : list Z) (y : sres) : Prop :=
  match y with
  | Fail k _ => (k <= s + 1)%nat /\ (k <= s + length l)%nat /\ (numHead l -> headIs 45 l = true /\ runP isDec (tl l) = [])
  | Match _ u k _ => (s < u)%nat /\ (u <= k <= S u)%nat /\ (k <= s + length l)%nat /\ numHead l /\
      ((u = s + decLen l /\ (headIs 45 l = true -> runP isDec (tl l) <> []))%nat \/ exists c l', l = 48 :: c :: l' /\ c <> 46 /\ isDec c = false /\ isWS c = false)
  | Amb _ => False
  end.

Section Known.
Variable fuel : nat.
Hypothesis IH : forall fuel' r f t, (fuel' <= fuel)%nat -> aClass r -> plainSpace t -> goodOut gA r t (sem fuel' gA r f t).

Lemma exact_at fuel' r f t x : (fuel' <= fuel)%nat -> aClass r -> plainSpace t -> Ev gA r f t x -> sem fuel' gA r f t = SFuel \/ sem fuel' gA r f t = SOk (asSem x).
Proof. intros LE C P E. apply (exact_out gA r f t fuel' x); [now apply IH|exact E]. Qed.

Lemma int_sem f t fuel' : (fuel' <= fuel)%nat -> plainSpace t -> sem (S fuel') gA xInteger f t = SFuel \/
  exists y, sem (S fuel') gA xInteger f t = SOk y /\ intFacts (sp f t) (skipn (sp f t) t) y.
Proof.
  intros LE P. pose proof (skip_sp_le f t) as SL. pose proof (skipn_length (sp f t) t) as LL.
  destruct (exact_at fuel' (ref aIntDec) f t _ LE ltac:(apply in_class; vm_compute; reflexivity) P (intDec_ev f t P)) as [E1|E1];
  destruct (exact_at fuel' (ref aIntOct) f t _ LE ltac:(apply in_class; vm_compute; reflexivity) P (intOct_ev f t P)) as [E2|E2];
  destruct (exact_at fuel' (ref aIntHex) f t _ LE ltac:(apply in_class; vm_compute; reflexivity) P (intHex_ev f t P)) as [E3|E3];
  destruct (exact_at fuel' (ref aIntBin) f t _ LE ltac:(apply in_class; vm_compute; reflexivity) P (intBin_ev f t P)) as [E4|E4].
  all: unfold xInteger; cbn [sem semStep semChoice semAlts]; rewrite ?E1, ?E2, ?E3, ?E4; try (left; destruct (asSem _); reflexivity).
  all: try (left; repeat (reflexivity || (destruct (asSem _); cbn [sbind])); fail).
  right. set (l := skipn (sp f t) t) in *. clearbody l. clear E1 E2 E3 E4.
  pose proof (based_cases aIntOct 111 (within 48 55) (runeNode (named aOct)) l ltac:(lia) eq_refl eq_refl) as B2. fold octOut in B2.
  pose proof (based_cases aIntHex 120 isHex hexNode l ltac:(lia) eq_refl eq_refl) as B3. fold hexOut in B3.
  pose proof (based_cases aIntBin 98 (within 48 49) (runeNode (named aBin)) l ltac:(lia) eq_refl eq_refl) as B4. fold binOut in B4.
  assert (NH : forall l', l = 48 :: l' -> exists n, decOut l = OMatch n (decLen l) (decLen l) true /\ (1 <= decLen l <= length l)%nat /\ numHead l).
  { intros l' ->. destruct (dec_cases (48 :: l')) as [(k & X & _)|X]; [|exact X]. exfalso. unfold decOut in X. cbn in X. discriminate. }
  assert (NB : forall k n, l = [] \/ numHead l -> decOut l = OFail k n -> l = [] \/ (headIs 45 l = true /\ runP isDec (tl l) = [])).
  { intros k n [->|(c & l' & -> & C)] X; [now left|right]. unfold decOut in X. cbn [headIs tl] in *. destruct (Z.eqb_spec c 45) as [->|N].
    - split; [reflexivity|]. unfold runOut in X. destruct (runP isDec l'); [reflexivity|discriminate].
    - destruct C as [C|C]; [congruence|]. unfold runOut in X. cbn [runP] in X. rewrite C in X. discriminate. }
  destruct (dec_cases l) as [(k1 & D & K1 & K1')|(n1 & D & U1 & H1)].
  - assert (F : forall x, (exists k, x = OFail k true /\ (k <= 2)%nat /\ (k <= length l)%nat /\ (k = 2%nat -> exists l', l = 48 :: l')) \/
      (exists n u l' c, x = OMatch n u u true /\ (3 <= u <= length l)%nat /\ l = 48 :: c :: l' /\ decLen l = 1%nat) -> exists k, x = OFail k true /\ (k <= 1)%nat /\ (k <= length l)%nat).
    { intros x [(k & -> & A & B & C)|(n & u & l' & c & _ & _ & E & _)].
      - exists k. split; [reflexivity|]. split; [|exact B]. destruct (Nat.eq_dec k 2) as [->|]; [|lia]. destruct (C eq_refl) as (l' & E). destruct (NH _ E) as (n & X & _). rewrite D in X. discriminate.
      - destruct (NH _ E) as (n' & X & _). rewrite D in X. discriminate. }
    destruct (F (octOut l)) as (k2 & -> & K2 & K2'); [destruct B2 as [B2|(n & u & l' & B2)]; [now left|right; now exists n, u, l', 111]|].
    destruct (F (hexOut l)) as (k3 & -> & K3 & K3'); [destruct B3 as [B3|(n & u & l' & B3)]; [now left|right; now exists n, u, l', 120]|].
    destruct (F (binOut l)) as (k4 & -> & K4 & K4'); [destruct B4 as [B4|(n & u & l' & B4)]; [now left|right; now exists n, u, l', 98]|].
    rewrite D. cbn [shift asSem sbind rev app pick longest fold_right List.filter]. eexists. split; [reflexivity|]. cbn [intFacts]. split; [lia|]. split; [lia|].
    intros N. destruct (NB _ _ (or_intror N) D) as [->|X]; [|exact X]. destruct N as (? & ? & ? & _). discriminate.
  - clear NH. rewrite D. assert (D45 : headIs 45 l = true -> runP isDec (tl l) <> []).
    { intros H45 R. unfold decOut, runOut in D. rewrite H45, R in D. discriminate. }
    destruct B2 as [(k2 & -> & K2 & K2' & _)|(n2 & u2 & l2 & -> & U2 & L2 & DL2)];
    destruct B3 as [(k3 & -> & K3 & K3' & _)|(n3 & u3 & l3 & -> & U3 & L3 & DL3)];
    destruct B4 as [(k4 & -> & K4 & K4' & _)|(n4 & u4 & l4 & -> & U4 & L4 & DL4)];
      try (exfalso; congruence); cbn [shift asSem sbind rev app].
    all: first [rewrite pick_one | rewrite pick_second by lia]. all: eexists; (split; [reflexivity|]); cbn [intFacts].
    all: (split; [lia|]); (split; [lia|]); (split; [lia|]); (split; [exact H1|]).
    + left. split; [reflexivity|exact D45].
    + right. exists 98, l4. split; [exact L4|]. split; [lia|now split].
    + right. exists 120, l3. split; [exact L3|]. split; [lia|now split].
    + right. exists 111, l2. split; [exact L2|]. split; [lia|now split].
Qed.

Lemma numHead_dark f t : numHead (skipn (sp f t) t) -> exists c, sp f t = lead t /\ darkAt t c /\ (c = 45 \/ isDec c = true).
Proof.
  intros (c & l & E & C). exists c. destruct (sp_dark f t c l E) as [A B]; [destruct C as [->|C]; [reflexivity|now apply isDec_dark]|]. auto.
Qed.
Lemma first_dec c : c = 45 \/ isDec c = true -> First gA c (ref aInteger).
Proof.
  intros C. eapply fi_ref; [exact look_int|]. apply (fi_choice gA c _ _ [ref aIntDec; ref aIntOct; ref aIntHex; ref aIntBin] (ref aIntDec)); [now left|now left|].
  eapply fi_ref; [exact look_intDec|]. destruct C as [->|C].
  - apply (fi_concat gA 45 _ [] xMinus [ref aDec; many (ref aDec)]); [intros x []|]. apply fi_option, fi_char.
  - apply (fi_concat gA c _ [xMinus] (ref aDec) [many (ref aDec)]); [intros x [<-|[]]; apply nu_option|]. eapply fi_ref; [exact look_dec|]. apply fi_range. now apply isDec_iff in C.
Qed.
Lemma first_dec' c : c = 45 \/ isDec c = true -> First gA c xInteger.
Proof. intros C. pose proof (first_dec c C) as F. inversion F as [| | | |? ? r L X| | | | | |]; subst. rewrite look_int in L. now injection L as <-. Qed.
Lemma looks_int : Looks gA (ref aInteger).
Proof.
  eapply lo_ref; [exact look_int|]. apply (lo_choice gA _ _ [ref aIntDec; ref aIntOct; ref aIntHex; ref aIntBin] (ref aIntDec)); [now left|now left|].
  eapply lo_ref; [exact look_intDec|]. apply (lo_concat gA _ [xMinus; ref aDec] (many (ref aDec))). apply lo_rep.
Qed.
Lemma looks_int' : Looks gA xInteger.
Proof.
  apply (lo_choice gA _ _ [ref aIntDec; ref aIntOct; ref aIntHex; ref aIntBin] (ref aIntDec)); [now left|now left|].
  eapply lo_ref; [exact look_intDec|]. apply (lo_concat gA _ [xMinus; ref aDec] (many (ref aDec))). apply lo_rep.
Qed.
Lemma integer_good f t : plainSpace t -> goodOut gA xInteger t (sem (S fuel) gA xInteger f t).
Proof.
  intros P. destruct (int_sem f t fuel (Nat.le_refl _) P) as [->|(y & -> & F)]; [exact I|]. pose proof (skip_sp_le f t) as SL. pose proof (skipn_length (sp f t) t) as LL.
  pose proof (sp_lead f t) as SP. cbn [goodOut]. destruct y as [n u k st|k st|k]; cbn [intFacts good] in *; [| |exact F].
  - destruct F as (A & B & C & H & _). destruct (numHead_dark f t H) as (c & E & DA & X). split; [lia|]. right. split; [lia|]. split; [exists c; split; [exact DA|now apply first_dec']|].
    right. split; [exact looks_int'|]. left. lia.
  - destruct F as (A & B & _). split; [lia|]. left. lia.
Qed.

Lemma dotOut_cases kids l : (exists k, dotOut kids l = OFail k true /\ (k <= 1)%nat /\ (k <= length l)%nat /\ (headIs 46 l = false -> k = 0%nat)) \/
  (exists n u, dotOut kids l = OMatch n u u true /\ (2 <= u <= length l)%nat /\ headIs 46 l = true).
Proof.
  unfold dotOut. destruct (headIs 46 l) eqn:H.
  2:{ left. exists 0%nat. split; [reflexivity|]. repeat split; lia. }
  destruct l as [|c l]; [discriminate|]. cbn [tl length].
  destruct (runOut_cases isDec decNode (named aFloat) (kids ++ [charNode nb 46]) l) as [[_ ->]|(d & l' & n & E & D & -> & B)]; cbn [shift].
  - left. exists 1%nat. split; [reflexivity|]. repeat split; [lia..|discriminate].
  - right. exists n, (1 + length (runP isDec l))%nat. split; [reflexivity|]. split; [lia|reflexivity].
Qed.

Lemma safe_eq last p u k : safe last p p u k = true.
Proof. unfold safe. now rewrite Nat.sub_diag. Qed.
Lemma dot_sem fuel' b kids t q m : (fuel' <= fuel)%nat -> plainSpace t -> (q <= m)%nat -> (headIs 46 (skipn q t) = true -> m = q) -> b = named aFloat ->
  semSeq (sem fuel' gA) b [RChar nb 46 false; ref aDec; many (ref aDec)] t NS q m true (rev kids) = SFuel \/
  semSeq (sem fuel' gA) b [RChar nb 46 false; ref aDec; many (ref aDec)] t NS q m true (rev kids) = SOk (asSem (atLeast m (shift q (dotOut kids (skipn q t))))).
Proof.
  intros LE P QM HM ->. pose proof (plain_skipn q t P) as Pq. pose proof (char_ev gA nb 46 false NS (skipn q t) eq_refl) as C. rewrite sp_not, shift_0 in C. cbn [skipn] in C. unfold chOut in C.
  rewrite seq_step. unfold dotOut. destruct (exact_at fuel' (RChar nb 46 false) NS (skipn q t) _ LE ltac:(apply in_class; vm_compute; reflexivity) Pq C) as [E|E]; rewrite E; clear E C; [now left|].
  destruct (headIs 46 (skipn q t)) eqn:H; cbn [asSem sbind].
  2:{ right. reflexivity. }
  specialize (HM eq_refl). subst m. change (nextMode NS (charNode nb 46) true) with NS. rewrite safe_eq. cbn [andb].
  replace (Nat.max q (q + 1)) with (q + 1)%nat by lia. rewrite (head_tail _ _ _ H). cbn [tl].
  pose proof (one_dec NS (skipn (q + 1) t) (plain_skipn _ t P)) as O. rewrite sp_not, shift_0 in O. cbn [skipn] in O. rewrite seq_step.
  destruct (exact_at fuel' (ref aDec) NS (skipn (q + 1) t) _ LE ltac:(apply in_class; vm_compute; reflexivity) (plain_skipn _ t P) O) as [E|E]; rewrite E; clear E O; [now left|].
  unfold oOut, runOut. destruct (skipn (q + 1) t) as [|d l] eqn:L; cbn [runP asSem sbind].
  { right. cbn [shift asSem atLeast]. do 2 f_equal. lia. }
  destruct (isDec d) eqn:D; cbn [asSem sbind].
  2:{ right. cbn [shift asSem atLeast]. do 2 f_equal. lia. }
  rewrite safe_eq. cbn [andb]. change (nextMode NS (decNode d) true) with NS.
  assert (L2 : skipn (q + 1 + 1) t = l) by (rewrite <- skipn_plus, L; reflexivity).
  rewrite seq_step. rewrite L2. assert (P2 : plainSpace l) by (rewrite <- L2; now apply plain_skipn).
  destruct (exact_at fuel' (many (ref aDec)) NS l _ LE ltac:(apply in_class; vm_compute; reflexivity) P2 (many_tight (ref aDec) isDec decNode l one_dec P2)) as [E|E]; rewrite E; clear E; [now left|].
  right. cbn [asSem sbind]. replace (Nat.max (q + 1) (q + 1 + 1)) with (q + 1 + 1)%nat by lia. rewrite safe_eq. cbn [andb semSeq shift atLeast asSem length runNodes].
  cbn [rev]. rewrite rev_involutive. rewrite <- !app_assoc. cbn [app]. do 2 f_equal; lia.
Qed.

Lemma gone_sp f t : (sp f t <= gone isDec f t + sp f (skipn (gone isDec f t) t))%nat.
Proof.
  destruct (Nat.eq_dec (gone isDec f t) 0) as [->|N]; [cbn [skipn]; lia|]. destruct (gone_pos _ _ _ N) as (d & l & E & D). destruct (loose_step isDec f t d l E D) as [_ ->]. lia.
Qed.
Lemma float_sem f t fuel' : (fuel' <= fuel)%nat -> plainSpace t ->
  sem (S fuel') gA xFloat f t = SFuel \/ sem (S fuel') gA xFloat f t = SOk (asSem (floatOut f t)).
Proof.
  intros LE P. change (sem (S fuel') gA xFloat f t) with (semSeq (sem fuel' gA) (named aFloat) [xMinus; many (ref aDec); RChar nb 46 false; ref aDec; many (ref aDec)] t f 0 0 true []).
  rewrite seq_step. change (skipn 0 t) with t. unfold floatOut. cbv zeta.
  destruct (exact_at fuel' xMinus f t _ LE ltac:(apply in_class; vm_compute; reflexivity) P (minus_ev f t)) as [E|E]; rewrite E; clear E; [now left|].
  destruct (headIs 45 (skipn (sp f t) t)) eqn:H; cbn [asSem sbind]; rewrite safe_eq; cbn [andb]; rewrite !Nat.add_0_l, Nat.max_0_l.
  - change (nextMode f (minusNode true) true) with NS. rewrite (head_tail _ _ _ H). cbn [tl]. rewrite seq_step.
    destruct (exact_at fuel' (many (ref aDec)) NS (skipn (sp f t + 1) t) _ LE ltac:(apply in_class; vm_compute; reflexivity) (plain_skipn _ t P)
      (many_tight (ref aDec) isDec decNode _ one_dec (plain_skipn _ t P))) as [E|E]; rewrite E; clear E; [now left|].
    cbn [asSem sbind]. rewrite safe_eq. cbn [andb]. set (ds := runP isDec (skipn (sp f t + 1) t)). change (nextMode NS (manyNode decNode ds) true) with NS.
    replace (Nat.max (sp f t + 1) (sp f t + 1 + length ds)) with (sp f t + 1 + length ds)%nat by lia.
    destruct (dot_sem fuel' (named aFloat) [minusNode true; manyNode decNode ds] t (sp f t + 1 + length ds) (sp f t + 1 + length ds) LE P ltac:(lia) ltac:(reflexivity) eq_refl) as [E|E];
      cbn [rev app] in E; rewrite E; clear E; [now left|right]. rewrite skipn_plus. do 2 f_equal.
    destruct (dotOut_cases [minusNode true; manyNode decNode ds] (skipn (sp f t + 1 + length ds) t)) as [(k & -> & _)|(n & u & -> & _)]; cbn [shift atLeast]; f_equal; lia.
  - change (nextMode f (minusNode false) true) with f. rewrite seq_step. change (skipn 0 t) with t.
    destruct (exact_at fuel' (many (ref aDec)) f t _ LE ltac:(apply in_class; vm_compute; reflexivity) P
      (many_ev (ref aDec) isDec decNode f t one_dec P)) as [E|E]; rewrite E; clear E; [now left|].
    cbn [asSem sbind]. pose proof (gone_sp f t) as SP. set (q := gone isDec f t) in *. 
    assert (S1 : forall last, safe last 0 (sp f t) q (q + sp f (skipn q t)) = true) by (intros last; unfold safe; apply orb_true_iff; left; apply Nat.leb_le; lia).
    rewrite S1. cbn [andb]. rewrite !Nat.add_0_l. replace (Nat.max (sp f t) (q + sp f (skipn q t))) with (q + sp f (skipn q t))%nat by lia.
    change (nextMode f (manyNode decNode (taken isDec f t)) true) with NS.
    destruct (dot_sem fuel' (named aFloat) [minusNode false; manyNode decNode (taken isDec f t)] t q (q + sp f (skipn q t)) LE P ltac:(lia)) as [E|E]; [|reflexivity| |].
    + intros X. apply head_tail in X. rewrite X, sp_here by reflexivity. lia.
    + cbn [rev app] in E. left. exact E.
    + cbn [rev app] in E. right. exact E.
Qed.

Lemma first_flt c : c = 45 \/ isDec c = true -> First gA c xFloat.
Proof.
  intros [->|C].
  - apply (fi_concat gA 45 _ [] xMinus [many (ref aDec); RChar nb 46 false; ref aDec; many (ref aDec)]); [intros x []|]. apply fi_option, fi_char.
  - apply (fi_concat gA c _ [xMinus] (many (ref aDec)) [RChar nb 46 false; ref aDec; many (ref aDec)]); [intros x [<-|[]]; apply nu_option|]. apply fi_rep.
    eapply fi_ref; [exact look_dec|]. apply fi_range. now apply isDec_iff in C.
Qed.
Lemma first_dot : First gA 46 xFloat.
Proof.
  apply (fi_concat gA 46 _ [xMinus; many (ref aDec)] (RChar nb 46 false) [ref aDec; many (ref aDec)]); [|apply fi_char]. intros x [<-|[<-|[]]]; [apply nu_option|apply nu_rep; lia].
Qed.
(** What the float does, in terms of sizes. *)
Lemma float_cases f t :
  (exists k, floatOut f t = OFail k true /\ (k <= length t)%nat /\ ((k <= S (lead t))%nat \/ numHead (skipn (sp f t) t)) /\
     (headIs 45 (skipn (sp f t) t) = true -> (k <= sp f t + decLen (skipn (sp f t) t) + 1)%nat) /\
     (headIs 45 (skipn (sp f t) t) = false -> (k <= Nat.max (gone isDec f t + sp f (skipn (gone isDec f t) t)) (gone isDec f t + if headIs 46 (skipn (gone isDec f t) t) then 1 else 0))%nat)) \/
  (exists n u, floatOut f t = OMatch n u u true /\ (lead t < u <= length t)%nat /\ (exists c, darkAt t c /\ First gA c xFloat) /\
     (headIs 45 (skipn (sp f t) t) = true -> (sp f t + decLen (skipn (sp f t) t) < u)%nat) /\
     (headIs 45 (skipn (sp f t) t) = false -> (gone isDec f t < u)%nat /\ headIs 46 (skipn (gone isDec f t) t) = true)).
Proof.
  unfold floatOut. cbv zeta. pose proof (skip_sp_le f t) as SL. pose proof (sp_lead f t) as SPL. pose proof (skipn_length (sp f t) t) as LL. destruct (headIs 45 (skipn (sp f t) t)) eqn:H.
  - pose proof (head_tail _ _ _ H) as E. unfold decLen. rewrite E. cbn [headIs tl]. rewrite Z.eqb_refl. set (ds := runP isDec (skipn (sp f t + 1) t)).
    assert (NH : numHead (45 :: skipn (sp f t + 1) t)) by (exists 45, (skipn (sp f t + 1) t); auto).
    assert (DK : exists c, sp f t = lead t /\ darkAt t c /\ (c = 45 \/ isDec c = true)) by (apply numHead_dark; now rewrite E). destruct DK as (c & SPE & DA & C).
    pose proof (runP_len isDec (skipn (sp f t + 1) t)) as RL. fold ds in RL. rewrite E in LL. cbn [length] in LL. pose proof (skipn_length (sp f t + 1) t) as L1.
    pose proof (skipn_length (length ds) (skipn (sp f t + 1) t)) as L2.
    destruct (dotOut_cases [minusNode true; manyNode decNode ds] (skipn (length ds) (skipn (sp f t + 1) t))) as [(k & -> & K1 & K2 & _)|(n & u & -> & U & _)]; cbn [shift].
    + left. eexists. split; [reflexivity|]. split; [lia|]. split; [now right|]. split; [lia|discriminate].
    + right. exists n, (sp f t + 1 + length ds + u)%nat. split; [reflexivity|]. split; [lia|]. split; [exists c; split; [exact DA|now apply first_flt]|]. split; [lia|discriminate].
  - pose proof (gone_sp f t) as SP. set (q := gone isDec f t) in *. pose proof (gone_le isDec f t) as GL. fold q in GL. pose proof (skipn_length q t) as LQ. pose proof (skip_sp_le f (skipn q t)) as SQ.
    assert (NH : q <> 0%nat -> numHead (skipn (sp f t) t)).
    { intros N. destruct (gone_pos isDec f t N) as (d & l & E & D). rewrite E. exists d, l. auto. }
    destruct (dotOut_cases [minusNode false; manyNode decNode (taken isDec f t)] (skipn q t)) as [(k & -> & K1 & K2 & K3)|(n & u & -> & U & HD)]; cbn [shift atLeast].
    + left. eexists. split; [reflexivity|]. split; [lia|]. split; [|split; [discriminate|]].
      * destruct (Nat.eq_dec q 0) as [Q|Q]; [left|right; now apply NH]. rewrite Q in *. cbn [skipn] in *. lia.
      * intros _. destruct (headIs 46 (skipn q t)); [lia|]. rewrite K3 by reflexivity. lia.
    + right. assert (SQ0 : sp f (skipn q t) = 0%nat) by (rewrite (head_tail _ _ _ HD); now apply sp_here). exists n, (q + u)%nat. split; [f_equal; lia|].
      destruct (Nat.eq_dec q 0) as [Q|Q].
      * rewrite Q in *. cbn [skipn] in *. pose proof (head_tail 46 t 0 HD) as E. cbn [skipn] in E. assert (L0 : lead t = 0%nat) by (rewrite E; reflexivity).
        split; [lia|]. split; [exists 46; split; [exists (skipn 1 t); rewrite L0; exact E|exact first_dot]|]. split; [discriminate|]. intros _. split; [lia|exact HD].
      * destruct (numHead_dark f t (NH Q)) as (c & SPE & DA & C). destruct (gone_pos isDec f t Q) as (d & l & E & D). destruct (loose_step isDec f t d l E D) as [_ G]. fold q in G.
        split; [lia|]. split; [exists c; split; [exact DA|now apply first_flt]|]. split; [discriminate|]. intros _. split; [lia|exact HD].
Qed.
Lemma float_good f t : plainSpace t -> goodOut gA xFloat t (sem (S fuel) gA xFloat f t).
Proof.
  intros P. destruct (float_sem f t fuel (Nat.le_refl _) P) as [->| ->]; [exact I|].
  destruct (float_cases f t) as [(k & -> & A & B & _)|(n & u & -> & A & B & _)]; cbn [asSem goodOut good].
  - split; [exact A|]. destruct B as [B|B]; [now left|right]. destruct (numHead_dark f t B) as (c & _ & DA & C). exists c. split; [exact DA|now apply first_flt].
  - split; [lia|]. right. split; [lia|]. split; [exact B|now left].
Qed.

Lemma first_lit c : c = 45 \/ isDec c = true -> First gA c xLiteral.
Proof. intros C. apply (fi_choice gA c _ _ [ref aInteger; ref aFloat] (ref aInteger)); [now left|now left|now apply first_dec]. Qed.
Lemma first_lit' c : First gA c xFloat -> First gA c xLiteral.
Proof. intros C. apply (fi_choice gA c _ _ [ref aInteger; ref aFloat] (ref aFloat)); [now left|right; now left|]. eapply fi_ref; [exact look_flt|exact C]. Qed.
Lemma looks_lit : Looks gA xLiteral.
Proof. apply (lo_choice gA _ _ [ref aInteger; ref aFloat] (ref aInteger)); [now left|now left|exact looks_int]. Qed.
Lemma tail_lit c : isDec c = true -> Tail gA c xLiteral.
Proof.
  intros C. apply (ta_choice gA c _ _ [ref aInteger; ref aFloat] (ref aInteger)); [now left|now left|]. eapply ta_ref; [exact look_int|].
  apply (ta_choice gA c _ _ [ref aIntDec; ref aIntOct; ref aIntHex; ref aIntBin] (ref aIntDec)); [now left|now left|]. eapply ta_ref; [exact look_intDec|].
  apply (ta_concat gA c _ [xMinus; ref aDec] (many (ref aDec)) []); [intros x []|]. apply ta_rep_first. eapply fi_ref; [exact look_dec|]. apply fi_range. now apply isDec_iff in C.
Qed.
Lemma ref_sem n r f t fuel' : lookup gA n = Some r -> sem (S fuel') gA (ref n) f t =
  let! x := sem fuel' gA r f t in SOk (match x with Match nd u k s => Match (flip nb nd) u k s | _ => x end).
Proof. intros L. unfold ref. cbn [sem semStep]. rewrite L. destruct (sem fuel' gA r f t) as [[| |]| |]; reflexivity. Qed.

Lemma literal_good f t : plainSpace t -> goodOut gA xLiteral t (sem (S fuel) gA xLiteral f t).
Proof.
  intros P. unfold xLiteral at 2. cbn [sem semStep semChoice semAlts].
  assert (SH : forall n, n = 0%nat \/ exists m, n = S m) by (intros [|n]; eauto).
  destruct (SH fuel) as [F1|(f1 & F1)]; rewrite F1; [exact I|]. rewrite (ref_sem _ _ f t f1 look_int), (ref_sem _ _ f t f1 look_flt).
  destruct (SH f1) as [F2|(f2 & F2)]; rewrite F2; [exact I|].
  destruct (int_sem f t f2 ltac:(lia) P) as [->|(y & -> & FA)]; [exact I|].
  assert (FS := float_sem f t f2 ltac:(lia) P). cbn [sbind].
  pose proof (skip_sp_le f t) as SL. pose proof (sp_lead f t) as SPL. pose proof (skipn_length (sp f t) t) as LL.
  set (l := skipn (sp f t) t) in *.
  (* where the digits end *)
  assert (DEC : headIs 45 l = false -> numHead l -> gone isDec f t = (sp f t + decLen l + gone isDec f (skipn (sp f t + decLen l) t))%nat).
  { intros H (c & l' & E & C). destruct C as [->|C]; [rewrite E in H; discriminate|]. unfold decLen. rewrite H, E. apply (gone_after isDec f t c l' isDec_dark E C). }
  assert (PRE : forall c l', l = 48 :: c :: l' -> isDec c = false -> isWS c = false -> gone isDec f t = S (sp f t) /\ skipn (gone isDec f t) t = c :: l').
  { intros c l' E D W. destruct (loose_step isDec f t 48 (c :: l') E eq_refl) as [_ G]. destruct (loose_stop isDec f (c :: l')) as [_ Z0]; [rewrite sp_here by exact W; exact D|].
    rewrite Z0, Nat.add_0_r in G. split; [exact G|]. rewrite G. replace (S (sp f t)) with (sp f t + 1)%nat by lia. rewrite <- skipn_plus. fold l. rewrite E. reflexivity. }
  destruct (float_cases f t) as [(k2 & EQ & A & B & C45 & CN)|(n2 & u2 & EQ & A & B & C45 & CN)]; rewrite EQ in FS; clear EQ; fold l in B, C45, CN.
  - destruct y as [n u k1 st|k1 st|k1]; cbn [intFacts] in FA; [| |destruct FA].
    + destruct FA as (U & K & KL & NH & X). destruct FS as [-> | ->]; [exact I|]. cbn [asSem sbind rev app]. rewrite pick_one. cbn [goodOut good].
      destruct (numHead_dark f t NH) as (c & SPE & DA & C). split; [lia|]. right. split; [lia|]. split; [exists c; split; [exact DA|now apply first_lit]|].
      right. split; [exact looks_lit|]. rewrite Nat.max_0_l.
      destruct X as [[EU D45]|(c' & l' & E & N46 & ND & NW)].
      * destruct (headIs 45 l) eqn:H; [left; specialize (C45 eq_refl); lia|]. specialize (CN eq_refl). specialize (DEC eq_refl NH). rewrite <- EU in DEC. set (t' := skipn u t) in *.
        destruct (Nat.eq_dec (gone isDec f t') 0) as [Z0|N0].
        -- left. rewrite Z0, Nat.add_0_r in DEC. rewrite DEC in CN. fold t' in CN. pose proof (sp_lead f t'). destruct (headIs 46 t'); lia.
        -- right. destruct (gone_pos isDec f t' N0) as (d & r & E & D). destruct (sp_dark f t' d r E (isDec_dark d D)) as [_ DA']. exists d. split; [exact DA'|now apply tail_lit].
      * left. destruct (PRE c' l' E ND NW) as [G S']. assert (H : headIs 45 l = false) by (rewrite E; reflexivity). specialize (CN H). rewrite S', G, sp_here in CN by exact NW.
        cbn [headIs] in CN. apply Z.eqb_neq in N46. rewrite N46 in CN. lia.
    + destruct FS as [-> | ->]; [exact I|]. cbn [asSem sbind rev app pick longest fold_right List.filter goodOut good]. destruct FA as (FA1 & FA2 & _). split; [lia|].
      destruct B as [B|B]; [left; lia|right]. destruct (numHead_dark f t B) as (c & _ & DA & C). exists c. split; [exact DA|now apply first_lit].
  - destruct B as (c & DA & FC). destruct y as [n u k1 st|k1 st|k1]; cbn [intFacts] in FA; [| |destruct FA].
    + destruct FA as (U & K & KL & NH & X). destruct FS as [-> | ->]; [exact I|]. cbn [asSem sbind rev app].
      assert (LT : (u < u2)%nat).
      { destruct X as [[EU D45]|(c' & l' & E & N46 & ND & NW)].
        - destruct (headIs 45 l) eqn:H; [specialize (C45 eq_refl); lia|]. destruct (CN eq_refl) as [CN' _]. specialize (DEC eq_refl NH). lia.
        - exfalso. assert (H : headIs 45 l = false) by (rewrite E; reflexivity). destruct (CN H) as [_ HD]. destruct (PRE c' l' E ND NW) as [_ S']. rewrite S' in HD. cbn in HD. apply Z.eqb_eq in HD. congruence. }
      rewrite pick_second by exact LT. cbn [goodOut good]. split; [lia|]. right. split; [lia|]. split; [exists c; split; [exact DA|now apply first_lit']|]. left. lia.
    + destruct FS as [-> | ->]; [exact I|]. cbn [asSem sbind rev app]. rewrite pick_one. cbn [goodOut good]. destruct FA as (FA1 & FA2 & _). split; [lia|]. right. split; [lia|].
      split; [exists c; split; [exact DA|now apply first_lit']|]. left. lia.
Qed.
End Known.

Lemma known_good fuel : (forall fuel' r f t, (fuel' <= fuel)%nat -> aClass r -> plainSpace t -> goodOut gA r t (sem fuel' gA r f t)) ->
  forall r f t, aKnown r -> plainSpace t -> goodOut gA r t (sem (S fuel) gA r f t).
Proof. intros IH r f t [->|[->| ->]] P; [now apply integer_good|now apply float_good|now apply literal_good]. Qed.

Lemma arith_layer r : LL gA r -> noTop r = true -> layer gA aClass plainSpace r.
Proof.
  intros H R. destruct H; cbn [noTop] in R.
  - eapply la_literal; eassumption.
  - now apply la_range.
  - apply la_eof.
  - eapply la_ref; [eassumption|]. eapply aLookup; [eassumption|]. apply negb_true_iff, runes_eqb_neq in R. exact R.
  - apply la_group. now left.
  - apply la_option. now left.
  - apply la_rep; [now left|assumption..].
  - apply la_choice; [|assumption..]. intros grp r I J. left. split; [eauto|]. rewrite forallb_forall in R. specialize (R _ I). rewrite forallb_forall in R. now apply R.
  - apply la_concat; [|assumption|intros pre r s post; now apply H1]. intros r I. left. split; [auto|]. rewrite forallb_forall in R. now apply R.
  - eapply la_block; eassumption.
Qed.
Theorem arith_good : forall fuel r f t, aClass r -> plainSpace t -> goodOut gA r t (sem fuel gA r f t).
Proof.
  intros fuel. induction fuel as [fuel IH] using lt_wf_ind. intros r f t C D. destruct fuel as [|fuel]; [exact I|].
  destruct C as [[L R]|K].
  - cbn [sem]. apply (step_good gA (sem fuel gA) aClass plainSpace plain_skipn); [| |now apply arith_layer|exact D].
    + intros r' f' t' C' D'. apply IH; [lia|exact C'|exact D'].
    + intros r' f' t'. destruct fuel as [|fuel']; [now left|right]. exists (S fuel'), (sem fuel' gA). reflexivity.
  - apply known_good; [|exact K|exact D]. intros fuel' r' f' t' LE C' D'. apply IH; [lia|exact C'|exact D'].
Qed.
Lemma arith_clear r f t : aClass r -> plainSpace t -> clearCut gA r f t.
Proof.
  intros H D fuel. pose proof (arith_good fuel r f t H D) as X. destruct (sem fuel gA r f t) as [o| |]; cbn in X; [|contradiction|split; [|intros k]; discriminate].
  split; [discriminate|]. intros k E. injection E as ->. exact X.
Qed.
Lemma arith_ev r f t o : aClass r -> plainSpace t -> Ev gA r f t o -> good gA r t (asSem o).
Proof.
  intros H D E. destruct (ev_complete _ _ _ _ _ E) as (fuel & X). specialize (X fuel (Nat.le_refl _)).
  pose proof (arith_good fuel r f t H D) as G. destruct X as [X|(y & X & Y)]; rewrite X in G; cbn [goodOut] in G; [destruct G|].
  destruct y as [n u k st|k st|k]; cbn [noAmb] in Y; subst o; [exact G|exact G|destruct G].
Qed.
