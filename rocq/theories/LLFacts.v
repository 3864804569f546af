(** In the class of SpecLL.v every rule is evaluated safely and without ambiguity. *)
From Verif Require Import Base Stream StreamFacts CallFacts Node Rule SpecStream SpecRule TermFacts TermSpec SpecEval SpecLL.

Definition lead (t : list Z) : nat := length (ws_prefix t).
(** The first dark rune. *)
Definition darkAt (t : list Z) (c : Z) : Prop := exists r, skipn (lead t) t = c :: r.
(** At most one dark rune has been looked at, unless the first one satisfies [P]. *)
Definition upto (t : list Z) (k : nat) (P : Z -> Prop) : Prop :=
  (k <= S (lead t))%nat \/ exists c, darkAt t c /\ P c.

Definition good (g : rules_t) (r : rule) (t : list Z) (o : sres) : Prop :=
  match o with
  | Fail k _ => (k <= length t)%nat /\ upto t k (fun c => First g c r)
  | Match _ u k _ =>
    (u <= k <= length t)%nat /\
    ((* no dark rune used *)
     (Nullable g r /\ (u = 0%nat \/ (u = length t /\ lead t = length t)) /\ upto t k (fun c => First g c r)) \/
     ((lead t < u)%nat /\ (exists c, darkAt t c /\ First g c r) /\
      (k = u \/ (Looks g r /\ upto (skipn u t) (k - u) (fun c => Tail g c r)))))
  | Amb _ => False
  end.

Definition goodOut (g : rules_t) (r : rule) (t : list Z) (x : sout sres) : Prop :=
  match x with SOk o => good g r t o | SUnsafe => False | SFuel => True end.

Lemma lead_le t : (lead t <= length t)%nat. Proof. apply ws_prefix_len. Qed.
Lemma darkAt_fun t a b : darkAt t a -> darkAt t b -> a = b.
Proof. intros [r A] [r' B]. rewrite A in B. now injection B. Qed.
Lemma darkAt_lt t c : darkAt t c -> (lead t < length t)%nat.
Proof. intros [r H]. pose proof (skipn_length (lead t) t) as L. rewrite H in L. cbn in L. lia. Qed.
Lemma darkAt_ex t : (lead t < length t)%nat -> exists c, darkAt t c.
Proof. intros H. unfold darkAt. pose proof (skipn_length (lead t) t) as L. destruct (skipn (lead t) t) as [|c r]; [cbn in L; lia|eauto]. Qed.

Lemma upto_mono t k (P Q : Z -> Prop) : upto t k P -> (forall c, P c -> Q c) -> upto t k Q.
Proof. intros [H|(c & D & H)] F; [now left|right; eauto]. Qed.
Lemma upto_le t k k' P : upto t k P -> (k' <= k)%nat -> upto t k' P.
Proof. intros [H|H] L; [left; lia|now right]. Qed.
Lemma upto_max t k k' P Q : upto t k P -> upto t k' Q -> upto t (Nat.max k k') (fun c => P c \/ Q c).
Proof. intros [H|(c & D & H)] [H'|(c' & D' & H')]; [left; lia|right; eauto..]. Qed.
Lemma upto_max1 t k k' P : upto t k P -> upto t k' P -> upto t (Nat.max k k') P.
Proof. intros A B. apply (upto_mono _ _ _ _ (upto_max _ _ _ _ _ A B)). intros c [H|H]; exact H. Qed.

(* ---------------- terminals ---------------- *)

Lemma dark_here (k : bool) t c r : skipn (length (if k then ws_prefix t else [])) t = c :: r -> isWS c = false ->
  length (if k then ws_prefix t else []) = lead t /\ darkAt t c.
Proof.
  intros H W. destruct k; [split; [reflexivity|now exists r]|].
  cbn [length skipn] in *. subst t. unfold lead, darkAt, lead. cbn [ws_prefix]. rewrite W. cbn. eauto.
Qed.
Lemma dark_next (k : bool) t c r : skipn (length (if k then ws_prefix t else [])) t = c :: r ->
  (length (if k then ws_prefix t else []) <= lead t)%nat.
Proof. intros _. destruct k; [reflexivity|cbn; lia]. Qed.

Lemma sp_le (k : bool) t : (length (if k then ws_prefix t else []) <= lead t)%nat.
Proof. destruct k; [reflexivity|cbn; lia]. Qed.

Lemma tlit_dark k c l t : isWS c = false ->
  match tlit k (c :: l) t with
  | (Some _, rd, un) => un = [] /\ (lead t < length rd <= length t)%nat /\ darkAt t c
  | (None, rd, _) => (length rd <= length t)%nat /\ upto t (length rd) (eq c)
  end.
Proof.
  intros W. unfold tlit. destruct t as [|c0 t0]; [cbn; split; [lia|left; lia]|]. set (t := c0 :: t0) in *. clearbody t.
  pose proof (dark_here k t) as D. pose proof (sp_le k t) as SL. pose proof (lead_le t) as LL.
  assert (SP : t = (if k then ws_prefix t else []) ++ skipn (length (if k then ws_prefix t else [])) t)
    by (destruct k; [apply ws_prefix_app|reflexivity]).
  set (sp := if k then ws_prefix t else []) in *. clearbody sp. cbv zeta.
  replace (if k then ws_prefix (c :: l) else []) with (@nil Z) by (destruct k; [cbn [ws_prefix]; now rewrite W|reflexivity]).
  cbn [length Nat.ltb Nat.leb]. rewrite tail_is_nil. cbn [negb skipn].
  set (rst := skipn (length sp) t) in *. clearbody rst.
  assert (TL : length t = (length sp + length rst)%nat) by (rewrite SP at 1; apply app_length).
  cbn [litmatch]. destruct rst as [|y rst].
  { cbn [snd fst]. rewrite app_nil_r. cbn [length] in *. split; [lia|left; lia]. }
  destruct (Z.eqb_spec y c) as [->|N].
  - destruct (D c rst eq_refl W) as [DL DA]. destruct (litmatch l rst) as [r ok] eqn:E.
    assert (RL : (length r <= length rst)%nat).
    { destruct (litmatch_prefix l rst) as [q Q]. rewrite E in Q. exact (prefix_len _ _ _ Q). }
    cbn [fst snd]. destruct ok; rewrite ?app_length; cbn [length] in *.
    + split; [reflexivity|]. split; [lia|exact DA].
    + unfold tfail. rewrite app_length. cbn [length]. split; [lia|]. right. eauto.
  - cbn [fst snd]. unfold tfail. rewrite app_length. cbn [length] in *. split; [lia|left; lia].
Qed.

Lemma tchar_dark c f t : isWS c = false ->
  match tchar c f t with
  | (Some _, rd, un) => un = [] /\ (lead t < length rd <= length t)%nat /\ darkAt t c
  | (None, rd, _) => (length rd <= length t)%nat /\ upto t (length rd) (eq c)
  end.
Proof.
  intros W. unfold tchar. destruct t as [|c0 t0]; [cbn; split; [lia|left; lia]|]. set (t := c0 :: t0) in *. clearbody t.
  rewrite W. cbn [andb]. pose proof (lead_le t) as LL. destruct (f =? SUGGEST_SKIP).
  - cbv zeta. destruct (headIs c _) eqn:E; [|cbn; split; [exact LL|left; unfold lead; lia]].
    apply headIs_cons in E. assert (D : darkAt t c) by (eexists; exact E). pose proof (darkAt_lt _ _ D).
    rewrite app_length. cbn [length]. unfold lead in *. split; [reflexivity|]. split; [lia|exact D].
  - destruct (headIs c t) eqn:E; [|cbn; split; [lia|left; lia]]. apply headIs_cons in E.
    destruct (dark_here false t c (tl t) E W) as [A B]. pose proof (darkAt_lt _ _ B). cbn in A |- *. split; [reflexivity|]. split; [lia|exact B].
Qed.

Lemma trange_dark lo hi f t : plainSpace t -> 32 < lo ->
  match trange lo hi f t with
  | (Some _, rd, un) => un = [] /\ (lead t < length rd <= length t)%nat /\ exists c, darkAt t c /\ lo <= c <= hi
  | (None, rd, _) => (length rd <= length t)%nat /\ (length rd <= S (lead t))%nat
  end.
Proof.
  intros P H. unfold trange. destruct t as [|c0 t0]; [cbn; lia|]. set (t := c0 :: t0) in *. clearbody t.
  pose proof (dark_here (f =? SUGGEST_SKIP) t) as D. pose proof (sp_le (f =? SUGGEST_SKIP) t) as SL. pose proof (lead_le t) as LL.
  assert (SP : t = (if f =? SUGGEST_SKIP then ws_prefix t else []) ++ skipn (length (if f =? SUGGEST_SKIP then ws_prefix t else [])) t)
    by (destruct (f =? SUGGEST_SKIP); [apply ws_prefix_app|reflexivity]).
  assert (WS : white (if f =? SUGGEST_SKIP then ws_prefix t else []))
    by (destruct (f =? SUGGEST_SKIP); [apply ws_prefix_white|constructor]).
  set (sp := if f =? SUGGEST_SKIP then ws_prefix t else []) in *. clearbody sp. cbv zeta.
  unfold plainSpace in P. unfold white in WS. rewrite Forall_forall in P, WS.
  rewrite find_idxp_none.
  2:{ intros c Hc. apply andb_false_iff. left. assert (c <= 32); [|lia]. apply P; [|now apply WS]. rewrite SP. apply in_or_app. now left. }
  set (rst := skipn (length sp) t) in *. clearbody rst.
  assert (TL : length t = (length sp + length rst)%nat) by (rewrite SP at 1; apply app_length).
  destruct rst as [|y rst]; [cbn; lia|]. destruct ((lo <=? y) && (y <=? hi)) eqn:E; [|cbn; lia].
  apply andb_true_iff in E as [E1 E2].
  assert (W : isWS y = false).
  { apply isWS_nIn. intros X. assert (y <= 32); [|lia]. apply P; [|exact X]. rewrite SP. apply in_or_app. right. now left. }
  destruct (D y rst eq_refl W) as [DL DA]. rewrite app_length. cbn [length] in *. split; [reflexivity|]. split; [lia|].
  exists y. split; [exact DA|lia].
Qed.

(** A literal in the class, on any text. *)
Definition litGood (c : Z) (t : list Z) (o : sres) : Prop :=
  match o with
  | Match _ u k _ => k = u /\ (lead t < u <= length t)%nat /\ darkAt t c
  | Fail k _ => (k <= length t)%nat /\ upto t k (eq c)
  | Amb _ => False
  end.

Lemma literal_dark g rec n r c l f t : literal r (c :: l) -> dark c ->
  exists o, semStep g rec n r f t = SOk o /\ litGood c t o.
Proof.
  intros L W. apply isWS_nIn in W. inversion L; subst; cbn [semStep]; eexists; (split; [reflexivity|]).
  - pose proof (tchar_dark c f t W) as H. destruct (tchar c f t) as [[[cs|] rd] un]; cbn [ofT litGood]; [|exact H].
    destruct H as (-> & B & D). cbn [length]. rewrite Nat.sub_0_r. auto.
  - pose proof (tlit_dark (skips f false) c l t W) as H. destruct (tlit (skips f false) (c :: l) t) as [[[cs|] rd] un]; cbn [ofT litGood]; [|exact H].
    destruct H as (-> & B & D). cbn [length]. rewrite Nat.sub_0_r. auto.
  - pose proof (tlit_dark (skips f true) c l t W) as H. destruct (tlit (skips f true) (c :: l) t) as [[[cs|] rd] un]; cbn [ofT litGood]; [|exact H].
    destruct H as (-> & B & D). cbn [length]. rewrite Nat.sub_0_r. auto.
Qed.

Lemma literal_first g r c l : literal r (c :: l) -> First g c r.
Proof. intros L. inversion L; subst; constructor. Qed.

Lemma litGood_good g r c l t o : literal r (c :: l) -> litGood c t o -> good g r t o.
Proof.
  intros L. pose proof (literal_first g _ _ _ L) as F. destruct o as [n u k st|k st|k]; cbn [litGood good]; [| |auto].
  - intros (-> & B & D). split; [lia|]. right. split; [lia|]. split; [eauto|now left].
  - intros (A & B). split; [exact A|]. eapply upto_mono; [exact B|]. now intros x <-.
Qed.

(** The close of a block, which is not allowed to skip. *)
Lemma literal_close g rec n r w t : literal r w -> w <> [] ->
  exists o, semStep g rec n r NOT_SKIP t = SOk o /\
  match o with
  | Match _ u k _ => k = u /\ u = length w /\ (u <= length t)%nat
  | Fail k _ => (k <= length w)%nat /\ (k <= length t)%nat
  | Amb _ => False
  end.
Proof.
  intros L NE. assert (T : match tlit false w t with
    | (Some _, rd, un) => un = [] /\ length rd = length w /\ (length rd <= length t)%nat
    | (None, rd, _) => (length rd <= length w)%nat /\ (length rd <= length t)%nat
    end).
  { unfold tlit. destruct t as [|c0 t0]; [cbn; lia|]. set (t := c0 :: t0) in *. clearbody t. cbv zeta.
    cbn [length Nat.ltb Nat.leb]. rewrite tail_is_nil. cbn [negb skipn app].
    destruct (litmatch_prefix w t) as [q Q]. pose proof (prefix_len _ _ _ Q) as PL.
    assert (LW : (length (fst (litmatch w t)) <= length w)%nat).
    { clear. revert t. induction w as [|x w IH]; intros [|y t]; cbn; try lia. specialize (IH t).
      destruct (y =? x); [|cbn; lia]. destruct (litmatch w t). cbn in *. lia. }
    destruct (snd (litmatch w t)) eqn:E; [|cbn; auto]. apply litmatch_ok in E as [E _]. rewrite E in *. auto. }
  inversion L; subst; cbn [semStep]; eexists; (split; [reflexivity|]).
  - clear T. unfold tchar. change (NOT_SKIP =? SUGGEST_SKIP) with false. destruct t as [|c0 t0]; [cbn; lia|].
    destruct (headIs c (c0 :: t0)); cbn; lia.
  - change (skips NOT_SKIP false) with false. destruct (tlit false w t) as [[[cs|] rd] un]; cbn [ofT]; [|exact T].
    destruct T as (-> & B & D). cbn [length]. rewrite Nat.sub_0_r. auto.
  - change (skips NOT_SKIP true) with false. destruct (tlit false w t) as [[[cs|] rd] un]; cbn [ofT]; [|exact T].
    destruct T as (-> & B & D). cbn [length]. rewrite Nat.sub_0_r. auto.
Qed.

Lemma range_good g b lo lu hi hu f t : plainSpace t -> 32 < lo ->
  good g (RRange b lo lu hi hu) t (ofT TChars b true (trange lo hi f t)).
Proof.
  intros P H. pose proof (trange_dark lo hi f t P H) as T. destruct (trange lo hi f t) as [[[cs|] rd] un]; cbn [ofT good].
  - destruct T as (-> & B & c & D & R). cbn [length]. rewrite Nat.sub_0_r. split; [lia|]. right. split; [lia|].
    split; [|now left]. exists c. split; [exact D|now constructor].
  - destruct T as [A B]. split; [exact A|now left].
Qed.

Lemma eof_good g b b' f t : good g (REOF b) t (ofT TEOF b' true (teof f t)).
Proof.
  unfold teof. pose proof (lead_le t) as L. pose proof (sp_le (f =? 1) t) as S. set (k := f =? 1) in *. clearbody k.
  assert (SP : t = (if k then ws_prefix t else []) ++ skipn (length (if k then ws_prefix t else [])) t)
    by (destruct k; [apply ws_prefix_app|reflexivity]).
  set (sp := if k then ws_prefix t else []) in *. clearbody sp. cbv zeta. destruct (skipn (length sp) t) as [|c r] eqn:E; cbn [ofT good tfail].
  - rewrite app_nil_r in SP. subst sp. cbn [length]. rewrite Nat.sub_0_r. split; [lia|]. left. split; [constructor|].
    split; [right; lia|left; lia].
  - split; [lia|left; lia].
Qed.

(* ---------------- compound rules ---------------- *)

Lemma plain_skipn p t : plainSpace t -> plainSpace (skipn p t).
Proof.
  unfold plainSpace. intros H. rewrite <- (firstn_skipn p t) in H. apply Forall_app in H. apply H.
Qed.

(** One layer of the conditions of [LL]; the parts belong to the class [cls]. *)
Inductive layer (g : rules_t) (cls : rule -> Prop) (dom : list Z -> Prop) : rule -> Prop :=
| la_literal r c l : literal r (c :: l) -> dark c -> layer g cls dom r
| la_range b lo lu hi hu : 32 < lo -> (forall t, dom t -> plainSpace t) -> layer g cls dom (RRange b lo lu hi hu)
| la_eof b : layer g cls dom (REOF b)
| la_ref b n r : lookup g n = Some r -> cls r -> layer g cls dom (RRef b n)
| la_group b r : cls r -> layer g cls dom (RGroup b r)
| la_option b r : cls r -> layer g cls dom (ROption b r)
| la_rep b r mn mx : cls r -> ~ Nullable g r -> apart (fun c => Tail g c r) (fun c => First g c r) -> layer g cls dom (RRep b r mn mx)
| la_choice b gs : (forall grp r, In grp gs -> In r grp -> cls r) ->
    ForallOrdPairs (fun r s => apart (fun c => First g c r) (fun c => First g c s)) (concat gs) ->
    (forall grp, In grp gs -> ForallOrdPairs (fun r s => ~ (Nullable g r /\ Nullable g s)) grp) ->
    (forall pre grp post r, gs = pre ++ grp :: post -> post <> [] -> In r grp -> ~ Nullable g r) ->
    layer g cls dom (RChoice b gs)
| la_concat b l : (forall r, In r l -> cls r) ->
    (forall pre r mid s post, l = pre ++ r :: mid ++ s :: post -> (forall x, In x mid -> Nullable g x) ->
       apart (fun c => Tail g c r) (fun c => First g c s)) ->
    (forall pre r s post, l = pre ++ r :: s :: post -> Looks g r -> post = [] \/ ~ Nullable g s) ->
    layer g cls dom (RConcat b l)
| la_block b o (v : bool) cl c l w : literal o (c :: l) -> dark c -> literal cl w -> w <> [] ->
    (v = true -> length w = 1%nat) -> layer g cls dom (RBlock b o v cl None []).

Lemma ll_layer g r : LLs g -> LL g r -> layer g (LL g) plainSpace r.
Proof.
  intros HG H. destruct H; [eapply la_literal|apply la_range|apply la_eof|eapply la_ref|apply la_group|apply la_option|apply la_rep|apply la_choice|apply la_concat|eapply la_block]; eauto.
Qed.

Section Step.
(** The class of rules and the texts on which they are good. *)
Variables (g : rules_t) (rec : semT) (cls : rule -> Prop) (dom : list Z -> Prop).
Hypothesis HD : forall p t, dom t -> dom (skipn p t).
Hypothesis HR : forall r f t, cls r -> dom t -> goodOut g r t (rec r f t).
Hypothesis HT : forall r f t, rec r f t = SFuel \/ exists n rec', rec r f t = semStep g rec' n r f t.

Lemma rec_at r f p t : cls r -> dom t -> goodOut g r (skipn p t) (rec r f (skipn p t)).
Proof. intros H P. apply HR; [exact H|now apply HD]. Qed.

Lemma skipn_add {A} p u (t : list A) : skipn u (skipn p t) = skipn (p + u) t.
Proof. revert t. induction p as [|p IH]; intros t; [reflexivity|]. destruct t; [now rewrite !skipn_nil|]. apply IH. Qed.

Definition chain (l : list rule) : Prop :=
  forall pre r s post, l = pre ++ r :: s :: post -> Looks g r ->
    apart (fun c => Tail g c r) (fun c => First g c s) /\ (post = [] \/ ~ Nullable g s).
Definition link (T : Z -> Prop) (l : list rule) : Prop :=
  match l with [] => True | s :: post => apart T (fun c => First g c s) /\ (post = [] \/ ~ Nullable g s) end.

Lemma chain_tail r l : chain (r :: l) -> chain l.
Proof. intros H pre x s post -> L. apply (H (r :: pre) x s post); [reflexivity|exact L]. Qed.
Lemma chain_link r l : chain (r :: l) -> Looks g r -> link (fun c => Tail g c r) l.
Proof. intros H L. destruct l as [|s post]; [exact I|]. exact (H [] r s post eq_refl L). Qed.

Lemma nu_cons b r l : Nullable g r -> Nullable g (RConcat b l) -> Nullable g (RConcat b (r :: l)).
Proof.
  intros H N. constructor. inversion N as [| | | | | | | |b' l' N']; subst. intros x [<-|X]; [exact H|now apply N'].
Qed.
Lemma nu_all b l x : Nullable g (RConcat b l) -> In x l -> Nullable g x.
Proof. intros N. inversion N as [| | | | | | | |b' l' N']; subst. apply N'. Qed.
Lemma fi_head b c r l : First g c r -> First g c (RConcat b (r :: l)).
Proof. intros H. apply (fi_concat g c b [] r l); [intros x []|exact H]. Qed.
Lemma fi_skip b c r l : Nullable g r -> First g c (RConcat b l) -> First g c (RConcat b (r :: l)).
Proof.
  intros N H. remember (RConcat b l) as q eqn:Q. destruct H; try discriminate. injection Q as -> <-.
  apply (fi_concat g c b (r :: pre) r0 post); [|assumption]. intros x [<-|X]; auto.
Qed.
Lemma ta_skip b c r l : Tail g c (RConcat b l) -> Tail g c (RConcat b (r :: l)) \/ (Nullable g (RConcat b l) /\ First g c (RConcat b l)).
Proof.
  intros H. remember (RConcat b l) as q eqn:Q. destruct H; try discriminate; [subst; now right|]. injection Q as -> <-. left.
  apply (ta_concat g c b (r :: pre) r0 post); assumption.
Qed.
Lemma ta_first b c r l : Nullable g (RConcat b l) -> First g c (RConcat b l) -> Tail g c (RConcat b (r :: l)).
Proof.
  intros N H. remember (RConcat b l) as q eqn:Q. destruct H; try discriminate. injection Q as -> <-.
  apply (ta_concat g c b (r :: pre) r0 post).
  - intros x X. apply (nu_all _ _ x N). apply in_or_app. right. now right.
  - apply ta_nullable; [|assumption]. apply (nu_all _ _ r0 N). apply in_or_app. right. now left.
Qed.
Lemma ta_skip' b c r l : Tail g c (RConcat b l) -> Tail g c (RConcat b (r :: l)).
Proof. intros H. destruct (ta_skip b c r l H) as [X|[N F]]; [exact X|now apply ta_first]. Qed.
Lemma ta_head b c r l : Nullable g (RConcat b l) -> Tail g c r -> Tail g c (RConcat b (r :: l)).
Proof. intros N H. apply (ta_concat g c b [] r l); [|exact H]. intros x X. now apply (nu_all _ _ x N). Qed.
Lemma lo_skip b r l : l <> [] -> Looks g (RConcat b l) -> Looks g (RConcat b (r :: l)).
Proof.
  intros NE H. remember (RConcat b l) as q eqn:Q. destruct H as [q N| | | | |b' pre r' L|]; try discriminate.
  - subst q. destruct (exists_last NE) as (pre & x & ->). apply (lo_concat g b (r :: pre) x). apply lo_nullable.
    apply (nu_all _ _ x N). apply in_or_app. right. now left.
  - injection Q as -> <-. apply (lo_concat g b (r :: pre) r'). exact L.
Qed.

Definition seqGood (b : rbase) (rules : list rule) (T : Z -> Prop) (t : list Z) (p m : nat) (x : sout sres) : Prop :=
  match x with
  | SUnsafe => False
  | SFuel => True
  | SOk (Fail k _) => (p <= k <= length t)%nat /\ upto (skipn p t) (k - p) (fun c => T c \/ First g c (RConcat b rules))
  | SOk (Match _ u k _) =>
    (p <= u <= k)%nat /\ (k <= length t)%nat /\
    ((Nullable g (RConcat b rules) /\ (u = p \/ (u = length t /\ lead (skipn p t) = length (skipn p t))) /\
      upto (skipn p t) (k - p) (fun c => T c \/ First g c (RConcat b rules)) /\ (rules = [] -> k = m)) \/
     ((p + lead (skipn p t) < u)%nat /\ (exists c, darkAt (skipn p t) c /\ First g c (RConcat b rules)) /\
      (k = u \/ (rules <> [] /\ Looks g (RConcat b rules) /\ upto (skipn u t) (k - u) (fun c => Tail g c (RConcat b rules))))))
  | SOk (Amb _) => False
  end.

Lemma seq_good b t : dom t -> forall rules T f p m st kids,
  (forall r, In r rules -> cls r) -> chain rules -> (p <= m <= length t)%nat ->
  upto (skipn p t) (m - p) T -> (m = p \/ link T rules) ->
  seqGood b rules T t p m (semSeq rec b rules t f p m st kids).
Proof.
  intros HP. induction rules as [|r rules IH]; intros T f p m st kids HL HC B U K.
  - cbn. split; [lia|]. split; [lia|]. left. split; [constructor; intros x []|]. split; [now left|].
    split; [|reflexivity]. eapply upto_mono; [exact U|]. now left.
  - cbn [semSeq]. pose proof (rec_at r f p t (HL r (or_introl eq_refl)) HP) as G.
    assert (TL : length (skipn p t) = (length t - p)%nat) by apply skipn_length.
    destruct (rec r f (skipn p t)) as [[n u k s|k s|k]| |]; cbn [goodOut good sbind] in G |- *; [|  |destruct G|destruct G|exact I].
    2:{ (* the element fails *) destruct G as [GL GU]. cbn [seqGood]. split; [lia|].
        replace (Nat.max m (p + k) - p)%nat with (Nat.max (m - p) k) by lia.
        apply (upto_mono _ _ _ _ (upto_max _ _ _ _ _ U GU)). intros c [X|X]; [now left|right; now apply fi_head]. }
    destruct G as [GL [(N & E & GU)|(D & (c & DA & FC) & GK)]].
    + (* it uses no dark rune *)
      assert (SF : safe (isLast rules) p m u k = true).
      { unfold safe. destruct (Nat.leb_spec (m - p) k) as [|Lt]; [reflexivity|]. cbn [orb].
        destruct K as [->|[_ K]]; [lia|]. destruct K as [->|K]; [|contradiction]. cbn [isLast andb]. apply Nat.leb_le.
        destruct E as [->|[E _]]; lia. }
      rewrite SF. destruct E as [->|[E EL]].
      * rewrite Nat.add_0_r.
        assert (U' : upto (skipn p t) (Nat.max m (p + k) - p) (fun c => T c \/ First g c r)).
        { replace (Nat.max m (p + k) - p)%nat with (Nat.max (m - p) k) by lia. now apply upto_max. }
        destruct K as [->|[_ K]].
        -- (* nothing was pending *)
           assert (LK : link (fun c => First g c r) rules).
           { pose proof (chain_link _ _ HC (lo_nullable _ _ N)) as LK. destruct rules as [|s1 rules1]; [exact I|].
             destruct LK as [LA LB]. split; [|exact LB]. intros c F. apply LA. now apply ta_nullable. }
           assert (U1 : upto (skipn p t) (Nat.max p (p + k) - p) (fun c => First g c r)).
           { replace (Nat.max p (p + k) - p)%nat with k by lia. exact GU. }
           specialize (IH (fun c => First g c r) (nextMode f n s) p (Nat.max p (p + k)) (st && s) (n :: kids)
             (fun x X => HL x (or_intror X)) (chain_tail _ _ HC) ltac:(lia) U1 (or_intror LK)).
           assert (FI : forall c, First g c r \/ First g c (RConcat b rules) -> T c \/ First g c (RConcat b (r :: rules)))
             by (intros c [X|X]; right; [now apply fi_head|now apply fi_skip]).
           destruct (semSeq rec b rules t (nextMode f n s) p (Nat.max p (p + k)) (st && s) (n :: kids)) as [[n' u' k' s'|k' s'|k']| |];
             cbn [seqGood] in IH |- *; [| |exact IH..].
           ++ destruct IH as (I1 & I2 & [(IN & IE & IU & IK)|(ID & (c & DA & FC) & IK)]); (split; [exact I1|]; split; [exact I2|]).
              ** left. split; [now apply nu_cons|]. split; [exact IE|]. split; [|discriminate]. exact (upto_mono _ _ _ _ IU FI).
              ** right. split; [exact ID|]. split; [exists c; split; [exact DA|now apply fi_skip]|].
                 destruct IK as [IK|(NE & LO & TA)]; [now left|right]. split; [discriminate|]. split; [now apply lo_skip|].
                 eapply upto_mono; [exact TA|]. intros x. apply ta_skip'.
           ++ destruct IH as [I1 IU]. split; [exact I1|]. exact (upto_mono _ _ _ _ IU FI).
        -- (* the last element *)
           destruct K as [->|K]; [|contradiction]. cbn [semSeq seqGood]. split; [lia|]. split; [lia|]. left.
           split; [constructor; intros x [<-|[]]; exact N|]. split; [now left|]. split; [|discriminate].
           apply (upto_mono _ _ _ _ U'). intros c [X|X]; [now left|right; now apply fi_head].
      * (* everything is white and has been used *)
        assert (PE : (p + u = length t)%nat) by lia. assert (ME : Nat.max m (p + k) = (p + u)%nat) by lia. rewrite ME.
        specialize (IH (fun _ => False) (nextMode f n s) (p + u)%nat (p + u)%nat (st && s) (n :: kids)
             (fun x X => HL x (or_intror X)) (chain_tail _ _ HC) ltac:(lia) ltac:(left; lia) (or_introl eq_refl)).
        destruct (semSeq rec b rules t (nextMode f n s) (p + u) (p + u) (st && s) (n :: kids)) as [[n' u' k' s'|k' s'|k']| |];
          cbn [seqGood] in IH |- *; [| |exact IH..].
        -- destruct IH as (I1 & I2 & [(IN & _)|(ID & _)]); [|lia]. split; [lia|]. split; [lia|]. left.
           split; [now apply nu_cons|]. split; [right; lia|]. split; [left; lia|discriminate].
        -- destruct IH as [I1 _]. split; [lia|left; lia].
    + (* it uses a dark rune *)
      assert (MK : (m - p <= k)%nat).
      { destruct (Nat.le_gt_cases (m - p) k) as [|Lt]; [assumption|exfalso]. destruct U as [U|(c' & DA' & X)]; [lia|].
        rewrite (darkAt_fun _ _ _ DA' DA) in X. destruct K as [->|K]; [lia|]. exact (proj1 K c X FC). }
      assert (SF : safe (isLast rules) p m u k = true) by (unfold safe; apply Nat.leb_le in MK; rewrite MK; reflexivity).
      rewrite SF. assert (ME : Nat.max m (p + k) = (p + k)%nat) by lia. rewrite ME. rewrite skipn_add in GK.
      assert (U1 : upto (skipn (p + u) t) (p + k - (p + u)) (fun c => Tail g c r)).
      { replace (p + k - (p + u))%nat with (k - u)%nat by lia. destruct GK as [->|[_ GK]]; [left; lia|exact GK]. }
      assert (LK : (p + k)%nat = (p + u)%nat \/ link (fun c => Tail g c r) rules).
      { destruct GK as [->|[GK _]]; [now left|right]. now apply chain_link. }
      specialize (IH (fun c => Tail g c r) (nextMode f n s) (p + u)%nat (p + k)%nat (st && s) (n :: kids)
             (fun x X => HL x (or_intror X)) (chain_tail _ _ HC) ltac:(lia) U1 LK).
      assert (FD : exists c, darkAt (skipn p t) c /\ First g c (RConcat b (r :: rules))) by (exists c; split; [exact DA|now apply fi_head]).
      destruct (semSeq rec b rules t (nextMode f n s) (p + u) (p + k) (st && s) (n :: kids)) as [[n' u' k' s'|k' s'|k']| |];
          cbn [seqGood] in IH |- *; [| |exact IH..].
      * destruct IH as (I1 & I2 & IX). split; [lia|]. split; [exact I2|]. right. split; [lia|]. split; [exact FD|].
        destruct IX as [(IN & IE & IU & IK)|(ID & _ & IK)].
        -- destruct IE as [->|[-> _]]; [|left; lia].
           destruct rules as [|s1 rules1].
           { rewrite (IK eq_refl). destruct GK as [->|[GK GU]]; [left; lia|right]. split; [discriminate|]. split; [apply (lo_concat g b [] r); exact GK|].
             apply (upto_mono _ _ _ _ U1). intros x X. apply ta_head; [constructor; intros y []|exact X]. }
           right. split; [discriminate|]. split; [apply lo_skip; [discriminate|now apply lo_nullable]|].
           apply (upto_mono _ _ _ _ IU). intros x [X|X]; [now apply ta_head|now apply ta_first].
        -- destruct IK as [->|(NE & LO & TA)]; [now left|right]. split; [discriminate|]. split; [now apply lo_skip|].
           eapply upto_mono; [exact TA|]. intros x. apply ta_skip'.
      * destruct IH as [I1 _]. split; [lia|]. right. destruct FD as (x & X & Y). exists x. auto.
Qed.

Lemma repEnd_good b r mn mx t kids p m st : (p <= m <= length t)%nat ->
  (kids = [] /\ p = 0%nat /\ upto t m (fun c => First g c r)) \/
  (kids <> [] /\ (lead t < p)%nat /\ (exists c, darkAt t c /\ First g c r) /\
   upto (skipn p t) (m - p) (fun c => First g c r \/ Tail g c r)) ->
  good g (RRep b r mn mx) t (repEnd b mn kids p m st).
Proof.
  intros B H. unfold repEnd. destruct (Z.ltb_spec (Z.of_nat (length kids)) mn) as [L|L]; cbn [good].
  - split; [lia|]. destruct H as [(_ & _ & U)|(_ & _ & (c & D & F) & _)].
    + apply (upto_mono _ _ _ _ U). intros c. apply fi_rep.
    + right. exists c. split; [exact D|now apply fi_rep].
  - split; [lia|]. destruct H as [(-> & -> & U)|(_ & P & (c & D & F) & U)].
    + left. split; [apply nu_rep; cbn in L; lia|]. split; [now left|]. apply (upto_mono _ _ _ _ U). intros c. apply fi_rep.
    + right. split; [exact P|]. split; [exists c; split; [exact D|now apply fi_rep]|]. right. split; [apply lo_rep|].
      apply (upto_mono _ _ _ _ U). intros x [X|X]; [now apply ta_rep_first|now apply ta_rep].
Qed.

Lemma rep_good b r mn mx t f : dom t -> cls r -> ~ Nullable g r -> apart (fun c => Tail g c r) (fun c => First g c r) ->
  forall fuel p m st kids, (p <= m <= length t)%nat -> upto (skipn p t) (m - p) (fun c => Tail g c r) ->
  (kids = [] /\ p = 0%nat /\ m = 0%nat) \/ (kids <> [] /\ (lead t < p)%nat /\ (exists c, darkAt t c /\ First g c r)) ->
  goodOut g (RRep b r mn mx) t (semRep rec fuel b r mn mx t f p m st kids).
Proof.
  intros HP HL HN HA. induction fuel as [|fuel IH]; intros p m st kids B U S; [exact I|]. cbn [semRep].
  assert (TL : length (skipn p t) = (length t - p)%nat) by apply skipn_length.
  destruct (skipn p t) as [|c0 r0] eqn:E.
  { cbn [goodOut]. cbn in TL. apply repEnd_good; [lia|]. destruct S as [(-> & -> & ->)|(K & P & F)]; [left|right].
    - repeat split. left. lia.
    - repeat split; try assumption. left. lia. }
  rewrite <- E in *. pose proof (rec_at r f p t HL HP) as G. clear E c0 r0.
  destruct (rec r f (skipn p t)) as [[n u k s|k s|k]| |]; cbn [goodOut good sbind] in G |- *; [| |destruct G|destruct G|exact I].
  - destruct G as [GL [(N & _)|(D & (c & DA & FC) & GK)]]; [contradiction|].
    assert (MK : (m - p <= k)%nat).
    { destruct (Nat.le_gt_cases (m - p) k) as [|Lt]; [assumption|exfalso]. destruct U as [U|(c' & DA' & X)]; [lia|].
      rewrite (darkAt_fun _ _ _ DA' DA) in X. exact (HA c X FC). }
    set (full := (mx >? 0) && (Z.of_nat (Datatypes.S (length kids)) =? mx)). clearbody full. rewrite skipn_add in GK.
    assert (SF : safe full p m u k = true) by (unfold safe; apply Nat.leb_le in MK; rewrite MK; reflexivity).
    rewrite SF. assert (ME : Nat.max m (p + k) = (p + k)%nat) by lia. rewrite ME.
    assert (U1 : upto (skipn (p + u) t) (p + k - (p + u)) (fun c => Tail g c r)).
    { replace (p + k - (p + u))%nat with (k - u)%nat by lia. destruct GK as [->|[_ GK]]; [left; lia|exact GK]. }
    assert (S1 : (lead t < p + u)%nat /\ exists c, darkAt t c /\ First g c r).
    { destruct S as [(-> & -> & ->)|(_ & P & F)]; [cbn [skipn] in *; split; [lia|eauto]|split; [lia|exact F]]. }
    destruct full.
    + cbn [goodOut]. apply repEnd_good; [lia|]. right. split; [discriminate|]. split; [apply S1|]. split; [apply S1|].
      apply (upto_mono _ _ _ _ U1). now right.
    + apply IH; [lia|exact U1|]. right. split; [discriminate|]. exact S1.
  - cbn [goodOut]. destruct G as [GL GU]. apply repEnd_good; [lia|]. destruct S as [(-> & -> & ->)|(K & P & F)]; [left|right].
    + repeat split. cbn [skipn Nat.max Nat.add] in *. exact GU.
    + split; [exact K|]. split; [exact P|]. split; [exact F|].
      replace (Nat.max m (p + k) - p)%nat with (Nat.max k (m - p)) by lia. now apply upto_max.
Qed.

(* ---------------- choices ---------------- *)

(** The matches of a group: at most one without and at most one with dark runes. *)
Definition two (d : nat) (l : list (node * nat)) : Prop :=
  l = [] \/ (exists x, l = [x]) \/
  exists x y, (snd x <= d)%nat /\ (d < snd y)%nat /\ (l = [x; y] \/ l = [y; x]).

Lemma pick_two d l : two d l ->
  (l = [] /\ pick l = PNone) \/
  exists n u, In (n, u) l /\ pick l = POne n u /\ forall x, In x l -> (snd x <= u)%nat.
Proof.
  intros [->|[([n u] & ->)|([n u] & [n' u'] & A & B & [-> | ->])]]; cbn [snd] in *.
  - now left.
  - right. exists n, u. split; [now left|]. unfold pick, longest. cbn [fold_right snd]. rewrite Nat.max_0_r. cbn [List.filter snd].
    rewrite Nat.eqb_refl. split; [reflexivity|]. intros x [<-|[]]. reflexivity.
  - right. exists n', u'. split; [right; now left|]. unfold pick, longest. cbn [fold_right snd]. rewrite Nat.max_0_r.
    replace (Nat.max u u') with u' by lia. cbn [List.filter snd]. rewrite Nat.eqb_refl. destruct (Nat.eqb_spec u u'); [lia|].
    cbn [earlyTie]. destruct (Nat.ltb_spec u' u); [lia|]. destruct (Nat.eqb_spec u' u); [lia|]. split; [reflexivity|].
    intros x [<-|[<-|[]]]; cbn; lia.
  - right. exists n', u'. split; [now left|]. unfold pick, longest. cbn [fold_right snd]. rewrite Nat.max_0_r.
    replace (Nat.max u' u) with u' by lia. cbn [List.filter snd]. rewrite Nat.eqb_refl. destruct (Nat.eqb_spec u u'); [lia|].
    cbn [earlyTie]. destruct (Nat.ltb_spec u u'); [|lia]. split; [reflexivity|].
    intros x [<-|[<-|[]]]; cbn; lia.
Qed.

Fixpoint matches (l : list sres) : list (node * nat) :=
  match l with
  | [] => []
  | Match n u _ _ :: l' => (n, u) :: matches l'
  | _ :: l' => matches l'
  end.
Definition seen (o : sres) : nat := match o with Match _ _ k _ => k | Fail k _ => k | Amb k => k end.
Definition far (l : list sres) : nat := fold_right (fun o m => Nat.max (seen o) m) 0%nat l.

Lemma alts_good t f : dom t -> forall rules m st acc, (forall r, In r rules -> cls r) ->
  match semAlts rec rules t f m st acc with
  | SOk (ml, m', _) => exists outs, Forall2 (fun r o => good g r t o) rules outs /\ ml = rev acc ++ matches outs /\ m' = Nat.max m (far outs)
  | SUnsafe => False
  | SFuel => True
  end.
Proof.
  intros HP. induction rules as [|r rules IH]; intros m st acc HL; cbn [semAlts].
  - exists []. split; [constructor|]. cbn. rewrite app_nil_r. split; [reflexivity|lia].
  - pose proof (HR r f t (HL r (or_introl eq_refl)) HP) as G.
    destruct (rec r f t) as [[n u k s|k s|k]| |]; cbn [goodOut sbind] in G |- *; [| |destruct G|destruct G|exact I].
    + specialize (IH (Nat.max m k) (st && s) ((n, u) :: acc) (fun x X => HL x (or_intror X))).
      destruct (semAlts rec rules t f (Nat.max m k) (st && s) ((n, u) :: acc)) as [[[ml m'] st']| |]; [|exact IH..].
      destruct IH as (outs & F & -> & ->). exists (Match n u k s :: outs). split; [now constructor|]. split.
      * cbn [rev matches]. now rewrite <- app_assoc.
      * cbn [far fold_right seen]. fold (far outs). lia.
    + specialize (IH (Nat.max m k) (st && s) acc (fun x X => HL x (or_intror X))).
      destruct (semAlts rec rules t f (Nat.max m k) (st && s) acc) as [[[ml m'] st']| |]; [|exact IH..].
      destruct IH as (outs & F & -> & ->). exists (Fail k s :: outs). split; [now constructor|]. split; [reflexivity|].
      cbn [far fold_right seen]. fold (far outs). lia.
Qed.

Lemma in_matches n u outs : In (n, u) (matches outs) -> exists k s, In (Match n u k s) outs.
Proof.
  induction outs as [|o outs IH]; cbn; [easy|]. destruct o as [n' u' k' s'|k' s'|k'].
  - intros [[= -> ->]|H]; [eauto|]. destruct (IH H) as (k & s & X). eauto.
  - intros H. destruct (IH H) as (k & s & X). eauto.
  - intros H. destruct (IH H) as (k & s & X). eauto.
Qed.
Lemma matches_in n u k s outs : In (Match n u k s) outs -> In (n, u) (matches outs).
Proof.
  induction outs as [|o outs IH]; cbn; [easy|]. intros [->|H]; [now left|]. destruct o; [right|..]; auto.
Qed.

Lemma Forall2_In {A B} (P : A -> B -> Prop) l m y : Forall2 P l m -> In y m -> exists x, In x l /\ P x y.
Proof. induction 1 as [|a b l m H F IH]; [easy|]. intros [<-|X]; [exists a; split; [now left|exact H]|]. destruct (IH X) as (x & I & Q). exists x. split; [now right|exact Q]. Qed.

Lemma two_good t rules outs : Forall2 (fun r o => good g r t o) rules outs ->
  ForallOrdPairs (fun r s => apart (fun c => First g c r) (fun c => First g c s)) rules ->
  ForallOrdPairs (fun r s => ~ (Nullable g r /\ Nullable g s)) rules -> two (lead t) (matches outs).
Proof.
  induction 1 as [|r o rules outs G F IH]; intros A N; [now left|].
  inversion A as [|? ? A1 A2]; subst. inversion N as [|? ? N1 N2]; subst. specialize (IH A2 N2). rewrite Forall_forall in A1, N1.
  destruct o as [n u k s|k s|k]; cbn [matches]; [|exact IH|destruct G].
  destruct G as [GL [(NU & E & _)|(D & (c & DA & FC) & _)]].
  - (* others are dark *)
    assert (O : forall x, In x (matches outs) -> (lead t < snd x)%nat).
    { intros [n' u'] X. apply in_matches in X as (k' & s' & X). destruct (Forall2_In _ _ _ _ F X) as (r' & R & [_ [(NU' & _)|(D & _)]]); [|exact D].
      exfalso. apply (N1 r' R). auto. }
    assert (UL : (u <= lead t)%nat) by lia.
    destruct IH as [->|[(x & E1)|(x & y & X & Y & [E1|E1])]]; rewrite ?E1 in *.
    + right. left. eauto.
    + right. right. exists (n, u), x. split; [exact UL|]. split; [apply O; now left|now left].
    + specialize (O x (or_introl eq_refl)). lia.
    + specialize (O x (or_intror (or_introl eq_refl))). lia.
  - assert (O : forall x, In x (matches outs) -> (snd x <= lead t)%nat).
    { intros [n' u'] X. apply in_matches in X as (k' & s' & X). destruct (Forall2_In _ _ _ _ F X) as (r' & R & [_ [(_ & E & _)|(_ & (c' & DA' & FC') & _)]]); [cbn; lia|].
      exfalso. rewrite (darkAt_fun _ _ _ DA' DA) in FC'. exact (A1 r' R c FC FC'). }
    destruct IH as [->|[(x & E1)|(x & y & X & Y & [E1|E1])]]; rewrite ?E1 in *.
    + right. left. eauto.
    + right. right. exists x, (n, u). split; [apply O; now left|]. split; [exact D|now right].
    + specialize (O y (or_intror (or_introl eq_refl))). lia.
    + specialize (O y (or_introl eq_refl)). lia.
Qed.

Lemma FOP_split {A} (R : A -> A -> Prop) a x b : ForallOrdPairs R (a ++ x :: b) ->
  (forall s, In s a -> R s x) /\ (forall s, In s b -> R x s).
Proof.
  induction a as [|y a IH]; cbn [app]; intros H; inversion H as [|? ? H1 H2]; subst; rewrite Forall_forall in H1.
  - split; [easy|exact H1].
  - destruct (IH H2) as [X Y]. split; [|exact Y]. intros s [<-|I]; [apply H1; apply in_or_app; right; now left|now apply X].
Qed.
Lemma FOP_app {A} (R : A -> A -> Prop) a b : ForallOrdPairs R (a ++ b) -> ForallOrdPairs R a /\ ForallOrdPairs R b.
Proof.
  induction a as [|y a IH]; cbn [app]; intros H; [split; [constructor|exact H]|]. inversion H as [|? ? H1 H2]; subst.
  destruct (IH H2) as [X Y]. split; [|exact Y]. constructor; [|exact X]. apply Forall_app in H1. apply H1.
Qed.

(** Alternatives that use no dark rune. *)
Lemma far_blank t rules outs (P : Z -> Prop) : Forall2 (fun r o => good g r t o) rules outs ->
  (forall x, In x (matches outs) -> (snd x <= lead t)%nat) -> (forall r c, In r rules -> First g c r -> P c) ->
  upto t (far outs) P /\ (far outs <= length t)%nat.
Proof.
  induction 1 as [|r o rules outs G F IH]; intros M HP; [split; [left|]; cbn; lia|].
  destruct IH as [I1 I2].
  { intros x X. apply M. destruct o; [right|..]; exact X. }
  { intros x c X. apply (HP x c). now right. }
  assert (HPr : forall c, First g c r -> P c) by (intros c; apply HP; now left).
  cbn [far fold_right]. fold (far outs). destruct o as [n u k s|k s|k]; cbn [seen]; [| |destruct G].
  - destruct G as [GL [(_ & _ & U)|(D & _)]].
    + split; [|lia]. apply upto_max1; [exact (upto_mono _ _ _ _ U HPr)|exact I1].
    + specialize (M (n, u) (or_introl eq_refl)). cbn in M. lia.
  - destruct G as [GL U]. split; [|lia]. apply upto_max1; [exact (upto_mono _ _ _ _ U HPr)|exact I1].
Qed.

Lemma far_app a b : far (a ++ b) = Nat.max (far a) (far b).
Proof. induction a as [|o a IH]; cbn; [reflexivity|]. fold (far (a ++ b)) (far a). rewrite IH. lia. Qed.

Lemma Forall2_mid {A B} (P : A -> B -> Prop) l m1 y m2 : Forall2 P l (m1 ++ y :: m2) ->
  exists l1 x l2, l = l1 ++ x :: l2 /\ Forall2 P l1 m1 /\ P x y /\ Forall2 P l2 m2.
Proof.
  intros H. apply Forall2_app_inv_r in H as (l1 & l2 & H1 & H2 & ->). inversion H2; subst. eauto 10.
Qed.

Lemma far_near t c rules outs : Forall2 (fun r o => good g r t o) rules outs -> darkAt t c ->
  (forall r, In r rules -> ~ First g c r) -> (far outs <= S (lead t))%nat.
Proof.
  intros F D N.
  destruct (far_blank t rules outs (fun x => exists r, In r rules /\ First g x r) F) as [U _].
  - intros [n u] X. apply in_matches in X as (k & s & X). destruct (Forall2_In _ _ _ _ F X) as (r & R & [_ [(_ & E & _)|(_ & (c' & D' & FC) & _)]]).
    + cbn. lia.
    + rewrite (darkAt_fun _ _ _ D' D) in FC. now apply N in FC.
  - eauto.
  - destruct U as [U|(c' & D' & r & R & FC)]; [exact U|]. rewrite (darkAt_fun _ _ _ D' D) in FC. now apply N in FC.
Qed.

Lemma choice_good b t f : dom t -> forall groups done m st,
  (forall grp r, In grp groups -> In r grp -> cls r) ->
  ForallOrdPairs (fun r s => apart (fun c => First g c r) (fun c => First g c s)) (concat (done ++ groups)) ->
  (forall grp, In grp groups -> ForallOrdPairs (fun r s => ~ (Nullable g r /\ Nullable g s)) grp) ->
  (m <= length t)%nat -> upto t m (fun c => exists grp r, In grp done /\ In r grp /\ First g c r) ->
  goodOut g (RChoice b (done ++ groups)) t (semChoice rec b groups t f m st).
Proof.
  intros HP. induction groups as [|grp groups IH]; intros done m st HL HA HN B U; cbn [semChoice].
  - cbn [goodOut good]. split; [exact B|]. apply (upto_mono _ _ _ _ U). intros c (grp & r & I1 & I2 & F). rewrite app_nil_r.
    now apply (fi_choice g c b done grp r).
  - pose proof (alts_good t f HP grp m st [] (fun r R => HL grp r (or_introl eq_refl) R)) as AG.
    destruct (semAlts rec grp t f m st []) as [[[ml m'] st']| |]; cbn [sbind goodOut]; [|exact AG..].
    destruct AG as (outs & F & -> & ->). cbn [rev app]. pose proof HA as HA0. rewrite concat_app in HA0. cbn [concat] in HA0.
    assert (HAg : ForallOrdPairs (fun r s => apart (fun c => First g c r) (fun c => First g c s)) grp).
    { apply FOP_app in HA0 as [_ X]. apply FOP_app in X as [X _]. exact X. }
    pose proof (two_good t grp outs F HAg (HN grp (or_introl eq_refl))) as TW.
    assert (IG : In grp (done ++ grp :: groups)) by (apply in_or_app; right; now left).
    set (Q := fun c => exists grp' r, In grp' (done ++ [grp]) /\ In r grp' /\ First g c r).
    assert (UQ : upto t m Q).
    { apply (upto_mono _ _ _ _ U). intros c (grp' & r & I1 & I2 & X). exists grp', r. split; [apply in_or_app; now left|auto]. }
    assert (GQ : forall r c, In r grp -> First g c r -> Q c).
    { intros r c R X. exists grp, r. split; [apply in_or_app; right; now left|auto]. }
    destruct (pick_two _ _ TW) as [[ML ->]|(n & u & IN & -> & MX)].
    + destruct (far_blank t grp outs Q F) as [FU FL]; [rewrite ML; easy|exact GQ|].
      replace (done ++ grp :: groups) with ((done ++ [grp]) ++ groups) in * by (rewrite <- app_assoc; reflexivity).
      apply IH; [|exact HA| |lia|now apply upto_max1].
      * intros grp' r I1. apply HL. now right.
      * intros grp' I1. apply HN. now right.
    + cbn [goodOut good].
      apply in_matches in IN as (k & s & IN). apply in_split in IN as (o1 & o2 & ->).
      pose proof F as F0. apply Forall2_mid in F as (l1 & r & l2 & -> & F1 & G & F2).
      assert (IR : In r (l1 ++ r :: l2)) by (apply in_or_app; right; now left).
      destruct G as [GL [(NU & E & GU)|(D & (c & DA & FC) & GK)]].
      * destruct (far_blank t (l1 ++ r :: l2) _ Q F0) as [FU FL]; [intros x X; specialize (MX x X); lia|exact GQ|].
        pose proof (far_app o1 (Match n u k s :: o2)) as FA. cbn [far fold_right seen] in FA. fold (far o2) in FA.
        split; [lia|]. left. split; [exact (nu_choice g b _ _ r IG IR NU)|]. split; [exact E|].
        apply (upto_mono _ _ _ _ (upto_max1 _ _ _ _ UQ FU)). intros c (grp' & r' & I1 & I2 & X).
        apply (fi_choice g c b _ grp' r'); [|exact I2|exact X]. apply in_app_iff in I1 as [I1|[<-|[]]]; [apply in_or_app; now left|exact IG].
      * rewrite <- !app_assoc in HA0. cbn [app] in HA0. rewrite app_assoc in HA0. apply FOP_split in HA0 as [AB AA].
        assert (N1 : (far o1 <= S (lead t))%nat).
        { apply (far_near t c l1 o1 F1 DA). intros x X FX. apply (AB x (in_or_app _ _ _ (or_intror X)) c FX FC). }
        assert (N2 : (far o2 <= S (lead t))%nat).
        { apply (far_near t c l2 o2 F2 DA). intros x X FX. apply (AA x (in_or_app _ _ _ (or_introl X)) c FC FX). }
        assert (N0 : (m <= S (lead t))%nat).
        { destruct U as [U|(c' & D' & grp' & x & I1 & I2 & FX)]; [exact U|]. rewrite (darkAt_fun _ _ _ D' DA) in FX.
          exfalso. refine (AB x _ c FX FC). apply in_or_app. left. apply in_concat. eauto. }
        rewrite far_app. cbn [far fold_right seen]. fold (far o2).
        replace (Nat.max m (Nat.max (far o1) (Nat.max k (far o2)))) with k by lia.
        split; [exact GL|]. right. split; [exact D|]. split; [exists c; split; [exact DA|exact (fi_choice g c b _ _ r IG IR FC)]|].
        destruct GK as [GK|[LO GK]]; [now left|right]. split; [exact (lo_choice g b _ _ r IG IR LO)|].
        apply (upto_mono _ _ _ _ GK). intros x. exact (ta_choice g x b _ _ r IG IR).
Qed.

(* ---------------- blocks ---------------- *)

Lemma scan_good b o (v : bool) cl c w t on u0 : literal cl w -> w <> [] -> (v = true -> length w = 1%nat) ->
  darkAt t c -> First g c o -> (lead t < u0)%nat ->
  forall fuel p m, (u0 <= p <= m)%nat -> (m <= length t)%nat -> (m < p + length w)%nat ->
  goodOut g (RBlock b o v cl None []) t (semScan rec fuel b on u0 v cl None [] t p m).
Proof.
  intros L NE V D F U. assert (FB : exists c, darkAt t c /\ First g c (RBlock b o v cl None [])) by (exists c; split; [exact D|now constructor]).
  induction fuel as [|fuel IH]; intros p m B1 B2 B3; [exact I|]. cbn [semScan sbind].
  assert (TL : length (skipn p t) = (length t - p)%nat) by apply skipn_length.
  destruct (HT cl NOT_SKIP (skipn p t)) as [->|(n & rec' & ->)]; [exact I|].
  destruct (literal_close g rec' n cl w (skipn p t) L NE) as (y & -> & Y). cbn [sbind].
  destruct y as [nc u k s|k s|k]; [| |destruct Y].
  - destruct Y as (-> & EW & LE). destruct (Nat.leb_spec m (p + u)); [|lia]. cbn [goodOut good].
    split; [destruct v; lia|]. right. split; [destruct v; lia|]. split; [exact FB|].
    destruct v; [right|left; reflexivity]. split; [apply lo_block|]. left. specialize (V eq_refl). lia.
  - destruct Y as [Y1 Y2]. destruct (skipn p t) as [|c1 r1].
    + cbn [goodOut good]. split; [lia|right; exact FB].
    + cbn [length] in *. apply IH; lia.
Qed.

Lemma step_good n r f t : layer g cls dom r -> dom t -> goodOut g r t (semStep g rec n r f t).
Proof.
  intros HL HP. destruct HL.
  - destruct (literal_dark g rec n r c l f t H H0) as (o & -> & G). cbn [goodOut]. exact (litGood_good g r c l t o H G).
  - cbn [semStep goodOut]. apply range_good; auto.
  - cbn [semStep goodOut]. apply eof_good.
  - (* a reference *) cbn [semStep]. rewrite H. pose proof (HR r f t H0 HP) as G.
    destruct (rec r f t) as [[nd u k s|k s|k]| |]; cbn [sbind goodOut good] in G |- *; [| |exact G..].
    + destruct G as [GL [(N & E & U)|(D & (c & DA & FC) & GK)]]; (split; [exact GL|]).
      * left. split; [now apply (nu_ref g b n0 r)|]. split; [exact E|]. apply (upto_mono _ _ _ _ U). intros c. now apply fi_ref.
      * right. split; [exact D|]. split; [exists c; split; [exact DA|now apply (fi_ref g c b n0 r)]|].
        destruct GK as [GK|[LO GK]]; [now left|right]. split; [now apply (lo_ref g b n0 r)|]. apply (upto_mono _ _ _ _ GK). intros x. now apply ta_ref.
    + destruct G as [GL U]. split; [exact GL|]. apply (upto_mono _ _ _ _ U). intros c. now apply fi_ref.
  - (* a group *) cbn [semStep]. pose proof (HR r f t H HP) as G.
    destruct (rec r f t) as [[nd u k s|k s|k]| |]; cbn [sbind goodOut good] in G |- *; [| |destruct G|exact G..].
    + destruct G as [GL [(N & E & U)|(D & (c & DA & FC) & GK)]]; (split; [exact GL|]).
      * left. split; [now apply nu_group|]. split; [exact E|]. apply (upto_mono _ _ _ _ U). intros c. now apply fi_group.
      * right. split; [exact D|]. split; [exists c; split; [exact DA|now apply fi_group]|].
        destruct GK as [GK|[LO GK]]; [now left|right]. split; [now apply lo_group|]. apply (upto_mono _ _ _ _ GK). intros x. now apply ta_group.
    + destruct G as [GL U]. split; [exact GL|]. apply (upto_mono _ _ _ _ U). intros c. now apply fi_group.
  - (* an option *) cbn [semStep]. pose proof (HR r f t H HP) as G.
    destruct (rec r f t) as [[nd u k s|k s|k]| |]; cbn [sbind goodOut good] in G |- *; [| |destruct G|exact G..].
    + destruct G as [GL [(N & E & U)|(D & (c & DA & FC) & GK)]]; (split; [exact GL|]).
      * left. split; [apply nu_option|]. split; [exact E|]. apply (upto_mono _ _ _ _ U). intros c. now apply fi_option.
      * right. split; [exact D|]. split; [exists c; split; [exact DA|now apply fi_option]|].
        destruct GK as [GK|[LO GK]]; [now left|right]. split; [apply lo_nullable, nu_option|]. apply (upto_mono _ _ _ _ GK). intros x. now apply ta_option.
    + destruct G as [GL U]. split; [lia|]. left. split; [apply nu_option|]. split; [now left|]. apply (upto_mono _ _ _ _ U). intros c. now apply fi_option.
  - (* a repetition *) cbn [semStep]. apply rep_good; try assumption; [lia|left; lia|now left].
  - (* a choice *) cbn [semStep]. apply (choice_good b t f HP gs [] 0%nat true); try assumption; [lia|left; lia].
  - (* a concatenation *) cbn [semStep].
    assert (HC : chain l).
    { intros pre r s post E L. split; [|exact (H1 pre r s post E L)]. exact (H0 pre r [] s post E (fun x X => match X with end)). }
    pose proof (seq_good b t HP l (fun _ => False) f 0%nat 0%nat true [] H HC ltac:(lia) ltac:(left; lia) (or_introl eq_refl)) as G.
    destruct (semSeq rec b l t f 0 0 true []) as [[nd u k s|k s|k]| |]; cbn [seqGood goodOut good skipn] in G |- *; [| |exact G..].
    + rewrite !Nat.sub_0_r in G. destruct G as (G1 & G2 & [(N & E & U & _)|(D & FD & GK)]); (split; [lia|]).
      * left. split; [exact N|]. split; [exact E|]. apply (upto_mono _ _ _ _ U). now intros c [[]|X].
      * right. split; [exact D|]. split; [exact FD|]. destruct GK as [GK|(_ & LO & GK)]; [now left|right; auto].
    + rewrite Nat.sub_0_r in G. destruct G as [G U]. split; [lia|]. apply (upto_mono _ _ _ _ U). now intros c [[]|X].
  - (* a block *) cbn [semStep]. unfold semBlock. destruct (HT o f t) as [->|(n' & rec' & ->)]; [exact I|].
    destruct (literal_dark g rec' n' o c l f t H H0) as (y & -> & G). cbn [sbind]. pose proof (literal_first g _ _ _ H) as F.
    destruct y as [on u k s|k s|k]; cbn [litGood] in G; [| |destruct G].
    + destruct G as (-> & B & D). rewrite Nat.eqb_refl. assert (1 <= length w)%nat by (destruct w; [congruence|cbn; lia]).
      apply (scan_good b o v cl c w t on u H1 H2 H3 D F); lia.
    + destruct G as [B U]. cbn [goodOut good]. split; [exact B|]. apply (upto_mono _ _ _ _ U). intros x <-. now constructor.
Qed.

End Step.

Theorem sem_good g : LLs g -> forall fuel r f t, LL g r -> plainSpace t -> goodOut g r t (sem fuel g r f t).
Proof.
  intros HG. induction fuel as [|fuel IH]; intros r f t HL HP; [exact I|]. cbn [sem].
  apply (step_good g (sem fuel g) (LL g) plainSpace plain_skipn IH); [|now apply ll_layer|exact HP].
  intros r' f' t'. destruct fuel as [|fuel']; [now left|right]. exists (S fuel'), (sem fuel' g). reflexivity.
Qed.
