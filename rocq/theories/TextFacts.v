(** Evaluation depends on the remaining text only, not on how the stream came to
    hold it: two streams with the same remaining text give the same tree up to
    positions, the same CharsRead, CharsUnused and Sticky, and are left with the
    same remaining text. *)
From Verif Require Import Base Stream StreamFacts CallFacts Node Rule SpecStream SpecRule TermFacts TermSpec
  EvalInv SpecEval SemFacts.

Definition req (a b : result) : Prop :=
  option_map erase (r_node a) = option_map erase (r_node b) /\
  r_read a = r_read b /\ r_unused a = r_unused b /\ r_sticky a = r_sticky b.

Definition both {A} (P : A -> A -> Prop) (x y : outcome A) : Prop :=
  match x, y with
  | Ok a, Ok b => P a b
  | Panic, Panic => True
  | OutOfFuel, OutOfFuel => True
  | _, _ => False
  end.

Definition walk (s t s' t' : stream) : Prop :=
  exists n, (n <= length (rest s))%nat /\ moves n s s' /\ moves n t t'.

Definition stepEq (s t : stream) (x y : result * stream) : Prop :=
  req (fst x) (fst y) /\ walk s t (snd x) (snd y).

Definition textRec (rec : evalT) : Prop :=
  forall r f s t, wfRule r -> clean (rest s) -> rest s = rest t -> both (stepEq s t) (rec r s f) (rec r t f).

Lemma walk_rest s t s' t' : rest s = rest t -> walk s t s' t' -> rest s' = rest t'.
Proof. intros E (n & _ & M & M'). now rewrite (moves_rest _ _ _ M), (moves_rest _ _ _ M'), E. Qed.
Lemma walk_trans s t s1 t1 s2 t2 : walk s t s1 t1 -> walk s1 t1 s2 t2 -> walk s t s2 t2.
Proof.
  intros (n & L & M & M') (m & L2 & M2 & M2'). exists (n + m)%nat. rewrite (moves_rest _ _ _ M), skipn_length in L2.
  split; [lia|]. split; eapply moves_trans; eauto.
Qed.
Lemma walk_refl s t : walk s t s t.
Proof. exists O. split; [lia|]. split; apply moves_refl. Qed.
Lemma walk_clean s t s' t' : walk s t s' t' -> clean (rest s) -> clean (rest s').
Proof. intros (n & _ & M & _) C. rewrite (moves_rest _ _ _ M). now apply clean_skipn. Qed.

(** Two wrapped streams, in step. *)
Definition par (s0 t0 s t : stream) : Prop :=
  (depth s0 <= depth s)%nat /\ (depth t0 <= depth t)%nat /\ pend (depth s0) s = pend (depth t0) t /\
  walk s0 t0 (unwrap (depth s0) s) (unwrap (depth t0) t).

Lemma par_refl s t : par s t s t.
Proof. split; [lia|]. split; [lia|]. rewrite !pend_self, !unwrap_id. split; [reflexivity|apply walk_refl]. Qed.
Lemma par_rest s0 t0 s t : rest s0 = rest t0 -> par s0 t0 s t -> rest s = rest t.
Proof.
  intros E (A & B & P & W). rewrite (rest_split _ _ A), (rest_split _ _ B), P. f_equal. eapply walk_rest; eauto.
Qed.
Lemma par_prepend s0 t0 s t l : par s0 t0 s t -> par s0 t0 (prepend s l) (prepend t l).
Proof.
  intros (A & B & P & W). split; [rewrite prepend_depth; lia|]. split; [rewrite prepend_depth; lia|].
  rewrite !pend_prepend, !unwrap_prepend by assumption. split; [congruence|exact W].
Qed.
Lemma par_walk s0 t0 s t s' t' : rest s0 = rest t0 -> par s0 t0 s t -> walk s t s' t' -> par s0 t0 s' t'.
Proof.
  intros E (A & B & P & W) (n & L & M & M'). split; [rewrite (moves_depth _ _ _ M); lia|].
  split; [rewrite (moves_depth _ _ _ M'); lia|].
  destruct (moves_unwrap n _ _ _ A M) as [P1 M1]. destruct (moves_unwrap n _ _ _ B M') as [P2 M2]. split; [congruence|].
  eapply walk_trans; [exact W|]. rewrite <- P in M2. eexists. split; [|split; [exact M1|exact M2]].
  rewrite (rest_split _ _ A), app_length in L. lia.
Qed.
Lemma par_unwrap s0 t0 s t : par s0 t0 s t -> par s0 t0 (unwrap (depth s0) s) (unwrap (depth t0) t).
Proof.
  intros (A & B & P & W). split; [rewrite unwrap_depth; lia|]. split; [rewrite unwrap_depth; lia|].
  rewrite !unwrap_unwrap by lia. split; [|exact W].
  replace (depth s0) with (depth (unwrap (depth s0) s)) at 1 by now apply unwrap_depth.
  replace (depth t0) with (depth (unwrap (depth t0) t)) at 1 by now apply unwrap_depth. now rewrite !pend_self.
Qed.
Lemma par_end s0 t0 s t : par s0 t0 s t -> walk s0 t0 (unwrap (depth s0) s) (unwrap (depth t0) t).
Proof. now intros (_ & _ & _ & W). Qed.
Lemma par_clean s0 t0 s t : clean (rest s0) -> clean (pend (depth s0) s) -> par s0 t0 s t -> clean (rest s).
Proof.
  intros C CP (A & B & P & W). rewrite (rest_split _ _ A). apply clean_app. split; [exact CP|]. eapply walk_clean; eauto.
Qed.
Lemma walk_pos s t : walk s t (snd (positionOf s)) (snd (positionOf t)).
Proof. exists O. split; [lia|]. split; apply moves_0, position_same. Qed.

Lemma both_bind {A B} (P : A -> A -> Prop) (Q : B -> B -> Prop) x y k k' :
  both P x y -> (forall a b, P a b -> both Q (k a) (k' b)) -> both Q (bind x k) (bind y k').
Proof. destruct x, y; cbn; auto; try tauto. Qed.

Lemma term_text ty b st x s t s' t' pos pos' idx idx' : tshape (rest s) x -> rest s = rest t ->
  moves (length (readOf x)) s s' -> moves (length (readOf x)) t t' ->
  both (stepEq s t) (Ok (toRes ty b st x pos idx, s')) (Ok (toRes ty b st x pos' idx', t')).
Proof.
  intros ((p & Hp) & _) E M M'. cbn. split.
  - destruct x as [[[cs|] rd] un]; repeat split.
  - exists (length (readOf x)). split; [rewrite Hp, app_length; lia|]. auto.
Qed.

Lemma account_req read unused a b : req a b -> account read unused a = account read unused b.
Proof. intros (_ & R & U & _). unfold account, charsUsed, countUsed. now rewrite R, U. Qed.
Lemma charsUsed_req a b : req a b -> charsUsed a = charsUsed b.
Proof. intros (_ & R & U & _). unfold charsUsed, countUsed. now rewrite R, U. Qed.
Lemma countUsed_req a b : req a b -> countUsed a = countUsed b.
Proof. intros (_ & R & U & _). unfold countUsed. now rewrite R, U. Qed.

Section Step.
Variables (g : rules_t) (rec : evalT).
Hypothesis HT : textRec rec.
Hypothesis HO : recOk g rec.
Hypothesis HG : wfRules g.

(** Both runs of a body. *)
Lemma callT r f s t : wfRule r -> clean (rest s) -> rest s = rest t ->
  match rec r s f, rec r t f with
  | Ok (res, s'), Ok (res', t') => req res res' /\ acc res /\ walk s t s' t'
  | Panic, Panic => True
  | OutOfFuel, OutOfFuel => True
  | _, _ => False
  end.
Proof.
  intros W C E. pose proof (HT r f s t W C E) as H. pose proof (HO r s f W C) as G.
  destruct (rec r s f) as [[res s']| |], (rec r t f) as [[res' t']| |]; cbn in *; auto.
  destruct H as [H1 H2]. destruct G as [[G _ _] _]. auto.
Qed.

Ltac callT r f s t W C E :=
  let H := fresh "H" in pose proof (callT r f s t W C E) as H;
  destruct (rec r s f) as [[?res ?s2]| |], (rec r t f) as [[?res' ?t2]| |]; cbn [bind] in *; try (exact H); try tauto;
  destruct H as (?RQ & ?AC & ?WK).

Lemma node_req a b : req a b -> match r_node a, r_node b with Some n, Some m => erase n = erase m | None, None => True | _, _ => False end.
Proof. intros (N & _). destruct (r_node a), (r_node b); cbn in N; congruence || auto. Qed.

Definition cleanPar (s0 s : stream) : Prop := clean (rest s0) /\ clean (rest s).

Lemma clean_moves s t s' t' : walk s t s' t' -> clean (rest s) -> clean (rest s').
Proof. apply walk_clean. Qed.

Lemma concat_text b self s0 t0 : rest s0 = rest t0 -> descOk self = true -> forall rules,
  (forall x, In x rules -> wfRule x) -> forall s t f read unused sticky kids kids' pos pos',
  par s0 t0 s t -> clean (rest s) -> clean unused -> clean read -> (length unused <= length read)%nat ->
  List.map erase kids = List.map erase kids' ->
  both (stepEq s0 t0) (concatLoop rec b self (depth s0) rules s f read unused sticky kids pos)
    (concatLoop rec b self (depth t0) rules t f read unused sticky kids' pos').
Proof.
  intros E Hd. induction rules as [|r rules IH]; intros W s t f read unused sticky kids kids' pos pos' P C CU CR LU EK; cbn [concatLoop].
  - cbn. split; [|now apply par_end]. split; [|auto]. cbn. now rewrite !map_rev, EK.
  - pose proof (par_prepend _ _ _ _ unused P) as P1.
    assert (C1 : clean (rest (prepend s unused))) by (rewrite prepend_rest; now apply clean_app).
    callT r f (prepend s unused) (prepend t unused) (W r (or_introl eq_refl)) C1 (par_rest _ _ _ _ E P1).
    pose proof (par_walk _ _ _ _ _ _ E P1 WK) as P2. pose proof (walk_clean _ _ _ _ WK C1) as C2.
    rewrite <- (account_req read unused _ _ RQ).
    destruct (account_ok read unused res AC CR CU LU) as (rd & un & -> & X1 & X2 & X3). cbn [bind].
    pose proof (node_req _ _ RQ) as NR. destruct RQ as (_ & _ & _ & ES).
    destruct (r_node res) as [n|], (r_node res') as [n'|]; try tauto.
    + rewrite <- ES, <- (nextFlag_erase f n), <- (nextFlag_erase f n'), NR. apply IH; auto.
      * intros x Hx. apply W. now right.
      * cbn. now rewrite NR, EK.
    + rewrite Hd, <- ES. cbn. split; [|now apply par_end]. repeat split.
Qed.

Lemma repDone_text b self mn idx idx' err err' ei ei' read unused sticky kids kids' pos pos' s0 t0 s t :
  descOk self = true -> walk s0 t0 s t -> List.map erase kids = List.map erase kids' ->
  both (stepEq s0 t0) (let* res := repDone b self mn idx err ei read unused sticky kids pos in Ok (res, s))
    (let* res := repDone b self mn idx' err' ei' read unused sticky kids' pos' in Ok (res, t)).
Proof.
  intros Hd W EK. unfold repDone. assert (EL : length kids = length kids') by (rewrite <- (map_length erase kids), EK; apply map_length).
  rewrite <- EL, Hd. destruct (Z.of_nat (length kids) <? mn).
  - destruct err, err'; cbn; (split; [|exact W]); repeat split.
  - cbn. split; [|exact W]. split; [|auto]. cbn. now rewrite !map_rev, EK.
Qed.

Lemma rep_text b self r mn mx s0 t0 : rest s0 = rest t0 -> descOk self = true -> wfRule r -> forall fuel
  s t f read unused sticky kids kids' pos pos',
  par s0 t0 s t -> clean (rest s) -> clean unused -> clean read -> (length unused <= length read)%nat ->
  List.map erase kids = List.map erase kids' ->
  both (stepEq s0 t0) (repLoop rec fuel b self r mn mx (depth s0) s f read unused sticky kids pos)
    (repLoop rec fuel b self r mn mx (depth t0) t f read unused sticky kids' pos').
Proof.
  intros E Hd W. induction fuel as [|fuel IH]; intros s t f read unused sticky kids kids' pos pos' P C CU CR LU EK; cbn [repLoop]; [exact I|].
  pose proof (par_prepend _ _ _ _ unused P) as P1. pose proof (par_rest _ _ _ _ E P1) as E1.
  assert (C1 : clean (rest (prepend s unused))) by (rewrite prepend_rest; now apply clean_app).
  rewrite !peek_rest, <- E1. destruct (_ =? EOFChar).
  { apply repDone_text; auto. now apply par_end. }
  callT r f (prepend s unused) (prepend t unused) W C1 E1.
  pose proof (par_walk _ _ _ _ _ _ E P1 WK) as P2. pose proof (walk_clean _ _ _ _ WK C1) as C2.
  rewrite <- (account_req read unused _ _ RQ).
  destruct (account_ok read unused res AC CR CU LU) as (rd & un & -> & X1 & X2 & X3). cbn [bind].
  pose proof (node_req _ _ RQ) as NR. destruct RQ as (_ & _ & _ & ES). rewrite <- ES.
  destruct (r_node res) as [n|], (r_node res') as [n'|]; try tauto.
  - assert (EL : length kids = length kids') by (rewrite <- (map_length erase kids), EK; apply map_length).
    change (length (n :: kids)) with (S (length kids)). change (length (n' :: kids')) with (S (length kids')). rewrite <- EL.
    assert (EK' : List.map erase (n :: kids) = List.map erase (n' :: kids')) by (cbn; congruence).
    destruct (_ && _); [apply repDone_text; auto; now apply par_end|]. now apply IH.
  - apply repDone_text; auto. now apply par_end.
Qed.

Definition altEq (s0 t0 : stream) (x y : list result * list Z * bool * option eerr * Z * stream) : Prop :=
  let '(ml, rd, st, _, _, s') := x in
  let '(ml', rd', st', _, _, t') := y in
  Forall2 req ml ml' /\ rd = rd' /\ clean rd /\ st = st' /\ walk s0 t0 s' t'.

Lemma alts_text s0 t0 : rest s0 = rest t0 -> clean (rest s0) -> forall rules, (forall x, In x rules -> wfRule x) ->
  forall s t f maxRead sticky me me' mi mi' ml ml', depth s = depth s0 -> depth t = depth t0 -> walk s0 t0 s t -> clean maxRead ->
  Forall2 req ml ml' ->
  both (altEq s0 t0) (altLoop rec (depth s0) rules s f maxRead sticky me mi ml) (altLoop rec (depth t0) rules t f maxRead sticky me' mi' ml').
Proof.
  intros E C0. induction rules as [|r rules IH]; intros W s t f maxRead sticky me me' mi mi' ml ml' D1 D2 WK0 CM F; cbn [altLoop].
  - cbn. split; [now apply Forall2_rev|auto].
  - pose proof (walk_rest _ _ _ _ E WK0) as E0. pose proof (walk_clean _ _ _ _ WK0 C0) as C.
    pose proof (par_prepend _ _ _ _ maxRead (par_refl s t)) as P1.
    assert (C1 : clean (rest (prepend s maxRead))) by (rewrite prepend_rest; now apply clean_app).
    callT r f (prepend s maxRead) (prepend t maxRead) (W r (or_introl eq_refl)) C1 (par_rest _ _ _ _ E0 P1).
    pose proof (par_walk _ _ _ _ _ _ E0 P1 WK) as P2. pose proof (par_end _ _ _ _ P2) as W2.
    pose proof P2 as (Q1 & Q2 & _). rewrite D1, D2 in *.
    pose proof (node_req _ _ RQ) as NR. pose proof RQ as (_ & ER & _ & ES). rewrite <- ER, <- ES.
    set (maxRead' := if (length maxRead <? length (r_read res))%nat then r_read res else maxRead).
    assert (CM' : clean maxRead') by (unfold maxRead'; destruct (_ <? _)%nat; [apply AC|exact CM]).
    assert (WK' : walk s0 t0 (unwrap (depth s0) s2) (unwrap (depth t0) t2)) by (eapply walk_trans; eauto).
    assert (W' : forall x, In x rules -> wfRule x) by (intros x Hx; apply W; now right).
    assert (DA : depth (unwrap (depth s0) s2) = depth s0) by now apply unwrap_depth.
    assert (DB : depth (unwrap (depth t0) t2) = depth t0) by now apply unwrap_depth.
    destruct (r_node res) as [n|], (r_node res') as [n'|]; try tauto.
    + apply IH; auto.
    + destruct (r_erridx res >? mi), (r_erridx res' >? mi'); apply IH; auto.
Qed.

Lemma select_req ml ml' : Forall2 req ml ml' ->
  match select ml, select ml' with
  | None, None => True
  | Some None, Some None => True
  | Some (Some a), Some (Some b) => req a b
  | _, _ => False
  end.
Proof.
  intros F.
  assert (X : forall l l', Forall2 req l l' -> forall m o o',
    match o, o' with Some a, Some b => req a b | None, None => True | _, _ => False end ->
    match selLoop m o l, selLoop m o' l' with
    | None, None => True
    | Some None, Some None => True
    | Some (Some a), Some (Some b) => req a b
    | _, _ => False
    end).
  { clear. induction 1 as [|a b l l' R F IH]; intros m o o' H; cbn [selLoop].
    - destruct o, o'; auto.
    - rewrite <- (countUsed_req _ _ R). destruct (countUsed a <? m); [now apply IH|]. destruct (countUsed a =? m).
      + destruct o, o'; try tauto. now apply IH.
      + now apply IH. }
  inversion F as [|a b l l' R F' E1 E2]; subst; [exact I|]. inversion F' as [|a2 b2 l2 l2' R2 F2 E1 E2]; subst; [exact R|].
  exact (X _ _ F 0 None None I).
Qed.

Lemma slice_same (A : Type) (l : list A) k : both eq (slice_from l k) (slice_from l k).
Proof. unfold slice_from. destruct (_ && _); cbn; auto. Qed.

Lemma choice_text b self s0 t0 : rest s0 = rest t0 -> clean (rest s0) -> descOk self = true -> forall groups,
  (forall grp x, In grp groups -> In x grp -> wfRule x) ->
  forall s t f maxRead sticky me me' mi mi', depth s = depth s0 -> depth t = depth t0 -> walk s0 t0 s t -> clean maxRead ->
  both (stepEq s0 t0) (choiceLoop rec b self (depth s0) groups s f maxRead sticky me mi)
    (choiceLoop rec b self (depth t0) groups t f maxRead sticky me' mi').
Proof.
  intros E C0 Hd. induction groups as [|grp groups IH]; intros W s t f maxRead sticky me me' mi mi' D1 D2 WK CM; cbn [choiceLoop].
  - rewrite Hd. cbn. split; [|exact WK]. repeat split.
  - eapply both_bind; [apply alts_text; auto; intros x Hx; eapply W; [now left|exact Hx]|].
    intros [[[[[ml rd] st] e] i] s'] [[[[[ml' rd'] st'] e'] i'] t'] (F & <- & CR & <- & WK').
    pose proof (select_req _ _ F) as SR.
    destruct (select ml) as [[a|]|], (select ml') as [[a'|]|]; try tauto.
    + pose proof (node_req _ _ SR) as NR. rewrite <- (countUsed_req _ _ SR).
      destruct (r_node a) as [n|], (r_node a') as [n'|]; try tauto.
      eapply both_bind; [apply slice_same|]. intros u ? <-. cbn. split; [|exact WK']. split; [|auto]. cbn. now rewrite NR.
    + apply IH; auto.
      * intros; eapply W; [right|]; eauto.
      * destruct WK' as (n & L & M & M'). rewrite (moves_depth _ _ _ M). reflexivity.
      * destruct WK' as (n & L & M & M'). rewrite (moves_depth _ _ _ M'). reflexivity.
    + cbn. split; [|exact WK']. repeat split.
Qed.

Lemma greedy_text rules s t f : (forall x, In x rules -> wfRule x) -> clean (rest s) -> rest s = rest t ->
  both (fun x y => stepEq s t x y /\ acc (fst x)) (mostGreedy rec rules s f) (mostGreedy rec rules t f).
Proof.
  intros W C E. pose proof (mostGreedy_ok g rec HO rules s f W C) as G. unfold mostGreedy in *.
  pose proof (alts_text s t E C rules W s t f [] true None None 0 0 [] [] eq_refl eq_refl (walk_refl s t) (Forall_nil _) (Forall2_nil _)) as H.
  destruct (altLoop rec (depth s) _ _ _ _ _ _ _ _) as [[[[[[ml rd] st] e] i] s']| |],
    (altLoop rec (depth t) _ _ _ _ _ _ _ _) as [[[[[[ml' rd'] st'] e'] i'] t']| |]; cbn [bind both] in *; try tauto.
  destruct H as (F & <- & CR & <- & WK). pose proof (select_req _ _ F) as SR.
  destruct (select ml) as [[a|]|], (select ml') as [[a'|]|]; try tauto.
  - rewrite <- (countUsed_req _ _ SR). destruct (slice_from rd (countUsed a)); cbn [bind both] in *; try tauto.
    destruct G as [G1 G2]. split; [|exact G1]. split; [|exact WK]. destruct SR as (S1 & S2 & S3 & S4). repeat split; cbn; auto.
  - destruct G as [G1 G2]. split; [|exact G1]. split; [|exact WK]. repeat split.
  - destruct G as [G1 G2]. split; [|exact G1]. split; [|exact WK]. repeat split.
Qed.

(** One round of the block loop. *)
Definition exEq (x y : blockExit) : Prop :=
  match x, y with
  | BExclude a u c, BExclude b u' c' => (req a b /\ acc a) /\ u = u' /\ c = c'
  | BEOF u n, BEOF u' n' => u = u' /\ n = n'
  | BClose a u n c, BClose b u' n' c' => req a b /\ u = u' /\ n = n' /\ c = c'
  | _, _ => False
  end.
Definition iterEq (s0 t0 : stream) (x y : stream * ((list Z * list Z * list Z) + blockExit)) : Prop :=
  par s0 t0 (fst x) (fst y) /\ clean (rest (fst x)) /\
  match snd x, snd y with
  | inl (u, n, c), inl (u', n', c') => u = u' /\ n = n' /\ c = c' /\ clean n
  | inr e, inr e' => exEq e e'
  | _, _ => False
  end.

Lemma clean_cat a b : clean a -> clean b -> clean (a ++ b).
Proof. intros. now apply clean_app. Qed.

Lemma blockIter_text cl esc excl s0 t0 cs ct used unused content : rest s0 = rest t0 ->
  wfRule cl -> (forall x, esc = Some x -> wfRule x) -> (forall x, In x excl -> wfRule x) ->
  par s0 t0 cs ct -> clean (rest cs) -> clean unused ->
  both (iterEq s0 t0) (blockIter rec cl esc excl cs used unused content) (blockIter rec cl esc excl ct used unused content).
Proof.
  intros E WC WE WX P C CU. unfold blockIter.
  eapply both_bind with (P := fun x y => let '(a, b, c, d, s) := x in let '(a', b', c', d', t) := y in
    a = a' /\ b = b' /\ c = c' /\ d = d' /\ clean d /\ par s0 t0 s t /\ clean (rest s)).
  { destruct esc as [e|]; [|cbn; auto 10].
    callT e NOT_SKIP cs ct (WE e eq_refl) C (par_rest _ _ _ _ E P).
    pose proof (par_walk _ _ _ _ _ _ E P WK) as P2. pose proof (walk_clean _ _ _ _ WK C) as C2.
    pose proof (node_req _ _ RQ) as NR. pose proof RQ as (_ & ER & EU & ES). pose proof (ac_unused _ AC). pose proof (ac_read _ AC).
    destruct (r_node res) as [n|], (r_node res') as [n'|]; try tauto.
    - rewrite <- (charsUsed_req _ _ RQ), (charsUsed_ok _ AC). cbn. auto 10.
    - cbn. auto 10. }
  intros [[[[esd ech] us] un] s1] [[[[esd' ech'] us'] un'] t1] (<- & <- & <- & <- & CN & P1 & C1).
  pose proof (par_prepend _ _ _ _ un P1) as P1'.
  assert (C1' : clean (rest (prepend s1 un))) by (rewrite prepend_rest; now apply clean_app).
  eapply both_bind with (P := fun x y => match fst x, fst y with Some a, Some b => req a b /\ acc a | None, None => True | _, _ => False end /\
    par s0 t0 (snd x) (snd y) /\ clean (rest (snd x))).
  { destruct excl as [|x excl]; [cbn; auto|].
    eapply both_bind; [apply greedy_text; [exact WX|exact C1'|exact (par_rest _ _ _ _ E P1')]|].
    intros [a s'] [a' t'] [[R WK] AC]. cbn in *. split; [auto|]. split; [eapply par_walk; eauto|eapply walk_clean; eauto]. }
  intros [xr s2] [xr' t2] (HX & P2 & C2). cbn [fst snd] in *.
  set (a := match xr with Some res => res | None => mkRes None None 0 [] [] false end).
  set (a' := match xr' with Some res => res | None => mkRes None None 0 [] [] false end).
  assert (RA : req a a' /\ acc a).
  { unfold a, a'. destruct xr, xr'; try tauto. split; [repeat split|]. constructor; cbn; auto; apply Forall_nil. }
  destruct RA as [RA AA].
  assert (EF : match xr with Some res => match r_node res with Some _ => true | None => false end | None => false end =
    match xr' with Some res => match r_node res with Some _ => true | None => false end | None => false end).
  { destruct xr, xr'; try tauto. destruct HX as [HX _]. apply node_req in HX. now destruct (r_node r), (r_node r0). }
  rewrite <- EF. clear EF.
  assert (EU2 : match xr with Some res => r_read res | None => un end = match xr' with Some res => r_read res | None => un end /\
    clean (match xr with Some res => r_read res | None => un end)).
  { destruct xr, xr'; try tauto. destruct HX as [(_ & X & _) Y]. split; [exact X|apply Y]. }
  destruct EU2 as [EU2 CU2]. rewrite <- EU2. clear EU2.
  set (un2 := match xr with Some res => r_read res | None => un end) in *.
  destruct (match xr with Some res => match r_node res with Some _ => true | None => false end | None => false end).
  - destruct esd.
    + rewrite <- (charsUsed_req _ _ RA), (charsUsed_ok _ AA). cbn [bind both]. split; [exact P2|]. split; [exact C2|]. cbn.
      pose proof (ac_unused _ AA). destruct RA as (_ & _ & X & _). rewrite <- X. auto.
    + cbn. split; [exact P2|]. split; [exact C2|]. cbn. auto.
  - pose proof (par_prepend _ _ _ _ un2 P2) as P3.
    assert (C3 : clean (rest (prepend s2 un2))) by (rewrite prepend_rest; now apply clean_app).
    callT cl NOT_SKIP (prepend s2 un2) (prepend t2 un2) WC C3 (par_rest _ _ _ _ E P3).
    pose proof (par_walk _ _ _ _ _ _ E P3 WK) as P4. pose proof (walk_clean _ _ _ _ WK C3) as C4.
    pose proof (node_req _ _ RQ) as NR. pose proof RQ as (_ & ER & EU & ES). pose proof (ac_unused _ AC). rewrite <- EU.
    destruct (r_node res) as [n|], (r_node res') as [n'|]; try tauto.
    + rewrite <- (charsUsed_req _ _ RQ), (charsUsed_ok _ AC). cbn [bind]. destruct esd; cbn [both]; (split; [exact P4|]); (split; [exact C4|]); cbn; auto.
    + pose proof (par_prepend _ _ _ _ (r_unused res) P4) as P5. pose proof (par_rest _ _ _ _ E P5) as E5.
      assert (C5 : clean (rest (prepend s3 (r_unused res)))) by (rewrite prepend_rest; now apply clean_app).
      rewrite !(peek_rest), <- E5.
      destruct (rest (prepend s3 (r_unused res))) as [|c l] eqn:ESK.
      * rewrite Z.eqb_refl. cbn [both]. split; [exact P5|]. cbn [fst snd]. rewrite ESK. cbn. auto.
      * rewrite (clean_not_eof c l C5). destruct (moves_next _ _ _ ESK) as (s6 & -> & M6 & R6).
        symmetry in E5. destruct (moves_next _ _ _ E5) as (t6 & -> & M7 & R7). cbn. split.
        -- eapply par_walk; [exact E|exact P5|]. exists 1%nat. rewrite ESK. split; [cbn; lia|]. auto.
        -- cbn [fst snd]. rewrite R6. split; [now inversion C5|]. repeat split; auto. apply Forall_nil.
Qed.

Lemma blockLoop_text cl esc excl s0 t0 : rest s0 = rest t0 ->
  wfRule cl -> (forall x, esc = Some x -> wfRule x) -> (forall x, In x excl -> wfRule x) ->
  forall fuel cs ct used unused content, par s0 t0 cs ct -> clean (rest cs) -> clean unused ->
  both (fun x y => par s0 t0 (fst x) (fst y) /\ exEq (snd x) (snd y))
    (blockLoop rec fuel cl esc excl cs used unused content) (blockLoop rec fuel cl esc excl ct used unused content).
Proof.
  intros E WC WE WX. induction fuel as [|fuel IH]; intros cs ct used unused content P C CU; cbn [blockLoop]; [exact I|].
  eapply both_bind; [apply blockIter_text; eauto|]. intros [s' [[[u n] c]|e]] [t' [[[u' n'] c']|e']] (P' & C' & H); cbn in *; try tauto.
  destruct H as (<- & <- & <- & CN). now apply IH.
Qed.

Lemma block_text fuel b o v c e xs s t f : wfRule (RBlock b o v c e xs) -> clean (rest s) -> rest s = rest t ->
  both (stepEq s t) (evalBlock rec fuel b o v c e xs s f) (evalBlock rec fuel b o v c e xs t f).
Proof.
  intros W C E. inversion W as [| | | | | | | | | | |? ? ? ? ? ? WO WC WE WX]; subst. unfold evalBlock.
  callT o f s t WO C E. pose proof (node_req _ _ RQ) as NR. pose proof RQ as (_ & ER & EU & ES). pose proof (ac_unused _ AC) as CU.
  destruct (r_node res) as [n|], (r_node res') as [n'|]; try tauto.
  - rewrite <- (charsUsed_req _ _ RQ), (charsUsed_ok _ AC). cbn [bind]. rewrite <- EU.
    pose proof (par_walk _ _ _ _ _ _ E (par_refl s t) WK) as P1.
    pose proof (par_prepend _ _ _ _ (r_unused res) P1) as P2.
    assert (C2 : clean (rest (prepend s2 (r_unused res)))).
    { rewrite prepend_rest. apply clean_app. split; [exact CU|]. eapply walk_clean; eauto. }
    pose proof (walk_pos (prepend s2 (r_unused res)) (prepend t2 (r_unused res))) as WP.
    pose proof (par_walk _ _ _ _ _ _ E P2 WP) as P3. pose proof (walk_clean _ _ _ _ WP C2) as C3.
    destruct (positionOf (prepend s2 (r_unused res))) as [pos1 cs]. destruct (positionOf (prepend t2 (r_unused res))) as [pos2 ct].
    cbn [snd] in *. eapply both_bind; [apply blockLoop_text; eauto|].
    intros [cs' ex] [ct' ex'] [P4 HX]. cbn [fst snd] in *. pose proof (par_end _ _ _ _ P4) as W4.
    destruct ex as [a u co|u un|a u un co], ex' as [a' u' co'|u' un'|a' u' un' co']; cbn in HX; try tauto.
    + destruct HX as ((X1 & X2) & <- & <-). rewrite <- (charsUsed_req _ _ X1), (charsUsed_ok _ X2). destruct X1 as (_ & X1 & _). rewrite X1.
      cbn. split; [repeat split|exact W4].
    + destruct HX as (<- & <-). rewrite (wf_descOk c WC). cbn. split; [repeat split|exact W4].
    + destruct HX as (RX & <- & <- & <-). pose proof (node_req _ _ RX) as NX. pose proof RX as (_ & XR & _ & _). cbn. split; [|exact W4].
      split; [|cbn; rewrite XR; auto]. cbn. rewrite NR. destruct v; [reflexivity|].
      destruct (r_node a), (r_node a'); try tauto. cbn. now rewrite NX.
  - cbn. split; [|exact WK]. cbn. repeat split; auto.
Qed.

Lemma step_text fuel r f s t : wfRule r -> clean (rest s) -> rest s = rest t ->
  both (stepEq s t) (evalStep g rec fuel r s f) (evalStep g rec fuel r t f).
Proof.
  intros W C E. assert (C' : clean (rest t)) by now rewrite <- E. destruct r; cbn [evalStep].
  - inversion W; subst. destruct (evalChar_pure b txt s f) as (s' & pos & idx & -> & M); auto.
    destruct (evalChar_pure b txt t f) as (t' & pos' & idx' & -> & M'); auto. rewrite <- E in *.
    apply term_text; auto. apply tchar_shape.
  - destruct (evalChars_pure b txt s f) as (s' & pos & idx & -> & M); auto.
    destruct (evalChars_pure b txt t f) as (t' & pos' & idx' & -> & M'); auto. rewrite <- E in *.
    apply term_text; auto. apply tlit_shape.
  - destruct (evalString_pure b txt s f) as (s' & pos & idx & -> & M); auto.
    destruct (evalString_pure b txt t f) as (t' & pos' & idx' & -> & M'); auto. rewrite <- E in *.
    apply term_text; auto. apply tlit_shape.
  - inversion W; subst. destruct (evalRange_pure b lo hi s f) as (s' & pos & idx & -> & M); auto.
    destruct (evalRange_pure b lo hi t f) as (t' & pos' & idx' & -> & M'); auto. rewrite <- E in *.
    apply term_text; auto. apply trange_shape.
  - destruct (evalEOF_pure b s f) as (s' & pos & idx & -> & M); auto.
    destruct (evalEOF_pure b t f) as (t' & pos' & idx' & -> & M'); auto. rewrite <- E in *.
    apply term_text; auto. apply teof_shape.
  - destruct (lookup g ref) as [r'|] eqn:EL; [|cbn; split; [repeat split|apply walk_refl]].
    callT r' f s t (HG _ _ EL) C E. cbn. split; [|exact WK]. pose proof (node_req _ _ RQ) as NR. destruct RQ as (_ & ER & EU & ES).
    split; [|auto]. cbn. destruct (r_node res), (r_node res'); try tauto. cbn [option_map]. now rewrite !erase_toggle, NR.
  - inversion W; subst. callT r f s t H0 C E. pose proof (node_req _ _ RQ) as NR. destruct RQ as (_ & ER & EU & ES).
    destruct (r_node res), (r_node res'); try tauto; cbn; (split; [|exact WK]).
    + split; [|auto]. cbn. now rewrite NR, ES.
    + repeat split; auto.
  - inversion W; subst. callT r f s t H0 C E. pose proof (node_req _ _ RQ) as NR. destruct RQ as (_ & ER & EU & ES).
    destruct (r_node res), (r_node res'); try tauto; cbn; (split; [|exact WK]).
    + split; [|auto]. cbn. now rewrite NR, ES.
    + split; [|auto]. cbn. now rewrite ES.
  - pose proof (wf_descOk _ W) as HD. inversion W; subst.
    apply rep_text; auto; try apply Forall_nil. apply par_refl.
  - pose proof (wf_descOk _ W) as HD. inversion W; subst. apply choice_text; auto; [apply walk_refl|apply Forall_nil].
  - pose proof (wf_descOk _ W) as HD. inversion W; subst. apply concat_text; auto; try apply Forall_nil. apply par_refl.
  - now apply block_text.
Qed.
End Step.

Theorem eval_text g fuel : wfRules g -> forall r f s t, wfRule r -> clean (rest s) -> rest s = rest t ->
  both (stepEq s t) (eval fuel g r s f) (eval fuel g r t f).
Proof.
  intros HG. induction fuel as [|fuel IH]; intros r f s t W C E; cbn [eval]; [exact I|].
  apply step_text; auto. intros r' s' f' W' C'. now apply eval_ok.
Qed.

Lemma eval_text_only g fuel r f s t : wfRules g -> wfRule r -> runesOk (rest s) -> rest s = rest t ->
  match eval fuel g r s f, eval fuel g r t f with
  | Ok (a, s'), Ok (b, t') =>
      option_map erase (r_node a) = option_map erase (r_node b) /\ r_read a = r_read b /\ r_unused a = r_unused b /\
      r_sticky a = r_sticky b /\ rest s' = rest t' /\ cursor s' - cursor s = cursor t' - cursor t
  | OutOfFuel, OutOfFuel => True
  | _, _ => False
  end.
Proof.
  intros G W C E. pose proof (eval_text g fuel G r f s t W C E) as H. pose proof (eval_ok g fuel G r s f W C) as NP.
  destruct (eval fuel g r s f) as [[a s']| |], (eval fuel g r t f) as [[b t']| |]; cbn in *; auto.
  destruct H as [(N & R & U & S) WK]. repeat (split; [assumption|]). split; [eapply walk_rest; eauto|].
  destruct WK as (n & L & M & M'). cbn [snd] in *. rewrite (moves_cursor _ _ _ M L). rewrite E in L. rewrite (moves_cursor _ _ _ M' L). lia.
Qed.
