(** EvalRaw comes back unless its rounds go round. *)
From Coq Require Import Permutation.
From Verif Require Import Base Stream StreamFacts CallFacts Node Rule Grammar SpecStream SpecRule EvalInv EvalFuel RuleFacts
  SpecEval SemFacts SpecEv EvFacts EvDet EvalSem TextFacts SpecChoice ChoiceFacts WfDec SpecTerm LoopFacts SpecDriver DriverFacts SpecEnds.

Section Ends.
Variables (g : rules_t) (roots : list (list Z * rule)) (t : list Z).
Hypothesis W : wfRules g.
Hypothesis HR : wfRoots roots.
Hypothesis C : clean t.
Hypothesis SAFE : forall x f p, In x roots -> mode f -> careful g (snd x) f (skipn p t).
Hypothesis ORD : orderly g (List.map snd roots) t.
Let rules := List.map snd roots.

(** From here the rounds go round. *)
Definition endless (f : Z) (t0 : list Z) : Prop :=
  exists f' t' f1 t1, Rounds g rules f t0 f' t' /\ Round g rules f' t' f1 t1 /\ Rounds g rules f1 t1 f' t'.

Lemma round_rounds f t0 f1 t1 f2 t2 : Round g rules f t0 f1 t1 -> Rounds g rules f1 t1 f2 t2 -> Rounds g rules f t0 f2 t2.
Proof. intros (outs & n & u & k & st & NE & F & SL & IN & LE & -> & ->) R. eapply rd_round; eauto. Qed.
Lemma rounds_first f t0 f' t' : Rounds g rules f t0 f' t' -> (f = f' /\ t0 = t') \/ exists f1 t1, Round g rules f t0 f1 t1 /\ Rounds g rules f1 t1 f' t'.
Proof.
  intros R. inversion R as [|? ? outs n u st ? ? NE F SL (k & IN) LE R']; subst; [now left|]. right. do 2 eexists. split; [|exact R'].
  exists outs, n, u, k, st. auto 8.
Qed.
Lemma endless_next f t0 : endless f t0 -> exists f1 t1, Round g rules f t0 f1 t1 /\ endless f1 t1.
Proof.
  intros (f' & t' & f1 & t1 & R & RD & B). destruct (rounds_first _ _ _ _ R) as [(-> & ->)|(f2 & t2 & R2 & R3)].
  - exists f1, t1. split; [exact RD|]. exists f', t', f1, t1. auto.
  - exists f2, t2. split; [exact R2|]. exists f', t', f1, t1. auto.
Qed.

Lemma rules_wf r : In r rules -> wfRule r.
Proof. intros I. apply in_map_iff in I as (x & <- & Ix). now apply HR. Qed.
Lemma rules_safe fuel f p r : mode f -> In r rules -> sem fuel g r f (skipn p t) <> SUnsafe.
Proof. intros MF I. apply in_map_iff in I as (x & <- & Ix). now apply SAFE. Qed.
Lemma mode_of (st : bool) : mode (if st then SUGGEST_NOT_SKIP else SUGGEST_SKIP).
Proof. unfold mode. destruct st; auto. Qed.
Lemma forall2_in {A B} (R : A -> B -> Prop) l m y : Forall2 R l m -> In y m -> exists x, In x l /\ R x y.
Proof. induction 1 as [|a b l m H F IH]; intros I; [destruct I|]. destruct I as [->|I]; [exists a; cbn; auto|]. destruct (IH I) as (x & ? & ?). exists x. cbn. auto. Qed.

(** The match that is the longest is the one picked. *)
Lemma pick_longest fuel f p ys n u : mode f -> Forall2 (fun r y => sem fuel g r f (skipn p t) = SOk y) rules ys ->
  strictlyLongest (hitsOf ys) n u -> pick (hitsOf ys) = POne n u.
Proof.
  intros MF FY SL. pose proof (nodup_hits g t roots ORD fuel f p ys n u MF FY SL) as ND.
  unfold pick. rewrite (early_none (hitsOf ys) None ND) by discriminate.
  apply strictly_filter in SL. rewrite SL. reflexivity.
Qed.

Lemma round_text fuel f p f1 t1 : mode f -> Round g rules f (skipn p t) f1 t1 ->
  semAll fuel g f (skipn p t) rules = SFuel \/
  exists ys n u, semAll fuel g f (skipn p t) rules = SOk ys /\ pick (hitsOf ys) = POne n u /\
    f1 = (if n_sticky n then SUGGEST_NOT_SKIP else SUGGEST_SKIP) /\ t1 = skipn (p + u) t.
Proof.
  intros MF (outs & n & u & k & st & NE & F & SL & IN & LE & -> & ->).
  destruct (semAll_spec fuel g f (skipn p t) rules (fun r => rules_safe fuel f p r MF)) as [(ys & EY & FY)|(EY & _)]; [|now left]. right.
  pose proof (outs_of _ _ _ _ _ _ _ EY F) as EO. subst outs. rewrite hits_noAmb in SL.
  pose proof (pick_longest fuel f p ys n u MF FY SL) as PK. exists ys, n, u. split; [exact EY|]. split; [exact PK|].
  apply in_map_iff in IN as (y & EY' & IY). destruct (forall2_in _ _ _ _ FY IY) as (r & Ir & Y).
  destruct y as [n1 u1 k1 st1|k1 st1|k1]; try discriminate. cbn [noAmb] in EY'. injection EY' as -> -> -> ->.
  destruct (sem_match _ _ _ _ _ _ _ _ _ W (rules_wf r Ir) (clean_skipn p t C) Y) as (ST & _). rewrite ST. split; [reflexivity|]. apply skipn_skipn'.
Qed.

Lemma endless_text fuel : forall lf f p nodes, mode f -> endless f (skipn p t) -> rawText lf fuel g rules f (skipn p t) nodes = OutOfFuel.
Proof.
  induction lf as [|lf IH]; intros f p nodes MF E; cbn [rawText]; [reflexivity|].
  destruct (endless_next _ _ E) as (f1 & t1 & R & E1).
  assert (NE : skipn p t <> []) by now destruct R as (outs & n & u & k & st & NE & _).
  destruct (skipn p t) as [|c t'] eqn:ET; [congruence|]. rewrite <- ET in *.
  destruct (round_text fuel f p f1 t1 MF R) as [->|(ys & n & u & -> & -> & -> & ->)]; [reflexivity|].
  rewrite skipn_skipn'. apply IH; [apply mode_of|exact E1].
Qed.

Hypothesis DEF : forall x f p, In x roots -> mode f -> exists o, Ev g (snd x) f (skipn p t) o.

Lemma sem_fuel f p : mode f -> forall l, incl l rules -> exists n, forall m, (n <= m)%nat -> exists ys, semAll m g f (skipn p t) l = SOk ys.
Proof.
  intros MF. induction l as [|r l IH]; intros IL; [exists O; intros; eexists; reflexivity|].
  destruct IH as (n1 & H1); [intros x Hx; apply IL; now right|].
  assert (Ir : In r rules) by (apply IL; now left). pose proof Ir as Ir'. apply in_map_iff in Ir' as (x & <- & Ix).
  destruct (DEF x f p Ix MF) as (o & E). destruct (ev_complete _ _ _ _ _ E) as (n2 & H2).
  exists (Nat.max n1 n2). intros m Hm. destruct (H1 m ltac:(lia)) as (ys & Y). cbn [semAll].
  destruct (H2 m ltac:(lia)) as [U|(y & Y2 & _)]; [now destruct (SAFE x f p Ix MF m)|]. rewrite Y2, Y. cbn [sbind]. eauto.
Qed.
Lemma all_fuel : exists n, forall f p, mode f -> (p <= length t)%nat -> exists ys, semAll n g f (skipn p t) rules = SOk ys.
Proof.
  assert (H : forall f, mode f -> exists n, forall m p, (n <= m)%nat -> (p <= length t)%nat -> exists ys, semAll m g f (skipn p t) rules = SOk ys).
  { intros f MF. apply (common_fuel (fun m p => exists ys, semAll m g f (skipn p t) rules = SOk ys)). intros p _. apply sem_fuel; [exact MF|apply incl_refl]. }
  destruct (H SUGGEST_SKIP ltac:(now left)) as (n1 & H1). destruct (H SUGGEST_NOT_SKIP ltac:(now right)) as (n2 & H2).
  exists (Nat.max n1 n2). intros f p [->| ->] LP; [apply H1|apply H2]; lia.
Qed.

(** One round with enough fuel: the end, or a step. *)
Lemma step fuel f p : mode f -> (p < length t)%nat -> (exists ys, semAll fuel g f (skipn p t) rules = SOk ys) ->
  (exists v, forall lf nodes, rawText (S lf) fuel g rules f (skipn p t) nodes = Ok v) \/
  exists f1 n u, mode f1 /\ (p + u <= length t)%nat /\ Round g rules f (skipn p t) f1 (skipn (p + u) t) /\
    forall lf nodes, rawText (S lf) fuel g rules f (skipn p t) nodes = rawText lf fuel g rules f1 (skipn (p + u) t) (n :: nodes).
Proof.
  intros MF LP (ys & EY). cbn [rawText].
  assert (NE : skipn p t <> []) by (intros X; apply (f_equal (@length Z)) in X; rewrite skipn_length in X; cbn in X; lia).
  destruct (skipn p t) as [|c t'] eqn:ET; [congruence|]. rewrite <- ET in *. rewrite EY.
  destruct (semAll_spec fuel g f (skipn p t) rules (fun r => rules_safe fuel f p r MF)) as [(ys' & EY' & FY)|(EY' & _)]; [|congruence].
  rewrite EY in EY'. injection EY' as <-.
  destruct (pick (hitsOf ys)) as [|n u| |] eqn:EP; [left; eauto| |left; eauto..]. right. apply pick_strict in EP.
  assert (IN : exists k st, In (Match n u k st) ys).
  { apply hitsOf_in. destruct EP as (l1 & l2 & -> & _). apply in_or_app. right. now left. }
  destruct IN as (k & st & IN). destruct (forall2_in _ _ _ _ FY IN) as (r & Ir & Y).
  destruct (sem_match _ _ _ _ _ _ _ _ _ W (rules_wf r Ir) (clean_skipn p t C) Y) as (ST & LU). rewrite skipn_length in LU.
  exists (if st then SUGGEST_NOT_SKIP else SUGGEST_SKIP), n, u. split; [apply mode_of|]. split; [lia|]. split.
  - exists (List.map noAmb ys), n, u, k, st. split; [exact NE|]. split; [exact (evs_of g t fuel f p _ _ FY)|]. split; [now rewrite hits_noAmb|].
    split; [apply (in_map noAmb) in IN; exact IN|]. split; [rewrite skipn_length; lia|]. split; [reflexivity|]. now rewrite skipn_skipn'.
  - intros lf nodes. rewrite ST, skipn_skipn'. reflexivity.
Qed.

Lemma mode_dec f1 f2 : mode f1 -> mode f2 -> f1 = f2 \/ f1 <> f2.
Proof. intros _ _. destruct (Z.eq_dec f1 f2); auto. Qed.
Lemma mode_three f f1 f2 : mode f -> mode f1 -> mode f2 -> f1 = f \/ f2 = f \/ f2 = f1.
Proof. unfold mode. intros [->| ->] [->| ->] [->| ->]; auto. Qed.

Lemma ends_or fuel : (forall f p, mode f -> (p <= length t)%nat -> exists ys, semAll fuel g f (skipn p t) rules = SOk ys) ->
  forall d f p, mode f -> (p <= length t)%nat -> (length t - p <= d)%nat ->
    endless f (skipn p t) \/ exists lf, (lf <= 2 * d + 1)%nat /\ forall nodes, exists v, rawText lf fuel g rules f (skipn p t) nodes = Ok v.
Proof.
  intros HF. induction d as [|d IH]; intros f p MF LP LD.
  - right. exists 1%nat. split; [lia|]. intros nodes. cbn [rawText]. rewrite skipn_all2 by lia. eauto.
  - destruct (Nat.eq_dec p (length t)) as [EP|NP].
    { right. exists 1%nat. split; [lia|]. intros nodes. cbn [rawText]. rewrite skipn_all2 by lia. eauto. }
    destruct (step fuel f p MF ltac:(lia) (HF f p MF LP)) as [(v & H)|(f1 & n & u & M1 & L1 & R & H)].
    { right. exists 1%nat. split; [lia|]. eauto. }
    assert (GO : forall f' p', endless f' (skipn p' t) -> Round g rules f (skipn p t) f' (skipn p' t) -> endless f (skipn p t)).
    { intros f' p' (f2 & t2 & f3 & t3 & A & B & D) RD. exists f2, t2, f3, t3. split; [|auto]. eapply round_rounds; eauto. }
    destruct u as [|u].
    2:{ destruct (IH f1 (p + S u)%nat M1 L1 ltac:(lia)) as [E|(lf & LF & E)]; [left; eauto|]. right. exists (S lf). split; [lia|]. intros nodes. rewrite H. apply E. }
    rewrite Nat.add_0_r in *.
    destruct (step fuel f1 p M1 ltac:(lia) (HF f1 p M1 LP)) as [(v & H')|(f2 & n' & u' & M2 & L2 & R' & H')].
    { right. exists 2%nat. split; [lia|]. intros nodes. rewrite H. eauto. }
    destruct u' as [|u'].
    2:{ destruct (IH f2 (p + S u')%nat M2 L2 ltac:(lia)) as [E|(lf & LF & E)].
        - left. apply (GO f1 p); [|exact R]. destruct E as (f3 & t3 & f4 & t4 & A & B & D). exists f3, t3, f4, t4. split; [eapply round_rounds; eauto|auto].
        - right. exists (S (S lf)). split; [lia|]. intros nodes. rewrite H, H'. apply E. }
    left. rewrite Nat.add_0_r in R'. destruct (mode_three f f1 f2 MF M1 M2) as [->|[->| ->]].
    + exists f, (skipn p t), f, (skipn p t). split; [constructor|]. split; [exact R|constructor].
    + exists f, (skipn p t), f1, (skipn p t). split; [constructor|]. split; [exact R|]. eapply round_rounds; [exact R'|constructor].
    + apply (GO f1 p); [|exact R]. exists f1, (skipn p t), f1, (skipn p t). split; [constructor|]. split; [exact R'|constructor].
Qed.
End Ends.

Section Raw.
Variables (g : rules_t) (roots : list (list Z * rule)) (s : stream).
Hypothesis W : wfRules g.
Hypothesis HR : wfRoots roots.
Hypothesis C : runesOk (rest s).
Hypothesis SAFE : forall x f p, In x roots -> mode f -> careful g (snd x) f (skipn p (rest s)).
Hypothesis ORD : orderly g (List.map snd roots) (rest s).
Hypothesis AGAIN : looksAgain g (List.map snd roots) (rest s).

Lemma raw_endless o lf fuel : legal roots o -> goesRound g (List.map snd roots) (rest s) -> evalRaw lf fuel g o s = OutOfFuel.
Proof.
  intros HO E.
  assert (NE : rest s <> []).
  { destruct (endless_next g roots SUGGEST_SKIP (rest s) E) as (f1 & t1 & (outs & n & u & k & st & NE & _) & _). exact NE. }
  pose proof (evalRaw_text g roots s W HR C SAFE ORD AGAIN o lf fuel HO NE) as X.
  pose proof (endless_text g roots (rest s) W HR C SAFE ORD fuel lf SUGGEST_SKIP O [] ltac:(now left) E) as Y. cbn [skipn] in Y. rewrite Y in X. exact X.
Qed.
Hypothesis DEF : forall x f p, In x roots -> mode f -> exists o, Ev g (snd x) f (skipn p (rest s)) o.
Lemma raw_ends o : legal roots o ->
  goesRound g (List.map snd roots) (rest s) \/
  exists lf fuel r s', (lf <= 2 * length (rest s) + 1)%nat /\ evalRaw lf fuel g o s = Ok (r, s').
Proof.
  intros HO. destruct (list_nil_or (rest s)) as [E|(c & t & E)].
  - right. exists 1%nat, 1%nat, RawEmpty, s. split; [lia|]. now apply evalRaw_exhausted.
  - assert (NE : rest s <> []) by (rewrite E; discriminate).
    destruct (all_fuel g roots (rest s) SAFE DEF) as (fuel & HF).
    destruct (ends_or g roots (rest s) W HR C SAFE fuel HF (length (rest s)) SUGGEST_SKIP O ltac:(now left) ltac:(lia) ltac:(lia)) as [X|(lf & LF & X)]; [left; exact X|].
    right. destruct (X []) as (v & Y). cbn [skipn] in Y. pose proof (evalRaw_text g roots s W HR C SAFE ORD AGAIN o lf fuel HO NE) as Z. rewrite Y in Z.
    destruct (evalRaw lf fuel g o s) as [[r s']| |] eqn:ER; [|destruct Z|destruct Z]. exists lf, fuel, r, s'. auto.
Qed.
Lemma raw_iff o : legal roots o -> ((exists lf fuel x, evalRaw lf fuel g o s = Ok x) <-> ~ goesRound g (List.map snd roots) (rest s)).
Proof.
  intros HO. split.
  - intros (lf & fuel & x & E) GR. rewrite (raw_endless o lf fuel HO GR) in E. discriminate.
  - intros NG. destruct (raw_ends o HO) as [X|(lf & fuel & r & s' & _ & E)]; [now destruct NG|]. eauto.
Qed.
Lemma top_iff o level : legal roots o -> ((exists lf fuel x, evalTop lf fuel g o s level = Ok x) <-> ~ goesRound g (List.map snd roots) (rest s)).
Proof.
  intros HO. rewrite <- (raw_iff o HO). unfold evalTop. split; intros (lf & fuel & x & E); exists lf, fuel.
  - destruct (evalRaw lf fuel g o s) as [[r s']| |]; [eauto|discriminate..].
  - rewrite E. destruct x as [r s']. cbn [bind]. eauto.
Qed.
End Raw.

(** Going round takes a match of no text. *)
Lemma rounds_shrink g roots f t f' t' : Rounds g roots f t f' t' -> (length t' <= length t)%nat.
Proof. induction 1; [lia|]. rewrite skipn_length in IHRounds. lia. Qed.
Lemma goes_idles g roots t : goesRound g roots t -> idles g roots t.
Proof.
  intros (f & t' & f1 & t1 & R & (outs & n & u & k & st & NE & F & SL & IN & LE & -> & ->) & B).
  destruct (rounds_skip _ _ _ _ _ _ R (or_introl eq_refl)) as (MF & p & ->).
  pose proof (rounds_shrink _ _ _ _ _ _ B) as L. rewrite (skipn_length u) in L.
  assert (NP : (0 < length (skipn p t))%nat) by (destruct (skipn p t); [congruence|cbn; lia]).
  assert (u = O) as -> by lia. destruct (forall2_in _ _ _ _ F IN) as (r & Ir & E).
  exists f, p, r, n, k, st. rewrite skipn_length in NP. split; [exact MF|]. split; [lia|]. auto.
Qed.

(** Grammars without circles whose root rules always use text. *)
Lemma nulls_closed nulls ranks g : noCircles nulls ranks g = true -> forall m x, lookup g m = Some x -> nullable nulls x = true -> isIn m nulls = true.
Proof.
  intros NC m x Hx. destruct (lookup_In _ _ _ Hx) as (m' & I & ->). unfold noCircles in NC. rewrite forallb_forall in NC. specialize (NC _ I). cbn in NC.
  rewrite !andb_true_iff, orb_true_iff, negb_true_iff in NC. intros NX. destruct NC as [_ [X|X]]; congruence.
Qed.
Lemma raw_class nulls ranks g roots o s : wfRules g -> wfRoots roots -> runesOk (rest s) ->
  noCircles nulls ranks g = true -> (forall x, In x roots -> lookup g (fst x) = Some (snd x) /\ nullable nulls (snd x) = false) ->
  (forall x f p, In x roots -> mode f -> careful g (snd x) f (skipn p (rest s))) ->
  orderly g (List.map snd roots) (rest s) -> looksAgain g (List.map snd roots) (rest s) -> legal roots o ->
  exists lf fuel r s', (lf <= 2 * length (rest s) + 1)%nat /\ evalRaw lf fuel g o s = Ok (r, s').
Proof.
  intros W HR C NC HL SAFE ORD AGAIN HO.
  destruct (raw_ends g roots s W HR C SAFE ORD AGAIN) with (o := o) as [X|X]; [|exact HO| |exact X].
  - intros x f p I _. exact (noCircles_total _ _ _ W NC _ _ f _ (proj1 (HL x I))).
  - exfalso. destruct (goes_idles _ _ _ X) as (f & p & r & n & k & st & _ & _ & I & E). apply in_map_iff in I as (x & <- & I).
    destruct (HL x I) as (L & N). pose proof (uses nulls g (nulls_closed _ _ _ NC) W _ _ _ n 0 k st (W _ _ L) N E). lia.
Qed.

(** A state that comes back. *)
Lemma rootsLoop_mono g f : forall order n m cs rd ms es, (n <= m)%nat ->
  ple (rootsLoop n g order cs f rd ms es) (rootsLoop m g order cs f rd ms es).
Proof.
  induction order as [|[k r] order IH]; intros n m cs rd ms es L; cbn [rootsLoop]; [apply ple_refl|].
  apply ple_bind; [now apply eval_mono|]. intros [res cs1]. now apply IH.
Qed.
Lemma rootsLoop_agree g f order n m cs rd ms es x : rootsLoop n g order cs f rd ms es = Ok x ->
  rootsLoop m g order cs f rd ms es = OutOfFuel \/ rootsLoop m g order cs f rd ms es = Ok x.
Proof.
  intros H. destruct (Nat.le_ge_cases n m) as [L|L]; destruct (rootsLoop_mono g f order _ _ cs rd ms es L) as [E|E]; rewrite ?E, ?H in *; auto; congruence.
Qed.

(** Where a round of EvalRaw leads to. *)
Definition after (fuel : nat) (g : rules_t) (o : orders) (round : nat) (s : stream) (unused : list Z) (f : Z) : option (stream * list Z * Z) :=
  if peek (prepend s unused) =? EOFChar then None
  else match rootsLoop fuel g (o_roots o round) (prepend s unused) f [] [] [] with
  | Ok (matched, _, maxRead, cs1) =>
    match rawSelect (List.map snd (o_matched o round matched)) with
    | inr (Some res) =>
      match r_node res, slice_from maxRead (countUsed res) with
      | Some _, Ok un => Some (unwrap (depth s) cs1, un, if r_sticky res then SUGGEST_NOT_SKIP else SUGGEST_SKIP)
      | _, _ => None
      end
    | _ => None
    end
  | _ => None
  end.
Lemma after_loop n g o round s un f s' un' f' : after n g o round s un f = Some (s', un', f') -> forall lf fuel nodes,
  rawLoop (S lf) fuel g o round s un f nodes = OutOfFuel \/
  exists nd, rawLoop (S lf) fuel g o round s un f nodes = rawLoop lf fuel g o (S round) s' un' f' (nd :: nodes).
Proof.
  unfold after. intros H lf fuel nodes. cbn [rawLoop]. destruct (peek (prepend s un) =? EOFChar); [discriminate|].
  destruct (rootsLoop n g _ _ _ _ _ _) as [[[[ms es] rd] cs1]| |] eqn:E; try discriminate.
  destruct (rootsLoop_agree _ _ _ _ fuel _ _ _ _ _ E) as [->| ->]; cbn [bind]; [now left|]. right.
  destruct (rawSelect _) as [[? ?]|[res|]]; try discriminate. destruct (r_node res) as [nd|]; [|discriminate].
  destruct (slice_from rd (countUsed res)) as [u| |]; try discriminate. injection H as <- <- <-. cbn [bind]. eauto.
Qed.
Lemma after_round n g o r1 r2 s un f : (forall k, o_roots o k = o_roots o 0) -> (forall k l, o_matched o k l = o_matched o 0 l) ->
  after n g o r1 s un f = after n g o r2 s un f.
Proof.
  intros H1 H2. unfold after. rewrite (H1 r1), (H1 r2). destruct (_ =? _); [reflexivity|]. destruct (rootsLoop _ _ _ _ _ _ _ _) as [[[[ms es] rd] cs1]| |]; try reflexivity.
  now rewrite (H2 r1), (H2 r2).
Qed.
(** A state that comes back is never left. *)
Lemma stays n g o s un f : (forall k, o_roots o k = o_roots o 0) -> (forall k l, o_matched o k l = o_matched o 0 l) ->
  after n g o 0 s un f = Some (s, un, f) -> forall lf fuel round nodes, rawLoop lf fuel g o round s un f nodes = OutOfFuel.
Proof.
  intros H1 H2 H. induction lf as [|lf IH]; intros fuel round nodes; [reflexivity|].
  assert (X : after n g o round s un f = Some (s, un, f)) by (rewrite <- H; now apply after_round).
  destruct (after_loop _ _ _ _ _ _ _ _ _ _ X lf fuel nodes) as [E|(nd & E)]; rewrite E; [reflexivity|apply IH].
Qed.
Lemma raw_stays n g o s s1 un f : (forall k, o_roots o k = o_roots o 0) -> (forall k l, o_matched o k l = o_matched o 0 l) -> peek s <> EOFChar ->
  after n g o 0 s [] SUGGEST_SKIP = Some (s1, un, f) -> after n g o 0 s1 un f = Some (s1, un, f) ->
  forall lf fuel, evalRaw lf fuel g o s = OutOfFuel.
Proof.
  intros H1 H2 NE A B lf fuel. unfold evalRaw. destruct (Z.eqb_spec (peek s) EOFChar) as [E|_]; [contradiction|].
  destruct lf as [|lf]; [reflexivity|]. destruct (after_loop _ _ _ _ _ _ _ _ _ _ A lf fuel []) as [E|(nd & E)]; rewrite E; [reflexivity|].
  now apply (stays n g o s1 un f).
Qed.
