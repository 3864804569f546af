(** On texts without backslashes the evaluator is exact in the shipped JSON grammar. *)
From Verif Require Import Base Stream StreamFacts CallFacts Node Rule Grammar SpecStream SpecRule TermFacts TermSpec SpecEval SpecEv EvFacts EvDet
  SpecTerm WfDec LoopFacts SpecDriver SpecLL LLFacts LLDec LangFacts LLKnown JsonLex.

Definition noEsc (t : list Z) : Prop := ~ In 92 t.
Lemma noEsc_skip p t : noEsc t -> noEsc (skipn p t).
Proof. intros H X. apply H. rewrite <- (firstn_skipn p t). apply in_or_app. now right. Qed.

Definition jKnown (r : rule) : Prop := r = jEither \/ r = jNumber \/ r = jString.
Notation jClass := (inClass gJ jKnown).

Definition jEnv : env := Eval vm_compute in iterate 52 gJ [].
Lemma jEnv_closed : closedEnv gJ jEnv = true. Proof. vm_compute. reflexivity. Qed.

Lemma class_of r : llC true gJ jEnv r = true -> rangeFree r = true -> jClass r.
Proof. intros L R. left. split; [|exact R]. exact (llC_ok gJ jEnv jEnv_closed true r L). Qed.

Lemma jLookup n r : lookup gJ n = Some r -> jClass r.
Proof.
  intros H. apply lookup_in in H. rewrite gJ_all in H. cbn [In] in H.
  repeat (destruct H as [H|H]; [injection H as <- <-; first [apply class_of; vm_compute; reflexivity | right; unfold jKnown; auto]|]). destruct H.
Qed.

(** Sizes of outcomes known exactly. *)
Definition asSem (x : ores) : sres := match x with OMatch n u k st => Match n u k st | OFail k st => Fail k st end.
Lemma exact_out g r f t fuel x : goodOut g r t (sem fuel g r f t) -> Ev g r f t x -> sem fuel g r f t = SFuel \/ sem fuel g r f t = SOk (asSem x).
Proof.
  intros G E. destruct (sem fuel g r f t) as [y| |] eqn:S; [|destruct G|now left]. right. f_equal.
  pose proof (ev_det _ _ _ _ _ _ E (sem_sound _ _ _ _ _ _ S)) as ->. destruct y as [n u k st|k st|k]; [reflexivity..|destruct G].
Qed.

Lemma sp_len f t : sp f t = length (if f =? SUGGEST_SKIP then ws_prefix t else []).
Proof. unfold sp, lead. now destruct (f =? SUGGEST_SKIP). Qed.
Lemma sp_dark f t c l : skipn (sp f t) t = c :: l -> isWS c = false -> sp f t = lead t /\ darkAt t c.
Proof. rewrite sp_len. apply dark_here. Qed.

Lemma first_digit c : isDigit c = true -> First gJ c (ref nDigit).
Proof.
  intros D. eapply fi_ref; [exact look_digit|]. eapply (fi_choice gJ c _ _ _ (RChar nb c false)); [now left| |apply fi_char].
  apply (in_map (fun c => RChar nb c false)). now apply digit_cases.
Qed.
Lemma first_integer c : isDigit c = true -> First gJ c (ref nInteger).
Proof. intros D. eapply fi_ref; [exact look_integer|]. apply (fi_concat gJ c (named nInteger) [] (ref nDigit) [jDigits]); [intros x []|now apply first_digit]. Qed.
Lemma first_either c : isDigit c = true -> First gJ c jEither.
Proof. intros D. eapply fi_choice; [now left|now left|now apply first_integer]. Qed.
Lemma looks_either : Looks gJ jEither.
Proof.
  eapply lo_choice; [now left|now left|]. eapply lo_ref; [exact look_integer|]. apply (lo_concat gJ (named nInteger) [ref nDigit] jDigits). apply lo_rep.
Qed.
Lemma run_head l d ds : run l = d :: ds -> exists l', l = d :: l' /\ isDigit d = true.
Proof. destruct l as [|c l]; cbn; [discriminate|]. destruct (isDigit c) eqn:D; [|discriminate]. intros E. injection E as -> _. eauto. Qed.

Lemma pick_one n u : pick [(n, u)] = POne n u.
Proof. unfold pick, longest. cbn [fold_right snd List.filter earlyTie]. rewrite Nat.max_0_r, Nat.eqb_refl. reflexivity. Qed.
Lemma pick_second n u n' u' : (u < u')%nat -> pick [(n, u); (n', u')] = POne n' u'.
Proof.
  intros L. unfold pick, longest. cbn [fold_right snd List.filter earlyTie]. rewrite Nat.max_0_r.
  destruct (Nat.eqb_spec u (Nat.max u u')); [lia|]. destruct (Nat.eqb_spec u' (Nat.max u u')); [|lia].
  destruct (Nat.ltb_spec u' u); [lia|]. destruct (Nat.eqb_spec u' u); [lia|]. reflexivity.
Qed.

Lemma seq_step rec b r rules t f p m st kids : semSeq rec b (r :: rules) t f p m st kids =
  let! x := rec r f (skipn p t) in
  match x with
  | Match n u k s =>
    if safe (isLast rules) p m u k
    then semSeq rec b rules t (nextMode f n s) (p + u) (Nat.max m (p + k)) (st && s) (n :: kids)
    else SUnsafe
  | Fail k s => SOk (Fail (Nat.max m (p + k)) (st && s))
  | Amb k => SOk (Fail (Nat.max m (p + k)) false)
  end.
Proof. reflexivity. Qed.

Section Known.
Variable fuel : nat.
Hypothesis IH : forall fuel' r f t, (fuel' <= fuel)%nat -> jClass r -> noEsc t -> goodOut gJ r t (sem fuel' gJ r f t).

Lemma int_class : jClass (ref nInteger). Proof. apply class_of; vm_compute; reflexivity. Qed.
Lemma float_class : jClass (ref nFloat). Proof. apply class_of; vm_compute; reflexivity. Qed.
Lemma minus_class : jClass jMinus. Proof. apply class_of; vm_compute; reflexivity. Qed.

Lemma either_good f t : noEsc t -> goodOut gJ jEither t (sem (S fuel) gJ jEither f t).
Proof.
  intros D. pose proof (IH fuel (ref nInteger) f t (Nat.le_refl _) int_class D) as G1. pose proof (IH fuel (ref nFloat) f t (Nat.le_refl _) float_class D) as G2.
  cbn [sem semStep jEither]. unfold jEither. cbn [semStep semChoice semAlts].
  destruct (exact_out _ _ _ _ _ _ G1 (integer_ev f t)) as [E1|E1]; rewrite E1 in G1 |- *; [exact I|].
  destruct (exact_out _ _ _ _ _ _ G2 (float_ev f t)) as [E2|E2]; rewrite E2 in G2 |- *; [destruct (asSem _); exact I|].
  clear E1 E2. unfold iOut, fOut in *. set (l := skipn (sp f t) t) in *. cbn [sbind].
  destruct (run l) as [|d ds] eqn:R.
  { cbn [shift asSem sbind goodOut good] in *. cbn [rev pick longest fold_right List.filter semChoice goodOut good]. split; [lia|]. left. pose proof (sp_lead f t). lia. }
  destruct (run_head _ _ _ R) as (l' & L' & DD). set (I := d :: ds) in *. assert (LI : (1 <= length I)%nat) by (cbn; lia).
  destruct (sp_dark f t d l' L' (digit_dark _ DD)) as [SL DA].
  assert (FD : exists c, darkAt t c /\ First gJ c jEither) by (exists d; split; [exact DA|now apply first_either]).
  destruct (frac (skipn (length I) l)) as [[|e es]|]; cbn [shift asSem sbind goodOut good rev app] in *.
  - rewrite pick_one. cbn [goodOut good]. split; [lia|]. right. split; [lia|]. split; [exact FD|]. right. split; [exact looks_either|]. left. lia.
  - rewrite pick_second by (cbn [length]; lia). cbn [goodOut good]. split; [lia|]. right. split; [lia|]. split; [exact FD|]. left. lia.
  - rewrite pick_one. cbn [goodOut good]. split; [lia|]. right. split; [lia|]. split; [exact FD|]. left. lia.
Qed.

Lemma upto_skip q t k P : (q + lead (skipn q t) = lead t)%nat -> skipn (lead (skipn q t)) (skipn q t) = skipn (lead t) t ->
  (q <= k)%nat -> upto (skipn q t) (k - q) P -> upto t k P.
Proof.
  intros A B L [H|(c & (r & H) & X)]; [left; lia|]. right. exists c. split; [|exact X]. exists r. now rewrite <- B.
Qed.
Lemma number_good f t : noEsc t -> goodOut gJ jNumber t (sem (S fuel) gJ jNumber f t).
Proof.
  intros D. change (sem (S fuel) gJ jNumber f t) with (semSeq (sem fuel gJ) (named nNumber) [RString nb []; jMinus; jEither] t f 0 0 true []).
  rewrite seq_step. destruct fuel as [|fuel']; [exact I|].
  change (sem (S fuel') gJ (RString nb []) f (skipn 0 t)) with (SOk (ofT TString nb false (tlit (skips f true) [] t))). cbn [sbind].
  destruct t as [|x t0].
  { cbn. split; [lia|left; lia]. }
  set (t := x :: t0) in *. set (q := if skips f true then lead t else 0%nat).
  assert (T : tlit (skips f true) [] t = (Some [], if skips f true then ws_prefix t else [], [])).
  { unfold tlit. unfold t at 1. fold t. cbv zeta. replace (if skips f true then ws_prefix [] else []) with (@nil Z) by now destruct (skips f true).
    cbn [length Nat.ltb Nat.leb]. rewrite tail_is_nil. cbn [negb skipn litmatch snd fst]. now rewrite app_nil_r. }
  rewrite T. cbn [ofT length]. rewrite Nat.sub_0_r. replace (length (if skips f true then ws_prefix t else [])) with q by (unfold q, lead; now destruct (skips f true)).
  assert (Q : (q + lead (skipn q t) = lead t)%nat /\ skipn (lead (skipn q t)) (skipn q t) = skipn (lead t) t).
  { unfold q. destruct (skips f true); [|now split]. rewrite lead_dark. split; [lia|reflexivity]. }
  destruct Q as [QL QS]. clearbody q. pose proof (lead_le t) as LT.
  change (safe (isLast [jMinus; jEither]) 0 0 q q) with true. cbv iota. rewrite Nat.add_0_l.
  assert (HR : forall r f t, jClass r -> noEsc t -> goodOut gJ r t (sem (S fuel') gJ r f t)) by (intros r f' t' C N; now apply IH).
  assert (CH : chain gJ [jMinus; jEither]).
  { intros pre r s post E _. destruct pre as [|a [|b pre]]; [|discriminate|destruct pre; discriminate]. injection E as <- <- <-. split; [|now left].
    intros c A B. apply (tai_sound gJ jEnv jEnv_closed) in A. apply (fir_sound gJ jEnv jEnv_closed) in B. revert A B. apply (disjoint_ok _ _ c). vm_compute. reflexivity. }
  pose proof (seq_good gJ (sem (S fuel') gJ) jClass noEsc noEsc_skip HR (named nNumber) t D [jMinus; jEither] (fun _ => False)
    (nextMode f (build TString nb [] [] None false) false) q q (true && false) [build TString nb [] [] None false]) as G.
  assert (CL : forall r, In r [jMinus; jEither] -> jClass r) by (intros r [<-|[<-|[]]]; [exact minus_class|right; now left]).
  specialize (G CL CH ltac:(lia)). rewrite Nat.sub_diag in G. specialize (G (or_introl (Nat.le_0_l _)) (or_introl eq_refl)). rewrite Nat.max_0_l.
  destruct (semSeq (sem (S fuel') gJ) (named nNumber) [jMinus; jEither] t (nextMode f (build TString nb [] [] None false) false) q q (true && false) [build TString nb [] [] None false])
    as [[n u k st|k st|k]| |]; cbn [seqGood goodOut good] in G |- *; [| |exact G..].
  - destruct G as (G1 & G2 & G3). split; [lia|]. right.
    assert (FC : forall c, First gJ c (RConcat (named nNumber) [jMinus; jEither]) -> First gJ c jNumber).
    { intros c F. unfold jNumber. inversion F as [| | | | | | | | |? pre r post NP FR E|]; subst. apply (fi_concat gJ c (named nNumber) (RString nb [] :: pre) r post); [|exact FR].
      intros y [<-|Y]; [apply nu_empty|now apply NP]. }
    destruct G3 as [(N & _)|(L & (c & DA & F) & K)].
    { exfalso. apply (nul_sound gJ jEnv jEnv_closed) in N. discriminate. }
    split; [lia|]. split.
    { exists c. split; [|now apply FC]. destruct DA as [r DA]. exists r. now rewrite <- QS. }
    destruct K as [K|(_ & LO & K)]; [now left|right]. split.
    + apply (lo_concat gJ (named nNumber) [RString nb []; jMinus] jEither). exact looks_either.
    + apply (upto_mono _ _ _ _ K). intros z Z. now apply ta_skip'.
  - destruct G as [G1 G2]. split; [lia|]. apply (upto_skip q t k); [exact QL|exact QS|lia|]. apply (upto_mono _ _ _ _ G2). intros c [[]|F].
    unfold jNumber. inversion F as [| | | | | | | | |? pre r post NP FR E|]; subst. apply (fi_concat gJ c (named nNumber) (RString nb [] :: pre) r post); [|exact FR].
    intros y [<-|Y]; [apply nu_empty|now apply NP].
Qed.

Lemma char_sem g b c u n t : sem (S n) g (RChar b c u) NOT_SKIP t = SOk (asSem (chOut b c t)).
Proof. cbn [sem semStep]. f_equal. unfold tchar, chOut. destruct t as [|x t]; [reflexivity|]. cbn [Z.eqb NOT_SKIP SUGGEST_SKIP]. now destruct (headIs c (x :: t)). Qed.

Lemma scan_good n t : noEsc t -> (lead t < length t)%nat -> darkAt t 34 -> forall k p u on, (p <= length t)%nat -> (lead t < p)%nat ->
  goodOut gJ jString t (semScan (sem (S n) gJ) k (named nString) on u false jQuote (Some (RChar nb 92 false)) [RChar nb 10 true] t p p).
Proof.
  intros D LT DA. assert (F : exists c, darkAt t c /\ First gJ c jString) by (exists 34; split; [exact DA|]; unfold jString; apply fi_block, fi_char).
  induction k as [|k IHk]; intros p u on LE LP; [exact I|].
  cbn [semScan semAlts]. unfold jQuote. rewrite !char_sem. unfold chOut. pose proof (skipn_length p t) as SL.
  destruct (skipn p t) as [|x l] eqn:E.
  { cbn [headIs asSem sbind isLast andb semAlts rev app pick longest fold_right List.filter]. cbn [goodOut good]. split; [lia|right; exact F]. }
  cbn [length] in SL. cbn [headIs].
  assert (N92 : (x =? 92) = false).
  { apply Z.eqb_neq. intros ->. apply D. rewrite <- (firstn_skipn p t), E. apply in_or_app. right. now left. }
  rewrite N92. cbn [asSem sbind isLast andb]. destruct (x =? 10).
  - cbn [asSem sbind semAlts rev app]. rewrite pick_one. destruct (Nat.leb_spec (Nat.max p (p + 0)) (p + Nat.max 0 1)); [|lia]. cbn [sbind goodOut good].
    split; [lia|right; exact F].
  - cbn [asSem sbind semAlts rev app pick longest fold_right List.filter]. destruct (x =? 34).
    + cbn [asSem sbind]. match goal with |- context [(?a <=? ?b)%nat] => destruct (Nat.leb_spec a b); [|lia] end. cbn [goodOut good].
      split; [lia|]. right. split; [lia|]. split; [exact F|]. left. reflexivity.
    + cbn [asSem sbind]. match goal with |- context [semScan _ _ _ _ _ _ _ _ _ _ (S p) ?m] => replace m with (S p) by lia end. apply IHk; lia.
Qed.

Lemma string_good f t : noEsc t -> goodOut gJ jString t (sem (S fuel) gJ jString f t).
Proof.
  intros D. change (sem (S fuel) gJ jString f t)
    with (semBlock (sem fuel gJ) (S fuel) (named nString) jQuote false jQuote (Some (RChar nb 92 false)) [RChar nb 10 true] t f).
  unfold semBlock. destruct fuel as [|n]; [exact I|]. unfold jQuote at 1.
  pose proof (literal_dark gJ (sem n gJ) (S n) (RChar mark 34 false) 34 [] f t (lit_char _ _ _)) as H.
  destruct H as (y & Y & G). { intros W. apply isWS_nIn in W; [exact W|reflexivity]. }
  change (sem (S n) gJ (RChar mark 34 false) f t) with (semStep gJ (sem n gJ) (S n) (RChar mark 34 false) f t). rewrite Y. cbn [sbind].
  destruct y as [on u k st|k st|k]; cbn [litGood] in G; [| |destruct G].
  - destruct G as (-> & B & DA). apply scan_good; try assumption; lia.
  - destruct G as [B U]. cbn [goodOut good]. split; [exact B|]. apply (upto_mono _ _ _ _ U). intros x <-. unfold jString. apply fi_block, fi_char.
Qed.
End Known.

Theorem json_good fuel r f t : jClass r -> noEsc t -> goodOut gJ r t (sem fuel gJ r f t).
Proof.
  apply (class_good gJ jKnown noEsc noEsc_skip jLookup). intros fuel0 IH r' f' t' [->|[->| ->]] D.
  - now apply either_good.
  - now apply number_good.
  - now apply string_good.
Qed.
