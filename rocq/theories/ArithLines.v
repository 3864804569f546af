(** The root rule of the shipped arithmetic grammar: sums on lines of their own. *)
From Verif Require Import Base Stream StreamFacts CallFacts Node Rule Grammar SpecStream SpecRule TermFacts TermSpec SpecEval SpecEv EvFacts EvDet EvalFuel EvalSem
  SpecTerm WfDec LoopFacts SpecDriver DriverFacts LLMain NodeText SpecLL LLFacts LLDec LLKnown LangFacts EraseFacts JsonLex JsonSafe JsonLang JsonDriver RepoSamples SpecArith SpecLines
  ArithLex ArithSafe ArithLang ArithNum ArithExpr ArithRule ArithLook.
From Verif Require PlaceFacts GrammarFacts.

(* ---------------- rules that are never unsafe ---------------- *)

(** What the rule means on the text is what [sem] computes. *)
Definition exactly (r : rule) (f : Z) (t : list Z) : Prop :=
  forall fuel x, Ev gA r f t x -> sem fuel gA r f t = SFuel \/ sem fuel gA r f t = SOk (asSem x).
Lemma exact_class r f t : aClass r -> plainSpace t -> exactly r f t.
Proof. intros C P fuel x E. apply exact_out; [now apply arith_good|exact E]. Qed.
Lemma exact_clear r f t : exactly r f t -> (exists x, Ev gA r f t x) -> clearCut gA r f t.
Proof. intros X (x & E) fuel. destruct (X fuel x E) as [H|H]; rewrite H; split; intros; try discriminate. destruct x; discriminate. Qed.

Lemma exact_two b r1 r2 f t : exactly r1 f t ->
  (forall n u k s, Ev gA r1 f t (OMatch n u k s) -> exactly r2 (nextMode f n s) (skipn u t) /\
     forall n2 u2 k2 s2, Ev gA r2 (nextMode f n s) (skipn u t) (OMatch n2 u2 k2 s2) -> safe true u k u2 k2 = true) ->
  exactly (RConcat b [r1; r2]) f t.
Proof.
  intros X1 X2 fuel x E. destruct fuel as [|fuel]; [now left|]. inversion E as [| | | | | | | | | | | |? ? ? ? ? C| | | |]; subst. cbn [sem semStep semSeq]. cbn [skipn].
  inversion C as [|? ? ? ? ? ? ? ? ? n u k s ? E1 F|? ? ? ? ? ? ? ? ? k s E1]; subst; cbn [skipn] in E1.
  - destruct (X2 _ _ _ _ E1) as [Y2 SF]. destruct (X1 fuel _ E1) as [H|H]; rewrite H; [now left|]. cbn [sbind asSem isLast]. replace (safe false 0 0 u k) with true by reflexivity. cbn [Nat.add Nat.max].
    inversion F as [|? ? ? ? ? ? ? ? ? n2 u2 k2 s2 ? E2 F2|? ? ? ? ? ? ? ? ? k2 s2 E2]; subst; cbn [Nat.add] in E2.
    + inversion F2; subst. destruct (Y2 fuel _ E2) as [H2|H2]; rewrite H2; [now left|]. cbn [sbind asSem isLast]. rewrite (SF _ _ _ _ E2). right. reflexivity.
    + destruct (Y2 fuel _ E2) as [H2|H2]; rewrite H2; [now left|]. right. reflexivity.
  - destruct (X1 fuel _ E1) as [H|H]; rewrite H; [now left|]. right. reflexivity.
Qed.

Lemma exact_rep b r mn f t (INV : nat -> nat -> Prop) : (forall p, exactly r f (skipn p t)) -> INV 0%nat 0%nat ->
  (forall p m n u k s, INV p m -> skipn p t <> [] -> Ev gA r f (skipn p t) (OMatch n u k s) -> safe false p m u k = true /\ INV (p + u)%nat (Nat.max m (p + k))) ->
  exactly (RRep b r mn 0) f t.
Proof.
  intros XR I0 STEP fuel x E. destruct fuel as [|fuel]; [now left|]. inversion E as [| | | | | | | | | | | | |? ? ? ? ? ? ? C| | |]; subst. cbn [sem semStep].
  assert (G : forall lf p m st kids o, INV p m -> EvRep gA b r mn 0 f t p m st (rev kids) o ->
    semRep (sem fuel gA) lf b r mn 0 t f p m st kids = SFuel \/ semRep (sem fuel gA) lf b r mn 0 t f p m st kids = SOk (asSem o)).
  { assert (EN : forall p m st kids o, EvEnd b mn p m st (rev kids) o -> repEnd b mn kids p m st = asSem o).
    { intros p m st kids o H. unfold repEnd. inversion H as [? ? ? ? ? ? L|? ? ? ? ? ? L]; subst; rewrite rev_length in L; (destruct (Z.ltb_spec (Z.of_nat (length kids)) mn); [try lia; reflexivity|try lia; reflexivity]). }
    induction lf as [|lf IH]; intros p m st kids o I H; [now left|]. cbn [semRep].
    inversion H as [? ? ? ? ? ? ? ? ? ? ? Z D|? ? ? ? ? ? ? ? ? ? k s ? Z E1 D|? ? ? ? ? ? ? ? ? ? n u k s ? Z E1 M|? ? ? ? ? ? ? ? ? ? n u k s ? Z E1 M D]; subst; try lia.
    - rewrite Z. right. now rewrite (EN _ _ _ _ _ D).
    - destruct (skipn p t) as [|c l] eqn:Q; [congruence|]. pose proof (XR p fuel _ ltac:(rewrite Q; exact E1)) as X. rewrite Q in X. destruct X as [X|X]; rewrite X; [now left|]. right. cbn [sbind asSem]. now rewrite (EN _ _ _ _ _ D).
    - pose proof E1 as E2. destruct (STEP p m n u k s I Z E1) as [SF I']. destruct (skipn p t) as [|c l] eqn:Q; [congruence|]. pose proof (XR p fuel _ ltac:(rewrite Q; exact E1)) as X. rewrite Q in X. destruct X as [X|X]; rewrite X; [now left|].
      cbn [sbind asSem]. cbn [Z.gtb Z.compare andb]. rewrite SF. apply IH; [exact I'|]. cbn [rev]. exact D. }
  exact (G (S fuel) 0%nat 0%nat true [] x I0 C).
Qed.

(* ---------------- the newline ---------------- *)

Definition xNlOne : rule := RChoice nb [[RString nb [10]; RString nb [13]]].
Definition xNl : rule := RRep nb xNlOne 1 0.
Definition xLine : rule := RConcat nb [xNl; ref aExpr].
Lemma exprs_is : xExprs = RConcat (named aExprs) [ref aExpr; many xLine]. Proof. reflexivity. Qed.

(** The white space in front of [t] ends with [c]. *)
Definition endsWith (c : Z) (t : list Z) : Prop := exists w, ws_prefix t = w ++ [c].
Definition nlText (c : Z) : node := Node TString [] [c] [] None false false false false.
Definition nlWord (c : Z) : node := tree TChoice nb [nlText c] false.
Lemma ends_tail c t : tail_is (ws_prefix t) [c] = true <-> endsWith c t.
Proof.
  split.
  - intros H. destruct (PlaceFacts.tail_split _ _ H) as (w & E). now exists w.
  - intros (w & ->). unfold tail_is. rewrite app_length. cbn [length]. replace (length w + 1 - 1)%nat with (length w) by lia. rewrite skipn_app, skipn_all, Nat.sub_diag. cbn. now rewrite Z.eqb_refl.
Qed.
Lemma ends_dec c t : endsWith c t \/ ~ endsWith c t.
Proof. destruct (tail_is (ws_prefix t) [c]) eqn:E; [left; now apply ends_tail|right; intros H; apply ends_tail in H; congruence]. Qed.
Lemma ends_one c c' t : endsWith c t -> endsWith c' t -> c = c'.
Proof. intros (w & A) (w' & B). rewrite A in B. now apply app_inj_tail in B. Qed.
Lemma ends_pos c t : endsWith c t -> (0 < lead t)%nat.
Proof. intros (w & A). unfold lead. rewrite A, app_length. cbn. lia. Qed.
Lemma nl_string c t : isWS c = true ->
  (endsWith c t -> ofTerm TString nb false (tlit (skips SK true) [c] t) = OMatch (nlText c) (lead t) (lead t) false) /\
  (~ endsWith c t -> exists k, ofTerm TString nb false (tlit (skips SK true) [c] t) = OFail k false /\ (k <= lead t)%nat).
Proof.
  intros W. change (skips SK true) with true. unfold tlit. destruct t as [|x t'].
  - split; [intros H; apply ends_pos in H; cbn in H; lia|]. intros _. exists 0%nat. split; [reflexivity|lia].
  - remember (x :: t') as t eqn:ET. cbn [ws_prefix]. rewrite W. cbn [length ws_prefix]. fold (lead t). rewrite <- ends_tail. destruct (tail_is (ws_prefix t) [c]) eqn:T.
    + split; [intros _|congruence]. assert (P : (0 < lead t)%nat) by (apply ends_tail in T; now apply ends_pos in T). destruct (Nat.ltb_spec (lead t) 1); [lia|]. cbn [negb skipn litmatch snd fst]. rewrite app_nil_r. cbn [ofTerm length]. fold (lead t). rewrite Nat.sub_0_r. reflexivity.
    + split; [congruence|intros _]. exists (lead t). split; [|lia]. destruct (lead t <? 1)%nat; reflexivity.
Qed.
Definition oneOut (t : list Z) (o : ores) : Prop :=
  (exists c, newline c /\ endsWith c t /\ o = OMatch (nlWord c) (lead t) (lead t) false) \/
  ((forall c, newline c -> ~ endsWith c t) /\ exists k, o = OFail k false /\ (k <= lead t)%nat).
Lemma term_same ty b st x : ofT ty b st x = asSem (ofTerm ty b st x).
Proof. destruct x as [[[cs|] rd] un]; reflexivity. Qed.
Lemma one_sem t : exists o, oneOut t o /\ Ev gA xNlOne SK t o /\ exactly xNlOne SK t.
Proof.
  set (S1 := ofTerm TString nb false (tlit (skips SK true) [10] t)). set (S2 := ofTerm TString nb false (tlit (skips SK true) [13] t)).
  assert (E1 : Ev gA (RString nb [10]) SK t S1) by apply ev_string. assert (E2 : Ev gA (RString nb [13]) SK t S2) by apply ev_string.
  destruct (nl_string 10 t eq_refl) as [Y1 N1]. destruct (nl_string 13 t eq_refl) as [Y2 N2]. fold S1 in Y1, N1. fold S2 in Y2, N2.
  assert (SEM : forall n, sem (S (S n)) gA xNlOne SK t = semChoice (fun r f t => SOk (asSem (match r with RString _ (10 :: _) => S1 | _ => S2 end))) nb [[RString nb [10]; RString nb [13]]] t SK 0 true).
  { intros n. cbn [sem semStep xNlOne semChoice semAlts]. rewrite !term_same. reflexivity. }
  assert (FIN : forall o, oneOut t o -> Ev gA xNlOne SK t o -> (forall n, sem (S (S n)) gA xNlOne SK t = SOk (asSem o)) -> exists o, oneOut t o /\ Ev gA xNlOne SK t o /\ exactly xNlOne SK t).
  { intros o A B C. exists o. split; [exact A|]. split; [exact B|]. intros fuel x EX. rewrite (ev_det _ _ _ _ _ _ EX B). destruct fuel as [|[|fuel]]; [now left|left; reflexivity|right; apply C]. }
  destruct (ends_dec 10 t) as [D1|D1]; [|destruct (ends_dec 13 t) as [D2|D2]].
  - assert (D2 : ~ endsWith 13 t) by (intros D2; pose proof (ends_one _ _ _ D1 D2); lia). specialize (Y1 D1). destruct (N2 D2) as (k2 & N2' & L2).
    rewrite Y1 in *. rewrite N2' in *. apply (FIN (OMatch (nlWord 10) (lead t) (lead t) false)).
    + left. exists 10. split; [now left|]. auto.
    + apply ev_choice. assert (A : EvAlts gA [RString nb [10]; RString nb [13]] SK t 0 true [(nlText 10, lead t)] (Nat.max (Nat.max 0 (lead t)) k2) (true && false && false)).
      { eapply ea_match; [exact E1|]. eapply ea_fail; [exact E2|]. apply ea_nil. }
      replace (Nat.max (Nat.max 0 (lead t)) k2) with (lead t) in A by lia. cbn [andb] in A.
      apply (ec_pick gA nb _ [] SK t 0 true _ _ _ (nlText 10) (lead t) A). exists [], []. split; [reflexivity|constructor].
    + intros n. rewrite SEM. cbn [semChoice semAlts sbind asSem rev app]. rewrite pick_one. replace (Nat.max (Nat.max 0 (lead t)) k2) with (lead t) by lia. reflexivity.
  - specialize (Y2 D2). destruct (N1 D1) as (k1 & N1' & L1). rewrite Y2 in *. rewrite N1' in *. apply (FIN (OMatch (nlWord 13) (lead t) (lead t) false)).
    + left. exists 13. split; [now right|]. auto.
    + apply ev_choice. assert (A : EvAlts gA [RString nb [10]; RString nb [13]] SK t 0 true [(nlText 13, lead t)] (Nat.max (Nat.max 0 k1) (lead t)) (true && false && false)).
      { eapply ea_fail; [exact E1|]. eapply ea_match; [exact E2|]. apply ea_nil. }
      replace (Nat.max (Nat.max 0 k1) (lead t)) with (lead t) in A by lia. cbn [andb] in A.
      apply (ec_pick gA nb _ [] SK t 0 true _ _ _ (nlText 13) (lead t) A). exists [], []. split; [reflexivity|constructor].
    + intros n. rewrite SEM. cbn [semChoice semAlts sbind asSem rev app]. rewrite pick_one. replace (Nat.max (Nat.max 0 k1) (lead t)) with (lead t) by lia. reflexivity.
  - destruct (N1 D1) as (k1 & N1' & L1). destruct (N2 D2) as (k2 & N2' & L2). rewrite N1', N2' in *. apply (FIN (OFail (Nat.max (Nat.max 0 k1) k2) false)).
    + right. split; [intros c [->| ->]; assumption|]. eexists. split; [reflexivity|lia].
    + apply ev_choice. assert (A : EvAlts gA [RString nb [10]; RString nb [13]] SK t 0 true [] (Nat.max (Nat.max 0 k1) k2) (true && false && false)).
      { eapply ea_fail; [exact E1|]. eapply ea_fail; [exact E2|]. apply ea_nil. }
      cbn [andb] in A. eapply ec_next; [exact A|apply ec_none].
    + intros n. rewrite SEM. reflexivity.
Qed.
Lemma one_out t o : Ev gA xNlOne SK t o -> oneOut t o.
Proof. intros E. destruct (one_sem t) as (o' & A & B & _). now rewrite (ev_det _ _ _ _ _ _ E B). Qed.
Lemma ends_here t c : ~ endsWith c (skipn (lead t) t).
Proof. intros H. apply ends_pos in H. rewrite lead_done in H. lia. Qed.

Definition nlNode (c : Z) : node := tree TRepetition nb [nlWord c] false.
Definition nlOut (t : list Z) (o : ores) : Prop :=
  (exists c, newline c /\ endsWith c t /\ o = OMatch (nlNode c) (lead t) (lead t) false) \/
  ((forall c, newline c -> ~ endsWith c t) /\ exists k s, o = OFail k s /\ (k <= lead t)%nat).
Lemma nl_ev t : exists o, nlOut t o /\ Ev gA xNl SK t o.
Proof.
  destruct (one_sem t) as (o & A & B & _). destruct (list_nil_or t) as [->|(c0 & t0 & ET)].
  - exists (OFail 0 true). split; [right; split; [intros c _ H; apply ends_pos in H; cbn in H; lia|]; exists 0%nat, true; split; [reflexivity|lia]|]. apply ev_rep. apply er_end; [reflexivity|]. apply ee_few. cbn. lia.
  - assert (NE : skipn 0 t <> []) by (rewrite ET; discriminate). destruct A as [(c & NC & EC & ->)|(NO & k & -> & LK)].
    + exists (OMatch (nlNode c) (lead t) (lead t) false). split; [left; eauto|]. apply ev_rep. eapply er_step; [exact NE|exact B|lia|]. cbn [Nat.add Nat.max app andb].
      destruct (one_sem (skipn (lead t) t)) as (o2 & A2 & B2 & _). destruct (list_nil_or (skipn (lead t) t)) as [Q|(c1 & t1 & Q)].
      * apply er_end; [exact Q|]. apply ee_ok. cbn. lia.
      * assert (NE2 : skipn (lead t) t <> []) by (rewrite Q; discriminate). destruct A2 as [(c2 & _ & EC2 & _)|(_ & k2 & -> & L2)]; [destruct (ends_here t c2 EC2)|].
        rewrite lead_done in L2. eapply er_stop; [exact NE2|exact B2|]. replace (Nat.max (lead t) (lead t + k2)) with (lead t) by lia. apply ee_ok. cbn. lia.
    + exists (OFail (Nat.max 0 (0 + k)) (true && false)). split; [right; split; [exact NO|]; eexists _, _; split; [reflexivity|lia]|]. apply ev_rep. eapply er_stop; [exact NE|exact B|]. apply ee_few. cbn. lia.
Qed.
Lemma nl_out t o : Ev gA xNl SK t o -> nlOut t o.
Proof. intros E. destruct (nl_ev t) as (o' & A & B). now rewrite (ev_det _ _ _ _ _ _ E B). Qed.
Lemma nl_exact t : exactly xNl SK t.
Proof.
  apply (exact_rep nb xNlOne 1 SK t (fun p m => (m <= p)%nat)); [| lia |].
  - intros p. destruct (one_sem (skipn p t)) as (_ & _ & _ & X). exact X.
  - intros p m n u k s LE NE E. apply one_out in E as [(c & _ & _ & [= -> -> -> ->])|(_ & k' & [=] & _)]. split; [|lia]. unfold safe. replace (m - p)%nat with 0%nat by lia. reflexivity.
Qed.

(* ---------------- a row ---------------- *)

Definition lineOut (t : list Z) (o : ores) : Prop :=
  match o with
  | OMatch n u k s => exists c ne ue ke, newline c /\ endsWith c t /\ Ev gA (ref aExpr) SK (skipn (lead t) t) (OMatch ne ue ke false) /\
      n = tree TConcat nb [nlNode c; ne] false /\ u = (lead t + ue)%nat /\ k = (lead t + ke)%nat /\ s = false
  | OFail k s => forall c ne ue ke se, newline c -> endsWith c t -> ~ Ev gA (ref aExpr) SK (skipn (lead t) t) (OMatch ne ue ke se)
  end.
Lemma line_out t o : plainSpace t -> Ev gA xLine SK t o -> lineOut t o.
Proof.
  intros P E. inversion E as [| | | | | | | | | | | |? ? ? ? ? C| | | |]; subst. inversion C as [|? ? ? ? ? ? ? ? ? n u k s ? E1 F|? ? ? ? ? ? ? ? ? k s E1]; subst; cbn [skipn] in E1; apply nl_out in E1.
  - destruct E1 as [(c & NC & EC & [= -> -> -> ->])|(_ & k' & s' & [=] & _)]. change (nextMode SK (nlNode c) false) with SK in F. cbn [Nat.add] in F.
    inversion F as [|? ? ? ? ? ? ? ? ? n2 u2 k2 s2 ? E2 F2|? ? ? ? ? ? ? ? ? k2 s2 E2]; subst.
    + inversion F2; subst. destruct (expr_node _ _ _ _ _ _ E2) as [-> _]. cbn [lineOut]. exists c, n2, u2, k2. repeat (split; [first [assumption|reflexivity]|]). split; [cbn; lia|]. now rewrite andb_false_r.
    + cbn [lineOut]. intros c' ne ue ke se _ _ E3. pose proof (ev_det _ _ _ _ _ _ E2 E3). discriminate.
  - destruct E1 as [(c & _ & _ & [=])|(NO & _)]. cbn [lineOut]. intros c' ne ue ke se NC EC _. exact (NO c' NC EC).
Qed.
Lemma expr_total f t : exists o, Ev gA (ref aExpr) f t o. Proof. exact (aTotal aExpr _ f t look_expr). Qed.
Lemma line_total t : exists o, Ev gA xLine SK t o.
Proof.
  destruct (nl_ev t) as (o & A & B). destruct A as [(c & NC & EC & ->)|(NO & k & s & -> & LK)].
  - destruct (expr_total SK (skipn (lead t) t)) as ([n2 u2 k2 s2|k2 s2] & E2).
    + eexists. apply ev_concat. eapply es_step; [exact B|]. eapply es_step; [exact E2|]. apply es_done.
    + eexists. apply ev_concat. eapply es_step; [exact B|]. apply es_fail. exact E2.
  - eexists. apply ev_concat. apply es_fail. exact B.
Qed.
Lemma expr_class : aClass (ref aExpr). Proof. apply (class_ref aExpr _ look_expr). discriminate. Qed.
Lemma line_exact t : plainSpace t -> exactly xLine SK t.
Proof.
  intros P. apply exact_two; [apply nl_exact|]. intros n u k s E. apply nl_out in E as [(c & NC & EC & [= -> -> -> ->])|(_ & k' & s' & [=] & _)]. split.
  - apply exact_class; [exact expr_class|now apply plain_skipn].
  - intros. unfold safe. rewrite Nat.sub_diag. reflexivity.
Qed.
(** What is pending in front of a row. *)
Definition due (p m : nat) (t : list Z) : Prop := (m <= p + ahead (skipn p t))%nat \/ stuck (skipn p t).
Lemma line_due t n u k s : plainSpace t -> Ev gA xLine SK t (OMatch n u k s) -> ~ stuck t /\ (ahead t <= k)%nat /\ (lead t < u <= length t)%nat /\ due u k t.
Proof.
  intros P E. apply (line_out _ _ P) in E as (c & ne & ue & ke & NC & EC & EE & -> & -> & -> & ->). pose proof (plain_skipn (lead t) t P) as P'.
  split; [intros X; apply stuck_skip in X; exact (stuck_ev _ _ _ _ _ P' X EE)|]. destruct (expr_far _ _ _ _ _ P' EE) as (A & B & L). rewrite lead_done in B. rewrite skipn_length in L. pose proof (lead_le t).
  split; [|split; [lia|]].
  - pose proof (fl_shift t) as F. unfold ahead in *. rewrite lead_done in A. lia.
  - destruct (expr_look SK _ _ _ _ _ (or_introl eq_refl) P' EE) as [X|X]; rewrite skipn_plus in X; [left; lia|right; exact X].
Qed.

(* ---------------- sums without the white space in front ---------------- *)

Lemma number_strip x s : Number found x s -> exists w c r, white w /\ isWS c = false /\ s = w ++ c :: r /\ Number found x (c :: r).
Proof.
  intros [w m ds W D|w ds W D|w ds W D|w ds W D|m ds es t D F FO].
  - destruct D as [NE D]. destruct m; cbn [sign].
    + exists w, 45, ds. split; [exact W|]. split; [reflexivity|]. split; [reflexivity|]. apply (nu_dec found [] true ds); [constructor|now split].
    + destruct ds as [|d ds]; [congruence|]. exists w, d, ds. split; [exact W|]. split; [apply dec_dark; exact (Forall_inv D)|]. split; [reflexivity|]. apply (nu_dec found [] false (d :: ds)); [constructor|now split].
  - exists w, 48, (111 :: ds). repeat (split; [first [assumption|reflexivity]|]). apply (nu_oct found [] ds); [constructor|exact D].
  - exists w, 48, (120 :: ds). repeat (split; [first [assumption|reflexivity]|]). apply (nu_hex found [] ds); [constructor|exact D].
  - exists w, 48, (98 :: ds). repeat (split; [first [assumption|reflexivity]|]). apply (nu_bin found [] ds); [constructor|exact D].
  - destruct m; cbn [found] in FO.
    + destruct FO as (w & W & ->). exists w, 45, (ds ++ 46 :: es). repeat (split; [first [assumption|reflexivity]|]). apply nu_float; [exact D|exact F|]. exists []. split; [constructor|reflexivity].
    + destruct FO as (v & SD & ->). destruct SD as [|w0 d0 ds' v' W0 D0 SD].
      * exists [], 46, es. split; [constructor|]. split; [reflexivity|]. split; [reflexivity|]. apply nu_float; [exact D|exact F|]. exists []. split; [constructor|reflexivity].
      * exists w0, d0, (v' ++ 46 :: es). split; [exact W0|]. split; [now apply dec_dark|]. split; [now rewrite <- app_assoc|]. apply nu_float; [exact D|exact F|]. exists (d0 :: v'). split; [|reflexivity].
        apply (sd_more [] d0 ds' v'); [constructor|exact D0|exact SD].
Qed.
Lemma sum_strip e s : Sum found e s -> exists w c r, white w /\ isWS c = false /\ s = w ++ c :: r /\ Sum found e (c :: r).
Proof.
  intros [x t1 l1 t2 X Y]. destruct X as [y t3 l3 t4 X Y'].
  assert (F : exists w c r, white w /\ isWS c = false /\ t3 = w ++ c :: r /\ Factor found y (c :: r)).
  { destruct X as [n t N|w c v W C F|w e' t w' W H W'].
    - destruct (number_strip n t N) as (w & c & r & A & B & C & D). exists w, c, r. repeat (split; [assumption|]). now constructor.
    - exists w, c, v. split; [exact W|]. split; [now apply letter_dark|]. split; [reflexivity|]. apply (fa_var found [] c v); [constructor|exact C|exact F].
    - exists w, 40, (t ++ w' ++ [41]). split; [exact W|]. split; [reflexivity|]. split; [reflexivity|]. apply (fa_paren found [] e' t w'); [constructor|exact H|exact W']. }
  destruct F as (w & c & r & A & B & -> & D). exists w, c, ((r ++ t4) ++ t2). split; [exact A|]. split; [exact B|]. split; [now rewrite <- !app_assoc|].
  change (c :: (r ++ t4) ++ t2) with (((c :: r) ++ t4) ++ t2). constructor; [constructor; [exact D|exact Y']|exact Y].
Qed.
Lemma noSum_strip t : noSum (skipn (lead t) t) -> noSum t.
Proof.
  intros N e s s' ET X. destruct (sum_strip e s X) as (w & c & r & W & D & -> & X'). rewrite <- app_assoc in ET. cbn [app] in ET.
  destruct (white_head w c (r ++ s') t W D ET) as (_ & Q & _). apply (N e (c :: r) s'); [exact Q|exact X'].
Qed.
Lemma sum_some e s : Sum found e s -> s <> [].
Proof. intros X. destruct (sum_strip e s X) as (w & c & r & _ & _ & -> & _). destruct w; discriminate. Qed.
Lemma noSum_nil : noSum [].
Proof. intros e s s' E X. symmetry in E. apply app_eq_nil in E as [-> _]. now apply (sum_some e []). Qed.

(* ---------------- the rows ---------------- *)

Lemma expr_front t n u k s : plainSpace t -> Ev gA (ref aExpr) SK t (OMatch n u k s) -> exists e, front e (firstn u t) t /\ bare n = sumTree e.
Proof.
  intros P E. destruct (sum_longest t _ P E) as (U & e & X & B & O). exists e. split; [|exact B]. split; [exact X|]. split; [exists (skipn u t); now rewrite firstn_skipn|].
  intros e' z z' EZ Y. destruct (O e' z z' EZ Y) as [[-> _]|[L _]]; [lia|]. rewrite firstn_length. lia.
Qed.
Lemma expr_none t k s : plainSpace t -> Ev gA (ref aExpr) SK t (OFail k s) -> noSum t.
Proof. intros P E e z z' EZ. exact (sum_longest t _ P E e z z' EZ). Qed.
Lemma ends_split c t : endsWith c t -> exists w, white w /\ t = w ++ c :: skipn (lead t) t /\ lead t = S (length w) /\ flush (skipn (lead t) t).
Proof.
  intros (w & E). exists w. pose proof (ws_prefix_white t) as WP. rewrite E in WP. split; [now apply Forall_app in WP|]. split.
  - rewrite (ws_prefix_app t) at 1. rewrite E. unfold lead. rewrite E. now rewrite <- app_assoc.
  - split; [unfold lead; rewrite E, app_length; cbn; lia|]. pose proof (ws_prefix_stop t) as ST. unfold lead. destruct (skipn (length (ws_prefix t)) t) as [|x l]; [exact I|]. cbn. intros H. apply GrammarFacts.white_dec in H. congruence.
Qed.
Lemma split_ends w c t' t : t = w ++ c :: t' -> white w -> newline c -> flush t' -> endsWith c t /\ skipn (lead t) t = t'.
Proof.
  intros ET W NC FL. assert (WC : white (w ++ [c])).
  { apply Forall_app. split; [exact W|]. constructor; [|constructor]. apply GrammarFacts.white_dec. destruct NC as [->| ->]; reflexivity. }
  assert (E0 : ws_prefix t' = []). { destruct t' as [|x l]; [reflexivity|]. cbn in *. destruct (isWS x) eqn:Q; [|reflexivity]. apply GrammarFacts.white_dec in Q. contradiction. }
  assert (E : ws_prefix t = w ++ [c]). { replace t with ((w ++ [c]) ++ t') by (rewrite <- app_assoc; now symmetry). rewrite ws_prefix_white_app by exact WC. now rewrite E0, app_nil_r. }
  split; [now exists w|]. unfold lead. rewrite E. replace t with ((w ++ [c]) ++ t') by (rewrite <- app_assoc; now symmetry). rewrite skipn_app, skipn_all, Nat.sub_diag. reflexivity.
Qed.

Lemma bare_tree ty b kids st : b_virtual b = false -> b_nondata b = false -> b_tokenized b = false -> bare (tree ty b kids st) = nd ty (b_name b) [] (List.map bare kids).
Proof. unfold tree, build. intros A B C. cbn. now rewrite A, B, C. Qed.
Lemma bare_row c ne e : bare ne = sumTree e -> bare (tree TConcat nb [nlNode c; ne] false) = rowTree (c, e).
Proof. intros B. rewrite bare_tree by reflexivity. cbn [List.map]. rewrite B. reflexivity. Qed.

Lemma line_stop t : plainSpace t -> (forall c ne ue ke se, newline c -> endsWith c t -> ~ Ev gA (ref aExpr) SK (skipn (lead t) t) (OMatch ne ue ke se)) -> Rows [] t t.
Proof.
  intros P H. constructor. intros w c t' ET W NC FL. destruct (split_ends w c t' t ET W NC FL) as [EC EQ].
  destruct (expr_total SK (skipn (lead t) t)) as ([n u k s|k s] & E); [destruct (H _ _ _ _ _ NC EC E)|]. rewrite EQ in E. apply (expr_none t' k s); [rewrite <- EQ; now apply plain_skipn|exact E].
Qed.
Definition behind (u k : nat) (t : list Z) : Prop := (k <= u + ahead (skipn u t))%nat \/ noSum (skipn u t).
Lemma line_fail t k s : plainSpace t -> Ev gA xLine SK t (OFail k s) -> (k <= ahead t)%nat \/ noSum t.
Proof.
  intros P E. inversion E as [| | | | | | | | | | | |? ? ? ? ? C| | | |]; subst. inversion C as [|? ? ? ? ? ? ? ? ? n1 u1 k1 s1 ? E1 F|? ? ? ? ? ? ? ? ? k1 s1 E1]; subst; cbn [skipn] in E1; apply nl_out in E1.
  - destruct E1 as [(c & NC & EC & [= -> -> -> ->])|(_ & k' & s' & [=] & _)]. change (nextMode SK (nlNode c) false) with SK in F. cbn [Nat.add] in F.
    inversion F as [|? ? ? ? ? ? ? ? ? n2 u2 k2 s2 ? E2 F2|? ? ? ? ? ? ? ? ? k2 s2 E2]; subst; [inversion F2|]. right. apply noSum_strip. apply (expr_none _ k2 s2); [now apply plain_skipn|exact E2].
  - destruct E1 as [(c & _ & _ & [=])|(NO & k' & s' & [= -> ->] & LK)]. left. unfold ahead. lia.
Qed.
Lemma stuck_none t : stuck t -> noSum t. Proof. intros S e s s' E X. exact (stuck_no t S e s s' E X). Qed.
Lemma due_behind u k t : due u k t -> behind u k t.
Proof. intros [H|H]; [now left|right; now apply stuck_none]. Qed.

Lemma rows_ev t : plainSpace t -> forall d p m st kids o, (length t - p <= d)%nat -> (p <= length t)%nat -> (p <= m)%nat -> due p m t ->
  EvRep gA nb xLine 0 0 SK t p m st kids o ->
  exists ns l u k st', o = OMatch (tree TRepetition nb (kids ++ ns) st') u k st' /\ List.map bare ns = List.map rowTree l /\ Rows l (skipn p t) (skipn u t) /\ (p <= u <= length t)%nat /\
    behind u k t /\ (m <= k)%nat /\ (u = p \/ ((p + ahead (skipn p t) <= k)%nat /\ ~ stuck (skipn p t))).
Proof.
  intros P. induction d as [|d IH]; intros p m st kids o LD LP PM DU H; pose proof (plain_skipn p t P) as PP;
    (inversion H as [? ? ? ? ? ? ? ? ? ? ? Z D|? ? ? ? ? ? ? ? ? ? k s ? Z E1 D|? ? ? ? ? ? ? ? ? ? n u k s ? Z E1 M|? ? ? ? ? ? ? ? ? ? n u k s ? Z E1 M D]; subst; try lia).
  1,4: (inversion D as [? ? ? ? ? ? L|]; subst; [cbn in L; lia|]; exists [], [], p, m, st; rewrite app_nil_r; split; [reflexivity|]; split; [reflexivity|]; split; [rewrite Z; constructor; intros [|] ? ? [=]|]; split; [lia|]; split; [now apply due_behind|]; split; [lia|now left]).
  1,3: (inversion D as [? ? ? ? ? ? L|]; subst; [cbn in L; lia|]; exists [], [], p, (Nat.max m (p + k))%nat, (st && s); rewrite app_nil_r; split; [reflexivity|]; split; [reflexivity|];
    split; [apply line_stop; [exact PP|exact (line_out _ _ PP E1)]|]; split; [lia|]; split; [|split; [lia|now left]]; apply due_behind in DU; destruct (line_fail _ _ _ PP E1) as [X|X]; [|now right]; destruct DU as [Y|Y]; [left; lia|now right]).
  1: { exfalso. apply Z. apply length_zero_iff_nil. rewrite skipn_length. lia. }
  destruct (line_due _ _ _ _ _ PP E1) as (NS & AH & LU & DU'). rewrite skipn_length in LU.
  apply (line_out _ _ PP) in E1 as (c & ne & ue & ke & NC & EC & EE & -> & -> & -> & ->). set (l0 := skipn p t) in *.
  destruct (expr_far _ _ _ _ _ (plain_skipn (lead l0) l0 PP) EE) as (_ & UK & _).
  assert (DN : due (p + (lead l0 + ue)) (Nat.max m (p + (lead l0 + ke))) t).
  { destruct DU as [DU|DU]; [|contradiction]. fold l0 in DU. unfold due. rewrite <- (skipn_plus p). fold l0. destruct DU' as [X|X]; [left; lia|right; exact X]. }
  destruct (IH (p + (lead l0 + ue))%nat (Nat.max m (p + (lead l0 + ke))) _ _ _ ltac:(lia) ltac:(lia) ltac:(lia) DN D)
    as (ns & l & u' & k' & st' & -> & BN & RO & LU' & BH & MK & LAST).
  destruct (expr_front _ _ _ _ _ (plain_skipn (lead l0) l0 PP) EE) as (e & FR & BE).
  exists (tree TConcat nb [nlNode c; ne] false :: ns), ((c, e) :: l), u', k', st'. split; [now rewrite <- app_assoc|]. split; [cbn [List.map]; rewrite (bare_row c ne e BE); now rewrite BN|].
  destruct (ends_split c l0 EC) as (w & W & EL & LL & FL). split; [|split; [lia|split; [exact BH|split; [lia|]]]].
  - rewrite EL. rewrite <- (firstn_skipn ue (skipn (lead l0) l0)) in FR |- *. rewrite <- (firstn_skipn ue (skipn (lead l0) l0)) in FL. apply rw_more; [exact W|exact NC|exact FL| |].
    + assert (Q : firstn ue (firstn ue (skipn (lead l0) l0) ++ skipn ue (skipn (lead l0) l0)) = firstn ue (skipn (lead l0) l0)) by now rewrite firstn_skipn. rewrite Q in FR. exact FR.
    + rewrite skipn_plus. unfold l0 at 2. rewrite skipn_plus. exact RO.
  - right. split; [|exact NS]. lia.
Qed.
