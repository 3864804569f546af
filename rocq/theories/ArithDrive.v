(** The shipped arithmetic grammar through the drivers: [EvalRule] on the root rule, [EvalRaw]. *)
From Verif Require Import Base Stream StreamFacts CallFacts Node Rule Grammar SpecStream SpecRule TermFacts TermSpec SpecEval SpecEv EvFacts EvDet EvalFuel EvalSem
  SpecTerm WfDec LoopFacts SpecDriver DriverFacts LLMain NodeText SpecLL LLFacts LLDec LLKnown LangFacts EraseFacts JsonLex JsonSafe JsonLang JsonDriver RepoSamples SpecArith SpecLines
  ArithLex ArithSafe ArithLang ArithNum ArithExpr ArithRule ArithLook ArithLines.
From Verif Require PlaceFacts GrammarFacts.

(* ---------------- the root rule ---------------- *)

Lemma many_exact t : plainSpace t -> exactly (many xLine) SK t.
Proof.
  intros P. apply (exact_rep nb xLine 0 SK t (fun p m => (p <= length t)%nat /\ due p m t)); [intros p; apply line_exact; now apply plain_skipn| |].
  - split; [lia|]. left. lia.
  - intros p m n u k s [LP DU] NE E. destruct (line_due _ _ _ _ _ (plain_skipn p t P) E) as (NS & AH & LU & DU'). rewrite skipn_length in LU. destruct DU as [DU|DU]; [|contradiction].
    split; [unfold safe; apply orb_true_iff; left; apply Nat.leb_le; lia|]. split; [lia|]. unfold due in *. rewrite skipn_plus in DU'. destruct DU' as [X|X]; [left; lia|right; exact X].
Qed.
Lemma many_total t : plainSpace t -> exists o, Ev gA (many xLine) SK t o.
Proof.
  intros P. assert (G : forall d p m st kids, (length t - p <= d)%nat -> exists o, EvRep gA nb xLine 0 0 SK t p m st kids o).
  { assert (EN : forall p m st kids, exists o, EvEnd nb 0 p m st kids o) by (intros; eexists; apply ee_ok; lia).
    induction d as [|d IH]; intros p m st kids L.
    - destruct (EN p m st kids) as (o & E). exists o. apply er_end; [|exact E]. apply length_zero_iff_nil. rewrite skipn_length. lia.
    - destruct (list_nil_or (skipn p t)) as [Q|(c & l & Q)]; [destruct (EN p m st kids) as (o & E); exists o; now apply er_end|]. assert (NE : skipn p t <> []) by (rewrite Q; discriminate).
      destruct (line_total (skipn p t)) as ([n u k s|k s] & E).
      + destruct (line_due _ _ _ _ _ (plain_skipn p t P) E) as (_ & _ & LU & _). rewrite skipn_length in LU. destruct (IH (p + u)%nat (Nat.max m (p + k)) (st && s) (kids ++ [n]) ltac:(lia)) as (o & F).
        exists o. eapply er_step; [exact NE|exact E|lia|exact F].
      + destruct (EN p (Nat.max m (p + k)) (st && s) kids) as (o & F). exists o. eapply er_stop; eassumption. }
  destruct (G (length t) 0%nat 0%nat true [] ltac:(lia)) as (o & E). exists o. now apply ev_rep.
Qed.
(** How far the rows look, and what they are. *)
Lemma many_out t o : plainSpace t -> Ev gA (many xLine) SK t o ->
  exists ns l u k st, o = OMatch (tree TRepetition nb ns st) u k st /\ List.map bare ns = List.map rowTree l /\ Rows l t (skipn u t) /\ (u <= length t)%nat /\
    behind u k t /\ (u = 0%nat \/ ((ahead t <= k)%nat /\ ~ stuck t)).
Proof.
  intros P E. inversion E as [| | | | | | | | | | | | |? ? ? ? ? ? ? C| | |]; subst. destruct (rows_ev t P (length t) 0 0 true [] o ltac:(lia) ltac:(lia) ltac:(lia) ltac:(left; lia) C) as (ns & l & u & k & st & -> & A & B & L & D & _ & F).
  cbn [skipn app] in *. exists ns, l, u, k, st. repeat (split; [first [assumption|reflexivity|lia]|]). destruct F as [F|F]; [left; lia|right]. cbn [Nat.add] in F. exact F.
Qed.
Lemma exprs_exact f t : mode f -> plainSpace t -> exactly xExprs f t.
Proof.
  intros MF P. rewrite exprs_is. apply exact_two; [now apply exact_class; [exact expr_class|]|]. intros n u k s E. destruct (expr_node _ _ _ _ _ _ E) as [-> TY]. rewrite (mode_next f n TY).
  split; [apply many_exact; now apply plain_skipn|]. intros n2 u2 k2 s2 E2. destruct (many_out _ _ (plain_skipn u t P) E2) as (ns & l & u' & k' & st & [= -> -> -> ->] & _ & _ & _ & _ & F).
  unfold safe. apply orb_true_iff. destruct F as [->|[F NS]]; [right; cbn; lia|left]. apply Nat.leb_le. destruct (expr_look f t n u k false MF P E) as [X|X]; [lia|contradiction].
Qed.
Lemma exprs_total f t : mode f -> plainSpace t -> exists o, Ev gA xExprs f t o.
Proof.
  intros MF P. rewrite exprs_is. destruct (expr_total f t) as ([n u k s|k s] & E).
  - destruct (expr_node _ _ _ _ _ _ E) as [-> TY]. destruct (many_total (skipn u t) (plain_skipn u t P)) as (o & E2). destruct (many_out _ _ (plain_skipn u t P) E2) as (ns & l & u' & k' & st & -> & _).
    eexists. apply ev_concat. eapply es_step; [exact E|]. rewrite (mode_next f n TY). eapply es_step; [exact E2|]. apply es_done.
  - eexists. apply ev_concat. apply es_fail. exact E.
Qed.
Lemma exprs_clear f t : mode f -> plainSpace t -> clearCut gA xExprs f t.
Proof. intros MF P. apply exact_clear; [now apply exprs_exact|now apply exprs_total]. Qed.

Definition pageOut (t : list Z) (o : ores) : Prop :=
  match o with
  | OMatch n u k s => exists p, Page p t (skipn u t) /\ bare n = pageTree p /\ s = false /\ n_sticky n = false /\ (0 < u <= length t)%nat /\ behind u k t
  | OFail _ _ => noSum t
  end.
Lemma page_out t o : plainSpace t -> Ev gA xExprs SK t o -> pageOut t o.
Proof.
  intros P E. rewrite exprs_is in E. inversion E as [| | | | | | | | | | | |? ? ? ? ? C| | | |]; subst. inversion C as [|? ? ? ? ? ? ? ? ? n u k s ? E1 F|? ? ? ? ? ? ? ? ? k s E1]; subst; cbn [skipn] in E1.
  - destruct (expr_node _ _ _ _ _ _ E1) as [-> TY]. rewrite (mode_next SK n TY) in F. cbn [Nat.add] in F. pose proof (plain_skipn u t P) as P'.
    inversion F as [|? ? ? ? ? ? ? ? ? n2 u2 k2 s2 ? E2 F2|? ? ? ? ? ? ? ? ? k2 s2 E2]; subst.
    2: { destruct (many_out _ _ P' E2) as (ns & l & u' & k' & st & [=] & _). }
    destruct (many_out _ _ P' E2) as (ns & l & u' & k' & st & [= -> -> -> ->] & BN & RO & LU & BH & LAST). destruct (expr_front _ _ _ _ _ P E1) as (e & FR & BE). destruct (expr_far _ _ _ _ _ P E1) as (_ & UL & KL).
    inversion F2; subst. cbn [pageOut]. exists (e, l). rewrite skipn_plus in RO. rewrite skipn_length in LU. split; [|split; [|split; [|split; [|split; [lia|]]]]].
    + rewrite <- (firstn_skipn u t) at 1. apply pg_intro; [rewrite firstn_skipn; exact FR|exact RO].
    + rewrite bare_tree by reflexivity. cbn [app List.map]. rewrite BE, bare_tree by reflexivity. rewrite BN. reflexivity.
    + reflexivity.
    + reflexivity.
    + unfold behind in *. rewrite skipn_plus in BH. destruct BH as [BH|BH]; [|now right]. destruct (expr_look SK t n u k false (or_introl eq_refl) P E1) as [X|X].
      * destruct LAST as [->|[LAST _]]; [|left; lia]. rewrite Nat.add_0_r in *. left. lia.
      * destruct LAST as [->|[_ NS]]; [|contradiction]. rewrite Nat.add_0_r in *. right. now apply stuck_none.
  - cbn [pageOut]. exact (expr_none t k s P E1).
Qed.
Lemma page_inv p t r : Page p t r -> noSum t -> False.
Proof. intros [e s t' l r' (X & _ & _) _] N. exact (N e s t' eq_refl X). Qed.

(* ---------------- one reading ---------------- *)

Lemma front_once e e' s s' t : plainSpace t -> front e s t -> front e' s' t -> s = s' /\ e = e'.
Proof.
  intros P (A & (r & ET) & M) (A' & (r' & ET') & M'). pose proof (M e' s' r' ET' A') as L. pose proof (M' e s r ET A) as L'.
  assert (E : s = s'). { apply (f_equal (firstn (length s))) in ET as X. rewrite firstn_app, firstn_all, Nat.sub_diag in X. cbn in X. rewrite app_nil_r in X. rewrite <- X, ET'. replace (length s) with (length s') by lia. now rewrite firstn_app, firstn_all, Nat.sub_diag, app_nil_r. }
  split; [exact E|]. subst s'. apply (sum_once e e' s); [|exact A|exact A']. rewrite ET in P. unfold plainSpace in *. now apply Forall_app in P.
Qed.
Lemma rows_once l t r : Rows l t r -> forall l' r', plainSpace t -> Rows l' t r' -> l = l' /\ r = r'.
Proof.
  induction 1 as [t NO|w c e s t l r W NC FL FR RO IH]; intros l' r' P H.
  - inversion H as [? NO'|w' c' e' s' t' l0 ? W' NC' FL' FR' RO']; subst; [now split|]. exfalso. destruct FR' as (X & _ & _). exact (NO w' c' (s' ++ t') eq_refl W' NC' FL' e' s' t' eq_refl X).
  - inversion H as [? NO'|w' c' e' s' t' l0 ? W' NC' FL' FR' RO' Q1 Q2 Q3]; subst.
    + exfalso. destruct FR as (X & _ & _). exact (NO' w c (s ++ t) eq_refl W NC FL e s t eq_refl X).
    + destruct (split_ends w c (s ++ t) (w ++ c :: s ++ t) eq_refl W NC FL) as [EC EQ]. destruct (split_ends w' c' (s' ++ t') (w ++ c :: s ++ t) (eq_sym Q2) W' NC' FL') as [EC' EQ'].
      pose proof (ends_one _ _ _ EC EC') as <-. rewrite EQ in EQ'. assert (PT : plainSpace (s ++ t)) by (unfold plainSpace in *; apply Forall_app in P as [_ P]; now inversion P).
      rewrite <- EQ' in FR'. destruct (front_once e e' s s' _ PT FR FR') as [<- <-]. apply app_inv_head in EQ'. subst t'. destruct (IH l0 r') as [<- <-]; [unfold plainSpace in *; now apply Forall_app in PT|exact RO'|now split].
Qed.
Lemma page_once p p' t r r' : plainSpace t -> Page p t r -> Page p' t r' -> p = p' /\ r = r'.
Proof.
  intros P PG. revert P. destruct PG as [e s t1 l r1 FR RO]. intros P H. inversion H as [e' s' t' l' r1' FR' RO' Q1 Q2 Q3]; subst. rewrite Q2 in FR'. destruct (front_once e e' s s' _ P FR FR') as [<- <-]. apply app_inv_head in Q2. subst t'.
  destruct (rows_once l t1 _ RO l' _ ltac:(unfold plainSpace in *; now apply Forall_app in P) RO') as [<- <-]. now split.
Qed.
Lemma page_rest p t r : Page p t r -> exists u, r = skipn u t /\ (0 < u <= length t)%nat.
Proof.
  intros [e s t' l r' (X & _) RO]. assert (G : exists u, r' = skipn u t' /\ (u <= length t')%nat).
  { clear X. induction RO as [|w c e' s' t2 l2 r2 W NC FL FR RO (u & -> & L)]; [exists 0%nat; split; [reflexivity|lia]|]. exists (length (w ++ [c]) + (length s' + u))%nat. split.
    - rewrite <- !skipn_plus. replace (w ++ c :: s' ++ t2) with ((w ++ [c]) ++ s' ++ t2) by now rewrite <- app_assoc. rewrite skipn_len, skipn_len. reflexivity.
    - repeat (rewrite app_length || cbn [length]). lia. }
  destruct G as (u & -> & L). exists (length s + u)%nat. split; [now rewrite <- skipn_plus, skipn_len|]. rewrite app_length. apply sum_some in X. destruct s; [congruence|]. cbn [length]. lia.
Qed.
Lemma pages_once ps t r : Pages ps t r -> forall ps' r', plainSpace t -> Pages ps' t r' -> ps = ps' /\ r = r'.
Proof.
  induction 1 as [t NO|p t t1 l r PG PS IH]; intros ps' r' P H.
  - inversion H as [|p' ? t1' l' ? PG' PS']; subst; [now split|]. exfalso. exact (page_inv _ _ _ PG' NO).
  - inversion H as [? NO|p' ? t1' l' ? PG' PS']; subst; [exfalso; exact (page_inv _ _ _ PG NO)|]. destruct (page_once _ _ _ _ _ P PG PG') as [<- <-].
    destruct (page_rest _ _ _ PG) as (u & -> & _). destruct (IH l' r' (plain_skipn u t P) PS') as [<- <-]. now split.
Qed.

(* ---------------- EvalRule ---------------- *)

Lemma look_exprs : lookup gA aExprs = Some xExprs. Proof. reflexivity. Qed.
Lemma exprs_rule fuel sample res : runesOk sample -> plainSpace sample -> evalRule fuel gArith aExprs sample = Ok res ->
  (exists p r n, Page p sample r /\ r_node res = Some n /\ bare n = pageTree p /\ (length (r_read res) - length (r_unused res) + length r = length sample)%nat) \/
  (noSum sample /\ r_node res = None).
Proof.
  intros R D E. unfold evalRule in E. rewrite getRule_rules, gA_is, look_exprs in E.
  destruct (eval fuel gA xExprs (newStream sample) SK) as [[res' s']| |] eqn:EV; cbn in E; [|discriminate..]. injection E as ->.
  assert (W : wfRule xExprs) by (now apply (gA_wf aExprs)).
  destruct (refine_sound _ _ _ _ (newStream sample) _ _ gA_wf W R EV (proj1 (exprs_clear SK sample (or_introl eq_refl) D fuel))) as (x & EX & SH & _). change (rest (newStream sample)) with sample in *.
  apply (page_out _ _ D) in EX. destruct x as [n u k st|k st]; cbn [shows pageOut] in *.
  - left. destruct SH as (LE & RD & UN & _ & nd' & EN & ER). destruct EX as (p & PG & B & _ & _ & L & _). exists p, (skipn u sample), nd'. split; [exact PG|]. split; [exact EN|]. split; [rewrite <- bare_erase, ER; exact B|].
    rewrite RD, UN, !skipn_length, !firstn_length. lia.
  - right. destruct SH as (_ & _ & _ & EN). now split.
Qed.
Lemma exprs_returns sample : runesOk sample -> plainSpace sample -> exists N res, forall fuel, (N <= fuel)%nat -> evalRule fuel gArith aExprs sample = Ok res.
Proof.
  intros R D. assert (W : wfRule xExprs) by (now apply (gA_wf aExprs)). destruct (exprs_total SK sample (or_introl eq_refl) D) as (x & E).
  destruct (refine_complete gA xExprs SK (newStream sample) x gA_wf W R E) as [(n & U)|(n & res & s' & X & _)].
  - exfalso. exact (proj1 (exprs_clear SK sample (or_introl eq_refl) D n) U).
  - exists n, res. intros fuel LE. unfold evalRule. rewrite getRule_rules, gA_is, look_exprs. pose proof (ple_ok _ _ _ (eval_mono gA n fuel xExprs (newStream sample) SK LE) X) as ->. reflexivity.
Qed.

(* ---------------- EvalRaw ---------------- *)

Lemma rounds_soft t f t' : plainSpace t -> Rounds gA [xExprs] SK t f t' -> f = SK /\ plainSpace t'.
Proof.
  intros D R. remember SK as f0 eqn:EF. revert D EF. induction R as [f t|f t outs n u st f' t' NE F SL (k & IN) LE R IH]; intros D ->; [auto|].
  inversion F as [|? x ? ? E F']; subst. inversion F'; subst. destruct IN as [->|[]]. apply (page_out _ _ D) in E. destruct E as (p & _ & _ & -> & _).
  apply IH; [now apply plain_skipn|reflexivity].
Qed.
Lemma exprs_again t : plainSpace t -> looksAgain gA [xExprs] t.
Proof.
  intros D f t' outs outs' n u k st x R F SL IN LT F' (n' & u' & k' & st' & IN') INx. destruct (rounds_soft _ _ _ D R) as [-> D'].
  inversion F as [|? y ? ? E F1]; subst. inversion F1; subst. destruct IN as [->|[]]. destruct INx as [<-|[]]. apply (page_out _ _ D') in E. destruct E as (p & _ & _ & -> & _ & _ & BH).
  inversion F' as [|? y ? ? E' F1']; subst. inversion F1'; subst. destruct IN' as [->|[]]. pose proof (plain_skipn u t' D') as D2. pose proof (page_out _ _ D2 E') as (p' & PG & _). eexists. split; [now left|]. cbn [looked].
  destruct BH as [BH|BH]; [|destruct (page_inv _ _ _ PG BH)]. enough (ahead (skipn u t') <= k')%nat by lia.
  rewrite exprs_is in E'. inversion E' as [| | | | | | | | | | | |? ? ? ? ? C| | | |]; subst. inversion C as [|? ? ? ? ? ? ? ? ? n1 u1 k1 s1 ? E1 G|]; subst. cbn [skipn] in E1. apply (expr_far _ _ _ _ _ D2) in E1. apply seq_far in G. cbn [looked] in G. lia.
Qed.
Lemma arith_wfRoots : wfRoots [(aExprs, xExprs)].
Proof. apply okRoots_ok. vm_compute. reflexivity. Qed.

Definition said (nodes l : list node) : verdict := match rev nodes ++ l with [] => VNoNode | a => VTree a end.
Lemma page_rows : forall L t, (length t < L)%nat -> runesOk t -> plainSpace t ->
  exists N ps ns r, Pages ps t r /\ List.map bare ns = List.map pageTree ps /\
    forall lf fuel nodes, (length t < lf)%nat -> (N <= fuel)%nat -> rawText lf fuel gA [xExprs] SK t nodes = Ok (match r with [] => said nodes ns | _ => VNoMatch end).
Proof.
  induction L as [|L IH]; intros t LT R D; [lia|]. destruct t as [|c0 t0].
  { exists 0%nat, [], [], []. split; [constructor; exact noSum_nil|]. split; [reflexivity|]. intros [|lf] fuel nodes LL _; [lia|]. cbn [rawText]. unfold said. rewrite app_nil_r.
    destruct nodes as [|n nodes]; [reflexivity|]. cbn [rev]. destruct (rev nodes); reflexivity. }
  set (t := c0 :: t0) in *. destruct (exprs_total SK t (or_introl eq_refl) D) as (x & ER).
  destruct (ev_complete _ _ _ _ _ ER) as (N1 & HN).
  assert (SEM : forall fuel, (N1 <= fuel)%nat -> semAll fuel gA SK t [xExprs] = SOk [asSem x]).
  { intros fuel LE. cbn [semAll]. destruct (exprs_clear SK t (or_introl eq_refl) D fuel) as [U A]. destruct (HN fuel LE) as [X|(y & X & Y)]; [contradiction|]. rewrite X. cbn [sbind].
    destruct y as [? ? ? ?|? ?|k]; cbn [noAmb] in Y; subst x; [reflexivity|reflexivity|]. now apply A in X. }
  assert (STEP : forall lf fuel nodes, (N1 <= fuel)%nat -> rawText (S lf) fuel gA [xExprs] SK t nodes =
    match pick (hitsOf [asSem x]) with PNone => Ok VNoMatch | POne n u => rawText lf fuel gA [xExprs] (if n_sticky n then SUGGEST_NOT_SKIP else SK) (skipn u t) (n :: nodes) | _ => Ok VAmbiguity end).
  { intros lf fuel nodes LE. unfold t. cbn [rawText]. fold t. now rewrite (SEM fuel LE). }
  pose proof (page_out _ _ D ER) as PO. destruct x as [n u k s|k s]; cbn [pageOut] in PO.
  - destruct PO as (p & PG & BN & -> & ST & LU & _). assert (R' : runesOk (skipn u t)) by (unfold runesOk; now apply PlaceFacts.Forall_skipn).
    destruct (IH (skipn u t) ltac:(rewrite skipn_length; lia) R' (plain_skipn u t D)) as (N2 & ps & ns & r & PS & BS & H2). exists (Nat.max N1 N2), (p :: ps), (n :: ns), r.
    split; [now apply (ps_more p t (skipn u t))|]. split; [cbn [List.map]; now rewrite BN, BS|]. intros [|lf] fuel nodes LL LE; [lia|]. rewrite STEP by lia. cbn [asSem hitsOf flat_map app]. rewrite pick_one, ST.
    rewrite H2 by (try rewrite skipn_length; lia). unfold said. cbn [rev]. now rewrite <- app_assoc.
  - exists N1, [], [], t. split; [now constructor|]. split; [reflexivity|]. intros [|lf] fuel nodes LL LE; [lia|]. rewrite STEP by lia. reflexivity.
Qed.

Section Run.
Variables (s : stream) (ords : orders).
Hypothesis R : runesOk (rest s).
Hypothesis D : plainSpace (rest s).
Hypothesis NE : rest s <> [].
Hypothesis HO : legal (rootsOf gArith) ords.

Lemma raw_page lf fuel : match rawText lf fuel gA [xExprs] SK (rest s) [] with
  | OutOfFuel => evalRaw lf fuel gA ords s = OutOfFuel
  | Panic => False
  | Ok x => sameRes x (evalRaw lf fuel gA ords s)
  end.
Proof.
  apply (evalRaw_text gA [(aExprs, xExprs)] s gA_wf arith_wfRoots R); [| | |exact HO|exact NE].
  - intros x f p [<-|[]] MF n. apply (exprs_clear f (skipn p (rest s)) MF (plain_skipn p _ D)).
  - left. cbn. lia.
  - now apply exprs_again.
Qed.
Lemma arith_raw lf fuel r s' : evalRaw lf fuel gA ords s = Ok (r, s') ->
  exists ps t, Pages ps (rest s) t /\ ((t = [] /\ exists a, r = RawOk a /\ List.map bare a = List.map pageTree ps) \/ (t <> [] /\ exists d e, r = RawNoMatch d e)).
Proof.
  intros E. pose proof (raw_page lf fuel) as X. rewrite E in X. destruct (rawText lf fuel gA [xExprs] SK (rest s) []) as [x| |] eqn:T; [|destruct X|discriminate]. cbn [sameRes] in X.
  destruct (page_rows (S (length (rest s))) (rest s) ltac:(lia) R D) as (N & ps & ns & t & PS & BS & H). exists ps, t. split; [exact PS|].
  pose proof (rawText_mono _ _ _ (Nat.max lf (S (length (rest s)))) _ (Nat.max fuel N) _ _ _ _ (Nat.le_max_l _ _) (Nat.le_max_l _ _) T) as M. rewrite H in M by lia. injection M as <-.
  destruct t as [|c t].
  - left. split; [reflexivity|]. unfold said in X. cbn [rev app] in X. destruct ns as [|n ns].
    + exfalso. destruct ps; [|discriminate]. apply NE. inversion PS. reflexivity.
    + destruct r as [a| | | |]; try discriminate. exists a. split; [reflexivity|]. cbn [verdictOf] in X. injection X as X. rewrite <- BS, X, map_map. apply map_ext. intros m. symmetry. apply bare_erase.
  - right. split; [discriminate|]. destruct r; try discriminate. eauto.
Qed.
Lemma arith_raw_returns : exists N, forall lf fuel, (length (rest s) < lf)%nat -> (N <= fuel)%nat -> exists r s', evalRaw lf fuel gA ords s = Ok (r, s').
Proof.
  destruct (page_rows (S (length (rest s))) (rest s) ltac:(lia) R D) as (N & ps & ns & t & _ & _ & H). exists N. intros lf fuel L F. pose proof (raw_page lf fuel) as X.
  rewrite (H lf fuel [] L F) in X. destruct (evalRaw lf fuel gA ords s) as [[r s']| |]; cbn in X; try contradiction; eauto.
Qed.
End Run.

(* ---------------- rows as one would write them ---------------- *)

Lemma written_stop l t : Written l t -> ~ goesOn anyOp t.
Proof.
  intros [|w c e x s l' t' W NC X SU WR]; [apply goes_end|]. assert (WC : white (w ++ [c])).
  { apply Forall_app. split; [exact W|]. constructor; [|constructor]. destruct NC as [->| ->]; cbn; tauto. }
  replace (w ++ c :: (x :: s) ++ t') with ((w ++ [c]) ++ x :: s ++ t') by now rewrite <- app_assoc.
  assert (DX : isWS x = false) by (destruct X as [X| ->]; [now apply letter_dark|reflexivity]).
  intros [(w' & c' & r' & E & W' & C)|(c' & r' & E & C)].
  - assert (DC : isWS c' = false) by (destruct C as [C|C]; [now apply anyOp_dark|now apply dec_dark]).
    destruct (white_head w' c' r' _ W' DC E) as (_ & A & _). destruct (white_head (w ++ [c]) x (s ++ t') _ WC DX eq_refl) as (_ & B & _). rewrite B in A. injection A as <- _.
    unfold anyOp, timesDivide, plusMinus, decDigit in C. unfold letter in X. lia.
  - destruct (w ++ [c]) as [|v w1] eqn:Q; [destruct w; discriminate|]. cbn [app] in E. injection E as -> _. pose proof (Forall_inv WC) as V. cbn in V. unfold nameRune, letter, decDigit in C. lia.
Qed.
Lemma front_stop e s t : plainSpace (s ++ t) -> Sum found e s -> ~ goesOn anyOp t -> front e s (s ++ t).
Proof.
  intros P X NG. destruct (expr_total SK (s ++ t)) as (o & E). pose proof (sum_longest (s ++ t) o P E) as L. destruct o as [n u k st|k st]; cbn [ArithLang.longest] in L.
  - destruct L as (U & x & _ & _ & O). split; [exact X|]. split; [now exists t|]. intros e' z z' EZ Y. destruct (O e s t eq_refl X) as [[ES _]|[_ G]]; [|contradiction].
    assert (LS : length s = u) by (rewrite ES, firstn_length; lia). destruct (O e' z z' EZ Y) as [[-> _]|[LT _]]; [rewrite firstn_length; lia|lia].
  - destruct (L e s t eq_refl X).
Qed.
Lemma written_rows l t : Written l t -> plainSpace t -> Rows l t [].
Proof.
  induction 1 as [|w c e x s l t W NC X SU WR IH]; intros P.
  - constructor. intros [|] ? ? [=].
  - assert (PT : plainSpace ((x :: s) ++ t)) by (unfold plainSpace in *; apply Forall_app in P as [_ P]; now inversion P). apply rw_more; [exact W|exact NC| | |].
    + cbn. intros H. apply GrammarFacts.white_dec in H. destruct X as [X| ->]; [apply letter_dark in X; congruence|discriminate].
    + apply front_stop; [exact PT|now apply sum_usual|now apply (written_stop l)].
    + apply IH. unfold plainSpace in *. now apply Forall_app in PT.
Qed.
Lemma written_pages e s l t : plainSpace (s ++ t) -> Sum usual e s -> Written l t -> Pages [(e, l)] (s ++ t) [].
Proof.
  intros P X W. apply (ps_more _ _ []); [|constructor; exact noSum_nil]. apply pg_intro; [apply front_stop; [exact P|now apply sum_usual|now apply (written_stop l)]|].
  apply written_rows; [exact W|]. unfold plainSpace in *. now apply Forall_app in P.
Qed.
Lemma arith_written ords e s l t : legal (rootsOf gArith) ords -> runesOk (s ++ t) -> plainSpace (s ++ t) -> Sum usual e s -> Written l t ->
  exists N, forall lf fuel, (length (s ++ t) < lf)%nat -> (N <= fuel)%nat -> exists n s', evalRaw lf fuel (rules_of gArith) ords (newStream (s ++ t)) = Ok (RawOk [n], s') /\ bare n = pageTree (e, l).
Proof.
  intros HO R P X W. assert (NE : s ++ t <> []) by (intros E; apply app_eq_nil in E as [-> _]; exact (sum_some e [] (sum_usual _ _ X) eq_refl)).
  destruct (arith_raw_returns (newStream (s ++ t)) ords R P NE HO) as (N & H). exists N. intros lf fuel L F. destruct (H lf fuel L F) as (r & s' & E).
  destruct (arith_raw (newStream (s ++ t)) ords R P NE HO lf fuel r s' E) as (ps & z & PS & A). change (rest (newStream (s ++ t))) with (s ++ t) in *.
  destruct (pages_once _ _ _ (written_pages e s l t P X W) ps z P PS) as [<- <-]. destruct A as [(_ & a & -> & BA)|[A _]]; [|congruence].
  destruct a as [|n [|]]; try discriminate. injection BA as BA. exists n, s'. rewrite gA_is. now split.
Qed.
(** White space behind the last sum is not read. *)
Lemma blank_noSum t : white t -> noSum t.
Proof.
  intros W e s s' -> X. destruct (sum_strip e s X) as (w & c & r & _ & D & -> & _). unfold white in W. rewrite <- app_assoc in W. apply Forall_app in W as [_ W]. apply Forall_inv in W. apply GrammarFacts.white_dec in W. congruence.
Qed.
Lemma blank_stop t : white t -> ~ goesOn anyOp t.
Proof.
  intros W [(w & c & r & -> & _ & C)|(c & r & -> & C)].
  - unfold white in W. apply Forall_app in W as [_ W]. apply Forall_inv in W. apply GrammarFacts.white_dec in W. destruct C as [C|C]; [apply anyOp_dark in C|apply dec_dark in C]; congruence.
  - apply Forall_inv in W. cbn in W. unfold nameRune, letter, decDigit in C. lia.
Qed.
Lemma arith_blank lf fuel ords e s w r s' : legal (rootsOf gArith) ords -> runesOk (s ++ w) -> plainSpace (s ++ w) -> Sum usual e s -> white w -> w <> [] ->
  evalRaw lf fuel (rules_of gArith) ords (newStream (s ++ w)) = Ok (r, s') -> exists d er, r = RawNoMatch d er.
Proof.
  intros HO R P X W NW E. assert (NE : s ++ w <> []) by (intros Q; apply app_eq_nil in Q as [_ Q]; contradiction). rewrite gA_is in E.
  destruct (arith_raw (newStream (s ++ w)) ords R P NE HO lf fuel r s' E) as (ps & z & PS & A). change (rest (newStream (s ++ w))) with (s ++ w) in *.
  assert (PW : Pages [(e, [])] (s ++ w) w).
  { apply (ps_more _ _ w); [|constructor; now apply blank_noSum]. apply pg_intro; [apply front_stop; [exact P|now apply sum_usual|now apply blank_stop]|]. constructor.
    intros v c t' EW WV NC FL. apply blank_noSum. rewrite EW in W. apply Forall_app in W as [_ W]. now inversion W. }
  destruct (pages_once _ _ _ PW ps z P PS) as [<- <-]. destruct A as [[A _]|(_ & d & er & ->)]; [contradiction|eauto].
Qed.
