(** The shipped arithmetic grammar: EvalRule on the rule [expr]. *)
From Verif Require Import Base Stream StreamFacts CallFacts Node Rule Grammar SpecStream SpecRule TermFacts TermSpec SpecEval SpecEv EvFacts EvDet EvalFuel EvalSem
  SpecTerm WfDec LoopFacts SpecDriver DriverFacts LLMain NodeText SpecLL LLFacts LLDec LLKnown LangFacts EraseFacts JsonLex JsonLang JsonDriver RepoSamples SpecArith ArithLex ArithSafe ArithLang ArithNum ArithExpr.

Lemma bare_erase n : bare (erase n) = bare n.
Proof.
  induction n as [n IH] using node_ind'. destruct n as [ty nm ch ks po st vi nd' tk]. cbn [n_kids] in IH. cbn [erase bare n_type n_name n_chars n_kids n_virtual n_nondata n_tokenized]. f_equal.
  rewrite map_map. induction IH as [|k ks H F IHf]; [reflexivity|]. cbn [List.map]. now rewrite H, IHf.
Qed.
Lemma goes_end ops : ~ goesOn ops [].
Proof. intros [(w & c & r & E & _)|(c & r & E & _)]; [destruct w|]; discriminate. Qed.

(** A text is a text of one sum. *)
Lemma sum_once e e' t : plainSpace t -> Sum found e t -> Sum found e' t -> e = e'.
Proof.
  intros PS A B. destruct (aTotal aExpr _ SK t look_expr) as (o & E). pose proof (sum_longest t o PS E) as L. assert (EQ : t = t ++ []) by now rewrite app_nil_r.
  destruct o as [n u k st|k st]; cbn [longest] in L.
  - destruct L as (_ & x & _ & _ & L). destruct (L e t [] EQ A) as [[_ ->]|[_ G]]; [|destruct (goes_end _ G)]. destruct (L e' t [] EQ B) as [[_ ->]|[_ G]]; [reflexivity|destruct (goes_end _ G)].
  - destruct (L e t [] EQ A).
Qed.

Lemma arith_rule fuel sample res : runesOk sample -> plainSpace sample -> evalRule fuel gArith aExpr sample = Ok res ->
  (exists e s s' n, sample = s ++ s' /\ Sum found e s /\ r_node res = Some n /\ bare n = sumTree e /\ (length (r_read res) - length (r_unused res) = length s)%nat /\
     forall e' z z', sample = z ++ z' -> Sum found e' z -> (length z <= length s)%nat) \/
  ((forall e s s', sample = s ++ s' -> ~ Sum found e s) /\ r_node res = None).
Proof.
  intros R D E. unfold evalRule in E. rewrite getRule_rules, gA_is, look_expr in E. set (r := xChain aExpr aTop aTerm) in *.
  destruct (eval fuel gA r (newStream sample) SK) as [[res' s']| |] eqn:EV; cbn in E; [|discriminate..]. injection E as ->.
  assert (C : aClass r) by (apply (aLookup aExpr); [exact look_expr|discriminate]). assert (W : wfRule r) by (now apply (gA_wf aExpr)).
  destruct (refine_sound _ _ _ _ (newStream sample) _ _ gA_wf W R EV (proj1 (arith_clear r SK sample C D fuel))) as (x & EX & SH & _). change (rest (newStream sample)) with sample in *.
  apply (ref_any aExpr r) in EX; [|exact look_expr]. pose proof (sum_longest sample x D EX) as L. destruct x as [n u k st|k st]; cbn [shows longest] in *.
  - left. destruct SH as (LE & RD & UN & _ & nd' & EN & ER). destruct L as (U & e & X & B & O). exists e, (firstn u sample), (skipn u sample), nd'.
    split; [now rewrite firstn_skipn|]. split; [exact X|]. split; [exact EN|]. split; [rewrite <- bare_erase, ER; exact B|]. split.
    + rewrite RD, UN, skipn_length, !firstn_length. lia.
    + intros e' z z' Z Y. rewrite firstn_length. destruct (O e' z z' Z Y) as [[-> _]|[LT _]]; [rewrite firstn_length; lia|lia].
  - right. destruct SH as (_ & _ & _ & EN). split; [|exact EN]. intros e s s'' Z. exact (L e s s'' Z).
Qed.
Lemma arith_returns sample : runesOk sample -> plainSpace sample -> exists N res, forall fuel, (N <= fuel)%nat -> evalRule fuel gArith aExpr sample = Ok res.
Proof.
  intros R D. set (r := xChain aExpr aTop aTerm). assert (C : aClass r) by (apply (aLookup aExpr); [exact look_expr|discriminate]). assert (W : wfRule r) by (now apply (gA_wf aExpr)).
  destruct (aTotal aExpr _ SK sample look_expr) as (x & E). apply (inv_ref_any gA _ _ _ _ _ look_expr) in E. fold r in E.
  destruct (refine_complete gA r SK (newStream sample) x gA_wf W R E) as [(n & U)|(n & res & s' & X & _)].
  - exfalso. exact (proj1 (arith_clear r SK sample C D n) U).
  - exists n, res. intros fuel LE. unfold evalRule. rewrite getRule_rules, gA_is, look_expr. fold r. pose proof (ple_ok _ _ _ (eval_mono gA n fuel r (newStream sample) SK LE) X) as ->. reflexivity.
Qed.
(** A text of a sum is read as that sum, to its end. *)
Lemma arith_whole e t : runesOk t -> plainSpace t -> Sum found e t ->
  exists N, forall fuel, (N <= fuel)%nat -> exists res n, evalRule fuel gArith aExpr t = Ok res /\ r_node res = Some n /\ bare n = sumTree e /\ (length (r_read res) - length (r_unused res) = length t)%nat.
Proof.
  intros R D X. destruct (arith_returns t R D) as (N & res & H). exists N. intros fuel LE. specialize (H fuel LE). exists res. assert (EQ : t = t ++ []) by now rewrite app_nil_r.
  destruct (arith_rule fuel t res R D H) as [(e' & s & s' & n & ET & Y & EN & B & L & O)|(NO & _)]; [|destruct (NO e t [] EQ X)].
  specialize (O e t [] EQ X). pose proof (f_equal (@length Z) ET) as LT. rewrite app_length in LT. assert (s' = []) by (apply length_zero_iff_nil; lia). subst s'. rewrite app_nil_r in ET. subst s.
  exists n. split; [exact H|]. split; [exact EN|]. split; [|exact L]. rewrite B. f_equal. exact (sum_once e' e t D Y X).
Qed.

(* ---------------- texts as they are meant ---------------- *)

Section Mono.
Variables (P Q : bool -> list Z -> list Z -> list Z -> Prop).
Hypothesis number_mono : forall x t, Number P x t -> Number Q x t.
Fixpoint factor_mono x t (H : Factor P x t) {struct H} : Factor Q x t.
Proof.
  destruct H as [n t H|w c l W C F|w e t w' W H W'].
  - constructor. now apply number_mono.
  - now constructor.
  - constructor; [exact W| |exact W']. clear W W' w w'.
    assert (CH : forall e t, Chain timesDivide (Factor P) e t -> Chain timesDivide (Factor Q) e t).
    { clear e t H. intros e t H. destruct H as [x t l t' X L]. constructor; [now apply factor_mono|]. induction L as [|w o y ty l' tl W O Y L IH]; constructor; auto. }
    destruct H as [x t l t' X L]. constructor; [now apply CH|]. induction L as [|w o y ty l' tl W O Y L IH]; constructor; auto.
Qed.
End Mono.
Lemma sum_mono (P Q : bool -> list Z -> list Z -> list Z -> Prop) e t : (forall x t, Number P x t -> Number Q x t) -> Sum P e t -> Sum Q e t.
Proof.
  intros PQ H.
  assert (CH : forall e t, Product P e t -> Product Q e t).
  { clear e t H. intros e t H. destruct H as [x t l t' X L]. constructor; [now apply (factor_mono P Q)|]. induction L as [|w o y ty l' tl W O Y L IH]; constructor; auto. now apply (factor_mono P Q). }
  destruct H as [x t l t' X L]. constructor; [now apply CH|]. induction L as [|w o y ty l' tl W O Y L IH]; constructor; auto.
Qed.
(** Texts that are meant and are found have digits only in the integer part. *)
Lemma spread_run ds : Forall decDigit ds -> Spread ds ds.
Proof. intros F. induction F as [|d ds D _ IH]; [constructor|]. apply (sd_more [] d ds ds); [constructor|exact D|exact IH]. Qed.
Lemma number_usual x t : Number usual x t -> Number found x t.
Proof.
  intros H. destruct H as [w m ds W D|w ds W D|w ds W D|w ds W D|m ds es t D F (M & C)]; try (now constructor). apply nu_float; [exact D|exact F|]. destruct m; [exact M|].
  destruct C as [C|C]; [discriminate|]. destruct M as (w & W & ->). exists (w ++ ds). cbn [sign app]. split; [|now rewrite <- app_assoc].
  destruct ds as [|d ds]; [congruence|]. constructor; [exact W|exact (Forall_inv D)|]. apply spread_run. exact (Forall_inv_tail D).
Qed.
Lemma sum_usual e t : Sum usual e t -> Sum found e t.
Proof. apply sum_mono. exact number_usual. Qed.
Lemma number_sub (P Q : bool -> list Z -> list Z -> list Z -> Prop) x t : (forall m ds es t, P m ds es t -> Q m ds es t) -> Number P x t -> Number Q x t.
Proof. intros PQ H. destruct H; constructor; auto. Qed.
Lemma sum_meant e t : Sum usual e t -> Sum meant e t.
Proof. apply sum_mono. intros x s. apply number_sub. intros m ds es u [M _]. exact M. Qed.
(** A sum has a rune that is no white space. *)
Lemma factor_dark x s s' : Factor found x s -> skipn (lead (s ++ s')) (s ++ s') <> [].
Proof.
  intros H. destruct H as [n t H|w c l W C F|w e t w' W H W'].
  - destruct (num_head _ n t s' H eq_refl) as (c & r & -> & _). discriminate.
  - destruct (var_head _ (c :: l) (w ++ c :: l) s' ltac:(exists w, c, l; auto) eq_refl) as (d & r & -> & _). discriminate.
  - rewrite <- app_assoc. cbn [app]. destruct (white_head w 40 ((t ++ w' ++ [41]) ++ s') _ W eq_refl eq_refl) as (_ & -> & _). discriminate.
Qed.
Lemma sum_dark e s : Sum found e s -> skipn (lead s) s <> [].
Proof. intros H. destruct H as [x t l t' X L]. destruct X as [x t1 l1 t2 X L1]. rewrite <- app_assoc. now apply (factor_dark x). Qed.
