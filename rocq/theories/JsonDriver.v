(** The shipped JSON grammar through the drivers: [EvalRule], [EvalRaw] and [Eval] on
    texts without backslashes (C72). *)
From Coq Require Import Permutation.
From Verif Require Import Base Stream StreamFacts CallFacts Node Rule Grammar SpecStream SpecRule TermFacts TermSpec SpecEval SpecEv EvFacts EvDet EvalFuel EvalSem
  SpecTerm WfDec LoopFacts SpecDriver DriverFacts SpecLL LLFacts LLDec LangFacts LLKnown LLMain NodeText JsonLex JsonSafe RepoSamples SpecJson EraseFacts JsonLang JsonValue JsonTree JsonText.

Lemma json_ev r f t x : jClass r -> noEsc t -> Ev gJ r f t x -> good gJ r t (asSem x).
Proof.
  intros C D E. destruct (ev_complete _ _ _ _ _ E) as (fuel & X). specialize (X fuel (Nat.le_refl _)).
  pose proof (json_good fuel r f t C D) as G. destruct X as [X|(y & X & Y)]; rewrite X in G; cbn [goodOut] in G; [destruct G|].
  destruct y as [n u k st|k st|k]; cbn [noAmb] in Y; subst x; [exact G|exact G|destruct G].
Qed.

(* ---------------- how far a value is looked at ---------------- *)

Definition near (r : rule) (t : list Z) : Prop := forall n u k s, Ev gJ r SK t (OMatch n u k s) -> (k <= S u)%nat.
Lemma near_looks r t : jClass r -> noEsc t -> nulC jEnv r = false -> looC jEnv r = false -> near r t.
Proof.
  intros C D NU LO n u k s E. apply (json_ev _ _ _ _ C D) in E. cbn in E. destruct E as (_ & [(N & _)|(_ & _ & [->|(L & _)])]).
  - apply (nul_sound gJ jEnv jEnv_closed) in N. congruence.
  - lia.
  - apply (loo_sound gJ jEnv jEnv_closed) in L. congruence.
Qed.
Lemma near_number t : near (ref nNumber) t.
Proof.
  assert (EO : forall l n u k s, eOut l = OMatch n u k s -> (k <= S u)%nat).
  { intros l n u k s H. unfold eOut in H. destruct (run l); [discriminate|]. destruct (frac _) as [[|e es]|]; injection H as _ <- <- _; lia. }
  intros n u k s E. pose proof (ev_det _ _ _ _ _ _ (number_ev SK t) E) as X. unfold nOut in X. destruct (headIs 45 _).
  - destruct (eOut _) as [n1 u1 k1 s1|] eqn:Y; [|discriminate]. apply EO in Y. cbn [shift wrap] in X. injection X as _ <- <- _. lia.
  - destruct (eOut _) as [n1 u1 k1 s1|] eqn:Y; [|discriminate]. apply EO in Y. cbn [shift wrap] in X. injection X as _ <- <- _. lia.
Qed.

Lemma alts_look rules t B : (forall r o, In r rules -> Ev gJ r SK t o -> (looked o <= B)%nat) -> forall m st ml m' st', EvAlts gJ rules SK t m st ml m' st' -> (m <= B)%nat -> (m' <= B)%nat.
Proof.
  induction rules as [|r rules IH]; intros H m st ml m' st' E L; inversion E as [|? ? ? ? ? ? n1 u1 k1 s1 ml1 ? ? E1 F|? ? ? ? ? ? k1 s1 ? ? ? E1 F]; subst; [exact L| |];
    (refine (IH _ _ _ _ _ _ F _); [intros r' o' I; apply H; now right|]; apply (H r) in E1; [cbn [looked] in E1; lia|now left]).
Qed.
Definition distinct (rules : list rule) : Prop := forall r r', In r rules -> In r' rules -> r = r' \/ disjoint (firC jEnv r) (firC jEnv r') = true.
Lemma near_choice b rules t : (forall r, In r rules -> jClass r /\ nulC jEnv r = false /\ near r t) -> distinct rules -> noEsc t -> near (RChoice b [rules]) t.
Proof.
  intros HR DJ D n u k s H. inversion H as [| | | | | | | | | | | | | |? ? ? ? ? C| |]; subst. inversion C as [|? ? ? ? ? ? ? ? ? ? A E|? ? ? ? ? ? ? ? ? ? n1 ? A SL|]; subst; [inversion E|].
  destruct SL as (l1 & l2 & -> & _). destruct (alts_in _ _ _ _ _ _ _ _ _ A n1 u) as (r & k1 & s1 & I & R); [apply in_or_app; right; now left|].
  destruct (HR r I) as (RC & RN & RK). pose proof (RK _ _ _ _ R) as K1. pose proof (json_ev _ _ _ _ RC D R) as G. cbn in G.
  destruct G as (_ & [(N & _)|(LU & (c & DC & FC) & _)]); [apply (nul_sound gJ jEnv jEnv_closed) in N; congruence|].
  refine (alts_look _ _ _ _ _ _ _ _ _ A _); [|lia]. intros r' o I' R'. destruct (HR r' I') as (RC' & RN' & _). pose proof (json_ev _ _ _ _ RC' D R') as G.
  assert (SAME : forall c', darkAt t c' -> First gJ c' r' -> (looked o <= S u)%nat).
  { intros c' DC' FC'. rewrite (darkAt_fun _ _ _ DC' DC) in FC'. destruct (DJ r r' I I') as [<-|X].
    - rewrite (ev_det _ _ _ _ _ _ R' R). exact K1.
    - exfalso. eapply disjoint_ok; [exact X| |]; apply (fir_sound gJ jEnv jEnv_closed); eassumption. }
  destruct o as [n' u' k' s'|k' s']; cbn [asSem good looked] in *.
  - destruct G as (_ & [(N & _)|(_ & (c' & DC' & FC') & _)]); [apply (nul_sound gJ jEnv jEnv_closed) in N; congruence|]. now apply (SAME c').
  - destruct G as (_ & [G|(c' & DC' & FC')]); [lia|now apply (SAME c')].
Qed.
Ltac bits := repeat match goal with H : In _ (_ :: _) |- _ => destruct H as [<-|H] | H : In _ [] |- _ => destruct H end.
Lemma near_literal t : noEsc t -> near (ref nLiteral) t.
Proof.
  intros D n u k s E. apply (inv_ref gJ nLiteral jLiteral) in E; [|reflexivity]. revert E. apply near_choice; [| |exact D].
  - intros r I. bits.
    + split; [now apply (ref_class nNumber jNumber)|]. split; [vm_compute; reflexivity|apply near_number].
    + split; [now apply (ref_class nString jString)|]. split; [vm_compute; reflexivity|]. apply near_looks; [now apply (ref_class nString jString)|exact D|vm_compute; reflexivity..].
    + split; [now apply (ref_class nBool jBool)|]. split; [vm_compute; reflexivity|]. apply near_looks; [now apply (ref_class nBool jBool)|exact D|vm_compute; reflexivity..].
    + assert (C : jClass (RString nb wNull)) by (apply class_of; vm_compute; reflexivity). split; [exact C|]. split; [vm_compute; reflexivity|]. apply near_looks; [exact C|exact D|vm_compute; reflexivity..].
  - intros r r' I I'. bits; try (now left); right; vm_compute; reflexivity.
Qed.
Lemma near_value t : noEsc t -> near (ref nValue) t.
Proof.
  intros D n u k s E. apply (inv_ref gJ nValue jValue) in E; [|reflexivity]. revert E. apply near_choice; [| |exact D].
  - intros r I. bits.
    + split; [now apply (ref_class nLiteral jLiteral)|]. split; [vm_compute; reflexivity|now apply near_literal].
    + split; [now apply (ref_class nArray jArray)|]. split; [vm_compute; reflexivity|]. apply near_looks; [now apply (ref_class nArray jArray)|exact D|vm_compute; reflexivity..].
    + split; [now apply (ref_class nObject jObject)|]. split; [vm_compute; reflexivity|]. apply near_looks; [now apply (ref_class nObject jObject)|exact D|vm_compute; reflexivity..].
  - intros r r' I I'. bits; try (now left); right; vm_compute; reflexivity.
Qed.
Lemma value_some t n u k s : noEsc t -> Ev gJ (ref nValue) SK t (OMatch n u k s) -> (0 < u <= k)%nat /\ (u <= length t)%nat.
Proof.
  intros D E. apply (json_ev _ _ _ _ (ref_class nValue jValue eq_refl) D) in E. cbn in E. destruct E as (L & [(N & _)|(LU & _)]); [|lia].
  apply (nul_sound gJ jEnv jEnv_closed) in N. vm_compute in N. discriminate.
Qed.

(* ---------------- the root rule ---------------- *)

Lemma flip_none n : flip (named nJson) n = n.
Proof. now destruct n as [? ? ? ? ? ? [] [] []]. Qed.
Lemma root_value f t x : Ev gJ jJson f t x <-> Ev gJ (ref nValue) f t x.
Proof.
  split; intros E.
  - inversion E as [| | | | |? ? ? ? L'|? ? r' ? ? nd' ? ? ? L' E'|? ? r' ? ? ? ? L' E'| | | | | | | | |]; subst; [discriminate| |].
    + rewrite flip_none. now apply (go_ref gJ nValue r').
    + eapply ev_ref_fail; eassumption.
  - pose proof (inv_ref_any gJ nValue jValue _ _ _ eq_refl E) as E'. destruct x as [n u k s|k s].
    + rewrite <- (flip_none n). eapply ev_ref; [reflexivity|exact E'].
    + eapply ev_ref_fail; [reflexivity|exact E'].
Qed.
Lemma root_class : jClass jJson.
Proof. apply (jLookup nJson). reflexivity. Qed.
Lemma rounds_mode t f t' : noEsc t -> Rounds gJ [jJson] SK t f t' -> f = SK /\ noEsc t'.
Proof.
  intros D R. remember SK as f0 eqn:EF. revert D EF. induction R as [f t|f t outs n u st f' t' NE F SL (k & IN) LE R IH]; intros D ->; [auto|].
  inversion F as [|? x ? ? E F']; subst. inversion F'; subst. destruct IN as [->|[]]. apply root_value in E. pose proof (value_soft _ _ E) as S. cbn in S. subst st.
  apply IH; [now apply noEsc_skip|reflexivity].
Qed.
Lemma json_again t : noEsc t -> looksAgain gJ [jJson] t.
Proof.
  intros D f t' outs outs' n u k st x R F SL IN LT F' (n' & u' & k' & st' & IN') INx. destruct (rounds_mode _ _ _ D R) as [-> D'].
  inversion F as [|? y ? ? E F1]; subst. inversion F1; subst. destruct IN as [->|[]]. destruct INx as [<-|[]]. apply root_value in E. pose proof (value_soft _ _ E) as S. cbn in S. subst st.
  inversion F' as [|? y ? ? E' F1']; subst. inversion F1'; subst. destruct IN' as [->|[]]. apply root_value in E'.
  eexists. split; [now left|]. cbn [looked]. pose proof (near_value _ D' _ _ _ _ E) as K. destruct (value_some _ _ _ _ _ (noEsc_skip u _ D') E') as [K' _]. lia.
Qed.
Lemma json_clear r f t : jClass r -> noEsc t -> clearCut gJ r f t.
Proof.
  intros C D fuel. pose proof (json_good fuel r f t C D) as G. destruct (sem fuel gJ r f t) as [y| |]; cbn in G; [|destruct G|].
  - split; [discriminate|]. intros k E. injection E as ->. exact G.
  - split; [discriminate|]. intros k. discriminate.
Qed.

(* ---------------- values in a row ---------------- *)

Lemma spells_some v t : Spells v t -> t <> [].
Proof.
  intros S E. apply (f_equal (@length Z)) in E. inversion S as [? ? i ? ? [NI _]| |? b| | |]; subst; repeat (rewrite app_length in E || cbn [length] in E); try lia.
  - destruct i; [congruence|cbn in E; lia].
  - destruct b; cbn in E; lia.
  - cbn in E. lia.
Qed.
Lemma all_inv vs t : SpellsAll vs t -> (vs = [] /\ t = []) \/ exists v l t1 t2, vs = v :: l /\ t = t1 ++ t2 /\ Spells v t1 /\ mayFollow v t2 /\ SpellsAll l t2.
Proof. intros [|v t1 l t2 P M Q]; [now left|right]. exists v, l, t1, t2. auto. Qed.
Lemma all_once vs : forall t vs', runesOk t -> noEsc t -> SpellsAll vs t -> SpellsAll vs' t -> vs = vs'.
Proof.
  induction vs as [|v vs IH]; intros t vs' R D S S'; apply all_inv in S, S'.
  - destruct S as [[_ ->]|(? & ? & ? & ? & [=] & _)]. destruct S' as [[-> _]|(v & l & t1 & t2 & -> & E & P & _)]; [reflexivity|]. exfalso. symmetry in E. apply app_eq_nil in E as [-> _]. now apply (spells_some v []).
  - destruct S as [[[=] _]|(v0 & l0 & t1 & t2 & E0 & -> & P & M & Q)]. injection E0 as <- <-. destruct S' as [[-> E]|(v' & l & t1' & t2' & -> & E & P' & M' & Q')].
    + exfalso. apply app_eq_nil in E as [-> _]. now apply (spells_some v []).
    + destruct (spells_once v v' t1 t2 t1' t2' E D R P M P' M') as (<- & <- & <-). f_equal. apply (IH t2); [now apply runes_app in R|now apply noEsc_app in D|exact Q|exact Q'].
Qed.

Definition answer (nodes : list node) (vs : list json) : verdict := match rev nodes ++ List.map rawOf vs with [] => VNoNode | a => VTree a end.
Lemma rows : forall L t, (length t < L)%nat -> runesOk t -> noEsc t ->
  exists N, (exists vs, SpellsAll vs t /\ forall lf fuel nodes, (length t < lf)%nat -> (N <= fuel)%nat -> rawText lf fuel gJ [jJson] SK t nodes = Ok (answer nodes vs)) \/
    ((forall vs, ~ SpellsAll vs t) /\ forall lf fuel nodes, (length t < lf)%nat -> (N <= fuel)%nat -> rawText lf fuel gJ [jJson] SK t nodes = Ok VNoMatch).
Proof.
  induction L as [|L IH]; intros t LT R D; [lia|]. destruct t as [|c0 t0].
  { exists 0%nat. left. exists []. split; [constructor|]. intros [|lf] fuel nodes LL _; [lia|]. cbn [rawText]. unfold answer. cbn [List.map]. rewrite app_nil_r.
    destruct nodes as [|n nodes]; [reflexivity|]. cbn [rev]. destruct (rev nodes); reflexivity. }
  set (t := c0 :: t0) in *. destruct (jTotal nValue jValue SK t eq_refl) as (x & E).
  assert (ER : Ev gJ jJson SK t x) by now apply root_value.
  destruct (ev_complete _ _ _ _ _ ER) as (N1 & HN).
  assert (SEM : forall fuel, (N1 <= fuel)%nat -> semAll fuel gJ SK t [jJson] = SOk [asSem x]).
  { intros fuel LE. cbn [semAll]. destruct (json_clear jJson SK t root_class D fuel) as [U A]. destruct (HN fuel LE) as [X|(y & X & Y)]; [contradiction|]. rewrite X. cbn.
    destruct y as [? ? ? ?|? ?|k]; cbn [noAmb] in Y; subst x; [reflexivity|reflexivity|]. now apply A in X. }
  assert (STEP : forall lf fuel nodes, (N1 <= fuel)%nat -> rawText (S lf) fuel gJ [jJson] SK t nodes =
    match pick (hitsOf [asSem x]) with PNone => Ok VNoMatch | POne n u => rawText lf fuel gJ [jJson] (if n_sticky n then SUGGEST_NOT_SKIP else SK) (skipn u t) (n :: nodes) | _ => Ok VAmbiguity end).
  { intros lf fuel nodes LE. unfold t. cbn [rawText]. fold t. now rewrite (SEM fuel LE). }
  destruct x as [n u k s|k s].
  - destruct (value_inv (S (length t)) t ltac:(lia) D n u k s E) as (v & tv & t' & ET & EU & SV & MF & EN & ES). destruct (value_some _ _ _ _ _ D E) as [UP UL].
    assert (LT' : length t = (length tv + length t')%nat) by (rewrite ET; apply app_length).
    assert (SK' : skipn u t = t') by (rewrite ET, EU; apply skip_app).
    rewrite ET in R, D. apply runes_app in R as [R1 R2]. pose proof D as D0. apply noEsc_app in D0 as [D1 D2].
    destruct (IH t' ltac:(lia) R2 D2) as (N2 & H2). exists (Nat.max N1 N2).
    assert (GO : forall lf fuel nodes, (N1 <= fuel)%nat -> rawText (S lf) fuel gJ [jJson] SK t nodes = rawText lf fuel gJ [jJson] SK t' (rawOf v :: nodes)).
    { intros lf fuel nodes LE. rewrite STEP by exact LE. cbn [asSem hitsOf flat_map app]. rewrite pick_one, SK', EN. reflexivity. }
    destruct H2 as [(vs & SA & HV)|(NO & HV)]; [left|right].
    + exists (v :: vs). split; [rewrite ET; now constructor|]. intros [|lf] fuel nodes LL LE; [lia|]. rewrite GO by lia. rewrite HV by lia. unfold answer. cbn [rev List.map]. now rewrite <- app_assoc.
    + split.
      * intros vs SA. rewrite ET in SA. apply all_inv in SA as [[_ X]|(v' & l & t1' & t2' & -> & X & P' & M' & Q')]; [apply app_eq_nil in X as [-> _]; now apply (spells_some v [])|].
        destruct (spells_once v v' tv t' t1' t2' X D) as (_ & _ & <-); try assumption; [now apply runes_app|now apply (NO l)].
      * intros [|lf] fuel nodes LL LE; [lia|]. rewrite GO by lia. apply HV; lia.
  - exists N1. right. split.
    + intros vs SA. apply all_inv in SA as [[_ X]|(v' & l & t1' & t2' & -> & X & P' & M' & Q')]; [discriminate|]. rewrite X in *.
      destruct (value_yes v' t1' t2' P' M' D) as (k' & Y). pose proof (ev_det _ _ _ _ _ _ Y E). discriminate.
    + intros [|lf] fuel nodes LL LE; [lia|]. rewrite STEP by exact LE. reflexivity.
Qed.

(* ---------------- the drivers ---------------- *)

Lemma semAll_mono g f t rules n m ys : (n <= m)%nat -> semAll n g f t rules = SOk ys -> semAll m g f t rules = SOk ys.
Proof.
  intros LE. revert ys. induction rules as [|r rules IH]; intros ys H; [exact H|]. cbn [semAll] in *. pose proof (sem_mono g n m r f t LE) as S.
  destruct (sem n g r f t) as [y| |]; cbn in H; [|discriminate..]. destruct (semAll n g f t rules) as [ys'| |]; cbn in H; [|discriminate..]. injection H as <-.
  destruct S as [S|S]; [discriminate|]. rewrite <- S. cbn. now rewrite (IH ys' eq_refl).
Qed.
Lemma rawText_mono g roots : forall lf lf' fuel fuel' f t nodes x, (lf <= lf')%nat -> (fuel <= fuel')%nat -> rawText lf fuel g roots f t nodes = Ok x -> rawText lf' fuel' g roots f t nodes = Ok x.
Proof.
  induction lf as [|lf IH]; intros [|lf'] fuel fuel' f t nodes x L F H; try (cbn in H; discriminate); [lia|]. cbn [rawText] in *. destruct t as [|c t]; [exact H|].
  destruct (semAll fuel g f (c :: t) roots) as [ys| |] eqn:E; try discriminate. rewrite (semAll_mono _ _ _ _ _ _ _ F E). destruct (pick (hitsOf ys)); try exact H. apply (IH lf' fuel); [lia|exact F|exact H].
Qed.
Lemma json_wfRoots : wfRoots [(nJson, jJson)].
Proof. apply okRoots_ok. vm_compute. reflexivity. Qed.

(** What [EvalRaw] and [Eval] answer, [tr] being the tree of a value. *)
Definition reads (tr : json -> node) (t : list Z) (r : rawRes) : Prop :=
  (exists vs a, SpellsAll vs t /\ r = RawOk a /\ List.map erase a = List.map tr vs) \/
  ((forall vs, ~ SpellsAll vs t) /\ exists d e, r = RawNoMatch d e).

Section Run.
Variables (s : stream) (ords : orders).
Hypothesis R : runesOk (rest s).
Hypothesis D : noEsc (rest s).
Hypothesis NE : rest s <> [].
Hypothesis HO : legal (rootsOf gJson) ords.

Lemma raw_is lf fuel : match rawText lf fuel gJ [jJson] SK (rest s) [] with
  | OutOfFuel => evalRaw lf fuel gJ ords s = OutOfFuel
  | Panic => False
  | Ok x => sameRes x (evalRaw lf fuel gJ ords s)
  end.
Proof.
  apply (evalRaw_text gJ [(nJson, jJson)] s gJ_wf json_wfRoots R); [| | |exact HO|exact NE].
  - intros x f p [<-|[]] _ n. apply (json_clear jJson f (skipn p (rest s)) root_class (noEsc_skip p _ D)).
  - left. cbn. lia.
  - now apply json_again.
Qed.
Lemma raw_out lf fuel r s' : evalRaw lf fuel gJ ords s = Ok (r, s') -> reads rawOf (rest s) r.
Proof.
  intros E. pose proof (raw_is lf fuel) as X. rewrite E in X. destruct (rawText lf fuel gJ [jJson] SK (rest s) []) as [x| |] eqn:T; [|destruct X|discriminate]. cbn [sameRes] in X.
  destruct (rows (S (length (rest s))) (rest s) ltac:(lia) R D) as (N & H).
  pose proof (fun L => rawText_mono _ _ _ (Nat.max lf (S (length (rest s)))) _ (Nat.max fuel N) _ _ _ _ L (Nat.le_max_l _ _) T) as M. specialize (M (Nat.le_max_l _ _)).
  destruct H as [(vs & SA & H)|(NO & H)]; rewrite H in M by lia; injection M as <-.
  - left. exists vs. unfold answer in X. cbn [rev app] in X. destruct vs as [|v vs].
    + apply all_inv in SA as [[_ Y]|(? & ? & ? & ? & [=] & _)]. contradiction.
    + cbn [List.map] in X. destruct r as [a| | | |]; try discriminate. exists a. split; [exact SA|]. split; [reflexivity|]. cbn [verdictOf] in X. injection X as X. now rewrite <- X.
  - right. split; [exact NO|]. destruct r; try discriminate. eauto.
Qed.
Lemma raw_returns : exists N, forall lf fuel, (length (rest s) < lf)%nat -> (N <= fuel)%nat -> exists r s', evalRaw lf fuel gJ ords s = Ok (r, s').
Proof.
  destruct (rows (S (length (rest s))) (rest s) ltac:(lia) R D) as (N & H). exists N. intros lf fuel L F. pose proof (raw_is lf fuel) as X.
  destruct H as [(vs & _ & H)|(_ & H)]; rewrite (H lf fuel [] L F) in X; destruct (evalRaw lf fuel gJ ords s) as [[r s']| |]; cbn in X; try contradiction; eauto.
Qed.
Lemma all_spellable vs t : SpellsAll vs t -> runesOk t -> Forall spellable vs.
Proof.
  induction 1 as [|v t l t' P M Q IH]; intros RT; [constructor|]. apply runes_app in RT as [R1 R2]. constructor; [now apply (spells_spellable v t)|now apply IH].
Qed.
Lemma top_out lf fuel level r s' : level = 0 \/ level = 1 -> evalTop lf fuel gJ ords s level = Ok (r, s') -> reads treeOf (rest s) r.
Proof.
  intros LV E. unfold evalTop in E. destruct (evalRaw lf fuel gJ ords s) as [[r0 s0]| |] eqn:X; cbn [bind] in E; [|discriminate..]. apply raw_out in X. injection E as <- _.
  destruct X as [(vs & a & SA & -> & EA)|(NO & d & e & ->)]; [left|right; eauto].
  exists vs, (simplify level a). split; [exact SA|]. split; [reflexivity|]. pose proof (all_spellable _ _ SA R) as FS. rewrite <- erase_simplify, EA. destruct LV as [->| ->]; [now apply simplify_values|now apply simplify_values_1].
Qed.
Lemma top_returns level : exists N, forall lf fuel, (length (rest s) < lf)%nat -> (N <= fuel)%nat -> exists r s', evalTop lf fuel gJ ords s level = Ok (r, s').
Proof.
  destruct raw_returns as (N & H). exists N. intros lf fuel L F. destruct (H lf fuel L F) as (r & s' & E). unfold evalTop. rewrite E. cbn. eauto.
Qed.
End Run.

(** A single value. *)
Lemma all_single v t : Spells v t -> SpellsAll [v] t.
Proof. intros S. rewrite <- (app_nil_r t). constructor; [exact S|apply follow_nil|constructor]. Qed.
Lemma reads_value v t r : runesOk t -> Spells v t -> reads treeOf t r -> exists a, r = RawOk a /\ List.map erase a = [treeOf v].
Proof.
  intros R S [(vs & a & SA & -> & EA)|(NO & _)].
  - exists a. split; [reflexivity|]. rewrite EA. now rewrite (all_once vs t [v] R (spells_noEsc _ _ S) SA (all_single _ _ S)).
  - exfalso. exact (NO _ (all_single _ _ S)).
Qed.
(** The tree tells the value. *)
Lemma reads_back v t r a : runesOk t -> noEsc t -> spellable v -> reads treeOf t r -> r = RawOk a -> List.map erase a = [treeOf v] -> Spells v t.
Proof.
  intros R D SP [(vs & a' & SA & E & EA)|(_ & d & e & E)] -> EV; [|discriminate]. injection E as <-. rewrite EV in EA. pose proof (all_spellable _ _ SA R) as FS.
  destruct vs as [|v' [|]]; try discriminate. cbn [List.map] in EA. inversion FS; subst. apply cons_inj in EA as [EA _]. apply tree_inj in EA; [|assumption..]. subst v'.
  apply all_inv in SA as [[[=] _]|(v0 & l & t1 & t2 & E & -> & P & _ & Q)]. injection E as <- <-. apply all_inv in Q as [[_ ->]|(? & ? & ? & ? & [=] & _)]. now rewrite app_nil_r.
Qed.

(** [EvalRule] on the rules value and json. *)
Lemma rule_value fuel name sample res : name = nValue \/ name = nJson -> runesOk sample -> noEsc sample -> evalRule fuel gJson name sample = Ok res ->
  (exists v tv t' nd, sample = tv ++ t' /\ Spells v tv /\ mayFollow v t' /\ r_node res = Some nd /\ erase nd = rawOf v /\ (length (r_read res) - length (r_unused res) = length tv)%nat) \/
  ((forall v tv t', sample = tv ++ t' -> Spells v tv -> ~ mayFollow v t') /\ r_node res = None).
Proof.
  intros HN R D E.
  assert (X : exists r, lookup gJ name = Some r /\ jClass r /\ wfRule r /\ forall x, Ev gJ r SK sample x -> Ev gJ (ref nValue) SK sample x).
  { destruct HN as [->| ->].
    - exists jValue. split; [reflexivity|]. split; [now apply (jLookup nValue)|]. split; [now apply (gJ_wf nValue)|]. intros [n u k st|k st] E'; [now apply (go_ref gJ nValue jValue)|]. eapply ev_ref_fail; [reflexivity|exact E'].
    - exists jJson. split; [reflexivity|]. split; [apply root_class|]. split; [now apply (gJ_wf nJson)|]. intros x. apply root_value. }
  destruct X as (r & L & C & W & TR). unfold evalRule in E. rewrite getRule_rules, gJ_is, L in E.
  destruct (eval fuel gJ r (newStream sample) SK) as [[res' s']| |] eqn:EV; cbn in E; [|discriminate..]. injection E as ->.
  destruct (refine_sound _ _ _ _ (newStream sample) _ _ gJ_wf W R EV (proj1 (json_clear r SK sample C D fuel))) as (x & EX & SH & _). change (rest (newStream sample)) with sample in *.
  apply TR in EX. destruct x as [n u k st|k st]; cbn [shows] in SH.
  - left. destruct SH as (LE & RD & UN & _ & nd & EN & ER). destruct (value_inv (S (length sample)) sample ltac:(lia) D n u k st EX) as (v & tv & t' & ET & EU & SV & MF & EQ & _).
    exists v, tv, t', nd. split; [exact ET|]. split; [exact SV|]. split; [exact MF|]. split; [exact EN|]. split; [congruence|].
    rewrite RD, UN, skipn_length, !firstn_length. lia.
  - right. destruct SH as (_ & _ & _ & EN). split; [|exact EN]. intros v tv t' -> SV MF. destruct (value_yes v tv t' SV MF D) as (k' & Y). pose proof (ev_det _ _ _ _ _ _ Y EX). discriminate.
Qed.
Lemma rule_returns name sample : name = nValue \/ name = nJson -> runesOk sample -> noEsc sample ->
  exists N res, forall fuel, (N <= fuel)%nat -> evalRule fuel gJson name sample = Ok res.
Proof.
  intros HN R D.
  assert (X : exists r x, lookup gJ name = Some r /\ jClass r /\ wfRule r /\ Ev gJ r SK sample x).
  { destruct (jTotal nValue jValue SK sample eq_refl) as (x & E). destruct HN as [->| ->].
    - exists jValue, x. split; [reflexivity|]. split; [now apply (jLookup nValue)|]. split; [now apply (gJ_wf nValue)|]. now apply (inv_ref_any gJ nValue jValue).
    - exists jJson, x. split; [reflexivity|]. split; [apply root_class|]. split; [now apply (gJ_wf nJson)|]. now apply root_value. }
  destruct X as (r & x & L & C & W & E). destruct (refine_complete gJ r SK (newStream sample) x gJ_wf W R E) as [(n & U)|(n & res & s' & X & _)].
  - exfalso. exact (proj1 (json_clear r SK sample C D n) U).
  - exists n, res. intros fuel LE. unfold evalRule. rewrite getRule_rules, gJ_is, L. pose proof (ple_ok _ _ _ (eval_mono gJ n fuel r (newStream sample) SK LE) X) as ->. reflexivity.
Qed.

(* ---------------- in the words of the claims ---------------- *)

Lemma json_eval lf fuel ords s level r s' : legal (rootsOf gJson) ords -> runesOk (rest s) -> ~ In 92 (rest s) -> rest s <> [] -> level = 0 \/ level = 1 ->
  evalTop lf fuel (rules_of gJson) ords s level = Ok (r, s') -> reads treeOf (rest s) r.
Proof. intros HO R D NE LV E. exact (top_out s ords R D NE HO lf fuel level r s' LV E). Qed.
Lemma json_returns ords s level : legal (rootsOf gJson) ords -> runesOk (rest s) -> ~ In 92 (rest s) -> rest s <> [] ->
  exists N, forall lf fuel, (length (rest s) < lf)%nat -> (N <= fuel)%nat -> exists r s', evalTop lf fuel (rules_of gJson) ords s level = Ok (r, s').
Proof. intros HO R D NE. exact (top_returns s ords R D NE HO level). Qed.
Lemma json_values ords v t w level : legal (rootsOf gJson) ords -> Spells v t -> white w -> w = [] -> runesOk (t ++ w) -> level = 0 \/ level = 1 ->
  exists N, forall lf fuel, (length (t ++ w) < lf)%nat -> (N <= fuel)%nat ->
    exists a s', evalTop lf fuel (rules_of gJson) ords (newStream (t ++ w)) level = Ok (RawOk a, s') /\ List.map erase a = [treeOf v].
Proof.
  intros HO S _ -> R LV. rewrite app_nil_r in *. destruct (json_returns ords (newStream t) level HO R (spells_noEsc _ _ S) (spells_some _ _ S)) as (N & H).
  exists N. intros lf fuel L F. destruct (H lf fuel L F) as (r & s' & E). pose proof (json_eval _ _ _ (newStream t) _ _ _ HO R (spells_noEsc _ _ S) (spells_some _ _ S) LV E) as X.
  destruct (reads_value v t r R S X) as (a & -> & EA). eauto.
Qed.
Lemma json_sound lf fuel ords s level v a s' : legal (rootsOf gJson) ords -> runesOk (rest s) -> ~ In 92 (rest s) -> spellable v -> level = 0 \/ level = 1 ->
  evalTop lf fuel (rules_of gJson) ords s level = Ok (RawOk a, s') -> List.map erase a = [treeOf v] -> Spells v (rest s).
Proof.
  intros HO R D SP LV E EA. assert (NE : rest s <> []).
  { intros X. unfold evalTop in E. rewrite evalRaw_exhausted in E by exact X. discriminate. }
  exact (reads_back v (rest s) (RawOk a) a R D SP (json_eval _ _ _ _ _ _ _ HO R D NE LV E) eq_refl EA).
Qed.
Lemma one_value v v' t : runesOk t -> Spells v t -> Spells v' t -> v = v'.
Proof. intros R S S'. pose proof (all_once [v] t [v'] R (spells_noEsc _ _ S) (all_single _ _ S) (all_single _ _ S')) as E. now injection E. Qed.
Lemma spellable_iff v : spellable v <-> exists t, runesOk t /\ Spells v t.
Proof. split; [intros S; exists (neat v); destruct (neat_spells v S); auto|intros (t & R & S); exact (spells_spellable v t S R)]. Qed.
Lemma print_value v : spellable v -> text (treeOf v) = neat v /\ Spells v (neat v) /\ runesOk (neat v).
Proof. intros S. split; [now apply tree_text|now apply neat_spells]. Qed.
Lemma print_read ords v level : legal (rootsOf gJson) ords -> spellable v -> level = 0 \/ level = 1 ->
  exists N, forall lf fuel, (length (neat v) < lf)%nat -> (N <= fuel)%nat ->
    exists a s', evalTop lf fuel (rules_of gJson) ords (newStream (text (treeOf v))) level = Ok (RawOk a, s') /\ List.map erase a = [treeOf v] /\ astText a = neat v.
Proof.
  intros HO S LV. destruct (print_value v S) as (T & P & R). rewrite T. destruct (json_values ords v (neat v) [] level HO P (Forall_nil _) eq_refl) as (N & H); [now rewrite app_nil_r|exact LV|].
  rewrite app_nil_r in H. exists N. intros lf fuel L F. destruct (H lf fuel L F) as (a & s' & E & EA). exists a, s'. split; [exact E|]. split; [exact EA|].
  destruct a as [|n [|]]; try discriminate. cbn [List.map] in EA. apply cons_inj in EA as [EA _]. unfold astText. cbn [flat_map]. now rewrite app_nil_r, <- erase_text, EA.
Qed.
Lemma json_rule fuel name sample res : name = nValue \/ name = nJson -> runesOk sample -> noEsc sample -> evalRule fuel gJson name sample = Ok res ->
  (exists v tv t' nd, sample = tv ++ t' /\ Spells v tv /\ mayFollow v t' /\ r_node res = Some nd /\ simplify 0 [erase nd] = [treeOf v] /\ (length (r_read res) - length (r_unused res) = length tv)%nat) \/
  ((forall v tv t', sample = tv ++ t' -> Spells v tv -> ~ mayFollow v t') /\ r_node res = None).
Proof.
  intros HN R D E. destruct (rule_value fuel name sample res HN R D E) as [(v & tv & t' & nd & ET & S & M & EN & EQ & L)|H]; [left|right; exact H].
  exists v, tv, t', nd. split; [exact ET|]. split; [exact S|]. split; [exact M|]. split; [exact EN|]. split; [|exact L].
  rewrite EQ. apply (simplify_values [v]). constructor; [|constructor]. apply (spells_spellable v tv S). rewrite ET in R. now apply runes_app in R.
Qed.

(** A check for [spellable]. *)
Definition digitRunB (l : list Z) : bool := match l with [] => false | _ => forallb (fun c => (48 <=? c) && (c <=? 57)) l end.
Definition plainB (l : list Z) : bool := forallb (fun c => negb (c =? 34) && negb (c =? 92) && negb (c =? 10) && (0 <=? c)) l.
Fixpoint spellableB (v : json) : bool :=
  match v with
  | JNum _ i fr => digitRunB i && match fr with Some l => digitRunB l | None => true end
  | JStr l => plainB l
  | JArr l => forallb spellableB l
  | JObj l => forallb (fun m => plainB (fst m) && spellableB (snd m)) l
  | _ => true
  end.
Lemma digitRunB_ok l : digitRunB l = true -> digitRun l.
Proof.
  intros H. destruct l as [|c l]; [discriminate|]. split; [discriminate|]. unfold digitRunB in H. rewrite forallb_forall in H. apply Forall_forall. intros x I. specialize (H x I). lia.
Qed.
Lemma plainB_ok l : plainB l = true -> Forall (fun c => simple c /\ 0 <= c) l.
Proof. unfold plainB. rewrite forallb_forall. intros H. apply Forall_forall. intros x I. specialize (H x I). unfold simple. lia. Qed.
Lemma spellableB_ok v : spellableB v = true -> spellable v.
Proof.
  induction v as [m i fr|l|b| |l IH|l IH] using json_rect'; intros H; cbn [spellableB] in H.
  - apply andb_prop in H as [H1 H2]. split; [now apply digitRunB_ok|]. intros l ->. now apply digitRunB_ok.
  - now apply plainB_ok.
  - exact I.
  - exact I.
  - apply spellable_arr. rewrite forallb_forall in H. rewrite Forall_forall in *. auto.
  - apply spellable_obj. rewrite forallb_forall in H. rewrite Forall_forall in *. intros m M. specialize (H m M). apply andb_prop in H as [H1 H2]. split; [now apply plainB_ok|auto].
Qed.
