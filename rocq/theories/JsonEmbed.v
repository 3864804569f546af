(** The shipped JSON grammar through [EvalEmbed] (C90). *)
From Verif Require Import Base Stream StreamFacts CallFacts Node Rule Grammar SpecStream SpecRule TermFacts TermSpec SpecEval SpecEv EvFacts EvDet EvalFuel EvalSem
  SpecTerm WfDec LoopFacts SpecDriver DriverFacts SpecLL LLFacts LLDec LangFacts LLKnown LLMain NodeText JsonLex JsonSafe RepoSamples SpecJson EraseFacts JsonLang JsonValue JsonTree JsonText JsonDriver SpecEmbedJson.

Notation NK := NOT_SKIP.
(* ---------------- no white space in front: as if it were skipped ---------------- *)

Definition same (t : list Z) (r : rule) : Prop := forall o, Ev gJ r SK t o -> Ev gJ r NK t o.
Lemma same_ref n r t : lookup gJ n = Some r -> same t r -> same t (ref n).
Proof.
  intros L S [nd u k st|k st] H; pose proof (inv_ref_any gJ n r _ _ _ L H) as X; apply S in X; [now apply (go_ref gJ n r)|eapply ev_ref_fail; eassumption].
Qed.
Lemma same_alts rules t : Forall (same t) rules -> forall m st ml m' st', EvAlts gJ rules SK t m st ml m' st' -> EvAlts gJ rules NK t m st ml m' st'.
Proof.
  induction 1 as [|r rules S _ IH]; intros m st ml m' st' H; inversion H as [|? ? ? ? ? ? n1 u1 k1 s1 ml1 ? ? E F|? ? ? ? ? ? k1 s1 ? ? ? E F]; subst.
  - apply ea_nil.
  - eapply ea_match; [apply S; exact E|now apply IH].
  - eapply ea_fail; [apply S; exact E|now apply IH].
Qed.
Lemma same_choice b rules t : Forall (same t) rules -> same t (RChoice b [rules]).
Proof.
  intros S o H. inversion H as [| | | | | | | | | | | | | |? ? ? ? ? C| |]; subst. apply ev_choice.
  inversion C as [|? ? ? ? ? ? ? ? ? ? A E|? ? ? ? ? ? ? ? ? ? n1 ? A SL|? ? ? ? ? ? ? ? ? ? A NN SL]; subst; apply (same_alts _ _ S) in A.
  - inversion E; subst. eapply ec_next; [exact A|apply ec_none].
  - eapply ec_pick; eassumption.
  - eapply ec_tie; eassumption.
Qed.
Lemma tlit_same c w t : isWS c = false -> lead t = 0%nat -> tlit true (c :: w) t = tlit false (c :: w) t.
Proof.
  intros D L. unfold tlit. destruct t as [|x t]; [reflexivity|]. unfold lead in L. destruct (ws_prefix (x :: t)) as [|y l] eqn:E; [|discriminate].
  cbn [ws_prefix]. rewrite D. reflexivity.
Qed.
Lemma same_word b c w t : isWS c = false -> lead t = 0%nat -> same t (RString b (c :: w)).
Proof.
  intros D L o H. inversion H; subst. change (skips SK true) with true. rewrite (tlit_same c w t D L).
  exact (ev_string gJ b (c :: w) NK t).
Qed.
Lemma same_number t : same t (ref nNumber).
Proof. intros o H. rewrite (ev_det _ _ _ _ _ _ H (number_ev SK t)). apply number_ev. Qed.
Lemma same_string t : noEsc t -> lead t = 0%nat -> same t (ref nString).
Proof.
  intros D L o H. pose proof (string_ev SK t D) as X. pose proof (string_ev NK t D) as Y. rewrite sp_skip, L in X. rewrite sp_never in Y.
  rewrite (ev_det _ _ _ _ _ _ H X). exact Y.
Qed.
Lemma same_list b c rules t : isWS c = false -> lead t = 0%nat -> same t (RConcat b (sep c :: rules)).
Proof.
  intros D L o H. inversion H as [| | | | | | | | | | | |? ? ? ? ? C| | | |]; subst. apply ev_concat.
  inversion C as [|? ? ? ? ? ? ? ? ? n1 u1 k1 s1 ? E1 F|? ? ? ? ? ? ? ? ? k1 s1 E1]; subst; cbn [skipn] in E1.
  - destruct (word_inv mark c [] _ _ _ _ _ D E1) as (w & t' & T & W & U & -> & ->). eapply es_step; [cbn [skipn]; apply same_word; [exact D|exact L|exact E1]|]. exact F.
  - apply es_fail. cbn [skipn]. now apply same_word.
Qed.
Lemma same_literal t : noEsc t -> lead t = 0%nat -> same t (ref nLiteral).
Proof.
  intros D L. eapply same_ref; [exact look_literal|]. apply same_choice. constructor; [apply same_number|]. constructor; [now apply same_string|].
  constructor; [|constructor; [now apply same_word|constructor]]. eapply same_ref; [exact look_bool|]. apply same_choice. repeat (constructor; [now apply same_word|]). constructor.
Qed.
Lemma same_value t : noEsc t -> lead t = 0%nat -> same t (ref nValue).
Proof.
  intros D L. eapply same_ref; [exact look_value|]. apply same_choice. constructor; [now apply same_literal|].
  constructor; [eapply same_ref; [exact look_array|now apply same_list]|]. constructor; [eapply same_ref; [exact look_object|now apply same_list]|constructor].
Qed.

(* ---------------- white space in front: only numbers ---------------- *)

Definition no (t : list Z) (r : rule) : Prop := exists k s, Ev gJ r NK t (OFail k s).
Lemma no_ref n r t : lookup gJ n = Some r -> no t r -> no t (ref n).
Proof. intros L (k & s & E). exists k, s. eapply ev_ref_fail; eassumption. Qed.
Lemma no_alts rules t : Forall (no t) rules -> forall m st, exists m' st', EvAlts gJ rules NK t m st [] m' st'.
Proof.
  induction 1 as [|r rules (k & s & E) _ IH]; intros m st; [exists m, st; apply ea_nil|]. destruct (IH (Nat.max m k) (st && s)) as (m' & st' & X).
  exists m', st'. eapply ea_fail; eassumption.
Qed.
Lemma no_choice b rules t : Forall (no t) rules -> no t (RChoice b [rules]).
Proof. intros F. destruct (no_alts rules t F 0 true) as (m & st & A). exists m, st. apply ev_choice. eapply ec_next; [exact A|apply ec_none]. Qed.
Lemma no_word b c w t : isWS c = false -> (0 < lead t)%nat -> no t (RString b (c :: w)).
Proof.
  intros D L. destruct t as [|x t]; [cbn in L; lia|]. assert (W : isWS x = true) by (unfold lead in L; cbn [ws_prefix] in L; destruct (isWS x); [reflexivity|cbn in L; lia]).
  exists 1%nat, false. eapply ev_eq'; [apply ev_string|]. change (skips NK true) with false. cbn [tlit length Nat.ltb Nat.leb tail_is negb skipn litmatch].
  destruct (Z.eqb_spec x c) as [->|]; [congruence|]. reflexivity.
Qed.
Lemma no_string t : noEsc t -> (0 < lead t)%nat -> no t (ref nString).
Proof.
  intros D L. pose proof (string_ev NK t D) as Y. rewrite sp_never in Y. cbn [skipn] in Y. unfold sOut in Y.
  destruct t as [|x t]; [cbn in L; lia|]. assert (W : isWS x = true) by (unfold lead in L; cbn [ws_prefix] in L; destruct (isWS x); [reflexivity|cbn in L; lia]).
  cbn [headIs] in Y. destruct (Z.eqb_spec x 34) as [->|]; [discriminate W|]. cbn [shift] in Y. eexists _, _. exact Y.
Qed.
Lemma no_list b c rules t : isWS c = false -> (0 < lead t)%nat -> no t (RConcat b (sep c :: rules)).
Proof. intros D L. destruct (no_word mark c [] t D L) as (k & s & E). eexists _, _. apply ev_concat, es_fail. exact E. Qed.
Lemma no_bool t : (0 < lead t)%nat -> no t (ref nBool).
Proof. intros L. eapply no_ref; [exact look_bool|]. apply no_choice. repeat (constructor; [now apply no_word|]). constructor. Qed.
Lemma no_array t : (0 < lead t)%nat -> no t (ref nArray).
Proof. intros L. eapply no_ref; [exact look_array|]. now apply no_list. Qed.
Lemma no_object t : (0 < lead t)%nat -> no t (ref nObject).
Proof. intros L. eapply no_ref; [exact look_object|]. now apply no_list. Qed.
Lemma pick_first b r post t n u k : Ev gJ r NK t (OMatch n u k false) -> Forall (no t) post ->
  exists k', Ev gJ (RChoice b [r :: post]) NK t (OMatch (tree TChoice b [n] false) u k' false).
Proof.
  intros E F. destruct (no_alts post t F (Nat.max 0 k) (true && false)) as (m & st & A). pose proof (alts_st _ _ _ _ _ _ _ _ A) as X.
  exists m. apply ev_choice. cbn [andb] in *. subst st. eapply ec_pick with (ml := [(n, u)]); [eapply ea_match; [exact E|exact A]|]. exists [], []. split; [reflexivity|constructor].
Qed.
Lemma first_only b r post t n u k s : Forall (no t) post -> Ev gJ (RChoice b [r :: post]) NK t (OMatch n u k s) ->
  exists n1 k1 s1, n = tree TChoice b [n1] s /\ Ev gJ r NK t (OMatch n1 u k1 s1) /\ (s1 = false -> s = false).
Proof.
  intros F H. inversion H as [| | | | | | | | | | | | | |? ? ? ? ? C| |]; subst. inversion C as [|? ? ? ? ? ? ? ? ? ? A E|? ? ? ? ? ? ? ? ? ? n1 ? A SL|]; subst; [inversion E|].
  destruct SL as (l1 & l2 & -> & _). destruct (alts_in gJ _ _ _ _ _ _ _ _ A n1 u) as (r' & k1 & s1 & I & R); [apply in_or_app; right; now left|].
  destruct I as [<-|I].
  { exists n1, k1, s1. split; [reflexivity|]. split; [exact R|]. intros ->.
    inversion A as [|? ? ? ? ? ? n3 u3 k3 s3 ml3 ? ? E3 F3|? ? ? ? ? ? k3 s3 ? ? ? E3 F3]; subst; pose proof (ev_det _ _ _ _ _ _ R E3) as X; [|discriminate].
    injection X as _ _ _ <-. exact (alts_st _ _ _ _ _ _ _ _ F3). }
  rewrite Forall_forall in F. destruct (F _ I) as (k' & s' & X). pose proof (ev_det _ _ _ _ _ _ X R). discriminate.
Qed.

(* ---------------- what a value is in the middle of a text ---------------- *)

Lemma dark_lead t : dark t -> lead t = 0%nat.
Proof. destruct t as [|c t]; [intros []|]. intros D. unfold lead. cbn [ws_prefix]. destruct (isWS c) eqn:W; [|reflexivity]. now apply isWS_In in W. Qed.
Lemma lead_dark t : t <> [] -> lead t = 0%nat -> dark t.
Proof. destruct t as [|c t]; [congruence|]. intros _ L I. apply isWS_In in I. unfold lead in L. cbn [ws_prefix] in L. now rewrite I in L. Qed.
Lemma dark_app a b : a <> [] -> (dark (a ++ b) <-> dark a).
Proof. destruct a; [congruence|reflexivity]. Qed.
Lemma number_same n u k s t : Ev gJ (ref nNumber) NK t (OMatch n u k s) -> Ev gJ (ref nNumber) SK t (OMatch n u k s).
Proof. intros H. rewrite (ev_det _ _ _ _ _ _ H (number_ev NK t)). apply number_ev. Qed.

Lemma embed_inv t n u k s : noEsc t -> Ev gJ (ref nValue) NK t (OMatch n u k s) ->
  exists v tv t', t = tv ++ t' /\ u = length tv /\ Spells v tv /\ mayFollow v t' /\ n = rawOf v /\ (isNumber v \/ dark tv).
Proof.
  intros D H. destruct (Nat.eq_dec (lead t) 0) as [L|L].
  - destruct (jTotal nValue jValue SK t eq_refl) as (o & E). pose proof (same_value t D L o E) as X. rewrite <- (ev_det _ _ _ _ _ _ H X) in E.
    destruct (value_inv (S (length t)) t ltac:(lia) D n u k s E) as (v & tv & t' & ET & EU & SV & MF & EQ & _). exists v, tv, t'. repeat (split; [assumption|]). right.
    pose proof (spells_some _ _ SV) as NE. apply (dark_app tv t' NE). rewrite <- ET. apply lead_dark; [|exact L]. rewrite ET. destruct tv; [congruence|discriminate].
  - assert (L' : (0 < lead t)%nat) by lia. apply (inv_ref gJ nValue jValue) in H; [|exact look_value].
    apply first_only in H; [|constructor; [now apply no_array|constructor; [now apply no_object|constructor]]]. destruct H as (n1 & k1 & s1 & -> & H & ST1).
    apply (inv_ref gJ nLiteral jLiteral) in H; [|exact look_literal].
    apply first_only in H; [|constructor; [now apply no_string|constructor; [now apply no_bool|constructor; [now apply no_word|constructor]]]].
    destruct H as (n2 & k2 & s2 & -> & H & ST2). pose proof (number_same _ _ _ _ _ H) as E. destruct (num_inv _ _ _ _ _ E) as (w & m & i & fr & t' & T & W & U & -> & -> & DI & DF & F).
    exists (JNum m i fr), (w ++ minusSign m ++ i ++ dotted fr), t'.
    split; [now rewrite <- app_assoc|]. split; [now rewrite app_length|]. split; [now constructor|]. split; [exact F|]. split; [|left; exact Logic.I].
    rewrite (ST1 (ST2 eq_refl)), (ST2 eq_refl). reflexivity.
Qed.
Lemma embed_yes v tv t' : Spells v tv -> mayFollow v t' -> noEsc (tv ++ t') -> isNumber v \/ dark tv ->
  exists k, Ev gJ (ref nValue) NK (tv ++ t') (OMatch (rawOf v) (length tv) k false).
Proof.
  intros SV MF D X. destruct (value_yes v tv t' SV MF D) as (k & Y). destruct (Nat.eq_dec (lead (tv ++ t')) 0) as [L|L].
  - exists k. now apply same_value.
  - assert (L' : (0 < lead (tv ++ t'))%nat) by lia. destruct X as [X|X].
    2: { exfalso. apply L, dark_lead. apply dark_app; [exact (spells_some _ _ SV)|exact X]. }
    destruct v as [m i fr| | | | |]; try destruct X. inversion SV as [w ? ? ? W DI DF EQ| | | | |]; subst.
    destruct (num_yes w m i fr t' W DI DF MF) as (k1 & N). set (t := w ++ (minusSign m ++ i ++ dotted fr) ++ t') in *.
    assert (EQ : (w ++ minusSign m ++ i ++ dotted fr) ++ t' = t) by (unfold t; now rewrite <- app_assoc). rewrite EQ in *. rewrite app_length.
    destruct (pick_first (named nLiteral) (ref nNumber) [ref nString; ref nBool; RString nb wNull] t _ _ _ (same_number _ _ N)) as (k2 & A).
    { constructor; [now apply no_string|constructor; [now apply no_bool|constructor; [now apply no_word|constructor]]]. }
    apply (go_ref gJ nLiteral jLiteral) in A; [|exact look_literal].
    destruct (pick_first (named nValue) (ref nLiteral) [ref nArray; ref nObject] t _ _ _ A) as (k3 & B).
    { constructor; [now apply no_array|constructor; [now apply no_object|constructor]]. }
    exists k3. apply (go_ref gJ nValue jValue) in B; [|exact look_value]. exact B.
Qed.

(* ---------------- the whole text ---------------- *)

Section Rule.
Variable r : rule.
Hypothesis HR : forall t x, Ev gJ r NK t x <-> Ev gJ (ref nValue) NK t x.
Lemma none_here t k st : noEsc t -> Ev gJ r NK t (OFail k st) -> forall v t', ~ stands isNumber v t t'.
Proof.
  intros D E v t' (tv & -> & SV & MF & X). apply HR in E. destruct (embed_yes v tv t' SV MF D X) as (k' & Y). pose proof (ev_det _ _ _ _ _ _ Y E). discriminate.
Qed.
Lemma ended_shown run kids l : List.map erase kids = (match run with [] => [] | _ => [asText run] end) ++ l ->
  exists ks ks', kids = ks ++ ks' /\ Forall2 shown (ended run) ks /\ List.map erase ks' = l.
Proof.
  destruct run as [|c run]; cbn [app ended].
  - intros E. exists [], kids. split; [reflexivity|]. split; [constructor|exact E].
  - intros E. destruct kids as [|n kids]; [discriminate|]. cbn [List.map] in E. injection E as A B. exists [n], kids. split; [reflexivity|]. split; [|exact B]. constructor; [exact A|constructor].
Qed.
Lemma embed_mixed t items : Embeds gJ r t items -> runesOk t -> noEsc t -> forall run kids, List.map erase kids = render run items ->
  exists l, Mixed isNumber run t l /\ Forall2 shown l kids.
Proof.
  induction 1 as [k st E|c t k st l E H IH|t n u k st l E LE H IH]; intros R D run kids K.
  - exists (ended run). split; [constructor|]. cbn [render] in K. rewrite <- (app_nil_r (match run with [] => [] | _ => [asText run] end)) in K.
    apply ended_shown in K as (ks & ks' & -> & F & K). apply map_eq_nil in K as ->. now rewrite app_nil_r.
  - cbn [render] in K. destruct (IH ltac:(now inversion R) (JsonValue.noEsc_cons _ _ D) _ _ K) as (l' & M & F). exists l'. split; [|exact F]. constructor; [exact (none_here _ _ _ D E)|exact M].
  - cbn [render] in K. apply ended_shown in K as (ks & ks' & -> & F & K). destruct ks' as [|m ks']; [discriminate|]. cbn [List.map] in K. injection K as EM K.
    apply HR in E. destruct (embed_inv t n u k st D E) as (v & tv & t' & ET & EU & SV & MF & EQ & X). assert (EK : skipn u t = t') by (rewrite ET; now apply skip_at). rewrite EK in *.
    pose proof R as R'. rewrite ET in R'. apply runes_app in R' as [RV RT]. pose proof D as D'. rewrite ET in D'. apply noEsc_app in D' as [_ DT].
    destruct (IH RT DT [] ks' K) as (l' & M & F'). exists (ended run ++ Value v :: l'). split.
    + apply mx_value with t'; [|exact M]. exists tv. auto.
    + apply Forall2_app; [exact F|]. constructor; [|exact F']. cbn [shown]. rewrite <- erase_simplify. cbn [List.map]. rewrite EM, EQ. apply (simplify_values [v]).
      constructor; [|constructor]. exact (spells_spellable v tv SV RV).
Qed.
End Rule.

Lemma value_ref t x : Ev gJ jValue NK t x <-> Ev gJ (ref nValue) NK t x.
Proof.
  split; [|apply (inv_ref_any gJ nValue jValue); reflexivity]. destruct x as [n u k st|k st]; intros E; [now apply (go_ref gJ nValue jValue)|]. eapply ev_ref_fail; [reflexivity|exact E].
Qed.
Lemma embed_rule name : name = nValue \/ name = nJson -> exists r, lookup gJ name = Some r /\ jClass r /\ nullable [] r = false /\ forall t x, Ev gJ r NK t x <-> Ev gJ (ref nValue) NK t x.
Proof.
  intros [->| ->].
  - exists jValue. split; [reflexivity|]. split; [now apply (jLookup nValue)|]. split; [vm_compute; reflexivity|]. exact value_ref.
  - exists jJson. split; [reflexivity|]. split; [apply root_class|]. split; [vm_compute; reflexivity|]. intros t x. apply root_value.
Qed.
Theorem json_embed lf fuel name sample n : name = nValue \/ name = nJson -> runesOk sample -> ~ In 92 sample -> evalEmbed lf fuel gJson name sample = Some (Ok n) ->
  n_type n = TEmbed /\ n_name n = name /\ exists l, Mixed isNumber [] sample l /\ Forall2 shown l (n_kids n).
Proof.
  intros HN R D E. destruct (embed_rule name HN) as (r & L & C & _ & HR).
  assert (W : wfRules (rules_of gJson)) by (rewrite gJ_is; exact gJ_wf).
  assert (L' : lookup (rules_of gJson) name = Some r) by (rewrite gJ_is; exact L).
  destruct (embed_shape _ _ _ _ _ _ _ W R L' E) as (A & B & _). split; [exact B|]. split; [exact A|].
  assert (CC : forall p, clearCut (rules_of gJson) r NK (skipn p sample)) by (intros p; rewrite gJ_is; apply json_clear; [exact C|now apply noEsc_skip]).
  destruct (embed_partition _ _ _ _ _ _ _ W R L' CC E) as (items & EM & _ & K).
  rewrite gJ_is in EM. exact (embed_mixed r HR sample items EM R D [] _ K).
Qed.
Lemma embedLoop_mono g r lf : forall lf' fuel fuel' cs txt kids k, (lf <= lf')%nat -> (fuel <= fuel')%nat -> embedLoop lf fuel g r cs txt kids = Ok k -> embedLoop lf' fuel' g r cs txt kids = Ok k.
Proof.
  induction lf as [|lf IH]; intros [|lf'] fuel fuel' cs txt kids k L F E; [discriminate..|lia|]. cbn [embedLoop] in *.
  destruct (eval fuel g r cs NK) as [[res cs1]| |] eqn:EV; cbn [bind] in E; [|discriminate..]. rewrite (ple_ok _ _ _ (eval_mono g fuel fuel' r cs NK F) EV). cbn [bind].
  destruct (r_node res) as [n|].
  - apply IH with fuel; [lia|exact F|exact E].
  - destruct (next (prepend cs1 (r_unused res))) as [c cs3]. destruct (c =? EOFChar); [exact E|]. apply IH with fuel; [lia|exact F|exact E].
Qed.
Lemma evalEmbed_mono g name sample lf lf' fuel fuel' n : (lf <= lf')%nat -> (fuel <= fuel')%nat -> evalEmbed lf fuel g name sample = Some (Ok n) -> evalEmbed lf' fuel' g name sample = Some (Ok n).
Proof.
  intros L F. unfold evalEmbed. destruct (getRule g name) as [r|]; [|discriminate]. intros [= E]. f_equal.
  destruct (embedLoop lf fuel (rules_of g) r (newStream sample) [] []) as [k| |] eqn:X; cbn [bind] in E; [|discriminate..]. now rewrite (embedLoop_mono _ _ _ _ _ _ _ _ _ _ L F X).
Qed.
Theorem json_embed_returns name sample : name = nValue \/ name = nJson -> runesOk sample -> ~ In 92 sample ->
  exists N n, forall lf fuel, (length sample < lf)%nat -> (N <= fuel)%nat -> evalEmbed lf fuel gJson name sample = Some (Ok n).
Proof.
  intros HN R D. destruct (embed_rule name HN) as (r & L & C & NU & _).
  assert (X : exists fuel n, evalEmbed (S (length sample)) fuel gJson name sample = Some (Ok n)).
  { apply (embed_class [] jRanks gJson name sample r); try rewrite gJ_is; try assumption.
    - exact gJ_wf.
    - exact gJ_ends.
    - intros p fuel. apply (json_clear r NK (skipn p sample) C); now apply noEsc_skip. }
  destruct X as (N & n & X). exists N, n. intros lf fuel LF F. apply evalEmbed_mono with (S (length sample)) N; [lia|exact F|exact X].
Qed.

(* ---------------- there is one way to cut a text up ---------------- *)

Lemma stands_once loose v v' t t1 t1' : runesOk t -> noEsc t -> stands loose v t t1 -> stands loose v' t t1' -> v = v' /\ t1 = t1'.
Proof.
  intros R D (tv & -> & SV & MF & _) (tv' & E & SV' & MF' & _). destruct (spells_once v v' tv t1 tv' t1' E D R SV MF SV' MF') as (A & _ & B). auto.
Qed.
Lemma mixed_once loose run t l : Mixed loose run t l -> runesOk t -> noEsc t -> forall l', Mixed loose run t l' -> l = l'.
Proof.
  induction 1 as [run|run c t l N H IH|run t v t' l S H IH]; intros R D l' M.
  - inversion M as [| |? ? v t' l0 S H]; subst; [reflexivity|]. destruct S as (tv & E & SV & _). symmetry in E. apply app_eq_nil in E as [-> _]. now destruct (spells_some _ _ SV).
  - inversion M as [|? ? ? ? N' H'|? ? v t' l0 S H']; subst; [|destruct (N _ _ S)]. apply IH; [now inversion R|exact (JsonValue.noEsc_cons _ _ D)|exact H'].
  - inversion M as [? E|? c t0 ? N' H' E|? ? v' t1 l0 S' H']; subst.
    + destruct S as (tv & E & SV & _). symmetry in E. apply app_eq_nil in E as [-> _]. now destruct (spells_some _ _ SV).
    + destruct (N' _ _ S).
    + destruct (stands_once _ _ _ _ _ _ R D S S') as [<- <-]. f_equal. f_equal. destruct S as (tv & -> & _). apply IH; [now apply runes_app in R|now apply noEsc_app in D|exact H'].
Qed.
Theorem json_embed_finds name sample l : name = nValue \/ name = nJson -> runesOk sample -> ~ In 92 sample -> Mixed isNumber [] sample l ->
  exists N n, (forall lf fuel, (length sample < lf)%nat -> (N <= fuel)%nat -> evalEmbed lf fuel gJson name sample = Some (Ok n)) /\ Forall2 shown l (n_kids n).
Proof.
  intros HN R D M. destruct (json_embed_returns name sample HN R D) as (N & n & H). exists N, n. split; [exact H|].
  destruct (json_embed (S (length sample)) N name sample n HN R D (H (S (length sample)) N ltac:(lia) ltac:(lia))) as (_ & _ & l' & M' & F). now rewrite (mixed_once _ _ _ _ M R D l' M').
Qed.
