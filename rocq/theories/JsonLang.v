(** The texts the shipped JSON grammar accepts, and their trees: the textbook
    semantics against SpecJson.v. *)
From Verif Require Import Base Stream StreamFacts CallFacts Node Rule Grammar SpecStream SpecRule TermFacts TermSpec SpecEval SpecEv EvFacts EvDet
  SpecTerm WfDec LoopFacts SpecDriver SpecLL LLFacts LLDec LangFacts LLKnown JsonLex JsonSafe RepoSamples SpecJson.

Notation SK := SUGGEST_SKIP.

(* ---------------- the grammar is well formed and its rules have outcomes ---------------- *)

Lemma gJ_wf : wfRules gJ. Proof. apply okRules_ok. vm_compute. reflexivity. Qed.
Definition jRanks : list (list Z * nat) := [(nDigit, 0); (nInteger, 1); (nFloat, 2); (nNumber, 3); (nString, 0); (nBool, 0); (nLiteral, 4);
  (nArray, 0); (nKv, 1); (nObject, 0); (nValue, 5); (nJson, 6)]%nat.
Lemma gJ_ends : noCircles [] jRanks gJ = true. Proof. vm_compute. reflexivity. Qed.
Lemma jTotal n r f t : lookup gJ n = Some r -> exists o, Ev gJ (ref n) f t o.
Proof.
  intros L. destruct (noCircles_total [] jRanks gJ gJ_wf gJ_ends n r f t L) as ([nd u k st|k st] & E).
  - eexists. eapply ev_ref; [exact L|exact E].
  - eexists. eapply ev_ref_fail; [exact L|exact E].
Qed.
Lemma ref_class n r : lookup gJ n = Some r -> jClass (ref n).
Proof. intros L. left. split; [|reflexivity]. eapply ll_ref; exact L. Qed.

(* ---------------- taking rules apart and putting them together ---------------- *)

Section Parts.
Variable g : rules_t.

Lemma inv_ref n r f t nd u k st : lookup g n = Some r -> Ev g (ref n) f t (OMatch nd u k st) -> Ev g r f t (OMatch nd u k st).
Proof.
  intros L H. inversion H as [| | | | | |? ? r' ? ? nd' ? ? ? L' E| | | | | | | | | |]; subst. rewrite L in L'. injection L' as <-.
  replace (flip nb nd') with nd'; [exact E|]. now destruct nd' as [? ? ? ? ? ? [] [] []].
Qed.
Lemma inv_ref_any n r f t o : lookup g n = Some r -> Ev g (ref n) f t o -> Ev g r f t o.
Proof.
  intros L H. destruct o as [nd u k st|k st]; [now apply (inv_ref n)|].
  inversion H as [| | | | |? ? ? ? L'| |? ? r' ? ? ? ? L' E| | | | | | | | |]; subst; rewrite L in L'; [discriminate|]. now injection L' as <-.
Qed.
Lemma go_ref n r f t nd u k st : lookup g n = Some r -> Ev g r f t (OMatch nd u k st) -> Ev g (ref n) f t (OMatch nd u k st).
Proof.
  intros L H. replace nd with (flip nb nd); [now apply (ev_ref g nb n r)|]. now destruct nd as [? ? ? ? ? ? [] [] []].
Qed.

Lemma inv_seq b r rules f t p m st kids n u k s : EvSeq g b (r :: rules) f t p m st kids (OMatch n u k s) ->
  exists n1 u1 k1 s1, Ev g r f (skipn p t) (OMatch n1 u1 k1 s1) /\
    EvSeq g b rules (nextMode f n1 s1) t (p + u1) (Nat.max m (p + k1)) (st && s1) (kids ++ [n1]) (OMatch n u k s).
Proof. intros H. inversion H; subst. eauto 6. Qed.
Lemma inv_seq_end b f t p m st kids n u k s : EvSeq g b [] f t p m st kids (OMatch n u k s) -> n = tree TConcat b kids st /\ u = p /\ s = st.
Proof. intros H. inversion H; subst. auto. Qed.

(** From [p] on the elements lead to the tree [n] and to [u]. *)
Definition Seq b rules f t p st kids n u s : Prop := forall m, exists k, EvSeq g b rules f t p m st kids (OMatch n u k s).
Lemma seq_done b f t p st kids n u s : n = tree TConcat b kids st -> u = p -> s = st -> Seq b [] f t p st kids n u s.
Proof. intros -> -> -> m. eexists. apply es_done. Qed.
Lemma seq_next b r rules f t p st kids n u s n1 u1 k1 s1 : Ev g r f (skipn p t) (OMatch n1 u1 k1 s1) ->
  Seq b rules (nextMode f n1 s1) t (p + u1) (st && s1) (kids ++ [n1]) n u s -> Seq b (r :: rules) f t p st kids n u s.
Proof. intros E H m. destruct (H (Nat.max m (p + k1))) as (k & K). exists k. eapply es_step; eassumption. Qed.
Lemma seq_concat b rules f t n u s : Seq b rules f t 0 true [] n u s -> exists k, Ev g (RConcat b rules) f t (OMatch n u k s).
Proof. intros H. destruct (H 0%nat) as (k & K). exists k. now apply ev_concat. Qed.

Lemma alts_in rules f t : forall m st ml m' st', EvAlts g rules f t m st ml m' st' -> forall n u, In (n, u) ml ->
  exists r k s, In r rules /\ Ev g r f t (OMatch n u k s).
Proof.
  induction rules as [|r rules IH]; intros m st ml m' st' H n u I;
    inversion H as [|? ? ? ? ? ? n1 u1 k1 s1 ml1 ? ? E F|? ? ? ? ? ? k1 s1 ? ? ? E F]; subst.
  - destruct I.
  - destruct I as [I|I]; [injection I as -> ->; eauto 6 using in_eq|]. destruct (IH _ _ _ _ _ F _ _ I) as (r' & k' & s' & A & B). eauto 6 using in_cons.
  - destruct (IH _ _ _ _ _ F _ _ I) as (r' & k' & s' & A & B). eauto 6 using in_cons.
Qed.
Lemma alts_st rules f t : forall m ml m' st', EvAlts g rules f t m false ml m' st' -> st' = false.
Proof. induction rules as [|r rules IH]; intros m ml m' st' H; inversion H; subst; [reflexivity|eauto..]. Qed.
Definition softly (r : rule) (t : list Z) : Prop := forall o, Ev g r SK t o -> match o with OMatch _ _ _ s => s = false | OFail _ s => s = false end.
Lemma alts_soft r rules t m st ml m' st' : softly r t -> EvAlts g (r :: rules) SK t m st ml m' st' -> st' = false.
Proof.
  intros S H. inversion H as [|? ? ? ? ? ? n1 u1 k1 s1 ml1 ? ? E F|? ? ? ? ? ? k1 s1 ? ? ? E F]; subst; apply S in E; subst; rewrite andb_false_r in F; now apply alts_st in F.
Qed.
Lemma choice_soft b r rules t : softly r t -> softly (RChoice b [r :: rules]) t.
Proof.
  intros S o H. inversion H as [| | | | | | | | | | | | | |? ? ? ? ? C| |]; subst. inversion C as [|? ? ? ? ? ? ? ? ? ? A E| |]; subst.
  - apply (alts_soft _ _ _ _ _ _ _ _ S) in A. subst. inversion E; subst. reflexivity.
  - eapply alts_soft; eassumption.
  - reflexivity.
Qed.
Lemma seq_soft b rules : forall f t p m kids o, EvSeq g b rules f t p m false kids o -> match o with OMatch _ _ _ s => s = false | OFail _ s => s = false end.
Proof. induction rules as [|r rules IH]; intros f t p m kids o H; inversion H as [|? ? ? ? ? ? ? ? ? ? ? ? ? ? E F|]; subst; [reflexivity|exact (IH _ _ _ _ _ _ F)|reflexivity]. Qed.
Lemma concat_soft b r rules t : softly r t -> softly (RConcat b (r :: rules)) t.
Proof.
  intros S o H. inversion H as [| | | | | | | | | | | |? ? ? ? ? C| | | |]; subst. inversion C as [|? ? ? ? ? ? ? ? ? n1 u1 k1 s1 ? E F|? ? ? ? ? ? ? ? ? ? ? E]; subst; cbn [skipn] in E; apply S in E; subst.
  - now apply seq_soft in F.
  - reflexivity.
Qed.

Lemma inv_choice b rules t n u k s : Ev g (RChoice b [rules]) SK t (OMatch n u k s) ->
  exists r n1 k1 s1, In r rules /\ n = tree TChoice b [n1] s /\ Ev g r SK t (OMatch n1 u k1 s1).
Proof.
  intros H. inversion H as [| | | | | | | | | | | | | |? ? ? ? ? C| |]; subst. inversion C as [|? ? ? ? ? ? ? ? ? ? A E|? ? ? ? ? ? ? ? ? ? n1 ? A SL|]; subst.
  - inversion E.
  - destruct SL as (l1 & l2 & -> & _). destruct (alts_in _ _ _ _ _ _ _ _ A n1 u) as (r & k1 & s1 & I & R); [apply in_or_app; right; now left|]. eauto 8.
Qed.

Definition fails (r : rule) (t : list Z) : Prop := exists k s, Ev g r SK t (OFail k s).
Lemma alts_fail rules t : Forall (fun r => fails r t) rules -> forall m st, exists m' st', EvAlts g rules SK t m st [] m' st'.
Proof.
  induction 1 as [|r rules (k & s & E) _ IH]; intros m st; [exists m, st; apply ea_nil|]. destruct (IH (Nat.max m k) (st && s)) as (m' & st' & X).
  exists m', st'. eapply ea_fail; eassumption.
Qed.
Lemma choice_one b pre r post t n u k : Forall (fun r => fails r t) pre -> Forall (fun r => fails r t) post -> Ev g r SK t (OMatch n u k false) ->
  exists k', Ev g (RChoice b [pre ++ r :: post]) SK t (OMatch (tree TChoice b [n] false) u k' false).
Proof.
  intros A B E. destruct (alts_fail pre t A 0 true) as (m1 & st1 & X1). destruct (alts_fail post t B (Nat.max m1 k) (st1 && false)) as (m2 & st2 & X2).
  exists m2. rewrite andb_false_r in X2. pose proof (alts_st _ _ _ _ _ _ _ X2) as ->. apply ev_choice. eapply ec_pick with (ml := [(n, u)]).
  - change [(n, u)] with ([] ++ [(n, u)]). eapply alts_app; [exact X1|]. eapply ea_match; [exact E|]. rewrite andb_false_r. exact X2.
  - exists [], []. split; [reflexivity|constructor].
Qed.
End Parts.

(** A rule that cannot start with the first dark rune fails. *)
Lemma miss r t c : jClass r -> (exists o, Ev gJ r SK t o) -> noEsc t -> darkAt t c -> nulC jEnv r = false -> ~ memb c (firC jEnv r) -> fails gJ r t.
Proof.
  intros C ([n u k st|k st] & E) D A N F; [|now exists k, st]. exfalso.
  pose proof (ev_good gJ jKnown noEsc noEsc_skip jLookup) as G. 
  assert (X : good gJ r t (Match n u k st)).
  { destruct (ev_complete _ _ _ _ _ E) as (fuel & X). specialize (X fuel (Nat.le_refl _)).
    pose proof (json_good fuel r SK t C D) as Q. destruct X as [X|(y & X & Y)]; rewrite X in Q; cbn [goodOut] in Q; [destruct Q|].
    destruct y as [n' u' k' st'|k' st'|k']; cbn [noAmb] in Y; [now injection Y as -> -> -> ->|discriminate|destruct Q]. }
  destruct X as (_ & [(X & _)|(_ & (c' & A' & X) & _)]).
  - apply (nul_sound gJ jEnv jEnv_closed) in X. congruence.
  - rewrite (darkAt_fun _ _ _ A' A) in X. now apply F, (fir_sound gJ jEnv jEnv_closed).
Qed.

(* ---------------- white space ---------------- *)

Lemma white_lead w c t : white w -> isWS c = false -> lead (w ++ c :: t) = length w /\ skipn (lead (w ++ c :: t)) (w ++ c :: t) = c :: t.
Proof.
  intros W D. assert (E : lead (w ++ c :: t) = length w).
  { unfold lead. induction W as [|x w X _ IH]; cbn [app ws_prefix]; [now rewrite D|]. rewrite (proj2 (isWS_In x) X). cbn [length]. now rewrite IH. }
  split; [exact E|]. rewrite E. clear. induction w; [reflexivity|assumption].
Qed.
Lemma lead_white t : t = firstn (lead t) t ++ skipn (lead t) t /\ white (firstn (lead t) t) /\ length (firstn (lead t) t) = lead t.
Proof.
  split; [now rewrite firstn_skipn|]. pose proof (ws_prefix_app t) as A. split.
  - rewrite A at 2. unfold lead. rewrite firstn_app, Nat.sub_diag, firstn_all, firstn_O, app_nil_r. apply ws_prefix_white.
  - apply firstn_length_le. apply lead_le.
Qed.

(* ---------------- words ---------------- *)

Lemma litmatch_app w t : litmatch w (w ++ t) = (w, true).
Proof. induction w as [|c w IH]; [reflexivity|]. cbn. now rewrite Z.eqb_refl, IH. Qed.
Lemma litmatch_inv w : forall l, snd (litmatch w l) = true -> exists t, l = w ++ t.
Proof.
  induction w as [|x w IH]; intros [|y l]; cbn; intros H; try discriminate; eauto. destruct (Z.eqb_spec y x) as [->|]; [|discriminate].
  destruct (litmatch w l) as [r ok] eqn:E. cbn in H. destruct (IH l) as (t & ->); [now rewrite E|]. eauto.
Qed.
Lemma word_yes b c w sp t : isWS c = false -> white sp ->
  Ev gJ (RString b (c :: w)) SK (sp ++ c :: w ++ t) (OMatch (wordNode b (c :: w)) (length sp + length (c :: w)) (length sp + length (c :: w)) false).
Proof.
  intros D W. eapply ev_eq'; [now apply word_ev|]. destruct (white_lead sp c (w ++ t) W D) as [L S]. rewrite S, L.
  unfold wOut. change (c :: w ++ t) with ((c :: w) ++ t). now rewrite litmatch_app.
Qed.
Lemma word_inv b c w t n u k st : isWS c = false -> Ev gJ (RString b (c :: w)) SK t (OMatch n u k st) ->
  exists sp t', t = sp ++ c :: w ++ t' /\ white sp /\ u = (length sp + length (c :: w))%nat /\ n = wordNode b (c :: w) /\ st = false.
Proof.
  intros D H. pose proof (ev_det _ _ _ _ _ _ H (word_ev gJ b c w t D)) as E. unfold wOut in E.
  destruct (snd (litmatch (c :: w) (skipn (lead t) t))) eqn:M; cbn [shift] in E; [|discriminate]. injection E as -> -> _ ->.
  destruct (litmatch_inv _ _ M) as (t' & T). destruct (lead_white t) as (A & B & L). exists (firstn (lead t) t), t'. rewrite T in A. cbn [app] in A. rewrite L. auto.
Qed.
Lemma word_no b c w t d : isWS c = false -> darkAt t d -> d <> c -> fails gJ (RString b (c :: w)) t.
Proof.
  intros D [r A] N. pose proof (word_ev gJ b c w t D) as E. rewrite A in E. unfold wOut in E. cbn [litmatch] in E.
  destruct (Z.eqb_spec d c) as [->|_]; [congruence|]. cbn in E. eexists. eexists. exact E.
Qed.
Lemma word_soft g b l t : softly g (RString b l) t.
Proof.
  intros o H. inversion H; subst. destruct (tlit (skips SK true) l t) as [[[cs|] rd] un]; reflexivity.
Qed.

(* ---------------- numbers ---------------- *)

Lemma isDigit_iff c : isDigit c = true <-> 48 <= c <= 57.
Proof. unfold isDigit. rewrite andb_true_iff, !Z.leb_le. reflexivity. Qed.
Definition fracNode (i : list Z) (fr : option (list Z)) : node := match fr with None => intNode i | Some es => floatNode i es end.
Definition numRaw (m : bool) (i : list Z) (fr : option (list Z)) : node := numNode m (eitherNode (fracNode i fr)).
Lemma run_digitRun l d ds : run l = d :: ds -> digitRun (d :: ds).
Proof.
  intros R. split; [discriminate|]. pose proof (run_digits l) as F. rewrite R in F. apply Forall_forall. rewrite Forall_forall in F.
  intros c C. now apply isDigit_iff, F.
Qed.
Lemma run_isDigit i : digitRun i -> Forall (fun c => isDigit c = true) i.
Proof. intros [_ F]. apply Forall_forall. rewrite Forall_forall in F. intros c C. now apply isDigit_iff, F. Qed.
Lemma no_start t : match t with d :: _ => isDigit d = false | [] => True end <-> ~ startsDigit t.
Proof.
  split.
  - intros H (c & t' & -> & C). apply isDigit_iff in C. congruence.
  - intros H. destruct t as [|d t]; [exact I|]. destruct (isDigit d) eqn:E; [|reflexivity]. exfalso. apply H. exists d, t. split; [reflexivity|]. now apply isDigit_iff.
Qed.
Lemma eOut_inv m l n u k st : eOut l = OMatch n u k st -> exists i fr t, l = i ++ dotted fr ++ t /\ u = length (i ++ dotted fr) /\
  n = eitherNode (fracNode i fr) /\ st = true /\ digitRun i /\ (forall x, fr = Some x -> digitRun x) /\ mayFollow (JNum m i fr) t.
Proof.
  unfold eOut. destruct (run l) as [|d ds] eqn:R; [discriminate|]. set (i := d :: ds) in *.
  pose proof (run_split l) as S. pose proof (run_stop l) as T. rewrite R in S, T. pose proof (run_digitRun _ _ _ R) as DI.
  assert (ST : ~ startsDigit (skipn (length i) l)) by (apply no_start; exact T).
  assert (NONE : frac (skipn (length i) l) = None \/ frac (skipn (length i) l) = Some [] -> mayFollow (JNum m i None) (skipn (length i) l)).
  { intros F. split; [exact ST|]. intros _ t' E. rewrite E in F. cbn in F. destruct F as [F|F]; [discriminate|]. injection F as F. intros (c & t'' & -> & C).
    apply isDigit_iff in C. cbn in F. rewrite C in F. discriminate. }
  destruct (frac (skipn (length i) l)) as [[|e es]|] eqn:F; intros E; injection E as <- <- _ <-.
  - exists i, None, (skipn (length i) l). cbn [dotted app]. rewrite app_nil_r. split; [exact S|]. split; [reflexivity|]. split; [reflexivity|]. split; [reflexivity|]. split; [exact DI|]. split; [discriminate|auto].
  - destruct (skipn (length i) l) as [|c l'] eqn:L; [discriminate|]. cbn [frac] in F. destruct (Z.eqb_spec c 46) as [->|]; [|discriminate]. injection F as F.
    pose proof (run_split l') as S'. pose proof (run_stop l') as T'. rewrite F in S', T'.
    exists i, (Some (e :: es)), (skipn (length (e :: es)) l'). cbn [dotted]. split.
    { rewrite S at 1. f_equal. cbn [app]. f_equal. exact S'. }
    split; [rewrite app_length; unfold i; cbn [length]; lia|]. split; [reflexivity|]. split; [reflexivity|]. split; [exact DI|]. split.
    { intros x X. injection X as <-. exact (run_digitRun _ _ _ F). }
    split; [apply no_start; exact T'|discriminate].
  - exists i, None, (skipn (length i) l). cbn [dotted app]. rewrite app_nil_r. split; [exact S|]. split; [reflexivity|]. split; [reflexivity|]. split; [reflexivity|]. split; [exact DI|]. split; [discriminate|auto].
Qed.
Lemma eOut_yes m i fr t : digitRun i -> (forall x, fr = Some x -> digitRun x) -> mayFollow (JNum m i fr) t ->
  exists k, eOut (i ++ dotted fr ++ t) = OMatch (eitherNode (fracNode i fr)) (length (i ++ dotted fr)) k true.
Proof.
  intros DI DF [N1 N2]. unfold eOut. pose proof (run_isDigit i DI) as FI.
  assert (R : run (i ++ dotted fr ++ t) = i).
  { apply run_app; [exact FI|]. destruct fr as [es|]; [reflexivity|]. apply no_start. exact N1. }
  rewrite R. clear R.
  destruct DI as [NI _]. destruct i as [|d ds]; [congruence|]. set (i := d :: ds) in *.
  replace (skipn (length i) (i ++ dotted fr ++ t)) with (dotted fr ++ t) by (rewrite skipn_app, Nat.sub_diag, skipn_all; reflexivity).
  destruct fr as [es|]; cbn [dotted app frac].
  - rewrite Z.eqb_refl. destruct (DF es eq_refl) as [NE FE]. rewrite (run_app es t (run_isDigit es (DF es eq_refl))) by (apply no_start; exact N1).
    destruct es as [|e es]; [congruence|]. eexists. unfold fracNode. f_equal. rewrite app_length. unfold i. cbn [length]. lia.
  - rewrite app_nil_r. destruct t as [|c t]; [eexists; reflexivity|]. cbn [frac]. destruct (Z.eqb_spec c 46) as [->|]; [|eexists; reflexivity].
    specialize (N2 eq_refl t eq_refl). apply no_start in N2. destruct t as [|c t]; [eexists; reflexivity|]. cbn [run]. rewrite N2. eexists; reflexivity.
Qed.
Lemma num_inv t n u k st : Ev gJ (ref nNumber) SK t (OMatch n u k st) -> exists w m i fr t', t = w ++ (minusSign m ++ i ++ dotted fr) ++ t' /\ white w /\
  u = (length w + length (minusSign m ++ i ++ dotted fr))%nat /\ n = numRaw m i fr /\ st = false /\ digitRun i /\ (forall x, fr = Some x -> digitRun x) /\ mayFollow (JNum m i fr) t'.
Proof.
  intros H. pose proof (ev_det _ _ _ _ _ _ H (number_ev SK t)) as E. clear H. destruct (lead_white t) as (A & B & L).
  set (l := skipn (lead t) t) in *. unfold nOut in E. destruct (headIs 45 l) eqn:M.
  - apply headIs_cons in M. destruct (eOut (tl l)) as [n' u' k' st'|k' st'] eqn:EO; cbn [wrap shift] in E; [|discriminate]. injection E as -> -> _ ->.
    destruct (eOut_inv true _ _ _ _ _ EO) as (i & fr & t' & S & -> & -> & _ & DI & DF & F).
    exists (firstn (lead t) t), true, i, fr, t'. cbn [minusSign]. split.
    { rewrite A at 1. f_equal. rewrite M, S. cbn [app]. now rewrite <- app_assoc. }
    rewrite L. split; [exact B|]. split; [cbn [app length]; lia|]. auto.
  - destruct (eOut l) as [n' u' k' st'|k' st'] eqn:EO; cbn [wrap shift] in E; [|discriminate]. injection E as -> -> _ ->.
    destruct (eOut_inv false _ _ _ _ _ EO) as (i & fr & t' & S & -> & -> & _ & DI & DF & F).
    exists (firstn (lead t) t), false, i, fr, t'. cbn [minusSign]. split.
    { rewrite A at 1. f_equal. rewrite S. cbn [app]. now rewrite <- app_assoc. }
    rewrite L. split; [exact B|]. split; [cbn [app length]; lia|]. auto.
Qed.
Lemma num_yes w m i fr t : white w -> digitRun i -> (forall x, fr = Some x -> digitRun x) -> mayFollow (JNum m i fr) t ->
  exists k, Ev gJ (ref nNumber) SK (w ++ (minusSign m ++ i ++ dotted fr) ++ t) (OMatch (numRaw m i fr) (length w + length (minusSign m ++ i ++ dotted fr)) k false).
Proof.
  intros W DI DF F. destruct (eOut_yes m i fr t DI DF F) as (k & E). pose proof (number_ev SK (w ++ (minusSign m ++ i ++ dotted fr) ++ t)) as N.
  assert (HD : exists c x, (minusSign m ++ i ++ dotted fr) ++ t = c :: x /\ isWS c = false).
  { destruct m; [cbn; eauto|]. destruct DI as [NI FI]. destruct i as [|d i]; [congruence|]. inversion FI; subst. cbn. eexists. eexists. split; [reflexivity|]. apply digit_dark. now apply isDigit_iff. }
  destruct HD as (c & x & X & D). rewrite X in N. destruct (white_lead w c x W D) as [LL SS]. rewrite SS, LL, <- X in N.
  destruct m; cbn [minusSign app] in *.
  - unfold nOut in N. cbn [headIs tl] in N. rewrite Z.eqb_refl in N. rewrite <- app_assoc in N. rewrite E in N. cbn [wrap shift] in N.
    eexists. rewrite <- app_assoc. eapply ev_eq'; [exact N|]. cbn [length]. unfold numRaw. f_equal; lia.
  - unfold nOut in N. assert (H45 : headIs 45 ((i ++ dotted fr) ++ t) = false).
    { destruct DI as [NI FI]. destruct i as [|d i]; [congruence|]. inversion FI; subst. cbn. apply Z.eqb_neq. lia. }
    rewrite H45 in N. rewrite <- app_assoc in N |- *. rewrite E in N. cbn [wrap shift] in N. eexists. eapply ev_eq'; [exact N|]. unfold numRaw. f_equal.
Qed.
Lemma num_soft t : softly gJ (ref nNumber) t.
Proof.
  intros o H. rewrite (ev_det _ _ _ _ _ _ H (number_ev SK t)). unfold nOut. destruct (headIs 45 _); destruct (eOut _); reflexivity.
Qed.

(* ---------------- strings ---------------- *)

Lemma strOut_inv l : ~ In 92 l -> forall c n u k st, strOut c l = OMatch n u k st -> exists x t, l = x ++ 34 :: t /\ Forall simple x /\ u = S (length x) /\ n = strNode (c ++ x) /\ st = false.
Proof.
  induction l as [|y l IH]; intros NE c n u k st H; cbn [strOut] in H; [discriminate|]. destruct (Z.eqb_spec y 10) as [|N10]; [discriminate|].
  destruct (Z.eqb_spec y 34) as [->|N34].
  - injection H as <- <- _ <-. exists [], l. rewrite app_nil_r. repeat (split; [auto|]). reflexivity.
  - destruct (strOut (c ++ [y]) l) as [n' u' k' st'|] eqn:E; cbn [shift] in H; [|discriminate]. injection H as <- <- _ <-.
    destruct (IH (fun X => NE (or_intror X)) _ _ _ _ _ E) as (x & t & -> & F & -> & -> & ->). exists (y :: x), t. rewrite <- app_assoc. repeat (split; [auto|]); [|reflexivity].
    constructor; [|exact F]. repeat split; [exact N34|intros ->; apply NE; now left|exact N10].
Qed.
Lemma strOut_yes x : Forall simple x -> forall c t, exists k, strOut c (x ++ 34 :: t) = OMatch (strNode (c ++ x)) (S (length x)) k false.
Proof.
  induction 1 as [|y x (N34 & _ & N10) _ IH]; intros c t; cbn [app strOut].
  - rewrite app_nil_r. eexists. reflexivity.
  - destruct (Z.eqb_spec y 10); [congruence|]. destruct (Z.eqb_spec y 34); [congruence|]. destruct (IH (c ++ [y]) t) as (k & ->). rewrite <- app_assoc. eexists. reflexivity.
Qed.
Lemma str_inv t n u k st : noEsc t -> Ev gJ (ref nString) SK t (OMatch n u k st) -> exists w x t', t = w ++ (34 :: x ++ [34]) ++ t' /\ white w /\ Forall simple x /\
  u = (length w + length (34%Z :: x ++ [34%Z]))%nat /\ n = strNode x /\ st = false.
Proof.
  intros D H. pose proof (ev_det _ _ _ _ _ _ H (string_ev SK t D)) as E. rewrite sp_skip in E. destruct (lead_white t) as (A & B & L). pose proof (noEsc_skip (lead t) t D) as D'.
  set (l := skipn (lead t) t) in *. unfold sOut in E. destruct (headIs 34 l) eqn:M; [|discriminate]. apply headIs_cons in M.
  assert (D'' : ~ In 92 (tl l)) by (intros X; apply D'; rewrite M; now right).
  destruct (strOut [] (tl l)) as [n' u' k' st'|] eqn:EO; cbn [shift] in E; [|discriminate]. injection E as -> -> _ ->.
  destruct (strOut_inv _ D'' _ _ _ _ _ EO) as (x & t' & S & F & -> & -> & ->). exists (firstn (lead t) t), x, t'. split.
  { rewrite A at 1. f_equal. rewrite M, S. cbn [app]. now rewrite <- app_assoc. }
  split; [exact B|]. split; [exact F|]. rewrite L. split; [cbn [length]; rewrite app_length; cbn [length]; lia|]. auto.
Qed.
Lemma str_yes w x t : noEsc (w ++ (34 :: x ++ [34]) ++ t) -> white w -> Forall simple x ->
  exists k, Ev gJ (ref nString) SK (w ++ (34 :: x ++ [34]) ++ t) (OMatch (strNode x) (length w + length (34%Z :: x ++ [34%Z])) k false).
Proof.
  intros D W F. pose proof (string_ev SK _ D) as N. rewrite sp_skip in N. change ((34 :: x ++ [34]) ++ t) with (34 :: (x ++ [34]) ++ t) in *.
  destruct (white_lead w 34 ((x ++ [34]) ++ t) W eq_refl) as [LL SS]. rewrite SS, LL in N. unfold sOut in N. cbn [headIs tl] in N. rewrite Z.eqb_refl in N.
  destruct (strOut_yes x F [] t) as (k & E). rewrite <- app_assoc in N |- *. cbn [app] in N |- *. rewrite E in N. cbn [shift app] in N. eexists. eapply ev_eq'; [exact N|].
  f_equal. cbn [length]. rewrite app_length. cbn [length]. lia.
Qed.
Lemma str_soft t : noEsc t -> softly gJ (ref nString) t.
Proof.
  intros D o H. rewrite (ev_det _ _ _ _ _ _ H (string_ev SK t D)). unfold sOut. destruct (headIs 34 _); [|reflexivity].
  generalize (tl (skipn (sp SK t) t)) (@nil Z). clear. induction l as [|y l IH]; intros c; cbn [strOut]; [reflexivity|]. destruct (y =? 10); [reflexivity|]. destruct (y =? 34); [reflexivity|].
  specialize (IH (c ++ [y])). destruct (strOut (c ++ [y]) l); exact IH.
Qed.
