(** What calls on a grammar keep and change. *)
From Verif Require Import Base Stream StreamFacts Node Rule Parse Grammar SpecStream SpecRule SpecParse SpecGrammar ParseFacts GrammarFacts GrammarText DriverFacts ClosedFacts SpecDriver.

Lemma history_snoc calls c : history (calls ++ [c]) = perform (history calls) c.
Proof. unfold history. now rewrite fold_left_app. Qed.
Lemma history_app a b : history (a ++ b) = fold_left perform b (history a).
Proof. unfold history. apply fold_left_app. Qed.

(* ---------------- definitions stay ---------------- *)

Lemma parse_keeps g name str n rec : getRecord g n = Some rec -> getRecord (snd (parseRule g name str)) n = Some rec.
Proof.
  intros R. destruct (parseRule_cases g name str) as [[_ ->]|[(_ & _ & ->)|(V & N & [(us & _ & ->)|[[E ->]|(r & l & us & E & ->)]])]]; cbn [snd]; auto.
  unfold getRecord in *. cbn [g_records] in *. revert R. clear -N. unfold getRecord in N. induction (g_records g) as [|[k x] m IH]; [discriminate|]. cbn [find_rec app] in *.
  destruct (runes_eqb k n); [auto|]. destruct (runes_eqb k name); [discriminate|]. auto.
Qed.
Lemma add_keeps g def n rec : getRecord g n = Some rec -> getRecord (snd (addRule g def)) n = Some rec.
Proof. intros R. destruct (addRule_cases g def) as [[_ ->]|(a & b & E & ->)]; [exact R|now apply parse_keeps]. Qed.
Lemma validate_keeps g n : getRecord (snd (validate g)) n = getRecord g n.
Proof. unfold getRecord. now destruct (validate_records g) as [-> _]. Qed.
Lemma perform_keeps g c n rec : getRecord g n = Some rec -> getRecord (perform g c) n = Some rec.
Proof. intros R. destruct c; cbn [perform]; [now apply add_keeps|now apply parse_keeps|now rewrite validate_keeps]. Qed.
Lemma fold_keeps calls : forall g n rec, getRecord g n = Some rec -> getRecord (fold_left perform calls g) n = Some rec.
Proof. induction calls as [|c calls IH]; intros g n rec R; [exact R|]. cbn [fold_left]. apply IH. now apply perform_keeps. Qed.
Lemma history_keeps before later n rec : getRecord (history before) n = Some rec -> getRecord (history (before ++ later)) n = Some rec.
Proof. rewrite history_app. apply fold_keeps. Qed.

Lemma invalid_name g name str : ~ goodName name -> parseRule g name str = (inr GName, g).
Proof.
  intros N. destruct (parseRule_cases g name str) as [[_ E]|[(V & _)|(V & _)]]; [exact E|exfalso; apply N; now apply validName_iff..].
Qed.
Lemma duplicate_name g name str rec : goodName name -> getRecord g name = Some rec -> parseRule g name str = (inr GDuplicate, g).
Proof.
  intros G R. apply validName_iff in G. destruct (parseRule_cases g name str) as [[V _]|[(_ & _ & E)|(_ & N & _)]]; [congruence|exact E|congruence].
Qed.
Lemma invalid_add g def a b : def = a ++ 61 :: b -> ~ In 61 a -> ~ goodName (trim a) -> addRule g def = (inr GName, g).
Proof. intros E N G. destruct (addRule_cases g def) as [[S _]|(a' & b' & S & ->)]; [exfalso; apply splitEq_none in S; apply S; subst; apply in_elt|].
  assert (X : splitEq def = Some (a, b)) by (apply splitEq_some; auto). rewrite S in X. injection X as -> ->. now apply invalid_name. Qed.
Lemma duplicate_add g def a b rec : def = a ++ 61 :: b -> ~ In 61 a -> goodName (trim a) -> getRecord g (trim a) = Some rec -> addRule g def = (inr GDuplicate, g).
Proof. intros E N G R. destruct (addRule_cases g def) as [[S _]|(a' & b' & S & ->)]; [exfalso; apply splitEq_none in S; apply S; subst; apply in_elt|].
  assert (X : splitEq def = Some (a, b)) by (apply splitEq_some; auto). rewrite S in X. injection X as -> ->. now apply duplicate_name with rec. Qed.

(* ---------------- failed calls ---------------- *)

Lemma parse_fails g name str e g' : parseRule g name str = (inr e, g') ->
  g' = g \/ (e = GParse /\ exists us, parseText (trim str) = PErr us /\ g' = addUsages g us name).
Proof.
  destruct (parseRule_cases g name str) as [[_ ->]|[(_ & _ & ->)|(V & N & [(us & P & ->)|[[E ->]|(r & l & us & E & ->)]])]]; intros [= <- <-]; auto. right. split; [reflexivity|]. eauto.
Qed.
Lemma same_refl g : sameGrammar g g. Proof. repeat split. Qed.
Lemma same_usages g us n : sameGrammar g (addUsages g us n). Proof. repeat split. Qed.
Lemma parse_failed_same g name str e g' : parseRule g name str = (inr e, g') -> sameGrammar g g'.
Proof. intros E. apply parse_fails in E as [->|(_ & us & _ & ->)]; [apply same_refl|apply same_usages]. Qed.
Lemma add_failed_same g def e g' : addRule g def = (inr e, g') -> sameGrammar g g'.
Proof. destruct (addRule_cases g def) as [[_ ->]|(a & b & E & ->)]; [intros [= _ <-]; apply same_refl|apply parse_failed_same]. Qed.
Lemma validate_failed g e g' : validate g = (Some e, g') -> g' = g.
Proof. unfold validate. destruct (forallb _ _); [discriminate|]. now intros [= _ <-]. Qed.
(** Only a definition that cannot be read leaves something behind. *)
Lemma parse_failed_exact g name str e g' : parseRule g name str = (inr e, g') -> e <> GParse -> g' = g.
Proof. intros E N. apply parse_fails in E as [->|(-> & _)]; [reflexivity|contradiction]. Qed.
Lemma add_failed_exact g def e g' : addRule g def = (inr e, g') -> e <> GParse -> g' = g.
Proof. destruct (addRule_cases g def) as [[_ ->]|(a & b & E & ->)]; [now intros [= _ <-]|apply parse_failed_exact]. Qed.

(* ---------------- roots ---------------- *)

Lemma put_in m k x n r : In (n, r) m -> (n = k -> r = x) -> In (n, r) (put_rec m k x).
Proof.
  induction m as [|[j y] m IH]; [intros []|]. cbn [put_rec]. intros [E0|I] H; [injection E0 as -> ->|].
  - destruct (runes_eqb n k) eqn:E; [|now left]. apply runes_eqb_eq in E. left. now rewrite (H E).
  - destruct (runes_eqb j k) eqn:E; [now right|]. right. auto.
Qed.
Lemma put_here m k x : exists j, In (j, x) (put_rec m k x) /\ j = k.
Proof.
  induction m as [|[j y] m IH]; cbn [put_rec]; [exists k; split; [now left|reflexivity]|]. destruct (runes_eqb j k) eqn:E; [apply runes_eqb_eq in E; exists j; split; [now left|exact E]|].
  destruct IH as (i & I & ->). exists k. split; [now right|reflexivity].
Qed.
Lemma fold_put_iff l : forall m, (forall n r r', In (n, r) (m ++ l) -> In (n, r') (m ++ l) -> r = r') ->
  forall n r, In (n, r) (fold_left (fun m kr => put_rec m (fst kr) (snd kr)) l m) <-> In (n, r) m \/ In (n, r) l.
Proof.
  intros m A n r. split; [apply fold_put_in|]. revert m A. induction l as [|[k x] l IH]; intros m A H; cbn [fold_left fst snd]; [destruct H as [H|[]]; exact H|].
  apply IH.
  - intros n' a b Ha Hb. apply (A n'); apply in_app_iff; [apply in_app_iff in Ha as [Ha|Ha]; [|right; now right]|apply in_app_iff in Hb as [Hb|Hb]; [|right; now right]];
      match goal with X : In _ (put_rec _ _ _) |- _ => apply (fold_put_in m [(k, x)]) in X as [X|[X|[]]]; [now left|right; left; exact X] end.
  - destruct H as [H|[[= -> ->]|H]]; [|left; destruct (put_here m n r) as (j & J & ->); exact J|now right].
    left. apply put_in; [exact H|]. intros ->. apply (A k); apply in_app_iff; [now left|right; now left].
Qed.
Lemma roots_step g g' : ginv g -> validate g = (None, g') -> forall n rec,
  In (n, rec) (g_roots g') <-> In (n, rec) (g_roots g) \/ (In (n, rec) (g_records g) /\ ~ In n (List.map fst (g_usage g))).
Proof.
  intros I V n rec. unfold validate in V. destruct (forallb _ _); [|discriminate]. injection V as <-. cbn [g_roots]. rewrite fold_put_iff.
  - rewrite filter_In. cbn [fst]. rewrite negb_true_iff, <- not_true_iff_false, hasKey_iff. reflexivity.
  - assert (S : forall n r, In (n, r) (g_roots g ++ filter (fun kr => negb (hasKey (fst kr) (g_usage g))) (g_records g)) -> In (n, r) (g_records g)).
    { intros n0 r H. apply in_app_iff in H as [H|H]; [now apply (gi_roots _ I)|]. now apply filter_In in H. }
    intros n0 r r' H H'. apply S in H, H'. apply find_nodup in H, H'; [congruence|apply I..].
Qed.
Lemma add_roots g c : c <> Validate -> g_roots (perform g c) = g_roots g.
Proof.
  assert (P : forall name str, g_roots (snd (parseRule g name str)) = g_roots g).
  { intros name str. destruct (parseRule_cases g name str) as [[_ ->]|[(_ & _ & ->)|(V & N & [(us & P & ->)|[[E ->]|(r & l & us & E & ->)]])]]; reflexivity. }
  destruct c; cbn [perform]; [|intros _; apply P|congruence]. intros _. destruct (addRule_cases g def) as [[_ ->]|(a & b & E & ->)]; [reflexivity|apply P].
Qed.

Lemma adds_snoc calls c : addsSucceed (calls ++ [c]) -> addsSucceed calls /\ (c <> Validate -> succeeds (history calls) c).
Proof.
  intros A. split; [|intros N; now apply (A calls c [])]. intros b d a -> N. apply (A b d (a ++ [c])); [now rewrite <- app_assoc|exact N].
Qed.
Lemma decoded_snoc calls c : decoded (calls ++ [c]) -> decoded calls /\ runesOk (textOf c).
Proof. unfold decoded. intros D. apply Forall_app in D as [D E]. split; [exact D|now inversion E]. Qed.
Lemma exact_validate g : exactUsage g -> exactUsage (snd (validate g)).
Proof. intros X m n. destruct (validate_records g) as (R & U & _). rewrite U. intros H. destruct (X m n H) as (rec & I & M). exists rec. rewrite R. auto. Qed.
Lemma exact_history calls : decoded calls -> addsSucceed calls -> exactUsage (history calls).
Proof.
  induction calls as [|c calls IH] using rev_ind; intros D A; [intros m n []|]. apply decoded_snoc in D as [D DC]. apply adds_snoc in A as [A AC]. specialize (IH D A).
  rewrite history_snoc. destruct c as [def|name str|]; cbn [perform textOf] in *.
  - destruct (AC ltac:(discriminate)) as [r E]. destruct (addRule_cases (history calls) def) as [[_ X]|(a & b & S & X)]; rewrite X in *; [discriminate|].
    destruct (parseRule (history calls) (trim a) (trim b)) as [res g'] eqn:P. cbn [fst snd] in *. subst res. eapply exact_parse; [|exact IH|exact P]. apply trim_clean. eapply split_clean; eauto.
  - destruct (AC ltac:(discriminate)) as [r E]. destruct (parseRule (history calls) name str) as [res g'] eqn:P. cbn [fst snd] in *. subst res. eapply exact_parse; eauto.
  - now apply exact_validate.
Qed.

Lemma topmost_iff g n : ginv g -> exactUsage g -> topmost g n <-> exists rec, In (n, rec) (g_records g) /\ ~ In n (List.map fst (g_usage g)).
Proof.
  intros I X. unfold topmost. rewrite <- (usage_referenced g I X). split.
  - intros [[r R] N]. apply getRule_in in R as (rec & R & _); [|apply I]. eauto.
  - intros (rec & R & N). split; [|exact N]. exists (rec_rule rec). apply getRule_in; [apply I|eauto].
Qed.
Lemma roots_history calls : decoded calls -> addsSucceed calls -> forall n,
  isRoot (history calls) n <-> exists before after, calls = before ++ Validate :: after /\ succeeds (history before) Validate /\ topmost (history before) n.
Proof.
  induction calls as [|c calls IH] using rev_ind; intros D A n.
  - split; [intros []|]. intros (b & a & E & _). destruct b; discriminate.
  - apply decoded_snoc in D as [D DC]. apply adds_snoc in A as [A AC]. specialize (IH D A n). rewrite history_snoc.
    assert (SN : (exists before after, calls ++ [c] = before ++ Validate :: after /\ succeeds (history before) Validate /\ topmost (history before) n) <->
                 (exists before after, calls = before ++ Validate :: after /\ succeeds (history before) Validate /\ topmost (history before) n) \/
                 (c = Validate /\ succeeds (history calls) Validate /\ topmost (history calls) n)).
    { split.
      - intros (b & a & E & S & T). destruct a as [|x a] using rev_ind.
        + apply app_inj_tail in E as [<- ->]. right. auto.
        + clear IHa. change (b ++ Validate :: a ++ [x]) with (b ++ (Validate :: a) ++ [x]) in E. rewrite app_assoc in E. apply app_inj_tail in E as [-> <-]. left. eauto.
      - intros [(b & a & -> & S & T)|(-> & S & T)]; [exists b, (a ++ [c]); split; [now rewrite <- app_assoc|auto]|]. exists calls, []. auto. }
    rewrite SN, <- IH. unfold isRoot. destruct c as [def|name str|].
    + rewrite add_roots by discriminate. split; [auto|]. intros [H|[H _]]; [exact H|discriminate].
    + rewrite add_roots by discriminate. split; [auto|]. intros [H|[H _]]; [exact H|discriminate].
    + cbn [perform succeeds]. pose proof (ginv_history calls D) as I. pose proof (exact_history calls D A) as X.
      destruct (validate (history calls)) as [[e|] g'] eqn:V; cbn [fst snd].
      * apply validate_failed in V as ->. split; [auto|]. intros [H|[_ [H _]]]; [exact H|discriminate].
      * rewrite (topmost_iff _ _ I X). pose proof (roots_step _ _ I V) as RS. split.
        -- intros H. apply in_map_iff in H as ([m rec] & <- & H). cbn [fst]. apply RS in H as [H|H]; [left; now apply (in_map fst) in H|right; eauto].
        -- intros [H|(_ & _ & rec & H)].
           ++ apply in_map_iff in H as ([m rec] & <- & H). cbn [fst]. change m with (fst (m, rec)). apply in_map. apply RS. now left.
           ++ change n with (fst (n, rec)). apply in_map. apply RS. now right.
Qed.
Lemma same_rules_topmost g g' n : g_records g = g_records g' -> topmost g n <-> topmost g' n.
Proof. intros E. unfold topmost, referenced, getRule, getRecord. now rewrite E. Qed.
(** The first validation that succeeds finds exactly the topmost rules. *)
Lemma roots_first calls : decoded calls -> addsSucceed calls -> ~ In Validate calls -> succeeds (history calls) Validate ->
  forall n, isRoot (history (calls ++ [Validate])) n <-> topmost (history (calls ++ [Validate])) n.
Proof.
  intros D A N S n. assert (D' : decoded (calls ++ [Validate])) by (apply Forall_app; split; [exact D|repeat constructor]).
  assert (A' : addsSucceed (calls ++ [Validate])).
  { intros b c a E NV. destruct a as [|x a] using rev_ind; [apply app_inj_tail in E as [_ <-]; congruence|]. clear IHa. change (b ++ c :: a ++ [x]) with (b ++ (c :: a) ++ [x]) in E. rewrite app_assoc in E.
    apply app_inj_tail in E as [E _]. eapply A; eauto. }
  rewrite (roots_history _ D' A'). rewrite history_snoc. cbn [perform]. destruct (validate_records (history calls)) as (R & _). rewrite (same_rules_topmost _ _ n R). split.
  - intros (b & a & E & _ & T). destruct a as [|x a] using rev_ind; [apply app_inj_tail in E as [<- _]; exact T|]. clear IHa.
    change (b ++ Validate :: a ++ [x]) with (b ++ (Validate :: a) ++ [x]) in E. rewrite app_assoc in E. apply app_inj_tail in E as [E _]. exfalso. apply N. rewrite E. apply in_elt.
  - intros T. exists calls, []. auto.
Qed.
Lemma roots_above calls : decoded calls -> addsSucceed calls -> succeeds (history calls) Validate -> forall n,
  topmost (history (calls ++ [Validate])) n -> isRoot (history (calls ++ [Validate])) n.
Proof.
  intros D A S n T. assert (D' : decoded (calls ++ [Validate])) by (apply Forall_app; split; [exact D|repeat constructor]).
  assert (A' : addsSucceed (calls ++ [Validate])).
  { intros b c a E NV. destruct a as [|x a] using rev_ind; [apply app_inj_tail in E as [_ <-]; congruence|]. clear IHa. change (b ++ c :: a ++ [x]) with (b ++ (c :: a) ++ [x]) in E. rewrite app_assoc in E.
    apply app_inj_tail in E as [E _]. eapply A; eauto. }
  apply (roots_history _ D' A'). exists calls, []. split; [reflexivity|]. split; [exact S|]. rewrite history_snoc in T. cbn [perform] in T.
  destruct (validate_records (history calls)) as (R & _). now apply (same_rules_topmost _ _ n R).
Qed.
Lemma root_defined calls : decoded calls -> forall n r, In (n, r) (rootsOf (history calls)) -> getRule (history calls) n = Some r.
Proof.
  intros D n r H. apply in_map_iff in H as ([m rec] & [= <- <-] & H). pose proof (ginv_history calls D) as I. apply (gi_roots _ I) in H. apply getRule_in; [apply I|eauto].
Qed.

(* ---------------- grammars and evaluation ---------------- *)

Lemma lookup_in g n r : lookup (rules_of g) n = Some r -> exists rec, In (n, rec) (g_records g) /\ rec_rule rec = r.
Proof.
  intros L. rewrite <- getRule_rules in L. unfold getRule, getRecord in L. destruct (find_rec (g_records g) n) as [rec|] eqn:F; [|discriminate]. injection L as <-. apply find_in in F. eauto.
Qed.
Lemma ginv_rules g : ginv g -> wfRules (rules_of g).
Proof. intros I n r L. apply lookup_in in L as (rec & R & <-). eapply gi_wf; eauto. Qed.
Lemma ginv_rootsOf g : ginv g -> wfRoots (rootsOf g).
Proof. intros I [n r] H. apply in_map_iff in H as ([m rec] & [= <- <-] & H). apply (gi_roots _ I) in H. cbn [snd]. eapply gi_wf; eauto. Qed.
Lemma closed_bound g : closedGrammar g -> boundAll (rules_of g).
Proof.
  intros C n r L m M. rewrite <- getRule_rules in *. destruct (C m) as [r' R]; [exists n, r; auto|]. congruence.
Qed.
Lemma fromString_inv txt g : clean txt -> newGrammarFromString txt = inl g -> exists ls, linesOf txt ls /\ accepted ls g.
Proof.
  intros C E. destruct (fromString_cases txt (splitLines txt) C (splitLines_lines txt)) as [(g' & E' & A & _)|[(k & e & E' & _)|(E' & _)]]; rewrite E in E'; try discriminate.
  injection E' as <-. exists (splitLines txt). split; [apply splitLines_lines|exact A].
Qed.

(* ---------------- verdicts on a grammar text ---------------- *)

Lemma fromString_ok txt ls : clean txt -> linesOf txt ls ->
  ((exists g, newGrammarFromString txt = inl g) <-> (forall k e, ~ badLine ls k e) /\ forall m, mentioned ls m -> defined ls m).
Proof.
  intros C L. destruct (fromString_cases txt ls C L) as [(g & E & A & M)|[(k & e & E & [B _])|(E & N & m & ME & ND)]]; rewrite E.
  - split; [|eauto]. intros _. split; [apply A|exact M].
  - split; [intros [g X]; discriminate|]. intros [X _]. now destruct (X k e).
  - split; [intros [g X]; discriminate|]. intros [_ X]. now destruct (ND (X m ME)).
Qed.
Lemma first_unique ls k e k' e' : firstBad ls k e -> firstBad ls k' e' -> k = k'.
Proof. intros [B F] [B' F']. destruct (Nat.lt_trichotomy k k') as [H|[H|H]]; [now apply F' in B|exact H|now apply F in B']. Qed.
Lemma bad_fun ls k e e' : badLine ls k e -> badLine ls k e' -> e = e'.
Proof.
  assert (NE : forall n b ln, line ls k n b -> nth_error ls k = Some ln -> ~ In 61 ln -> False).
  { intros n b ln (ln' & E & _ & (m & x & y & T & -> & _)) E' NI. rewrite E in E'. injection E' as <-. apply NI. destruct T as (w & w' & -> & _). apply in_or_app. right. apply in_or_app. left. apply in_elt. }
  intros B B'. destruct B as [ln E NI N|n b L G|n b j b' L G J L'|n b L G N U], B' as [ln2 E2 NI2 N2|n2 b2 L2 G2|n2 b2 j2 b2' L2 G2 J2 L2'|n2 b2 L2 G2 N2 U2]; try reflexivity;
    try (exfalso; eapply NE; eassumption); destruct (line_fun _ _ _ _ _ _ L L2) as [<- <-]; try contradiction; exfalso; eauto.
  - eapply N2; eauto.
  - eapply N; eauto.
Qed.
Lemma fromString_line txt ls k e : clean txt -> linesOf txt ls -> (newGrammarFromString txt = inr (Z.of_nat k + 1, e) <-> firstBad ls k e).
Proof.
  intros C L. destruct (fromString_cases txt ls C L) as [(g & E & A & M)|[(k' & e' & E & F)|(E & N & m & ME & ND)]]; rewrite E; split.
  - discriminate.
  - intros [B _]. now destruct (ac_fine _ _ A k e).
  - intros X. assert (k' = k) by (injection X; lia). assert (e' = e) by congruence. now subst.
  - intros F'. pose proof (first_unique _ _ _ _ _ F F') as ->. destruct F as [B _], F' as [B' _]. now rewrite (bad_fun _ _ _ _ B B').
  - intros X. exfalso. assert (0 = Z.of_nat k + 1) by congruence. lia.
  - intros [B _]. now destruct (N k e).
Qed.
Lemma fromString_undefined txt ls : clean txt -> linesOf txt ls ->
  (newGrammarFromString txt = inr (0, GUndefined) <-> (forall k e, ~ badLine ls k e) /\ exists m, mentioned ls m /\ ~ defined ls m).
Proof.
  intros C L. destruct (fromString_cases txt ls C L) as [(g & E & A & M)|[(k' & e' & E & F)|(E & N & m & ME & ND)]]; rewrite E; split; try discriminate; auto.
  - intros [_ (m & X & Y)]. now destruct (Y (M m X)).
  - intros X. exfalso. assert (Z.of_nat k' + 1 = 0) by congruence. lia.
  - intros [X _]. destruct F as [B _]. now destruct (X k' e').
  - intros _. split; [exact N|eauto].
Qed.
Lemma fromString_closed txt g : clean txt -> newGrammarFromString txt = inl g -> closedGrammar g.
Proof. intros C E. destruct (fromString_inv txt g C E) as (ls & _ & A). apply A. Qed.
Lemma fromString_missing txt ls m g : clean txt -> linesOf txt ls -> mentioned ls m -> ~ defined ls m -> newGrammarFromString txt <> inl g.
Proof. intros C L M N E. apply N. destruct (proj1 (fromString_ok txt ls C L) (ex_intro _ g E)) as [_ X]. now apply X. Qed.
Lemma fromString_rules txt ls g : clean txt -> linesOf txt ls -> newGrammarFromString txt = inl g ->
  forall n rec, getRecord g n = Some rec <-> exists k body, line ls k n body /\ readAs n body (rec_rule rec) /\ rec_line rec = Z.of_nat k + 1.
Proof.
  intros C L E. destruct (fromString_inv txt g C E) as (ls' & L' & A). rewrite (lines_unique _ _ L), <- (lines_unique _ _ L'). exact (ac_records _ _ A).
Qed.
Lemma fromString_roots txt g : clean txt -> newGrammarFromString txt = inl g -> forall n, isRoot g n <-> topmost g n.
Proof.
  intros C E n. destruct (fromString_inv txt g C E) as (ls & _ & A). unfold isRoot, topmost. split.
  - intros H. apply in_map_iff in H as ([m rec] & <- & H). apply (ac_roots _ _ A) in H as [R N]. split; [|exact N]. exists (rec_rule rec). unfold getRule. cbn [fst]. now rewrite R.
  - intros [[r R] N]. unfold getRule in R. destruct (getRecord g n) as [rec|] eqn:G; [|discriminate]. change n with (fst (n, rec)). apply in_map. apply (ac_roots _ _ A). auto.
Qed.
Lemma fromString_unique txt ls g : clean txt -> linesOf txt ls -> newGrammarFromString txt = inl g ->
  (forall j k n b b', line ls j n b -> line ls k n b' -> j = k) /\ (forall k n b, line ls k n b -> goodName n).
Proof.
  intros C L E. assert (F : forall k e, ~ badLine ls k e) by (apply (fromString_ok txt ls C L); eauto).
  assert (GN : forall k n b, line ls k n b -> goodName n).
  { intros k n b H. destruct (validName n) eqn:V; [now apply validName_iff|]. exfalso. apply (F k GName). eapply bad_name; [exact H|]. intros G. apply validName_iff in G. congruence. }
  split; [|exact GN]. assert (X : forall j k n b b', (j < k)%nat -> line ls j n b -> line ls k n b' -> False).
  { intros j k n b b' J H H'. apply (F k GDuplicate). eapply bad_duplicate; eauto. }
  intros j k n b b' H H'. destruct (Nat.lt_trichotomy j k) as [J|[J|J]]; [exfalso; eauto|exact J|exfalso; eauto].
Qed.
Lemma names_history calls : decoded calls -> NoDup (List.map fst (g_records (history calls))) /\ forall n r, getRule (history calls) n = Some r -> goodName n.
Proof.
  intros D. pose proof (ginv_history calls D) as I. split; [apply I|]. intros n r R. apply getRule_in in R as (rec & R & _); [|apply I]. eapply gi_names; eauto.
Qed.

(* ---------------- after a failed call ---------------- *)

Record alike (g g' : grammar) : Prop := { al_rec : g_records g = g_records g'; al_rt : g_roots g = g_roots g'; al_mx : g_maxLine g = g_maxLine g' }.
Lemma alike_same g g' : alike g g' -> sameGrammar g g'.
Proof. intros [A B C]. unfold sameGrammar, rules_of, rootsOf, getRecord. now rewrite A, B. Qed.
Lemma alike_parse g g' n s : alike g g' -> fst (parseRule g n s) = fst (parseRule g' n s) /\ alike (snd (parseRule g n s)) (snd (parseRule g' n s)).
Proof.
  intros A. pose proof A as [R T M]. unfold parseRule, getRecord. destruct (negb (validName n)); [split; [reflexivity|exact A]|]. rewrite R. destruct (find_rec (g_records g') n); [split; [reflexivity|exact A]|].
  destruct (parseText (trim s)) as [r l us|us|]; cbn [fst snd]; (split; [reflexivity|]); [|split; cbn; auto|exact A]. split; cbn; [now rewrite R, M|exact T|now rewrite M].
Qed.
Lemma alike_add g g' d : alike g g' -> fst (addRule g d) = fst (addRule g' d) /\ alike (snd (addRule g d)) (snd (addRule g' d)).
Proof. intros A. unfold addRule. destruct (splitEq d) as [[a b]|]; [now apply alike_parse|]. split; [reflexivity|exact A]. Qed.
Lemma parse_failed_alike g name str e g' : parseRule g name str = (inr e, g') -> alike g g'.
Proof. intros E. apply parse_fails in E as [->|(_ & us & _ & ->)]; split; reflexivity. Qed.
Lemma add_failed_alike g def e g' : addRule g def = (inr e, g') -> alike g g'.
Proof. destruct (addRule_cases g def) as [[_ ->]|(a & b & E & ->)]; [intros [= _ <-]; split; reflexivity|apply parse_failed_alike]. Qed.
(** Further definitions are taken or rejected as if the failed call had not been made. *)
Lemma alike_later later : ~ In Validate later -> forall g g', alike g g' ->
  (forall def, fst (addRule (fold_left perform later g) def) = fst (addRule (fold_left perform later g') def)) /\
  (forall n s, fst (parseRule (fold_left perform later g) n s) = fst (parseRule (fold_left perform later g') n s)) /\
  sameGrammar (fold_left perform later g) (fold_left perform later g').
Proof.
  induction later as [|c later IH]; intros N g g' A.
  - cbn [fold_left]. split; [intros d; now apply alike_add|]. split; [intros n s; now apply alike_parse|now apply alike_same].
  - cbn [fold_left]. apply IH; [intros H; apply N; now right|]. destruct c as [d|n s|]; cbn [perform]; [now apply alike_add|now apply alike_parse|]. exfalso. apply N. now left.
Qed.
Lemma failed_later g def e g' later : addRule g def = (inr e, g') -> ~ In Validate later ->
  (forall def, fst (addRule (fold_left perform later g) def) = fst (addRule (fold_left perform later g') def)) /\
  sameGrammar (fold_left perform later g) (fold_left perform later g').
Proof. intros E N. destruct (alike_later later N g g' (add_failed_alike _ _ _ _ E)) as (A & _ & S). auto. Qed.

(* ---------------- evaluation in grammars that calls have built ---------------- *)

Lemma evalRule_spared txt g fuel n r sample res : clean txt -> newGrammarFromString txt = inl g -> getRule g n = Some r ->
  evalRule fuel g n sample = Ok res -> ~ blamesUndefined res.
Proof.
  intros C E R EV. pose proof (fromString_closed txt g C E) as CL. unfold evalRule in EV. rewrite R in EV. intros (e & X & U).
  destruct (eval fuel (rules_of g) r (newStream sample) SUGGEST_SKIP) as [[res' s']| |] eqn:EE; cbn [bind] in EV; try discriminate. injection EV as ->.
  apply no_undefined in EE; [exact (EE e X U)|now apply closed_bound|]. pose proof (closed_bound g CL) as BA. apply (BA n). now rewrite <- getRule_rules.
Qed.
Lemma fromString_wf txt g : clean txt -> newGrammarFromString txt = inl g -> wfRules (rules_of g) /\ wfRoots (rootsOf g).
Proof. intros C E. destruct (fromString_inv txt g C E) as (ls & _ & A). split; [apply ginv_rules, A|apply ginv_rootsOf, A]. Qed.
Lemma history_wf calls : decoded calls -> wfRules (rules_of (history calls)) /\ wfRoots (rootsOf (history calls)).
Proof. intros D. pose proof (ginv_history calls D) as I. split; [now apply ginv_rules|now apply ginv_rootsOf]. Qed.
(** Definitions made later have no effect on rules that were closed before. *)
Lemma later_irrelevant before later n r fuel sample : decoded before -> closedGrammar (history before) -> getRule (history before) n = Some r ->
  evalRule fuel (history before) n sample = evalRule fuel (history (before ++ later)) n sample.
Proof.
  intros D CL R. assert (K : forall m x, getRule (history before) m = Some x -> getRule (history (before ++ later)) m = Some x).
  { intros m x X. unfold getRule in *. destruct (getRecord (history before) m) as [rec|] eqn:G; [|discriminate]. now rewrite (history_keeps before later m rec G). }
  unfold evalRule. rewrite R, (K n r R).
  rewrite (extension_irrelevant (rules_of (history before)) (rules_of (history (before ++ later)))); [reflexivity| |now apply closed_bound|].
  - intros m x X. rewrite <- getRule_rules in *. now apply K.
  - apply (closed_bound _ CL n). now rewrite <- getRule_rules.
Qed.
Lemma wf_total g loopFuel fuel name sample : wfRules (rules_of g) -> wfRoots (rootsOf g) -> runesOk sample ->
  evalRule fuel g name sample <> Panic /\ (forall x, evalEmbed loopFuel fuel g name sample = Some x -> x <> Panic) /\
  forall o level, legal (rootsOf g) o -> evalTop loopFuel fuel (rules_of g) o (newStream sample) level <> Panic.
Proof.
  intros W R C. split; [now apply evalRule_total|]. split; [intros x X; eapply evalEmbed_total; eauto|]. intros o level L. apply evalTop_total with (rootsOf g); auto.
Qed.
Lemma text_total txt g loopFuel fuel name sample : runesOk txt -> runesOk sample -> newGrammarFromString txt = inl g ->
  evalRule fuel g name sample <> Panic /\ (forall x, evalEmbed loopFuel fuel g name sample = Some x -> x <> Panic) /\
  forall o level, legal (rootsOf g) o -> evalTop loopFuel fuel (rules_of g) o (newStream sample) level <> Panic.
Proof. intros C S E. destruct (fromString_wf txt g C E). now apply wf_total. Qed.
Lemma history_total calls loopFuel fuel name sample : decoded calls -> runesOk sample ->
  evalRule fuel (history calls) name sample <> Panic /\ (forall x, evalEmbed loopFuel fuel (history calls) name sample = Some x -> x <> Panic) /\
  forall o level, legal (rootsOf (history calls)) o -> evalTop loopFuel fuel (rules_of (history calls)) o (newStream sample) level <> Panic.
Proof. intros D S. destruct (history_wf calls D). now apply wf_total. Qed.
