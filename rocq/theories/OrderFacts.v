(** Grammar texts with the same definitions in another order. *)
From Coq Require Import Permutation.
From Verif Require Import Base Stream StreamFacts Node Rule Parse Grammar SpecStream SpecRule TermFacts SpecParse ParseFacts SpecGrammar GrammarFacts GrammarText ClosedFacts HistoryFacts
  SpecDriver DriverFacts SpecOrder.

(* ---------------- lines and definitions ---------------- *)

Lemma line_cons ln ls k n b : line (ln :: ls) (S k) n b <-> line ls k n b.
Proof. unfold line. cbn [nth_error]. reflexivity. Qed.
Lemma line_in ln ls k n b : line (ln :: ls) (S k) n b -> line ls k n b.
Proof. apply line_cons. Qed.
Lemma line_zero ln ls n b : line (ln :: ls) 0 n b <-> ~ inert ln /\ defines ln n b.
Proof.
  unfold line. cbn [nth_error]. split; [intros (x & E & H); injection E as <-; exact H|intros H; exists ln; auto].
Qed.
Lemma says_line ls d : says ls d -> forall n b, In (n, b) d <-> exists k, line ls k n b.
Proof.
  induction 1 as [|ln ls d I _ IH|ln name body ls d N D _ IH]; intros n b.
  - split; [contradiction|]. intros (k & x & E & _). destruct k; discriminate.
  - rewrite IH. split.
    + intros (k & L). exists (S k). apply line_cons; exact L.
    + intros ([|k] & L); [apply line_zero in L; tauto|]. exists k. exact (proj1 (line_cons _ _ _ _ _) L).
  - split.
    + intros [E|H]; [injection E as -> ->; exists 0%nat; apply line_zero; split; assumption|]. apply IH in H as (k & L). exists (S k). apply line_cons; exact L.
    + intros ([|k] & L).
      * apply line_zero in L as [_ L]. left. destruct (defines_fun _ _ _ _ _ D L). congruence.
      * right. apply IH. exists k. exact (proj1 (line_cons _ _ _ _ _) L).
Qed.
Lemma says_noeq ls d : says ls d -> forall k ln, nth_error ls k = Some ln -> ~ inert ln -> In 61 ln.
Proof.
  assert (X : forall ln n b, defines ln n b -> In 61 ln).
  { intros ln n b (m & x & y & T & -> & _). destruct T as (w & w' & -> & _). apply in_or_app. right. apply in_or_app. left. apply in_elt. }
  induction 1 as [|ln ls d I _ IH|ln name body ls d N D _ IH]; intros [|k] l E NI; cbn [nth_error] in E; try discriminate; eauto.
  - injection E as <-. contradiction.
  - injection E as <-. eauto.
Qed.
(** Two lines with the same name are the same line, if the names differ. *)
Lemma says_names ls d : says ls d -> NoDup (List.map fst d) <-> forall j k n b b', line ls j n b -> line ls k n b' -> j = k.
Proof.
  induction 1 as [|ln ls d I S IH|ln name body ls d N D S IH].
  - split; [|constructor]. intros _ j k n b b' (x & E & _). destruct j; discriminate.
  - rewrite IH. split.
    + intros H [|j] [|k] n b b' L L'; try (apply line_zero in L; tauto); try (apply line_zero in L'; tauto). f_equal. apply line_in in L, L'. eauto.
    + intros H j k n b b' L L'. assert (Y : Datatypes.S j = Datatypes.S k) by (eapply H; apply line_cons; eassumption). lia.
  - cbn [List.map fst]. split.
    + intros ND. apply NoDup_cons_iff in ND as [NI ND]. destruct IH as [IH _]. specialize (IH ND).
      assert (Z : forall k n b, line (ln :: ls) 0 name body -> line ls k n b -> n <> name).
      { intros k n b _ L ->. apply NI. apply in_map_iff. exists (name, b). split; [reflexivity|]. apply (says_line _ _ S). eauto. }
      intros [|j] [|k] n b b' L L'; [reflexivity| | |f_equal; apply line_in in L, L'; eauto]; exfalso.
      * apply line_zero in L as [N1 D1]. destruct (defines_fun _ _ _ _ _ D D1) as [<- _]. apply line_in in L'. eapply Z; [apply line_zero; split; assumption|exact L'|reflexivity].
      * apply line_zero in L' as [N1 D1]. destruct (defines_fun _ _ _ _ _ D D1) as [<- _]. apply line_in in L. eapply Z; [apply line_zero; split; assumption|exact L|reflexivity].
    + intros H. constructor.
      * intros NI. apply in_map_iff in NI as ([n b] & E & L). cbn [fst] in E. subst n. apply (says_line _ _ S) in L as (k & L).
        assert (Y : 0%nat = Datatypes.S k); [|discriminate]. eapply H; [apply line_zero; eauto|apply line_cons; exact L].
      * apply IH. intros j k n b b' L L'. assert (Y : Datatypes.S j = Datatypes.S k) by (eapply H; apply line_cons; eassumption). lia.
Qed.

(** When no line is bad, in terms of the definitions. *)
Lemma says_fine ls d : says ls d ->
  ((forall k e, ~ badLine ls k e) <-> NoDup (List.map fst d) /\ forall n b, In (n, b) d -> goodName n /\ ~ unreadable n b).
Proof.
  intros S. split.
  - intros F. assert (GN : forall k n b, line ls k n b -> goodName n).
    { intros k n b H. destruct (validName n) eqn:V; [now apply validName_iff|]. exfalso. apply (F k GName). eapply bad_name; [exact H|]. intros G. apply validName_iff in G. congruence. }
    assert (X : forall j k n b b', (j < k)%nat -> line ls j n b -> line ls k n b' -> False).
    { intros j k n b b' J H H'. apply (F k GDuplicate). eapply bad_duplicate; eauto. }
    split.
    + apply (says_names _ _ S). intros j k n b b' L L'. destruct (Nat.lt_trichotomy j k) as [H|[H|H]]; [exfalso; eauto|exact H|exfalso; eauto].
    + intros n b H. apply (says_line _ _ S) in H as (k & L). split; [eauto|]. intros U. apply (F k GParse). eapply bad_body; eauto.
  - intros [ND G] k e B. pose proof (proj1 (says_names _ _ S) ND) as U. destruct B as [ln E NI N|n b L NG|n b j b' L GN J L'|n b L GN NO UR].
    + apply N. eapply says_noeq; eauto.
    + apply NG. apply (G n b). apply (says_line _ _ S). eauto.
    + assert (j = k) by (eapply U; eauto). lia.
    + apply (G n b); [|exact UR]. apply (says_line _ _ S). eauto.
Qed.
Lemma says_mentioned ls d m : says ls d -> mentioned ls m <-> exists n b r, In (n, b) d /\ readAs n b r /\ In m (refs r).
Proof.
  intros S. unfold mentioned. split.
  - intros (k & n & b & r & L & H). exists n, b, r. split; [apply (says_line _ _ S); eauto|exact H].
  - intros (n & b & r & L & H). apply (says_line _ _ S) in L as (k & L). exists k, n, b, r. auto.
Qed.
Lemma says_defined ls d m : says ls d -> defined ls m <-> exists b, In (m, b) d.
Proof.
  intros S. unfold defined. split.
  - intros (k & b & L). exists b. apply (says_line _ _ S). eauto.
  - intros (b & L). apply (says_line _ _ S) in L as (k & L). eauto.
Qed.

(** Whether the text is accepted, in terms of its definitions. *)
Lemma says_accepted txt ls d : clean txt -> linesOf txt ls -> says ls d ->
  (exists g, newGrammarFromString txt = inl g) <->
  (NoDup (List.map fst d) /\ (forall n b, In (n, b) d -> goodName n /\ ~ unreadable n b)) /\
  forall m n b r, In (n, b) d -> readAs n b r -> In m (refs r) -> exists b', In (m, b') d.
Proof.
  intros C L S. rewrite (fromString_ok txt ls C L), (says_fine ls d S). apply and_iff_compat_l. split.
  - intros H m n b r I R M. apply (says_defined ls d m S), H, (says_mentioned ls d m S). exists n, b, r. auto.
  - intros H m M. apply (says_mentioned ls d m S) in M as (n & b & r & I & R & M). apply (says_defined ls d m S). exact (H m n b r I R M).
Qed.
(** The rules of an accepted text, in terms of its definitions. *)
Lemma says_rules txt ls d g : clean txt -> linesOf txt ls -> says ls d -> newGrammarFromString txt = inl g ->
  forall n r, getRule g n = Some r <-> exists b, In (n, b) d /\ readAs n b r.
Proof.
  intros C L S E n r. pose proof (fromString_rules txt ls g C L E n) as R. unfold getRule. split.
  - destruct (getRecord g n) as [rec|] eqn:G; [|discriminate]. intros X. injection X as <-. destruct (proj1 (R rec) eq_refl) as (k & b & LN & RA & _). exists b. split; [|exact RA].
    apply (says_line _ _ S). eauto.
  - intros (b & H & RA). apply (says_line _ _ S) in H as (k & LN). assert (X : getRecord g n = Some (mkRec r (Z.of_nat k + 1))) by (apply R; exists k, b; auto).
    now rewrite X.
Qed.

Lemma rule_ext g g' : (forall n r, getRule g n = Some r <-> getRule g' n = Some r) -> forall n, getRule g n = getRule g' n.
Proof. intros H n. destruct (getRule g' n) as [r|] eqn:E; [now apply H|]. destruct (getRule g n) as [r|] eqn:E'; [|reflexivity]. apply H in E'. congruence. Qed.

Lemma order_accepted t ls d t' ls' d' : clean t -> clean t' -> linesOf t ls -> linesOf t' ls' -> says ls d -> says ls' d' -> Permutation d d' ->
  (exists g, newGrammarFromString t = inl g) <-> exists g', newGrammarFromString t' = inl g'.
Proof.
  intros C C' L L' S S' P. rewrite (says_accepted t ls d C L S), (says_accepted t' ls' d' C' L' S').
  assert (I : forall x, In x d <-> In x d') by (intros x; split; apply Permutation_in; [exact P|now apply Permutation_sym]).
  assert (N : NoDup (List.map fst d) <-> NoDup (List.map fst d')) by (pose proof (Permutation_map fst P) as Q; split; apply Permutation_NoDup; [exact Q|now apply Permutation_sym]).
  rewrite N. split; intros [[A B] X].
  - split; [split; [exact A|intros n b H; apply B, I, H]|]. intros m n b r H R M. destruct (X m n b r (proj2 (I _) H) R M) as (b' & H'). exists b'. now apply I.
  - split; [split; [exact A|intros n b H; apply B, I, H]|]. intros m n b r H R M. destruct (X m n b r (proj1 (I _) H) R M) as (b' & H'). exists b'. now apply I.
Qed.

Lemma root_iff txt g : clean txt -> newGrammarFromString txt = inl g -> forall n r, In (n, r) (rootsOf g) <-> getRule g n = Some r /\ ~ referenced g n.
Proof.
  intros C E n r. destruct (fromString_inv txt g C E) as (ls & _ & A). unfold rootsOf. rewrite in_map_iff. unfold getRule. split.
  - intros ([m rec] & X & H). cbn [fst snd] in X. injection X as -> <-. apply (ac_roots _ _ A) in H as [R N]. now rewrite R.
  - intros [R N]. destruct (getRecord g n) as [rec|] eqn:G; [|discriminate]. injection R as <-. exists (n, rec). split; [reflexivity|]. apply (ac_roots _ _ A). auto.
Qed.
Lemma nodup_roots txt g : clean txt -> newGrammarFromString txt = inl g -> NoDup (rootsOf g).
Proof.
  intros C E. unfold newGrammarFromString in E. pose proof (addLines_new txt C) as H. destruct (addLines newGrammar 0 (splitLines txt)) as [g0|[j e]]; [|discriminate].
  destruct (validate g0) as [[e|] g1] eqn:V; [discriminate|]. injection E as <-. apply (NoDup_map_inv fst). unfold rootsOf. rewrite map_map. cbn [fst].
  unfold validate in V. destruct (forallb _ _); [|discriminate]. injection V as <-. cbn [g_roots]. rewrite (af_roots _ _ H).
  rewrite fold_put_new by (cbn [app]; apply nodup_filter; apply (af_inv _ _ H)). cbn [app]. apply (nodup_filter fst), (af_inv _ _ H).
Qed.
Lemma order_rules t ls d t' ls' d' g g' : clean t -> clean t' -> linesOf t ls -> linesOf t' ls' -> says ls d -> says ls' d' -> Permutation d d' ->
  newGrammarFromString t = inl g -> newGrammarFromString t' = inl g' -> sameRules g g'.
Proof.
  intros C C' L L' S S' P E E'. assert (R : forall n, getRule g n = getRule g' n).
  { apply rule_ext. intros n r. rewrite (says_rules t ls d g C L S E), (says_rules t' ls' d' g' C' L' S' E'). split; intros (b & H & RA); exists b; (split; [|exact RA]);
      (eapply Permutation_in; [|exact H]); [exact P|now apply Permutation_sym]. }
  split; [exact R|]. apply NoDup_Permutation; [now apply (nodup_roots t)|now apply (nodup_roots t')|]. intros [n r].
  rewrite (root_iff t g C E), (root_iff t' g' C' E'), R. unfold referenced. split; intros [H N]; (split; [exact H|]); intros (m & x & X & M); apply N; exists m, x;
    [rewrite R|rewrite <- R]; auto.
Qed.

(* ---------------- evaluation ---------------- *)

Section Agree.
Context (g g' : rules_t).
Hypothesis EXT : forall n, lookup g n = lookup g' n.
Hypothesis BA : boundAll g.

Lemma eval_same fuel r s f : bound g r -> eval fuel g r s f = eval fuel g' r s f.
Proof. apply extension_irrelevant; [|exact BA]. intros n x H. now rewrite <- EXT. Qed.
Lemma embedLoop_same fuel r : bound g r -> forall lf cs txt kids, embedLoop lf fuel g r cs txt kids = embedLoop lf fuel g' r cs txt kids.
Proof.
  intros B. induction lf as [|lf IH]; intros cs txt kids; cbn [embedLoop]; [reflexivity|]. rewrite (eval_same fuel r cs NOT_SKIP B). apply bind_ext; [reflexivity|].
  intros [res cs1]. destruct (r_node res); [apply IH|]. destruct (next _) as [c cs3]. destruct (c =? EOFChar); [reflexivity|apply IH].
Qed.
Lemma rootsLoop_same fuel f : forall order cs mr mt er, (forall n r, In (n, r) order -> bound g r) -> rootsLoop fuel g order cs f mr mt er = rootsLoop fuel g' order cs f mr mt er.
Proof.
  induction order as [|[n r] order IH]; intros cs mr mt er B; cbn [rootsLoop]; [reflexivity|]. rewrite (eval_same fuel r _ f) by (apply (B n); now left). apply bind_ext; [reflexivity|].
  intros [res cs1]. apply IH. intros m x H. apply (B m). now right.
Qed.
Lemma rawLoop_same fuel o : (forall k n r, In (n, r) (o_roots o k) -> bound g r) -> forall lf round s unused f nodes,
  rawLoop lf fuel g o round s unused f nodes = rawLoop lf fuel g' o round s unused f nodes.
Proof.
  intros B. induction lf as [|lf IH]; intros round s unused f nodes; cbn [rawLoop]; [reflexivity|]. destruct (peek _ =? EOFChar); [reflexivity|].
  rewrite (rootsLoop_same fuel f (o_roots o round)) by apply B. apply bind_ext; [reflexivity|]. intros [[[mt er] mr] cs1].
  destruct (rawSelect _) as [[x m]|[res|]]; try reflexivity. destruct (r_node res) as [n|]; [|reflexivity]. apply bind_ext; [reflexivity|]. intros u. apply IH.
Qed.
Lemma evalTop_same lf fuel o s level : (forall k n r, In (n, r) (o_roots o k) -> bound g r) -> evalTop lf fuel g o s level = evalTop lf fuel g' o s level.
Proof. intros B. unfold evalTop, evalRaw. apply bind_ext; [|reflexivity]. destruct (peek s =? EOFChar); [reflexivity|]. now apply rawLoop_same. Qed.
End Agree.

Lemma legal_perm roots roots' o : Permutation roots roots' -> legal roots o -> legal roots' o.
Proof. intros P L. destruct L as [A B C D]. split; auto; [intros k|]; (eapply Permutation_trans; [|exact P]); auto. Qed.
(** Grammars with the same rules give the same answers. *)
Lemma same_answers g g' : closedGrammar g -> (forall n r, In (n, r) (rootsOf g) -> getRule g n = Some r) -> sameRules g g' ->
  (forall fuel name sample, evalRule fuel g name sample = evalRule fuel g' name sample) /\
  (forall lf fuel name sample, evalEmbed lf fuel g name sample = evalEmbed lf fuel g' name sample) /\
  (forall o, legal (rootsOf g) o <-> legal (rootsOf g') o) /\
  forall o, legal (rootsOf g) o -> forall lf fuel s level, evalTop lf fuel (rules_of g) o s level = evalTop lf fuel (rules_of g') o s level.
Proof.
  intros CL RD [R P]. pose proof (closed_bound g CL) as BA.
  assert (EXT : forall n, lookup (rules_of g) n = lookup (rules_of g') n) by (intros n; rewrite <- !getRule_rules; apply R).
  assert (B : forall n r, getRule g n = Some r -> bound (rules_of g) r) by (intros n r H; apply (BA n); now rewrite <- getRule_rules).
  split; [|split; [|split]].
  - intros fuel name sample. unfold evalRule. rewrite <- R. destruct (getRule g name) as [r|] eqn:E; [|reflexivity]. now rewrite (eval_same _ _ EXT BA) by (eapply B; eauto).
  - intros lf fuel name sample. unfold evalEmbed. rewrite <- R. destruct (getRule g name) as [r|] eqn:E; [|reflexivity]. now rewrite (embedLoop_same _ _ EXT BA) by (eapply B; eauto).
  - intros o. split; apply legal_perm; [exact P|now apply Permutation_sym].
  - intros o L lf fuel s level. apply evalTop_same; [exact EXT|exact BA|]. intros k n r H. apply (B n), RD. eapply Permutation_in; [apply (lg_roots _ _ L)|exact H].
Qed.
Lemma order_answers t ls d t' ls' d' g g' : clean t -> clean t' -> linesOf t ls -> linesOf t' ls' -> says ls d -> says ls' d' -> Permutation d d' ->
  newGrammarFromString t = inl g -> newGrammarFromString t' = inl g' ->
  (forall fuel name sample, evalRule fuel g name sample = evalRule fuel g' name sample) /\
  (forall lf fuel name sample, evalEmbed lf fuel g name sample = evalEmbed lf fuel g' name sample) /\
  (forall o, legal (rootsOf g) o <-> legal (rootsOf g') o) /\
  forall o, legal (rootsOf g) o -> forall lf fuel s level, evalTop lf fuel (rules_of g) o s level = evalTop lf fuel (rules_of g') o s level.
Proof.
  intros C C' L L' S S' P E E'. apply same_answers; [now apply (fromString_closed t)|intros n r H; now apply (root_iff t g C E) in H|]. exact (order_rules t ls d t' ls' d' g g' C C' L L' S S' P E E').
Qed.
