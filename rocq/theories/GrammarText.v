(** What NewGrammarFromString makes of a text. *)
From Verif Require Import Base Stream StreamFacts Node Rule Parse Grammar SpecStream SpecRule SpecParse SpecGrammar TermSpec ParseFacts NotationFacts DriverFacts GrammarFacts.

Lemma lines_unique txt ls : linesOf txt ls -> ls = splitLines txt.
Proof.
  intros (_ & F & first & others & -> & ->).
  assert (G : forall first others, ~ In 10 first -> (forall l, In l others -> ~ In 10 l) -> splitLines (first ++ concat (List.map (fun l => 10 :: l) others)) = first :: others).
  { clear. intros first others; revert first. induction others as [|o others IH]; intros first N F.
    - cbn. rewrite app_nil_r. induction first as [|c first IHf]; [reflexivity|]. cbn [splitLines]. destruct (Z.eqb_spec c 10) as [->|]; [destruct N; now left|].
      rewrite IHf; [reflexivity|]. intros I. apply N. now right.
    - cbn [List.map concat]. induction first as [|c first IHf].
      + cbn [app splitLines]. rewrite Z.eqb_refl. f_equal. apply IH; [apply F; now left|]. intros l Hl. apply F. now right.
      + cbn [app splitLines]. destruct (Z.eqb_spec c 10) as [->|]; [destruct N; now left|].
        cbn [app] in IHf. rewrite IHf; [reflexivity|]. intros I. apply N. now right. }
  symmetry. apply G; [apply F; now left|]. intros l Hl. apply F. now right.
Qed.

Lemma inert_iff ln : inert ln <-> negb (nonempty (trim ln)) || isComment (trim ln) = true.
Proof.
  rewrite orb_true_iff, isComment_iff. unfold inert. split.
  - intros (m & T & Q). apply trimmed_iff in T. subst m. destruct Q as [Q|Q]; [left; now rewrite Q|now right].
  - intros Q. exists (trim ln). split; [apply trim_trimmed|]. destruct Q as [Q|Q]; [left; now destruct (trim ln)|now right].
Qed.
Lemma defines_iff ln name body : defines ln name body <-> exists a b, splitEq (trim ln) = Some (a, b) /\ trim a = name /\ trim b = body.
Proof.
  unfold defines. split.
  - intros (m & a & b & T & E & N & A & B). apply trimmed_iff in T, A, B. subst. exists a, b. rewrite splitEq_some. auto.
  - intros (a & b & S & <- & <-). apply splitEq_some in S as [E N]. exists (trim ln), a, b. split; [apply trim_trimmed|]. split; [exact E|]. split; [exact N|]. split; apply trim_trimmed.
Qed.
Lemma in_trim c ln : ~ In c whiteSpaces -> In c (trim ln) <-> In c ln.
Proof.
  intros N. destruct (trim_trimmed ln) as (w & w' & E & W & W' & _). rewrite E at 2. rewrite !in_app_iff.
  assert (X : forall w, white w -> ~ In c w) by (intros v V I; eapply Forall_forall in V; [|exact I]; now apply N). split; [auto|].
  intros [H|[H|H]]; [now apply X in H|exact H|now apply X in H].
Qed.
Lemma defines_fun ln n b n' b' : defines ln n b -> defines ln n' b' -> n = n' /\ b = b'.
Proof. rewrite !defines_iff. intros (x & y & E & <- & <-) (x' & y' & E' & <- & <-). rewrite E in E'. now injection E' as -> ->. Qed.
Lemma line_fun ls k n b n' b' : line ls k n b -> line ls k n' b' -> n = n' /\ b = b'.
Proof. intros (ln & E & _ & D) (ln' & E' & _ & D'). rewrite E in E'. injection E' as <-. eapply defines_fun; eauto. Qed.
Lemma body_trim ln n b : defines ln n b -> trim b = b.
Proof. rewrite defines_iff. intros (x & y & E & <- & <-). apply trim_trim. Qed.

Lemma new_parse name body : goodName name ->
  (exists us, parseText (trim body) = PErr us /\ exists g', parseRule newGrammar name body = (inr GParse, g')) \/
  (parseText (trim body) = PFuel /\ exists g', parseRule newGrammar name body = (inr GFuel, g')) \/
  (exists r l us, parseText (trim body) = POk r l us /\ exists g', parseRule newGrammar name body = (inl (setName r name), g')).
Proof.
  intros V. apply validName_iff in V. destruct (parseRule_cases newGrammar name body) as [[H _]|[(_ & (rec & H) & _)|(_ & _ & [(us & P & E)|[[P E]|(r & l & us & P & E)]])]];
    [congruence|discriminate|left|right; left|right; right]; eauto 10.
Qed.
Lemma readAs_iff name body r : readAs name body r <-> goodName name /\ exists r0 l us, parseText (trim body) = POk r0 l us /\ r = setName r0 name.
Proof.
  unfold readAs. split.
  - intros [g' E]. assert (V : goodName name).
    { apply validName_iff. unfold parseRule in E. destruct (validName name); [reflexivity|discriminate]. }
    split; [exact V|]. destruct (new_parse name body V) as [(us & P & g1 & E1)|[(P & g1 & E1)|(r0 & l & us & P & g1 & E1)]]; rewrite E in E1; try discriminate.
    injection E1 as -> _. eauto.
  - intros [V (r0 & l & us & P & ->)]. destruct (new_parse name body V) as [(us1 & P1 & g1 & E1)|[(P1 & g1 & E1)|(r1 & l1 & us1 & P1 & g1 & E1)]]; rewrite P in P1; try discriminate.
    injection P1 as -> -> ->. eauto.
Qed.
Lemma readAs_fun name body r r' : readAs name body r -> readAs name body r' -> r = r'.
Proof. intros [g E] [g' E']. congruence. Qed.

(** The records a text gives. *)
Definition recorded (ls : list (list Z)) (n : list Z) (rec : rrec) : Prop :=
  exists k body, line ls k n body /\ readAs n body (rec_rule rec) /\ rec_line rec = Z.of_nat k + 1.

Lemma line_app ls ls' k n b : line ls k n b -> line (ls ++ ls') k n b.
Proof. intros (ln & E & H). exists ln. split; [|exact H]. rewrite nth_error_app1; [exact E|]. apply nth_error_Some. congruence. Qed.
Lemma line_app_inv ls ls' k n b : (k < length ls)%nat -> line (ls ++ ls') k n b -> line ls k n b.
Proof. intros L (ln & E & H). exists ln. split; [|exact H]. now rewrite nth_error_app1 in E. Qed.
Lemma line_lt ls k n b : line ls k n b -> (k < length ls)%nat.
Proof. intros (ln & E & _). apply nth_error_Some. congruence. Qed.

Definition mid {A} (p : list A) (x : A) (q : list A) : nth_error (p ++ x :: q) (length p) = Some x.
Proof. rewrite nth_error_app2, Nat.sub_diag by lia. reflexivity. Qed.

(** The state after the lines [p] of a text without bad lines. *)
Record after (p : list (list Z)) (g : grammar) : Prop := {
  af_inv : ginv g;
  af_exact : exactUsage g;
  af_max : g_maxLine g = Z.of_nat (length p);
  af_roots : g_roots g = [];
  af_terms : g_terminals g = [];
  af_records : forall n rec, In (n, rec) (g_records g) <-> recorded p n rec;
  af_all : forall k n body, line p k n body -> exists rec, In (n, rec) (g_records g);
  af_fine : forall k e, ~ badLine p k e }.

Lemma bad_app p q k e : (k < length p)%nat -> badLine (p ++ q) k e -> badLine p k e.
Proof.
  intros L B. destruct B as [ln E NI N|name body H NG|name body j body' H G J H'|name body H G N U].
  - rewrite nth_error_app1 in E by exact L. now apply bad_noeq with ln.
  - apply line_app_inv in H; [|exact L]. now apply bad_name with name body.
  - apply line_app_inv in H; [|exact L]. apply line_app_inv in H'; [|lia]. now apply bad_duplicate with name body j body'.
  - apply line_app_inv in H; [|exact L]. apply bad_body with name body; auto. intros j b' J H'. apply (N j b' J). now apply line_app.
Qed.
Lemma bad_lt p k e : badLine p k e -> (k < length p)%nat.
Proof. intros []; try (eapply line_lt; eassumption). apply nth_error_Some. congruence. Qed.

Lemma after_snoc_bad p ln q : (forall k e, ~ badLine p k e) -> (forall e, ~ badLine (p ++ ln :: q) (length p) e) -> forall k e, ~ badLine (p ++ [ln]) k e.
Proof.
  intros F N k e B. pose proof (bad_lt _ _ _ B) as L. rewrite app_length in L. cbn in L. destruct (Nat.eq_dec k (length p)) as [->|].
  - apply (N e). change (ln :: q) with ([ln] ++ q). rewrite app_assoc. revert B.
    clear. intros B. destruct B as [x E NI NX|name body H NG|name body j body' H G J H'|name body H G NX U].
    + apply bad_noeq with x; auto. rewrite nth_error_app1; [exact E|]. apply nth_error_Some. congruence.
    + apply bad_name with name body; auto. now apply line_app.
    + apply bad_duplicate with name body j body'; auto; now apply line_app.
    + apply bad_body with name body; auto; [now apply line_app|]. intros j b' J H'. apply (NX j b' J). eapply line_app_inv; [|exact H']. rewrite app_length. cbn. lia.
  - apply (F k e). eapply bad_app; [|exact B]. lia.
Qed.
Lemma recorded_app p ln n rec : (forall j body, line (p ++ [ln]) j n body -> (j < length p)%nat) -> recorded (p ++ [ln]) n rec <-> recorded p n rec.
Proof.
  intros N. split; intros (k & body & L & R & E).
  - exists k, body. split; [|auto]. eapply line_app_inv; [|exact L]. eapply N; eauto.
  - exists k, body. split; [|auto]. now apply line_app.
Qed.

Lemma step_inert p ln g : after p g -> inert ln -> after (p ++ [ln]) (setMaxLine g (Z.of_nat (length p) + 1)).
Proof.
  intros A I. destruct A as [AI AX AM AR AT ARec AA AF].
  assert (OLD : forall j n body, line (p ++ [ln]) j n body -> (j < length p)%nat).
  { intros j n body (x & E & NI & _). destruct (Nat.lt_trichotomy j (length p)) as [|[->|G]]; [assumption| |].
    + rewrite mid in E. injection E as <-. contradiction.
    + rewrite (proj2 (nth_error_None _ _)) in E; [discriminate|]. rewrite app_length. cbn. lia. }
  split.
  - apply ginv_line; [exact AI|lia].
  - exact AX.
  - cbn. rewrite app_length. cbn. lia.
  - exact AR.
  - exact AT.
  - intros n rec. cbn. rewrite ARec. symmetry. apply recorded_app. eauto.
  - intros k n body L. cbn. apply (AA k n body). eapply line_app_inv; [|exact L]. eauto.
  - apply after_snoc_bad with (q := []); [exact AF|]. intros e B.
    assert (NL : forall n b, ~ line (p ++ [ln]) (length p) n b).
    { intros n b (x & E & NI & _). rewrite mid in E. injection E as <-. contradiction. }
    destruct B as [x E NI NX|name body H NG|name body j body' H G J H'|name body H G NX U]; try (now apply NL in H).
    rewrite mid in E. injection E as <-. contradiction.
Qed.

Lemma mid_line p ln q n b : line (p ++ ln :: q) (length p) n b <-> ~ inert ln /\ defines ln n b.
Proof.
  split.
  - intros (x & E & H). rewrite mid in E. now injection E as <-.
  - intros H. exists ln. split; [apply mid|exact H].
Qed.
Lemma before_line p ln q g n : after p g -> (exists rec, getRecord g n = Some rec) <-> exists j body, (j < length p)%nat /\ line (p ++ ln :: q) j n body.
Proof.
  intros A. unfold getRecord. split.
  - intros [rec R]. apply find_in in R. apply (af_records _ _ A) in R as (k & body & L & _). exists k, body. split; [eapply line_lt; eauto|now apply line_app].
  - intros (j & body & J & L). apply line_app_inv in L; [|exact J]. apply (af_all _ _ A) in L as [rec R]. apply find_nodup in R; [eauto|]. apply gi_nodup, (af_inv _ _ A).
Qed.

Lemma step_define p ln g name body r l us : clean ln -> after p g -> ~ inert ln -> defines ln name body -> goodName name -> getRecord g name = None ->
  parseText body = POk r l us ->
  after (p ++ [ln]) (mkGrammar (g_records g ++ [(name, mkRec (setName r name) (g_maxLine g + 1))]) (g_usage g ++ List.map (fun n => (n, name)) us)
            (g_terminals g) (g_roots g) (Z.of_nat (length p) + 1)).
Proof.
  intros CL A NI D V N P. assert (TB : trim body = body) by (eapply body_trim; eauto).
  assert (CB : clean body).
  { apply defines_iff in D as (x & y & SE & _ & <-). apply trim_clean. eapply split_clean; [exact SE|]. now apply trim_clean. }
  assert (PR : parseRule g name body = (inl (setName r name), mkGrammar (g_records g ++ [(name, mkRec (setName r name) (g_maxLine g + 1))]) (g_usage g ++ List.map (fun n => (n, name)) us)
            (g_terminals g) (g_roots g) (g_maxLine g + 1))).
  { destruct (parseRule_cases g name body) as [[H _]|[(_ & (rec & H) & _)|(_ & _ & [(us1 & P1 & E)|[[P1 E]|(r1 & l1 & us1 & P1 & E)]])]];
      [apply validName_iff in V; congruence|congruence|rewrite TB in P1; congruence..|]. rewrite TB, P in P1. injection P1 as <- <- <-. exact E. }
  pose proof (before_line p ln [] g name A) as BL.
  destruct A as [AI AX AM AR AT ARec AA AF].
  pose proof (ginv_parse g name body CB AI) as GI. rewrite PR in GI. cbn [snd] in GI.
  pose proof (exact_parse _ _ _ _ _ CB AX PR) as GX. rewrite AM in GI, GX. rewrite AM.
  assert (SPL : forall j n b, line (p ++ [ln]) j n b -> line p j n b \/ j = length p /\ n = name /\ b = body).
  { intros j n b L. destruct (Nat.lt_trichotomy j (length p)) as [J|[->|G]]; [left; now apply line_app_inv in L| |].
    - right. apply mid_line in L as [_ D1]. destruct (defines_fun _ _ _ _ _ D D1) as [<- <-]. auto.
    - apply line_lt in L. rewrite app_length in L. cbn in L. lia. }
  assert (ML : line (p ++ [ln]) (length p) name body) by (apply mid_line; auto).
  assert (RA : readAs name body (setName r name)) by (apply readAs_iff; split; [exact V|rewrite TB; eauto]).
  split.
  - exact GI.
  - exact GX.
  - cbn. rewrite app_length. cbn. lia.
  - exact AR.
  - exact AT.
  - intros n rec. cbn. rewrite in_app_iff, ARec. split.
    + intros [(k & b & L & R & E)|[E|[]]]; [exists k, b; split; [now apply line_app|auto]|].
      injection E as <- <-. exists (length p), body. cbn. split; [exact ML|]. split; [exact RA|reflexivity].
    + intros (k & b & L & R & E). apply SPL in L as [L|(-> & -> & ->)]; [left; exists k, b; auto|right; left]. f_equal.
      destruct rec as [rr rl]. cbn in *. subst rl. f_equal. eapply readAs_fun; eauto.
  - intros k n b L. cbn. apply SPL in L as [L|(-> & -> & ->)].
    + apply AA in L as [rec L]. exists rec. apply in_app_iff. now left.
    + eexists. apply in_app_iff. right. now left.
  - apply after_snoc_bad with (q := []); [exact AF|]. intros e B. destruct B as [x E NIx NX|name1 body1 H NG|name1 body1 j body' H G J H'|name1 body1 H G NX U].
    + rewrite mid in E. injection E as <-. apply defines_iff in D as (x & y & SE & _). apply splitEq_some in SE as [SE _]. apply NX.
      apply (in_trim 61); [rewrite white_dec; discriminate|]. rewrite SE. apply in_app_iff. right. now left.
    + apply mid_line in H as [_ D1]. destruct (defines_fun _ _ _ _ _ D D1) as [<- <-]. contradiction.
    + apply mid_line in H as [_ D1]. destruct (defines_fun _ _ _ _ _ D D1) as [<- <-]. destruct (proj2 BL) as [rec R]; [eauto|congruence].
    + apply mid_line in H as [_ D1]. destruct (defines_fun _ _ _ _ _ D D1) as [<- <-]. destruct U as [g1 U], RA as [g2 RA]. congruence.
Qed.

Lemma addLines_text q : forall p g, Forall clean q -> after p g ->
  match addLines g (Z.of_nat (length p)) q with
  | inl g' => after (p ++ q) g'
  | inr (j, e) => exists k, j = Z.of_nat k + 1 /\ firstBad (p ++ q) k e
  end.
Proof.
  induction q as [|ln q IH]; intros p g C A; cbn [addLines]; [now rewrite app_nil_r|]. inversion C as [|? ? C0 C']; subst.
  assert (EQ : p ++ ln :: q = (p ++ [ln]) ++ q) by now rewrite <- app_assoc.
  assert (LEN : Z.of_nat (length p) + 1 = Z.of_nat (length (p ++ [ln]))) by (rewrite app_length; cbn; lia).
  assert (FB : forall e, badLine (p ++ ln :: q) (length p) e -> exists k, Z.of_nat (length p) + 1 = Z.of_nat k + 1 /\ firstBad (p ++ ln :: q) k e).
  { intros e B. exists (length p). split; [reflexivity|]. split; [exact B|]. intros j e' J B'. apply (af_fine _ _ A j e'). eapply bad_app; [exact J|exact B']. }
  destruct (negb (nonempty (trim ln)) || isComment (trim ln)) eqn:IN.
  - apply inert_iff in IN. pose proof (step_inert _ _ _ A IN) as A1. rewrite LEN in A1 |- *. rewrite EQ. now apply IH.
  - assert (NI : ~ inert ln) by (rewrite inert_iff; congruence).
    destruct (splitEq (trim ln)) as [[a b]|] eqn:SE.
    + assert (D : defines ln (trim a) (trim b)) by (apply defines_iff; eauto).
      assert (L : line (p ++ ln :: q) (length p) (trim a) (trim b)) by (apply mid_line; auto).
      pose proof (before_line p ln q g (trim a) A) as BL.
      destruct (parseRule_cases g (trim a) (trim b)) as [[V ->]|[(V & R & ->)|(V & N & [(us & P & ->)|[[P ->]|(r & l & us & P & ->)]])]].
      * apply FB. eapply bad_name; [exact L|]. rewrite <- validName_iff. congruence.
      * apply FB. apply BL in R as (j & body & J & LJ). apply validName_iff in V. eapply bad_duplicate; eauto.
      * apply FB. apply validName_iff in V. eapply bad_body; [exact L|exact V| |].
        -- intros j body J LJ. destruct (proj2 BL) as [rec R]; [eauto|congruence].
        -- destruct (new_parse (trim a) (trim b) V) as [(us1 & P1 & g1 & E1)|[(P1 & g1 & E1)|(r1 & l1 & us1 & P1 & g1 & E1)]]; rewrite P in P1; try discriminate. exists g1. exact E1.
      * exfalso. apply parse_enough in P; [exact P|]. do 2 apply trim_clean. eapply split_clean; [exact SE|]. now apply trim_clean.
      * rewrite trim_trim in P. apply validName_iff in V. pose proof (step_define p ln g _ _ r l us C0 A NI D V N P) as A1.
        unfold setMaxLine. cbn. rewrite LEN in A1 |- *. rewrite EQ. now apply IH.
    + apply FB. apply bad_noeq with ln; [apply mid|exact NI|]. apply splitEq_none in SE. rewrite <- in_trim; [exact SE|rewrite white_dec; discriminate].
Qed.
Lemma after_new : after [] newGrammar.
Proof.
  split; try reflexivity.
  - apply ginv_new.
  - intros m n [].
  - intros n rec. split; [intros []|]. intros (k & b & L & _). apply line_lt in L. cbn in L. lia.
  - intros k n body L. apply line_lt in L. cbn in L. lia.
  - intros k e B. apply bad_lt in B. cbn in B. lia.
Qed.
Lemma addLines_new txt : clean txt ->
  match addLines newGrammar 0 (splitLines txt) with
  | inl g' => after (splitLines txt) g'
  | inr (j, e) => exists k, j = Z.of_nat k + 1 /\ firstBad (splitLines txt) k e
  end.
Proof. intros C. apply (addLines_text (splitLines txt) [] newGrammar); [|apply after_new]. apply Forall_forall. intros ln. now apply line_clean. Qed.

(* ---------------- validation ---------------- *)

Lemma validate_none g : fst (validate g) = None <-> forall m n, In (m, n) (g_usage g) -> In m (List.map fst (g_records g)).
Proof.
  unfold validate. destruct (forallb _ _) eqn:F; cbn [fst]; split; try discriminate; auto.
  - intros _ m n H. rewrite forallb_forall in F. apply F in H. now apply hasKey_iff in H.
  - intros H. assert (X : forallb (fun u => hasKey (fst u) (g_records g)) (g_usage g) = true); [|congruence].
    apply forallb_forall. intros [m n] U. apply hasKey_iff. eauto.
Qed.
Lemma fold_put_new l : forall m, NoDup (List.map fst (m ++ l)) -> fold_left (fun m kr => put_rec m (fst kr) (snd kr)) l m = m ++ l.
Proof.
  induction l as [|[k x] l IH]; intros m D; cbn [fold_left]; [now rewrite app_nil_r|]. cbn [fst snd]. rewrite put_new.
  - rewrite IH; rewrite <- app_assoc; [reflexivity|exact D].
  - apply find_none. rewrite map_app in D. apply NoDup_remove_2 in D. intros I. apply D. apply in_app_iff. now left.
Qed.
Lemma nodup_filter {A B} (f : A -> B) p l : NoDup (List.map f l) -> NoDup (List.map f (filter p l)).
Proof.
  induction l as [|x l IH]; cbn; [auto|]. intros D. inversion D as [|? ? N D']; subst. destruct (p x); cbn; [|auto]. constructor; [|auto].
  intros I. apply N. apply in_map_iff in I as (y & E & I). apply filter_In in I as [I _]. apply in_map_iff. eauto.
Qed.
Lemma validate_roots g g' : ginv g -> g_roots g = [] -> validate g = (None, g') ->
  forall n rec, In (n, rec) (g_roots g') <-> In (n, rec) (g_records g) /\ ~ In n (List.map fst (g_usage g)).
Proof.
  intros I R V n rec. unfold validate in V. destruct (forallb _ _); [|discriminate]. injection V as <-. cbn [g_roots]. rewrite R.
  rewrite fold_put_new by (cbn [app]; apply nodup_filter; apply I). cbn [app]. rewrite filter_In. cbn [fst].
  rewrite negb_true_iff, <- hasKey_iff, <- not_true_iff_false. reflexivity.
Qed.
Lemma validate_state g g' e : validate g = (e, g') -> g_records g' = g_records g /\ g_usage g' = g_usage g /\ g_maxLine g' = g_maxLine g.
Proof. intros V. pose proof (validate_records g) as H. now rewrite V in H. Qed.

Lemma getRule_in g n r : NoDup (List.map fst (g_records g)) -> getRule g n = Some r <-> exists rec, In (n, rec) (g_records g) /\ rec_rule rec = r.
Proof.
  intros D. unfold getRule, getRecord. split.
  - destruct (find_rec (g_records g) n) as [rec|] eqn:F; [|discriminate]. intros [= <-]. apply find_in in F. eauto.
  - intros (rec & I & <-). apply find_nodup in I; [|exact D]. now rewrite I.
Qed.
Lemma usage_referenced g : ginv g -> exactUsage g -> forall m, In m (List.map fst (g_usage g)) <-> referenced g m.
Proof.
  intros I X m. unfold referenced. split.
  - intros H. apply in_map_iff in H as ([m' n] & <- & H). apply X in H as (rec & R & E). exists n, (rec_rule rec). split; [|exact E].
    apply getRule_in; [apply I|]. eauto.
  - intros (n & r & G & E). apply getRule_in in G as (rec & R & <-); [|apply I]. apply in_map_iff. exists (m, n). split; [reflexivity|]. eapply gi_usage; eauto.
Qed.
Lemma keys_defined g m : In m (List.map fst (g_records g)) <-> exists r, getRule g m = Some r.
Proof.
  unfold getRule, getRecord. destruct (find_rec (g_records g) m) as [rec|] eqn:F; cbn.
  - split; [eauto|]. intros _. apply find_in in F. now apply (in_map fst) in F.
  - apply find_none in F. split; [contradiction|]. intros [r H]. discriminate.
Qed.

(** Everything about an accepted text. *)
Record accepted (ls : list (list Z)) (g : grammar) : Prop := {
  ac_inv : ginv g;
  ac_exact : exactUsage g;
  ac_max : g_maxLine g = Z.of_nat (length ls);
  ac_records : forall n rec, getRecord g n = Some rec <-> recorded ls n rec;
  ac_roots : forall n rec, In (n, rec) (g_roots g) <-> getRecord g n = Some rec /\ ~ referenced g n;
  ac_closed : closedGrammar g;
  ac_fine : forall k e, ~ badLine ls k e }.

Lemma record_in g n rec : NoDup (List.map fst (g_records g)) -> getRecord g n = Some rec <-> In (n, rec) (g_records g).
Proof. intros D. split; [apply find_in|now apply find_nodup]. Qed.

Lemma after_refs ls g m : after ls g -> referenced g m <-> mentioned ls m.
Proof.
  intros A. unfold referenced, mentioned. split.
  - intros (n & r & G & E). apply getRule_in in G as (rec & R & <-); [|apply (af_inv _ _ A)]. apply (af_records _ _ A) in R as (k & b & L & RA & _). exists k, n, b. eauto.
  - intros (k & n & b & r & L & RA & E). exists n, r. split; [|exact E]. apply getRule_in; [apply (af_inv _ _ A)|]. exists (mkRec r (Z.of_nat k + 1)). split; [|reflexivity].
    apply (af_records _ _ A). exists k, b. auto.
Qed.
Lemma after_defined ls g m : after ls g -> In m (List.map fst (g_records g)) <-> defined ls m.
Proof.
  intros A. unfold defined. split.
  - intros H. apply in_map_iff in H as ([n rec] & <- & H). apply (af_records _ _ A) in H as (k & b & L & _). eauto.
  - intros (k & b & L). apply (af_all _ _ A) in L as [rec L]. now apply (in_map fst) in L.
Qed.

Lemma fromString_cases txt ls : clean txt -> linesOf txt ls ->
  (exists g, newGrammarFromString txt = inl g /\ accepted ls g /\ forall m, mentioned ls m -> defined ls m) \/
  (exists k e, newGrammarFromString txt = inr (Z.of_nat k + 1, e) /\ firstBad ls k e) \/
  (newGrammarFromString txt = inr (0, GUndefined) /\ (forall k e, ~ badLine ls k e) /\ exists m, mentioned ls m /\ ~ defined ls m).
Proof.
  intros C L. apply lines_unique in L. subst ls. unfold newGrammarFromString. pose proof (addLines_new txt C) as H.
  destruct (addLines newGrammar 0 (splitLines txt)) as [g|[j e]]; [|right; left; destruct H as (k & -> & F); eauto].
  destruct (validate g) as [[e|] g'] eqn:V.
  - right. right. assert (E : e = GUndefined) by (unfold validate in V; destruct (forallb _ _); congruence). subst e. split; [reflexivity|]. split; [apply (af_fine _ _ H)|].
    pose proof (validate_none g) as VN. rewrite V in VN. cbn [fst] in VN.
    assert (B : existsb (fun u => negb (hasKey (fst u) (g_records g))) (g_usage g) = true).
    { apply not_false_iff_true. intros B. assert (Some GUndefined = None); [|discriminate]. apply VN. intros m n U. apply hasKey_iff. 
      destruct (hasKey m (g_records g)) eqn:K; [reflexivity|]. assert (X : existsb (fun u => negb (hasKey (fst u) (g_records g))) (g_usage g) = true); [|congruence].
      apply existsb_exists. exists (m, n). cbn. now rewrite K. }
    apply existsb_exists in B as ([m n] & U & K). cbn in K. exists m. split.
    + apply (after_refs _ _ _ H). apply usage_referenced; [apply (af_inv _ _ H)|apply (af_exact _ _ H)|]. now apply (in_map fst) in U.
    + rewrite <- (after_defined _ _ _ H), <- hasKey_iff. destruct (hasKey m (g_records g)); [discriminate|congruence].
  - left. exists g'. split; [reflexivity|]. pose proof (validate_state _ _ _ V) as (ER & EU & EM).
    pose proof (validate_none g) as VN. rewrite V in VN. cbn [fst] in VN. destruct VN as [VN _]. specialize (VN eq_refl).
    pose proof (ginv_validate g (af_inv _ _ H)) as GI. rewrite V in GI. cbn [snd] in GI.
    assert (GX : exactUsage g') by (intros m n; rewrite EU, ER; apply (af_exact _ _ H)).
    assert (RF : forall m, referenced g' m <-> referenced g m) by (intros m; unfold referenced, getRule, getRecord; rewrite ER; tauto).
    assert (DEF : forall m, mentioned (splitLines txt) m -> defined (splitLines txt) m).
    { intros m M. apply (after_refs _ _ _ H) in M. apply usage_referenced in M; [|apply (af_inv _ _ H)|apply (af_exact _ _ H)].
      apply in_map_iff in M as ([m' n] & <- & M). apply VN in M. now apply (after_defined _ _ _ H) in M. }
    split; [|exact DEF]. split.
    + exact GI.
    + exact GX.
    + rewrite EM. apply (af_max _ _ H).
    + intros n rec. rewrite <- (af_records _ _ H), <- ER. apply record_in, GI.
    + intros n rec. rewrite (validate_roots g g' (af_inv _ _ H) (af_roots _ _ H) V), (usage_referenced g (af_inv _ _ H) (af_exact _ _ H)), <- RF, <- ER.
      rewrite <- record_in by apply GI. reflexivity.
    + intros m M. apply RF, (after_refs _ _ _ H), DEF in M. apply (after_defined _ _ _ H) in M. rewrite <- ER in M. now apply keys_defined in M.
    + apply (af_fine _ _ H).
Qed.
