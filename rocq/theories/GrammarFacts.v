(** Facts about grammars. *)
From Verif Require Import Base Stream StreamFacts Node Rule Parse Grammar SpecStream SpecRule SpecParse SpecGrammar TermSpec ParseFacts NotationFacts DriverFacts.

(* ---------------- texts ---------------- *)

Lemma white_dec c : In c whiteSpaces <-> isWS c = true.
Proof.
  split; [|apply white_in]. intros H. unfold isWS. apply existsb_exists. exists c. split; [exact H|apply Z.eqb_refl].
Qed.
Lemma trimLeft_split l : exists w, l = w ++ trimLeft l /\ white w /\ match trimLeft l with [] => True | c :: _ => ~ In c whiteSpaces end.
Proof.
  exists (ws_prefix l). split; [apply ws_prefix_app|]. split; [apply ws_prefix_white|]. unfold trimLeft. pose proof (ws_prefix_stop l) as S.
  destruct (skipn _ l); [exact I|]. rewrite white_dec. congruence.
Qed.
Lemma trimLeft_white w : white w -> trimLeft w = [].
Proof.
  intros W. unfold trimLeft. rewrite <- (app_nil_r w) at 1. rewrite ws_prefix_white_app by exact W. cbn. rewrite app_nil_r. apply skipn_all.
Qed.
Lemma trimLeft_app w m : white w -> match m with [] => False | c :: _ => ~ In c whiteSpaces end -> trimLeft (w ++ m) = m.
Proof.
  intros W M. unfold trimLeft. rewrite ws_prefix_white_app by exact W. destruct m as [|c m]; [easy|]. cbn [ws_prefix].
  destruct (isWS c) eqn:E; [apply white_dec in E; easy|]. rewrite app_nil_r, skipn_app, skipn_all, Nat.sub_diag. reflexivity.
Qed.
Lemma trim_trimmed l : trimmed l (trim l).
Proof.
  unfold trim. destruct (trimLeft_split l) as (w & E & W & F). destruct (trimLeft_split (rev (trimLeft l))) as (w' & E' & W' & F').
  set (m := trimLeft (rev (trimLeft l))) in *. apply (f_equal (@rev Z)) in E'. rewrite rev_involutive, rev_app_distr in E'.
  exists w, (rev w'). split; [rewrite E at 1; now rewrite E'|]. split; [exact W|]. split; [now apply Forall_rev|].
  intros c [[x Hx]|[x Hx]].
  - rewrite E', Hx in F. exact F.
  - apply (f_equal (@rev Z)) in Hx. rewrite rev_involutive, rev_app_distr in Hx. cbn in Hx. rewrite Hx in F'. exact F'.
Qed.
Lemma trimmed_trim l m : trimmed l m -> trim l = m.
Proof.
  intros (w & w' & -> & W & W' & ED). unfold trim. destruct m as [|c m].
  - cbn [app]. rewrite (trimLeft_white (w ++ w')) by now apply Forall_app. reflexivity.
  - rewrite trimLeft_app; [|exact W|apply ED; left; eauto]. rewrite rev_app_distr.
    destruct (exists_last (l := c :: m)) as (x & d & E); [discriminate|]. rewrite E in *. rewrite rev_app_distr. cbn [rev app].
    rewrite trimLeft_app; [|now apply Forall_rev|apply ED; right; eauto]. cbn [rev]. now rewrite rev_involutive.
Qed.
Lemma trimmed_iff l m : trimmed l m <-> trim l = m.
Proof. split; [apply trimmed_trim|]. intros <-. apply trim_trimmed. Qed.
Lemma trim_clean l : clean l -> clean (trim l).
Proof.
  intros C. destruct (trim_trimmed l) as (w & w' & E & _). rewrite E in C. unfold clean in C. apply Forall_app in C as [_ C]. now apply Forall_app in C.
Qed.
Lemma trim_trim l : trim (trim l) = trim l.
Proof.
  apply trimmed_trim. exists [], []. cbn. rewrite app_nil_r. split; [reflexivity|]. split; [constructor|]. split; [constructor|].
  destruct (trim_trimmed l) as (_ & _ & _ & _ & _ & E). exact E.
Qed.
Lemma splitEq_some l a b : splitEq l = Some (a, b) <-> l = a ++ 61 :: b /\ ~ In 61 a.
Proof.
  revert a b. induction l as [|c l IH]; intros a b; cbn [splitEq].
  - split; [discriminate|]. intros [E _]. destruct a; discriminate.
  - destruct (Z.eqb_spec c 61) as [->|NE].
    + split; [intros [= <- <-]; split; [reflexivity|intros []]|]. intros [E N]. destruct a as [|x a]; [now injection E as ->|]. injection E as <- E. destruct N. now left.
    + destruct (splitEq l) as [[a1 b1]|].
      * split.
        -- intros [= <- <-]. destruct (proj1 (IH a1 b1) eq_refl) as [-> N]. split; [reflexivity|]. intros [E|E]; [congruence|easy].
        -- intros [E N]. destruct a as [|x a]; [injection E as E _; congruence|]. injection E as -> E.
           assert (H : Some (a1, b1) = Some (a, b)) by (apply IH; split; [exact E|intros I; apply N; now right]). now injection H as -> ->.
      * split; [discriminate|]. intros [E N]. destruct a as [|x a]; [injection E as E _; congruence|]. injection E as -> E.
        assert (H : None = Some (a, b)) by (apply IH; split; [exact E|intros I; apply N; now right]). discriminate.
Qed.
Lemma splitEq_none l : splitEq l = None <-> ~ In 61 l.
Proof.
  induction l as [|c l IH]; cbn [splitEq]; [split; [intros _ []|reflexivity]|]. destruct (Z.eqb_spec c 61) as [->|NE].
  - split; [discriminate|]. intros N. destruct N. now left.
  - destruct (splitEq l) as [[a b]|]; split; try discriminate.
    + intros N. exfalso. assert (H : Some (a, b) = None) by (apply IH; intros I; apply N; now right). discriminate.
    + intros _ [E|E]; [congruence|]. now apply IH in E.
    + reflexivity.
Qed.
Lemma splitLines_lines txt : linesOf txt (splitLines txt).
Proof.
  induction txt as [|c l (N & F & first & others & E & T)]; [split; [discriminate|]; split; [intros l [<-|[]] []|exists [], []; auto]|].
  cbn [splitLines]. destruct (Z.eqb_spec c 10) as [->|NC].
  - split; [discriminate|]. split; [intros x [<-|Hx]; [intros []|now apply F]|]. exists [], (splitLines l). split; [reflexivity|].
    rewrite E. cbn. now rewrite <- T.
  - rewrite E in *. split; [discriminate|]. split.
    + intros x [<-|Hx]; [intros [I|I]; [congruence|]; apply (F first); [now left|exact I]|]. apply F. now right.
    + exists (c :: first), others. split; [reflexivity|]. cbn. now rewrite T.
Qed.
Lemma in_line txt ln c : In ln (splitLines txt) -> In c ln -> In c txt.
Proof.
  destruct (splitLines_lines txt) as (_ & _ & first & others & -> & ->). intros [<-|H] I; apply in_app_iff; [now left|right].
  apply in_concat. exists (10 :: ln). split; [apply in_map_iff; eauto|now right].
Qed.
Lemma line_clean txt ln : clean txt -> In ln (splitLines txt) -> clean ln.
Proof. intros C I. apply Forall_forall. intros c Hc. eapply Forall_forall in C; [exact C|]. eapply in_line; eauto. Qed.
Lemma isComment_iff m : isComment m = true <-> exists x, m = 47 :: 47 :: x.
Proof.
  unfold isComment. destruct m as [|a [|b m]]; [split; [discriminate|intros (x & H); discriminate]..|].
  rewrite andb_true_iff, !Z.eqb_eq. split; [intros [-> ->]; eauto|intros (x & H); now inversion H].
Qed.

(* ---------------- names ---------------- *)

Lemma validName_iff n : validName n = true <-> goodName n.
Proof.
  unfold validName, goodName. destruct n as [|c n]; [split; [discriminate|intros (c & x & E & _); discriminate]|].
  rewrite andb_true_iff, forallb_forall. unfold isLetter, isDigit. rewrite orb_true_iff, !andb_true_iff, !Z.leb_le. split.
  - intros [L F]. exists c, n. split; [reflexivity|]. split; [lia|]. apply Forall_forall. intros d Hd. specialize (F d Hd).
    rewrite !orb_true_iff, !andb_true_iff, !Z.leb_le, Z.eqb_eq in F. lia.
  - intros (c' & x & [= <- <-] & L & F). split; [lia|]. intros d Hd. rewrite Forall_forall in F. specialize (F d Hd).
    rewrite !orb_true_iff, !andb_true_iff, !Z.leb_le, Z.eqb_eq. lia.
Qed.

(* ---------------- maps ---------------- *)

Lemma find_in m n r : find_rec m n = Some r -> In (n, r) m.
Proof.
  induction m as [|[k x] m IH]; cbn [find_rec]; [discriminate|]. destruct (runes_eqb k n) eqn:E; [intros [= ->]; apply runes_eqb_eq in E; subst; now left|].
  intros H. right. auto.
Qed.
Lemma find_none m n : find_rec m n = None <-> ~ In n (List.map fst m).
Proof.
  induction m as [|[k x] m IH]; cbn [find_rec List.map fst]; [split; [intros _ []|reflexivity]|]. destruct (runes_eqb k n) eqn:E.
  - apply runes_eqb_eq in E. subst. split; [discriminate|]. intros H. destruct H. now left.
  - apply runes_eqb_neq in E. rewrite IH. split; [intros H [?|?]; auto|intros H I; apply H; now right].
Qed.
Lemma find_nodup m n r : NoDup (List.map fst m) -> In (n, r) m -> find_rec m n = Some r.
Proof.
  induction m as [|[k x] m IH]; cbn [find_rec List.map fst]; [intros _ []|]. intros D [E|H]; inversion D as [|? ? N D']; subst.
  - injection E as -> ->. now rewrite runes_eqb_refl.
  - destruct (runes_eqb k n) eqn:E; [|auto]. apply runes_eqb_eq in E. subst. destruct N. now apply (in_map fst) in H.
Qed.
Lemma put_new m n r : find_rec m n = None -> put_rec m n r = m ++ [(n, r)].
Proof.
  induction m as [|[k x] m IH]; cbn [find_rec put_rec]; [reflexivity|]. destruct (runes_eqb k n); [discriminate|]. intros H. now rewrite IH.
Qed.
Lemma find_put m n r k : find_rec (put_rec m n r) k = if runes_eqb n k then Some r else find_rec m k.
Proof.
  induction m as [|[j x] m IH]; cbn [put_rec find_rec]; [reflexivity|]. destruct (runes_eqb j n) eqn:E; cbn [find_rec].
  - apply runes_eqb_eq in E. subst j. destruct (runes_eqb n k); reflexivity.
  - destruct (runes_eqb j k) eqn:E2; [|exact IH]. apply runes_eqb_eq in E2. subst j. rewrite runes_eqb_sym in E. now rewrite E.
Qed.
Lemma find_app m n r k : find_rec m n = None -> find_rec (m ++ [(n, r)]) k = if runes_eqb n k then Some r else find_rec m k.
Proof. intros H. rewrite <- (put_new _ _ r H). apply find_put. Qed.
Lemma hasKey_iff {A} n (l : list (list Z * A)) : hasKey n l = true <-> In n (List.map fst l).
Proof.
  unfold hasKey. rewrite existsb_exists, in_map_iff. split.
  - intros (x & Hx & E). apply runes_eqb_eq in E. eauto.
  - intros (x & E & Hx). exists x. split; [exact Hx|]. now apply runes_eqb_eq.
Qed.

(* ---------------- one definition ---------------- *)

Lemma setName_wf r n : wfRule r -> wfRule (setName r n).
Proof. unfold setName. apply set_base_wf. Qed.
Lemma setName_refs r n : refs (setName r n) = refs r.
Proof. unfold setName. apply set_base_refs. Qed.

(** The outcomes of ParseRule. *)
Lemma parseRule_cases g name str :
  (validName name = false /\ parseRule g name str = (inr GName, g)) \/
  (validName name = true /\ (exists rec, getRecord g name = Some rec) /\ parseRule g name str = (inr GDuplicate, g)) \/
  (validName name = true /\ getRecord g name = None /\
    ((exists us, parseText (trim str) = PErr us /\ parseRule g name str = (inr GParse, addUsages g us name)) \/
     (parseText (trim str) = PFuel /\ parseRule g name str = (inr GFuel, g)) \/
     (exists r l us, parseText (trim str) = POk r l us /\
        parseRule g name str = (inl (setName r name),
          mkGrammar (g_records g ++ [(name, mkRec (setName r name) (g_maxLine g + 1))]) (g_usage g ++ List.map (fun n => (n, name)) us)
            (g_terminals g) (g_roots g) (g_maxLine g + 1))))).
Proof.
  unfold parseRule. destruct (validName name) eqn:V; cbn [negb]; [|left; auto]. destruct (getRecord g name) as [rec|] eqn:R; [right; left; eauto|].
  right. right. split; [reflexivity|]. split; [reflexivity|]. destruct (parseText (trim str)) as [r l us|us|] eqn:P.
  - right. right. exists r, l, us. split; [reflexivity|]. cbn. rewrite put_new by exact R. reflexivity.
  - left. eauto.
  - right. left. auto.
Qed.
Lemma addRule_cases g def :
  (splitEq def = None /\ addRule g def = (inr GNoEq, g)) \/
  (exists a b, splitEq def = Some (a, b) /\ addRule g def = parseRule g (trim a) (trim b)).
Proof. unfold addRule. destruct (splitEq def) as [[a b]|]; [right; eauto|left; auto]. Qed.
Lemma split_clean def a b : splitEq def = Some (a, b) -> clean def -> clean b.
Proof. intros E C. apply splitEq_some in E as [-> _]. unfold clean in C. apply Forall_app in C as [_ C]. now inversion C. Qed.

Lemma parseRule_ends g name str : clean str -> fst (parseRule g name str) <> inr GFuel.
Proof.
  intros C. destruct (parseRule_cases g name str) as [[_ ->]|[(_ & _ & ->)|(_ & _ & [(us & _ & ->)|[[E _]|(r & l & us & _ & ->)]])]]; cbn [fst]; try discriminate.
  now apply parse_enough in E; [|apply trim_clean].
Qed.
Lemma addRule_ends g def : clean def -> fst (addRule g def) <> inr GFuel.
Proof.
  intros C. destruct (addRule_cases g def) as [[_ ->]|(a & b & E & ->)]; [discriminate|]. apply parseRule_ends, trim_clean. eapply split_clean; eauto.
Qed.
Lemma parseRule_wf g name str r g' : clean str -> parseRule g name str = (inl r, g') -> wfRule r.
Proof.
  intros C. destruct (parseRule_cases g name str) as [[_ ->]|[(_ & _ & ->)|(_ & _ & [(us & _ & ->)|[[E ->]|(r0 & l & us & E & ->)]])]]; try discriminate.
  intros [= <- _]. apply setName_wf. apply parse_sound in E as (W & _); [exact W|now apply trim_clean].
Qed.
Lemma addRule_wf g def r g' : clean def -> addRule g def = (inl r, g') -> wfRule r.
Proof.
  intros C. destruct (addRule_cases g def) as [[_ ->]|(a & b & E & ->)]; [discriminate|]. apply parseRule_wf, trim_clean. eapply split_clean; eauto.
Qed.
Lemma validate_records g : g_records (snd (validate g)) = g_records g /\ g_usage (snd (validate g)) = g_usage g /\ g_maxLine (snd (validate g)) = g_maxLine g.
Proof. unfold validate. destruct (forallb _ _); auto. Qed.

(* ---------------- invariants ---------------- *)

Record ginv (g : grammar) : Prop := {
  gi_nodup : NoDup (List.map fst (g_records g));
  gi_names : forall n rec, In (n, rec) (g_records g) -> goodName n;
  gi_wf : forall n rec, In (n, rec) (g_records g) -> wfRule (rec_rule rec);
  gi_named : forall n rec, In (n, rec) (g_records g) -> b_name (base_of (rec_rule rec)) = n;
  gi_usage : forall n rec m, In (n, rec) (g_records g) -> In m (refs (rec_rule rec)) -> In (m, n) (g_usage g);
  gi_roots : forall n rec, In (n, rec) (g_roots g) -> In (n, rec) (g_records g);
  gi_lines : forall n rec, In (n, rec) (g_records g) -> rec_line rec <= g_maxLine g;
  gi_distinct : NoDup (List.map (fun x => rec_line (snd x)) (g_records g)) }.

Lemma ginv_new : ginv newGrammar.
Proof. split; cbn; try constructor; intros; contradiction. Qed.
Lemma setName_name r n : b_name (base_of (setName r n)) = n.
Proof. now destruct r. Qed.
Lemma nodup_snoc {A} (l : list A) x : NoDup l -> ~ In x l -> NoDup (l ++ [x]).
Proof.
  intros D N. induction D as [|y l NY D IH]; [constructor; [intros []|constructor]|]. cbn. constructor.
  - intros H. apply in_app_iff in H as [H|[->|[]]]; [contradiction|]. apply N. now left.
  - apply IH. intros H. apply N. now right.
Qed.
Lemma in_snoc {A} (l : list A) x y : In y (l ++ [x]) -> In y l \/ y = x.
Proof. intros H. apply in_app_iff in H as [H|[->|[]]]; auto. Qed.

Lemma ginv_parse g name str : clean str -> ginv g -> ginv (snd (parseRule g name str)).
Proof.
  intros C I. destruct (parseRule_cases g name str) as [[_ ->]|[(_ & _ & ->)|(V & N & [(us & _ & ->)|[[E ->]|(r & l & us & E & ->)]])]]; cbn [snd]; [exact I|exact I| |exact I|].
  - destruct I. split; cbn; auto. intros n rec m H1 H2. apply in_app_iff. left. eauto.
  - apply parse_sound in E as (W & -> & _); [|now apply trim_clean]. unfold getRecord in N. apply find_none in N.
    apply validName_iff in V. destruct I. split; cbn.
    + rewrite map_app. now apply nodup_snoc.
    + intros n rec H. apply in_snoc in H as [H|[= -> ->]]; eauto.
    + intros n rec H. apply in_snoc in H as [H|[= -> ->]]; [eauto|]. now apply setName_wf.
    + intros n rec H. apply in_snoc in H as [H|[= -> ->]]; [eauto|]. apply setName_name.
    + intros n rec m H M. apply in_app_iff. apply in_snoc in H as [H|[= -> ->]]; [left; eauto|right].
      cbn in M. rewrite setName_refs in M. apply in_map_iff. eauto.
    + intros n rec H. apply in_app_iff. left. auto.
    + intros n rec H. apply in_snoc in H as [H|[= -> ->]]; [|cbn; lia]. specialize (gi_lines0 _ _ H). lia.
    + rewrite map_app. cbn. apply nodup_snoc; [exact gi_distinct0|]. intros H. apply in_map_iff in H as ([n rec] & L & H). specialize (gi_lines0 _ _ H). cbn in L. lia.
Qed.
Lemma ginv_add g def : clean def -> ginv g -> ginv (snd (addRule g def)).
Proof.
  intros C I. destruct (addRule_cases g def) as [[_ ->]|(a & b & E & ->)]; [exact I|]. apply ginv_parse; [|exact I]. apply trim_clean. eapply split_clean; eauto.
Qed.
Lemma fold_put_in m l n r : In (n, r) (fold_left (fun m kr => put_rec m (fst kr) (snd kr)) l m) -> In (n, r) m \/ In (n, r) l.
Proof.
  revert m. induction l as [|[k x] l IH]; intros m H; cbn [fold_left] in H; [now left|]. apply IH in H as [H|H]; [|right; now right]. cbn [fst snd] in H.
  clear IH. induction m as [|[j y] m IHm]; cbn [put_rec] in H.
  - destruct H as [E|[]]. right. now left.
  - destruct (runes_eqb j k) eqn:E.
    + apply runes_eqb_eq in E. subst j. destruct H as [E|H]; [right; now left|]. left. now right.
    + destruct H as [EQ|H]; [left; now left|]. destruct (IHm H) as [X|X]; [left; now right|now right].
Qed.
Lemma ginv_validate g : ginv g -> ginv (snd (validate g)).
Proof.
  intros I. unfold validate. destruct (forallb _ _); [|exact I]. destruct I. split; cbn; auto.
  intros n rec H. apply fold_put_in in H as [H|H]; [auto|]. apply filter_In in H. tauto.
Qed.
Lemma ginv_history calls : decoded calls -> ginv (history calls).
Proof.
  unfold history. assert (G : forall g, ginv g -> decoded calls -> ginv (fold_left perform calls g)); [|apply G, ginv_new].
  induction calls as [|c calls IH]; intros g I D; cbn [fold_left]; [exact I|]. inversion D as [|? ? D0 D']; subst. apply IH; [|exact D'].
  destruct c; cbn [perform textOf] in *; [now apply ginv_add|now apply ginv_parse|now apply ginv_validate].
Qed.

(* ---------------- grammars from texts ---------------- *)

Lemma ginv_line g i : ginv g -> g_maxLine g <= i -> ginv (setMaxLine g i).
Proof. intros [] H. split; cbn; auto. intros n rec K. specialize (gi_lines0 _ _ K). lia. Qed.
Lemma parseRule_max g name str r g' : parseRule g name str = (inl r, g') -> g_maxLine g' = g_maxLine g + 1.
Proof.
  destruct (parseRule_cases g name str) as [[_ ->]|[(_ & _ & ->)|(_ & _ & [(us & _ & ->)|[[_ ->]|(r0 & l & us & _ & ->)]])]]; try discriminate. now intros [= _ <-].
Qed.

(** What one definition line adds. *)
Definition entry (i : Z) (ln : list Z) (kr : list Z * rrec) : Prop :=
  exists body r l us, defines ln (fst kr) body /\ rec_line (snd kr) = i /\ parseText body = POk r l us /\ rec_rule (snd kr) = setName r (fst kr).

(** The usages are exactly the references. *)
Definition exactUsage (g : grammar) : Prop :=
  forall m n, In (m, n) (g_usage g) -> exists rec, In (n, rec) (g_records g) /\ In m (refs (rec_rule rec)).

Lemma exact_parse g name str r g' : clean str -> exactUsage g -> parseRule g name str = (inl r, g') -> exactUsage g'.
Proof.
  intros C X. destruct (parseRule_cases g name str) as [[_ ->]|[(_ & _ & ->)|(V & N & [(us & _ & ->)|[[E ->]|(r0 & l & us & E & ->)]])]]; try discriminate.
  intros [= <- <-]. apply parse_sound in E as (W & -> & _); [|now apply trim_clean]. intros m n H. cbn in *. apply in_app_iff in H as [H|H].
  - destruct (X _ _ H) as (rec & A & B). exists rec. split; [apply in_app_iff; now left|exact B].
  - apply in_map_iff in H as (x & [= -> ->] & H). exists (mkRec (setName r0 n) (g_maxLine g + 1)). split; [apply in_app_iff; right; now left|].
    cbn. now rewrite setName_refs.
Qed.

Lemma addLines_ok lines : forall g i g', Forall clean lines -> ginv g -> g_maxLine g = i -> exactUsage g -> addLines g i lines = inl g' ->
  ginv g' /\ exactUsage g' /\ g_maxLine g' = i + Z.of_nat (length lines) /\ g_roots g' = g_roots g /\ g_terminals g' = g_terminals g /\
  exists new, g_records g' = g_records g ++ new /\
    (forall kr, In kr new -> exists k ln, nth_error lines k = Some ln /\ entry (i + Z.of_nat k + 1) ln kr /\ ~ inert ln) /\
    (forall k ln, nth_error lines k = Some ln -> inert ln \/ exists kr, In kr new /\ entry (i + Z.of_nat k + 1) ln kr).
Proof.
  induction lines as [|ln lines IH]; intros g i g' C I M X H; cbn [addLines] in H.
  { injection H as <-. split; [exact I|]. split; [exact X|]. split; [cbn; lia|]. split; [reflexivity|]. split; [reflexivity|]. exists []. rewrite app_nil_r. split; [reflexivity|].
    split; [intros kr []|]. intros [|k] ln; discriminate. }
  inversion C as [|? ? C0 C']; subst.
  destruct (negb (nonempty (trim ln)) || isComment (trim ln)) eqn:INERT.
  - assert (IN : inert ln).
    { exists (trim ln). split; [apply trim_trimmed|]. apply orb_true_iff in INERT as [E|E]; [left; now destruct (trim ln)|right; now apply isComment_iff]. }
    apply IH in H as (I' & X' & M' & R' & T' & new & E & A & B); [|exact C'|apply ginv_line; [exact I|lia]|reflexivity|exact X].
    split; [exact I'|]. split; [exact X'|]. split; [rewrite M'; cbn [length]; lia|]. split; [exact R'|]. split; [exact T'|]. exists new. split; [exact E|]. split.
    + intros kr K. destruct (A kr K) as (k & l & N & EN & NI). exists (S k), l. split; [exact N|]. split; [|exact NI]. replace (g_maxLine g + Z.of_nat (S k) + 1) with (g_maxLine g + 1 + Z.of_nat k + 1) by lia. exact EN.
    + intros [|k] l N; [injection N as ->; now left|]. destruct (B k l N) as [Q|(kr & K & EN)]; [now left|right]. exists kr. split; [exact K|].
      replace (g_maxLine g + Z.of_nat (S k) + 1) with (g_maxLine g + 1 + Z.of_nat k + 1) by lia. exact EN.
  - assert (NI : ~ inert ln).
    { intros (m & T & Q). apply trimmed_iff in T. subst m. destruct Q as [Q|Q]; [rewrite Q in INERT; discriminate|]. apply isComment_iff in Q. rewrite Q, orb_true_r in INERT. discriminate. }
    destruct (splitEq (trim ln)) as [[a b]|] eqn:SE; [|discriminate].
    destruct (parseRule g (trim a) (trim b)) as [[r|e] g1] eqn:P; [|discriminate].
    assert (CB : clean (trim b)) by (apply trim_clean; eapply split_clean; [exact SE|now apply trim_clean]).
    pose proof (parseRule_max _ _ _ _ _ P) as M1. pose proof (exact_parse _ _ _ _ _ CB X P) as X1.
    pose proof (ginv_parse g (trim a) (trim b) CB I) as I1. rewrite P in I1. cbn [snd] in I1.
    apply IH in H as (I' & X' & M' & R' & T' & new & E & A & B); [|exact C'|apply ginv_line; [exact I1|lia]|reflexivity|exact X1].
    destruct (parseRule_cases g (trim a) (trim b)) as [[_ E0]|[(_ & _ & E0)|(V & N & [(us & _ & E0)|[[_ E0]|(r0 & l & us & PT & E0)]])]];
      rewrite P in E0; try discriminate. injection E0 as -> ->. cbn in E, R', T'. rewrite trim_trim in PT.
    split; [exact I'|]. split; [exact X'|]. split; [rewrite M'; cbn [length]; lia|]. split; [exact R'|]. split; [exact T'|].
    exists ((trim a, mkRec (setName r0 (trim a)) (g_maxLine g + 1)) :: new). split; [rewrite E; now rewrite <- app_assoc|].
    assert (EN0 : entry (g_maxLine g + Z.of_nat 0 + 1) ln (trim a, mkRec (setName r0 (trim a)) (g_maxLine g + 1))).
    { exists (trim b), r0, l, us. split.
      - apply splitEq_some in SE as [SE NE]. exists (trim ln), a, b. split; [apply trim_trimmed|]. split; [exact SE|]. split; [exact NE|]. split; apply trim_trimmed.
      - split; [cbn; lia|]. split; [exact PT|reflexivity]. }
    split.
    + intros kr [<-|K]; [exists 0%nat, ln; auto|]. destruct (A kr K) as (k & l1 & NN & EN & NI1). exists (S k), l1. split; [exact NN|]. split; [|exact NI1].
      replace (g_maxLine g + Z.of_nat (S k) + 1) with (g_maxLine g + 1 + Z.of_nat k + 1) by lia. exact EN.
    + intros [|k] l1 NN; [injection NN as <-; right; eexists; split; [now left|exact EN0]|].
      destruct (B k l1 NN) as [Q|(kr & K & EN)]; [now left|right]. exists kr. split; [now right|].
      replace (g_maxLine g + Z.of_nat (S k) + 1) with (g_maxLine g + 1 + Z.of_nat k + 1) by lia. exact EN.
Qed.
