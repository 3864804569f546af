(** Facts about the listing of a grammar. *)
From Coq Require Import Permutation Sorted.
From Verif Require Import Base Stream StreamFacts Node Rule SpecStream SpecRule Parse Grammar Print SpecParse ParseFacts SpecGrammar GrammarFacts GrammarText HistoryFacts Show SpecShow ShowFacts SpecSerial OutlineFacts.

(* ---------------- sorting ---------------- *)

Lemma insertZ_perm x l : Permutation (insertZ x l) (x :: l).
Proof.
  induction l as [|y l IH]; cbn [insertZ]; [reflexivity|]. destruct (x <=? y); [reflexivity|]. rewrite IH. apply perm_swap.
Qed.
Lemma sortZ_perm l : Permutation (sortZ l) l.
Proof. induction l as [|x l IH]; cbn [sortZ]; [reflexivity|]. rewrite insertZ_perm. now constructor. Qed.
Lemma insertZ_sorted x l : StronglySorted Z.le l -> StronglySorted Z.le (insertZ x l).
Proof.
  induction 1 as [|y l S IH F]; cbn [insertZ]; [repeat constructor|]. destruct (Z.leb_spec x y).
  - constructor; [now constructor|]. constructor; [exact H|]. eapply Forall_impl; [|exact F]. intros; lia.
  - constructor; [exact IH|]. rewrite insertZ_perm. constructor; [lia|exact F].
Qed.
Lemma sortZ_sorted l : StronglySorted Z.le (sortZ l).
Proof. induction l as [|x l IH]; cbn [sortZ]; [constructor|]. now apply insertZ_sorted. Qed.
Lemma sorted_unique l : forall k, StronglySorted Z.le l -> StronglySorted Z.le k -> Permutation l k -> l = k.
Proof.
  induction l as [|x l IH]; intros [|y k] A B P; [reflexivity|now apply Permutation_nil in P|symmetry in P; now apply Permutation_nil in P|].
  inversion A as [|? ? A1 A2]; inversion B as [|? ? B1 B2]; subst.
  assert (x = y).
  { assert (X : In x (y :: k)) by (rewrite <- P; now left). assert (Y : In y (x :: l)) by (rewrite P; now left). rewrite Forall_forall in A2, B2.
    destruct X as [X|X]; [auto|]. destruct Y as [Y|Y]; [auto|]. specialize (A2 _ Y). specialize (B2 _ X). lia. }
  subst y. f_equal. apply IH; auto. eapply Permutation_cons_inv; eauto.
Qed.

Definition lineOf (r : list Z * rrec) : Z := rec_line (snd r).
Lemma byLine_in recs r : NoDup (List.map lineOf recs) -> In r recs -> byLine recs (lineOf r) = Some r.
Proof.
  induction recs as [|x recs IH]; intros D I; [destruct I|]. cbn [byLine List.map] in *. inversion D as [|? ? N D']; subst. destruct I as [->|I].
  - assert (X : byLine recs (lineOf r) = None).
    { destruct (byLine recs (lineOf r)) as [y|] eqn:E; [|reflexivity]. exfalso. apply N. clear - E. induction recs as [|z recs IH]; [discriminate|]. cbn [byLine List.map] in *.
      destruct (byLine recs (lineOf r)) as [u|] eqn:F; [right; apply IH; congruence|]. unfold lineOf in *. destruct (Z.eqb_spec (rec_line (snd z)) (rec_line (snd r))); [left; congruence|discriminate]. }
    rewrite X. unfold lineOf. now rewrite Z.eqb_refl.
  - now rewrite IH.
Qed.
Lemma byLine_some recs line r : byLine recs line = Some r -> In r recs /\ lineOf r = line.
Proof.
  induction recs as [|x recs IH]; [discriminate|]. cbn [byLine]. destruct (byLine recs line) as [y|] eqn:E.
  - intros [= ->]. destruct (IH eq_refl). split; [now right|assumption].
  - destruct (Z.eqb_spec (rec_line (snd x)) line); [|discriminate]. intros [= ->]. split; [now left|assumption].
Qed.
(** The records in the order of their lines. *)
Definition arranged (recs : list (list Z * rrec)) : list (list Z * rrec) :=
  flat_map (fun line => match byLine recs line with Some r => [r] | None => [] end) (sortZ (List.map lineOf recs)).
Lemma rulesText_arranged detail terminals recs : rulesText detail terminals recs = flat_map (recordText detail terminals (nameWidth recs)) (arranged recs).
Proof.
  unfold rulesText, arranged. change (fun r => rec_line (snd r)) with lineOf. induction (sortZ (List.map lineOf recs)) as [|n l IH]; [reflexivity|]. cbn [flat_map].
  rewrite flat_map_app, IH. f_equal. destruct (byLine recs n); [cbn; now rewrite app_nil_r|reflexivity].
Qed.
Lemma arranged_lines recs : NoDup (List.map lineOf recs) -> List.map lineOf (arranged recs) = sortZ (List.map lineOf recs).
Proof.
  intros D. unfold arranged. assert (A : forall n, In n (sortZ (List.map lineOf recs)) -> In n (List.map lineOf recs)) by (intros n; apply Permutation_in, sortZ_perm).
  induction (sortZ (List.map lineOf recs)) as [|n l IH]; [reflexivity|]. cbn [flat_map]. rewrite map_app, IH by (intros; apply A; now right).
  specialize (A n (or_introl eq_refl)). apply in_map_iff in A as (r & <- & I). now rewrite byLine_in.
Qed.
Lemma arranged_in recs r : NoDup (List.map lineOf recs) -> In r (arranged recs) <-> In r recs.
Proof.
  intros D. unfold arranged. rewrite in_flat_map. split.
  - intros (n & _ & H). destruct (byLine recs n) as [x|] eqn:E; [|destruct H]. destruct H as [<-|[]]. now apply byLine_some in E.
  - intros I. exists (lineOf r). split; [|rewrite byLine_in by assumption; now left]. apply (Permutation_in _ (Permutation_sym (sortZ_perm _))). now apply in_map.
Qed.
Lemma nodup_map {A B} (f : A -> B) l : NoDup (List.map f l) -> NoDup l.
Proof. induction l as [|x l IH]; [constructor|]. cbn. intros H. inversion H; subst. constructor; [|auto]. intros I. now apply (in_map f) in I. Qed.
Lemma arranged_perm recs : NoDup (List.map lineOf recs) -> Permutation (arranged recs) recs.
Proof.
  intros D. apply NoDup_Permutation; [|now apply nodup_map in D|intros; now apply arranged_in].
  apply (nodup_map lineOf). rewrite arranged_lines by exact D. eapply Permutation_NoDup; [symmetry; apply sortZ_perm|exact D].
Qed.
Lemma arranged_order recs : NoDup (List.map lineOf recs) -> inOrder (arranged recs).
Proof.
  intros D. assert (S : StronglySorted Z.le (List.map lineOf (arranged recs))) by (rewrite arranged_lines by exact D; apply sortZ_sorted).
  assert (N : NoDup (List.map lineOf (arranged recs))) by (rewrite arranged_lines by exact D; eapply Permutation_NoDup; [symmetry; apply sortZ_perm|exact D]).
  unfold inOrder. induction (arranged recs) as [|x l IH]; [constructor|]. cbn [List.map] in *. inversion S as [|? ? S1 S2]; inversion N as [|? ? N1 N2]; subst. constructor; [auto|].
  apply Forall_forall. intros y Y. rewrite Forall_forall in S2. pose proof (in_map lineOf _ _ Y) as M. specialize (S2 _ M). unfold lineOf in *.
  assert (rec_line (snd x) <> rec_line (snd y)) by (intros E; apply N1; rewrite E; exact M). lia.
Qed.
Lemma in_order_unique l : forall k, inOrder l -> inOrder k -> Permutation l k -> l = k.
Proof.
  unfold inOrder. induction l as [|x l IH]; intros [|y k] A B P; [reflexivity|now apply Permutation_nil in P|symmetry in P; now apply Permutation_nil in P|].
  inversion A as [|? ? A1 A2]; inversion B as [|? ? B1 B2]; subst.
  assert (x = y).
  { assert (X : In x (y :: k)) by (rewrite <- P; now left). assert (Y : In y (x :: l)) by (rewrite P; now left). rewrite Forall_forall in A2, B2.
    destruct X as [X|X]; [auto|]. destruct Y as [Y|Y]; [auto|]. specialize (A2 _ Y). specialize (B2 _ X). lia. }
  subst y. f_equal. apply IH; auto. eapply Permutation_cons_inv; eauto.
Qed.

(* ---------------- one line ---------------- *)

Lemma fold_max l : forall n, In n l -> (n <= fold_right Nat.max 0 l)%nat.
Proof. induction l as [|x l IH]; intros n []; cbn [fold_right]; [subst; lia|]. specialize (IH n H). lia. Qed.
Lemma width_name recs r : In r recs -> (length (fst r) + 4 <= nameWidth recs)%nat.
Proof. intros I. unfold nameWidth. pose proof (fold_max (List.map (fun r => length (fst r)) recs) (length (fst r)) ltac:(apply (in_map (fun r : list Z * rrec => length (fst r))); exact I)). lia. Qed.
Lemma width_perm recs recs' : Permutation recs recs' -> nameWidth recs = nameWidth recs'.
Proof. intros P. unfold nameWidth. f_equal. induction P; cbn [List.map fold_right]; lia. Qed.
Lemma zeros4_four n : 0 <= n -> fourDigits n (zeros4 n).
Proof.
  intros H. exists (4 - length (natDigits n))%nat, (natDigits n). split; [now apply numeral_digits|]. split; [reflexivity|]. unfold zeros4. rewrite app_length, repeat_length. lia.
Qed.
Lemma record_listed detail terminals recs r : In r recs -> 0 <= rec_line (snd r) ->
  listed detail (fun n => hasKey n terminals) (nameWidth recs) r (recordText detail terminals (nameWidth recs) r).
Proof.
  intros I L. exists (zeros4 (rec_line (snd r))), (nameWidth recs - length (listedName (fun n => hasKey n terminals) r))%nat,
    (rs "    " ++ (if detail then indent (rs "    ") (outlineOf (rs "    ") (rec_rule (snd r))) ++ [10] else [])). split; [now apply zeros4_four|]. split; [|split].
  - pose proof (width_name recs r I). assert (length (listedName (fun n => hasKey n terminals) r) <= length (fst r) + 4)%nat; [|lia].
    unfold listedName. rewrite !app_length. destruct (b_virtual _), (hasKey _ _); cbn [length rs]; cbn; lia.
  - unfold recordText, padRight. unfold listedName. cbv zeta. rewrite <- !app_assoc. reflexivity.
  - destruct detail; [|apply app_nil_r]. eexists. split; [apply outline_below; cbn; intuition lia|]. apply app_assoc.
Qed.
Lemma listing detail terminals recs : NoDup (List.map lineOf recs) -> (forall r, In r recs -> 0 <= rec_line (snd r)) ->
  exists w l ts, Permutation l recs /\ inOrder l /\ Forall2 (listed detail (fun n => hasKey n terminals) w) l ts /\ rulesText detail terminals recs = concat ts.
Proof.
  intros D L. exists (nameWidth recs), (arranged recs), (List.map (recordText detail terminals (nameWidth recs)) (arranged recs)).
  split; [now apply arranged_perm|]. split; [now apply arranged_order|]. split; [|rewrite rulesText_arranged; apply flat_map_concat_map].
  assert (A : forall r, In r (arranged recs) -> In r recs) by (intros r; now apply arranged_in). induction (arranged recs) as [|r l IH]; cbn [List.map]; constructor.
  - apply record_listed; [|apply L]; apply A; now left.
  - apply IH. intros; apply A. now right.
Qed.
Lemma listing_any_order detail terminals recs recs' : NoDup (List.map lineOf recs) -> Permutation recs recs' -> rulesText detail terminals recs = rulesText detail terminals recs'.
Proof.
  intros D P. rewrite !rulesText_arranged, (width_perm _ _ P). f_equal. assert (D' : NoDup (List.map lineOf recs')) by (eapply Permutation_NoDup; [apply Permutation_map, P|exact D]).
  apply in_order_unique; [now apply arranged_order|now apply arranged_order|]. rewrite (arranged_perm recs D), (arranged_perm recs' D'). exact P.
Qed.

(* ---------------- lines and users in a grammar ---------------- *)

Definition ledger (g : grammar) : Prop :=
  g_usage g = flat_map (fun r => List.map (fun m => (m, fst r)) (refs (rec_rule (snd r)))) (g_records g).
Definition lined (g : grammar) : Prop :=
  0 <= g_maxLine g /\ (forall r, In r (g_records g) -> 0 < rec_line (snd r) <= g_maxLine g) /\ inOrder (g_records g).

Lemma in_order_snoc l r : inOrder l -> (forall x, In x l -> rec_line (snd x) < rec_line (snd r)) -> inOrder (l ++ [r]).
Proof.
  unfold inOrder. induction 1 as [|x l S0 IH F]; intros H; cbn [app]; [repeat constructor|]. constructor; [apply IH; intros; apply H; now right|].
  apply Forall_app. split; [exact F|]. constructor; [|constructor]. apply H. now left.
Qed.
Lemma lined_new : lined newGrammar.
Proof. repeat split; cbn; try lia; [contradiction..|constructor]. Qed.
Lemma lined_parse g name str : lined g -> lined (snd (parseRule g name str)).
Proof.
  intros (M & L & O). destruct (parseRule_cases g name str) as [[_ ->]|[(_ & _ & ->)|(V & N & [(us & P & ->)|[[E ->]|(r & l & us & E & ->)]])]]; cbn [snd]; [now split|now split|now split|now split|].
  split; [cbn; lia|]. cbn [g_records g_maxLine]. split.
  - intros x H. apply in_app_iff in H as [H|[<-|[]]]; [specialize (L x H); lia|cbn; lia].
  - apply in_order_snoc; [exact O|]. intros x H. specialize (L x H). cbn. lia.
Qed.
Lemma lined_add g def : lined g -> lined (snd (addRule g def)).
Proof. intros I. destruct (addRule_cases g def) as [[_ ->]|(a & b & _ & ->)]; [exact I|now apply lined_parse]. Qed.
Lemma lined_validate g : lined g -> lined (snd (validate g)).
Proof. intros I. unfold lined. destruct (validate_records g) as (-> & _ & ->). exact I. Qed.
Lemma lined_history calls : lined (history calls).
Proof.
  unfold history. assert (G : forall g, lined g -> lined (fold_left perform calls g)); [|apply G, lined_new].
  induction calls as [|c calls IH]; intros g I; cbn [fold_left]; [exact I|]. apply IH. destruct c; cbn [perform]; [now apply lined_add|now apply lined_parse|now apply lined_validate].
Qed.
Lemma lined_max g i : g_maxLine g <= i -> lined g -> lined (setMaxLine g i).
Proof. intros H (M & L & O). split; [cbn; lia|]. split; [|exact O]. cbn. intros r R. specialize (L r R). lia. Qed.
Lemma lined_lines ls : forall g i g', lined g -> g_maxLine g = i -> addLines g i ls = inl g' -> lined g'.
Proof.
  induction ls as [|ln ls IH]; intros g i g' I M E; cbn [addLines] in E; [now injection E as <-|].
  destruct (_ || _); [eapply IH; [| |exact E]; [apply lined_max; [lia|exact I]|reflexivity]|].
  destruct (splitEq (trim ln)) as [[a b]|]; [|discriminate]. destruct (parseRule g (trim a) (trim b)) as [[r|e] g1] eqn:P; [|discriminate].
  eapply IH; [| |exact E]; [|reflexivity]. pose proof (lined_parse g (trim a) (trim b) I) as X. rewrite P in X. apply lined_max; [|exact X]. apply parseRule_max in P. lia.
Qed.
Lemma lined_fromString txt g : newGrammarFromString txt = inl g -> lined g.
Proof.
  unfold newGrammarFromString. destruct (addLines newGrammar 0 (splitLines txt)) as [g0|] eqn:E; [|discriminate]. apply lined_lines in E; [|apply lined_new|reflexivity].
  pose proof (lined_validate g0 E) as V. destruct (validate g0) as [[e|] g1]; [discriminate|]. now intros [= <-].
Qed.

Lemma ledger_parse g name str r g' : clean str -> ledger g -> parseRule g name str = (inl r, g') -> ledger g'.
Proof.
  intros C X. destruct (parseRule_cases g name str) as [[_ ->]|[(_ & _ & ->)|(V & N & [(us & _ & ->)|[[E ->]|(r0 & l & us & E & ->)]])]]; try discriminate.
  intros [= <- <-]. apply parse_sound in E as (W & -> & _); [|now apply trim_clean]. unfold ledger in *. cbn [g_usage g_records]. rewrite flat_map_app, X. f_equal.
  cbn [flat_map fst snd rec_rule]. rewrite app_nil_r, setName_refs. reflexivity.
Qed.
Lemma ledger_validate g : ledger g -> ledger (snd (validate g)).
Proof. unfold ledger. destruct (validate_records g) as (-> & -> & _). auto. Qed.
Lemma ledger_history calls : decoded calls -> addsSucceed calls -> ledger (history calls).
Proof.
  induction calls as [|c calls IH] using rev_ind; intros D A; [reflexivity|]. apply decoded_snoc in D as [D DC]. apply adds_snoc in A as [A AC]. specialize (IH D A).
  rewrite history_snoc. destruct c as [def|name str|]; cbn [perform textOf] in *.
  - destruct (AC ltac:(discriminate)) as [r E]. destruct (addRule_cases (history calls) def) as [[_ X]|(a & b & S & X)]; rewrite X in *; [discriminate|].
    destruct (parseRule (history calls) (trim a) (trim b)) as [res g'] eqn:P. cbn [fst snd] in *. subst res. eapply ledger_parse; [|exact IH|exact P]. apply trim_clean. eapply split_clean; eauto.
  - destruct (AC ltac:(discriminate)) as [r E]. destruct (parseRule (history calls) name str) as [res g'] eqn:P. cbn [fst snd] in *. subst res. eapply ledger_parse; eauto.
  - now apply ledger_validate.
Qed.
Lemma ledger_lines ls : forall g i g', Forall clean ls -> ledger g -> addLines g i ls = inl g' -> ledger g'.
Proof.
  induction ls as [|ln ls IH]; intros g i g' F I E; cbn [addLines] in E; [now injection E as <-|]. inversion F as [|? ? F0 F']; subst.
  destruct (_ || _); [eapply IH; [exact F'| |exact E]; exact I|].
  destruct (splitEq (trim ln)) as [[a b]|] eqn:SE; [|discriminate]. destruct (parseRule g (trim a) (trim b)) as [[r|e] g1] eqn:P; [|discriminate].
  eapply IH; [exact F'| |exact E]. apply ledger_parse in P; [exact P| |exact I]. apply trim_clean. eapply split_clean; [exact SE|]. now apply trim_clean.
Qed.
Lemma terminals_lines ls : forall g i g', addLines g i ls = inl g' -> g_terminals g' = g_terminals g.
Proof.
  induction ls as [|ln ls IH]; intros g i g' E; cbn [addLines] in E; [now injection E as <-|]. destruct (_ || _); [now apply IH in E|].
  destruct (splitEq (trim ln)) as [[a b]|]; [|discriminate]. destruct (parseRule g (trim a) (trim b)) as [[r|e] g1] eqn:P; [|discriminate].
  apply IH in E. rewrite E. cbn. revert P. destruct (parseRule_cases g (trim a) (trim b)) as [[_ ->]|[(_ & _ & ->)|(V & N & [(us & _ & ->)|[[_ ->]|(r0 & l & us & _ & ->)]])]]; try discriminate. now intros [= _ <-].
Qed.

(* ---------------- terminals ---------------- *)

Lemma put_keys m k x n : In n (List.map fst (put_rec m k x)) <-> In n (List.map fst m) \/ n = k.
Proof.
  induction m as [|[j y] m IH]; cbn [put_rec List.map fst]; [cbn; intuition congruence|]. destruct (runes_eqb j k) eqn:E; cbn [List.map fst In].
  - apply runes_eqb_eq in E. subst. intuition congruence.
  - rewrite IH. intuition congruence.
Qed.
Lemma fold_put_keys l : forall m n, In n (List.map fst (fold_left (fun m kr => put_rec m (fst kr) (snd kr)) l m)) <-> In n (List.map fst m) \/ In n (List.map fst l).
Proof.
  induction l as [|[k x] l IH]; intros m n; cbn [fold_left fst snd List.map In]; [intuition|]. rewrite IH, put_keys. intuition congruence.
Qed.
Lemma users_refs g n : ginv g -> ledger g -> In n (List.map snd (g_usage g)) <-> exists r, getRule g n = Some r /\ refs r <> [].
Proof.
  intros I L. rewrite L. split.
  - intros H. apply in_map_iff in H as ([m u] & <- & H). apply in_flat_map in H as ([k rec] & R & H). apply in_map_iff in H as (x & [= -> ->] & H). cbn [snd fst] in *.
    exists (rec_rule rec). split; [apply getRule_in; [apply I|eauto]|]. intros Z0. now rewrite Z0 in H.
  - intros (r & G & N). apply getRule_in in G as (rec & R & <-); [|apply I]. destruct (refs (rec_rule rec)) as [|m x] eqn:Y; [congruence|].
    apply in_map_iff. exists (m, n). split; [reflexivity|]. apply in_flat_map. exists (n, rec). split; [exact R|]. cbn [snd fst]. rewrite Y. now left.
Qed.
Lemma terminals_step g g' : ginv g -> ledger g -> validate g = (None, g') -> forall n,
  hasKey n (g_terminals g') = true <-> hasKey n (g_terminals g) = true \/ exists r, getRule g n = Some r /\ refs r = [].
Proof.
  intros I L V n. rewrite !hasKey_iff. unfold validate in V. destruct (forallb _ _); [|discriminate]. injection V as <-. cbn [g_terminals]. rewrite fold_put_keys.
  apply or_iff_compat_l. assert (EX : forall m, existsb (runes_eqb m) (List.map snd (g_usage g)) = true <-> In m (List.map snd (g_usage g))).
  { intros m. rewrite existsb_exists. split; [intros (x & X & Y); apply runes_eqb_eq in Y; now subst|]. intros H. exists m. split; [exact H|now apply runes_eqb_eq]. }
  split.
  - intros H. apply in_map_iff in H as ([k rec] & <- & H). apply filter_In in H as [H T]. cbn [fst] in *. apply negb_true_iff in T. apply not_true_iff_false in T.
    rewrite EX, (users_refs g k I L) in T. assert (G : getRule g k = Some (rec_rule rec)) by (apply getRule_in; [apply I|eauto]). exists (rec_rule rec). split; [exact G|].
    destruct (refs (rec_rule rec)) eqn:Y; [reflexivity|]. exfalso. apply T. exists (rec_rule rec). split; [exact G|]. now rewrite Y.
  - intros (r & G & N). pose proof G as G0. apply getRule_in in G as (rec & R & Y); [|apply I]. apply in_map_iff. exists (n, rec). split; [reflexivity|]. apply filter_In. split; [exact R|].
    cbn [fst]. apply negb_true_iff, not_true_iff_false. rewrite EX, (users_refs g n I L). intros (r' & G' & N'). congruence.
Qed.
Lemma terminals_add g c : c <> Validate -> g_terminals (perform g c) = g_terminals g.
Proof.
  assert (P : forall name str, g_terminals (snd (parseRule g name str)) = g_terminals g).
  { intros name str. destruct (parseRule_cases g name str) as [[_ ->]|[(_ & _ & ->)|(V & N & [(us & P & ->)|[[E ->]|(r & l & us & E & ->)]])]]; reflexivity. }
  destruct c; cbn [perform]; [|intros _; apply P|congruence]. intros _. destruct (addRule_cases g def) as [[_ ->]|(a & b & E & ->)]; [reflexivity|apply P].
Qed.
Lemma terminals_history calls : decoded calls -> addsSucceed calls -> forall n,
  hasKey n (g_terminals (history calls)) = true <->
  exists before after r, calls = before ++ Validate :: after /\ succeeds (history before) Validate /\ getRule (history before) n = Some r /\ refs r = [].
Proof.
  induction calls as [|c calls IH] using rev_ind; intros D A n.
  - split; [intros; discriminate|]. intros (b & a & r & E & _). destruct b; discriminate.
  - apply decoded_snoc in D as [D DC]. apply adds_snoc in A as [A AC]. pose proof (ledger_history calls D A) as LG. pose proof (ginv_history calls D) as GI. specialize (IH D A n). rewrite history_snoc.
    assert (SN : (exists before after r, calls ++ [c] = before ++ Validate :: after /\ succeeds (history before) Validate /\ getRule (history before) n = Some r /\ refs r = []) <->
                 (exists before after r, calls = before ++ Validate :: after /\ succeeds (history before) Validate /\ getRule (history before) n = Some r /\ refs r = []) \/
                 (c = Validate /\ succeeds (history calls) Validate /\ exists r, getRule (history calls) n = Some r /\ refs r = [])).
    { split.
      - intros (b & a & r & E & S0 & G & N). destruct a as [|x a] using rev_ind.
        + apply app_inj_tail in E as [-> ->]. right. eauto.
        + clear IHa. left. rewrite app_comm_cons, app_assoc in E. apply app_inj_tail in E as [-> ->]. exists b, a, r. auto.
      - intros [(b & a & r & -> & S0 & G & N)|(-> & S0 & r & G & N)]; [exists b, (a ++ [c]), r; rewrite <- app_assoc; auto|exists calls, [], r; auto]. }
    rewrite SN, <- IH. clear SN IH. assert (DEC : c = Validate \/ c <> Validate) by (destruct c; [right; discriminate..|now left]).
    destruct DEC as [->|N]; [|rewrite (terminals_add _ _ N); intuition congruence]. cbn [perform succeeds]. destruct (validate (history calls)) as [[e|] g'] eqn:V; cbn [fst snd].
    + assert (g' = history calls) as -> by (unfold validate in V; destruct (forallb _ _); congruence). intuition discriminate.
    + rewrite (terminals_step _ _ GI LG V). intuition.
Qed.
Lemma fromString_ledger txt g : clean txt -> newGrammarFromString txt = inl g ->
  ledger g /\ forall n, hasKey n (g_terminals g) = true <-> exists r, getRule g n = Some r /\ refs r = [].
Proof.
  intros C. unfold newGrammarFromString. destruct (addLines newGrammar 0 (splitLines txt)) as [g0|] eqn:E; [|discriminate]. pose proof (terminals_lines _ _ _ _ E) as T0.
  assert (FL : Forall clean (splitLines txt)) by (apply Forall_forall; intros ln; now apply line_clean).
  pose proof (ledger_lines _ _ _ _ FL (eq_refl : ledger newGrammar) E) as L0.
  pose proof (addLines_ok _ _ _ _ FL ginv_new eq_refl ltac:(intros m n []) E) as (I0 & _). pose proof (ledger_validate g0 L0) as LV.
  destruct (validate g0) as [[e|] g1] eqn:V; [discriminate|]. intros [= <-]. split; [exact LV|]. intros n. rewrite (terminals_step _ _ I0 L0 V n), T0. cbn.
  assert (getRule g1 n = getRule g0 n) as -> by (unfold getRule, getRecord; now rewrite (proj1 (validate_state _ _ _ V))). intuition discriminate.
Qed.

(* ---------------- the reference map ---------------- *)

Lemma users_filter l m : List.map snd (List.filter (fun u => runes_eqb (fst u) m) (flat_map (fun r : list Z * rrec => List.map (fun k => (k, fst r)) (refs (rec_rule (snd r)))) l)) = usersIn l m.
Proof.
  unfold usersIn. induction l as [|r l IH]; [reflexivity|]. cbn [flat_map]. rewrite filter_app, map_app, IH. f_equal. unfold timesUsed. generalize (refs (rec_rule (snd r))). intros us.
  induction us as [|x us IHu]; [reflexivity|]. cbn [List.map List.filter fst count_occ]. destruct (list_eq_dec Z.eq_dec x m) as [->|N].
  - assert (runes_eqb m m = true) as -> by now apply runes_eqb_eq. cbn [List.map snd repeat]. now f_equal.
  - assert (runes_eqb x m = false) as -> by (apply not_true_iff_false; rewrite runes_eqb_eq; exact N). exact IHu.
Qed.
Lemma flat_filter {A} (p : A -> bool) (f : A -> list Z) l : flat_map (fun x => if p x then [] else f x) l = flat_map f (List.filter (fun x => negb (p x)) l).
Proof. induction l as [|x l IH]; [reflexivity|]. cbn [flat_map List.filter]. destruct (p x); cbn [negb]; [exact IH|]. cbn [flat_map]. now f_equal. Qed.
Lemma flat_filter2 {A} (p : A -> bool) (f : A -> list Z) l : flat_map (fun x => if p x then f x else []) l = flat_map f (List.filter p l).
Proof. induction l as [|x l IH]; [reflexivity|]. cbn [flat_map List.filter]. destruct (p x); [|exact IH]. cbn [flat_map]. now f_equal. Qed.
Lemma filter_split {A} (p : A -> bool) l : Permutation (List.filter (fun x => negb (p x)) l ++ List.filter p l) l.
Proof.
  induction l as [|x l IH]; [reflexivity|]. cbn [List.filter]. destruct (p x); cbn [negb]; [|cbn [app]; now constructor]. rewrite <- Permutation_middle. now constructor.
Qed.
Lemma flat_map_map' {A B C} (f : B -> list C) (h : A -> B) l : flat_map f (List.map h l) = flat_map (fun x => f (h x)) l.
Proof. induction l as [|x l IH]; [reflexivity|]. cbn [List.map flat_map]. now rewrite IH. Qed.

Lemma ledger_exact g : ledger g -> exactUsage g.
Proof.
  intros L m n H. rewrite L in H. apply in_flat_map in H as ([k rec] & R & H). apply in_map_iff in H as (x & [= -> ->] & H). cbn [snd fst] in *. eauto.
Qed.
Lemma listing_whole detail g recs recs2 : ginv g -> ledger g -> lined g -> Permutation recs (g_records g) -> Permutation recs2 (g_records g) ->
  isListing detail g (fun n => hasKey n (g_terminals g)) (serialize detail g recs recs2).
Proof.
  intros I L (M & LN & O) P P2.
  assert (DL : NoDup (List.map lineOf recs)) by (eapply Permutation_NoDup; [apply Permutation_map; symmetry; exact P|]; apply (gi_distinct _ I)).
  assert (AR : arranged recs = g_records g) by (apply in_order_unique; [now apply arranged_order|exact O|]; rewrite arranged_perm by exact DL; exact P).
  exists (nameWidth recs), (g_records g), (List.map fst (List.filter (fun r => negb (hasKey (fst r) (g_usage g))) recs2)),
    (List.map fst (List.filter (fun r => hasKey (fst r) (g_usage g)) recs2)),
    (List.map (fun n => rs "    " ++ padRight (nameWidth recs) n ++ rs ": " ++ flat_map (fun u => u ++ [44]) (usersOf g n) ++ [10]) (List.map fst (List.filter (fun r => hasKey (fst r) (g_usage g)) recs2))),
    (List.map (recordText detail (g_terminals g) (nameWidth recs)) (g_records g)).
  split; [reflexivity|]. split; [exact O|]. split.
  { rewrite <- map_app. apply Permutation_map. rewrite (filter_split (fun r : list Z * rrec => hasKey (fst r) (g_usage g))). exact P2. }
  split.
  { intros n. rewrite (topmost_iff g n I (ledger_exact g L)). split.
    - intros H. apply in_map_iff in H as ([k rec] & <- & H). apply filter_In in H as [H T]. cbn [fst] in *. exists rec. split; [eapply Permutation_in; [exact P2|exact H]|].
      rewrite <- hasKey_iff. apply negb_true_iff in T. rewrite T. discriminate.
    - intros (rec & R & N). apply in_map_iff. exists (n, rec). split; [reflexivity|]. apply filter_In. split; [eapply Permutation_in; [symmetry; exact P2|exact R]|]. cbn [fst].
      apply negb_true_iff, not_true_iff_false. now rewrite hasKey_iff. }
  split.
  { assert (A : forall r, In r (List.filter (fun r => hasKey (fst r) (g_usage g)) recs2) -> In r recs).
    { intros r H. apply filter_In in H as [H _]. eapply Permutation_in; [symmetry; exact P|]. eapply Permutation_in; [exact P2|exact H]. }
    induction (List.filter (fun r => hasKey (fst r) (g_usage g)) recs2) as [|r l IH]; cbn [List.map]; constructor; [|apply IH; intros; apply A; now right].
    exists (nameWidth recs - length (fst r))%nat. split; [pose proof (width_name recs r (A r (or_introl eq_refl))); lia|]. unfold padRight, usersOf. rewrite L, users_filter, <- app_assoc. reflexivity. }
  split.
  { assert (A : forall r, In r (g_records g) -> In r recs) by (intros r; apply Permutation_in; now symmetry).
    assert (A2 : forall r, In r (g_records g) -> 0 <= rec_line (snd r)) by (intros r H; specialize (LN r H); lia). revert A A2. generalize (g_records g). intros l A A2.
    induction l as [|r l IH]; cbn [List.map]; constructor; [apply record_listed; [apply A|apply A2]; now left|apply IH; intros; [apply A|apply A2]; now right]. }
  unfold serialize, relationText. rewrite rulesText_arranged, AR, flat_filter, flat_filter2, !flat_map_concat_map, !map_map, <- !app_assoc. reflexivity.
Qed.
Lemma serialize_any_rules detail g recs recs' recs2 : ginv g -> Permutation recs (g_records g) -> Permutation recs' (g_records g) -> serialize detail g recs recs2 = serialize detail g recs' recs2.
Proof.
  intros I P P'. assert (PP : Permutation recs recs') by (rewrite P; now symmetry). unfold serialize. rewrite (width_perm _ _ PP). do 4 f_equal. apply listing_any_order; [|exact PP].
  eapply Permutation_NoDup; [apply Permutation_map; symmetry; exact P|]. apply (gi_distinct _ I).
Qed.
Lemma fromString_listing detail txt g recs recs2 : runesOk txt -> newGrammarFromString txt = inl g ->
  Permutation recs (g_records g) -> Permutation recs2 (g_records g) ->
  exists marked, (forall n, marked n = true <-> exists r, getRule g n = Some r /\ refs r = []) /\ isListing detail g marked (serialize detail g recs recs2).
Proof.
  intros C E P P2. destruct (fromString_ledger txt g C E) as [L T]. destruct (fromString_inv txt g C E) as (ls & _ & A).
  exists (fun n => hasKey n (g_terminals g)). split; [exact T|]. apply listing_whole; auto; [apply A|now apply lined_fromString in E].
Qed.
Lemma history_listing detail calls recs recs2 : decoded calls -> addsSucceed calls ->
  Permutation recs (g_records (history calls)) -> Permutation recs2 (g_records (history calls)) ->
  exists marked,
    (forall n, marked n = true <-> exists before after r, calls = before ++ Validate :: after /\ succeeds (history before) Validate /\
      getRule (history before) n = Some r /\ refs r = []) /\
    isListing detail (history calls) marked (serialize detail (history calls) recs recs2).
Proof.
  intros D A P P2. exists (fun n => hasKey n (g_terminals (history calls))). split; [now apply terminals_history|].
  apply listing_whole; auto; [now apply ginv_history|now apply ledger_history|apply lined_history].
Qed.
Lemma history_rules detail calls recs : decoded calls -> Permutation recs (g_records (history calls)) ->
  exists marked w lines, inOrder (g_records (history calls)) /\ Forall2 (listed detail marked w) (g_records (history calls)) lines /\
    rulesText detail (g_terminals (history calls)) recs = concat lines.
Proof.
  intros D P. destruct (lined_history calls) as (M & LN & O).
  assert (DL : NoDup (List.map lineOf recs)) by (eapply Permutation_NoDup; [apply Permutation_map; symmetry; exact P|]; apply (gi_distinct _ (ginv_history calls D))).
  destruct (listing detail (g_terminals (history calls)) recs DL) as (w & l & ts & PL & OL & F & E).
  { intros r R. eapply Permutation_in in R; [|exact P]. specialize (LN r R). lia. }
  assert (l = g_records (history calls)) as -> by (apply in_order_unique; [exact OL|exact O|now rewrite PL]).
  exists (fun n => hasKey n (g_terminals (history calls))), w, ts. auto.
Qed.
