(** Grammars with bounded loops only: the fuel can be chosen before the text. *)
From Verif Require Import Base Stream StreamFacts CallFacts Node Rule SpecStream SpecRule EvalInv WfDec SpecTerm BlockFacts LoopFacts.

Definition noFuel {A} (o : outcome A) : Prop := o = OutOfFuel.

Section Rec.
Variables (rec : evalT).
Definition enough (r : rule) : Prop := forall s f, rec r s f <> OutOfFuel.

Lemma bind_fuel {A B} (m : outcome A) (k : A -> outcome B) : m <> OutOfFuel -> (forall a, k a <> OutOfFuel) -> bind m k <> OutOfFuel.
Proof. destruct m; cbn; auto; congruence. Qed.
Lemma slice_from_fuel {A} (l : list A) n : slice_from l n <> OutOfFuel.
Proof. unfold slice_from. now destruct (_ && _). Qed.
Lemma slice_to_fuel {A} (l : list A) n : slice_to l n <> OutOfFuel.
Proof. unfold slice_to. now destruct (_ && _). Qed.
Lemma account_fuel read unused res : account read unused res <> OutOfFuel.
Proof.
  unfold account. destruct (_ <? _)%nat.
  - apply bind_fuel; [apply slice_from_fuel|discriminate].
  - apply bind_fuel; [apply slice_to_fuel|]. intros u. apply bind_fuel; [apply slice_from_fuel|discriminate].
Qed.

Lemma concat_fuel b self d : forall rules, (forall x, In x rules -> enough x) -> forall s f read unused sticky kids pos,
  concatLoop rec b self d rules s f read unused sticky kids pos <> OutOfFuel.
Proof.
  induction rules as [|r rules IH]; intros H s f read unused sticky kids pos; cbn [concatLoop]; [discriminate|].
  apply bind_fuel; [apply H; now left|]. intros [res s2]. apply bind_fuel; [apply account_fuel|]. intros [rd un].
  destruct (r_node res); [apply IH; intros; apply H; now right|]. now destruct (descOk self).
Qed.
Lemma repDone_fuel b self mn idx err erridx read unused sticky kids pos (s : stream) :
  (let* res := repDone b self mn idx err erridx read unused sticky kids pos in Ok (res, s)) <> OutOfFuel.
Proof.
  apply bind_fuel; [|discriminate]. unfold repDone. destruct (_ <? _); [|discriminate]. destruct err; [discriminate|]. now destruct (descOk self).
Qed.
Lemma rep_fuel b self r mn mx d : enough r -> 0 < mx -> forall fuel s f read unused sticky kids pos,
  Z.of_nat (length kids) < mx -> mx - Z.of_nat (length kids) <= Z.of_nat fuel ->
  repLoop rec fuel b self r mn mx d s f read unused sticky kids pos <> OutOfFuel.
Proof.
  intros E P. induction fuel as [|fuel IH]; intros s f read unused sticky kids pos L1 L2; [lia|]. cbn [repLoop].
  destruct (peek _ =? _); [apply repDone_fuel|]. apply bind_fuel; [apply E|]. intros [res s2].
  apply bind_fuel; [apply account_fuel|]. intros [rd un]. destruct (r_node res); [|apply repDone_fuel].
  destruct ((mx >? 0) && (Z.of_nat (length (n :: kids)) =? mx)) eqn:F; [apply repDone_fuel|].
  apply andb_false_iff in F as [F|F]; [lia|]. apply Z.eqb_neq in F. cbn [length] in *. apply IH; cbn [length]; lia.
Qed.
Lemma alt_fuel d : forall rules, (forall x, In x rules -> enough x) -> forall s f maxRead sticky maxErr maxIdx matched,
  altLoop rec d rules s f maxRead sticky maxErr maxIdx matched <> OutOfFuel.
Proof.
  induction rules as [|r rules IH]; intros H s f maxRead sticky maxErr maxIdx matched; cbn [altLoop]; [discriminate|].
  apply bind_fuel; [apply H; now left|]. intros [res s1].
  assert (H' : forall x, In x rules -> enough x) by (intros; apply H; now right).
  destruct (r_node res); [now apply IH|]. destruct (_ >? _); now apply IH.
Qed.
Lemma choice_fuel b self d : forall groups, (forall grp x, In grp groups -> In x grp -> enough x) -> forall s f maxRead sticky maxErr maxIdx,
  choiceLoop rec b self d groups s f maxRead sticky maxErr maxIdx <> OutOfFuel.
Proof.
  induction groups as [|grp groups IH]; intros H s f maxRead sticky maxErr maxIdx; cbn [choiceLoop]; [now destruct (descOk self)|].
  apply bind_fuel; [apply alt_fuel; intros; apply (H grp); [now left|assumption]|].
  intros [[[[[matched mr] st] me] mi] s']. destruct (select matched) as [[found|]|]; [|apply IH; intros; eapply H; eauto; now right|discriminate].
  destruct (r_node found); [|discriminate]. apply bind_fuel; [apply slice_from_fuel|discriminate].
Qed.
End Rec.

Section Bounded.
Variables (ranks : list (list Z * nat)) (g : rules_t).
Hypothesis HB : forall n r, lookup g n = Some r -> bounded ranks (rankIn ranks n) r = true.

Definition uniform (r : rule) : Prop := exists N, forall fuel, (N <= fuel)%nat -> enough (eval fuel g) r.

Lemma uniform_list l : (forall x, In x l -> uniform x) -> exists N, forall fuel, (N <= fuel)%nat -> forall x, In x l -> enough (eval fuel g) x.
Proof.
  induction l as [|y l IH]; intros H; [exists O; intros ? ? ? []|]. destruct (H y (or_introl eq_refl)) as [N1 H1].
  destruct IH as [N2 H2]; [intros; apply H; now right|]. exists (Nat.max N1 N2). intros fuel L x [<-|Hx]; [apply H1; lia|apply H2; auto; lia].
Qed.
Lemma uniform_lists l : (forall gr x, In gr l -> In x gr -> uniform x) ->
  exists N, forall fuel, (N <= fuel)%nat -> forall gr x, In gr l -> In x gr -> enough (eval fuel g) x.
Proof.
  induction l as [|y l IH]; intros H; [exists O; intros ? ? ? ? []|].
  destruct (uniform_list y) as [N1 H1]; [intros; eapply H; eauto; now left|].
  destruct IH as [N2 H2]; [intros; eapply H; eauto; now right|]. exists (Nat.max N1 N2).
  intros fuel L gr x [<-|Hg] Hx; [apply H1; auto; lia|eapply H2; eauto; lia].
Qed.

Theorem bounded_uniform : forall k r, bounded ranks k r = true -> uniform r.
Proof.
  induction k as [k IHk] using (well_founded_induction lt_wf). intros r.
  remember (rsize r) as sz eqn:E. assert (L : (rsize r <= sz)%nat) by lia. clear E. revert r L.
  induction sz as [|sz IH]; intros r L B; [destruct r; cbn in L; lia|].
  destruct r as [b c u|b l|b l|b lo lu hi hu|b|b nm|b x|b x|b x mn mx|b gs|b l|b op v cl e xs]; cbn [rsize bounded] in *.
  1-5: exists 1%nat; intros [|fuel] LF s f; [lia|]; cbn [eval evalStep]; discriminate.
  - apply Nat.ltb_lt in B. destruct (lookup g nm) as [r|] eqn:EL.
    + destruct (IHk _ B r (HB _ _ EL)) as [N H]. exists (S N). intros [|fuel] LF s f; [lia|]. cbn [eval evalStep]. rewrite EL.
      apply bind_fuel; [apply H; lia|]. intros [res s']. discriminate.
    + exists 1%nat. intros [|fuel] LF s f; [lia|]. cbn [eval evalStep]. rewrite EL. discriminate.
  - destruct (IH x ltac:(lia) B) as [N H]. exists (S N). intros [|fuel] LF s f; [lia|]. cbn [eval evalStep].
    apply bind_fuel; [apply H; lia|]. intros [res s']. destruct (r_node res); discriminate.
  - destruct (IH x ltac:(lia) B) as [N H]. exists (S N). intros [|fuel] LF s f; [lia|]. cbn [eval evalStep].
    apply bind_fuel; [apply H; lia|]. intros [res s']. destruct (r_node res); discriminate.
  - apply andb_true_iff in B as [B1 B2]. destruct (IH x ltac:(lia) B1) as [N H]. exists (S (Nat.max N (Z.to_nat mx))).
    intros [|fuel] LF s f; [lia|]. cbn [eval evalStep]. apply rep_fuel; cbn [length]; try lia. apply H. lia.
  - rewrite forallb_forall in B. destruct (uniform_lists gs) as [N H].
    { intros gr x Hg Hx. apply IH; [|specialize (B gr Hg); rewrite forallb_forall in B; auto].
      pose proof (list_sum_in rsize gr x Hx). pose proof (list_sum_in (fun g => list_sum (List.map rsize g)) gs gr Hg). cbn beta in *. lia. }
    exists (S N). intros [|fuel] LF s f; [lia|]. cbn [eval evalStep]. apply choice_fuel. apply H. lia.
  - rewrite forallb_forall in B. destruct (uniform_list l) as [N H].
    { intros x Hx. apply IH; auto. pose proof (list_sum_in rsize l x Hx). lia. }
    exists (S N). intros [|fuel] LF s f; [lia|]. cbn [eval evalStep]. apply concat_fuel. apply H. lia.
  - discriminate.
Qed.
End Bounded.

Theorem bounded_ends ranks g n r : wfRules g -> allBounded ranks g = true -> lookup g n = Some r ->
  exists fuel, forall s f, runesOk (rest s) -> exists res s', eval fuel g r s f = Ok (res, s').
Proof.
  intros W A EL.
  assert (HB : forall n r, lookup g n = Some r -> bounded ranks (rankIn ranks n) r = true).
  { intros m x Hx. destruct (lookup_In _ _ _ Hx) as (m' & I & ->). unfold allBounded in A. rewrite forallb_forall in A. exact (A _ I). }
  destruct (bounded_uniform ranks g HB _ _ (HB _ _ EL)) as [N H]. exists N. intros s f C. specialize (H N (le_n _) s f).
  pose proof (eval_ok g N W r s f (W _ _ EL) C) as G. unfold good in G. destruct (eval N g r s f) as [[res s']| |]; [eauto|tauto|congruence].
Qed.
