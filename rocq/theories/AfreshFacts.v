(** C93: proofs about SpecAfresh.v. *)
From Verif Require Import Base Stream StreamFacts CallFacts Node Rule Grammar SpecStream SpecRule TermFacts EvalInv EvalFuel RuleFacts SpecEval SemFacts SpecEv EvalSem TextFacts SpecTerm SpecDriver DriverFacts SpecAfresh.

Section Afresh.
Variables (fuel : nat) (g : rules_t) (r : rule) (t : list Z).
Hypothesis W : wfRules g.
Hypothesis WR : wfRule r.
Hypothesis C : runesOk t.
Hypothesis CA : forall p, sem fuel g r NOT_SKIP (skipn p t) <> SUnsafe.

Definition within (s : stream) : Prop := exists p, rest s = skipn p t.
Lemma within_ok s : within s -> runesOk (rest s).
Proof. intros (p & ->). now apply clean_skipn. Qed.
Lemma within_step s res s1 : within s -> eval fuel g r s NOT_SKIP = Ok (res, s1) -> within (prepend s1 (r_unused res)).
Proof.
  intros I E. destruct I as (p & P). pose proof (CA p) as U. rewrite <- P in U.
  destruct (read_exact g fuel r NOT_SKIP s res s1 W WR (within_ok s (ex_intro _ p P)) E U) as (A & (used & B) & _).
  exists (p + length used)%nat. rewrite prepend_rest, <- skipn_skipn', <- P, A, B, <- app_assoc.
  rewrite skipn_app, skipn_all, Nat.sub_diag. reflexivity.
Qed.
Lemma within_next s c s1 : within s -> next s = (c, s1) -> (c =? EOFChar) = false -> within s1.
Proof.
  intros (p & P) E N. destruct (rest s) as [|d l] eqn:R.
  - rewrite (next_rest_nil _ R) in E. injection E as <- <-. discriminate.
  - destruct (moves_next _ _ _ R) as (s3 & EX & _ & M). rewrite EX in E. injection E as <- <-. exists (p + 1)%nat. rewrite <- skipn_skipn', <- P. exact M.
Qed.
Lemma next_same s s' c s1 : rest s = rest s' -> next s = (c, s1) -> exists s2, next s' = (c, s2) /\ rest s1 = rest s2.
Proof.
  intros R E. destruct (rest s) as [|d l] eqn:X.
  - rewrite (next_rest_nil _ X) in E. injection E as <- <-. exists s'. rewrite (next_rest_nil _ (eq_sym R)). split; [reflexivity|]. now rewrite X.
  - destruct (moves_next _ _ _ X) as (s3 & EX & _ & M). rewrite EX in E. injection E as <- <-.
    destruct (moves_next _ _ _ (eq_sym R)) as (s4 & EX' & _ & M'). exists s4. split; [exact EX'|]. congruence.
Qed.

(** The loop on two streams with the same text. *)
Lemma loop_same lf : forall s s' txt kids kids' out, within s -> rest s = rest s' -> embedLoop lf fuel g r s txt kids = Ok out ->
  exists tl tl', out = rev kids ++ tl /\ embedLoop lf fuel g r s' txt kids' = Ok (rev kids' ++ tl') /\ List.map erase tl' = List.map erase tl.
Proof.
  induction lf as [|lf IH]; intros s s' txt kids kids' out I R H; cbn [embedLoop] in *; [discriminate|].
  pose proof (eval_text_only g fuel r NOT_SKIP s s' W WR (within_ok _ I) R) as T.
  destruct (eval fuel g r s NOT_SKIP) as [[a s1]| |] eqn:E; cbn [bind] in H; [|discriminate..].
  destruct (eval fuel g r s' NOT_SKIP) as [[b s2]| |] eqn:E'; [|destruct T..]. cbn [bind].
  destruct T as (TN & _ & TU & _ & TR & _). pose proof (within_step _ _ _ I E) as I2.
  assert (R2 : rest (prepend s1 (r_unused a)) = rest (prepend s2 (r_unused b))) by (rewrite !prepend_rest; congruence).
  destruct (r_node a) as [n|] eqn:NA; destruct (r_node b) as [m|] eqn:NB; cbn [option_map] in TN; try discriminate.
  - injection TN as TN. destruct (IH _ _ [] _ (m :: if nonempty txt then textNode txt :: kids' else kids') _ I2 R2 H) as (tl & tl' & O1 & O2 & O3).
    destruct (nonempty txt); cbn [rev] in O1, O2.
    + exists (textNode txt :: n :: tl), (textNode txt :: m :: tl'). rewrite O2, O1, <- !app_assoc. cbn [List.map app]. rewrite TN, O3. repeat split.
    + exists (n :: tl), (m :: tl'). rewrite O2, O1, <- !app_assoc. cbn [List.map app]. rewrite TN, O3. repeat split.
  - destruct (next (prepend s1 (r_unused a))) as [c s3] eqn:X. destruct (next_same _ _ _ _ R2 X) as (s4 & X' & R4). rewrite X'.
    destruct (c =? EOFChar) eqn:Q.
    + injection H as <-. destruct (nonempty txt); cbn [rev]; [exists [textNode txt], [textNode txt]|exists [], []; rewrite !app_nil_r]; repeat split.
    + exact (IH _ _ _ _ kids' _ (within_next _ _ _ I2 X Q) R4 H).
Qed.
Lemma loop_more lf : forall lf' s txt kids out, (lf <= lf')%nat -> embedLoop lf fuel g r s txt kids = Ok out -> embedLoop lf' fuel g r s txt kids = Ok out.
Proof.
  induction lf as [|lf IH]; intros lf' s txt kids out L H; cbn [embedLoop] in H; [discriminate|]. destruct lf' as [|lf']; [lia|]. cbn [embedLoop].
  destruct (eval fuel g r s NOT_SKIP) as [[a s1]| |]; cbn [bind] in *; [|discriminate..].
  destruct (r_node a); [apply IH; [lia|exact H]|]. destruct (next _) as [c s3]. destruct (c =? EOFChar); [exact H|apply IH; [lia|exact H]].
Qed.
(** A match, and where it ends. *)
Definition matchAt (n : node) (p : nat) : Prop := exists q u k st, (q + u <= length t)%nat /\ p = (q + u)%nat /\ Ev g r NOT_SKIP (skipn q t) (OMatch (erase n) u k st).
Lemma match_step s res s1 n : within s -> eval fuel g r s NOT_SKIP = Ok (res, s1) -> r_node res = Some n ->
  exists p, matchAt n p /\ rest (prepend s1 (r_unused res)) = skipn p t.
Proof.
  intros I E N. destruct I as (p0 & P0).
  assert (P1 : exists p, (p <= length t)%nat /\ rest s = skipn p t).
  { destruct (le_lt_dec p0 (length t)) as [L|L]; [now exists p0|]. exists (length t). split; [lia|]. rewrite P0, !skipn_all2 by lia. reflexivity. }
  destruct P1 as (p & LP & P). pose proof (CA p) as U. rewrite <- P in U.
  destruct (refine_sound g fuel r NOT_SKIP s res s1 W WR (within_ok s (ex_intro _ p P)) E U) as (o & EV & SH & RS).
  destruct o as [m u k st|k st]; cbn [shows looked] in *; [|destruct SH as (_ & _ & _ & SH); congruence].
  destruct SH as (LU & _ & UN & _ & nd & EN & <-). rewrite N in EN. injection EN as <-. rewrite P in EV. rewrite P, skipn_length in LU.
  exists (p + u)%nat. split; [exists p, u, k, st; repeat split; [lia|exact EV]|].
  rewrite prepend_rest, UN, RS, P, skipn_firstn', !skipn_skipn'. replace (p + k)%nat with (p + u + (k - u))%nat by lia. rewrite <- (skipn_skipn' (k - u) (p + u) t). apply firstn_skipn.
Qed.
(** Behind a match. *)
Lemma loop_behind lf : forall s txt kids k1 x k2, within s -> embedLoop lf fuel g r s txt kids = Ok (rev kids ++ k1 ++ x :: k2) -> isText x = false ->
  exists s2 lf2 kids2, (exists p, matchAt x p /\ rest s2 = skipn p t) /\ (lf2 <= lf)%nat /\ embedLoop lf2 fuel g r s2 [] kids2 = Ok (rev kids2 ++ k2).
Proof.
  induction lf as [|lf IH]; intros s txt kids k1 x k2 I H NT; cbn [embedLoop] in H; [discriminate|].
  destruct (eval fuel g r s NOT_SKIP) as [[a s1]| |] eqn:E; cbn [bind] in H; [|discriminate..]. pose proof (within_step _ _ _ I E) as I2.
  destruct (r_node a) as [n|] eqn:NA.
  - destruct (loop_same _ _ (prepend s1 (r_unused a)) _ _ [] _ I2 eq_refl H) as (tl & _ & O & _). set (s2 := prepend s1 (r_unused a)) in *.
    assert (K : forall k1', tl = k1' ++ x :: k2 -> exists s2 lf2 kids2, (exists p, matchAt x p /\ rest s2 = skipn p t) /\ (lf2 <= S lf)%nat /\ embedLoop lf2 fuel g r s2 [] kids2 = Ok (rev kids2 ++ k2)).
    { intros k1' ->. rewrite O in H. destruct (IH _ _ _ _ _ _ I2 H NT) as (a1 & a2 & a3 & A & B & D). exists a1, a2, a3. split; [exact A|]. split; [lia|exact D]. }
    assert (K0 : x = n -> tl = k2 -> exists s2 lf2 kids2, (exists p, matchAt x p /\ rest s2 = skipn p t) /\ (lf2 <= S lf)%nat /\ embedLoop lf2 fuel g r s2 [] kids2 = Ok (rev kids2 ++ k2)).
    { intros -> ->. rewrite O in H. eexists s2, lf, _. split; [exact (match_step _ _ _ _ I E NA)|]. split; [lia|exact H]. }
    destruct (nonempty txt); cbn [rev] in O; rewrite <- !app_assoc in O; apply app_inv_head in O; cbn [app] in O.
    + destruct k1 as [|y k1]; cbn [app] in O; injection O as V O; [subst x; discriminate|]. destruct k1 as [|z k1]; cbn [app] in O; injection O as V' O; [apply K0; congruence|apply (K k1); congruence].
    + destruct k1 as [|z k1]; cbn [app] in O; injection O as V' O; [apply K0; congruence|apply (K k1); congruence].
  - destruct (next (prepend s1 (r_unused a))) as [c s3] eqn:X. destruct (c =? EOFChar) eqn:Q.
    + injection H as H. exfalso. destruct (nonempty txt); cbn [rev] in H.
      * apply app_inv_head in H. destruct k1 as [|y [|]]; cbn [app] in H; try discriminate. injection H as V. subst x. discriminate.
      * rewrite <- (app_nil_r (rev kids)) in H at 1. apply app_inv_head in H. now destruct k1.
    + destruct (IH _ _ _ _ _ _ (within_next _ _ _ I2 X Q) H NT) as (a1 & a2 & a3 & A & B & D). exists a1, a2, a3. split; [exact A|]. split; [lia|exact D].
Qed.
End Afresh.

Theorem embed_afresh lf fuel g name sample r n : wfRules (rules_of g) -> runesOk sample -> lookup (rules_of g) name = Some r ->
  (forall p, careful (rules_of g) r NOT_SKIP (skipn p sample)) -> evalEmbed lf fuel g name sample = Some (Ok n) -> afresh lf fuel g name sample (n_kids n).
Proof.
  intros W R L CA E k1 x k2 K NT. unfold evalEmbed in *. rewrite getRule_rules, L in *. injection E as E.
  destruct (embedLoop lf fuel (rules_of g) r (newStream sample) [] []) as [kids| |] eqn:X; cbn [bind] in E; [|discriminate..]. injection E as <-. cbn [n_kids] in K. subst kids.
  pose proof (fun p => CA p fuel) as CF. assert (I : within sample (newStream sample)) by (exists O; reflexivity).
  destruct (loop_behind fuel _ r sample W (W _ _ L) R CF lf _ _ [] _ _ _ I X NT) as (s2 & lf2 & kids2 & (p & M & P) & LE & H).
  destruct (loop_same fuel _ r sample W (W _ _ L) R CF lf2 s2 (newStream (skipn p sample)) _ _ [] _ (ex_intro _ p P) P H) as (tl & tl' & O1 & O2 & O3).
  apply app_inv_head in O1. subst tl. cbn [rev app] in O2. apply (loop_more _ _ _ _ lf) in O2; [|exact LE].
  destruct M as (q & u & k & st & B & -> & EV). exists r, q, u, k, st. eexists. split; [reflexivity|]. split; [exact B|]. split; [exact EV|]. rewrite O2. split; [reflexivity|exact O3].
Qed.
