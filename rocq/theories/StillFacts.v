(** C95: simplifying what has been simplified. *)
From Verif Require Import Base Stream Node Rule SpecStream SpecRule Grammar SpecNode NodeFacts NodeLean NodeExact EraseFacts SpecDriver DriverFacts CliFacts SpecStill.

Section Keep.
Variable Q : node -> Prop.
Hypothesis Qkids : forall n ks, Q n -> Q (set_kids n ks).
Hypothesis Qchars : forall n cs, Q n -> Q (set_chars n cs).
Notation deepQ := (deep Q).
Lemma kids_deep n ks : Q n -> Forall deepQ ks -> deepQ (set_kids n ks).
Proof. intros A B. apply deep_intro; [now apply Qkids|]. now rewrite kids_set. Qed.
Lemma promote1_deep n : deepQ n -> deepQ (promote1 n).
Proof.
  intros D. unfold promote1. pose proof (deep_kids _ _ D) as [N F]. destruct (n_kids n) as [|c [|]]; try exact D. inversion F as [|? ? C _]; subst.
  destruct (nonempty (n_name c)); [exact D|]. destruct (nonempty (n_chars c)); apply kids_deep; auto. now apply (deep_kids Q c).
Qed.
Lemma promote2_deep n : deepQ n -> deepQ (promote2 n).
Proof.
  intros D. unfold promote2. pose proof (deep_kids _ _ D) as [N F]. destruct (n_kids n) as [|c [|]]; try exact D. destruct (_ && _); [|exact D]. apply kids_deep; auto.
Qed.
Lemma splice_deep l : Forall deepQ l -> Forall deepQ (splice l).
Proof.
  induction 1 as [|c l C F IH]; [constructor|]. unfold splice. cbn [flat_map]. apply Forall_app. split; [|exact IH].
  destruct (_ && _); [constructor|]. destruct (_ && _); [now apply (deep_kids Q c)|now constructor].
Qed.
Lemma redundant_deep n : deepQ n -> deepQ (removeRedundant n).
Proof.
  induction n as [n IH] using node_ind'. intros D. rewrite removeRedundant_eq. pose proof (deep_kids _ _ D) as [N F]. destruct (n_kids n) as [|k ks] eqn:E; [exact D|]. cbv zeta.
  apply promote2_deep. assert (P : deepQ (promote1 (set_kids n (List.map removeRedundant (k :: ks))))).
  { apply promote1_deep, kids_deep; [exact N|]. apply Forall_map. rewrite Forall_forall in *. auto. }
  pose proof (deep_kids _ _ P) as [PN PF]. apply kids_deep; [exact PN|now apply splice_deep].
Qed.
Lemma astRedundant_deep a : Forall deepQ a -> Forall deepQ (astRemoveRedundant a).
Proof. intros F. apply Forall_map. eapply Forall_impl; [|exact F]. intros c C. destruct (n_nondata c); [exact C|now apply redundant_deep]. Qed.
End Keep.

(** Nothing to merge and nothing to drop. *)
Definition settled (level : Z) (n : node) : Prop := n_sticky n = false /\ dropsAt level n = false.
Lemma drops_stable level n : dropsAt level (prune (dropsAt level) n) = dropsAt level n.
Proof. unfold dropsAt. destruct (level =? 2), (level =? 1); now destruct n. Qed.
Lemma drops_kids level n ks : dropsAt level (set_kids n ks) = dropsAt level n.
Proof. now destruct n. Qed.
Lemma drops_chars level n cs : dropsAt level (set_chars n cs) = dropsAt level n.
Proof. now destruct n. Qed.
Lemma settled_kids level n ks : settled level n -> settled level (set_kids n ks).
Proof. intros [A B]. split; [now destruct n|now rewrite drops_kids]. Qed.
Lemma settled_chars level n cs : settled level n -> settled level (set_chars n cs).
Proof. intros [A B]. split; [now destruct n|now rewrite drops_chars]. Qed.
Lemma simplify_prune level a : level <> -1 -> simplify level a = astRemoveRedundant (pruneAll (dropsAt level) (astMerge a)).
Proof.
  intros N. unfold simplify. destruct (level =? -1) eqn:E; [apply Z.eqb_eq in E; contradiction|]. f_equal. apply (dropsAt_eq level). congruence.
Qed.
Lemma simplify_settled level a : level <> -1 -> Forall (deep (settled level)) (simplify level a).
Proof.
  intros N. rewrite simplify_prune by exact N. apply astRedundant_deep; [apply settled_kids|apply settled_chars|].
  apply all_deep. intros m M. split; [|exact (pruneAll_none (dropsAt level) (drops_stable level) _ _ M)].
  revert m M. apply (all_deep isLoose). apply (pruneAll_keeps isLoose (fun n ks H => H) (dropsAt level)). apply all_deep. exact (astMerge_loose a).
Qed.
Lemma pruneAll_fix p a : (forall m, inside m a -> p m = false) -> pruneAll p a = a.
Proof.
  unfold pruneAll. induction a as [|c a IH]; intros H; [reflexivity|]. cbn [flat_map]. rewrite (H c) by (exists c; split; [now left|constructor]).
  rewrite prune_fix; [cbn [app]; f_equal; apply IH; intros m (n & N & S); apply H; exists n; split; [now right|exact S]|].
  intros m (k & K & S). apply H. exists c. split; [now left|]. econstructor; eauto.
Qed.
Lemma drops_less level' level n : noMore level' level -> level' <> -1 -> dropsAt level n = false -> dropsAt level' n = false.
Proof.
  intros [->|[_ [->|[->|[A B]]]]] N; [contradiction|auto| |].
  - unfold dropsAt. change (2 =? 2) with true. cbv iota. intros E. apply Bool.orb_false_iff in E as [E1 E2]. rewrite E1, E2. now destruct (level' =? 2), (level' =? 1).
  - intros _. unfold dropsAt. apply Z.eqb_neq in A, B. now rewrite A, B.
Qed.
Theorem simplify_still level' level a : noMore level' level -> simplify level' (simplify level a) = simplify level a.
Proof.
  intros L. destruct (Z.eq_dec level' (-1)) as [->|N]; [reflexivity|]. assert (N' : level <> -1) by (destruct L as [L|[L _]]; [contradiction|exact L]).
  pose proof (proj2 (all_deep (settled level) _) (simplify_settled level a N')) as F. rewrite (simplify_prune level') by exact N.
  rewrite loose_merge by (intros m M; apply F; exact M). rewrite pruneAll_fix by (intros m M; apply (drops_less level' level); [exact L|exact N|apply F; exact M]).
  rewrite (simplify_prune level) by exact N'. apply astRedundant_idem.
Qed.
Theorem eval_still lf fuel g o s level level' out s' : noMore level' level -> evalTop lf fuel g o s level = Ok (RawOk out, s') -> simplify level' out = out.
Proof.
  intros L. unfold evalTop. destruct (evalRaw lf fuel g o s) as [[r s1]| |]; cbn [bind]; [|discriminate..]. destruct r; intros [= <- _]. now apply simplify_still.
Qed.
Theorem simplify_inside level a m : level <> -1 -> inside m (simplify level a) -> n_sticky m = false /\ dropsAt level m = false.
Proof. intros N. exact (proj2 (all_deep (settled level) _) (simplify_settled level a N) m). Qed.
