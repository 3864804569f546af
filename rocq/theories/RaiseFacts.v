(** C96: raising the level of simplification afterwards. *)
From Verif Require Import Base Stream Node Rule SpecStream SpecRule Grammar SpecNode NodeFacts NodeText NodeLean NodeExact EraseFacts SpecDriver DriverFacts CliFacts SpecStill StillFacts.


Section Raise.
Variable d : node -> bool.
Hypothesis Dkids : forall n ks, d (set_kids n ks) = d n.
Hypothesis Dchars : forall n cs, d (set_chars n cs) = d n.
(** Only named nodes are selected. *)
Definition tagged (m : node) : Prop := d m = true -> n_name m <> [].
Lemma tagged_kids n ks : tagged n -> tagged (set_kids n ks).
Proof. unfold tagged. rewrite Dkids. now destruct n. Qed.
Lemma tagged_chars n cs : tagged n -> tagged (set_chars n cs).
Proof. unfold tagged. rewrite Dchars. now destruct n. Qed.
Lemma plain_kept c : tagged c -> nonempty (n_name c) = false -> d c = false.
Proof. intros T E. destruct (d c) eqn:D; [|reflexivity]. apply nonempty_false in E. now destruct (T D). Qed.
Lemma redundant_mark n : d (removeRedundant n) = d n.
Proof.
  assert (M1 : forall m, d (promote1 m) = d m) by (intros m; unfold promote1; destruct (n_kids m) as [|c [|]]; [reflexivity| |reflexivity]; destruct (nonempty (n_name c)); [reflexivity|]; destruct (nonempty (n_chars c)); rewrite Dkids, ?Dchars; reflexivity).
  assert (M2 : forall m, d (promote2 m) = d m) by (intros m; unfold promote2; destruct (n_kids m) as [|c [|]]; [reflexivity| |reflexivity]; destruct (_ && _); [rewrite Dkids, Dchars|]; reflexivity).
  rewrite removeRedundant_eq. destruct (n_kids n); [reflexivity|]. cbv zeta. now rewrite M2, Dkids, M1, Dkids.
Qed.
End Raise.

Lemma simplify_fine level a : Forall proper a -> Forall proper (simplify level a).
Proof.
  intros P. destruct (Z.eq_dec level (-1)) as [->|N]; [exact P|]. rewrite simplify_prune by exact N. apply Forall_map. eapply Forall_impl; [|apply pruneAll_proper, astMerge_proper; exact P].
  intros c C. cbn beta. destruct (n_nondata c); [exact C|now apply removeRedundant_step].
Qed.
