(** Positions play no part in the simplification: it commutes with [erase]. *)
From Verif Require Import Base Stream Node SpecRule SpecEval NodeFacts.

Lemma erase_text n : text (erase n) = text n.
Proof.
  induction n as [n IH] using node_ind'. destruct n as [ty nm ch ks po st vi nd tk]. cbn [n_kids] in IH. cbn [erase text n_chars n_type n_kids].
  destruct ch; [|reflexivity]. f_equal. rewrite map_map. induction IH as [|k ks H F IHf]; [reflexivity|]. cbn [List.map]. rewrite H. f_equal; [now destruct k|]. exact IHf.
Qed.
Lemma erase_sticky n : n_sticky (erase n) = n_sticky n.
Proof. now destruct n. Qed.
Lemma erase_virtual n : n_virtual (erase n) = n_virtual n.
Proof. now destruct n. Qed.
Lemma erase_nondata n : n_nondata (erase n) = n_nondata n.
Proof. now destruct n. Qed.
Lemma erase_name n : n_name (erase n) = n_name n.
Proof. now destruct n. Qed.
Lemma erase_chars n : n_chars (erase n) = n_chars n.
Proof. now destruct n. Qed.
Lemma erase_kids n : n_kids (erase n) = List.map erase (n_kids n).
Proof. now destruct n. Qed.
Lemma erase_type n : n_type (erase n) = n_type n.
Proof. now destruct n. Qed.
Lemma erase_set_kids n l : erase (set_kids n l) = set_kids (erase n) (List.map erase l).
Proof. now destruct n. Qed.
Lemma erase_set_chars n l : erase (set_chars n l) = set_chars (erase n) l.
Proof. now destruct n. Qed.
Lemma erase_set_sticky n l : erase (set_sticky n l) = set_sticky (erase n) l.
Proof. now destruct n. Qed.

Lemma erase_mergeFold l : Forall (fun c => mergeNode (erase c) = erase (mergeNode c)) l -> forall prev,
  mergeFold (option_map erase prev) (List.map withMerge (List.map erase l)) = List.map erase (mergeFold prev (List.map withMerge l)).
Proof.
  induction 1 as [|c l H F IH]; intros prev; cbn [List.map mergeFold withMerge].
  - destruct prev as [p|]; cbn [option_map List.map]; [|reflexivity]. now rewrite erase_set_sticky.
  - unfold withMerge at 1 3. cbn [mergeFold]. rewrite erase_sticky, erase_text. destruct (n_sticky c).
    + destruct prev as [p|]; cbn [option_map].
      * rewrite <- IH. cbn [option_map]. now rewrite erase_set_chars, erase_chars.
      * rewrite <- IH. cbn [option_map]. now rewrite erase_set_kids, erase_set_chars.
    + rewrite map_app. cbn [List.map]. rewrite <- IH, H. cbn [option_map]. destruct prev as [p|]; cbn [option_map List.map app]; [|reflexivity]. now rewrite erase_set_sticky.
Qed.
Lemma erase_mergeNode n : mergeNode (erase n) = erase (mergeNode n).
Proof.
  induction n as [n IH] using node_ind'. rewrite !mergeNode_eq, erase_kids, erase_type. destruct (n_kids n) as [|k ks] eqn:EK; [reflexivity|].
  cbn [List.map]. destruct (rtype_eqb (n_type n) TBlock).
  - rewrite erase_set_sticky, erase_set_kids. f_equal. f_equal. clear EK.
    change (List.map (fun c => set_sticky (mergeNode c) false) (List.map erase (k :: ks)) = List.map erase (List.map (fun c => set_sticky (mergeNode c) false) (k :: ks))).
    induction IH as [|c l H F IHf]; [reflexivity|]. cbn [List.map]. f_equal; [now rewrite H, erase_set_sticky|exact IHf].
  - rewrite erase_set_kids. f_equal. change (erase k :: List.map erase ks) with (List.map erase (k :: ks)). exact (erase_mergeFold (k :: ks) IH None).
Qed.
Lemma erase_astMerge a : astMerge (List.map erase a) = List.map erase (astMerge a).
Proof. refine (erase_mergeFold a _ None). apply Forall_forall. intros n _. apply erase_mergeNode. Qed.

Lemma erase_pruned (P : node -> bool) (f : node -> node) l : (forall n, P (erase n) = P n) -> Forall (fun c => f (erase c) = erase (f c)) l ->
  flat_map (fun c => if P c then [] else [f c]) (List.map erase l) = List.map erase (flat_map (fun c => if P c then [] else [f c]) l).
Proof.
  intros HP. induction 1 as [|c l H F IH]; [reflexivity|]. cbn [List.map flat_map]. rewrite map_app, IH, HP. destruct (P c); [reflexivity|]. cbn [List.map app]. now rewrite H.
Qed.
Lemma removeVirtual_eq n : removeVirtual n = set_kids n (flat_map (fun c => if n_virtual c then [] else [removeVirtual c]) (n_kids n)).
Proof. now destruct n. Qed.
Lemma removeNonData_eq n : removeNonData n = set_kids n (flat_map (fun c => if n_nondata c then [] else [removeNonData c]) (n_kids n)).
Proof. now destruct n. Qed.
Lemma erase_removeVirtual n : removeVirtual (erase n) = erase (removeVirtual n).
Proof.
  induction n as [n IH] using node_ind'. rewrite !removeVirtual_eq, erase_kids, erase_set_kids. f_equal. now apply erase_pruned; [intros; apply erase_virtual|].
Qed.
Lemma erase_removeNonData n : removeNonData (erase n) = erase (removeNonData n).
Proof.
  induction n as [n IH] using node_ind'. rewrite !removeNonData_eq, erase_kids, erase_set_kids. f_equal. now apply erase_pruned; [intros; apply erase_nondata|].
Qed.

Lemma erase_promote1 n : promote1 (erase n) = erase (promote1 n).
Proof.
  unfold promote1. rewrite erase_kids. destruct (n_kids n) as [|c [|]]; cbn [List.map]; [reflexivity| |reflexivity].
  rewrite erase_name, erase_chars, erase_kids. destruct (nonempty (n_name c)); [reflexivity|]. destruct (nonempty (n_chars c)).
  - now rewrite erase_set_kids, erase_set_chars.
  - now rewrite erase_set_kids.
Qed.
Lemma erase_promote2 n : promote2 (erase n) = erase (promote2 n).
Proof.
  unfold promote2. rewrite erase_kids. destruct (n_kids n) as [|c [|]]; cbn [List.map]; [reflexivity| |reflexivity].
  rewrite erase_name, erase_chars, erase_kids. replace (nonempty (List.map erase (n_kids c))) with (nonempty (n_kids c)) by now destruct (n_kids c).
  destruct (negb (nonempty (n_name c)) && negb (nonempty (n_kids c))); [|reflexivity]. now rewrite erase_set_kids, erase_set_chars.
Qed.
Lemma erase_splice l : splice (List.map erase l) = List.map erase (splice l).
Proof.
  unfold splice. induction l as [|c l IH]; [reflexivity|]. cbn [List.map flat_map]. rewrite map_app, IH, erase_text, erase_name, erase_kids.
  replace (nonempty (List.map erase (n_kids c))) with (nonempty (n_kids c)) by now destruct (n_kids c).
  destruct (negb (nonempty (text c)) && negb (nonempty (n_name c))); [reflexivity|]. destruct (negb (nonempty (n_name c)) && nonempty (n_kids c)); reflexivity.
Qed.
Lemma removeRedundant_eq n : removeRedundant n = match n_kids n with [] => n | _ =>
  let n1 := promote1 (set_kids n (List.map removeRedundant (n_kids n))) in promote2 (set_kids n1 (splice (n_kids n1))) end.
Proof. now destruct n. Qed.
Lemma erase_removeRedundant n : removeRedundant (erase n) = erase (removeRedundant n).
Proof.
  induction n as [n IH] using node_ind'. rewrite !removeRedundant_eq, erase_kids. destruct (n_kids n) as [|k ks] eqn:EK; [reflexivity|]. cbn [List.map]. cbv zeta.
  change (removeRedundant (erase k) :: List.map removeRedundant (List.map erase ks)) with (List.map removeRedundant (List.map erase (k :: ks))).
  change (removeRedundant k :: List.map removeRedundant ks) with (List.map removeRedundant (k :: ks)).
  assert (E : List.map removeRedundant (List.map erase (k :: ks)) = List.map erase (List.map removeRedundant (k :: ks))).
  { clear EK. induction IH as [|c l H F IHf]; [reflexivity|]. cbn [List.map]. f_equal; [exact H|exact IHf]. }
  rewrite E, <- erase_set_kids, erase_promote1. rewrite <- erase_promote2, erase_set_kids. now rewrite erase_kids, erase_splice.
Qed.
Lemma erase_astRedundant a : astRemoveRedundant (List.map erase a) = List.map erase (astRemoveRedundant a).
Proof. unfold astRemoveRedundant. rewrite !map_map. apply map_ext. intros c. rewrite erase_nondata, erase_removeRedundant. now destruct (n_nondata c). Qed.

Theorem erase_simplify level a : simplify level (List.map erase a) = List.map erase (simplify level a).
Proof.
  unfold simplify. rewrite erase_astMerge. destruct (level =? -1); [reflexivity|]. rewrite <- erase_astRedundant. f_equal.
  destruct (level =? 2); [|destruct (level =? 1); [|reflexivity]]; unfold astRemoveNonData, astRemoveVirtual;
    rewrite ?erase_pruned; try reflexivity; intros; try apply erase_virtual; try apply erase_nondata; apply Forall_forall; intros; now (apply erase_removeVirtual || apply erase_removeNonData).
Qed.
