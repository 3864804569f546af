(** Facts about the printed results. *)
From Verif Require Import Base Stream Node Rule SpecRule SpecParse Parse Grammar Print Show SpecShow ShowFacts SpecNode NodeFacts Message Detail SpecDetail.

Lemma str_go l : str l = List.map goRune l.
Proof. unfold str. apply map_ext. exact utf8_go. Qed.
Lemma split_len {A} (a b x y : list A) : length a = length b -> a ++ x = b ++ y -> a = b /\ x = y.
Proof. revert b. induction a as [|c a IH]; intros [|d b] L E; try discriminate; [auto|]. injection L as L. injection E as -> E. destruct (IH b L E) as [-> ->]. auto. Qed.
Lemma runes_inj lab l k col x y : runesLine lab l col ++ x = runesLine lab k col ++ y -> List.map goRune l = List.map goRune k /\ x = y.
Proof.
  unfold runesLine. rewrite <- !app_assoc. intros E. do 4 apply app_inv_head in E. apply (span_inj intRune) in E as [N E].
  - apply showInt_inj in N. do 2 apply app_inv_head in E. rewrite !str_go in E. apply split_len in E as [-> E]; [|rewrite !map_length; lia]. injection E as ->. auto.
  - apply showInt_runes.
  - apply showInt_runes.
  - cbn. unfold intRune. lia.
  - cbn. unfold intRune. lia.
Qed.
Lemma tree_L cfg n : exists x, indent (rs "    ") (stringTree cfg n) = 76 :: x.
Proof. rewrite stringTree_eq. unfold header, showPos. destruct (n_pos n) as [[l c]|]; eexists; reflexivity. Qed.
Lemma result_faithful cfg r r' : c_inner cfg = false -> clearNode r -> clearNode r' ->
  resultTree cfg r = resultTree cfg r' <-> glance (c_type cfg) r = glance (c_type cfg) r'.
Proof.
  intros I D D'. unfold resultTree, glance. split.
  - intros E. apply app_inv_head in E. apply runes_inj in E as [-> E]. apply runes_inj in E as [-> E]. do 3 apply app_inv_head in E. f_equal.
    destruct (r_node r) as [n|] eqn:N, (r_node r') as [n'|] eqn:N'.
    + f_equal. apply drawing_faithful; auto. change (rs "    ") with (32 :: [32; 32; 32]) in E. rewrite <- (app_nil_r (indent _ _)), <- (app_nil_r (indent _ (stringTree cfg n'))) in E.
      now apply indent_inj in E as [E _].
    + destruct (tree_L cfg n) as (x & X). rewrite X in E. discriminate.
    + destruct (tree_L cfg n') as (x & X). rewrite X in E. discriminate.
    + f_equal. apply app_inv_head in E. destruct (r_err r), (r_err r'); cbn [option_map]; try discriminate; [|reflexivity]. apply app_inv_head in E. now rewrite E.
  - intros E. injection E as R U E. rewrite <- !str_go in R, U. assert (LR : length (r_read r) = length (r_read r')) by (apply (f_equal (@length _)) in R; unfold str in R; now rewrite !map_length in R).
    assert (LU : length (r_unused r) = length (r_unused r')) by (apply (f_equal (@length _)) in U; unfold str in U; now rewrite !map_length in U).
    unfold runesLine. rewrite R, U, LR, LU. do 6 f_equal.
    destruct (r_node r) as [n|] eqn:N, (r_node r') as [n'|] eqn:N'; try discriminate.
    + injection E as E. f_equal. apply drawing_faithful; auto.
    + injection E as E. f_equal. destruct (r_err r), (r_err r'); cbn [option_map] in E; try discriminate; [|reflexivity]. now injection E as ->.
Qed.
Lemma mergeResult_merged r : r_read (mergeResult r) = r_read r /\ r_unused (mergeResult r) = r_unused r /\ r_err (mergeResult r) = r_err r /\
  match r_node r, r_node (mergeResult r) with Some n, Some m => mergedNode n m | None, None => True | _, _ => False end.
Proof. repeat split. cbn. destruct (r_node r); [apply mergeNode_merged|exact I]. Qed.
Lemma result_printed cfg r : printed (fun n d => d = stringTree cfg n) r (resultTree cfg r).
Proof.
  exists (showInt (Z.of_nat (length (r_read r)))), (showInt (Z.of_nat (length (r_unused r)))). eexists.
  split; [|split; [apply showInt_written|split; [apply showInt_written|]]].
  - unfold resultTree, runesLine. rewrite !str_go, <- !app_assoc. reflexivity.
  - destruct (r_node r) as [n|]; [|destruct (r_err r); reflexivity]. eexists. split; [reflexivity|]. now apply indent_under.
Qed.
