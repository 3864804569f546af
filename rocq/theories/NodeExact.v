(** Exact descriptions of Text, the counts, RemoveRedundantNodes and the levels of Eval. *)
From Verif Require Import Base Stream Node SpecRule SpecNode NodeFacts NodeText NodeLean.

(* ---------------- counts ---------------- *)

Lemma nodesOf_eq n : nodesOf n = n :: flat_map nodesOf (n_kids n).
Proof. now destruct n. Qed.
Lemma countSticky_eq n : countSticky n = ((if n_sticky n then 1 else 0) + total countSticky (n_kids n))%nat.
Proof. now destruct n. Qed.
Lemma countBy_cons p c a : countBy p (c :: a) = (countBy p [c] + countBy p a)%nat.
Proof. unfold countBy. cbn [flat_map]. rewrite app_nil_r, filter_flat. rewrite List.filter_app, app_length. now rewrite filter_flat. Qed.
Lemma countBy_one p n : countBy p [n] = ((if p n then 1 else 0) + countBy p (n_kids n))%nat.
Proof. unfold countBy. cbn [flat_map]. rewrite app_nil_r, nodesOf_eq. cbn [List.filter]. now destruct (p n). Qed.
Lemma total_countBy f p l : Forall (fun c => f c = countBy p [c]) l -> total f l = countBy p l.
Proof. induction 1 as [|c l H F IH]; [reflexivity|]. rewrite countBy_cons, <- IH, <- H. reflexivity. Qed.
Lemma countNodes_by n : countNodes n = countBy (fun _ => true) [n].
Proof.
  induction n as [n IH] using node_ind'. rewrite countNodes_eq, countBy_one. cbn [plus]. f_equal. now apply total_countBy.
Qed.
Lemma countTokens_by n : countTokens n = countBy isLeaf [n].
Proof.
  induction n as [n IH] using node_ind'. rewrite countTokens_eq, countBy_one. unfold isLeaf at 1. destruct (n_kids n) eqn:E; [reflexivity|]. rewrite <- E in *. now apply total_countBy.
Qed.
Lemma countSticky_by n : countSticky n = countBy n_sticky [n].
Proof.
  induction n as [n IH] using node_ind'. rewrite countSticky_eq, countBy_one. f_equal. now apply total_countBy.
Qed.
Lemma nodesOf_sub n m : In m (nodesOf n) <-> sub m n.
Proof.
  split.
  - induction n as [n IH] using node_ind'. rewrite nodesOf_eq. intros [<-|H]; [constructor|]. apply in_flat_map in H as (c & Hc & H). rewrite Forall_forall in IH. econstructor; eauto.
  - induction n as [n IH] using node_ind'. rewrite nodesOf_eq. intros S. apply sub_cases in S as [->|(k & Hk & S)]; [now left|]. right. apply in_flat_map. exists k. rewrite Forall_forall in IH. auto.
Qed.
Lemma counts_spec a :
  astCountNodes a = countBy (fun _ => true) a /\ astCountTokens a = countBy isLeaf a /\ astCountSticky a = countBy n_sticky a.
Proof.
  split; [|split]; apply total_countBy; apply Forall_forall; intros c _; [apply countNodes_by|apply countTokens_by|apply countSticky_by].
Qed.
Lemma node_counts_spec n :
  countNodes n = countBy (fun _ => true) [n] /\ countTokens n = countBy isLeaf [n] /\ countSticky n = countBy n_sticky [n].
Proof. split; [apply countNodes_by|]. split; [apply countTokens_by|apply countSticky_by]. Qed.

(* ---------------- separators ---------------- *)

Fixpoint lastSticky (b : bool) (l : list (list Z * bool)) : bool := match l with [] => b | (_, st) :: l' => lastSticky st l' end.
Lemma textFold_snoc block l t st : forall acc b,
  textFold block acc b (l ++ [(t, st)]) =
  let pre := textFold block acc b l in
  pre ++ (if negb block && (nonempty pre && negb (isWS (last pre 0))) && (nonempty t && negb (isWS (hd 0 t))) && (negb (lastSticky b l) || negb st) then [32] else []) ++ t.
Proof.
  induction l as [|[t0 s0] l IH]; intros acc b; [reflexivity|]. cbn [app textFold lastSticky]. now rewrite IH.
Qed.
Lemma lastSticky_snoc b l p : lastSticky b (l ++ [p]) = snd p.
Proof. revert b. induction l as [|[t s] l IH]; intros b; cbn [app lastSticky]; [now destruct p|apply IH]. Qed.
Lemma text_snoc n pre c : n_chars n = [] -> n_kids n = pre ++ [c] ->
  exists gap, text n = text (set_kids n pre) ++ gap ++ text c /\ ((spaced n pre c /\ gap = [32]) \/ (~ spaced n pre c /\ gap = [])).
Proof.
  intros C K. unfold spaced. rewrite !(text_eq (set_kids _ _)), (text_eq n). cbn [n_chars set_kids n_type n_kids]. rewrite C, K, map_app. cbn [List.map].
  rewrite textFold_snoc. cbv zeta. set (it := List.map _ pre). set (x := textFold _ _ _ it). eexists. split; [reflexivity|].
  assert (LS : lastSticky false it = true <-> exists front p, pre = front ++ [p] /\ n_sticky p = true).
  { destruct (List.rev pre) as [|p r] eqn:E.
    - apply (f_equal (@List.rev node)) in E. rewrite rev_involutive in E. cbn in E. subst pre. cbn. split; [discriminate|]. intros (f & p & X & _). now destruct f.
    - apply (f_equal (@List.rev node)) in E. rewrite rev_involutive in E. cbn [List.rev] in E. subst pre. unfold it. rewrite map_app. cbn [List.map]. rewrite lastSticky_snoc. cbn [snd].
      split; [intros S; do 2 eexists; eauto|]. intros (f & q & X & S). apply app_inj_tail in X as [_ <-]. exact S. }
  destruct (_ && _) eqn:E.
  - left. split; [|reflexivity]. apply andb_prop in E as [E E4]. apply andb_prop in E as [E E3]. apply andb_prop in E as [E1 E2].
    apply andb_prop in E2 as [E2 E2']. apply andb_prop in E3 as [E3 E3']. apply negb_true_iff in E1, E2', E3'. apply nonempty_true in E2, E3.
    split; [intros T; rewrite T in E1; discriminate|]. split; [exact E2|]. split; [now apply notWS_white|]. split; [exact E3|]. split; [now apply notWS_white|].
    intros [A B]. apply LS in A. rewrite A, B in E4. discriminate.
  - right. split; [|reflexivity]. intros (T & X & W & Y & V & S). apply not_true_iff_false in E. apply E. clear E.
    apply nonempty_true in X, Y. rewrite X, Y.
    assert (A : rtype_eqb (n_type n) TBlock = false) by (destruct (rtype_eqb _ _) eqn:E; [apply rtype_eqb_eq in E; congruence|reflexivity]).
    assert (B : isWS (last x 0) = false) by (destruct (isWS _) eqn:E; [apply isWS_white in E; tauto|reflexivity]).
    assert (D : isWS (hd 0 (text c)) = false) by (destruct (isWS (hd _ _)) eqn:E; [apply isWS_white in E; tauto|reflexivity]).
    rewrite A, B, D. cbn [negb andb]. destruct (lastSticky false it) eqn:E; cbn [negb orb]; [|reflexivity]. destruct (n_sticky c) eqn:E'; [|reflexivity]. exfalso. apply S. split; [now apply LS|reflexivity].
Qed.
Lemma text_leaf n : n_chars n <> [] -> text n = if isEOFText (n_chars n) then [] else n_chars n.
Proof. intros H. rewrite text_eq. destruct (n_chars n); [congruence|reflexivity]. Qed.
Lemma text_childless n : n_chars n = [] -> n_kids n = [] -> text n = [].
Proof. intros C K. now rewrite text_eq, C, K. Qed.

(* ---------------- outlines determine trees ---------------- *)

Lemma outline_eq drop d n : outline drop d n = (d, label n) :: flat_map (fun c => if drop c then [] else outline drop (S d) c) (n_kids n).
Proof. now destruct n. Qed.
Lemma outline_deep n : forall d x, In x (outline everything d n) -> (d <= fst x)%nat.
Proof.
  induction n as [n IH] using node_ind'. intros d x. rewrite outline_eq. intros [<-|H]; [apply le_n|]. apply in_flat_map in H as (c & Hc & H). cbn [everything] in H.
  rewrite Forall_forall in IH. specialize (IH c Hc _ _ H). lia.
Qed.
Lemma split_unique {A} (P : A -> Prop) (a a' b b' : list A) : Forall P a -> Forall P a' ->
  (match b with [] => True | x :: _ => ~ P x end) -> (match b' with [] => True | x :: _ => ~ P x end) -> a ++ b = a' ++ b' -> a = a' /\ b = b'.
Proof.
  intros F. revert a'. induction F as [|x a Px F IH]; intros a' F' B B' E; inversion F' as [|y a'' Py F'']; subst; cbn [app] in E.
  - auto.
  - destruct b; [discriminate|]. injection E as -> _. contradiction.
  - destruct b'; [discriminate|]. injection E as -> _. contradiction.
  - injection E as -> E. destruct (IH _ F'' B B' E). now subst.
Qed.
Lemma outlines_inj : forall k a b d, (total countNodes a <= k)%nat -> flat_map (outline everything d) a = flat_map (outline everything d) b -> a = b.
Proof.
  induction k as [|k IH]; intros a b d L E.
  - destruct a as [|n a]; [|rewrite total_cons, countNodes_eq in L; lia]. destruct b as [|m b]; [reflexivity|]. cbn [flat_map] in E. rewrite outline_eq in E. discriminate.
  - destruct a as [|n a], b as [|m b]; [reflexivity|cbn [flat_map] in E; rewrite outline_eq in E; discriminate..|].
    cbn [flat_map] in E. rewrite !outline_eq in E. cbn [everything app] in E. assert (EL : label n = label m) by (apply (f_equal (fun l => match l with x :: _ => snd x | [] => label n end)) in E; exact E). apply (f_equal (@tl _)) in E. cbn [tl] in E. rewrite total_cons, countNodes_eq in L.
    assert (D : forall l, Forall (fun x => (S d <= fst x)%nat) (flat_map (fun c => outline everything (S d) c) l)).
    { intros l. apply Forall_forall. intros x Hx. apply in_flat_map in Hx as (c & _ & Hx). now apply outline_deep in Hx. }
    assert (H : forall l, match flat_map (outline everything d) l with [] => True | x :: _ => ~ (S d <= fst x)%nat end).
    { intros [|c l]; [exact I|]. cbn [flat_map]. rewrite outline_eq. cbn [app fst]. lia. }
    destruct (split_unique _ _ _ _ _ (D (n_kids n)) (D (n_kids m)) (H a) (H b) E) as [E1 E2].
    apply IH in E1; [|lia]. apply IH in E2; [|lia]. subst b. f_equal. rewrite <- (node_eta n), <- (node_eta m), E1. destruct n, m. unfold label, set_kids in *. injection EL. intros. subst. reflexivity.
Qed.
Lemma outlines_determine a b : flat_map (outline everything 0) a = flat_map (outline everything 0) b -> a = b.
Proof. now apply (outlines_inj (total countNodes a)). Qed.

(* ---------------- RemoveRedundantNodes ---------------- *)

Scheme reduced_ind2 := Minimality for reduced Sort Prop
  with reducedAll_ind2 := Minimality for reducedAll Sort Prop.
Combined Scheme reduced_mut from reduced_ind2, reducedAll_ind2.

Lemma splice_one c : exists g, splice [c] = g /\ gives c g.
Proof.
  eexists. split; [reflexivity|]. unfold splice, gives. cbn [flat_map]. rewrite app_nil_r.
  destruct (n_name c) as [|x y] eqn:EN; cbn [nonempty negb andb]; [rewrite andb_true_r|rewrite andb_false_r; left; split; [discriminate|reflexivity]]. right.
  destruct (nonempty (text c)) eqn:ET; cbn [negb]; [right|left; apply nonempty_false in ET; auto]. apply nonempty_true in ET.
  destruct (n_kids c) as [|k ks] eqn:EK; cbn [nonempty]; [left; auto|right]. repeat split; auto. discriminate.
Qed.
Lemma splice_reduced l : Forall (fun c => reduced c (removeRedundant c)) l -> reducedAll l (splice (List.map removeRedundant l)).
Proof.
  induction 1 as [|c l R F IH]; [constructor|]. cbn [List.map]. destruct (splice_one (removeRedundant c)) as (g & E & G).
  replace (splice (removeRedundant c :: List.map removeRedundant l)) with (g ++ splice (List.map removeRedundant l)).
  - econstructor; eauto.
  - subst g. unfold splice. cbn [flat_map]. now rewrite app_nil_r.
Qed.
Lemma splice_lean n : deepLean n -> splice (n_kids n) = n_kids n.
Proof.
  intros D. pose proof (D n (sub_here n)) as [L1 _]. clear D. unfold splice. induction (n_kids n) as [|c l IHl]; [reflexivity|]. cbn [flat_map]. rewrite IHl by (intros; apply L1; now right).
  destruct (L1 c (or_introl eq_refl)) as [N|[K T]].
  - apply nonempty_true in N. rewrite N. cbn [negb andb]. now rewrite andb_false_r.
  - apply nonempty_true in T. rewrite T, K. cbn [negb andb nonempty]. now rewrite andb_false_r.
Qed.
Lemma rr_name n : n_name (removeRedundant n) = n_name n.
Proof. pose proof (proj1 (removeRedundant_less n)) as I. unfold ident_of in I. congruence. Qed.
Theorem removeRedundant_reduced n : proper n -> reduced n (removeRedundant n).
Proof.
  induction n as [n IH] using node_ind'. intros P. pose proof (proper_kids n P) as [L F]. rewrite rr_eq.
  assert (R : Forall (fun c => reduced c (removeRedundant c)) (n_kids n)) by (rewrite Forall_forall in *; auto).
  destruct (n_kids n) as [|k ks] eqn:EK; [now constructor|]. rewrite <- EK in *. assert (NK : n_kids n <> []) by congruence. clear EK k ks IH.
  assert (C : n_chars n = []) by (destruct L; [assumption|contradiction]).
  set (n0 := set_kids n (List.map removeRedundant (n_kids n))). cbv zeta.
  assert (Dec : soleUnnamed (n_kids n) \/ ~ soleUnnamed (n_kids n)).
  { unfold soleUnnamed. destruct (n_kids n) as [|c [|d l]]; [right; intros (? & [=] & _)| |right; intros (? & [=] & _)]. destruct (n_name c) eqn:E; [left; eauto|right]. intros (x & [= <-] & X). congruence. }
  destruct Dec as [(c & EK & EN)|NS].
  - rewrite EK in *. inversion R as [|? ? Rc _]; inversion F as [|? ? Pc _]; subst. pose proof (removeRedundant_step c Pc) as (Pc' & _). pose proof (removeRedundant_lean c) as Dc. pose proof (rr_name c) as EN'.
    set (c' := removeRedundant c) in *.
    assert (E1 : promote1 n0 = set_kids (set_chars n (n_chars c')) (n_kids c')).
    { unfold promote1, n0. cbn [n_kids set_kids]. rewrite ?EK. cbn [List.map]. fold c'. rewrite EN', EN. cbn [nonempty]. destruct (proper_kids c' Pc') as [[X|X] _].
      - rewrite X. cbn [nonempty]. destruct n. cbn in *. now subst.
      - destruct (n_chars c') eqn:E; cbn [nonempty]; [destruct n; cbn in *; now subst|]. rewrite X. reflexivity. }
    rewrite E1. cbn [n_kids set_kids]. rewrite (splice_lean c' Dc). unfold promote2. cbn [n_kids set_kids].
    assert (E2 : forall only, n_kids c' = [only] -> n_name only <> []) by (intros only E; exact (proj2 (Dc c' (sub_here c')) only E)).
    assert (G : reduced n (set_kids (set_chars n (n_chars c')) (n_kids c'))) by (eapply rd_sole; eauto).
    destruct (n_kids c') as [|only [|? ?]]; try exact G. specialize (E2 only eq_refl). destruct (n_name only); [congruence|exact G].
  - assert (E1 : promote1 n0 = n0).
    { unfold promote1, n0. cbn [n_kids set_kids]. destruct (n_kids n) as [|c [|d l]] eqn:EK; try reflexivity. cbn [List.map]. rewrite rr_name. destruct (n_name c) eqn:EN; [|reflexivity]. destruct NS. unfold soleUnnamed. eauto. }
    rewrite E1. change (reduced n (promote2 (set_kids n (splice (List.map removeRedundant (n_kids n)))))).
    pose proof (splice_reduced _ R) as RA. unfold promote2. cbn [n_kids set_kids]. destruct (splice _) as [|only [|x l]].
    + apply rd_inner; auto. intros c X. discriminate.
    + destruct (n_name only) as [|y z] eqn:EN; cbn [nonempty negb andb].
      * destruct (n_kids only) as [|y z] eqn:EO; cbn [nonempty negb].
        -- replace (set_kids (set_chars (set_kids n [only]) (n_chars only)) []) with (set_kids (set_chars n (n_chars only)) []) by reflexivity. now apply rd_text.
        -- apply rd_inner; auto. intros c X. injection X as <-. right. congruence.
      * apply rd_inner; auto. intros c X. injection X as <-. left. congruence.
    + apply rd_inner; auto. intros c X. discriminate.
Qed.
Lemma gives_det c g g' : gives c g -> gives c g' -> g = g'.
Proof. unfold gives. intuition congruence. Qed.
Lemma reduced_det_mut :
  (forall n m, reduced n m -> forall m', reduced n m' -> m' = m) /\
  (forall l k, reducedAll l k -> forall k', reducedAll l k' -> k' = k).
Proof.
  apply reduced_mut.
  - intros n E m' M. inversion M; subst; congruence.
  - intros n c c' E EN _ IH m' M. assert (S : soleUnnamed (n_kids n)) by (unfold soleUnnamed; eauto). inversion M; subst; try congruence; try contradiction.
    assert (c0 = c) by congruence. subst c0. now rewrite (IH c'0).
  - intros n c NK NS _ IH EN EK m' M. inversion M as [|? c1 c1' E1 N1 R1|? c1 NK' NS' R1 N1 K1|? ks NK' NS' R1 H]; subst; try congruence.
    + destruct NS. unfold soleUnnamed. eauto.
    + specialize (IH _ R1). congruence.
    + specialize (IH _ R1). subst ks. destruct (H c eq_refl); congruence.
  - intros n ks NK NS _ IH H m' M. inversion M as [|? c1 c1' E1 N1 R1|? c1 NK' NS' R1 N1 K1|? ks' NK' NS' R1 H']; subst; try congruence.
    + destruct NS. unfold soleUnnamed. eauto.
    + specialize (IH _ R1). subst ks. destruct (H c1 eq_refl); congruence.
    + now rewrite (IH _ R1).
  - intros k' M. now inversion M.
  - intros c c' l g ks _ IH1 G _ IH2 k' M. inversion M as [|? c1 ? g1 ks1 R1 G1 A1]; subst. specialize (IH1 _ R1). subst c1. rewrite (gives_det _ _ _ G1 G). now rewrite (IH2 _ A1).
Qed.

(* ---------------- the levels ---------------- *)

Lemma prune_or p q n : (forall m, q (prune p m) = q m) -> prune q (prune p n) = prune (fun m => p m || q m) n.
Proof.
  intros Q. induction n as [n IH] using node_ind'. rewrite (prune_eq p n), (prune_eq q), (prune_eq _ n), kids_set, set_kids_kids. f_equal.
  unfold pruneAll. induction (n_kids n) as [|c ks IHk]; [reflexivity|]. inversion IH as [|? ? Hc Hk]; subst. cbn [flat_map]. rewrite flat_map_app, (IHk Hk). f_equal.
  destruct (p c); cbn [flat_map app orb]; [reflexivity|]. rewrite Q, Hc. now rewrite app_nil_r.
Qed.
Lemma pruneAll_or p q a : (forall m, q (prune p m) = q m) -> pruneAll q (pruneAll p a) = pruneAll (fun m => p m || q m) a.
Proof.
  intros Q. unfold pruneAll. induction a as [|c ks IHk]; [reflexivity|]. cbn [flat_map]. rewrite flat_map_app, IHk. f_equal.
  destruct (p c); cbn [flat_map app orb]; [reflexivity|]. rewrite Q, (prune_or p q _ Q). now rewrite app_nil_r.
Qed.
Lemma prune_nothing n : prune (fun _ => false) n = n.
Proof. apply prune_fix. reflexivity. Qed.
Lemma pruneAll_nothing a : pruneAll (fun _ => false) a = a.
Proof. unfold pruneAll. induction a as [|c a IH]; [reflexivity|]. cbn [flat_map app]. now rewrite prune_nothing, IH. Qed.
Lemma dropsAt_eq level : -1 <> level -> forall a,
  (if level =? 2 then astRemoveNonData (astRemoveVirtual a) else if level =? 1 then astRemoveVirtual a else a) = pruneAll (dropsAt level) a.
Proof.
  intros _ a. unfold dropsAt. destruct (level =? 2); [apply (pruneAll_or n_virtual n_nondata); apply prune_nondata|]. destruct (level =? 1); [reflexivity|]. symmetry. apply pruneAll_nothing.
Qed.

Theorem simplify_simplified level a : Forall proper a -> simplified level a (simplify level a).
Proof.
  intros P. unfold simplified, simplify. destruct (level =? -1) eqn:EL; [reflexivity|]. apply Z.eqb_neq in EL.
  exists (astMerge a), (pruneAll (dropsAt level) (astMerge a)). split; [apply astMerge_merged|].
  assert (ST : forall n, dropsAt level (prune (dropsAt level) n) = dropsAt level n) by (intros n; unfold dropsAt; destruct (level =? 2), (level =? 1); now destruct n).
  split; [apply pruneAll_outline; exact ST|].
  replace (if level =? 2 then astRemoveNonData (astRemoveVirtual (astMerge a)) else if level =? 1 then astRemoveVirtual (astMerge a) else astMerge a)
    with (pruneAll (dropsAt level) (astMerge a)) by (symmetry; apply (dropsAt_eq level); congruence).
  pose proof (pruneAll_proper (dropsAt level) _ (astMerge_proper _ P)) as F. unfold astRemoveRedundant. induction F as [|c l Pc F IH]; [constructor|]. cbn [List.map]. constructor; [|exact IH].
  destruct (n_nondata c); [reflexivity|]. now apply removeRedundant_reduced.
Qed.
Theorem simplified_det level a b b' : simplified level a b -> simplified level a b' -> b' = b.
Proof.
  unfold simplified. destruct (level =? -1); [congruence|]. intros (m & p & M & P & F) (m' & p' & M' & P' & F').
  assert (m' = m) by exact (proj2 (proj2 merged_det_mut) _ _ M _ M'). subst m'. unfold pruned in *. assert (p' = p) by (apply outlines_determine; congruence). subst p'.
  clear - F F'. revert b' F'. induction F as [|c c' l l' H F IH]; intros b' F'; inversion F' as [|? d ? k H' F'']; subst; [reflexivity|]. rewrite (IH _ F''). f_equal.
  destruct (n_nondata c); [congruence|]. exact (proj1 reduced_det_mut _ _ H _ H').
Qed.
