(** The tree of a JSON value at the data-only level (C89). *)
From Verif Require Import Base Stream Node Rule SpecRule SpecEval SpecEv SpecNode SpecStream StreamFacts NodeFacts NodeText JsonLex SpecJson EraseFacts JsonLang JsonValue JsonTree SpecJsonData.

Definition data (n : node) : node := removeRedundant (removeNonData (mergeNode n)).
Definition fat (n : node) (ks : list node) : node := match ks with [] => set_kids n [] | _ => lean1 n ks end.
Definition kept (c : node) : bool := negb (n_nondata c).
Lemma merge_nondata n : n_nondata (mergeNode n) = n_nondata n.
Proof. rewrite mergeNode_eq. destruct (n_kids n); [reflexivity|]. now destruct (rtype_eqb (n_type n) TBlock). Qed.
Lemma data_leaf n : n_kids n = [] -> data n = n.
Proof. intros E. unfold data. rewrite mergeNode_eq, E, removeNonData_eq, E. rewrite removeRedundant_eq. destruct n. cbn in *. now subst. Qed.
Lemma data_step n : n_kids n <> [] -> n_type n <> TBlock -> (forall c, In c (n_kids n) -> n_sticky c = false) ->
  data n = fat n (List.map data (filter kept (n_kids n))).
Proof.
  intros NE NB L. unfold data. rewrite mergeNode_eq. destruct (n_kids n) as [|k ks] eqn:EK; [congruence|]. rewrite <- EK in *.
  destruct (rtype_eqb (n_type n) TBlock) eqn:E; [apply rtype_eqb_eq in E; congruence|]. rewrite (loose_kids _ L), removeNonData_eq.
  replace (n_kids (set_kids n (List.map mergeNode (n_kids n)))) with (List.map mergeNode (n_kids n)) by now destruct n.
  assert (X : forall l, flat_map (fun c => if n_nondata c then [] else [removeNonData c]) (List.map mergeNode l) = List.map (fun c => removeNonData (mergeNode c)) (filter kept l)).
  { clear. induction l as [|c l IH]; [reflexivity|]. cbn [List.map flat_map filter]. rewrite merge_nondata, IH. unfold kept. destruct (n_nondata c); reflexivity. }
  assert (S : forall x y, set_kids (set_kids n x) y = set_kids n y) by now destruct n.
  rewrite X, S, removeRedundant_eq. replace (n_kids (set_kids n (List.map (fun c => removeNonData (mergeNode c)) (filter kept (n_kids n))))) with (List.map (fun c => removeNonData (mergeNode c)) (filter kept (n_kids n))) by now destruct n.
  destruct (filter kept (n_kids n)) as [|c l]; [reflexivity|]. cbn [List.map fat]. unfold lean1. cbv zeta. cbn [List.map]. rewrite map_map, S. reflexivity.
Qed.

(** Nodes without punctuation below them are treated as at level 0. *)
Fixpoint allData (n : node) : bool := negb (n_nondata n) && forallb allData (n_kids n).
Lemma allData_eq n : allData n = negb (n_nondata n) && forallb allData (n_kids n).
Proof. now destruct n. Qed.
Lemma merge_allData n : allData n = true -> allData (mergeNode n) = true.
Proof.
  induction n as [n IH] using node_ind'. intros H. rewrite allData_eq in H. apply andb_true_iff in H as [V K]. rewrite forallb_forall in K.
  assert (FK : Forall (fun c => allData c = true /\ allData (mergeNode c) = true) (n_kids n)).
  { rewrite Forall_forall in *. intros c C. split; [now apply K|apply IH; [exact C|now apply K]]. }
  assert (X : forall l, Forall (fun c => allData c = true /\ allData (mergeNode c) = true) l -> forall prev, (forall p, prev = Some p -> allData p = true) ->
    forallb allData (mergeFold prev (List.map withMerge l)) = true).
  { clear. induction 1 as [|c l [A B] F IHf]; intros prev P; cbn [List.map mergeFold].
    - destruct prev as [p|]; [|reflexivity]. specialize (P p eq_refl). destruct p; cbn in *. now rewrite P.
    - unfold withMerge at 1. destruct (n_sticky c).
      + destruct prev as [p|]; apply IHf; intros q [= <-]; [specialize (P p eq_refl); now destruct p|]. destruct c; cbn in *. apply andb_true_iff in A as [-> _]. reflexivity.
      + rewrite forallb_app. apply andb_true_iff. split; [destruct prev as [p|]; [|reflexivity]; specialize (P p eq_refl); destruct p; cbn in *; now rewrite P|].
        cbn [forallb]. rewrite B. apply IHf. intros p [=]. }
  rewrite mergeNode_eq. destruct (n_kids n) as [|k ks] eqn:EK; [rewrite allData_eq, EK, V; reflexivity|]. rewrite <- EK in *. destruct (rtype_eqb (n_type n) TBlock).
  - rewrite allData_eq. apply andb_true_iff. split; [now destruct n|]. replace (n_kids (set_sticky (set_kids n (List.map (fun c => set_sticky (mergeNode c) false) (n_kids n))) false)) with (List.map (fun c => set_sticky (mergeNode c) false) (n_kids n)) by now destruct n.
    rewrite forallb_forall. intros x Hx. apply in_map_iff in Hx as (c & <- & C). rewrite Forall_forall in FK. destruct (FK c C) as [_ B]. now destruct (mergeNode c).
  - rewrite allData_eq. apply andb_true_iff. split; [now destruct n|]. replace (n_kids (set_kids n (mergeNodes (n_kids n)))) with (mergeNodes (n_kids n)) by now destruct n.
    apply (X _ FK None). intros p [=].
Qed.
Lemma allData_keep n : allData n = true -> removeNonData n = n.
Proof.
  induction n as [n IH] using node_ind'. intros H. rewrite allData_eq in H. apply andb_true_iff in H as [_ K]. rewrite forallb_forall in K. rewrite removeNonData_eq.
  assert (E : flat_map (fun c => if n_nondata c then [] else [removeNonData c]) (n_kids n) = n_kids n).
  { rewrite Forall_forall in IH. revert IH K. generalize (n_kids n). intros l IH K. induction l as [|c l IHl]; [reflexivity|]. cbn [flat_map].
    assert (Sc := K c (or_introl eq_refl)). rewrite (IH c (or_introl eq_refl) Sc). rewrite IHl; [|intros x X; apply IH; now right|intros x X; apply K; now right].
    rewrite allData_eq in Sc. apply andb_true_iff in Sc as [V _]. destruct (n_nondata c); [discriminate|reflexivity]. }
  rewrite E. now destruct n.
Qed.
Lemma data_slim n : allData n = true -> data n = slim n.
Proof. intros H. unfold data, slim. now rewrite (allData_keep _ (merge_allData n H)). Qed.
Lemma allData_tree ty b kids st : b_nondata b = false -> allData (tree ty b kids st) = forallb allData kids.
Proof. intros V. unfold tree, build. cbn [allData n_nondata n_kids]. now rewrite V. Qed.
Lemma allData_digits ds : allData (digitsNode ds) = true.
Proof. unfold digitsNode. rewrite allData_tree by reflexivity. induction ds as [|d ds IH]; [reflexivity|]. cbn [List.map forallb]. now rewrite IH. Qed.
Lemma allData_int ds : allData (intNode ds) = true.
Proof. destruct ds as [|d ds]; [reflexivity|]. unfold intNode. rewrite allData_tree by reflexivity. cbn [forallb]. now rewrite allData_digits. Qed.
Lemma allData_frac i fr : allData (fracNode i fr) = true.
Proof.
  destruct fr as [[|e es]|]; [reflexivity| |apply allData_int]. unfold fracNode, floatNode. rewrite allData_tree by reflexivity. cbn [forallb]. now rewrite allData_int, allData_digits.
Qed.
Lemma allData_num m i fr : allData (numRaw m i fr) = true.
Proof. unfold numRaw, numNode, eitherNode. rewrite !allData_tree by reflexivity. cbn [forallb]. rewrite allData_tree by reflexivity. cbn [forallb]. rewrite allData_frac. now destruct m. Qed.

(* ---------------- strings ---------------- *)

Lemma data_str l : data (strNode l) = textTree l.
Proof. destruct l; reflexivity. Qed.

(* ---------------- lists ---------------- *)

Definition rich (n m : node) : Prop := n_sticky n = false /\ n_nondata n = false /\ data n = m /\ nonempty (n_name m) = true.
Definition loud (m : node) : bool := nonempty (text m).
Lemma lean1_named n m : nonempty (n_name m) = true -> lean1 n [m] = set_kids n [m].
Proof.
  intros N. assert (P : promote1 (set_kids n [m]) = set_kids n [m]) by (unfold promote1, set_kids; cbn [n_kids]; now rewrite N).
  unfold lean1. rewrite P. cbv zeta. change (n_kids (set_kids n [m])) with [m]. rewrite splice_named by exact N. unfold promote2, set_kids. cbn [splice flat_map n_kids]. now rewrite N.
Qed.
Lemma data_one ty b n m : ty <> TBlock -> rich n m -> data (tree ty b [n] false) = tree ty b [m] false.
Proof.
  intros NB (S & D & E & N). rewrite data_step; [|discriminate|exact NB|intros c [<-|[]]; exact S]. cbn [n_kids tree build filter]. unfold kept. rewrite D. cbn [negb List.map fat]. rewrite E. now rewrite lean1_named.
Qed.
Lemma data_pair n m : rich n m -> data (pairNode n) = tree TConcat nb [m] false.
Proof.
  intros (S & D & E & N). unfold pairNode. rewrite data_step; [|discriminate|discriminate|intros c [<-|[<-|[]]]; [reflexivity|exact S]]. cbn [n_kids tree build filter]. unfold kept. rewrite D. cbn [negb wordNode build n_nondata mark b_nondata List.map fat].
  rewrite E. now rewrite lean1_named.
Qed.
Lemma textFold_none block l : forall b, Forall (fun x => fst x = []) l -> textFold block [] b l = [].
Proof. intros b F. revert b. induction F as [|[t st] l E F IH]; intros b; [reflexivity|]. cbn [fst] in E. subst t. cbn [textFold nonempty andb]. rewrite andb_false_r. apply IH. Qed.
Lemma textFold_some block l : forall b, Exists (fun x => fst x <> []) l -> textFold block [] b l <> [].
Proof.
  intros b F. revert b. induction l as [|[t st] l IH]; intros b; [inversion F|]. cbn [textFold nonempty andb]. rewrite andb_false_r. cbn [andb app]. destruct t as [|c t].
  - cbn [app]. apply IH. inversion F; [now cbn in *|assumption].
  - apply textFold_grows. discriminate.
Qed.
(** The text of an inner node is empty when that of all its children is. *)
Lemma loud_inner ty nm ks po st vi nd tk : loud (Node ty nm [] ks po st vi nd tk) = existsb loud ks.
Proof.
  unfold loud at 1. cbn [text n_chars n_type n_kids]. destruct (existsb loud ks) eqn:E.
  - apply existsb_exists in E as (c & C & L). assert (X : textFold (rtype_eqb ty TBlock) [] false (List.map (fun c => (text c, n_sticky c)) ks) <> []).
    { apply textFold_some, Exists_exists. exists (text c, n_sticky c). split; [apply in_map_iff; eauto|]. unfold loud in L. cbn [fst]. destruct (text c); discriminate. }
    destruct (textFold _ _ _ _); [congruence|reflexivity].
  - rewrite textFold_none; [reflexivity|]. apply Forall_forall. intros x X. apply in_map_iff in X as (c & <- & C). cbn [fst].
    destruct (text c) eqn:T; [reflexivity|]. exfalso. assert (Y : existsb loud ks = true) by (apply existsb_exists; exists c; split; [exact C|]; unfold loud; now rewrite T). congruence.
Qed.
Lemma loud_tree ty b ks st : loud (tree ty b ks st) = existsb loud ks.
Proof. apply loud_inner. Qed.
Lemma splice_all l : Forall (fun m => nonempty (n_name m) = true) l -> splice l = l.
Proof. induction 1 as [|m l N F IH]; [reflexivity|]. now rewrite splice_named, IH. Qed.
Lemma filter_named (f : node -> bool) l : Forall (fun m => nonempty (n_name m) = true) l -> Forall (fun m => nonempty (n_name m) = true) (filter f l).
Proof. induction 1 as [|m l N F IH]; cbn [filter]; [constructor|]. destruct (f m); [constructor|]; assumption. Qed.
Lemma rich_named ns ms : Forall2 rich ns ms -> Forall (fun m => nonempty (n_name m) = true) ms.
Proof. induction 1 as [|n m ns ms (_ & _ & _ & N) F IH]; constructor; assumption. Qed.
Lemma data_pairMap ns ms : Forall2 rich ns ms -> List.map data (filter kept (List.map pairNode ns)) = List.map (fun m => tree TConcat nb [m] false) ms.
Proof. induction 1 as [|n m ns ms T F IH]; [reflexivity|]. cbn [List.map filter]. change (kept (pairNode n)) with true. cbv match. cbn [List.map]. now rewrite IH, (data_pair n m T). Qed.
(** What is spliced in for the repetition. *)
Lemma data_pairs ns ms : Forall2 rich ns ms -> splice [data (tree TRepetition nb (List.map pairNode ns) false)] = filter loud ms.
Proof.
  intros F. pose proof (rich_named _ _ F) as FN. destruct F as [|n m ns ms T F]; [reflexivity|]. set (ns' := n :: ns) in *. set (ms' := m :: ms) in *.
  assert (F' : Forall2 rich ns' ms') by (constructor; assumption). rewrite data_step; [|discriminate|discriminate|intros c C; apply in_map_iff in C as (x & <- & _); reflexivity].
  change (n_kids (tree TRepetition nb (List.map pairNode ns') false)) with (List.map pairNode ns'). rewrite (data_pairMap _ _ F').
  assert (SP : forall l, splice (List.map (fun m => tree TConcat nb [m] false) l) = filter loud l).
  { clear. intros l. induction l as [|m ms IH]; [reflexivity|]. cbn [List.map filter]. rewrite splice_cons, IH. pose proof (loud_tree TConcat nb [m] false) as L. unfold loud at 1 in L. rewrite L. cbn [existsb]. rewrite orb_false_r. destruct (loud m); reflexivity. }
  assert (SR : forall ks, Forall (fun m => nonempty (n_name m) = true) ks -> splice [tree TRepetition nb (filter loud ks) false] = filter loud ks).
  { clear. intros ks FN. rewrite splice_cons. pose proof (loud_tree TRepetition nb (filter loud ks) false) as L. unfold loud at 1 in L. rewrite L. destruct (filter loud ks) as [|x l] eqn:E; [reflexivity|].
    assert (LX : loud x = true) by (assert (I : In x (filter loud ks)) by (rewrite E; now left); now apply filter_In in I). cbn [existsb]. rewrite LX. cbn. now rewrite app_nil_r. }
  destruct ms as [|m2 ms].
  - subst ms'. cbn [List.map fat]. rewrite lean1_inner by reflexivity. change (n_kids (tree TConcat nb [m] false)) with [m]. inversion FN as [|? ? N _]; subst. rewrite (splice_all [m] FN).
    assert (P : promote2 (set_kids (tree TRepetition nb (List.map pairNode ns') false) [m]) = tree TRepetition nb [m] false) by (unfold promote2, set_kids, tree, build; cbn [n_kids]; rewrite N; reflexivity).
    rewrite P. rewrite splice_cons. pose proof (loud_tree TRepetition nb [m] false) as L. unfold loud at 1 in L. rewrite L. cbn [existsb filter]. rewrite orb_false_r. destruct (loud m); reflexivity.
  - assert (P : fat (tree TRepetition nb (List.map pairNode ns') false) (List.map (fun m => tree TConcat nb [m] false) ms') = tree TRepetition nb (filter loud ms') false).
    { subst ms'. cbn [List.map fat]. unfold lean1, promote1, set_kids, tree, build. cbn [n_kids n_type n_name n_pos n_virtual n_nondata n_tokenized n_chars n_sticky]. specialize (SP (m :: m2 :: ms)). cbn [List.map] in SP. unfold tree, build in SP. rewrite SP.
      pose proof (filter_named loud _ FN) as FF. destruct (filter loud (m :: m2 :: ms)) as [|x [|y l]]; try reflexivity. inversion FF as [|? ? N _]; subst. unfold promote2. cbn [n_kids]. rewrite N. reflexivity. }
    rewrite P. apply SR. exact FN.
Qed.
Definition chosen (ms : list node) : list node := match ms with [] => [] | m :: ms' => m :: filter loud ms' end.
Lemma promote2_named n k ks : nonempty (n_name k) = true -> promote2 (set_kids n (k :: ks)) = set_kids n (k :: ks).
Proof. intros N. unfold promote2, set_kids. cbn [n_kids]. destruct ks; [|reflexivity]. now rewrite N. Qed.
Lemma data_items ns ms : Forall2 rich ns ms -> data (itemsNode ns) = tree TOption nb (chosen ms) false.
Proof.
  intros F. destruct F as [|n m ns ms T F]; [reflexivity|]. pose proof (data_pairs _ _ F) as P. destruct T as (S & D & E & N). pose proof (filter_named loud _ (rich_named _ _ F)) as FN.
  unfold itemsNode. set (rp := tree TRepetition nb (List.map pairNode ns) false) in *.
  assert (I : data (tree TConcat nb [n; rp] false) = tree TConcat nb (m :: filter loud ms) false).
  { rewrite data_step; [|discriminate|discriminate|intros c [<-|[<-|[]]]; [exact S|reflexivity]]. change (n_kids (tree TConcat nb [n; rp] false)) with [n; rp]. cbn [filter]. unfold kept at 1. rewrite D. change (kept rp) with true. cbv match. cbn [negb]. cbv match.
    change (List.map data [n; rp]) with [data n; data rp]. rewrite E. cbn [fat]. unfold lean1, promote1. change (n_kids (set_kids (tree TConcat nb [n; rp] false) [m; data rp])) with [m; data rp]. cbv zeta match.
    change (n_kids (set_kids (tree TConcat nb [n; rp] false) [m; data rp])) with [m; data rp]. rewrite splice_named by exact N. rewrite P. rewrite promote2_named by exact N. reflexivity. }
  rewrite data_step; [|discriminate|discriminate|intros c [<-|[]]; reflexivity]. set (cc := tree TConcat nb [n; rp] false) in *. change (n_kids (tree TOption nb [cc] false)) with [cc]. cbn [filter]. change (kept cc) with true. cbv match.
  change (List.map data [cc]) with [data cc]. rewrite I. cbn [fat]. rewrite lean1_inner by reflexivity. change (n_kids (tree TConcat nb (m :: filter loud ms) false)) with (m :: filter loud ms).
  rewrite splice_all by (constructor; assumption). rewrite promote2_named by exact N. reflexivity.
Qed.
Lemma data_list nn a z ns ms : Forall2 rich ns ms -> data (listNode nn a z ns) = branch TConcat nn (chosen ms).
Proof.
  intros F. pose proof (data_items _ _ F) as I. unfold listNode. set (it := itemsNode ns) in *. assert (SI : n_sticky it = false) by (subst it; now destruct ns). assert (ND : n_nondata it = false) by (subst it; now destruct ns).
  rewrite data_step; [|discriminate|discriminate|intros c [<-|[<-|[<-|[]]]]; [reflexivity|exact SI|reflexivity]].
  change (n_kids (tree TConcat (named nn) [wordNode mark [a]; it; wordNode mark [z]] false)) with [wordNode mark [a]; it; wordNode mark [z]]. assert (FI : filter kept [wordNode mark [a]; it; wordNode mark [z]] = [it]) by (cbn [filter]; change (kept (wordNode mark [a])) with false; change (kept (wordNode mark [z])) with false; unfold kept; now rewrite ND).
  rewrite FI. change (List.map data [it]) with [data it]. rewrite I. cbn [fat]. rewrite lean1_inner by reflexivity. change (n_kids (tree TOption nb (chosen ms) false)) with (chosen ms).
  inversion F as [|n m ns' ms' (_ & _ & _ & N) F']; subst; [reflexivity|]. cbn [chosen]. pose proof (filter_named loud _ (rich_named _ _ F')) as FN.
  rewrite splice_all by (constructor; assumption). rewrite promote2_named by exact N. reflexivity.
Qed.
Lemma data_kv k n m : rich n m -> data (kvNode k n) = branch TConcat (rs "kv") [textTree k; m].
Proof.
  intros (S & D & E & N). unfold kvNode. rewrite data_step; [|discriminate|discriminate|intros c [<-|[<-|[<-|[]]]]; [reflexivity..|exact S]].
  change (n_kids (tree TConcat (named nKv) [strNode k; wordNode mark [58]; n] false)) with [strNode k; wordNode mark [58]; n]. assert (FI : filter kept [strNode k; wordNode mark [58]; n] = [strNode k; n]) by (cbn [filter]; change (kept (strNode k)) with true; change (kept (wordNode mark [58])) with false; unfold kept; now rewrite D).
  rewrite FI. change (List.map data [strNode k; n]) with [data (strNode k); data n]. rewrite data_str, E. cbn [fat].
  unfold lean1, promote1, set_kids, tree, build. cbn [n_kids n_type n_name n_pos n_virtual n_nondata n_tokenized n_chars n_sticky]. rewrite splice_named by reflexivity. rewrite splice_named by exact N. reflexivity.
Qed.

(* ---------------- values ---------------- *)

Lemma data_loose v : n_sticky (bodyRaw v) = false /\ n_nondata (bodyRaw v) = false.
Proof. split; now destruct v. Qed.
Lemma bodyData_named v : nonempty (n_name (bodyData v)) = true.
Proof. now destruct v. Qed.
Lemma loud_leaf ty name c l : c <> EOFChar -> loud (leaf ty name (c :: l)) = true.
Proof. intros N. unfold loud. now rewrite text_leaf. Qed.
Lemma loud_branch ty name ks : loud (branch ty name ks) = existsb loud ks.
Proof. apply loud_inner. Qed.
Lemma loud_text l : Forall (fun c => simple c /\ 0 <= c) l -> loud (textTree l) = match l with [] => false | _ => true end.
Proof. intros F. destruct l as [|c l]; [reflexivity|]. unfold textTree. apply loud_leaf. inversion F as [|? ? [_ P] _]; subst. unfold EOFChar. lia. Qed.
(** Among the later ones those with a text are kept, and these are not all dull. *)
Lemma exists_later (A : Type) (f : A -> bool) (tr : A -> node) l : (forall x, In x l -> loud (tr x) = negb (f x)) ->
  existsb loud (flat_map (fun x => if f x then [] else [tr x]) l) = negb (forallb f l).
Proof.
  induction l as [|x l IH]; intros H; [reflexivity|]. cbn [flat_map forallb]. rewrite existsb_app, IH by (intros y Y; apply H; now right). pose proof (H x (or_introl eq_refl)) as HX. destruct (f x); [reflexivity|]. cbn [existsb]. rewrite HX. reflexivity.
Qed.
Lemma dull_text v : spellable v -> loud (dataOf v) = negb (dull v).
Proof.
  unfold dataOf. induction v as [m i fr|l|b| |l IH|l IH] using json_rect'; rewrite loud_branch; cbn [existsb]; rewrite orb_false_r.
  - intros [D _]. cbn [bodyData dull negb]. unfold litTree. rewrite loud_branch. cbn [existsb]. rewrite orb_false_r. destruct (num_chars m i fr D) as (c & l & -> & C). apply loud_leaf. unfold EOFChar. lia.
  - intros F. cbn [spellable] in F. cbn [bodyData dull]. unfold litTree. rewrite loud_branch. cbn [existsb]. rewrite orb_false_r, (loud_text l F). now destruct l.
  - intros _. destruct b; reflexivity.
  - reflexivity.
  - intros S. apply spellable_arr in S. cbn [bodyData]. rewrite loud_branch. destruct l as [|v l]; [reflexivity|]. inversion IH as [|? ? H1 IH']; subst. inversion S as [|? ? S1 S']; subst. cbn [existsb]. rewrite (H1 S1).
    rewrite (exists_later _ dull (fun v => branch TChoice (rs "value") [bodyData v])).
    + cbn [dull forallb]. now rewrite negb_andb.
    + intros x X. rewrite Forall_forall in IH', S'. exact (IH' x X (S' x X)).
  - intros S. apply spellable_obj in S. cbn [bodyData]. rewrite loud_branch. destruct l as [|v l]; [reflexivity|]. inversion IH as [|? ? H1 IH']; subst. inversion S as [|? ? S1 S']; subst.
    assert (KV : forall m : list Z * json, Forall (fun c => simple c /\ 0 <= c) (fst m) -> loud (branch TChoice (rs "value") [bodyData (snd m)]) = negb (dull (snd m)) ->
      loud (branch TConcat (rs "kv") [textTree (fst m); branch TChoice (rs "value") [bodyData (snd m)]]) = negb (dullMember m)).
    { intros m K L. rewrite loud_branch. cbn [existsb]. rewrite (loud_text _ K), L, orb_false_r. unfold dullMember. now destruct (fst m). }
    cbn [existsb]. destruct S1 as [K1 S1]. rewrite (KV v K1 (H1 S1)).
    rewrite (exists_later _ dullMember (fun m => branch TConcat (rs "kv") [textTree (fst m); branch TChoice (rs "value") [bodyData (snd m)]])).
    + change (dull (JObj (v :: l))) with (dullMember v && forallb dullMember l). now rewrite negb_andb.
    + intros x X. rewrite Forall_forall in IH', S'. destruct (S' x X) as [K SX]. exact (KV x K (IH' x X SX)).
Qed.
Lemma kept_later (A : Type) (f : A -> bool) (tr : A -> node) l : (forall x, In x l -> loud (tr x) = negb (f x)) ->
  filter loud (List.map tr l) = flat_map (fun x => if f x then [] else [tr x]) l.
Proof.
  induction l as [|x l IH]; intros H; [reflexivity|]. cbn [flat_map List.map filter]. rewrite IH by (intros y Y; apply H; now right). rewrite (H x (or_introl eq_refl)). destruct (f x); reflexivity.
Qed.
Lemma rich_value v : data (bodyRaw v) = bodyData v -> rich (valueNode (bodyRaw v)) (dataOf v).
Proof.
  intros E. split; [reflexivity|]. split; [reflexivity|]. split; [|reflexivity]. destruct (data_loose v) as [S D]. unfold valueNode. rewrite (data_one _ _ _ (bodyData v)); [reflexivity|discriminate|].
  split; [exact S|]. split; [exact D|]. split; [exact E|apply bodyData_named].
Qed.
Lemma rich_member k v : data (bodyRaw v) = bodyData v -> rich (kvNode k (valueNode (bodyRaw v))) (branch TConcat (rs "kv") [textTree k; dataOf v]).
Proof. intros E. split; [reflexivity|]. split; [reflexivity|]. split; [|reflexivity]. now apply data_kv, rich_value. Qed.
Lemma data_body v : spellable v -> data (bodyRaw v) = bodyData v.
Proof.
  induction v as [m i fr|l|b| |l IH|l IH] using json_rect'.
  - intros [D F]. cbn [bodyRaw bodyData]. unfold litNode, litTree. apply data_one; [discriminate|]. split; [reflexivity|]. split; [reflexivity|]. split; [|reflexivity].
    rewrite data_slim by apply allData_num. now apply slim_num.
  - intros _. cbn [bodyRaw bodyData]. unfold litNode, litTree. apply data_one; [discriminate|]. split; [reflexivity|]. split; [reflexivity|]. split; [|reflexivity]. apply data_str.
  - intros _. destruct b; reflexivity.
  - intros _. reflexivity.
  - intros S. apply spellable_arr in S. cbn [bodyRaw bodyData].
    assert (F : Forall2 rich (List.map (fun v => valueNode (bodyRaw v)) l) (List.map dataOf l)).
    { clear -S IH. induction l as [|v l IHl]; [constructor|]. inversion IH as [|? ? H1 IH']; subst. inversion S as [|? ? S1 S']; subst. cbn [List.map]. constructor; [now apply rich_value, H1|now apply IHl]. }
    rewrite (data_list _ _ _ _ _ F). f_equal. destruct l as [|v l]; [reflexivity|]. cbn [List.map chosen]. f_equal. inversion S as [|? ? S1 S']; subst. apply kept_later. intros x X. rewrite Forall_forall in S'. apply dull_text. now apply S'.
  - intros S. apply spellable_obj in S. cbn [bodyRaw bodyData]. set (tr := fun m : list Z * json => branch TConcat (rs "kv") [textTree (fst m); dataOf (snd m)]).
    assert (F : Forall2 rich (List.map (fun m => kvNode (fst m) (valueNode (bodyRaw (snd m)))) l) (List.map tr l)).
    { clear -S IH. induction l as [|v l IHl]; [constructor|]. inversion IH as [|? ? H1 IH']; subst. inversion S as [|? ? [_ S1] S']; subst. cbn [List.map]. constructor; [now apply rich_member, H1|now apply IHl]. }
    rewrite (data_list _ _ _ _ _ F). f_equal. destruct l as [|v l]; [reflexivity|]. cbn [List.map chosen]. f_equal. inversion S as [|? ? S1 S']; subst. apply kept_later. intros x X. rewrite Forall_forall in S'. destruct (S' x X) as [K SX].
    pose proof (dull_text _ SX) as DT. unfold dataOf in DT. subst tr. unfold dataOf. cbv beta. rewrite loud_branch. cbn [existsb]. rewrite (loud_text _ K), DT, orb_false_r. unfold dullMember. now destruct (fst x).
Qed.
Theorem data_value v : spellable v -> data (rawOf v) = dataOf v.
Proof. intros S. exact (proj1 (proj2 (proj2 (rich_value v (data_body v S))))). Qed.
Theorem simplify_values_2 vs : Forall spellable vs -> simplify 2 (List.map rawOf vs) = List.map dataOf vs.
Proof.
  intros F. unfold simplify. change (2 =? -1) with false. change (2 =? 2) with true. cbv match.
  unfold astMerge. rewrite loose_kids by (intros c C; apply in_map_iff in C as (v & <- & _); reflexivity). unfold astRemoveVirtual, astRemoveNonData, astRemoveRedundant.
  induction vs as [|v vs IH]; [reflexivity|]. inversion F as [|? ? S1 S']; subst. cbn [List.map flat_map].
  assert (Sv : solid (mergeNode (rawOf v)) = true) by (apply merge_solid; unfold rawOf, valueNode; rewrite solid_tree by reflexivity; cbn [forallb]; now rewrite solid_body).
  rewrite (solid_keep _ Sv). rewrite solid_eq in Sv. apply andb_true_iff in Sv as [V _]. destruct (n_virtual (mergeNode (rawOf v))); [discriminate|]. cbn [app flat_map].
  rewrite merge_nondata. change (n_nondata (rawOf v)) with false. cbv match. cbn [app List.map]. rewrite IH by assumption. f_equal.
  replace (n_nondata (removeNonData (mergeNode (rawOf v)))) with false by (rewrite removeNonData_eq; unfold set_kids; cbn [n_nondata]; now rewrite merge_nondata). exact (data_value v S1).
Qed.
