(** The simplified tree of a JSON value (C72). *)
From Verif Require Import Base Stream Node Rule SpecRule SpecEval SpecEv SpecNode SpecStream StreamFacts NodeFacts NodeText JsonLex SpecJson EraseFacts JsonLang JsonValue.

Definition slim (n : node) : node := removeRedundant (mergeNode n).
Definition lean1 (n : node) (ks : list node) : node := let n1 := promote1 (set_kids n ks) in promote2 (set_kids n1 (splice (n_kids n1))).
Lemma loose_kids l : (forall c, In c l -> n_sticky c = false) -> mergeNodes l = List.map mergeNode l.
Proof.
  induction l as [|c l IH]; intros H; [reflexivity|]. rewrite mergeNodes_keep by (apply H; now left). cbn [List.map]. f_equal. apply IH. intros x X. apply H. now right.
Qed.
Lemma slim_step n : n_kids n <> [] -> n_type n <> TBlock -> (forall c, In c (n_kids n) -> n_sticky c = false) ->
  slim n = lean1 n (List.map slim (n_kids n)).
Proof.
  intros NE NB L. unfold slim. rewrite mergeNode_eq. destruct (n_kids n) as [|k ks] eqn:EK; [congruence|].
  destruct (rtype_eqb (n_type n) TBlock) eqn:E; [apply rtype_eqb_eq in E; congruence|]. rewrite (loose_kids _ L), removeRedundant_eq.
  replace (n_kids (set_kids n (List.map mergeNode (k :: ks)))) with (List.map mergeNode (k :: ks)) by now destruct n.
  cbn [List.map]. unfold lean1. cbv zeta. cbn [List.map]. rewrite map_map.
  assert (S : forall x y, set_kids (set_kids n x) y = set_kids n y) by now destruct n. now rewrite S.
Qed.
Lemma slim_leaf n : n_kids n = [] -> slim n = n.
Proof. intros E. unfold slim. rewrite mergeNode_eq, E, removeRedundant_eq. now rewrite E. Qed.

(** One named child. *)
Lemma slim_one ty b n : ty <> TBlock -> n_sticky n = false -> nonempty (n_name (slim n)) = true ->
  slim (tree ty b [n] false) = tree ty b [slim n] false.
Proof.
  intros NB S N. rewrite slim_step; [|discriminate|exact NB|intros c [<-|[]]; exact S]. cbn [n_kids tree build List.map]. unfold lean1, promote1, set_kids, tree, build. cbn [n_kids n_type n_name n_chars].
  rewrite N. cbn [n_kids n_type n_name n_chars n_pos n_sticky n_virtual n_nondata n_tokenized]. unfold splice. cbn [flat_map]. rewrite N. cbn [negb andb]. rewrite andb_false_r. cbn [app].
  unfold promote2. cbn [n_kids]. rewrite N. reflexivity.
Qed.

(* ---------------- texts ---------------- *)

Lemma textFold_sticky l : forall block acc, (forall x, In x l -> snd x = true) -> textFold block acc true l = acc ++ flat_map fst l.
Proof.
  induction l as [|[t st] l IH]; intros block acc H; cbn [textFold flat_map fst]; [now rewrite app_nil_r|].
  assert (st = true) as -> by exact (H _ (or_introl eq_refl)). cbn [negb orb]. rewrite andb_false_r. cbn [app].
  rewrite IH by (intros x X; apply H; now right). now rewrite <- app_assoc.
Qed.
Lemma text_sticky ty b kids st : (forall c, In c kids -> n_sticky c = true) -> text (tree ty b kids st) = flat_map text kids.
Proof.
  intros H. unfold tree, build. cbn [text n_chars n_type n_kids]. destruct kids as [|k ks]; [reflexivity|]. cbn [List.map textFold flat_map].
  assert (n_sticky k = true) as -> by (apply H; now left). cbn [nonempty andb negb]. rewrite andb_false_r. cbn [app andb].
  rewrite textFold_sticky by (intros x X; apply in_map_iff in X as (c & <- & C); cbn; apply H; now right).
  f_equal. rewrite flat_map_concat_map, map_map, <- flat_map_concat_map. reflexivity.
Qed.
Lemma text_char b c : c <> EOFChar -> text (charNode b c) = [c].
Proof. intros N. unfold charNode, build. cbn [text n_chars isEOFText]. destruct (Z.eqb_spec c EOFChar); [contradiction|reflexivity]. Qed.
Lemma text_digit d : 48 <= d <= 57 -> text (digitNode d) = [d].
Proof. intros D. unfold digitNode. rewrite text_sticky by (intros c [<-|[]]; reflexivity). cbn [flat_map]. rewrite text_char; [reflexivity|]. unfold EOFChar. lia. Qed.
Lemma text_digits ds : Forall (fun c => 48 <= c <= 57) ds -> text (digitsNode ds) = ds.
Proof.
  intros F. unfold digitsNode. rewrite text_sticky by (intros c C; apply in_map_iff in C as (d & <- & _); reflexivity).
  induction F as [|d ds D F IH]; [reflexivity|]. cbn [List.map flat_map]. now rewrite IH, text_digit.
Qed.
Lemma text_int ds : digitRun ds -> text (intNode ds) = ds.
Proof.
  intros [NE F]. destruct ds as [|d ds]; [congruence|]. inversion F; subst. unfold intNode. rewrite text_sticky by (intros c [<-|[<-|[]]]; reflexivity).
  cbn [flat_map]. rewrite text_digit, text_digits by assumption. now rewrite app_nil_r.
Qed.
Lemma int_sticky ds : n_sticky (intNode ds) = true.
Proof. now destruct ds. Qed.
Lemma frac_sticky ds fr : n_sticky (fracNode ds fr) = true.
Proof. destruct fr as [[|]|]; [reflexivity..|]. apply int_sticky. Qed.
Lemma text_frac ds fr : digitRun ds -> (forall l, fr = Some l -> digitRun l) -> text (fracNode ds fr) = ds ++ dotted fr.
Proof.
  intros D H. destruct fr as [es|]; cbn [fracNode dotted]; [|rewrite app_nil_r; now apply text_int].
  specialize (H es eq_refl). destruct H as [NE F]. destruct es as [|e es]; [congruence|]. inversion F; subst. unfold floatNode.
  rewrite text_sticky by (intros c [<-|[<-|[<-|[<-|[]]]]]; [apply int_sticky|reflexivity..]).
  cbn [flat_map]. rewrite text_int, text_char, text_digit, text_digits by (assumption || discriminate). rewrite app_nil_r. reflexivity.
Qed.
Lemma text_sign m : text (signNode m) = minusSign m.
Proof. now destruct m. Qed.

(* ---------------- numbers ---------------- *)

Lemma eofText_head c l : c <> EOFChar -> isEOFText (c :: l) = false.
Proof. intros N. destruct l; [|reflexivity]. cbn. destruct (Z.eqb_spec c EOFChar); [contradiction|reflexivity]. Qed.
Lemma splice_cons c l : splice (c :: l) = (if negb (nonempty (text c)) && negb (nonempty (n_name c)) then []
    else if negb (nonempty (n_name c)) && nonempty (n_kids c) then n_kids c else [c]) ++ splice l.
Proof. reflexivity. Qed.
Lemma splice_named c l : nonempty (n_name c) = true -> splice (c :: l) = c :: splice l.
Proof. intros N. rewrite splice_cons, N. cbn [negb]. now rewrite andb_false_r. Qed.
Lemma splice_inner c l : n_name c = [] -> text c <> [] -> n_kids c <> [] -> splice (c :: l) = n_kids c ++ splice l.
Proof. intros N T K. rewrite splice_cons, N. destruct (text c); [congruence|]. destruct (n_kids c); [congruence|]. reflexivity. Qed.
Lemma num_chars m i fr : digitRun i -> exists c l, minusSign m ++ i ++ dotted fr = c :: l /\ (c = 45 \/ 48 <= c <= 57).
Proof. intros [NE F]. destruct m; [exists 45, (i ++ dotted fr); auto|]. destruct i as [|c i]; [congruence|]. inversion F; subst. exists c, (i ++ dotted fr). auto. Qed.
Lemma slim_num m i fr : digitRun i -> (forall l, fr = Some l -> digitRun l) ->
  slim (numRaw m i fr) = leaf TConcat (rs "number") (minusSign m ++ i ++ dotted fr).
Proof.
  intros D H. unfold slim, numRaw, numNode. rewrite mergeNode_eq. cbn [n_kids tree build n_type rtype_eqb].
  rewrite mergeNodes_keep by reflexivity. rewrite (mergeNodes_run (signNode m)) by reflexivity.
  cbn [runOf afterRun]. change (n_sticky (eitherNode (fracNode i fr))) with true. cbv match.
  change (mergeNodes []) with (@nil node).
  assert (TX : text (eitherNode (fracNode i fr)) = i ++ dotted fr).
  { unfold eitherNode. rewrite text_sticky by (intros c [<-|[]]; apply frac_sticky). cbn [flat_map]. rewrite app_nil_r. now apply text_frac. }
  unfold token. cbn [flat_map]. rewrite TX, text_sign, app_nil_r.
  destruct (num_chars m i fr D) as (c & l & E & CC). rewrite E.
  assert (NE : isEOFText (c :: l) = false) by (apply eofText_head; unfold EOFChar; lia).
  unfold signNode, tree, build, set_sticky, set_kids, set_chars, named, nb, noBase. cbn [n_type n_name n_pos n_virtual n_nondata n_tokenized n_kids n_chars n_sticky b_name b_virtual b_nondata b_tokenized].
  rewrite removeRedundant_eq. cbn [n_kids List.map]. rewrite !removeRedundant_eq. cbn [n_kids mergeNode wordNode build]. cbv zeta.
  unfold promote1, set_kids. cbn [n_kids n_type n_name n_pos n_virtual n_nondata n_tokenized n_chars n_sticky]. rewrite !splice_cons. cbn [text n_chars n_kids n_name n_type List.map textFold]. rewrite NE. reflexivity.
Qed.

(* ---------------- strings ---------------- *)

Lemma slim_str l : (forall c, In c l -> c <> EOFChar) -> slim (strNode l) = quotedTree l.
Proof.
  intros H. destruct l as [|c l]; [reflexivity|]. unfold slim, strNode, quotedTree. rewrite mergeNode_eq. cbn [n_kids tree build n_type rtype_eqb List.map mergeNode charNode contentNode].
  unfold set_sticky, set_kids. cbn [n_type n_name n_pos n_virtual n_nondata n_tokenized n_kids n_chars n_sticky]. rewrite removeRedundant_eq. cbn [n_kids List.map]. rewrite !removeRedundant_eq. cbn [n_kids]. cbv zeta.
  unfold promote1, set_kids. cbn [n_kids n_type n_name n_pos n_virtual n_nondata n_tokenized n_chars n_sticky]. rewrite !splice_cons. cbn [text n_chars n_kids n_name].
  rewrite (eofText_head c l) by (apply H; now left). reflexivity.
Qed.

(* ---------------- lists ---------------- *)

Lemma lean1_inner n c : n_name c = [] -> n_chars c = [] -> lean1 n [c] = promote2 (set_kids n (splice (n_kids c))).
Proof. intros N C. unfold lean1, promote1. destruct n. cbn. now rewrite N, C. Qed.
Lemma promote2_two n a b l : promote2 (set_kids n (a :: b :: l)) = set_kids n (a :: b :: l).
Proof. now destruct n. Qed.

Definition commaed (l : list node) : list node := flat_map (fun m => [punct 44; m]) l.
Lemma between_commaed m l : between (m :: l) = m :: commaed l.
Proof. revert m. induction l as [|x l IH]; intros m; [reflexivity|]. cbn [between]. f_equal. cbn [commaed flat_map app]. f_equal. apply IH. Qed.
Definition nice (m : node) : Prop := nonempty (n_name m) = true /\ text m <> [].
Lemma splice_commaed l : Forall nice l -> splice (commaed l) = commaed l.
Proof.
  induction 1 as [|m l [N _] F IH]; [reflexivity|]. cbn [commaed flat_map app]. rewrite splice_cons. cbn [text n_chars punct nameless isEOFText nonempty negb andb n_name n_kids app].
  change (44 =? EOFChar) with false. cbv match. cbn [nonempty negb andb app]. rewrite splice_named by exact N. f_equal. f_equal. exact IH.
Qed.
Lemma textFold_grows l : forall block acc b, acc <> [] -> textFold block acc b l <> [].
Proof.
  induction l as [|[t st] l IH]; intros block acc b NE; cbn [textFold]; [exact NE|]. apply IH. destruct acc; [congruence|discriminate].
Qed.
Lemma text_first ty b k ks st : text k <> [] -> text (tree ty b (k :: ks) st) <> [].
Proof.
  intros NE. unfold tree, build. cbn [text n_chars n_kids List.map textFold]. apply textFold_grows. cbn [nonempty andb negb]. rewrite andb_false_r. cbn [app]. exact NE.
Qed.
Definition thin (n m : node) : Prop := n_sticky n = false /\ slim n = m /\ nice m.
Lemma slim_word b w : slim (wordNode b w) = wordNode b w.
Proof. now apply slim_leaf. Qed.
Lemma slim_pair n m : thin n m -> slim (pairNode n) = pairNode m.
Proof.
  intros (S & E & N & _). unfold pairNode. rewrite slim_step; [|discriminate|discriminate|intros c [<-|[<-|[]]]; [reflexivity|exact S]].
  cbn [n_kids tree build List.map]. rewrite slim_word, E. unfold lean1, promote1, tree, build, set_kids. cbn [n_kids n_type n_name n_pos n_virtual n_nondata n_tokenized n_chars n_sticky].
  rewrite splice_cons, splice_named by exact N. reflexivity.
Qed.
Lemma slim_pairMap ns ms : Forall2 thin ns ms -> List.map slim (List.map pairNode ns) = List.map pairNode ms.
Proof. induction 1 as [|n m ns ms T F IH]; [reflexivity|]. cbn [List.map]. now rewrite IH, (slim_pair n m T). Qed.
Lemma thin_nice ns ms : Forall2 thin ns ms -> Forall nice ms.
Proof. induction 1 as [|n m ns ms (_ & _ & N) F IH]; constructor; assumption. Qed.
Lemma slim_pairs ns ms : Forall2 thin ns ms -> slim (tree TRepetition nb (List.map pairNode ns) false) = tree TRepetition nb (commaed ms) false.
Proof.
  intros F. destruct F as [|n m ns ms T F]; [reflexivity|]. set (ns' := n :: ns) in *. set (ms' := m :: ms).
  assert (F' : Forall2 thin ns' ms') by (constructor; assumption). rewrite slim_step; [|discriminate|discriminate|intros c C; apply in_map_iff in C as (x & <- & _); reflexivity].
  pose proof (slim_pairMap _ _ F') as E.
  cbn [n_kids tree build]. rewrite E.
  assert (SP : splice (List.map pairNode ms') = commaed ms').
  { generalize ms'. clear. intros l. induction l as [|m ms IH]; [reflexivity|]. cbn [List.map]. rewrite splice_cons, IH. unfold pairNode at 1.
    pose proof (text_first TConcat nb (wordNode mark [44]) [m] false) as T. destruct (text (tree TConcat nb [wordNode mark [44]; m] false)) as [|x t]; [exfalso; apply T; [discriminate|reflexivity]|]. reflexivity. }
  pose proof (thin_nice _ _ F') as FN.
  pose proof (splice_commaed _ FN) as SC.
  destruct ms as [|m2 ms].
  - subst ms'. cbn [List.map] in *. rewrite lean1_inner by reflexivity. change (n_kids (pairNode m)) with (commaed [m]). rewrite SC. reflexivity.
  - subst ms'. cbn [List.map] in *. unfold lean1, promote1, set_kids, tree, build. cbn [n_kids n_type n_name n_pos n_virtual n_nondata n_tokenized n_chars n_sticky]. rewrite SP. reflexivity.
Qed.
Lemma slim_items ns ms : Forall2 thin ns ms -> slim (itemsNode ns) = match ms with [] => itemsNode [] | m :: ms' => tree TOption nb (m :: commaed ms') false end.
Proof.
  intros F. destruct F as [|n m ns ms T F]; [reflexivity|]. pose proof (slim_pairs _ _ F) as P. destruct T as (S & E & N & TX).
  pose proof (thin_nice _ _ F) as FN.
  unfold itemsNode. rewrite slim_step; [|discriminate|discriminate|intros c [<-|[]]; reflexivity]. cbn [n_kids tree build List.map].
  assert (I : slim (tree TConcat nb [n; tree TRepetition nb (List.map pairNode ns) false] false) = tree TConcat nb (m :: commaed ms) false).
  { rewrite slim_step; [|discriminate|discriminate|intros c [<-|[<-|[]]]; [exact S|reflexivity]]. cbn [n_kids tree build List.map]. fold (tree TRepetition nb (List.map pairNode ns) false).
    rewrite E, P. unfold lean1, promote1, set_kids, tree, build. cbn [n_kids n_type n_name n_pos n_virtual n_nondata n_tokenized n_chars n_sticky].
    rewrite splice_named by exact N. destruct ms as [|m2 ms].
    - cbn [commaed flat_map]. unfold promote2. cbn. rewrite N. reflexivity.
    - rewrite splice_inner; [|reflexivity| |discriminate].
      + cbn [n_kids splice flat_map]. rewrite app_nil_r. reflexivity.
      + exact (text_first TRepetition nb (punct 44) (m2 :: commaed ms) false ltac:(discriminate)). }
  fold (tree TConcat nb [n; tree TRepetition nb (List.map pairNode ns) false] false). unfold tree, build in I |- *. rewrite I. unfold lean1, promote1, set_kids. cbn [n_kids n_type n_name n_pos n_virtual n_nondata n_tokenized n_chars n_sticky b_name nb noBase nonempty].
  rewrite splice_named by exact N. rewrite (splice_commaed _ FN). unfold promote2. cbn [n_kids]. destruct ms; [|reflexivity]. cbn [commaed flat_map]. rewrite N. reflexivity.
Qed.
Lemma slim_list nn a z ns ms : nonempty nn = true -> a <> EOFChar -> z <> EOFChar -> Forall2 thin ns ms ->
  slim (listNode nn a z ns) = branch TConcat nn (punct a :: between ms ++ [punct z]).
Proof.
  intros NN NA NZ F. pose proof (slim_items _ _ F) as I. unfold listNode.
  rewrite slim_step; [|discriminate|discriminate|]. 2:{ intros c [<-|[<-|[<-|[]]]]; [reflexivity| |reflexivity]. now destruct ns. }
  cbn [n_kids tree build List.map]. rewrite !slim_word, I.
  assert (W : forall c l, c <> EOFChar -> splice (wordNode mark [c] :: l) = wordNode mark [c] :: splice l).
  { intros c l NC. rewrite splice_cons. unfold wordNode, build. cbn [text n_chars n_kids]. rewrite (eofText_head c [] NC). reflexivity. }
  unfold lean1, promote1, set_kids, tree, build. cbn [n_kids n_type n_name n_pos n_virtual n_nondata n_tokenized n_chars n_sticky].
  rewrite W by exact NA. inversion F as [|n m ns' ms' T F']; subst.
  - rewrite splice_cons. cbn [text n_chars n_kids n_name itemsNode tree build List.map textFold b_name nb noBase nonempty negb andb app]. rewrite W by exact NZ. reflexivity.
  - destruct T as (_ & _ & _ & TX). rewrite splice_inner; [|reflexivity|exact (text_first TOption nb m (commaed ms') false TX)|discriminate].
    rewrite between_commaed, W by exact NZ. reflexivity.
Qed.

(* ---------------- values ---------------- *)

Lemma spellable_arr l : spellable (JArr l) <-> Forall spellable l.
Proof.
  cbn [spellable]. induction l as [|v l IH]; [split; constructor|]. split.
  - intros [A B]. constructor; [exact A|now apply IH].
  - intros F. inversion F; subst. split; [assumption|now apply IH].
Qed.
Lemma spellable_obj l : spellable (JObj l) <-> Forall (fun m => Forall (fun c => simple c /\ 0 <= c) (fst m) /\ spellable (snd m)) l.
Proof.
  cbn [spellable]. induction l as [|v l IH]; [split; constructor|]. split.
  - intros [A B]. constructor; [exact A|now apply IH].
  - intros F. inversion F; subst. split; [assumption|now apply IH].
Qed.

(* texts of the trees *)
Definition sharp (t : list Z) : Prop := t <> [] /\ isWS (hd 0 t) = false /\ isWS (last t 0) = false.
Lemma sharp_app a b : a <> [] -> isWS (hd 0 a) = false -> sharp b -> sharp (a ++ b).
Proof.
  intros NA HA (NB & _ & LB). split; [destruct a; [congruence|discriminate]|]. split; [destruct a; [congruence|exact HA]|]. now rewrite last_app2.
Qed.
Lemma sharp_one c : isWS c = false -> sharp [c].
Proof. intros H. split; [discriminate|]. now split. Qed.
Lemma textFold_sharp l : Forall sharp (List.map fst l) -> (forall x, In x l -> snd x = false) -> forall acc b, acc <> [] -> isWS (last acc 0) = false ->
  textFold false acc b l = acc ++ flat_map (fun t => 32 :: t) (List.map fst l).
Proof.
  induction l as [|[t st] l IH]; intros F S acc b NA LA; [cbn; now rewrite app_nil_r|]. cbn [List.map fst flat_map textFold] in *. inversion F as [|? ? SH F']; subst.
  assert (st = false) as -> by exact (S _ (or_introl eq_refl)). destruct SH as (NT & HT & LT). rewrite LA, HT.
  destruct acc as [|x acc]; [congruence|]. destruct t as [|y t]; [congruence|]. cbn [negb nonempty andb orb]. rewrite orb_true_r.
  rewrite IH; [|exact F'|intros z Z; apply S; now right|discriminate|].
  - rewrite <- !app_assoc. reflexivity.
  - rewrite app_assoc. rewrite last_app2 by discriminate. exact LT.
Qed.
Lemma text_branch ty name k ks : ty <> TBlock -> Forall sharp (List.map text (k :: ks)) -> (forall c, In c ks -> n_sticky c = false) ->
  text (branch ty name (k :: ks)) = text k ++ flat_map (fun t => 32 :: t) (List.map text ks).
Proof.
  intros NB F S. unfold branch. cbn [text n_chars n_type n_kids List.map textFold]. cbn [List.map] in F. inversion F as [|? ? (NT & HT & LT) F']; subst.
  destruct (rtype_eqb ty TBlock) eqn:E; [apply rtype_eqb_eq in E; congruence|]. cbn [nonempty andb negb app].
  assert (EQ : List.map fst (List.map (fun c => (text c, n_sticky c)) ks) = List.map text ks) by now rewrite map_map.
  rewrite textFold_sharp; [now rewrite EQ|now rewrite EQ| |exact NT|exact LT].
  intros x X. apply in_map_iff in X as (c & <- & C). now apply S.
Qed.
Lemma text_quoted l : Forall (fun c => simple c /\ 0 <= c) l -> text (quotedTree l) = inQuotes l.
Proof.
  intros F. destruct l as [|c l]; [reflexivity|]. inversion F as [|? ? [_ C] _]; subst. unfold quotedTree, inQuotes, branch. cbn [text n_chars n_type n_kids List.map app nameless leaf].
  rewrite (eofText_head c l) by (unfold EOFChar; lia). cbn [rtype_eqb textFold negb andb app]. reflexivity.
Qed.
Lemma sharp_quoted l : sharp (inQuotes l).
Proof. split; [discriminate|]. split; [reflexivity|]. unfold inQuotes. change (34 :: l ++ [34]) with ((34 :: l) ++ [34]). now rewrite last_last. Qed.
Lemma sharp_num m i fr : digitRun i -> (forall l, fr = Some l -> digitRun l) -> sharp (minusSign m ++ i ++ dotted fr).
Proof.
  intros D H. destruct (num_chars m i fr D) as (c & l & E & CC). split; [rewrite E; discriminate|].
  assert (W : forall d, d = 45 \/ 48 <= d <= 57 -> isWS d = false).
  { intros d [->|X]; [reflexivity|]. apply digit_dark. now apply isDigit_iff. }
  split; [rewrite E; cbn; now apply W|]. apply W. right.
  assert (L : forall x, digitRun x -> forall y, 48 <= last (y ++ x) 0 <= 57).
  { intros x [NE F] y. destruct (exists_last NE) as (x' & d & ->). rewrite app_assoc, last_last. apply Forall_app in F as [_ F]. now inversion F. }
  destruct fr as [es|]; cbn [dotted].
  - change (46 :: es) with ([46] ++ es). rewrite !app_assoc. apply L. now apply H.
  - rewrite app_nil_r. now apply L.
Qed.
Lemma text_leaf ty name c l : c <> EOFChar -> text (leaf ty name (c :: l)) = c :: l.
Proof. intros N. unfold leaf. cbn [text n_chars]. now rewrite eofText_head. Qed.
Lemma text_num m i fr : digitRun i -> (forall l, fr = Some l -> digitRun l) -> text (leaf TConcat (rs "number") (minusSign m ++ i ++ dotted fr)) = minusSign m ++ i ++ dotted fr.
Proof. intros D H. destruct (num_chars m i fr D) as (c & l & E & CC). rewrite E. apply text_leaf. unfold EOFChar. lia. Qed.
Lemma text_only ty name n : ty <> TBlock -> sharp (text n) -> text (branch ty name [n]) = text n.
Proof. intros NB S. rewrite text_branch; [cbn [List.map flat_map]; now rewrite app_nil_r|exact NB|cbn [List.map]; constructor; [exact S|constructor]|intros c []]. Qed.

Lemma join_nonempty l : Forall sharp l -> l <> [] -> join l <> [].
Proof. intros F NE. destruct F as [|x l (NX & _) F]; [congruence|]. cbn. destruct l; [exact NX|]. destruct x; discriminate. Qed.
Lemma between_join ms : ms <> [] -> flat_map (fun t => 32 :: t) (List.map text (between ms)) = 32 :: join (List.map text ms).
Proof.
  induction ms as [|m ms IH]; [congruence|]. intros _. destruct ms as [|m2 ms]; [cbn; now rewrite app_nil_r|].
  change (between (m :: m2 :: ms)) with (m :: punct 44 :: between (m2 :: ms)). cbn [List.map flat_map]. rewrite IH by discriminate.
  change (join (text m :: List.map text (m2 :: ms))) with (text m ++ 32 :: 44 :: 32 :: join (List.map text (m2 :: ms))). reflexivity.
Qed.
Lemma between_all (P : node -> Prop) ms : P (punct 44) -> Forall P ms -> Forall P (between ms).
Proof.
  intros C F. destruct F as [|m ms M F]; [constructor|]. rewrite between_commaed. constructor; [exact M|]. induction F; cbn; [constructor|]. constructor; [exact C|]. now constructor.
Qed.
Lemma text_list name a z ms : isWS a = false -> isWS z = false -> 0 <= a -> 0 <= z -> Forall (fun m => sharp (text m) /\ n_sticky m = false) ms ->
  text (branch TConcat name (punct a :: between ms ++ [punct z])) = wrapped a z (join (List.map text ms)).
Proof.
  intros WA WZ A Z F. assert (P : forall c, isWS c = false -> 0 <= c -> sharp (text (punct c)) /\ text (punct c) = [c]).
  { intros c W C. assert (text (punct c) = [c]) as -> by (unfold punct, nameless; cbn [text n_chars]; rewrite eofText_head by (unfold EOFChar; lia); reflexivity). split; [now apply sharp_one|reflexivity]. }
  pose proof (between_all (fun m => sharp (text m) /\ n_sticky m = false) ms (conj (proj1 (P 44 eq_refl ltac:(lia))) eq_refl) F) as FB.
  rewrite text_branch; [|discriminate| |].
  - rewrite (proj2 (P a WA A)). unfold wrapped. cbn [app]. f_equal. rewrite map_app, flat_map_app. cbn [List.map flat_map]. rewrite (proj2 (P z WZ Z)). cbn [app].
    destruct ms as [|m ms]; [reflexivity|]. rewrite between_join by discriminate. cbn [app]. f_equal.
    assert (NJ : join (List.map text (m :: ms)) <> []).
    { apply join_nonempty; [|discriminate]. clear -F. induction F as [|x l [S _] F IH]; [constructor|]. cbn [List.map]. now constructor. }
    destruct (join (List.map text (m :: ms))) as [|x l]; [congruence|]. now rewrite <- app_assoc.
  - cbn [List.map]. constructor; [exact (proj1 (P a WA A))|]. rewrite map_app. apply Forall_app. split.
    + clear -FB. induction FB as [|x l [S _] F IH]; [constructor|]. cbn [List.map]. now constructor.
    + constructor; [exact (proj1 (P z WZ Z))|constructor].
  - intros c C. apply in_app_or in C as [C|[<-|[]]]; [|reflexivity]. rewrite Forall_forall in FB. now apply FB.
Qed.
Lemma sharp_wrapped a z l : isWS a = false -> isWS z = false -> sharp (wrapped a z l).
Proof.
  intros A Z. unfold wrapped. split; [discriminate|]. split; [exact A|]. change (a :: 32 :: match l with [] => [] | _ :: _ => l ++ [32] end ++ [z]) with ((a :: 32 :: match l with [] => [] | _ :: _ => l ++ [32] end) ++ [z]).
  now rewrite last_last.
Qed.

Lemma tree_text v : spellable v -> text (treeOf v) = neat v /\ sharp (neat v).
Proof.
  assert (X : spellable v -> text (bodyTree v) = neat v /\ sharp (neat v)).
  2:{ intros S. destruct (X S) as [T H]. split; [|exact H]. unfold treeOf. rewrite text_only; [exact T|discriminate|now rewrite T]. }
  induction v as [m i fr|l|b| |l IH|l IH] using json_rect'.
  - intros [D F]. cbn [bodyTree neat]. pose proof (sharp_num m i fr D F) as SH. split; [|exact SH]. unfold litTree. rewrite text_only; [now apply text_num|discriminate|now rewrite text_num].
  - intros F. cbn [bodyTree neat]. cbn [spellable] in F. split; [|apply sharp_quoted]. unfold litTree. rewrite text_only; [now apply text_quoted|discriminate|]. rewrite text_quoted by exact F. apply sharp_quoted.
  - intros _. destruct b; (split; [reflexivity|]); (split; [discriminate|]); split; reflexivity.
  - intros _. split; [reflexivity|]. split; [discriminate|]. split; reflexivity.
  - intros S. apply spellable_arr in S. cbn [bodyTree neat]. split; [|now apply sharp_wrapped].
    assert (E : Forall (fun v => text (treeOf v) = neat v /\ sharp (neat v)) l).
    { rewrite Forall_forall in *. intros v V. destruct (IH v V (S v V)) as [T H]. split; [|exact H]. unfold treeOf. rewrite text_only; [exact T|discriminate|now rewrite T]. }
    change (List.map (fun v => branch TChoice (rs "value") [bodyTree v]) l) with (List.map treeOf l).
    assert (E1 : List.map text (List.map treeOf l) = List.map neat l).
    { rewrite map_map. apply map_ext_in. rewrite Forall_forall in E. intros v V. now apply E. }
    rewrite text_list; [now rewrite E1|reflexivity|reflexivity|lia|lia|].
    apply Forall_forall. intros m M. apply in_map_iff in M as (v & <- & V). rewrite Forall_forall in E. destruct (E v V) as [T H]. split; [now rewrite T|reflexivity].
  - intros S. apply spellable_obj in S. cbn [bodyTree neat]. split; [|now apply sharp_wrapped].
    set (kt := fun m : list Z * json => branch TConcat (rs "kv") [quotedTree (fst m); punct 58; branch TChoice (rs "value") [bodyTree (snd m)]]).
    set (kn := fun m : list Z * json => inQuotes (fst m) ++ 32 :: 58 :: 32 :: neat (snd m)).
    assert (E : Forall (fun m => text (kt m) = kn m /\ sharp (kn m)) l).
    { rewrite Forall_forall in *. intros m M. destruct (S m M) as [K S']. destruct (IH m M S') as [T H].
      assert (TT : text (treeOf (snd m)) = neat (snd m)) by (unfold treeOf; rewrite text_only; [exact T|discriminate|now rewrite T]).
      unfold kt, kn. change (branch TChoice (rs "value") [bodyTree (snd m)]) with (treeOf (snd m)). split.
      - rewrite text_branch; [|discriminate| |].
        + rewrite text_quoted by exact K. cbn [List.map flat_map app]. now rewrite TT, app_nil_r.
        + cbn [List.map]. rewrite TT, text_quoted by exact K. constructor; [apply sharp_quoted|]. constructor; [now apply (sharp_one 58)|]. constructor; [exact H|constructor].
        + intros c [<-|[<-|[]]]; reflexivity.
      - change (32 :: 58 :: 32 :: neat (snd m)) with ([32; 58; 32] ++ neat (snd m)). rewrite app_assoc. apply sharp_app; [discriminate|reflexivity|exact H]. }
    assert (E1 : List.map text (List.map kt l) = List.map kn l).
    { rewrite map_map. apply map_ext_in. rewrite Forall_forall in E. intros v V. now apply E. }
    rewrite text_list; [now rewrite E1|reflexivity|reflexivity|lia|lia|].
    apply Forall_forall. intros m M. apply in_map_iff in M as (v & <- & V). rewrite Forall_forall in E. destruct (E v V) as [T H]. split; [now rewrite T|reflexivity].
Qed.

(* the trees *)
Lemma slim_kv k n m : Forall (fun c => simple c /\ 0 <= c) k -> thin n m -> slim (kvNode k n) = branch TConcat (rs "kv") [quotedTree k; punct 58; m].
Proof.
  intros K (S & E & N & _). unfold kvNode. rewrite slim_step; [|discriminate|discriminate|intros c [<-|[<-|[<-|[]]]]; [reflexivity..|exact S]].
  cbn [n_kids tree build List.map]. rewrite slim_word, E, slim_str. 2:{ intros c C. rewrite Forall_forall in K. destruct (K c C). unfold EOFChar. lia. }
  unfold lean1, promote1, tree, build, set_kids. cbn [n_kids n_type n_name n_pos n_virtual n_nondata n_tokenized n_chars n_sticky].
  rewrite splice_named by reflexivity. rewrite splice_cons, splice_named by exact N. reflexivity.
Qed.
Lemma body_named v : nonempty (n_name (bodyTree v)) = true.
Proof. now destruct v. Qed.
Lemma body_loose v : n_sticky (bodyRaw v) = false.
Proof. now destruct v. Qed.
Lemma slim_body v : spellable v -> slim (bodyRaw v) = bodyTree v.
Proof.
  induction v as [m i fr|l|b| |l IH|l IH] using json_rect'.
  - intros [D F]. cbn [bodyRaw bodyTree]. unfold litNode, litTree. rewrite slim_one; rewrite ?slim_num; try discriminate; try reflexivity; assumption.
  - intros F. cbn [spellable] in F. assert (NE : forall c, In c l -> c <> EOFChar) by (intros c C; rewrite Forall_forall in F; destruct (F c C); unfold EOFChar; lia).
    cbn [bodyRaw bodyTree]. unfold litNode, litTree. rewrite slim_one; rewrite ?slim_str by exact NE; try discriminate; reflexivity.
  - intros _. destruct b; reflexivity.
  - intros _. reflexivity.
  - intros S. apply spellable_arr in S. cbn [bodyRaw bodyTree]. apply slim_list; [reflexivity|discriminate|discriminate|].
    induction l as [|v l IHl]; [constructor|]. cbn [List.map]. inversion IH as [|? ? H1 IH']; subst. inversion S as [|? ? H4 S']; subst. constructor; [|now apply IHl].
    split; [reflexivity|]. split; [|split; [reflexivity|]].
    + unfold valueNode. rewrite slim_one; [|discriminate|apply body_loose|]; rewrite (H1 H4); [reflexivity|apply body_named].
    + destruct (tree_text v H4) as [T (NE & _)]. unfold treeOf in T. rewrite T. exact NE.
  - intros S. apply spellable_obj in S. cbn [bodyRaw bodyTree]. apply slim_list; [reflexivity|discriminate|discriminate|].
    induction l as [|[k v] l IHl]; [constructor|]. cbn [List.map fst snd]. inversion IH as [|? ? H1 IH']; subst. inversion S as [|? ? [K SV] S']; subst. cbn [fst snd] in *. constructor; [|now apply IHl].
    destruct (tree_text v SV) as [T (NE & _)].
    assert (TH : thin (valueNode (bodyRaw v)) (treeOf v)).
    { split; [reflexivity|]. split; [|split; [reflexivity|]].
      - unfold valueNode. rewrite slim_one; [|discriminate|apply body_loose|]; rewrite (H1 SV); [reflexivity|apply body_named].
      - rewrite T. exact NE. }
    split; [reflexivity|]. split; [|split; [reflexivity|]].
    + now apply slim_kv.
    + apply (text_first TConcat (named nKv)). rewrite text_quoted by exact K. discriminate.
Qed.
Theorem slim_value v : spellable v -> slim (rawOf v) = treeOf v.
Proof. intros S. unfold rawOf, valueNode. rewrite slim_one; [|discriminate|apply body_loose|]; rewrite (slim_body v S); [reflexivity|apply body_named]. Qed.

(** The tree is loose, and nothing in it is virtual. *)
Theorem simplify_values vs : Forall spellable vs -> simplify 0 (List.map rawOf vs) = List.map treeOf vs.
Proof.
  intros F. unfold simplify. change (0 =? -1) with false. change (0 =? 2) with false. change (0 =? 1) with false. cbv match.
  unfold astMerge. rewrite loose_kids by (intros c C; apply in_map_iff in C as (v & <- & _); reflexivity).
  unfold astRemoveRedundant. rewrite !map_map. apply map_ext_in. intros v V. rewrite Forall_forall in F. specialize (F v V).
  replace (n_nondata (mergeNode (rawOf v))) with false by (unfold rawOf, valueNode; rewrite mergeNode_eq; reflexivity). now apply slim_value.
Qed.

(* ---------------- level 1 ---------------- *)

Fixpoint solid (n : node) : bool := negb (n_virtual n) && forallb solid (n_kids n).
Lemma solid_eq n : solid n = negb (n_virtual n) && forallb solid (n_kids n).
Proof. now destruct n. Qed.
Lemma merge_solid n : solid n = true -> solid (mergeNode n) = true.
Proof.
  induction n as [n IH] using node_ind'. intros H. rewrite solid_eq in H. apply andb_true_iff in H as [V K]. rewrite forallb_forall in K.
  assert (FK : Forall (fun c => solid c = true /\ solid (mergeNode c) = true) (n_kids n)).
  { rewrite Forall_forall in *. intros c C. split; [now apply K|apply IH; [exact C|now apply K]]. }
  assert (X : forall l, Forall (fun c => solid c = true /\ solid (mergeNode c) = true) l -> forall prev, (forall p, prev = Some p -> solid p = true) ->
    forallb solid (mergeFold prev (List.map withMerge l)) = true).
  { clear. induction 1 as [|c l [A B] F IHf]; intros prev P; cbn [List.map mergeFold].
    - destruct prev as [p|]; [|reflexivity]. specialize (P p eq_refl). destruct p; cbn in *. now rewrite P.
    - unfold withMerge at 1. destruct (n_sticky c).
      + destruct prev as [p|]; apply IHf; intros q [= <-]; [specialize (P p eq_refl); now destruct p|]. destruct c; cbn in *. apply andb_true_iff in A as [-> _]. reflexivity.
      + rewrite forallb_app. apply andb_true_iff. split; [destruct prev as [p|]; [|reflexivity]; specialize (P p eq_refl); destruct p; cbn in *; now rewrite P|].
        cbn [forallb]. rewrite B. apply IHf. intros p [=]. }
  rewrite mergeNode_eq. destruct (n_kids n) as [|k ks] eqn:EK; [rewrite solid_eq, EK, V; reflexivity|]. rewrite <- EK in *. destruct (rtype_eqb (n_type n) TBlock).
  - rewrite solid_eq. apply andb_true_iff. split; [now destruct n|]. replace (n_kids (set_sticky (set_kids n (List.map (fun c => set_sticky (mergeNode c) false) (n_kids n))) false)) with (List.map (fun c => set_sticky (mergeNode c) false) (n_kids n)) by now destruct n.
    rewrite forallb_forall. intros x Hx. apply in_map_iff in Hx as (c & <- & C). rewrite Forall_forall in FK. destruct (FK c C) as [_ B]. now destruct (mergeNode c).
  - rewrite solid_eq. apply andb_true_iff. split; [now destruct n|]. replace (n_kids (set_kids n (mergeNodes (n_kids n)))) with (mergeNodes (n_kids n)) by now destruct n.
    apply (X _ FK None). intros p [=].
Qed.
Lemma solid_keep n : solid n = true -> removeVirtual n = n.
Proof.
  induction n as [n IH] using node_ind'. intros H. rewrite solid_eq in H. apply andb_true_iff in H as [_ K]. rewrite forallb_forall in K. rewrite removeVirtual_eq.
  assert (E : flat_map (fun c => if n_virtual c then [] else [removeVirtual c]) (n_kids n) = n_kids n).
  { rewrite Forall_forall in IH. revert IH K. generalize (n_kids n). intros l IH K. induction l as [|c l IHl]; [reflexivity|]. cbn [flat_map].
    assert (Sc := K c (or_introl eq_refl)). rewrite (IH c (or_introl eq_refl) Sc). rewrite IHl; [|intros x X; apply IH; now right|intros x X; apply K; now right].
    rewrite solid_eq in Sc. apply andb_true_iff in Sc as [V _]. destruct (n_virtual c); [discriminate|reflexivity]. }
  rewrite E. now destruct n.
Qed.
Lemma solid_tree ty b kids st : b_virtual b = false -> solid (tree ty b kids st) = forallb solid kids.
Proof. intros V. unfold tree, build. cbn [solid n_virtual n_kids]. now rewrite V. Qed.
Lemma solid_digits ds : solid (digitsNode ds) = true.
Proof. unfold digitsNode. rewrite solid_tree by reflexivity. induction ds as [|d ds IH]; [reflexivity|]. cbn [List.map forallb]. now rewrite IH. Qed.
Lemma solid_int ds : solid (intNode ds) = true.
Proof. destruct ds as [|d ds]; [reflexivity|]. unfold intNode. rewrite solid_tree by reflexivity. cbn [forallb]. now rewrite solid_digits. Qed.
Lemma solid_frac i fr : solid (fracNode i fr) = true.
Proof.
  destruct fr as [[|e es]|]; [reflexivity| |apply solid_int]. unfold fracNode, floatNode. rewrite solid_tree by reflexivity. cbn [forallb]. now rewrite solid_int, solid_digits.
Qed.
Lemma solid_list nn a z ns : forallb solid ns = true -> solid (listNode nn a z ns) = true.
Proof.
  intros H. unfold listNode. rewrite solid_tree by reflexivity. cbn [forallb]. apply andb_true_iff. split; [reflexivity|]. apply andb_true_iff. split; [|reflexivity].
  destruct ns as [|n ns]; [reflexivity|]. cbn [forallb] in H. apply andb_true_iff in H as [A B]. unfold itemsNode. rewrite !solid_tree by reflexivity. cbn [forallb]. rewrite solid_tree by reflexivity. cbn [forallb].
  rewrite A, solid_tree by reflexivity. cbn [andb]. rewrite !andb_true_r. rewrite forallb_forall in *. intros x X. apply in_map_iff in X as (c & <- & C). unfold pairNode. rewrite solid_tree by reflexivity. cbn [forallb]. now rewrite (B c C).
Qed.
Lemma solid_body v : solid (bodyRaw v) = true.
Proof.
  induction v as [m i fr|l|b| |l IH|l IH] using json_rect'; cbn [bodyRaw].
  - unfold litNode, numRaw, numNode, eitherNode. rewrite !solid_tree by reflexivity. cbn [forallb]. rewrite solid_tree by reflexivity. cbn [forallb]. rewrite solid_tree by reflexivity. cbn [forallb]. rewrite solid_frac. now destruct m.
  - reflexivity.
  - now destruct b.
  - reflexivity.
  - apply solid_list. rewrite forallb_forall. intros x X. apply in_map_iff in X as (v & <- & V). rewrite Forall_forall in IH. unfold valueNode. rewrite solid_tree by reflexivity. cbn [forallb]. now rewrite (IH v V).
  - apply solid_list. rewrite forallb_forall. intros x X. apply in_map_iff in X as (v & <- & V). rewrite Forall_forall in IH. unfold kvNode, valueNode. rewrite solid_tree by reflexivity. cbn [forallb].
    rewrite solid_tree by reflexivity. cbn [forallb]. now rewrite (IH v V).
Qed.
Theorem simplify_values_1 vs : Forall spellable vs -> simplify 1 (List.map rawOf vs) = List.map treeOf vs.
Proof.
  intros F. rewrite <- simplify_values by exact F. unfold simplify. change (0 =? -1) with false. change (1 =? -1) with false. change (0 =? 2) with false. change (1 =? 2) with false. change (0 =? 1) with false. change (1 =? 1) with true. cbv match. f_equal.
  unfold astMerge. rewrite loose_kids by (intros c C; apply in_map_iff in C as (v & <- & _); reflexivity). unfold astRemoveVirtual.
  induction vs as [|v vs IH]; [reflexivity|]. inversion F; subst. cbn [List.map flat_map]. rewrite IH by assumption.
  assert (Sv : solid (mergeNode (rawOf v)) = true) by (apply merge_solid; unfold rawOf, valueNode; rewrite solid_tree by reflexivity; cbn [forallb]; now rewrite solid_body).
  rewrite (solid_keep _ Sv). rewrite solid_eq in Sv. apply andb_true_iff in Sv as [V _]. now destruct (n_virtual (mergeNode (rawOf v))).
Qed.
