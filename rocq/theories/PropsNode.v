(** C28-C36: simplification of trees. *)
From Verif Require Import Base Stream Node Rule Parse Grammar SpecRule SpecNode NodeFacts NodeText NodeLean NodeExact RuleFacts.

(** The raw tree of a text for a grammar text (empty when anything fails). *)
Definition rawTree (g sample : list Z) : ast :=
  match newGrammarFromString g with
  | inl gr => match evalRaw 100 100 (rules_of gr) (storedOrder gr) (newStream sample) with Ok (RawOk a, _) => a | _ => [] end
  | inr _ => []
  end.

(** [a = "x" ~"y" #"z" "w"] on [x y z w]. *)
Definition exFlags : ast := Eval vm_compute in rawTree (rs "a = ""x"" ~""y"" #""z"" ""w""") (rs "x y z w").
Example exFlags_is : exFlags = rawTree (rs "a = ""x"" ~""y"" #""z"" ""w""") (rs "x y z w") /\ astCountNodes exFlags = 5%nat.
Proof. vm_compute. auto. Qed.

(* ---------------- C28 ---------------- *)

Theorem C28_remove_virtual : forall n,
  (forall d, outline everything d (removeVirtual n) = outline n_virtual d n) /\
  (forall m, below m (removeVirtual n) -> n_virtual m = false) /\ removeVirtual (removeVirtual n) = removeVirtual n.
Proof. exact removeVirtual_spec. Qed.
Print Assumptions C28_remove_virtual.
Theorem C28_ast_remove_virtual : forall a,
  flat_map (outline everything 0) (astRemoveVirtual a) = flat_map (fun c => if n_virtual c then [] else outline n_virtual 0 c) a /\
  (forall m, inside m (astRemoveVirtual a) -> n_virtual m = false) /\ astRemoveVirtual (astRemoveVirtual a) = astRemoveVirtual a.
Proof. exact astRemoveVirtual_spec. Qed.
Print Assumptions C28_ast_remove_virtual.
Example C28_example : astCountNodes (astRemoveVirtual exFlags) = 4%nat /\ astText (astRemoveVirtual exFlags) = rs "x z w".
Proof. vm_compute. auto. Qed.

(* ---------------- C29 ---------------- *)

Theorem C29_remove_nondata : forall n,
  (forall d, outline everything d (removeNonData n) = outline n_nondata d n) /\
  (forall m, below m (removeNonData n) -> n_nondata m = false) /\ removeNonData (removeNonData n) = removeNonData n.
Proof. exact removeNonData_spec. Qed.
Print Assumptions C29_remove_nondata.
Theorem C29_ast_remove_nondata : forall a,
  flat_map (outline everything 0) (astRemoveNonData a) = flat_map (fun c => if n_nondata c then [] else outline n_nondata 0 c) a /\
  (forall m, inside m (astRemoveNonData a) -> n_nondata m = false) /\ astRemoveNonData (astRemoveNonData a) = astRemoveNonData a.
Proof. exact astRemoveNonData_spec. Qed.
Print Assumptions C29_ast_remove_nondata.
Theorem C29_commute : forall n, removeVirtual (removeNonData n) = removeNonData (removeVirtual n).
Proof. exact removals_commute. Qed.
Print Assumptions C29_commute.
Theorem C29_ast_commute : forall a, astRemoveVirtual (astRemoveNonData a) = astRemoveNonData (astRemoveVirtual a).
Proof. exact ast_removals_commute. Qed.
Print Assumptions C29_ast_commute.
Example C29_example : astText (astRemoveNonData exFlags) = rs "x y w" /\ astText (astRemoveNonData (astRemoveVirtual exFlags)) = rs "x w".
Proof. vm_compute. auto. Qed.

(* ---------------- C30 ---------------- *)

(** [merged] (SpecNode.v) says what a list of siblings becomes, and leaves no
    choice ([C30_merge_unique]). *)
Theorem C30_merge : forall a,
  merged a (astMerge a) /\ (forall m, inside m (astMerge a) -> n_sticky m = false) /\
  astCountSticky (astMerge a) = 0%nat /\ astMerge (astMerge a) = astMerge a.
Proof. exact astMerge_spec. Qed.
Print Assumptions C30_merge.
Theorem C30_merge_unique : forall l k, merged l k -> forall k', merged l k' -> k' = k.
Proof. exact (proj2 (proj2 merged_det_mut)). Qed.
Print Assumptions C30_merge_unique.
(** Merging does not look across the border between nodes that do not both stick. *)
Theorem C30_merge_local : forall pre l, (forall m, pre <> [] -> n_sticky (last pre m) = false) \/ startsLoose l ->
  astMerge (pre ++ l) = astMerge pre ++ astMerge l.
Proof. exact astMerge_split. Qed.
Print Assumptions C30_merge_local.
(** [r = "n" {'0'-'9'} '.' {'0'-'9'} "m"] *)
Definition exTokens : ast := Eval vm_compute in rawTree (rs "r = ""n"" {'0'-'9'} '.' {'0'-'9'} ""m""") (rs "n12.34m").
Example C30_example : exTokens = rawTree (rs "r = ""n"" {'0'-'9'} '.' {'0'-'9'} ""m""") (rs "n12.34m") /\
  (length exTokens = 1%nat /\ astCountSticky exTokens = 7%nat) /\
  flat_map (fun n => List.map n_chars (n_kids n)) (astMerge exTokens) = [rs "n"; rs "12.34"; rs "m"].
Proof. vm_compute. auto. Qed.

(* ---------------- C31 ---------------- *)

(** [r = "x" ['z'] 'y'] on [x y]. *)
Definition c31 : ast := Eval vm_compute in rawTree (rs "r = ""x"" ['z'] 'y'") (rs "xy").
Theorem C31_text_preserved_refuted : ~ forall a, astText (astMerge a) = astText a.
Proof. intros H. specialize (H c31). vm_compute in H. discriminate. Qed.
Print Assumptions C31_text_preserved_refuted.
Example C31_witness : c31 = rawTree (rs "r = ""x"" ['z'] 'y'") (rs "xy") /\ astText c31 = rs "xy" /\ astText (astMerge c31) = rs "x y".
Proof. vm_compute. auto. Qed.
(** What is not white space is never touched, and nothing changes unless a sticky
    node has an empty text. *)
Theorem C31_ink_preserved_partial : forall a, ink (astText (astMerge a)) = ink (astText a).
Proof. exact astMerge_ink. Qed.
Print Assumptions C31_ink_preserved_partial.
Theorem C31_text_preserved_partial : forall a, (forall m, inside m a -> n_sticky m = true -> text m <> []) ->
  astText (astMerge a) = astText a.
Proof. exact astMerge_text. Qed.
Print Assumptions C31_text_preserved_partial.
(** A check of the premise for concrete trees. *)
Fixpoint solidb (n : node) : bool := (negb (n_sticky n) || nonempty (text n)) && forallb solidb (n_kids n).
Lemma solidb_ok n : solidb n = true -> forall m, sub m n -> n_sticky m = true -> text m <> [].
Proof.
  induction n as [n IH] using node_ind'. intros H m S. assert (E : solidb n = (negb (n_sticky n) || nonempty (text n)) && forallb solidb (n_kids n)) by (now destruct n).
  rewrite E in H. apply andb_prop in H as [H1 H2]. apply sub_cases in S as [->|(k & Hk & S)].
  - intros ST. rewrite ST in H1. cbn [negb orb] in H1. now apply nonempty_true.
  - rewrite Forall_forall in IH. rewrite forallb_forall in H2. eauto.
Qed.
Example C31_example : (forall m, inside m exTokens -> n_sticky m = true -> text m <> []) /\ astText (astMerge exTokens) = rs "n 12.34 m".
Proof.
  split; [|vm_compute; reflexivity]. intros m (n & Hn & S). apply (solidb_ok n); [|exact S]. destruct Hn as [<-|[]]. vm_compute. reflexivity.
Qed.

(* ---------------- C32 ---------------- *)

(** Evaluation makes trees with runes or children, not both. *)
Theorem C32_evaluated_proper : forall g r n, derives g r n -> proper n.
Proof. exact derives_proper. Qed.
Print Assumptions C32_evaluated_proper.
(** Named nodes are lost: [r = ( x ) "a"], [x = ['b']] on [a]. *)
Definition c32 : ast := Eval vm_compute in rawTree (rs "r = ( x ) ""a"" ""a""" ++ [10] ++ rs "x = ['b']") (rs "aa").
Fixpoint properb (n : node) : bool := (negb (nonempty (n_chars n)) || negb (nonempty (n_kids n))) && forallb properb (n_kids n).
Lemma properb_ok n : properb n = true -> proper n.
Proof.
  induction n as [n IH] using node_ind'. intros H. assert (E : properb n = (negb (nonempty (n_chars n)) || negb (nonempty (n_kids n))) && forallb properb (n_kids n)) by (now destruct n).
  rewrite E in H. apply andb_prop in H as [H1 H2]. apply proper_intro.
  - apply orb_prop in H1 as [H1|H1]; apply negb_true_iff, nonempty_false in H1; [now left|now right].
  - rewrite Forall_forall in *. rewrite forallb_forall in H2. auto.
Qed.
Theorem C32_named_kept_refuted : ~ forall n, proper n ->
  List.map ident_of (namedNodes (removeRedundant n)) = List.map ident_of (namedNodes n).
Proof.
  intros H. specialize (H (hd (textNode []) c32) (properb_ok (hd (textNode []) c32) eq_refl)). vm_compute in H. discriminate.
Qed.
Print Assumptions C32_named_kept_refuted.
Example C32_witness : c32 = rawTree (rs "r = ( x ) ""a"" ""a""" ++ [10] ++ rs "x = ['b']") (rs "aa") /\
  flat_map (fun n => List.map n_name (namedNodes n)) c32 = [rs "r"; rs "x"] /\
  flat_map (fun n => List.map n_name (namedNodes n)) (astRemoveRedundant c32) = [rs "r"].
Proof. vm_compute. auto. Qed.
(** Everything else, and the named nodes that have a text. *)
Theorem C32_redundant_partial : forall n, proper n ->
  (forall m, sub m (removeRedundant n) -> lean m) /\ ident_of (removeRedundant n) = ident_of n /\
  pieces everything (removeRedundant n) = pieces everything n /\ ink (text (removeRedundant n)) = ink (text n) /\
  shown (removeRedundant n) = shown n /\
  subseq (List.map ident_of (namedNodes (removeRedundant n))) (List.map ident_of (namedNodes n)) /\
  removeRedundant (removeRedundant n) = removeRedundant n.
Proof. exact removeRedundant_spec. Qed.
Print Assumptions C32_redundant_partial.
Theorem C32_named_kept_partial : forall n, proper n -> (forall m, In m (namedNodes n) -> text m <> []) ->
  List.map ident_of (namedNodes (removeRedundant n)) = List.map ident_of (namedNodes n).
Proof. exact removeRedundant_named. Qed.
Print Assumptions C32_named_kept_partial.
Theorem C32_ast_redundant_partial : forall a, Forall proper a ->
  (forall n, In n (astRemoveRedundant a) -> n_nondata n = false -> forall m, sub m n -> lean m) /\
  ink (astText (astRemoveRedundant a)) = ink (astText a) /\
  flat_map shown (astRemoveRedundant a) = flat_map shown a /\
  astRemoveRedundant (astRemoveRedundant a) = astRemoveRedundant a.
Proof. exact astRedundant_spec. Qed.
Print Assumptions C32_ast_redundant_partial.
Definition c32b : ast := Eval vm_compute in rawTree (rs "list = (item) { ("","" item) }" ++ [10] ++ rs "item = {""a""|""b""}<1,>") (rs "ab,a").
Example C32_example : c32b = rawTree (rs "list = (item) { ("","" item) }" ++ [10] ++ rs "item = {""a""|""b""}<1,>") (rs "ab,a") /\
  forallb properb c32b = true /\ flat_map (fun n => List.map n_name (namedNodes n)) c32b = [rs "list"; rs "item"; rs "item"] /\
  astCountNodes c32b = 14%nat /\ astCountNodes (astRemoveRedundant c32b) = 6%nat.
Proof. vm_compute. auto 10. Qed.

(* ---------------- C33 ---------------- *)

Theorem C33_text_only_separates : forall n,
  joined (pieces everything n) (text n) /\ forall p, In p (pieces everything n) -> p <> [] /\ isEOFText p = false.
Proof. exact (fun n => conj (text_joined n) (pieces_ok everything n)). Qed.
Print Assumptions C33_text_only_separates.
Theorem C33_ast_text : forall a, astText a = concat (List.map text a) /\ joined (piecesOf everything a) (astText a).
Proof. exact (fun a => conj (flat_map_concat_map text a) (flat_joined a)). Qed.
Print Assumptions C33_ast_text.
Theorem C33_no_ink_lost : forall n, ink (text n) = ink (concat (pieces everything n)).
Proof. exact text_ink. Qed.
Print Assumptions C33_no_ink_lost.
Example C33_example : piecesOf everything exTokens = [rs "n"; rs "1"; rs "2"; rs "."; rs "3"; rs "4"; rs "m"] /\ astText exTokens = rs "n 12.34 m".
Proof. vm_compute. auto. Qed.

(* ---------------- C34 ---------------- *)

(** [r = 'a' $'b'] on [ab]: one token [ab]. *)
Definition c34 : ast := Eval vm_compute in rawTree (rs "r = (""x"") 'a' $'b'") (rs "xab").
(** Tokenized nodes are starts of nodes of the merged list. *)
Theorem C34_tokenized_refuted : ~ forall pre c post, n_tokenized c = true -> astMerge (pre ++ c :: post) = astMerge pre ++ astMerge (c :: post).
Proof.
  intros H. set (kids := n_kids (hd (textNode []) c34)). specialize (H (firstn 2 kids) (nth 2 kids (textNode [])) [] eq_refl).
  vm_compute in H. discriminate.
Qed.
Print Assumptions C34_tokenized_refuted.
Example C34_witness : c34 = rawTree (rs "r = (""x"") 'a' $'b'") (rs "xab") /\ List.map n_tokenized (n_kids (hd (textNode []) c34)) = [false; false; true] /\
  flat_map (fun n => List.map text (n_kids n)) (astMerge c34) = [rs "x"; rs "ab"].
Proof. vm_compute. auto. Qed.
(** Missing: the mark is ignored, so only nodes next to a non-sticky node (or that
    are not sticky themselves) are safe. *)
Theorem C34_tokenized_partial : forall pre c post, n_tokenized c = true ->
  n_sticky c = false \/ (forall m, pre <> [] -> n_sticky (last pre m) = false) ->
  astMerge (pre ++ c :: post) = astMerge pre ++ astMerge (c :: post).
Proof. exact (fun pre c post _ H => astMerge_split pre (c :: post) (match H with or_introl a => or_intror a | or_intror b => or_introl b end)). Qed.
Print Assumptions C34_tokenized_partial.
Definition c34b : ast := Eval vm_compute in rawTree (rs "r = ""a"" $'b' 'c'") (rs "abc").
Example C34_example : c34b = rawTree (rs "r = ""a"" $'b' 'c'") (rs "abc") /\ List.map n_tokenized (n_kids (hd (textNode []) c34b)) = [false; true; false] /\
  flat_map (fun n => List.map text (n_kids n)) (astMerge c34b) = [rs "a"; rs "bc"].
Proof. vm_compute. auto. Qed.

(* ---------------- C35 ---------------- *)

(** [inkOf n_virtual a]: the non-white runes that are not below a virtual node. *)
Definition c35 : ast := Eval vm_compute in rawTree (rs "r = ""x"" ~'a' 'b'") (rs "xab").
Definition c35b : ast := Eval vm_compute in rawTree (rs "r = ""x"" 'a' ~'b'") (rs "xab").
Theorem C35_virtual_text_refuted : ~ forall a, Forall proper a -> ink (astText (simplify 1 a)) = inkOf n_virtual a.
Proof.
  intros H. assert (P : Forall proper c35) by (constructor; [apply properb_ok; reflexivity|constructor]).
  specialize (H c35 P). vm_compute in H. discriminate.
Qed.
Print Assumptions C35_virtual_text_refuted.
(** The first loses [b], the second keeps the virtual [b]. *)
Example C35_witness : c35 = rawTree (rs "r = ""x"" ~'a' 'b'") (rs "xab") /\ astText (simplify 1 c35) = rs "x" /\
  c35b = rawTree (rs "r = ""x"" 'a' ~'b'") (rs "xab") /\ astText (simplify 1 c35b) = rs "x ab".
Proof. vm_compute. auto. Qed.
(** Missing: trees in which a sticky subtree contains a virtual node.  All levels. *)
Theorem C35_virtual_text_partial : forall level a, 0 <= level -> Forall proper a ->
  (forall m, inside m a -> n_sticky m = true -> forall v, sub v m -> dropsAt level v = false) ->
  ink (astText (simplify level a)) = inkOf (dropsAt level) a.
Proof. exact simplify_ink. Qed.
Print Assumptions C35_virtual_text_partial.
Fixpoint hasb (p : node -> bool) (n : node) : bool := p n || existsb (hasb p) (n_kids n).
Fixpoint clearb (p : node -> bool) (n : node) : bool := (negb (n_sticky n) || negb (hasb p n)) && forallb (clearb p) (n_kids n).
Lemma hasb_ok p n : hasb p n = false -> forall m, sub m n -> p m = false.
Proof.
  induction n as [n IH] using node_ind'. intros H m S. assert (E : hasb p n = p n || existsb (hasb p) (n_kids n)) by (now destruct n). rewrite E in H. apply orb_false_elim in H as [H1 H2].
  apply sub_cases in S as [->|(k & Hk & S)]; [exact H1|]. rewrite Forall_forall in IH. apply (IH k Hk); [|exact S]. clear - H2 Hk. induction (n_kids n) as [|x l IHl]; [destruct Hk|].
  cbn [existsb] in H2. apply orb_false_elim in H2 as [A B]. destruct Hk as [->|Hk]; auto.
Qed.
Lemma clearb_ok p n : clearb p n = true -> forall m, sub m n -> n_sticky m = true -> forall v, sub v m -> p v = false.
Proof.
  induction n as [n IH] using node_ind'. intros H m S. assert (E : clearb p n = (negb (n_sticky n) || negb (hasb p n)) && forallb (clearb p) (n_kids n)) by (now destruct n).
  rewrite E in H. apply andb_prop in H as [H1 H2]. apply sub_cases in S as [->|(k & Hk & S)].
  - intros ST. rewrite ST in H1. cbn [negb orb] in H1. apply negb_true_iff in H1. now apply hasb_ok.
  - rewrite Forall_forall in IH. rewrite forallb_forall in H2. eauto.
Qed.
Example C35_example : (forall m, inside m exFlags -> n_sticky m = true -> forall v, sub v m -> dropsAt 2 v = false) /\
  inkOf (dropsAt 2) exFlags = rs "xw" /\ inkOf (dropsAt 1) exFlags = rs "xzw" /\ forallb properb exFlags = true.
Proof.
  split; [|vm_compute; auto]. intros m (n & Hn & S). apply (clearb_ok _ n); [|exact S]. destruct Hn as [<-|[]]. vm_compute. reflexivity.
Qed.

(* ---------------- C36 ---------------- *)

Theorem C36_steps_shrink : forall a,
  (astCountNodes (astMerge a) <= astCountNodes a /\ astCountTokens (astMerge a) <= astCountTokens a)%nat /\
  (astCountNodes (astRemoveVirtual a) <= astCountNodes a /\ astCountTokens (astRemoveVirtual a) <= astCountTokens a)%nat /\
  (astCountNodes (astRemoveNonData a) <= astCountNodes a /\ astCountTokens (astRemoveNonData a) <= astCountTokens a)%nat /\
  (astCountNodes (astRemoveRedundant a) <= astCountNodes a /\ astCountTokens (astRemoveRedundant a) <= astCountTokens a)%nat.
Proof. exact steps_shrink. Qed.
Print Assumptions C36_steps_shrink.
Theorem C36_simplify_shrinks : forall level a,
  (astCountNodes (simplify level a) <= astCountNodes a /\ astCountTokens (simplify level a) <= astCountTokens a)%nat.
Proof. exact simplify_shrinks. Qed.
Print Assumptions C36_simplify_shrinks.
Theorem C36_node_steps_shrink : forall n,
  (countNodes (mergeNode n) <= countNodes n /\ countTokens (mergeNode n) <= countTokens n)%nat /\
  (countNodes (removeVirtual n) <= countNodes n /\ countTokens (removeVirtual n) <= countTokens n)%nat /\
  (countNodes (removeNonData n) <= countNodes n /\ countTokens (removeNonData n) <= countTokens n)%nat /\
  (countNodes (removeRedundant n) <= countNodes n /\ countTokens (removeRedundant n) <= countTokens n)%nat.
Proof.
  exact (fun n => conj (proj1 merged_fewer_mut _ _ (mergeNode_merged n)) (conj (prune_fewer n_virtual n) (conj (prune_fewer n_nondata n) (removeRedundant_fewer n)))).
Qed.
Print Assumptions C36_node_steps_shrink.
Example C36_example : (astCountNodes c32b, astCountTokens c32b, astCountNodes (simplify 0 c32b), astCountTokens (simplify 0 c32b)) = (14, 4, 6, 4)%nat.
Proof. vm_compute. reflexivity. Qed.

(* ---------------- C55 ---------------- *)

(** Text is determined by these cases: what a node with runes shows, and what one
    more child adds to a node without runes. *)
Theorem C55_text_of_leaf : forall n, n_chars n <> [] -> n_chars n <> [EOFChar] -> text n = n_chars n.
Proof.
  intros n N E. rewrite (text_leaf n N). unfold isEOFText. destruct (n_chars n) as [|c [|d l]]; try reflexivity.
  destruct (Z.eqb_spec c EOFChar) as [->|]; [now destruct E|reflexivity].
Qed.
Print Assumptions C55_text_of_leaf.
Theorem C55_text_of_eof : forall n, n_chars n = [EOFChar] -> text n = [].
Proof. intros n E. rewrite text_leaf; now rewrite E. Qed.
Print Assumptions C55_text_of_eof.
Theorem C55_text_of_childless : forall n, n_chars n = [] -> n_kids n = [] -> text n = [].
Proof. exact text_childless. Qed.
Print Assumptions C55_text_of_childless.
Theorem C55_text_separators : forall n pre c, n_chars n = [] -> n_kids n = pre ++ [c] ->
  exists gap, text n = text (set_kids n pre) ++ gap ++ text c /\
    ((spaced n pre c /\ gap = [32]) \/ (~ spaced n pre c /\ gap = [])).
Proof. exact text_snoc. Qed.
Print Assumptions C55_text_separators.
(** Two sticky runs, a block and plain strings: [r = "n" {'0'-'9'} '.' {'0'-'9'} "m" <"(" ")">]. *)
Definition c55 : ast := Eval vm_compute in rawTree (rs "r = ""n"" {'0'-'9'} '.' {'0'-'9'} ""m"" <""("" "")"">") (rs "n12.34m(q r)").
Example C55_example : c55 = rawTree (rs "r = ""n"" {'0'-'9'} '.' {'0'-'9'} ""m"" <""("" "")"">") (rs "n12.34m(q r)") /\
  (length c55, flat_map n_chars c55, List.map (fun n => length (n_kids n)) c55) = (1%nat, [], [6%nat]) /\ astText c55 = rs "n 12.34 m (q r)".
Proof. vm_compute. auto. Qed.

(* ---------------- C56 ---------------- *)

(** [simplified] and [reduced] (SpecNode.v) describe the answer and leave no choice. *)
Theorem C56_levels_exact : forall level a, Forall proper a -> simplified level a (simplify level a).
Proof. exact simplify_simplified. Qed.
Print Assumptions C56_levels_exact.
Theorem C56_levels_unique : forall level a out out', simplified level a out -> simplified level a out' -> out' = out.
Proof. exact simplified_det. Qed.
Print Assumptions C56_levels_unique.
Theorem C56_reduced_exact : forall n, proper n -> reduced n (removeRedundant n).
Proof. exact removeRedundant_reduced. Qed.
Print Assumptions C56_reduced_exact.
Theorem C56_reduced_unique : forall n m m', reduced n m -> reduced n m' -> m' = m.
Proof. exact (fun n m m' H => proj1 reduced_det_mut n m H m'). Qed.
Print Assumptions C56_reduced_unique.
(** The comparison by outlines leaves no choice either. *)
Theorem C56_outlines_determine : forall a b, flat_map (outline everything 0) a = flat_map (outline everything 0) b -> a = b.
Proof. exact outlines_determine. Qed.
Print Assumptions C56_outlines_determine.
(** All levels; a number without a meaning counts as level 0. *)
Example C56_example : forallb properb exFlags = true /\
  List.map (fun level => (astCountNodes (simplify level exFlags), astText (simplify level exFlags))) [-1; 0; 1; 2; 3] =
  [(5%nat, rs "x y z w"); (5%nat, rs "x y z w"); (4%nat, rs "x z w"); (3%nat, rs "x w"); (5%nat, rs "x y z w")].
Proof. vm_compute. auto. Qed.

(* ---------------- C57 ---------------- *)

Theorem C57_counts : forall a,
  astCountNodes a = countBy (fun _ => true) a /\ astCountTokens a = countBy isLeaf a /\ astCountSticky a = countBy n_sticky a.
Proof. exact counts_spec. Qed.
Print Assumptions C57_counts.
Theorem C57_node_counts : forall n,
  countNodes n = countBy (fun _ => true) [n] /\ countTokens n = countBy isLeaf [n] /\ countSticky n = countBy n_sticky [n].
Proof. exact node_counts_spec. Qed.
Print Assumptions C57_node_counts.
(** [nodesOf] lists the nodes of the tree. *)
Theorem C57_nodesOf : forall n m, In m (nodesOf n) <-> sub m n.
Proof. exact nodesOf_sub. Qed.
Print Assumptions C57_nodesOf.
Example C57_example : (countBy (fun _ => true) exTokens, countBy isLeaf exTokens, countBy n_sticky exTokens) = (10, 7, 7)%nat.
Proof. vm_compute. reflexivity. Qed.
