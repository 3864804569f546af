(** C59: the drawings of trees. *)
From Verif Require Import Base Stream Node Rule SpecStream SpecRule Parse Grammar Print SpecParse SpecNode NodeLean SpecDriver SpecGrammar Show SpecShow ShowFacts DrawFacts PropsNode.

(* ---------------- C59 ---------------- *)

(** A drawing consists of one entry per node, in document order: the branch, then the
    caption, whose further lines stand under the margin. *)
Theorem C59_lines : forall cfg n, drawable n ->
  exists ps, Forall2 (drawn (c_type cfg) (c_inner cfg)) (entries [] n) ps /\ stringTree cfg n = stacked ps.
Proof. exact drawing_lines. Qed.
Print Assumptions C59_lines.
Theorem C59_every_node : forall n way, List.map snd (entries way n) = nodesOf n.
Proof. exact entries_nodes. Qed.
Print Assumptions C59_every_node.
(** Two trees are drawn alike exactly when they look alike: the drawing determines the
    shape, and of every node position, name, type, marks and the text of the leaves,
    whatever runes the text contains. *)
Theorem C59_faithful : forall cfg n, c_inner cfg = false -> forall m, drawable n -> drawable m ->
  stringTree cfg n = stringTree cfg m <-> sketchOf (c_type cfg) n = sketchOf (c_type cfg) m.
Proof. exact drawing_faithful. Qed.
Print Assumptions C59_faithful.
(** Without a configuration the types are drawn and the texts of leaves only. *)
Theorem C59_default : forall n m, drawable n -> drawable m -> stringTree defaultConfig n = stringTree defaultConfig m <-> sketchOf true n = sketchOf true m.
Proof. exact (fun n => drawing_faithful defaultConfig n eq_refl). Qed.
Print Assumptions C59_default.
Theorem C59_ast_lines : forall cfg file a, exists blocks, hung (List.map (stringTree cfg) a) blocks /\
  astTree cfg file a = stacked ([rs "Abstract Syntax Tree"; [9500; 9472] ++ rs " file:" ++ file;
    [match a with [] => 9492 | _ => 9500 end; 9472] ++ rs " Nodes: " ++ showInt (Z.of_nat (length a))] ++ blocks).
Proof. exact ast_lines. Qed.
Print Assumptions C59_ast_lines.
Theorem C59_ast_number : forall z, written z (showInt z).
Proof. exact showInt_written. Qed.
Print Assumptions C59_ast_number.
Theorem C59_ast_faithful : forall cfg file a b, c_inner cfg = false -> Forall drawable a -> Forall drawable b ->
  astTree cfg file a = astTree cfg file b <-> List.map (sketchOf (c_type cfg)) a = List.map (sketchOf (c_type cfg)) b.
Proof. exact ast_faithful. Qed.
Print Assumptions C59_ast_faithful.
(** The trees that Eval and EvalRule return can be drawn. *)
Theorem C59_eval_drawable : forall txt g loopFuel fuel o s level out s', runesOk txt -> newGrammarFromString txt = inl g ->
  legal (rootsOf g) o -> runesOk (rest s) ->
  evalTop loopFuel fuel (rules_of g) o s level = Ok (RawOk out, s') -> Forall drawable out.
Proof. exact fromString_drawable. Qed.
Print Assumptions C59_eval_drawable.
Theorem C59_history_drawable : forall calls loopFuel fuel o s level out s', decoded calls -> legal (rootsOf (history calls)) o -> runesOk (rest s) ->
  evalTop loopFuel fuel (rules_of (history calls)) o s level = Ok (RawOk out, s') -> Forall drawable out.
Proof. exact history_drawable. Qed.
Print Assumptions C59_history_drawable.
Theorem C59_evalRule_drawable : forall calls fuel name sample res n, decoded calls -> runesOk sample ->
  evalRule fuel (history calls) name sample = Ok res -> r_node res = Some n -> drawable n.
Proof. exact evalRule_drawable. Qed.
Print Assumptions C59_evalRule_drawable.

(** With the texts of inner nodes drawn as well ([PrintNonleafNodeText]) a drawing can
    be forged: the leaf [a] whose text is [y<], a newline, a branch and the caption of
    another leaf, against the group [a] with that leaf as its child.  Both are proper. *)
Definition c59Leaf : node := Node TChar (rs "b") (rs "y") [] None false false false false.
Definition c59Forged : node := Node TGroup (rs "a") (rs "y<" ++ [10; 9492; 9472; 9472] ++ rs "L0:0:b/char: >y") [] None false false false false.
Definition c59Real : node := Node TGroup (rs "a") [] [c59Leaf] None false false false false.
Theorem C59_inner_texts_refuted :
  ~ forall cfg n m, drawable n -> drawable m -> proper n -> proper m -> stringTree cfg n = stringTree cfg m -> length (n_kids n) = length (n_kids m).
Proof.
  intros H. assert (D : forall k, In k [c59Leaf; c59Forged; c59Real] -> drawable k).
  { assert (L : drawable c59Leaf) by (apply plain_leaf; unfold nameRunes, rs; cbn; repeat (constructor; [lia|]); constructor).
    intros k [<-|[<-|[<-|[]]]]; [exact L| |].
    - apply plain_leaf; unfold nameRunes, rs; cbn; repeat (constructor; [lia|]); constructor.
    - apply drawable_intro; [split; [unfold nameRunes, rs; cbn; repeat (constructor; [lia|]); constructor|cbn; auto]|constructor; [exact L|constructor]]. }
  assert (P1 : proper c59Forged) by (apply proper_intro; [now right|constructor]).
  assert (P2 : proper c59Real) by (apply proper_intro; [now left|constructor; [apply proper_intro; [now right|constructor]|constructor]]).
  specialize (H (mkConfig true true) c59Forged c59Real (D _ (or_intror (or_introl eq_refl))) (D _ (or_intror (or_intror (or_introl eq_refl)))) P1 P2 ltac:(vm_compute; reflexivity)).
  discriminate.
Qed.
Print Assumptions C59_inner_texts_refuted.

(** [a = "x" ~"y" #"z" "w"] on [x y z w], and a leaf with a newline. *)
Example C59_example : Forall drawable exFlags /\
  List.map (fun n => length (entries [] n)) exFlags = [5%nat] /\
  stringTree defaultConfig (hd c59Leaf exFlags) = rs "L1:1:a/concatenate" ++ [10; 9500; 9472; 9472] ++ rs "L1:1:/string: >x<" ++
    [10; 9500; 9472; 9472] ++ rs "L1:3:/string~: >y<" ++ [10; 9500; 9472; 9472] ++ rs "L1:5:/string#: >z<" ++
    [10; 9492; 9472; 9472] ++ rs "L1:7:/string: >w<" /\
  stringTree defaultConfig (set_kids c59Real [set_chars c59Leaf [97; 10; 98]]) =
    rs "L0:0:a/group" ++ [10; 9492; 9472; 9472] ++ rs "L0:0:b/char: >a" ++ [10; 32; 32; 32] ++ rs "b<".
Proof.
  split; [|vm_compute; auto]. unfold exFlags. constructor; [|constructor]. apply drawable_intro.
  - split; [unfold nameRunes; cbn; repeat (constructor; [lia|]); constructor|cbn; auto].
  - cbn [n_kids]. repeat (constructor; [apply plain_leaf; constructor|]). constructor.
Qed.
