(** Vocabulary for the simplification properties. *)
From Verif Require Import Base Stream Node SpecRule.

(** The fields of a node, without its children. *)
Definition label (n : node) : node := set_kids n [].

(** The nodes in document order with their depth, without those that [drop]
    selects and what is below them.  (Depths and order determine the tree.) *)
Fixpoint outline (drop : node -> bool) (d : nat) (n : node) : list (nat * node) :=
  (d, label n) :: flat_map (fun c => if drop c then [] else outline drop (S d) c) (n_kids n).
Definition everything (n : node) : bool := false.

(** A strict descendant. *)
Definition below (m n : node) : Prop := exists k, In k (n_kids n) /\ sub m k.
(** Anywhere in a list of trees. *)
Definition inside (m : node) (l : list node) : Prop := exists n, In n l /\ sub m n.

(* ------------------------------------------------------------------ *)
(** ** Merging

    What a list of siblings should become: a maximal run of sticky nodes becomes
    one leaf (with the fields of the first one) that carries the text of all, the
    others are kept.  In blocks nothing is merged.  Nothing stays sticky. *)
Definition token (s : node) (run : list node) : node :=
  set_sticky (set_kids (set_chars s (flat_map text (s :: run))) []) false.
Definition startsLoose (l : list node) : Prop := match l with [] => True | c :: _ => n_sticky c = false end.

Inductive mergedNode : node -> node -> Prop :=
| mn_leaf n : n_kids n = [] -> mergedNode n n
| mn_block n ks : n_kids n <> [] -> n_type n = TBlock -> mergedEach (n_kids n) ks ->
    mergedNode n (set_sticky (set_kids n ks) false)
| mn_inner n ks : n_kids n <> [] -> n_type n <> TBlock -> merged (n_kids n) ks -> mergedNode n (set_kids n ks)
with mergedEach : list node -> list node -> Prop :=
| me_nil : mergedEach [] []
| me_cons c m l l' : mergedNode c m -> mergedEach l l' -> mergedEach (c :: l) (set_sticky m false :: l')
with merged : list node -> list node -> Prop :=
| ml_nil : merged [] []
| ml_keep c m l l' : n_sticky c = false -> mergedNode c m -> merged l l' -> merged (c :: l) (m :: l')
| ml_run s run l l' : n_sticky s = true -> Forall (fun c => n_sticky c = true) run -> startsLoose l -> merged l l' ->
    merged (s :: run ++ l) (token s run :: l').

(* ------------------------------------------------------------------ *)
(** ** Texts *)

(** The pieces of text in document order: the runes of the leaves (a node with
    runes counts as a leaf), without the end-of-file marks and without the
    subtrees selected by [drop]. *)
Fixpoint pieces (drop : node -> bool) (n : node) : list (list Z) :=
  match n_chars n with
  | [] => flat_map (fun c => if drop c then [] else pieces drop c) (n_kids n)
  | _ => if isEOFText (n_chars n) then [] else [n_chars n]
  end.
Definition piecesOf (drop : node -> bool) (a : list node) : list (list Z) :=
  flat_map (fun c => if drop c then [] else pieces drop c) a.

(** The pieces one after the other, with single spaces between some of them, none
    of them next to white space. *)
Inductive joined : list (list Z) -> list Z -> Prop :=
| j_nil : joined [] []
| j_one p : joined [p] p
| j_cat p l out : joined l out -> joined (p :: l) (p ++ out)
| j_space p l out : joined l out -> p <> [] -> out <> [] -> ~ In (last p 0) whiteSpaces -> ~ In (hd 0 out) whiteSpaces ->
    joined (p :: l) (p ++ 32 :: out).

(** The runes that are not white space. *)
Definition ink (l : list Z) : list Z := List.filter (fun c => negb (isWS c)) l.

(** Runes or children, not both: what evaluation and merging produce. *)
Definition leafy (m : node) : Prop := n_chars m = [] \/ n_kids m = [].
Definition proper (n : node) : Prop := forall m, sub m n -> leafy m.

(** The named nodes in document order. *)
Fixpoint namedNodes (n : node) : list node :=
  (if nonempty (n_name n) then [n] else []) ++ flat_map namedNodes (n_kids n).
(** What identifies a node: everything but text and children. *)
Definition ident_of (n : node) := (n_type n, n_name n, n_pos n, n_sticky n, n_virtual n, n_nondata n, n_tokenized n).

(** The node is as RemoveRedundantNodes should leave it. *)
Definition lean (m : node) : Prop :=
  (forall c, In c (n_kids m) -> n_name c <> [] \/ (n_kids c = [] /\ text c <> [])) /\
  (forall c, n_kids m = [c] -> n_name c <> []).

(** The named nodes that have a text: what identifies them and their pieces. *)
Definition shown (n : node) :=
  List.map (fun m => (ident_of m, pieces everything m)) (List.filter (fun m => nonempty (text m)) (namedNodes n)).

(** A subsequence. *)
Inductive subseq {A} : list A -> list A -> Prop :=
| ss_nil : subseq [] []
| ss_keep x l l' : subseq l l' -> subseq (x :: l) (x :: l')
| ss_skip x l l' : subseq l l' -> subseq l (x :: l').

(* ------------------------------------------------------------------ *)
(** ** Counting *)

(** All nodes of a tree. *)
Fixpoint nodesOf (n : node) : list node := n :: flat_map nodesOf (n_kids n).
Definition countBy (p : node -> bool) (a : list node) : nat := length (List.filter p (flat_map nodesOf a)).
Definition isLeaf (n : node) : bool := match n_kids n with [] => true | _ => false end.

(* ------------------------------------------------------------------ *)
(** ** Separators

    Does a space belong between the children [pre] of [n] and the next child [c]?
    Not in a block, not next to white space or nothing, not between two sticky
    nodes. *)
Definition spaced (n : node) (pre : list node) (c : node) : Prop :=
  n_type n <> TBlock /\
  text (set_kids n pre) <> [] /\ ~ In (last (text (set_kids n pre)) 0) whiteSpaces /\
  text c <> [] /\ ~ In (hd 0 (text c)) whiteSpaces /\
  ~ ((exists front p, pre = front ++ [p] /\ n_sticky p = true) /\ n_sticky c = true).

(* ------------------------------------------------------------------ *)
(** ** Redundant nodes

    A node whose only child has no name takes over its runes and children.
    Otherwise a child gives its parent: a named node itself, an unnamed one its text
    (as a leaf) or its children, an unnamed one without text nothing; and a parent
    that is left with a single unnamed leaf takes over its text. *)
Definition soleUnnamed (l : list node) : Prop := exists c, l = [c] /\ n_name c = [].
Definition gives (c : node) (l : list node) : Prop :=
  (n_name c <> [] /\ l = [c]) \/
  (n_name c = [] /\ text c = [] /\ l = []) \/
  (n_name c = [] /\ text c <> [] /\ n_kids c = [] /\ l = [c]) \/
  (n_name c = [] /\ text c <> [] /\ n_kids c <> [] /\ l = n_kids c).
Inductive reduced : node -> node -> Prop :=
| rd_leaf n : n_kids n = [] -> reduced n n
| rd_sole n c c' : n_kids n = [c] -> n_name c = [] -> reduced c c' ->
    reduced n (set_kids (set_chars n (n_chars c')) (n_kids c'))
| rd_text n c : n_kids n <> [] -> ~ soleUnnamed (n_kids n) -> reducedAll (n_kids n) [c] -> n_name c = [] -> n_kids c = [] ->
    reduced n (set_kids (set_chars n (n_chars c)) [])
| rd_inner n ks : n_kids n <> [] -> ~ soleUnnamed (n_kids n) -> reducedAll (n_kids n) ks ->
    (forall c, ks = [c] -> n_name c <> [] \/ n_kids c <> []) -> reduced n (set_kids n ks)
with reducedAll : list node -> list node -> Prop :=
| ra_nil : reducedAll [] []
| ra_cons c c' l g ks : reduced c c' -> gives c' g -> reducedAll l ks -> reducedAll (c :: l) (g ++ ks).

(* ------------------------------------------------------------------ *)
(** ** The levels of Eval

    [pruned drop l k]: [k] is [l] without the subtrees that [drop] selects. *)
Definition pruned (drop : node -> bool) (l k : list node) : Prop :=
  flat_map (outline everything 0) k = flat_map (fun c => if drop c then [] else outline drop 0 c) l.
(** What each level removes: 0 (and every number without a meaning) nothing, 1 the
    virtual nodes, 2 the virtual and the non-data nodes. *)
Definition dropsAt (level : Z) (n : node) : bool :=
  if level =? 2 then n_virtual n || n_nondata n else if level =? 1 then n_virtual n else false.
(** Top nodes marked non-data are left as they are. *)
Definition simplified (level : Z) (a out : list node) : Prop :=
  if level =? -1 then out = a
  else exists m p, merged a m /\ pruned (dropsAt level) m p /\
       Forall2 (fun c c' => if n_nondata c then c' = c else reduced c c') p out.
