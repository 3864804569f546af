(** Model of node.go and ast.go: tree nodes and the simplification passes. *)
From Verif Require Import Base Stream.

(** rule.go:17-36 [Type].  [TReference] and [TRange] exist in the file but no
    code creates a node with them. *)
Inductive rtype :=
| TEOF | TChar | TRange | TChars | TString | TGroup | TOption | TBlock
| TReference | TRepetition | TChoice | TConcat | TEmbed | TText.

Definition rtype_eqb (a b : rtype) : bool :=
  match a, b with
  | TEOF, TEOF | TChar, TChar | TRange, TRange | TChars, TChars | TString, TString
  | TGroup, TGroup | TOption, TOption | TBlock, TBlock | TReference, TReference
  | TRepetition, TRepetition | TChoice, TChoice | TConcat, TConcat | TEmbed, TEmbed
  | TText, TText => true
  | _, _ => false
  end.

(** node.go:23-35 [Node].  A rule name is a list of runes, [[]] is the empty
    name; a nil slice and an empty slice are both [[]] (the code only ever tests
    [len]). *)
Inductive node := Node
  { n_type : rtype;
    n_name : list Z;
    n_chars : list Z;
    n_kids : list node;
    n_pos : option position;
    n_sticky : bool;
    n_virtual : bool;
    n_nondata : bool;
    n_tokenized : bool }.

Definition set_chars (n : node) (x : list Z) : node :=
  Node (n_type n) (n_name n) x (n_kids n) (n_pos n) (n_sticky n) (n_virtual n) (n_nondata n) (n_tokenized n).
Definition set_kids (n : node) (x : list node) : node :=
  Node (n_type n) (n_name n) (n_chars n) x (n_pos n) (n_sticky n) (n_virtual n) (n_nondata n) (n_tokenized n).
Definition set_sticky (n : node) (x : bool) : node :=
  Node (n_type n) (n_name n) (n_chars n) (n_kids n) (n_pos n) x (n_virtual n) (n_nondata n) (n_tokenized n).

Definition isEOFText (l : list Z) : bool :=
  match l with [c] => c =? EOFChar | _ => false end.

Definition nonempty {A} (l : list A) : bool := match l with [] => false | _ => true end.

(** node.go:323-338: the loop of [Text].  [acc] is both [text] and [prevText]
    (they are equal at every test), [prevSticky] is [prevNode.Sticky]; the items
    are (Text of the child, Sticky of the child). *)
Fixpoint textFold (block : bool) (acc : list Z) (prevSticky : bool) (l : list (list Z * bool)) : list Z :=
  match l with
  | [] => acc
  | (t, st) :: l' =>
    let sep := negb block && (nonempty acc && negb (isWS (last acc 0)))
               && (nonempty t && negb (isWS (hd 0 t))) && (negb prevSticky || negb st) in
    textFold block (acc ++ (if sep then [32] else []) ++ t) st l'
  end.

(** node.go:315-339 [Text]. *)
Fixpoint text (n : node) : list Z :=
  match n_chars n with
  | [] => textFold (rtype_eqb (n_type n) TBlock) [] false
            (List.map (fun c => (text c, n_sticky c)) (n_kids n))
  | _ => if isEOFText (n_chars n) then [] else n_chars n
  end.

(** node.go:37-46 [CountNodes]. *)
Fixpoint countNodes (n : node) : nat :=
  S (fold_right plus 0%nat (List.map countNodes (n_kids n))).
(** node.go:48-60 [CountTokens]. *)
Fixpoint countTokens (n : node) : nat :=
  match n_kids n with
  | [] => 1%nat
  | _ => fold_right plus 0%nat (List.map countTokens (n_kids n))
  end.
(** node.go:62-74 [CountStickyNodes]. *)
Fixpoint countSticky (n : node) : nat :=
  ((if n_sticky n then 1 else 0) + fold_right plus 0 (List.map countSticky (n_kids n)))%nat.

(** node.go:77-90 [RemoveVirtualNodes]. *)
Fixpoint removeVirtual (n : node) : node :=
  set_kids n (flat_map (fun c => if n_virtual c then [] else [removeVirtual c]) (n_kids n)).
(** node.go:186-199 [RemoveNonDataNodes]. *)
Fixpoint removeNonData (n : node) : node :=
  set_kids n (flat_map (fun c => if n_nondata c then [] else [removeNonData c]) (n_kids n)).

(** node.go:152-183: the loop of the function [MergeStickyNodes].  [prev] is
    [prevNode]: when it is not nil it is the last element of [children] and it is
    sticky, so it is kept out of the output until it is final.  The items are
    (child, child after [child.MergeStickyNodes()]). *)
Fixpoint mergeFold (prev : option node) (l : list (node * node)) : list node :=
  match l with
  | [] => match prev with None => [] | Some p => [set_sticky p false] end
  | (c, m) :: l' =>
    if n_sticky c then
      match prev with
      | Some p => mergeFold (Some (set_chars p (n_chars p ++ text c))) l'
      | None => mergeFold (Some (set_kids (set_chars c (text c)) [])) l'
      end
    else
      match prev with None => [] | Some p => [set_sticky p false] end
      ++ m :: mergeFold None l'
  end.

(** node.go:94-128 method [Node.MergeStickyNodes]. *)
Fixpoint mergeNode (n : node) : node :=
  match n_kids n with
  | [] => n
  | _ =>
    if rtype_eqb (n_type n) TBlock then
      set_sticky (set_kids n (List.map (fun c => set_sticky (mergeNode c) false) (n_kids n))) false
    else set_kids n (mergeFold None (List.map (fun c => (c, mergeNode c)) (n_kids n)))
  end.

(** node.go:132-184 the function [MergeStickyNodes]. *)
Definition mergeNodes (l : list node) : list node :=
  mergeFold None (List.map (fun c => (c, mergeNode c)) l).

(** node.go:214-226: first promotion. *)
Definition promote1 (n : node) : node :=
  match n_kids n with
  | [only] =>
    if nonempty (n_name only) then n
    else if nonempty (n_chars only) then set_kids (set_chars n (n_chars only)) []
    else set_kids n (n_kids only)
  | _ => n
  end.
(** node.go:228-243: drop empty unnamed children, splice unnamed inner ones. *)
Definition splice (l : list node) : list node :=
  flat_map (fun c =>
    if negb (nonempty (text c)) && negb (nonempty (n_name c)) then []
    else if negb (nonempty (n_name c)) && nonempty (n_kids c) then n_kids c
    else [c]) l.
(** node.go:245-249: last promotion. *)
Definition promote2 (n : node) : node :=
  match n_kids n with
  | [only] =>
    if negb (nonempty (n_name only)) && negb (nonempty (n_kids only))
    then set_kids (set_chars n (n_chars only)) [] else n
  | _ => n
  end.
(** node.go:204-250 [RemoveRedundantNodes]. *)
Fixpoint removeRedundant (n : node) : node :=
  match n_kids n with
  | [] => n
  | _ =>
    let n1 := promote1 (set_kids n (List.map removeRedundant (n_kids n))) in
    promote2 (set_kids n1 (splice (n_kids n1)))
  end.

(* ------------------------------------------------------------------ *)
(** ** AST (ast.go); an AST is its [Nodes] (the file name is not modelled) *)
Definition ast := list node.

(** ast.go:42-55, 57-70. *)
Definition astRemoveVirtual (a : ast) : ast :=
  flat_map (fun c => if n_virtual c then [] else [removeVirtual c]) a.
Definition astRemoveNonData (a : ast) : ast :=
  flat_map (fun c => if n_nondata c then [] else [removeNonData c]) a.
(** ast.go:72-82. *)
Definition astRemoveRedundant (a : ast) : ast :=
  List.map (fun c => if n_nondata c then c else removeRedundant c) a.
(** ast.go:83-91. *)
Definition astMerge (a : ast) : ast := mergeNodes a.
(** ast.go:123-132. *)
Definition astText (a : ast) : list Z := flat_map text a.
(** ast.go:134-165. *)
Definition astCountNodes (a : ast) : nat := fold_right plus 0%nat (List.map countNodes a).
Definition astCountTokens (a : ast) : nat := fold_right plus 0%nat (List.map countTokens a).
Definition astCountSticky (a : ast) : nat := fold_right plus 0%nat (List.map countSticky a).

(** grammar.go:306-321: the simplification that [Grammar.Eval] does after
    [EvalRaw] (levels: ast.go:8-13). *)
Definition simplify (level : Z) (a : ast) : ast :=
  if level =? -1 then a
  else astRemoveRedundant
    (if level =? 2 then astRemoveNonData (astRemoveVirtual (astMerge a))
     else if level =? 1 then astRemoveVirtual (astMerge a)
     else astMerge a).

(** Induction for nodes, with the hypothesis for every child. *)
Lemma node_ind' (P : node -> Prop) :
  (forall n, Forall P (n_kids n) -> P n) -> forall n, P n.
Proof.
  intros H. fix IH 1. intros [ty nm ch ks po st vi nd tk].
  apply H. cbn [n_kids].
  induction ks as [|k ks IHks]; constructor; [apply IH | exact IHks].
Qed.
