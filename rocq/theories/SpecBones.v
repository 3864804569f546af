(** C96: what a tree says: its named nodes that hold text, how they are nested, and the texts of
    the leaves in them (node.go:12-24). *)
From Verif Require Import Base Node SpecNode.

Inductive bone :=
| Leaf (t : list Z)
(** a named node: type, name, position and marks, and what is in it *)
| Named (who : rtype * list Z * option (Z * Z) * bool * bool * bool * bool) (within : list bone).

(** A named node counts when there is something in it. *)
Definition wrap (n : node) (l : list bone) : list bone :=
  match n_name n, l with
  | [], _ => l
  | _, [] => []
  | _, _ => [Named (ident_of n) l]
  end.
(** The bones of a node, without the subtrees selected by [drop] and without the end-of-file marks. *)
Fixpoint bones (drop : node -> bool) (n : node) : list bone :=
  wrap n (match n_chars n with
          | [] => flat_map (fun c => if drop c then [] else bones drop c) (n_kids n)
          | _ => if isEOFText (n_chars n) then [] else [Leaf (n_chars n)]
          end).
Definition bonesOf (drop : node -> bool) (a : list node) : list bone :=
  flat_map (fun c => if drop c then [] else bones drop c) a.

(** The texts of the leaves. *)
Fixpoint leaves (b : bone) : list (list Z) :=
  match b with Leaf t => [t] | Named _ l => flat_map leaves l end.
