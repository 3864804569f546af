(** Vocabulary for the printed results (C68). *)
From Verif Require Import Base Stream Node Rule SpecRule SpecParse SpecShow Message.

(** What a reader of a printed result learns: the runes, and the tree, or else the error
    if there is one. *)
Definition glance (types : bool) (r : result) : list Z * list Z * (sketch + option (list Z)) :=
  (List.map goRune (r_read r), List.map goRune (r_unused r),
   match r_node r with Some n => inl (sketchOf types n) | None => inr (option_map errText (r_err r)) end).
Definition clearNode (r : result) : Prop := forall n, r_node r = Some n -> drawable n.
(** The layout: the runes with their number, then the tree or the error. *)
Definition counted (l a : list Z) : Prop := written (Z.of_nat (length l)) a.
Definition printed (drawing : node -> list Z -> Prop) (r : result) (t : list Z) : Prop :=
  exists a b z,
    t = rs "EvalResult" ++ [10; 9500; 9472; 9472; 9472] ++ rs "CharsRead[" ++ a ++ rs "]  :" ++ List.map goRune (r_read r) ++ rs "*"
        ++ [10; 9500; 9472; 9472; 9472] ++ rs "CharsUnused[" ++ b ++ rs "]:" ++ List.map goRune (r_unused r) ++ rs "*"
        ++ [10; 9492; 9472; 9472; 9472] ++ rs "Node: " ++ z /\
    counted (r_read r) a /\ counted (r_unused r) b /\
    match r_node r, r_err r with
    | Some n, _ => exists d, drawing n d /\ under (rs "    ") d z
    | None, Some e => z = rs "nil; " ++ errText e
    | None, None => z = rs "nil"
    end.
