(** Model of the methods of EvalResult that only serve its users: rule.go
    [MergeStickyNodes] and [StringTree]. *)
From Verif Require Import Base Stream Node Rule Print Show Message.

(** rule.go:66-71. *)
Definition mergeResult (r : result) : result :=
  mkRes (option_map mergeNode (r_node r)) (r_err r) (r_erridx r) (r_read r) (r_unused r) (r_sticky r).

(** rule.go:84-85: the runes of a result, after a branch. *)
Definition runesLine (label : list Z) (l : list Z) (colon : list Z) : list Z :=
  [10; cTee] ++ repeat cHor 3 ++ label ++ [91] ++ showInt (Z.of_nat (length l)) ++ [93] ++ colon ++ str l ++ [42].
(** rule.go:81-97. *)
Definition resultTree (cfg : config) (r : result) : list Z :=
  rs "EvalResult" ++ runesLine (rs "CharsRead") (r_read r) (rs "  :") ++ runesLine (rs "CharsUnused") (r_unused r) (rs ":")
  ++ [10; cCorner] ++ repeat cHor 3 ++ rs "Node: "
  ++ match r_node r with
     | None => rs "nil" ++ match r_err r with Some e => rs "; " ++ errText e | None => [] end
     | Some n => indent (rs "    ") (stringTree cfg n)
     end.
