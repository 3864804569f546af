(** Texts laid out as [Text] lays them out, up to the kind and amount of white space. *)
From Verif Require Import Base Stream Node SpecRule SpecNode SpecLayout.

Section Reread.
Variable W : list Z.
(** [t] is the text of [n] with any run of the white space [W] in the place of each separator. *)
Inductive laidOut : node -> list Z -> Prop :=
| lay_leaf n : n_chars n <> [] -> laidOut n (text n)
| lay_none n : n_chars n = [] -> n_kids n = [] -> laidOut n []
| lay_more n pre c t gap t' : n_chars n = [] -> n_kids n = pre ++ [c] -> laidOut (set_kids n pre) t -> laidOut c t' ->
    (spaced n pre c /\ run W gap) \/ (~ spaced n pre c /\ gap = []) -> laidOut n (t ++ gap ++ t').
End Reread.
