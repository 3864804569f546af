(** What a grammar text says, apart from the order of its lines. *)
From Coq Require Import Permutation.
From Verif Require Import Base Stream Node Rule Grammar SpecGrammar.

(** The definitions in the lines, from the first to the last; every line is inert or a definition. *)
Inductive says : list (list Z) -> list (list Z * list Z) -> Prop :=
| says_nil : says [] []
| says_inert ln ls d : inert ln -> says ls d -> says (ln :: ls) d
| says_define ln name body ls d : ~ inert ln -> defines ln name body -> says ls d -> says (ln :: ls) ((name, body) :: d).

(** The two grammars have the same rule under every name and the same root rules. *)
Definition sameRules (g g' : grammar) : Prop :=
  (forall n, getRule g n = getRule g' n) /\ Permutation (rootsOf g) (rootsOf g').
