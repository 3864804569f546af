(** C93: EvalEmbed (grammar.go:248-287) has no memory of the text before a match. *)
From Verif Require Import Base Node Rule Grammar SpecEval SpecEv SpecDriver.

(** Each child that is no text is the match of the rule at some place of the sample, and the
    children behind it are the answer of EvalEmbed for what follows there. *)
Definition afresh (lf fuel : nat) (g : grammar) (name sample : list Z) (kids : list node) : Prop :=
  forall k1 x k2, kids = k1 ++ x :: k2 -> isText x = false ->
  exists r p u k st n, lookup (rules_of g) name = Some r /\ (p + u <= length sample)%nat /\ Ev (rules_of g) r NOT_SKIP (skipn p sample) (OMatch (erase x) u k st) /\
    evalEmbed lf fuel g name (skipn (p + u) sample) = Some (Ok n) /\ List.map erase (n_kids n) = List.map erase k2.
