(** C90: JSON values inside other text, as EvalEmbed (grammar.go:243-287) is to find them. *)
From Verif Require Import Base Node Rule SpecRule SpecEval SpecJson SpecDriver.

Definition isNumber (v : json) : Prop := match v with JNum _ _ _ => True | _ => False end.
Definition dark (t : list Z) : Prop := match t with c :: _ => ~ In c whiteSpaces | [] => False end.
(** A text for [v] stands at the front of [t], and [t'] follows it.  [loose] says of which
    values the text may start with white space. *)
Definition stands (loose : json -> Prop) (v : json) (t t' : list Z) : Prop :=
  exists tv, t = tv ++ t' /\ Spells v tv /\ mayFollow v t' /\ (loose v \/ dark tv).

Inductive piece := Words (s : list Z) | Value (v : json).
Definition ended (run : list Z) : list piece := match run with [] => [] | _ => [Words run] end.
(** The text cut up from left to right: a value where one stands, otherwise one more
    rune of the words in between. *)
Inductive Mixed (loose : json -> Prop) : list Z -> list Z -> list piece -> Prop :=
| mx_end run : Mixed loose run [] (ended run)
| mx_rune run c t l : (forall v t', ~ stands loose v (c :: t) t') -> Mixed loose (run ++ [c]) t l -> Mixed loose run (c :: t) l
| mx_value run t v t' l : stands loose v t t' -> Mixed loose [] t' l -> Mixed loose run t (ended run ++ Value v :: l).

(** How a piece is shown. *)
Definition shown (p : piece) (n : node) : Prop :=
  match p with Words s => erase n = asText s | Value v => List.map erase (simplify 0 [n]) = [treeOf v] end.
