(** C91: the mode NOT_SKIP (rule.go:38-43), in which blocks look for their ends and EvalEmbed
    for matches: no white space in front of a match is passed over. *)
From Verif Require Import Base Node Rule SpecRule SpecTerm.

(** The runes in the tree, in their order. *)
Fixpoint runes (n : node) : list Z :=
  (match n_type n with TEOF => [] | _ => n_chars n end) ++ flat_map runes (n_kids n).
(** [n] is a match of [used]: it starts where [used] starts. *)
Definition front (used : list Z) (n : node) : Prop :=
  match used with [] => runes n = [] | c :: _ => exists l, runes n = c :: l end.

(** The rules that start with something that takes text, up to options in front.
    [nulls] has the names of the rules that may match without using text, [firms] those of
    the rules of this kind. *)
Section Firm.
Variables nulls firms : list (list Z).
Fixpoint firm (r : rule) : bool :=
  match r with
  | RRef _ n => isIn n firms
  | RGroup _ x | ROption _ x | RRep _ x _ _ => firm x
  | RChoice _ gs => forallb (forallb firm) gs
  | RConcat _ l =>
      (fix go l := match l with
       | [] => true
       | x :: l' => firm x && (negb (nullable nulls x) || negb (nonempty l') || match x with ROption _ y => negb (nullable nulls y) && go l' | _ => false end)
       end) l
  | RBlock _ o _ _ _ _ => firm o && negb (nullable nulls o)
  | _ => true
  end.
Definition firmRules (g : rules_t) : bool :=
  forallb (fun x => let '(n, r) := x in (negb (nullable nulls r) || isIn n nulls) && (negb (isIn n firms) || firm r)) g.
End Firm.
