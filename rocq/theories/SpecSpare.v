(** C97: grammars without a mark: with [v = true] no rule and no reference carries '~', with
    [v = false] none carries '#' (rule.go, rule_reference.go: annotations). *)
From Verif Require Import Base Node Rule SpecRule.

Definition baseMark (v : bool) (b : rbase) : bool := if v then b_virtual b else b_nondata b.
Fixpoint without (v : bool) (r : rule) : bool :=
  match r with
  | RRef b _ | REOF b | RChar b _ _ | RChars b _ | RString b _ | RRange b _ _ _ _ => negb (baseMark v b)
  | RGroup b x | ROption b x | RRep b x _ _ => negb (baseMark v b) && without v x
  | RChoice b gs => negb (baseMark v b) && forallb (forallb (without v)) gs
  | RConcat b l => negb (baseMark v b) && forallb (without v) l
  | RBlock b o _ c _ _ => negb (baseMark v b) && without v o && without v c
  end.
Definition without_mark (v : bool) (g : rules_t) (roots : list (list Z * rule)) : Prop :=
  (forall n r, lookup g n = Some r -> without v r = true) /\ (forall x, In x roots -> without v (snd x) = true).
