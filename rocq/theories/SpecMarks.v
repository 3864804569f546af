(** C96: grammars in which only named rules and references carry the marks '~' and '#'
    (rule.go: the annotations of a rule; rule_reference.go: a reference switches those of the node
    it gets, which has the name of the rule referred to). *)
From Verif Require Import Base Node Rule SpecRule.

Definition ownMarks (b : rbase) : bool := negb (b_virtual b || b_nondata b) || nonempty (b_name b).
Fixpoint marksNamed (r : rule) : bool :=
  match r with
  | RRef _ _ | REOF _ => true
  | RChar b _ _ | RChars b _ | RString b _ | RRange b _ _ _ _ => ownMarks b
  | RGroup b x | ROption b x | RRep b x _ _ => ownMarks b && marksNamed x
  | RChoice b gs => ownMarks b && forallb (forallb marksNamed) gs
  | RConcat b l => ownMarks b && forallb marksNamed l
  | RBlock b o _ c _ _ => ownMarks b && marksNamed o && marksNamed c
  end.
Definition hasName (r : rule) : bool :=
  match r with RRef _ _ | REOF _ => true | _ => nonempty (b_name (base_of r)) end.
Definition marksOnNames (g : rules_t) (roots : list (list Z * rule)) : Prop :=
  (forall n r, lookup g n = Some r -> marksNamed r = true /\ hasName r = true) /\ (forall x, In x roots -> marksNamed (snd x) = true).
