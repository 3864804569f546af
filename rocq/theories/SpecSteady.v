(** C92: the three leading-space modes (rule.go:38-43) differ in what is done with white space
    in front only. *)
From Verif Require Import Base Node Rule SpecRule SpecEval SpecTerm SpecDriver.

(** The text does not start with white space. *)
Definition darkFirst (t : list Z) : Prop := match t with c :: _ => ~ In c whiteSpaces | [] => True end.
Definition darkWord (l : list Z) : bool := match l with c :: _ => negb (isWS c) | [] => true end.

(** The rules whose front parts are no repetitions and no words starting with white space.
    A concatenation goes on in the mode of its caller behind an option; [steadies] has the
    names of the rules of this kind. *)
Section Steady.
Variables (g : rules_t) (steadies : list (list Z)).
(** The tree of the rule may be an absent option. *)
Definition mayBeOption (r : rule) : bool :=
  match r with ROption _ _ => true | RRef _ n => match lookup g n with Some (ROption _ _) | Some (RRef _ _) => true | _ => false end | _ => false end.
Fixpoint steady (r : rule) : bool :=
  match r with
  | RChars _ l | RString _ l => darkWord l
  | RRef _ n => isIn n steadies
  | RGroup _ x | ROption _ x => steady x
  | RRep _ _ _ _ => false
  | RChoice _ gs => forallb (forallb steady) gs
  | RConcat _ l => (fix go l := match l with [] => true | x :: l' => steady x && (negb (mayBeOption x) || go l') end) l
  | RBlock _ o _ _ _ _ => steady o
  | _ => true
  end.
Definition steadyRules : bool := forallb (fun x => let '(n, r) := x in negb (isIn n steadies) || steady r) g.
End Steady.

(** Two answers say the same, up to the Positions of nodes and the errors. *)
Definition alikeAnswers (a b : result) : Prop :=
  option_map erase (r_node a) = option_map erase (r_node b) /\ r_read a = r_read b /\ r_sticky a = r_sticky b /\ (r_node a <> None -> r_unused a = r_unused b).
(** The first part of the answer of EvalEmbed is the answer of EvalRule. *)
Definition firstPart (sample : list Z) (res : result) (kids : list node) : Prop :=
  match r_node res with
  | Some nd => exists k ks, kids = k :: ks /\ erase k = erase nd
  | None => sample = [] /\ kids = [] \/ exists c k ks l, kids = k :: ks /\ erase k = asText (c :: l) /\ exists t, sample = c :: t
  end.
