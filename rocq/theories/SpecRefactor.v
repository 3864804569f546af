(** Rewriting a grammar without changing what it describes: parentheses around a
    part, a part given a name of its own, a name replaced by what it stands for. *)
From Verif Require Import Base Stream Node Rule Grammar SpecRule.

(** The leaves of a tree, without names and marks. *)
Definition leafOf (n : node) : rtype * list Z * option position * bool := (n_type n, n_chars n, n_pos n, n_sticky n).
Fixpoint leaves (n : node) : list (rtype * list Z * option position * bool) :=
  match n_kids n with [] => [leafOf n] | ks => flat_map leaves ks end.
(** The node of an option that was not taken. *)
Definition notTaken (n : node) : Prop := n_type n = TOption /\ n_kids n = [] /\ n_chars n = [].

(** Not an option, also not through a name. *)
Inductive noOption (g : rules_t) : rule -> Prop :=
| no_char b t u : noOption g (RChar b t u)
| no_chars b t : noOption g (RChars b t)
| no_string b t : noOption g (RString b t)
| no_range b l lu h hu : noOption g (RRange b l lu h hu)
| no_eof b : noOption g (REOF b)
| no_group b x : noOption g (RGroup b x)
| no_rep b x mn mx : noOption g (RRep b x mn mx)
| no_choice b gs : noOption g (RChoice b gs)
| no_concat b l : noOption g (RConcat b l)
| no_block b o v c e xs : noOption g (RBlock b o v c e xs)
| no_undef b n : lookup g n = None -> noOption g (RRef b n)
| no_ref b n x : lookup g n = Some x -> noOption g x -> noOption g (RRef b n).
(** Cannot fail with an ambiguity of its own: not a choice with two alternatives in a
    group, also not through a name or as the open rule of a block. *)
Inductive noTie (g : rules_t) : rule -> Prop :=
| nt_char b t u : noTie g (RChar b t u)
| nt_chars b t : noTie g (RChars b t)
| nt_string b t : noTie g (RString b t)
| nt_range b l lu h hu : noTie g (RRange b l lu h hu)
| nt_eof b : noTie g (REOF b)
| nt_group b x : noTie g (RGroup b x)
| nt_option b x : noTie g (ROption b x)
| nt_rep b x mn mx : noTie g (RRep b x mn mx)
| nt_concat b l : noTie g (RConcat b l)
| nt_choice b gs : Forall (fun grp => (length grp <= 1)%nat) gs -> noTie g (RChoice b gs)
| nt_block b o v c e xs : noTie g o -> noTie g (RBlock b o v c e xs)
| nt_undef b n : lookup g n = None -> noTie g (RRef b n)
| nt_ref b n x : lookup g n = Some x -> noTie g x -> noTie g (RRef b n).

Section Refactor.
Variables g g' : rules_t.
(** Names whose definitions may stand anywhere. *)
Variable tight : list Z -> Prop.

(** [rewritten st r r']: [r'] (in [g']) is [r] (in [g]) rewritten.  With [st] it may
    stand anywhere; without, everywhere but directly as the body of an option or a
    repetition and as the close of a block.  Names and marks are free. *)
Inductive rewritten : bool -> rule -> rule -> Prop :=
| rw_char st b b' t u u' : rewritten st (RChar b t u) (RChar b' t u')
| rw_chars st b b' t : rewritten st (RChars b t) (RChars b' t)
| rw_string st b b' t : rewritten st (RString b t) (RString b' t)
| rw_range st b b' l lu lu' h hu hu' : rewritten st (RRange b l lu h hu) (RRange b' l lu' h hu')
| rw_eof st b b' : rewritten st (REOF b) (REOF b')
| rw_ref (st : bool) b b' n : (lookup g n = None <-> lookup g' n = None) -> (if st then tight n else True) -> rewritten st (RRef b n) (RRef b' n)
| rw_group st b b' x x' : rewritten false x x' -> rewritten st (RGroup b x) (RGroup b' x')
| rw_option st b b' x x' : rewritten true x x' -> rewritten st (ROption b x) (ROption b' x')
| rw_rep st b b' x x' mn mx : rewritten true x x' -> rewritten st (RRep b x mn mx) (RRep b' x' mn mx)
| rw_choice st b b' gs gs' : rewrittenGroups gs gs' -> rewritten st (RChoice b gs) (RChoice b' gs')
| rw_concat st b b' l l' : rewrittenAll l l' -> rewritten st (RConcat b l) (RConcat b' l')
| rw_block st b b' o o' v c c' e e' xs xs' : rewritten st o o' -> rewritten true c c' ->
    rewrittenOpt e e' ->
    rewrittenAll xs xs' -> rewritten st (RBlock b o v c e xs) (RBlock b' o' v c' e' xs')
(** Parentheses added, and taken away. *)
| rw_paren (st : bool) b' x x' : rewritten false x x' -> noOption g x -> (if st then noTie g x else True) -> rewritten st x (RGroup b' x')
| rw_unparen (st : bool) b x x' : rewritten false x x' -> noOption g' x' -> (if st then noTie g' x' else True) -> rewritten st (RGroup b x) x'
(** A part named, and a name replaced by what it stands for. *)
| rw_name st b' n x x' : lookup g' n = Some x' -> rewritten st x x' -> rewritten st x (RRef b' n)
| rw_unname st b n x x' : lookup g n = Some x -> rewritten st x x' -> rewritten st (RRef b n) x'
with rewrittenAll : list rule -> list rule -> Prop :=
| rwl_nil : rewrittenAll [] []
| rwl_cons x x' l l' : rewritten false x x' -> rewrittenAll l l' -> rewrittenAll (x :: l) (x' :: l')
with rewrittenGroups : list (list rule) -> list (list rule) -> Prop :=
| rwg_nil : rewrittenGroups [] []
| rwg_cons x x' l l' : rewrittenAll x x' -> rewrittenGroups l l' -> rewrittenGroups (x :: l) (x' :: l')
with rewrittenOpt : option rule -> option rule -> Prop :=
| rwo_none : rewrittenOpt None None
| rwo_some x x' : rewritten false x x' -> rewrittenOpt (Some x) (Some x').

(** The rules of the same name are rewritten into each other. *)
Definition rewrites : Prop := forall n x x', lookup g n = Some x -> lookup g' n = Some x' ->
  rewritten false x x' /\ (tight n -> rewritten true x x').
End Refactor.

(** The same answer, apart from the inner nodes of the tree and the wording of the
    error. *)
Definition alikeNodes (n n' : node) : Prop := leaves n = leaves n' /\ (notTaken n <-> notTaken n').
Definition alikeRes (st : bool) (r r' : result) : Prop :=
  match r_node r, r_node r' with
  | Some n, Some n' => alikeNodes n n' /\ r_unused r = r_unused r'
  | None, None => st = true -> r_unused r = r_unused r'
  | _, _ => False
  end /\ r_read r = r_read r' /\ r_sticky r = r_sticky r' /\ r_erridx r = r_erridx r' /\ (r_err r = None <-> r_err r' = None).

(** The same forest, and the same kind of answer of EvalRaw. *)
Definition alikeRaw (r r' : rawRes) : Prop :=
  match r, r' with
  | RawOk a, RawOk a' => Forall2 (fun n n' => leaves n = leaves n') a a'
  | RawEmpty, RawEmpty => True
  | RawNoMatch _ _, RawNoMatch _ _ => True
  | RawAmbiguity x m, RawAmbiguity x' m' => alikeRes false x x' /\ alikeRes false m m'
  | RawNoNode, RawNoNode => True
  | _, _ => False
  end.
Definition named {A B} (P : A -> B -> Prop) (p : list Z * A) (p' : list Z * B) : Prop := fst p = fst p' /\ P (snd p) (snd p').
Definition bothMatch (X X' : result) : Prop := alikeRes false X X' /\ exists n, r_node X = Some n.
(** Map orders that visit the corresponding things in the corresponding order. *)
Record alikeOrders (g g' : rules_t) (tight : list Z -> Prop) (o o' : orders) : Prop := {
  ao_roots : forall k, Forall2 (named (fun r r' => rewritten g g' tight false r r' /\ wfRule r')) (o_roots o k) (o_roots o' k);
  ao_matched : forall k l l', Forall2 (named bothMatch) l l' -> Forall2 (named bothMatch) (o_matched o k l) (o_matched o' k l') }.
