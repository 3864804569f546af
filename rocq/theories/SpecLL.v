(** A class of grammars that can be read off the rules and in which the
    evaluator is always right.

    It is what books call LL(1), adapted to white space that may or may not be
    skipped: whether a rule applies is decided by the first rune that is not
    white space ("dark" rune). *)
From Verif Require Import Base Stream Node Rule SpecStream SpecRule.

Definition dark (c : Z) : Prop := ~ In c whiteSpaces.
Definition apart (P Q : Z -> Prop) : Prop := forall x, P x -> Q x -> False.

(** The rule may match without using a dark rune. *)
Inductive Nullable (g : rules_t) : rule -> Prop :=
| nu_eof b : Nullable g (REOF b)
| nu_empty b : Nullable g (RString b [])
| nu_ref b n r : lookup g n = Some r -> Nullable g r -> Nullable g (RRef b n)
| nu_group b r : Nullable g r -> Nullable g (RGroup b r)
| nu_option b r : Nullable g (ROption b r)
| nu_rep b r mn mx : mn <= 0 -> Nullable g (RRep b r mn mx)
| nu_rep_body b r mn mx : Nullable g r -> Nullable g (RRep b r mn mx)
| nu_choice b gs grp r : In grp gs -> In r grp -> Nullable g r -> Nullable g (RChoice b gs)
| nu_concat b l : (forall r, In r l -> Nullable g r) -> Nullable g (RConcat b l).

(** The dark rune [c] may be the first one the rule uses. *)
Inductive First (g : rules_t) (c : Z) : rule -> Prop :=
| fi_char b u : First g c (RChar b c u)
| fi_chars b l : First g c (RChars b (c :: l))
| fi_string b l : First g c (RString b (c :: l))
| fi_range b lo lu hi hu : lo <= c <= hi -> First g c (RRange b lo lu hi hu)
| fi_ref b n r : lookup g n = Some r -> First g c r -> First g c (RRef b n)
| fi_group b r : First g c r -> First g c (RGroup b r)
| fi_option b r : First g c r -> First g c (ROption b r)
| fi_rep b r mn mx : First g c r -> First g c (RRep b r mn mx)
| fi_choice b gs grp r : In grp gs -> In r grp -> First g c r -> First g c (RChoice b gs)
| fi_concat b pre r post : (forall x, In x pre -> Nullable g x) -> First g c r -> First g c (RConcat b (pre ++ r :: post))
| fi_block b o v cl e xs : First g c o -> First g c (RBlock b o v cl e xs).

(** The rule may look at runes behind those it uses. *)
Inductive Looks (g : rules_t) : rule -> Prop :=
| lo_nullable r : Nullable g r -> Looks g r
| lo_ref b n r : lookup g n = Some r -> Looks g r -> Looks g (RRef b n)
| lo_group b r : Looks g r -> Looks g (RGroup b r)
| lo_rep b r mn mx : Looks g (RRep b r mn mx)
| lo_choice b gs grp r : In grp gs -> In r grp -> Looks g r -> Looks g (RChoice b gs)
| lo_concat b pre r : Looks g r -> Looks g (RConcat b (pre ++ [r]))
| lo_block b o cl e xs : Looks g (RBlock b o true cl e xs).

(** The dark rune [c] behind the end of a match may lead the rule to look further:
    a longer match could start with it. *)
Inductive Tail (g : rules_t) (c : Z) : rule -> Prop :=
| ta_nullable r : Nullable g r -> First g c r -> Tail g c r
| ta_ref b n r : lookup g n = Some r -> Tail g c r -> Tail g c (RRef b n)
| ta_group b r : Tail g c r -> Tail g c (RGroup b r)
| ta_option b r : Tail g c r -> Tail g c (ROption b r)
| ta_rep_first b r mn mx : First g c r -> Tail g c (RRep b r mn mx)
| ta_rep b r mn mx : Tail g c r -> Tail g c (RRep b r mn mx)
| ta_choice b gs grp r : In grp gs -> In r grp -> Tail g c r -> Tail g c (RChoice b gs)
| ta_concat b pre r post : (forall x, In x post -> Nullable g x) -> Tail g c r -> Tail g c (RConcat b (pre ++ r :: post)).

(** A literal and its runes. *)
Inductive literal : rule -> list Z -> Prop :=
| lit_char b c u : literal (RChar b c u) [c]
| lit_chars b l : literal (RChars b l) l
| lit_string b l : literal (RString b l) l.

(** The condition on a rule: alternatives start with different runes and only the
    last group of a choice may match without a dark rune, and then only one of its
    alternatives; what follows an element never starts with a rune with which the
    element could go on.  Blocks have literal ends and neither escape nor excludes.

    With [strict], two elements of a concatenation that may look ahead or match
    without a dark rune never stand next to each other in front of a third one.
    Books do not ask for that; this evaluator needs it (C52). *)
Inductive LLk (strict : bool) (g : rules_t) : rule -> Prop :=
| ll_literal r c l : literal r (c :: l) -> dark c -> LLk strict g r
| ll_range b lo lu hi hu : 32 < lo -> LLk strict g (RRange b lo lu hi hu)
| ll_eof b : LLk strict g (REOF b)
| ll_ref b n r : lookup g n = Some r -> LLk strict g (RRef b n)
| ll_group b r : LLk strict g r -> LLk strict g (RGroup b r)
| ll_option b r : LLk strict g r -> LLk strict g (ROption b r)
| ll_rep b r mn mx : LLk strict g r -> ~ Nullable g r ->
    apart (fun c => Tail g c r) (fun c => First g c r) -> LLk strict g (RRep b r mn mx)
| ll_choice b gs : (forall grp r, In grp gs -> In r grp -> LLk strict g r) ->
    ForallOrdPairs (fun r s => apart (fun c => First g c r) (fun c => First g c s)) (concat gs) ->
    (forall grp, In grp gs -> ForallOrdPairs (fun r s => ~ (Nullable g r /\ Nullable g s)) grp) ->
    (forall pre grp post r, gs = pre ++ grp :: post -> post <> [] -> In r grp -> ~ Nullable g r) ->
    LLk strict g (RChoice b gs)
| ll_concat b l : (forall r, In r l -> LLk strict g r) ->
    (forall pre r mid s post, l = pre ++ r :: mid ++ s :: post -> (forall x, In x mid -> Nullable g x) ->
       apart (fun c => Tail g c r) (fun c => First g c s)) ->
    (strict = true -> forall pre r s post, l = pre ++ r :: s :: post -> Looks g r -> post = [] \/ ~ Nullable g s) ->
    LLk strict g (RConcat b l)
| ll_block b o (v : bool) cl c l w : literal o (c :: l) -> dark c -> literal cl w -> w <> [] ->
    (v = true -> length w = 1%nat) -> LLk strict g (RBlock b o v cl None []).

(** LL(1) as in books, and the part of it in which the evaluator is right. *)
Definition LL1 (g : rules_t) : Prop := forall n r, lookup g n = Some r -> LLk false g r.
Notation LL := (LLk true).
Definition LLs (g : rules_t) : Prop := forall n r, lookup g n = Some r -> LL g r.

(** Texts whose white space is the usual one (ranges match other white space by
    mistake, C10). *)
Definition plainSpace (t : list Z) : Prop := Forall (fun c => In c whiteSpaces -> c <= 32) t.
