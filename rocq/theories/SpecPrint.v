(** The rules whose String() can be read back. *)
From Verif Require Import Base Stream Node Rule SpecRule SpecParse.

(** A rune that UTF-8 can encode. *)
Definition encodable (c : Z) : Prop := 0 <= c < 55296 \/ 57344 <= c <= 1114111.
Definition unnamed (b : rbase) : Prop := b_name b = [].
Definition unmarked (b : rbase) : Prop := b = noBase.

(** An end of a range and how it was written: by its code point, or as a rune
    that the notation can hold between quotes. *)
Definition codePoint (c : Z) : Prop := 0 <= c < 65536.
Definition lowOk (c : Z) (u : bool) : Prop := if u then codePoint c else encodable c /\ c <> 92.
Definition highOk (b : rbase) (c : Z) (u : bool) : Prop := if u then codePoint c /\ unmarked b else encodable c /\ c <> 92 /\ c <> 39.

(** [atomic]: everything but choices and concatenations; [item]: what may stand
    in a concatenation. *)
Inductive atomic : rule -> Prop :=
| at_char b c (u : bool) : unnamed b -> (if u then codePoint c else encodable c) -> atomic (RChar b c u)
| at_chars b t : unnamed b -> (2 <= length t)%nat -> Forall (fun c => encodable c /\ c <> 92) t -> atomic (RChars b t)
| at_string b t : unnamed b -> Forall (fun c => encodable c /\ c <> 92 /\ c <> 34) t -> atomic (RString b t)
| at_range b lo lu hi hu : unnamed b -> lowOk lo lu -> highOk b hi hu -> atomic (RRange b lo lu hi hu)
| at_eof b : unnamed b -> atomic (REOF b)
| at_ref b c n : unnamed b -> firstOf c -> ident (c :: n) -> atomic (RRef b (c :: n))
| at_group b x : unnamed b -> plain x -> atomic (RGroup b x)
| at_option b x : unnamed b -> plain x -> atomic (ROption b x)
| at_rep b x mn mx : unnamed b -> plain x -> 0 <= mn < 2 ^ 32 -> 0 <= mx < 2 ^ 32 -> (mn = 0 /\ mx = 0 \/ mx = 0 \/ mn < mx) -> atomic (RRep b x mn mx)
| at_block b o v c : unnamed b -> atomic o -> atomic c -> atomic (RBlock b o v c None [])
| at_block_excl b o v c x xs : unnamed b -> atomic o -> atomic c -> atomics (x :: xs) -> atomic (RBlock b o v c None (x :: xs))
| at_block_esc b o v c e xs : unnamed b -> atomic o -> atomic c -> atomic e -> atomics xs -> atomic (RBlock b o v c (Some e) xs)
with atomics : list rule -> Prop :=
| ats_nil : atomics []
| ats_cons x xs : atomic x -> atomics xs -> atomics (x :: xs)
with alternatives : list (bool * rule) -> Prop :=
| alt_nil : alternatives []
| alt_cons o x alts : atomic x -> alternatives alts -> alternatives ((o, x) :: alts)
with item : rule -> Prop :=
| it_atom r : atomic r -> item r
| it_choice r a alts : atomic r -> alternatives (a :: alts) -> item (RChoice noBase (grouped r (a :: alts)))
with items : list rule -> Prop :=
| its_one r : item r -> items [r]
| its_cons r rs : item r -> items rs -> items (r :: rs)
with plain : rule -> Prop :=
| pl_seq rs : items rs -> plain (sequence rs).
