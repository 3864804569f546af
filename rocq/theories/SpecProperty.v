(** What the shipped property grammar (main/samples/property/property.xbnf) reads: names
    with values, and names alone, line by line; on its own, without the grammar. *)
From Verif Require Import Base Node SpecRule SpecArith SpecLines.

Definition separator (c : Z) : Prop := c = 61 \/ c = 58.
Definition blank (c : Z) : Prop := c = 32 \/ c = 9 \/ c = 10.
Definition nameRune (c : Z) : Prop := c <> 10 /\ ~ separator c.
Definition lineRune (c : Z) : Prop := c <> 10.

Inductive entry :=
| Alone (k : list Z)
| Pair (k : list Z) (c : Z) (v : list Z).

(** A line goes up to a newline or the end of the text. *)
Inductive LineEnd : list Z -> list Z -> Prop :=
| le_eof : LineEnd [] []
| le_line t : LineEnd (10 :: t) t.
(** White space up to the last blank, tab or newline in it is passed over. *)
Definition Trail (t rest : list Z) : Prop :=
  exists w, t = w ++ rest /\ white w /\ (w = [] \/ exists w' c, w = w' ++ [c] /\ blank c) /\
    forall w' c t', rest = w' ++ c :: t' -> white w' -> ~ blank c.
(** White space is skipped; something has to follow, be it white space that is neither
    blank, tab nor newline. *)
Definition Start (t body : list Z) : Prop :=
  exists w, t = w ++ body /\ white w /\ flush body /\ (body = [] -> exists w' c, w = w' ++ [c] /\ ~ blank c).
Inductive Entry : entry -> list Z -> list Z -> Prop :=
| en_alone t k e t1 rest : Start t (k ++ e) -> Forall nameRune k -> LineEnd e t1 -> Trail t1 rest -> Entry (Alone k) t rest
| en_pair t k c t1 v e t2 rest : Start t (k ++ c :: t1) -> Forall nameRune k -> separator c ->
    Start t1 (v ++ e) -> Forall lineRune v -> LineEnd e t2 -> Trail t2 rest -> Entry (Pair k c v) t rest.
Definition noEntry (t : list Z) : Prop := forall e r, ~ Entry e t r.
(** A text is read entry by entry. *)
Inductive Entries : list entry -> list Z -> list Z -> Prop :=
| et_none t : noEntry t -> Entries [] t t
| et_more e t t' l rest : Entry e t t' -> Entries l t' rest -> Entries (e :: l) t rest.

Definition entryTree (e : entry) : node :=
  nd TConcat (rs "property") []
    match e with
    | Alone k => [nd TConcat (rs "emptykey") k []]
    | Pair k _ v => [nd TConcat (rs "key") k []; nd TConcat (rs "value") v []]
    end.

(** Entries as one would write them, one on each line. *)
Definition tidy (e : entry) : Prop :=
  match e with
  | Alone k => flush k /\ k <> [] /\ Forall nameRune k
  | Pair k c v => flush k /\ Forall nameRune k /\ separator c /\ flush v /\ v <> [] /\ Forall lineRune v
  end.
Definition written (e : entry) : list Z :=
  match e with Alone k => k ++ [10] | Pair k c v => k ++ c :: v ++ [10] end.
Definition file (l : list entry) : list Z := flat_map written l.

(** No backslash: it is the escape of the grammar. *)
Definition noEscape (t : list Z) : Prop := Forall (fun c => c <> 92) t.
