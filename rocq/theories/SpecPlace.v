(** Where the leaves of a tree stand in the text (C54). *)
From Verif Require Import Base Stream Node SpecStream.

(** [pos] is the line and column of index [a] of the text [T].  Nothing is said about
    the indexes after 0 in the first line of a text of several lines, which
    PositionLookup gets wrong once the first newline has been read (C05). *)
Definition trueAt (T : list Z) (a : nat) (pos : option position) : Prop :=
  a = O \/ In 10 (firstn (S a) T) \/ ~ In 10 T -> pos = Some (lineCol (firstn a T)).
(** The runes of [T] from [i] to [a] are white space. *)
Definition blankTo (T : list Z) (i a : nat) : Prop := (i <= a)%nat /\ Forall whiteSpace (firstn (a - i) (skipn i T)).
(** The runes [cs] stand at index [a] of [T]. *)
Definition stands (T : list Z) (a : nat) (cs : list Z) : Prop :=
  exists pre post, T = pre ++ cs ++ post /\ length pre = a.
Definition inner (ty : rtype) : Prop :=
  match ty with TGroup | TOption | TRepetition | TChoice | TConcat => True | _ => False end.

(** [placed T i j n]: the tree [n] covers the runes of [T] from [i] to [j], in order
    and without gaps but for white space before leaves, and the leaves carry the
    position of their first rune.  Two kinds do not: a literal that begins with white
    space, and a range, which carries the position of the rune before its part. *)
Inductive placed (T : list Z) : nat -> nat -> node -> Prop :=
| pl_char i a c nm pos st v nd tk : blankTo T i a -> stands T a [c] -> trueAt T a pos ->
    placed T i (S a) (Node TChar nm [c] [] pos st v nd tk)
| pl_string i a cs nm pos st v nd tk : blankTo T i a -> stands T a cs -> (cs <> [] -> trueAt T a pos) ->
    placed T i (a + length cs) (Node TString nm cs [] pos st v nd tk)
| pl_chars i a cs nm pos st v nd tk : blankTo T i a -> stands T a cs ->
    (forall c l, cs = c :: l -> ~ whiteSpace c -> trueAt T a pos) ->
    placed T i (a + length cs) (Node TChars nm cs [] pos st v nd tk)
| pl_range i a c nm pos st v nd tk : blankTo T i a -> stands T a [c] ->
    match i with O => pos = None | S k => trueAt T k pos end ->
    placed T i (S a) (Node TChars nm [c] [] pos st v nd tk)
| pl_eof i nm st v nd tk : blankTo T i (length T) ->
    placed T i (length T) (Node TEOF nm [EOFChar] [] None st v nd tk)
| pl_inner i j ty nm kids pos st v nd tk : inner ty -> placedAll T i j kids ->
    placed T i j (Node ty nm [] kids pos st v nd tk)
| pl_block i u j on cs close nm pos cpos st v nd tk : placed T i u on -> stands T u cs -> (cs <> [] -> trueAt T u cpos) ->
    (length close <= 1)%nat -> placedAll T (u + length cs) j close ->
    placed T i j (Node TBlock nm [] (on :: Node TChars [] cs [] cpos true false false false :: close) pos st v nd tk)
with placedAll (T : list Z) : nat -> nat -> list node -> Prop :=
| pa_nil i : placedAll T i i []
| pa_cons i j k n l : placed T i j n -> placedAll T j k l -> placedAll T i k (n :: l).
