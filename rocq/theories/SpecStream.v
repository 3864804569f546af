(** Vocabulary for the stream properties: client calls and what they show. *)
From Verif Require Import Base Stream.

(** The methods of ICharstream (charstream.go:34-56). *)
Inductive call :=
| CNext | CPeek | CSkip | CMatch (w : list Z) | CPos | CLookup (idx : Z) | CCursor.

(** What a caller sees. *)
Inductive obs :=
| ORune (c : Z)
| ORunes (l : list Z)
| OMatch (l : list Z) (ok : bool)
| OPos (p : option position)
| ONum (n : Z).

Definition run1 (c : call) (s : stream) : obs * stream :=
  match c with
  | CNext => let '(r, s') := next s in (ORune r, s')
  | CPeek => (ORune (peek s), s)
  | CSkip => let '(l, s') := skipSpaces s in (ORunes l, s')
  | CMatch w => let '(l, ok, s') := matchRunes s w in (OMatch l ok, s')
  | CPos => let '(p, s') := positionOf s in (OPos p, s')
  | CLookup i => (OPos (positionLookup s i), s)
  | CCursor => (ONum (cursor s), s)
  end.

Fixpoint run (cs : list call) (s : stream) : list obs * stream :=
  match cs with
  | [] => ([], s)
  | c :: cs' => let '(o, s1) := run1 c s in let '(os, s2) := run cs' s1 in (o :: os, s2)
  end.

(** The runes handed out by a consuming call. *)
Definition delivered1 (c : call) (o : obs) : list Z :=
  match c, o with
  | CNext, ORune r => if r =? EOFChar then [] else [r]
  | CSkip, ORunes l => l
  | CMatch _, OMatch l _ => l
  | _, _ => []
  end.
Fixpoint delivered (cs : list call) (os : list obs) : list Z :=
  match cs, os with
  | c :: cs', o :: os' => delivered1 c o ++ delivered cs' os'
  | _, _ => []
  end.

(** Calls whose answer does not depend on the line table. *)
Definition plain (c : call) : Prop :=
  match c with CPos | CLookup _ => False | _ => True end.

(** Calls other than PositionLookup. *)
Definition noLookup (c : call) : Prop := match c with CLookup _ => False | _ => True end.

(** Runes of a Go text are code points: not negative, so none is [EOFChar]. *)
Definition runesOk (l : list Z) : Prop := Forall (fun c => 0 <= c) l.

(** The Unicode property White_Space (PropList.txt): U+0009-000D, U+0020, U+0085,
    U+00A0, U+1680, U+2000-200A, U+2028, U+2029, U+202F, U+205F, U+3000. *)
Definition whiteSpace (c : Z) : Prop :=
  9 <= c <= 13 \/ c = 32 \/ c = 133 \/ c = 160 \/ c = 5760 \/ 8192 <= c <= 8202 \/ c = 8232 \/ c = 8233 \/
  c = 8239 \/ c = 8287 \/ c = 12288.

(** Longest common prefix of two texts. *)
Fixpoint lcp (a b : list Z) : list Z :=
  match a, b with
  | x :: a', y :: b' => if x =? y then x :: lcp a' b' else []
  | _, _ => []
  end.

(** Line and column of the rune that follows the text [l]: start at line 1,
    column 1; a newline starts a line, any other rune moves one column on. *)
Definition lineCol (l : list Z) : position :=
  fold_left (fun p c => if c =? 10 then (fst p + 1, 1) else (fst p, snd p + 1)) l (1, 1).
