(** Runes, white space, outcomes. *)
From Coq Require Export Ascii String List ZArith Bool Lia.
Export ListNotations.
Open Scope Z_scope.
Open Scope list_scope.
Notation length := List.length (only parsing).

(** A Go [rune].  charstream.go:10 [EOFChar = -1]. *)
Notation rune := Z (only parsing).
Definition EOFChar : Z := -1.

(** Outcome of running Go code: a value, a run-time panic (slice or index out
    of range), or "ran longer than the fuel" (a loop or recursion that the model
    cuts off; never a normal-looking value). *)
Inductive outcome (A : Type) : Type :=
| Ok (a : A)
| Panic
| OutOfFuel.
Arguments Ok {A} a.
Arguments Panic {A}.
Arguments OutOfFuel {A}.

Definition bind {A B} (m : outcome A) (k : A -> outcome B) : outcome B :=
  match m with Ok a => k a | Panic => Panic | OutOfFuel => OutOfFuel end.
Notation "'let*' x := m 'in' k" := (bind m (fun x => k))
  (at level 200, x pattern, m at level 100, k at level 200).

(** Go slice expressions [l[k:]] and [l[:k]] on a slice whose capacity is its
    length as far as the reader is concerned: out of range panics. *)
Definition slice_from {A} (l : list A) (k : Z) : outcome (list A) :=
  if (0 <=? k) && (k <=? Z.of_nat (List.length l)) then Ok (skipn (Z.to_nat k) l) else Panic.
Definition slice_to {A} (l : list A) (k : Z) : outcome (list A) :=
  if (0 <=? k) && (k <=? Z.of_nat (List.length l)) then Ok (firstn (Z.to_nat k) l) else Panic.

(** space.go:5-31 [whiteSpaceMap]: the 25 code points of the map, in file order. *)
Definition whiteSpaces : list Z :=
  [ 9; 10; 11; 12; 13; 32; 133; 160; 5760;
    8192; 8193; 8194; 8195; 8196; 8197; 8198; 8199; 8200; 8201; 8202;
    8232; 8233; 8239; 8287; 12288 ].

(** space.go:41-44 [IsWhiteSpace]. *)
Definition isWS (c : Z) : bool := existsb (Z.eqb c) whiteSpaces.

Fixpoint runes_eqb (a b : list Z) : bool :=
  match a, b with
  | [], [] => true
  | x :: a', y :: b' => (x =? y) && runes_eqb a' b'
  | _, _ => false
  end.

(** Coq string literal to runes (ASCII only), for examples. *)
Definition rs (s : string) : list Z := List.map (fun a => Z.of_nat (nat_of_ascii a)) (list_ascii_of_string s).
