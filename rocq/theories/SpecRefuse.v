(** Vocabulary for the refusal of definitions: how far a text is the beginning of a
    definition, and what the errors say about the place where it stops being one. *)
From Verif Require Import Base Stream Node Rule SpecStream SpecRule SpecParse Grammar SpecGrammar Refuse.

(** [p] is the beginning of a definition (without white space around it). *)
Definition begins (name p : list Z) : Prop := exists q r, edged (p ++ q) /\ runesOk (p ++ q) /\ readAs name (p ++ q) r.
(** [m] is the beginning of a definition as far as [x], and no further. *)
Definition stopsAt (name m x y : list Z) : Prop :=
  m = x ++ y /\ begins name x /\ forall c t, y = c :: t -> ~ begins name (x ++ [c]).

(** A rune with which a rule can start, or that separates or ends rules. *)
Definition usable (c : Z) : Prop :=
  In c whiteSpaces \/ firstOf c \/ In c [34; 35; 36; 39; 40; 47; 60; 62; 91; 92; 123; 124; 126].
(** The runes that end a rule inside brackets or a block. *)
Definition ending (c : Z) : Prop := In c [32; 33; 41; 62; 93; 125].
(** [c] does not come next. *)
Definition notNext (c : Z) (y : list Z) : Prop := forall t, y <> c :: t.
Definition hexNext (y : list Z) : Prop := exists c v t, y = c :: t /\ digitOf 16 c v.
(** A comment up to the end of its line stands in front. *)
Definition afterComment (x : list Z) : Prop := exists x' t, x = x' ++ 47 :: 47 :: t ++ [10] /\ ~ In 10 t.
Definition digits (t : list Z) : Prop := exists ds, spaced t ds.
(** Behind an opening quote [q] without its end: a backslash protects the next rune. *)
Inductive within (q : Z) : list Z -> Prop :=
| wi_nil : within q []
| wi_plain c w : c <> q -> c <> 92 -> within q w -> within q (c :: w)
| wi_escape c w : within q w -> within q (92 :: c :: w)
| wi_backslash : within q [92].
Definition inQuotes (q : Z) (x : list Z) : Prop := exists p w, x = p ++ q :: w /\ within q w.

(** [about e x y]: the error [e] fits a text that goes wrong between [x] and [y]. *)
Inductive about : perr -> list Z -> list Z -> Prop :=
| ab_ann c x t : In c [35; 36; 126] -> about (PAnnChoice c) (x ++ [c]) (124 :: t)
| ab_between c x t : c = 124 \/ c = 62 -> about PChoiceBetween x (c :: t)
| ab_invalid c x t : ~ usable c -> about (PInvalidChar c) x (c :: t)
| ab_slash x y : notNext 47 y -> about (PInvalidChar 47) (x ++ [47]) y
| ab_lone_slash x t : notNext 47 t -> about (PInvalidChar 47) x (47 :: t)
| ab_nothing x : about PNoRule x []
| ab_nothing_inside c x t : ending c -> about PNoRule x (c :: t)
| ab_nothing_but_comment x t : about PNoRule x (47 :: 47 :: t)
| ab_eof x : about PEofRule x []
| ab_no_rule c x t : ~ firstOf c -> ~ In c [9; 10; 13; 32; 34; 35; 36; 39; 40; 60; 91; 92; 123; 126] -> about (PNotARule c) x (c :: t)
| ab_char_end x : inQuotes 39 x -> about PCharEnd x []
| ab_char_empty x t : about PCharEmpty (x ++ [39]) (39 :: t)
| ab_unicode_start x y : notNext 117 y -> about PUnicodeStart (x ++ [92]) y
| ab_escape_start x y : notNext 117 y -> about PEscapeStart (x ++ [45; 92]) y
| ab_escape_hex x ds y : (length ds < 4)%nat -> Forall (fun c => exists v, digitOf 16 c v) ds -> ~ hexNext y ->
    about PEscapeHex (x ++ 92 :: 117 :: ds) y
| ab_string_end x : inQuotes 34 x -> about PStringEnd x []
| ab_range_end x : about PRangeEnds (x ++ [45; 39]) []
| ab_range_plain x c y : c <> 92 -> notNext 39 y -> about PRangeEnds (x ++ [45; 39; c]) y
| ab_range_unicode x t c y : unicode t c -> notNext 39 y -> about PRangeEnds (x ++ [45; 39] ++ t) y
| ab_range_escape x y : notNext 117 y -> about PRangeEscape (x ++ [45; 39; 92]) y
| ab_range_second x y : notNext 39 y -> notNext 92 y -> about PRangeSecond (x ++ [45]) y
| ab_group p x y : notNext 41 y -> y = [] \/ afterComment x -> about PGroupEnd (p ++ 40 :: x) y
| ab_option p x y : notNext 93 y -> y = [] \/ afterComment x -> about POptionEnd (p ++ 91 :: x) y
| ab_rep p x y : notNext 125 y -> y = [] \/ afterComment x -> about PRepEnd (p ++ 123 :: x) y
| ab_spec_end x z : digits z -> about (PSpecChar EOFChar) x z
| ab_spec_char c x z t : digits z -> ~ (48 <= c <= 57) -> ~ blank c -> c <> 62 -> about (PSpecChar c) x (z ++ c :: t)
| ab_spec_number ds v x z z' st t : spaced (z ++ z') ds -> z' <> [] -> denotes 10 ds v -> 2 ^ 32 <= v -> st = 44 \/ st = 62 ->
    about (PSpecNumber ds) (x ++ z) (z' ++ st :: t)
| ab_spec_order mn mx x z z' t : number (z ++ z') mx -> mx <> 0 -> mx < mn -> about (PSpecOrder mn mx) (x ++ z) (z' ++ 62 :: t)
| ab_block_open e p x y : about e x y -> about (PBlockOpen e) (p ++ 60 :: x) y
| ab_block_eof x : about (PBlockEnd EOFChar) x []
| ab_block_end c x t : c <> 62 -> about (PBlockEnd c) x (c :: t).

(** The runes one of which the error says is missing. *)
Fixpoint missing (e : perr) : list Z :=
  match e with
  | PGroupEnd => [41]
  | POptionEnd => [93]
  | PRepEnd => [125]
  | PBlockEnd _ => [62; 33]
  | PUnicodeStart | PEscapeStart | PRangeEscape => [117]
  | PRangeEnds => [39]
  | PRangeSecond => [39; 92]
  | PBlockOpen e' => missing e'
  | _ => []
  end.
