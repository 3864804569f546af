(** Vocabulary for the properties of definitions and grammars: the notation of
    rule definitions, written as a relation between texts and rules without
    reference to the parser. *)
From Verif Require Import Base Stream Node Rule SpecRule.

(** The rule names a rule refers to, from left to right. *)
Fixpoint refs (r : rule) : list (list Z) :=
  match r with
  | RRef _ n => [n]
  | RGroup _ x | ROption _ x | RRep _ x _ _ => refs x
  | RChoice _ gs => flat_map (flat_map refs) gs
  | RConcat _ l => flat_map refs l
  | RBlock _ o _ c e xs => refs o ++ (match e with Some x => refs x | None => [] end) ++ flat_map refs xs ++ refs c
  | _ => []
  end.

(** A part of a text was taken from its front. *)
Definition takes (l l' : list Z) : Prop := exists pre, l = pre ++ l'.
Definition takesSome (l l' : list Z) : Prop := exists c pre, l = c :: pre ++ l'.

(* ------------------------------------------------------------------ *)
(** ** Numbers *)

(** A digit of a base up to 16 and its value; letters in either case. *)
Definition digitOf (base c v : Z) : Prop :=
  0 <= v < base /\ ((48 <= c <= 57 /\ v = c - 48) \/ (97 <= c <= 122 /\ v = 10 + (c - 97)) \/ (65 <= c <= 90 /\ v = 10 + (c - 65))).

(** The digits [l] denote [v] in base [base]: positional notation. *)
Inductive denotes (base : Z) : list Z -> Z -> Prop :=
| den_nil : denotes base [] 0
| den_cons c d l v : digitOf base c d -> denotes base l v -> denotes base (c :: l) (d * base ^ Z.of_nat (length l) + v).

(** "\uXXXX". *)
Definition unicode (t : list Z) (v : Z) : Prop := exists ds, t = 92 :: 117 :: ds /\ length ds = 4%nat /\ denotes 16 ds v.

(** A decimal number with blanks anywhere; no digits at all stand for 0. *)
Definition blank (c : Z) : Prop := c = 32 \/ c = 9 \/ c = 10.
Inductive spaced : list Z -> list Z -> Prop :=
| sp_nil : spaced [] []
| sp_blank c t ds : blank c -> spaced t ds -> spaced (c :: t) ds
| sp_digit c t ds : 48 <= c <= 57 -> spaced t ds -> spaced (c :: t) (c :: ds).
Definition number (t : list Z) (v : Z) : Prop := exists ds, spaced t ds /\ denotes 10 ds v.

(** What follows the closing brace of a repetition. *)
Inductive bounds : list Z -> Z -> Z -> Prop :=
| bd_none : bounds [] 0 0
| bd_star : bounds [42] 0 0
| bd_plus : bounds [43] 1 0
| bd_min w t n : white w -> number t n -> n < 2 ^ 32 -> bounds (60 :: w ++ t ++ [62]) n 0
| bd_both w t n t' m : white w -> number t n -> number t' m -> n < 2 ^ 32 -> m < 2 ^ 32 -> (m = 0 \/ n <= m) ->
    bounds (60 :: w ++ t ++ 44 :: t' ++ [62]) n m.

(* ------------------------------------------------------------------ *)
(** ** Literals *)

(** The inside of a literal delimited by [q]: the runes denoted, and whether one
    of them is given by its code point. *)
Inductive inside (q : Z) : list Z -> list Z -> bool -> Prop :=
| in_nil : inside q [] [] false
| in_plain c t v u : c <> q -> c <> 92 -> inside q t v u -> inside q (c :: t) (c :: v) u
| in_escape c t v u : c <> 117 -> inside q t v u -> inside q (92 :: c :: t) (c :: v) u
| in_unicode e c t v u : unicode e c -> inside q t v u -> inside q (e ++ t) (c :: v) true.

(** The two ends of a range; the upper one knows no escapes but "\uXXXX". *)
Inductive low : list Z -> Z -> bool -> Prop :=
| low_quoted t c u : inside 39 t [c] u -> low (39 :: t ++ [39]) c u
| low_unicode t c : unicode t c -> low t c true.
Inductive high : list Z -> Z -> bool -> Prop :=
| high_plain c : c <> 92 -> high [39; c; 39] c false
| high_quoted t c : unicode t c -> high (39 :: t ++ [39]) c true
| high_unicode t c : unicode t c -> high t c true.

Definition firstOf (c : Z) : Prop := (65 <= c <= 90) \/ (97 <= c <= 122) \/ c = 95.

(* ------------------------------------------------------------------ *)
(** ** Rules *)

(** White space and annotations in front of a rule: tokenized, non-data, virtual. *)
Record marks := mkMarks { m_tok : bool; m_nondata : bool; m_virt : bool }.
Inductive marked : list Z -> marks -> Prop :=
| mk_nil : marked [] (mkMarks false false false)
| mk_white w t m : In w whiteSpaces -> marked t m -> marked (t ++ [w]) m
| mk_virt t m : marked t m -> marked (t ++ [126]) (mkMarks (m_tok m) (m_nondata m) true)
| mk_nondata t m : marked t m -> marked (t ++ [35]) (mkMarks (m_tok m) true (m_virt m))
| mk_tok t m : marked t m -> marked (t ++ [36]) (mkMarks true (m_nondata m) (m_virt m)).
(** A rule with the marks [m]: the name stays. *)
Definition withMarks (m : marks) (r : rule) : rule :=
  set_base r (mkBase (b_name (base_of r)) (m_virt m) (m_nondata m) (m_tok m)).

(** A comment: to the end of its line. *)
Inductive comment : list Z -> Prop :=
| cm_line t : ~ In 10 t -> comment (47 :: 47 :: t ++ [10])
| cm_end t : ~ In 10 t -> comment (47 :: 47 :: t).

(** Alternatives behind a first rule, each with the sign in front of it: [true]
    for '>', which starts a new group. *)
Fixpoint grouped (r : rule) (alts : list (bool * rule)) : list (list rule) :=
  match alts with
  | [] => [[r]]
  | (true, x) :: alts' => [r] :: grouped x alts'
  | (false, x) :: alts' => match grouped x alts' with g :: gs => (r :: g) :: gs | [] => [[r]] end
  end.
Definition sign (ordered : bool) : Z := if ordered then 62 else 124.

Definition sequence (rs : list rule) : rule := match rs with [r] => r | _ => RConcat noBase rs end.

(** In front of the '>' of a block: nothing, or the sign of a virtual close. *)
Inductive closing : list Z -> bool -> Prop :=
| cl_real w : white w -> closing w false
| cl_virtual w w' : white w -> white w' -> closing (w ++ 33 :: w') true.

(** A rune stored in a Go string: one that UTF-8 cannot encode becomes U+FFFD. *)
Definition goRune (c : Z) : Z := if (0 <=? c) && ((c <? 55296) || ((57344 <=? c) && (c <=? 1114111))) then c else 65533.

(** [Prim t r]: the text [t] is a spelling of the rule [r] without marks;
    [Elem]: of a rule with marks, or of a choice; [Elems]: of a sequence;
    [Body]: of what may stand between two brackets. *)
Inductive Prim : list Z -> rule -> Prop :=
| p_char t c u : inside 39 t [c] u -> Prim (39 :: t ++ [39]) (RChar noBase c u)
| p_chars t v u : inside 39 t v u -> (2 <= length v)%nat -> Prim (39 :: t ++ [39]) (RChars noBase v)
| p_unicode t c : unicode t c -> Prim t (RChar noBase c true)
| p_string t v u : inside 34 t v u -> Prim (34 :: t ++ [34]) (RString noBase (List.map goRune v))
| p_range t lo lu t' hi hu : low t lo lu -> high t' hi hu -> Prim (t ++ 45 :: t') (RRange noBase lo lu hi hu)
| p_eof : Prim nameEOF (REOF (mkBase [] true true false))
| p_ref c n : firstOf c -> ident (c :: n) -> Prim (c :: n) (RRef noBase (c :: n))
| p_group t r : Body t r -> Prim (40 :: t ++ [41]) (RGroup noBase r)
| p_option t r : Body t r -> Prim (91 :: t ++ [93]) (ROption noBase r)
| p_rep t r s mn mx : Body t r -> bounds s mn mx -> Prim (123 :: t ++ 125 :: s) (RRep noBase r mn mx)
| p_block to o te e tx xs tc c tv v : Body to o -> Escape te e -> Excl tx xs -> Body tc c -> closing tv v ->
    Prim (60 :: to ++ te ++ tx ++ tc ++ tv ++ [62]) (RBlock noBase o v c e xs)
with Escape : list Z -> option rule -> Prop :=
| es_none : Escape [] None
| es_some t r : Body t r -> Escape t (Some r)
with Excl : list Z -> list rule -> Prop :=
| ex_nil : Excl [] []
| ex_snoc t xs w t' x : Excl t xs -> white w -> Body t' x -> Excl (t ++ w ++ 94 :: t') (xs ++ [x])
with Elem : list Z -> rule -> Prop :=
| el_prim m t ms r : marked m ms -> Prim t r -> Elem (m ++ t) (withMarks ms r)
| el_choice t r m ms t' alts : Elem t r -> marked m ms -> Alts t' alts -> alts <> [] ->
    Elem (t ++ m ++ t') (withMarks ms (RChoice noBase (grouped r alts)))
with Alts : list Z -> list (bool * rule) -> Prop :=
| al_nil : Alts [] []
| al_snoc t alts w o m ms t' r : Alts t alts -> white w -> marked m ms -> Prim t' r ->
    Alts (t ++ w ++ sign o :: m ++ t') (alts ++ [(o, withMarks ms r)])
with Elems : list Z -> list rule -> Prop :=
| es_nil : Elems [] []
| es_snoc t rs t' r : Elems t rs -> Elem t' r -> Elems (t ++ t') (rs ++ [r])
with Body : list Z -> rule -> Prop :=
| bo_plain t rs m ms : Elems t rs -> rs <> [] -> marked m ms -> Body (t ++ m) (sequence rs)
| bo_comment t rs m ms c : Elems t rs -> rs <> [] -> marked m ms -> comment c -> Body (t ++ m ++ c) (sequence rs).
