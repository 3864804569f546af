(** The wording of the errors of the grammar functions (C71). *)
From Verif Require Import Base Stream Node Rule Grammar SpecStream SpecRule SpecParse SpecShow SpecGrammar Refuse SpecRefuse.

(** What the errors of the parser say; a rune that is none (the end of the text) is
    shown as U+FFFD. *)
Inductive wording : perr -> list Z -> Prop :=
| wo_ann c : wording (PAnnChoice c) (rs "annotation symbol '" ++ [goRune c] ++ rs "' can not appear before choice symbol '|'")
| wo_between : wording PChoiceBetween (rs "Choice operator must in between rules")
| wo_invalid c : wording (PInvalidChar c) (rs "invalid char '" ++ [goRune c] ++ rs "'")
| wo_norule : wording PNoRule (rs "no rule found")
| wo_eof : wording PEofRule (rs "EOF encountered, no more rule")
| wo_notarule c : wording (PNotARule c) (rs "invalid char '" ++ [goRune c] ++ rs "' for any rule")
| wo_char : wording PCharEnd (rs "terminal char must end with a single quote")
| wo_empty : wording PCharEmpty (rs "terminal char(s) must contains a least 1 character")
| wo_unicode : wording PUnicodeStart (rs "unicode terminal must start with '\u' and followed with 4 hex chars")
| wo_escape : wording PEscapeStart (rs "unicode escape must start with '\u'")
| wo_hex : wording PEscapeHex (rs "unicode escape must start with '\u' and followed with 4 hex chars")
| wo_string : wording PStringEnd (rs "terminal string must end with a double quote")
| wo_ends : wording PRangeEnds (rs "char range must be 2 chars connected by a range symbol '-'")
| wo_range_escape : wording PRangeEscape (rs "char range: end char missing unicode escape \u")
| wo_second : wording PRangeSecond (rs "char range must be 2 chars connected by a range symbol '-': invalid 2nd char")
| wo_group : wording PGroupEnd (rs "group must end with a round bracket ')'")
| wo_option : wording POptionEnd (rs "option must end with a square bracket ']'")
| wo_rep : wording PRepEnd (rs "repetition must end with curly brace '}'")
| wo_spec c : wording (PSpecChar c) (rs "invalid char in repetition specification: " ++ [goRune c])
| wo_number ds : wording (PSpecNumber ds) (rs "invalid repetition specification: " ++ ds)
| wo_order mn mx a b : written mn a -> written mx b ->
    wording (PSpecOrder mn mx) (rs "invalid repetition specification: max repeat less than min repeat: <" ++ a ++ rs "," ++ b ++ rs ">")
| wo_open e t : wording e t -> wording (PBlockOpen e) (rs "missing block open rule: " ++ t)
| wo_block c : wording (PBlockEnd c) (rs "block must end with a '>': encountered '" ++ [goRune c] ++ rs "'").

Definition letter (c : Z) : Prop := 65 <= c <= 90 \/ 97 <= c <= 122.
(** [b] is the first byte of [c] in UTF-8. *)
Definition leads (c b : Z) : Prop :=
  (c < 128 /\ b = c) \/ (128 <= c < 2048 /\ 0 <= c - 64 * (b - 192) < 64) \/
  (2048 <= c < 65536 /\ 0 <= c - 4096 * (b - 224) < 4096) \/ (65536 <= c /\ 0 <= c - 262144 * (b - 240) < 262144).
(** What is said about a bad name: of a first rune that is no letter the first byte is
    shown, as if it were a rune. *)
Inductive namePart : list Z -> list Z -> Prop :=
| na_empty : namePart [] (rs "empty rule name")
| na_start c n b : ~ letter c -> leads c b -> namePart (c :: n) (rs "rule name must starts with a letter character: '" ++ [goRune b] ++ rs "' is invalid")
| na_rest c n : letter c -> ~ goodName (c :: n) -> namePart (c :: n) (rs "rule name must consist of letters, 0-9 digits, or '_': '" ++ c :: n ++ rs "' is invalid").

(** What is said about the text of a definition: where it stops being the beginning of
    one, the error fits. *)
Definition bodyPart (name body t : list Z) : Prop := exists m e x y, trimmed body m /\ stopsAt name m x y /\ about e x y /\ wording e t.

(** What is said about line [k] (counting from 0) with the definition of [name]. *)
Inductive reason (ls : list (list Z)) (k : nat) (name body : list Z) : list Z -> Prop :=
| rn_name t : ~ goodName name -> namePart name t -> reason ls k name body t
| rn_duplicate j body' a : goodName name -> (j < k)%nat -> line ls j name body' -> written (Z.of_nat j + 1) a ->
    reason ls k name body (rs "rule '" ++ name ++ rs "' already defined at line " ++ a)
| rn_body t : goodName name -> unreadable name body -> bodyPart name body t -> reason ls k name body t.

(** What is said about a text of definitions. *)
Inductive complaint (ls : list (list Z)) : list Z -> Prop :=
| co_noeq k ln m a : firstBad ls k GNoEq -> nth_error ls k = Some ln -> trimmed ln m -> written (Z.of_nat k + 1) a ->
    complaint ls (rs "L#" ++ a ++ rs ": invalid(missing =): " ++ m)
| co_line k e name body a t : firstBad ls k e -> line ls k name body -> written (Z.of_nat k + 1) a -> reason ls k name body t ->
    complaint ls (rs "L#" ++ a ++ rs ": rule [" ++ name ++ rs "] - " ++ t)
| co_undefined m : (forall k e, ~ badLine ls k e) -> mentioned ls m -> ~ defined ls m ->
    complaint ls (rs "rule name '" ++ m ++ rs "' referenced but not defined").

(** The runes that the error shows are shown as they are (no end of the text, no
    surrogates), so that the wording determines the error. *)
Fixpoint shown (e : perr) : Prop :=
  match e with
  | PAnnChoice c | PInvalidChar c | PNotARule c | PSpecChar c | PBlockEnd c => goRune c = c
  | PSpecNumber ds => Forall (fun c => 48 <= c <= 57) ds
  | PBlockOpen e' => shown e'
  | _ => True
  end.

(** What is said about one definition given to a grammar: to [ParseRule] as a name and
    a body, to [AddRule] as one text. *)
Inductive objection (g : grammar) (name body : list Z) : list Z -> Prop :=
| ob_name t : ~ goodName name -> namePart name t -> objection g name body t
| ob_duplicate rec a : goodName name -> In (name, rec) (g_records g) -> written (rec_line rec) a ->
    objection g name body (rs "rule '" ++ name ++ rs "' already defined at line " ++ a)
| ob_body t : goodName name -> ~ In name (List.map fst (g_records g)) -> unreadable name body -> bodyPart name body t -> objection g name body t.
Inductive addObjection (g : grammar) (def : list Z) : list Z -> Prop :=
| ao_noeq : ~ In 61 def -> addObjection g def (rs "invalid(missing =): " ++ def)
| ao_rule a b name body t : def = a ++ 61 :: b -> ~ In 61 a -> trimmed a name -> trimmed b body -> objection g name body t -> addObjection g def t.
