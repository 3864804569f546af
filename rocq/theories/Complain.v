(** Model of the texts of the errors of [ParseRule], [AddRule], [Validate] and
    [NewGrammarFromString]. *)
From Verif Require Import Base Stream Node Rule Parse Grammar Show Message Refuse.

(** [%c] *)
Definition showRune (c : Z) : list Z := str [c].

(** The texts of the [fmt.Errorf] that are cited at [perr]. *)
Fixpoint perrText (e : perr) : list Z :=
  match e with
  | PAnnChoice c => rs "annotation symbol '" ++ showRune c ++ rs "' can not appear before choice symbol '|'"
  | PChoiceBetween => rs "Choice operator must in between rules"
  | PInvalidChar c => rs "invalid char '" ++ showRune c ++ rs "'"
  | PNoRule => rs "no rule found"
  | PEofRule => rs "EOF encountered, no more rule"
  | PNotARule c => rs "invalid char '" ++ showRune c ++ rs "' for any rule"
  | PCharEnd => rs "terminal char must end with a single quote"
  | PCharEmpty => rs "terminal char(s) must contains a least 1 character"
  | PUnicodeStart => rs "unicode terminal must start with '\u' and followed with 4 hex chars"
  | PEscapeStart => rs "unicode escape must start with '\u'"
  | PEscapeHex => rs "unicode escape must start with '\u' and followed with 4 hex chars"
  | PStringEnd => rs "terminal string must end with a double quote"
  | PRangeEnds => rs "char range must be 2 chars connected by a range symbol '-'"
  | PRangeEscape => rs "char range: end char missing unicode escape \u"
  | PRangeSecond => rs "char range must be 2 chars connected by a range symbol '-': invalid 2nd char"
  | PRefStart => rs "rule name reference must be start with a letter or an underscore"
  | PGroupEnd => rs "group must end with a round bracket ')'"
  | POptionEnd => rs "option must end with a square bracket ']'"
  | PRepEnd => rs "repetition must end with curly brace '}'"
  | PSpecChar c => rs "invalid char in repetition specification: " ++ showRune c
  | PSpecNumber ds => rs "invalid repetition specification: " ++ str ds
  | PSpecOrder mn mx => rs "invalid repetition specification: max repeat less than min repeat: <" ++ showInt mn ++ [44] ++ showInt mx ++ [62]
  | PChoiceGroup => rs "no rule found for choice group before '>'"
  | PChoiceFew => rs "choice rule must has at least 2 rules as choices"
  | PBlockOpen e' => rs "missing block open rule: " ++ perrText e'
  | PBlockEnd c => rs "block must end with a '>': encountered '" ++ showRune c ++ rs "'"
  end.

(** The first byte of the UTF-8 form of a rune: [ruleName[0]]. *)
Definition firstByte (c : Z) : Z :=
  if c <? 128 then c else if c <? 2048 then 192 + c / 64 else if c <? 65536 then 224 + c / 4096 else 240 + c / 262144.

(** rule.go:244-270 [validateRuleName]; [None] is success. *)
Definition nameText (n : list Z) : option (list Z) :=
  match n with
  | [] => Some (rs "empty rule name")
  | c :: n' =>
    if negb (isLetter c) then Some (rs "rule name must starts with a letter character: '" ++ showRune (firstByte c) ++ rs "' is invalid")
    else if negb (forallb (fun c => isLetter c || (c =? 95) || isDigit c) n') then Some (rs "rule name must consist of letters, 0-9 digits, or '_': '" ++ n ++ rs "' is invalid")
    else None
  end.

(** grammar.go:98-130 [ParseRule]. *)
Definition ruleText (g : grammar) (name ruleStr : list Z) : option (list Z) :=
  match nameText name with
  | Some t => Some t
  | None =>
    match getRecord g name with
    | Some rec => Some (rs "rule '" ++ name ++ rs "' already defined at line " ++ showInt (rec_line rec))
    | None => match readText (trim ruleStr) with FErr e _ => Some (perrText e) | _ => None end
    end
  end.

(** grammar.go:133-143 [AddRule]. *)
Definition addText (g : grammar) (def : list Z) : option (list Z) :=
  match splitEq def with
  | None => Some (rs "invalid(missing =): " ++ def)
  | Some (a, b) => ruleText g (trim a) (trim b)
  end.

(** grammar.go:219-223, in [Validate]: the text for whichever undefined name the
    iteration over the map meets first, hence a list. *)
Definition undefinedTexts (g : grammar) : list (list Z) :=
  List.map (fun u => rs "rule name '" ++ fst u ++ rs "' referenced but not defined")
    (List.filter (fun u => negb (hasKey (fst u) (g_records g))) (g_usage g)).

(** grammar.go:699-716. *)
Fixpoint linesText (g : grammar) (i : Z) (lines : list (list Z)) : list (list Z) :=
  match lines with
  | [] => undefinedTexts g
  | ln :: lines' =>
    let ln := trim ln in
    if negb (nonempty ln) || isComment ln then linesText (setMaxLine g (i + 1)) (i + 1) lines'
    else match splitEq ln with
    | None => [rs "L#" ++ showInt (i + 1) ++ rs ": invalid(missing =): " ++ ln]
    | Some (a, b) =>
      match ruleText g (trim a) (trim b) with
      | Some t => [rs "L#" ++ showInt (i + 1) ++ rs ": rule [" ++ trim a ++ rs "] - " ++ t]
      | None => linesText (setMaxLine (snd (parseRule g (trim a) (trim b))) (i + 1)) (i + 1) lines'
      end
    end
  end.

(** grammar.go:696-722 [NewGrammarFromString]: the possible texts of its error, none
    when it succeeds. *)
Definition grammarTexts (txt : list Z) : list (list Z) := linesText newGrammar 0 (splitLines txt).
