(** Model of the [String()] methods of the rules (the xbnf text of a rule). *)
From Verif Require Import Base Stream Node Rule Parse.

(** rule.go:211-223 [annotation]. *)
Definition annotation (b : rbase) : list Z :=
  (if b_tokenized b then [cTok] else []) ++ (if b_virtual b then [cVirt] else [])
  ++ (if b_nondata b then [cNonData] else []).

Definition hexDigit (d : Z) : Z := if d <? 10 then 48 + d else 55 + d.
(** [fmt.Sprintf("%04X", c)] for [0 <= c <= 65535]: the only values that
    [definedAsUnicode] rules hold (rule_terminal_char.go:178-198). *)
Definition hex4 (c : Z) : list Z :=
  [hexDigit (c / 4096 mod 16); hexDigit (c / 256 mod 16); hexDigit (c / 16 mod 16); hexDigit (c mod 16)].

(** [fmt.Sprintf("%d", n)] for [0 <= n]; the fuel is the number of digits that a
    32-bit value can have. *)
Fixpoint dec (fuel : nat) (n : Z) : list Z :=
  match fuel with
  | O => []
  | S k => (if n <? 10 then [] else dec k (n / 10)) ++ [48 + n mod 10]
  end.
Definition decimal (n : Z) : list Z := dec 10 n.

(** [string(rune)]: U+FFFD for a rune that cannot be encoded. *)
Definition str1 (c : Z) : list Z := [utf8_rune c].

Definition escQuote (l : list Z) : list Z :=
  flat_map (fun c => if c =? cQuote then [cBack; cQuote] else str1 c) l.

(** rule_repetition.go:251-267 [repetitionSpecString]. *)
Definition repSpec (mn mx : Z) : list Z :=
  if mn =? mx then
    (if negb (mn =? 0) then [cLt] ++ decimal mn ++ [cGt] else [])
  else if mx =? 0 then
    (if mn =? 1 then [43] else [cLt] ++ decimal mn ++ [44; 48; cGt])
  else [cLt] ++ decimal mn ++ [44] ++ decimal mx ++ [cGt].

(** rule_terminal_range.go:74-98, one end of the range. *)
Definition rangeEnd (b : rbase) (c : Z) (uni : bool) : list Z :=
  if uni then annotation b ++ [cBack; 117] ++ hex4 c
  else if c =? cQuote then [cQuote; cBack; cQuote; cQuote]
  else [cQuote] ++ str1 c ++ [cQuote].

(** Items separated by [sep]. *)
Fixpoint joinWith (sep : list Z) (l : list (list Z)) : list Z :=
  match l with
  | [] => []
  | [x] => x
  | x :: l' => x ++ sep ++ joinWith sep l'
  end.

(** [String()]: rule_terminal_char.go:77-89, rule_terminal_chars.go:85-92,
    rule_terminal_string.go:85-88, rule_terminal_range.go:74-98,
    rule_eof.go:25-28, rule_reference.go:53-56, rule_group.go:57-66,
    rule_option.go:58-67, rule_repetition.go:117-127, rule_choice.go:168-209,
    rule_concatenate.go:101-120, rule_block.go:26-50.  A choice without
    alternatives panics in the code (index 0 of an empty slice) and prints
    nothing here; the parser never builds one (theorem C38). The message that
    rule_concatenate.go:104 returns for fewer than two operands is left out for
    the same reason. *)
Fixpoint print (r : rule) : list Z :=
  let ann b := annotation b in
  let par b l := if nonempty (ann b) then ann b ++ [cLPar] ++ l ++ [cRPar] else l in
  match r with
  | RChar b c uni =>
    if uni then ann b ++ [cBack; 117] ++ hex4 c
    else if c =? cBack then ann b ++ [cQuote; cBack; cBack; cQuote]
    else if c =? cQuote then ann b ++ [cQuote; cBack; cQuote; cQuote]
    else ann b ++ [cQuote] ++ str1 c ++ [cQuote]
  | RChars b t => ann b ++ [cQuote] ++ escQuote t ++ [cQuote]
  | RString b t => ann b ++ [cDQuote] ++ List.map utf8_rune t ++ [cDQuote]
  | RRange b lo lu hi hu => ann b ++ rangeEnd b lo lu ++ [cDash] ++ rangeEnd b hi hu
  | REOF b => ann b ++ nameEOF
  | RRef b n => ann b ++ n
  | RGroup b x => ann b ++ [cLPar; cSpace] ++ print x ++ [cSpace; cRPar]
  | ROption b x => ann b ++ [cLBrack; cSpace] ++ print x ++ [cSpace; cRBrack]
  | RRep b x mn mx => ann b ++ [cLBrace; cSpace] ++ print x ++ [cSpace; cRBrace] ++ repSpec mn mx
  | RChoice b gs =>
    par b (joinWith [cSpace; cGt; cSpace]
             (List.map (fun g => joinWith [cSpace; cChoice; cSpace] (List.map print g)) gs))
  | RConcat b l => par b (joinWith [cSpace] (List.map print l))
  | RBlock b o v c e x =>
    ann b ++ [cLt] ++ print o
    ++ match e with Some e => [cSpace] ++ print e | None => [] end
    ++ flat_map (fun y => [cSpace; cNeg] ++ print y) x
    ++ [cSpace] ++ print c ++ (if v then [cSpace; cBang] else []) ++ [cGt]
  end.
