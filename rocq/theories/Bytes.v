(** Go strings: the conversions between bytes and runes, and the functions of grammar.go that
    work on strings before any rune is read.  A byte is a [Z] between 0 and 255. *)
From Verif Require Import Base Stream Node Rule Parse Grammar.

Definition isByte (b : Z) : Prop := 0 <= b <= 255.

(** A continuation byte; [utf8.RuneStart] is its negation. *)
Definition cont (b : Z) : bool := (128 <=? b) && (b <=? 191).

(** [utf8.DecodeRune]: the byte sequences of two, three and four bytes that are accepted. *)
Definition two (a b : Z) : bool := (194 <=? a) && (a <=? 223) && cont b.
Definition three (a b c : Z) : bool :=
  (224 <=? a) && (a <=? 239) && cont b && cont c &&
  (negb (a =? 224) || (160 <=? b)) && (negb (a =? 237) || (b <=? 159)).
Definition four (a b c d : Z) : bool :=
  (240 <=? a) && (a <=? 244) && cont b && cont c && cont d &&
  (negb (a =? 240) || (144 <=? b)) && (negb (a =? 244) || (b <=? 143)).

(** [utf8.RuneError]. *)
Definition runeError : Z := 65533.

(** [utf8.DecodeRune] on a string that is not empty: the rune and its width. *)
Definition firstRune (l : list Z) : Z * nat :=
  match l with
  | [] => (runeError, O)
  | a :: l1 =>
    if a <? 128 then (a, 1%nat)
    else match l1 with
    | [] => (runeError, 1%nat)
    | b :: l2 =>
      if two a b then ((a - 192) * 64 + (b - 128), 2%nat)
      else match l2 with
      | [] => (runeError, 1%nat)
      | c :: l3 =>
        if three a b c then ((a - 224) * 4096 + (b - 128) * 64 + (c - 128), 3%nat)
        else match l3 with
        | [] => (runeError, 1%nat)
        | d :: _ =>
          if four a b c d then ((a - 240) * 262144 + (b - 128) * 4096 + (c - 128) * 64 + (d - 128), 4%nat)
          else (runeError, 1%nat)
        end
      end
    end
  end.

(** [[]rune(s)] (charstream.go:276) and [for _, c := range s] (rule.go:259).  The first
    argument bounds the number of runes by the number of bytes. *)
Fixpoint runesN (n : nat) (l : list Z) : list Z :=
  match n with
  | O => []
  | S n' =>
    match l with
    | [] => []
    | _ => let (r, w) := firstRune l in r :: runesN n' (skipn w l)
    end
  end.
Definition runes (l : list Z) : list Z := runesN (length l) l.

(** [string(chars)] (rule.go:84, node.go:285, grammar.go:381) and [strings.Builder.WriteRune]:
    [utf8.EncodeRune], which writes U+FFFD for what is not a code point. *)
Definition encodeRune (r : Z) : list Z :=
  let r := utf8_rune r in
  if r <? 128 then [r]
  else if r <? 2048 then [192 + r / 64; 128 + r mod 64]
  else if r <? 65536 then [224 + r / 4096; 128 + r / 64 mod 64; 128 + r mod 64]
  else [240 + r / 262144; 128 + r / 4096 mod 64; 128 + r / 64 mod 64; 128 + r mod 64].
Definition encode (l : list Z) : list Z := flat_map encodeRune l.

(** [utf8.DecodeLastRune] on a string that is not empty: go back to the last byte that can
    start a rune, at most four bytes, and see whether the rune there ends where the string
    does. *)
Fixpoint lastFrom (k : nat) (n : nat) (l : list Z) : Z * nat :=
  match k with
  | O => (runeError, 1%nat)
  | S k' => (* [l] without its first bytes is tried with [n] bytes *)
    if (length l <? n)%nat then (runeError, 1%nat)
    else
      let t := skipn (length l - n) l in
      if negb (cont (hd 0 t)) then
        let (r, w) := firstRune t in if (w =? n)%nat then (r, w) else (runeError, 1%nat)
      else lastFrom k' (S n) l
  end.
Definition lastRune (l : list Z) : Z * nat :=
  let c := last l 0 in
  if c <? 128 then (c, 1%nat) else lastFrom 3 2 l.

(** [strings.TrimSpace]: white space is trimmed rune by rune from the left, then from the
    right.  The first argument bounds the number of steps by the number of bytes. *)
Fixpoint trimLeftN (n : nat) (l : list Z) : list Z :=
  match n with
  | O => l
  | S n' =>
    match l with
    | [] => []
    | _ => let (r, w) := firstRune l in if isWS r then trimLeftN n' (skipn w l) else l
    end
  end.
Fixpoint trimRightN (n : nat) (l : list Z) : list Z :=
  match n with
  | O => l
  | S n' =>
    match l with
    | [] => []
    | _ => let (r, w) := lastRune l in if isWS r then trimRightN n' (firstn (length l - w) l) else l
    end
  end.
Definition trimBytes (l : list Z) : list Z :=
  let l1 := trimLeftN (length l) l in trimRightN (length l1) l1.

(** rule.go:245-270 [validateRuleName]: the first byte, then the runes of the rest. *)
Definition validNameBytes (n : list Z) : bool :=
  match n with
  | [] => false
  | c :: n' => isLetter c && forallb (fun c => isLetter c || (c =? 95) || isDigit c) (runes n')
  end.

(** grammar.go:98-130 [ParseRule]; the keys of the maps are the bytes of the names. *)
Definition parseRuleBytes (g : grammar) (name ruleStr : list Z) : (rule + gerr) * grammar :=
  if negb (validNameBytes name) then (inr GName, g)
  else match getRecord g name with
  | Some _ => (inr GDuplicate, g)
  | None =>
    match parseText (runes (trimBytes ruleStr)) with
    | PFuel => (inr GFuel, g)
    | PErr us => (inr GParse, addUsages g us name)
    | POk r _ us =>
      let r := setName r name in
      let g := addUsages g us name in
      let line := g_maxLine g + 1 in
      (inl r, mkGrammar (put_rec (g_records g) name (mkRec r line)) (g_usage g) (g_terminals g) (g_roots g) line)
    end
  end.

(** grammar.go:133-143 [AddRule]; [splitEq] looks for the byte of '='. *)
Definition addRuleBytes (g : grammar) (def : list Z) : (rule + gerr) * grammar :=
  match splitEq def with
  | None => (inr GNoEq, g)
  | Some (a, b) => parseRuleBytes g (trimBytes a) (trimBytes b)
  end.

(** grammar.go:699-716: the loop over the lines. *)
Fixpoint addLinesBytes (g : grammar) (i : Z) (lines : list (list Z)) : grammar + (Z * gerr) :=
  match lines with
  | [] => inl g
  | ln :: lines' =>
    let ln := trimBytes ln in
    if negb (nonempty ln) || isComment ln then addLinesBytes (setMaxLine g (i + 1)) (i + 1) lines'
    else match splitEq ln with
    | None => inr (i + 1, GNoEq)
    | Some (a, b) =>
      match parseRuleBytes g (trimBytes a) (trimBytes b) with
      | (inr e, _) => inr (i + 1, e)
      | (inl _, g') => addLinesBytes (setMaxLine g' (i + 1)) (i + 1) lines'
      end
    end
  end.

(** grammar.go:696-722 [NewGrammarFromString]; [splitLines] looks for the byte of a newline. *)
Definition newGrammarFromBytes (txt : list Z) : grammar + (Z * gerr) :=
  match addLinesBytes newGrammar 0 (splitLines txt) with
  | inr e => inr e
  | inl g => match validate g with
             | (None, g') => inl g'
             | (Some e, _) => inr (0, e)
             end
  end.

(** grammar.go:289-299 [EvalRule] on a Go string; the name is looked up as it is. *)
Definition evalRuleBytes (fuel : nat) (g : grammar) (name sample : list Z) : outcome result :=
  match getRule g name with
  | None => Ok (mkRes None (Some (EUndefined noBase (runes name))) 0 [] [] false)
  | Some r => let* (res, _) := eval fuel (rules_of g) r (newStream (runes sample)) SUGGEST_SKIP in Ok res
  end.

(** A history of calls with Go strings; [call] is in SpecGrammar.v, so the calls are given
    here by their parts: [AddRule], [ParseRule] and [Validate] (grammar.go:98-143, 214-241). *)
Inductive callBytes := AddRuleB (def : list Z) | ParseRuleB (name str : list Z) | ValidateB.
Definition performBytes (g : grammar) (c : callBytes) : grammar :=
  match c with
  | AddRuleB d => snd (addRuleBytes g d)
  | ParseRuleB n s => snd (parseRuleBytes g n s)
  | ValidateB => snd (validate g)
  end.
Definition historyBytes (calls : list callBytes) : grammar := fold_left performBytes calls newGrammar.
