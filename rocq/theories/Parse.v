(** Model of the grammar-text parser (grammar.go:405-678 and the [in...]
    functions).

    The parser only uses [Next], [Peek] and [SkipSpaces] of a
    CharstreamString, so it is modelled over the list of runes still to be read
    (lemma [base_stream_is_list] in ParseFacts.v says that these operations
    are the list operations below). *)
From Verif Require Import Base Stream Node Rule.

Definition lpeek (l : list Z) : Z := match l with [] => EOFChar | c :: _ => c end.
Definition lnext (l : list Z) : list Z := tl l.
Definition lskip (l : list Z) : list Z := skipn (length (ws_prefix l)) l.

(** Result of a parsing function: a value with the rest of the input, or an
    error; [us] are the rule names passed to [grammar.AddUsage] so far (they
    stay in the grammar even when an error is returned). *)
Inductive pres (A : Type) : Type :=
| POk (a : A) (rest : list Z) (us : list (list Z))
| PErr (us : list (list Z))
| PFuel.
Arguments POk {A} a rest us.
Arguments PErr {A} us.
Arguments PFuel {A}.

Definition pbind {A B} (m : pres A) (k : A -> list Z -> list (list Z) -> pres B) : pres B :=
  match m with POk a l us => k a l us | PErr us => PErr us | PFuel => PFuel end.
Notation "'do!' a , l , us <- m ; k" := (pbind m (fun a l us => k))
  (at level 200, a name, l name, us name, m at level 100, k at level 200).

(** Symbols, grammar.go:10-30. *)
Definition cTok : Z := 36.   (* $ *)
Definition cVirt : Z := 126. (* ~ *)
Definition cNonData : Z := 35. (* # *)
Definition cNeg : Z := 94.   (* ^ *)
Definition cChoice : Z := 124. (* | *)
Definition cGt : Z := 62.    (* > : ordered choice, block close *)
Definition cLBrace : Z := 123.
Definition cRBrace : Z := 125.
Definition cLBrack : Z := 91.
Definition cRBrack : Z := 93.
Definition cLPar : Z := 40.
Definition cRPar : Z := 41.
Definition cLt : Z := 60.
Definition cBang : Z := 33.  (* ! : virtual close *)
Definition cDash : Z := 45.
Definition cQuote : Z := 39.
Definition cDQuote : Z := 34.
Definition cBack : Z := 92.
Definition cSlash : Z := 47.
Definition cSpace : Z := 32.

Definition isLetter (c : Z) : bool := ((97 <=? c) && (c <=? 122)) || ((65 <=? c) && (c <=? 90)).
Definition isDigit (c : Z) : bool := (48 <=? c) && (c <=? 57).

(* ------------------------------------------------------------------ *)
(** ** Terminals *)

(** rule_terminal_char.go:186-188. *)
Definition hexVal (c : Z) : option Z :=
  if (48 <=? c) && (c <=? 57) then Some (c - 48)
  else if (97 <=? c) && (c <=? 102) then Some (c - 87)
  else if (65 <=? c) && (c <=? 70) then Some (c - 55)
  else None.

(** rule_terminal_char.go:178-198 [parseUnicodeEscape].  [strconv.ParseInt] of
    four hex digits in base 16 never fails. *)
Definition parseUnicodeEscape (l : list Z) : option (Z * list Z) :=
  match l with
  | u :: a :: b :: c :: d :: l' =>
    if u =? 117 then
      match hexVal a, hexVal b, hexVal c, hexVal d with
      | Some a, Some b, Some c, Some d => Some (((a * 16 + b) * 16 + c) * 16 + d, l')
      | _, _, _, _ => None
      end
    else None
  | _ => None
  end.

(** rule_terminal_range.go:105-148 [inRange]; the input starts at '-'. *)
Definition inRange (l : list Z) (lo : Z) (loUni : bool) : option (rule * list Z) :=
  match l with
  | dash :: q :: l1 =>
    if negb (dash =? cDash) then None
    else if q =? cQuote then
      match l1 with
      | e :: l2 =>
        if e =? cBack then
          if lpeek l2 =? 117 then
            match parseUnicodeEscape l2 with
            | Some (hi, l3) => if lpeek l3 =? cQuote then Some (RRange noBase lo loUni hi true, lnext l3) else None
            | None => None
            end
          else None
        else if lpeek l2 =? cQuote then Some (RRange noBase lo loUni e false, lnext l2) else None
      | [] => None
      end
    else if q =? cBack then
      match parseUnicodeEscape l1 with
      | Some (hi, l2) => Some (RRange noBase lo loUni hi true, l2)
      | None => None
      end
    else None
  | _ => None
  end.

(** The loop shared by rule_terminal_char.go:103-124 [inChar] and
    rule_terminal_string.go:102-123 [inString]: runes up to the quote [q], and
    whether a unicode escape was seen.  Each round consumes a rune; [n] is the
    number of runes left. *)
Fixpoint quoted (n : nat) (q : Z) (l : list Z) : option (list Z * bool * list Z) :=
  match n with
  | O => None
  | S n' =>
    match l with
    | [] => None
    | c :: l1 =>
      if c =? q then Some ([], false, l1)
      else if c =? cBack then
        if lpeek l1 =? 117 then
          match parseUnicodeEscape l1 with
          | Some (v, l2) =>
            match quoted n' q l2 with
            | Some (buf, _, l3) => Some (v :: buf, true, l3)
            | None => None
            end
          | None => None
          end
        else
          match l1 with
          | [] => None (* buf gets EOFChar, and the next round is the EOF error *)
          | c1 :: l2 =>
            match quoted n' q l2 with
            | Some (buf, u, l3) => Some (c1 :: buf, u, l3)
            | None => None
            end
          end
      else
        match quoted n' q l1 with
        | Some (buf, u, l3) => Some (c :: buf, u, l3)
        | None => None
        end
    end
  end.

(** rule_terminal_char.go:96-142 [inChar]; the input starts at the quote. *)
Definition inChar (l : list Z) : option (rule * list Z) :=
  match quoted (length l) cQuote (lnext l) with
  | None => None
  | Some ([], _, _) => None
  | Some ([c], u, l1) =>
    if lpeek l1 =? cDash then inRange l1 c u else Some (RChar noBase c u, l1)
  | Some (buf, _, l1) => Some (RChars noBase buf, l1)
  end.

(** rule_terminal_char.go:146-166 [inUnicode]; the input starts at '\'. *)
Definition inUnicode (l : list Z) : option (rule * list Z) :=
  match parseUnicodeEscape (lnext l) with
  | None => None
  | Some (v, l1) =>
    if lpeek l1 =? cDash then inRange l1 v true else Some (RChar noBase v true, l1)
  end.

(** [strings.Builder.WriteRune] followed by [[]rune(...)]: a rune that UTF-8
    cannot encode (negative, a surrogate, above 10FFFF) becomes U+FFFD. *)
Definition utf8_rune (c : Z) : Z :=
  if (c <? 0) || ((55296 <=? c) && (c <=? 57343)) || (1114111 <? c) then 65533 else c.

(** rule_terminal_string.go:94-127 [inString]; the input starts at the quote. *)
Definition inString (l : list Z) : option (rule * list Z) :=
  match quoted (length l) cDQuote (lnext l) with
  | None => None
  | Some (buf, _, l1) => Some (RString noBase (List.map utf8_rune buf), l1)
  end.

Definition isRefChar (c : Z) : bool := isLetter c || (c =? 95) || isDigit c.

Fixpoint span (p : Z -> bool) (l : list Z) : list Z * list Z :=
  match l with
  | c :: l' => if p c then let '(a, r) := span p l' in (c :: a, r) else ([], l)
  | [] => ([], [])
  end.

(** rule_reference.go:63-89 [inReference]: the rule, the rest, and the name for
    [AddUsage] if it was called. *)
Definition inReference (l : list Z) (us : list (list Z)) : pres rule :=
  let l1 := lskip l in
  let c := lpeek l1 in
  if negb (isLetter c || (c =? 95)) then PErr us
  else
    let '(nm, l2) := span isRefChar (lnext l1) in
    let nm := c :: nm in
    if runes_eqb nm nameEOF then POk (REOF (mkBase [] true true false)) l2 us
    else POk (RRef noBase nm) l2 (us ++ [nm]).

(* ------------------------------------------------------------------ *)
(** ** Repetition counts *)

(** rule_repetition.go:180-197, 211-225: digits up to a stop char; blanks are
    skipped anywhere.  Returns the digits, the stop char and the rest. *)
Fixpoint digitsTo (stopComma : bool) (l : list Z) : option (list Z * Z * list Z) :=
  match l with
  | [] => None (* EOFChar is an invalid char *)
  | c :: l' =>
    if (c =? 32) || (c =? 9) || (c =? 10) then digitsTo stopComma l'
    else if stopComma && (c =? 44) then Some ([], c, l')
    else if c =? cGt then Some ([], c, l')
    else if isDigit c then
      match digitsTo stopComma l' with
      | Some (ds, st, r) => Some (c :: ds, st, r)
      | None => None
      end
    else None
  end.

Definition decVal (ds : list Z) : Z := fold_left (fun a d => a * 10 + (d - 48)) ds 0.

(** [strconv.ParseUint(s, 10, 32)] on a string of digits; the empty string is
    not parsed and counts as 0 (lines 199, 227). *)
Definition parseUint32 (ds : list Z) : option Z :=
  if decVal ds <=? 4294967295 then Some (decVal ds) else None.

(** rule_repetition.go:167-239 [inRepeatSpec]; the input starts at '<'. *)
Definition inRepeatSpec (l : list Z) : option (Z * Z * list Z) :=
  match digitsTo true (lskip (lnext l)) with
  | None => None
  | Some (ds, st, l1) =>
    match parseUint32 ds with
    | None => None
    | Some mn =>
      if st =? 44 then
        match digitsTo false l1 with
        | None => None
        | Some (ds2, _, l2) =>
          match parseUint32 ds2 with
          | None => None
          | Some mx => if negb (mx =? 0) && (mx <? mn) then None else Some (mn, mx, l2)
          end
        end
      else Some (mn, 0, l1)
    end
  end.

(** rule_repetition.go:145-162: what follows the closing brace. *)
Definition repSuffix (l : list Z) : option (Z * Z * list Z) :=
  let c := lpeek l in
  if c =? 42 then Some (0, 0, lnext l)
  else if c =? 43 then Some (1, 0, lnext l)
  else if c =? cLt then inRepeatSpec l
  else Some (0, 0, l).

(* ------------------------------------------------------------------ *)
(** ** Rules *)

Definition lift {A} (o : option (A * list Z)) (us : list (list Z)) : pres A :=
  match o with Some (a, l) => POk a l us | None => PErr us end.

(** grammar.go:553-559: skip a comment to the end of its line. *)
Fixpoint dropLine (l : list Z) : list Z :=
  match l with
  | [] => []
  | c :: l' => if c =? 10 then l' else dropLine l'
  end.

(** The pending annotations. *)
Record ann := mkAnn { a_tok : bool; a_nondata : bool; a_virt : bool }.
Definition noAnn := mkAnn false false false.
Definition annotate (a : ann) (r : rule) : rule := setAnnotation r (a_tok a) (a_nondata a) (a_virt a).
Definition isAnn (c : Z) : bool := (c =? cVirt) || (c =? cNonData) || (c =? cTok).
Definition addAnn (a : ann) (c : Z) : ann :=
  if c =? cVirt then mkAnn (a_tok a) (a_nondata a) true
  else if c =? cNonData then mkAnn (a_tok a) true (a_virt a)
  else mkAnn true (a_nondata a) (a_virt a).

(** grammar.go:577-586: the rules found, in reverse. *)
Definition finish (rules : list rule) : option rule :=
  match rules with
  | [] => None
  | [r] => Some r
  | _ => Some (RConcat noBase (rev rules))
  end.

Definition termsBlock : list Z := [cSpace; cGt; cBang].
Definition termsClose : list Z := [cGt; cBang].

Fixpoint pLoop (fuel : nat) (terms : list Z) (rules : list rule) (a : ann) (l : list Z) (us : list (list Z))
  {struct fuel} : pres rule :=
  (* grammar.go:414-586, the loop of [parse]; [rules] in reverse *)
  match fuel with
  | O => PFuel
  | S fuel' =>
    let done (l : list Z) :=
      match finish rules with Some r => POk r l us | None => PErr us end in
    let c := lpeek l in
    if c =? EOFChar then done l
    else if existsb (fun t => t =? c) terms then done l
    else if isWS c then pLoop fuel' terms rules a (lnext l) us
    else if isAnn c then (* lines 433-447 *)
      let l1 := lnext l in
      if lpeek l1 =? cChoice then PErr us
      else pLoop fuel' terms rules (addAnn a c) l1 us
    else if (c =? cChoice) || (c =? cGt) then (* lines 478-504 *)
      match rules with
      | [] => PErr us
      | r :: rules' =>
        do! ch, l1, us1 <- pChoice fuel' [r] [] l us;
        pLoop fuel' terms (annotate a ch :: rules') noAnn l1 us1
      end
    else if c =? cSlash then (* lines 545-560 *)
      let l1 := lnext l in
      if lpeek l1 =? cSlash then done (dropLine (lnext l1)) else PErr us
    else
      do! r, l1, us1 <- pPrim fuel' l us;
      pLoop fuel' terms (annotate a r :: rules) noAnn l1 us1
  end

with pPrim (fuel : nat) (l : list Z) (us : list (list Z)) {struct fuel} : pres rule :=
  (* the cases common to [parse] (grammar.go:448-477, 505-544, 561-575) and
     [parseOne] (grammar.go:617-675) *)
  match fuel with
  | O => PFuel
  | S fuel' =>
    let c := lpeek l in
    if c =? cQuote then lift (inChar l) us
    else if c =? cBack then lift (inUnicode l) us
    else if c =? cDQuote then lift (inString l) us
    else if c =? cLBrack then (* rule_option.go:41-57 *)
      do! r, l1, us1 <- pLoop fuel' [cRBrack] [] noAnn (lskip (lnext l)) us;
      if lpeek l1 =? cRBrack then POk (ROption noBase r) (lnext l1) us1 else PErr us1
    else if c =? cLBrace then (* rule_repetition.go:129-165 *)
      do! r, l1, us1 <- pLoop fuel' [cRBrace] [] noAnn (lskip (lnext l)) us;
      if lpeek l1 =? cRBrace then
        match repSuffix (lnext l1) with
        | Some (mn, mx, l2) => POk (RRep noBase r mn mx) l2 us1
        | None => PErr us1
        end
      else PErr us1
    else if c =? cLt then (* rule_block.go:204-276 [inBlock] *)
      do! o, l1, us1 <- pLoop fuel' termsBlock [] noAnn (lskip (lnext l)) us;
      let l2 := lskip l1 in
      if negb (lpeek l2 =? cNeg) then (* lines 222-243 *)
        do! r, l3, us2 <- pLoop fuel' termsBlock [] noAnn (lskip l2) us1;
        let l4 := lskip l3 in
        if lpeek l4 =? cGt then POk (RBlock noBase o false r None []) (lnext l4) us2
        else if lpeek l4 =? cBang then
          let l5 := lskip (lnext l4) in
          if lpeek l5 =? cGt then POk (RBlock noBase o true r None []) (lnext l5) us2 else PErr us2
        else pExcl fuel' o (Some r) [] l4 us2
      else pExcl fuel' o None [] l2 us1
    else if c =? cLPar then (* rule_group.go:40-56 *)
      do! r, l1, us1 <- pLoop fuel' [cRPar] [] noAnn (lskip (lnext l)) us;
      if lpeek l1 =? cRPar then POk (RGroup noBase r) (lnext l1) us1 else PErr us1
    else if isLetter c || (c =? 95) then inReference l us
    else PErr us
  end

with pExcl (fuel : nat) (o : rule) (esc : option rule) (excl : list rule) (l : list Z) (us : list (list Z))
  {struct fuel} : pres rule :=
  (* rule_block.go:245-275: excludes (in reverse), then the close rule *)
  match fuel with
  | O => PFuel
  | S fuel' =>
    let l1 := lskip l in
    if lpeek l1 =? cNeg then
      do! x, l2, us1 <- pLoop fuel' termsBlock [] noAnn (lskip (lnext l1)) us;
      pExcl fuel' o esc (x :: excl) l2 us1
    else
      do! cl, l2, us1 <- pLoop fuel' termsClose [] noAnn (lskip l1) us;
      let c := lpeek l2 in
      let l3 := lnext l2 in
      if c =? cBang then
        let l4 := lskip l3 in
        if lpeek l4 =? cGt then POk (RBlock noBase o true cl esc (rev excl)) (lnext l4) us1 else PErr us1
      else if c =? cGt then POk (RBlock noBase o false cl esc (rev excl)) l3 us1
      else PErr us1
  end

with pOne (fuel : nat) (a : ann) (l : list Z) (us : list (list Z)) {struct fuel} : pres rule :=
  (* grammar.go:591-678 [parseOne] *)
  match fuel with
  | O => PFuel
  | S fuel' =>
    let c := lpeek l in
    if (c =? 32) || (c =? 10) || (c =? 9) || (c =? 13) then pOne fuel' a (lnext l) us
    else if c =? EOFChar then PErr us
    else if isAnn c then
      let l1 := lnext l in
      if lpeek l1 =? cChoice then PErr us else pOne fuel' (addAnn a c) l1 us
    else
      do! r, l1, us1 <- pPrim fuel' l us;
      POk (annotate a r) l1 us1
  end

with pChoice (fuel : nat) (rules : list rule) (groups : list (list rule)) (l : list Z) (us : list (list Z))
  {struct fuel} : pres rule :=
  (* rule_choice.go:126-166 [inChoice]; [rules] and [groups] in reverse *)
  match fuel with
  | O => PFuel
  | S fuel' =>
    let c := lpeek l in
    if c =? cSpace then pChoice fuel' rules groups (lnext l) us
    else if c =? cChoice then
      do! r, l1, us1 <- pOne fuel' noAnn (lnext l) us;
      pChoice fuel' (r :: rules) groups l1 us1
    else if c =? cGt then
      match rules with
      | [] => PErr us
      | _ =>
        do! r, l1, us1 <- pOne fuel' noAnn (lnext l) us;
        pChoice fuel' [r] (rev rules :: groups) l1 us1
      end
    else
      match groups, rules with
      | [], [] | [], [_] => PErr us
      | _, _ => POk (RChoice noBase (rev (rev rules :: groups))) l us
      end
  end.

(** A fuel that is always enough (theorem [parse_enough]). *)
Definition parseFuel (l : list Z) : nat := (8 * length l + 8)%nat.

(** grammar.go:407-587 [parse] with the terminator of [ParseRule]. *)
Definition parseText (l : list Z) : pres rule :=
  pLoop (parseFuel l) [EOFChar] [] noAnn (lskip l) [].
