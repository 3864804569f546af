(** Model of the errors of the definition parser: the functions of Parse.v once
    more, with the error that each [fmt.Errorf] builds.  Lemma [forgets] in
    RefuseFacts.v says that they are the functions of Parse.v when the errors are
    forgotten. *)
From Verif Require Import Base Stream Node Rule Parse.

(** One constructor for every [fmt.Errorf] of the parser, with its arguments.  The
    checks that a function makes of the rune its caller has looked at (for example
    rule_group.go:44) cannot fail and have none. *)
Inductive perr :=
| PAnnChoice (c : Z)            (* grammar.go:445, 615 *)
| PChoiceBetween                (* grammar.go:482 *)
| PInvalidChar (c : Z)          (* grammar.go:550, 573 *)
| PNoRule                       (* grammar.go:579 *)
| PEofRule                      (* grammar.go:602 *)
| PNotARule (c : Z)             (* grammar.go:675 *)
| PCharEnd                      (* rule_terminal_char.go:106 *)
| PCharEmpty                    (* rule_terminal_char.go:127 *)
| PUnicodeStart                 (* rule_terminal_char.go:150 *)
| PEscapeStart                  (* rule_terminal_char.go:180 *)
| PEscapeHex                    (* rule_terminal_char.go:189 *)
| PStringEnd                    (* rule_terminal_string.go:105 *)
| PRangeEnds                    (* rule_terminal_range.go:110, 129 *)
| PRangeEscape                  (* rule_terminal_range.go:124 *)
| PRangeSecond                  (* rule_terminal_range.go:139 *)
| PRefStart                     (* rule_reference.go:69 *)
| PGroupEnd                     (* rule_group.go:52 *)
| POptionEnd                    (* rule_option.go:53 *)
| PRepEnd                       (* rule_repetition.go:141 *)
| PSpecChar (c : Z)             (* rule_repetition.go:195, 223 *)
| PSpecNumber (ds : list Z)     (* rule_repetition.go:202, 230 *)
| PSpecOrder (mn mx : Z)        (* rule_repetition.go:236 *)
| PChoiceGroup                  (* rule_choice.go:145 *)
| PChoiceFew                    (* rule_choice.go:161 *)
| PBlockOpen (e : perr)         (* rule_block.go:215 *)
| PBlockEnd (c : Z).            (* rule_block.go:235, 273 *)

(** As [pres] in Parse.v, with the error. *)
Inductive fres (A : Type) : Type :=
| FOk (a : A) (rest : list Z) (us : list (list Z))
| FErr (e : perr) (us : list (list Z))
| FFuel.
Arguments FOk {A} a rest us.
Arguments FErr {A} e us.
Arguments FFuel {A}.

Definition fbind {A B} (m : fres A) (k : A -> list Z -> list (list Z) -> fres B) : fres B :=
  match m with FOk a l us => k a l us | FErr e us => FErr e us | FFuel => FFuel end.
Notation "'try!' a , l , us <- m ; k" := (fbind m (fun a l us => k))
  (at level 200, a name, l name, us name, m at level 100, k at level 200).
Definition sbind {A B} (m : A + perr) (k : A -> B + perr) : B + perr :=
  match m with inl a => k a | inr e => inr e end.

(* ------------------------------------------------------------------ *)
(** ** Terminals *)

(** rule_terminal_char.go:184-192: [n] hexadecimal digits. *)
Fixpoint fHex (n : nat) (v : Z) (l : list Z) : (Z * list Z) + perr :=
  match n with
  | O => inl (v, l)
  | S n' =>
    match l with
    | [] => inr PEscapeHex
    | c :: l' => match hexVal c with Some d => fHex n' (v * 16 + d) l' | None => inr PEscapeHex end
    end
  end.

(** rule_terminal_char.go:178-198 [parseUnicodeEscape]. *)
Definition fEscape (l : list Z) : (Z * list Z) + perr :=
  if lpeek l =? 117 then fHex 4 0 (lnext l) else inr PEscapeStart.

(** rule_terminal_range.go:105-148 [inRange]; the input starts at '-', which the
    callers have seen.  A missing rune is EOFChar (line 117). *)
Definition fRange (l : list Z) (lo : Z) (loUni : bool) : (rule * list Z) + perr :=
  if negb (lpeek l =? cDash) then inr PRangeEnds
  else
    let l1 := lnext l in
    if lpeek l1 =? cQuote then
      let l2 := lnext l1 in
      if lpeek l2 =? cBack then
        if lpeek (lnext l2) =? 117 then
          sbind (fEscape (lnext l2)) (fun '(hi, l3) =>
          if lpeek l3 =? cQuote then inl (RRange noBase lo loUni hi true, lnext l3) else inr PRangeEnds)
        else inr PRangeEscape
      else if lpeek (lnext l2) =? cQuote then inl (RRange noBase lo loUni (lpeek l2) false, lnext (lnext l2))
      else inr PRangeEnds
    else if lpeek l1 =? cBack then
      sbind (fEscape (lnext l1)) (fun '(hi, l2) => inl (RRange noBase lo loUni hi true, l2))
    else inr PRangeSecond.

(** The loop of rule_terminal_char.go:103-124 [inChar] and
    rule_terminal_string.go:102-123 [inString]: runes up to the quote [q]; [e] is the
    error at the end of the text. *)
Fixpoint fQuoted (n : nat) (q : Z) (e : perr) (l : list Z) : (list Z * bool * list Z) + perr :=
  match n with
  | O => inr e
  | S n' =>
    match l with
    | [] => inr e
    | c :: l1 =>
      if c =? q then inl ([], false, l1)
      else if c =? cBack then
        if lpeek l1 =? 117 then
          sbind (fEscape l1) (fun '(v, l2) => sbind (fQuoted n' q e l2) (fun '(buf, _, l3) => inl (v :: buf, true, l3)))
        else
          match l1 with
          | [] => inr e (* buf gets EOFChar, and the next round is the EOF error *)
          | c1 :: l2 => sbind (fQuoted n' q e l2) (fun '(buf, u, l3) => inl (c1 :: buf, u, l3))
          end
      else sbind (fQuoted n' q e l1) (fun '(buf, u, l3) => inl (c :: buf, u, l3))
    end
  end.

(** rule_terminal_char.go:96-142 [inChar]. *)
Definition fChar (l : list Z) : (rule * list Z) + perr :=
  sbind (fQuoted (length l) cQuote PCharEnd (lnext l)) (fun '(buf, u, l1) =>
  match buf with
  | [] => inr PCharEmpty
  | [c] => if lpeek l1 =? cDash then fRange l1 c u else inl (RChar noBase c u, l1)
  | _ => inl (RChars noBase buf, l1)
  end).

(** rule_terminal_char.go:146-166 [inUnicode]. *)
Definition fUnicode (l : list Z) : (rule * list Z) + perr :=
  if negb (lpeek (lnext l) =? 117) then inr PUnicodeStart
  else sbind (fEscape (lnext l)) (fun '(v, l1) =>
  if lpeek l1 =? cDash then fRange l1 v true else inl (RChar noBase v true, l1)).

(** rule_terminal_string.go:94-127 [inString]. *)
Definition fString (l : list Z) : (rule * list Z) + perr :=
  sbind (fQuoted (length l) cDQuote PStringEnd (lnext l)) (fun '(buf, _, l1) =>
  inl (RString noBase (List.map utf8_rune buf), l1)).

(** rule_reference.go:63-89 [inReference]. *)
Definition fReference (l : list Z) (us : list (list Z)) : fres rule :=
  match inReference l us with
  | POk r l1 us1 => FOk r l1 us1
  | PErr us1 => FErr PRefStart us1
  | PFuel => FFuel
  end.

(* ------------------------------------------------------------------ *)
(** ** Repetition counts *)

(** rule_repetition.go:180-197, 211-225. *)
Fixpoint fDigits (stopComma : bool) (l : list Z) : (list Z * Z * list Z) + perr :=
  match l with
  | [] => inr (PSpecChar EOFChar)
  | c :: l' =>
    if (c =? 32) || (c =? 9) || (c =? 10) then fDigits stopComma l'
    else if stopComma && (c =? 44) then inl ([], c, l')
    else if c =? cGt then inl ([], c, l')
    else if isDigit c then sbind (fDigits stopComma l') (fun '(ds, st, r) => inl (c :: ds, st, r))
    else inr (PSpecChar c)
  end.

(** rule_repetition.go:198-205, 226-233. *)
Definition fNumber (ds : list Z) : Z + perr :=
  match parseUint32 ds with Some v => inl v | None => inr (PSpecNumber ds) end.

(** rule_repetition.go:167-239 [inRepeatSpec]. *)
Definition fSpec (l : list Z) : (Z * Z * list Z) + perr :=
  sbind (fDigits true (lskip (lnext l))) (fun '(ds, st, l1) =>
  sbind (fNumber ds) (fun mn =>
  if st =? 44 then
    sbind (fDigits false l1) (fun '(ds2, _, l2) =>
    sbind (fNumber ds2) (fun mx =>
    if negb (mx =? 0) && (mx <? mn) then inr (PSpecOrder mn mx) else inl (mn, mx, l2)))
  else inl (mn, 0, l1))).

(** rule_repetition.go:145-162. *)
Definition fSuffix (l : list Z) : (Z * Z * list Z) + perr :=
  let c := lpeek l in
  if c =? 42 then inl (0, 0, lnext l)
  else if c =? 43 then inl (1, 0, lnext l)
  else if c =? cLt then fSpec l
  else inl (0, 0, l).

(* ------------------------------------------------------------------ *)
(** ** Rules *)

Definition flift {A} (o : (A * list Z) + perr) (us : list (list Z)) : fres A :=
  match o with inl (a, l) => FOk a l us | inr e => FErr e us end.

(** [open] wraps the error of the first rule of a block. *)
Definition asOpen {A} (m : fres A) : fres A := match m with FErr e us => FErr (PBlockOpen e) us | _ => m end.

Fixpoint fLoop (fuel : nat) (terms : list Z) (rules : list rule) (a : ann) (l : list Z) (us : list (list Z))
  {struct fuel} : fres rule :=
  (* grammar.go:414-586, the loop of [parse]; [rules] in reverse *)
  match fuel with
  | O => FFuel
  | S fuel' =>
    let done (l : list Z) :=
      match finish rules with Some r => FOk r l us | None => FErr PNoRule us end in
    let c := lpeek l in
    if c =? EOFChar then done l
    else if existsb (fun t => t =? c) terms then done l
    else if isWS c then fLoop fuel' terms rules a (lnext l) us
    else if isAnn c then (* lines 433-447 *)
      let l1 := lnext l in
      if lpeek l1 =? cChoice then FErr (PAnnChoice c) us
      else fLoop fuel' terms rules (addAnn a c) l1 us
    else if (c =? cChoice) || (c =? cGt) then (* lines 478-504 *)
      match rules with
      | [] => FErr PChoiceBetween us
      | r :: rules' =>
        try! ch, l1, us1 <- fChoice fuel' [r] [] l us;
        fLoop fuel' terms (annotate a ch :: rules') noAnn l1 us1
      end
    else if c =? cSlash then (* lines 545-560 *)
      let l1 := lnext l in
      if lpeek l1 =? cSlash then done (dropLine (lnext l1)) else FErr (PInvalidChar c) us
    else
      try! r, l1, us1 <- fPrim fuel' (PInvalidChar c) l us;
      fLoop fuel' terms (annotate a r :: rules) noAnn l1 us1
  end

with fPrim (fuel : nat) (other : perr) (l : list Z) (us : list (list Z)) {struct fuel} : fres rule :=
  (* the cases common to [parse] (grammar.go:448-477, 505-544, 561-575) and
     [parseOne] (grammar.go:617-675); [other] is the error for a rune that starts no rule *)
  match fuel with
  | O => FFuel
  | S fuel' =>
    let c := lpeek l in
    if c =? cQuote then flift (fChar l) us
    else if c =? cBack then flift (fUnicode l) us
    else if c =? cDQuote then flift (fString l) us
    else if c =? cLBrack then (* rule_option.go:41-57 *)
      try! r, l1, us1 <- fLoop fuel' [cRBrack] [] noAnn (lskip (lnext l)) us;
      if lpeek l1 =? cRBrack then FOk (ROption noBase r) (lnext l1) us1 else FErr POptionEnd us1
    else if c =? cLBrace then (* rule_repetition.go:129-165 *)
      try! r, l1, us1 <- fLoop fuel' [cRBrace] [] noAnn (lskip (lnext l)) us;
      if lpeek l1 =? cRBrace then
        match fSuffix (lnext l1) with
        | inl (mn, mx, l2) => FOk (RRep noBase r mn mx) l2 us1
        | inr e => FErr e us1
        end
      else FErr PRepEnd us1
    else if c =? cLt then (* rule_block.go:204-276 [inBlock] *)
      try! o, l1, us1 <- asOpen (fLoop fuel' termsBlock [] noAnn (lskip (lnext l)) us);
      let l2 := lskip l1 in
      if negb (lpeek l2 =? cNeg) then (* lines 222-243 *)
        try! r, l3, us2 <- fLoop fuel' termsBlock [] noAnn (lskip l2) us1;
        let l4 := lskip l3 in
        if lpeek l4 =? cGt then FOk (RBlock noBase o false r None []) (lnext l4) us2
        else if lpeek l4 =? cBang then
          let l5 := lskip (lnext l4) in
          if lpeek l5 =? cGt then FOk (RBlock noBase o true r None []) (lnext l5) us2 else FErr (PBlockEnd (lpeek l5)) us2
        else fExcl fuel' o (Some r) [] l4 us2
      else fExcl fuel' o None [] l2 us1
    else if c =? cLPar then (* rule_group.go:40-56 *)
      try! r, l1, us1 <- fLoop fuel' [cRPar] [] noAnn (lskip (lnext l)) us;
      if lpeek l1 =? cRPar then FOk (RGroup noBase r) (lnext l1) us1 else FErr PGroupEnd us1
    else if isLetter c || (c =? 95) then fReference l us
    else FErr other us
  end

with fExcl (fuel : nat) (o : rule) (esc : option rule) (excl : list rule) (l : list Z) (us : list (list Z))
  {struct fuel} : fres rule :=
  (* rule_block.go:245-275: excludes (in reverse), then the close rule *)
  match fuel with
  | O => FFuel
  | S fuel' =>
    let l1 := lskip l in
    if lpeek l1 =? cNeg then
      try! x, l2, us1 <- fLoop fuel' termsBlock [] noAnn (lskip (lnext l1)) us;
      fExcl fuel' o esc (x :: excl) l2 us1
    else
      try! cl, l2, us1 <- fLoop fuel' termsClose [] noAnn (lskip l1) us;
      let c := lpeek l2 in
      let l3 := lnext l2 in
      if c =? cBang then
        let l4 := lskip l3 in
        if lpeek l4 =? cGt then FOk (RBlock noBase o true cl esc (rev excl)) (lnext l4) us1 else FErr (PBlockEnd (lpeek l4)) us1
      else if c =? cGt then FOk (RBlock noBase o false cl esc (rev excl)) l3 us1
      else FErr (PBlockEnd c) us1
  end

with fOne (fuel : nat) (a : ann) (l : list Z) (us : list (list Z)) {struct fuel} : fres rule :=
  (* grammar.go:591-678 [parseOne] *)
  match fuel with
  | O => FFuel
  | S fuel' =>
    let c := lpeek l in
    if (c =? 32) || (c =? 10) || (c =? 9) || (c =? 13) then fOne fuel' a (lnext l) us
    else if c =? EOFChar then FErr PEofRule us
    else if isAnn c then
      let l1 := lnext l in
      if lpeek l1 =? cChoice then FErr (PAnnChoice c) us else fOne fuel' (addAnn a c) l1 us
    else
      try! r, l1, us1 <- fPrim fuel' (PNotARule c) l us;
      FOk (annotate a r) l1 us1
  end

with fChoice (fuel : nat) (rules : list rule) (groups : list (list rule)) (l : list Z) (us : list (list Z))
  {struct fuel} : fres rule :=
  (* rule_choice.go:126-166 [inChoice]; [rules] and [groups] in reverse *)
  match fuel with
  | O => FFuel
  | S fuel' =>
    let c := lpeek l in
    if c =? cSpace then fChoice fuel' rules groups (lnext l) us
    else if c =? cChoice then
      try! r, l1, us1 <- fOne fuel' noAnn (lnext l) us;
      fChoice fuel' (r :: rules) groups l1 us1
    else if c =? cGt then
      match rules with
      | [] => FErr PChoiceGroup us
      | _ =>
        try! r, l1, us1 <- fOne fuel' noAnn (lnext l) us;
        fChoice fuel' [r] (rev rules :: groups) l1 us1
      end
    else
      match groups, rules with
      | [], [] | [], [_] => FErr PChoiceFew us
      | _, _ => FOk (RChoice noBase (rev (rev rules :: groups))) l us
      end
  end.

(** grammar.go:407-587 [parse] with the terminator of [ParseRule]. *)
Definition readText (l : list Z) : fres rule :=
  fLoop (parseFuel l) [EOFChar] [] noAnn (lskip l) [].
