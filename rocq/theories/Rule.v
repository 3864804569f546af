(** Model of the rule types and of [IRule.Eval] (rule*.go). *)
From Verif Require Import Base Stream Node.

(** rule.go:158-164 [ruleBase]. *)
Record rbase := mkBase { b_name : list Z; b_virtual : bool; b_nondata : bool; b_tokenized : bool }.

(** One constructor per Go rule type:
    rule_terminal_char.go:8-12, rule_terminal_chars.go:8-11,
    rule_terminal_string.go:8-11, rule_terminal_range.go:7-13, rule_eof.go:5-7,
    rule_reference.go:8-11, rule_group.go:8-11, rule_option.go:8-11,
    rule_repetition.go:9-18, rule_choice.go:9-12, rule_concatenate.go:8-11,
    rule_block.go:10-17. *)
Inductive rule :=
| RChar (b : rbase) (txt : Z) (uni : bool)
| RChars (b : rbase) (txt : list Z)
| RString (b : rbase) (txt : list Z)
| RRange (b : rbase) (lo : Z) (loUni : bool) (hi : Z) (hiUni : bool)
| REOF (b : rbase)
| RRef (b : rbase) (ref : list Z)
| RGroup (b : rbase) (r : rule)
| ROption (b : rbase) (r : rule)
| RRep (b : rbase) (r : rule) (rmin rmax : Z)
| RChoice (b : rbase) (groups : list (list rule))
| RConcat (b : rbase) (rules : list rule)
| RBlock (b : rbase) (op : rule) (vclose : bool) (cl : rule) (esc : option rule) (excl : list rule).

Definition base_of (r : rule) : rbase :=
  match r with
  | RChar b _ _ | RChars b _ | RString b _ | RRange b _ _ _ _ | REOF b | RRef b _
  | RGroup b _ | ROption b _ | RRep b _ _ _ | RChoice b _ | RConcat b _ | RBlock b _ _ _ _ _ => b
  end.
Definition set_base (r : rule) (b : rbase) : rule :=
  match r with
  | RChar _ t u => RChar b t u
  | RChars _ t => RChars b t
  | RString _ t => RString b t
  | RRange _ l lu h hu => RRange b l lu h hu
  | REOF _ => REOF b
  | RRef _ n => RRef b n
  | RGroup _ x => RGroup b x
  | ROption _ x => ROption b x
  | RRep _ x mn mx => RRep b x mn mx
  | RChoice _ g => RChoice b g
  | RConcat _ l => RConcat b l
  | RBlock _ o v c e x => RBlock b o v c e x
  end.
(** rule.go:170-172 [setName]. *)
Definition setName (r : rule) (n : list Z) : rule :=
  let b := base_of r in set_base r (mkBase n (b_virtual b) (b_nondata b) (b_tokenized b)).
(** rule.go:198-202 [setAnnotation]. *)
Definition setAnnotation (r : rule) (tok nondata virt : bool) : rule :=
  set_base r (mkBase (b_name (base_of r)) virt nondata tok).

Definition noBase : rbase := mkBase [] false false false.

(** Leading-space flags, rule.go:39-43. *)
Definition SUGGEST_NOT_SKIP : Z := 0.
Definition SUGGEST_SKIP : Z := 1.
Definition NOT_SKIP : Z := 3.

(** What a terminal reports as missing, and the place: [startPos.String()], "EOF", or
    no place at all ("missing EOF", rule_eof.go:54). *)
Inductive wanted :=
| WChar (b : rbase) (c : Z)
| WChars (b : rbase) (t : list Z)
| WString (b : rbase) (t : list Z)
| WRange (b : rbase) (lo hi : Z)
| WEOF.
Inductive place := AtEOF | AtPos (p : option position) | NoPlace.

(** Errors: which [fmt.Errorf]/[errors.New] built the value, with the arguments; the
    message texts are in Message.v. *)
Inductive eerr :=
| EMissing (w : wanted) (p : place) (* rule_terminal_*.go, rule_eof.go:54 *)
| EUndefined (b : rbase) (n : list Z) (* rule_reference.go:21 *)
| EConcat (self : rule) (e : option eerr) (* rule_concatenate.go:71 *)
| EChoice (self : rule) (e : option eerr) (* rule_choice.go:120 *)
| EAmbiguity (name : list Z) (ns : list node) (* rule_choice.go:91-102 *)
| EGreedy (ns : list node)          (* rule.go:308-313 *)
| ERepMin (self : rule) (n : nat)   (* rule_repetition.go:104 *)
| EExclude (txt : list Z)           (* rule_block.go:145 *)
| EBlockEOF (cl : rule).            (* rule_block.go:179 *)

(** rule.go:47-64 [EvalResult]. *)
Record result := mkRes {
  r_node : option node; r_err : option eerr; r_erridx : Z;
  r_read : list Z; r_unused : list Z; r_sticky : bool }.

(** rule.go:73-75 [countCharsUsed]: may be negative, hence [Z]. *)
Definition countUsed (r : result) : Z :=
  Z.of_nat (length (r_read r)) - Z.of_nat (length (r_unused r)).
(** rule.go:77-79 [charsUsed]: panics when the count is negative. *)
Definition charsUsed (r : result) : outcome (list Z) := slice_to (r_read r) (countUsed r).

Definition mkNode (t : rtype) (b : rbase) (chars : list Z) (kids : list node)
  (pos : option position) (sticky : bool) : node :=
  Node t (b_name b) chars kids pos sticky (b_virtual b) (b_nondata b) (b_tokenized b).

(** rule.go:229-239 [leadingWhiteSpace]. *)
Definition leadingWS (l : list Z) : list Z := ws_prefix l.

Fixpoint find_idx (x : Z) (l : list Z) : option nat :=
  match l with
  | [] => None
  | y :: l' => if y =? x then Some O else option_map S (find_idx x l')
  end.
Fixpoint find_idxp (p : Z -> bool) (l : list Z) : option nat :=
  match l with
  | [] => None
  | y :: l' => if p y then Some O else option_map S (find_idxp p l')
  end.

(** A terminal that fails: all chars read are unused, [ErrIdx] is the cursor. *)
Definition failT (w : wanted) (p : place) (sticky : bool) (read : list Z) (s : stream) : result * stream :=
  (mkRes None (Some (EMissing w p)) (cursor s) read read sticky, s).

(** rule_terminal_char.go:20-74. *)
Definition evalChar (b : rbase) (txt : Z) (s : stream) (f : Z) : result * stream :=
  if peek s =? EOFChar then failT (WChar b txt) AtEOF true [] s
  else
    let p0 := fst (positionOf s) in (* line 38 *)
    let s1 := snd (positionOf s) in
    let miss := failT (WChar b txt) (AtPos p0) true in
    let tail (read : list Z) (s : stream) := (* lines 61-73 *)
      if negb (peek s =? txt) then miss read s
      else
        let '(pos, s') := positionOf s in
        let '(c, s'') := next s' in
        (mkRes (Some (mkNode TChar b [c] [] pos true)) None 0 (read ++ [c]) [] true, s'') in
    if f =? SUGGEST_SKIP then
      let '(sp, s2) := skipSpaces s1 in
      if isWS txt && nonempty sp then (* lines 44-58 *)
        match find_idx txt sp with
        | Some i =>
          let pos := positionLookup s2 (cursor s2 - Z.of_nat (length sp) + Z.of_nat i) in
          (mkRes (Some (mkNode TChar b [txt] [] pos true)) None 0 sp (skipn (S i) sp) true, s2)
        | None => miss sp s2
        end
      else tail sp s2
    else tail [] s1.

(** The last [length lead] of the skipped spaces are [lead]
    (rule_terminal_chars.go:56-65, rule_terminal_string.go:55-64). *)
Definition tail_is (sp lead : list Z) : bool :=
  runes_eqb (skipn (length sp - length lead) sp) lead.

(** rule_terminal_chars.go:20-82. *)
Definition evalChars (b : rbase) (txt : list Z) (s : stream) (f : Z) : result * stream :=
  if peek s =? EOFChar then failT (WChars b txt) AtEOF true [] s
  else
    let p0 := fst (positionOf s) in (* line 38 *)
    let s1 := snd (positionOf s) in
    let miss := failT (WChars b txt) (AtPos p0) true in
    let tail (read toMatch : list Z) (start : Z) (s : stream) := (* lines 70-81 *)
      let '(got, ok, s') := matchRunes s toMatch in
      if ok then
        (mkRes (Some (mkNode TChars b txt [] (positionLookup s' start) true)) None 0 (read ++ got) [] true, s')
      else miss (read ++ got) s' in
    let start := cursor s1 in
    if f =? SUGGEST_SKIP then
      let lead := leadingWS txt in
      let '(sp, s2) := skipSpaces s1 in
      if (length sp <? length lead)%nat then miss sp s2
      else if negb (tail_is sp lead) then miss sp s2
      else tail sp (skipn (length lead) txt) (start + Z.of_nat (length sp)) s2
    else tail [] txt start s1.

(** rule_terminal_string.go:20-82. *)
Definition evalString (b : rbase) (txt : list Z) (s : stream) (f : Z) : result * stream :=
  if peek s =? EOFChar then failT (WString b txt) AtEOF false [] s
  else
    let p0 := fst (positionOf s) in (* line 38 *)
    let s1 := snd (positionOf s) in
    let miss := failT (WString b txt) (AtPos p0) false in
    let tail (read toMatch : list Z) (s : stream) := (* lines 69-80 *)
      let '(got, ok, s') := matchRunes s toMatch in
      if ok then
        (mkRes (Some (mkNode TString b txt []
                  (positionLookup s' (cursor s' - Z.of_nat (length txt))) false))
           None 0 (read ++ got) [] false, s')
      else miss (read ++ got) s' in
    if (f =? SUGGEST_SKIP) || (f =? SUGGEST_NOT_SKIP) then
      let lead := leadingWS txt in
      let '(sp, s2) := skipSpaces s1 in
      if (length sp <? length lead)%nat then miss sp s2
      else if negb (tail_is sp lead) then miss sp s2
      else tail sp (skipn (length lead) txt) s2
    else tail [] txt s1.

(** rule_terminal_range.go:22-71.  Line 45 is [begin <= char && char >= end]. *)
Definition evalRange (b : rbase) (lo hi : Z) (s : stream) (f : Z) : result * stream :=
  if peek s =? EOFChar then failT (WRange b lo hi) AtEOF true [] s
  else
    let pos := positionLookup s (cursor s - 1) in (* line 38 *)
    let tail (read : list Z) (s : stream) := (* lines 55-70 *)
      let p0 := fst (positionOf s) in
      let s1 := snd (positionOf s) in
      let c := peek s1 in
      if (lo <=? c) && (c <=? hi) then
        let '(c', s2) := next s1 in
        (mkRes (Some (mkNode TChars b [c'] [] pos true)) None 0 (read ++ [c']) [] true, s2)
      else failT (WRange b lo hi) (AtPos p0) true read s1 in
    if f =? SUGGEST_SKIP then
      let '(sp, s2) := skipSpaces s in
      match find_idxp (fun c => (lo <=? c) && (c >=? hi)) sp with
      | Some i =>
        (mkRes (Some (mkNode TChars b [nth i sp 0] [] pos true)) None 0 sp (skipn (S i) sp) true, s2)
      | None => tail sp s2
      end
    else tail [] s.

Definition nameEOF : list Z := [69; 79; 70].

(** rule_eof.go:34-59. *)
Definition evalEOF (b : rbase) (s : stream) (f : Z) : result * stream :=
  let '(sp, s1) := if f =? 1 then skipSpaces s else ([], s) in
  if peek s1 =? EOFChar then
    let '(pos, s2) := positionOf s1 in
    (mkRes (Some (Node TEOF nameEOF [EOFChar] [] pos true (b_virtual b) (b_nondata b) (b_tokenized b)))
       None 0 sp [] true, s2)
  else failT WEOF NoPlace true sp s1.

(* ------------------------------------------------------------------ *)
(** ** desc: only whether it panics

    The error paths call [inst.desc()], which indexes [rules[0]] and
    [rules[count-1]] (rule_concatenate.go:13-25, rule_choice.go:14-32) and so
    panics on an unnamed concatenation or choice without operands.  [descOk r]
    says that [r.desc()] returns; the text it returns is in Message.v. *)
Fixpoint descOk (r : rule) : bool :=
  match r with
  | RChar _ _ _ | RChars _ _ | RString _ _ | RRange _ _ _ _ _ | REOF _ | RRef _ _ => true
  | RGroup b x => nonempty (b_name b) || descOk x         (* rule_group.go:13-18 *)
  | ROption b x => nonempty (b_name b) || descOk x        (* rule_option.go:13-18 *)
  | RRep b x _ _ => nonempty (b_name b) || descOk x       (* rule_repetition.go:20-31 *)
  | RChoice b gs =>
    nonempty (b_name b)
    || (existsb (fun g => nonempty g) gs && forallb (forallb descOk) gs)
  | RConcat b l => nonempty (b_name b) || (nonempty l && forallb descOk l)
  | RBlock b o _ c _ _ => nonempty (b_name b) || (descOk o && descOk c) (* rule_block.go:19-24 *)
  end.

(* ------------------------------------------------------------------ *)
(** ** Composite rules *)

(** What a recursive call gives: the result and the new state of the stream
    object it was given. *)
Definition evalT := rule -> stream -> Z -> outcome (result * stream).

(** rule_concatenate.go:52-62, the same text as rule_repetition.go:65-75: new
    ([CharsRead], [CharsUnused]) of the composite after a step. *)
Definition account (read unused : list Z) (r : result) : outcome (list Z * list Z) :=
  if (length unused <? length (r_read r))%nat then
    let* extra := slice_from (r_read r) (Z.of_nat (length unused)) in
    Ok (read ++ extra, r_unused r)
  else
    let* u := charsUsed r in
    let* lft := slice_from unused (Z.of_nat (length u)) in
    Ok (read, if (length lft <? length u)%nat then r_unused r else lft).

(** [node.Position == nil] then take the child's. *)
Definition orPos (p : option position) (n : node) : option position :=
  match p with None => n_pos n | _ => p end.

(** rule_concatenate.go:82-90: the flag for the next operand. *)
Definition nextFlag (f : Z) (n : node) (sticky : bool) : Z :=
  if negb (rtype_eqb (n_type n) TOption) || nonempty (n_kids n) || nonempty (n_chars n)
  then (if sticky then SUGGEST_NOT_SKIP else SUGGEST_SKIP)
  else f.

(** rule_concatenate.go:39-98: the loop; [kids] in reverse. *)
Fixpoint concatLoop (rec : evalT) (b : rbase) (self : rule) (d : nat) (rules : list rule) (s : stream) (f : Z)
  (read unused : list Z) (sticky : bool) (kids : list node) (pos : option position)
  : outcome (result * stream) :=
  match rules with
  | [] =>
    Ok (mkRes (Some (mkNode TConcat b [] (rev kids) pos sticky)) None 0 read unused sticky, unwrap d s)
  | r :: rules' =>
    let s1 := prepend s unused in
    let* (res, s2) := rec r s1 f in
    let* (read', unused') := account read unused res in
    let sticky' := sticky && r_sticky res in
    match r_node res with
    | None =>
      if descOk self then
        Ok (mkRes None (Some (EConcat self (r_err res))) (r_erridx res) read' read' sticky', unwrap d s2)
      else Panic
    | Some n =>
      concatLoop rec b self d rules' s2 (nextFlag f n (r_sticky res)) read' unused' sticky'
        (n :: kids) (orPos pos n)
    end
  end.

(** rule_repetition.go:99-114: after the loop. *)
Definition repDone (b : rbase) (self : rule) (rmin : Z) (idx : Z) (err : option eerr) (erridx : Z)
  (read unused : list Z) (sticky : bool) (kids : list node) (pos : option position) : outcome result :=
  if Z.of_nat (length kids) <? rmin then
    match err with
    | Some e => Ok (mkRes None (Some e) erridx read read sticky)
    | None => if descOk self then Ok (mkRes None (Some (ERepMin self (length kids))) idx read read sticky) else Panic
    end
  else Ok (mkRes (Some (mkNode TRepetition b [] (rev kids) pos sticky)) err erridx read unused sticky).

(** rule_repetition.go:49-97: the loop; the fuel counts iterations. *)
Fixpoint repLoop (rec : evalT) (fuel : nat) (b : rbase) (self : rule) (r : rule) (rmin rmax : Z) (d : nat)
  (s : stream) (f : Z)
  (read unused : list Z) (sticky : bool) (kids : list node) (pos : option position)
  : outcome (result * stream) :=
  match fuel with
  | O => OutOfFuel
  | S fuel' =>
    let s1 := prepend s unused in
    if peek s1 =? EOFChar then
      let* res := repDone b self rmin (cursor (unwrap d s1)) None 0 read unused sticky kids pos in
      Ok (res, unwrap d s1)
    else
      let* (res, s2) := rec r s1 f in
      let* (read', unused') := account read unused res in
      let sticky' := sticky && r_sticky res in
      match r_node res with
      | None =>
        let idx := cursor (unwrap d s2) in
        let* res' := repDone b self rmin idx (r_err res) idx read' unused' sticky' kids pos in
        Ok (res', unwrap d s2)
      | Some n =>
        let pos' := orPos pos n in
        let kids' := n :: kids in
        if (rmax >? 0) && (Z.of_nat (length kids') =? rmax) then
          let* res' := repDone b self rmin (cursor (unwrap d s2)) None 0 read' unused' sticky' kids' pos' in
          Ok (res', unwrap d s2)
        else repLoop rec fuel' b self r rmin rmax d s2 f read' unused' sticky' kids' pos'
      end
  end.

(** rule_choice.go:55-72 and rule.go:279-288: evaluate the alternatives of a
    group one after the other on the same input.  Returns the matched results in
    order, the longest [CharsRead], the stickiness and the error with the largest
    index. *)
Fixpoint altLoop (rec : evalT) (d : nat) (rules : list rule) (s : stream) (f : Z)
  (maxRead : list Z) (sticky : bool) (maxErr : option eerr) (maxIdx : Z) (matched : list result)
  : outcome (list result * list Z * bool * option eerr * Z * stream) :=
  match rules with
  | [] => Ok (rev matched, maxRead, sticky, maxErr, maxIdx, s)
  | r :: rules' =>
    let* (res, s1) := rec r (prepend s maxRead) f in
    let s2 := unwrap d s1 in
    let sticky' := sticky && r_sticky res in
    let maxRead' := if (length maxRead <? length (r_read res))%nat then r_read res else maxRead in
    match r_node res with
    | Some _ => altLoop rec d rules' s2 f maxRead' sticky' maxErr maxIdx (res :: matched)
    | None =>
      if r_erridx res >? maxIdx
      then altLoop rec d rules' s2 f maxRead' sticky' (r_err res) (r_erridx res) matched
      else altLoop rec d rules' s2 f maxRead' sticky' maxErr maxIdx matched
    end
  end.

(** rule_choice.go:81-106 and rule.go:299-317: select among two or more matches;
    [None] is the ambiguity error. *)
Fixpoint selLoop (maxUsed : Z) (found : option result) (l : list result) : option (option result) :=
  match l with
  | [] => Some found
  | r :: l' =>
    if countUsed r <? maxUsed then selLoop maxUsed found l'
    else if countUsed r =? maxUsed then
      match found with
      | None => selLoop maxUsed (Some r) l'
      | Some _ => None
      end
    else selLoop (countUsed r) (Some r) l'
  end.

(** [None]: ambiguity; [Some None]: no match. *)
Definition select (l : list result) : option (option result) :=
  match l with
  | [] => Some None
  | [r] => Some (Some r)
  | _ => selLoop 0 None l
  end.

(** The two results named in the ambiguity error, rule_choice.go:98-100. *)
Fixpoint selTie (maxUsed : Z) (found : option result) (l : list result) : list result :=
  match l with
  | [] => []
  | r :: l' =>
    if countUsed r <? maxUsed then selTie maxUsed found l'
    else if countUsed r =? maxUsed then
      match found with
      | None => selTie maxUsed (Some r) l'
      | Some x => [x; r]
      end
    else selTie (countUsed r) (Some r) l'
  end.
Definition tied (l : list result) : list node :=
  flat_map (fun r => match r_node r with Some n => [n] | None => [] end) (selTie 0 None l).

(** rule_choice.go:52-122. *)
Fixpoint choiceLoop (rec : evalT) (b : rbase) (self : rule) (d : nat) (groups : list (list rule))
  (s : stream) (f : Z) (maxRead : list Z) (sticky : bool) (maxErr : option eerr) (maxIdx : Z)
  : outcome (result * stream) :=
  match groups with
  | [] =>
    if descOk self then
      Ok (mkRes None (Some (EChoice self maxErr)) maxIdx maxRead maxRead sticky, s)
    else Panic
  | g :: groups' =>
    let* (matched, maxRead', sticky', maxErr', maxIdx', s') :=
      altLoop rec d g s f maxRead sticky maxErr maxIdx [] in
    match select matched with
    | None => (* lines 92-102 *)
      Ok (mkRes None (Some (EAmbiguity (b_name b) (tied matched))) 0 maxRead' [] false, s')
    | Some None => choiceLoop rec b self d groups' s' f maxRead' sticky' maxErr' maxIdx'
    | Some (Some found) => (* lines 110-116 *)
      match r_node found with
      | None => Panic (* cannot happen: only results with a node are selected *)
      | Some n =>
        let* unused := slice_from maxRead' (countUsed found) in
        Ok (mkRes (Some (mkNode TChoice b [] [n] (n_pos n) sticky')) None 0 maxRead' unused sticky', s')
      end
    end
  end.

(** rule.go:274-325 [mostGreedy]. *)
Definition mostGreedy (rec : evalT) (rules : list rule) (s : stream) (f : Z) : outcome (result * stream) :=
  let* (matched, maxRead, _, _, _, s') := altLoop rec (depth s) rules s f [] true None 0 [] in
  match select matched with
  | None => Ok (mkRes None (Some (EGreedy (tied matched))) 0 [] [] false, s')
  | Some None => Ok (mkRes None None 0 maxRead maxRead false, s')
  | Some (Some found) =>
    let* unused := slice_from maxRead (countUsed found) in
    Ok (mkRes (r_node found) None 0 maxRead unused (r_sticky found), s')
  end.

(** rule_block.go:102-187: one iteration of the loop.  [inl]: go round again with
    the new (stream, charsUsed, charsUnused, content.Chars); [inr]: left the loop
    with an early error result, the EOF break, or the close result. *)
Inductive blockExit :=
| BExclude (res : result) (used content : list Z)   (* lines 145-150 *)
| BEOF (used unused : list Z)                        (* lines 177-182 *)
| BClose (res : result) (used unused content : list Z). (* lines 165-171 *)

Definition blockIter (rec : evalT) (cl : rule) (esc : option rule) (excl : list rule)
  (cs : stream) (used unused content : list Z)
  : outcome (stream * ((list Z * list Z * list Z) + blockExit)) :=
  (* lines 104-132 *)
  let* (escaped, escChars, used, unused, cs) :=
    match esc with
    | None => Ok (false, [], used, unused, cs)
    | Some e =>
      let* (res, cs1) := rec e cs NOT_SKIP in
      match r_node res with
      | Some _ =>
        let* u := charsUsed res in
        Ok (true, u, used ++ u, r_unused res, cs1)
      | None => Ok (false, [], used, r_read res, cs1)
      end
    end in
  let cs := prepend cs unused in (* line 135 *)
  (* lines 136-153 *)
  let* (exres, cs) :=
    match excl with
    | [] => Ok (None, cs)
    | _ => let* (res, cs1) := mostGreedy rec excl cs NOT_SKIP in Ok (Some res, cs1)
    end in
  let exfound := match exres with Some res => (match r_node res with Some _ => true | None => false end) | None => false end in
  let exr := match exres with Some res => res | None => mkRes None None 0 [] [] false end in
  if exfound then
    if escaped then (* lines 139-144 *)
      let* u := charsUsed exr in
      Ok (cs, inl (used ++ u, r_unused exr, content ++ u))
    else Ok (cs, inr (BExclude exr used content))
  else
    let unused := match exres with Some res => r_read res | None => unused end in (* line 152 *)
    let cs := prepend cs unused in (* line 156 *)
    let* (res, cs) := rec cl cs NOT_SKIP in
    let unused := r_unused res in (* line 158 *)
    match r_node res with
    | Some _ =>
      let* u := charsUsed res in
      if escaped then Ok (cs, inl (used ++ u, unused, content ++ u)) (* lines 160-164 *)
      else Ok (cs, inr (BClose res (used ++ content ++ u) unused content))
    | None =>
      let content := content ++ escChars in (* line 173 *)
      let cs := prepend cs unused in (* line 175 *)
      if peek cs =? EOFChar then Ok (cs, inr (BEOF (used ++ content) unused))
      else
        let '(c, cs) := next cs in
        Ok (cs, inl (used, [], content ++ escChars ++ [c])) (* lines 183-186 *)
    end.

Fixpoint blockLoop (rec : evalT) (fuel : nat) (cl : rule) (esc : option rule) (excl : list rule)
  (cs : stream) (used unused content : list Z) : outcome (stream * blockExit) :=
  match fuel with
  | O => OutOfFuel
  | S fuel' =>
    let* (cs', r) := blockIter rec cl esc excl cs used unused content in
    match r with
    | inl (used', unused', content') => blockLoop rec fuel' cl esc excl cs' used' unused' content'
    | inr e => Ok (cs', e)
    end
  end.

(** rule_block.go:60-201. *)
Definition evalBlock (rec : evalT) (fuel : nat) (b : rbase) (op : rule) (vclose : bool) (cl : rule)
  (esc : option rule) (excl : list rule) (s : stream) (f : Z) : outcome (result * stream) :=
  let d := depth s in
  let* (ores, s1) := rec op s f in
  match r_node ores with
  | None => Ok (mkRes None (r_err ores) (cursor s1) (r_read ores) (r_unused ores) false, s1)
  | Some on =>
    let* used := charsUsed ores in
    let unused := r_unused ores in
    let cs := prepend s1 unused in (* line 98 *)
    let '(cpos, cs) := positionOf cs in
    let* (cs', e) := blockLoop rec fuel cl esc excl cs used unused [] in
    let s' := unwrap d cs' in
    match e with
    | BExclude xr used content =>
      let rd := used ++ content ++ r_read xr in
      let* u := charsUsed xr in
      Ok (mkRes None (Some (EExclude u)) (cursor s') rd rd false, s')
    | BEOF used unused =>
      let rd := used ++ unused in
      if descOk cl then Ok (mkRes None (Some (EBlockEOF cl)) (cursor s') rd rd false, s') else Panic
    | BClose cres used unused content =>
      let cnode := Node TChars [] content [] cpos true false false false in
      let kids := on :: cnode ::
        (if vclose then [] else match r_node cres with Some n => [n] | None => [] end) in
      let rd := used ++ unused in
      Ok (mkRes (Some (mkNode TBlock b [] kids (n_pos on) false)) None 0 rd
            (if vclose then r_read cres else unused) false, s')
    end
  end.

(** grammar.go:32-36, 51-60: the part of the grammar that evaluation reads,
    [ruleRecords], as an association list without duplicate names. *)
Definition rules_t := list (list Z * rule).
Fixpoint lookup (g : rules_t) (n : list Z) : option rule :=
  match g with
  | [] => None
  | (m, r) :: g' => if runes_eqb m n then Some r else lookup g' n
  end.

(** rule_reference.go:26-48. *)
Definition toggle (b : rbase) (n : node) : node :=
  Node (n_type n) (n_name n) (n_chars n) (n_kids n) (n_pos n) (n_sticky n)
    (xorb (b_virtual b) (n_virtual n)) (xorb (b_nondata b) (n_nondata n))
    (xorb (b_tokenized b) (n_tokenized n)).

Definition set_node (r : result) (n : option node) : result :=
  mkRes n (r_err r) (r_erridx r) (r_read r) (r_unused r) (r_sticky r).

Definition evalStep (g : rules_t) (rec : evalT) (fuel : nat) (r : rule) (s : stream) (f : Z)
  : outcome (result * stream) :=
  match r with
  | RChar b t _ => Ok (evalChar b t s f)
  | RChars b t => Ok (evalChars b t s f)
  | RString b t => Ok (evalString b t s f)
  | RRange b lo _ hi _ => Ok (evalRange b lo hi s f)
  | REOF b => Ok (evalEOF b s f)
  | RRef b n => (* rule_reference.go:17-50 *)
    match lookup g n with
    | None => Ok (mkRes None (Some (EUndefined b n)) 0 [] [] false, s)
    | Some r' =>
      let* (res, s') := rec r' s f in
      Ok (set_node res (option_map (toggle b) (r_node res)), s')
    end
  | RGroup b x => (* rule_group.go:20-38; line 36 reads the Position of the new node itself, nil *)
    let* (res, s') := rec x s f in
    match r_node res with
    | None => Ok (mkRes None (r_err res) (r_erridx res) (r_read res) (r_read res) (r_sticky res), s')
    | Some n => Ok (set_node res (Some (mkNode TGroup b [] [n] None (r_sticky res))), s')
    end
  | ROption b x => (* rule_option.go:22-40 *)
    let* (res, s') := rec x s f in
    match r_node res with
    | None => Ok (set_node res (Some (mkNode TOption b [] [] None (r_sticky res))), s')
    | Some n => Ok (set_node res (Some (mkNode TOption b [] [n] (n_pos n) (r_sticky res))), s')
    end
  | RRep b x mn mx => repLoop rec fuel b r x mn mx (depth s) s f [] [] true [] None
  | RChoice b gs => choiceLoop rec b r (depth s) gs s f [] true None 0
  | RConcat b l => concatLoop rec b r (depth s) l s f [] [] true [] None
  | RBlock b o v c e x => evalBlock rec fuel b o v c e x s f
  end.

(** [IRule.Eval] with recursion depth and loop lengths bounded by the fuel. *)
Fixpoint eval (fuel : nat) (g : rules_t) (r : rule) (s : stream) (f : Z) : outcome (result * stream) :=
  match fuel with
  | O => OutOfFuel
  | S fuel' => evalStep g (eval fuel' g) fuel r s f
  end.
