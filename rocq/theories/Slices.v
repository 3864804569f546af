(** The evaluator once more, with Go slices instead of lists of runes.

    A Go slice is a window on an array that other slices may look at too, and
    [append] writes into that array if there is room.  Here [CharsRead],
    [CharsUnused], [Node.Chars], the text of a stream and what is prepended to it
    are slices, and every [append] and slice expression of the code is what it is
    in Go.  How much room [append] leaves when it has to get a new array is up to
    the runtime: [grow] is arbitrary.

    Not in slices: the line table ([positionMap.lines]; no other variable holds it),
    the runes in rules (no code appends to them or hands them on), names, and the
    slices of pointers (child nodes and results: only appended to where they are
    made, grown from nil). *)
From Verif Require Import Base Stream Node Rule Grammar.

(** The arrays allocated so far; their length is their size. *)
Definition heap := list (list Z).
(** Array, first cell, length, capacity.  The capacity of nil is 0. *)
Record slice := mkSl { sl_arr : nat; sl_off : nat; sl_len : nat; sl_cap : nat }.
Definition nilS : slice := mkSl 0 0 0 0.
Definition array (h : heap) (a : nat) : list Z := nth a h [].
Definition cells (h : heap) (s : slice) : list Z := firstn (sl_len s) (skipn (sl_off s) (array h (sl_arr s))).

(** Code that uses the heap. *)
Definition prog (A : Type) := heap -> outcome (A * heap).
Definition ret {A} (a : A) : prog A := fun h => Ok (a, h).
Definition pbind {A B} (m : prog A) (k : A -> prog B) : prog B := fun h => let* (a, h') := m h in k a h'.
Notation "'do' x <- m ; k" := (pbind m (fun x => k)) (at level 200, x pattern, m at level 100, k at level 200).
Definition look {A} (f : heap -> A) : prog A := fun h => Ok (f h, h).
Definition panics {A} : prog A := fun _ => Panic.
Definition endless {A} : prog A := fun _ => OutOfFuel.

(** [s[k:]] and [s[:k]] (the latter up to the length; the code never goes beyond it). *)
Definition from (s : slice) (k : Z) : prog slice :=
  if (0 <=? k) && (k <=? Z.of_nat (sl_len s))
  then ret (mkSl (sl_arr s) (sl_off s + Z.to_nat k) (sl_len s - Z.to_nat k) (sl_cap s - Z.to_nat k)) else panics.
Definition upTo (s : slice) (k : Z) : prog slice :=
  if (0 <=? k) && (k <=? Z.of_nat (sl_len s))
  then ret (mkSl (sl_arr s) (sl_off s) (Z.to_nat k) (sl_cap s)) else panics.

Definition write (h : heap) (a off : nat) (l : list Z) : heap :=
  firstn a h ++ (firstn off (array h a) ++ l ++ skipn (off + length l) (array h a)) :: skipn (S a) h.

(** A node with its [Chars] (node.go:23-35). *)
Inductive snode := SNode
  { m_type : rtype; m_name : list Z; m_chars : slice; m_kids : list snode; m_pos : option position;
    m_sticky : bool; m_virtual : bool; m_nondata : bool; m_tokenized : bool }.
(** What the node shows. *)
Fixpoint nodeIn (h : heap) (n : snode) : node :=
  Node (m_type n) (m_name n) (cells h (m_chars n)) (List.map (nodeIn h) (m_kids n)) (m_pos n) (m_sticky n)
    (m_virtual n) (m_nondata n) (m_tokenized n).
(** rule.go:47-64 [EvalResult].  Errors hold strings, which do not change any more. *)
Record sresult := mkSR {
  a_node : option snode; a_err : option eerr; a_idx : Z; a_read : slice; a_unused : slice; a_sticky : bool }.
Definition resultIn (h : heap) (r : sresult) : result :=
  mkRes (option_map (nodeIn h) (a_node r)) (a_err r) (a_idx r) (cells h (a_read r)) (cells h (a_unused r)) (a_sticky r).

(** charstream.go:282-287 and 432-437: wrappers around a string stream. *)
Record sstream := mkSS { ss_layers : list (slice * nat); ss_chars : slice; ss_cur : nat; ss_lines : list Z }.
Definition layerIn (h : heap) (x : slice * nat) : list Z * nat := (cells h (fst x), snd x).
Definition streamIn (h : heap) (s : sstream) : stream :=
  mkStream (List.map (layerIn h) (ss_layers s)) (mkCstr (cells h (ss_chars s)) (ss_cur s) (ss_lines s)).

Section Alloc.
Variable grow : heap -> slice -> list Z -> nat.

(** [append(s, l...)]. *)
Definition add (s : slice) (l : list Z) : prog slice := fun h =>
  if negb (nonempty l) then Ok (s, h)
  else if (sl_len s + length l <=? sl_cap s)%nat
  then Ok (mkSl (sl_arr s) (sl_off s) (sl_len s + length l) (sl_cap s), write h (sl_arr s) (sl_off s + sl_len s) l)
  else let x := grow h s l in
    Ok (mkSl (length h) 0 (sl_len s + length l) (sl_len s + length l + x), h ++ [cells h s ++ l ++ repeat 0 x]).
Definition addS (s t : slice) : prog slice := do l <- look (fun h => cells h t); add s l.

(** ** Streams (charstream.go).  Reading moves cursors and keeps slices. *)
Definition moved (s : sstream) (x : stream) : sstream :=
  mkSS (combine (List.map fst (ss_layers s)) (List.map snd (layers x))) (ss_chars s) (cs_cur (sbase x)) (cs_lines (sbase x)).
(** charstream.go:417-429. *)
Definition wrap (s : sstream) (p : slice) : sstream :=
  if (sl_len p =? 0)%nat then s else mkSS ((p, 0%nat) :: ss_layers s) (ss_chars s) (ss_cur s) (ss_lines s).
Definition peel (n : nat) (s : sstream) : sstream :=
  mkSS (skipn (length (ss_layers s) - n) (ss_layers s)) (ss_chars s) (ss_cur s) (ss_lines s).
Definition deep (s : sstream) : nat := length (ss_layers s).
(** charstream.go:355-366, 454-468. *)
Definition hPeek (s : sstream) : prog Z := look (fun h => peek (streamIn h s)).
(** charstream.go:339-353, 446-452. *)
Definition hNext (s : sstream) : prog (Z * sstream) :=
  look (fun h => let x := next (streamIn h s) in (fst x, moved s (snd x))).
(** charstream.go:289-306, 508-514. *)
Definition hPosition (s : sstream) : prog (option position * sstream) :=
  look (fun h => let x := positionOf (streamIn h s) in (fst x, moved s (snd x))).
(** charstream.go:309-322, 517-519; 324-329, 521-526. *)
Definition hLookup (s : sstream) (i : Z) : prog (option position) := look (fun h => positionLookup (streamIn h s) i).
Definition hCursor (s : sstream) : prog Z := look (fun h => cursor (streamIn h s)).
(** charstream.go:474-485: the loop for a prepend stream. *)
Fixpoint hSkipLoop (n : nat) (s : sstream) (acc : slice) : prog (slice * sstream) :=
  match n with
  | O => ret (acc, s)
  | S n' =>
    do c <- hPeek s;
    if c =? EOFChar then ret (acc, s)
    else if negb (isWS c) then ret (acc, s)
    else do (c', s') <- hNext s; do acc' <- add acc [c']; hSkipLoop n' s' acc'
  end.
(** charstream.go:370-390: a window on the text itself; 470-486. *)
Definition hSkip (s : sstream) : prog (slice * sstream) :=
  match ss_layers s with
  | [] =>
    do x <- look (fun h => b_skip (sbase (streamIn h s)));
    match fst x with
    | [] => ret (nilS, s)
    | sp => do y <- from (ss_chars s) (Z.of_nat (ss_cur s)); do z <- upTo y (Z.of_nat (length sp));
        ret (z, moved s (mkStream [] (snd x)))
    end
  | _ => do n <- look (fun h => length (rest (streamIn h s))); hSkipLoop n s nilS
  end.
(** charstream.go:394-414, 488-506. *)
Fixpoint hMatch (s : sstream) (input : list Z) (acc : slice) : prog (slice * bool * sstream) :=
  match input with
  | [] => ret (acc, true, s)
  | i :: input' =>
    do (c, s') <- hNext s;
    if c =? EOFChar then ret (acc, false, s')
    else do acc' <- add acc [c];
      if negb (c =? i) then ret (acc', false, s') else hMatch s' input' acc'
  end.

(** ** Results (rule.go:73-79) *)
Definition usedCount (r : sresult) : Z := Z.of_nat (sl_len (a_read r)) - Z.of_nat (sl_len (a_unused r)).
Definition usedChars (r : sresult) : prog slice := upTo (a_read r) (usedCount r).
Definition makeNode (t : rtype) (b : rbase) (chars : slice) (kids : list snode) (pos : option position) (sticky : bool) : snode :=
  SNode t (b_name b) chars kids pos sticky (b_virtual b) (b_nondata b) (b_tokenized b).

(** ** Terminals *)
Definition hFail (w : wanted) (p : place) (sticky : bool) (read : slice) (s : sstream) : prog (sresult * sstream) :=
  do i <- hCursor s; ret (mkSR None (Some (EMissing w p)) i read read sticky, s).

(** rule_terminal_char.go:61-73. *)
Definition hCharTail (b : rbase) (txt : Z) (p0 : option position) (read : slice) (s : sstream) : prog (sresult * sstream) :=
  do c <- hPeek s;
  if negb (c =? txt) then hFail (WChar b txt) (AtPos p0) true read s
  else
    do (pos, s') <- hPosition s;
    do (c', s'') <- hNext s';
    do read' <- add read [c'];
    do chars <- add nilS [c'];
    ret (mkSR (Some (makeNode TChar b chars [] pos true)) None 0 read' nilS true, s'').
(** rule_terminal_char.go:20-74. *)
Definition hChar (b : rbase) (txt : Z) (s : sstream) (f : Z) : prog (sresult * sstream) :=
  do c <- hPeek s;
  if c =? EOFChar then hFail (WChar b txt) AtEOF true nilS s
  else
    do (p0, s1) <- hPosition s;
    if f =? SUGGEST_SKIP then
      do (sp, s2) <- hSkip s1;
      do read <- addS nilS sp;
      if isWS txt && (0 <? sl_len sp)%nat then
        do spc <- look (fun h => cells h sp);
        match find_idx txt spc with
        | Some i =>
          do chars <- add nilS [txt];
          do cur <- hCursor s2;
          do pos <- hLookup s2 (cur - Z.of_nat (sl_len sp) + Z.of_nat i);
          do un <- from sp (Z.of_nat (S i));
          ret (mkSR (Some (makeNode TChar b chars [] pos true)) None 0 read un true, s2)
        | None => hFail (WChar b txt) (AtPos p0) true read s2
        end
      else hCharTail b txt p0 read s2
    else hCharTail b txt p0 nilS s1.

(** rule_terminal_chars.go:70-81. *)
Definition hCharsTail (b : rbase) (txt : list Z) (p0 : option position) (read : slice) (toMatch : list Z) (start : Z) (s : sstream)
  : prog (sresult * sstream) :=
  do (got, ok, s') <- hMatch s toMatch nilS;
  do read' <- addS read got;
  if (ok : bool) then
    do pos <- hLookup s' start;
    do chars <- add nilS txt;
    ret (mkSR (Some (makeNode TChars b chars [] pos true)) None 0 read' nilS true, s')
  else hFail (WChars b txt) (AtPos p0) true read' s'.
(** rule_terminal_chars.go:20-82. *)
Definition hChars (b : rbase) (txt : list Z) (s : sstream) (f : Z) : prog (sresult * sstream) :=
  do c <- hPeek s;
  if c =? EOFChar then hFail (WChars b txt) AtEOF true nilS s
  else
    do (p0, s1) <- hPosition s;
    do start <- hCursor s1;
    if f =? SUGGEST_SKIP then
      let lead := leadingWS txt in
      do (sp, s2) <- hSkip s1;
      do read <- addS nilS sp;
      if (sl_len sp <? length lead)%nat then hFail (WChars b txt) (AtPos p0) true read s2
      else
        do last <- from sp (Z.of_nat (sl_len sp - length lead));
        do lastc <- look (fun h => cells h last);
        if negb (runes_eqb lastc lead) then hFail (WChars b txt) (AtPos p0) true read s2
        else hCharsTail b txt p0 read (skipn (length lead) txt) (start + Z.of_nat (sl_len sp)) s2
    else hCharsTail b txt p0 nilS txt start s1.

(** rule_terminal_string.go:69-80. *)
Definition hStringTail (b : rbase) (txt : list Z) (p0 : option position) (read : slice) (toMatch : list Z) (s : sstream)
  : prog (sresult * sstream) :=
  do (got, ok, s') <- hMatch s toMatch nilS;
  do read' <- addS read got;
  if (ok : bool) then
    do cur <- hCursor s';
    do pos <- hLookup s' (cur - Z.of_nat (length txt));
    do chars <- add nilS txt;
    ret (mkSR (Some (makeNode TString b chars [] pos false)) None 0 read' nilS false, s')
  else hFail (WString b txt) (AtPos p0) false read' s'.
(** rule_terminal_string.go:20-82. *)
Definition hString (b : rbase) (txt : list Z) (s : sstream) (f : Z) : prog (sresult * sstream) :=
  do c <- hPeek s;
  if c =? EOFChar then hFail (WString b txt) AtEOF false nilS s
  else
    do (p0, s1) <- hPosition s;
    if (f =? SUGGEST_SKIP) || (f =? SUGGEST_NOT_SKIP) then
      let lead := leadingWS txt in
      do (sp, s2) <- hSkip s1;
      do read <- addS nilS sp;
      if (sl_len sp <? length lead)%nat then hFail (WString b txt) (AtPos p0) false read s2
      else
        do last <- from sp (Z.of_nat (sl_len sp - length lead));
        do lastc <- look (fun h => cells h last);
        if negb (runes_eqb lastc lead) then hFail (WString b txt) (AtPos p0) false read s2
        else hStringTail b txt p0 read (skipn (length lead) txt) s2
    else hStringTail b txt p0 nilS txt s1.

(** rule_terminal_range.go:55-70. *)
Definition hRangeTail (b : rbase) (lo hi : Z) (pos : option position) (read : slice) (s : sstream) : prog (sresult * sstream) :=
  do (p0, s1) <- hPosition s;
  do c <- hPeek s1;
  if (lo <=? c) && (c <=? hi) then
    do (c', s2) <- hNext s1;
    do read' <- add read [c'];
    do chars <- add nilS [c'];
    ret (mkSR (Some (makeNode TChars b chars [] pos true)) None 0 read' nilS true, s2)
  else hFail (WRange b lo hi) (AtPos p0) true read s1.
(** rule_terminal_range.go:22-71. *)
Definition hRange (b : rbase) (lo hi : Z) (s : sstream) (f : Z) : prog (sresult * sstream) :=
  do c <- hPeek s;
  if c =? EOFChar then hFail (WRange b lo hi) AtEOF true nilS s
  else
    do cur <- hCursor s;
    do pos <- hLookup s (cur - 1);
    if f =? SUGGEST_SKIP then
      do (sp, s2) <- hSkip s;
      do read <- addS nilS sp;
      do spc <- look (fun h => cells h sp);
      match find_idxp (fun c => (lo <=? c) && (c >=? hi)) spc with
      | Some i =>
        do un <- from sp (Z.of_nat (S i));
        do chars <- add nilS [nth i spc 0];
        ret (mkSR (Some (makeNode TChars b chars [] pos true)) None 0 read un true, s2)
      | None => hRangeTail b lo hi pos read s2
      end
    else hRangeTail b lo hi pos nilS s.

(** rule_eof.go:34-59: [CharsRead] is the window that SkipSpaces returned. *)
Definition hEOF (b : rbase) (s : sstream) (f : Z) : prog (sresult * sstream) :=
  do (sp, s1) <- (if f =? 1 then hSkip s else ret (nilS, s));
  do c <- hPeek s1;
  if c =? EOFChar then
    do chars <- add nilS [EOFChar];
    do (pos, s2) <- hPosition s1;
    ret (mkSR (Some (SNode TEOF nameEOF chars [] pos true (b_virtual b) (b_nondata b) (b_tokenized b))) None 0 sp nilS true, s2)
  else hFail WEOF NoPlace true sp s1.

(** ** Composite rules *)
Definition hevalT := rule -> sstream -> Z -> prog (sresult * sstream).

(** rule_concatenate.go:52-62, rule_repetition.go:65-75. *)
Definition hAccount (read unused : slice) (r : sresult) : prog (slice * slice) :=
  if (sl_len unused <? sl_len (a_read r))%nat then
    do extra <- from (a_read r) (Z.of_nat (sl_len unused));
    do read' <- addS read extra;
    ret (read', a_unused r)
  else
    do u <- usedChars r;
    do lft <- from unused (Z.of_nat (sl_len u));
    ret (read, if (sl_len lft <? sl_len u)%nat then a_unused r else lft).

Definition hOrPos (p : option position) (n : snode) : option position := match p with None => m_pos n | _ => p end.
(** rule_concatenate.go:82-90. *)
Definition hNextFlag (f : Z) (n : snode) (sticky : bool) : Z :=
  if negb (rtype_eqb (m_type n) TOption) || nonempty (m_kids n) || (0 <? sl_len (m_chars n))%nat
  then (if sticky then SUGGEST_NOT_SKIP else SUGGEST_SKIP) else f.

(** rule_concatenate.go:39-98. *)
Fixpoint hConcat (rec : hevalT) (b : rbase) (self : rule) (d : nat) (rules : list rule) (s : sstream) (f : Z)
  (read unused : slice) (sticky : bool) (kids : list snode) (pos : option position) : prog (sresult * sstream) :=
  match rules with
  | [] => ret (mkSR (Some (makeNode TConcat b nilS (rev kids) pos sticky)) None 0 read unused sticky, peel d s)
  | r :: rules' =>
    do (res, s2) <- rec r (wrap s unused) f;
    do (read', unused') <- hAccount read unused res;
    let sticky' := sticky && a_sticky res in
    match a_node res with
    | None =>
      if descOk self then ret (mkSR None (Some (EConcat self (a_err res))) (a_idx res) read' read' sticky', peel d s2)
      else panics
    | Some n =>
      hConcat rec b self d rules' s2 (hNextFlag f n (a_sticky res)) read' unused' sticky' (n :: kids) (hOrPos pos n)
    end
  end.

(** rule_repetition.go:99-114. *)
Definition hRepDone (b : rbase) (self : rule) (rmin idx : Z) (err : option eerr) (erridx : Z) (read unused : slice)
  (sticky : bool) (kids : list snode) (pos : option position) : prog sresult :=
  if Z.of_nat (length kids) <? rmin then
    match err with
    | Some e => ret (mkSR None (Some e) erridx read read sticky)
    | None => if descOk self then ret (mkSR None (Some (ERepMin self (length kids))) idx read read sticky) else panics
    end
  else ret (mkSR (Some (makeNode TRepetition b nilS (rev kids) pos sticky)) err erridx read unused sticky).

(** rule_repetition.go:49-97. *)
Fixpoint hRep (rec : hevalT) (fuel : nat) (b : rbase) (self r : rule) (rmin rmax : Z) (d : nat) (s : sstream) (f : Z)
  (read unused : slice) (sticky : bool) (kids : list snode) (pos : option position) : prog (sresult * sstream) :=
  match fuel with
  | O => endless
  | S fuel' =>
    let s1 := wrap s unused in
    do c <- hPeek s1;
    if c =? EOFChar then
      do i <- hCursor (peel d s1);
      do res <- hRepDone b self rmin i None 0 read unused sticky kids pos;
      ret (res, peel d s1)
    else
      do (res, s2) <- rec r s1 f;
      do (read', unused') <- hAccount read unused res;
      let sticky' := sticky && a_sticky res in
      match a_node res with
      | None =>
        do i <- hCursor (peel d s2);
        do res' <- hRepDone b self rmin i (a_err res) i read' unused' sticky' kids pos;
        ret (res', peel d s2)
      | Some n =>
        let pos' := hOrPos pos n in
        let kids' := n :: kids in
        if (rmax >? 0) && (Z.of_nat (length kids') =? rmax) then
          do i <- hCursor (peel d s2);
          do res' <- hRepDone b self rmin i None 0 read' unused' sticky' kids' pos';
          ret (res', peel d s2)
        else hRep rec fuel' b self r rmin rmax d s2 f read' unused' sticky' kids' pos'
      end
  end.

(** rule_choice.go:55-72, rule.go:279-288. *)
Fixpoint hAlts (rec : hevalT) (d : nat) (rules : list rule) (s : sstream) (f : Z) (maxRead : slice) (sticky : bool)
  (maxErr : option eerr) (maxIdx : Z) (matched : list sresult)
  : prog (list sresult * slice * bool * option eerr * Z * sstream) :=
  match rules with
  | [] => ret (rev matched, maxRead, sticky, maxErr, maxIdx, s)
  | r :: rules' =>
    do (res, s1) <- rec r (wrap s maxRead) f;
    let s2 := peel d s1 in
    let sticky' := sticky && a_sticky res in
    let maxRead' := if (sl_len maxRead <? sl_len (a_read res))%nat then a_read res else maxRead in
    match a_node res with
    | Some _ => hAlts rec d rules' s2 f maxRead' sticky' maxErr maxIdx (res :: matched)
    | None =>
      if a_idx res >? maxIdx
      then hAlts rec d rules' s2 f maxRead' sticky' (a_err res) (a_idx res) matched
      else hAlts rec d rules' s2 f maxRead' sticky' maxErr maxIdx matched
    end
  end.

(** rule_choice.go:81-106, rule.go:299-317. *)
Fixpoint hSelLoop (maxUsed : Z) (found : option sresult) (l : list sresult) : option (option sresult) :=
  match l with
  | [] => Some found
  | r :: l' =>
    if usedCount r <? maxUsed then hSelLoop maxUsed found l'
    else if usedCount r =? maxUsed then
      match found with
      | None => hSelLoop maxUsed (Some r) l'
      | Some _ => None
      end
    else hSelLoop (usedCount r) (Some r) l'
  end.
Definition hSelect (l : list sresult) : option (option sresult) :=
  match l with
  | [] => Some None
  | [r] => Some (Some r)
  | _ => hSelLoop 0 None l
  end.
(** rule_choice.go:98-100. *)
Fixpoint hSelTie (maxUsed : Z) (found : option sresult) (l : list sresult) : list sresult :=
  match l with
  | [] => []
  | r :: l' =>
    if usedCount r <? maxUsed then hSelTie maxUsed found l'
    else if usedCount r =? maxUsed then
      match found with
      | None => hSelTie maxUsed (Some r) l'
      | Some x => [x; r]
      end
    else hSelTie (usedCount r) (Some r) l'
  end.
(** Their texts go into a string at once. *)
Definition hTied (l : list sresult) : prog (list node) :=
  look (fun h => flat_map (fun r => match a_node r with Some n => [nodeIn h n] | None => [] end) (hSelTie 0 None l)).

(** rule_choice.go:52-122. *)
Fixpoint hChoice (rec : hevalT) (b : rbase) (self : rule) (d : nat) (groups : list (list rule)) (s : sstream) (f : Z)
  (maxRead : slice) (sticky : bool) (maxErr : option eerr) (maxIdx : Z) : prog (sresult * sstream) :=
  match groups with
  | [] =>
    if descOk self then ret (mkSR None (Some (EChoice self maxErr)) maxIdx maxRead maxRead sticky, s) else panics
  | g :: groups' =>
    do (matched, maxRead', sticky', maxErr', maxIdx', s') <- hAlts rec d g s f maxRead sticky maxErr maxIdx [];
    match hSelect matched with
    | None =>
      do ns <- hTied matched;
      ret (mkSR None (Some (EAmbiguity (b_name b) ns)) 0 maxRead' nilS false, s')
    | Some None => hChoice rec b self d groups' s' f maxRead' sticky' maxErr' maxIdx'
    | Some (Some found) =>
      match a_node found with
      | None => panics
      | Some n =>
        do un <- from maxRead' (usedCount found);
        ret (mkSR (Some (makeNode TChoice b nilS [n] (m_pos n) sticky')) None 0 maxRead' un sticky', s')
      end
    end
  end.

(** rule.go:274-325. *)
Definition hGreedy (rec : hevalT) (rules : list rule) (s : sstream) (f : Z) : prog (sresult * sstream) :=
  do (matched, maxRead, _, _, _, s') <- hAlts rec (deep s) rules s f nilS true None 0 [];
  match hSelect matched with
  | None => do ns <- hTied matched; ret (mkSR None (Some (EGreedy ns)) 0 nilS nilS false, s')
  | Some None => ret (mkSR None None 0 maxRead maxRead false, s')
  | Some (Some found) =>
    do un <- from maxRead (usedCount found);
    ret (mkSR (a_node found) None 0 maxRead un (a_sticky found), s')
  end.

(** rule_block.go:102-187. *)
Inductive hExit :=
| HExclude (res : sresult) (used content : slice)
| HAtEOF (used unused : slice)
| HClose (res : sresult) (used unused content : slice).

Definition hBlockIter (rec : hevalT) (cl : rule) (esc : option rule) (excl : list rule)
  (cs : sstream) (used unused content : slice) : prog (sstream * ((slice * slice * slice) + hExit)) :=
  do (escaped, escChars, used, unused, cs) <-
    match esc with
    | None => ret (false, nilS, used, unused, cs)
    | Some e =>
      do (res, cs1) <- rec e cs NOT_SKIP;
      match a_node res with
      | Some _ => do u <- usedChars res; do used' <- addS used u; ret (true, u, used', a_unused res, cs1)
      | None => ret (false, nilS, used, a_read res, cs1)
      end
    end;
  do (exres, cs) <-
    match excl with
    | [] => ret (None, wrap cs unused)
    | _ => do (res, cs1) <- hGreedy rec excl (wrap cs unused) NOT_SKIP; ret (Some res, cs1)
    end;
  let exfound := match exres with Some res => (match a_node res with Some _ => true | None => false end) | None => false end in
  let exr := match exres with Some res => res | None => mkSR None None 0 nilS nilS false end in
  if (exfound : bool) then
    if (escaped : bool) then
      do u <- usedChars exr;
      do used' <- addS used u;
      do content' <- addS content u;
      ret (cs, inl (used', a_unused exr, content'))
    else ret (cs, inr (HExclude exr used content))
  else
    do (res, cs) <- rec cl (wrap cs (match exres with Some res => a_read res | None => unused end)) NOT_SKIP;
    match a_node res with
    | Some _ =>
      do u <- usedChars res;
      if (escaped : bool) then
        do used' <- addS used u;
        do content' <- addS content u;
        ret (cs, inl (used', a_unused res, content'))
      else
        do used' <- addS used content;
        do used'' <- addS used' u;
        ret (cs, inr (HClose res used'' (a_unused res) content))
    | None =>
      do content' <- addS content escChars;
      do c <- hPeek (wrap cs (a_unused res));
      if c =? EOFChar then
        do used' <- addS used content';
        ret (wrap cs (a_unused res), inr (HAtEOF used' (a_unused res)))
      else
        do (c', cs) <- hNext (wrap cs (a_unused res));
        do content'' <- addS content' escChars;
        do content''' <- add content'' [c'];
        ret (cs, inl (used, nilS, content'''))
    end.

Fixpoint hBlockLoop (rec : hevalT) (fuel : nat) (cl : rule) (esc : option rule) (excl : list rule)
  (cs : sstream) (used unused content : slice) : prog (sstream * hExit) :=
  match fuel with
  | O => endless
  | S fuel' =>
    do (cs', r) <- hBlockIter rec cl esc excl cs used unused content;
    match r with
    | inl (used', unused', content') => hBlockLoop rec fuel' cl esc excl cs' used' unused' content'
    | inr e => ret (cs', e)
    end
  end.

(** rule_block.go:60-201. *)
Definition hBlock (rec : hevalT) (fuel : nat) (b : rbase) (op : rule) (vclose : bool) (cl : rule)
  (esc : option rule) (excl : list rule) (s : sstream) (f : Z) : prog (sresult * sstream) :=
  let d := deep s in
  do (ores, s1) <- rec op s f;
  match a_node ores with
  | None => do i <- hCursor s1; ret (mkSR None (a_err ores) i (a_read ores) (a_unused ores) false, s1)
  | Some on =>
    do u0 <- usedChars ores;
    do used <- addS nilS u0;
    do (cpos, cs) <- hPosition (wrap s1 (a_unused ores));
    do (cs', e) <- hBlockLoop rec fuel cl esc excl cs used (a_unused ores) nilS;
    let s' := peel d cs' in
    match e with
    | HExclude xr used content =>
      do u <- usedChars xr;
      do uc <- look (fun h => cells h u);
      do i <- hCursor s';
      do rd <- addS used content;
      do rd' <- addS rd (a_read xr);
      ret (mkSR None (Some (EExclude uc)) i rd' rd' false, s')
    | HAtEOF used unused =>
      if descOk cl then
        do i <- hCursor s';
        do rd <- addS used unused;
        ret (mkSR None (Some (EBlockEOF cl)) i rd rd false, s')
      else panics
    | HClose cres used unused content =>
      let cnode := SNode TChars [] content [] cpos true false false false in
      let kids := on :: cnode :: (if vclose then [] else match a_node cres with Some n => [n] | None => [] end) in
      do rd <- addS used unused;
      ret (mkSR (Some (makeNode TBlock b nilS kids (m_pos on) false)) None 0 rd (if vclose then a_read cres else unused) false, s')
    end
  end.

(** rule_reference.go:26-48. *)
Definition hToggle (b : rbase) (n : snode) : snode :=
  SNode (m_type n) (m_name n) (m_chars n) (m_kids n) (m_pos n) (m_sticky n)
    (xorb (b_virtual b) (m_virtual n)) (xorb (b_nondata b) (m_nondata n)) (xorb (b_tokenized b) (m_tokenized n)).
Definition hSetNode (r : sresult) (n : option snode) : sresult :=
  mkSR n (a_err r) (a_idx r) (a_read r) (a_unused r) (a_sticky r).

(** The [Eval] methods, as [evalStep] and [eval] in Rule.v. *)
Definition hStep (g : rules_t) (rec : hevalT) (fuel : nat) (r : rule) (s : sstream) (f : Z) : prog (sresult * sstream) :=
  match r with
  | RChar b t _ => hChar b t s f
  | RChars b t => hChars b t s f
  | RString b t => hString b t s f
  | RRange b lo _ hi _ => hRange b lo hi s f
  | REOF b => hEOF b s f
  | RRef b n => (* rule_reference.go:17-50 *)
    match lookup g n with
    | None => ret (mkSR None (Some (EUndefined b n)) 0 nilS nilS false, s)
    | Some r' =>
      do (res, s') <- rec r' s f;
      ret (hSetNode res (option_map (hToggle b) (a_node res)), s')
    end
  | RGroup b x => (* rule_group.go:20-38 *)
    do (res, s') <- rec x s f;
    match a_node res with
    | None => ret (mkSR None (a_err res) (a_idx res) (a_read res) (a_read res) (a_sticky res), s')
    | Some n => ret (hSetNode res (Some (makeNode TGroup b nilS [n] None (a_sticky res))), s')
    end
  | ROption b x => (* rule_option.go:22-40 *)
    do (res, s') <- rec x s f;
    match a_node res with
    | None => ret (hSetNode res (Some (makeNode TOption b nilS [] None (a_sticky res))), s')
    | Some n => ret (hSetNode res (Some (makeNode TOption b nilS [n] (m_pos n) (a_sticky res))), s')
    end
  | RRep b x mn mx => hRep rec fuel b r x mn mx (deep s) s f nilS nilS true [] None
  | RChoice b gs => hChoice rec b r (deep s) gs s f nilS true None 0
  | RConcat b l => hConcat rec b r (deep s) l s f nilS nilS true [] None
  | RBlock b o v c e x => hBlock rec fuel b o v c e x s f
  end.
Fixpoint hEval (fuel : nat) (g : rules_t) (r : rule) (s : sstream) (f : Z) : prog (sresult * sstream) :=
  match fuel with
  | O => endless
  | S fuel' => hStep g (hEval fuel' g) fuel r s f
  end.

(** ** Drivers *)
(** charstream.go:273-279: [[]rune(input)] is a new array, with room or without. *)
Definition hNewStream (text : list Z) : prog sstream :=
  do c <- add nilS text; ret (mkSS [] c 0 [-1]).

(** grammar.go:289-299. *)
Definition hEvalRule (fuel : nat) (g : grammar) (name sample : list Z) : prog sresult :=
  match getRule g name with
  | None => ret (mkSR None (Some (EUndefined noBase name)) 0 nilS nilS false)
  | Some r => do cs <- hNewStream sample; do (res, _) <- hEval fuel (rules_of g) r cs SUGGEST_SKIP; ret res
  end.

Definition hTextNode (chars : slice) : snode := SNode TText [95] chars [] None false false false false.
(** grammar.go:261-285. *)
Fixpoint hEmbedLoop (loopFuel fuel : nat) (g : rules_t) (r : rule) (cs : sstream) (txt : slice) (kids : list snode)
  : prog (list snode) :=
  match loopFuel with
  | O => endless
  | S lf =>
    do (res, cs1) <- hEval fuel g r cs NOT_SKIP;
    let cs2 := wrap cs1 (a_unused res) in
    let flush := if (0 <? sl_len txt)%nat then hTextNode txt :: kids else kids in
    match a_node res with
    | None =>
      do (c, cs3) <- hNext cs2;
      if c =? EOFChar then ret (rev flush)
      else do txt' <- add txt [c]; hEmbedLoop lf fuel g r cs3 txt' kids
    | Some n => hEmbedLoop lf fuel g r cs2 nilS (n :: flush)
    end
  end.
(** grammar.go:248-287. *)
Definition hEvalEmbed (loopFuel fuel : nat) (g : grammar) (name sample : list Z) : option (prog snode) :=
  match getRule g name with
  | None => None
  | Some r =>
    Some (do cs <- hNewStream sample;
          do kids <- hEmbedLoop loopFuel fuel (rules_of g) r cs nilS [];
          ret (SNode TEmbed name nilS kids None false false false false))
  end.

Inductive hRawRes :=
| HRawOk (a : list snode)
| HRawEmpty
| HRawNoMatch (roots : list (list Z * rule)) (errors : list (list Z * eerr))
| HRawAmbiguity (r m : result)  (* grammar.go:380-382: strings *)
| HRawNoNode.
(** The order in which a map delivers its entries, as indexes. *)
Definition reorder {A} (p : list nat) (l : list A) : list A :=
  flat_map (fun i => match nth_error l i with Some x => [x] | None => [] end) p.
Record horders := mkHO {
  h_roots : nat -> list (list Z * rule);
  h_matched : nat -> list nat;
  h_errors : list (list Z * eerr) -> list (list Z * eerr);
  h_desc : list (list Z * rule) }.
Definition ordersOf (o : horders) : orders :=
  mkOrders (h_roots o) (fun k l => reorder (h_matched o k) l) (h_errors o) (h_desc o).

(** grammar.go:341-353. *)
Fixpoint hRoots (fuel : nat) (g : rules_t) (order : list (list Z * rule)) (cs : sstream) (f : Z)
  (maxRead : slice) (matched : list (list Z * sresult)) (errors : list (list Z * eerr))
  : prog (list (list Z * sresult) * list (list Z * eerr) * slice * sstream) :=
  match order with
  | [] => ret (rev matched, rev errors, maxRead, cs)
  | (n, r) :: order' =>
    do (res, cs1) <- hEval fuel g r (wrap cs maxRead) f;
    let maxRead' := if (sl_len maxRead <? sl_len (a_read res))%nat then a_read res else maxRead in
    hRoots fuel g order' cs1 f maxRead'
      (match a_node res with Some _ => (n, res) :: matched | None => matched end)
      (match a_err res with Some e => (n, e) :: errors | None => errors end)
  end.
(** grammar.go:375-388. *)
Fixpoint hRawSel (maxUsed : Z) (found : option sresult) (l : list sresult) : sresult * sresult + option sresult :=
  match l with
  | [] => inr found
  | r :: l' =>
    match found with
    | Some m =>
      if usedCount r =? maxUsed then inl (r, m)
      else if usedCount r >=? maxUsed then hRawSel (usedCount r) (Some r) l'
      else hRawSel maxUsed found l'
    | None =>
      if usedCount r >=? maxUsed then hRawSel (usedCount r) (Some r) l' else hRawSel maxUsed found l'
    end
  end.
Definition hRawSelect (l : list sresult) : sresult * sresult + option sresult :=
  match l with
  | [] => inr None
  | [r] => inr (Some r)
  | _ => hRawSel 0 None l
  end.
(** grammar.go:333-398. *)
Fixpoint hRawLoop (loopFuel fuel : nat) (g : rules_t) (o : horders) (round : nat) (s : sstream) (unused : slice)
  (f : Z) (nodes : list snode) : prog (hRawRes * sstream) :=
  match loopFuel with
  | O => endless
  | S lf =>
    let cs := wrap s unused in
    do c <- hPeek cs;
    if c =? EOFChar then ret (match nodes with [] => HRawNoNode | _ => HRawOk (rev nodes) end, s)
    else
      do (matched, errors, maxRead, cs1) <- hRoots fuel g (h_roots o round) cs f nilS [] [];
      let s1 := peel (deep s) cs1 in
      match hRawSelect (List.map snd (reorder (h_matched o round) matched)) with
      | inl (r, m) =>
        do r' <- look (fun h => resultIn h r);
        do m' <- look (fun h => resultIn h m);
        ret (HRawAmbiguity r' m', s1)
      | inr None => ret (HRawNoMatch (h_desc o) (h_errors o errors), s1)
      | inr (Some res) =>
        match a_node res with
        | None => panics
        | Some n =>
          do unused' <- from maxRead (usedCount res);
          hRawLoop lf fuel g o (S round) s1 unused' (if a_sticky res then SUGGEST_NOT_SKIP else SUGGEST_SKIP) (n :: nodes)
        end
      end
  end.
(** grammar.go:325-403. *)
Definition hEvalRaw (loopFuel fuel : nat) (g : rules_t) (o : horders) (s : sstream) : prog (hRawRes * sstream) :=
  do c <- hPeek s;
  if c =? EOFChar then ret (HRawEmpty, s)
  else hRawLoop loopFuel fuel g o 0 s nilS SUGGEST_SKIP [].
End Alloc.
Definition rawIn (h : heap) (r : hRawRes) : rawRes :=
  match r with
  | HRawOk a => RawOk (List.map (nodeIn h) a)
  | HRawEmpty => RawEmpty
  | HRawNoMatch roots errors => RawNoMatch roots errors
  | HRawAmbiguity r m => RawAmbiguity r m
  | HRawNoNode => RawNoNode
  end.
