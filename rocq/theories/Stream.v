(** Model of charstream.go. *)
From Verif Require Import Base.

(** charstream.go:15-18 [Position]; [nil] is [None].  (Line, Col). *)
Definition position := (Z * Z)%type.

(* ------------------------------------------------------------------ *)
(** ** positionMap (charstream.go:58-138) *)

(** charstream.go:69-77: body of the loop in [update] for one char. *)
Definition pm_step (lines : list Z) (idx : Z) (c : Z) : list Z :=
  if idx >? last lines (-1) then
    if c =? 10 then removelast lines ++ [idx; idx]
    else removelast lines ++ [idx]
  else lines.

Fixpoint pm_steps (lines : list Z) (idx : Z) (chars : list Z) : list Z :=
  match chars with
  | [] => lines
  | c :: cs => pm_steps (pm_step lines idx c) (idx + 1) cs
  end.

(** charstream.go:64-80 [update]. *)
Definition pm_update (lines : list Z) (idx : Z) (chars : list Z) : list Z :=
  pm_steps (match lines with [] => [-1] | _ => lines end) idx chars.

Definition znth (lines : list Z) (i : nat) : Z := nth i lines 0.

(** charstream.go:108-116: reverse linear lookup; 0 when nothing is found. *)
Fixpoint pm_find (lines : list Z) (idx : Z) (i : nat) : nat :=
  if idx >=? znth lines i then i
  else match i with O => O | S j => pm_find lines idx j end.

(** charstream.go:82-138 [lookup].  The indexes used are always in range
    ([lineIdx <= maxLineIdx < len], and [lineIdx-1] only when [lineIdx > 0]). *)
Definition pm_lookup (lines : list Z) (idx : Z) : option position :=
  if idx <? 0 then None
  else match lines with
  | [] => Some (1, 1)
  | _ =>
    let maxLineIdx := (length lines - 1)%nat in
    if idx >? znth lines maxLineIdx then None
    else if (maxLineIdx =? 0)%nat then Some (1, idx + 1)
    else
      let maxLineIdx' :=
        if znth lines maxLineIdx =? znth lines (maxLineIdx - 1) then (maxLineIdx - 1)%nat
        else maxLineIdx in
      let lineIdx := pm_find lines idx maxLineIdx' in
      if idx =? znth lines lineIdx then
        Some (Z.of_nat lineIdx + 1,
              if (0 <? lineIdx)%nat then idx - znth lines (lineIdx - 1) else idx + 1)
      else
        Some (Z.of_nat (lineIdx + 1) + 1, idx - znth lines lineIdx)
  end.

(* ------------------------------------------------------------------ *)
(** ** CharstreamString (charstream.go:273-414) *)

(** charstream.go:282-287.  The lock is modelled in Conc.v only. *)
Record cstr := mkCstr { cs_chars : list Z; cs_cur : nat; cs_lines : list Z }.

(** charstream.go:273-279 [NewCharstreamFromString]. *)
Definition newCstr (text : list Z) : cstr := mkCstr text 0 [-1].

(** charstream.go:339-353 [next]. *)
Definition b_next (b : cstr) : Z * cstr :=
  match nth_error (cs_chars b) (cs_cur b) with
  | None => (EOFChar, b)
  | Some c => (c, mkCstr (cs_chars b) (S (cs_cur b))
                   (pm_update (cs_lines b) (Z.of_nat (cs_cur b)) [c]))
  end.

(** charstream.go:355-366 [Peek]. *)
Definition b_peek (b : cstr) : Z :=
  match nth_error (cs_chars b) (cs_cur b) with None => EOFChar | Some c => c end.

Fixpoint ws_prefix (l : list Z) : list Z :=
  match l with
  | c :: l' => if isWS c then c :: ws_prefix l' else []
  | [] => []
  end.

(** charstream.go:370-390 [SkipSpaces]; the cursor loop of lines 375-381 is
    [ws_prefix] of the rest. *)
Definition b_skip (b : cstr) : list Z * cstr :=
  let sp := ws_prefix (skipn (cs_cur b) (cs_chars b)) in
  match sp with
  | [] => ([], b)
  | _ => (sp, mkCstr (cs_chars b) (cs_cur b + length sp)
                (pm_update (cs_lines b) (Z.of_nat (cs_cur b)) sp))
  end.

(** charstream.go:289-306 [Position]: note that it updates the line table. *)
Definition b_position (b : cstr) : option position * cstr :=
  match nth_error (cs_chars b) (cs_cur b) with
  | None => (None, b)
  | Some c =>
    if (cs_cur b =? 0)%nat then (Some (1, 1), b)
    else
      let lines' := pm_update (cs_lines b) (Z.of_nat (cs_cur b)) [c] in
      (pm_lookup lines' (Z.of_nat (cs_cur b)), mkCstr (cs_chars b) (cs_cur b) lines')
  end.

(** charstream.go:309-322 [PositionLookup]. *)
Definition b_lookup (b : cstr) (idx : Z) : option position :=
  if idx =? 0 then Some (1, 1)
  else if (idx >=? Z.of_nat (cs_cur b)) || (idx >=? Z.of_nat (length (cs_chars b))) then None
  else pm_lookup (cs_lines b) idx.

(** charstream.go:324-329 [Cursor]. *)
Definition b_cursor (b : cstr) : Z := Z.of_nat (cs_cur b).

(* ------------------------------------------------------------------ *)
(** ** Streams: prepend layers over a string stream (charstream.go:416-526) *)

(** A layer is the [prepend] slice and [cursor] of a CharstreamPrepend
    (charstream.go:432-437).  The outermost wrapper is the head of the list. *)
Record stream := mkStream { layers : list (list Z * nat); sbase : cstr }.

Definition newStream (text : list Z) : stream := mkStream [] (newCstr text).

(** charstream.go:417-429 [newCharstreamPrepend].  (The nil base of line 424
    never occurs: every caller passes a stream.) *)
Definition prepend (s : stream) (p : list Z) : stream :=
  match p with [] => s | _ => mkStream ((p, O) :: layers s) (sbase s) end.

(** Pop local wrappers until [n] layers are left: the state of the object with
    [n] layers that the wrappers were put on. *)
Definition unwrap (n : nat) (s : stream) : stream :=
  mkStream (skipn (length (layers s) - n) (layers s)) (sbase s).
Definition depth (s : stream) : nat := length (layers s).

(** charstream.go:439-452, 331-336 [Next]. *)
Fixpoint next_l (ls : list (list Z * nat)) (b : cstr) : Z * (list (list Z * nat) * cstr) :=
  match ls with
  | [] => let '(c, b') := b_next b in (c, ([], b'))
  | (p, k) :: ls' =>
    match nth_error p k with
    | Some c => (c, ((p, S k) :: ls', b))
    | None => let '(c, (ls'', b')) := next_l ls' b in (c, ((p, k) :: ls'', b'))
    end
  end.
Definition next (s : stream) : Z * stream :=
  let '(c, (ls, b)) := next_l (layers s) (sbase s) in (c, mkStream ls b).

(** charstream.go:454-468 [Peek]/[peek], 355-366. *)
Fixpoint peek_l (ls : list (list Z * nat)) (b : cstr) : Z :=
  match ls with
  | [] => b_peek b
  | (p, k) :: ls' => match nth_error p k with Some c => c | None => peek_l ls' b end
  end.
Definition peek (s : stream) : Z := peek_l (layers s) (sbase s).

(** The text still to come out of a stream (used only as a loop bound here and
    in specifications). *)
Fixpoint rest_l (ls : list (list Z * nat)) (b : cstr) : list Z :=
  match ls with
  | [] => skipn (cs_cur b) (cs_chars b)
  | (p, k) :: ls' => skipn k p ++ rest_l ls' b
  end.
Definition rest (s : stream) : list Z := rest_l (layers s) (sbase s).

(** charstream.go:470-486 [SkipSpaces] of a prepend stream: the [for] loop. The
    first argument bounds the number of iterations by the number of runes left;
    the loop consumes one rune per iteration, so the bound is never the reason
    for stopping (theorem [skip_spec]). *)
Fixpoint p_skip (n : nat) (s : stream) : list Z * stream :=
  match n with
  | O => ([], s)
  | S n' =>
    let c := peek s in
    if c =? EOFChar then ([], s)
    else if negb (isWS c) then ([], s)
    else let '(c', s') := next s in
         let '(r, s'') := p_skip n' s' in (c' :: r, s'')
  end.

Definition skipSpaces (s : stream) : list Z * stream :=
  match layers s with
  | [] => let '(r, b') := b_skip (sbase s) in (r, mkStream [] b')
  | _ => p_skip (length (rest s)) s
  end.

(** charstream.go:394-414 and 488-506 [Match] (identical code for both). *)
Fixpoint match_l (s : stream) (input : list Z) : list Z * bool * stream :=
  match input with
  | [] => ([], true, s)
  | i :: input' =>
    let '(c, s') := next s in
    if c =? EOFChar then ([], false, s')
    else if negb (c =? i) then ([c], false, s')
    else let '(r, ok, s'') := match_l s' input' in (c :: r, ok, s'')
  end.
Definition matchRunes (s : stream) (input : list Z) : list Z * bool * stream := match_l s input.

(** charstream.go:521-526, 324-329 [Cursor]. *)
Fixpoint cursor_l (ls : list (list Z * nat)) (b : cstr) : Z :=
  match ls with
  | [] => b_cursor b
  | (p, k) :: ls' => cursor_l ls' b - Z.of_nat (length p) + Z.of_nat k
  end.
Definition cursor (s : stream) : Z := cursor_l (layers s) (sbase s).

(** charstream.go:517-519 [PositionLookup] of a prepend stream goes straight to
    the base. *)
Definition positionLookup (s : stream) (idx : Z) : option position := b_lookup (sbase s) idx.

(** charstream.go:508-514 [Position]. *)
Fixpoint position_l (ls : list (list Z * nat)) (b : cstr) : option position * cstr :=
  match ls with
  | [] => b_position b
  | (p, k) :: ls' =>
    if (length p <=? k)%nat then position_l ls' b
    else (b_lookup b (cursor_l ls' b - Z.of_nat (length p) + Z.of_nat k), b)
  end.
Definition positionOf (s : stream) : option position * stream :=
  let '(r, b) := position_l (layers s) (sbase s) in (r, mkStream (layers s) b).
