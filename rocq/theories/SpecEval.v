(** The meaning of a rule on a text, without streams.

    [sem fuel g r f t] evaluates rule [r] on the text [t] by going back and forth
    in [t] with plain positions: [p] is where the next element starts (the runes
    used so far), [m] is how far the text has been looked at.  A concatenation
    matches its elements one after the other, a repetition iterates greedily, a
    choice takes the longest match of the first group that has one, a block scans
    to the first close.

    Where the bookkeeping of the Go code is known to go wrong, the answer is
    [SUnsafe], which claims nothing:
    - a step of a concatenation or repetition that looks at fewer runes than are
      pending from the steps before it (rule_concatenate.go:52-62);
    - an ambiguity inside an option or a repetition (rule_choice.go:101);
    - alternatives that tie before a longer one is met (rule_choice.go:84-104);
    - blocks: a matched escape, look-ahead of the open rule without an escape
      rule, of the escape rule without an exclude rule, or beyond the close
      (rule_block.go:98-187). *)
From Verif Require Import Base Stream Node Rule SpecRule TermFacts.

Inductive sres :=
| Match (tree : node) (used read : nat) (sticky : bool)
| Fail (read : nat) (sticky : bool)
| Amb (read : nat).

Inductive sout (A : Type) := SOk (a : A) | SUnsafe | SFuel.
Arguments SOk {A} a.
Arguments SUnsafe {A}.
Arguments SFuel {A}.
Definition sbind {A B} (m : sout A) (k : A -> sout B) : sout B :=
  match m with SOk a => k a | SUnsafe => SUnsafe | SFuel => SFuel end.
Notation "'let!' x := m 'in' k" := (sbind m (fun x => k))
  (at level 200, x pattern, m at level 100, k at level 200).

(** A tree without positions. *)
Fixpoint erase (n : node) : node :=
  Node (n_type n) (n_name n) (n_chars n) (List.map erase (n_kids n)) None (n_sticky n)
    (n_virtual n) (n_nondata n) (n_tokenized n).

Definition tree (ty : rtype) (b : rbase) (kids : list node) (sticky : bool) : node := build ty b [] kids None sticky.

(** Terminals (C09, C10). *)
Definition ofT (ty : rtype) (b : rbase) (sticky : bool) (x : tres) : sres :=
  match x with
  | (Some cs, rd, un) => Match (build ty b cs [] None sticky) (length rd - length un) (length rd) sticky
  | (None, rd, _) => Fail (length rd) sticky
  end.

Definition semT := rule -> Z -> list Z -> sout sres.

Definition isLast {A} (l : list A) : bool := match l with [] => true | _ => false end.

(** The element looked at [k] runes and used [u] while [m - p] were pending. *)
Definition safe (last : bool) (p m u k : nat) : bool :=
  (m - p <=? k)%nat || (last && (2 * u <=? m - p)%nat).

Fixpoint semSeq (rec : semT) (b : rbase) (rules : list rule) (t : list Z) (f : Z) (p m : nat)
  (sticky : bool) (kids : list node) : sout sres :=
  match rules with
  | [] => SOk (Match (tree TConcat b (rev kids) sticky) p m sticky)
  | r :: rules' =>
    let! x := rec r f (skipn p t) in
    match x with
    | Match n u k st =>
      if safe (isLast rules') p m u k
      then semSeq rec b rules' t (nextMode f n st) (p + u) (Nat.max m (p + k)) (sticky && st) (n :: kids)
      else SUnsafe
    | Fail k st => SOk (Fail (Nat.max m (p + k)) (sticky && st))
    | Amb k => SOk (Fail (Nat.max m (p + k)) false)
    end
  end.

Definition repEnd (b : rbase) (mn : Z) (kids : list node) (p m : nat) (sticky : bool) : sres :=
  if Z.of_nat (length kids) <? mn then Fail m sticky
  else Match (tree TRepetition b (rev kids) sticky) p m sticky.

Fixpoint semRep (rec : semT) (fuel : nat) (b : rbase) (r : rule) (mn mx : Z) (t : list Z) (f : Z) (p m : nat)
  (sticky : bool) (kids : list node) : sout sres :=
  match fuel with
  | O => SFuel
  | S fuel' =>
    match skipn p t with
    | [] => SOk (repEnd b mn kids p m sticky)
    | _ =>
      let! x := rec r f (skipn p t) in
      match x with
      | Match n u k st =>
        let full := (mx >? 0) && (Z.of_nat (S (length kids)) =? mx) in
        if safe full p m u k then
          if full then SOk (repEnd b mn (n :: kids) (p + u) (Nat.max m (p + k)) (sticky && st))
          else semRep rec fuel' b r mn mx t f (p + u) (Nat.max m (p + k)) (sticky && st) (n :: kids)
        else SUnsafe
      | Fail k st => SOk (repEnd b mn kids p (Nat.max m (p + k)) (sticky && st))
      | Amb _ => SUnsafe
      end
    end
  end.

(** The alternatives of a group, all on the same text: the matches (tree, runes
    used), how far the text has been looked at, stickiness. *)
Fixpoint semAlts (rec : semT) (rules : list rule) (t : list Z) (f : Z) (m : nat) (sticky : bool)
  (matched : list (node * nat)) : sout (list (node * nat) * nat * bool) :=
  match rules with
  | [] => SOk (rev matched, m, sticky)
  | r :: rules' =>
    let! x := rec r f t in
    match x with
    | Match n u k st => semAlts rec rules' t f (Nat.max m k) (sticky && st) ((n, u) :: matched)
    | Fail k st => semAlts rec rules' t f (Nat.max m k) (sticky && st) matched
    | Amb k => semAlts rec rules' t f (Nat.max m k) false matched
    end
  end.

Inductive picked := PNone | POne (n : node) (u : nat) | PTie | PEarly.

(** Two alternatives tie for the longest among those up to the second. *)
Fixpoint earlyTie (best : option nat) (l : list (node * nat)) : bool :=
  match l with
  | [] => false
  | (_, u) :: l' =>
    match best with
    | None => earlyTie (Some u) l'
    | Some v => if (u <? v)%nat then earlyTie best l' else if (u =? v)%nat then true else earlyTie (Some u) l'
    end
  end.

Definition longest (l : list (node * nat)) : nat := fold_right (fun x m => Nat.max (snd x) m) 0%nat l.

(** The strictly longest. *)
Definition pick (l : list (node * nat)) : picked :=
  match List.filter (fun x => (snd x =? longest l)%nat) l with
  | [] => PNone
  | [(n, u)] => if earlyTie None l then PEarly else POne n u
  | _ => PTie
  end.

Fixpoint semChoice (rec : semT) (b : rbase) (groups : list (list rule)) (t : list Z) (f : Z) (m : nat) (sticky : bool)
  : sout sres :=
  match groups with
  | [] => SOk (Fail m sticky)
  | grp :: groups' =>
    let! (matched, m', sticky') := semAlts rec grp t f m sticky [] in
    match pick matched with
    | PNone => semChoice rec b groups' t f m' sticky'
    | POne n u => SOk (Match (tree TChoice b [n] sticky') u m' sticky')
    | PTie => SOk (Amb m')
    | PEarly => SUnsafe
    end
  end.

(** The content of a block from position [p] on; the open rule used [u0] runes. *)
Fixpoint semScan (rec : semT) (fuel : nat) (b : rbase) (on : node) (u0 : nat) (vclose : bool) (cl : rule)
  (esc : option rule) (excl : list rule) (t : list Z) (p m : nat) : sout sres :=
  match fuel with
  | O => SFuel
  | S fuel' =>
    let here := skipn p t in
    let! m1 :=
      match esc with
      | None => SOk m
      | Some e =>
        let! x := rec e NOT_SKIP here in
        match x with
        | Match _ _ _ _ => SUnsafe
        | Fail k _ | Amb k => if isLast excl && negb (k =? 0)%nat then SUnsafe else SOk (Nat.max m (p + k))
        end
      end in
    let! (found, m2) :=
      match excl with
      | [] => SOk (false, m1)
      | _ =>
        let! (matched, k, _) := semAlts rec excl here NOT_SKIP 0 true [] in
        match pick matched with
        | PNone => SOk (false, Nat.max m1 (p + k))
        | POne _ _ => if (m1 <=? p + k)%nat then SOk (true, p + k)%nat else SUnsafe
        | _ => SUnsafe
        end
      end in
    if found then SOk (Fail m2 false)
    else
      let! x := rec cl NOT_SKIP here in
      match x with
      | Match nc u k _ =>
        if (m2 <=? p + k)%nat then
          let content := Node TChars [] (firstn (p - u0) (skipn u0 t)) [] None true false false false in
          SOk (Match (tree TBlock b (on :: content :: (if vclose then [] else [nc])) false)
                 (if vclose then p else p + u) (p + k) false)
        else SUnsafe
      | Fail k _ =>
        match here with
        | [] => SOk (Fail (length t) false)
        | _ => semScan rec fuel' b on u0 vclose cl esc excl t (S p) (Nat.max (Nat.max m2 (p + k)) (S p))
        end
      | Amb _ => SUnsafe
      end
  end.

Definition semBlock (rec : semT) (fuel : nat) (b : rbase) (op : rule) (vclose : bool) (cl : rule)
  (esc : option rule) (excl : list rule) (t : list Z) (f : Z) : sout sres :=
  let! x := rec op f t in
  match x with
  | Match on u k _ =>
    if match esc with None => (k =? u)%nat | Some _ => true end
    then semScan rec fuel b on u vclose cl esc excl t u k
    else SUnsafe
  | Fail k _ => SOk (Fail k false)
  | Amb k => SOk (Amb k)
  end.

Definition semStep (g : rules_t) (rec : semT) (fuel : nat) (r : rule) (f : Z) (t : list Z) : sout sres :=
  match r with
  | RChar b c _ => SOk (ofT TChar b true (tchar c f t))
  | RChars b l => SOk (ofT TChars b true (tlit (skips f false) l t))
  | RString b l => SOk (ofT TString b false (tlit (skips f true) l t))
  | RRange b lo _ hi _ => SOk (ofT TChars b true (trange lo hi f t))
  | REOF b => SOk (ofT TEOF (mkBase nameEOF (b_virtual b) (b_nondata b) (b_tokenized b)) true (teof f t))
  | RRef b n =>
    match lookup g n with
    | None => SOk (Fail 0 false)
    | Some r' =>
      let! x := rec r' f t in
      SOk (match x with Match nd u k st => Match (flip b nd) u k st | _ => x end)
    end
  | RGroup b r' =>
    let! x := rec r' f t in
    SOk (match x with
         | Match n u k st => Match (tree TGroup b [n] st) u k st
         | Fail k st => Fail k st
         | Amb k => Fail k false
         end)
  | ROption b r' =>
    let! x := rec r' f t in
    match x with
    | Match n u k st => SOk (Match (tree TOption b [n] st) u k st)
    | Fail k st => SOk (Match (tree TOption b [] st) 0 k st)
    | Amb _ => SUnsafe
    end
  | RRep b x mn mx => semRep rec fuel b x mn mx t f 0 0 true []
  | RChoice b gs => semChoice rec b gs t f 0 true
  | RConcat b l => semSeq rec b l t f 0 0 true []
  | RBlock b o v c e xs => semBlock rec fuel b o v c e xs t f
  end.

Fixpoint sem (fuel : nat) (g : rules_t) (r : rule) (f : Z) (t : list Z) : sout sres :=
  match fuel with
  | O => SFuel
  | S fuel' => semStep g (sem fuel' g) fuel r f t
  end.
