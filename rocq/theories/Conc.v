(** Goroutines sharing one CharstreamString (charstream.go:281-414).

    Every method holds [lock] (a sync.RWMutex) from its first statement to its
    return: Next, SkipSpaces and Match the write lock (lines 332-333, 371-372,
    395-396), Position, PositionLookup, Cursor and Peek the read lock (lines
    290-291, 310-311, 325-326, 356-357).  The bodies are cut into small steps
    that read or write the shared fields; steps of different goroutines
    interleave in any order the lock allows.  Memory is sequentially consistent.
    The lock grants requests in any order (Go's lock prefers waiting writers, so
    it allows fewer schedules). *)
From Verif Require Import Base Stream SpecStream.

(** Program counter of a goroutine. *)
Inductive pc :=
| Idle                                   (* between calls *)
| Next0                                  (* lines 340-345: test and read *)
| Next1 (idx : nat) (c : Z)              (* line 349 *)
| Next2 (idx : nat) (c : Z)              (* line 350 *)
| Skip0 (beg : nat)                      (* lines 375-381: the loop *)
| Skip1 (beg : nat)                      (* lines 383-389 *)
| Match0 (w acc inp : list Z)            (* lines 402-411: the loop *)
| Peek0                                  (* lines 359-364: read the cursor *)
| Peek1 (idx : nat)                      (* line 365 *)
| Lookup0 (i : Z)                        (* lines 313-319 *)
| Lookup1 (i : Z)                        (* line 321 *)
| Cursor0                                (* line 328 *)
| Pos0                                   (* lines 293-301 *)
| Pos1 (idx : nat) (c : Z)               (* line 303 into update, the test of line 69 *)
| Pos2 (idx : nat) (c : Z)               (* lines 72 and 75: store the last entry *)
| Pos3 (idx : nat)                       (* line 73: append *)
| Pos4 (idx : nat)                       (* line 305 *)
| WOut (c : call) (o : obs)              (* about to Unlock and return *)
| ROut (c : call) (o : obs).             (* about to RUnlock and return *)

Record thread := mkThread { t_pc : pc; t_prog : list call }.

(** A finished call: goroutine, call, answer; in the order of the unlocks. *)
Definition entry := (nat * call * obs)%type.

Record config := mkConf {
  c_sh : cstr; c_writer : bool; c_readers : nat; c_threads : list thread; c_log : list entry }.

Definition init (text : list Z) (progs : list (list call)) : config :=
  mkConf (newCstr text) false 0 (List.map (mkThread Idle) progs) [].

Fixpoint upd {A} (l : list A) (i : nat) (x : A) : list A :=
  match l, i with
  | [], _ => []
  | _ :: l', O => x :: l'
  | y :: l', S i' => y :: upd l' i' x
  end.

(** First program counter of a call, and whether it takes the write lock. *)
Definition entryPc (sh : cstr) (c : call) : pc :=
  match c with
  | CNext => Next0
  | CPeek => Peek0
  | CSkip => Skip0 (cs_cur sh)
  | CMatch w => Match0 w [] w
  | CPos => Pos0
  | CLookup i => Lookup0 i
  | CCursor => Cursor0
  end.
Definition writes (c : call) : bool :=
  match c with CNext | CSkip | CMatch _ => true | _ => false end.

Definition set_cur (b : cstr) (k : nat) : cstr := mkCstr (cs_chars b) k (cs_lines b).
Definition set_lines (b : cstr) (l : list Z) : cstr := mkCstr (cs_chars b) (cs_cur b) l.

(** One step inside a method: new shared state and new program counter. *)
Definition inner (sh : cstr) (p : pc) : cstr * pc :=
  match p with
  | Next0 =>
    match nth_error (cs_chars sh) (cs_cur sh) with
    | None => (sh, WOut CNext (ORune EOFChar))
    | Some c => (sh, Next1 (cs_cur sh) c)
    end
  | Next1 idx c => (set_cur sh (S (cs_cur sh)), Next2 idx c)
  | Next2 idx c => (set_lines sh (pm_update (cs_lines sh) (Z.of_nat idx) [c]), WOut CNext (ORune c))
  | Skip0 beg =>
    match nth_error (cs_chars sh) (cs_cur sh) with
    | Some c => if isWS c then (set_cur sh (S (cs_cur sh)), Skip0 beg) else (sh, Skip1 beg)
    | None => (sh, Skip1 beg)
    end
  | Skip1 beg =>
    let sp := firstn (cs_cur sh - beg) (skipn beg (cs_chars sh)) in
    match sp with
    | [] => (sh, WOut CSkip (ORunes []))
    | _ => (set_lines sh (pm_update (cs_lines sh) (Z.of_nat beg) sp), WOut CSkip (ORunes sp))
    end
  | Match0 w acc [] => (sh, WOut (CMatch w) (OMatch acc true))
  | Match0 w acc (x :: inp) =>
    let '(c, sh') := b_next sh in
    if c =? EOFChar then (sh', WOut (CMatch w) (OMatch acc false))
    else if negb (c =? x) then (sh', WOut (CMatch w) (OMatch (acc ++ [c]) false))
    else (sh', Match0 w (acc ++ [c]) inp)
  | Peek0 => (sh, Peek1 (cs_cur sh))
  | Peek1 idx =>
    (sh, ROut CPeek (ORune (match nth_error (cs_chars sh) idx with None => EOFChar | Some c => c end)))
  | Lookup0 i =>
    if i =? 0 then (sh, ROut (CLookup i) (OPos (Some (1, 1))))
    else if (i >=? Z.of_nat (cs_cur sh)) || (i >=? Z.of_nat (length (cs_chars sh)))
    then (sh, ROut (CLookup i) (OPos None))
    else (sh, Lookup1 i)
  | Lookup1 i => (sh, ROut (CLookup i) (OPos (pm_lookup (cs_lines sh) i)))
  | Cursor0 => (sh, ROut CCursor (ONum (Z.of_nat (cs_cur sh))))
  | Pos0 =>
    match nth_error (cs_chars sh) (cs_cur sh) with
    | None => (sh, ROut CPos (OPos None))
    | Some c => if (cs_cur sh =? 0)%nat then (sh, ROut CPos (OPos (Some (1, 1)))) else (sh, Pos1 (cs_cur sh) c)
    end
  | Pos1 idx c =>
    if Z.of_nat idx >? last (cs_lines sh) (-1) then (sh, Pos2 idx c) else (sh, Pos4 idx)
  | Pos2 idx c =>
    (set_lines sh (removelast (cs_lines sh) ++ [Z.of_nat idx]), if c =? 10 then Pos3 idx else Pos4 idx)
  | Pos3 idx => (set_lines sh (cs_lines sh ++ [Z.of_nat idx]), Pos4 idx)
  | Pos4 idx => (sh, ROut CPos (OPos (pm_lookup (cs_lines sh) (Z.of_nat idx))))
  | Idle | WOut _ _ | ROut _ _ => (sh, p)
  end.

(** One step of goroutine [i]; [None] when it is blocked or finished. *)
Definition stepT (i : nat) (cf : config) : option config :=
  match nth_error (c_threads cf) i with
  | None => None
  | Some (mkThread p prog) =>
    match p with
    | Idle =>
      match prog with
      | [] => None
      | c :: prog' =>
        let th := upd (c_threads cf) i (mkThread (entryPc (c_sh cf) c) prog') in
        if writes c then
          if c_writer cf || negb (c_readers cf =? 0)%nat then None
          else Some (mkConf (c_sh cf) true (c_readers cf) th (c_log cf))
        else
          if c_writer cf then None
          else Some (mkConf (c_sh cf) false (S (c_readers cf)) th (c_log cf))
      end
    | WOut c o =>
      Some (mkConf (c_sh cf) false (c_readers cf) (upd (c_threads cf) i (mkThread Idle prog))
              (c_log cf ++ [(i, c, o)]))
    | ROut c o =>
      Some (mkConf (c_sh cf) (c_writer cf) (pred (c_readers cf)) (upd (c_threads cf) i (mkThread Idle prog))
              (c_log cf ++ [(i, c, o)]))
    | _ =>
      let '(sh, p') := inner (c_sh cf) p in
      Some (mkConf sh (c_writer cf) (c_readers cf) (upd (c_threads cf) i (mkThread p' prog)) (c_log cf))
    end
  end.

(** Configurations reachable under some schedule. *)
Inductive reach (cf0 : config) : config -> Prop :=
| reach_refl : reach cf0 cf0
| reach_step : forall cf i cf', reach cf0 cf -> stepT i cf = Some cf' -> reach cf0 cf'.

Fixpoint exec (sched : list nat) (cf : config) : option config :=
  match sched with
  | [] => Some cf
  | i :: sched' => match stepT i cf with None => None | Some cf' => exec sched' cf' end
  end.

Definition e_call (e : entry) : call := snd (fst e).
Definition e_obs (e : entry) : obs := snd e.
Definition e_tid (e : entry) : nat := fst (fst e).
Definition calls (l : list entry) : list call := List.map e_call l.
Definition answers (l : list entry) : list obs := List.map e_obs l.
Definition finished (cf : config) : Prop := Forall (fun t => t = mkThread Idle []) (c_threads cf).
