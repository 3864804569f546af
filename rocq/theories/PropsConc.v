(** C07, C08: goroutines sharing one string stream. *)
From Verif Require Import Base Stream SpecStream Conc ConcFacts.

(* ---------------- C07 ---------------- *)

(** The log lists the finished calls in delivery order, each with the goroutine
    that made it; whatever the schedule, the runes in it are the text, then EOFs. *)
Theorem C07_concurrent_next_delivers_text : forall text progs cf, runesOk text ->
  Forall (Forall (fun c => c = CNext)) progs -> reach (init text progs) cf ->
  answers (c_log cf) =
  List.map ORune (firstn (length (c_log cf)) text) ++ repeat (ORune EOFChar) (length (c_log cf) - length text).
Proof. exact concurrent_next. Qed.
Print Assumptions C07_concurrent_next_delivers_text.

(** More generally, any mixture of calls other than Position answers as if the
    calls had been made one after the other in the order of the log. *)
Theorem C07_linearizable : forall text progs cf, Forall (Forall noPosC) progs -> reach (init text progs) cf ->
  answers (c_log cf) = fst (run (calls (c_log cf)) (newStream text)).
Proof. exact linearizable. Qed.
Print Assumptions C07_linearizable.

Theorem C07_program_order : forall text progs cf, reach (init text progs) cf ->
  forall i prog, nth_error progs i = Some prog -> exists t, nth_error (c_threads cf) i = Some t /\
  prog = calls (ofThread i (c_log cf)) ++ inFlight (t_pc t) ++ t_prog t.
Proof. exact program_order. Qed.
Print Assumptions C07_program_order.

Theorem C07_no_deadlock : forall text progs cf, reach (init text progs) cf ->
  finished cf \/ exists i cf', stepT i cf = Some cf'.
Proof. exact no_deadlock. Qed.
Print Assumptions C07_no_deadlock.

Lemma exec_reach cf0 sched : forall cf cf', reach cf0 cf -> exec sched cf = Some cf' -> reach cf0 cf'.
Proof.
  induction sched as [|i sched IH]; intros cf cf' R H; cbn in H; [congruence|].
  destruct (stepT i cf) as [cf1|] eqn:E; [|discriminate]. eapply IH; [|exact H]. eapply reach_step; eauto.
Qed.

(** Two goroutines, alternating. *)
Definition demo : option config :=
  exec [0; 0; 0; 0; 0; 1; 1; 1; 1; 1; 0; 0; 0; 0; 0; 1; 1; 1]%nat
    (init (rs "abc") [[CNext; CNext]; [CNext; CNext]]).
Example C07_example : option_map c_log demo =
  Some [(0%nat, CNext, ORune 97); (1%nat, CNext, ORune 98); (0%nat, CNext, ORune 99); (1%nat, CNext, ORune (-1))].
Proof. vm_compute. reflexivity. Qed.

(* ---------------- C08 ---------------- *)

(** Full claim: whenever all goroutines are between calls, the Position answered
    last is the line and column of the rune behind the runes delivered before. *)
Definition C08_claim : Prop := forall text progs cf l i o, runesOk text ->
  reach (init text progs) cf -> Forall (fun t => t_pc t = Idle) (c_threads cf) ->
  c_log cf = l ++ [(i, CPos, o)] ->
  let n := length (delivered (calls l) (answers l)) in
  o = OPos (match skipn n text with [] => None | _ => Some (lineCol (firstn n text)) end).

(** Two goroutines ask for the Position of a newline at the same time: both pass
    the test of charstream.go:69 before either stores, the newline is recorded
    twice and every later line number is one too high. *)
Definition race : list nat :=
  [0; 0; 0; 0; 0;  1; 1; 1;  2; 2; 2;  1; 1; 1; 1;  2; 2; 2; 2;  0; 0; 0; 0; 0;  0; 0; 0; 0; 0; 0]%nat.
Definition raceStart : config :=
  init (rs "a" ++ [10] ++ rs "bc") [[CNext; CNext; CPos]; [CPos]; [CPos]].

Example race_result : option_map c_log (exec race raceStart) =
  Some [(0%nat, CNext, ORune 97); (1%nat, CPos, OPos (Some (1, 2))); (2%nat, CPos, OPos (Some (2, 0)));
        (0%nat, CNext, ORune 10); (0%nat, CPos, OPos (Some (3, 1)))].
Proof. vm_compute. reflexivity. Qed.

Theorem C08_concurrent_position_refuted : ~ C08_claim.
Proof.
  intros H. destruct (exec race raceStart) as [cf|] eqn:E; [|vm_compute in E; discriminate].
  assert (R : reach raceStart cf) by (eapply exec_reach; [apply reach_refl|exact E]).
  assert (F : Forall (fun t => t_pc t = Idle) (c_threads cf)).
  { vm_compute in E. injection E as <-. repeat constructor. }
  assert (RO : runesOk (rs "a" ++ [10] ++ rs "bc")) by (repeat constructor; discriminate).
  assert (L : c_log cf = removelast (c_log cf) ++ [(0%nat, CPos, OPos (Some (3, 1)))]).
  { vm_compute in E. injection E as <-. reflexivity. }
  specialize (H _ _ cf _ _ _ RO R F L).
  vm_compute in E. injection E as <-. vm_compute in H. discriminate.
Qed.
Print Assumptions C08_concurrent_position_refuted.

(** What is missing: programs that call Position.  Without it the readers Peek,
    Cursor and PositionLookup never disturb each other or the writers. *)
Theorem C08_concurrent_readers_partial : forall text progs cf, Forall (Forall noPosC) progs ->
  reach (init text progs) cf ->
  answers (c_log cf) = fst (run (calls (c_log cf)) (newStream text)).
Proof. exact linearizable. Qed.
Print Assumptions C08_concurrent_readers_partial.
