(** Vocabulary for the choice properties: what each alternative answers when it is
    asked alone. *)
From Verif Require Import Base Stream Node Rule.

(** The answer of rule [x] on the stream [s]. *)
Definition answer (fuel : nat) (g : rules_t) (s : stream) (f : Z) (x : rule) : option result :=
  match eval fuel g x s f with Ok (res, _) => Some res | _ => None end.

(** What rule [x] reports as read is what it took from [s]. *)
Definition honest (fuel : nat) (g : rules_t) (s : stream) (f : Z) (x : rule) : Prop :=
  forall res s', eval fuel g x s f = Ok (res, s') -> rest s = r_read res ++ rest s'.

(** Number of runes used. *)
Definition used (res : result) : nat := (length (r_read res) - length (r_unused res))%nat.

Definition matched (res : result) : bool := match r_node res with Some _ => true | None => false end.

(** The answers of the alternatives of a group, in order. *)
Definition answers (fuel : nat) (g : rules_t) (s : stream) (f : Z) (grp : list rule) (rs : list result) : Prop :=
  Forall2 (fun x r => answer fuel g s f x = Some r) grp rs.

(** One match of the group used more runes than all others. *)
Definition hasGreediest (rs : list result) : Prop :=
  exists l1 r l2, rs = l1 ++ r :: l2 /\ matched r = true /\
    forall r', In r' (l1 ++ l2) -> matched r' = true -> (used r' < used r)%nat.
