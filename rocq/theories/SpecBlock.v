(** What a block <open escape close> of three runes should deliver. *)
From Verif Require Import Base Stream Node Rule.

(** The text [l] behind the open: what comes before the first close that is not
    escaped, and what follows that close.  An escape in front of a close is
    dropped; in front of another rune [k] copies of it are kept (as written:
    [k = 1]). *)
Fixpoint upToClose (k : nat) (e : option Z) (c : Z) (l : list Z) : option (list Z * list Z) :=
  let isEsc x := match e with Some e => x =? e | None => false end in
  match l with
  | [] => None
  | x :: l1 =>
    if isEsc x then
      match l1 with
      | [] => None
      | y :: l2 =>
        match upToClose k e c l2 with
        | None => None
        | Some (ct, after) => Some ((if y =? c then [c] else repeat x k ++ [y]) ++ ct, after)
        end
      end
    else if x =? c then Some ([], l1)
    else match upToClose k e c l1 with
         | None => None
         | Some (ct, after) => Some (x :: ct, after)
         end
  end.

(** Every escape met on the way stands in front of a close. *)
Fixpoint escapesClose (e : option Z) (c : Z) (l : list Z) : bool :=
  let isEsc x := match e with Some e => x =? e | None => false end in
  match l with
  | [] => true
  | x :: l1 =>
    if isEsc x then match l1 with [] => true | y :: l2 => (y =? c) && escapesClose e c l2 end
    else if x =? c then true
    else escapesClose e c l1
  end.

(** The runes of the children. *)
Definition kidChars (n : node) : list (list Z) := List.map n_chars (n_kids n).
