(** Vocabulary for the listing of a grammar (C60). *)
From Coq Require Import Permutation Sorted.
From Verif Require Import Base Stream Node Rule Parse Grammar Print SpecRule SpecParse SpecGrammar SpecShow.

(** Four digits, or more where needed. *)
Definition fourDigits (n : Z) (l : list Z) : Prop :=
  exists k ds, numeral ds n /\ l = repeat 48 k ++ ds /\ (length l = 4%nat \/ (k = 0%nat /\ 4 < length ds)%nat).

(** The name of a record as it is listed: virtual rules with '!', terminal ones with
    "[T]". *)
Definition listedName (marked : list Z -> bool) (r : list Z * rrec) : list Z :=
  (if b_virtual (base_of (rec_rule (snd r))) then rs "!" else []) ++ fst r ++ (if marked (fst r) then rs "[T]" else []).
(** ** The outline of a rule

    The parts of a rule in the order of its text, each with its depth.  A block has no
    parts, and neither has a concatenation with less than two operands. *)
Fixpoint parts (d : nat) (r : rule) : list (nat * rule) :=
  (d, r) ::
  match r with
  | RGroup _ x | ROption _ x | RRep _ x _ _ => parts (S d) x
  | RChoice _ gs => flat_map (flat_map (parts (S d))) gs
  | RConcat _ [] | RConcat _ [_] => []
  | RConcat _ l => flat_map (parts (S d)) l
  | _ => []
  end.
(** How a part is introduced: its kind, the numbers of a repetition, the text of a
    terminal or a reference. *)
Definition intro (m : list Z) (r : rule) : list Z :=
  match r with
  | RChar _ _ _ | RChars _ _ => rs "char:" ++ print r
  | RString _ _ => rs "token:" ++ print r
  | RRange _ _ _ _ _ => rs "range:" ++ print r
  | REOF _ => rs "EOF"
  | RRef _ _ => rs "reference:" ++ print r
  | RGroup _ _ => rs "group:"
  | ROption _ _ => rs "option:"
  | RRep _ _ mn mx => rs "repetition" ++ repSpec mn mx ++ rs ":"
  | RChoice _ _ => rs "choice:"
  | RConcat _ [] | RConcat _ [_] => rs "invalid concatenate rule: # of rules less than 2"
  | RConcat _ _ => rs "concatenate:"
  | RBlock _ _ _ _ _ _ => m ++ print r
  end.
(** One part: as often the margin as it is deep. *)
Definition outlined (m : list Z) (e : nat * rule) (p : list Z) : Prop :=
  exists t, under (concat (repeat m (fst e))) (intro m (snd e)) t /\ p = concat (repeat m (fst e)) ++ t.
Definition isOutline (m : list Z) (d : nat) (r : rule) (t : list Z) : Prop :=
  exists ps, Forall2 (outlined m) (parts d r) ps /\ t = stacked ps.

(** One record of the listing: the number, the name in a column [w] wide, the rule;
    then the outline of the rule, if asked for. *)
Definition listed (detail : bool) (marked : list Z -> bool) (w : nat) (r : list Z * rrec) (t : list Z) : Prop :=
  exists num pad more, fourDigits (rec_line (snd r)) num /\ (length (listedName marked r) + pad = w)%nat /\
    t = rs "L" ++ num ++ rs ": " ++ listedName marked r ++ repeat 32 pad ++ rs " = " ++ print (rec_rule (snd r)) ++ [10] ++ more /\
    (if detail then exists o, isOutline (rs "    ") 1 (rec_rule (snd r)) o /\ more = o ++ [10] else more = rs "    ").

(** A record stands behind another one if it was defined later. *)
Definition inOrder (l : list (list Z * rrec)) : Prop := StronglySorted (fun a b => rec_line (snd a) < rec_line (snd b)) l.

(** The line of a name in the reference map: its users, one for every reference. *)
Definition mapped (users : list (list Z)) (w : nat) (n t : list Z) : Prop :=
  exists pad, (length n + pad = w)%nat /\
    t = rs "    " ++ n ++ repeat 32 pad ++ rs ": " ++ flat_map (fun u => u ++ rs ",") users ++ [10].

(** How often a rule refers to [m], and the users of [m] in the order of their
    definitions. *)
Definition timesUsed (m : list Z) (r : list Z * rrec) : nat := count_occ (list_eq_dec Z.eq_dec) (refs (rec_rule (snd r))) m.
Definition usersIn (l : list (list Z * rrec)) (m : list Z) : list (list Z) := flat_map (fun r => repeat (fst r) (timesUsed m r)) l.

(** The whole listing: the rules nobody refers to, the users of the other ones, then all
    rules in the order of their definitions. *)
Definition isListing (detail : bool) (g : grammar) (marked : list Z -> bool) (t : list Z) : Prop :=
  exists w l tops used maps lines,
    Permutation l (g_records g) /\ inOrder l /\
    Permutation (tops ++ used) (List.map fst l) /\ (forall n, In n tops <-> topmost g n) /\
    Forall2 (fun n => mapped (usersIn l n) w n) used maps /\
    Forall2 (listed detail marked w) l lines /\
    t = rs "Root Rules: " ++ flat_map (fun n => n ++ rs ",") tops ++ [10] ++ rs "Rule Reference Map: " ++ [10] ++ concat maps
        ++ rs "Rules:" ++ [10] ++ rs "    " ++ concat lines.
