(** What the root rule of the shipped arithmetic grammar (main/samples/arithmetic) reads:
    sums below each other; on its own, without the grammar. *)
From Verif Require Import Base Node SpecRule SpecArith.

(** [s] is the longest text of a sum in front of [t]. *)
Definition front (e : sum) (s t : list Z) : Prop :=
  Sum found e s /\ (exists s', t = s ++ s') /\ forall e' z z', t = z ++ z' -> Sum found e' z -> (length z <= length s)%nat.
Definition noSum (t : list Z) : Prop := forall e s s', t = s ++ s' -> ~ Sum found e s.

Definition newline (c : Z) : Prop := c = 10 \/ c = 13.
Definition flush (t : list Z) : Prop := match t with c :: _ => ~ In c whiteSpaces | [] => True end.

(** [Rows l t rest]: the rows [l] are read from [t], and [rest] remains.  In front of a row
    there is white space that ends with a newline, so that a row is not indented. *)
Inductive Rows : list (Z * sum) -> list Z -> list Z -> Prop :=
| rw_none t : (forall w c t', t = w ++ c :: t' -> white w -> newline c -> flush t' -> noSum t') -> Rows [] t t
| rw_more w c e s t l rest : white w -> newline c -> flush (s ++ t) -> front e s (s ++ t) -> Rows l t rest ->
    Rows ((c, e) :: l) (w ++ c :: s ++ t) rest.

(** A page is a sum and the rows below it. *)
Definition page : Type := sum * list (Z * sum).
Inductive Page : page -> list Z -> list Z -> Prop :=
| pg_intro e s t l rest : front e s (s ++ t) -> Rows l t rest -> Page (e, l) (s ++ t) rest.
(** A text is read page by page, until no sum is in front of what remains. *)
Inductive Pages : list page -> list Z -> list Z -> Prop :=
| ps_none t : noSum t -> Pages [] t t
| ps_more p t t' l rest : Page p t t' -> Pages l t' rest -> Pages (p :: l) t rest.

Definition rowTree (x : Z * sum) : node :=
  nd TConcat [] [] [nd TRepetition [] [] [nd TChoice [] [] [nd TString [] [fst x] []]]; sumTree (snd x)].
Definition pageTree (p : page) : node :=
  nd TConcat (rs "exprs") [] [sumTree (fst p); nd TRepetition [] [] (List.map rowTree (snd p))].

(** Rows as one would write them: each starts with a letter or a parenthesis. *)
Inductive Written : list (Z * sum) -> list Z -> Prop :=
| wr_none : Written [] []
| wr_more w c e x s l t : white w -> newline c -> letter x \/ x = 40 -> Sum usual e (x :: s) -> Written l t ->
    Written ((c, e) :: l) (w ++ c :: (x :: s) ++ t).
