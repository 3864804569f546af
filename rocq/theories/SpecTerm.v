(** Grammars whose evaluation cannot go round in circles. *)
From Verif Require Import Base Stream StreamFacts Node Rule.

Definition isIn (n : list Z) (l : list (list Z)) : bool := existsb (runes_eqb n) l.
Fixpoint rankIn (l : list (list Z * nat)) (n : list Z) : nat :=
  match l with
  | [] => O
  | (m, k) :: l' => if runes_eqb m n then k else rankIn l' n
  end.

Section Class.
(** The names of the rules that may match without using text, and a rank for every rule. *)
Variables (nulls : list (list Z)) (ranks : list (list Z * nat)).

(** The rule may match without using text. *)
Fixpoint nullable (r : rule) : bool :=
  match r with
  | RChar _ _ _ | RChars _ _ | RRange _ _ _ _ _ => false
  | RString _ l => negb (nonempty l)
  | REOF _ | ROption _ _ => true
  | RRef _ n => isIn n nulls
  | RGroup _ x => nullable x
  | RRep _ x mn _ => (mn <=? 0) || nullable x
  | RChoice _ gs => existsb (existsb nullable) gs
  | RConcat _ l => forallb nullable l
  | RBlock _ o _ _ _ _ => nullable o
  end.

(** The rules referred to before text has been used have a rank below [k]. *)
Fixpoint leftBelow (k : nat) (r : rule) : bool :=
  match r with
  | RRef _ n => (rankIn ranks n <? k)%nat
  | RGroup _ x | ROption _ x | RRep _ x _ _ => leftBelow k x
  | RChoice _ gs => forallb (forallb (leftBelow k)) gs
  | RConcat _ l =>
      (fix go l := match l with [] => true | x :: l' => leftBelow k x && (negb (nullable x) || go l') end) l
  | RBlock _ o _ c e xs =>
      leftBelow k o &&
      (negb (nullable o) ||
       (leftBelow k c && match e with Some x => leftBelow k x | None => true end && forallb (leftBelow k) xs))
  | _ => true
  end.

(** Repetitions are bounded or use text in each iteration; escapes use text, and
    are not combined with several excludes. *)
Fixpoint loopsEnd (r : rule) : bool :=
  match r with
  | RGroup _ x | ROption _ x => loopsEnd x
  | RRep _ x _ mx => loopsEnd x && ((0 <? mx) || negb (nullable x))
  | RChoice _ gs => forallb (forallb loopsEnd) gs
  | RConcat _ l => forallb loopsEnd l
  | RBlock _ o _ c e xs =>
      loopsEnd o && loopsEnd c && forallb loopsEnd xs &&
      match e with Some x => loopsEnd x && negb (nullable x) && (length xs <=? 1)%nat | None => true end
  | _ => true
  end.

Definition noCircles (g : rules_t) : bool :=
  forallb (fun x => let '(n, r) := x in
    loopsEnd r && leftBelow (rankIn ranks n) r && (negb (nullable r) || isIn n nulls)) g.
End Class.

(** No rule refers to itself, directly or through others; repetitions have a
    maximum; no blocks. *)
Section Bounded.
Variable ranks : list (list Z * nat).
Fixpoint bounded (k : nat) (r : rule) : bool :=
  match r with
  | RRef _ n => (rankIn ranks n <? k)%nat
  | RGroup _ x | ROption _ x => bounded k x
  | RRep _ x _ mx => bounded k x && (0 <? mx)
  | RChoice _ gs => forallb (forallb (bounded k)) gs
  | RConcat _ l => forallb (bounded k) l
  | RBlock _ _ _ _ _ _ => false
  | _ => true
  end.
Definition allBounded (g : rules_t) : bool := forallb (fun x => let '(n, r) := x in bounded (rankIn ranks n) r) g.
End Bounded.
