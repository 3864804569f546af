(** Vocabulary for the drawings of trees (C59). *)
From Verif Require Import Base Stream Node SpecRule SpecParse.

(** A number as it is written: no digits but the needed ones. *)
Definition numeral (l : list Z) (n : Z) : Prop :=
  denotes 10 l n /\ l <> [] /\ (forall l', l = 48 :: l' -> l' = []) /\ Forall (fun c => 48 <= c <= 57) l.

(** ** Lines

    The nodes in document order, each with the way to it: for every step down,
    whether it goes to the last child. *)
Fixpoint entries (way : list bool) (n : node) : list (list bool * node) :=
  (way, n) ::
  (fix go l := match l with
               | [] => []
               | k :: l' => entries (way ++ [match l' with [] => true | _ => false end]) k ++ go l'
               end) (n_kids n).

(** What stands left of the children of the nodes on the way: a bar as long as more
    children follow. *)
Definition margin (way : list bool) : list Z :=
  flat_map (fun last : bool => if last then [32; 32; 32] else [9474; 32; 32]) way.
(** What stands left of the node itself. *)
Definition lead (way : list bool) : list Z :=
  match rev way with
  | [] => []
  | last :: up => margin (rev up) ++ (if last : bool then [9492; 9472; 9472] else [9500; 9472; 9472])
  end.
(** The lines of [s], joined by newlines, with [m] in front of all but the first. *)
Inductive under (m : list Z) : list Z -> list Z -> Prop :=
| un_nil : under m [] []
| un_line c s t : c <> 10 -> under m s t -> under m (c :: s) (c :: t)
| un_break s t : under m s t -> under m (10 :: s) (10 :: m ++ t).

(** ** Trees that are drawn completely

    Inner nodes of the kinds that have children, names without special runes. *)
Definition mayHaveKids (t : rtype) : Prop :=
  match t with TGroup | TOption | TBlock | TRepetition | TChoice | TConcat | TEmbed => True | _ => False end.
Definition nameRunes (l : list Z) : Prop := Forall (fun c => (48 <= c <= 57) \/ (65 <= c <= 90) \/ (97 <= c <= 122) \/ c = 95) l.
Definition plainNode (m : node) : Prop := nameRunes (n_name m) /\ (n_kids m <> [] -> mayHaveKids (n_type m)).
Definition drawable (n : node) : Prop := forall m, sub m n -> plainNode m.

(** ** What a reader of the drawing learns

    Everything but the runes of inner nodes and whether a position is missing. *)
Record sight := mkSight { s_pos : position; s_name : list Z; s_type : option rtype;
  s_marks : bool * bool * bool * bool; s_text : option (list Z) }.
Inductive sketch := Sketch (top : sight) (kids : list sketch).
Definition seen (types : bool) (n : node) : sight :=
  mkSight (match n_pos n with Some p => p | None => (0, 0) end) (n_name n) (if types then Some (n_type n) else None)
    (n_tokenized n, n_nondata n, n_virtual n, n_sticky n)
    (match n_kids n with [] => Some (List.map goRune (text n)) | _ => None end).
Fixpoint sketchOf (types : bool) (n : node) : sketch := Sketch (seen types n) (List.map (sketchOf types) (n_kids n)).

(** ** The caption of a node *)
Definition written (z : Z) (l : list Z) : Prop :=
  (0 <= z /\ numeral l z) \/ (z < 0 /\ exists l', l = 45 :: l' /\ numeral l' (- z)).
Definition typeWords : list (rtype * list Z) :=
  [(TEOF, rs "EOF"); (TChar, rs "char"); (TRange, rs "range"); (TChars, rs "chars"); (TString, rs "string");
   (TGroup, rs "group"); (TOption, rs "option"); (TBlock, rs "block"); (TReference, rs "reference");
   (TRepetition, rs "repetition"); (TChoice, rs "choice"); (TConcat, rs "concatenate"); (TEmbed, rs "embed"); (TText, rs "text")].
(** Line and column (zeros if unknown), name, type if asked for, marks; the text of a
    leaf, or of every node if asked for. *)
Definition captioned (types inner : bool) (n : node) (c : list Z) : Prop :=
  exists line col ty, 
    written (fst (s_pos (seen types n))) line /\ written (snd (s_pos (seen types n))) col /\
    (if types then exists w, In (n_type n, w) typeWords /\ ty = rs "/" ++ w else ty = []) /\
    c = rs "L" ++ line ++ rs ":" ++ col ++ rs ":" ++ n_name n ++ ty
        ++ (if n_tokenized n then rs "$" else []) ++ (if n_nondata n then rs "#" else [])
        ++ (if n_virtual n then rs "~" else []) ++ (if n_sticky n then rs "+" else [])
        ++ (match n_kids n, inner with
            | [], _ | _, true => rs ": >" ++ List.map goRune (text n) ++ rs "<"
            | _, false => []
            end).

(** One node of the drawing. *)
Definition drawn (types inner : bool) (e : list bool * node) (p : list Z) : Prop :=
  exists c t, captioned types inner (snd e) c /\ under (margin (fst e)) c t /\ p = lead (fst e) ++ t.
(** Texts one below the other. *)
Fixpoint stacked (l : list (list Z)) : list Z :=
  match l with
  | [] => []
  | [x] => x
  | x :: l' => x ++ 10 :: stacked l'
  end.

(** The blocks below the head of an AST. *)
Inductive hung : list (list Z) -> list (list Z) -> Prop :=
| hg_nil : hung [] []
| hg_last d t : under [32; 32; 32; 32] d t -> hung [d] [[9492; 9472; 9472; 9472] ++ t]
| hg_cons d t l k : l <> [] -> under [9474; 32; 32; 32] d t -> hung l k -> hung (d :: l) (([9500; 9472; 9472; 9472] ++ t) :: k).
