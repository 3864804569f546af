(** JSON, and what the JSON grammar shipped with the repository (main/samples/json)
    should make of it; on its own, without the grammar. *)
From Verif Require Import Base Node SpecRule.

Inductive json :=
| JNum (minus : bool) (int : list Z) (frac : option (list Z))
| JStr (content : list Z)
| JBool (b : bool)
| JNull
| JArr (items : list json)
| JObj (members : list (list Z * json)).

Definition digitRun (l : list Z) : Prop := l <> [] /\ Forall (fun c => 48 <= c <= 57) l.
(** Runes of a string: no quote, no backslash, no newline. *)
Definition simple (c : Z) : Prop := c <> 34 /\ c <> 92 /\ c <> 10.

Definition minusSign (minus : bool) : list Z := if minus then [45] else [].
Definition dotted (frac : option (list Z)) : list Z := match frac with Some l => 46 :: l | None => [] end.
Definition boolWord (b : bool) : list Z := if b then rs "true" else rs "false".

(** Things separated by commas. *)
Inductive Commas {A} (P : A -> list Z -> Prop) : list A -> list Z -> Prop :=
| cs_none : Commas P [] []
| cs_last x t : P x t -> Commas P [x] t
| cs_more x t w y l t' : P x t -> white w -> Commas P (y :: l) t' -> Commas P (x :: y :: l) (t ++ w ++ 44 :: t').
(** A member of an object. *)
Inductive Member (P : json -> list Z -> Prop) : list Z * json -> list Z -> Prop :=
| mb_intro w k w' v t : white w -> Forall simple k -> white w' -> P v t -> Member P (k, v) (w ++ 34 :: k ++ 34 :: w' ++ 58 :: t).

(** [Spells v t]: [t] is a text for [v], white space being allowed in front of
    every token. *)
Inductive Spells : json -> list Z -> Prop :=
| sp_num w m i fr : white w -> digitRun i -> (forall l, fr = Some l -> digitRun l) -> Spells (JNum m i fr) (w ++ minusSign m ++ i ++ dotted fr)
| sp_str w l : white w -> Forall simple l -> Spells (JStr l) (w ++ 34 :: l ++ [34])
| sp_bool w b : white w -> Spells (JBool b) (w ++ boolWord b)
| sp_null w : white w -> Spells JNull (w ++ rs "null")
| sp_arr w l t w' : white w -> Commas Spells l t -> white w' -> Spells (JArr l) (w ++ 91 :: t ++ w' ++ [93])
| sp_obj w l t w' : white w -> Commas (Member Spells) l t -> white w' -> Spells (JObj l) (w ++ 123 :: t ++ w' ++ [125]).

(** What may follow: a number goes on as far as it can. *)
Definition startsDigit (t : list Z) : Prop := exists c t', t = c :: t' /\ 48 <= c <= 57.
Definition mayFollow (v : json) (t : list Z) : Prop :=
  match v with
  | JNum _ _ fr => ~ startsDigit t /\ (fr = None -> forall t', t = 46 :: t' -> ~ startsDigit t')
  | _ => True
  end.
(** Values in a row. *)
Inductive SpellsAll : list json -> list Z -> Prop :=
| sa_none : SpellsAll [] []
| sa_more v t l t' : Spells v t -> mayFollow v t' -> SpellsAll l t' -> SpellsAll (v :: l) (t ++ t').

(** The tree of a value. *)
Definition nameless (ty : rtype) (chars : list Z) : node := Node ty [] chars [] None false false true false.
Definition punct (c : Z) : node := nameless TString [c].
Definition branch (ty : rtype) (name : list Z) (kids : list node) : node := Node ty name [] kids None false false false false.
Definition leaf (ty : rtype) (name chars : list Z) : node := Node ty name chars [] None false false false false.
Definition quotedTree (l : list Z) : node :=
  branch TBlock (rs "string") (nameless TChar [34] :: (match l with [] => [] | _ => [leaf TChars [] l] end) ++ [nameless TChar [34]]).
Fixpoint between (l : list node) : list node :=
  match l with x :: ((_ :: _) as l') => x :: punct 44 :: between l' | _ => l end.
Definition litTree (n : node) : node := branch TChoice (rs "literal") [n].
Fixpoint bodyTree (v : json) : node :=
  match v with
  | JNum m i fr => litTree (leaf TConcat (rs "number") (minusSign m ++ i ++ dotted fr))
  | JStr l => litTree (quotedTree l)
  | JBool b => litTree (leaf TChoice (rs "bool") (boolWord b))
  | JNull => leaf TChoice (rs "literal") (rs "null")
  | JArr l => branch TConcat (rs "array") (punct 91 :: between (List.map (fun v => branch TChoice (rs "value") [bodyTree v]) l) ++ [punct 93])
  | JObj l => branch TConcat (rs "object") (punct 123 :: between (List.map (fun m =>
      branch TConcat (rs "kv") [quotedTree (fst m); punct 58; branch TChoice (rs "value") [bodyTree (snd m)]]) l) ++ [punct 125])
  end.
Definition treeOf (v : json) : node := branch TChoice (rs "value") [bodyTree v].

(** Its text: one blank between tokens. *)
Fixpoint join (l : list (list Z)) : list Z :=
  match l with [] => [] | [x] => x | x :: l' => x ++ 32 :: 44 :: 32 :: join l' end.
Definition inQuotes (l : list Z) : list Z := 34 :: l ++ [34].
Definition wrapped (a z : Z) (l : list Z) : list Z := a :: 32 :: (match l with [] => [] | _ => l ++ [32] end) ++ [z].
Fixpoint neat (v : json) : list Z :=
  match v with
  | JNum m i fr => minusSign m ++ i ++ dotted fr
  | JStr l => inQuotes l
  | JBool b => boolWord b
  | JNull => rs "null"
  | JArr l => wrapped 91 93 (join (List.map neat l))
  | JObj l => wrapped 123 125 (join (List.map (fun m => inQuotes (fst m) ++ 32 :: 58 :: 32 :: neat (snd m)) l))
  end.

(** The values that have a text. *)
Fixpoint spellable (v : json) : Prop :=
  match v with
  | JNum _ i fr => digitRun i /\ (forall l, fr = Some l -> digitRun l)
  | JStr l => Forall (fun c => simple c /\ 0 <= c) l
  | JBool _ | JNull => True
  | JArr l => (fix all l := match l with [] => True | v :: l' => spellable v /\ all l' end) l
  | JObj l => (fix all l := match l with [] => True | m :: l' =>
      (Forall (fun c => simple c /\ 0 <= c) (fst m) /\ spellable (snd m)) /\ all l' end) l
  end.
