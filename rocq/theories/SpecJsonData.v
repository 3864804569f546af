(** What the data-only level of Eval is to keep of a JSON value (C89). *)
From Verif Require Import Base Stream Node Rule SpecRule SpecJson.

(** No text is left of it when brackets, commas, colons and quotes are taken away. *)
Fixpoint dull (v : json) : bool :=
  match v with
  | JStr [] => true
  | JArr l => forallb dull l
  | JObj l => forallb (fun m => match fst m with [] => dull (snd m) | _ => false end) l
  | _ => false
  end.
Definition dullMember (m : list Z * json) : bool := match fst m with [] => dull (snd m) | _ => false end.

Definition textTree (l : list Z) : node := leaf TBlock (rs "string") l.
(** The tree of a value: a node for every part of an array or an object. *)
Fixpoint wholeBody (v : json) : node :=
  match v with
  | JNum m i fr => litTree (leaf TConcat (rs "number") (minusSign m ++ i ++ dotted fr))
  | JStr l => litTree (textTree l)
  | JBool b => litTree (leaf TChoice (rs "bool") (boolWord b))
  | JNull => leaf TChoice (rs "literal") (rs "null")
  | JArr l => branch TConcat (rs "array") (List.map (fun v => branch TChoice (rs "value") [wholeBody v]) l)
  | JObj l => branch TConcat (rs "object") (List.map (fun m => branch TConcat (rs "kv") [textTree (fst m); branch TChoice (rs "value") [wholeBody (snd m)]]) l)
  end.
Definition wholeOf (v : json) : node := branch TChoice (rs "value") [wholeBody v].

(** What comes out.  In arrays and objects the first part stays, of the others those that are not dull. *)
Fixpoint bodyData (v : json) : node :=
  match v with
  | JNum m i fr => litTree (leaf TConcat (rs "number") (minusSign m ++ i ++ dotted fr))
  | JStr l => litTree (textTree l)
  | JBool b => litTree (leaf TChoice (rs "bool") (boolWord b))
  | JNull => leaf TChoice (rs "literal") (rs "null")
  | JArr l => branch TConcat (rs "array")
      match l with
      | [] => []
      | v :: l' => branch TChoice (rs "value") [bodyData v] :: flat_map (fun v => if dull v then [] else [branch TChoice (rs "value") [bodyData v]]) l'
      end
  | JObj l => branch TConcat (rs "object")
      match l with
      | [] => []
      | m :: l' => branch TConcat (rs "kv") [textTree (fst m); branch TChoice (rs "value") [bodyData (snd m)]] ::
          flat_map (fun m => if dullMember m then [] else [branch TConcat (rs "kv") [textTree (fst m); branch TChoice (rs "value") [bodyData (snd m)]]]) l'
      end
  end.
Definition dataOf (v : json) : node := branch TChoice (rs "value") [bodyData v].

(** The value that is left. *)
Fixpoint trim (v : json) : json :=
  match v with
  | JArr (v :: l) => JArr (trim v :: flat_map (fun v => if dull v then [] else [trim v]) l)
  | JObj (m :: l) => JObj ((fst m, trim (snd m)) :: flat_map (fun m => if dullMember m then [] else [(fst m, trim (snd m))]) l)
  | _ => v
  end.

(** The texts in a value, and the texts in a tree; empty ones left out. *)
Definition word (l : list Z) : list (list Z) := match l with [] => [] | _ => [l] end.
Fixpoint atoms (v : json) : list (list Z) :=
  match v with
  | JNum m i fr => word (minusSign m ++ i ++ dotted fr)
  | JStr l => word l
  | JBool b => word (boolWord b)
  | JNull => word (rs "null")
  | JArr l => flat_map atoms l
  | JObj l => flat_map (fun m => word (fst m) ++ atoms (snd m)) l
  end.
Fixpoint leaves (n : node) : list (list Z) :=
  match n_kids n with [] => word (n_chars n) | _ => flat_map leaves (n_kids n) end.

(** Values without empty strings (keys aside), arrays and objects. *)
Fixpoint full (v : json) : bool :=
  match v with
  | JStr [] | JArr [] | JObj [] => false
  | JArr l => forallb full l
  | JObj l => forallb (fun m => full (snd m)) l
  | _ => true
  end.
