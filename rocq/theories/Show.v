(** Model of the tree drawings: node.go [header], [StringTree], ast.go [StringTree],
    and of grammar.go [Serialize] with the [StringWithIndent] methods. *)
From Verif Require Import Base Stream Node Rule Parse Grammar Print.

(** [fmt.Sprintf("%d", n)]; the fuel is more than the number of digits. *)
Definition natDigits (n : Z) : list Z := dec (S (Z.to_nat (Z.log2 n))) n.
Definition showInt (n : Z) : list Z := if n <? 0 then 45 :: natDigits (- n) else natDigits n.

(** charstream.go:20-25 [Position.String]. *)
Definition showPos (p : option position) : list Z :=
  match p with
  | None => rs "L0:0"
  | Some (l, c) => [76] ++ showInt l ++ [58] ++ showInt c
  end.

(** rule.go:20-36: the texts of the types. *)
Definition typeName (t : rtype) : list Z :=
  match t with
  | TEOF => rs "EOF" | TChar => rs "char" | TRange => rs "range" | TChars => rs "chars" | TString => rs "string"
  | TGroup => rs "group" | TOption => rs "option" | TBlock => rs "block" | TReference => rs "reference"
  | TRepetition => rs "repetition" | TChoice => rs "choice" | TConcat => rs "concatenate" | TEmbed => rs "embed" | TText => rs "text"
  end.

(** node.go:8-20 [NodeTreeConfig]; a nil config is [defaultConfig].
    [VerboseNodeText] is never read. *)
Record config := mkConfig { c_type : bool; c_inner : bool }.
Definition defaultConfig : config := mkConfig true false.

(** node.go:253-273 [header]; the sticky symbol is '+'. *)
Definition header (cfg : config) (n : node) : list Z :=
  showPos (n_pos n) ++ [58] ++ n_name n
  ++ (if c_type cfg then [47] ++ typeName (n_type n) else [])
  ++ (if n_tokenized n then [cTok] else []) ++ (if n_nondata n then [cNonData] else [])
  ++ (if n_virtual n then [cVirt] else []) ++ (if n_sticky n then [43] else []).

(** [strings.ReplaceAll(s, "\n", "\n" + margin)]. *)
Definition indent (margin s : list Z) : list Z := flat_map (fun c => if c =? 10 then 10 :: margin else [c]) s.

(** The box drawing runes: corner, tee, bar, dash. *)
Definition cCorner : Z := 9492.
Definition cTee : Z := 9500.
Definition cBar : Z := 9474.
Definition cHor : Z := 9472.

(** node.go:293-310 and ast.go:106-118: the children, given their drawings; [w] is
    the number of dashes (2 or 3). *)
Fixpoint drawKids (w : nat) (l : list (list Z)) : list Z :=
  match l with
  | [] => []
  | [x] => [10; cCorner] ++ repeat cHor w ++ indent (cSpace :: repeat cSpace w) x
  | x :: l' => [10; cTee] ++ repeat cHor w ++ indent (cBar :: repeat cSpace w) x ++ drawKids w l'
  end.

(** node.go:291: the types whose children are drawn. *)
Definition drawsKids (t : rtype) : bool :=
  match t with TGroup | TOption | TBlock | TRepetition | TChoice | TConcat | TEmbed => true | _ => false end.

(** node.go:275-314 [Node.StringTree]. *)
Fixpoint stringTree (cfg : config) (n : node) : list Z :=
  header cfg n
  ++ (if negb (nonempty (n_kids n)) || c_inner cfg then rs ": >" ++ List.map utf8_rune (text n) ++ rs "<" else [])
  ++ (if drawsKids (n_type n) then drawKids 2 (List.map (stringTree cfg) (n_kids n)) else []).

(** ast.go:93-121 [AST.StringTree]. *)
Definition astTree (cfg : config) (file : list Z) (a : ast) : list Z :=
  rs "Abstract Syntax Tree" ++ [10; cTee; cHor] ++ rs " file:" ++ file
  ++ [10; match a with [] => cCorner | _ => cTee end; cHor] ++ rs " Nodes: " ++ showInt (Z.of_nat (length a))
  ++ drawKids 3 (List.map (stringTree cfg) a).

(* ------------------------------------------------------------------ *)
(** ** Serialize *)

(** [fmt.Sprintf("%-*s", w, s)]: padded on the right to [w] runes. *)
Definition padRight (w : nat) (s : list Z) : list Z := s ++ repeat cSpace (w - length s).
(** [fmt.Sprintf("%04d", n)] for [0 <= n]. *)
Definition zeros4 (n : Z) : list Z := repeat 48 (4 - length (natDigits n)) ++ natDigits n.

(** [sort.Ints]. *)
Fixpoint insertZ (x : Z) (l : list Z) : list Z :=
  match l with
  | [] => [x]
  | y :: l' => if x <=? y then x :: l else y :: insertZ x l'
  end.
Fixpoint sortZ (l : list Z) : list Z := match l with [] => [] | x :: l' => insertZ x (sortZ l') end.

(** [byLine[line]] after the loop grammar.go:151-157: the last record with that line. *)
Fixpoint byLine (recs : list (list Z * rrec)) (line : Z) : option (list Z * rrec) :=
  match recs with
  | [] => None
  | r :: recs' =>
    match byLine recs' line with
    | Some x => Some x
    | None => if rec_line (snd r) =? line then Some r else None
    end
  end.

(** grammar.go:150-158: the widest name (names are ASCII) plus 4. *)
Definition nameWidth (recs : list (list Z * rrec)) : nat :=
  (fold_right Nat.max 0 (List.map (fun r => length (fst r)) recs) + 4)%nat.

(** [StringWithIndent(margin)]: rule_terminal_char.go:91-93,
    rule_terminal_chars.go:94-96, rule_terminal_string.go:90-92,
    rule_terminal_range.go:100-102, rule_eof.go:30-32, rule_reference.go:58-60,
    rule_group.go:68-74, rule_option.go:69-75, rule_repetition.go:241-249,
    rule_choice.go:211-221, rule_concatenate.go:122-133, rule_block.go:52-54. *)
Fixpoint outlineOf (margin : list Z) (r : rule) : list Z :=
  match r with
  | RChar _ _ _ | RChars _ _ => rs "char:" ++ print r
  | RString _ _ => rs "token:" ++ print r
  | RRange _ _ _ _ _ => rs "range:" ++ print r
  | REOF _ => nameEOF
  | RRef _ _ => rs "reference:" ++ print r
  | RGroup _ x => indent margin (rs "group:" ++ 10 :: outlineOf margin x)
  | ROption _ x => indent margin (rs "option:" ++ 10 :: outlineOf margin x)
  | RRep _ x mn mx => indent margin (rs "repetition" ++ repSpec mn mx ++ rs ":" ++ 10 :: outlineOf margin x)
  | RChoice _ gs => indent margin (rs "choice:" ++ flat_map (flat_map (fun x => 10 :: outlineOf margin x)) gs)
  | RConcat _ l =>
    match l with
    | [] | [_] => rs "invalid concatenate rule: # of rules less than 2"
    | _ => indent margin (rs "concatenate:" ++ flat_map (fun x => 10 :: outlineOf margin x) l)
    end
  | RBlock _ _ _ _ _ _ => margin ++ print r
  end.

(** grammar.go:163-183: the text for one record. *)
Definition recordText (detail : bool) (terminals : list (list Z * rrec)) (w : nat) (r : list Z * rrec) : list Z :=
  rs "L" ++ zeros4 (rec_line (snd r)) ++ rs ": "
  ++ padRight w ((if b_virtual (base_of (rec_rule (snd r))) then [33] else []) ++ fst r
                 ++ (if hasKey (fst r) terminals then rs "[T]" else []))
  ++ rs " = " ++ print (rec_rule (snd r)) ++ [10] ++ rs "    "
  ++ (if detail then indent (rs "    ") (outlineOf (rs "    ") (rec_rule (snd r))) ++ [10] else []).

(** grammar.go:161-185: the loop over the sorted lines, for the order [recs] in which
    the map delivered the records.  A missing record would be a nil dereference; it
    cannot be missing. *)
Definition rulesText (detail : bool) (terminals : list (list Z * rrec)) (recs : list (list Z * rrec)) : list Z :=
  flat_map (fun line => match byLine recs line with Some r => recordText detail terminals (nameWidth recs) r | None => [] end)
           (sortZ (List.map (fun r => rec_line (snd r)) recs)).

(** grammar.go:189-206 [StringRuleRelation], for the order [recs] of the records. *)
Definition usersOf (g : grammar) (name : list Z) : list (list Z) :=
  List.map snd (List.filter (fun u => runes_eqb (fst u) name) (g_usage g)).
Definition relationText (g : grammar) (w : nat) (recs : list (list Z * rrec)) : list Z :=
  rs "Root Rules: "
  ++ flat_map (fun r => if hasKey (fst r) (g_usage g) then [] else fst r ++ [44]) recs
  ++ [10] ++ rs "Rule Reference Map: " ++ [10]
  ++ flat_map (fun r => if hasKey (fst r) (g_usage g)
                        then rs "    " ++ padRight w (fst r) ++ rs ": " ++ flat_map (fun u => u ++ [44]) (usersOf g (fst r)) ++ [10]
                        else []) recs.

(** grammar.go:145-187 [Serialize]; the two loops over the map of records have
    their own orders. *)
Definition serialize (detail : bool) (g : grammar) (recs recs2 : list (list Z * rrec)) : list Z :=
  relationText g (nameWidth recs) recs2 ++ rs "Rules:" ++ [10] ++ rs "    " ++ rulesText detail (g_terminals g) recs.
