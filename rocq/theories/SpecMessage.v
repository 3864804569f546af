(** The wording of descriptions and errors (C64). *)
From Verif Require Import Base Stream Node Rule Grammar SpecRule SpecParse SpecShow.

Definition quoted (l : list Z) : list Z := List.map goRune l.

(** Texts as a list in words: commas, "and" or "or" before the last. *)
Inductive listed (word : list Z) : list (list Z) -> list Z -> Prop :=
| li_two x y : listed word [x; y] (x ++ rs " " ++ word ++ rs " " ++ y)
| li_more x l t : listed word l t -> listed word (x :: l) (x ++ rs ", " ++ t).

(** How often; maximum 0: without limit. *)
Inductive oftenness : Z -> Z -> list Z -> Prop :=
| of_more mn a : written mn a -> oftenness mn 0 (a ++ rs " or more time(s)")
| of_to mn mx a b : mx <> 0 -> written mn a -> written mx b -> oftenness mn mx (a ++ rs " to " ++ b ++ rs " time(s)").

(** The base of a rule that can be called by its name. *)
Definition callable (r : rule) : option rbase :=
  match r with
  | RChar b _ _ | RChars b _ | RString b _ | RRange b _ _ _ _ | RGroup b _ | RChoice b _ | RConcat b _ | RBlock b _ _ _ _ _ => Some b
  | _ => None
  end.

Inductive describes : rule -> list Z -> Prop :=
| de_name r b : callable r = Some b -> b_name b <> [] -> describes r (b_name b)
| de_char b c u : b_name b = [] -> describes (RChar b c u) (rs "'" ++ quoted [c] ++ rs "'")
| de_chars b l : b_name b = [] -> describes (RChars b l) (rs "'" ++ quoted l ++ rs "'")
| de_string b l : b_name b = [] -> describes (RString b l) (rs """" ++ quoted l ++ rs """")
| de_range b lo lu hi hu : b_name b = [] -> describes (RRange b lo lu hi hu) (quoted [lo] ++ rs "-" ++ quoted [hi])
| de_eof b : describes (REOF b) (rs "EOF")
| de_ref b n : describes (RRef b n) n
| de_group b x t : b_name b = [] -> describes x t -> describes (RGroup b x) t
| de_option b x t : b_name b = [] -> describes x t -> describes (ROption b x) (rs "optional " ++ t)
| de_option_name b x : b_name b <> [] -> describes (ROption b x) (rs "optional " ++ b_name b)
| de_rep b x mn mx o t : b_name b = [] -> oftenness mn mx o -> describes x t -> describes (RRep b x mn mx) (o ++ rs " of " ++ t)
| de_rep_name b x mn mx o : b_name b <> [] -> oftenness mn mx o -> describes (RRep b x mn mx) (b_name b ++ rs ": " ++ o)
| de_choice b gs ds t : b_name b = [] -> Forall2 describes (concat gs) ds -> listed (rs "and") ds t -> describes (RChoice b gs) t
| de_concat b l ds t : b_name b = [] -> Forall2 describes l ds -> listed (rs "and") ds t -> describes (RConcat b l) t
| de_block b o v c e xs t t' : b_name b = [] -> describes o t -> describes c t' -> describes (RBlock b o v c e xs) (t ++ rs " to " ++ t').

(** What a terminal wanted. *)
Inductive wants : wanted -> list Z -> Prop :=
| wa_char b c u t : describes (RChar b c u) t -> wants (WChar b c) t
| wa_chars b l t : describes (RChars b l) t -> wants (WChars b l) t
| wa_string b l t : describes (RString b l) t -> wants (WString b l) t
| wa_range b lo lu hi hu t : describes (RRange b lo lu hi hu) t -> wants (WRange b lo hi) t
| wa_eof : wants WEOF (rs "EOF").

(** Where: the end of the text, line and column (zeros if unknown), or nothing. *)
Inductive where_ : place -> list Z -> Prop :=
| wr_eof : where_ AtEOF (rs " at EOF")
| wr_pos p a b : written (match p with Some x => fst x | None => 0 end) a -> written (match p with Some x => snd x | None => 0 end) b ->
    where_ (AtPos p) (rs " at L" ++ a ++ rs ":" ++ b)
| wr_none : where_ NoPlace [].

Definition marks (b : rbase) : list Z :=
  (if b_tokenized b then rs "$" else []) ++ (if b_virtual b then rs "~" else []) ++ (if b_nondata b then rs "#" else []).

Inductive tells : eerr -> list Z -> Prop :=
| te_missing w p t o : wants w t -> where_ p o -> tells (EMissing w p) (rs "missing " ++ t ++ o)
| te_undefined b n : tells (EUndefined b n) (rs "rule '" ++ marks b ++ n ++ rs "' not defined")
| te_concat r e t t' : describes r t -> tells e t' -> tells (EConcat r (Some e)) (t ++ rs ": " ++ t')
| te_choice r e t t' : describes r t -> tells e t' -> tells (EChoice r (Some e)) (t ++ rs ": " ++ t')
| te_silent r t : describes r t -> tells (EChoice r None) (t ++ rs ": %!s(<nil>)")
| te_tie n ns : tells (EAmbiguity n ns)
    (match n with [] => rs "ambiguity found:" | _ => rs "rule " ++ n ++ rs ": ambiguity found" end ++
     flat_map (fun m => [9; 10] ++ n_name m ++ rs ": " ++ quoted (text m)) ns)
| te_few b x mn mx n t a c : describes (RRep b x mn mx) t -> written (Z.of_nat n) a -> written mn c ->
    tells (ERepMin (RRep b x mn mx) n) (t ++ rs ": " ++ a ++ rs " less than minimal " ++ c)
| te_excluded l : tells (EExclude l) (rs "text `" ++ quoted l ++ rs "` is not allowed in text block")
| te_close c t : describes c t -> tells (EBlockEOF c) (rs "missing " ++ t ++ rs " at EOF").

(** One text alone, or several with "or". *)
Definition oneOf (ds : list (list Z)) (d : list Z) : Prop := ds = [d] \/ listed (rs "or") ds d.
(** The errors of [EvalRaw] and [Eval]. *)
Inductive refusal : rawRes -> list Z -> Prop :=
| re_empty : refusal RawEmpty (rs "Empty Stream/EOF encountered")
| re_nomatch roots errors ds d ts : Forall2 (fun x => describes (snd x)) roots ds -> oneOf ds d -> Forall2 (fun x => tells (snd x)) errors ts ->
    refusal (RawNoMatch roots errors) (rs "must be " ++ d ++ rs ": " ++ flat_map (fun t => t ++ rs "; ") ts)
| re_tie r m n k : r_node r = Some n -> r_node m = Some k ->
    refusal (RawAmbiguity r m) (rs "ambiguity found: " ++ n_name n ++ rs "(""" ++ quoted (r_read r) ++ rs """) vs " ++ n_name k ++ rs "(""" ++ quoted (r_read m) ++ rs """)")
| re_nonode : refusal RawNoNode (rs "no AST node found").
