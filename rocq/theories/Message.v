(** Model of the [desc()] methods and of the texts of the errors of the evaluators
    and drivers. *)
From Verif Require Import Base Stream Node Rule Parse Grammar Print Show.

(** [string(runes)]. *)
Definition str (l : list Z) : list Z := List.map utf8_rune l.

(** rule_choice.go:24-31, rule_concatenate.go:17-24: the first text, the middle ones
    after commas and the last one after "and"; a single text appears twice.  Without
    texts the code panics (index 0 of an empty slice); the parser never builds such
    rules (theorem C38). *)
Definition andList (l : list (list Z)) : list Z :=
  match l with
  | [] => []
  | d :: l' => d ++ flat_map (fun x => rs ", " ++ x) (removelast l') ++ rs " and " ++ last l' d
  end.

(** [inst.name], or [d] when it is empty. *)
Definition nameOr (b : rbase) (d : list Z) : list Z := match b_name b with [] => d | n => n end.

(** rule_repetition.go:21-26. *)
Definition times (mn mx : Z) : list Z :=
  if mx =? 0 then showInt mn ++ rs " or more time(s)" else showInt mn ++ rs " to " ++ showInt mx ++ rs " time(s)".

(** [desc()]: rule_terminal_char.go:14-19, rule_terminal_chars.go:13-18,
    rule_terminal_string.go:13-18, rule_terminal_range.go:15-20, rule_eof.go:16-18,
    rule_reference.go:13-15, rule_group.go:13-18, rule_option.go:13-18,
    rule_repetition.go:20-31, rule_choice.go:14-32, rule_concatenate.go:13-25,
    rule_block.go:19-24. *)
Fixpoint desc (r : rule) : list Z :=
  match r with
  | RChar b c _ => nameOr b ([cQuote] ++ str [c] ++ [cQuote])
  | RChars b t => nameOr b ([cQuote] ++ str t ++ [cQuote])
  | RString b t => nameOr b ([cDQuote] ++ str t ++ [cDQuote])
  | RRange b lo _ hi _ => nameOr b (str [lo] ++ [45] ++ str [hi])
  | REOF _ => rs "EOF"
  | RRef _ n => n
  | RGroup b x => nameOr b (desc x)
  | ROption b x => rs "optional " ++ nameOr b (desc x)
  | RRep b x mn mx =>
    match b_name b with [] => times mn mx ++ rs " of " ++ desc x | n => n ++ rs ": " ++ times mn mx end
  | RChoice b gs => nameOr b (andList (concat (List.map (List.map desc) gs)))
  | RConcat b l => nameOr b (andList (List.map desc l))
  | RBlock b op _ cl _ _ => nameOr b (desc op ++ rs " to " ++ desc cl)
  end.

(** What a terminal misses. *)
Definition descWanted (w : wanted) : list Z :=
  match w with
  | WChar b c => desc (RChar b c false)
  | WChars b t => desc (RChars b t)
  | WString b t => desc (RString b t)
  | WRange b lo hi => desc (RRange b lo false hi false)
  | WEOF => rs "EOF"
  end.

(** [fmt] writes a nil error under "%s" like this. *)
Definition nilError : list Z := rs "%!s(<nil>)".

(** A line of an ambiguity error: rule_choice.go:99-100, rule.go:310-311. *)
Definition named (n : node) : list Z := [9; 10] ++ n_name n ++ rs ": " ++ str (text n).
Definition unnamed (n : node) : list Z := [9; 10] ++ str (text n).

(** The texts of the errors; the places are cited at [eerr]. *)
Fixpoint errText (e : eerr) : list Z :=
  match e with
  | EMissing w AtEOF => rs "missing " ++ descWanted w ++ rs " at EOF"
  | EMissing w (AtPos p) => rs "missing " ++ descWanted w ++ rs " at " ++ showPos p
  | EMissing w NoPlace => rs "missing " ++ descWanted w
  | EUndefined b n => rs "rule '" ++ annotation b ++ n ++ rs "' not defined"
  | EConcat r x | EChoice r x => desc r ++ rs ": " ++ match x with Some e' => errText e' | None => nilError end
  | EAmbiguity name ns =>
    (match name with [] => rs "ambiguity found:" | _ => rs "rule " ++ name ++ rs ": ambiguity found" end) ++ flat_map named ns
  | EGreedy ns => rs "ambiguity found:" ++ flat_map unnamed ns
  | ERepMin r n =>
    desc r ++ rs ": " ++ showInt (Z.of_nat n) ++ rs " less than minimal " ++ showInt (match r with RRep _ _ mn _ => mn | _ => 0 end)
  | EExclude txt => rs "text `" ++ str txt ++ rs "` is not allowed in text block"
  | EBlockEOF c => rs "missing " ++ desc c ++ rs " at EOF"
  end.

(** grammar.go:62-79 [Grammar.desc], for the root rules in the order of the map. *)
Fixpoint orTail (l : list (list Z)) : list Z :=
  match l with
  | [] => []
  | [x] => rs " or " ++ x
  | x :: l' => rs ", " ++ x ++ orTail l'
  end.
Definition orList (l : list (list Z)) : list Z := match l with [] => [] | x :: l' => x ++ orTail l' end.
Definition descRoots (l : list (list Z * rule)) : list Z := orList (List.map (fun x => desc (snd x)) l).

(** One side of grammar.go:380-382; only results with a node get there. *)
Definition side (r : result) : list Z :=
  (match r_node r with Some n => n_name n | None => [] end) ++ [40; cDQuote] ++ str (r_read r) ++ [cDQuote; 41].

(** The error of [EvalRaw] and [Eval]: grammar.go:327, 356-361, 380-382, 400. *)
Definition rawError (r : rawRes) : option (list Z) :=
  match r with
  | RawOk _ => None
  | RawEmpty => Some (rs "Empty Stream/EOF encountered")
  | RawNoMatch roots errors =>
    Some (rs "must be " ++ descRoots roots ++ rs ": " ++ flat_map (fun x => errText (snd x) ++ rs "; ") errors)
  | RawAmbiguity r m => Some (rs "ambiguity found: " ++ side r ++ rs " vs " ++ side m)
  | RawNoNode => Some (rs "no AST node found")
  end.
