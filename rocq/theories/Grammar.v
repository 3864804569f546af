(** Model of grammar.go: rule records, validation, and the evaluation drivers. *)
From Verif Require Import Base Stream Node Rule Parse.

(** grammar.go:32-36 [RuleRecord]; the name is the key. *)
Record rrec := mkRec { rec_rule : rule; rec_line : Z }.

(** grammar.go:51-60 [Grammar].  Maps are association lists without duplicate
    keys, newest last; [g_usage] is [nonRoots] as the list of
    (referenced rule, user) pairs in insertion order: a key is present in the map
    iff it is the first component of a pair.  [fileName] and [validated] (never
    used) are left out. *)
Record grammar := mkGrammar {
  g_records : list (list Z * rrec);
  g_usage : list (list Z * list Z);
  g_terminals : list (list Z * rrec);
  g_roots : list (list Z * rrec);
  g_maxLine : Z }.

(** grammar.go:42-49. *)
Definition newGrammar : grammar := mkGrammar [] [] [] [] 0.

Fixpoint find_rec (m : list (list Z * rrec)) (n : list Z) : option rrec :=
  match m with
  | [] => None
  | (k, r) :: m' => if runes_eqb k n then Some r else find_rec m' n
  end.

(** [m[n] = r] for a Go map. *)
Fixpoint put_rec (m : list (list Z * rrec)) (n : list Z) (r : rrec) : list (list Z * rrec) :=
  match m with
  | [] => [(n, r)]
  | (k, x) :: m' => if runes_eqb k n then (k, r) :: m' else (k, x) :: put_rec m' n r
  end.

Definition rules_of (g : grammar) : rules_t := List.map (fun kr => (fst kr, rec_rule (snd kr))) (g_records g).

(** grammar.go:81-96 [GetRecord], [GetRule]. *)
Definition getRecord (g : grammar) (n : list Z) : option rrec := find_rec (g_records g) n.
Definition getRule (g : grammar) (n : list Z) : option rule := option_map rec_rule (getRecord g n).

(** rule.go:245-270 [validateRuleName]. *)
Definition validName (n : list Z) : bool :=
  match n with
  | [] => false
  | c :: n' => isLetter c && forallb (fun c => isLetter c || (c =? 95) || isDigit c) n'
  end.

(** [strings.TrimSpace]: its white space is [unicode.IsSpace], the same 25 code
    points as space.go. *)
Definition trimLeft (l : list Z) : list Z := skipn (length (ws_prefix l)) l.
Definition trim (l : list Z) : list Z := rev (trimLeft (rev (trimLeft l))).

(** [strings.SplitN(s, "=", 2)]: [None] when there is no '='. *)
Fixpoint splitEq (l : list Z) : option (list Z * list Z) :=
  match l with
  | [] => None
  | c :: l' =>
    if c =? 61 then Some ([], l')
    else match splitEq l' with Some (a, b) => Some (c :: a, b) | None => None end
  end.

(** Errors of the grammar functions. *)
Inductive gerr := GName | GDuplicate | GParse | GNoEq | GUndefined | GFuel.

Definition addUsages (g : grammar) (us : list (list Z)) (user : list Z) : grammar :=
  mkGrammar (g_records g) (g_usage g ++ List.map (fun n => (n, user)) us) (g_terminals g) (g_roots g) (g_maxLine g).

(** grammar.go:98-130 [ParseRule].  The grammar is returned in the error case
    too: usages recorded before the error stay (grammar.go:208-212). *)
Definition parseRule (g : grammar) (name ruleStr : list Z) : (rule + gerr) * grammar :=
  if negb (validName name) then (inr GName, g)
  else match getRecord g name with
  | Some _ => (inr GDuplicate, g)
  | None =>
    match parseText (trim ruleStr) with
    | PFuel => (inr GFuel, g)
    | PErr us => (inr GParse, addUsages g us name)
    | POk r _ us =>
      let r := setName r name in
      let g := addUsages g us name in
      let line := g_maxLine g + 1 in
      (inl r, mkGrammar (put_rec (g_records g) name (mkRec r line)) (g_usage g) (g_terminals g) (g_roots g) line)
    end
  end.

(** grammar.go:133-143 [AddRule]. *)
Definition addRule (g : grammar) (def : list Z) : (rule + gerr) * grammar :=
  match splitEq def with
  | None => (inr GNoEq, g)
  | Some (a, b) => parseRule g (trim a) (trim b)
  end.

Definition hasKey {A} (n : list Z) (l : list (list Z * A)) : bool :=
  existsb (fun p => runes_eqb (fst p) n) l.

(** grammar.go:214-241 [Validate]: [None] is success.  On error the maps are
    unchanged. *)
Definition validate (g : grammar) : option gerr * grammar :=
  if forallb (fun u => hasKey (fst u) (g_records g)) (g_usage g) then
    let nonTerminals := List.map snd (g_usage g) in
    let terms := List.filter (fun kr => negb (existsb (runes_eqb (fst kr)) nonTerminals)) (g_records g) in
    let roots := List.filter (fun kr => negb (hasKey (fst kr) (g_usage g))) (g_records g) in
    (None, mkGrammar (g_records g) (g_usage g)
             (fold_left (fun m kr => put_rec m (fst kr) (snd kr)) terms (g_terminals g))
             (fold_left (fun m kr => put_rec m (fst kr) (snd kr)) roots (g_roots g))
             (g_maxLine g))
  else (Some GUndefined, g).

(** [strings.Split(s, "\n")]. *)
Fixpoint splitLines (l : list Z) : list (list Z) :=
  match l with
  | [] => [[]]
  | c :: l' =>
    if c =? 10 then [] :: splitLines l'
    else match splitLines l' with
         | [] => [[c]]
         | x :: xs => (c :: x) :: xs
         end
  end.

Definition isComment (l : list Z) : bool :=
  match l with a :: b :: _ => (a =? 47) && (b =? 47) | _ => false end.

Definition setMaxLine (g : grammar) (n : Z) : grammar :=
  mkGrammar (g_records g) (g_usage g) (g_terminals g) (g_roots g) n.

(** grammar.go:699-716: the loop over the lines; [i] is the 0-based index. *)
Fixpoint addLines (g : grammar) (i : Z) (lines : list (list Z)) : grammar + (Z * gerr) :=
  match lines with
  | [] => inl g
  | ln :: lines' =>
    let ln := trim ln in
    if negb (nonempty ln) || isComment ln then addLines (setMaxLine g (i + 1)) (i + 1) lines'
    else match splitEq ln with
    | None => inr (i + 1, GNoEq)
    | Some (a, b) =>
      match parseRule g (trim a) (trim b) with
      | (inr e, _) => inr (i + 1, e)
      | (inl _, g') => addLines (setMaxLine g' (i + 1)) (i + 1) lines'
      end
    end
  end.

(** grammar.go:696-722 [NewGrammarFromString].  The error of [Validate] has no
    line number (0 here). *)
Definition newGrammarFromString (txt : list Z) : grammar + (Z * gerr) :=
  match addLines newGrammar 0 (splitLines txt) with
  | inr e => inr e
  | inl g => match validate g with
             | (None, g') => inl g'
             | (Some e, _) => inr (0, e)
             end
  end.

(* ------------------------------------------------------------------ *)
(** ** Evaluation drivers *)

(** grammar.go:289-299 [EvalRule]. *)
Definition evalRule (fuel : nat) (g : grammar) (name sample : list Z) : outcome result :=
  match getRule g name with
  | None => Ok (mkRes None (Some (EUndefined noBase name)) 0 [] [] false)
  | Some r => let* (res, _) := eval fuel (rules_of g) r (newStream sample) SUGGEST_SKIP in Ok res
  end.

Definition textNode (chars : list Z) : node :=
  Node TText [95] chars [] None false false false false.

(** grammar.go:261-285: the loop of [EvalEmbed]; [kids] in reverse, [cs] wrapped
    cumulatively. *)
Fixpoint embedLoop (loopFuel fuel : nat) (g : rules_t) (r : rule) (cs : stream) (txt : list Z) (kids : list node)
  : outcome (list node) :=
  match loopFuel with
  | O => OutOfFuel
  | S lf =>
    let* (res, cs1) := eval fuel g r cs NOT_SKIP in
    let cs2 := prepend cs1 (r_unused res) in
    let flush := if nonempty txt then textNode txt :: kids else kids in
    match r_node res with
    | None =>
      let '(c, cs3) := next cs2 in
      if c =? EOFChar then Ok (rev flush)
      else embedLoop lf fuel g r cs3 (txt ++ [c]) kids
    | Some n => embedLoop lf fuel g r cs2 [] (n :: flush)
    end
  end.

(** grammar.go:248-287 [EvalEmbed]: [None] is the "not defined" error. *)
Definition evalEmbed (loopFuel fuel : nat) (g : grammar) (name sample : list Z) : option (outcome node) :=
  match getRule g name with
  | None => None
  | Some r =>
    Some (let* kids := embedLoop loopFuel fuel (rules_of g) r (newStream sample) [] [] in
          Ok (Node TEmbed name [] kids None false false false false))
  end.

(** Outcome of [EvalRaw] as a Go value. *)
Inductive rawRes :=
| RawOk (a : ast)
| RawEmpty        (* grammar.go:327 *)
| RawNoMatch (roots : list (list Z * rule)) (errors : list (list Z * eerr))  (* grammar.go:356-361; see Message.v *)
| RawAmbiguity (r m : result)   (* grammar.go:380-382: [result] and [maxResult] *)
| RawNoNode.      (* grammar.go:400 *)

(** grammar.go:341-353: one pass over the root rules, in the order in which the
    map iteration delivers them; [cs] is wrapped cumulatively.  The answer
    holds resultsMatched, the errors of resultsError, maxCharsRead and [cs]. *)
Fixpoint rootsLoop (fuel : nat) (g : rules_t) (order : list (list Z * rule)) (cs : stream) (f : Z)
  (maxRead : list Z) (matched : list (list Z * result)) (errors : list (list Z * eerr))
  : outcome (list (list Z * result) * list (list Z * eerr) * list Z * stream) :=
  match order with
  | [] => Ok (rev matched, rev errors, maxRead, cs)
  | (n, r) :: order' =>
    let* (res, cs1) := eval fuel g r (prepend cs maxRead) f in
    let maxRead' := if (length maxRead <? length (r_read res))%nat then r_read res else maxRead in
    rootsLoop fuel g order' cs1 f maxRead'
      (match r_node res with Some _ => (n, res) :: matched | None => matched end)
      (match r_err res with Some e => (n, e) :: errors | None => errors end)
  end.

(** grammar.go:375-388: [inl] is the ambiguity error. *)
Fixpoint rawSel (maxUsed : Z) (found : option result) (l : list result) : result * result + option result :=
  match l with
  | [] => inr found
  | r :: l' =>
    match found with
    | Some m =>
      if countUsed r =? maxUsed then inl (r, m)
      else if countUsed r >=? maxUsed then rawSel (countUsed r) (Some r) l'
      else rawSel maxUsed found l'
    | None =>
      if countUsed r >=? maxUsed then rawSel (countUsed r) (Some r) l' else rawSel maxUsed found l'
    end
  end.

Definition rawSelect (l : list result) : result * result + option result :=
  match l with
  | [] => inr None
  | [r] => inr (Some r)
  | _ => rawSel 0 None l
  end.

(** An iteration order for the maps: the root rules in the order delivered in
    round [k], a reordering of the matched results of round [k], one of the
    errors of the last round (grammar.go:358), and the root rules in the order
    delivered to [desc] (grammar.go:66).  Go leaves all of them unspecified, so
    theorems quantify over them. *)
Record orders := mkOrders {
  o_roots : nat -> list (list Z * rule);
  o_matched : nat -> list (list Z * result) -> list (list Z * result);
  o_errors : list (list Z * eerr) -> list (list Z * eerr);
  o_desc : list (list Z * rule) }.

(** grammar.go:333-398: the loop of [EvalRaw]; [nodes] in reverse. *)
Fixpoint rawLoop (loopFuel fuel : nat) (g : rules_t) (o : orders) (round : nat) (s : stream) (unused : list Z)
  (f : Z) (nodes : list node) : outcome (rawRes * stream) :=
  match loopFuel with
  | O => OutOfFuel
  | S lf =>
    let cs := prepend s unused in
    if peek cs =? EOFChar then
      Ok (match nodes with [] => RawNoNode | _ => RawOk (rev nodes) end, s)
    else
      let* (matched, errors, maxRead, cs1) := rootsLoop fuel g (o_roots o round) cs f [] [] [] in
      let s1 := unwrap (depth s) cs1 in
      match rawSelect (List.map snd (o_matched o round matched)) with
      | inl (r, m) => Ok (RawAmbiguity r m, s1)
      | inr None => Ok (RawNoMatch (o_desc o) (o_errors o errors), s1)
      | inr (Some res) =>
        match r_node res with
        | None => Panic (* cannot happen: only results with a node are kept *)
        | Some n =>
          let* unused' := slice_from maxRead (countUsed res) in
          rawLoop lf fuel g o (S round) s1 unused'
            (if r_sticky res then SUGGEST_NOT_SKIP else SUGGEST_SKIP) (n :: nodes)
        end
      end
  end.

(** grammar.go:325-403 [EvalRaw]. *)
Definition evalRaw (loopFuel fuel : nat) (g : rules_t) (o : orders) (s : stream) : outcome (rawRes * stream) :=
  if peek s =? EOFChar then Ok (RawEmpty, s)
  else rawLoop loopFuel fuel g o 0 s [] SUGGEST_SKIP [].

(** grammar.go:301-322 [Eval]. *)
Definition evalTop (loopFuel fuel : nat) (g : rules_t) (o : orders) (s : stream) (level : Z)
  : outcome (rawRes * stream) :=
  let* (r, s') := evalRaw loopFuel fuel g o s in
  Ok (match r with RawOk a => RawOk (simplify level a) | _ => r end, s').

(** The order in which the records of [g_roots] are stored: one possible map
    iteration order. *)
Definition rootsOf (g : grammar) : list (list Z * rule) :=
  List.map (fun kr => (fst kr, rec_rule (snd kr))) (g_roots g).
Definition storedOrder (g : grammar) : orders :=
  mkOrders (fun _ => rootsOf g) (fun _ l => l) (fun l => l) (rootsOf g).
