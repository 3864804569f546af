(** Model of the command line tool, main/xbnf.go.  The arguments are given as package
    flag leaves them (its parsing is not modelled), files as a function from names to
    decoded contents.  What the tool prints is a list of [printed]; the texts of the
    errors are replaced by their kinds. *)
From Verif Require Import Base Stream Node Rule Parse Grammar Print Show.

(** main/xbnf.go:15-29. *)
Record args := mkArgs {
  a_help : bool;              (* -help, or no arguments at all *)
  a_xbnf : list Z;            (* "" if not given *)
  a_types : bool;
  a_rules : list (list Z);
  a_texts : list (list Z);
  a_files : list (list Z) }.

Inductive cliErr :=
| CRead                       (* ioutil.ReadFile failed *)
| CGrammar (line : Z) (e : gerr)
| CRule (e : gerr)
| CValidate (e : gerr)
| CEval (r : rawRes).
Inductive printed :=
| PUsage
| PNoRules
| PAddingFile (name : list Z)
| PAddingRule (def : list Z)
| PError (e : cliErr)
| PGrammar (txt : list Z)
| PText (txt : list Z)
| PFile (name : list Z)
| PTree (txt : list Z).

(** What main depends on besides the arguments: the files, and the iteration orders of
    the maps, for Serialize and for the [k]th evaluation. *)
Record world := mkWorld {
  w_file : list Z -> option (list Z);
  w_recs : list (list Z * rrec) -> list (list Z * rrec);
  w_recs2 : list (list Z * rrec) -> list (list Z * rrec);
  w_orders : nat -> orders }.

(** main/xbnf.go:79-81. *)
Definition textTree (a : ast) : ast := astRemoveRedundant (astRemoveNonData (astRemoveVirtual a)).
(** main/xbnf.go:98-101. *)
Definition fileTree (a : ast) : ast := astRemoveRedundant (astRemoveNonData (astMerge (astRemoveVirtual a))).

(** main/xbnf.go:71-83: the loop over the texts; [k] evaluations were done before.  The
    flag says whether main goes on.  AST.Filename is never set. *)
Fixpoint textsLoop (lf fuel : nat) (g : rules_t) (cfg : config) (os : nat -> orders) (k : nat) (l : list (list Z))
  : outcome (list printed * bool) :=
  match l with
  | [] => Ok ([], true)
  | t :: l' =>
    let* (r, _) := evalTop lf fuel g (os k) (newStream t) 0 in
    match r with
    | RawOk a => let* (out, go) := textsLoop lf fuel g cfg os (S k) l' in
                 Ok (PText t :: PTree (astTree cfg [] (textTree a)) :: out, go)
    | _ => Ok ([PText t; PError (CEval r)], false)
    end
  end.
(** main/xbnf.go:85-103: the loop over the files. *)
Fixpoint filesLoop (lf fuel : nat) (g : rules_t) (cfg : config) (fs : list Z -> option (list Z)) (os : nat -> orders) (k : nat)
  (l : list (list Z)) : outcome (list printed * bool) :=
  match l with
  | [] => Ok ([], true)
  | f :: l' =>
    match fs f with
    | None => Ok ([PFile f; PError CRead], false)
    | Some t =>
      let* (r, _) := evalTop lf fuel g (os k) (newStream t) 0 in
      match r with
      | RawOk a => let* (out, go) := filesLoop lf fuel g cfg fs os (S k) l' in
                   Ok (PFile f :: PTree (astTree cfg [] (fileTree a)) :: out, go)
      | _ => Ok ([PFile f; PError (CEval r)], false)
      end
    end
  end.

(** main/xbnf.go:51-58: the loop over the rules; [None] if main returned. *)
Fixpoint rulesLoop (g : grammar) (l : list (list Z)) : list printed * option grammar :=
  match l with
  | [] => ([], Some g)
  | d :: l' =>
    match addRule g d with
    | (inr e, _) => ([PAddingRule d; PError (CRule e)], None)
    | (inl _, g') => let '(out, r) := rulesLoop g' l' in (PAddingRule d :: out, r)
    end
  end.

(** main/xbnf.go:60-66: validation and the listing.  main goes on after an error. *)
Definition listGrammar (w : world) (g : grammar) : list printed * grammar :=
  let '(e, g') := validate g in
  (match e with Some e => [PError (CValidate e)] | None => [] end
   ++ [PGrammar (rs "Grammar:" ++ [10] ++ rs "    " ++ indent (rs "    ") (serialize false g' (w_recs w (g_records g')) (w_recs2 w (g_records g'))))],
   g').

(** main/xbnf.go:26-104.  The grammar is never nil in line 47. *)
Definition cli (lf fuel : nat) (w : world) (a : args) : outcome (list printed) :=
  if a_help a then Ok [PUsage]
  else if negb (nonempty (a_xbnf a)) && negb (nonempty (a_rules a)) then Ok [PNoRules; PUsage]
  else match w_file w (a_xbnf a) with
  | None => Ok [PAddingFile (a_xbnf a); PError CRead]
  | Some txt =>
    match newGrammarFromString txt with
    | inr (line, e) => Ok [PAddingFile (a_xbnf a); PError (CGrammar line e)]
    | inl g =>
      match rulesLoop g (a_rules a) with
      | (out1, None) => Ok (PAddingFile (a_xbnf a) :: out1)
      | (out1, Some g1) =>
        let '(out2, g2) := listGrammar w g1 in
        let cfg := mkConfig (a_types a) false in
        let* (out3, go) := textsLoop lf fuel (rules_of g2) cfg (w_orders w) 0 (a_texts a) in
        if go then
          let* (out4, _) := filesLoop lf fuel (rules_of g2) cfg (w_file w) (w_orders w) (length (a_texts a)) (a_files a) in
          Ok (PAddingFile (a_xbnf a) :: out1 ++ out2 ++ out3 ++ out4)
        else Ok (PAddingFile (a_xbnf a) :: out1 ++ out2 ++ out3)
      end
    end
  end.
