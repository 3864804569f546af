(** Vocabulary for the properties of grammars: lines, definitions, histories of
    calls. *)
From Verif Require Import Base Stream Node Rule Grammar SpecStream SpecRule SpecParse.

(** The lines of a text. *)
Definition linesOf (txt : list Z) (ls : list (list Z)) : Prop :=
  ls <> [] /\ (forall l, In l ls -> ~ In 10 l) /\
  exists first others, ls = first :: others /\ txt = first ++ concat (List.map (fun l => 10 :: l) others).

(** [m] is [l] without the white space around it. *)
Definition edged (m : list Z) : Prop := forall c, (exists x, m = c :: x) \/ (exists x, m = x ++ [c]) -> ~ In c whiteSpaces.
Definition trimmed (l m : list Z) : Prop := exists w w', l = w ++ m ++ w' /\ white w /\ white w' /\ edged m.

(** A line that defines nothing, and one that defines [name] as [body]. *)
Definition inert (ln : list Z) : Prop := exists m, trimmed ln m /\ (m = [] \/ exists x, m = 47 :: 47 :: x).
Definition defines (ln name body : list Z) : Prop :=
  exists m a b, trimmed ln m /\ m = a ++ 61 :: b /\ ~ In 61 a /\ trimmed a name /\ trimmed b body.

(** rule names: a letter, then letters, digits and underscores. *)
Definition goodName (n : list Z) : Prop :=
  exists c x, n = c :: x /\ ((65 <= c <= 90) \/ (97 <= c <= 122)) /\
    Forall (fun d => (48 <= d <= 57) \/ (65 <= d <= 90) \/ (97 <= d <= 122) \/ d = 95) x.

(** Histories of calls on one grammar. *)
Inductive call := AddRule (def : list Z) | ParseRule (name str : list Z) | Validate.
Definition perform (g : grammar) (c : call) : grammar :=
  match c with
  | AddRule d => snd (addRule g d)
  | ParseRule n s => snd (parseRule g n s)
  | Validate => snd (validate g)
  end.
Definition history (calls : list call) : grammar := fold_left perform calls newGrammar.
Definition textOf (c : call) : list Z := match c with AddRule d => d | ParseRule n s => s | Validate => [] end.
(** All calls of the history got runes, i.e. decoded Go strings. *)
Definition decoded (calls : list call) : Prop := Forall (fun c => runesOk (textOf c)) calls.
(** What the call returned: an error or not. *)
Definition succeeds (g : grammar) (c : call) : Prop :=
  match c with
  | AddRule d => exists r, fst (addRule g d) = inl r
  | ParseRule n s => exists r, fst (parseRule g n s) = inl r
  | Validate => fst (validate g) = None
  end.
(** No call that adds a rule returned an error. *)
Definition addsSucceed (calls : list call) : Prop :=
  forall before c after, calls = before ++ c :: after -> c <> Validate -> succeeds (history before) c.

(** [m] is named by the rule of some record. *)
Definition referenced (g : grammar) (m : list Z) : Prop :=
  exists n r, getRule g n = Some r /\ In m (refs r).
Definition closedGrammar (g : grammar) : Prop := forall m, referenced g m -> exists r, getRule g m = Some r.

(** [n] is a rule that no rule refers to. *)
Definition topmost (g : grammar) (n : list Z) : Prop := (exists r, getRule g n = Some r) /\ ~ referenced g n.
(** [n] is among the root rules that EvalRaw tries. *)
Definition isRoot (g : grammar) (n : list Z) : Prop := In n (List.map fst (g_roots g)).
(** The two grammars hold the same rules and roots: evaluation cannot tell them apart. *)
Definition sameGrammar (g g' : grammar) : Prop := rules_of g = rules_of g' /\ rootsOf g = rootsOf g' /\ forall n, getRecord g n = getRecord g' n.

(** An error message that names an undefined rule. *)
Fixpoint namesUndefined (e : eerr) : Prop :=
  match e with
  | EUndefined _ _ => True
  | EConcat _ (Some x) | EChoice _ (Some x) => namesUndefined x
  | _ => False
  end.
Definition blamesUndefined (res : result) : Prop := exists e, r_err res = Some e /\ namesUndefined e.

(** What a definition text says, line by line ([k] counts from 0). *)
Definition line (ls : list (list Z)) (k : nat) (name body : list Z) : Prop :=
  exists ln, nth_error ls k = Some ln /\ ~ inert ln /\ defines ln name body.
(** ParseRule on an empty grammar takes [body] as [r], or does not take it. *)
Definition readAs (name body : list Z) (r : rule) : Prop := exists g', parseRule newGrammar name body = (inl r, g').
Definition unreadable (name body : list Z) : Prop := exists g', parseRule newGrammar name body = (inr GParse, g').
(** What can be wrong with line [k]. *)
Inductive badLine (ls : list (list Z)) (k : nat) : gerr -> Prop :=
| bad_noeq ln : nth_error ls k = Some ln -> ~ inert ln -> ~ In 61 ln -> badLine ls k GNoEq
| bad_name name body : line ls k name body -> ~ goodName name -> badLine ls k GName
| bad_duplicate name body j body' : line ls k name body -> goodName name -> (j < k)%nat -> line ls j name body' -> badLine ls k GDuplicate
| bad_body name body : line ls k name body -> goodName name -> (forall j body', (j < k)%nat -> ~ line ls j name body') ->
    unreadable name body -> badLine ls k GParse.
(** The first line with something wrong. *)
Definition firstBad (ls : list (list Z)) (k : nat) (e : gerr) : Prop := badLine ls k e /\ forall j e', (j < k)%nat -> ~ badLine ls j e'.
Definition defined (ls : list (list Z)) (m : list Z) : Prop := exists k body, line ls k m body.
Definition mentioned (ls : list (list Z)) (m : list Z) : Prop :=
  exists k name body r, line ls k name body /\ readAs name body r /\ In m (refs r).
