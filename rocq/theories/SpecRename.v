(** Changing the names and marks in a grammar: every rule name goes through [rho];
    with [marks = false] all marks (virtual, non-data, tokenized) are taken away.
    The same for trees, results and errors.  Nothing here evaluates. *)
From Verif Require Import Base Stream Node Rule Parse Grammar.

Section Image.
Variable rho : list Z -> list Z.
Variable marks : bool.

Definition imBase (b : rbase) : rbase :=
  mkBase (rho (b_name b)) (marks && b_virtual b) (marks && b_nondata b) (marks && b_tokenized b).
Fixpoint imRule (r : rule) : rule :=
  match r with
  | RChar b t u => RChar (imBase b) t u
  | RChars b t => RChars (imBase b) t
  | RString b t => RString (imBase b) t
  | RRange b l lu h hu => RRange (imBase b) l lu h hu
  | REOF b => REOF (imBase b)
  | RRef b n => RRef (imBase b) (rho n)
  | RGroup b x => RGroup (imBase b) (imRule x)
  | ROption b x => ROption (imBase b) (imRule x)
  | RRep b x mn mx => RRep (imBase b) (imRule x) mn mx
  | RChoice b gs => RChoice (imBase b) (List.map (List.map imRule) gs)
  | RConcat b l => RConcat (imBase b) (List.map imRule l)
  | RBlock b o v c e x => RBlock (imBase b) (imRule o) v (imRule c) (option_map imRule e) (List.map imRule x)
  end.
Definition imRules (g : rules_t) : rules_t := List.map (fun kr => (rho (fst kr), imRule (snd kr))) g.
Definition imRecs (l : list (list Z * rrec)) : list (list Z * rrec) :=
  List.map (fun kr => (rho (fst kr), mkRec (imRule (rec_rule (snd kr))) (rec_line (snd kr)))) l.
Definition imGrammar (g : grammar) : grammar :=
  mkGrammar (imRecs (g_records g)) (List.map (fun u => (rho (fst u), rho (snd u))) (g_usage g))
    (imRecs (g_terminals g)) (imRecs (g_roots g)) (g_maxLine g).

Fixpoint imNode (n : node) : node :=
  Node (n_type n) (rho (n_name n)) (n_chars n) (List.map imNode (n_kids n)) (n_pos n) (n_sticky n)
    (marks && n_virtual n) (marks && n_nondata n) (marks && n_tokenized n).
Definition imWanted (w : wanted) : wanted :=
  match w with
  | WChar b c => WChar (imBase b) c
  | WChars b t => WChars (imBase b) t
  | WString b t => WString (imBase b) t
  | WRange b lo hi => WRange (imBase b) lo hi
  | WEOF => WEOF
  end.
Fixpoint imErr (e : eerr) : eerr :=
  match e with
  | EMissing w p => EMissing (imWanted w) p
  | EUndefined b n => EUndefined (imBase b) (rho n)
  | EConcat self e => EConcat (imRule self) (option_map imErr e)
  | EChoice self e => EChoice (imRule self) (option_map imErr e)
  | EAmbiguity name ns => EAmbiguity (rho name) (List.map imNode ns)
  | EGreedy ns => EGreedy (List.map imNode ns)
  | ERepMin self n => ERepMin (imRule self) n
  | EExclude t => EExclude t
  | EBlockEOF c => EBlockEOF (imRule c)
  end.
Definition imRes (r : result) : result :=
  mkRes (option_map imNode (r_node r)) (option_map imErr (r_err r)) (r_erridx r) (r_read r) (r_unused r) (r_sticky r).
Definition imNamed {A} (h : A -> A) (l : list (list Z * A)) : list (list Z * A) := List.map (fun p => (rho (fst p), h (snd p))) l.
Definition imRaw (r : rawRes) : rawRes :=
  match r with
  | RawOk a => RawOk (List.map imNode a)
  | RawEmpty => RawEmpty
  | RawNoMatch roots es => RawNoMatch (imNamed imRule roots) (imNamed imErr es)
  | RawAmbiguity r m => RawAmbiguity (imRes r) (imRes m)
  | RawNoNode => RawNoNode
  end.
(** Map orders that visit the corresponding things in the corresponding order. *)
Record sameOrders (o o' : orders) : Prop := {
  so_roots : forall k, o_roots o' k = imNamed imRule (o_roots o k);
  so_matched : forall k l, o_matched o' k (imNamed imRes l) = imNamed imRes (o_matched o k l);
  so_errors : forall l, o_errors o' (imNamed imErr l) = imNamed imErr (o_errors o l);
  so_desc : o_desc o' = imNamed imRule (o_desc o) }.
End Image.

(** What happens to the value of an answer. *)
Definition onOk {A B} (h : A -> B) (o : outcome A) : outcome B :=
  match o with Ok a => Ok (h a) | Panic => Panic | OutOfFuel => OutOfFuel end.

(** A renaming: different names stay different; the names that the code itself
    gives (none, EOF, and _ for plain text) stay. *)
Record renaming (rho : list Z -> list Z) : Prop := {
  rn_inj : forall a b, rho a = rho b -> a = b;
  rn_none : rho [] = [];
  rn_eof : rho nameEOF = nameEOF;
  rn_text : rho [95] = [95] }.
Definition idName (n : list Z) : list Z := n.
