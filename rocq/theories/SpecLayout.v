(** Texts that differ in layout only. *)
From Verif Require Import Base Stream Node Rule SpecRule SpecEv SpecDriver.

(** Two texts side by side: a rune that stands in both, or a run of white space in one
    where the other has another run. *)
Inductive piece := PRune (x : Z) | PRun (w w' : list Z).
Definition leftOf (p : piece) : list Z := match p with PRune x => [x] | PRun w _ => w end.
Definition rightOf (p : piece) : list Z := match p with PRune x => [x] | PRun _ w' => w' end.
Definition left (P : list piece) : list Z := flat_map leftOf P.
Definition right (P : list piece) : list Z := flat_map rightOf P.

Section Layout.
(** The white space that may be exchanged, and the runes that escape the next one. *)
Variables W E : list Z.
Definition run (w : list Z) : Prop := w <> [] /\ Forall (fun x => In x W) w.
Definition okPiece (p : piece) : Prop := match p with PRune _ => True | PRun w w' => run w /\ run w' end.
(** Whole runs are exchanged, none of them directly behind an escape. *)
Inductive okPieces : list piece -> Prop :=
| ok_nil : okPieces []
| ok_rune x P : okPieces P -> match P with PRun _ _ :: _ => isWS x = false /\ ~ In x E | _ => True end -> okPieces (PRune x :: P)
| ok_run w w' P : run w -> run w' -> okPieces P -> match P with PRun _ _ :: _ => False | PRune x :: _ => isWS x = false | [] => True end -> okPieces (PRun w w' :: P).
Definition sameLayout (t t' : list Z) : Prop := exists P, okPieces P /\ t = left P /\ t' = right P.
(** The same inside a text, where the ends do not matter. *)
Definition sameContent (c c' : list Z) : Prop := exists P, Forall okPiece P /\ c = left P /\ c' = right P.

(** The same tree; only the contents of blocks may be laid out differently. *)
Inductive sameTree : node -> node -> Prop :=
| st_content c c' : sameContent c c' -> sameTree (contentNode c) (contentNode c')
| st_node ty nm cs ks ks' pos st v d k : Forall2 sameTree ks ks' -> sameTree (Node ty nm cs ks pos st v d k) (Node ty nm cs ks' pos st v d k).

(** Rules that do not take the exchanged white space: it stands in no literal, lies below
    all ranges, and an escape is one of the runes [E]. *)
Inductive layoutFree : rule -> Prop :=
| lf_char b c u : ~ In c W -> layoutFree (RChar b c u)
| lf_chars b l : Forall (fun x => ~ In x W) l -> layoutFree (RChars b l)
| lf_string b l : Forall (fun x => ~ In x W) l -> layoutFree (RString b l)
| lf_range b lo lu hi hu : (forall x, In x W -> x < lo) -> layoutFree (RRange b lo lu hi hu)
| lf_eof b : layoutFree (REOF b)
| lf_ref b n : layoutFree (RRef b n)
| lf_group b x : layoutFree x -> layoutFree (RGroup b x)
| lf_option b x : layoutFree x -> layoutFree (ROption b x)
| lf_rep b x mn mx : layoutFree x -> layoutFree (RRep b x mn mx)
| lf_choice b gs : (forall grp x, In grp gs -> In x grp -> layoutFree x) -> layoutFree (RChoice b gs)
| lf_concat b l : (forall x, In x l -> layoutFree x) -> layoutFree (RConcat b l)
| lf_block b o v c e xs : layoutFree o -> layoutFree c ->
    match e with None => True | Some (RChar _ x _) => In x E /\ ~ In x W | Some _ => False end ->
    (forall x, In x xs -> layoutFree x) -> layoutFree (RBlock b o v c e xs).
Definition layoutFreeRules (g : rules_t) : Prop := forall n r, lookup g n = Some r -> layoutFree r.

(** The same outcome: the same tree, and the match ends at the same place. *)
Definition sameOutcome (t t' : list Z) (o o' : ores) : Prop :=
  match o, o' with
  | OMatch n u _ s, OMatch n' u' _ s' => sameTree n n' /\ s = s' /\ exists A B, okPieces (A ++ B) /\
      firstn u t = left A /\ firstn u' t' = right A /\ skipn u t = left B /\ skipn u' t' = right B
  | OFail _ s, OFail _ s' => s = s'
  | _, _ => False
  end.
(** The same answer of EvalRaw. *)
Definition sameVerdict (v v' : verdict) : Prop :=
  match v, v' with
  | VTree a, VTree a' => Forall2 sameTree a a'
  | VEmpty, VEmpty | VNoMatch, VNoMatch | VAmbiguity, VAmbiguity | VNoNode, VNoNode => True
  | _, _ => False
  end.
End Layout.
