(** Vocabulary for the evaluation properties. *)
From Verif Require Import Base Stream Node Rule SpecStream.

(* ------------------------------------------------------------------ *)
(** ** Well-formed rules

    The arities that the definition parser guarantees (C38). *)
Definition ident (n : list Z) : Prop :=
  n <> [] /\ n <> nameEOF /\
  Forall (fun c => (48 <= c <= 57) \/ (65 <= c <= 90) \/ (97 <= c <= 122) \/ c = 95) n.

Inductive wfRule : rule -> Prop :=
| wf_char b t u : 0 <= t -> wfRule (RChar b t u)
| wf_chars b t : (2 <= length t)%nat -> runesOk t -> wfRule (RChars b t)
| wf_string b t : runesOk t -> wfRule (RString b t)
| wf_range b lo lu hi hu : 0 <= lo -> 0 <= hi -> wfRule (RRange b lo lu hi hu)
| wf_eof b : wfRule (REOF b)
| wf_ref b n : ident n -> wfRule (RRef b n)
| wf_group b x : wfRule x -> wfRule (RGroup b x)
| wf_option b x : wfRule x -> wfRule (ROption b x)
| wf_rep b x mn mx : wfRule x -> 0 <= mn < 4294967296 -> 0 <= mx < 4294967296 -> (mx = 0 \/ mn <= mx) ->
    wfRule (RRep b x mn mx)
| wf_choice b gs : (2 <= length (concat gs))%nat -> (forall g, In g gs -> g <> []) ->
    (forall g x, In g gs -> In x g -> wfRule x) -> wfRule (RChoice b gs)
| wf_concat b l : (2 <= length l)%nat -> (forall x, In x l -> wfRule x) -> wfRule (RConcat b l)
| wf_block b o v c e xs : wfRule o -> wfRule c -> (forall x, e = Some x -> wfRule x) ->
    (forall x, In x xs -> wfRule x) -> wfRule (RBlock b o v c e xs).

Definition wfRules (g : rules_t) : Prop := forall n r, lookup g n = Some r -> wfRule r.

(* ------------------------------------------------------------------ *)
(** ** Derivation trees *)

(** First known position among the children. *)
Fixpoint firstPos (kids : list node) : option position :=
  match kids with
  | [] => None
  | n :: ks => match n_pos n with Some p => Some p | None => firstPos ks end
  end.

(** A node carries the name and the annotations of its rule. *)
Definition build (ty : rtype) (b : rbase) (chars : list Z) (kids : list node) (pos : option position) (sticky : bool) : node :=
  Node ty (b_name b) chars kids pos sticky (b_virtual b) (b_nondata b) (b_tokenized b).
(** An annotation of a reference switches the one of the rule. *)
Definition flip (b : rbase) (n : node) : node :=
  Node (n_type n) (n_name n) (n_chars n) (n_kids n) (n_pos n) (n_sticky n)
    (xorb (b_virtual b) (n_virtual n)) (xorb (b_nondata b) (n_nondata n)) (xorb (b_tokenized b) (n_tokenized n)).
(** White space is skipped behind a node that is not sticky; an option that is
    absent leaves the mode as it was. *)
Definition nextMode (f : Z) (n : node) (sticky : bool) : Z :=
  match n_type n, n_kids n, n_chars n with
  | TOption, [], [] => f
  | _, _, _ => if sticky then SUGGEST_NOT_SKIP else SUGGEST_SKIP
  end.

(** [derives g r n]: [n] is a tree of rule [r]. *)
Inductive derives (g : rules_t) : rule -> node -> Prop :=
| dv_char b t u pos : derives g (RChar b t u) (build TChar b [t] [] pos true)
| dv_chars b t pos : derives g (RChars b t) (build TChars b t [] pos true)
| dv_string b t pos : derives g (RString b t) (build TString b t [] pos false)
| dv_range b lo lu hi hu c pos :
    (lo <= c <= hi) \/ (In c whiteSpaces /\ lo <= c /\ hi <= c) ->
    derives g (RRange b lo lu hi hu) (build TChars b [c] [] pos true)
| dv_eof b pos :
    derives g (REOF b) (Node TEOF nameEOF [EOFChar] [] pos true (b_virtual b) (b_nondata b) (b_tokenized b))
| dv_ref b n r nd : lookup g n = Some r -> derives g r nd -> derives g (RRef b n) (flip b nd)
| dv_group b x nd : derives g x nd -> derives g (RGroup b x) (build TGroup b [] [nd] None (n_sticky nd))
| dv_option_none b x st : derives g (ROption b x) (build TOption b [] [] None st)
| dv_option_some b x nd : derives g x nd ->
    derives g (ROption b x) (build TOption b [] [nd] (n_pos nd) (n_sticky nd))
| dv_rep b x mn mx kids st :
    (forall n, In n kids -> derives g x n) ->
    mn <= Z.of_nat (length kids) -> (0 < mx -> Z.of_nat (length kids) <= mx) ->
    (st = true -> forall n, In n kids -> n_sticky n = true) ->
    derives g (RRep b x mn mx) (build TRepetition b [] kids (firstPos kids) st)
| dv_choice b gs grp x nd st : In grp gs -> In x grp -> derives g x nd ->
    (st = true -> n_sticky nd = true) ->
    derives g (RChoice b gs) (build TChoice b [] [nd] (n_pos nd) st)
| dv_concat b l kids : Forall2 (derives g) l kids ->
    derives g (RConcat b l) (build TConcat b [] kids (firstPos kids) (forallb n_sticky kids))
| dv_block b o (v : bool) c e xs no nc content cpos : derives g o no -> derives g c nc ->
    derives g (RBlock b o v c e xs)
      (build TBlock b []
         (no :: Node TChars [] content [] cpos true false false false :: (if v then [] else [nc]))
         (n_pos no) false).

(* ------------------------------------------------------------------ *)
(** ** What a terminal may match

    [pre] is the white space skipped in front of the literal. *)
Definition skips (f : Z) (alsoSuggestNotSkip : bool) : bool :=
  (f =? SUGGEST_SKIP) || (alsoSuggestNotSkip && (f =? SUGGEST_NOT_SKIP)).

Definition white (l : list Z) : Prop := Forall (fun c => In c whiteSpaces) l.

(** A single rune: the first one, or the first one behind white space. *)
Definition charAt (skip : bool) (t : Z) (text pre post : list Z) : Prop :=
  text = pre ++ t :: post /\ white pre /\ ~ In t pre /\ (skip = false -> pre = []).

(** A literal of several runes.  When it consists of white space only, it has to
    end where the white space ends. *)
Definition literalAt (skip : bool) (t : list Z) (text pre post : list Z) : Prop :=
  text = pre ++ t ++ post /\ white pre /\ (skip = false -> pre = []) /\
  (skip = true -> white t -> match post with [] => True | c :: _ => ~ In c whiteSpaces end).

(** The first rune a range looks at: the first one, or the first one that is not
    white space. *)
Definition firstAt (skip : bool) (c : Z) (text pre post : list Z) : Prop :=
  text = pre ++ c :: post /\ white pre /\ (skip = true -> ~ In c whiteSpaces) /\ (skip = false -> pre = []).

(* ------------------------------------------------------------------ *)
(** ** Parts of a tree *)

(** [m] occurs in the tree [n] (possibly is [n]). *)
Inductive sub : node -> node -> Prop :=
| sub_here n : sub n n
| sub_kid m k n : In k (n_kids n) -> sub m k -> sub m n.
