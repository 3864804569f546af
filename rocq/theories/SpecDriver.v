(** What the evaluation drivers should do, on plain texts. *)
From Coq Require Import Permutation.
From Verif Require Import Base Stream Node Rule Grammar SpecRule SpecEval SpecEv.

(** Evaluating [r] on [t] meets none of the look-ahead cases of SpecEval.v. *)
Definition careful (g : rules_t) (r : rule) (f : Z) (t : list Z) : Prop := forall fuel, sem fuel g r f t <> SUnsafe.
(** ... and no tie between alternatives at its top. *)
Definition clearCut (g : rules_t) (r : rule) (f : Z) (t : list Z) : Prop :=
  forall fuel, sem fuel g r f t <> SUnsafe /\ forall k, sem fuel g r f t <> SOk (Amb k).

(** The leading-space modes in which root rules are evaluated. *)
Definition mode (f : Z) : Prop := f = SUGGEST_SKIP \/ f = SUGGEST_NOT_SKIP.

(* ------------------------------------------------------------------ *)
(** ** Embedded matches

    The sample is cut into runes at which the rule does not match and into
    matches, from left to right. *)
Inductive item := Plain (c : Z) | Found (tree : node) (chars : list Z).
Inductive Embeds (g : rules_t) (r : rule) : list Z -> list item -> Prop :=
| em_end k st : Ev g r NOT_SKIP [] (OFail k st) -> Embeds g r [] []
| em_plain c t k st l : Ev g r NOT_SKIP (c :: t) (OFail k st) -> Embeds g r t l -> Embeds g r (c :: t) (Plain c :: l)
| em_found t n u k st l : Ev g r NOT_SKIP t (OMatch n u k st) -> (u <= length t)%nat -> Embeds g r (skipn u t) l ->
    Embeds g r t (Found n (firstn u t) :: l).
Definition chars (i : item) : list Z := match i with Plain c => [c] | Found _ cs => cs end.
(** A text node, named _. *)
Definition asText (chars : list Z) : node := Node TText [95] chars [] None false false false false.
(** The children: runs of plain runes become one text node. *)
Fixpoint render (run : list Z) (l : list item) : list node :=
  match l with
  | [] => match run with [] => [] | _ => [asText run] end
  | Plain c :: l' => render (run ++ [c]) l'
  | Found n _ :: l' => (match run with [] => [] | _ => [asText run] end) ++ n :: render [] l'
  end.

(** Text nodes are never empty and never adjacent. *)
Definition isText (n : node) : bool := match n_type n with TText => true | _ => false end.
Inductive tidy : bool -> list node -> Prop :=
| td_nil b : tidy b []
| td_text n l : isText n = true -> n_chars n <> [] -> tidy true l -> tidy false (n :: l)
| td_node b n l : isText n = false -> tidy false l -> tidy b (n :: l).

Definition lengths (o : ores) : option nat := match o with OMatch _ u _ _ => Some u | OFail _ _ => None end.

(* ------------------------------------------------------------------ *)
(** ** Whole texts

    Round by round the root rule with the strictly longest match takes its part. *)
Inductive Whole (g : rules_t) (roots : list rule) : Z -> list Z -> list (node * list Z) -> Prop :=
| wh_end f : Whole g roots f [] []
| wh_round f t outs n u st l : t <> [] ->
    Forall2 (fun r o => Ev g r f t o) roots outs ->
    strictlyLongest (flat_map (fun o => match o with OMatch n u _ _ => [(n, u)] | OFail _ _ => [] end) outs) n u ->
    (exists k, In (OMatch n u k st) outs) -> (u <= length t)%nat ->
    Whole g roots (if st then SUGGEST_NOT_SKIP else SUGGEST_SKIP) (skipn u t) l ->
    Whole g roots f t ((n, firstn u t) :: l).

(** The rounds up to some point: what is left is the second text. *)
Inductive Rounds (g : rules_t) (roots : list rule) : Z -> list Z -> Z -> list Z -> Prop :=
| rd_here f t : Rounds g roots f t f t
| rd_round f t outs n u st f' t' : t <> [] ->
    Forall2 (fun r o => Ev g r f t o) roots outs ->
    strictlyLongest (flat_map (fun o => match o with OMatch n u _ _ => [(n, u)] | OFail _ _ => [] end) outs) n u ->
    (exists k, In (OMatch n u k st) outs) -> (u <= length t)%nat ->
    Rounds g roots (if st then SUGGEST_NOT_SKIP else SUGGEST_SKIP) (skipn u t) f' t' -> Rounds g roots f t f' t'.
(** No root rule matches; two of them match the same length, and none more. *)
Definition deadEnd (g : rules_t) (roots : list rule) (f : Z) (t : list Z) : Prop :=
  t <> [] /\ forall r, In r roots -> exists k st, Ev g r f t (OFail k st).
Definition torn (g : rules_t) (roots : list rule) (f : Z) (t : list Z) : Prop :=
  exists outs u l1 x l2 y l3, t <> [] /\ Forall2 (fun r o => Ev g r f t o) roots outs /\
    outs = l1 ++ x :: l2 ++ y :: l3 /\ lengths x = Some u /\ lengths y = Some u /\
    forall o v, In o outs -> lengths o = Some v -> (v <= u)%nat.

(** Go iterates over maps in any order. *)
Record legal (roots : list (list Z * rule)) (o : orders) : Prop := {
  lg_roots : forall k, Permutation (o_roots o k) roots;
  lg_matched : forall k l, Permutation (o_matched o k l) l;
  lg_errors : forall l, Permutation (o_errors o l) l;
  lg_desc : Permutation (o_desc o) roots }.

(** The answer of a driver, without positions and without what its errors carry. *)
Inductive verdict := VTree (a : ast) | VEmpty | VNoMatch | VAmbiguity | VNoNode.
Definition verdictOf (r : rawRes) : verdict :=
  match r with
  | RawOk a => VTree (List.map erase a)
  | RawEmpty => VEmpty
  | RawNoMatch _ _ => VNoMatch
  | RawAmbiguity _ _ => VAmbiguity
  | RawNoNode => VNoNode
  end.

(** The same answer up to positions; of errors, the same kind. *)
Definition sameRaw (x y : outcome (rawRes * stream)) : Prop :=
  match x, y with
  | Ok (r, _), Ok (r', _) => verdictOf r = verdictOf r'
  | OutOfFuel, OutOfFuel => True
  | _, _ => False
  end.

(** The roots are at most two; or any two of them look equally far, and do not
    match the same length. *)
Definition even (g : rules_t) (t : list Z) (r1 r2 : rule) : Prop :=
  forall f p o1 o2, mode f -> Ev g r1 f (skipn p t) o1 -> Ev g r2 f (skipn p t) o2 ->
    looked o1 = looked o2 /\ (lengths o1 = lengths o2 -> lengths o1 = None).
Definition orderly (g : rules_t) (roots : list rule) (t : list Z) : Prop :=
  (length roots <= 2)%nat \/ ForallOrdPairs (even g t) roots.

(** What was looked at in vain is looked at again in the next round, if a root rule
    matches there: of a round that is reached, won by a match of [u] runes, and of the
    round after it. *)
Definition looksAgain (g : rules_t) (roots : list rule) (t : list Z) : Prop :=
  forall f t' outs outs' n u k st o, Rounds g roots SUGGEST_SKIP t f t' ->
    Forall2 (fun r o => Ev g r f t' o) roots outs ->
    strictlyLongest (flat_map (fun o => match o with OMatch n u _ _ => [(n, u)] | OFail _ _ => [] end) outs) n u ->
    In (OMatch n u k st) outs -> (u < length t')%nat ->
    Forall2 (fun r o => Ev g r (if st then SUGGEST_NOT_SKIP else SUGGEST_SKIP) (skipn u t') o) roots outs' ->
    (exists n' u' k' st', In (OMatch n' u' k' st') outs') ->
    In o outs -> exists o', In o' outs' /\ (looked o <= u + looked o')%nat.

(** All the runes recorded in a tree. *)
Fixpoint runesIn (n : node) : list Z := n_chars n ++ flat_map runesIn (n_kids n).
Fixpoint blockFree (r : rule) : bool :=
  match r with
  | RGroup _ x | ROption _ x | RRep _ x _ _ => blockFree x
  | RChoice _ gs => forallb (forallb blockFree) gs
  | RConcat _ l => forallb blockFree l
  | RBlock _ _ _ _ _ _ => false
  | _ => true
  end.
