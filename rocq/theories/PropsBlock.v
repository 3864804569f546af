(** C19-C21: blocks, excludes, termination. *)
From Verif Require Import Base Stream StreamFacts Node Rule Parse Grammar SpecStream SpecRule TermFacts TermSpec SpecEval SpecEv WfDec
  SpecBlock BlockFacts SpecTerm LoopFacts BoundFacts ExclFacts GrowFacts EvalSem PropsEval.

(* ---------------- C19 ---------------- *)

(** [r = <'(' '\' ')'>] (the escape is a backslash) on [(a\b)]: the content comes
    out as [a\\b]. *)
Definition blockRule (b : rbase) (o c : Z) (e : option (rbase * Z * bool)) : rule :=
  RBlock b (RChar noBase o false) false (RChar noBase c false) (escRule e) [].
Definition c19Esc : option (rbase * Z * bool) := Some (noBase, 92, false).
Definition c19Text : list Z := Eval vm_compute in rs "(a\b) rest".
Theorem C19_block_content_refuted :
  ~ forall g fuel b o c e s res s' body, wfRules g -> 0 <= o -> 0 <= c -> (forall b1 e1 u1, e = Some (b1, e1, u1) -> 0 <= e1 /\ e1 <> c) ->
      runesOk (rest s) -> rest s = o :: body -> ~ In o whiteSpaces ->
      eval fuel g (blockRule b o c e) s SUGGEST_SKIP = Ok (res, s') ->
      match upToClose 1 (escRune e) c body with
      | Some (ct, after) => exists n, r_node res = Some n /\ kidChars n = [[o]; ct; [c]] /\ rest s' = after
      | None => r_node res = None
      end.
Proof.
  intros H. set (s := newStream c19Text).
  assert (X : match eval 20 [] (blockRule noBase 40 41 c19Esc) s SUGGEST_SKIP with
    | Ok (res, _) => match r_node res with Some n => kidChars n = [rs "("; rs "a\\b"; rs ")"] | None => False end
    | _ => False end) by (vm_compute; reflexivity).
  destruct (eval 20 [] (blockRule noBase 40 41 c19Esc) s SUGGEST_SKIP) as [[res s']| |] eqn:E; [|exact X..].
  specialize (H [] 20%nat noBase 40 41 c19Esc s res s' (tl c19Text) (okRules_ok [] eq_refl) ltac:(lia) ltac:(lia)).
  assert (Y : exists n, r_node res = Some n /\ kidChars n = [[40]; rs "a\b"; [41]] /\ rest s' = rs " rest").
  { apply H; auto.
    - intros b1 e1 u1 EE. injection EE as _ <- _. lia.
    - apply okRunes_ok. reflexivity.
    - apply isWS_nIn. reflexivity. }
  destruct Y as (n & N & K & _). rewrite N, K in X. vm_compute in X. discriminate.
Qed.
Print Assumptions C19_block_content_refuted.

(** What is missing: an escape in front of a rune other than the close comes out
    twice ([upToClose 2]).  Acceptance and the place where the block ends are as
    they should be, the content too when every escape stands in front of a close.
    Fuel of the length of the text is enough. *)
Theorem C19_block_content_partial : forall g b bo o uo v bc c uc esc s f pre body fuel, 0 <= o -> 0 <= c ->
  (forall be e ue, esc = Some (be, e, ue) -> 0 <= e /\ e <> c) -> runesOk (rest s) -> rest s = pre ++ o :: body -> white pre ->
  (f <> SUGGEST_SKIP -> pre = []) -> (f = SUGGEST_SKIP -> ~ In o whiteSpaces) -> (length body + 2 <= fuel)%nat ->
  exists res s', eval fuel g (RBlock b (RChar bo o uo) v (RChar bc c uc) (escRule esc) []) s f = Ok (res, s') /\
  match upToClose 1 (escRune esc) c body with
  | Some (ct, after) => exists n ct', r_node res = Some n /\ n_type n = TBlock /\ rest s' = after /\
      kidChars n = [o] :: ct' :: (if v then [] else [[c]]) /\ upToClose 2 (escRune esc) c body = Some (ct', after) /\
      (escapesClose (escRune esc) c body = true -> ct' = ct)
  | None => r_node res = None /\ r_err res = Some (EBlockEOF (RChar bc c uc)) /\ rest s' = []
  end.
Proof. exact block_eval. Qed.
Print Assumptions C19_block_content_partial.

(** A string literal with an escaped quote: the parser builds this block from the
    notation, the specification and the evaluation give the same content. *)
Definition c19Rule : rule := Eval vm_compute in ruleOf (rs "r = <'""' '\\' '""'>").
Definition c19Str : list Z := Eval vm_compute in rs " ""say \""hi\"""" end".
Example C19_example :
  (exists b bo bc be, c19Rule = RBlock b (RChar bo 34 false) false (RChar bc 34 false) (escRule (Some (be, 92, false))) []) /\
  (exists body, c19Str = [32] ++ 34 :: body /\ escapesClose (Some 92) 34 body = true /\
     upToClose 1 (Some 92) 34 body = Some (rs "say ""hi""", rs " end")) /\
  match eval 30 [] c19Rule (newStream c19Str) SUGGEST_SKIP with
  | Ok (res, s') => match r_node res with Some n => kidChars n = [[34]; rs "say ""hi"""; [34]] | None => False end /\ rest s' = rs " end"
  | _ => False
  end.
Proof.
  split; [do 4 eexists; vm_compute; reflexivity|]. split; [eexists; vm_compute; auto|]. vm_compute. auto.
Qed.

(* ---------------- C20 ---------------- *)

(** [r = <'(' ^'x' ^'x' ')'>] accepts [(xa)]: the two excludes tie. *)
Definition c20Excl : list rule := [RChar noBase 120 false; RChar noBase 120 false].
Definition c20Rule : rule := RBlock noBase (RChar noBase 40 false) false (RChar noBase 41 false) None c20Excl.
Theorem C20_excludes_refuted :
  ~ forall g fuel b op v cl excl s f res s' n no u k st, wfRules g -> wfRule (RBlock b op v cl None excl) -> runesOk (rest s) ->
      eval fuel g (RBlock b op v cl None excl) s f = Ok (res, s') -> r_node res = Some n ->
      Ev g op f (rest s) (OMatch no u k st) -> forall x, In x excl -> fails g x (skipn u (rest s)).
Proof.
  intros H. set (s := newStream (rs "(xa)")).
  assert (X : match eval 20 [] c20Rule s SUGGEST_SKIP with Ok (res, _) => r_node res <> None | _ => False end) by (vm_compute; discriminate).
  destruct (eval 20 [] c20Rule s SUGGEST_SKIP) as [[res s']| |] eqn:E; [|exact X..].
  destruct (r_node res) as [n|] eqn:N; [|congruence].
  assert (O : exists no, Ev [] (RChar noBase 40 false) SUGGEST_SKIP (rest s) (OMatch no 1 1 true)).
  { eexists. eapply ev_eq; [apply ev_char|vm_compute; reflexivity]. }
  destruct O as (no & O).
  destruct (H _ _ _ _ _ _ _ _ _ _ _ _ _ _ _ _ (okRules_ok [] eq_refl) (okRule_ok c20Rule eq_refl) (okRunes_ok (rest s) eq_refl) E N O
    (RChar noBase 120 false) (or_introl eq_refl)) as (k & st & F).
  assert (M : exists m, Ev [] (RChar noBase 120 false) NOT_SKIP (skipn 1 (rest s)) (OMatch m 1 1 true)).
  { eexists. eapply ev_eq; [apply ev_char|vm_compute; reflexivity]. }
  destruct M as (m & M). pose proof (C15_semantics_deterministic _ _ _ _ _ _ F M). discriminate.
Qed.
Print Assumptions C20_excludes_refuted.
Example C20_notation : match ruleOf (rs "r = <'(' ^'x' ^'x' ')'>") with RBlock _ _ _ _ None [RChar _ 120 _; RChar _ 120 _] => True | _ => False end.
Proof. vm_compute. exact I. Qed.

(** What is missing: texts with a matched escape and the other cases of [SUnsafe].
    Otherwise a block that matches has no match of an exclude from the end of the
    open to the close, the close is the first one, and the content is the text in
    between. *)
Theorem C20_excludes_partial : forall g fuel b op v cl esc excl s f res s' n,
  wfRules g -> wfRule (RBlock b op v cl esc excl) -> runesOk (rest s) ->
  eval fuel g (RBlock b op v cl esc excl) s f = Ok (res, s') ->
  sem fuel g (RBlock b op v cl esc excl) f (rest s) <> SUnsafe -> r_node res = Some n ->
  exists no u k st pc nc uc kc sc, Ev g op f (rest s) (OMatch no u k st) /\ (u <= pc)%nat /\
    (forall i, (u <= i <= pc)%nat -> forall x, In x excl -> fails g x (skipn i (rest s))) /\
    (forall i, (u <= i < pc)%nat -> fails g cl (skipn i (rest s))) /\
    Ev g cl NOT_SKIP (skipn pc (rest s)) (OMatch nc uc kc sc) /\
    List.map erase (n_kids n) = no :: contentNode (firstn (pc - u) (skipn u (rest s))) :: (if v then [] else [nc]).
Proof. exact block_excludes. Qed.
Print Assumptions C20_excludes_partial.

(** A comment that must not contain another comment opening, or a line end. *)
Definition c20Good : rule := Eval vm_compute in ruleOf (rs "r = <""/*"" ^'/*' ^'#' '*/'>").
Example C20_example :
  okRule c20Good = true /\
  match sem 30 [] c20Good SUGGEST_SKIP (rs "/* a*b */ c"), eval 30 [] c20Good (newStream (rs "/* a*b */ c")) SUGGEST_SKIP with
  | SOk (Match _ 9 _ _), Ok (res, _) => match r_node res with Some n => kidChars n = [rs "/*"; rs " a*b "; rs "*/"] | None => False end
  | _, _ => False
  end /\
  match eval 30 [] c20Good (newStream (rs "/* a /* b */ c")) SUGGEST_SKIP with Ok (res, _) => r_node res = None | _ => False end.
Proof. vm_compute. auto. Qed.

(* ---------------- C21 ---------------- *)

(** [r = r 'a'] is accepted, and evaluating it never ends, whatever the text. *)
Lemma getRule_lookup g n : getRule g n = lookup (rules_of g) n.
Proof.
  unfold getRule, getRecord, rules_of. induction (g_records g) as [|[k r] m IH]; [reflexivity|]. cbn.
  destruct (runes_eqb k n); [reflexivity|exact IH].
Qed.
Definition c21Src : list Z := Eval vm_compute in rs "r = r 'a'".
Definition c21G : grammar := Eval vm_compute in
  match newGrammarFromString c21Src with inl g => g | inr _ => newGrammar end.
Lemma c21_loops : forall fuel r s f, lookup (rules_of c21G) (rs "r") = Some r -> eval fuel (rules_of c21G) r s f = OutOfFuel.
Proof.
  intros fuel r s f E. vm_compute in E. injection E as <-. revert s f.
  induction fuel as [fuel IH] using (well_founded_induction lt_wf). intros s f.
  destruct fuel as [|[|fuel]]; [reflexivity|reflexivity|]. 
  assert (X : forall s f, eval (S fuel) (rules_of c21G) (RRef noBase (rs "r")) s f = OutOfFuel).
  { intros s1 f1. cbn [eval evalStep]. match goal with |- context [lookup ?a ?b] => change (lookup a b) with (lookup (rules_of c21G) (rs "r")) end.
    match eval vm_compute in (lookup (rules_of c21G) (rs "r")) with Some ?r => change (lookup (rules_of c21G) (rs "r")) with (Some r) end.
    cbn beta iota. rewrite IH by lia. reflexivity. }
  match goal with |- eval (S (S fuel)) ?G ?r s f = _ => change (eval (S (S fuel)) G r s f) with (evalStep G (eval (S fuel) G) (S (S fuel)) r s f) end.
  cbn [evalStep concatLoop]. match goal with |- bind ?x _ = _ => change x with (eval (S fuel) (rules_of c21G) (RRef noBase (rs "r")) (prepend s []) f) end.
  rewrite X. reflexivity.
Qed.
Theorem C21_termination_refuted :
  ~ forall src g name sample, newGrammarFromString src = inl g -> exists fuel, evalRule fuel g name sample <> OutOfFuel.
Proof.
  intros H. destruct (H c21Src c21G (rs "r") (rs "a")) as (fuel & F); [vm_compute; reflexivity|]. apply F.
  unfold evalRule. rewrite getRule_lookup.
  destruct (lookup (rules_of c21G) (rs "r")) as [r|] eqn:E; [|vm_compute in E; discriminate]. rewrite (c21_loops fuel r _ _ E). reflexivity.
Qed.
Print Assumptions C21_termination_refuted.

(** What is missing: left recursion, unbounded repetitions of a body that may match
    nothing, escapes that may match nothing ([noCircles]), and the cases of
    [SUnsafe].  Otherwise evaluation ends, on every text and in every mode. *)
Theorem C21_termination_partial : forall nulls ranks g n r f s, wfRules g -> noCircles nulls ranks g = true -> lookup g n = Some r ->
  runesOk (rest s) ->
  (exists fuel, sem fuel g r f (rest s) = SUnsafe) \/ exists fuel res s', eval fuel g r s f = Ok (res, s').
Proof. exact noCircles_ends. Qed.
Print Assumptions C21_termination_partial.

(** Without recursion, blocks and unbounded repetitions there is no further
    condition, and the fuel does not depend on the text. *)
Theorem C21_bounded_termination : forall ranks g n r, wfRules g -> allBounded ranks g = true -> lookup g n = Some r ->
  exists fuel, forall s f, runesOk (rest s) -> exists res s', eval fuel g r s f = Ok (res, s').
Proof. exact bounded_ends. Qed.
Print Assumptions C21_bounded_termination.

(** [noCircles] alone is not enough, neither for grammars without blocks nor for texts
    without white space: what a failing alternative counts twice is put back twice, and the
    alternative that matches leaves as much text as there was.  C21_class_refuted (PropsEnds.v)
    needs alternatives that begin alike, the first below does not.  [ok] and [okText] limit the
    grammars and texts. *)
Definition C21_circles_claim (ok : rule -> bool) (okText : list Z -> Prop) : Prop :=
  forall nulls ranks src g name sample, newGrammarFromString src = inl g -> noCircles nulls ranks (rules_of g) = true -> forallb (fun x => ok (snd x)) (rules_of g) = true -> runesOk sample -> okText sample ->
    exists fuel, evalRule fuel g name sample <> OutOfFuel.
Fixpoint blockFree (r : rule) : bool :=
  match r with
  | RBlock _ _ _ _ _ _ => false
  | RGroup _ x | ROption _ x | RRep _ x _ _ => blockFree x
  | RChoice _ gs => forallb (forallb blockFree) gs
  | RConcat _ l => forallb blockFree l
  | _ => true
  end.
(** b fails on U+00A0 and counts it twice (C14), the range takes it. *)
Definition c21Src2 : list Z := Eval vm_compute in rs "r = { b | '0'-'9' }
b = {'a'} ['z'] ""b""".
Definition c21G2 : grammar := Eval vm_compute in match newGrammarFromString c21Src2 with inl g => g | inr _ => newGrammar end.
(** b fails on two backslashes and counts the second twice. *)
Definition c21Src3 : list Z := Eval vm_compute in rs "r = { b | '\\' }
b = < '\\' '\\' ')' >".
Definition c21G3 : grammar := Eval vm_compute in match newGrammarFromString c21Src3 with inl g => g | inr _ => newGrammar end.
Definition repBody (g : grammar) : rule := match getRule g (rs "r") with Some (RRep _ x _ _) => x | _ => REOF noBase end.
Lemma c21_stays g t : (exists b mn, getRule g (rs "r") = Some (RRep b (repBody g) mn 0)) -> okRules (rules_of g) = true -> okRule (repBody g) = true -> runesOk t -> t <> [] ->
  backAgain t (eval 20 (rules_of g) (repBody g) (newStream t) SUGGEST_SKIP) -> forall fuel, evalRule fuel g (rs "r") t = OutOfFuel.
Proof.
  intros (b & mn & E) WG WB R NE B fuel. unfold evalRule. rewrite E. rewrite (grow_eval (rules_of g) (repBody g) t 20 (okRules_ok _ WG) (okRule_ok _ WB) R NE B fuel b mn (newStream t) eq_refl). reflexivity.
Qed.
Theorem C21_circles_refuted : ~ C21_circles_claim blockFree (fun _ => True).
Proof.
  intros H. destruct (H [rs "r"] [(rs "r", 1%nat)] c21Src2 c21G2 (rs "r") [160]) as (fuel & F); try (vm_compute; reflexivity); [apply okRunes_ok; reflexivity|].
  apply F. apply c21_stays; [do 2 eexists; vm_compute; reflexivity|vm_compute; reflexivity|vm_compute; reflexivity|apply okRunes_ok; reflexivity|discriminate|]. vm_compute. repeat split; [discriminate|lia].
Qed.
Print Assumptions C21_circles_refuted.
Theorem C21_escape_refuted : ~ C21_circles_claim (fun _ => true) (Forall (fun c => ~ In c whiteSpaces)).
Proof.
  intros H. destruct (H [rs "r"] [(rs "r", 1%nat)] c21Src3 c21G3 (rs "r") [92; 92]) as (fuel & F); try (vm_compute; reflexivity); [apply okRunes_ok; reflexivity|repeat constructor; apply isWS_nIn; reflexivity|].
  apply F. apply c21_stays; [do 2 eexists; vm_compute; reflexivity|vm_compute; reflexivity|vm_compute; reflexivity|apply okRunes_ok; reflexivity|discriminate|]. vm_compute. repeat split; [discriminate|lia].
Qed.
Print Assumptions C21_escape_refuted.

(** A grammar of expressions with nested brackets, repetitions and comments, which
    is recursive. *)
Definition c21Good : rules_t := Eval vm_compute in
  match newGrammarFromString (rs "expr = term { (""+"" | ""-"") term } [ note ]
term = factor { ""*"" factor }
factor = num > ""("" expr "")""
num = '0'-'9' { '0'-'9' }
note = <""/*"" '\\' '*/'>") with inl g => rules_of g | inr _ => [] end.
Example C21_partial_example :
  okRules c21Good = true /\ length c21Good = 5%nat /\
  noCircles [] [(rs "expr", 3%nat); (rs "term", 2%nat); (rs "factor", 1%nat)] c21Good = true.
Proof. vm_compute. auto. Qed.
Definition c21Date : rules_t := Eval vm_compute in
  match newGrammarFromString (rs "date = {digit}<4,4> ""-"" {digit}<2,2> [ ""-"" {digit}<1,2> ]
digit = '0'-'9'") with inl g => rules_of g | inr _ => [] end.
Example C21_bounded_example :
  okRules c21Date = true /\ length c21Date = 2%nat /\ allBounded [(rs "date", 1%nat)] c21Date = true.
Proof. vm_compute. auto. Qed.
