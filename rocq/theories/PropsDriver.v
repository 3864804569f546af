(** C11, C24-C27: the evaluation drivers EvalRule, EvalEmbed, EvalRaw and Eval. *)
From Coq Require Import Permutation.
From Verif Require Import Base Stream Node Rule Parse Grammar SpecStream SpecRule SpecEval SpecEv SpecTerm WfDec LoopFacts SpecNode NodeExact SpecDriver DriverFacts DriverMore PropsEval.

Definition grammarOf (src : list Z) : grammar := match newGrammarFromString src with inl g => g | inr _ => newGrammar end.

(* ---------------- C11 ---------------- *)

Theorem C11_evalRule_never_panics : forall fuel g name sample, wfRules (rules_of g) -> runesOk sample -> evalRule fuel g name sample <> Panic.
Proof. exact evalRule_total. Qed.
Print Assumptions C11_evalRule_never_panics.
Theorem C11_evalEmbed_never_panics : forall loopFuel fuel g name sample x, wfRules (rules_of g) -> runesOk sample ->
  evalEmbed loopFuel fuel g name sample = Some x -> x <> Panic.
Proof. exact evalEmbed_total. Qed.
Print Assumptions C11_evalEmbed_never_panics.
Theorem C11_evalRaw_never_panics : forall loopFuel fuel g roots o s, wfRules g -> wfRoots roots -> legal roots o -> runesOk (rest s) ->
  evalRaw loopFuel fuel g o s <> Panic.
Proof. exact evalRaw_total. Qed.
Print Assumptions C11_evalRaw_never_panics.
Theorem C11_evalTop_never_panics : forall loopFuel fuel g roots o s level, wfRules g -> wfRoots roots -> legal roots o -> runesOk (rest s) ->
  evalTop loopFuel fuel g o s level <> Panic.
Proof. exact evalTop_total. Qed.
Print Assumptions C11_evalTop_never_panics.

(** Two rules, two rounds: a number and a sum. *)
Definition exG : grammar := Eval vm_compute in grammarOf (rs "num = {'0'-'9'}<1>
sum = ""("" num ""+"" num "")""
word = {'a'-'z'}<1>").
Example C11_example :
  okRules (rules_of exG) = true /\ forallb (fun x => okRule (snd x)) (rootsOf exG) = true /\ length (rootsOf exG) = 2%nat /\
  okRunes (rs "(1+23) ab (4+5)") = true /\
  match evalRaw 20 50 (rules_of exG) (storedOrder exG) (newStream (rs "(1+23) ab (4+5)")) with
  | Ok (RawOk a, _) => List.map n_name a = [rs "sum"; rs "word"; rs "sum"]
  | _ => False
  end.
Proof. vm_compute. repeat split. Qed.

(* ---------------- C24 ---------------- *)

(** [r = 'a' | 'a'] on [ab]: the [a] at which the alternatives tie is dropped. *)
Definition c24G : grammar := Eval vm_compute in grammarOf (rs "r = 'a' | 'a'").
Theorem C24_partition_refuted :
  ~ forall loopFuel fuel g name sample r n, wfRules (rules_of g) -> runesOk sample -> lookup (rules_of g) name = Some r ->
      evalEmbed loopFuel fuel g name sample = Some (Ok n) ->
      (forall k, In k (n_kids n) -> isText k = true) -> concat (List.map n_chars (n_kids n)) = sample.
Proof.
  intros H. assert (X : match evalEmbed 9 9 c24G (rs "r") (rs "ab") with
    | Some (Ok n) => List.map isText (n_kids n) = [true] /\ List.map n_chars (n_kids n) = [rs "b"]
    | _ => False end) by (vm_compute; auto).
  destruct (evalEmbed 9 9 c24G (rs "r") (rs "ab")) as [[n| |]|] eqn:E; [|exact X..].
  destruct X as [X1 X2]. destruct (lookup (rules_of c24G) (rs "r")) as [r|] eqn:L; [|vm_compute in L; discriminate].
  specialize (H _ _ _ _ _ _ _ (okRules_ok (rules_of c24G) eq_refl) (okRunes_ok (rs "ab") eq_refl) L E).
  destruct (n_kids n) as [|k [|]]; try discriminate. cbn [List.map concat] in *. injection X1 as X1. injection X2 as X2.
  rewrite X2 in H. assert (Y : forall k0, In k0 [k] -> isText k0 = true) by (intros k0 [<-|[]]; exact X1). specialize (H Y). discriminate.
Qed.
Print Assumptions C24_partition_refuted.

(** [r = ['a']] on [b]: EvalEmbed does not return. *)
Definition c24Loop : grammar := Eval vm_compute in grammarOf (rs "r = ['a']").
Theorem C24_returns_refuted :
  ~ forall g name sample r, wfRules (rules_of g) -> runesOk sample -> lookup (rules_of g) name = Some r ->
      exists loopFuel fuel n, evalEmbed loopFuel fuel g name sample = Some (Ok n).
Proof.
  intros H. destruct (lookup (rules_of c24Loop) (rs "r")) as [r|] eqn:L; [|vm_compute in L; discriminate].
  destruct (H _ _ _ _ (okRules_ok (rules_of c24Loop) eq_refl) (okRunes_ok (rs "b") eq_refl) L) as (lf & fuel & n & E).
  unfold evalEmbed in E. rewrite getRule_rules, L in E. injection E as E.
  assert (S : exists m k st, sem 9 (rules_of c24Loop) r NOT_SKIP (rs "b") = SOk (Match m 0 k st)).
  { vm_compute in L. injection L as <-. do 3 eexists. vm_compute. reflexivity. }
  destruct S as (m & k & st & S). assert (W : wfRules (rules_of c24Loop)) by (apply okRules_ok; reflexivity).
  rewrite (embed_stuck _ _ _ _ _ _ _ W (W _ _ L) (okRunes_ok (rs "b") eq_refl) S lf fuel (newStream (rs "b")) [] [] eq_refl) in E. discriminate.
Qed.
Print Assumptions C24_returns_refuted.

(** Always: the children are text nodes and derivation trees of the rule; no text
    node is empty, no two are adjacent. *)
Theorem C24_shape : forall loopFuel fuel g name sample r n, wfRules (rules_of g) -> runesOk sample -> lookup (rules_of g) name = Some r ->
  evalEmbed loopFuel fuel g name sample = Some (Ok n) ->
  n_name n = name /\ n_type n = TEmbed /\ tidy false (n_kids n) /\ forall k, In k (n_kids n) -> isText k = true \/ derives (rules_of g) r k.
Proof. exact embed_shape. Qed.
Print Assumptions C24_shape.

(** Missing from the full statement: samples on which the rule ties at its top or
    runs into the look-ahead cases of SpecEval.v (both counterexamples above). *)
Theorem C24_partition_partial : forall loopFuel fuel g name sample r n, wfRules (rules_of g) -> runesOk sample ->
  lookup (rules_of g) name = Some r -> (forall p, clearCut (rules_of g) r NOT_SKIP (skipn p sample)) ->
  evalEmbed loopFuel fuel g name sample = Some (Ok n) ->
  exists items, Embeds (rules_of g) r sample items /\ concat (List.map chars items) = sample /\ List.map erase (n_kids n) = render [] items.
Proof. exact embed_partition. Qed.
Print Assumptions C24_partition_partial.
Theorem C24_returns_partial : forall g name sample r, wfRules (rules_of g) -> runesOk sample -> lookup (rules_of g) name = Some r ->
  (forall p, exists o, Ev (rules_of g) r NOT_SKIP (skipn p sample) o) ->
  (forall p, careful (rules_of g) r NOT_SKIP (skipn p sample)) ->
  (forall p n u k st, Ev (rules_of g) r NOT_SKIP (skipn p sample) (OMatch n u k st) -> (1 <= u)%nat) ->
  exists fuel n, evalEmbed (S (length sample)) fuel g name sample = Some (Ok n).
Proof. exact embed_returns. Qed.
Print Assumptions C24_returns_partial.
(** ... in particular for a rule that cannot match the empty text in a grammar without circles. *)
Theorem C24_returns_class_partial : forall nulls ranks g name sample r, wfRules (rules_of g) -> runesOk sample ->
  lookup (rules_of g) name = Some r -> noCircles nulls ranks (rules_of g) = true -> nullable nulls r = false ->
  (forall p, careful (rules_of g) r NOT_SKIP (skipn p sample)) ->
  exists fuel n, evalEmbed (S (length sample)) fuel g name sample = Some (Ok n).
Proof. exact embed_class. Qed.
Print Assumptions C24_returns_class_partial.

Definition c24Sample := rs "see (1+2) and (3 + 4).".
Definition c24Sum : rule := Eval vm_compute in match lookup (rules_of exG) (rs "sum") with Some r => r | None => REOF noBase end.
Example C24_example :
  okRules (rules_of exG) = true /\ okRunes c24Sample = true /\ lookup (rules_of exG) (rs "sum") = Some c24Sum /\
  (forall p, clearCut (rules_of exG) c24Sum NOT_SKIP (skipn p c24Sample)) /\
  noCircles [] [(rs "num", 0%nat); (rs "sum", 1%nat); (rs "word", 0%nat)] (rules_of exG) = true /\ nullable [] c24Sum = false /\
  match evalEmbed 30 50 exG (rs "sum") c24Sample with
  | Some (Ok n) => List.map (fun k => (isText k, n_chars k)) (n_kids n) =
      [(true, rs "see "); (false, []); (true, rs " and "); (false, []); (true, rs ".")]
  | _ => False
  end.
Proof.
  split; [vm_compute; reflexivity|]. split; [vm_compute; reflexivity|]. split; [vm_compute; reflexivity|]. split.
  - intros p. apply (isClear_ok 60). apply everywhere_ok with (P := isClear 60 (rules_of exG) c24Sum NOT_SKIP). vm_compute. reflexivity.
  - vm_compute. repeat split.
Qed.

(* ---------------- C25 ---------------- *)

(** [r = 'abcd' | 'a' | 'b'] on [abcx]: the [c] and the [x] read ahead in the
    first round are dropped in the second. *)
Definition c25G : grammar := Eval vm_compute in grammarOf (rs "r = 'abcd' | 'a' | 'b'").
Theorem C25_whole_text_refuted :
  ~ forall loopFuel fuel g roots o s a s', wfRules g -> wfRoots roots -> legal roots o -> runesOk (rest s) ->
      forallb (fun x => blockFree (snd x)) (g ++ roots) = true ->
      evalRaw loopFuel fuel g o s = Ok (RawOk a, s') ->
      forall c, In c (rest s) -> ~ In c whiteSpaces -> In c (flat_map runesIn a).
Proof.
  intros H. set (s := newStream (rs "abcx")).
  assert (X : match evalRaw 20 20 (rules_of c25G) (storedOrder c25G) s with
    | Ok (RawOk a, _) => flat_map runesIn a = rs "ab" | _ => False end) by (vm_compute; reflexivity).
  destruct (evalRaw 20 20 (rules_of c25G) (storedOrder c25G) s) as [[[a| | | |] s']| |] eqn:E; [|exact X..].
  specialize (H _ _ _ _ _ _ _ _ (okRules_ok (rules_of c25G) eq_refl) (okRoots_ok (rootsOf c25G) eq_refl) (storedOrder_legal c25G)
    (okRunes_ok (rest s) eq_refl) eq_refl E 120). rewrite X in H. cbn in H.
  destruct H as [H|[H|[]]]; [do 3 right; now left| |discriminate..]. intros Y. vm_compute in Y. intuition discriminate.
Qed.
Print Assumptions C25_whole_text_refuted.

(** Missing from the full statement: more than two roots that look ahead unevenly
    or match the same length; rounds that look less far than the round before (the
    counterexample above); the look-ahead cases of SpecEval.v. *)
Theorem C25_whole_text_partial : forall g roots s, wfRules g -> wfRoots roots -> runesOk (rest s) ->
  (forall x f p, In x roots -> mode f -> careful g (snd x) f (skipn p (rest s))) ->
  orderly g (List.map snd roots) (rest s) -> looksAgain g (List.map snd roots) (rest s) ->
  forall o loopFuel fuel a s', legal roots o -> evalRaw loopFuel fuel g o s = Ok (RawOk a, s') ->
  exists l, Whole g (List.map snd roots) SUGGEST_SKIP (rest s) l /\ List.map erase a = List.map fst l /\ concat (List.map snd l) = rest s.
Proof. exact evalRaw_whole. Qed.
Print Assumptions C25_whole_text_partial.

(** Always: the nodes are derivation trees of root rules, and the text that is
    left behind is a part of the text. *)
Theorem C25_root_trees : forall loopFuel fuel g roots o s a s', wfRules g -> wfRoots roots -> legal roots o -> runesOk (rest s) ->
  evalRaw loopFuel fuel g o s = Ok (RawOk a, s') ->
  a <> [] /\ (forall n, In n a -> exists x, In x roots /\ derives g (snd x) n) /\ exists k, (k <= length (rest s))%nat /\ rest s' = skipn k (rest s).
Proof. exact evalRaw_trees. Qed.
Print Assumptions C25_root_trees.

Definition c25Text := rs "(1+23) ab (4+5)".
Example C25_example :
  okRules (rules_of exG) = true /\ wfRoots (rootsOf exG) /\ okRunes c25Text = true /\
  (forall x f p, In x (rootsOf exG) -> mode f -> careful (rules_of exG) (snd x) f (skipn p c25Text)) /\
  orderly (rules_of exG) (List.map snd (rootsOf exG)) c25Text /\ looksAgain (rules_of exG) (List.map snd (rootsOf exG)) c25Text /\
  legal (rootsOf exG) (storedOrder exG).
Proof.
  split; [vm_compute; reflexivity|]. split; [apply okRoots_ok; vm_compute; reflexivity|]. split; [vm_compute; reflexivity|]. split.
  - apply (rootsCareful_ok 60). vm_compute. reflexivity.
  - split; [left; vm_compute; auto|]. split; [apply (isAgain_ok 60); vm_compute; reflexivity|apply storedOrder_legal].
Qed.

(* ---------------- C26 ---------------- *)

(** Roots [a = 'a'], [b = 'a'], [c = 'ab'] on [ab]: an ambiguity when [a] and [b]
    are compared first, a match of [c] otherwise. *)
Definition c26G : grammar := Eval vm_compute in grammarOf (rs "a = 'a'
b = 'a'
c = 'ab'").
Theorem C26_deterministic_refuted :
  ~ forall loopFuel fuel g roots o1 o2 s, wfRules g -> wfRoots roots -> legal roots o1 -> legal roots o2 -> runesOk (rest s) ->
      sameRaw (evalRaw loopFuel fuel g o1 s) (evalRaw loopFuel fuel g o2 s).
Proof.
  intros H. set (s := newStream (rs "ab")).
  specialize (H 9%nat 9%nat _ _ _ _ s (okRules_ok (rules_of c26G) eq_refl) (okRoots_ok (rootsOf c26G) eq_refl) (storedOrder_legal c26G)
    (reversed_legal _ _ (storedOrder_legal c26G)) (okRunes_ok (rest s) eq_refl)).
  vm_compute in H. discriminate.
Qed.
Print Assumptions C26_deterministic_refuted.

(** Missing from the full statement: the same as for C25. *)
Theorem C26_deterministic_partial : forall g roots s, wfRules g -> wfRoots roots -> runesOk (rest s) ->
  (forall x f p, In x roots -> mode f -> careful g (snd x) f (skipn p (rest s))) ->
  orderly g (List.map snd roots) (rest s) -> looksAgain g (List.map snd roots) (rest s) ->
  forall o1 o2 loopFuel fuel, legal roots o1 -> legal roots o2 -> sameRaw (evalRaw loopFuel fuel g o1 s) (evalRaw loopFuel fuel g o2 s).
Proof. exact evalRaw_orders. Qed.
Print Assumptions C26_deterministic_partial.
(** With one root rule there is no condition. *)
Theorem C26_one_root : forall g roots o1 o2 loopFuel fuel s, (length roots <= 1)%nat -> legal roots o1 -> legal roots o2 ->
  evalRaw loopFuel fuel g o1 s = evalRaw loopFuel fuel g o2 s.
Proof. exact evalRaw_one. Qed.
Print Assumptions C26_one_root.
(** Two roots that both match: the orders matter to the algorithm, not to the answer. *)
Definition c26Ex : grammar := Eval vm_compute in grammarOf (rs "a = 'a'
c = 'ab' | 'x'").
Example C26_example : legal (rootsOf c26Ex) (storedOrder c26Ex) /\ legal (rootsOf c26Ex) (reversed (storedOrder c26Ex)) /\
  orderly (rules_of c26Ex) (List.map snd (rootsOf c26Ex)) (rs "abax") /\ looksAgain (rules_of c26Ex) (List.map snd (rootsOf c26Ex)) (rs "abax") /\
  (forall x f p, In x (rootsOf c26Ex) -> mode f -> careful (rules_of c26Ex) (snd x) f (skipn p (rs "abax"))) /\
  match evalRaw 9 9 (rules_of c26Ex) (reversed (storedOrder c26Ex)) (newStream (rs "abax")) with
  | Ok (RawOk a, _) => List.map n_name a = [rs "c"; rs "a"; rs "c"] | _ => False end.
Proof.
  split; [apply storedOrder_legal|]. split; [apply reversed_legal, storedOrder_legal|]. split; [left; vm_compute; auto|].
  split; [apply (isAgain_ok 60); vm_compute; reflexivity|]. split; [apply (rootsCareful_ok 60); vm_compute; reflexivity|]. vm_compute. reflexivity.
Qed.

(* ---------------- C27 ---------------- *)

Theorem C27_exhausted_stream : forall loopFuel fuel g o s, rest s = [] -> evalRaw loopFuel fuel g o s = Ok (RawEmpty, s).
Proof. exact evalRaw_exhausted. Qed.
Print Assumptions C27_exhausted_stream.
Theorem C27_no_roots : forall loopFuel fuel g o s, legal [] o -> runesOk (rest s) ->
  match evalRaw loopFuel fuel g o s with Ok (RawOk _, _) => False | _ => True end.
Proof. exact evalRaw_noRoots. Qed.
Print Assumptions C27_no_roots.
Theorem C27_undefined_rule : forall loopFuel fuel g name sample, lookup (rules_of g) name = None ->
  (exists res, evalRule fuel g name sample = Ok res /\ r_node res = None /\ r_err res = Some (EUndefined noBase name)) /\
  evalEmbed loopFuel fuel g name sample = None.
Proof. exact undefined_rule. Qed.
Print Assumptions C27_undefined_rule.
Theorem C27_success_has_nodes : forall loopFuel fuel g roots o s a s', wfRules g -> wfRoots roots -> legal roots o -> runesOk (rest s) ->
  evalRaw loopFuel fuel g o s = Ok (RawOk a, s') -> a <> [].
Proof. exact evalRaw_nonempty. Qed.
Print Assumptions C27_success_has_nodes.

(** Two rules that refer to each other: no root. *)
Definition c27G : grammar := Eval vm_compute in grammarOf (rs "a = 'x' b
b = 'y' | a").
Example C27_example : length (g_records c27G) = 2%nat /\ rootsOf c27G = [] /\ legal [] (storedOrder c27G) /\
  evalRaw 9 9 (rules_of c27G) (storedOrder c27G) (newStream (rs "xy")) = Ok (RawNoMatch [] [], newStream (rs "xy")) /\
  lookup (rules_of c27G) (rs "c") = None.
Proof.
  split; [vm_compute; reflexivity|]. split; [vm_compute; reflexivity|]. split; [split; intros; apply Permutation_refl|]. split; vm_compute; reflexivity.
Qed.

(* ---------------- C56: Eval is EvalRaw and simplification ---------------- *)

Theorem C56_eval : forall loopFuel fuel g roots o s level out s', wfRules g -> wfRoots roots -> legal roots o -> runesOk (rest s) ->
  evalTop loopFuel fuel g o s level = Ok (RawOk out, s') <->
  exists a, evalRaw loopFuel fuel g o s = Ok (RawOk a, s') /\ simplified level a out.
Proof. exact evalTop_simplified. Qed.
Print Assumptions C56_eval.
Theorem C56_eval_errors : forall loopFuel fuel g o s level res s', (forall a, res <> RawOk a) ->
  evalTop loopFuel fuel g o s level = Ok (res, s') <-> evalRaw loopFuel fuel g o s = Ok (res, s').
Proof. exact evalTop_errors. Qed.
Print Assumptions C56_eval_errors.
Example C56_eval_example : wfRoots (rootsOf exG) /\ okRules (rules_of exG) = true /\ legal (rootsOf exG) (storedOrder exG) /\
  match evalTop 20 50 (rules_of exG) (storedOrder exG) (newStream (rs "(1+23) ab (4+5)")) 0 with
  | Ok (RawOk a, _) => List.map (fun n => (n_name n, text n)) a = [(rs "sum", rs "( 1 + 23 )"); (rs "word", rs "ab"); (rs "sum", rs "( 4 + 5 )")]
  | _ => False
  end.
Proof.
  split; [apply okRoots_ok; vm_compute; reflexivity|]. split; [vm_compute; reflexivity|]. split; [apply storedOrder_legal|]. vm_compute. reflexivity.
Qed.

(* ---------------- C58 ---------------- *)

(** EvalRule should evaluate the named rule at the start of the sample, skipping
    white space when the rule does not insist.  It does not when look-ahead is
    misplaced: [r = {"+"} ['z'] ')' ')'] accepts [)]. *)
Definition c58Bad : grammar := Eval vm_compute in grammarOf (rs "r = {""+""} ['z'] ')' ')'").
Definition c58BadRule : rule := Eval vm_compute in match lookup (rules_of c58Bad) (rs "r") with Some r => r | None => REOF noBase end.
Lemma c58Bad_fails : exists k st, Ev (rules_of c58Bad) c58BadRule SUGGEST_SKIP (rs ")") (OFail k st).
Proof.
  do 2 eexists. unfold c58BadRule. eapply ev_concat. eapply es_step.
  { eapply ev_rep. eapply er_stop; [discriminate|eapply ev_eq; [apply ev_string|vm_compute; reflexivity]|]. apply ee_ok. cbn. lia. }
  eapply es_step; [eapply ev_option_none; eapply ev_eq; [apply ev_char|vm_compute; reflexivity]|].
  eapply es_step; [eapply ev_eq; [apply ev_char|vm_compute; reflexivity]|].
  eapply es_fail. eapply ev_eq; [apply ev_char|vm_compute; reflexivity].
Qed.
Theorem C58_evalRule_refuted :
  ~ forall fuel g name sample r res, wfRules (rules_of g) -> runesOk sample -> lookup (rules_of g) name = Some r ->
      evalRule fuel g name sample = Ok res -> forall o, Ev (rules_of g) r SUGGEST_SKIP sample o -> shows sample o res.
Proof.
  intros H. destruct c58Bad_fails as (k & st & F).
  assert (X : match evalRule 20 c58Bad (rs "r") (rs ")") with Ok res => r_node res <> None | _ => False end) by (vm_compute; discriminate).
  destruct (evalRule 20 c58Bad (rs "r") (rs ")")) as [res| |] eqn:E; [|exact X..]. apply X.
  assert (L : lookup (rules_of c58Bad) (rs "r") = Some c58BadRule) by (vm_compute; reflexivity).
  exact (proj2 (proj2 (proj2 (H _ _ _ _ _ _ (okRules_ok (rules_of c58Bad) eq_refl) (okRunes_ok (rs ")") eq_refl) L E _ F)))).
Qed.
Print Assumptions C58_evalRule_refuted.
(** Missing: exactly these uses of look-ahead (SpecEval.v). *)
Theorem C58_evalRule_partial : forall fuel g name sample r res, wfRules (rules_of g) -> runesOk sample -> lookup (rules_of g) name = Some r ->
  careful (rules_of g) r SUGGEST_SKIP sample -> evalRule fuel g name sample = Ok res ->
  exists o, Ev (rules_of g) r SUGGEST_SKIP sample o /\ shows sample o res.
Proof. exact evalRule_shows. Qed.
Print Assumptions C58_evalRule_partial.
Theorem C58_evalRule_answers_partial : forall g name sample r o, wfRules (rules_of g) -> runesOk sample -> lookup (rules_of g) name = Some r ->
  careful (rules_of g) r SUGGEST_SKIP sample -> Ev (rules_of g) r SUGGEST_SKIP sample o ->
  exists fuel res, evalRule fuel g name sample = Ok res /\ shows sample o res.
Proof. exact evalRule_answers. Qed.
Print Assumptions C58_evalRule_answers_partial.
Definition c58G : grammar := Eval vm_compute in grammarOf (rs "r = 'ab' ""x""").
Example C58_example : okRules (rules_of c58G) = true /\ okRunes (rs "  ab  xy") = true /\
  (forall r, lookup (rules_of c58G) (rs "r") = Some r -> careful (rules_of c58G) r SUGGEST_SKIP (rs "  ab  xy")) /\
  match evalRule 9 c58G (rs "r") (rs "  ab  xy") with
  | Ok res => List.map n_chars (flat_map n_kids (match r_node res with Some n => [n] | None => [] end)) = [rs "ab"; rs "x"] /\ r_read res = rs "  ab  x"
  | _ => False
  end.
Proof.
  split; [vm_compute; reflexivity|]. split; [vm_compute; reflexivity|]. split; [|vm_compute; auto].
  intros r L fuel. assert (X : match lookup (rules_of c58G) (rs "r") with Some r => isClear 20 (rules_of c58G) r SUGGEST_SKIP (rs "  ab  xy") | None => false end = true) by (vm_compute; reflexivity).
  rewrite L in X. exact (proj1 (isClear_ok 20 _ _ _ _ X fuel)).
Qed.
