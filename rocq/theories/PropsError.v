(** C63-C66: the errors of the evaluators and drivers. *)
From Coq Require Import Permutation.
From Verif Require Import Base Stream Node Rule Parse Grammar SpecStream SpecRule SpecError SpecEval SpecEv RuleFacts WfDec PropsEval SpecPlace SpecFault PlaceFacts
  SpecDriver DriverFacts DriverErr PropsDriver Print Show Message SpecParse SpecShow SpecMessage MessageFacts.

(* ---------------- C63 ---------------- *)
(** A failing evaluation answers with an error that names a part of the rule. *)
Theorem C63_failure_names_a_part : forall g fuel r s f res s', wfRules g -> wfRule r -> runesOk (rest s) ->
  eval fuel g r s f = Ok (res, s') -> r_node res = None -> exists e, r_err res = Some e /\ blames g r e.
Proof. exact error_blames. Qed.
Print Assumptions C63_failure_names_a_part.
Definition c63G : grammar := Eval vm_compute in grammarOf (rs "list = ""x"" item" ++ [10] ++ rs "item = ""y"" ""z""").
Definition c63Item : rule := Eval vm_compute in match getRule c63G (rs "item") with Some r => r | None => REOF noBase end.
Definition c63List : rule := Eval vm_compute in match getRule c63G (rs "list") with Some r => r | None => REOF noBase end.
Example C63_example :
  okRules (rules_of c63G) = true /\ okRule c63List = true /\
  match eval 9 (rules_of c63G) c63List (newStream (rs "x yq")) SUGGEST_SKIP with
  | Ok (res, _) => r_node res = None /\
      r_err res = Some (EConcat c63List (Some (EConcat c63Item (Some (EMissing (WString (mkBase [] false false false) (rs "z")) (AtPos (Some (1, 4))))))))
  | _ => False
  end.
Proof. split; [reflexivity|]. split; [reflexivity|]. vm_compute. split; reflexivity. Qed.

(** Not always the cause: a choice that fails at the first rune of the text loses the
    errors of its alternatives (rule_choice.go:67-70 keeps an error only when its index is
    above 0). *)
Definition c63Choice : rule := Eval vm_compute in ruleOf (rs "r = 'a' | 'b'").
Theorem C63_cause_is_kept_refuted :
  ~ forall g fuel r s f res s' e, wfRules g -> wfRule r -> runesOk (rest s) ->
    eval fuel g r s f = Ok (res, s') -> r_node res = None -> r_err res = Some e -> cause e <> None.
Proof.
  intros H. set (s := newStream (rs "c")).
  assert (X : match eval 9 [] c63Choice s SUGGEST_SKIP with Ok (mkRes None (Some e) _ _ _ _, _) => cause e = None | _ => False end) by (vm_compute; reflexivity).
  destruct (eval 9 [] c63Choice s SUGGEST_SKIP) as [[[[nd|] [e|] ei rd un st] s']| |] eqn:E; try exact X.
  exact (H [] 9%nat c63Choice s SUGGEST_SKIP _ s' e (okRules_ok [] eq_refl) (okRule_ok c63Choice eq_refl) (okRunes_ok (rest s) eq_refl) E eq_refl eq_refl X).
Qed.
Print Assumptions C63_cause_is_kept_refuted.

(* ---------------- C64 ---------------- *)
(** The text of an error: the descriptions of the rules on the way, and the text of
    what is at the end. *)
Theorem C64_text_is_a_chain : forall e,
  errText e = flat_map (fun r => desc r ++ rs ": ") (trail e) ++ match cause e with Some c => errText c | None => rs "%!s(<nil>)" end.
Proof. exact errText_chain. Qed.
Print Assumptions C64_text_is_a_chain.
Theorem C64_end_of_chain : forall e c, cause e = Some c -> trail c = [] /\ cause c = Some c.
Proof. exact cause_end. Qed.
Print Assumptions C64_end_of_chain.
(** The words (SpecMessage.v), for every error that C63 allows. *)
Theorem C64_description : forall r, wfRule r -> describes r (desc r).
Proof. exact desc_describes. Qed.
Print Assumptions C64_description.
Theorem C64_wording : forall g, wfRules g -> forall r e, blames g r e -> wfRule r -> tells e (errText e).
Proof. exact blames_tells. Qed.
Print Assumptions C64_wording.
Theorem C64_one_wording : forall e t t', tells e t -> tells e t' -> t = t'.
Proof. exact tells_one. Qed.
Print Assumptions C64_one_wording.
Definition said (fuel : nat) (g : rules_t) (r : rule) (T : list Z) : list Z :=
  match eval fuel g r (newStream T) SUGGEST_SKIP with Ok (mkRes None (Some e) _ _ _ _, _) => errText e | _ => [] end.
Example C64_example :
  said 9 (rules_of c63G) c63List (rs "x yq") = rs "list: item: missing ""z"" at L1:4" /\
  said 9 (rules_of c63G) c63List (rs "x y") = rs "list: item: missing ""z"" at EOF" /\
  said 9 [] (ruleOf (rs "r = 'x' (""ab"" | {'0'-'9'}<2,3>)")) (rs "xq") = rs "r: ""ab"" and 2 to 3 time(s) of 0-9: missing ""ab"" at L1:2".
Proof. vm_compute. repeat split. Qed.
(** The text may hold no cause at all. *)
Theorem C64_no_cause_refuted : said 9 [] c63Choice (rs "c") = rs "r: %!s(<nil>)".
Proof. vm_compute. reflexivity. Qed.
Print Assumptions C64_no_cause_refuted.

(** A choice is described like a concatenation. *)
Theorem C64_choice_says_or_refuted :
  desc (RChoice noBase [[RChar noBase 97 false; RChar noBase 98 false]]) = rs "'a' and 'b'" /\
  desc (RConcat noBase [RChar noBase 97 false; RChar noBase 98 false]) = rs "'a' and 'b'".
Proof. split; reflexivity. Qed.
Print Assumptions C64_choice_says_or_refuted.

(* ---------------- C65 ---------------- *)
(** What is missing: as for C54, the uses of look-ahead listed in SpecEval.v and the
    places the line table gets wrong; and literals of white space only.  Otherwise
    what an error says about the text is true. *)
Theorem C65_errors_in_place_partial : forall T cs g fuel r f res s', runesOk T -> wfRules g -> wfRule r ->
  let s := snd (run cs (newStream T)) in
  eval fuel g r s f = Ok (res, s') -> sem fuel g r f (rest s) <> SUnsafe -> r_node res = None ->
  let a := Z.to_nat (cursor s) in let b := (a + length (r_read res))%nat in
  exists e, r_err res = Some e /\ located T a b e /\ (r_erridx res = 0 \/ Z.of_nat a <= r_erridx res <= Z.of_nat b).
Proof. exact eval_located. Qed.
Print Assumptions C65_errors_in_place_partial.
(** The line and column at the end of the message are those of a place between the start
    of the evaluation and the last rune looked at where what is described does not stand. *)
Theorem C65_message_says_where_partial : forall T cs g fuel r f res s' e w p, runesOk T -> wfRules g -> wfRule r ->
  let s := snd (run cs (newStream T)) in
  eval fuel g r s f = Ok (res, s') -> sem fuel g r f (rest s) <> SUnsafe -> r_node res = None ->
  r_err res = Some e -> cause e = Some (EMissing w (AtPos p)) ->
  (exists pre, errText e = pre ++ rs "missing " ++ descWanted w ++ rs " at " ++ showPos p) /\
  exists j, (Z.to_nat (cursor s) <= j <= Z.to_nat (cursor s) + length (r_read res))%nat /\ refuses T j w /\
    ((j < length T)%nat -> trueAt T j p) /\ (j = length T -> p = None).
Proof.
  intros T cs g fuel r f res s' e w p RT HG W s EV SU EN EE EC.
  destruct (eval_located T cs g fuel r f res s' RT HG W EV SU EN) as (e' & EE' & LO & _). rewrite EE in EE'. injection EE' as <-. split.
  - eexists. rewrite errText_chain, EC. reflexivity.
  - pose proof (located_cause _ _ _ _ _ LO EC) as X. inversion X; subst. eauto.
Qed.
Print Assumptions C65_message_says_where_partial.
Definition c65T : list Z := rs "x" ++ [10] ++ rs "  y q".
Example C65_example : okRunes c65T = true /\
  said 9 (rules_of c63G) c63List c65T = rs "list: item: missing ""z"" at L2:4" /\
  (forall f t, f = SUGGEST_SKIP -> t = c65T -> sem 9 (rules_of c63G) c63List f t <> SUnsafe) /\
  refuses c65T 5 (WString (mkBase [] false false false) (rs "z")) /\ lineCol (firstn 5 c65T) = (2, 4).
Proof.
  split; [reflexivity|]. split; [vm_compute; reflexivity|]. split; [intros f t -> ->; vm_compute; discriminate|]. split; [|reflexivity].
  intros _ (pre & post & E & L). unfold c65T in E. do 5 (destruct pre as [|? pre]; [discriminate L|]). destruct pre; [|discriminate L].
  vm_compute in E. discriminate.
Qed.
(** A literal of white space only may stand where the error says it is missing. *)
Definition c65Rule : rule := Eval vm_compute in ruleOf (rs "r = """ ++ [9] ++ rs """").
Definition C65_claim : Prop :=
  forall T g fuel r f res s' w p, runesOk T -> wfRules g -> wfRule r -> eval fuel g r (newStream T) f = Ok (res, s') -> r_node res = None ->
    r_err res = Some (EMissing w (AtPos (Some p))) ->
    exists j, p = lineCol (firstn j T) /\ match w with WString _ cs => ~ stands T j cs | _ => True end.
Theorem C65_missing_is_missing_refuted : ~ C65_claim.
Proof.
  intros H. set (T := [9; 32; 9; 32]).
  assert (X : match eval 9 [] c65Rule (newStream T) SUGGEST_SKIP with
    | Ok (mkRes None (Some e) _ _ _ _, _) => e = EMissing (WString (mkBase (rs "r") false false false) [9]) (AtPos (Some (1, 1))) | _ => False end) by (vm_compute; reflexivity).
  destruct (eval 9 [] c65Rule (newStream T) SUGGEST_SKIP) as [[[[nd|] [e|] ei rd un st] s']| |] eqn:E; try exact X.
  subst e. destruct (H T [] 9%nat c65Rule SUGGEST_SKIP _ s' _ _ (okRunes_ok T eq_refl) (okRules_ok [] eq_refl) (okRule_ok c65Rule eq_refl) E eq_refl eq_refl) as (j & EP & ST).
  destruct j as [|j]; [|exfalso; clear - EP; destruct j as [|[|[|j]]]; vm_compute in EP; try discriminate; destruct j; discriminate].
  apply ST. now exists [], [32; 9; 32].
Qed.
Print Assumptions C65_missing_is_missing_refuted.

(* ---------------- C66 ---------------- *)
(** When no root rule matches, the error of Eval holds one error for every root rule, and
    it names a part of that rule.  When two match the same length, it holds two results
    of different root rules. *)
Theorem C66_one_error_per_root : forall loopFuel fuel g roots o s ds es s', wfRules g -> wfRoots roots -> legal roots o -> runesOk (rest s) ->
  evalRaw loopFuel fuel g o s = Ok (RawNoMatch ds es, s') ->
  Permutation ds roots /\ exists order, Permutation order roots /\ Forall2 (fun x y => fst x = fst y /\ blames g (snd x) (snd y)) order es.
Proof. intros lf fuel g roots o s ds es s' W HR HO C E. exact (evalRaw_reported g W roots o HR HO lf fuel s _ s' C E). Qed.
Print Assumptions C66_one_error_per_root.
Theorem C66_two_results : forall loopFuel fuel g roots o s r m s', wfRules g -> wfRoots roots -> legal roots o -> runesOk (rest s) ->
  evalRaw loopFuel fuel g o s = Ok (RawAmbiguity r m, s') ->
  countUsed r = countUsed m /\
  exists x y l n k, Permutation (x :: y :: l) roots /\ r_node r = Some n /\ r_node m = Some k /\ derives g (snd x) n /\ derives g (snd y) k.
Proof. intros lf fuel g roots o s r m s' W HR HO C E. exact (evalRaw_reported g W roots o HR HO lf fuel s _ s' C E). Qed.
Print Assumptions C66_two_results.
(** The words of the error. *)
Theorem C66_wording : forall loopFuel fuel g roots o s r s', wfRules g -> wfRoots roots -> roots <> [] -> legal roots o -> runesOk (rest s) ->
  evalRaw loopFuel fuel g o s = Ok (r, s') -> match rawError r with Some t => refusal r t | None => exists a, r = RawOk a end.
Proof. exact rawError_refusal. Qed.
Print Assumptions C66_wording.
(** With the conditions of C25 the answer tells why the text is not accepted: after some
    rounds no root rule matches what is left, or two of them match the same length and none
    matches more. *)
Theorem C66_why_partial : forall g roots s, wfRules g -> wfRoots roots -> runesOk (rest s) ->
  (forall x f p, In x roots -> mode f -> careful g (snd x) f (skipn p (rest s))) ->
  orderly g (List.map snd roots) (rest s) -> looksAgain g (List.map snd roots) (rest s) ->
  forall o loopFuel fuel r s', legal roots o -> evalRaw loopFuel fuel g o s = Ok (r, s') ->
  exists f' t', Rounds g (List.map snd roots) SUGGEST_SKIP (rest s) f' t' /\
    match r with
    | RawOk _ => t' = []
    | RawNoMatch _ _ => deadEnd g (List.map snd roots) f' t'
    | RawAmbiguity _ _ => torn g (List.map snd roots) f' t'
    | RawEmpty => rest s = []
    | RawNoNode => False
    end.
Proof. exact evalRaw_why. Qed.
Print Assumptions C66_why_partial.
Definition rawSaid (g : grammar) (T : list Z) : option (list Z) :=
  match evalRaw 9 9 (rules_of g) (storedOrder g) (newStream T) with Ok (r, _) => rawError r | _ => None end.
Definition c66G : grammar := Eval vm_compute in grammarOf (rs "sum = num ""+"" num" ++ [10] ++ rs "neg = ""-"" num" ++ [10] ++ rs "num = {'0'-'9'}+").
Definition c66Tie : grammar := Eval vm_compute in grammarOf (rs "a = ""x""" ++ [10] ++ rs "b = ""x""").
Example C66_example : okRules (rules_of c66G) = true /\ legal (rootsOf c66G) (storedOrder c66G) /\ length (rootsOf c66G) = 2%nat /\
  rawSaid c66G (rs "1 + 2 - x") = Some (rs "must be sum or neg: sum: missing 0-9 at L1:7; neg: missing 0-9 at L1:9; ") /\
  rawSaid c66Tie (rs "x") = Some (rs "ambiguity found: b(""x"") vs a(""x"")") /\
  rawSaid c66G [] = Some (rs "Empty Stream/EOF encountered").
Proof. split; [reflexivity|]. split; [apply storedOrder_legal|]. vm_compute. repeat split. Qed.
Example C66_why_example : 
  (forall x f p, In x (rootsOf c66G) -> mode f -> careful (rules_of c66G) (snd x) f (skipn p (rs "1+2-x"))) /\
  orderly (rules_of c66G) (List.map snd (rootsOf c66G)) (rs "1+2-x") /\ looksAgain (rules_of c66G) (List.map snd (rootsOf c66G)) (rs "1+2-x") /\
  rawSaid c66G (rs "1+2-x") = Some (rs "must be sum or neg: sum: missing 0-9 at L1:4; neg: missing 0-9 at L1:5; ").
Proof.
  split; [apply (rootsCareful_ok 60); vm_compute; reflexivity|]. split; [left; vm_compute; auto|].
  split; [apply (isAgain_ok 60); vm_compute; reflexivity|]. vm_compute. reflexivity.
Qed.
(** The text of the error depends on the order in which Go visits its maps. *)
Theorem C66_one_text_refuted :
  ~ forall loopFuel fuel g roots o1 o2 s r1 r2 s1 s2, wfRules g -> wfRoots roots -> legal roots o1 -> legal roots o2 -> runesOk (rest s) ->
    evalRaw loopFuel fuel g o1 s = Ok (r1, s1) -> evalRaw loopFuel fuel g o2 s = Ok (r2, s2) -> rawError r1 = rawError r2.
Proof.
  intros H. set (s := newStream (rs "x")). set (o := storedOrder c66G).
  assert (X : match evalRaw 9 9 (rules_of c66G) o s, evalRaw 9 9 (rules_of c66G) (reversed o) s with
    | Ok (r1, _), Ok (r2, _) => rawError r1 <> rawError r2 | _, _ => False end) by (vm_compute; discriminate).
  destruct (evalRaw 9 9 (rules_of c66G) o s) as [[r1 s1]| |] eqn:E1; [|exact X..].
  destruct (evalRaw 9 9 (rules_of c66G) (reversed o) s) as [[r2 s2]| |] eqn:E2; [|exact X..].
  apply X. exact (H _ _ _ _ _ _ s r1 r2 s1 s2 (okRules_ok (rules_of c66G) eq_refl) (okRoots_ok (rootsOf c66G) eq_refl) (storedOrder_legal c66G)
    (reversed_legal _ _ (storedOrder_legal c66G)) (okRunes_ok (rest s) eq_refl) E1 E2).
Qed.
Print Assumptions C66_one_text_refuted.
(** Without the conditions of C66_why_partial an ambiguity is reported although a third root rule matches
    more. *)
Definition c66Early : grammar := Eval vm_compute in grammarOf (rs "a = ""x""" ++ [10] ++ rs "b = ""x""" ++ [10] ++ rs "c = ""xy""").
Theorem C66_ambiguity_is_longest_refuted :
  ~ forall loopFuel fuel g roots o s r m s', wfRules g -> wfRoots roots -> legal roots o -> runesOk (rest s) ->
    evalRaw loopFuel fuel g o s = Ok (RawAmbiguity r m, s') ->
    forall x fuel2 res s2, In x roots -> eval fuel2 g (snd x) s SUGGEST_SKIP = Ok (res, s2) -> r_node res <> None -> countUsed res <= countUsed r.
Proof.
  intros H. set (s := newStream (rs "xy")).
  assert (X : match evalRaw 9 9 (rules_of c66Early) (storedOrder c66Early) s with Ok (RawAmbiguity r m, _) => countUsed r = 1 | _ => False end) by (vm_compute; reflexivity).
  destruct (evalRaw 9 9 (rules_of c66Early) (storedOrder c66Early) s) as [[[a| |ds es|r m|] s']| |] eqn:E; try exact X.
  assert (Y : exists x, In x (rootsOf c66Early) /\ match eval 9 (rules_of c66Early) (snd x) s SUGGEST_SKIP with
    | Ok (res, _) => r_node res <> None /\ countUsed res = 2 | _ => False end).
  { exists (rs "c", RString (mkBase (rs "c") false false false) (rs "xy")). split; [vm_compute; tauto|]. vm_compute. split; [discriminate|reflexivity]. }
  destruct Y as (x & Ix & Y). destruct (eval 9 (rules_of c66Early) (snd x) s SUGGEST_SKIP) as [[res s2]| |] eqn:E2; [|exact Y..].
  destruct Y as [NN C2]. pose proof (H _ _ _ _ _ s r m s' (okRules_ok (rules_of c66Early) eq_refl) (okRoots_ok (rootsOf c66Early) eq_refl) (storedOrder_legal c66Early)
    (okRunes_ok (rest s) eq_refl) E x 9%nat res s2 Ix E2 NN) as L. lia.
Qed.
Print Assumptions C66_ambiguity_is_longest_refuted.
