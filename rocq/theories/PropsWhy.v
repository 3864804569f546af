(** C69: the errors say why. *)
From Verif Require Import Base Stream Node Rule Parse Grammar SpecStream SpecRule SpecError SpecEval SpecEv RuleFacts WfDec PropsEval SpecPlace
  SpecWhy WhyFacts.

(** What is missing: the uses of look-ahead listed in SpecEval.v ([SUnsafe]).  Otherwise
    a failing evaluation answers with the one reason why the rule does not match, and
    [ErrIdx] is the index where the part that is blamed stopped reading: that of a
    concatenation its first element that fails, that of a choice the alternative that got
    furthest. *)
Theorem C69_reason_partial : forall T cs g fuel r f res s', runesOk T -> wfRules g -> wfRule r ->
  let s := snd (run cs (newStream T)) in
  eval fuel g r s f = Ok (res, s') -> sem fuel g r f (rest s) <> SUnsafe -> r_node res = None ->
  exists e, r_err res = Some e /\ Why g r f (rest s) (cursor s) e (r_erridx res).
Proof. exact eval_why. Qed.
Print Assumptions C69_reason_partial.
(** The reason is one, up to the places (C65) and the positions in trees (C54). *)
Theorem C69_one_reason : forall g r f t a e i e' i', Why g r f t a e i -> Why g r f t a e' i' -> gist e = gist e' /\ i = i'.
Proof. exact why_det. Qed.
Print Assumptions C69_one_reason.
(** A rule with a reason to fail does not match. *)
Theorem C69_no_match : forall g r f t a e i, Why g r f t a e i -> forall n u k st, ~ Ev g r f t (OMatch n u k st).
Proof. exact why_nomatch. Qed.
Print Assumptions C69_no_match.

(** The choice tells of the alternative that got furthest, not of the
    first or the last. *)
Definition c69Rule : rule := Eval vm_compute in ruleOf (rs "r = 'a' (('b' 'x') | ('b' 'c' 'd') | 'z') 'e'").
Definition c69Says (r : rule) (T : list Z) : option (eerr * Z) :=
  match eval 20 [] r (newStream T) SUGGEST_SKIP with Ok (mkRes None (Some e) i _ _ _, _) => Some (e, i) | _ => None end.
Example C69_example :
  okRunes (rs "abcq") = true /\ okRules [] = true /\ okRule c69Rule = true /\
  match sem 20 [] c69Rule SUGGEST_SKIP (rs "abcq") with SOk (Fail k _) => k = 3%nat | _ => False end /\
  match c69Says c69Rule (rs "abcq") with Some (e, i) => cause e = Some (EMissing (WChar noBase 100) (AtPos (Some (1, 4)))) /\ i = 3 | None => False end /\
  match c69Says c69Rule (rs "abq") with Some (e, i) => cause e = Some (EMissing (WChar noBase 120) (AtPos (Some (1, 3)))) /\ i = 2 | None => False end /\
  match c69Says c69Rule (rs "abxq") with Some (e, i) => cause e = Some (EMissing (WChar noBase 101) (AtPos (Some (1, 4)))) /\ i = 3 | None => False end.
Proof. vm_compute. repeat split. Qed.

(** A repetition, a block and a tie. *)
Definition c69Rep : rule := Eval vm_compute in ruleOf (rs "r = 'a' {'0'-'9'}<3,5>").
Definition c69Block : rule := Eval vm_compute in ruleOf (rs "r = <'[' ^""x"" ']'>").
Definition c69Tie : rule := Eval vm_compute in ruleOf (rs "r = 'a' | ""a"" | 'b'").
Example C69_more_examples :
  (okRule c69Rep && okRule c69Block && okRule c69Tie = true) /\
  match c69Says c69Rep (rs "a12") with Some (e, i) => i = 3 /\ match cause e with Some (ERepMin _ n) => n = 2%nat | _ => False end | None => False end /\
  match c69Says c69Rep (rs "a12b") with Some (e, i) => i = 3 /\ match cause e with Some (EMissing (WRange _ _ _) _) => True | _ => False end | None => False end /\
  match c69Says c69Block (rs "[ab xx]") with Some (EExclude x, i) => x = rs "x" /\ i = 5 | _ => False end /\
  match c69Says c69Block (rs "[ab y") with Some (EBlockEOF x, i) => i = 5 | _ => False end /\
  match c69Says c69Tie (rs "a") with Some (EAmbiguity _ [n; m], i) => i = 0 /\ n_type n = TChar /\ n_type m = TString | _ => False end.
Proof. vm_compute. repeat split. Qed.

(** What a choice forgets.  The error kept is the first with the greatest index above 0
    (rule_choice.go:67-70), but undefined references and ambiguities carry index 0, and so
    does everything that fails before the first rune of the text is read (C63).  A cause
    is lost in no other way. *)
Theorem C69_cause_lost_partial : forall T cs g fuel r f res s' e, runesOk T -> wfRules g -> wfRule r ->
  let s := snd (run cs (newStream T)) in
  eval fuel g r s f = Ok (res, s') -> sem fuel g r f (rest s) <> SUnsafe -> r_node res = None -> r_err res = Some e -> cause e = None ->
  cursor s = 0 \/ exists x f' t' a' e', leads g r x /\ Why g x f' t' a' e' 0 /\ unplaced e'.
Proof. exact eval_lost. Qed.
Print Assumptions C69_cause_lost_partial.
(** That happens: here in the middle of the text, in a grammar without the rules [b] and
    [c]. *)
Definition c69Lost : rule := Eval vm_compute in ruleOf (rs "r = 'a' (b | c)" ++ [10] ++ rs "b = 'b'" ++ [10] ++ rs "c = 'c'").
Example C69_lost_example :
  okRule c69Lost = true /\ match c69Lost with RConcat _ [_; RGroup _ (RChoice _ _)] => True | _ => False end /\
  match eval 20 [] c69Lost (snd (run [CNext] (newStream (rs "xab")))) SUGGEST_SKIP with
  | Ok (mkRes None (Some e) i _ _ _, _) => cause e = None /\ i = 0
  | _ => False
  end.
Proof. vm_compute. repeat split. Qed.
