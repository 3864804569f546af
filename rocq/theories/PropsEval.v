(** C14, C15, C49: what an evaluation says about the text. *)
From Verif Require Import Base Stream Node Rule Parse Grammar SpecStream SpecRule TermFacts SpecEval SpecEv EvFacts EvDet WfDec
  EvalSem TextFacts.

(** The rule a one-line grammar text defines, as the parser builds it. *)
Definition ruleOf (src : list Z) : rule :=
  match newGrammarFromString src with
  | inl g => match g_records g with (_, x) :: _ => rec_rule x | [] => REOF noBase end
  | inr _ => REOF noBase
  end.

(* ---------------- C14 ---------------- *)

(** [r = "x" {'a'} ['z'] "b"] on [x a b]: the blanks are counted twice. *)
Definition c14Rule : rule := Eval vm_compute in ruleOf (rs "r = ""x"" {'a'} ['z'] ""b""").
Example c14Rule_is : c14Rule = ruleOf (rs "r = ""x"" {'a'} ['z'] ""b""") /\ c14Rule <> REOF noBase.
Proof. split; [vm_compute; reflexivity|discriminate]. Qed.

Theorem C14_read_exact_refuted :
  ~ forall g fuel r f s res s', wfRules g -> wfRule r -> runesOk (rest s) -> eval fuel g r s f = Ok (res, s') ->
      rest s = r_read res ++ rest s'.
Proof.
  intros H. set (s := newStream (rs "x a b")).
  assert (X : match eval 20 [] c14Rule s SUGGEST_SKIP with
    | Ok (res, s') => rest s <> r_read res ++ rest s' | _ => False end) by (vm_compute; discriminate).
  destruct (eval 20 [] c14Rule s SUGGEST_SKIP) as [[res s']| |] eqn:E; [|exact X..]. apply X.
  exact (H _ _ _ _ _ _ _ (okRules_ok [] eq_refl) (okRule_ok c14Rule eq_refl) (okRunes_ok (rest s) eq_refl) E).
Qed.
Print Assumptions C14_read_exact_refuted.

(** What is missing: the uses of look-ahead listed in SpecEval.v ([SUnsafe]).
    Without them CharsRead is exact and CharsUnused is its end.  Without a node
    everything is unused, except that an ambiguous choice reports nothing unused. *)
Theorem C14_read_exact_partial : forall g fuel r f s res s', wfRules g -> wfRule r -> runesOk (rest s) ->
  eval fuel g r s f = Ok (res, s') -> sem fuel g r f (rest s) <> SUnsafe ->
  rest s = r_read res ++ rest s' /\ (exists used, r_read res = used ++ r_unused res) /\
  (r_node res = None -> r_unused res = r_read res \/ exists k, sem fuel g r f (rest s) = SOk (Amb k)).
Proof. exact read_exact. Qed.
Print Assumptions C14_read_exact_partial.

(** An ambiguous choice on its own: it read a rune, uses none, reports none unused. *)
Definition c14Amb : rule := Eval vm_compute in ruleOf (rs "r = 'a' | 'a'").
Example C14_ambiguity :
  match eval 20 [] c14Amb (newStream (rs "ab")) SUGGEST_SKIP with
  | Ok (res, _) => r_node res = None /\ r_read res = rs "a" /\ r_unused res = []
  | _ => False
  end.
Proof. vm_compute. auto. Qed.

(** [list = "[" item {"," item} "]"] with nested lists on a text with blanks: all
    conditions of the partial theorems hold. *)
Definition c15G : rules_t := Eval vm_compute in
  match newGrammarFromString (rs "list = ""["" item { "","" item } ""]""
item = 'a'-'z' > list") with inl g => rules_of g | inr _ => [] end.
Definition c15Rule : rule := Eval vm_compute in match lookup c15G (rs "list") with Some r => r | None => REOF noBase end.
Definition c15Text : list Z := Eval vm_compute in rs "[ a ,[b, c] , d ] e".
Example C15_conditions :
  okRules c15G = true /\ okRule c15Rule = true /\ okRunes c15Text = true /\
  match sem 30 c15G c15Rule SUGGEST_SKIP c15Text with SOk (Match _ u k _) => u = 17%nat /\ k = 17%nat | _ => False end /\
  match eval 30 c15G c15Rule (newStream c15Text) SUGGEST_SKIP with
  | Ok (res, s') => r_node res <> None /\ rest s' = rs " e"
  | _ => False
  end.
Proof. vm_compute. repeat split. discriminate. Qed.

(* ---------------- C15 ---------------- *)

(** [r = {"+"} ['z'] ')' ')'] accepts [)]. *)
Definition c15Bad : rule := Eval vm_compute in ruleOf (rs "r = {""+""} ['z'] ')' ')'").
Lemma ev_eq g r f t o o' : Ev g r f t o -> o = o' -> Ev g r f t o'.
Proof. now intros ? <-. Qed.
Lemma c15Bad_fails : exists k st, Ev [] c15Bad SUGGEST_SKIP (rs ")") (OFail k st).
Proof.
  do 2 eexists. unfold c15Bad. eapply ev_concat. eapply es_step.
  { eapply ev_rep. eapply er_stop; [discriminate|eapply ev_eq; [apply ev_string|vm_compute; reflexivity]|]. apply ee_ok. cbn. lia. }
  eapply es_step; [eapply ev_option_none; eapply ev_eq; [apply ev_char|vm_compute; reflexivity]|].
  eapply es_step; [eapply ev_eq; [apply ev_char|vm_compute; reflexivity]|].
  eapply es_fail. eapply ev_eq; [apply ev_char|vm_compute; reflexivity].
Qed.
Theorem C15_refinement_refuted :
  ~ forall g fuel r f s res s', wfRules g -> wfRule r -> runesOk (rest s) -> eval fuel g r s f = Ok (res, s') ->
      forall o, Ev g r f (rest s) o -> shows (rest s) o res.
Proof.
  intros H. destruct c15Bad_fails as (k & st & F).
  set (s := newStream (rs ")")) in *.
  assert (X : match eval 20 [] c15Bad s SUGGEST_SKIP with
    | Ok (res, s') => r_node res <> None | _ => False end) by (vm_compute; discriminate).
  destruct (eval 20 [] c15Bad s SUGGEST_SKIP) as [[res s']| |] eqn:E; [|exact X..]. apply X.
  exact (proj2 (proj2 (proj2 (H _ _ _ _ _ _ _ (okRules_ok [] eq_refl) (okRule_ok c15Bad eq_refl) (okRunes_ok (rest s) eq_refl) E _ F)))).
Qed.
Print Assumptions C15_refinement_refuted.

(** What is missing: the uses of look-ahead listed in SpecEval.v ([SUnsafe]).
    Otherwise what evaluation answers is the outcome of the textbook semantics. *)
Theorem C15_refinement_partial : forall g fuel r f s res s', wfRules g -> wfRule r -> runesOk (rest s) ->
  eval fuel g r s f = Ok (res, s') -> sem fuel g r f (rest s) <> SUnsafe ->
  exists o, Ev g r f (rest s) o /\ shows (rest s) o res /\ rest s' = skipn (looked o) (rest s).
Proof. exact refine_sound. Qed.
Print Assumptions C15_refinement_partial.

(** ... and evaluation gives that answer whenever the semantics has an outcome. *)
Theorem C15_termination_partial : forall g r f s o, wfRules g -> wfRule r -> runesOk (rest s) -> Ev g r f (rest s) o ->
  (exists fuel, sem fuel g r f (rest s) = SUnsafe) \/
  exists fuel res s', eval fuel g r s f = Ok (res, s') /\ shows (rest s) o res /\ rest s' = skipn (looked o) (rest s).
Proof. exact refine_complete. Qed.
Print Assumptions C15_termination_partial.

(** The textbook semantics gives at most one outcome. *)
Theorem C15_semantics_deterministic : forall g r f t o o', Ev g r f t o -> Ev g r f t o' -> o = o'.
Proof. exact ev_det. Qed.
Print Assumptions C15_semantics_deterministic.

(* ---------------- C49 ---------------- *)

(** Nothing but the remaining text matters: not what was read before, nor how the
    stream is layered. *)
Theorem C49_text_only : forall g fuel r f s t, wfRules g -> wfRule r -> runesOk (rest s) -> rest s = rest t ->
  match eval fuel g r s f, eval fuel g r t f with
  | Ok (a, s'), Ok (b, t') =>
      option_map erase (r_node a) = option_map erase (r_node b) /\ r_read a = r_read b /\ r_unused a = r_unused b /\
      r_sticky a = r_sticky b /\ rest s' = rest t' /\ cursor s' - cursor s = cursor t' - cursor t
  | OutOfFuel, OutOfFuel => True
  | _, _ => False
  end.
Proof. exact eval_text_only. Qed.
Print Assumptions C49_text_only.

(** The same text, once in the middle of a stream and once split over two layers. *)
Example C49_example :
  let s := snd (next (snd (next (newStream (rs "!!" ++ c15Text))))) in
  let t := prepend (newStream (rs " ,[b, c] , d ] e")) (rs "[ a") in
  rest s = rest t /\ cursor s = 2 /\ cursor t = -3 /\
  match eval 30 c15G c15Rule s SUGGEST_SKIP with Ok (res, _) => r_node res <> None | _ => False end.
Proof. vm_compute. repeat split. discriminate. Qed.
