(** C52, C53: grammars in which one rune of look-ahead decides. *)
From Verif Require Import Base Stream Node Rule Parse Grammar SpecStream SpecRule SpecEval SpecEv EvDet SpecTerm WfDec LoopFacts SpecDriver PropsEval PropsDriver
  SpecLL LLFacts LLDec GrammarFacts SpecLang LangFacts LLMain.

(* ---------------- C52 ---------------- *)

(** In grammars that are LL(1) in the sense of books, evaluation should give the
    outcome of the textbook semantics.  It does not: [r = {"+"} ['z'] ')' ')']
    accepts [)]. *)
Definition c52Bad : grammar := Eval vm_compute in grammarOf (rs "r = {""+""} ['z'] ')' ')'").
Lemma c52Bad_fails : exists k st, Ev (rules_of c52Bad) c15Bad SUGGEST_SKIP (rs ")") (OFail k st).
Proof.
  do 2 eexists. unfold c15Bad. eapply ev_concat. eapply es_step.
  { eapply ev_rep. eapply er_stop; [discriminate|eapply ev_eq; [apply ev_string|vm_compute; reflexivity]|]. apply ee_ok. cbn. lia. }
  eapply es_step; [eapply ev_option_none; eapply ev_eq; [apply ev_char|vm_compute; reflexivity]|].
  eapply es_step; [eapply ev_eq; [apply ev_char|vm_compute; reflexivity]|].
  eapply es_fail. eapply ev_eq; [apply ev_char|vm_compute; reflexivity].
Qed.
Lemma c52Bad_rule : lookup (rules_of c52Bad) (rs "r") = Some c15Bad. Proof. vm_compute. reflexivity. Qed.
Lemma c52_noSpace : noSpace (rs ")"). Proof. repeat constructor. intros H. apply white_dec in H. discriminate. Qed.
Theorem C52_textbook_refuted :
  ~ forall g name fuel r f s res s', LL1 g -> wfRules g -> lookup g name = Some r -> runesOk (rest s) -> noSpace (rest s) -> eval fuel g r s f = Ok (res, s') ->
      forall o, Ev g r f (rest s) o -> shows (rest s) o res.
Proof.
  intros H. destruct c52Bad_fails as (k & st & F). set (s := newStream (rs ")")).
  assert (X : match eval 20 (rules_of c52Bad) c15Bad s SUGGEST_SKIP with Ok (res, s') => r_node res <> None | _ => False end) by (vm_compute; discriminate).
  destruct (eval 20 (rules_of c52Bad) c15Bad s SUGGEST_SKIP) as [[res s']| |] eqn:E; [|exact X..]. apply X.
  exact (proj2 (proj2 (proj2 (H (rules_of c52Bad) (rs "r") _ _ _ s _ _ (llGrammar_ok false (rules_of c52Bad) eq_refl)
    (okRules_ok (rules_of c52Bad) eq_refl) c52Bad_rule (okRunes_ok (rest s) eq_refl) c52_noSpace E _ F)))).
Qed.
Print Assumptions C52_textbook_refuted.

(** What is missing: LL(1) grammars with two neighbours that may look ahead or match
    nothing in front of a third element.  In the others ([LLs]) evaluation never runs
    into the look-ahead cases of SpecEval.v and never ties ... *)
Theorem C52_never_unsafe_partial : forall g r f t, LLs g -> LL g r -> plainSpace t -> clearCut g r f t.
Proof. exact ll_clear. Qed.
Print Assumptions C52_never_unsafe_partial.
(** ... so what it answers is the one outcome of the textbook semantics, what it
    reports as read is what it took from the stream, and a failure reports all of it
    as unused ... *)
Theorem C52_exact_partial : forall g r f s fuel res s', wfRules g -> LLs g -> wfRule r -> LL g r -> runesOk (rest s) -> plainSpace (rest s) ->
  eval fuel g r s f = Ok (res, s') ->
  exists o, Ev g r f (rest s) o /\ shows (rest s) o res /\ rest s' = skipn (looked o) (rest s) /\
    (r_node res = None -> r_unused res = r_read res).
Proof. exact ll_exact. Qed.
Print Assumptions C52_exact_partial.
(** ... and without circles it always answers. *)
Theorem C52_returns_partial : forall nulls ranks g n r f s, wfRules g -> LLs g -> noCircles nulls ranks g = true -> lookup g n = Some r ->
  runesOk (rest s) -> plainSpace (rest s) ->
  exists fuel res s', (forall fuel', (fuel <= fuel')%nat -> eval fuel' g r s f = Ok (res, s')) /\
    exists o, Ev g r f (rest s) o /\ shows (rest s) o res /\ rest s' = skipn (looked o) (rest s).
Proof. exact ll_returns. Qed.
Print Assumptions C52_returns_partial.
(** EvalEmbed finds the matches from left to right and loses no text. *)
Theorem C52_embed_partial : forall nulls ranks g name sample r, wfRules (rules_of g) -> LLs (rules_of g) -> noCircles nulls ranks (rules_of g) = true ->
  lookup (rules_of g) name = Some r -> nullable nulls r = false -> runesOk sample -> plainSpace sample ->
  exists fuel n items, evalEmbed (S (length sample)) fuel g name sample = Some (Ok n) /\
    Embeds (rules_of g) r sample items /\ concat (List.map chars items) = sample /\ List.map erase (n_kids n) = render [] items.
Proof. exact ll_embed. Qed.
Print Assumptions C52_embed_partial.
(** Whether a grammar belongs to the class is decided by a program. *)
Theorem C52_class_checked_partial : forall strict g, llGrammar strict g = true -> forall n r, lookup g n = Some r -> LLk strict g r.
Proof. exact llGrammar_ok. Qed.
Print Assumptions C52_class_checked_partial.

(** A grammar of JSON-like values: nested, recursive, with optional parts, lists,
    numbers and quoted strings. *)
Definition c52Json : grammar := Eval vm_compute in grammarOf (rs "value = object | array | string | number | ""true"" | ""false"" | ""null""
object = ""{"" [ pair { "","" pair } ] ""}""
pair = string "":"" value
array = ""["" [ value { "","" value } ] ""]""
string = <'""' '""'>
number = ['-'] (digits ([ '.' digits ] [ exp ]))
exp = ('e' | 'E') (['+' | '-'] digits)
digits = '0'-'9' { '0'-'9' }").
Definition c52Ranks : list (list Z * nat) :=
  [(rs "value", 5%nat); (rs "object", 1%nat); (rs "array", 1%nat); (rs "number", 2%nat); (rs "pair", 3%nat); (rs "exp", 1%nat); (rs "digits", 1%nat)].
Example C52_example : okRules (rules_of c52Json) = true /\ length (rules_of c52Json) = 8%nat /\ llGrammar true (rules_of c52Json) = true /\
  noCircles [] c52Ranks (rules_of c52Json) = true.
Proof. vm_compute. auto. Qed.
Definition c52Text := rs "{""a"": [1, -2.5e3, {}], ""b"" : null }".
Example C52_example_runs : match evalRule 60 c52Json (rs "value") c52Text with Ok res => usesAll res c52Text | _ => False end.
Proof. vm_compute. split; [discriminate|auto]. Qed.

(* ---------------- C53 ---------------- *)

(** In LL(1) grammars without circles the textbook semantics finds exactly the texts
    of the language (on texts without white space; the two neighbours of C52 do no
    harm here). *)
Theorem C53_semantics_language : forall strict nulls ranks g n r f t, (forall n r, lookup g n = Some r -> LLk strict g r) -> wfRules g ->
  noCircles nulls ranks g = true -> lookup g n = Some r -> noSpace t ->
  ((exists nd k st, Ev g r f t (OMatch nd (length t) k st)) <-> inLanguage g r t).
Proof. exact language_exact. Qed.
Print Assumptions C53_semantics_language.

(** EvalRule does not: it rejects [)]], which is in the language of
    [r = {"+"} ['z'] ')' ']']. *)
Definition c53Bad : grammar := Eval vm_compute in grammarOf (rs "r = {""+""} ['z'] ')' ']'").
Definition c53Rule : rule := Eval vm_compute in match lookup (rules_of c53Bad) (rs "r") with Some r => r | None => c15Bad end.
Lemma c53_rule : lookup (rules_of c53Bad) (rs "r") = Some c53Rule. Proof. vm_compute. reflexivity. Qed.
Lemma c53_noSpace : noSpace (rs ")]"). Proof. repeat constructor; intros H; apply white_dec in H; discriminate. Qed.
Lemma c53_language : inLanguage (rules_of c53Bad) c53Rule (rs ")]").
Proof.
  unfold inLanguage, c53Rule. apply ge_concat. change (length (rs ")]")) with (0 + (0 + (1 + (1 + 0))))%nat.
  apply gs_more; [apply (ge_rep _ _ _ _ _ 0); [constructor|cbn; lia|cbn; lia]|].
  apply gs_more; [apply ge_option_none|].
  apply gs_more; [apply (ge_literal _ _ [41] [] [93]); [constructor|discriminate|constructor]|].
  apply gs_more; [apply (ge_literal _ _ [93] [] []); [constructor|discriminate|constructor]|]. constructor.
Qed.
Theorem C53_language_refuted :
  ~ forall nulls ranks g name sample r fuel res, LL1 (rules_of g) -> wfRules (rules_of g) -> noCircles nulls ranks (rules_of g) = true ->
      lookup (rules_of g) name = Some r -> runesOk sample -> noSpace sample -> evalRule fuel g name sample = Ok res ->
      (usesAll res sample <-> inLanguage (rules_of g) r sample).
Proof.
  intros H. assert (X : match evalRule 20 c53Bad (rs "r") (rs ")]") with Ok res => r_node res = None | _ => False end) by (vm_compute; reflexivity).
  destruct (evalRule 20 c53Bad (rs "r") (rs ")]")) as [res| |] eqn:E; [|exact X..].
  refine (proj1 (proj2 (H [] [] c53Bad (rs "r") (rs ")]") c53Rule 20%nat res (llGrammar_ok false (rules_of c53Bad) eq_refl) (okRules_ok (rules_of c53Bad) eq_refl) eq_refl
    c53_rule (okRunes_ok (rs ")]") eq_refl) c53_noSpace E) c53_language) X).
Qed.
Print Assumptions C53_language_refuted.

(** What is missing: the neighbours of C52, and for the converse texts with white
    space.  In the strict class EvalRule decides the language of the rule ... *)
Theorem C53_language_decided_partial : forall nulls ranks g name sample r, wfRules (rules_of g) -> LLs (rules_of g) ->
  noCircles nulls ranks (rules_of g) = true -> lookup (rules_of g) name = Some r -> runesOk sample -> noSpace sample ->
  exists fuel res, (forall fuel', (fuel <= fuel')%nat -> evalRule fuel' g name sample = Ok res) /\
    (usesAll res sample <-> inLanguage (rules_of g) r sample).
Proof. exact language_decided. Qed.
Print Assumptions C53_language_decided_partial.
(** ... and with white space it accepts nothing else. *)
Theorem C53_language_sound_partial : forall fuel g name sample r res, wfRules (rules_of g) -> LLs (rules_of g) ->
  lookup (rules_of g) name = Some r -> runesOk sample -> plainSpace sample ->
  evalRule fuel g name sample = Ok res -> usesAll res sample -> inLanguage (rules_of g) r sample.
Proof. exact language_sound. Qed.
Print Assumptions C53_language_sound_partial.

(** The JSON-like grammar of C52 meets the conditions; a text of its language and one
    that is not. *)
Example C53_example :
  (match evalRule 60 c52Json (rs "value") (rs "{""a"":[1,-2.5e3,{}]}") with Ok res => usesAll res (rs "{""a"":[1,-2.5e3,{}]}") | _ => False end) /\
  (match evalRule 60 c52Json (rs "value") (rs "{""a"":[1,-2.5e3,{}}") with Ok res => r_node res = None | _ => False end).
Proof. vm_compute. repeat split. discriminate. Qed.
