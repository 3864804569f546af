(** C92: where there is nothing to skip, the leading-space modes do not differ. *)
From Verif Require Import Base Stream Node Rule Grammar SpecStream SpecRule SpecEval SpecEv SpecTerm SpecDriver DriverFacts EvalFuel WfDec RepoSamples JsonLex SpecSteady SteadyFacts.

(** Full claim: on a text that does not start with white space a rule gives the same answer in
    all modes. *)
Definition C92_claim (ok : rules_t -> rule -> Prop) : Prop :=
  forall g r fuel fuel' s s' f f' a b sa sb, ok g r -> wfRules g -> wfRule r -> runesOk (rest s) -> rest s' = rest s -> darkFirst (rest s) ->
  careful g r f (rest s) -> careful g r f' (rest s) -> eval fuel g r s f = Ok (a, sa) -> eval fuel' g r s' f' = Ok (b, sb) -> alikeAnswers a b /\ rest sa = rest sb.
(** A repetition skips white space in front of every iteration, or of none. *)
Definition c92Rep : rule := RRep noBase (RChar noBase 97 false) 0 0.
(** A word that starts with white space looks at a rune more when it does not skip. *)
Definition c92Word : rule := RString noBase [32; 97].
Lemma c92_wrong r t (W : okRule r = true) (R : okRunes t = true) (D : darkFirst t) (C1 : isClear 20 [] r SUGGEST_SKIP t = true) (C2 : isClear 20 [] r NOT_SKIP t = true)
  (E : match eval 20 [] r (newStream t) SUGGEST_SKIP, eval 20 [] r (newStream t) NOT_SKIP with
       | Ok (a, _), Ok (b, _) => length (r_read a) <> length (r_read b) | _, _ => False end) : ~ C92_claim (fun _ x => x = r).
Proof.
  intros H. destruct (eval 20 [] r (newStream t) SUGGEST_SKIP) as [[a sa]| |] eqn:X; [|destruct E..]. destruct (eval 20 [] r (newStream t) NOT_SKIP) as [[b sb]| |] eqn:Y; [|destruct E..].
  apply E. f_equal. eapply (H [] r 20%nat 20%nat (newStream t) (newStream t) SUGGEST_SKIP NOT_SKIP a b sa sb eq_refl); try assumption; try reflexivity.
  - apply okRules_ok. reflexivity.
  - now apply okRule_ok.
  - now apply okRunes_ok.
  - intros fuel. apply (isClear_ok 20 [] r SUGGEST_SKIP t C1).
  - intros fuel. apply (isClear_ok 20 [] r NOT_SKIP t C2).
Qed.
Theorem C92_repetition_refuted : ~ C92_claim (fun _ r => r = c92Rep).
Proof. apply (c92_wrong c92Rep [97; 32; 97]); try (vm_compute; reflexivity); vm_compute; intuition discriminate. Qed.
Print Assumptions C92_repetition_refuted.
Theorem C92_word_refuted : ~ C92_claim (fun _ r => r = c92Word).
Proof. apply (c92_wrong c92Word [98; 97]); try (vm_compute; reflexivity); vm_compute; intuition discriminate. Qed.
Print Assumptions C92_word_refuted.
(** It holds for rules that start with neither. *)
Theorem C92_eval_partial : C92_claim (fun g r => exists steadies, steadyRules g steadies = true /\ steady g steadies r = true).
Proof. intros g r fuel fuel' s s' f f' a b sa sb (l & A & B). exact (steady_eval g l r fuel fuel' s s' f f' a b sa sb A B). Qed.
Print Assumptions C92_eval_partial.
(** Then the answer of EvalEmbed starts with the answer of EvalRule. *)
Theorem C92_embed_partial g steadies r name sample fuel lf fuel' res n : steadyRules (rules_of g) steadies = true -> steady (rules_of g) steadies r = true -> wfRules (rules_of g) -> runesOk sample ->
  lookup (rules_of g) name = Some r -> darkFirst sample -> careful (rules_of g) r SUGGEST_SKIP sample -> (forall p, clearCut (rules_of g) r NOT_SKIP (skipn p sample)) ->
  evalRule fuel g name sample = Ok res -> evalEmbed lf fuel' g name sample = Some (Ok n) -> firstPart sample res (n_kids n).
Proof. exact (steady_embed g steadies r name sample fuel lf fuel' res n). Qed.
Print Assumptions C92_embed_partial.

(** All rules of the JSON grammar are of this kind. *)
Definition c92Sample := rs "[ 1 ] 2".
Example C92_example : steadyRules gJ (List.map fst gJ) = true /\ forallb (fun x => steady gJ (List.map fst gJ) (snd x)) gJ = true /\ okRules gJ = true /\ okRunes c92Sample = true /\
  isClear 60 gJ jValue SUGGEST_SKIP c92Sample = true /\ isClear 60 gJ jValue NOT_SKIP c92Sample = true /\
  match eval 60 gJ jValue (newStream c92Sample) SUGGEST_SKIP with Ok (a, _) => match r_node a with Some n => text n = rs "[ 1 ]" | None => False end | _ => False end.
Proof. vm_compute. repeat split. Qed.
