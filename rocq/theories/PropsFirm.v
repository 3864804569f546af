(** C91: asked not to skip, rules take no white space in front of what they match. *)
From Verif Require Import Base Stream Node Rule Grammar SpecStream SpecRule SpecEval SpecEv SpecTerm SpecDriver DriverFacts EvalFuel WfDec RepoSamples JsonLex SpecFirm FirmFacts.

(** Full claim: in the mode NOT_SKIP a match starts with the first rune of the text. *)
Definition C91_claim (ok : rules_t -> rule -> Prop) : Prop :=
  forall fuel g r s res s' n, ok g r -> wfRules g -> wfRule r -> runesOk (rest s) ->
  careful g r NOT_SKIP (rest s) -> eval fuel g r s NOT_SKIP = Ok (res, s') -> r_node res = Some n ->
  front (firstn (length (r_read res) - length (r_unused res)) (rest s)) n.
(** A concatenation that starts with an empty word, or with a repetition of which there are no
    iterations, goes on to skip white space. *)
Definition c91Empty : rule := RConcat noBase [RString noBase []; RChar noBase 97 false].
Definition c91None : rule := RConcat noBase [RRep noBase (RChar noBase 98 false) 0 0; RString noBase [97]].
Lemma c91_wrong r (W : okRule r = true) (C : isClear 20 [] r NOT_SKIP [32; 97] = true)
  (E : match eval 20 [] r (newStream [32; 97]) NOT_SKIP with
       | Ok (res, _) => (match r_node res with Some n => runes n | None => [] end, (length (r_read res) - length (r_unused res))%nat) = ([97], 2%nat) | _ => False end) :
  ~ C91_claim (fun _ x => x = r).
Proof.
  intros H. destruct (eval 20 [] r (newStream [32; 97]) NOT_SKIP) as [[res s']| |] eqn:X; [|destruct E..]. injection E as E1 E2.
  destruct (r_node res) as [n|] eqn:N; [|discriminate].
  assert (Y := H 20%nat [] r (newStream [32; 97]) res s' n eq_refl). rewrite E2 in Y. destruct Y as (l & Y); try assumption.
  - apply okRules_ok. reflexivity.
  - now apply okRule_ok.
  - apply okRunes_ok. reflexivity.
  - intros fuel. apply (isClear_ok 20 [] r NOT_SKIP [32; 97] C).
  - congruence.
Qed.
Theorem C91_empty_refuted : ~ C91_claim (fun _ r => r = c91Empty).
Proof. apply c91_wrong; vm_compute; reflexivity. Qed.
Print Assumptions C91_empty_refuted.
Theorem C91_none_refuted : ~ C91_claim (fun _ r => r = c91None).
Proof. apply c91_wrong; vm_compute; reflexivity. Qed.
Print Assumptions C91_none_refuted.
(** It holds for rules that start with something that takes text, up to options in front. *)
Theorem C91_eval_partial : C91_claim (fun g r => exists nulls firms, firmRules nulls firms g = true /\ firm nulls firms r = true).
Proof. intros fuel g r s res s' n (nulls & firms & A & B). exact (firm_eval nulls firms fuel g r s res s' n A B). Qed.
Print Assumptions C91_eval_partial.
(** Then EvalEmbed keeps all white space in front of matches as text. *)
Theorem C91_embed_partial nulls firms lf fuel g name sample r n : firmRules nulls firms (rules_of g) = true -> firm nulls firms r = true -> wfRules (rules_of g) -> runesOk sample ->
  lookup (rules_of g) name = Some r -> (forall p, clearCut (rules_of g) r NOT_SKIP (skipn p sample)) -> evalEmbed lf fuel g name sample = Some (Ok n) ->
  exists items, concat (List.map chars items) = sample /\ List.map erase (n_kids n) = render [] items /\ forall m cs, In (Found m cs) items -> front cs m.
Proof. exact (firm_embed nulls firms lf fuel g name sample r n). Qed.
Print Assumptions C91_embed_partial.

(** Of the JSON grammar the rules without number are of this kind; number is not, even if all others are. *)
Example C91_example : firmRules [] [nDigit; nInteger; nFloat; nString; nBool; nArray; nKv; nObject] gJ = true /\ okRules gJ = true /\
  firm [] [nDigit; nInteger; nFloat; nString; nBool; nLiteral; nArray; nKv; nObject; nValue; nJson] jNumber = false /\
  isClear 60 gJ jArray NOT_SKIP (rs "[ 1 ]") = true /\
  match eval 60 gJ jArray (newStream (rs "[ 1 ]")) NOT_SKIP with
  | Ok (res, _) => match r_node res with Some n => runes n = rs "[1]" | None => False end | _ => False end.
Proof. vm_compute. repeat split. Qed.
(** An optional minus in front of 7. *)
Example C91_option_example : firm [] [] (RConcat noBase [ROption noBase (RChar noBase 45 false); RChar noBase 55 false]) = true.
Proof. reflexivity. Qed.
