(** C90: the JSON grammar asked for values in the middle of other text. *)
From Verif Require Import Base Stream Node Rule Grammar SpecStream SpecRule SpecEval SpecDriver RepoSamples SpecJson WfDec JsonText JsonDriver SpecEmbedJson JsonEmbed.

(** Full claim: every value of the text is found, from left to right, and what is not part
    of a value is kept as words.  White space in front of a value is no part of it, other
    than where [loose] allows it. *)
Definition C90_claim (loose : json -> Prop) : Prop :=
  forall lf fuel name sample n, name = rs "value" \/ name = rs "json" -> runesOk sample -> ~ In 92 sample -> evalEmbed lf fuel gJson name sample = Some (Ok n) ->
  n_type n = TEmbed /\ n_name n = name /\ exists l, Mixed loose [] sample l /\ Forall2 shown l (n_kids n).
(** EvalEmbed asks for values without leading white space, but a number takes it: of
    [a 1] the words are [a], not [a ]. *)
Definition c90Gap := rs "a 1".
Definition c90Kids : list node := Eval vm_compute in match evalEmbed 4 40 gJson (rs "value") c90Gap with Some (Ok n) => n_kids n | _ => [] end.
Theorem C90_gap_refuted : ~ C90_claim (fun _ => False).
Proof.
  intros H. assert (R : runesOk c90Gap) by (apply okRunes_ok; reflexivity). assert (D : ~ In 92 c90Gap) by (cbn; intuition discriminate).
  destruct (evalEmbed 4 40 gJson (rs "value") c90Gap) as [[n| |]|] eqn:E; try (vm_compute in E; discriminate E).
  assert (K : n_kids n = c90Kids) by (vm_compute in E; injection E as <-; reflexivity).
  destruct (H 4%nat 40%nat (rs "value") c90Gap n (or_introl eq_refl) R D E) as (_ & _ & l & M & F).
  destruct (json_embed 4 40 (rs "value") c90Gap n (or_introl eq_refl) R D E) as (_ & _ & l0 & M0 & F0). rewrite K in F, F0.
  assert (NV : forall v l', ~ Forall2 shown (Value v :: l') c90Kids).
  { intros v l' X. inversion X as [|? ? ? ? A B]; subst. vm_compute in A. discriminate A. }
  assert (NW : forall s l', s <> [97] -> ~ Forall2 shown (Words s :: l') c90Kids).
  { intros s l' NE X. inversion X as [|? ? ? ? A B]; subst. cbn in A. injection A as A. congruence. }
  inversion M as [|? ? ? ? N1 M1|? ? ? ? ? S1 M1]; subst; [|exact (NV _ _ F)].
  inversion M1 as [|? ? ? ? N2 M2|? ? v t' ? S2 M2]; subst.
  - cbn [app] in M2. inversion M2 as [|? ? ? ? N3 M3|? ? ? ? ? S3 M3]; subst; [|exact (NW [97; 32] _ ltac:(discriminate) F)]. cbn [app] in M3.
    inversion M3; subst; exact (NW [97; 32; 49] _ ltac:(discriminate) F).
  - destruct S2 as (tv & ET & SV & _ & [[]|X]). destruct tv as [|c tv]; [exact X|]. injection ET as <- _. apply X. vm_compute. auto 10.
Qed.
Print Assumptions C90_gap_refuted.
(** It holds when numbers may take the white space in front of them (texts without backslashes). *)
Theorem C90_embed_partial : C90_claim isNumber.
Proof. exact json_embed. Qed.
Print Assumptions C90_embed_partial.
(** There is an answer for every such text. *)
Theorem C90_returns_partial name sample : name = rs "value" \/ name = rs "json" -> runesOk sample -> ~ In 92 sample ->
  exists N n, forall lf fuel, (length sample < lf)%nat -> (N <= fuel)%nat -> evalEmbed lf fuel gJson name sample = Some (Ok n).
Proof. exact (json_embed_returns name sample). Qed.
Print Assumptions C90_returns_partial.
(** So what stands in the text is found. *)
Theorem C90_finds_partial name sample l : name = rs "value" \/ name = rs "json" -> runesOk sample -> ~ In 92 sample -> Mixed isNumber [] sample l ->
  exists N n, (forall lf fuel, (length sample < lf)%nat -> (N <= fuel)%nat -> evalEmbed lf fuel gJson name sample = Some (Ok n)) /\ Forall2 shown l (n_kids n).
Proof. exact (json_embed_finds name sample l). Qed.
Print Assumptions C90_finds_partial.
(** No text can be cut up in two ways. *)
Theorem C90_one_way loose sample l l' : runesOk sample -> ~ In 92 sample -> Mixed loose [] sample l -> Mixed loose [] sample l' -> l = l'.
Proof. intros R D M. exact (mixed_once loose [] sample l M R D l'). Qed.
Print Assumptions C90_one_way.

(** ab [1]c 2 : words, an array, words, and a number with its white space *)
Definition c90Sample := rs "ab [1]c 2".
Definition c90Pieces : list piece := [Words (rs "ab "); Value (JArr [JNum false [49] None]); Words (rs "c"); Value (JNum false [50] None)].
Example C90_example : runesOk c90Sample /\ ~ In 92 c90Sample /\
  match evalEmbed 10 100 gJson (rs "value") c90Sample with Some (Ok n) => Forall2 shown c90Pieces (n_kids n) | _ => False end.
Proof.
  split; [apply okRunes_ok; reflexivity|]. split; [cbn; intuition discriminate|].
  destruct (evalEmbed 10 100 gJson (rs "value") c90Sample) as [[n| |]|] eqn:E; try (vm_compute in E; discriminate E). vm_compute in E. injection E as <-.
  repeat (constructor; [vm_compute; reflexivity|]). constructor.
Qed.
