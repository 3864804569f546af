(** C93: behind a match EvalEmbed starts afresh. *)
From Verif Require Import Base Stream Node Rule Parse Grammar SpecStream SpecRule SpecEval SpecEv SpecTerm SpecDriver DriverFacts EvalFuel WfDec PropsDriver SpecAfresh AfreshFacts.

(** Full claim. *)
Definition C93_claim (ok : grammar -> rule -> list Z -> Prop) : Prop :=
  forall lf fuel g name sample r n, ok g r sample -> wfRules (rules_of g) -> runesOk sample -> lookup (rules_of g) name = Some r ->
  evalEmbed lf fuel g name sample = Some (Ok n) -> afresh lf fuel g name sample (n_kids n).

(** On [xy a c] the long alternative of this rule fails after counting a blank twice, so that
    the sample has gained a blank when the short one matches the [y]: what follows is [ a  c]
    with two blanks. *)
Definition c93G : grammar := Eval vm_compute in grammarOf (rs "r = (""x"" ""y"" {'a'} ['z'] ""b"") | ""y""").
Definition c93Sample := rs "xy a c".
(** The runes of the text nodes at the top. *)
Definition c93Texts (o : option (outcome node)) : list (list Z) := match o with Some (Ok n) => List.map (fun k => n_chars (erase k)) (n_kids n) | _ => [] end.
Theorem C93_blanks_refuted : ~ C93_claim (fun _ _ _ => True).
Proof.
  intros H. assert (X : match evalEmbed 9 20 c93G (rs "r") c93Sample with
    | Some (Ok n) => match n_kids n with [_; x; t] => isText x = false /\ n_chars t = rs " a  c" | _ => False end | _ => False end) by (vm_compute; split; reflexivity).
  destruct (evalEmbed 9 20 c93G (rs "r") c93Sample) as [[n| |]|] eqn:E; [|destruct X..].
  destruct (n_kids n) as [|w [|x [|t [|]]]] eqn:K; try (destruct X; fail). destruct X as [X T].
  destruct (lookup (rules_of c93G) (rs "r")) as [r|] eqn:L; [|vm_compute in L; discriminate].
  pose proof (H _ _ _ _ _ _ _ Logic.I (okRules_ok (rules_of c93G) eq_refl) (okRunes_ok c93Sample eq_refl) L E) as A. rewrite K in A.
  destruct (A [w] x [t] eq_refl X) as (_ & p & u & _ & _ & m & _ & B & _ & F & G).
  assert (Y : c93Texts (evalEmbed 9 20 c93G (rs "r") (skipn (p + u) c93Sample)) = [rs " a  c"]).
  { rewrite F. cbn [c93Texts]. rewrite <- (map_map erase n_chars), G. cbn [List.map]. now rewrite <- T; destruct t. }
  assert (Z : forallb (fun q => if list_eq_dec (list_eq_dec Z.eq_dec) (c93Texts (evalEmbed 9 20 c93G (rs "r") (skipn q c93Sample))) [rs " a  c"] then false else true) (seq 0 7) = true) by (vm_compute; reflexivity).
  rewrite forallb_forall in Z. change (length c93Sample) with 6%nat in B. specialize (Z (p + u)%nat). rewrite in_seq in Z. specialize (Z ltac:(lia)). destruct (list_eq_dec _ _ _) as [Q|Q] in Z; [discriminate Z|]. exact (Q Y).
Qed.
Print Assumptions C93_blanks_refuted.
(** It holds as long as the look-ahead cases of SpecEval.v do not occur; ties are allowed. *)
Theorem C93_embed_partial : C93_claim (fun g r sample => forall p, careful (rules_of g) r NOT_SKIP (skipn p sample)).
Proof. intros lf fuel g name sample r n A B C D E. exact (embed_afresh lf fuel g name sample r n B C D A E). Qed.
Print Assumptions C93_embed_partial.

(** Behind the first sum of the text of C24 comes the answer for the text behind it. *)
Example C93_example :
  okRules (rules_of exG) = true /\ okRunes c24Sample = true /\ lookup (rules_of exG) (rs "sum") = Some c24Sum /\
  (forall p, careful (rules_of exG) c24Sum NOT_SKIP (skipn p c24Sample)) /\
  match evalEmbed 30 50 exG (rs "sum") c24Sample, evalEmbed 30 50 exG (rs "sum") (skipn 9 c24Sample) with
  | Some (Ok n), Some (Ok m) => skipn 2 (List.map erase (n_kids n)) = List.map erase (n_kids m) /\ length (n_kids m) = 3%nat
  | _, _ => False
  end.
Proof.
  split; [vm_compute; reflexivity|]. split; [vm_compute; reflexivity|]. split; [vm_compute; reflexivity|]. split.
  - intros p. apply (isCareful_ok 60). apply everywhere_ok with (P := isCareful 60 (rules_of exG) c24Sum NOT_SKIP). vm_compute. reflexivity.
  - vm_compute. repeat split.
Qed.
