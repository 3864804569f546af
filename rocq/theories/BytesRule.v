(** Grammars and texts given as Go strings. *)
From Verif Require Import Base Stream StreamFacts SpecStream SpecRule Node Rule Parse Grammar SpecEval SpecDriver SpecGrammar GrammarFacts HistoryFacts DriverFacts Complain
  EvalSem Bytes BytesFacts.

Definition asCall (c : callBytes) : call :=
  match c with
  | AddRuleB d => AddRule (runes d)
  | ParseRuleB n s => ParseRule (runes n) (runes s)
  | ValidateB => Validate
  end.
(** The strings of a call consist of bytes. *)
Definition madeOfBytes (c : callBytes) : Prop :=
  match c with
  | AddRuleB d => Forall isByte d
  | ParseRuleB n s => Forall isByte n /\ Forall isByte s
  | ValidateB => True
  end.

Lemma runes_ok b : Forall isByte b -> runesOk (runes b).
Proof. intros B. eapply Forall_impl; [|exact (runes_scalar b B)]. unfold scalar. intros a. cbn. lia. Qed.

Theorem history_runes calls : historyBytes calls = history (List.map asCall calls).
Proof.
  unfold historyBytes, history. generalize newGrammar. induction calls as [|c calls IH]; intros g; [reflexivity|].
  cbn [fold_left List.map]. rewrite IH. f_equal. destruct c; cbn [performBytes perform asCall]; [now rewrite addRule_runes|now rewrite parseRule_runes|reflexivity].
Qed.
Theorem calls_decoded calls : Forall madeOfBytes calls -> decoded (List.map asCall calls).
Proof.
  intros F. unfold decoded. induction F as [|c calls M F IH]; [constructor|]. cbn [List.map]. constructor; [|exact IH].
  destruct c; cbn [asCall textOf madeOfBytes] in *; [now apply runes_ok|apply runes_ok; tauto|constructor].
Qed.

Lemma ascii_same n : Forall (fun c => c < 128) n -> runes n = n.
Proof. induction 1 as [|c n L F IH]; [reflexivity|]. rewrite runes_ascii by exact L. now rewrite IH. Qed.
Lemma good_ascii n : goodName n -> Forall (fun c => c < 128) n.
Proof. intros G. apply validName_ascii. now apply validName_iff. Qed.

Theorem evalRule_runes calls fuel name b : Forall madeOfBytes calls ->
  evalRuleBytes fuel (historyBytes calls) name b = evalRule fuel (history (List.map asCall calls)) (runes name) (runes b).
Proof.
  intros F. rewrite history_runes. set (g := history (List.map asCall calls)).
  destruct (names_history (List.map asCall calls) (calls_decoded calls F)) as (_ & GN). fold g in GN.
  assert (K : getRule g name = getRule g (runes name)).
  { destruct (getRule g name) as [r|] eqn:E; [rewrite (ascii_same name (good_ascii _ (GN _ _ E))); now rewrite E|].
    destruct (getRule g (runes name)) as [r|] eqn:E'; [|reflexivity].
    rewrite (ascii_runes name (good_ascii _ (GN _ _ E'))) in E'. congruence. }
  unfold evalRuleBytes, evalRule. rewrite K. reflexivity.
Qed.

Lemma utf8_prefix b l m : utf8 b -> runes b = l ++ m -> exists later, b = encode l ++ later /\ utf8 later.
Proof.
  intros (q & F & ->) E. rewrite runes_encode_all, (map_scalar q F) in E. subst q. exists (encode m).
  split; [apply encode_app|]. exists m. split; [|reflexivity]. apply Forall_app in F. tauto.
Qed.

Lemma utf8_bytes b : utf8 b -> Forall isByte b.
Proof.
  intros (l & F & ->). induction F as [|r l S0 F IH]; [constructor|]. cbn [encode flat_map]. apply Forall_app. split; [|exact IH].
  unfold encodeRune. destruct (utf8_scalar r) as (X & _). destruct (X S0) as (-> & _). destruct S0 as (R & _). unfold isByte.
  pose proof (Z.mod_pos_bound r 64 ltac:(lia)). pose proof (Z.mod_pos_bound (r / 64) 64 ltac:(lia)). pose proof (Z.mod_pos_bound (r / 4096) 64 ltac:(lia)).
  destruct (Z.ltb_spec r 128); [repeat constructor; lia|].
  destruct (Z.ltb_spec r 2048).
  { assert (0 <= r / 64 < 32) by (split; [apply Z.div_le_lower_bound|apply Z.div_lt_upper_bound]; lia). repeat constructor; lia. }
  destruct (Z.ltb_spec r 65536).
  { assert (0 <= r / 4096 < 16) by (split; [apply Z.div_le_lower_bound|apply Z.div_lt_upper_bound]; lia). repeat constructor; lia. }
  assert (0 <= r / 262144 < 5) by (split; [apply Z.div_le_lower_bound|apply Z.div_lt_upper_bound]; lia). repeat constructor; lia.
Qed.

(** What is reported as read, written as a string, is the beginning of the string given. *)
Theorem read_bytes fuel g name r b res : wfRules (rules_of g) -> lookup (rules_of g) name = Some r -> utf8 b ->
  careful (rules_of g) r SUGGEST_SKIP (runes b) -> evalRuleBytes fuel g name b = Ok res ->
  exists later, b = encode (r_read res) ++ later /\ utf8 later /\ runes later = skipn (length (r_read res)) (runes b).
Proof.
  intros W LK U CF E. unfold evalRuleBytes in E. rewrite getRule_rules, LK in E.
  destruct (eval fuel (rules_of g) r (newStream (runes b)) SUGGEST_SKIP) as [(res0, s1)| |] eqn:EV; [|discriminate..].
  cbn [bind] in E. injection E as ->.
  destruct (read_exact _ _ _ _ (newStream (runes b)) _ _ W (W _ _ LK) (runes_ok b (utf8_bytes b U)) EV (CF fuel)) as (RE & _).
  change (rest (newStream (runes b))) with (runes b) in RE.
  destruct (utf8_prefix b _ _ U RE) as (later & EB & UL). exists later. split; [exact EB|]. split; [exact UL|].
  rewrite RE. rewrite skipn_app, skipn_all, Nat.sub_diag. cbn [app skipn].
  assert (SC : Forall scalar (r_read res)).
  { pose proof (runes_scalar b (utf8_bytes b U)) as S0. rewrite RE in S0. apply Forall_app in S0. tauto. }
  assert (X : runes b = r_read res ++ runes later).
  { rewrite EB at 1. rewrite runes_encode, (map_scalar _ SC). reflexivity. }
  rewrite RE in X. now apply app_inv_head in X.
Qed.

Lemma first_byte c : scalar c -> firstByte c = hd 0 (encodeRune c).
Proof.
  intros H. unfold firstByte, encodeRune. destruct (utf8_scalar c) as (X & _). destruct (X H) as (-> & _).
  repeat match goal with |- context [if ?x then _ else _] => destruct x end; reflexivity.
Qed.
