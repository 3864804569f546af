(** Evaluation in a closed grammar. *)
From Verif Require Import Base Stream StreamFacts Node Rule Parse Grammar SpecStream SpecRule SpecParse SpecGrammar.

(* ---------------- only the reachable rules matter ---------------- *)

Lemma bind_ext {A B} (x y : outcome A) (k k' : A -> outcome B) : x = y -> (forall a, k a = k' a) -> bind x k = bind y k'.
Proof. intros -> H. destruct y; cbn; auto. Qed.

Section Agree.
Variable P : rule -> Prop.
Variables rec rec' : evalT.
Hypothesis A : forall r s f, P r -> rec r s f = rec' r s f.

Lemma concat_agree b self d rules : (forall r, In r rules -> P r) -> forall s f read unused sticky kids pos,
  concatLoop rec b self d rules s f read unused sticky kids pos = concatLoop rec' b self d rules s f read unused sticky kids pos.
Proof.
  induction rules as [|r rules IH]; intros H s f read unused sticky kids pos; cbn [concatLoop]; [reflexivity|].
  rewrite A by (apply H; now left). destruct (rec' r (prepend s unused) f) as [[res s2]| |]; cbn [bind]; [|reflexivity..].
  destruct (account read unused res) as [[read' unused']| |]; cbn [bind]; [|reflexivity..]. destruct (r_node res); [|reflexivity].
  apply IH. intros x Hx. apply H. now right.
Qed.
Lemma rep_agree b self r mn mx d : P r -> forall fuel s f read unused sticky kids pos,
  repLoop rec fuel b self r mn mx d s f read unused sticky kids pos = repLoop rec' fuel b self r mn mx d s f read unused sticky kids pos.
Proof.
  intros H. induction fuel as [|fuel IH]; intros s f read unused sticky kids pos; cbn [repLoop]; [reflexivity|].
  destruct (peek _ =? EOFChar); [reflexivity|]. rewrite A by exact H. destruct (rec' r (prepend s unused) f) as [[res s2]| |]; cbn [bind]; [|reflexivity..].
  destruct (account read unused res) as [[read' unused']| |]; cbn [bind]; [|reflexivity..]. destruct (r_node res); [|reflexivity].
  destruct (_ && _); [reflexivity|]. apply IH.
Qed.
Lemma alt_agree d rules : (forall r, In r rules -> P r) -> forall s f maxRead sticky maxErr maxIdx matched,
  altLoop rec d rules s f maxRead sticky maxErr maxIdx matched = altLoop rec' d rules s f maxRead sticky maxErr maxIdx matched.
Proof.
  induction rules as [|r rules IH]; intros H s f maxRead sticky maxErr maxIdx matched; cbn [altLoop]; [reflexivity|].
  rewrite A by (apply H; now left). destruct (rec' r (prepend s maxRead) f) as [[res s1]| |]; cbn [bind]; [|reflexivity..].
  assert (H' : forall x, In x rules -> P x) by (intros x Hx; apply H; now right).
  destruct (r_node res); [now apply IH|]. destruct (_ >? _); now apply IH.
Qed.
Lemma choice_agree b self d gs : (forall g r, In g gs -> In r g -> P r) -> forall s f maxRead sticky maxErr maxIdx,
  choiceLoop rec b self d gs s f maxRead sticky maxErr maxIdx = choiceLoop rec' b self d gs s f maxRead sticky maxErr maxIdx.
Proof.
  induction gs as [|g gs IH]; intros H s f maxRead sticky maxErr maxIdx; cbn [choiceLoop]; [reflexivity|].
  rewrite alt_agree by (intros r Hr; apply (H g); [now left|exact Hr]).
  destruct (altLoop rec' d g s f maxRead sticky maxErr maxIdx []) as [[[[[[matched m] st] me] mi] s']| |]; cbn [bind]; [|reflexivity..].
  destruct (select matched) as [[found|]|]; [reflexivity| |reflexivity]. apply IH. intros g0 r Hg Hr. apply (H g0); [now right|exact Hr].
Qed.
Lemma greedy_agree rules s f : (forall r, In r rules -> P r) -> mostGreedy rec rules s f = mostGreedy rec' rules s f.
Proof. intros H. unfold mostGreedy. now rewrite alt_agree. Qed.
Lemma iter_agree cl esc excl cs used unused content : P cl -> (forall x, esc = Some x -> P x) -> (forall x, In x excl -> P x) ->
  blockIter rec cl esc excl cs used unused content = blockIter rec' cl esc excl cs used unused content.
Proof.
  intros HC HE HX. unfold blockIter. apply bind_ext.
  { destruct esc as [e|]; [|reflexivity]. now rewrite A by auto. }
  intros [[[[escaped escChars] used1] unused1] cs1]. apply bind_ext.
  { destruct excl; [reflexivity|]. now rewrite greedy_agree. }
  intros [exres cs2].
  destruct (match exres with Some res => match r_node res with Some _ => true | None => false end | None => false end); [reflexivity|].
  now rewrite A.
Qed.
Lemma blockLoop_agree cl esc excl : P cl -> (forall x, esc = Some x -> P x) -> (forall x, In x excl -> P x) ->
  forall fuel cs used unused content, blockLoop rec fuel cl esc excl cs used unused content = blockLoop rec' fuel cl esc excl cs used unused content.
Proof.
  intros HC HE HX. induction fuel as [|fuel IH]; intros cs used unused content; cbn [blockLoop]; [reflexivity|].
  rewrite iter_agree by assumption. destruct (blockIter rec' cl esc excl cs used unused content) as [[cs' [[[u1 u2] u3]|e]]| |]; cbn [bind]; auto.
Qed.
Lemma block_agree fuel b op v cl esc excl s f : P op -> P cl -> (forall x, esc = Some x -> P x) -> (forall x, In x excl -> P x) ->
  evalBlock rec fuel b op v cl esc excl s f = evalBlock rec' fuel b op v cl esc excl s f.
Proof.
  intros HO HC HE HX. unfold evalBlock. rewrite A by exact HO. destruct (rec' op s f) as [[ores s1]| |]; cbn [bind]; [|reflexivity..].
  destruct (r_node ores); [|reflexivity]. destruct (charsUsed ores); cbn [bind]; [|reflexivity..]. destruct (positionOf _) as [cpos cs].
  now rewrite blockLoop_agree.
Qed.
End Agree.

(** The rules whose references are all defined in [g]. *)
Definition bound (g : rules_t) (r : rule) : Prop := forall m, In m (refs r) -> lookup g m <> None.
Definition boundAll (g : rules_t) : Prop := forall n r, lookup g n = Some r -> bound g r.

Lemma bound_sub g r x : bound g r -> (forall m, In m (refs x) -> In m (refs r)) -> bound g x.
Proof. intros B H m Hm. apply B. auto. Qed.
Lemma refs_block b o v c e xs m : In m (refs (RBlock b o v c e xs)) <-> In m (refs o) \/ (exists x, e = Some x /\ In m (refs x)) \/ (exists x, In x xs /\ In m (refs x)) \/ In m (refs c).
Proof.
  cbn [refs]. rewrite !in_app_iff, in_flat_map. destruct e as [x|]; cbn.
  - split; [intros [?|[?|[?|?]]]; eauto 6|]. intros [?|[(y & [= <-] & ?)|[?|?]]]; auto.
  - split; [intros [?|[[]|[?|?]]]; eauto 6|]. intros [?|[(y & ? & ?)|[?|?]]]; auto; discriminate.
Qed.

Lemma extension_irrelevant g g' : (forall n r, lookup g n = Some r -> lookup g' n = Some r) -> boundAll g ->
  forall fuel r s f, bound g r -> eval fuel g r s f = eval fuel g' r s f.
Proof.
  intros EXT CL. induction fuel as [|fuel IH]; intros r s f B; [reflexivity|]. cbn [eval].
  destruct r as [b t u|b t|b t|b lo lu hi hu|b|b n|b x|b x|b x mn mx|b gs|b l|b o v c e xs]; cbn [evalStep]; try reflexivity.
  - destruct (lookup g n) as [r'|] eqn:L; [|exfalso; apply (B n); [now left|exact L]]. rewrite (EXT _ _ L), IH by (eapply CL; eauto). reflexivity.
  - rewrite IH by exact B. reflexivity.
  - rewrite IH by exact B. reflexivity.
  - apply rep_agree with (P := bound g); auto.
  - apply choice_agree with (P := bound g); [auto|]. intros g0 x Hg Hx. eapply bound_sub; [exact B|]. intros m Hm. cbn [refs].
    apply in_flat_map. exists g0. split; [exact Hg|]. apply in_flat_map. eauto.
  - apply concat_agree with (P := bound g); [auto|]. intros x Hx. eapply bound_sub; [exact B|]. intros m Hm. cbn [refs]. apply in_flat_map. eauto.
  - apply block_agree with (P := bound g); auto.
    + eapply bound_sub; [exact B|]. intros m Hm. apply refs_block. auto.
    + eapply bound_sub; [exact B|]. intros m Hm. apply refs_block. auto.
    + intros x ->. eapply bound_sub; [exact B|]. intros m Hm. apply refs_block. eauto.
    + intros x Hx. eapply bound_sub; [exact B|]. intros m Hm. apply refs_block. eauto 6.
Qed.

(* ---------------- no undefined rule is met ---------------- *)

Definition spared (e : option eerr) : Prop := forall x, e = Some x -> ~ namesUndefined x.

Section Spared.
Variable P : rule -> Prop.
Variable rec : evalT.
Hypothesis A : forall r s f res s', P r -> rec r s f = Ok (res, s') -> spared (r_err res).

Lemma spared_none : spared None. Proof. discriminate. Qed.
Lemma spared_concat r e : spared e -> spared (Some (EConcat r e)).
Proof. intros S x [= <-]. cbn. destruct e as [y|]; [now apply S|auto]. Qed.
Lemma spared_choice r e : spared e -> spared (Some (EChoice r e)).
Proof. intros S x [= <-]. cbn. destruct e as [y|]; [now apply S|auto]. Qed.
Lemma spared_plain e : ~ namesUndefined e -> spared (Some e).
Proof. now intros N x [= <-]. Qed.

Lemma concat_spared b self d rules : (forall r, In r rules -> P r) -> forall s f read unused sticky kids pos res s',
  concatLoop rec b self d rules s f read unused sticky kids pos = Ok (res, s') -> spared (r_err res).
Proof.
  induction rules as [|r rules IH]; intros H s f read unused sticky kids pos res s'; cbn [concatLoop]; [intros [= <- _]; apply spared_none|].
  destruct (rec r (prepend s unused) f) as [[res1 s2]| |] eqn:E; cbn [bind]; [|discriminate..].
  apply A in E; [|apply H; now left]. destruct (account read unused res1) as [[read' unused']| |]; cbn [bind]; [|discriminate..]. destruct (r_node res1).
  - apply IH. intros x Hx. apply H. now right.
  - destruct (descOk self); [|discriminate]. intros [= <- _]. now apply spared_concat.
Qed.
Lemma repDone_spared b self mn idx err eidx read unused sticky kids pos res : spared err ->
  repDone b self mn idx err eidx read unused sticky kids pos = Ok res -> spared (r_err res).
Proof.
  intros S. unfold repDone. destruct (_ <? _); [|intros [= <-]; exact S]. destruct err as [e|]; [intros [= <-]; exact S|].
  destruct (descOk self); [|discriminate]. intros [= <-]. now apply spared_plain.
Qed.
Lemma rep_spared b self r mn mx d : P r -> forall fuel s f read unused sticky kids pos res s',
  repLoop rec fuel b self r mn mx d s f read unused sticky kids pos = Ok (res, s') -> spared (r_err res).
Proof.
  intros H. induction fuel as [|fuel IH]; intros s f read unused sticky kids pos res s'; cbn [repLoop]; [discriminate|].
  destruct (peek _ =? EOFChar).
  { destruct (repDone _ _ _ _ _ _ _ _ _ _ _) as [r0| |] eqn:D; cbn [bind]; [|discriminate..]. intros [= <- _]. eapply repDone_spared; [|exact D]. apply spared_none. }
  destruct (rec r (prepend s unused) f) as [[res1 s2]| |] eqn:E; cbn [bind]; [|discriminate..]. apply A in E; [|exact H].
  destruct (account read unused res1) as [[read' unused']| |]; cbn [bind]; [|discriminate..]. destruct (r_node res1).
  - destruct (_ && _); [|apply IH].
    destruct (repDone _ _ _ _ _ _ _ _ _ _ _) as [r0| |] eqn:D; cbn [bind]; [|discriminate..]. intros [= <- _]. eapply repDone_spared; [|exact D]. apply spared_none.
  - destruct (repDone _ _ _ _ _ _ _ _ _ _ _) as [r0| |] eqn:D; cbn [bind]; [|discriminate..]. intros [= <- _]. eapply repDone_spared; [|exact D]. exact E.
Qed.
Lemma alt_spared d rules : (forall r, In r rules -> P r) -> forall s f maxRead sticky maxErr maxIdx matched m1 m2 m3 e i s',
  spared maxErr -> altLoop rec d rules s f maxRead sticky maxErr maxIdx matched = Ok (m1, m2, m3, e, i, s') -> spared e.
Proof.
  induction rules as [|r rules IH]; intros H s f maxRead sticky maxErr maxIdx matched m1 m2 m3 e i s' S; cbn [altLoop]; [intros [= _ _ _ <- _ _]; exact S|].
  destruct (rec r (prepend s maxRead) f) as [[res s1]| |] eqn:E; cbn [bind]; [|discriminate..]. apply A in E; [|apply H; now left].
  assert (H' : forall x, In x rules -> P x) by (intros x Hx; apply H; now right).
  destruct (r_node res); [now apply IH|]. destruct (_ >? _); now apply IH.
Qed.
Lemma choice_spared b self d gs : (forall g r, In g gs -> In r g -> P r) -> forall s f maxRead sticky maxErr maxIdx res s', spared maxErr ->
  choiceLoop rec b self d gs s f maxRead sticky maxErr maxIdx = Ok (res, s') -> spared (r_err res).
Proof.
  induction gs as [|g gs IH]; intros H s f maxRead sticky maxErr maxIdx res s' S; cbn [choiceLoop].
  { destruct (descOk self); [|discriminate]. intros [= <- _]. now apply spared_choice. }
  destruct (altLoop rec d g s f maxRead sticky maxErr maxIdx []) as [[[[[[matched m] st] me] mi] s1]| |] eqn:E; cbn [bind]; [|discriminate..].
  apply alt_spared in E; [|intros r Hr; apply (H g); [now left|exact Hr]|exact S].
  destruct (select matched) as [[found|]|].
  - destruct (r_node found); [|discriminate]. destruct (slice_from _ _); cbn [bind]; [|discriminate..]. intros [= <- _]. apply spared_none.
  - apply IH; [|exact E]. intros g0 r Hg Hr. apply (H g0); [now right|exact Hr].
  - intros [= <- _]. now apply spared_plain.
Qed.
Lemma block_spared fuel b op v cl esc excl s f res s' : P op -> evalBlock rec fuel b op v cl esc excl s f = Ok (res, s') -> spared (r_err res).
Proof.
  intros HO. unfold evalBlock. destruct (rec op s f) as [[ores s1]| |] eqn:E; cbn [bind]; [|discriminate..]. apply A in E; [|exact HO].
  destruct (r_node ores); [|intros [= <- _]; exact E]. destruct (charsUsed ores); cbn [bind]; [|discriminate..]. destruct (positionOf _) as [cpos cs].
  destruct (blockLoop _ _ _ _ _ _ _ _ _) as [[cs' [xr u1 u2|u1 u2|cr u1 u2 u3]]| |]; cbn [bind]; [| | |discriminate..].
  - destruct (charsUsed xr); cbn [bind]; [|discriminate..]. intros [= <- _]. now apply spared_plain.
  - destruct (descOk cl); [|discriminate]. intros [= <- _]. now apply spared_plain.
  - intros [= <- _]. apply spared_none.
Qed.
End Spared.

Lemma fail_spared w p st l s : spared (r_err (fst (failT w p st l s))).
Proof. now intros x [= <-]. Qed.
Ltac leaf := repeat first [apply spared_none | apply fail_spared
  | match goal with |- context [if ?c then _ else _] => destruct c end
  | match goal with |- context [let '(_, _) := ?c in _] => destruct c end
  | match goal with |- context [match ?c with _ => _ end] => destruct c end].
Lemma char_spared b t s f : spared (r_err (fst (evalChar b t s f))).
Proof. unfold evalChar. leaf. Qed.
Lemma chars_spared b t s f : spared (r_err (fst (evalChars b t s f))).
Proof. unfold evalChars. leaf. Qed.
Lemma string_spared b t s f : spared (r_err (fst (evalString b t s f))).
Proof. unfold evalString. leaf. Qed.
Lemma range_spared b lo hi s f : spared (r_err (fst (evalRange b lo hi s f))).
Proof. unfold evalRange. leaf. Qed.
Lemma eof_spared b s f : spared (r_err (fst (evalEOF b s f))).
Proof. unfold evalEOF. leaf. Qed.

Lemma no_undefined g : boundAll g -> forall fuel r s f res s', bound g r -> eval fuel g r s f = Ok (res, s') -> spared (r_err res).
Proof.
  intros CL. induction fuel as [|fuel IH]; intros r s f res s' B; [discriminate|]. cbn [eval].
  destruct r as [b t u|b t|b t|b lo lu hi hu|b|b n|b x|b x|b x mn mx|b gs|b l|b o v c e xs]; cbn [evalStep].
  - intros E. assert (E' : evalChar b t s f = (res, s')) by congruence. pose proof (char_spared b t s f) as H. now rewrite E' in H.
  - intros E. assert (E' : evalChars b t s f = (res, s')) by congruence. pose proof (chars_spared b t s f) as H. now rewrite E' in H.
  - intros E. assert (E' : evalString b t s f = (res, s')) by congruence. pose proof (string_spared b t s f) as H. now rewrite E' in H.
  - intros E. assert (E' : evalRange b lo hi s f = (res, s')) by congruence. pose proof (range_spared b lo hi s f) as H. now rewrite E' in H.
  - intros E. assert (E' : evalEOF b s f = (res, s')) by congruence. pose proof (eof_spared b s f) as H. now rewrite E' in H.
  - destruct (lookup g n) as [r'|] eqn:L; [|exfalso; apply (B n); [now left|exact L]].
    destruct (eval fuel g r' s f) as [[res1 s1]| |] eqn:E; cbn [bind]; [|discriminate..]. apply IH in E; [|eapply CL; eauto]. intros [= <- _]. exact E.
  - destruct (eval fuel g x s f) as [[res1 s1]| |] eqn:E; cbn [bind]; [|discriminate..]. apply IH in E; [|exact B].
    destruct (r_node res1); intros [= <- _]; exact E.
  - destruct (eval fuel g x s f) as [[res1 s1]| |] eqn:E; cbn [bind]; [|discriminate..]. apply IH in E; [|exact B].
    destruct (r_node res1); intros [= <- _]; exact E.
  - eapply rep_spared with (P := bound g); [exact IH|exact B].
  - eapply choice_spared with (P := bound g); [exact IH| |apply spared_none]. intros g0 x Hg Hx. eapply bound_sub; [exact B|]. intros m Hm. cbn [refs].
    apply in_flat_map. exists g0. split; [exact Hg|]. apply in_flat_map. eauto.
  - eapply concat_spared with (P := bound g); [exact IH|]. intros x Hx. eapply bound_sub; [exact B|]. intros m Hm. cbn [refs]. apply in_flat_map. eauto.
  - eapply block_spared with (P := bound g); [exact IH|]. eapply bound_sub; [exact B|]. intros m Hm. apply refs_block. auto.
Qed.
