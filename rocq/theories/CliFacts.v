(** Facts about the command line tool. *)
From Coq Require Import Permutation.
From Verif Require Import Base Stream StreamFacts Node Rule SpecStream SpecRule RuleFacts Parse Grammar Print SpecParse ParseFacts SpecNode NodeFacts NodeLean NodeExact SpecGrammar GrammarFacts GrammarText
  SpecDriver DriverFacts HistoryFacts Show SpecShow ShowFacts DrawFacts SpecSerial SerialFacts Cli SpecCli.

(* ---------------- the trees ---------------- *)

(** Reducing moves and drops nodes; it does not touch their marks. *)
Section Keeps.
Variable Q : node -> Prop.
Hypothesis Qkids : forall n ks, Q n -> Q (set_kids n ks).
Hypothesis Qchars : forall n cs, Q n -> Q (set_chars n cs).
Definition deep (n : node) : Prop := forall m, sub m n -> Q m.
Lemma deep_kids n : deep n -> Q n /\ Forall deep (n_kids n).
Proof. intros H. split; [apply H; constructor|]. apply Forall_forall. intros k K m M. apply H. econstructor; eauto. Qed.
Lemma deep_intro n : Q n -> Forall deep (n_kids n) -> deep n.
Proof. intros H F m M. apply sub_cases in M as [->|(k & K & S0)]; [exact H|]. rewrite Forall_forall in F. exact (F k K m S0). Qed.
Lemma reduced_keeps : (forall n m, reduced n m -> deep n -> deep m) /\ (forall l k, reducedAll l k -> Forall deep l -> Forall deep k).
Proof.
  apply reduced_mut; intros.
  - assumption.
  - pose proof (deep_kids _ H3) as [N F]. rewrite H in F. inversion F as [|? ? C _]; subst. specialize (H2 C). apply deep_kids in H2 as [_ F2].
    apply deep_intro; [now apply Qkids, Qchars|]. now rewrite kids_set.
  - pose proof (deep_kids _ H5) as [N F]. apply deep_intro; [now apply Qkids, Qchars|]. rewrite kids_set. constructor.
  - pose proof (deep_kids _ H4) as [N F]. apply deep_intro; [now apply Qkids|]. rewrite kids_set. auto.
  - constructor.
  - inversion H4 as [|? ? A B]; subst. specialize (H0 A). apply Forall_app. split; [|auto]. pose proof (deep_kids _ H0) as [P F].
    destruct H1 as [[_ ->]|[(_ & _ & ->)|[(_ & _ & _ & ->)|(_ & _ & _ & ->)]]]; [|constructor| |exact F]; (constructor; [exact H0|constructor]).
Qed.
Lemma prune_keeps p n : deep n -> deep (prune p n).
Proof.
  induction n as [n IH] using node_ind'. intros D. apply deep_kids in D as [N F]. rewrite prune_eq. apply deep_intro; [now apply Qkids|]. rewrite kids_set.
  apply Forall_forall. intros m M. apply pruneAll_in in M as (c & C & _ & ->). rewrite Forall_forall in IH, F. auto.
Qed.
Lemma pruneAll_keeps p a : Forall deep a -> Forall deep (pruneAll p a).
Proof. intros F. apply Forall_forall. intros m M. apply pruneAll_in in M as (c & C & _ & ->). apply prune_keeps. rewrite Forall_forall in F. auto. Qed.
End Keeps.
Lemma all_deep (Q : node -> Prop) a : (forall m, inside m a -> Q m) <-> Forall (deep Q) a.
Proof.
  rewrite Forall_forall. split; [intros H n N m M; apply H; exists n; auto|]. intros H m (n & N & M). exact (H n N m M).
Qed.

Lemma loose_merge a : (forall m, inside m a -> n_sticky m = false) -> astMerge a = a.
Proof.
  intros H. apply mergeNodes_id. intros c C. split; [apply H; exists c; split; [exact C|constructor]|]. apply mergeNode_id. intros m M. apply H. exists c. auto.
Qed.
Definition isLoose (n : node) : Prop := n_sticky n = false.
Lemma simplified_loose a b : simplified 0 a b -> Forall (deep isLoose) b.
Proof.
  intros (m & p & M & P & F). assert (L : Forall (deep isLoose) m) by (apply all_deep; exact (proj2 (proj2 merged_loose_mut) _ _ M)).
  assert (E : p = pruneAll (dropsAt 0) m) by (apply outlines_determine; rewrite pruneAll_outline; exact P). subst p.
  apply (pruneAll_keeps isLoose (fun n ks H => H)  (dropsAt 0)) in L. clear - L F. induction F as [|c c' l l' X F IH]; [constructor|]. inversion L; subst. constructor; [|auto].
  destruct (n_nondata c); [now subst|]. eapply (proj1 (reduced_keeps isLoose (fun n ks H => H) (fun n cs H => H))); eauto.
Qed.
Lemma simplify_loose a : Forall proper a -> Forall (deep isLoose) (simplify 0 a).
Proof. intros P. eapply simplified_loose. now apply simplify_simplified. Qed.

(** The merging in between does nothing. *)
Lemma file_as_text a : Forall proper a -> fileTree (simplify 0 a) = textTree (simplify 0 a).
Proof.
  intros P. unfold fileTree, textTree. rewrite loose_merge; [reflexivity|]. apply all_deep. apply (pruneAll_keeps isLoose (fun n ks H => H) n_virtual). now apply simplify_loose.
Qed.
Lemma simplify_proper a : Forall proper a -> Forall proper (simplify 0 a).
Proof.
  intros P. unfold simplify. cbn [Z.eqb]. change (Forall proper (astRemoveRedundant (astMerge a))). apply astMerge_proper in P. unfold astRemoveRedundant.
  induction P as [|c l Pc F IH]; [constructor|]. cbn [List.map]. constructor; [|exact IH]. destruct (n_nondata c); [exact Pc|]. now apply removeRedundant_step.
Qed.
Lemma drops2_stable n : dropsAt 2 (prune (dropsAt 2) n) = dropsAt 2 n.
Proof. now destruct n. Qed.
Lemma textTree_shown a : Forall proper a -> shownFor a (textTree (simplify 0 a)).
Proof.
  intros P. exists (simplify 0 a), (pruneAll (dropsAt 2) (simplify 0 a)). split; [now apply simplify_simplified|]. split; [apply pruneAll_outline|].
  unfold textTree. change (astRemoveNonData (astRemoveVirtual (simplify 0 a))) with (if 2 =? 2 then astRemoveNonData (astRemoveVirtual (simplify 0 a)) else if 2 =? 1 then astRemoveVirtual (simplify 0 a) else simplify 0 a).
  rewrite (dropsAt_eq 2) by discriminate. pose proof (pruneAll_proper (dropsAt 2) _ (simplify_proper _ P)) as F.
  assert (N : forall c, In c (pruneAll (dropsAt 2) (simplify 0 a)) -> n_nondata c = false).
  { intros c C. assert (D : dropsAt 2 c = false) by (apply (pruneAll_none _ drops2_stable (simplify 0 a)); exists c; split; [exact C|constructor]). unfold dropsAt in D. cbn in D. now apply orb_false_iff in D as [_ D]. }
  unfold astRemoveRedundant. induction F as [|c l Pc F IH]; [constructor|]. cbn [List.map]. constructor; [|apply IH; intros; apply N; now right].
  rewrite (N c (or_introl eq_refl)). now apply removeRedundant_reduced.
Qed.
Lemma shown_det a b b' : shownFor a b -> shownFor a b' -> b' = b.
Proof.
  intros (s & p & S1 & P & F) (s' & p' & S2 & P' & F'). assert (s' = s) by (eapply simplified_det; eauto). subst s'. unfold pruned in *.
  assert (p' = p) by (apply outlines_determine; congruence). subst p'. clear - F F'. revert b' F'.
  induction F as [|c c' l l' H F IH]; intros b' F'; inversion F' as [|? d ? k H' F'']; subst; [reflexivity|]. rewrite (IH _ F''). f_equal. exact (proj1 reduced_det_mut _ _ H _ H').
Qed.
(** What is shown has neither virtual nor non-data nor sticky nodes, and nothing in it is
    redundant. *)
Lemma shown_data a b : Forall proper a -> shownFor a b -> forall m, inside m b -> n_virtual m = false /\ n_nondata m = false /\ n_sticky m = false /\ lean m.
Proof.
  intros P H. assert (E : b = textTree (simplify 0 a)) by (eapply shown_det; [now apply textTree_shown|exact H]). destruct H as (s & p & S1 & PR & F).
  assert (L : Forall (deep isLoose) s) by now apply simplified_loose in S1.
  assert (PE : p = pruneAll (dropsAt 2) s) by (apply outlines_determine; rewrite pruneAll_outline; exact PR).
  pose (Q := fun m => n_virtual m = false /\ n_nondata m = false /\ n_sticky m = false).
  assert (QP : Forall (deep Q) p).
  { apply all_deep. intros m M. assert (D : dropsAt 2 m = false) by (subst p; now apply (pruneAll_none _ drops2_stable s)). unfold dropsAt in D. cbn in D. apply orb_false_iff in D as [D1 D2].
    split; [exact D1|]. split; [exact D2|]. subst p. apply (pruneAll_keeps isLoose (fun n ks H => H) (dropsAt 2)) in L. rewrite <- all_deep in L. exact (L m M). }
  assert (QB : Forall (deep Q) b).
  { clear - F QP. induction F as [|c c' l l' X F IH]; [constructor|]. inversion QP; subst. constructor; [|auto]. eapply (proj1 (reduced_keeps Q (fun n ks H => H) (fun n cs H => H))); eauto. }
  intros m M. rewrite <- all_deep in QB. destruct (QB m M) as (Q1 & Q2 & Q3). repeat split; auto.
  all: destruct M as (n & N & S0); subst b; unfold textTree in N, QB;
    destruct (astRedundant_spec (astRemoveNonData (astRemoveVirtual (simplify 0 a)))) as (LN & _);
    [apply (pruneAll_proper n_nondata), (pruneAll_proper n_virtual), simplify_proper, P|];
    assert (LM : lean m) by (apply (LN n N); [apply QB; exists n; split; [exact N|constructor]|exact S0]); apply LM; assumption.
Qed.
Definition plainMarks (m : node) : Prop := n_virtual m = false /\ n_nondata m = false.
(** Without virtual and non-data nodes it is the result of Eval at the data level. *)
Lemma shown_eval a : Forall proper a -> (forall m, inside m (astMerge a) -> n_virtual m = false /\ n_nondata m = false) ->
  shownFor a (simplify 2 a) /\ simplify 2 a = simplify 0 a.
Proof.
  intros P N.
  assert (FIX : forall l, Forall (deep plainMarks) l -> astRemoveNonData (astRemoveVirtual l) = l).
  { intros l L. rewrite <- all_deep in L. change (astRemoveNonData (astRemoveVirtual l)) with (if 2 =? 2 then astRemoveNonData (astRemoveVirtual l) else if 2 =? 1 then astRemoveVirtual l else l).
    rewrite (dropsAt_eq 2) by discriminate. unfold pruneAll. assert (D : forall m, inside m l -> dropsAt 2 m = false) by (intros m M; destruct (L m M) as [A B]; unfold dropsAt; cbn; now rewrite A, B).
    clear - D. induction l as [|c l IH]; [reflexivity|]. cbn [flat_map]. rewrite (D c) by (exists c; split; [now left|constructor]). rewrite IH by (intros m (n & I & S0); apply D; exists n; split; [now right|exact S0]).
    cbn [app]. f_equal. apply prune_fix. intros m (k & K & S0). apply D. exists c. split; [now left|]. econstructor; eauto. }
  assert (M : Forall (deep plainMarks) (astMerge a)) by (apply all_deep; exact N).
  assert (E : simplify 2 a = simplify 0 a) by (unfold simplify; cbn [Z.eqb]; change (astRemoveRedundant (astRemoveNonData (astRemoveVirtual (astMerge a))) = astRemoveRedundant (astMerge a)); now rewrite FIX).
  split; [|exact E]. rewrite E. pose proof (textTree_shown a P) as T. replace (simplify 0 a) with (textTree (simplify 0 a)); [exact T|].
  unfold textTree. rewrite FIX; [unfold simplify; cbn [Z.eqb]; apply astRedundant_idem|].
  pose proof (simplify_simplified 0 a P) as (m & p & MM & PP & F). assert (m = astMerge a) by (eapply merged_det_mut; [apply astMerge_merged|exact MM]). subst m.
  assert (PE : p = pruneAll (dropsAt 0) (astMerge a)) by (apply outlines_determine; rewrite pruneAll_outline; exact PP). subst p.
  apply (pruneAll_keeps plainMarks (fun n ks H => H) (dropsAt 0)) in M. clear - M F. induction F as [|c c' l l' X F IH]; [constructor|]. inversion M; subst. constructor; [|auto].
  destruct (n_nondata c); [now subst|]. eapply (proj1 (reduced_keeps plainMarks (fun n ks H => H) (fun n cs H => H))); eauto.
Qed.

(* ---------------- the loops ---------------- *)

Lemma raw_proper lf fuel g roots o s a s' : wfRules g -> wfRoots roots -> legal roots o -> runesOk (rest s) -> evalRaw lf fuel g o s = Ok (RawOk a, s') -> Forall proper a.
Proof. intros W WR LG C E. destruct (evalRaw_trees _ _ _ _ _ _ _ _ W WR LG C E) as (_ & T & _). apply Forall_forall. intros n N. destruct (T n N) as (x & _ & D). exact (derives_proper _ _ _ D). Qed.
Lemma top_raw lf fuel g o s r s' : evalTop lf fuel g o s 0 = Ok (r, s') ->
  exists r0, evalRaw lf fuel g o s = Ok (r0, s') /\ r = match r0 with RawOk a => RawOk (simplify 0 a) | _ => r0 end.
Proof. unfold evalTop. destruct (evalRaw lf fuel g o s) as [[r0 s0]| |]; cbn [bind]; try discriminate. intros [= <- <-]. eauto. Qed.

Section Loops.
Variables (lf fuel : nat) (g : rules_t) (roots : list (list Z * rule)) (types : bool) (os : nat -> orders).
Hypothesis W : wfRules g.
Hypothesis WR : wfRoots roots.
Hypothesis LG : forall k, legal roots (os k).
Let cfg := mkConfig types false.

Lemma texts_answered l : forall k out b, Forall runesOk l -> textsLoop lf fuel g cfg os k l = Ok (out, b) -> answered lf fuel g types PText Some os k l out b.
Proof.
  induction l as [|t l IH]; intros k out b C E; cbn [textsLoop] in E; [injection E as <- <-; constructor|]. inversion C as [|? ? Ct Cl]; subst.
  destruct (evalTop lf fuel g (os k) (newStream t) 0) as [[r s']| |] eqn:T; cbn [bind] in E; try discriminate. apply top_raw in T as (r0 & R & ->).
  destruct r0 as [a| | | |].
  2-5: injection E as <- <-; eapply an_failed; [reflexivity|exact R|discriminate].
  destruct (textsLoop lf fuel g cfg os (S k) l) as [[out' b']| |] eqn:L; cbn [bind] in E; try discriminate. injection E as <- <-.
  eapply an_tree; [reflexivity| |now apply IH]. exists a, s'. split; [exact R|]. apply textTree_shown. exact (raw_proper _ _ _ roots _ (newStream t) _ _ W WR (LG k) Ct R).
Qed.
Lemma files_answered fs l : (forall f t, In f l -> fs f = Some t -> runesOk t) -> forall k out b,
  filesLoop lf fuel g cfg fs os k l = Ok (out, b) -> answered lf fuel g types PFile fs os k l out b.
Proof.
  induction l as [|f l IH]; intros C k out b E; cbn [filesLoop] in E; [injection E as <- <-; constructor|].
  destruct (fs f) as [t|] eqn:F; [|injection E as <- <-; now constructor]. pose proof (C f t (or_introl eq_refl) F) as Ct.
  destruct (evalTop lf fuel g (os k) (newStream t) 0) as [[r s']| |] eqn:T; cbn [bind] in E; try discriminate. apply top_raw in T as (r0 & R & ->).
  destruct r0 as [a| | | |].
  2-5: injection E as <- <-; eapply an_failed; [exact F|exact R|discriminate].
  destruct (filesLoop lf fuel g cfg fs os (S k) l) as [[out' b']| |] eqn:L; cbn [bind] in E; try discriminate. injection E as <- <-.
  assert (P : Forall proper a) by exact (raw_proper _ _ _ roots _ (newStream t) _ _ W WR (LG k) Ct R).
  rewrite (file_as_text a P). eapply an_tree; [exact F| |apply IH; [intros; eapply C; [right|]; eauto|exact L]]. exists a, s'. split; [exact R|]. now apply textTree_shown.
Qed.
End Loops.

Lemma tree_det lf fuel g o txt a b : treeFor lf fuel g o txt a -> treeFor lf fuel g o txt b -> b = a.
Proof. intros (x & s & E & S1) (y & s' & E' & S2). rewrite E in E'. injection E' as <- _. eapply shown_det; eauto. Qed.
Lemma answered_det lf fuel g types ann content os k l out b : answered lf fuel g types ann content os k l out b ->
  forall out' b', answered lf fuel g types ann content os k l out' b' -> out' = out /\ b' = b.
Proof.
  induction 1 as [k|k x l txt a out b C T A IH|k x l C|k x l txt r s C R N]; intros out' b' H; inversion H as [|? ? ? txt' a' ? ? C' T' A'|? ? ? C'|? ? ? txt' r' s' C' R' N']; subst; try congruence; auto.
  - rewrite C in C'. injection C' as <-. destruct (IH _ _ A') as [-> ->]. rewrite (tree_det _ _ _ _ _ _ _ T T'). auto.
  - exfalso. rewrite C in C'. injection C' as <-. destruct T as (y & s0 & E & _). rewrite R' in E. injection E as -> _. now apply (N' y).
  - exfalso. rewrite C in C'. injection C' as <-. destruct T' as (y & s0 & E & _). rewrite R in E. injection E as -> _. now apply (N y).
  - rewrite C in C'. injection C' as <-. rewrite R in R'. injection R' as <- _. auto.
Qed.

(* ---------------- grammars ---------------- *)

Lemma rulesLoop_added ds : forall g out g', rulesLoop g ds = (out, Some g') -> out = List.map PAddingRule ds /\ added g ds g'.
Proof.
  induction ds as [|d ds IH]; intros g out g' E; cbn [rulesLoop] in E; [injection E as <- <-; split; [reflexivity|constructor]|].
  destruct (addRule g d) as [[r|e] g1] eqn:A; [|discriminate]. destruct (rulesLoop g1 ds) as [o x] eqn:L. injection E as <- ->.
  destruct (IH _ _ _ L) as [-> AD]. split; [reflexivity|]. econstructor; eauto.
Qed.
Lemma rulesLoop_failed ds : forall g out, rulesLoop g ds = (out, None) -> exists e, last out PUsage = PError (CRule e).
Proof.
  induction ds as [|d ds IH]; intros g out E; cbn [rulesLoop] in E; [discriminate|].
  destruct (addRule g d) as [[r|e] g1] eqn:A; [|injection E as <-; exists e; reflexivity]. destruct (rulesLoop g1 ds) as [o x] eqn:L. injection E as <- ->.
  destruct (IH _ _ L) as [e X]. exists e. destruct o; [discriminate|exact X].
Qed.
Lemma added_inv (P : grammar -> Prop) : (forall g d, runesOk d -> P g -> P (snd (addRule g d))) -> forall g ds g', added g ds g' -> Forall runesOk ds -> P g -> P g'.
Proof.
  intros H g ds g' A. induction A as [|g d r g1 ds g2 E A IH]; intros C I; [exact I|]. inversion C; subst. apply IH; [assumption|]. specialize (H g d H2 I). now rewrite E in H.
Qed.

(* a definition as a line *)
Lemma white_app a b : white a -> white b -> white (a ++ b).
Proof. unfold white. intros A B. apply Forall_app. auto. Qed.
Lemma trim_left_white w a : white w -> trim (w ++ a) = trim a.
Proof.
  intros H. apply trimmed_trim. destruct (trim_trimmed a) as (v & v' & E & V & V' & ED). exists (w ++ v), v'. rewrite E at 1. rewrite <- !app_assoc. split; [reflexivity|]. split; [now apply white_app|auto].
Qed.
Lemma trim_right_white w a : white w -> trim (a ++ w) = trim a.
Proof.
  intros H. apply trimmed_trim. destruct (trim_trimmed a) as (v & v' & E & V & V' & ED). exists v, (v' ++ w). rewrite E at 1. rewrite <- !app_assoc. split; [reflexivity|]. split; [exact V|]. split; [now apply white_app|exact ED].
Qed.
Lemma white_rev w : white w -> white (rev w).
Proof. unfold white. intros H. apply Forall_rev. exact H. Qed.
Lemma trim_split a b : ~ In 61 a -> exists a' b', trim (a ++ 61 :: b) = a' ++ 61 :: b' /\ ~ In 61 a' /\ trim a' = trim a /\ trim b' = trim b.
Proof.
  intros N. destruct (trimLeft_split a) as (w & EA & WA & HA). destruct (trimLeft_split (rev b)) as (v & EB & WB & HB).
  assert (EB' : b = rev (trimLeft (rev b)) ++ rev v) by (rewrite <- rev_app_distr, <- EB, rev_involutive; reflexivity).
  exists (trimLeft a), (rev (trimLeft (rev b))). split.
  - apply trimmed_trim. exists w, (rev v). rewrite EA at 1. rewrite EB' at 1. split; [rewrite <- !app_assoc; reflexivity|]. split; [exact WA|]. split; [now apply white_rev|].
    intros c [(x & E)|(x & E)].
    + destruct (trimLeft a) as [|y l]; cbn [app] in E; [|injection E as -> _; exact HA]. injection E as <- _. rewrite white_dec. discriminate.
    + destruct (trimLeft (rev b)) as [|y l]; cbn [rev] in E.
      * assert (c = 61) as -> by (apply app_inj_tail in E as [_ E]; congruence). rewrite white_dec. discriminate.
      * assert (c = y) as ->; [|exact HB]. rewrite app_comm_cons, app_assoc in E. apply app_inj_tail in E as [_ E]. congruence.
  - split; [intros I; apply N; rewrite EA; apply in_app_iff; now right|]. split; [rewrite EA at 2; now rewrite trim_left_white|]. rewrite EB' at 2. symmetry. apply trim_right_white. now apply white_rev.
Qed.
Lemma validName_head n : validName n = true -> exists c x, n = c :: x /\ c <> 47.
Proof. intros H. apply validName_iff in H as (c & x & -> & L & _). exists c, x. split; [reflexivity|lia]. Qed.
Lemma add_line g d r g' ls : addRule g d = (inl r, g') -> addLines g (g_maxLine g) (d :: ls) = addLines g' (g_maxLine g') ls.
Proof.
  intros E. destruct (addRule_cases g d) as [[_ X]|(a & b & SE & X)]; rewrite X in E; [discriminate|]. apply splitEq_some in SE as [-> N].
  destruct (trim_split a b N) as (a' & b' & T & N' & TA & TB). cbn [addLines]. rewrite T.
  assert (V : validName (trim a) = true) by (destruct (parseRule_cases g (trim a) (trim b)) as [[_ Y]|[(V & _)|(V & _)]]; [congruence|exact V..]).
  assert (NE : nonempty (a' ++ 61 :: b') = true) by now destruct a'.
  assert (NC : isComment (a' ++ 61 :: b') = false).
  { apply not_true_iff_false. intros H. apply isComment_iff in H as (x & H). destruct a' as [|c a']; [discriminate|]. cbn [app] in H. injection H as -> _.
    destruct (validName_head _ V) as (c & y & Y & NC). rewrite <- TA in Y. destruct (trim_trimmed (47 :: a')) as (w & w' & EE & W1 & _). rewrite Y in EE.
    destruct w as [|k w]; cbn [app] in EE; [congruence|]. injection EE as <- _. inversion W1 as [|? ? W2 _]; subst. apply white_dec in W2. discriminate. }
  rewrite NE, NC. cbn [negb orb]. assert (splitEq (a' ++ 61 :: b') = Some (a', b')) as -> by now apply splitEq_some. rewrite TA, TB, E.
  apply parseRule_max in E. rewrite <- E. f_equal. now destruct g'.
Qed.
Lemma added_lines g ds g' : added g ds g' -> addLines g (g_maxLine g) ds = inl g'.
Proof. induction 1 as [|g d r g1 ds g2 E A IH]; [reflexivity|]. now rewrite (add_line _ _ _ _ ds E). Qed.
Lemma addLines_app l1 : forall g i l2, addLines g i (l1 ++ l2) = match addLines g i l1 with inl g' => addLines g' (i + Z.of_nat (length l1)) l2 | inr e => inr e end.
Proof.
  induction l1 as [|ln l1 IH]; intros g i l2; [cbn [app addLines length]; f_equal; lia|]. cbn [app addLines]. replace (i + Z.of_nat (length (ln :: l1))) with (i + 1 + Z.of_nat (length l1)) by (cbn [length]; lia).
  destruct (_ || _); [apply IH|]. destruct (splitEq (trim ln)) as [[a b]|]; [|reflexivity]. destruct (parseRule g (trim a) (trim b)) as [[r|e] g1]; [apply IH|reflexivity].
Qed.
Lemma lines_with txt ds : Forall (fun d => ~ In 10 d) ds -> splitLines (withLines txt ds) = splitLines txt ++ ds.
Proof.
  intros F. symmetry. apply lines_unique. destruct (splitLines_lines txt) as (NE & NL & first & others & E & T). split; [rewrite E; discriminate|]. split.
  - intros l L. apply in_app_iff in L as [L|L]; [auto|]. rewrite Forall_forall in F. auto.
  - exists first, (others ++ ds). split; [rewrite E; reflexivity|]. unfold withLines. rewrite map_app, concat_app, app_assoc. now rewrite <- T.
Qed.

(** The same rules, whatever the last validation has left. *)
Record siblings (g h : grammar) : Prop := { sb_rec : g_records g = g_records h; sb_us : g_usage g = g_usage h; sb_mx : g_maxLine g = g_maxLine h }.
Lemma siblings_add g h d r g' : siblings g h -> addRule g d = (inl r, g') -> exists h', addRule h d = (inl r, h') /\ siblings g' h' /\ g_roots g' = g_roots g /\ g_roots h' = g_roots h.
Proof.
  intros [R U M] E. destruct (addRule_cases g d) as [[_ X]|(a & b & SE & X)]; rewrite X in E; [discriminate|]. unfold addRule. rewrite SE. clear X. revert E. unfold parseRule, getRecord. rewrite <- R.
  destruct (negb (validName (trim a))); [discriminate|]. destruct (find_rec (g_records g) (trim a)); [discriminate|]. destruct (parseText (trim (trim b))) as [r0 l us|us|]; try discriminate.
  intros [= <- <-]. eexists. split; [reflexivity|]. cbn. split; [split; cbn; congruence|]. auto.
Qed.
Lemma siblings_added g ds g' : added g ds g' -> forall h, siblings g h -> exists h', added h ds h' /\ siblings g' h' /\ g_roots g' = g_roots g /\ g_roots h' = g_roots h.
Proof.
  induction 1 as [|g d r g1 ds g2 E A IH]; intros h S0; [exists h; repeat split; auto; [constructor|apply S0..]|].
  destruct (siblings_add _ _ _ _ _ S0 E) as (h1 & E1 & S1 & R1 & R1'). destruct (IH h1 S1) as (h2 & A2 & S2 & R2 & R2'). exists h2. split; [econstructor; eauto|]. split; [exact S2|]. split; congruence.
Qed.
Lemma siblings_refs g h : siblings g h -> forall n, referenced g n <-> referenced h n.
Proof. intros [R _ _] n. unfold referenced, getRule, getRecord. now rewrite R. Qed.

Lemma put_nodup m k x : NoDup (List.map fst m) -> NoDup (List.map fst (put_rec m k x)).
Proof.
  induction m as [|[j y] m IH]; cbn [put_rec List.map fst]; [intros _; constructor; [intros []|constructor]|]. intros D. destruct (runes_eqb j k) eqn:E; [exact D|].
  cbn [List.map fst]. inversion D as [|? ? N D']; subst. constructor; [|auto]. rewrite put_keys. intros [I| ->]; [exact (N I)|]. assert (runes_eqb k k = true) by now apply runes_eqb_eq. congruence.
Qed.
Lemma fold_put_nodup l : forall m, NoDup (List.map fst m) -> NoDup (List.map fst (fold_left (fun m kr => put_rec m (fst kr) (snd kr)) l m)).
Proof. induction l as [|[k x] l IH]; intros m D; cbn [fold_left]; [exact D|]. apply IH. now apply put_nodup. Qed.

Definition rootKeys (g : grammar) : Prop := NoDup (List.map fst (g_roots g)).
Lemma validate_rootKeys g g' e : rootKeys g -> validate g = (e, g') -> rootKeys g'.
Proof. unfold rootKeys, validate. intros D. destruct (forallb _ _); intros [= _ <-]; [|exact D]. cbn [g_roots]. now apply fold_put_nodup. Qed.

Lemma rules_as_lines txt g ds g1 e g2 : runesOk txt -> Forall runesOk ds -> Forall (fun d => ~ In 10 d) ds ->
  newGrammarFromString txt = inl g -> added g ds g1 -> validate g1 = (e, g2) ->
  match e with
  | Some x => newGrammarFromString (withLines txt ds) = inr (0, x)
  | None => exists g3, newGrammarFromString (withLines txt ds) = inl g3 /\ siblings g2 g3 /\
      (forall n rec, In (n, rec) (g_roots g2) <-> In (n, rec) (g_roots g3) \/ (In (n, rec) (g_roots g) /\ referenced g2 n)) /\ rootKeys g2 /\ rootKeys g3
  end.
Proof.
  intros C CD ND E A V. unfold newGrammarFromString in *. rewrite (lines_with txt ds ND), addLines_app. destruct (addLines newGrammar 0 (splitLines txt)) as [g0|] eqn:L0; [|discriminate].
  assert (FL : Forall clean (splitLines txt)) by (apply Forall_forall; intros ln; now apply line_clean).
  pose proof (addLines_ok _ _ _ _ FL ginv_new eq_refl ltac:(intros m n []) L0) as (I0 & X0 & M0 & RT0 & _). rewrite Z.add_0_l in *. cbn [g_roots newGrammar] in RT0.
  destruct (validate g0) as [[x|] g'] eqn:V0; [discriminate|]. injection E as ->. destruct (validate_state _ _ _ V0) as (R0 & U0 & MX0).
  assert (S0 : siblings g g0) by (split; auto). destruct (siblings_added _ _ _ A _ S0) as (h1 & AH & SH & RG & RH). rewrite <- M0, (added_lines _ _ _ AH).
  assert (GI : forall a b, added a ds b -> ginv a -> ginv b) by (intros a b AB; apply (added_inv ginv ltac:(intros; now apply ginv_add) _ _ _ AB); exact CD).
  assert (IG : ginv g) by (pose proof (ginv_validate g0 I0) as X; now rewrite V0 in X).
  pose proof (GI _ _ A IG) as I1. pose proof (GI _ _ AH I0) as IH1.
  assert (XH : exactUsage h1).
  { revert X0. clear - AH CD. induction AH as [|a d r a1 ds a2 E A IH]; intros X; [exact X|]. inversion CD; subst. apply IH; [assumption|].
    destruct (addRule_cases a d) as [[_ Y]|(p & q & SE & Y)]; rewrite Y in E; [discriminate|]. eapply exact_parse; [|exact X|exact E]. apply trim_clean. eapply split_clean; eauto. }
  destruct SH as [RR UU MM].
  assert (VV : fst (validate h1) = e) by (revert V; unfold validate; rewrite RR, UU; destruct (forallb _ _); intros [= <- _]; reflexivity).
  destruct (validate h1) as [e' g3] eqn:VH. cbn [fst] in VV. subst e'. destruct e as [x|]; [reflexivity|]. exists g3. split; [reflexivity|].
  destruct (validate_state _ _ _ V) as (R2 & U2 & M2). destruct (validate_state _ _ _ VH) as (R3 & U3 & M3).
  assert (S23 : siblings g2 g3) by (split; congruence). split; [exact S23|].
  assert (REF : forall n, referenced g2 n <-> In n (List.map fst (g_usage h1))).
  { intros n. rewrite (usage_referenced h1 IH1 XH). unfold referenced, getRule, getRecord. rewrite R2, RR. reflexivity. }
  split; [|split].
  - intros n rec. rewrite (roots_step _ _ I1 V), (roots_step _ _ IH1 VH), RG, RH, RT0, REF, RR, UU. cbn [In].
    assert (OLD : In (n, rec) (g_roots g) -> In (n, rec) (g_records h1)).
    { intros H. apply (gi_roots _ IG) in H. rewrite <- RR. clear - A H. induction A as [|a d r a1 ds a2 E A IH]; [exact H|]. apply IH.
      destruct (addRule_cases a d) as [[_ Y]|(p & q & SE & Y)]; rewrite Y in E; [discriminate|]. revert E.
      destruct (parseRule_cases a (trim p) (trim q)) as [[_ ->]|[(_ & _ & ->)|(_ & _ & [(us & _ & ->)|[[_ ->]|(r0 & l & us & _ & ->)]])]]; try discriminate. intros [= _ <-]. cbn. apply in_app_iff. now left. }
    destruct (in_dec (list_eq_dec Z.eq_dec) n (List.map fst (g_usage h1))); tauto.
  - eapply validate_rootKeys; [|exact V]. unfold rootKeys. rewrite RG. eapply validate_rootKeys; [|exact V0]. unfold rootKeys. rewrite RT0. constructor.
  - eapply validate_rootKeys; [|exact VH]. unfold rootKeys. rewrite RH, RT0. constructor.
Qed.
Lemma rules_as_lines_same txt g ds g1 g2 : runesOk txt -> Forall runesOk ds -> Forall (fun d => ~ In 10 d) ds ->
  newGrammarFromString txt = inl g -> added g ds g1 -> validate g1 = (None, g2) -> (forall n, isRoot g n -> ~ referenced g2 n) ->
  exists g3, newGrammarFromString (withLines txt ds) = inl g3 /\ rules_of g2 = rules_of g3 /\ Permutation (rootsOf g2) (rootsOf g3).
Proof.
  intros C CD ND E A V N. destruct (rules_as_lines txt g ds g1 None g2 C CD ND E A V) as (g3 & E3 & [R U M] & RT & K2 & K3). exists g3. split; [exact E3|].
  split; [unfold rules_of; now rewrite R|]. unfold rootsOf. apply Permutation_map. apply NoDup_Permutation; [now apply nodup_map in K2|now apply nodup_map in K3|].
  intros [n rec]. rewrite RT. split; [|tauto]. intros [H|[H F]]; [exact H|]. exfalso. apply (N n); [|exact F]. unfold isRoot. now apply (in_map fst) in H.
Qed.

(* ---------------- the whole run ---------------- *)

Lemma added_plain g ds g' : added g ds g' -> plainRecords g -> plainRecords g'.
Proof. induction 1 as [|g d r g1 ds g2 E A IH]; intros P; [exact P|]. apply IH. pose proof (plain_add g d P) as X. now rewrite E in X. Qed.

Lemma added_ledger g ds g' : added g ds g' -> Forall runesOk ds -> ledger g -> ledger g'.
Proof.
  induction 1 as [|g d r g1 ds g2 E A IH]; intros C L; [exact L|]. inversion C; subst. apply IH; [assumption|].
  destruct (addRule_cases g d) as [[_ Y]|(p & q & SE & Y)]; rewrite Y in E; [discriminate|]. eapply ledger_parse; [|exact L|exact E]. apply trim_clean. eapply split_clean; eauto.
Qed.
Lemma added_lined g ds g' : added g ds g' -> lined g -> lined g'.
Proof. induction 1 as [|g d r g1 ds g2 E A IH]; intros P; [exact P|]. apply IH. pose proof (lined_add g d P) as X. now rewrite E in X. Qed.
Lemma added_terminals g ds g' : added g ds g' -> g_terminals g' = g_terminals g.
Proof.
  induction 1 as [|g d r g1 ds g2 E A IH]; [reflexivity|]. rewrite IH. pose proof (terminals_add g (AddRule d) ltac:(discriminate)) as X. cbn [perform] in X. now rewrite E in X.
Qed.
Lemma find_app_some m m' n r : find_rec m n = Some r -> find_rec (m ++ m') n = Some r.
Proof. induction m as [|[k x] m IH]; [discriminate|]. cbn [app find_rec]. destruct (runes_eqb k n); auto. Qed.
Lemma added_keeps g ds g' n r : added g ds g' -> getRule g n = Some r -> getRule g' n = Some r.
Proof.
  induction 1 as [|g d r0 g1 ds g2 E A IH]; intros G; [exact G|]. apply IH. destruct (addRule_cases g d) as [[_ Y]|(p & q & SE & Y)]; rewrite Y in E; [discriminate|]. revert E.
  destruct (parseRule_cases g (trim p) (trim q)) as [[_ ->]|[(_ & _ & ->)|(_ & _ & [(us & _ & ->)|[[_ ->]|(r1 & l & us & _ & ->)]])]]; try discriminate. intros [= _ <-].
  unfold getRule, getRecord in *. cbn [g_records]. destruct (find_rec (g_records g) n) as [rec|] eqn:F; [|discriminate]. now rewrite (find_app_some _ _ _ _ F).
Qed.
Lemma indent_under m s : under m s (indent m s).
Proof. unfold indent. induction s as [|c s IH]; [constructor|]. cbn [flat_map]. destruct (Z.eqb_spec c 10) as [->|N]; cbn [app]; now constructor. Qed.
Lemma run_listing txt g ds g1 e g2 recs recs2 : runesOk txt -> Forall runesOk ds -> newGrammarFromString txt = inl g -> added g ds g1 -> validate g1 = (e, g2) ->
  Permutation recs (g_records g2) -> Permutation recs2 (g_records g2) ->
  exists marked, (forall n r, e = None -> getRule g2 n = Some r -> marked n = true <-> refs r = []) /\ isListing false g2 marked (serialize false g2 recs recs2).
Proof.
  intros C CD E A V P P2. destruct (fromString_ledger txt g C E) as [L T]. destruct (fromString_inv txt g C E) as (ls & _ & AC). pose proof (lined_fromString txt g E) as LN.
  pose proof (added_ledger _ _ _ A CD L) as L1. pose proof (added_lined _ _ _ A LN) as LN1. pose proof (added_inv ginv ltac:(intros; now apply ginv_add) _ _ _ A CD (ac_inv _ _ AC)) as I1.
  pose proof (ledger_validate g1 L1) as L2. pose proof (lined_validate g1 LN1) as LN2. pose proof (ginv_validate g1 I1) as I2. rewrite V in L2, LN2, I2. cbn [snd] in *.
  exists (fun n => hasKey n (g_terminals g2)). split; [|now apply listing_whole]. intros n r -> G. rewrite (terminals_step _ _ I1 L1 V n), (added_terminals _ _ _ A), T.
  assert (G1 : getRule g1 n = Some r) by (unfold getRule, getRecord in *; now rewrite (proj1 (validate_state _ _ _ V)) in G).
  split; [|eauto]. intros [(r0 & G0 & N)|(r0 & G0 & N)]; [|congruence]. apply (added_keeps _ _ _ _ _ A) in G0. congruence.
Qed.
Lemma tree_drawable lf fuel g roots o txt a : wfRules g -> wfRoots roots -> legal roots o -> runesOk txt -> plainRules g -> (forall x, In x roots -> plainRule (snd x)) ->
  treeFor lf fuel g o txt a -> Forall drawable a.
Proof.
  intros W WR LG C P PR (x & s & E & b & p & S1 & PR1 & F). destruct (evalRaw_trees _ _ _ _ _ (newStream txt) _ _ W WR LG C E) as (_ & T & _).
  assert (D : Forall drawable x) by (apply Forall_forall; intros n N; destruct (T n N) as (y & Y & DV); eapply derives_drawable; eauto).
  apply (simplified_drawable 0) in S1; [|exact D]. assert (PE : p = pruneAll (dropsAt 2) b) by (apply outlines_determine; rewrite pruneAll_outline; exact PR1). subst p.
  apply (draw_pruneAll (dropsAt 2)) in S1. clear - F S1. induction F as [|c c' l l' X F IH]; [constructor|]. inversion S1; subst. constructor; [|auto]. eapply draw_reduced; eauto.
Qed.
Lemma run_trees txt g ds g1 e g2 lf fuel o t a : runesOk txt -> Forall runesOk ds -> newGrammarFromString txt = inl g -> added g ds g1 -> validate g1 = (e, g2) ->
  legal (rootsOf g2) o -> runesOk t -> treeFor lf fuel (rules_of g2) o t a ->
  Forall drawable a /\ forall m, inside m a -> n_virtual m = false /\ n_nondata m = false /\ n_sticky m = false /\ lean m.
Proof.
  intros C CD E A V LG CT T. destruct (fromString_inv txt g C E) as (ls & _ & AC).
  pose proof (added_inv ginv ltac:(intros; now apply ginv_add) _ _ _ A CD (ac_inv _ _ AC)) as I1. pose proof (ginv_validate g1 I1) as I2. rewrite V in I2. cbn [snd] in I2.
  assert (W : wfRules (rules_of g2)) by now apply ginv_rules. assert (WR : wfRoots (rootsOf g2)) by now apply ginv_rootsOf.
  assert (P2 : plainRecords g2) by (pose proof (plain_validate g1 (added_plain _ _ _ A (plain_fromString txt g E))) as X; now rewrite V in X).
  split.
  - eapply (tree_drawable lf fuel (rules_of g2)); eauto; [now apply plain_rules|]. intros [n r] H. apply in_map_iff in H as ([m rec] & [= <- <-] & H). apply (gi_roots _ I2) in H. cbn [snd]. eapply P2; eauto.
  - destruct T as (x & s & R & S1). apply (shown_data x); [|exact S1]. exact (raw_proper _ _ _ (rootsOf g2) _ (newStream t) _ _ W WR LG CT R).
Qed.

Lemma run_answers lf fuel w a out txt g g1 e g2 : a_help a = false -> (a_xbnf a <> [] \/ a_rules a <> []) ->
  w_file w (a_xbnf a) = Some txt -> runesOk txt -> newGrammarFromString txt = inl g -> added g (a_rules a) g1 -> validate g1 = (e, g2) ->
  Forall runesOk (a_rules a) -> Forall runesOk (a_texts a) -> (forall f t, In f (a_files a) -> w_file w f = Some t -> runesOk t) ->
  (forall k, legal (rootsOf g2) (w_orders w k)) ->
  cli lf fuel w a = Ok out ->
  exists listing outT outF b b',
    (exists t u, (Permutation (w_recs w (g_records g2)) (g_records g2) -> Permutation (w_recs2 w (g_records g2)) (g_records g2) ->
        exists marked, (forall n r, e = None -> getRule g2 n = Some r -> marked n = true <-> refs r = []) /\ isListing false g2 marked t) /\
      under (rs "    ") t u /\ listing = rs "Grammar:" ++ [10] ++ rs "    " ++ u) /\
    out = PAddingFile (a_xbnf a) :: List.map PAddingRule (a_rules a) ++ match e with Some x => [PError (CValidate x)] | None => [] end ++ PGrammar listing :: outT ++ outF /\
    answered lf fuel (rules_of g2) (a_types a) PText Some (w_orders w) 0 (a_texts a) outT b /\
    (if b then answered lf fuel (rules_of g2) (a_types a) PFile (w_file w) (w_orders w) (length (a_texts a)) (a_files a) outF b' else outF = []).
Proof.
  intros H NE F C E A V CR CT CF LG R. unfold cli in R. rewrite H, F, E in R.
  assert (negb (nonempty (a_xbnf a)) && negb (nonempty (a_rules a)) = false) as B by (destruct NE as [NE|NE]; [destruct (a_xbnf a)|destruct (a_rules a)]; try congruence; cbn; [reflexivity|now rewrite andb_false_r]).
  rewrite B in R. clear B.
  assert (RL : rulesLoop g (a_rules a) = (List.map PAddingRule (a_rules a), Some g1)).
  { clear - A. induction A as [|x d r x1 ds x2 E A IH]; [reflexivity|]. cbn [rulesLoop List.map]. now rewrite E, IH. }
  rewrite RL in R. unfold listGrammar in R. rewrite V in R. cbn [fst snd] in R.
  assert (I2 : ginv g2).
  { destruct (fromString_inv txt g C E) as (ls & _ & AC). pose proof (added_inv ginv ltac:(intros; now apply ginv_add) _ _ _ A CR (ac_inv _ _ AC)) as I1. pose proof (ginv_validate g1 I1) as X. now rewrite V in X. }
  assert (W : wfRules (rules_of g2)) by now apply ginv_rules. assert (WR : wfRoots (rootsOf g2)) by now apply ginv_rootsOf.
  destruct (textsLoop lf fuel (rules_of g2) (mkConfig (a_types a) false) (w_orders w) 0 (a_texts a)) as [[outT b]| |] eqn:T; cbn [bind] in R; try discriminate.
  pose proof (texts_answered _ _ _ _ _ _ W WR LG _ _ _ _ CT T) as AT. destruct b.
  - destruct (filesLoop lf fuel (rules_of g2) (mkConfig (a_types a) false) (w_file w) (w_orders w) (length (a_texts a)) (a_files a)) as [[outF b']| |] eqn:TF; cbn [bind] in R; try discriminate.
    pose proof (files_answered _ _ _ _ _ _ W WR LG (w_file w) _ CF _ _ _ TF) as AF. injection R as <-. do 2 eexists. exists outF, true, b'. split; [|split; [|split; [exact AT|exact AF]]]; [exists (serialize false g2 (w_recs w (g_records g2)) (w_recs2 w (g_records g2))); eexists; split; [exact (run_listing txt g (a_rules a) g1 e g2 _ _ C CR E A V)|split; [apply indent_under|reflexivity]]|]. do 2 f_equal. destruct e; reflexivity.
  - injection R as <-. do 2 eexists. exists [], false, false. split; [|split; [|split; [exact AT|reflexivity]]]; [exists (serialize false g2 (w_recs w (g_records g2)) (w_recs2 w (g_records g2))); eexists; split; [exact (run_listing txt g (a_rules a) g1 e g2 _ _ C CR E A V)|split; [apply indent_under|reflexivity]]|]. rewrite app_nil_r. do 2 f_equal. destruct e; reflexivity.
Qed.
Lemma run_refused lf fuel w a :
  (a_help a = true -> cli lf fuel w a = Ok [PUsage]) /\
  (a_help a = false -> a_xbnf a = [] -> a_rules a = [] -> cli lf fuel w a = Ok [PNoRules; PUsage]) /\
  (a_help a = false -> a_xbnf a <> [] -> w_file w (a_xbnf a) = None -> cli lf fuel w a = Ok [PAddingFile (a_xbnf a); PError CRead]) /\
  (forall txt line e, a_help a = false -> a_xbnf a <> [] -> w_file w (a_xbnf a) = Some txt -> newGrammarFromString txt = inr (line, e) ->
     cli lf fuel w a = Ok [PAddingFile (a_xbnf a); PError (CGrammar line e)]) /\
  (forall txt g ds d ds' g1 e g2, a_help a = false -> w_file w (a_xbnf a) = Some txt -> newGrammarFromString txt = inl g ->
     a_rules a = ds ++ d :: ds' -> added g ds g1 -> addRule g1 d = (inr e, g2) ->
     cli lf fuel w a = Ok (PAddingFile (a_xbnf a) :: List.map PAddingRule (ds ++ [d]) ++ [PError (CRule e)])).
Proof.
  split; [|split; [|split; [|split]]].
  - intros H. unfold cli. now rewrite H.
  - intros H X R. unfold cli. now rewrite H, X, R.
  - intros H X R. unfold cli. rewrite H, R. now destruct (a_xbnf a).
  - intros txt line e H X R E. unfold cli. rewrite H, R, E. now destruct (a_xbnf a).
  - intros txt g ds d ds' g1 e g2 H F E D A B. unfold cli. rewrite H, F, E. assert (nonempty (a_rules a) = true) as -> by (rewrite D; now destruct ds). cbn [negb]. rewrite andb_false_r, D.
    assert (RL : rulesLoop g (ds ++ d :: ds') = (List.map PAddingRule (ds ++ [d]) ++ [PError (CRule e)], None)); [|now rewrite RL].
    clear - A B. induction A as [|x k r x1 ds x2 E A IH]; cbn [app rulesLoop List.map]; [now rewrite B|]. rewrite E, (IH B). reflexivity.
Qed.
Lemma run_rule_alone lf fuel w a : a_help a = false -> a_xbnf a = [] -> a_rules a <> [] -> w_file w [] = None -> cli lf fuel w a = Ok [PAddingFile []; PError CRead].
Proof. intros H X R F. unfold cli. rewrite H, X, F. now destruct (a_rules a). Qed.
Lemma rules_as_lines_roots txt g ds g1 e g2 : runesOk txt -> Forall runesOk ds -> Forall (fun d => ~ In 10 d) ds ->
  newGrammarFromString txt = inl g -> added g ds g1 -> validate g1 = (e, g2) ->
  match e with
  | Some x => newGrammarFromString (withLines txt ds) = inr (0, x)
  | None => exists g3, newGrammarFromString (withLines txt ds) = inl g3 /\
      g_records g2 = g_records g3 /\
      (forall n rec, In (n, rec) (g_roots g2) <-> In (n, rec) (g_roots g3) \/ (In (n, rec) (g_roots g) /\ referenced g2 n))
  end.
Proof.
  intros C CD ND E A V. pose proof (rules_as_lines txt g ds g1 e g2 C CD ND E A V) as H. destruct e; [exact H|]. destruct H as (g3 & E3 & [R _ _] & RT & _). eauto.
Qed.
