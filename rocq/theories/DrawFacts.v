(** The trees that evaluation and simplification make are drawn completely. *)
From Coq Require Import Permutation.
From Verif Require Import Base Stream Node Rule SpecStream SpecRule RuleFacts Parse Grammar Print SpecParse ParseFacts NotationFacts SpecNode NodeFacts NodeLean NodeExact
  SpecDriver DriverFacts SpecGrammar GrammarFacts GrammarText HistoryFacts Show SpecShow ShowFacts.

Lemma ast_lines cfg file a : exists blocks, hung (List.map (stringTree cfg) a) blocks /\
  astTree cfg file a = stacked ([rs "Abstract Syntax Tree"; [9500; 9472] ++ rs " file:" ++ file;
    [match a with [] => 9492 | _ => 9500 end; 9472] ++ rs " Nodes: " ++ showInt (Z.of_nat (length a))] ++ blocks).
Proof.
  assert (H : forall l, exists blocks, hung l blocks /\ drawKids 3 l = flat_map (fun x => 10 :: x) blocks).
  { induction l as [|x l (k & K & E)]; [exists []; split; [constructor|reflexivity]|]. destruct l as [|y l].
    - exists [[9492; 9472; 9472; 9472] ++ indent [32; 32; 32; 32] x]. split; [constructor; now apply indent_under|]. cbn [flat_map]. rewrite app_nil_r. reflexivity.
    - exists (([9500; 9472; 9472; 9472] ++ indent [9474; 32; 32; 32] x) :: k). split; [constructor; [discriminate|now apply indent_under|exact K]|].
      rewrite drawKids_cons, E. cbn [flat_map]. change ([10; cTee] ++ repeat cHor 3 ++ indent (cBar :: repeat cSpace 3) x ++ flat_map (fun x0 => 10 :: x0) k) with
        ([10; 9500; 9472; 9472; 9472] ++ indent [9474; 32; 32; 32] x ++ flat_map (fun x0 => 10 :: x0) k). cbn [app]. reflexivity. }
  destruct (H (List.map (stringTree cfg) a)) as (k & K & E). exists k. split; [exact K|]. unfold astTree. rewrite E.
  assert (X : forall b l, stacked (b :: l) = b ++ flat_map (fun x => 10 :: x) l).
  { clear. intros b l. destruct l as [|c l]; [cbn; now rewrite app_nil_r|]. change (stacked (b :: c :: l)) with (b ++ 10 :: stacked (c :: l)). now rewrite stacked_flat by discriminate. }
  cbn [app]. rewrite X. cbn [flat_map app]. rewrite <- ?app_assoc. cbn [app]. unfold cTee, cHor, cCorner. repeat (progress (f_equal; rewrite <- ?app_assoc; cbn [app])); try reflexivity.
Qed.

(* ---------------- evaluation ---------------- *)

(** All names in a rule. *)
Fixpoint ruleNames (r : rule) : list (list Z) :=
  b_name (base_of r) ::
  match r with
  | RGroup _ x | ROption _ x | RRep _ x _ _ => ruleNames x
  | RChoice _ gs => flat_map (flat_map ruleNames) gs
  | RConcat _ l => flat_map ruleNames l
  | RBlock _ o _ c _ _ => ruleNames o ++ ruleNames c
  | _ => []
  end.
Definition plainRule (r : rule) : Prop := Forall nameRunes (ruleNames r).
Definition plainRules (g : rules_t) : Prop := forall n r, lookup g n = Some r -> plainRule r.

Lemma plain_leaf ty nm ch pos st v nd tk : nameRunes nm -> drawable (Node ty nm ch [] pos st v nd tk).
Proof. intros H. apply drawable_intro; [|constructor]. split; [exact H|]. cbn. congruence. Qed.
Lemma nameEOF_runes : nameRunes nameEOF.
Proof. unfold nameRunes. repeat (constructor; [lia|]). constructor. Qed.
Lemma derives_drawable g r n : plainRules g -> derives g r n -> plainRule r -> drawable n.
Proof.
  intros G D. induction D using derives_ind'; unfold plainRule; intros P; cbn [ruleNames base_of] in P;
    try (now apply plain_leaf; inversion P).
  - apply plain_leaf, nameEOF_runes.
  - specialize (IHD (G _ _ H)). apply drawable_kids in IHD as [[N K] F]. apply drawable_intro; destruct nd; [split; assumption|exact F].
  - inversion P; subst. apply drawable_intro; [split; [assumption|cbn; auto]|]. constructor; [auto|constructor].
  - inversion P; subst. apply drawable_intro; [split; [assumption|cbn; auto]|]. constructor; [auto|constructor].
  - inversion P; subst. apply drawable_intro; [split; [assumption|cbn; auto]|]. apply Forall_forall. intros m M. cbn [n_kids build] in M. auto.
  - inversion P as [|? ? P1 P2]; subst. apply drawable_intro; [split; [assumption|cbn; auto]|]. constructor; [|constructor]. apply IHD. unfold plainRule. rewrite Forall_forall in *. intros m M. apply P2.
    apply in_flat_map. exists grp. split; [assumption|]. apply in_flat_map. eauto.
  - inversion P as [|? ? P1 P2]; subst. apply drawable_intro; [split; [assumption|cbn; auto]|]. cbn [n_kids build]. clear P P1.
    match goal with H : Forall2 (fun r n => _ -> _) _ _ |- _ => induction H; constructor end; cbn [flat_map] in P2; apply Forall_app in P2 as [A B].
    + auto.
    + match goal with H : Forall2 (derives g) _ _ |- _ => inversion H; subst end. auto.
  - inversion P as [|? ? P1 P2]; subst. apply Forall_app in P2 as [A B]. apply drawable_intro; [split; [assumption|cbn; auto]|]. cbn [n_kids build].
    constructor; [auto|]. constructor; [apply plain_leaf; constructor|]. destruct v; [constructor|]. constructor; [auto|constructor].
Qed.

(* ---------------- simplification ---------------- *)

Lemma draw_set n ks : drawable n -> (ks <> [] -> n_kids n <> []) -> Forall drawable ks -> drawable (set_kids n ks).
Proof. intros D K F. apply drawable_kids in D as [[N T] _]. apply drawable_intro; [|exact F]. split; [exact N|]. intros X. apply T, K, X. Qed.
Lemma draw_prune p n : drawable n -> drawable (prune p n).
Proof.
  induction n as [n IH] using node_ind'. intros D. rewrite prune_eq. apply draw_set; [exact D| |].
  - destruct (n_kids n); [now intros []|discriminate].
  - apply drawable_kids in D as [_ F]. apply Forall_forall. intros m M. apply pruneAll_in in M as (c & C & _ & ->). rewrite Forall_forall in IH, F. auto.
Qed.
Lemma draw_pruneAll p a : Forall drawable a -> Forall drawable (pruneAll p a).
Proof. intros F. apply Forall_forall. intros m M. apply pruneAll_in in M as (c & C & _ & ->). apply draw_prune. rewrite Forall_forall in F. auto. Qed.
Lemma draw_sticky n b : drawable n -> drawable (set_sticky n b).
Proof. intros D. apply drawable_kids in D as [P F]. apply drawable_intro; assumption. Qed.
Lemma draw_merged : (forall n m, mergedNode n m -> drawable n -> drawable m) /\ (forall l k, mergedEach l k -> Forall drawable l -> Forall drawable k) /\
  (forall l k, merged l k -> Forall drawable l -> Forall drawable k).
Proof.
  apply merged_mut; intros.
  - assumption.
  - apply draw_sticky. apply draw_set; auto. apply drawable_kids in H3 as [_ F]. auto.
  - apply draw_set; auto. apply drawable_kids in H3 as [_ F]. auto.
  - constructor.
  - inversion H3; subst. constructor; [apply draw_sticky|]; auto.
  - constructor.
  - inversion H4; subst. constructor; auto.
  - inversion H4 as [|? ? A B]; subst. apply Forall_app in B as [_ B]. constructor; [|auto]. apply drawable_kids in A as [[N T] _]. apply plain_leaf. exact N.
Qed.
Lemma draw_reduced : (forall n m, reduced n m -> drawable n -> drawable m) /\ (forall l k, reducedAll l k -> Forall drawable l -> Forall drawable k).
Proof.
  apply reduced_mut; intros.
  - assumption.
  - pose proof (drawable_kids _ H3) as [[N T] F]. rewrite H in F. inversion F as [|? ? C _]; subst. specialize (H2 C). apply drawable_kids in H2 as [_ F2].
    apply drawable_intro; [|exact F2]. split; [exact N|]. cbn. intros _. apply T. rewrite H. discriminate.
  - pose proof (drawable_kids _ H5) as [[N T] F]. apply plain_leaf. exact N.
  - apply draw_set; auto. apply drawable_kids in H4 as [_ F]. auto.
  - constructor.
  - inversion H4 as [|? ? A B]; subst. specialize (H0 A). apply Forall_app. split; [|auto]. pose proof (drawable_kids _ H0) as [P F].
    destruct H1 as [[_ ->]|[(_ & _ & ->)|[(_ & _ & _ & ->)|(_ & _ & _ & ->)]]]; [|constructor| |exact F]; (constructor; [|constructor]); now apply drawable_intro.
Qed.
Lemma simplified_drawable level a out : Forall drawable a -> simplified level a out -> Forall drawable out.
Proof.
  intros D. unfold simplified. destruct (level =? -1); [now intros ->|]. intros (m & p & M & P & F).
  assert (DM : Forall drawable m) by (eapply draw_merged; eauto).
  assert (DP : Forall drawable p).
  { assert (E : p = pruneAll (dropsAt level) m) by (apply outlines_determine; rewrite pruneAll_outline; exact P). subst p. now apply draw_pruneAll. }
  clear - F DP. induction F as [|c c' l l' X F IH]; [constructor|]. inversion DP; subst. constructor; [|auto].
  destruct (n_nondata c); [now subst|]. eapply draw_reduced; eauto.
Qed.

(* ---------------- definitions ---------------- *)

Scheme Prim_m := Minimality for Prim Sort Prop
  with Escape_m := Minimality for Escape Sort Prop
  with Excl_m := Minimality for Excl Sort Prop
  with Elem_m := Minimality for Elem Sort Prop
  with Alts_m := Minimality for Alts Sort Prop
  with Elems_m := Minimality for Elems Sort Prop
  with Body_m := Minimality for Body Sort Prop.
Combined Scheme spell_mut from Prim_m, Escape_m, Excl_m, Elem_m, Alts_m, Elems_m, Body_m.

Lemma nil_runes : nameRunes []. Proof. constructor. Qed.
Lemma names_set r b : nameRunes (b_name b) -> plainRule r -> plainRule (set_base r b).
Proof. unfold plainRule. intros B P. destruct r; cbn [set_base ruleNames base_of] in *; inversion P; subst; constructor; auto. Qed.
Lemma names_marks m r : plainRule r -> plainRule (withMarks m r).
Proof. intros P. apply names_set; [|exact P]. unfold plainRule in P. destruct r; cbn [ruleNames] in P; now inversion P. Qed.
Lemma names_all (f : rule -> list (list Z)) l : Forall (fun r => Forall nameRunes (f r)) l -> Forall nameRunes (flat_map f l).
Proof. induction 1; cbn [flat_map]; [constructor|]. apply Forall_app. auto. Qed.
Lemma names_grouped alts : forall r, plainRule r -> Forall (fun x => plainRule (snd x)) alts -> Forall nameRunes (flat_map (flat_map ruleNames) (grouped r alts)).
Proof.
  induction alts as [|[[] x] alts IH]; intros r P F; cbn [grouped flat_map].
  - rewrite !app_nil_r. exact P.
  - inversion F; subst. rewrite app_nil_r. apply Forall_app. split; [exact P|auto].
  - inversion F as [|? ? PX FX]; subst. specialize (IH x PX FX). destruct (grouped x alts) as [|g gs]; cbn [flat_map] in *; rewrite ?app_nil_r; [exact P|].
    rewrite <- app_assoc. apply Forall_app. split; [exact P|exact IH].
Qed.
Lemma names_body : (forall t r, Prim t r -> plainRule r) /\ (forall t e, Escape t e -> True) /\ (forall t l, Excl t l -> True) /\
  (forall t r, Elem t r -> plainRule r) /\ (forall t l, Alts t l -> Forall (fun x => plainRule (snd x)) l) /\ (forall t l, Elems t l -> Forall plainRule l) /\
  (forall t r, Body t r -> plainRule r).
Proof.
  apply spell_mut; intros; auto; try (constructor; [apply nil_runes|constructor]); try (constructor; [apply nil_runes|assumption]).
  - constructor; [apply nil_runes|]. now apply Forall_app.
  - now apply names_marks.
  - apply names_marks. constructor; [apply nil_runes|]. now apply names_grouped.
  - apply Forall_app. split; [assumption|]. constructor; [|constructor]. now apply names_marks.
  - apply Forall_app. split; [assumption|]. constructor; [assumption|constructor].
  - destruct rs as [|x [|y l]]; [congruence| |]; cbn [sequence]; [now inversion H0|]. constructor; [apply nil_runes|]. now apply names_all.
  - destruct rs as [|x [|y l]]; [congruence| |]; cbn [sequence]; [now inversion H0|]. constructor; [apply nil_runes|]. now apply names_all.
Qed.
Lemma good_runes n : goodName n -> nameRunes n.
Proof. intros (c & x & -> & L & F). constructor; [lia|exact F]. Qed.
Lemma parsed_plain l r l' us n : parseText l = POk r l' us -> goodName n -> plainRule (setName r n).
Proof. intros P N. apply parse_spells in P as (b & _ & B). apply names_set; [now apply good_runes|]. eapply names_body; eauto. Qed.

Definition plainRecords (g : grammar) : Prop := forall n rec, In (n, rec) (g_records g) -> plainRule (rec_rule rec).
Lemma plain_parse g name str : plainRecords g -> plainRecords (snd (parseRule g name str)).
Proof.
  intros I. destruct (parseRule_cases g name str) as [[_ ->]|[(_ & _ & ->)|(V & N & [(us & _ & ->)|[[E ->]|(r & l & us & E & ->)]])]]; cbn [snd]; try exact I.
  intros n rec H. cbn [g_records] in H. apply in_snoc in H as [H|[= -> ->]]; [eauto|]. cbn [rec_rule]. eapply parsed_plain; [exact E|]. now apply validName_iff.
Qed.
Lemma plain_add g def : plainRecords g -> plainRecords (snd (addRule g def)).
Proof. intros I. destruct (addRule_cases g def) as [[_ ->]|(a & b & E & ->)]; [exact I|]. now apply plain_parse. Qed.
Lemma plain_validate g : plainRecords g -> plainRecords (snd (validate g)).
Proof. intros I n rec H. destruct (validate_records g) as [E _]. rewrite E in H. eauto. Qed.
Lemma plain_history calls : plainRecords (history calls).
Proof.
  unfold history. assert (G : forall g, plainRecords g -> plainRecords (fold_left perform calls g)); [|apply G; intros n rec []].
  induction calls as [|c calls IH]; intros g I; cbn [fold_left]; [exact I|]. apply IH. destruct c; cbn [perform]; [now apply plain_add|now apply plain_parse|now apply plain_validate].
Qed.
Lemma plain_lines ls : forall g i g', plainRecords g -> addLines g i ls = inl g' -> plainRecords g'.
Proof.
  induction ls as [|ln ls IH]; intros g i g' I E; cbn [addLines] in E; [now injection E as <-|]. destruct (_ || _); [eapply IH; [|exact E]; exact I|].
  destruct (splitEq (trim ln)) as [[a b]|]; [|discriminate]. destruct (parseRule g (trim a) (trim b)) as [[r|e] g1] eqn:P; [|discriminate].
  eapply IH; [|exact E]. pose proof (plain_parse g (trim a) (trim b) I) as X. rewrite P in X. exact X.
Qed.
Lemma plain_fromString txt g : newGrammarFromString txt = inl g -> plainRecords g.
Proof.
  unfold newGrammarFromString. destruct (addLines newGrammar 0 (splitLines txt)) as [g0|] eqn:E; [|discriminate]. apply plain_lines in E; [|intros n rec []].
  pose proof (plain_validate g0 E) as V. destruct (validate g0) as [[e|] g1]; [discriminate|]. now intros [= <-].
Qed.
Lemma plain_rules g : plainRecords g -> plainRules (rules_of g).
Proof. intros I n r L. apply lookup_in in L as (rec & R & <-). eauto. Qed.

(* ---------------- the drivers ---------------- *)

Lemma evalTop_drawable loopFuel fuel g roots o s level out s' : wfRules g -> wfRoots roots -> legal roots o -> runesOk (rest s) ->
  plainRules g -> (forall x, In x roots -> plainRule (snd x)) ->
  evalTop loopFuel fuel g o s level = Ok (RawOk out, s') -> Forall drawable out.
Proof.
  intros W WR LG C P PR E. unfold evalTop in E. destruct (evalRaw loopFuel fuel g o s) as [[r0 s0]| |] eqn:R; cbn [bind] in E; try discriminate.
  destruct r0 as [a| | | |]; try discriminate. injection E as <- <-. destruct (evalRaw_trees _ _ _ _ _ _ _ _ W WR LG C R) as (_ & T & _).
  assert (D : Forall drawable a /\ Forall proper a).
  { split; apply Forall_forall; intros n N; destruct (T n N) as (x & X & DV); [|exact (derives_proper _ _ _ DV)]. eapply derives_drawable; eauto. }
  destruct D as [D PP]. eapply simplified_drawable; [exact D|]. now apply simplify_simplified.
Qed.
Lemma fromString_drawable txt g loopFuel fuel o s level out s' : runesOk txt -> newGrammarFromString txt = inl g -> legal (rootsOf g) o -> runesOk (rest s) ->
  evalTop loopFuel fuel (rules_of g) o s level = Ok (RawOk out, s') -> Forall drawable out.
Proof.
  intros C E LG CS EV. destruct (fromString_wf txt g C E) as [W WR]. destruct (fromString_inv txt g C E) as (ls & _ & A).
  pose proof (plain_fromString txt g E) as P. eapply evalTop_drawable; eauto; [now apply plain_rules|].
  intros [n r] H. apply in_map_iff in H as ([m rec] & [= <- <-] & H). apply (gi_roots _ (ac_inv _ _ A)) in H. cbn [snd]. eapply P; eauto.
Qed.
Lemma history_drawable calls loopFuel fuel o s level out s' : decoded calls -> legal (rootsOf (history calls)) o -> runesOk (rest s) ->
  evalTop loopFuel fuel (rules_of (history calls)) o s level = Ok (RawOk out, s') -> Forall drawable out.
Proof.
  intros D LG CS EV. destruct (history_wf calls D) as [W WR]. pose proof (plain_history calls) as P. eapply evalTop_drawable; eauto; [now apply plain_rules|].
  intros [n r] H. apply in_map_iff in H as ([m rec] & [= <- <-] & H). apply (gi_roots _ (ginv_history calls D)) in H. cbn [snd]. eapply P; eauto.
Qed.
Lemma evalRule_drawable calls fuel name sample res n : decoded calls -> runesOk sample ->
  evalRule fuel (history calls) name sample = Ok res -> r_node res = Some n -> drawable n.
Proof.
  intros D C E N. destruct (history_wf calls D) as [W _]. pose proof (plain_rules _ (plain_history calls)) as P. unfold evalRule in E. rewrite getRule_rules in E.
  destruct (lookup (rules_of (history calls)) name) as [r|] eqn:L; [|injection E as <-; discriminate].
  destruct (eval fuel (rules_of (history calls)) r (newStream sample) SUGGEST_SKIP) as [[res0 s']| |] eqn:X; try discriminate. cbn [bind] in E. injection E as ->.
  eapply derives_drawable; [exact P| |exact (P _ _ L)]. exact (trees_derive _ _ _ (newStream sample) _ _ _ _ W (W _ _ L) C X N).
Qed.
