(** Matches in the mode NOT_SKIP start at the first rune (C91). *)
From Verif Require Import Base Stream StreamFacts CallFacts Node Rule Grammar SpecStream SpecRule TermFacts TermSpec SpecEval SpecEv EvFacts EvDet EvalFuel EvalSem
  SpecTerm WfDec LoopFacts SpecDriver DriverFacts LangFacts SpecFirm.

Definition firmSeq (nulls firms : list (list Z)) := fix go l := match l with
  | [] => true
  | x :: l' => firm nulls firms x && (negb (nullable nulls x) || negb (nonempty l') || match x with ROption _ y => negb (nullable nulls y) && go l' | _ => false end)
  end.
Lemma runes_flip b n : runes (flip b n) = runes n. Proof. now destruct n. Qed.
Lemma runes_tree ty b kids st : runes (tree ty b kids st) = flat_map runes kids. Proof. unfold tree, build. cbn [runes n_type n_chars n_kids]. now destruct ty. Qed.
Lemma runes_erase n : runes (erase n) = runes n.
Proof.
  induction n as [n IH] using node_ind'. destruct n as [ty nm ch ks po st vi nd tk]. cbn [n_kids] in IH. cbn [erase runes n_type n_name n_chars n_kids].
  f_equal. induction IH as [|k ks E _ IH']; [reflexivity|]. cbn [List.map flat_map]. now rewrite E, IH'.
Qed.

(** A match of [u] runes of [t] whose runes are [l]. *)
Definition fine (t : list Z) (u : nat) (l : list Z) : Prop := (u = 0%nat /\ l = []) \/ ((1 <= u)%nat /\ exists c t' l', t = c :: t' /\ l = c :: l').
Definition on (P : node -> nat -> Prop) (o : ores) : Prop := match o with OMatch n u _ _ => P n u | OFail _ _ => True end.
Definition started (t : list Z) (p : nat) (l : list Z) : Prop := (1 <= p)%nat /\ exists c t' l', t = c :: t' /\ l = c :: l'.
Lemma started_more t p q l m : started t p l -> (p <= q)%nat -> started t q (l ++ m).
Proof. intros (P & c & t' & l' & -> & ->) L. split; [lia|]. exists c, t', (l' ++ m). auto. Qed.
Lemma started_fine t p l : started t p l -> fine t p l. Proof. intros S. now right. Qed.
Lemma fine_used t p l : fine t p l -> (1 <= p)%nat -> started t p l. Proof. intros [[-> _]|S] L; [lia|exact S]. Qed.
Lemma fine_front t u n : fine t u (runes n) -> front (firstn u t) n.
Proof. intros [[-> E]|(L & c & t' & l' & -> & E)]; [exact E|]. destruct u; [lia|]. cbn. eauto. Qed.

Section Firm.
Variables (nulls firms : list (list Z)) (g : rules_t).
Notation firm := (firm nulls firms).
Notation nullable := (nullable nulls).
Hypothesis HN : forall n r, lookup g n = Some r -> nullable r = true -> isIn n nulls = true.
Hypothesis HF : forall n r, lookup g n = Some r -> isIn n firms = true -> firm r = true.
Hypothesis HW : wfRules g.

Lemma end_fine t b mn p m st kids o : EvEnd b mn p m st kids o -> fine t p (flat_map runes kids) -> on (fun n u => fine t u (runes n)) o.
Proof. intros H F. inversion H; subst; [exact I|]. cbn [on]. now rewrite runes_tree. Qed.
Lemma flat_one n : flat_map runes [n] = runes n. Proof. cbn. apply app_nil_r. Qed.
Lemma fine_term ty b st cs rd un t : ty <> TEOF -> fine t (length rd - length un) cs -> on (fun n u => fine t u (runes n)) (ofTerm ty b st (Some cs, rd, un)).
Proof. intros NE F. cbn [ofTerm on build runes n_type n_chars n_kids flat_map]. rewrite app_nil_r. now destruct ty. Qed.
Lemma lit_fine l t : match tlit false l t with (Some cs, rd, un) => fine t (length rd - length un) cs | _ => True end.
Proof.
  unfold tlit. destruct t as [|x t]; [exact I|]. cbn [length Nat.ltb Nat.leb tail_is negb skipn app]. destruct (snd (litmatch l (x :: t))) eqn:M; [|exact I].
  destruct l as [|y l]; [left; split; [reflexivity|reflexivity]|]. cbn [litmatch] in *. destruct (Z.eqb_spec x y) as [->|]; [|discriminate].
  destruct (litmatch l t) as [a ok]. cbn. right. split; [lia|]. eauto.
Qed.

Lemma firm_mut :
  (forall r f t o, Ev g r f t o -> f = NOT_SKIP -> wfRule r -> firm r = true -> on (fun n u => fine t u (runes n)) o) /\
  (forall b rules f t p m st kids o, EvSeq g b rules f t p m st kids o -> (forall x, In x rules -> wfRule x) ->
     (started t p (flat_map runes kids) \/ (p = 0%nat /\ flat_map runes kids = [] /\ (rules = [] \/ (f = NOT_SKIP /\ firmSeq nulls firms rules = true)))) ->
     on (fun n u => fine t u (runes n)) o) /\
  (forall b r mn mx f t p m st kids o, EvRep g b r mn mx f t p m st kids o -> f = NOT_SKIP -> wfRule r -> firm r = true -> fine t p (flat_map runes kids) ->
     on (fun n u => fine t u (runes n)) o) /\
  (forall rules f t m st ml m' st', EvAlts g rules f t m st ml m' st' -> f = NOT_SKIP -> (forall x, In x rules -> wfRule x) -> forallb firm rules = true ->
     forall n u, In (n, u) ml -> fine t u (runes n)) /\
  (forall b groups f t m st o, EvChoice g b groups f t m st o -> f = NOT_SKIP -> (forall grp x, In grp groups -> In x grp -> wfRule x) ->
     forallb (forallb firm) groups = true -> on (fun n u => fine t u (runes n)) o) /\
  (forall excl t p m ml m2, EvExcl g excl t p m ml m2 -> True) /\
  (forall esc t p m m1, EvPlain g esc t p m m1 -> True) /\
  (forall b o0 v cl esc excl t p m c o, EvScan g b o0 v cl esc excl t p m c o -> started t p (runes o0) -> on (fun n u => started t u (runes n)) o).
Proof.
  apply Ev_mut; try (cbn; intros; exact I).
  - intros b c u f t -> _ _. destruct (tchar c NOT_SKIP t) as [[[cs|] rd] un] eqn:E; [|exact I]. apply fine_term; [discriminate|].
    unfold tchar in E. destruct t as [|x t]; [discriminate|]. change (NOT_SKIP =? SUGGEST_SKIP) with false in E. cbv iota in E. destruct (headIs c (x :: t)) eqn:H; [|discriminate].
    injection E as <- <- <-. cbn in H. apply Z.eqb_eq in H as ->. right. cbn. split; [lia|eauto].
  - intros b l f t -> _ _. change (skips NOT_SKIP false) with false. pose proof (lit_fine l t) as F. destruct (tlit false l t) as [[[cs|] rd] un]; [|exact I]. apply fine_term; [discriminate|exact F].
  - intros b l f t -> _ _. change (skips NOT_SKIP true) with false. pose proof (lit_fine l t) as F. destruct (tlit false l t) as [[[cs|] rd] un]; [|exact I]. apply fine_term; [discriminate|exact F].
  - intros b lo lu hi hu f t -> _ _. unfold trange. destruct t as [|x t]; [exact I|]. change (NOT_SKIP =? SUGGEST_SKIP) with false. cbn [find_idxp length skipn]. destruct ((lo <=? x) && (x <=? hi)); [|exact I].
    apply fine_term; [discriminate|]. right. cbn. split; [lia|eauto].
  - intros b f t -> _ _. unfold teof. change (NOT_SKIP =? 1) with false. cbn [length skipn]. destruct t; [|exact I]. left. split; reflexivity.
  - intros b n r f t nd u k st EL _ IH F W FM. cbn [on] in *. rewrite runes_flip. apply IH; [exact F|eapply HW; eauto|eapply HF; eauto].
  - intros b r f t nd u k st _ IH F W FM. inversion W; subst. cbn [on] in *. rewrite runes_tree, flat_one. apply IH; auto.
  - intros b r f t nd u k st _ IH F W FM. inversion W; subst. cbn [on] in *. rewrite runes_tree, flat_one. apply IH; auto.
  - intros b r f t k st _ IH F W FM. cbn [on]. left. split; reflexivity.
  - intros b l f t o _ IH F W FM. inversion W; subst. apply IH; [assumption|]. right. split; [reflexivity|]. split; [reflexivity|]. right. split; [reflexivity|exact FM].
  - intros b r mn mx f t o _ IH F W FM. inversion W; subst. apply IH; [reflexivity|assumption|exact FM|]. left. split; reflexivity.
  - intros b gs f t o _ IH F W FM. inversion W; subst. apply IH; [reflexivity|assumption|exact FM].
  - intros b op v cl esc excl f t o0 u k st o E1 IH1 _ IH2 F W FM. inversion W; subst. cbn [SpecFirm.firm] in FM. apply andb_prop in FM as [F1 F2]. apply negb_true_iff in F2.
    specialize (IH1 eq_refl ltac:(assumption) F1). cbn [on] in IH1. destruct (uses nulls g HN HW op _ _ _ _ _ _ ltac:(assumption) F2 E1) as [U _].
    specialize (IH2 (fine_used _ _ _ IH1 U)). destruct o; [|exact I]. now apply started_fine.
  (* sequence *)
  - intros b f t p m st kids W [S|(-> & E & _)]; cbn [on]; rewrite runes_tree; [now apply started_fine|left; auto].
  - intros b r rules f t p m st kids n u k s o E1 IH1 _ IH2 W S. apply IH2; [intros x Hx; apply W; now right|]. rewrite flat_map_app, flat_one.
    destruct S as [S|(-> & E & [X|(-> & X)])]; [left; apply started_more with p; [exact S|lia]|discriminate|].
    cbn [firmSeq] in X. apply andb_prop in X as [X1 X2]. specialize (IH1 eq_refl (W r (or_introl eq_refl)) X1). cbn [on skipn] in IH1, E1. rewrite E. cbn [app Nat.add].
    destruct IH1 as [[-> R]|S]; [|left; exact S]. right. split; [reflexivity|]. split; [exact R|]. apply orb_prop in X2 as [X2|X2]; [apply orb_prop in X2 as [X2|X2]|].
    + apply negb_true_iff in X2. destruct (uses nulls g HN HW r _ _ _ _ _ _ (W r (or_introl eq_refl)) X2 E1). lia.
    + left. destruct rules; [reflexivity|discriminate].
    + right. destruct r as [| | | | | | |b' y| | | |]; try discriminate X2. apply andb_prop in X2 as [N X2]. apply negb_true_iff in N. split; [|exact X2].
      pose proof (W _ (or_introl eq_refl)) as WR. inversion WR; subst. inversion E1 as [| | | | | | | | | |? ? ? ? nd ? ? ? E2|? ? ? ? ? ? E2| | | | |]; subst.
      * destruct (uses nulls g HN HW y _ _ _ _ _ _ ltac:(assumption) N E2). lia.
      * reflexivity.
  (* repetition *)
  - intros b r mn mx f t p m st kids o _ EE F W FM S. eapply end_fine; eassumption.
  - intros b r mn mx f t p m st kids k s o _ _ _ EE F W FM S. eapply end_fine; eassumption.
  - intros b r mn mx f t p m st kids n u k s o _ _ IH1 _ _ EE F W FM S. eapply end_fine; [exact EE|]. specialize (IH1 F W FM). cbn [on] in IH1. rewrite flat_map_app, flat_one.
    destruct S as [[-> E]|S]; [rewrite E; exact IH1|]. apply started_fine. apply started_more with p; [exact S|lia].
  - intros b r mn mx f t p m st kids n u k s o _ _ IH1 _ _ IH2 F W FM S. apply (IH2 F W FM). specialize (IH1 F W FM). cbn [on] in IH1. rewrite flat_map_app, flat_one.
    destruct S as [[-> E]|S]; [rewrite E; exact IH1|]. apply started_fine. apply started_more with p; [exact S|lia].
  (* alternatives *)
  - intros f t m st _ _ _ n u [].
  - intros r rules f t m st n u k s ml m' st' _ IH1 _ IH2 F W FM n' u' Hx. cbn [forallb] in FM. apply andb_prop in FM as [F1 F2]. destruct Hx as [Hx|Hx].
    + injection Hx as <- <-. exact (IH1 F (W r (or_introl eq_refl)) F1).
    + apply (IH2 F); auto. intros y Hy. apply W. now right.
  - intros r rules f t m st k s ml m' st' _ IH1 _ IH2 F W FM n' u' Hx. cbn [forallb] in FM. apply andb_prop in FM as [F1 F2]. apply (IH2 F); auto. intros y Hy. apply W. now right.
  (* choice *)
  - intros b grp groups f t m st m' st' o _ IH1 _ IH2 F W FM. cbn [forallb] in FM. apply andb_prop in FM as [F1 F2]. apply (IH2 F); auto. intros gr x Hg. apply (W gr x). now right.
  - intros b grp groups f t m st ml m' st' n u _ IH1 (l1 & l2 & -> & _) F W FM. cbn [forallb] in FM. apply andb_prop in FM as [F1 F2]. cbn [on]. rewrite runes_tree, flat_one.
    apply (IH1 F (fun x => W grp x (or_introl eq_refl)) F1). apply in_or_app. right. now left.
  (* scan *)
  - intros b o0 v cl esc excl t p m c m1 m2 nc u k st _ _ _ _ _ _ S. cbn [on]. rewrite runes_tree. cbn [flat_map]. destruct v; apply started_more with p; [exact S|lia|exact S|lia].
  - intros b o0 v cl esc excl t p m c m1 m2 k st x l o _ _ _ _ _ _ _ _ IH S. apply IH. rewrite <- (app_nil_r (runes o0)). apply started_more with p; [exact S|lia].
  - intros. match goal with H : started _ _ _ -> on _ _ |- _ => apply H end. match goal with H : started ?t ?p (runes ?x) |- _ => rewrite <- (app_nil_r (runes x)); apply (started_more t p); [exact H|lia] end.
  - intros. match goal with H : started _ _ _ -> on _ _ |- _ => apply H end. match goal with H : started ?t ?p (runes ?x) |- _ => rewrite <- (app_nil_r (runes x)); apply (started_more t p); [exact H|lia] end.
  - intros. match goal with H : started _ _ _ -> on _ _ |- _ => apply H end. match goal with H : started ?t ?p (runes ?x) |- _ => rewrite <- (app_nil_r (runes x)); apply (started_more t p); [exact H|lia] end.
Qed.
End Firm.

Lemma firm_parts nulls firms g : firmRules nulls firms g = true ->
  (forall n r, lookup g n = Some r -> nullable nulls r = true -> isIn n nulls = true) /\ (forall n r, lookup g n = Some r -> isIn n firms = true -> firm nulls firms r = true).
Proof.
  intros H. unfold firmRules in H. rewrite forallb_forall in H. split; intros n r L X; destruct (lookup_In _ _ _ L) as (m & I & ->); specialize (H _ I); cbn in H; apply andb_prop in H as [A B].
  - rewrite X in A. exact A.
  - rewrite X in B. exact B.
Qed.
Lemma firm_ev nulls firms g r t n u k st : firmRules nulls firms g = true -> wfRules g -> wfRule r -> firm nulls firms r = true ->
  Ev g r NOT_SKIP t (OMatch n u k st) -> front (firstn u t) n.
Proof.
  intros H W WR F E. destruct (firm_parts _ _ _ H) as [HN HF]. apply fine_front. exact (proj1 (firm_mut nulls firms g HN HF W) r _ t _ E eq_refl WR F).
Qed.
Theorem firm_eval nulls firms fuel g r s res s' n : firmRules nulls firms g = true -> firm nulls firms r = true -> wfRules g -> wfRule r -> runesOk (rest s) ->
  careful g r NOT_SKIP (rest s) -> eval fuel g r s NOT_SKIP = Ok (res, s') -> r_node res = Some n ->
  front (firstn (length (r_read res) - length (r_unused res)) (rest s)) n.
Proof.
  intros H F W WR R CA E EN. destruct (refine_sound g fuel r NOT_SKIP s res s' W WR R E (CA fuel)) as ([n' u k st|k st] & EV & SH & _); cbn [shows] in SH.
  - destruct SH as (LE & RD & UN & _ & nd & E1 & E2). rewrite EN in E1. injection E1 as <-. rewrite RD, UN, skipn_length, !firstn_length. replace (Nat.min k (length (rest s)) - (Nat.min k (length (rest s)) - u))%nat with u by lia.
    pose proof (firm_ev nulls firms g r (rest s) n' u k st H W WR F EV) as X. subst n'. unfold front in *. now rewrite runes_erase in X.
  - destruct SH as (_ & _ & _ & X). congruence.
Qed.
Lemma firm_items nulls firms g r : firmRules nulls firms g = true -> wfRules g -> wfRule r -> firm nulls firms r = true ->
  forall t items, Embeds g r t items -> forall n cs, In (Found n cs) items -> front cs n.
Proof.
  intros H W WR F t items EM. induction EM as [k st E|c t k st l E EM IH|t n u k st l E LE EM IH]; intros m cs IN.
  - destruct IN.
  - destruct IN as [IN|IN]; [discriminate|]. now apply IH.
  - destruct IN as [IN|IN]; [|now apply IH]. injection IN as <- <-. exact (firm_ev nulls firms g r t n u k st H W WR F E).
Qed.
Theorem firm_embed nulls firms lf fuel g name sample r n : firmRules nulls firms (rules_of g) = true -> firm nulls firms r = true -> wfRules (rules_of g) -> runesOk sample ->
  lookup (rules_of g) name = Some r -> (forall p, clearCut (rules_of g) r NOT_SKIP (skipn p sample)) -> evalEmbed lf fuel g name sample = Some (Ok n) ->
  exists items, concat (List.map chars items) = sample /\ List.map erase (n_kids n) = render [] items /\ forall m cs, In (Found m cs) items -> front cs m.
Proof.
  intros H F W R L CC E. destruct (embed_partition _ _ _ _ _ _ _ W R L CC E) as (items & EM & C & K). exists items. split; [exact C|]. split; [exact K|].
  exact (firm_items nulls firms _ r H W (W _ _ L) F sample items EM).
Qed.
