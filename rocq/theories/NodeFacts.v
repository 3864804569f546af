(** Facts about trees and their simplification. *)
From Verif Require Import Base Stream StreamFacts Node SpecRule TermSpec RuleFacts SpecNode.

Lemma node_eta n : set_kids n (n_kids n) = n.
Proof. now destruct n. Qed.
Lemma kids_set n l : n_kids (set_kids n l) = l. Proof. reflexivity. Qed.
Lemma set_kids_kids n l l' : set_kids (set_kids n l) l' = set_kids n l'. Proof. reflexivity. Qed.
Lemma label_set n l : label (set_kids n l) = label n. Proof. reflexivity. Qed.

Lemma sub_cases m n : sub m n -> m = n \/ below m n.
Proof. intros H. destruct H as [|m k n H S]; [now left|right]. exists k. auto. Qed.
Lemma sub_of_below m n : below m n -> sub m n.
Proof. intros (k & H & S). econstructor; eauto. Qed.
Lemma sub_kids n k : In k (n_kids n) -> sub k n.
Proof. intros H. econstructor; [exact H|constructor]. Qed.

(* ---------------- dropping subtrees ---------------- *)

Section Drop.
Variable drop : node -> bool.
Fixpoint prune (n : node) : node := set_kids n (flat_map (fun c => if drop c then [] else [prune c]) (n_kids n)).
Definition pruneAll (a : list node) : list node := flat_map (fun c => if drop c then [] else [prune c]) a.

Lemma prune_eq n : prune n = set_kids n (pruneAll (n_kids n)).
Proof. destruct n. reflexivity. Qed.
Lemma prune_label n : label (prune n) = label n.
Proof. destruct n; reflexivity. Qed.

Hypothesis stable : forall n, drop (prune n) = drop n.

Lemma prune_outline n : forall d, outline everything d (prune n) = outline drop d n.
Proof.
  induction n as [n IH] using node_ind'. intros d. rewrite prune_eq. unfold outline at 1. fold outline.
  destruct n as [ty nm ch ks po st vi nd tk]. cbn [set_kids n_kids outline label n_type n_name n_chars n_pos n_sticky n_virtual n_nondata n_tokenized] in *.
  f_equal. unfold pruneAll. induction ks as [|c ks IHk]; [reflexivity|]. inversion IH as [|? ? Hc Hk]; subst. cbn [flat_map].
  destruct (drop c); cbn [app flat_map everything]; [auto|]. rewrite Hc. f_equal. auto.
Qed.
Lemma pruneAll_in a m : In m (pruneAll a) -> exists c, In c a /\ drop c = false /\ m = prune c.
Proof.
  unfold pruneAll. rewrite in_flat_map. intros (c & Hc & Hm). destruct (drop c) eqn:E; [destruct Hm|]. destruct Hm as [<-|[]]. eauto.
Qed.
Lemma prune_none n : forall m, below m (prune n) -> drop m = false.
Proof.
  induction n as [n IH] using node_ind'. intros m (k & Hk & S). rewrite prune_eq, kids_set in Hk.
  apply pruneAll_in in Hk as (c & Hc & E & ->). apply sub_cases in S as [->|S]; [now rewrite stable|].
  rewrite Forall_forall in IH. eauto.
Qed.
Lemma pruneAll_none a m : inside m (pruneAll a) -> drop m = false.
Proof.
  intros (k & Hk & S). apply pruneAll_in in Hk as (c & Hc & E & ->). apply sub_cases in S as [->|S]; [now rewrite stable|]. eapply prune_none; eauto.
Qed.
Lemma prune_fix n : (forall m, below m n -> drop m = false) -> prune n = n.
Proof.
  induction n as [n IH] using node_ind'. intros H. rewrite prune_eq. transitivity (set_kids n (n_kids n)); [|apply node_eta]. f_equal.
  assert (K : forall c, In c (n_kids n) -> drop c = false /\ (forall m, below m c -> drop m = false)).
  { intros c Hc. split; [apply H; exists c; split; [exact Hc|constructor]|]. intros m Hm. apply H. exists c. split; [exact Hc|now apply sub_of_below]. }
  clear H. unfold pruneAll. induction (n_kids n) as [|c ks IHk]; [reflexivity|]. inversion IH as [|? ? Hc Hk]; subst.
  destruct (K c (or_introl eq_refl)) as [D B]. cbn [flat_map]. rewrite D, (Hc B). cbn [app]. f_equal. apply IHk; [exact Hk|]. intros; apply K; now right.
Qed.
Lemma prune_idem n : prune (prune n) = prune n.
Proof. apply prune_fix. intros m Hm. eapply prune_none; eauto. Qed.
Lemma pruneAll_idem a : pruneAll (pruneAll a) = pruneAll a.
Proof.
  unfold pruneAll. induction a as [|c a IH]; [reflexivity|]. cbn [flat_map]. destruct (drop c) eqn:E; [exact IH|]. cbn [app flat_map].
  rewrite stable, E, prune_idem. cbn [app]. now rewrite IH.
Qed.
Lemma pruneAll_outline a : flat_map (outline everything 0) (pruneAll a) = flat_map (fun c => if drop c then [] else outline drop 0 c) a.
Proof.
  unfold pruneAll. induction a as [|c a IH]; [reflexivity|]. cbn [flat_map]. destruct (drop c); [exact IH|]. cbn [app flat_map]. now rewrite prune_outline, IH.
Qed.
End Drop.

Lemma prune_commute p q : (forall n, q (prune p n) = q n) -> (forall n, p (prune q n) = p n) ->
  forall n, prune p (prune q n) = prune q (prune p n).
Proof.
  intros Hq Hp. induction n as [n IH] using node_ind'. rewrite (prune_eq q n), (prune_eq p n), (prune_eq p), (prune_eq q), !kids_set, !set_kids_kids. f_equal.
  unfold pruneAll. induction (n_kids n) as [|c ks IHk]; [reflexivity|]. inversion IH as [|? ? Hc Hk]; subst. cbn [flat_map].
  rewrite !flat_map_app. destruct (q c) eqn:EQ, (p c) eqn:EP; cbn [app flat_map]; auto.
  - rewrite Hq, EQ. cbn [app]. auto.
  - rewrite Hp, EP. cbn [app]. auto.
  - rewrite Hp, Hq, EP, EQ, Hc. cbn [app]. f_equal. auto.
Qed.
Lemma pruneAll_commute p q : (forall n, q (prune p n) = q n) -> (forall n, p (prune q n) = p n) ->
  forall a, pruneAll p (pruneAll q a) = pruneAll q (pruneAll p a).
Proof.
  intros Hq Hp a. unfold pruneAll. induction a as [|c a IH]; [reflexivity|]. cbn [flat_map]. rewrite !flat_map_app.
  destruct (q c) eqn:EQ, (p c) eqn:EP; cbn [app flat_map]; auto.
  - rewrite Hq, EQ. cbn [app]. auto.
  - rewrite Hp, EP. cbn [app]. auto.
  - rewrite Hp, Hq, EP, EQ, (prune_commute p q Hq Hp). cbn [app]. f_equal. auto.
Qed.

Lemma removeVirtual_prune n : removeVirtual n = prune n_virtual n.
Proof. reflexivity. Qed.
Lemma removeNonData_prune n : removeNonData n = prune n_nondata n.
Proof. reflexivity. Qed.
Lemma prune_virtual p n : n_virtual (prune p n) = n_virtual n. Proof. now destruct n. Qed.
Lemma prune_nondata p n : n_nondata (prune p n) = n_nondata n. Proof. now destruct n. Qed.

(* ---------------- merging ---------------- *)

Fixpoint runOf (l : list node) : list node := match l with c :: l' => if n_sticky c then c :: runOf l' else [] | [] => [] end.
Fixpoint afterRun (l : list node) : list node := match l with c :: l' => if n_sticky c then afterRun l' else c :: l' | [] => [] end.
Lemma run_split l : l = runOf l ++ afterRun l.
Proof. induction l as [|c l IH]; [reflexivity|]. cbn. destruct (n_sticky c); [cbn; f_equal; exact IH|reflexivity]. Qed.
Lemma run_sticky l : Forall (fun c => n_sticky c = true) (runOf l).
Proof. induction l as [|c l IH]; cbn; [constructor|]. destruct (n_sticky c) eqn:E; constructor; auto. Qed.
Lemma after_loose l : startsLoose (afterRun l).
Proof. induction l as [|c l IH]; cbn; [exact I|]. destruct (n_sticky c) eqn:E; [exact IH|exact E]. Qed.
Lemma after_len l : (length (afterRun l) <= length l)%nat.
Proof. induction l as [|c l IH]; cbn; [lia|]. destruct (n_sticky c); cbn; lia. Qed.

Definition withMerge (c : node) := (c, mergeNode c).
Lemma mergeFold_Some l : forall p, mergeFold (Some p) (List.map withMerge l) =
  set_sticky (set_chars p (n_chars p ++ flat_map text (runOf l))) false :: mergeFold None (List.map withMerge (afterRun l)).
Proof.
  induction l as [|c l IH]; intros p; cbn [List.map mergeFold runOf afterRun flat_map].
  - rewrite app_nil_r. now destruct p.
  - unfold withMerge at 1. destruct (n_sticky c) eqn:E.
    + rewrite IH. cbn [flat_map n_chars set_chars]. now rewrite <- app_assoc.
    + cbn [flat_map]. rewrite app_nil_r. cbn [List.map mergeFold app]. unfold withMerge at 2. rewrite E. cbn [app]. now destruct p.
Qed.
Lemma mergeNodes_keep c l : n_sticky c = false -> mergeNodes (c :: l) = mergeNode c :: mergeNodes l.
Proof. intros E. unfold mergeNodes. cbn [List.map mergeFold]. rewrite E. reflexivity. Qed.
Lemma mergeNodes_run c l : n_sticky c = true -> mergeNodes (c :: l) = token c (runOf l) :: mergeNodes (afterRun l).
Proof.
  intros E. unfold mergeNodes. cbn [List.map mergeFold]. rewrite E. change (List.map (fun c0 => (c0, mergeNode c0))) with (List.map withMerge).
  rewrite mergeFold_Some. unfold token. cbn [flat_map]. reflexivity.
Qed.
Lemma mergeNode_eq n : mergeNode n = match n_kids n with [] => n | _ =>
    if rtype_eqb (n_type n) TBlock then set_sticky (set_kids n (List.map (fun c => set_sticky (mergeNode c) false) (n_kids n))) false
    else set_kids n (mergeNodes (n_kids n)) end.
Proof. destruct n. reflexivity. Qed.
Lemma rtype_eqb_eq a b : rtype_eqb a b = true <-> a = b.
Proof. destruct a, b; cbn; split; congruence. Qed.

Scheme mergedNode_m := Minimality for mergedNode Sort Prop
with mergedEach_m := Minimality for mergedEach Sort Prop
with merged_m := Minimality for merged Sort Prop.
Combined Scheme merged_mut from mergedNode_m, mergedEach_m, merged_m.

Lemma mergeNodes_merged : forall k l, (length l <= k)%nat -> (forall c, In c l -> mergedNode c (mergeNode c)) -> merged l (mergeNodes l).
Proof.
  induction k as [|k IH]; intros l L H; destruct l as [|c l]; try (cbn in L; lia); try constructor. destruct (n_sticky c) eqn:E.
  - rewrite (mergeNodes_run c l E). rewrite (run_split l) at 1. apply ml_run; auto using run_sticky, after_loose.
    apply IH; [pose proof (after_len l); cbn in L; lia|]. intros x Hx. apply H. right. rewrite (run_split l). apply in_or_app. now right.
  - rewrite mergeNodes_keep by exact E. apply ml_keep; auto; [apply H; now left|]. apply IH; [cbn in L; lia|]. intros x Hx. apply H. now right.
Qed.
Lemma mergeNode_merged n : mergedNode n (mergeNode n).
Proof.
  induction n as [n IH] using node_ind'. rewrite mergeNode_eq. destruct (n_kids n) as [|k ks] eqn:EK; [now constructor|]. rewrite <- EK in *.
  destruct (rtype_eqb (n_type n) TBlock) eqn:EB.
  - apply mn_block; [congruence|now apply rtype_eqb_eq|]. clear EK. induction (n_kids n) as [|c l IHl]; [constructor|].
    inversion IH; subst. cbn [List.map]. constructor; auto.
  - apply mn_inner; [congruence|intros X; apply rtype_eqb_eq in X; congruence|]. rewrite Forall_forall in IH. eapply mergeNodes_merged; [apply le_n|exact IH].
Qed.
Theorem astMerge_merged a : merged a (astMerge a).
Proof. eapply mergeNodes_merged; [apply le_n|]. intros. apply mergeNode_merged. Qed.

(** Nothing stays sticky. *)
Definition loose (l : list node) : Prop := forall m, inside m l -> n_sticky m = false.
Lemma token_sub m s run : sub m (token s run) -> m = token s run.
Proof. intros H. apply sub_cases in H as [->|(k & [] & _)]. reflexivity. Qed.
Lemma merged_loose_mut :
  (forall n n', mergedNode n n' -> forall m, below m n' -> n_sticky m = false) /\
  (forall l l', mergedEach l l' -> loose l') /\
  (forall l l', merged l l' -> loose l').
Proof.
  apply merged_mut.
  - intros n E m (k & H & _). rewrite E in H. destruct H.
  - intros n ks _ _ _ IH m (k & H & S). apply IH. exists k. auto.
  - intros n ks _ _ _ IH m (k & H & S). apply IH. exists k. auto.
  - intros m (k & [] & _).
  - intros c m l l' _ IH1 _ IH2 x (k & [<-|H] & S).
    + apply sub_cases in S as [->|S]; [reflexivity|]. now apply IH1.
    + apply IH2. exists k. auto.
  - intros m (k & [] & _).
  - intros c m l l' E M IH1 _ IH2 x (k & [<-|H] & S).
    + apply sub_cases in S as [->|S]; [|now apply IH1]. inversion M; subst; auto.
    + apply IH2. exists k. auto.
  - intros s run l l' _ _ _ _ IH x (k & [<-|H] & S).
    + apply token_sub in S as ->. reflexivity.
    + apply IH. exists k. auto.
Qed.
Lemma astMerge_loose a : loose (astMerge a).
Proof. eapply merged_loose_mut. apply astMerge_merged. Qed.

Lemma mergeNodes_id l : (forall c, In c l -> n_sticky c = false /\ mergeNode c = c) -> mergeNodes l = l.
Proof.
  induction l as [|c l IH]; intros H; [reflexivity|]. destruct (H c (or_introl eq_refl)) as [E M]. rewrite mergeNodes_keep, M by exact E.
  f_equal. apply IH. intros; apply H; now right.
Qed.
Lemma mergeNode_id n : (forall m, sub m n -> n_sticky m = false) -> mergeNode n = n.
Proof.
  induction n as [n IH] using node_ind'. intros H. rewrite mergeNode_eq. destruct (n_kids n) as [|k ks] eqn:EK; [reflexivity|]. rewrite <- EK in *.
  assert (K : forall c, In c (n_kids n) -> n_sticky c = false /\ mergeNode c = c).
  { intros c Hc. split; [apply H; now apply sub_kids|]. rewrite Forall_forall in IH. apply IH; [exact Hc|]. intros m Hm. apply H. econstructor; eauto. }
  destruct (rtype_eqb _ _).
  - assert (E : List.map (fun c => set_sticky (mergeNode c) false) (n_kids n) = n_kids n).
    { rewrite <- map_id. apply map_ext_in. intros c Hc. destruct (K c Hc) as [S ->]. destruct c. cbn in *. now subst. }
    rewrite E, node_eta. specialize (H n (sub_here n)). destruct n. cbn in *. now subst.
  - rewrite mergeNodes_id by exact K. apply node_eta.
Qed.
Theorem astMerge_idem a : astMerge (astMerge a) = astMerge a.
Proof.
  apply mergeNodes_id. intros c Hc. split.
  - apply (astMerge_loose a). exists c. split; [exact Hc|constructor].
  - apply mergeNode_id. intros m Hm. apply (astMerge_loose a). exists c. auto.
Qed.
