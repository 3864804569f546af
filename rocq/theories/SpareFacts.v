(** C97: levels that have nothing to drop. *)
From Verif Require Import Base Stream Node Rule SpecStream SpecRule RuleFacts Grammar SpecNode NodeFacts NodeText NodeLean NodeExact EraseFacts SpecDriver DriverFacts CliFacts SpecStill StillFacts SpecSpare.

Section Spare.
Variable v : bool.
Definition nodeMark (n : node) : bool := if v then n_virtual n else n_nondata n.
Definition bare (m : node) : Prop := nodeMark m = false.
Lemma bare_kids n ks : bare n -> bare (set_kids n ks). Proof. now destruct n. Qed.
Lemma bare_sticky n b : bare n -> bare (set_sticky n b). Proof. now destruct n. Qed.
Lemma bare_deep n b : deep bare n -> deep bare (set_sticky n b).
Proof. intros D. apply deep_kids in D as [M F]. apply deep_intro; [now apply bare_sticky|]. now destruct n. Qed.
Lemma merged_bare_mut :
  (forall n m, mergedNode n m -> deep bare n -> deep bare m) /\ (forall l l', mergedEach l l' -> Forall (deep bare) l -> Forall (deep bare) l') /\
  (forall l l', merged l l' -> Forall (deep bare) l -> Forall (deep bare) l').
Proof.
  apply merged_mut.
  - auto.
  - intros n ks N _ _ IH P. apply bare_deep. apply deep_kids in P as [L F]. apply deep_intro; [now apply bare_kids|]. rewrite kids_set. auto.
  - intros n ks N _ _ IH P. apply deep_kids in P as [L F]. apply deep_intro; [now apply bare_kids|]. rewrite kids_set. auto.
  - constructor.
  - intros c m l l' _ IH1 _ IH2 F. inversion F; subst. constructor; [apply bare_deep|]; auto.
  - constructor.
  - intros c m l l' _ _ IH1 _ IH2 F. inversion F; subst. constructor; auto.
  - intros s run l l' _ _ _ _ IH F. inversion F as [|? ? S F']; subst. apply Forall_app in F' as [_ F']. constructor; [|auto]. apply deep_kids in S as [S _]. apply deep_intro; [now destruct s|constructor].
Qed.
Lemma bare_build ty b ch ks pos st : negb (baseMark v b) = true -> bare (build ty b ch ks pos st).
Proof. unfold bare, nodeMark, baseMark. cbn [build n_virtual n_nondata]. destruct v; apply Bool.negb_true_iff. Qed.
Lemma derives_bare g r n : (forall n r, lookup g n = Some r -> without v r = true) -> derives g r n -> without v r = true -> deep bare n.
Proof.
  intros G D. induction D using derives_ind'; cbn [without]; intros O;
    repeat match goal with H : _ && _ = true |- _ => apply andb_prop in H as [H ?] end.
  1-4: (apply deep_intro; [now apply bare_build|constructor]).
  - apply deep_intro; [|constructor]. exact (bare_build TEOF b [] [] pos true O).
  - specialize (IHD (G _ _ H)). apply deep_kids in IHD as [E F]. apply deep_intro; [|exact F]. revert E O. unfold bare, nodeMark, baseMark. cbn [flip n_virtual n_nondata].
    destruct v; intros -> O; apply Bool.negb_true_iff in O; now rewrite O.
  - apply deep_intro; [now apply bare_build|]. constructor; [now apply IHD|constructor].
  - apply deep_intro; [now apply bare_build|constructor].
  - apply deep_intro; [now apply bare_build|]. constructor; [now apply IHD|constructor].
  - apply deep_intro; [now apply bare_build|]. apply Forall_forall. intros k K. now apply H0.
  - apply deep_intro; [now apply bare_build|]. constructor; [|constructor]. apply IHD.
    match goal with X : forallb (forallb (without v)) _ = true |- _ => rewrite forallb_forall in X; pose proof (X _ H) as Y end. rewrite forallb_forall in Y. now apply Y.
  - apply deep_intro; [now apply bare_build|]. cbn [n_kids build].
    match goal with X : forallb (without v) _ = true, F : Forall2 (fun r n => without v r = true -> _) _ _ |- _ => revert X F end. clear.
    intros X F. induction F as [|x y l l' P F IH]; [constructor|]. cbn [forallb] in X. apply andb_prop in X as [A B]. constructor; [now apply P|auto].
  - apply deep_intro; [now apply bare_build|]. cbn [n_kids build]. constructor; [now apply IHD1|]. constructor; [apply deep_intro; [unfold bare, nodeMark; now destruct v|constructor]|].
    destruct v0; [constructor|]. constructor; [now apply IHD2|constructor].
Qed.
Lemma raw_bare lf fuel g roots o s a s' : wfRules g -> wfRoots roots -> legal roots o -> runesOk (rest s) -> without_mark v g roots ->
  evalRaw lf fuel g o s = Ok (RawOk a, s') -> forall m, inside m (astMerge a) -> nodeMark m = false.
Proof.
  intros W WR LG C [MG MR] E. apply (proj2 (all_deep bare _)). apply (proj2 (proj2 merged_bare_mut) _ _ (astMerge_merged a)).
  destruct (evalRaw_trees _ _ _ _ _ _ _ _ W WR LG C E) as (_ & T & _). apply Forall_forall. intros n N. destruct (T n N) as (x & X & DV). exact (derives_bare _ _ _ MG DV (MR x X)).
Qed.
End Spare.

Lemma prune_agree p q n : (forall m, below m n -> p m = q m) -> prune p n = prune q n.
Proof.
  induction n as [n IH] using node_ind'. intros H. rewrite !prune_eq. f_equal.
  assert (K : forall c, In c (n_kids n) -> p c = q c /\ (forall m, below m c -> p m = q m)).
  { intros c Hc. split; [apply H; exists c; split; [exact Hc|constructor]|]. intros m Hm. apply H. exists c. split; [exact Hc|now apply sub_of_below]. }
  clear H. unfold pruneAll. induction (n_kids n) as [|c ks IHk]; [reflexivity|]. inversion IH as [|? ? Hc Hk]; subst.
  destruct (K c (or_introl eq_refl)) as [D B]. cbn [flat_map]. rewrite D, (Hc B). f_equal. apply IHk; [exact Hk|]. intros; apply K; now right.
Qed.
Lemma pruneAll_agree p q a : (forall m, inside m a -> p m = q m) -> pruneAll p a = pruneAll q a.
Proof.
  unfold pruneAll. induction a as [|c a IH]; intros H; [reflexivity|]. cbn [flat_map]. rewrite (H c) by (exists c; split; [now left|constructor]).
  rewrite (prune_agree p q c); [f_equal; apply IH; intros m (n & N & S); apply H; exists n; split; [now right|exact S]|].
  intros m M. apply H. exists c. split; [now left|now apply sub_of_below].
Qed.
Theorem spare_virtual lf fuel g roots o s : wfRules g -> wfRoots roots -> legal roots o -> runesOk (rest s) -> without_mark true g roots ->
  evalTop lf fuel g o s 1 = evalTop lf fuel g o s 0.
Proof.
  intros W WR LG C M. unfold evalTop. destruct (evalRaw lf fuel g o s) as [[r s']| |] eqn:E; cbn [bind]; [|reflexivity..]. destruct r as [a| | | |]; try reflexivity.
  do 3 f_equal. rewrite !simplify_prune by discriminate. f_equal. apply pruneAll_agree. exact (raw_bare true _ _ _ _ _ _ _ _ W WR LG C M E).
Qed.
Theorem spare_nondata lf fuel g roots o s : wfRules g -> wfRoots roots -> legal roots o -> runesOk (rest s) -> without_mark false g roots ->
  evalTop lf fuel g o s 2 = evalTop lf fuel g o s 1.
Proof.
  intros W WR LG C M. unfold evalTop. destruct (evalRaw lf fuel g o s) as [[r s']| |] eqn:E; cbn [bind]; [|reflexivity..]. destruct r as [a| | | |]; try reflexivity.
  do 3 f_equal. rewrite !simplify_prune by discriminate. f_equal. apply pruneAll_agree. intros m I. pose proof (raw_bare false _ _ _ _ _ _ _ _ W WR LG C M E m I) as B.
  unfold nodeMark in B. change (n_virtual m || n_nondata m = n_virtual m). rewrite B. apply Bool.orb_false_r.
Qed.
Definition withoutOk (v : bool) (g : rules_t) (roots : list (list Z * rule)) : bool := forallb (fun x => without v (snd x)) (g ++ roots).
Lemma withoutOk_ok v g roots : withoutOk v g roots = true -> without_mark v g roots.
Proof.
  unfold withoutOk. rewrite forallb_app. intros H. apply andb_prop in H as [A B]. split; [|now apply forallb_forall]. intros n r. induction g as [|[m x] g IH]; cbn [lookup]; [discriminate|].
  cbn [forallb snd] in A. apply andb_prop in A as [A A']. destruct (runes_eqb m n); [|auto]. now intros [= <-].
Qed.
