(** C96: trees of grammars in which only named rules and references carry marks. *)
From Verif Require Import Base Stream Node Rule SpecStream SpecRule RuleFacts Grammar SpecNode NodeFacts NodeText NodeLean NodeExact EraseFacts SpecDriver DriverFacts CliFacts SpecStill StillFacts RaiseFacts SpecBones BonesFacts SpecMarks.

Definition markNamed (m : node) : Prop := n_virtual m || n_nondata m = true -> n_name m <> [].
Lemma mark_kids n ks : markNamed n -> markNamed (set_kids n ks). Proof. now destruct n. Qed.
Lemma mark_chars n cs : markNamed n -> markNamed (set_chars n cs). Proof. now destruct n. Qed.
Lemma mark_sticky n b : markNamed n -> markNamed (set_sticky n b). Proof. now destruct n. Qed.
Lemma deep_sticky n b : deep markNamed n -> deep markNamed (set_sticky n b).
Proof. intros D. apply deep_kids in D as [M F]. apply deep_intro; [now apply mark_sticky|]. now destruct n. Qed.
Lemma merged_marks_mut :
  (forall n m, mergedNode n m -> deep markNamed n -> deep markNamed m) /\ (forall l l', mergedEach l l' -> Forall (deep markNamed) l -> Forall (deep markNamed) l') /\
  (forall l l', merged l l' -> Forall (deep markNamed) l -> Forall (deep markNamed) l').
Proof.
  apply merged_mut.
  - auto.
  - intros n ks N _ _ IH P. apply deep_sticky. apply deep_kids in P as [L F]. apply deep_intro; [now apply mark_kids|]. rewrite kids_set. auto.
  - intros n ks N _ _ IH P. apply deep_kids in P as [L F]. apply deep_intro; [now apply mark_kids|]. rewrite kids_set. auto.
  - constructor.
  - intros c m l l' _ IH1 _ IH2 F. inversion F; subst. constructor; [apply deep_sticky|]; auto.
  - constructor.
  - intros c m l l' _ _ IH1 _ IH2 F. inversion F; subst. constructor; auto.
  - intros s run l l' _ _ _ _ IH F. inversion F as [|? ? S F']; subst. apply Forall_app in F' as [_ F']. constructor; [|auto]. apply deep_kids in S as [S _]. apply deep_intro; [now destruct s|constructor].
Qed.
Lemma own_build ty b ch ks pos st : ownMarks b = true -> markNamed (build ty b ch ks pos st).
Proof.
  unfold ownMarks, markNamed. cbn [build n_virtual n_nondata n_name]. intros O M. rewrite M in O. cbn [negb orb] in O. now apply nonempty_true.
Qed.
Lemma derives_marks g r n : (forall n r, lookup g n = Some r -> marksNamed r = true /\ hasName r = true) -> derives g r n ->
  marksNamed r = true -> deep markNamed n /\ (hasName r = true -> n_name n <> []).
Proof.
  intros G D. induction D using derives_ind'; cbn [marksNamed hasName base_of]; intros O;
    repeat match goal with H : _ && _ = true |- _ => apply andb_prop in H as [H ?] end;
    (split; [|try (intros H'; apply nonempty_true in H'; exact H')]).
  1-4: (apply deep_intro; [now apply own_build|constructor]).
  all: try (intros _; discriminate).
  - apply deep_intro; [intros _; discriminate|constructor].
  - destruct (G _ _ H) as [A B]. destruct (IHD A) as [E N]. specialize (N B). apply deep_kids in E as [_ F]. apply deep_intro; [intros _; exact N|exact F].
  - destruct (G _ _ H) as [A B]. destruct (IHD A) as [E N]. intros _. exact (N B).
  - apply deep_intro; [now apply own_build|]. constructor; [now apply IHD|constructor].
  - apply deep_intro; [now apply own_build|constructor].
  - apply deep_intro; [now apply own_build|]. constructor; [now apply IHD|constructor].
  - apply deep_intro; [now apply own_build|]. apply Forall_forall. intros k K. now apply H0.
  - apply deep_intro; [now apply own_build|]. constructor; [|constructor]. apply IHD.
    match goal with X : forallb (forallb marksNamed) _ = true |- _ => rewrite forallb_forall in X; pose proof (X _ H) as Y end. rewrite forallb_forall in Y. now apply Y.
  - apply deep_intro; [now apply own_build|]. cbn [n_kids build].
    match goal with X : forallb marksNamed _ = true, F : Forall2 (fun r n => marksNamed r = true -> _) _ _ |- _ => revert X F end. clear.
    intros X F. induction F as [|x y l l' P F IH]; [constructor|]. cbn [forallb] in X. apply andb_prop in X as [A B]. constructor; [now apply P|auto].
  - apply deep_intro; [now apply own_build|]. cbn [n_kids build]. constructor; [now apply IHD1|]. constructor; [apply deep_intro; [discriminate|constructor]|].
    destruct v; [constructor|]. constructor; [now apply IHD2|constructor].
Qed.
Lemma drops_marked level m : dropsAt level m = true -> n_virtual m || n_nondata m = true.
Proof. unfold dropsAt. destruct (level =? 2); [auto|]. destruct (level =? 1); [|discriminate]. now intros ->. Qed.
Theorem eval_raise lf fuel g roots o s level level' a s1 b s2 : wfRules g -> wfRoots roots -> legal roots o -> runesOk (rest s) -> marksOnNames g roots -> noMore level level' ->
  evalTop lf fuel g o s level = Ok (RawOk a, s1) -> evalTop lf fuel g o s level' = Ok (RawOk b, s2) ->
  bonesOf everything (simplify level' a) = bonesOf everything b.
Proof.
  intros W WR LG C [MG MR] L. unfold evalTop. destruct (evalRaw lf fuel g o s) as [[r s']| |] eqn:E; cbn [bind]; [|discriminate..]. destruct r as [t| | | |]; intros EA EB; try discriminate.
  injection EA as <- _. injection EB as <- _. apply simplify_raise_bones; [exact (raw_proper _ _ _ _ _ _ _ _ W WR LG C E)|exact L|].
  intros m M D. apply drops_marked in D. revert D. change (markNamed m). revert m M. apply all_deep. apply (proj2 (proj2 merged_marks_mut) _ _ (astMerge_merged t)).
  destruct (evalRaw_trees _ _ _ _ _ _ _ _ W WR LG C E) as (_ & T & _). apply Forall_forall. intros n N. destruct (T n N) as (x & X & DV). exact (proj1 (derives_marks _ _ _ MG DV (MR x X))).
Qed.
(** A check for it. *)
Definition marksOk (g : rules_t) (roots : list (list Z * rule)) : bool :=
  forallb (fun x => marksNamed (snd x) && hasName (snd x)) g && forallb (fun x => marksNamed (snd x)) roots.
Lemma marksOk_ok g roots : marksOk g roots = true -> marksOnNames g roots.
Proof.
  intros H. apply andb_prop in H as [A B]. split; [|now apply forallb_forall]. intros n r. induction g as [|[m x] g IH]; cbn [lookup]; [discriminate|].
  cbn [forallb snd] in A. apply andb_prop in A as [A A']. destruct (runes_eqb m n); [|auto]. intros [= <-]. now apply andb_prop in A.
Qed.
