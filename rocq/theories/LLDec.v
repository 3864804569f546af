(** Deciding the class of SpecLL.v. *)
From Verif Require Import Base Stream StreamFacts CallFacts Node Rule SpecStream SpecRule TermSpec SpecLL.

(** What is known about a named rule: nullable, first runes, looks ahead, tail runes. *)
Definition runeSet := list (Z * Z).
Record info := mkInfo { i_null : bool; i_first : runeSet; i_looks : bool; i_tail : runeSet }.
Definition env := list (list Z * info).
Fixpoint known (e : env) (n : list Z) : info :=
  match e with
  | [] => mkInfo false [] false []
  | (m, i) :: e' => if runes_eqb m n then i else known e' n
  end.

Section Compute.
Variable e : env.

Fixpoint nulC (r : rule) : bool :=
  match r with
  | REOF _ | ROption _ _ => true
  | RString _ l => match l with [] => true | _ => false end
  | RRef _ n => i_null (known e n)
  | RGroup _ x => nulC x
  | RRep _ x mn _ => (mn <=? 0) || nulC x
  | RChoice _ gs => existsb (existsb nulC) gs
  | RConcat _ l => forallb nulC l
  | _ => false
  end.

Definition head (l : list Z) : runeSet := match l with c :: _ => [(c, c)] | [] => [] end.

Fixpoint firC (r : rule) : runeSet :=
  match r with
  | RChar _ c _ => [(c, c)]
  | RChars _ l | RString _ l => head l
  | RRange _ lo _ hi _ => [(lo, hi)]
  | REOF _ => []
  | RRef _ n => i_first (known e n)
  | RGroup _ x | ROption _ x | RRep _ x _ _ => firC x
  | RChoice _ gs => flat_map (flat_map firC) gs
  | RConcat _ l => (fix go l := match l with [] => [] | x :: l' => firC x ++ (if nulC x then go l' else []) end) l
  | RBlock _ o _ _ _ _ => firC o
  end.

Fixpoint looC (r : rule) : bool :=
  nulC r ||
  match r with
  | RRef _ n => i_looks (known e n)
  | RGroup _ x => looC x
  | RRep _ _ _ _ => true
  | RChoice _ gs => existsb (existsb looC) gs
  | RConcat _ l => (fix go l := match l with [] => false | [x] => looC x | _ :: l' => go l' end) l
  | RBlock _ _ v _ _ _ => v
  | _ => false
  end.

Fixpoint taiC (r : rule) : runeSet :=
  (if nulC r then firC r else []) ++
  match r with
  | RRef _ n => i_tail (known e n)
  | RGroup _ x | ROption _ x => taiC x
  | RRep _ x _ _ => firC x ++ taiC x
  | RChoice _ gs => flat_map (flat_map taiC) gs
  | RConcat _ l => (fix go l := match l with [] => [] | x :: l' => (if forallb nulC l' then taiC x else []) ++ go l' end) l
  | _ => []
  end.
End Compute.

Definition inside (a : Z * Z) (l : runeSet) : bool := existsb (fun b => (fst b <=? fst a) && (snd a <=? snd b)) l.
Definition subset (a b : runeSet) : bool := forallb (fun x => inside x b) a.
Definition disjoint (a b : runeSet) : bool := forallb (fun x => forallb (fun y => (snd x <? fst y) || (snd y <? fst x)) b) a.
Definition memb (c : Z) (l : runeSet) : Prop := exists a, In a l /\ fst a <= c <= snd a.

(** What is known is closed under the rules. *)
Definition closedEnv (g : rules_t) (e : env) : bool :=
  forallb (fun x => let '(n, r) := x in let i := known e n in
    (negb (nulC e r) || i_null i) && subset (firC e r) (i_first i) &&
    (negb (looC e r) || i_looks i) && subset (taiC e r) (i_tail i)) g.

Definition defined (g : rules_t) (n : list Z) : bool := match lookup g n with Some _ => true | None => false end.
Fixpoint pairs {A} (p : A -> A -> bool) (l : list A) : bool :=
  match l with [] => true | x :: l' => forallb (p x) l' && pairs p l' end.
Definition litRunes (r : rule) : list Z :=
  match r with RChar _ c _ => [c] | RChars _ l | RString _ l => l | _ => [] end.
Definition darkLit (l : list Z) : bool := match l with c :: _ => negb (isWS c) | [] => false end.

Section Check.
Variables (strict : bool) (g : rules_t) (e : env).
(** [a] and the first runes of what may follow. *)
Fixpoint followC (a : runeSet) (l : list rule) : bool :=
  match l with [] => true | s :: l' => disjoint a (firC e s) && (negb (nulC e s) || followC a l') end.
Fixpoint apartC (l : list rule) : bool :=
  match l with [] => true | r :: l' => followC (taiC e r) l' && apartC l' end.
Fixpoint calmC (l : list rule) : bool :=
  match l with
  | r :: (s :: post) as l' => (negb (looC e r) || negb (nonempty post) || negb (nulC e s)) && calmC l'
  | _ => true
  end.
Fixpoint lastNulC (gs : list (list rule)) : bool :=
  match gs with [] => true | grp :: gs' => (negb (nonempty gs') || negb (existsb (nulC e) grp)) && lastNulC gs' end.
Fixpoint llC (r : rule) : bool :=
  match r with
  | RChar _ _ _ | RChars _ _ | RString _ _ => darkLit (litRunes r)
  | RRange _ lo _ _ _ => 32 <? lo
  | REOF _ => true
  | RRef _ n => defined g n
  | RGroup _ x | ROption _ x => llC x
  | RRep _ x _ _ => llC x && negb (nulC e x) && disjoint (taiC e x) (firC e x)
  | RChoice _ gs =>
      forallb (forallb llC) gs && pairs (fun r s => disjoint (firC e r) (firC e s)) (concat gs) &&
      forallb (pairs (fun r s => negb (nulC e r && nulC e s))) gs && lastNulC gs
  | RConcat _ l => forallb llC l && apartC l && (negb strict || calmC l)
  | RBlock _ o v cl esc excl =>
      darkLit (litRunes o) && nonempty (litRunes cl) && (negb v || (length (litRunes cl) =? 1)%nat) &&
      match esc with None => true | Some _ => false end && negb (nonempty excl)
  end.
End Check.

(** The least knowledge, by iteration. *)
Fixpoint addTo (a b : runeSet) : runeSet :=
  match a with [] => b | x :: a' => if inside x b then addTo a' b else addTo a' (x :: b) end.
Definition improve (g : rules_t) (e : env) : env :=
  List.map (fun x => let '(n, r) := x in let i := known e n in
    (n, mkInfo (nulC e r) (addTo (firC e r) (i_first i)) (looC e r) (addTo (taiC e r) (i_tail i)))) g.
Fixpoint iterate (k : nat) (g : rules_t) (e : env) : env :=
  match k with O => e | S k' => if closedEnv g e then e else iterate k' g (improve g e) end.

Definition llGrammar (strict : bool) (g : rules_t) : bool :=
  let e := iterate (4 * S (length g)) g [] in closedEnv g e && forallb (fun x => llC strict g e (snd x)) g.

(* ---------------- soundness ---------------- *)

Lemma memb_app c a b : memb c (a ++ b) <-> memb c a \/ memb c b.
Proof.
  split.
  - intros (x & I & H). apply in_app_iff in I as [I|I]; [left|right]; exists x; auto.
  - intros [(x & I & H)|(x & I & H)]; exists x; (split; [apply in_or_app|exact H]); auto.
Qed.
Lemma memb_flat {A} c (f : A -> runeSet) l x : In x l -> memb c (f x) -> memb c (flat_map f l).
Proof. intros I (a & J & H). exists a. split; [apply in_flat_map; eauto|exact H]. Qed.
Lemma subset_ok a b c : subset a b = true -> memb c a -> memb c b.
Proof.
  unfold subset, inside. rewrite forallb_forall. intros H (x & I & B). specialize (H x I). apply existsb_exists in H as (y & J & H).
  exists y. split; [exact J|]. apply andb_true_iff in H. lia.
Qed.
Lemma disjoint_ok a b c : disjoint a b = true -> memb c a -> memb c b -> False.
Proof.
  unfold disjoint. rewrite forallb_forall. intros H (x & I & B) (y & J & C). specialize (H x I). rewrite forallb_forall in H. specialize (H y J).
  apply orb_true_iff in H. lia.
Qed.

Lemma lookup_in g : forall n r, lookup g n = Some r -> In (n, r) g.
Proof.
  induction g as [|[m x] g' IH]; cbn; [discriminate|]. intros n r. destruct (runes_eqb m n) eqn:E.
  - intros H. injection H as ->. apply runes_eqb_eq in E. subst. now left.
  - intros H. right. now apply IH.
Qed.

Section Sound.
Variables (g : rules_t) (e : env).
Hypothesis HC : closedEnv g e = true.

Lemma closed_at n r : lookup g n = Some r -> let i := known e n in
  (nulC e r = true -> i_null i = true) /\ (forall c, memb c (firC e r) -> memb c (i_first i)) /\
  (looC e r = true -> i_looks i = true) /\ (forall c, memb c (taiC e r) -> memb c (i_tail i)).
Proof.
  intros H. apply lookup_in in H. unfold closedEnv in HC. rewrite forallb_forall in HC. specialize (HC _ H). cbv beta iota zeta in HC.
  rewrite !andb_true_iff, !orb_true_iff, !negb_true_iff in HC. destruct HC as [[[A B] C] D]. cbv zeta.
  split; [intros X; destruct A; [congruence|assumption]|]. split; [intros c; now apply subset_ok|].
  split; [intros X; destruct C; [congruence|assumption]|]. intros c; now apply subset_ok.
Qed.

Lemma nul_sound : forall r, Nullable g r -> nulC e r = true.
Proof.
  fix IH 2. intros r H. destruct H as [b|b|b n r L H|b r H|b r|b r mn mx M|b r mn mx H|b gs grp r I J H|b l H]; cbn [nulC].
  - reflexivity.
  - reflexivity.
  - apply (closed_at n r L). now apply IH.
  - now apply IH.
  - reflexivity.
  - apply orb_true_iff. left. lia.
  - apply orb_true_iff. right. now apply IH.
  - apply existsb_exists. exists grp. split; [exact I|]. apply existsb_exists. exists r. split; [exact J|now apply IH].
  - apply forallb_forall. intros x X. apply IH. now apply H.
Qed.

Lemma fir_sound c : forall r, First g c r -> memb c (firC e r).
Proof.
  assert (S : memb c [(c, c)]) by (exists (c, c); cbn; split; [now left|lia]).
  induction 1; cbn [firC head]; try assumption.
  - eexists. split; [now left|]. exact H.
  - apply (closed_at n r H). assumption.
  - apply (memb_flat _ _ _ grp); [assumption|]. now apply (memb_flat _ _ _ r).
  - induction pre as [|x pre IHp].
    + cbn [app]. apply memb_app. now left.
    + cbn [app]. apply memb_app. right. rewrite (nul_sound x (H x (or_introl eq_refl))). apply IHp. intros y Y. apply H. now right.
Qed.

Lemma loo_sound : forall r, Looks g r -> looC e r = true.
Proof.
  induction 1; cbn [looC]; try (apply orb_true_iff; right).
  - pose proof (nul_sound r H) as N. destruct r; cbn [looC]; rewrite N; reflexivity.
  - apply (closed_at n r H). assumption.
  - assumption.
  - reflexivity.
  - apply existsb_exists. exists grp. split; [assumption|]. apply existsb_exists. eauto.
  - induction pre as [|x pre IHp]; [exact IHLooks|]. cbn [app]. destruct (pre ++ [r]) eqn:E; [destruct pre; discriminate|exact IHp].
  - reflexivity.
Qed.

Lemma tai_sound c : forall r, Tail g c r -> memb c (taiC e r).
Proof.
  induction 1; cbn [taiC]; try (apply memb_app; right).
  - pose proof (nul_sound r H) as N. pose proof (fir_sound c r H0) as F. destruct r; cbn [taiC]; rewrite N; apply memb_app; left; exact F.
  - apply (closed_at n r H). assumption.
  - assumption.
  - assumption.
  - apply memb_app. left. now apply fir_sound.
  - apply memb_app. now right.
  - apply (memb_flat _ _ _ grp); [assumption|]. now apply (memb_flat _ _ _ r).
  - induction pre as [|x pre IHp].
    + cbn [app]. apply memb_app. left. replace (forallb (nulC e) post) with true; [assumption|]. symmetry.
      apply forallb_forall. intros x X. apply nul_sound. now apply H.
    + cbn [app]. apply memb_app. right. exact IHp.
Qed.

Lemma nul_false r : nulC e r = false -> ~ Nullable g r.
Proof. intros H N. apply nul_sound in N. congruence. Qed.

Lemma pairs_ok {A} (p : A -> A -> bool) (R : A -> A -> Prop) : (forall x y, p x y = true -> R x y) ->
  forall l, pairs p l = true -> ForallOrdPairs R l.
Proof.
  intros H. induction l as [|x l IH]; cbn; intros P; constructor; apply andb_true_iff in P as [P Q]; [|now apply IH].
  apply Forall_forall. rewrite forallb_forall in P. auto.
Qed.

Lemma follow_ok a : forall l, followC e a l = true -> forall mid s post, l = mid ++ s :: post -> (forall x, In x mid -> Nullable g x) ->
  forall c, memb c a -> First g c s -> False.
Proof.
  induction l as [|y l IH]; intros H mid s post E N c A F; [destruct mid; discriminate|]. cbn [followC] in H. apply andb_true_iff in H as [D H].
  destruct mid as [|x mid]; injection E as -> ->.
  - exact (disjoint_ok _ _ c D A (fir_sound c s F)).
  - rewrite (nul_sound x (N x (or_introl eq_refl))) in H. exact (IH H mid s post eq_refl (fun z Z => N z (or_intror Z)) c A F).
Qed.

Lemma apart_ok : forall l, apartC e l = true -> forall pre r mid s post, l = pre ++ r :: mid ++ s :: post -> (forall x, In x mid -> Nullable g x) ->
  apart (fun c => Tail g c r) (fun c => First g c s).
Proof.
  induction l as [|x l IH]; intros H pre r mid s post E N; [destruct pre; discriminate|]. cbn [apartC] in H. apply andb_true_iff in H as [A H].
  destruct pre as [|y pre]; injection E as -> ->.
  - intros c T F. exact (follow_ok _ _ A mid s post eq_refl N c (tai_sound c r T) F).
  - exact (IH H pre r mid s post eq_refl N).
Qed.

Lemma calm_ok : forall l, calmC e l = true -> forall pre r s post, l = pre ++ r :: s :: post -> Looks g r -> post = [] \/ ~ Nullable g s.
Proof.
  induction l as [|x l IH]; intros H pre r s post E L; [destruct pre; discriminate|].
  destruct pre as [|y pre].
  - injection E as -> ->. cbn [calmC] in H. rewrite (loo_sound r L) in H. cbn [negb orb] in H.
    apply andb_true_iff in H as [N _]. destruct post; [now left|right]. cbn in N. apply nul_false. now apply negb_true_iff.
  - injection E as -> ->. apply (IH) with (pre := pre) (r := r); [|reflexivity|exact L]. destruct (pre ++ r :: s :: post) eqn:E; [reflexivity|].
    cbn [calmC] in H. apply andb_true_iff in H as [_ H]. exact H.
Qed.

Lemma lastNul_ok : forall gs, lastNulC e gs = true -> forall pre grp post r, gs = pre ++ grp :: post -> post <> [] -> In r grp -> ~ Nullable g r.
Proof.
  induction gs as [|x gs IH]; intros H pre grp post r E NE I N; [destruct pre; discriminate|]. cbn [lastNulC] in H. apply andb_true_iff in H as [A H].
  destruct pre as [|y pre]; injection E as -> ->.
  - destruct post as [|q post]; [congruence|]. cbn [nonempty negb orb] in A. apply negb_true_iff in A.
    assert (existsb (nulC e) grp = true) by (apply existsb_exists; exists r; split; [exact I|now apply nul_sound]). congruence.
  - exact (IH H pre grp post r eq_refl NE I N).
Qed.

Lemma lit_ok r c l : litRunes r = c :: l -> literal r (c :: l).
Proof. destruct r; cbn; intros H; try discriminate; try (injection H as -> <-); try subst; constructor. Qed.

Lemma dark_ok l : darkLit l = true -> exists c l', l = c :: l' /\ dark c.
Proof. destruct l as [|c l']; cbn; [discriminate|]. intros H. exists c, l'. split; [reflexivity|]. apply isWS_nIn. now apply negb_true_iff. Qed.

Lemma llC_ok strict : forall r, llC strict g e r = true -> LLk strict g r.
Proof.
  induction r using rule_ind'; cbn [llC]; intros W.
  - apply dark_ok in W as (x & l & E & D). exact (ll_literal strict g _ x l (lit_ok (RChar b c u) x l E) D).
  - apply dark_ok in W as (x & l' & E & D). exact (ll_literal strict g _ x l' (lit_ok (RChars b l) x l' E) D).
  - apply dark_ok in W as (x & l' & E & D). exact (ll_literal strict g _ x l' (lit_ok (RString b l) x l' E) D).
  - apply ll_range. lia.
  - apply ll_eof.
  - unfold defined in W. destruct (lookup g n) eqn:E; [|discriminate]. now apply (ll_ref strict g b n r).
  - apply ll_group. auto.
  - apply ll_option. auto.
  - rewrite !andb_true_iff, negb_true_iff in W. destruct W as [[A B] C]. apply ll_rep; [auto|now apply nul_false|].
    intros c T F. exact (disjoint_ok _ _ c C (tai_sound c r T) (fir_sound c r F)).
  - rewrite !andb_true_iff in W. destruct W as [[[A B] C] D]. apply ll_choice; [| | |exact (lastNul_ok gs D)]; clear D.
    + intros grp x I J. rewrite forallb_forall in A. specialize (A grp I). rewrite forallb_forall in A. apply (H grp x I J). now apply A.
    + revert B. apply pairs_ok. intros r s D c X Y. exact (disjoint_ok _ _ c D (fir_sound c r X) (fir_sound c s Y)).
    + intros grp I. rewrite forallb_forall in C. specialize (C grp I). revert C. apply pairs_ok. intros r s D [X Y].
      apply nul_sound in X, Y. rewrite X, Y in D. discriminate.
  - rewrite !andb_true_iff in W. destruct W as [[A B] C]. apply ll_concat.
    + intros x I. rewrite forallb_forall in A. auto.
    + exact (apart_ok l B).
    + intros ->. exact (calm_ok l C).
  - rewrite !andb_true_iff in W. destruct W as [[[[A B] C] D] E]. destruct e0; [discriminate|]. destruct xs; [|discriminate].
    apply dark_ok in A as (x & l & EQ & DK). destruct (litRunes r2) as [|y w] eqn:EW; [discriminate|].
    apply (ll_block strict g b r1 v r2 x l (y :: w)); [now apply lit_ok|exact DK|now apply lit_ok|discriminate|].
    intros ->. cbn in C. cbn. apply Nat.eqb_eq in C. lia.
Qed.
End Sound.

Theorem llGrammar_ok strict g : llGrammar strict g = true -> forall n r, lookup g n = Some r -> LLk strict g r.
Proof.
  unfold llGrammar. set (e := iterate _ g []). clearbody e. cbv zeta. intros H n r L. apply andb_true_iff in H as [A B].
  rewrite forallb_forall in B. apply (llC_ok g e A). exact (B _ (lookup_in g n r L)).
Qed.
