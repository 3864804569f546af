(** C96: reducing keeps the bones. *)
From Verif Require Import Base Stream Node Rule SpecStream SpecRule Grammar SpecNode NodeFacts NodeText NodeLean NodeExact EraseFacts SpecDriver DriverFacts CliFacts SpecStill StillFacts RaiseFacts SpecBones.

Lemma bones_eq d n : bones d n = wrap n (match n_chars n with [] => bonesOf d (n_kids n) | _ => if isEOFText (n_chars n) then [] else [Leaf (n_chars n)] end).
Proof. destruct n. reflexivity. Qed.
Lemma bonesOf_cons d c l : bonesOf d (c :: l) = (if d c then [] else bones d c) ++ bonesOf d l.
Proof. reflexivity. Qed.
Lemma bonesOf_app d l l' : bonesOf d (l ++ l') = bonesOf d l ++ bonesOf d l'.
Proof. apply flat_map_app. Qed.
Lemma wrap_kids n ks l : wrap (set_kids n ks) l = wrap n l.
Proof. now destruct n. Qed.
Lemma wrap_chars n cs l : wrap (set_chars n cs) l = wrap n l.
Proof. now destruct n. Qed.
Lemma wrap_plain n l : nonempty (n_name n) = false -> wrap n l = l.
Proof. intros E. apply nonempty_false in E. unfold wrap. now rewrite E. Qed.
Lemma wrap_leaves n l : flat_map leaves (wrap n l) = flat_map leaves l.
Proof. unfold wrap. destruct (n_name n); [reflexivity|]. destruct l; [reflexivity|]. cbn [flat_map leaves]. apply app_nil_r. Qed.
Lemma bones_pieces d n : flat_map leaves (bones d n) = pieces d n.
Proof.
  induction n as [n IH] using node_ind'. rewrite bones_eq, wrap_leaves, pieces_eq. destruct (n_chars n) as [|x t]; [|now destruct (isEOFText (x :: t))].
  induction IH as [|c l Hc _ IHl]; [reflexivity|]. rewrite bonesOf_cons, piecesOf_cons, flat_map_app, IHl. f_equal. now destruct (d c).
Qed.
Lemma bonesOf_pieces d l : flat_map leaves (bonesOf d l) = piecesOf d l.
Proof. induction l as [|c l IHl]; [reflexivity|]. rewrite bonesOf_cons, piecesOf_cons, flat_map_app, IHl. f_equal. destruct (d c); [reflexivity|apply bones_pieces]. Qed.
Lemma bones_or p q n : (forall m, q (prune p m) = q m) -> bones q (prune p n) = bones (fun m => p m || q m) n.
Proof.
  intros Q. induction n as [n IH] using node_ind'. rewrite prune_eq, !bones_eq, wrap_kids. cbn [n_chars n_kids set_kids]. destruct (n_chars n); [|reflexivity]. f_equal.
  unfold bonesOf, pruneAll. induction (n_kids n) as [|c l IHl]; [reflexivity|]. inversion IH as [|? ? Hc Hl]; subst. cbn [flat_map]. rewrite flat_map_app, (IHl Hl).
  destruct (p c); cbn [flat_map app orb]; [reflexivity|]. rewrite Q, app_nil_r, Hc. reflexivity.
Qed.
Lemma bonesOf_or p q l : (forall m, q (prune p m) = q m) -> bonesOf q (pruneAll p l) = bonesOf (fun m => p m || q m) l.
Proof.
  intros Q. unfold bonesOf, pruneAll. induction l as [|c l IHl]; [reflexivity|]. cbn [flat_map]. rewrite flat_map_app, IHl.
  destruct (p c); cbn [flat_map app orb]; [reflexivity|]. rewrite Q, app_nil_r, (bones_or p q c Q). reflexivity.
Qed.
Lemma bones_ext p q n : (forall m, p m = q m) -> bones p n = bones q n.
Proof.
  intros H. induction n as [n IH] using node_ind'. rewrite !bones_eq. destruct (n_chars n); [|reflexivity]. f_equal. unfold bonesOf.
  induction IH as [|c l Hc _ IHl]; [reflexivity|]. cbn [flat_map]. now rewrite H, Hc, IHl.
Qed.
Lemma bonesOf_ext p q l : (forall m, p m = q m) -> bonesOf p l = bonesOf q l.
Proof. intros H. induction l as [|c l IH]; [reflexivity|]. now rewrite !bonesOf_cons, H, IH, (bones_ext p q c H). Qed.

Section Bones.
Variable d : node -> bool.
Hypothesis Dkids : forall n ks, d (set_kids n ks) = d n.
Hypothesis Dchars : forall n cs, d (set_chars n cs) = d n.
Lemma no_bones n : pieces everything n = [] -> bones d n = [].
Proof.
  assert (W : forall m, wrap m [] = []) by (intros m; unfold wrap; now destruct (n_name m)).
  induction n as [n IH] using node_ind'. rewrite pieces_eq, bones_eq. destruct (n_chars n) as [|x t]; [|destruct (isEOFText (x :: t)); [intros _; apply W|discriminate]].
  intros E. rewrite <- (W n). f_equal. revert E. unfold piecesOf, bonesOf. induction IH as [|c l Hc _ IHl]; [reflexivity|].
  cbn [flat_map everything]. intros E. apply app_eq_nil in E as [E1 E2]. rewrite (IHl E2), (Hc E1). now destruct (d c).
Qed.
Lemma within n : leafy n -> n_kids n <> [] -> n_chars n = [] /\ bones d n = wrap n (bonesOf d (n_kids n)).
Proof. intros L K. destruct (pieces_kids n L K) as [E _]. split; [exact E|]. now rewrite bones_eq, E. Qed.
Lemma promote1_bones n : proper n -> deep (tagged d) n -> bones d (promote1 n) = bones d n.
Proof.
  intros P T. unfold promote1. pose proof (proper_kids n P) as [L F]. pose proof (deep_kids _ _ T) as [_ TF]. destruct (n_kids n) as [|c [|]] eqn:K; try reflexivity.
  destruct (nonempty (n_name c)) eqn:N; [reflexivity|]. destruct (within n L ltac:(congruence)) as [EC EP]. rewrite EP, K, bonesOf_cons. inversion TF as [|? ? TC _]; inversion F as [|? ? PC _]; subst.
  rewrite (plain_kept d c (TC c (sub_here c)) N). unfold bonesOf at 1. cbn [flat_map]. rewrite app_nil_r. rewrite (bones_eq d c), (wrap_plain c) by exact N.
  destruct (nonempty (n_chars c)) eqn:E; rewrite bones_eq, wrap_kids, ?wrap_chars; cbn [n_chars n_kids set_kids set_chars]; f_equal.
  - apply nonempty_true in E. destruct (n_chars c); [congruence|reflexivity].
  - apply nonempty_false in E. now rewrite EC, E.
Qed.
Lemma promote2_bones n : proper n -> deep (tagged d) n -> bones d (promote2 n) = bones d n.
Proof.
  intros P T. unfold promote2. pose proof (proper_kids n P) as [L F]. pose proof (deep_kids _ _ T) as [_ TF]. destruct (n_kids n) as [|c [|]] eqn:K; try reflexivity.
  destruct (nonempty (n_name c)) eqn:N; [reflexivity|]. destruct (nonempty (n_kids c)) eqn:NK; [reflexivity|]. cbn [negb andb]. apply nonempty_false in NK.
  destruct (within n L ltac:(congruence)) as [EC EP]. rewrite EP, K, bonesOf_cons. inversion TF as [|? ? TC _]; subst.
  rewrite (plain_kept d c (TC c (sub_here c)) N). unfold bonesOf at 1. cbn [flat_map]. rewrite app_nil_r, (bones_eq d c), (wrap_plain c) by exact N.
  rewrite bones_eq, wrap_kids, wrap_chars. cbn [n_chars n_kids set_kids set_chars]. now rewrite NK.
Qed.
Lemma splice_bones l : Forall proper l -> Forall (deep (tagged d)) l -> bonesOf d (splice l) = bonesOf d l.
Proof.
  unfold splice. induction l as [|c l IH]; intros F T; [reflexivity|]. inversion F as [|? ? P F']; inversion T as [|? ? TC T']; subst. cbn [flat_map]. rewrite bonesOf_app, bonesOf_cons, (IH F' T'). f_equal.
  assert (ONE : bonesOf d [c] = if d c then [] else bones d c) by (unfold bonesOf; cbn [flat_map]; apply app_nil_r).
  destruct (nonempty (n_name c)) eqn:N; cbn [negb andb]; [rewrite andb_false_r; exact ONE|]. rewrite andb_true_r. pose proof (plain_kept d c (TC c (sub_here c)) N) as D. rewrite D in *.
  destruct (nonempty (text c)) eqn:X; cbn [negb].
  - destruct (nonempty (n_kids c)) eqn:K; [|exact ONE]. apply nonempty_true in K. pose proof (proper_kids c P) as [L _]. destruct (within c L K) as [_ ->]. now rewrite wrap_plain.
  - apply nonempty_false in X. apply text_nil in X. now rewrite (no_bones c X).
Qed.
Lemma redundant_bones n : proper n -> deep (tagged d) n -> bones d (removeRedundant n) = bones d n.
Proof.
  induction n as [n IH] using node_ind'. intros P T. rewrite removeRedundant_eq. destruct (n_kids n) as [|k ks] eqn:EK; [reflexivity|]. rewrite <- EK in *. assert (NK : n_kids n <> []) by congruence. clear EK. cbv zeta.
  pose proof (proper_kids n P) as [L F]. pose proof (deep_kids _ _ T) as [TN TF]. set (n0 := set_kids n (List.map removeRedundant (n_kids n))).
  destruct (within n L NK) as [EC EP].
  assert (TK : forall m ks, tagged d m -> tagged d (set_kids m ks)) by (apply tagged_kids; exact Dkids).
  assert (TC : forall m cs, tagged d m -> tagged d (set_chars m cs)) by (apply tagged_chars; exact Dchars).
  assert (K0 : Forall proper (List.map removeRedundant (n_kids n))) by (apply Forall_map; rewrite Forall_forall in *; intros c C; apply removeRedundant_step; auto).
  assert (T0 : Forall (deep (tagged d)) (List.map removeRedundant (n_kids n))).
  { apply Forall_map. rewrite Forall_forall in *. intros c C. apply redundant_deep; auto. }
  assert (P0 : proper n0) by (apply proper_intro; [now left|exact K0]).
  assert (D0 : deep (tagged d) n0) by (apply kids_deep; [exact TK|exact TN|exact T0]).
  assert (E0 : bones d n0 = bones d n).
  { rewrite EP, bones_eq. unfold n0. rewrite wrap_kids. cbn [n_chars n_kids set_kids]. rewrite EC. f_equal. clear - IH F TF Dkids Dchars. induction (n_kids n) as [|c l IHl]; [reflexivity|].
    inversion IH as [|? ? Hc Hl]; inversion F as [|? ? Pc Fl]; inversion TF as [|? ? Tc Tl]; subst. cbn [List.map]. rewrite !bonesOf_cons, (IHl Hl Fl Tl), (Hc Pc Tc). f_equal.
    now rewrite (redundant_mark d Dkids Dchars). }
  rewrite <- E0. pose proof (promote1_step n0 P0) as (P1 & _). assert (D1 : deep (tagged d) (promote1 n0)) by (apply promote1_deep; [exact TK|exact TC|exact D0]).
  pose proof (splice_step _ P1) as (P2 & _). pose proof (proper_kids _ P1) as [L1 F1]. pose proof (deep_kids _ _ D1) as [TN1 TF1].
  assert (D2 : deep (tagged d) (set_kids (promote1 n0) (splice (n_kids (promote1 n0))))) by (apply kids_deep; [exact TK|exact TN1|now apply splice_deep]).
  rewrite promote2_bones by assumption. rewrite <- (promote1_bones n0 P0 D0). rewrite !bones_eq, wrap_kids. cbn [n_chars n_kids set_kids]. now rewrite splice_bones by assumption.
Qed.
Lemma astRedundant_bones a : Forall proper a -> Forall (deep (tagged d)) a -> bonesOf d (astRemoveRedundant a) = bonesOf d a.
Proof.
  unfold astRemoveRedundant. induction a as [|c a IH]; intros F T; [reflexivity|]. inversion F; inversion T; subst. cbn [List.map]. rewrite !bonesOf_cons, IH by assumption. f_equal.
  destruct (n_nondata c); [reflexivity|]. now rewrite (redundant_mark d Dkids Dchars), redundant_bones by assumption.
Qed.
End Bones.

(** Every level keeps the bones of what it does not drop. *)
Theorem simplify_bones level a : level <> -1 -> Forall proper a -> bonesOf everything (simplify level a) = bonesOf (dropsAt level) (astMerge a).
Proof.
  intros N P. rewrite simplify_prune by exact N. rewrite astRedundant_bones; [|reflexivity|reflexivity|apply pruneAll_proper, astMerge_proper; exact P|].
  - rewrite bonesOf_or by reflexivity. apply bonesOf_ext. intros m. unfold everything. apply Bool.orb_false_r.
  - apply all_deep. intros m _ X. discriminate X.
Qed.
Theorem simplify_raise_bones level level' a : Forall proper a -> noMore level level' ->
  (forall m, inside m (astMerge a) -> dropsAt level' m = true -> n_name m <> []) ->
  bonesOf everything (simplify level' (simplify level a)) = bonesOf everything (simplify level' a).
Proof.
  intros P L H. destruct (Z.eq_dec level (-1)) as [->|N]; [reflexivity|]. assert (N' : level' <> -1) by (destruct L as [L|[L _]]; [contradiction|exact L]).
  rewrite !simplify_bones by (try assumption; now apply simplify_fine).
  rewrite (loose_merge (simplify level a)) by (intros m M; exact (proj1 (simplify_inside level a m N M))).
  rewrite simplify_prune by exact N. rewrite astRedundant_bones.
  - rewrite bonesOf_or by (intros m; unfold dropsAt; destruct (level' =? 2), (level' =? 1); now destruct m). apply bonesOf_ext. intros m. destruct (dropsAt level' m) eqn:E; [apply Bool.orb_true_r|].
    rewrite Bool.orb_false_r. exact (drops_less level level' m L N E).
  - apply drops_kids.
  - apply drops_chars.
  - apply pruneAll_proper, astMerge_proper. exact P.
  - apply pruneAll_keeps; [intros n ks; apply tagged_kids; apply drops_kids|]. apply all_deep. exact H.
Qed.
Theorem same_text a b : bonesOf everything a = bonesOf everything b -> piecesOf everything a = piecesOf everything b /\ ink (astText a) = ink (astText b).
Proof. intros E. rewrite !astText_ink, <- !bonesOf_pieces, E. auto. Qed.
