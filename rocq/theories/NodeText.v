(** Facts about the text of trees. *)
From Verif Require Import Base Stream StreamFacts Node SpecRule TermSpec RuleFacts SpecNode NodeFacts.

Lemma isWS_white c : isWS c = true <-> In c whiteSpaces.
Proof.
  unfold isWS. rewrite existsb_exists. split.
  - intros (x & H & E). apply Z.eqb_eq in E. now subst.
  - intros H. exists c. split; [exact H|apply Z.eqb_refl].
Qed.
Lemma notWS_white c : isWS c = false -> ~ In c whiteSpaces.
Proof. intros H X. apply isWS_white in X. congruence. Qed.
Lemma nonempty_true {A} (l : list A) : nonempty l = true <-> l <> [].
Proof. destruct l; cbn; split; congruence. Qed.
Lemma nonempty_false {A} (l : list A) : nonempty l = false <-> l = [].
Proof. destruct l; cbn; split; congruence. Qed.

(* ---------------- joined ---------------- *)

Lemma last_app2 (a b : list Z) : b <> [] -> last (a ++ b) 0 = last b 0.
Proof.
  intros H. induction a as [|x a IH]; [reflexivity|]. cbn [app]. destruct (a ++ b) as [|y r] eqn:E.
  - apply app_eq_nil in E as [_ ->]. congruence.
  - rewrite <- IH. reflexivity.
Qed.
Lemma hd_app2 (a b : list Z) : a <> [] -> hd 0 (a ++ b) = hd 0 a.
Proof. destruct a; [congruence|reflexivity]. Qed.

Lemma joined_app l1 o1 l2 o2 : joined l1 o1 -> joined l2 o2 -> joined (l1 ++ l2) (o1 ++ o2).
Proof.
  intros J1 J2. induction J1 as [|p|p l out J IH|p l out J IH P O LP HO].
  - exact J2.
  - cbn [app]. now apply j_cat.
  - cbn [app]. rewrite <- app_assoc. now apply j_cat.
  - rewrite <- app_assoc. cbn [app]. apply j_space; auto; [destruct out; cbn; congruence|]. now rewrite hd_app2.
Qed.
Lemma joined_space l1 o1 l2 o2 : joined l1 o1 -> joined l2 o2 -> o1 <> [] -> o2 <> [] ->
  ~ In (last o1 0) whiteSpaces -> ~ In (hd 0 o2) whiteSpaces -> joined (l1 ++ l2) (o1 ++ 32 :: o2).
Proof.
  intros J1 J2 N1 N2 W1 W2. induction J1 as [|p|p l out J IH|p l out J IH P O LP HO].
  - congruence.
  - cbn [app]. now apply j_space.
  - cbn [app]. destruct (list_eq_dec Z.eq_dec out []) as [->|N].
    + rewrite app_nil_r in *. apply j_space; auto. exact (joined_app _ _ _ _ J J2).
    + rewrite <- app_assoc. apply j_cat. apply IH; [exact N|]. now rewrite last_app2 in W1 by exact N.
  - rewrite <- app_assoc. cbn [app]. change (p ++ 32 :: out) with (p ++ [32] ++ out) in W1.
    rewrite app_assoc, last_app2 in W1 by exact O. apply j_space; [now apply IH|exact P|destruct out; cbn; congruence|exact LP|now rewrite hd_app2].
Qed.

(* ---------------- text ---------------- *)

Lemma text_eq n : text n = match n_chars n with
  | [] => textFold (rtype_eqb (n_type n) TBlock) [] false (List.map (fun c => (text c, n_sticky c)) (n_kids n))
  | _ => if isEOFText (n_chars n) then [] else n_chars n end.
Proof. now destruct n. Qed.
Lemma pieces_eq d n : pieces d n = match n_chars n with
  | [] => piecesOf d (n_kids n) | _ => if isEOFText (n_chars n) then [] else [n_chars n] end.
Proof. now destruct n. Qed.
Lemma piecesOf_cons d c l : piecesOf d (c :: l) = (if d c then [] else pieces d c) ++ piecesOf d l.
Proof. reflexivity. Qed.
Lemma piecesOf_app d l1 l2 : piecesOf d (l1 ++ l2) = piecesOf d l1 ++ piecesOf d l2.
Proof. unfold piecesOf. apply flat_map_app. Qed.

Lemma textFold_joined b l : forall acc pre st, (forall c, In c l -> joined (pieces everything c) (text c)) -> joined pre acc ->
  joined (pre ++ piecesOf everything l) (textFold b acc st (List.map (fun c => (text c, n_sticky c)) l)).
Proof.
  induction l as [|c l IH]; intros acc pre st H J; cbn [List.map textFold].
  - unfold piecesOf. cbn. now rewrite app_nil_r.
  - rewrite piecesOf_cons, app_assoc. cbn [everything]. apply IH; [intros; apply H; now right|].
    destruct (negb b && (nonempty acc && negb (isWS (last acc 0))) && (nonempty (text c) && negb (isWS (hd 0 (text c)))) && (negb st || negb (n_sticky c))) eqn:E.
    + repeat (apply andb_prop in E as [E ?]). repeat match goal with H : _ && _ = true |- _ => apply andb_prop in H as [? ?] end.
      cbn [app]. apply joined_space; auto; try (now apply nonempty_true).
      * apply H; now left.
      * apply notWS_white. now apply negb_true_iff.
      * apply notWS_white. now apply negb_true_iff.
    + cbn [app]. apply joined_app; [exact J|]. apply H; now left.
Qed.
Lemma text_joined n : joined (pieces everything n) (text n).
Proof.
  induction n as [n IH] using node_ind'. rewrite pieces_eq, text_eq. rewrite Forall_forall in IH. destruct (n_chars n) as [|x cs].
  - apply (textFold_joined _ (n_kids n) [] [] false IH j_nil).
  - destruct (isEOFText (x :: cs)); constructor.
Qed.
Lemma flat_joined l : joined (piecesOf everything l) (flat_map text l).
Proof. induction l as [|c l IH]; [constructor|]. rewrite piecesOf_cons. cbn [flat_map everything]. apply joined_app; [apply text_joined|exact IH]. Qed.

Lemma pieces_ok d n p : In p (pieces d n) -> p <> [] /\ isEOFText p = false.
Proof.
  induction n as [n IH] using node_ind'. rewrite pieces_eq. rewrite Forall_forall in IH. destruct (n_chars n) as [|x cs] eqn:E.
  - unfold piecesOf. rewrite in_flat_map. intros (c & Hc & Hp). destruct (d c); [destruct Hp|]. eauto.
  - destruct (isEOFText (x :: cs)) eqn:F; [intros []|]. intros [<-|[]]. split; [congruence|exact F].
Qed.
Lemma piecesOf_ok d l p : In p (piecesOf d l) -> p <> [] /\ isEOFText p = false.
Proof. unfold piecesOf. rewrite in_flat_map. intros (c & Hc & Hp). destruct (d c); [destruct Hp|]. eapply pieces_ok; eauto. Qed.
Lemma joined_nil l o : joined l o -> (forall p, In p l -> p <> []) -> o = [] -> l = [].
Proof.
  intros J H E. destruct J as [|p|p l out J|p l out J P]; [reflexivity|exfalso..].
  - apply (H p); [now left|exact E].
  - apply app_eq_nil in E as [E _]. apply (H p); [now left|exact E].
  - apply app_eq_nil in E as [_ E]. congruence.
Qed.
Lemma joined_eof l o : joined l o -> (forall p, In p l -> p <> [] /\ isEOFText p = false) -> isEOFText o = false.
Proof.
  intros J H. destruct J as [|p|p l out J|p l out J P O]; [reflexivity|apply H; now left| |].
  - destruct (H p (or_introl eq_refl)) as [N E]. destruct p as [|x [|y p]]; [congruence| |reflexivity].
    cbn [app]. destruct out as [|y out]; [exact E|reflexivity].
  - destruct p as [|x p]; [congruence|]. destruct p; [destruct out; [congruence|reflexivity]|reflexivity].
Qed.
Lemma flat_text_eof l : isEOFText (flat_map text l) = false.
Proof. eapply joined_eof; [apply flat_joined|]. intros. eapply piecesOf_ok; eauto. Qed.
Lemma text_nil n : text n = [] <-> pieces everything n = [].
Proof.
  split; intros H.
  - eapply joined_nil; [apply text_joined| |exact H]. intros p Hp. now apply (pieces_ok _ _ _ Hp).
  - pose proof (text_joined n) as J. rewrite H in J. now inversion J.
Qed.
Lemma flat_text_nil l : flat_map text l = [] <-> piecesOf everything l = [].
Proof.
  split; intros H.
  - eapply joined_nil; [apply flat_joined| |exact H]. intros p Hp. now apply (piecesOf_ok _ _ _ Hp).
  - pose proof (flat_joined l) as J. rewrite H in J. now inversion J.
Qed.

Lemma ink_app a b : ink (a ++ b) = ink a ++ ink b.
Proof. apply filter_app. Qed.
Lemma joined_ink l o : joined l o -> ink o = ink (concat l).
Proof.
  intros J. induction J as [|p|p l out J IH|p l out J IH P O LP HO]; cbn [concat]; rewrite ?app_nil_r, ?ink_app; auto.
  - now rewrite IH.
  - cbn [ink]. change (ink (32 :: out)) with (ink out). now rewrite IH.
Qed.
Lemma text_ink n : ink (text n) = ink (concat (pieces everything n)).
Proof. apply joined_ink, text_joined. Qed.
Lemma astText_ink a : ink (astText a) = ink (concat (piecesOf everything a)).
Proof. apply joined_ink, flat_joined. Qed.

Lemma token_pieces d s run : pieces d (token s run) = match flat_map text (s :: run) with [] => [] | _ => [flat_map text (s :: run)] end.
Proof.
  rewrite pieces_eq. unfold token. cbn [n_chars n_kids set_sticky set_kids set_chars].
  pose proof (flat_text_eof (s :: run)) as E. destruct (flat_map text (s :: run)) as [|x cs]; [reflexivity|]. now rewrite E.
Qed.
Lemma token_ink d s run : ink (concat (pieces d (token s run))) = ink (flat_map text (s :: run)).
Proof. rewrite token_pieces. destruct (flat_map text (s :: run)); [reflexivity|]. cbn [concat]. now rewrite app_nil_r. Qed.
Lemma token_text s run : text (token s run) = flat_map text (s :: run).
Proof.
  rewrite text_eq. unfold token at 1. cbn [n_chars set_sticky set_kids set_chars].
  pose proof (flat_text_eof (s :: run)) as E. change (n_chars (token s run)) with (flat_map text (s :: run)).
  destruct (flat_map text (s :: run)) as [|x cs]; [reflexivity|]. now rewrite E.
Qed.

(* ---------------- merging and text ---------------- *)

(** Sticky subtrees do not contain dropped nodes. *)
Definition clear (drop : node -> bool) (l : list node) : Prop :=
  forall m, inside m l -> n_sticky m = true -> forall v, sub v m -> drop v = false.
Lemma inside_cons m c l : inside m (c :: l) <-> sub m c \/ inside m l.
Proof.
  unfold inside. split.
  - intros (x & [<-|H] & S); [now left|right; eauto].
  - intros [S|(x & H & S)]; [exists c|exists x]; split; auto; [now left|now right].
Qed.
Lemma inside_app m l1 l2 : inside m (l1 ++ l2) <-> inside m l1 \/ inside m l2.
Proof.
  unfold inside. split.
  - intros (x & H & S). apply in_app_or in H as [H|H]; [left|right]; eauto.
  - intros [(x & H & S)|(x & H & S)]; exists x; split; auto; apply in_or_app; auto.
Qed.
Lemma inside_kids m n : inside m (n_kids n) -> sub m n.
Proof. intros (k & H & S). econstructor; eauto. Qed.
Lemma pieces_all drop n : (forall v, sub v n -> drop v = false) -> pieces drop n = pieces everything n.
Proof.
  induction n as [n IH] using node_ind'. intros H. rewrite !pieces_eq. destruct (n_chars n); [|reflexivity].
  assert (K : forall c, In c (n_kids n) -> drop c = false /\ (forall v, sub v c -> drop v = false)).
  { intros c Hc. split; [apply H; now apply sub_kids|]. intros v Hv. apply H. econstructor; eauto. }
  clear H. unfold piecesOf. induction (n_kids n) as [|c l IHl]; [reflexivity|]. inversion IH as [|? ? Hc Hl]; subst. cbn [flat_map everything].
  destruct (K c (or_introl eq_refl)) as [D B]. rewrite D, (Hc B). f_equal. apply IHl; [exact Hl|]. intros; apply K; now right.
Qed.
Lemma pieces_sticky d n b : pieces d (set_sticky n b) = pieces d n. Proof. now destruct n. Qed.

Definition inkOf (drop : node -> bool) (l : list node) : list Z := ink (concat (piecesOf drop l)).
Lemma inkOf_cons drop c l : inkOf drop (c :: l) = (if drop c then [] else ink (concat (pieces drop c))) ++ inkOf drop l.
Proof. unfold inkOf. rewrite piecesOf_cons, concat_app, ink_app. now destruct (drop c). Qed.
Lemma inkOf_app drop l1 l2 : inkOf drop (l1 ++ l2) = inkOf drop l1 ++ inkOf drop l2.
Proof. unfold inkOf. now rewrite piecesOf_app, concat_app, ink_app. Qed.
Lemma inkOf_all drop l : (forall m v, In m l -> sub v m -> drop v = false) -> inkOf drop l = ink (flat_map text l).
Proof.
  intros H. induction l as [|c l IH]; [reflexivity|]. rewrite inkOf_cons. cbn [flat_map]. rewrite ink_app, text_ink, IH.
  - rewrite (H c c (or_introl eq_refl) (sub_here c)). rewrite (pieces_all drop c); [reflexivity|]. intros v. apply H. now left.
  - intros m v Hm. apply H. now right.
Qed.

Section Ink.
Variable drop : node -> bool.
(** Only flags other than stickiness decide. *)
Hypothesis flags : forall n cs ks st, drop (set_sticky (set_kids (set_chars n cs) ks) st) = drop n.
Lemma drop_kids n ks : drop (set_kids n ks) = drop n.
Proof. rewrite <- (flags n (n_chars n) ks (n_sticky n)). now destruct n. Qed.
Lemma drop_sticky n st : drop (set_sticky n st) = drop n.
Proof. rewrite <- (flags n (n_chars n) (n_kids n) st). destruct n; reflexivity. Qed.

Lemma merged_ink_mut :
  (forall n m, mergedNode n m -> clear drop (n_kids n) -> ink (concat (pieces drop m)) = ink (concat (pieces drop n)) /\ drop m = drop n) /\
  (forall l l', mergedEach l l' -> clear drop l -> inkOf drop l' = inkOf drop l) /\
  (forall l l', merged l l' -> clear drop l -> inkOf drop l' = inkOf drop l).
Proof.
  apply merged_mut.
  - auto.
  - intros n ks _ _ _ IH C. rewrite pieces_sticky, drop_sticky, drop_kids. split; [|reflexivity]. rewrite !pieces_eq. cbn [n_chars n_kids set_kids].
    destruct (n_chars n); [|reflexivity]. exact (IH C).
  - intros n ks _ _ _ IH C. rewrite drop_kids. split; [|reflexivity]. rewrite !pieces_eq. cbn [n_chars n_kids set_kids].
    destruct (n_chars n); [|reflexivity]. exact (IH C).
  - reflexivity.
  - intros c m l l' _ IH1 _ IH2 C. rewrite !inkOf_cons, drop_sticky, pieces_sticky.
    destruct IH1 as [E D]; [intros x Hx; apply C, inside_cons; left; now apply inside_kids|]. rewrite D, E. f_equal.
    apply IH2. intros x Hx. apply C, inside_cons. now right.
  - reflexivity.
  - intros c m l l' _ _ IH1 _ IH2 C. rewrite !inkOf_cons.
    destruct IH1 as [E D]; [intros x Hx; apply C, inside_cons; left; now apply inside_kids|]. rewrite D, E. f_equal.
    apply IH2. intros x Hx. apply C, inside_cons. now right.
  - intros s run l l' S R _ _ IH C. rewrite inkOf_cons. change (s :: run ++ l) with ((s :: run) ++ l). rewrite inkOf_app.
    assert (K : forall m v, In m (s :: run) -> sub v m -> drop v = false).
    { intros m v Hm. apply C; [apply inside_cons|].
      - destruct Hm as [<-|Hm]; [left; constructor|]. right. apply inside_app. left. exists m. split; [exact Hm|constructor].
      - destruct Hm as [<-|Hm]; [exact S|]. rewrite Forall_forall in R. auto. }
    rewrite (inkOf_all drop (s :: run) K). unfold token at 1. rewrite drop_sticky, drop_kids.
    assert (D : drop (set_chars s (flat_map text (s :: run))) = false).
    { rewrite <- (K s s (or_introl eq_refl) (sub_here s)). rewrite <- (flags s (flat_map text (s :: run)) (n_kids s) (n_sticky s)). now destruct s. }
    rewrite D, token_ink. f_equal. apply IH. intros x Hx. apply C, inside_cons. right. apply inside_app. now right.
Qed.
Theorem astMerge_inkOf a : clear drop a -> inkOf drop (astMerge a) = inkOf drop a.
Proof. apply merged_ink_mut, astMerge_merged. Qed.
End Ink.

Theorem astMerge_ink a : ink (astText (astMerge a)) = ink (astText a).
Proof.
  rewrite !astText_ink. apply (astMerge_inkOf everything); [reflexivity|]. intros m _ _ v _. reflexivity.
Qed.

(** The texts themselves agree when no sticky node has an empty text. *)
Definition solid (l : list node) : Prop := forall m, inside m l -> n_sticky m = true -> text m <> [].


Lemma fold_run b run : forall acc, acc <> [] \/ True -> Forall (fun c => n_sticky c = true) run -> 
  forall l, textFold b acc true (List.map (fun c => (text c, n_sticky c)) run ++ l) = textFold b (acc ++ flat_map text run) true l.
Proof.
  induction run as [|c run IH]; intros acc _ F l; cbn [List.map app flat_map].
  - now rewrite app_nil_r.
  - inversion F as [|? ? S F']; subst. cbn [textFold]. rewrite S. cbn [negb orb]. rewrite andb_false_r. cbn [app]. rewrite IH by auto. now rewrite <- app_assoc.
Qed.
(** How the stickiness of the item before matters. *)
Lemma fold_flag b acc s s' l : (match l with (t, st) :: _ => st = false | [] => True end) -> textFold b acc s l = textFold b acc s' l.
Proof. destruct l as [|[t st] l]; [reflexivity|]. intros ->. cbn [textFold]. now rewrite !orb_true_r. Qed.

Definition items (l : list node) := List.map (fun c => (text c, n_sticky c)) l.
Lemma items_loose l : startsLoose l -> match items l with (t, st) :: _ => st = false | [] => True end.
Proof. destruct l; cbn; auto. Qed.
Lemma solid_cons c l : solid (c :: l) -> solid (n_kids c) /\ solid l /\ (n_sticky c = true -> text c <> []).
Proof.
  intros H. repeat split.
  - intros m Hm. apply H, inside_cons. left. now apply inside_kids.
  - intros m Hm. apply H, inside_cons. now right.
  - apply H, inside_cons. left. constructor.
Qed.
Lemma hd_flat c run : text c <> [] -> hd 0 (flat_map text (c :: run)) = hd 0 (text c).
Proof. intros H. cbn [flat_map]. now apply hd_app2. Qed.

Lemma block_fold l : forall acc st, textFold true acc st l = acc ++ flat_map fst l.
Proof.
  induction l as [|[t s] l IH]; intros acc st; cbn [textFold flat_map fst]; [now rewrite app_nil_r|]. cbn [negb andb app]. rewrite IH. now rewrite app_assoc.
Qed.
Lemma text_sticky n b : text (set_sticky n b) = text n. Proof. now destruct n. Qed.
Lemma mergedNode_sticky n m : mergedNode n m -> n_sticky n = false -> n_sticky m = false.
Proof. intros H. destruct H; auto. Qed.

Lemma merged_text_mut :
  (forall n m, mergedNode n m -> solid (n_kids n) -> text m = text n) /\
  (forall l l', mergedEach l l' -> solid l -> flat_map text l' = flat_map text l) /\
  (forall l l', merged l l' -> solid l -> forall acc, textFold false acc false (items l') = textFold false acc false (items l)).
Proof.
  apply merged_mut.
  - auto.
  - intros n ks _ T _ IH C. rewrite text_sticky, !text_eq. cbn [n_chars n_kids n_type set_kids]. destruct (n_chars n); [|reflexivity].
    rewrite T. change (rtype_eqb TBlock TBlock) with true. rewrite !block_fold. cbn [app]. specialize (IH C). rewrite !flat_map_concat_map in *.
    now rewrite !map_map.
  - intros n ks _ T _ IH C. rewrite !text_eq. cbn [n_chars n_kids n_type set_kids]. destruct (n_chars n); [|reflexivity].
    destruct (rtype_eqb (n_type n) TBlock) eqn:E; [apply rtype_eqb_eq in E; congruence|]. exact (IH C []).
  - reflexivity.
  - intros c m l l' _ IH1 _ IH2 C. apply solid_cons in C as (C1 & C2 & _). cbn [flat_map]. rewrite text_sticky, IH1 by exact C1. f_equal. auto.
  - reflexivity.
  - intros c m l l' S M IH1 _ IH2 C acc. apply solid_cons in C as (C1 & C2 & _). cbn [items List.map]. cbn [textFold].
    rewrite (IH1 C1), S, (mergedNode_sticky c m M S). exact (IH2 C2 _).
  - intros s run l l' S R L _ IH C acc.
    assert (C2 : solid l) by (intros x Hx; apply C, inside_cons; right; apply inside_app; now right).
    assert (NE : text s <> []) by (apply C; [apply inside_cons; left; constructor|exact S]).
    unfold items. cbn [List.map textFold]. rewrite map_app. change (n_sticky (token s run)) with false. cbn [negb orb andb].
    rewrite S, (fold_run false run _ (or_intror I) R). rewrite (fold_flag false _ true false) by now apply items_loose.
    fold (items l) (items l'). rewrite <- (IH C2). f_equal. rewrite token_text, (hd_flat s run NE).
    assert (N1 : nonempty (flat_map text (s :: run)) = true) by (cbn [flat_map]; destruct (text s); [congruence|reflexivity]).
    assert (N2 : nonempty (text s) = true) by now apply nonempty_true.
    rewrite N1, N2. cbn [flat_map]. now rewrite <- !app_assoc.
Qed.
Theorem astMerge_text a : solid a -> astText (astMerge a) = astText a.
Proof.
  intros C. unfold astText. pose proof (astMerge_merged a) as M. revert C. generalize dependent (astMerge a). intros a' M. induction M as [|c m l l' S M1 M2 IH|s run l l' S R L M IH]; intros C.
  - reflexivity.
  - apply solid_cons in C as (C1 & C2 & _). cbn [flat_map]. rewrite IH by exact C2. f_equal. now apply (proj1 merged_text_mut).
  - cbn [flat_map]. rewrite token_text. cbn [flat_map]. rewrite flat_map_app, <- app_assoc. do 2 f_equal. apply IH.
    intros x Hx; apply C, inside_cons; right; apply inside_app; now right.
Qed.

(* ---------------- dropping and text ---------------- *)

Lemma prune_pieces drop n : pieces everything (prune drop n) = pieces drop n.
Proof.
  induction n as [n IH] using node_ind'. rewrite prune_eq, !pieces_eq. cbn [n_chars n_kids set_kids]. destruct (n_chars n); [|reflexivity].
  unfold piecesOf, pruneAll. induction (n_kids n) as [|c l IHl]; [reflexivity|]. inversion IH as [|? ? Hc Hl]; subst. cbn [flat_map]. rewrite flat_map_app.
  destruct (drop c); cbn [flat_map app everything]; [auto|]. rewrite app_nil_r, Hc. f_equal. auto.
Qed.
Lemma pruneAll_pieces drop a : piecesOf everything (pruneAll drop a) = piecesOf drop a.
Proof.
  unfold piecesOf, pruneAll. induction a as [|c l IHl]; [reflexivity|]. cbn [flat_map]. rewrite flat_map_app.
  destruct (drop c); cbn [flat_map app everything]; [auto|]. rewrite app_nil_r, prune_pieces. f_equal. auto.
Qed.
