(** Facts about RemoveRedundantNodes and about node counts. *)
From Verif Require Import Base Stream StreamFacts Node Rule SpecRule TermSpec RuleFacts SpecNode NodeFacts NodeText.

Lemma rr_eq n : removeRedundant n = match n_kids n with [] => n | _ =>
  let n1 := promote1 (set_kids n (List.map removeRedundant (n_kids n))) in promote2 (set_kids n1 (splice (n_kids n1))) end.
Proof. now destruct n. Qed.

Lemma proper_kids n : proper n -> leafy n /\ Forall proper (n_kids n).
Proof.
  intros H. split; [apply H; constructor|]. apply Forall_forall. intros c Hc m Hm. apply H. econstructor; eauto.
Qed.
Lemma proper_intro n : leafy n -> Forall proper (n_kids n) -> proper n.
Proof. intros L F m Hm. apply sub_cases in Hm as [->|(k & Hk & S)]; [exact L|]. rewrite Forall_forall in F. exact (F k Hk m S). Qed.

Lemma filter_flat {A B} (p : B -> bool) (f : A -> list B) l : List.filter p (flat_map f l) = flat_map (fun x => List.filter p (f x)) l.
Proof. induction l as [|x l IH]; [reflexivity|]. cbn [flat_map]. now rewrite filter_app, IH. Qed.
Lemma map_flat {A B C} (g : B -> C) (f : A -> list B) l : List.map g (flat_map f l) = flat_map (fun x => List.map g (f x)) l.
Proof. induction l as [|x l IH]; [reflexivity|]. cbn [flat_map]. now rewrite map_app, IH. Qed.

Lemma namedNodes_eq n : namedNodes n = (if nonempty (n_name n) then [n] else []) ++ flat_map namedNodes (n_kids n).
Proof. now destruct n. Qed.
Lemma text_pieces n : nonempty (text n) = nonempty (pieces everything n).
Proof.
  destruct (text n) eqn:E, (pieces everything n) eqn:F; try reflexivity.
  - apply text_nil in E. congruence.
  - apply text_nil in F. congruence.
Qed.
Definition shownOf (n : node) := if nonempty (n_name n) && nonempty (pieces everything n) then [(ident_of n, pieces everything n)] else [].
Lemma shown_eq n : shown n = shownOf n ++ flat_map shown (n_kids n).
Proof.
  unfold shown, shownOf. rewrite namedNodes_eq, filter_app, map_app. f_equal.
  - destruct (nonempty (n_name n)); [|reflexivity]. cbn [List.filter]. rewrite text_pieces. now destruct (nonempty _).
  - now rewrite filter_flat, map_flat.
Qed.
Lemma pieces_kids n : leafy n -> n_kids n <> [] -> n_chars n = [] /\ pieces everything n = piecesOf everything (n_kids n).
Proof. intros [E|E] K; [|congruence]. split; [exact E|]. rewrite pieces_eq. now rewrite E. Qed.
Lemma piecesOf_nil l : piecesOf everything l = [] -> forall c, In c l -> pieces everything c = [].
Proof.
  induction l as [|x l IH]; intros H c Hc; [destruct Hc|]. rewrite piecesOf_cons in H. cbn [everything] in H. apply app_eq_nil in H as [H1 H2].
  destruct Hc as [<-|Hc]; auto.
Qed.
Lemma shown_empty n : proper n -> pieces everything n = [] -> shown n = [].
Proof.
  induction n as [n IH] using node_ind'. intros P E. apply proper_kids in P as [L F]. rewrite shown_eq. unfold shownOf. rewrite E. rewrite andb_false_r. cbn [app].
  destruct (n_kids n) as [|k ks] eqn:EK; [reflexivity|]. destruct (pieces_kids n L ltac:(congruence)) as [_ EP]. rewrite EP in E. rewrite EK in E.
  pose proof (piecesOf_nil _ E) as Z. clear - IH F Z. induction (k :: ks) as [|c l IHl]; [reflexivity|]. inversion IH; inversion F; subst. cbn [flat_map].
  rewrite IHl; auto; [|intros; apply Z; now right]. rewrite app_nil_r. match goal with H : proper c -> _ |- _ => apply H; auto end. apply Z. now left.
Qed.

(** One step: identity, pieces and named nodes are kept. *)
Definition step (n n' : node) : Prop :=
  proper n' /\ ident_of n' = ident_of n /\ pieces everything n' = pieces everything n /\
  flat_map shown (n_kids n') = flat_map shown (n_kids n).
Lemma step_refl n : proper n -> step n n.
Proof. unfold step. auto. Qed.
Lemma step_trans a b c : step a b -> step b c -> step a c.
Proof. intros (P1 & I1 & E1 & S1) (P2 & I2 & E2 & S2). repeat split; congruence || auto. Qed.
Lemma step_name n n' : step n n' -> n_name n' = n_name n.
Proof. intros (_ & I & _). unfold ident_of in I. congruence. Qed.
Lemma step_shown n n' : step n n' -> shown n' = shown n.
Proof. intros S. pose proof (step_name _ _ S) as N. destruct S as (_ & I & E & K). rewrite !shown_eq, K. unfold shownOf. now rewrite N, I, E. Qed.

Lemma promote1_step n : proper n -> step n (promote1 n).
Proof.
  intros P. unfold promote1. destruct (n_kids n) as [|only [|? ?]] eqn:EK; try now apply step_refl. destruct (nonempty (n_name only)) eqn:EN; [now apply step_refl|].
  pose proof (proper_kids n P) as [L F]. destruct (pieces_kids n L ltac:(congruence)) as [EC EP]. rewrite EK in F. inversion F as [|? ? P1 _]; subst.
  pose proof (proper_kids only P1) as [L1 F1].
  assert (SO : shown only = flat_map shown (n_kids only)) by (rewrite shown_eq; unfold shownOf; now rewrite EN).
  destruct (nonempty (n_chars only)) eqn:ECO.
  - apply nonempty_true in ECO. destruct L1 as [X|X]; [congruence|]. repeat split.
    + apply proper_intro; [now right|constructor].
    + rewrite EP, EK. rewrite piecesOf_cons. cbn [everything]. rewrite !pieces_eq. cbn [n_chars set_kids set_chars n_kids]. rewrite X.
      destruct (n_chars only); [congruence|]. unfold piecesOf. cbn [flat_map]. now rewrite app_nil_r.
    + rewrite EK. cbn [flat_map n_kids set_kids]. rewrite SO, X. reflexivity.
  - apply nonempty_false in ECO. repeat split.
    + apply proper_intro; [now left|exact F1].
    + rewrite EP, EK, piecesOf_cons. cbn [everything]. rewrite !pieces_eq. cbn [n_chars n_kids set_kids]. rewrite EC, ECO. unfold piecesOf at 3. cbn [flat_map]. now rewrite app_nil_r.
    + rewrite EK. cbn [flat_map n_kids set_kids]. now rewrite SO, app_nil_r.
Qed.
Lemma promote2_step n : proper n -> step n (promote2 n).
Proof.
  intros P. unfold promote2. destruct (n_kids n) as [|only [|? ?]] eqn:EK; try now apply step_refl.
  destruct (nonempty (n_name only)) eqn:EN; [now apply step_refl|]. destruct (nonempty (n_kids only)) eqn:EK1; [now apply step_refl|]. apply nonempty_false in EK1.
  pose proof (proper_kids n P) as [L F]. destruct (pieces_kids n L ltac:(congruence)) as [EC EP].
  cbn [negb andb]. repeat split.
  - apply proper_intro; [now right|constructor].
  - rewrite EP, EK, piecesOf_cons. cbn [everything]. rewrite !pieces_eq. cbn [n_chars set_kids set_chars n_kids]. rewrite EK1. unfold piecesOf. cbn [flat_map]. now rewrite app_nil_r.
  - rewrite EK. cbn [flat_map n_kids set_kids]. rewrite app_nil_r, shown_eq, EK1. unfold shownOf. now rewrite EN.
Qed.
Lemma splice_keeps l : Forall proper l -> Forall proper (splice l) /\ piecesOf everything (splice l) = piecesOf everything l /\
  flat_map shown (splice l) = flat_map shown l.
Proof.
  unfold splice. induction l as [|c l IH]; intros F; [repeat split; constructor|]. inversion F as [|? ? P F']; subst. destruct (IH F') as (A & B & C). clear IH.
  cbn [flat_map]. rewrite piecesOf_app, flat_map_app, piecesOf_cons, B, C. cbn [everything]. pose proof (proper_kids c P) as [L K].
  destruct (nonempty (n_name c)) eqn:EN; cbn [negb andb]; [rewrite andb_false_r|rewrite andb_true_r].
  - repeat split; [now constructor| |].
    + unfold piecesOf at 1. cbn [flat_map everything]. now rewrite app_nil_r.
    + cbn [flat_map]. now rewrite app_nil_r.
  - assert (SO : shown c = flat_map shown (n_kids c)) by (rewrite shown_eq; unfold shownOf; now rewrite EN).
    rewrite text_pieces. destruct (nonempty (pieces everything c)) eqn:EP; cbn [negb].
    + destruct (nonempty (n_kids c)) eqn:EK.
      * apply nonempty_true in EK. destruct (pieces_kids c L EK) as [_ ->]. repeat split; [apply Forall_app; auto|now rewrite SO].
      * repeat split; [now constructor| |].
        -- unfold piecesOf at 1. cbn [flat_map everything]. now rewrite app_nil_r.
        -- cbn [flat_map]. now rewrite app_nil_r.
    + apply nonempty_false in EP. rewrite EP, (shown_empty c P EP). repeat split. exact A.
Qed.
Lemma splice_step n : proper n -> step n (set_kids n (splice (n_kids n))).
Proof.
  intros P. pose proof (proper_kids n P) as [L F]. destruct (splice_keeps _ F) as (A & B & C). repeat split; [|rewrite !pieces_eq; cbn [n_chars n_kids set_kids]; now rewrite B|exact C].
  apply proper_intro; [|exact A]. destruct L as [L|L]; [left; exact L|right]. cbn [n_kids set_kids]. now rewrite L.
Qed.
Theorem removeRedundant_step n : proper n -> step n (removeRedundant n).
Proof.
  induction n as [n IH] using node_ind'. intros P. rewrite rr_eq. destruct (n_kids n) as [|k ks] eqn:EK; [now apply step_refl|]. rewrite <- EK in *. assert (NK : n_kids n <> []) by congruence. clear EK.
  pose proof (proper_kids n P) as [L F]. set (n0 := set_kids n (List.map removeRedundant (n_kids n))).
  assert (S0 : step n n0).
  { unfold n0. destruct (pieces_kids n L NK) as [EC _].
    assert (K : Forall proper (List.map removeRedundant (n_kids n)) /\ piecesOf everything (List.map removeRedundant (n_kids n)) = piecesOf everything (n_kids n) /\
                flat_map shown (List.map removeRedundant (n_kids n)) = flat_map shown (n_kids n)).
    { clear - IH F. induction (n_kids n) as [|c l IHl]; [repeat split; constructor|]. inversion IH as [|? ? Hc Hl]; inversion F as [|? ? Pc Fl]; subst.
      destruct (IHl Hl Fl) as (A & B & C). pose proof (Hc Pc) as S. cbn [List.map flat_map]. rewrite !piecesOf_cons, B, C, (step_shown _ _ S). destruct S as (Q & _ & E & _).
      cbn [everything]. rewrite E. repeat split; auto. }
    destruct K as (A & B & C). repeat split; [apply proper_intro; [now left|exact A]| |exact C]. rewrite !pieces_eq. cbn [n_chars n_kids set_kids]. now rewrite B. }
  cbv zeta. eapply step_trans; [exact S0|]. destruct S0 as (P0 & _). eapply step_trans; [apply promote1_step; exact P0|]. pose proof (promote1_step n0 P0) as (P1 & _).
  eapply step_trans; [apply splice_step; exact P1|]. apply promote2_step. apply splice_step. exact P1.
Qed.

(* ---------------- the shape ---------------- *)

Definition fit (c : node) : Prop := n_name c <> [] \/ (n_kids c = [] /\ text c <> []).
Definition deepLean (n : node) : Prop := forall m, sub m n -> lean m.
Lemma deepLean_kids n c : deepLean n -> In c (n_kids n) -> deepLean c /\ fit c.
Proof. intros D H. split; [intros m Hm; apply D; econstructor; eauto|]. apply (D n (sub_here n)). exact H. Qed.
Lemma deepLean_intro n : lean n -> (forall c, In c (n_kids n) -> deepLean c) -> deepLean n.
Proof. intros L H m Hm. apply sub_cases in Hm as [->|(k & Hk & S)]; [exact L|]. exact (H k Hk m S). Qed.
Lemma lean_leaf n : n_kids n = [] -> lean n.
Proof. intros E. unfold lean. rewrite E. split; [intros c []|intros c X; discriminate]. Qed.
Lemma splice_fit l : (forall c, In c l -> deepLean c) -> forall c, In c (splice l) -> deepLean c /\ fit c.
Proof.
  intros H c Hc. unfold splice in Hc. apply in_flat_map in Hc as (x & Hx & Hc). specialize (H x Hx).
  destruct (nonempty (n_name x)) eqn:EN; cbn [negb andb] in Hc; [rewrite andb_false_r in Hc|rewrite andb_true_r in Hc].
  - destruct Hc as [<-|[]]. split; [exact H|left]. now apply nonempty_true.
  - destruct (nonempty (text x)) eqn:ET; cbn [negb] in Hc; [|destruct Hc]. destruct (nonempty (n_kids x)) eqn:EK.
    + now apply (deepLean_kids x).
    + destruct Hc as [<-|[]]. split; [exact H|right]. split; [now apply nonempty_false|now apply nonempty_true].
Qed.
Theorem removeRedundant_lean n : deepLean (removeRedundant n).
Proof.
  induction n as [n IH] using node_ind'. rewrite rr_eq. destruct (n_kids n) as [|k ks] eqn:EK.
  - apply deepLean_intro; [now apply lean_leaf|]. intros c Hc. rewrite EK in Hc. destruct Hc.
  - rewrite <- EK in *. clear EK. cbv zeta. set (n0 := set_kids n (List.map removeRedundant (n_kids n))).
    assert (K0 : forall c, In c (n_kids n0) -> deepLean c).
    { unfold n0. cbn [n_kids set_kids]. intros c Hc. apply in_map_iff in Hc as (x & <- & Hx). rewrite Forall_forall in IH. auto. }
    assert (K1 : forall c, In c (n_kids (promote1 n0)) -> deepLean c).
    { unfold promote1. destruct (n_kids n0) as [|only [|? ?]] eqn:E; rewrite ?E; auto. destruct (nonempty (n_name only)); [rewrite E; auto|].
      destruct (nonempty (n_chars only)); cbn [n_kids set_kids]; [intros c []|]. intros c Hc. apply (deepLean_kids only); [|exact Hc]. apply K0. now left. }
    pose proof (splice_fit _ K1) as K2. set (n2 := set_kids (promote1 n0) (splice (n_kids (promote1 n0)))).
    assert (K : forall c, In c (n_kids n2) -> deepLean c /\ fit c) by exact K2. clearbody n2. clear - K. unfold promote2.
    destruct (n_kids n2) as [|only [|x l]] eqn:E.
    + apply deepLean_intro; [now apply lean_leaf|]. rewrite E. intros c [].
    + destruct (K only (or_introl eq_refl)) as [D Fi]. destruct (nonempty (n_name only)) eqn:EN; cbn [negb andb].
      * apply deepLean_intro; [|rewrite E; intros c [<-|[]]; exact D]. apply nonempty_true in EN. unfold lean. rewrite E. split; [intros c [<-|[]]; exact Fi|]. intros c X. injection X as <-. exact EN.
      * apply nonempty_false in EN. destruct Fi as [X|[X _]]; [congruence|]. rewrite X. cbn [nonempty negb]. apply deepLean_intro; [now apply lean_leaf|]. intros c [].
    + apply deepLean_intro; [|rewrite E; intros c Hc; now apply K]. unfold lean. rewrite E. split; [intros c Hc; now apply K|]. intros c X. discriminate.
Qed.
Theorem removeRedundant_fix n : deepLean n -> removeRedundant n = n.
Proof.
  induction n as [n IH] using node_ind'. intros D. rewrite rr_eq. destruct (n_kids n) as [|k ks] eqn:EK; [reflexivity|]. rewrite <- EK in *.
  assert (M : List.map removeRedundant (n_kids n) = n_kids n).
  { rewrite <- map_id. apply map_ext_in. intros c Hc. rewrite Forall_forall in IH. apply IH; [exact Hc|]. now apply (deepLean_kids n). }
  cbv zeta. rewrite M, node_eta. pose proof (D n (sub_here n)) as [L1 L2].
  assert (P1 : promote1 n = n).
  { unfold promote1. destruct (n_kids n) as [|only [|? ?]]; try reflexivity. specialize (L2 only eq_refl). destruct (n_name only); [congruence|reflexivity]. }
  rewrite P1. assert (SP : splice (n_kids n) = n_kids n).
  { clear - L1. unfold splice. induction (n_kids n) as [|c l IHl]; [reflexivity|]. cbn [flat_map]. rewrite IHl by (intros; apply L1; now right).
    destruct (L1 c (or_introl eq_refl)) as [N|[K T]].
    - apply nonempty_true in N. rewrite N. cbn [negb andb]. now rewrite andb_false_r.
    - apply nonempty_true in T. rewrite T, K. cbn [negb andb nonempty]. now rewrite andb_false_r. }
  rewrite SP, node_eta. unfold promote2. destruct (n_kids n) as [|only [|? ?]]; try reflexivity. specialize (L2 only eq_refl). destruct (n_name only); [congruence|reflexivity].
Qed.
Theorem removeRedundant_idem n : removeRedundant (removeRedundant n) = removeRedundant n.
Proof. apply removeRedundant_fix, removeRedundant_lean. Qed.

(* ---------------- named nodes ---------------- *)

Lemma subseq_refl {A} (l : list A) : subseq l l.
Proof. induction l; constructor; auto. Qed.
Lemma subseq_nil {A} (l : list A) : subseq [] l.
Proof. induction l; constructor; auto. Qed.
Lemma subseq_app {A} (a b c d : list A) : subseq a b -> subseq c d -> subseq (a ++ c) (b ++ d).
Proof. intros H1 H2. induction H1; cbn [app]; try constructor; auto. Qed.
Lemma subseq_trans {A} (a b c : list A) : subseq a b -> subseq b c -> subseq a c.
Proof.
  intros H1 H2. revert a H1. induction H2 as [|x l l' H IH|x l l' H IH]; intros a H1.
  - exact H1.
  - inversion H1; subst; constructor; auto.
  - constructor. auto.
Qed.
Definition idents (n : node) := List.map ident_of (namedNodes n).
Lemma idents_eq n : idents n = (if nonempty (n_name n) then [ident_of n] else []) ++ flat_map idents (n_kids n).
Proof. unfold idents. rewrite namedNodes_eq, map_app, map_flat. now destruct (nonempty _). Qed.
Definition less (n n' : node) : Prop := ident_of n' = ident_of n /\ subseq (flat_map idents (n_kids n')) (flat_map idents (n_kids n)).
Lemma less_trans a b c : less a b -> less b c -> less a c.
Proof. intros [E1 S1] [E2 S2]. split; [congruence|]. eapply subseq_trans; eauto. Qed.
Lemma less_refl n : less n n. Proof. split; [reflexivity|apply subseq_refl]. Qed.
Lemma less_idents n n' : less n n' -> subseq (idents n') (idents n).
Proof.
  intros [E S]. rewrite !idents_eq, E. apply subseq_app; [|exact S]. assert (N : n_name n' = n_name n) by (unfold ident_of in E; congruence). rewrite N. apply subseq_refl.
Qed.
Lemma unnamed_kids c : subseq (flat_map idents (n_kids c)) (idents c).
Proof. rewrite (idents_eq c). apply (subseq_app []); [apply subseq_nil|apply subseq_refl]. Qed.
Theorem removeRedundant_less n : less n (removeRedundant n).
Proof.
  induction n as [n IH] using node_ind'. rewrite rr_eq. destruct (n_kids n) as [|k ks] eqn:EK; [apply less_refl|]. rewrite <- EK in *. clear EK. cbv zeta.
  set (n0 := set_kids n (List.map removeRedundant (n_kids n))).
  assert (S0 : less n n0).
  { split; [reflexivity|]. unfold n0. cbn [n_kids set_kids]. induction (n_kids n) as [|c l IHl]; [constructor|]. inversion IH; subst. cbn [List.map flat_map]. apply subseq_app; [now apply less_idents|auto]. }
  eapply less_trans; [exact S0|]. clearbody n0. clear.
  assert (S1 : less n0 (promote1 n0)).
  { unfold promote1. destruct (n_kids n0) as [|only [|? ?]] eqn:E; try apply less_refl. destruct (nonempty (n_name only)); [apply less_refl|].
    destruct (nonempty (n_chars only)); (split; [reflexivity|]); cbn [n_kids set_kids]; rewrite E; cbn [flat_map]; [apply subseq_nil|]. rewrite app_nil_r. apply unnamed_kids. }
  eapply less_trans; [exact S1|]. generalize (promote1 n0) as n1. clear. intros n1.
  assert (S2 : less n1 (set_kids n1 (splice (n_kids n1)))).
  { split; [reflexivity|]. cbn [n_kids set_kids]. unfold splice. induction (n_kids n1) as [|c l IHl]; [constructor|]. cbn [flat_map]. rewrite flat_map_app. apply subseq_app; [|exact IHl].
    destruct (_ && _); [apply subseq_nil|]. destruct (_ && _); [apply unnamed_kids|]. cbn [flat_map]. rewrite app_nil_r. apply subseq_refl. }
  eapply less_trans; [exact S2|]. generalize (set_kids n1 (splice (n_kids n1))) as n2. clear. intros n2.
  unfold promote2. destruct (n_kids n2) as [|only [|? ?]] eqn:E; try apply less_refl. destruct (_ && _); [|apply less_refl]. split; [reflexivity|]. cbn [n_kids set_kids flat_map]. apply subseq_nil.
Qed.

(* ---------------- counts ---------------- *)

Definition total (f : node -> nat) (l : list node) : nat := fold_right plus 0%nat (List.map f l).
Lemma total_app f a b : total f (a ++ b) = (total f a + total f b)%nat.
Proof. unfold total. induction a as [|x a IH]; cbn; [reflexivity|]. rewrite IH. lia. Qed.
Lemma total_cons f x a : total f (x :: a) = (f x + total f a)%nat. Proof. reflexivity. Qed.
Lemma countNodes_eq n : countNodes n = S (total countNodes (n_kids n)).
Proof. now destruct n. Qed.
Lemma countTokens_eq n : countTokens n = match n_kids n with [] => 1%nat | _ => total countTokens (n_kids n) end.
Proof. now destruct n. Qed.
Lemma countTokens_pos n : (1 <= countTokens n)%nat.
Proof.
  induction n as [n IH] using node_ind'. rewrite countTokens_eq. destruct (n_kids n) as [|k ks]; [lia|]. inversion IH; subst. rewrite total_cons. lia.
Qed.
Lemma total_pos l : l <> [] -> (1 <= total countTokens l)%nat.
Proof. destruct l as [|c l]; [congruence|]. intros _. rewrite total_cons. pose proof (countTokens_pos c). lia. Qed.
(** no more nodes and no more tokens *)
Definition fewer (n n' : node) : Prop := (countNodes n' <= countNodes n /\ countTokens n' <= countTokens n)%nat.
Definition fewerOf (l l' : list node) : Prop := (total countNodes l' <= total countNodes l /\ total countTokens l' <= total countTokens l)%nat.
Lemma fewer_kids n l : fewerOf (n_kids n) l -> (n_kids n = [] -> l = []) -> fewer n (set_kids n l).
Proof.
  intros [A B] Z. unfold fewer. rewrite !countNodes_eq, !countTokens_eq. cbn [n_kids set_kids]. split; [lia|].
  destruct (n_kids n) as [|k ks] eqn:E; [rewrite Z; auto|]. rewrite <- E in *. destruct l; [|exact B]. rewrite E. apply total_pos. congruence.
Qed.
Lemma fewer_leaf n n' : n_kids n' = [] -> fewer n n'.
Proof. intros E. unfold fewer. rewrite !countNodes_eq, (countTokens_eq n'), E. cbn. pose proof (countTokens_pos n). lia. Qed.
Lemma fewerOf_cons c c' l l' : fewer c c' -> fewerOf l l' -> fewerOf (c :: l) (c' :: l').
Proof. unfold fewer, fewerOf. rewrite !total_cons. lia. Qed.
Lemma fewerOf_drop c l l' : fewerOf l l' -> fewerOf (c :: l) l'.
Proof. unfold fewerOf. rewrite !total_cons. lia. Qed.
Lemma fewer_trans a b c : fewer a b -> fewer b c -> fewer a c. Proof. unfold fewer. lia. Qed.
Lemma fewer_refl a : fewer a a. Proof. unfold fewer. lia. Qed.
Lemma fewer_sticky n m b : fewer n m -> fewer n (set_sticky m b).
Proof. unfold fewer. rewrite !countNodes_eq, !countTokens_eq. now destruct m. Qed.

Lemma prune_fewer p n : fewer n (prune p n).
Proof.
  induction n as [n IH] using node_ind'. rewrite prune_eq. apply fewer_kids; [|intros ->; reflexivity]. unfold pruneAll. induction (n_kids n) as [|c l IHl]; [split; reflexivity|].
  inversion IH; subst. cbn [flat_map]. destruct (p c); cbn [app]; [apply fewerOf_drop|apply fewerOf_cons]; auto.
Qed.
Lemma pruneAll_fewer p l : fewerOf l (pruneAll p l).
Proof. unfold pruneAll. induction l as [|c l IHl]; [split; reflexivity|]. cbn [flat_map]. destruct (p c); cbn [app]; [apply fewerOf_drop|apply fewerOf_cons; [apply prune_fewer|]]; auto. Qed.
Lemma merged_fewer_mut :
  (forall n m, mergedNode n m -> fewer n m) /\ (forall l l', mergedEach l l' -> fewerOf l l') /\ (forall l l', merged l l' -> fewerOf l l').
Proof.
  apply merged_mut.
  - intros; apply fewer_refl.
  - intros n ks N _ _ IH. apply fewer_sticky. apply fewer_kids; [exact IH|congruence].
  - intros n ks N _ _ IH. apply fewer_kids; [exact IH|congruence].
  - split; reflexivity.
  - intros. apply fewerOf_cons; [now apply fewer_sticky|auto].
  - split; reflexivity.
  - intros. now apply fewerOf_cons.
  - intros s run l l' _ _ _ _ IH. apply fewerOf_cons; [now apply fewer_leaf|]. induction run as [|c run IHr]; [exact IH|]. now apply fewerOf_drop.
Qed.
Lemma splice_fewer l : fewerOf l (splice l).
Proof.
  unfold splice. induction l as [|c l IH]; [split; reflexivity|]. cbn [flat_map]. destruct (_ && _); [now apply fewerOf_drop|]. destruct (_ && nonempty (n_kids c)) eqn:E.
  - apply andb_prop in E as [_ E]. unfold fewerOf in *. rewrite !total_app, !total_cons, (countNodes_eq c), (countTokens_eq c). destruct (n_kids c); [discriminate|]. lia.
  - cbn [app]. apply fewerOf_cons; [apply fewer_refl|exact IH].
Qed.
Lemma removeRedundant_fewer n : fewer n (removeRedundant n).
Proof.
  induction n as [n IH] using node_ind'. rewrite rr_eq. destruct (n_kids n) as [|k ks] eqn:EK; [apply fewer_refl|]. rewrite <- EK in *. assert (N : n_kids n <> []) by congruence. clear EK. cbv zeta.
  set (n0 := set_kids n (List.map removeRedundant (n_kids n))).
  assert (S0 : fewer n n0).
  { apply fewer_kids; [|congruence]. clear - IH. induction (n_kids n) as [|c l IHl]; [split; reflexivity|]. inversion IH; subst. cbn [List.map]. apply fewerOf_cons; auto. }
  eapply fewer_trans; [exact S0|]. clearbody n0. clear.
  assert (S1 : fewer n0 (promote1 n0)).
  { unfold promote1. destruct (n_kids n0) as [|only [|? ?]] eqn:E; try apply fewer_refl. destruct (nonempty (n_name only)); [apply fewer_refl|].
    destruct (nonempty (n_chars only)); [now apply fewer_leaf|]. unfold fewer. rewrite (countNodes_eq n0), (countTokens_eq n0), E, !total_cons. cbn [total List.map fold_right].
    rewrite (countNodes_eq only), (countTokens_eq only), countNodes_eq, countTokens_eq. cbn [n_kids set_kids]. destruct (n_kids only); cbn; lia. }
  eapply fewer_trans; [exact S1|]. generalize (promote1 n0) as n1. clear. intros n1.
  eapply fewer_trans; [apply (fewer_kids n1 (splice (n_kids n1))); [apply splice_fewer|intros ->; reflexivity]|].
  generalize (set_kids n1 (splice (n_kids n1))) as n2. clear. intros n2. unfold promote2.
  destruct (n_kids n2) as [|only [|? ?]] eqn:E; try apply fewer_refl. destruct (_ && _); [now apply fewer_leaf|apply fewer_refl].
Qed.

(* ---------------- ASTs ---------------- *)

Lemma prune_proper p n : proper n -> proper (prune p n).
Proof.
  induction n as [n IH] using node_ind'. intros P. apply proper_kids in P as [L F]. rewrite prune_eq. apply proper_intro.
  - destruct L as [L|L]; [left; exact L|right]. cbn [n_kids set_kids]. now rewrite L.
  - cbn [n_kids set_kids]. rewrite Forall_forall in *. intros c Hc. apply pruneAll_in in Hc as (x & Hx & _ & ->). apply IH; auto.
Qed.
Lemma pruneAll_proper p l : Forall proper l -> Forall proper (pruneAll p l).
Proof. rewrite !Forall_forall. intros H c Hc. apply pruneAll_in in Hc as (x & Hx & _ & ->). apply prune_proper. auto. Qed.
Lemma sticky_proper n b : proper n -> proper (set_sticky n b).
Proof. intros P. apply proper_kids in P as [L F]. apply proper_intro; destruct n; assumption. Qed.
Lemma merged_proper_mut :
  (forall n m, mergedNode n m -> proper n -> proper m) /\ (forall l l', mergedEach l l' -> Forall proper l -> Forall proper l') /\
  (forall l l', merged l l' -> Forall proper l -> Forall proper l').
Proof.
  apply merged_mut.
  - auto.
  - intros n ks N _ _ IH P. apply sticky_proper. apply proper_kids in P as [L F]. apply proper_intro; [|auto]. destruct L; [now left|congruence].
  - intros n ks N _ _ IH P. apply proper_kids in P as [L F]. apply proper_intro; [|auto]. destruct L; [now left|congruence].
  - constructor.
  - intros c m l l' _ IH1 _ IH2 F. inversion F; subst. constructor; [apply sticky_proper|]; auto.
  - constructor.
  - intros c m l l' _ _ IH1 _ IH2 F. inversion F; subst. constructor; auto.
  - intros s run l l' _ _ _ _ IH F. inversion F as [|? ? _ F']; subst. apply Forall_app in F' as [_ F']. constructor; [|auto]. apply proper_intro; [now right|constructor].
Qed.
Lemma astMerge_proper a : Forall proper a -> Forall proper (astMerge a).
Proof. apply merged_proper_mut, astMerge_merged. Qed.
Lemma astRedundant_pieces a : Forall proper a -> piecesOf everything (astRemoveRedundant a) = piecesOf everything a.
Proof.
  induction a as [|c a IH]; intros F; [reflexivity|]. inversion F as [|? ? P F']; subst. cbn [astRemoveRedundant List.map]. rewrite !piecesOf_cons. cbn [everything].
  fold (astRemoveRedundant a). rewrite IH by exact F'. destruct (n_nondata c); [reflexivity|]. pose proof (removeRedundant_step c P) as (_ & _ & E & _). now rewrite E.
Qed.
Lemma astRedundant_fewer a : fewerOf a (astRemoveRedundant a).
Proof.
  unfold astRemoveRedundant. induction a as [|c a IH]; [split; reflexivity|]. cbn [List.map]. apply fewerOf_cons; [|exact IH]. destruct (n_nondata c); [apply fewer_refl|apply removeRedundant_fewer].
Qed.
Lemma astRedundant_idem a : astRemoveRedundant (astRemoveRedundant a) = astRemoveRedundant a.
Proof.
  unfold astRemoveRedundant. rewrite map_map. apply map_ext. intros c. destruct (n_nondata c) eqn:E; [now rewrite E|].
  pose proof (proj1 (removeRedundant_less c)) as I. assert (D : n_nondata (removeRedundant c) = n_nondata c) by (unfold ident_of in I; congruence).
  rewrite D, E. apply removeRedundant_idem.
Qed.

(** What each simplification level shows. *)
Lemma pieces_or p q n : (forall m, q (prune p m) = q m) -> pieces q (prune p n) = pieces (fun m => p m || q m) n.
Proof.
  intros Q. induction n as [n IH] using node_ind'. rewrite prune_eq, !pieces_eq. cbn [n_chars n_kids set_kids]. destruct (n_chars n); [|reflexivity].
  unfold piecesOf, pruneAll. induction (n_kids n) as [|c l IHl]; [reflexivity|]. inversion IH as [|? ? Hc Hl]; subst. cbn [flat_map]. rewrite flat_map_app, (IHl Hl).
  destruct (p c); cbn [flat_map app orb]; [reflexivity|]. rewrite Q, app_nil_r, Hc. reflexivity.
Qed.
Lemma piecesOf_or p q l : (forall m, q (prune p m) = q m) -> piecesOf q (pruneAll p l) = piecesOf (fun m => p m || q m) l.
Proof.
  intros Q. unfold piecesOf, pruneAll. induction l as [|c l IHl]; [reflexivity|]. cbn [flat_map]. rewrite flat_map_app, IHl.
  destruct (p c); cbn [flat_map app orb]; [reflexivity|]. rewrite Q, app_nil_r, (pieces_or p q c Q). reflexivity.
Qed.

(** Merging works on the parts between nodes that do not stick to each other. *)
Definition endsLoose (l : list node) : Prop := forall m, l <> [] -> n_sticky (last l m) = false.
Lemma runOf_all l r : Forall (fun c => n_sticky c = true) l -> runOf (l ++ r) = l ++ runOf r /\ afterRun (l ++ r) = afterRun r.
Proof. induction 1 as [|c l S F [A B]]; [auto|]. cbn [app runOf afterRun]. rewrite S, A, B. auto. Qed.
Lemma runOf_some l r : afterRun l <> [] -> runOf (l ++ r) = runOf l /\ afterRun (l ++ r) = afterRun l ++ r.
Proof.
  induction l as [|c l IH]; intros H; [now destruct H|]. cbn [app runOf afterRun] in *. destruct (n_sticky c); [|auto]. destruct (IH H) as [A B]. now rewrite A, B.
Qed.
Lemma afterRun_nil l : afterRun l = [] -> Forall (fun c => n_sticky c = true) l /\ runOf l = l.
Proof.
  intros E. pose proof (run_split l) as S. rewrite E, app_nil_r in S. split; [rewrite S; apply run_sticky|now symmetry].
Qed.
Lemma mergeNodes_split : forall k pre l, (length pre <= k)%nat -> endsLoose pre \/ startsLoose l -> mergeNodes (pre ++ l) = mergeNodes pre ++ mergeNodes l.
Proof.
  induction k as [|k IH]; intros pre l L H; destruct pre as [|c pre]; try reflexivity; [cbn in L; lia|]. cbn in L. destruct (n_sticky c) eqn:E; cbn [app].
  - rewrite (mergeNodes_run c pre E), (mergeNodes_run c (pre ++ l) E). destruct (afterRun pre) as [|x r] eqn:EA.
    + destruct (afterRun_nil pre EA) as [F R]. destruct (runOf_all pre l F) as [A B]. destruct H as [H|H].
      * exfalso. assert (N : c :: pre <> []) by congruence. specialize (H c N). assert (X : n_sticky (last (c :: pre) c) = true).
        { assert (I : In (last (c :: pre) c) (c :: pre)).
          { destruct (exists_last N) as (y & z & ->). rewrite last_last. apply in_or_app. right. now left. }
          destruct I as [I|I]; [now rewrite <- I|]. rewrite Forall_forall in F. exact (F _ I). }
        congruence.
      * assert (R0 : runOf l = [] /\ afterRun l = l) by (destruct l as [|y l]; [auto|cbn in *; now rewrite H]). destruct R0 as [R0 R1].
        rewrite A, B, R0, R1, app_nil_r, R. reflexivity.
    + destruct (runOf_some pre l ltac:(congruence)) as [A B]. rewrite A, B, EA. cbn [app]. f_equal. change (x :: r ++ l) with ((x :: r) ++ l).
      apply IH; [pose proof (after_len pre) as Z; rewrite EA in Z; lia|]. destruct H as [H|H]; [left|now right]. intros m N. rewrite <- (H m ltac:(congruence)).
      pose proof (run_split pre) as S. rewrite EA in S. rewrite S. f_equal. destruct (exists_last N) as (y & z & ->).
      change (c :: runOf pre ++ y ++ [z]) with ((c :: runOf pre) ++ y ++ [z]). now rewrite app_assoc, !last_last.
  - rewrite (mergeNodes_keep c pre E), (mergeNodes_keep c (pre ++ l) E). cbn [app]. f_equal. apply IH; [lia|]. destruct H as [H|H]; [left|now right].
    intros m N. rewrite <- (H m ltac:(congruence)). destruct pre; [congruence|reflexivity].
Qed.

(** Trees made by evaluation. *)
Lemma derives_proper g r n : derives g r n -> proper n.
Proof.
  intros D. induction D using derives_ind'; try (apply proper_intro; [now right|constructor]);
    try (apply proper_intro; [now left|constructor; [assumption|constructor]]).
  - apply proper_kids in IHD as [L F]. apply proper_intro; destruct nd; [exact L|exact F].
  - apply proper_intro; [now left|]. apply Forall_forall. assumption.
  - apply proper_intro; [now left|]. cbn [n_kids build]. match goal with H : Forall2 (fun r n => proper n) _ _ |- _ => revert H end. clear. induction 1; constructor; assumption.
  - apply proper_intro; [now right|constructor].
  - destruct v; [constructor|]. constructor; [assumption|constructor].
Qed.

(* ---------------- the statements of PropsNode.v ---------------- *)

Lemma removeVirtual_spec n :
  (forall d, outline everything d (removeVirtual n) = outline n_virtual d n) /\
  (forall m, below m (removeVirtual n) -> n_virtual m = false) /\ removeVirtual (removeVirtual n) = removeVirtual n.
Proof.
  split; [intros; apply prune_outline|]. split; [apply prune_none|apply prune_idem]; apply prune_virtual.
Qed.
Lemma astRemoveVirtual_spec a :
  flat_map (outline everything 0) (astRemoveVirtual a) = flat_map (fun c => if n_virtual c then [] else outline n_virtual 0 c) a /\
  (forall m, inside m (astRemoveVirtual a) -> n_virtual m = false) /\ astRemoveVirtual (astRemoveVirtual a) = astRemoveVirtual a.
Proof.
  split; [apply pruneAll_outline|]. split; [intros m; apply pruneAll_none|apply pruneAll_idem]; apply prune_virtual.
Qed.
Lemma removeNonData_spec n :
  (forall d, outline everything d (removeNonData n) = outline n_nondata d n) /\
  (forall m, below m (removeNonData n) -> n_nondata m = false) /\ removeNonData (removeNonData n) = removeNonData n.
Proof.
  split; [intros; apply prune_outline|]. split; [apply prune_none|apply prune_idem]; apply prune_nondata.
Qed.
Lemma astRemoveNonData_spec a :
  flat_map (outline everything 0) (astRemoveNonData a) = flat_map (fun c => if n_nondata c then [] else outline n_nondata 0 c) a /\
  (forall m, inside m (astRemoveNonData a) -> n_nondata m = false) /\ astRemoveNonData (astRemoveNonData a) = astRemoveNonData a.
Proof.
  split; [apply pruneAll_outline|]. split; [intros m; apply pruneAll_none|apply pruneAll_idem]; apply prune_nondata.
Qed.
Lemma removals_commute n : removeVirtual (removeNonData n) = removeNonData (removeVirtual n).
Proof. apply (prune_commute n_virtual n_nondata); [apply prune_nondata|apply prune_virtual]. Qed.
Lemma ast_removals_commute a : astRemoveVirtual (astRemoveNonData a) = astRemoveNonData (astRemoveVirtual a).
Proof. apply (pruneAll_commute n_virtual n_nondata); [apply prune_nondata|apply prune_virtual]. Qed.

Lemma astMerge_split pre l : endsLoose pre \/ startsLoose l -> astMerge (pre ++ l) = astMerge pre ++ astMerge l.
Proof. apply (mergeNodes_split (length pre)). apply le_n. Qed.

Lemma removeRedundant_spec n : proper n ->
  (forall m, sub m (removeRedundant n) -> lean m) /\ ident_of (removeRedundant n) = ident_of n /\
  pieces everything (removeRedundant n) = pieces everything n /\ ink (text (removeRedundant n)) = ink (text n) /\
  shown (removeRedundant n) = shown n /\
  subseq (List.map ident_of (namedNodes (removeRedundant n))) (List.map ident_of (namedNodes n)) /\
  removeRedundant (removeRedundant n) = removeRedundant n.
Proof.
  intros P. pose proof (removeRedundant_step n P) as S. split; [exact (removeRedundant_lean n)|].
  split; [apply S|]. split; [apply S|]. split; [rewrite !text_ink; f_equal; f_equal; apply S|]. split; [now apply step_shown|].
  split; [apply less_idents, removeRedundant_less|apply removeRedundant_idem].
Qed.
Lemma filter_length {A} (f : A -> bool) l : (length (List.filter f l) <= length l)%nat.
Proof. induction l as [|x l IH]; cbn; [lia|]. destruct (f x); cbn; lia. Qed.
Lemma removeRedundant_named n : proper n -> (forall m, In m (namedNodes n) -> text m <> []) ->
  List.map ident_of (namedNodes (removeRedundant n)) = List.map ident_of (namedNodes n).
Proof.
  intros P H.
  assert (A : forall m, List.map fst (shown m) = List.map ident_of (List.filter (fun x => nonempty (text x)) (namedNodes m))).
  { intros m. unfold shown. now rewrite map_map. }
  assert (B : List.filter (fun x => nonempty (text x)) (namedNodes n) = namedNodes n).
  { clear P. induction (namedNodes n) as [|x l IH]; [reflexivity|]. cbn [List.filter].
    assert (N : nonempty (text x) = true) by (apply nonempty_true, H; now left). rewrite N. f_equal. apply IH. intros; apply H; now right. }
  pose proof (A n) as An. rewrite B in An. pose proof (A (removeRedundant n)) as Ar. rewrite (step_shown _ _ (removeRedundant_step n P)), An in Ar.
  assert (L : (length (List.map ident_of (namedNodes (removeRedundant n))) <= length (List.map ident_of (namedNodes n)))%nat).
  { pose proof (less_idents _ _ (removeRedundant_less n)) as S. unfold idents in S. revert S. generalize (List.map ident_of (namedNodes (removeRedundant n))), (List.map ident_of (namedNodes n)).
    intros l l' S. induction S; cbn; lia. }
  rewrite Ar in *. clear - L. rewrite !map_length in L. assert (E : List.filter (fun x => nonempty (text x)) (namedNodes (removeRedundant n)) = namedNodes (removeRedundant n)).
  { revert L. generalize (namedNodes (removeRedundant n)). intros l. induction l as [|x l IH]; [reflexivity|]. cbn [List.filter]. destruct (nonempty (text x)).
    - cbn [length]. intros L. f_equal. apply IH. lia.
    - intros L. exfalso. pose proof (filter_length (fun x => nonempty (text x)) l). cbn [length] in L. lia. }
  now rewrite E.
Qed.
Lemma astRedundant_spec a : Forall proper a ->
  (forall n, In n (astRemoveRedundant a) -> n_nondata n = false -> forall m, sub m n -> lean m) /\
  ink (astText (astRemoveRedundant a)) = ink (astText a) /\
  flat_map shown (astRemoveRedundant a) = flat_map shown a /\
  astRemoveRedundant (astRemoveRedundant a) = astRemoveRedundant a.
Proof.
  intros F. split; [|split; [|split; [|apply astRedundant_idem]]].
  - intros n H D m. unfold astRemoveRedundant in H. apply in_map_iff in H as (c & <- & Hc). destruct (n_nondata c) eqn:E; [congruence|]. apply removeRedundant_lean.
  - rewrite !astText_ink. now rewrite astRedundant_pieces.
  - induction F as [|c a P F IH]; [reflexivity|]. cbn [astRemoveRedundant List.map flat_map]. fold (astRemoveRedundant a). rewrite IH. f_equal.
    destruct (n_nondata c); [reflexivity|]. apply step_shown. now apply removeRedundant_step.
Qed.

Lemma simplify_ink level a : 0 <= level -> Forall proper a -> clear (dropsAt level) a -> ink (astText (simplify level a)) = inkOf (dropsAt level) a.
Proof.
  intros L F C. rewrite <- (astMerge_inkOf (dropsAt level) (fun _ _ _ _ => eq_refl) a C). unfold simplify, dropsAt in *. destruct (level =? -1) eqn:E; [lia|]. rewrite astText_ink. unfold inkOf.
  destruct (level =? 2); [|destruct (level =? 1)].
  - rewrite astRedundant_pieces by (apply pruneAll_proper, pruneAll_proper, astMerge_proper; exact F). do 2 f_equal.
    unfold astRemoveNonData, astRemoveVirtual. change (fun c => if n_nondata c then [] else [removeNonData c]) with (fun c => if n_nondata c then [] else [prune n_nondata c]).
    change (flat_map (fun c => if n_nondata c then [] else [prune n_nondata c]) ?l) with (pruneAll n_nondata l).
    change (flat_map (fun c => if n_virtual c then [] else [removeVirtual c]) ?l) with (pruneAll n_virtual l).
    rewrite pruneAll_pieces. apply (piecesOf_or n_virtual n_nondata). apply prune_nondata.
  - rewrite astRedundant_pieces by (apply pruneAll_proper, astMerge_proper; exact F). do 2 f_equal. apply pruneAll_pieces.
  - rewrite astRedundant_pieces by (apply astMerge_proper; exact F). reflexivity.
Qed.
Lemma steps_shrink a :
  (astCountNodes (astMerge a) <= astCountNodes a /\ astCountTokens (astMerge a) <= astCountTokens a)%nat /\
  (astCountNodes (astRemoveVirtual a) <= astCountNodes a /\ astCountTokens (astRemoveVirtual a) <= astCountTokens a)%nat /\
  (astCountNodes (astRemoveNonData a) <= astCountNodes a /\ astCountTokens (astRemoveNonData a) <= astCountTokens a)%nat /\
  (astCountNodes (astRemoveRedundant a) <= astCountNodes a /\ astCountTokens (astRemoveRedundant a) <= astCountTokens a)%nat.
Proof.
  split; [exact (proj2 (proj2 merged_fewer_mut) _ _ (astMerge_merged a))|]. split; [exact (pruneAll_fewer n_virtual a)|]. split; [exact (pruneAll_fewer n_nondata a)|exact (astRedundant_fewer a)].
Qed.
Lemma simplify_shrinks level a : (astCountNodes (simplify level a) <= astCountNodes a /\ astCountTokens (simplify level a) <= astCountTokens a)%nat.
Proof.
  unfold simplify. destruct (level =? -1); [split; reflexivity|].
  pose proof (steps_shrink a) as (M & _). pose proof (steps_shrink (astMerge a)) as (_ & V & _ & R0). pose proof (steps_shrink (astRemoveVirtual (astMerge a))) as (_ & _ & N & R1).
  pose proof (steps_shrink (astRemoveNonData (astRemoveVirtual (astMerge a)))) as (_ & _ & _ & R2). destruct (level =? 2); [|destruct (level =? 1)]; lia.
Qed.
Lemma astSticky_none a : loose a -> astCountSticky a = 0%nat.
Proof.
  intros H. unfold astCountSticky. change (total countSticky a = 0%nat). induction a as [|c a IH]; [reflexivity|]. rewrite total_cons, IH by (intros m Hm; apply H, inside_cons; now right).
  assert (K : forall m, sub m c -> n_sticky m = false) by (intros m Hm; apply H, inside_cons; now left). clear - K. induction c as [c IH] using node_ind'.
  assert (E : countSticky c = ((if n_sticky c then 1 else 0) + total countSticky (n_kids c))%nat) by (now destruct c). rewrite (K c (sub_here c)) in E.
  assert (T : total countSticky (n_kids c) = 0%nat).
  { assert (Q : forall x, In x (n_kids c) -> countSticky x = 0%nat) by (intros x Hx; rewrite Forall_forall in IH; rewrite <- (IH x Hx); [lia|intros m Hm; apply K; econstructor; eauto]).
    clear - Q. induction (n_kids c) as [|x l IHl]; [reflexivity|]. rewrite total_cons, (Q x (or_introl eq_refl)), IHl; [reflexivity|]. intros; apply Q; now right. }
  lia.
Qed.
Lemma astMerge_spec a : merged a (astMerge a) /\ loose (astMerge a) /\ astCountSticky (astMerge a) = 0%nat /\ astMerge (astMerge a) = astMerge a.
Proof. split; [apply astMerge_merged|]. split; [apply astMerge_loose|]. split; [apply astSticky_none, astMerge_loose|apply astMerge_idem]. Qed.

(** [merged] determines its result: it is a full description. *)
Lemma run_unique run1 run2 (l1 l2 : list node) : Forall (fun c => n_sticky c = true) run1 -> Forall (fun c => n_sticky c = true) run2 ->
  startsLoose l1 -> startsLoose l2 -> run1 ++ l1 = run2 ++ l2 -> run1 = run2 /\ l1 = l2.
Proof.
  intros F1. revert run2. induction F1 as [|c r S F IH]; intros run2 F2 L1 L2 E; destruct run2 as [|d r2]; cbn [app] in E.
  - auto.
  - subst. cbn in L1. inversion F2. congruence.
  - subst. cbn in L2. congruence.
  - injection E as -> E. inversion F2; subst. destruct (IH r2) as [-> ->]; auto.
Qed.
Lemma merged_det_mut :
  (forall n m, mergedNode n m -> forall m', mergedNode n m' -> m' = m) /\
  (forall l k, mergedEach l k -> forall k', mergedEach l k' -> k' = k) /\
  (forall l k, merged l k -> forall k', merged l k' -> k' = k).
Proof.
  apply merged_mut.
  - intros n E m' M. inversion M; subst; congruence.
  - intros n ks N T _ IH m' M. inversion M; subst; try congruence. now rewrite (IH ks0).
  - intros n ks N T _ IH m' M. inversion M; subst; try congruence. now rewrite (IH ks0).
  - intros k' M. now inversion M.
  - intros c m l l' _ IH1 _ IH2 k' M. inversion M as [|? m' ? k'' M1 M2]; subst. now rewrite (IH1 m'), (IH2 k'').
  - intros k' M. now inversion M.
  - intros c m l l' S _ IH1 _ IH2 k' M. inversion M as [|? m' ? k'' S' M1 M2|s run l0 k'' S' R L M1]; subst; [|congruence]. now rewrite (IH1 m'), (IH2 k'').
  - intros s run l l' S R L _ IH k' M. remember (s :: run ++ l) as src eqn:E. destruct M as [|? m' ? k'' S' M1 M2|s1 run1 l1 k'' S' R' L' M1]; [discriminate|injection E as -> _; congruence|].
    injection E as -> E. destruct (run_unique _ _ _ _ R' R L' L E) as [-> ->]. now rewrite (IH k'').
Qed.
