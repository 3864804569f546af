(** The evaluator on slices shows what the evaluator on lists computes. *)
From Verif Require Import Base Stream Node Rule Grammar Slices.

(** How far each array is visible: nobody changes cells below that. *)
Definition seen (F : list nat) (a : nat) : nat := nth a F 0%nat.

Definition sameS (F : list nat) (h : heap) (s : slice) (l : list Z) : Prop :=
  cells h s = l /\ length l = sl_len s /\ (sl_len s = 0 \/ sl_off s + sl_len s <= seen F (sl_arr s))%nat.

(** From [h] to [h'] arrays before [n0] have not changed, others not where they are visible. *)
Definition step (n0 : nat) (h : heap) (F : list nat) (h' : heap) (F' : list nat) : Prop :=
  length F = length h /\ length F' = length h' /\ (length h <= length h')%nat /\
  (forall a, (a < n0)%nat -> array h' a = array h a /\ seen F' a = seen F a) /\
  (forall a, (seen F a <= seen F' a)%nat /\ firstn (seen F a) (array h' a) = firstn (seen F a) (array h a)).

Lemma step_refl n h F : length F = length h -> step n h F h F.
Proof. intros L. repeat split; auto. Qed.
Lemma step_trans n h F h1 F1 h2 F2 : step n h F h1 F1 -> step n h1 F1 h2 F2 -> step n h F h2 F2.
Proof.
  intros (A1 & A2 & A3 & A4 & A5) (B1 & B2 & B3 & B4 & B5). repeat split; auto; try lia.
  - destruct (A4 a H), (B4 a H). congruence.
  - destruct (A4 a H), (B4 a H). congruence.
  - destruct (A5 a), (B5 a). lia.
  - destruct (A5 a) as [U1 U2], (B5 a) as [V1 V2]. rewrite <- U2. rewrite <- (Nat.min_l (seen F a) (seen F1 a)) by lia. rewrite <- !firstn_firstn. now rewrite V2.
Qed.
Lemma step_weak n m h F h' F' : (n <= m)%nat -> step m h F h' F' -> step n h F h' F'.
Proof. intros L (A1 & A2 & A3 & A4 & A5). repeat split; auto; try (apply A4; lia); apply A5. Qed.

Lemma cells_nil h s : sl_len s = 0%nat -> cells h s = [].
Proof. intros E. unfold cells. now rewrite E. Qed.
Lemma sameS_step n h F h' F' s l : step n h F h' F' -> sameS F h s l -> sameS F' h' s l.
Proof.
  intros (_ & _ & _ & _ & S) (C & L & V). split; [|split; auto].
  - destruct V as [V|V]; [rewrite cells_nil in * by auto; auto|]. rewrite <- C. unfold cells. rewrite !firstn_skipn_comm. f_equal.
    destruct (S (sl_arr s)) as [_ E]. rewrite <- (Nat.min_l (sl_off s + sl_len s) (seen F (sl_arr s))) by auto. rewrite <- !firstn_firstn. now rewrite E.
  - destruct V as [V|V]; auto. right. destruct (S (sl_arr s)). lia.
Qed.
Lemma sameS_nil F h : sameS F h nilS [].
Proof. repeat split; auto. Qed.

(** A slice that only the function at work knows. *)
Definition own (n0 : nat) (F : list nat) (h : heap) (s : slice) (l : list Z) : Prop :=
  cells h s = l /\ length l = sl_len s /\
  (sl_cap s = 0%nat /\ sl_len s = 0%nat \/
   (n0 <= sl_arr s < length h /\ seen F (sl_arr s) = 0 /\ sl_off s = 0 /\ sl_len s <= sl_cap s <= length (array h (sl_arr s)))%nat).
Definition apartS (s t : slice) : Prop := sl_cap s = 0%nat \/ sl_cap t = 0%nat \/ sl_arr s <> sl_arr t.
Lemma own_nil n F h : own n F h nilS [].
Proof. repeat split; auto. Qed.
Lemma own_call n h F h' F' s l : step (length h) h F h' F' -> own n F h s l -> own n F' h' s l.
Proof.
  intros (_ & _ & L & S & _) (C & E & D). destruct D as [D|(D1 & D2 & D3 & D4)].
  - split; [|split; auto]. rewrite cells_nil in * by (apply D); auto.
  - destruct (S (sl_arr s)) as [S1 S2]; [lia|]. split; [|split; auto]. { unfold cells. rewrite S1. exact C. }
    right. rewrite S1, S2. repeat split; auto; lia.
Qed.

Definition setNth {A} (l : list A) (i : nat) (x : A) : list A := firstn i l ++ x :: skipn (S i) l.
Lemma setNth_length {A} (l : list A) i x : (i < length l)%nat -> length (setNth l i x) = length l.
Proof. intros L. unfold setNth. rewrite app_length. cbn [length]. rewrite firstn_length, skipn_length. lia. Qed.
Lemma setNth_same {A} (l : list A) i x d : (i < length l)%nat -> nth i (setNth l i x) d = x.
Proof. intros L. unfold setNth. rewrite app_nth2; rewrite firstn_length; [|lia]. replace (i - Nat.min i (length l))%nat with 0%nat by lia. reflexivity. Qed.
Lemma setNth_other {A} (l : list A) i x d a : (i < length l)%nat -> a <> i -> nth a (setNth l i x) d = nth a l d.
Proof.
  intros L N. unfold setNth. rewrite <- (firstn_skipn i l) at 3. destruct (Nat.lt_ge_cases a i).
  - rewrite !app_nth1; auto; rewrite firstn_length; lia.
  - rewrite !app_nth2; rewrite firstn_length; try lia. replace (Nat.min i (length l)) with i by lia.
    replace (skipn i l) with (nth i l d :: skipn (S i) l); [|symmetry; clear N H a; revert l L; induction i as [|i IH]; intros [|y l] L; cbn [length] in L; try lia; [reflexivity|cbn [skipn nth]; apply IH; lia]].
    destruct (a - i)%nat eqn:E; [lia|]. reflexivity.
Qed.
Lemma seen_app F x a : seen (F ++ [x]) a = if (a =? length F)%nat then x else seen F a.
Proof.
  unfold seen. destruct (Nat.eqb_spec a (length F)) as [->|N]; [rewrite app_nth2, Nat.sub_diag by lia; reflexivity|].
  destruct (Nat.lt_ge_cases a (length F)); [now rewrite app_nth1|]. rewrite !nth_overflow; auto; try lia. rewrite app_length. cbn. lia.
Qed.
Lemma array_app h x a : array (h ++ [x]) a = if (a =? length h)%nat then x else array h a.
Proof.
  unfold array. destruct (Nat.eqb_spec a (length h)) as [->|N]; [rewrite app_nth2, Nat.sub_diag by lia; reflexivity|].
  destruct (Nat.lt_ge_cases a (length h)); [now rewrite app_nth1|]. rewrite !nth_overflow; auto; try lia. rewrite app_length. cbn. lia.
Qed.

(** Others may look at it now. *)
Lemma publish n h F s l : length F = length h -> own n F h s l ->
  exists F', step n h F h F' /\ sameS F' h s l /\ forall t m, apartS s t -> own n F h t m -> own n F' h t m.
Proof.
  intros L (C & E & D). destruct D as [D|(D1 & D2 & D3 & D4)].
  { exists F. split; [now apply step_refl|]. split; [|auto]. split; auto. split; auto. left. apply D. }
  assert (LT : (sl_arr s < length F)%nat) by lia.
  exists (setNth F (sl_arr s) (sl_len s)). split; [|split].
  - split; [exact L|]. split; [now rewrite setNth_length|]. split; [lia|]. split.
    + intros a A. split; auto. unfold seen. rewrite setNth_other; auto; lia.
    + intros a. split; [|reflexivity]. unfold seen. destruct (Nat.eq_dec a (sl_arr s)) as [->|N]; [rewrite setNth_same by auto; unfold seen in D2; lia|]. now rewrite setNth_other.
  - split; auto. split; auto. right. unfold seen. rewrite setNth_same by auto. lia.
  - intros t m [A|[A|A]] (C' & E' & D'); (split; [auto|split; [auto|]]); destruct D' as [D'|(D1' & D2' & D3' & D4')]; auto; try lia.
    + right. repeat split; try lia. unfold seen. destruct (Nat.eq_dec (sl_arr t) (sl_arr s)) as [Q|Q]; [rewrite Q, setNth_same; lia|now rewrite setNth_other].
    + right. repeat split; try lia. unfold seen. rewrite setNth_other; auto.
Qed.

Section Refine.
Variable grow : heap -> slice -> list Z -> nat.

Definition refines {A B} (n0 : nat) (h : heap) (F : list nat) (m : prog A) (o : outcome B) (R : heap -> list nat -> A -> B -> Prop) : Prop :=
  match m h, o with
  | Ok (a, h'), Ok b => exists F', step n0 h F h' F' /\ R h' F' a b
  | Panic, Panic => True
  | OutOfFuel, OutOfFuel => True
  | _, _ => False
  end.
Lemma ref_bind {A B C D} n h F (m : prog A) (k : A -> prog C) (o : outcome B) (j : B -> outcome D) R Q :
  refines n h F m o R -> (forall h' F' a b, step n h F h' F' -> R h' F' a b -> refines n h' F' (k a) (j b) Q) ->
  refines n h F (pbind m k) (bind o j) Q.
Proof.
  unfold refines, pbind. intros H K. destruct (m h) as [[a h']| |], o as [b| |]; cbn [bind]; try contradiction; auto.
  destruct H as (F' & S & X). specialize (K h' F' a b S X). destruct (k a h') as [[c h2]| |], (j b); auto. destruct K as (F2 & S2 & Y). exists F2. split; auto. eapply step_trans; eauto.
Qed.
Lemma ref_pure {A B C D} n h F (m : prog A) (k : A -> prog C) (b : B) (o : outcome D) R Q :
  refines n h F m (Ok b) R -> (forall h' F' a, step n h F h' F' -> R h' F' a b -> refines n h' F' (k a) o Q) ->
  refines n h F (pbind m k) o Q.
Proof.
  unfold refines, pbind. intros H K. destruct (m h) as [[a h']| |]; cbn [bind]; try contradiction.
  destruct H as (F' & S & X). specialize (K h' F' a S X). destruct (k a h') as [[c h2]| |], o; auto. destruct K as (F2 & S2 & Y). exists F2. split; auto. eapply step_trans; eauto.
Qed.
Lemma ref_look {A C D} n h F (f : heap -> A) (k : A -> prog C) (o : outcome D) Q :
  refines n h F (k (f h)) o Q -> refines n h F (pbind (look f) k) o Q.
Proof. exact (fun H => H). Qed.
Lemma ref_ret {A B} n h F F' (a : A) (b : B) (R : heap -> list nat -> A -> B -> Prop) : step n h F h F' -> R h F' a b -> refines n h F (ret a) (Ok b) R.
Proof. intros S X. cbn. eauto. Qed.
Lemma ref_weak {A B} n m h F (p : prog A) (o : outcome B) (R Q : heap -> list nat -> A -> B -> Prop) : (n <= m)%nat -> refines m h F p o R ->
  (forall h' F' a b, step m h F h' F' -> R h' F' a b -> Q h' F' a b) -> refines n h F p o Q.
Proof.
  unfold refines. intros L H K. destruct (p h) as [[a h']| |], o; auto. destruct H as (F' & S & X). exists F'. split; [eapply step_weak; eauto|auto].
Qed.
Lemma ref_other {A B C} n m h F (p : prog A) (b : B) (c : C) (R : heap -> list nat -> A -> B -> Prop) (Q : heap -> list nat -> A -> C -> Prop) :
  (n <= m)%nat -> refines m h F p (Ok b) R -> (forall h' F' a, step m h F h' F' -> R h' F' a b -> Q h' F' a c) -> refines n h F p (Ok c) Q.
Proof.
  unfold refines. intros L H K. destruct (p h) as [[a h']| |]; auto. destruct H as (F' & S & X). exists F'. split; [eapply step_weak; eauto|auto].
Qed.
(** A call in the middle of a function: the slices of the function stay as they are. *)
Lemma ref_call {A B C D} n h F (m : prog A) (k : A -> prog C) (o : outcome B) (j : B -> outcome D) R Q :
  (n <= length h)%nat -> refines (length h) h F m o R -> (forall h' F' a b, step (length h) h F h' F' -> R h' F' a b -> refines n h' F' (k a) (j b) Q) ->
  refines n h F (pbind m k) (bind o j) Q.
Proof.
  intros L H K. apply ref_bind with (R := fun h' F' a b => step (length h) h F h' F' /\ R h' F' a b).
  - eapply ref_weak; [exact L|exact H|]. intros; split; auto.
  - intros h' F' a b _ [S X]. auto.
Qed.
Lemma ref_callp {A B C D} n h F (m : prog A) (k : A -> prog C) (b : B) (o : outcome D) R Q :
  (n <= length h)%nat -> refines (length h) h F m (Ok b) R -> (forall h' F' a, step (length h) h F h' F' -> R h' F' a b -> refines n h' F' (k a) o Q) ->
  refines n h F (pbind m k) o Q.
Proof.
  intros L H K. apply ref_pure with (b := b) (R := fun h' F' a b => step (length h) h F h' F' /\ R h' F' a b).
  - eapply ref_weak; [exact L|exact H|]. intros; split; auto.
  - intros h' F' a _ [S X]. auto.
Qed.

(** ** append *)
Lemma write_length h a off l : (a < length h)%nat -> length (write h a off l) = length h.
Proof. apply (@setNth_length (list Z)). Qed.
Lemma array_write h a off l x : (a < length h)%nat -> array (write h a off l) x =
  if (x =? a)%nat then firstn off (array h a) ++ l ++ skipn (off + length l) (array h a) else array h x.
Proof.
  intros L. unfold array at 1. change (write h a off l) with (setNth h a (firstn off (array h a) ++ l ++ skipn (off + length l) (array h a))).
  destruct (Nat.eqb_spec x a) as [->|N]; [now rewrite setNth_same|now rewrite setNth_other].
Qed.
Lemma cells_own h s : sl_off s = 0%nat -> cells h s = firstn (sl_len s) (array h (sl_arr s)).
Proof. intros E. unfold cells. now rewrite E. Qed.

Lemma ref_add n h F s l m : (n <= length h)%nat -> length F = length h -> own n F h s l ->
  refines n h F (add grow s m) (Ok (l ++ m)) (fun h' F' s' l' => own n F' h' s' l' /\ forall t k, apartS s t -> own n F h t k -> own n F' h' t k /\ apartS s' t).
Proof.
  intros N L O. unfold add. destruct m as [|x m0] eqn:Em.
  { cbn. exists F. rewrite app_nil_r. split; [now apply step_refl|]. split; auto. }
  set (mm := x :: m0) in *. assert (NE : negb (nonempty mm) = false) by reflexivity. unfold refines. rewrite NE. clearbody mm. destruct O as (C & E & D).
  destruct (sl_len s + length mm <=? sl_cap s)%nat eqn:G.
  - apply Nat.leb_le in G. assert (P : (0 < length mm)%nat) by (destruct mm; [discriminate NE|cbn; lia]).
    destruct D as [D|(D1 & D2 & D3 & D4)]; [lia|]. exists F. set (a := sl_arr s) in *. rewrite D3. cbn [plus].
    assert (AW : forall x, array (write h a (sl_len s) mm) x = if (x =? a)%nat then firstn (sl_len s) (array h a) ++ mm ++ skipn (sl_len s + length mm) (array h a) else array h x) by (intros; apply array_write; lia).
    split; [|split].
    + split; auto. rewrite write_length by lia. split; auto. split; [lia|]. split.
      * intros b B. split; auto. rewrite AW. destruct (Nat.eqb_spec b a); [lia|auto].
      * intros b. split; auto. rewrite AW. destruct (Nat.eqb_spec b a) as [->|]; auto. now rewrite D2.
    + split; [|split].
      * rewrite cells_own in * by auto. cbn [sl_arr sl_len]. fold a. fold a in C. rewrite AW, Nat.eqb_refl. rewrite C, app_assoc. replace (sl_len s + length mm)%nat with (length (l ++ mm)) by (rewrite app_length; lia). rewrite firstn_app, Nat.sub_diag, firstn_all. cbn [firstn]. now rewrite app_nil_r.
      * rewrite app_length. cbn [sl_len]. lia.
      * right. cbn [sl_arr sl_off sl_len sl_cap]. fold a. rewrite write_length by lia. repeat split; try lia; try apply D4. rewrite AW, Nat.eqb_refl, !app_length, firstn_length, skipn_length. lia.
    + intros t k AP (C' & E' & D'). split; [|exact AP]. split; [|split; auto].
      * destruct D' as [D'|(D1' & D2' & D3' & D4')]; [rewrite cells_nil in * by (apply D'); auto|]. destruct AP as [AP|[AP|AP]]; try (destruct D4; lia).
        { destruct D4' as [U V]. assert (sl_len t = 0%nat) by lia. rewrite cells_nil in * by auto. auto. }
        unfold cells. rewrite AW. destruct (Nat.eqb_spec (sl_arr t) a); [unfold a in *; congruence|auto].
      * destruct D' as [D'|(D1' & D2' & D3' & D4')]; auto. right. rewrite write_length by lia. repeat split; try lia; try apply D1'; try apply D4'. rewrite AW. destruct (Nat.eqb_spec (sl_arr t) a) as [Q|]; [|lia].
        rewrite Q in *. rewrite !app_length, firstn_length, skipn_length. lia.
  - exists (F ++ [0%nat]). set (y := grow h s mm). split; [|split].
    + split; auto. rewrite !app_length. cbn [length]. split; [lia|]. split; [lia|]. split.
      * intros a A. rewrite array_app, seen_app. destruct (Nat.eqb_spec a (length h)), (Nat.eqb_spec a (length F)); try lia. auto.
      * intros a. rewrite array_app, seen_app. destruct (Nat.eqb_spec a (length F)) as [->|]; [unfold seen; rewrite nth_overflow by lia; rewrite L, Nat.eqb_refl; split; auto; lia|]. destruct (Nat.eqb_spec a (length h)); [lia|auto].
    + split; [|split].
      * rewrite cells_own by reflexivity. cbn [sl_arr sl_len]. rewrite array_app, Nat.eqb_refl, C, app_assoc. replace (sl_len s + length mm)%nat with (length (l ++ mm)) by (rewrite app_length; lia). rewrite firstn_app, Nat.sub_diag, firstn_all. cbn [firstn]. now rewrite app_nil_r.
      * rewrite app_length. cbn [sl_len]. lia.
      * right. cbn [sl_arr sl_off sl_len sl_cap]. rewrite array_app, seen_app, Nat.eqb_refl, app_length. cbn [length]. rewrite L, Nat.eqb_refl. repeat split; try lia. rewrite !app_length, repeat_length, C. lia.
    + intros t k AP (C' & E' & D'). destruct D' as [D'|(D1' & D2' & D3' & D4')].
      * split; [|right; left; apply D']. split; [rewrite cells_nil in * by (apply D'); auto|]. split; auto.
      * assert (NA : sl_arr t <> length h) by lia. split; [|right; right; cbn [sl_arr]; auto]. split; [|split; auto].
        { unfold cells. rewrite array_app. destruct (Nat.eqb_spec (sl_arr t) (length h)); [lia|auto]. }
        right. rewrite array_app, seen_app, app_length. cbn [length]. destruct (Nat.eqb_spec (sl_arr t) (length h)), (Nat.eqb_spec (sl_arr t) (length F)); try lia.
Qed.
Lemma ref_addS n h F s l t m : (n <= length h)%nat -> length F = length h -> own n F h s l -> cells h t = m ->
  refines n h F (addS grow s t) (Ok (l ++ m)) (fun h' F' s' l' => own n F' h' s' l' /\ forall t k, apartS s t -> own n F h t k -> own n F' h' t k /\ apartS s' t).
Proof. intros N L O <-. unfold addS. apply ref_look. now apply ref_add. Qed.

(** ** Windows *)
Lemma ref_from n h F s l k : length F = length h -> sameS F h s l -> refines n h F (from s k) (slice_from l k) (fun h' F' s' l' => sameS F' h' s' l').
Proof.
  intros L (C & E & V). unfold from, slice_from. rewrite E. destruct ((0 <=? k) && (k <=? Z.of_nat (sl_len s))) eqn:G; [|exact Logic.I].
  apply andb_prop in G. destruct G as [G1 G2]. apply Z.leb_le in G1, G2. apply ref_ret with F; [now apply step_refl|]. split; [|split].
  - unfold cells in *. cbn [sl_arr sl_off sl_len]. rewrite <- C. rewrite skipn_firstn_comm. f_equal. rewrite <- (Nat.add_comm (sl_off s)) || idtac.
    assert (SK : forall (l : list Z) a b, skipn a (skipn b l) = skipn (b + a) l). { intros l0 a b. revert l0. induction b as [|b IH]; intros [|y l0]; cbn [skipn plus]; auto. now rewrite skipn_nil. }
    now rewrite SK, Nat.add_comm.
  - rewrite skipn_length. cbn [sl_len]. lia.
  - cbn [sl_arr sl_off sl_len]. lia.
Qed.
Lemma ref_upTo n h F s l k : length F = length h -> sameS F h s l -> refines n h F (upTo s k) (slice_to l k) (fun h' F' s' l' => sameS F' h' s' l').
Proof.
  intros L (C & E & V). unfold upTo, slice_to. rewrite E. destruct ((0 <=? k) && (k <=? Z.of_nat (sl_len s))) eqn:G; [|exact Logic.I].
  apply andb_prop in G. destruct G as [G1 G2]. apply Z.leb_le in G1, G2. apply ref_ret with F; [now apply step_refl|]. split; [|split].
  - unfold cells in *. cbn [sl_arr sl_off sl_len]. rewrite <- C. rewrite firstn_firstn. f_equal. lia.
  - rewrite firstn_length. cbn [sl_len]. lia.
  - cbn [sl_arr sl_off sl_len]. lia.
Qed.
End Refine.
