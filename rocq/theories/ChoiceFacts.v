(** A choice whose alternatives report honestly what they read is a function of
    what the alternatives answer alone. *)
From Coq Require Import Permutation.
From Verif Require Import Base Stream StreamFacts CallFacts Node Rule SpecStream SpecRule EvalInv SpecEval SemFacts SpecEv EvFacts TextFacts
  SpecChoice.

Fixpoint seqO {A} (l : list (option A)) : option (list A) :=
  match l with
  | [] => Some []
  | o :: l' => match o, seqO l' with Some a, Some r => Some (a :: r) | _, _ => None end
  end.

Definition pair (r : result) : node * nat := (match r_node r with Some n => erase n | None => tree TText noBase [] false end, used r).
Definition pairs (rs : list result) : list (node * nat) := List.map pair (List.filter matched rs).
Definition far (rs : list result) (m : nat) : nat := fold_left (fun m r => Nat.max m (length (r_read r))) rs m.
Definition allSticky (rs : list result) : bool := forallb r_sticky rs.

Section Pure.
Variables (g : rules_t) (rec : evalT) (s0 : stream) (f : Z).
Hypothesis HT : textRec rec.
Hypothesis HO : recOk g rec.

Definition ans (x : rule) : option result := match rec x s0 f with Ok (res, _) => Some res | _ => None end.
Definition hon (x : rule) : Prop := forall res s', rec x s0 f = Ok (res, s') -> rest s0 = r_read res ++ rest s'.

(** Node, CharsRead, CharsUnused, Sticky, and whether the error is the ambiguity. *)
Definition out := (option node * list Z * list Z * bool * bool)%type.
Fixpoint pureChoice (b : rbase) (groups : list (list rule)) (m : nat) (st : bool) : option out :=
  match groups with
  | [] => Some (None, firstn m (rest s0), firstn m (rest s0), st, false)
  | grp :: groups' =>
    match seqO (List.map ans grp) with
    | None => None
    | Some rs =>
      let m' := far rs m in
      let st' := st && allSticky rs in
      match pick (pairs rs) with
      | PNone => pureChoice b groups' m' st'
      | POne n u => Some (Some (tree TChoice b [n] st'), firstn m' (rest s0), skipn u (firstn m' (rest s0)), st', false)
      | _ => Some (None, firstn m' (rest s0), [], false, true)
      end
    end
  end.

Lemma far_ge rs : forall m, (m <= far rs m)%nat.
Proof. induction rs as [|r rs IH]; intros m; cbn; [lia|]. specialize (IH (Nat.max m (length (r_read r)))). unfold far in IH. lia. Qed.

Lemma relm_pair r r0 : req r0 r -> acc r0 -> matched r0 = true -> relm r (pair r0).
Proof.
  intros (N & R & U & _) A H. unfold matched in H. unfold relm, pair, used. cbn. destruct (r_node r0) as [n0|]; [|discriminate].
  destruct (r_node r) as [n|]; [|discriminate]. cbn in N. injection N as N. split; [eauto|].
  unfold countUsed. rewrite <- R, <- U. pose proof (ac_len _ A). lia.
Qed.

Lemma alts_pure : clean (rest s0) -> forall rules, (forall x, In x rules -> wfRule x) -> (forall x, In x rules -> hon x) ->
  forall s m sticky me mi ml accs, depth s = depth s0 -> (m <= length (rest s0))%nat -> firstn m (rest s0) ++ rest s = rest s0 ->
  Forall2 relm ml accs ->
  match seqO (List.map ans rules) with
  | None => match altLoop rec (depth s0) rules s f (firstn m (rest s0)) sticky me mi ml with Ok _ => False | _ => True end
  | Some rs => exists ml' me' mi' s', altLoop rec (depth s0) rules s f (firstn m (rest s0)) sticky me mi ml =
      Ok (ml', firstn (far rs m) (rest s0), sticky && allSticky rs, me', mi', s') /\
      Forall2 relm ml' (rev accs ++ pairs rs) /\ depth s' = depth s0 /\ (far rs m <= length (rest s0))%nat /\
      firstn (far rs m) (rest s0) ++ rest s' = rest s0
  end.
Proof.
  intros C. induction rules as [|x rules IH]; intros W HH s m sticky me mi ml accs D LM ER F.
  - cbn [List.map seqO altLoop far fold_left]. do 4 eexists. split; [now rewrite andb_true_r|]. cbn [pairs List.filter List.map].
    rewrite app_nil_r. split; [now apply Forall2_rev|]. auto.
  - cbn [List.map seqO altLoop].
    assert (EP : rest s0 = rest (prepend s (firstn m (rest s0)))) by (rewrite prepend_rest; now symmetry).
    pose proof (HT x f s0 _ (W x (or_introl eq_refl)) C EP) as T. unfold ans at 1.
    pose proof (HH x (or_introl eq_refl)) as HX. unfold hon in HX.
    pose proof (HO x s0 f (W x (or_introl eq_refl)) C) as GO.
    destruct (rec x s0 f) as [[r0 s0']| |].
    2,3: destruct (rec x (prepend s _) f) as [[r1 s1]| |]; cbn in T; try tauto; cbn; auto.
    destruct (rec x (prepend s (firstn m (rest s0))) f) as [[r1 s1]| |]; cbn in T; try tauto. cbn [bind].
    destruct T as [RQ (n & LN & M0 & M1)]. cbn [fst snd] in *. specialize (HX _ _ eq_refl). destruct GO as [[GA _ _] _].
    assert (EN : length (r_read r0) = n).
    { apply f_equal with (f := @length Z) in HX. rewrite app_length, (moves_rest _ _ _ M0), skipn_length in HX. lia. }
    assert (ERD : r_read r0 = firstn n (rest s0)).
    { rewrite HX, <- EN, firstn_app, Nat.sub_diag, firstn_all. cbn. now rewrite app_nil_r. }
    assert (MX : (if (length (firstn m (rest s0)) <? length (r_read r1))%nat then r_read r1 else firstn m (rest s0)) =
      firstn (Nat.max m (length (r_read r0))) (rest s0)).
    { pose proof RQ as (_ & R & _). rewrite <- R, EN, ERD, firstn_length.
      destruct (Nat.ltb_spec (Nat.min m (length (rest s0))) n); f_equal; lia. }
    rewrite MX. set (m1 := Nat.max m (length (r_read r0))) in *.
    assert (DD : (depth s <= depth (prepend s (firstn m (rest s0))))%nat) by (rewrite prepend_depth; lia).
    destruct (moves_unwrap n (depth s) _ _ DD M1) as [_ MU].
    rewrite pend_prepend, pend_self, app_nil_r, unwrap_prepend, unwrap_id in MU by lia.
    rewrite D in MU.
    assert (D2 : depth (unwrap (depth s0) s1) = depth s0).
    { rewrite (moves_depth _ _ _ MU). exact D. }
    assert (LM1 : (m1 <= length (rest s0))%nat) by (unfold m1; lia).
    assert (ER1 : firstn m1 (rest s0) ++ rest (unwrap (depth s0) s1) = rest s0).
    { rewrite (moves_rest _ _ _ MU), firstn_length.
      assert (RS : rest s = skipn m (rest s0)).
      { apply app_inv_head with (l := firstn m (rest s0)). now rewrite ER, firstn_skipn. }
      rewrite RS, skipn_skipn'. replace (m + (n - Nat.min m (length (rest s0))))%nat with m1 by (unfold m1; lia). apply firstn_skipn. }
    assert (W' : forall y, In y rules -> wfRule y) by (intros; apply W; now right).
    assert (H' : forall y, In y rules -> hon y) by (intros; apply HH; now right).
    assert (ST : r_sticky r1 = r_sticky r0) by (now destruct RQ as (_ & _ & _ & ->)).
    assert (PA : forall rs, pairs (r0 :: rs) = (if matched r0 then [pair r0] else []) ++ pairs rs).
    { intros rs. unfold pairs. cbn. destruct (matched r0); reflexivity. }
    assert (FA : forall rs, far (r0 :: rs) m = far rs m1) by reflexivity.
    assert (AS : forall rs, sticky && allSticky (r0 :: rs) = sticky && r_sticky r1 && allSticky rs).
    { intros rs. unfold allSticky. cbn. rewrite ST. now rewrite andb_assoc. }
    assert (NM : matched r0 = match r_node r1 with Some _ => true | None => false end).
    { unfold matched. apply node_req in RQ. destruct (r_node r0), (r_node r1); tauto. }
    destruct (r_node r1) as [n1|] eqn:EN1.
    + specialize (IH W' H' _ m1 (sticky && r_sticky r1) me mi (r1 :: ml) (pair r0 :: accs) D2 LM1 ER1
        (Forall2_cons _ _ (relm_pair _ _ RQ GA NM) F)).
      destruct (seqO (List.map ans rules)) as [rs|]; [|exact IH].
      destruct IH as (ml' & me' & mi' & s' & -> & F' & R'). do 4 eexists. rewrite AS, FA. split; [reflexivity|].
      split; [|exact R']. rewrite PA, NM. cbn [rev] in F'. rewrite <- app_assoc in F'. exact F'.
    + assert (forall e i,
        match seqO (List.map ans rules) with
        | None => match altLoop rec (depth s0) rules (unwrap (depth s0) s1) f (firstn m1 (rest s0)) (sticky && r_sticky r1) e i ml with Ok _ => False | _ => True end
        | Some rs => exists ml' me' mi' s', altLoop rec (depth s0) rules (unwrap (depth s0) s1) f (firstn m1 (rest s0)) (sticky && r_sticky r1) e i ml =
          Ok (ml', firstn (far rs m1) (rest s0), sticky && r_sticky r1 && allSticky rs, me', mi', s') /\
          Forall2 relm ml' (rev accs ++ pairs rs) /\ depth s' = depth s0 /\ (far rs m1 <= length (rest s0))%nat /\
          firstn (far rs m1) (rest s0) ++ rest s' = rest s0
        end) as X by (intros e i; apply IH; auto).
      assert (PN : forall rs, pairs (r0 :: rs) = pairs rs) by (intros rs; now rewrite PA, NM).
      destruct (r_erridx r1 >? mi); [specialize (X (r_err r1) (r_erridx r1))|specialize (X me mi)];
      (destruct (seqO (List.map ans rules)) as [rs|]; [|exact X]);
      (destruct X as (ml' & me' & mi' & s' & -> & F' & R'); do 4 eexists; rewrite AS, FA, PN; split; [reflexivity|]; auto).
Qed.

Lemma choice_pure b self : clean (rest s0) -> descOk self = true -> forall groups,
  (forall grp x, In grp groups -> In x grp -> wfRule x) -> (forall grp x, In grp groups -> In x grp -> hon x) ->
  forall s m sticky me mi, depth s = depth s0 -> (m <= length (rest s0))%nat -> firstn m (rest s0) ++ rest s = rest s0 ->
  match pureChoice b groups m sticky with
  | None => match choiceLoop rec b self (depth s0) groups s f (firstn m (rest s0)) sticky me mi with Ok _ => False | _ => True end
  | Some (nd, rd, un, st, am) => exists res s', choiceLoop rec b self (depth s0) groups s f (firstn m (rest s0)) sticky me mi = Ok (res, s') /\
      option_map erase (r_node res) = nd /\ r_read res = rd /\ r_unused res = un /\ r_sticky res = st /\ rd ++ rest s' = rest s0 /\
      (nd = None -> exists e, r_err res = Some e) /\ (am = true -> exists nm ns, r_err res = Some (EAmbiguity nm ns))
  end.
Proof.
  intros C Hd. induction groups as [|grp groups IH]; intros W HH s m sticky me mi D LM ER; cbn [pureChoice choiceLoop].
  - rewrite Hd. do 2 eexists. split; [reflexivity|]. cbn. repeat split; auto; [eauto|discriminate].
  - pose proof (alts_pure C grp (fun x Hx => W grp x (or_introl eq_refl) Hx) (fun x Hx => HH grp x (or_introl eq_refl) Hx)
      s m sticky me mi [] [] D LM ER (Forall2_nil _)) as H.
    destruct (seqO (List.map ans grp)) as [rs|].
    2:{ destruct (altLoop rec _ grp _ _ _ _ _ _ _); [destruct H|exact I|exact I]. }
    destruct H as (ml & me' & mi' & s' & -> & F & D' & LM' & ER'). cbn [bind rev app] in *.
    pose proof (select_pick _ _ F) as SP. destruct (pick (pairs rs)) as [|n u| |].
    + rewrite SP. apply IH; auto; intros; [eapply W|eapply HH]; eauto; now right.
    + destruct SP as (res & -> & ((nd & EN & EE) & CU) & IN & LO). cbn [fst snd] in *. rewrite EN, CU.
      assert (LU : (u <= far rs m)%nat).
      { (* the match read at least what it used *)
        unfold pairs in IN. apply in_map_iff in IN as (r & EP & IR). apply filter_In in IR as [IR _].
        injection EP as _ <-. clear -IR. revert m. induction rs as [|a rs IH]; intros m; [destruct IR|].
        destruct IR as [->|IR].
        - cbn. pose proof (far_ge rs (Nat.max m (length (r_read r)))). unfold far, used in *. lia.
        - exact (IH IR _). }
      rewrite slice_from_ok by (rewrite firstn_length; lia). cbn [bind]. do 2 eexists. split; [reflexivity|]. cbn.
      rewrite EE. repeat split; auto; discriminate.
    + rewrite SP. do 2 eexists. split; [reflexivity|]. cbn. repeat split; auto; eauto.
    + rewrite SP. do 2 eexists. split; [reflexivity|]. cbn. repeat split; auto; eauto.
Qed.

Lemma seqO_Forall2 l : forall rs, seqO (List.map ans l) = Some rs <-> Forall2 (fun x r => ans x = Some r) l rs.
Proof.
  induction l as [|x l IH]; intros rs; cbn [List.map seqO].
  - split; [intros [= <-]; constructor|]. now inversion 1.
  - split.
    + destruct (ans x) as [a|] eqn:E; [|discriminate]. destruct (seqO (List.map ans l)) as [r|]; [|discriminate].
      intros [= <-]. constructor; [exact E|]. now apply IH.
    + inversion 1 as [|? a ? r E F]; subst. rewrite E. apply IH in F. now rewrite F.
Qed.

Lemma pairs_app a b : pairs (a ++ b) = pairs a ++ pairs b.
Proof. unfold pairs. now rewrite filter_app, map_app. Qed.
Lemma pairs_split rs : forall p1 x p2, pairs rs = p1 ++ x :: p2 -> exists l1 r l2, rs = l1 ++ r :: l2 /\ matched r = true /\
  pair r = x /\ pairs l1 = p1 /\ pairs l2 = p2.
Proof.
  induction rs as [|a rs IH]; intros p1 x p2 H; [destruct p1; discriminate H|]. unfold pairs in H. cbn [List.filter] in H.
  destruct (matched a) eqn:E; cbn [List.map] in H.
  - destruct p1 as [|y p1].
    + injection H as H1 H2. exists [], a, rs. repeat split; auto.
    + injection H as H1 H2. destruct (IH p1 x p2 H2) as (l1 & r & l2 & -> & M & P & E1 & E2).
      exists (a :: l1), r, l2. repeat split; auto. unfold pairs. cbn [List.filter]. rewrite E. cbn. now rewrite H1, <- E1.
  - destruct (IH p1 x p2 H) as (l1 & r & l2 & -> & M & P & E1 & E2).
    exists (a :: l1), r, l2. repeat split; auto. unfold pairs. cbn [List.filter]. now rewrite E.
Qed.
Lemma pairs_nil rs : pairs rs = [] <-> forall r, In r rs -> matched r = false.
Proof.
  unfold pairs. split.
  - intros H r I. apply map_eq_nil in H. destruct (matched r) eqn:E; [|reflexivity].
    assert (X : In r (List.filter matched rs)) by now apply filter_In. rewrite H in X. destruct X.
  - intros H. assert (List.filter matched rs = []) as ->; [|reflexivity]. induction rs as [|a rs IH]; [reflexivity|]. cbn.
    rewrite (H a (or_introl eq_refl)). apply IH. intros r I. apply H. now right.
Qed.

Lemma greediest_iff rs : hasGreediest rs <-> exists n u, strictlyLongest (pairs rs) n u.
Proof.
  split.
  - intros (l1 & r & l2 & -> & M & H). exists (fst (pair r)), (snd (pair r)). exists (pairs l1), (pairs l2). split.
    + rewrite pairs_app. unfold pairs at 2. cbn [List.filter]. rewrite M. reflexivity.
    + rewrite <- pairs_app. apply Forall_forall. intros x I. unfold pairs in I. apply in_map_iff in I as (y & <- & I).
      apply filter_In in I as [I MY]. cbn. auto.
  - intros (n & u & p1 & p2 & E & F). destruct (pairs_split _ _ _ _ E) as (l1 & r & l2 & -> & M & P & <- & <-).
    exists l1, r, l2. split; [reflexivity|]. split; [exact M|]. intros r' I M'. rewrite <- pairs_app in F. rewrite Forall_forall in F.
    injection P as _ <-. apply (F (pair r')). unfold pairs. apply in_map. now apply filter_In.
Qed.

Lemma pure_match b groups : forall m st nd rd un st' am, pureChoice b groups m st = Some (Some nd, rd, un, st', am) ->
  exists pre l1 x l2 post r, groups = pre ++ (l1 ++ x :: l2) :: post /\ ans x = Some r /\ matched r = true /\
    nd = tree TChoice b [fst (pair r)] st' /\ un = skipn (used r) rd /\
    (length (rest s0) <= length rd \/ used r <= length rd)%nat /\
    (forall y, In y (concat pre) -> exists ry, ans y = Some ry /\ matched ry = false) /\
    (forall y, In y (l1 ++ l2) -> exists ry, ans y = Some ry /\ (matched ry = true -> (used ry < used r)%nat)).
Proof.
  induction groups as [|grp groups IH]; intros m st nd rd un st' am H; cbn [pureChoice] in H; [discriminate|].
  destruct (seqO (List.map ans grp)) as [rs|] eqn:ES; [|discriminate]. apply seqO_Forall2 in ES.
  pose proof (pick_spec (pairs rs)) as PS. destruct (pick (pairs rs)) as [|n u| |]; [| |discriminate H..].
  - destruct (IH _ _ _ _ _ _ _ H) as (pre & l1 & x & l2 & post & r & -> & R). exists (grp :: pre), l1, x, l2, post, r.
    split; [reflexivity|]. destruct R as (A & M & N & U & L & R1 & R2). repeat (split; [assumption|]). split; [|exact R2].
    intros y. cbn [concat]. rewrite in_app_iff. intros [I|I]; [|auto].
    apply in_split in I as (a & b' & ->). apply Forall2_app_inv_l in ES as (ra & rb & _ & F & ->).
    inversion F as [|? ry ? ? E F']; subst. exists ry. split; [exact E|]. apply (proj1 (pairs_nil _) PS). rewrite in_app_iff. right. now left.
  - injection H as <- <- <- <- <-. destruct PS as (p1 & p2 & E & F). destruct (pairs_split _ _ _ _ E) as (q1 & r & q2 & EQ & M & P & <- & <-).
    subst rs. apply Forall2_app_inv_r in ES as (l1 & g2 & F1 & F2 & ->). inversion F2 as [|x ? l2 ? EX F3]; subst.
    exists [], l1, x, l2, groups, r. split; [reflexivity|]. split; [exact EX|]. split; [exact M|]. rewrite P. cbn [fst].
    assert (u = used r) as -> by (now injection P). split; [reflexivity|]. split; [reflexivity|]. split.
    { rewrite firstn_length. pose proof (far_ge q2 (Nat.max (far q1 m) (length (r_read r)))) as FG.
      assert (far (q1 ++ r :: q2) m = far q2 (Nat.max (far q1 m) (length (r_read r)))) as -> by (unfold far; now rewrite fold_left_app).
      unfold used. lia. }
    split; [intros y []|]. intros y I. rewrite <- pairs_app in F. rewrite Forall_forall in F.
    assert (X : exists ry, ans y = Some ry /\ In ry (q1 ++ q2)).
    { apply in_app_iff in I as [I|I]; apply in_split in I as (a & b' & ->).
      - apply Forall2_app_inv_l in F1 as (ra & rb & _ & F1 & ->). inversion F1 as [|? ry ? ? E1 F']; subst. exists ry. split; [exact E1|].
        rewrite !in_app_iff. left. right. now left.
      - apply Forall2_app_inv_l in F3 as (ra & rb & _ & F3 & ->). inversion F3 as [|? ry ? ? E1 F']; subst. exists ry. split; [exact E1|].
        rewrite !in_app_iff. right. right. now left. }
    destruct X as (ry & EY & IY). exists ry. split; [exact EY|]. intros MY. apply (F (pair ry)). unfold pairs. apply in_map. now apply filter_In.
Qed.

Lemma pure_tie b pre grp post rs : forall m st, (forall y, In y (concat pre) -> exists ry, ans y = Some ry /\ matched ry = false) ->
  Forall2 (fun x r => ans x = Some r) grp rs -> (exists r, In r rs /\ matched r = true) -> ~ hasGreediest rs ->
  exists rd un st', pureChoice b (pre ++ grp :: post) m st = Some (None, rd, un, st', true).
Proof.
  induction pre as [|g1 pre IH]; intros m st HP F M NG.
  - cbn [app pureChoice]. apply seqO_Forall2 in F. rewrite F. pose proof (pick_spec (pairs rs)) as PS.
    destruct (pick (pairs rs)) as [|n u| |]; eauto.
    + destruct M as (r & I & MR). rewrite pairs_nil in PS. rewrite (PS _ I) in MR. discriminate.
    + destruct NG. apply greediest_iff. eauto.
  - cbn [app pureChoice].
    assert (exists rs1, Forall2 (fun x r => ans x = Some r) g1 rs1 /\ forall r, In r rs1 -> matched r = false) as (rs1 & F1 & N1).
    { assert (HP1 : forall y, In y g1 -> exists ry, ans y = Some ry /\ matched ry = false) by (intros y I; apply HP; cbn; rewrite in_app_iff; auto).
      clear -HP1. induction g1 as [|x g1 IH]; [exists []; split; [constructor|intros ? []]|].
      destruct (HP1 x (or_introl eq_refl)) as (r & A & B). destruct IH as (rs & F & N); [intros; apply HP1; now right|].
      exists (r :: rs). split; [now constructor|]. intros r' [<-|I]; auto. }
    apply seqO_Forall2 in F1. rewrite F1. apply pairs_nil in N1. rewrite N1. cbn [pick]. apply IH; auto.
    intros y I. apply HP. cbn. rewrite in_app_iff. auto.
Qed.

(** Reordering. *)
Lemma far_perm rs rs' : Permutation rs rs' -> forall m, far rs m = far rs' m.
Proof.
  induction 1 as [|x l l' P IH|x y l|l l' l'' P1 IH1 P2 IH2]; intros m.
  - reflexivity.
  - apply IH.
  - unfold far. cbn. f_equal. lia.
  - now rewrite IH1.
Qed.
Lemma sticky_perm rs rs' : Permutation rs rs' -> allSticky rs = allSticky rs'.
Proof.
  induction 1; cbn; auto.
  - unfold allSticky in *. cbn. now rewrite IHPermutation.
  - unfold allSticky. cbn. destruct (r_sticky x), (r_sticky y); reflexivity.
  - congruence.
Qed.
Lemma filter_perm {A} (p : A -> bool) l l' : Permutation l l' -> Permutation (List.filter p l) (List.filter p l').
Proof.
  induction 1; cbn; auto.
  - destruct (p x); auto.
  - destruct (p x), (p y); auto using perm_swap.
  - eapply perm_trans; eauto.
Qed.
Lemma pairs_perm rs rs' : Permutation rs rs' -> Permutation (pairs rs) (pairs rs').
Proof. intros P. unfold pairs. apply Permutation_map. now apply filter_perm. Qed.
Lemma longest_perm l l' : Permutation l l' -> longest l = longest l'.
Proof. induction 1; rewrite ?longest_cons; lia. Qed.
Lemma early_none l : forall best, NoDup (List.map snd l) -> (forall v, best = Some v -> ~ In v (List.map snd l)) -> @earlyTie best l = false.
Proof.
  induction l as [|[n u] l IH]; intros best ND H; cbn [earlyTie]; [reflexivity|]. cbn in ND. inversion ND as [|? ? N1 N2]; subst.
  destruct best as [v|].
  - specialize (H v eq_refl). cbn in H. destruct (u <? v)%nat.
    + apply IH; [exact N2|]. intros ? [= <-] X. apply H. auto.
    + destruct (Nat.eqb_spec u v) as [->|]; [destruct H; auto|]. apply IH; [exact N2|]. now intros ? [= <-].
  - apply IH; [exact N2|]. now intros ? [= <-].
Qed.
Lemma pick_perm l l' : Permutation l l' -> (forall n u, strictlyLongest l n u -> NoDup (List.map snd l)) ->
  match pick l, pick l' with
  | PNone, PNone => True
  | POne n u, POne n' u' => n = n' /\ u = u'
  | PTie, PTie => True
  | _, _ => False
  end.
Proof.
  intros P H. unfold pick. rewrite <- (longest_perm _ _ P).
  pose proof (filter_perm (fun x => (snd x =? longest l)%nat) _ _ P) as PF.
  destruct (List.filter _ l) as [|[n u] [|y fl]] eqn:E.
  - apply Permutation_nil in PF. now rewrite PF.
  - apply Permutation_length_1_inv in PF. rewrite PF. apply strictly_filter in E. specialize (H _ _ E).
    rewrite (early_none l None H) by discriminate. rewrite (early_none l' None); [auto| |discriminate].
    eapply Permutation_NoDup; [|exact H]. now apply Permutation_map.
  - destruct (List.filter _ l') as [|[n' u'] [|y' fl']]; [|apply Permutation_length in PF; discriminate|exact I].
    apply Permutation_sym, Permutation_nil in PF. discriminate.
Qed.
Lemma seqO_perm l l' : Permutation l l' -> forall rs, Forall2 (fun x r => ans x = Some r) l rs ->
  exists rs', Forall2 (fun x r => ans x = Some r) l' rs' /\ Permutation rs rs'.
Proof. intros P rs F. destruct (Permutation_Forall2 P F) as (rs' & P' & F'). eauto. Qed.

Lemma pure_perm b pre grp grp' post : Permutation grp grp' ->
  (forall rs, Forall2 (fun x r => ans x = Some r) grp rs -> hasGreediest rs -> NoDup (List.map used (List.filter matched rs))) ->
  forall m st o, pureChoice b (pre ++ grp :: post) m st = Some o -> pureChoice b (pre ++ grp' :: post) m st = Some o.
Proof.
  intros P H. induction pre as [|g1 pre IH]; intros m st o E.
  - cbn [app pureChoice] in *. destruct (seqO (List.map ans grp)) as [rs|] eqn:ES; [|discriminate]. apply seqO_Forall2 in ES.
    destruct (seqO_perm _ _ P _ ES) as (rs' & F' & PR). apply seqO_Forall2 in F'. rewrite F'.
    rewrite <- (far_perm _ _ PR), <- (sticky_perm _ _ PR).
    assert (HN : forall n u, strictlyLongest (pairs rs) n u -> NoDup (List.map snd (pairs rs))).
    { intros n u S. unfold pairs. rewrite map_map. cbn [snd pair]. apply H; [exact ES|]. apply greediest_iff. eauto. }
    pose proof (pick_perm _ _ (pairs_perm _ _ PR) HN) as PK.
    destruct (pick (pairs rs)), (pick (pairs rs')); try tauto. destruct PK as [<- <-]. exact E.
  - cbn [app pureChoice] in *. destruct (seqO (List.map ans g1)); [|discriminate]. destruct (pick _); auto.
Qed.
End Pure.

(* ------------------------------------------------------------------ *)
Section Choice.
Variables (g : rules_t) (fuel : nat) (b : rbase) (s : stream) (f : Z).
Hypothesis HG : wfRules g.
Hypothesis HC : runesOk (rest s).

Lemma choice_eval gs : wfRule (RChoice b gs) -> (forall grp x, In grp gs -> In x grp -> honest fuel g s f x) ->
  match pureChoice (eval fuel g) s f b gs 0 true with
  | None => match eval (S fuel) g (RChoice b gs) s f with Ok _ => False | _ => True end
  | Some (nd, rd, un, st, am) => exists res s', eval (S fuel) g (RChoice b gs) s f = Ok (res, s') /\
      option_map erase (r_node res) = nd /\ r_read res = rd /\ r_unused res = un /\ r_sticky res = st /\ rd ++ rest s' = rest s /\
      (nd = None -> exists e, r_err res = Some e) /\ (am = true -> exists nm ns, r_err res = Some (EAmbiguity nm ns))
  end.
Proof.
  intros W HH. pose proof (wf_descOk _ W) as D. inversion W as [| | | | | | | | |? ? W1 W2 W3| |]; subst.
  apply (choice_pure g (eval fuel g) s f) with (m := 0%nat) (sticky := true); auto.
  - intros r f' s1 t1. now apply eval_text.
  - intros r s1 f'. now apply eval_ok.
  - lia.
Qed.

Theorem choice_greediest gs res s' n : wfRule (RChoice b gs) -> (forall grp x, In grp gs -> In x grp -> honest fuel g s f x) ->
  eval (S fuel) g (RChoice b gs) s f = Ok (res, s') -> r_node res = Some n ->
  exists pre l1 x l2 post rx nx, gs = pre ++ (l1 ++ x :: l2) :: post /\ answer fuel g s f x = Some rx /\ r_node rx = Some nx /\
    (exists k, n_kids n = [k] /\ erase k = erase nx) /\ used res = used rx /\
    (forall y, In y (concat pre) -> exists ry, answer fuel g s f y = Some ry /\ r_node ry = None) /\
    (forall y, In y (l1 ++ l2) -> exists ry, answer fuel g s f y = Some ry /\ (r_node ry <> None -> (used ry < used rx)%nat)).
Proof.
  intros W HH E N. pose proof (choice_eval gs W HH) as H. destruct (pureChoice _ _ _ _ _ _ _) as [[[[[nd rd] un] st] am]|] eqn:P.
  2:{ rewrite E in H. destruct H. }
  destruct H as (res0 & s0 & E' & HN & HR & HU & HS & HT & _). rewrite E in E'. injection E' as <- <-. rewrite N in HN. cbn in HN.
  subst nd. destruct (pure_match _ _ _ _ _ _ _ _ _ _ _ _ P) as (pre & l1 & x & l2 & post & r & EG & A & M & ND & U & L & R1 & R2).
  unfold matched in M. destruct (r_node r) as [nx|] eqn:EX; [|discriminate].
  exists pre, l1, x, l2, post, r, nx. split; [exact EG|]. split; [exact A|]. split; [exact EX|]. split.
  { destruct n as [ty nm cs kids pos sk v ndt tk]. cbn in ND. unfold tree, build in ND. injection ND as _ _ _ ND _ _ _ _.
    destruct kids as [|k [|k2 kids]]; try discriminate. exists k. split; [reflexivity|]. cbn in ND. injection ND as ND.
    rewrite ND. unfold pair. now rewrite EX. }
  split.
  { assert (LR : (used r <= length rd)%nat).
    { destruct L as [L|L]; [|exact L]. unfold answer, ans in *. destruct (eval fuel g x s f) as [[rx sx]| |] eqn:EXX; [|discriminate..]. injection A as ->.
      assert (HX : honest fuel g s f x).
      { apply (HH (l1 ++ x :: l2)); [rewrite EG|]; rewrite in_app_iff; right; now left. }
      specialize (HX _ _ EXX). apply f_equal with (f := @length Z) in HX. rewrite app_length in HX. unfold used. lia. }
    unfold used at 1. rewrite HR, HU, U, skipn_length. lia. }
  split.
  - intros y I. destruct (R1 y I) as (ry & AY & MY). exists ry. split; [exact AY|]. unfold matched in MY. now destruct (r_node ry).
  - intros y I. destruct (R2 y I) as (ry & AY & MY). exists ry. split; [exact AY|]. unfold matched in MY. destruct (r_node ry); [auto|congruence].
Qed.

Theorem choice_tie pre grp post rs : wfRule (RChoice b (pre ++ grp :: post)) ->
  (forall gr x, In gr (pre ++ grp :: post) -> In x gr -> honest fuel g s f x) ->
  (forall y, In y (concat pre) -> exists ry, answer fuel g s f y = Some ry /\ r_node ry = None) ->
  answers fuel g s f grp rs -> (exists r, In r rs /\ matched r = true) -> ~ hasGreediest rs ->
  exists res s', eval (S fuel) g (RChoice b (pre ++ grp :: post)) s f = Ok (res, s') /\ r_node res = None /\ exists nm ns, r_err res = Some (EAmbiguity nm ns).
Proof.
  intros W HH HP A M NG. pose proof (choice_eval _ W HH) as H.
  assert (HP' : forall y, In y (concat pre) -> exists ry, ans (eval fuel g) s f y = Some ry /\ matched ry = false).
  { intros y I. destruct (HP y I) as (ry & X & Y). exists ry. split; [exact X|]. unfold matched. now rewrite Y. }
  destruct (pure_tie (eval fuel g) s f b pre grp post rs 0 true HP' A M NG) as (rd & un & st' & P). rewrite P in H.
  destruct H as (res & s' & E & HN & _ & _ & _ & _ & _ & HE). exists res, s'. split; [exact E|]. split; [|auto]. now destruct (r_node res).
Qed.

Lemma wf_perm pre grp grp' post : Permutation grp grp' -> wfRule (RChoice b (pre ++ grp :: post)) -> wfRule (RChoice b (pre ++ grp' :: post)).
Proof.
  intros P W. inversion W as [| | | | | | | | |? ? W1 W2 W3| |]; subst. constructor.
  - rewrite concat_app, app_length in *. cbn [concat] in *. rewrite app_length in *. rewrite <- (Permutation_length P). exact W1.
  - intros gr I. rewrite in_app_iff in I. destruct I as [I|[<-|I]].
    + apply W2. rewrite in_app_iff. auto.
    + intros ->. apply Permutation_sym, Permutation_nil in P. apply (W2 grp); [|exact P]. rewrite in_app_iff. right. now left.
    + apply W2. rewrite in_app_iff. right. now right.
  - intros gr x I J. rewrite in_app_iff in I. destruct I as [I|[<-|I]].
    + apply (W3 gr); [rewrite in_app_iff|]; auto.
    + apply (W3 grp); [rewrite in_app_iff; right; now left|]. eapply Permutation_in; [apply Permutation_sym; eauto|exact J].
    + apply (W3 gr); [rewrite in_app_iff; right; now right|exact J].
Qed.

Theorem choice_unordered pre grp grp' post res s' : wfRule (RChoice b (pre ++ grp :: post)) -> Permutation grp grp' ->
  (forall gr x, In gr (pre ++ grp :: post) -> In x gr -> honest fuel g s f x) ->
  (forall rs, answers fuel g s f grp rs -> hasGreediest rs -> NoDup (List.map used (List.filter matched rs))) ->
  eval (S fuel) g (RChoice b (pre ++ grp :: post)) s f = Ok (res, s') ->
  exists res2 s2, eval (S fuel) g (RChoice b (pre ++ grp' :: post)) s f = Ok (res2, s2) /\
    option_map erase (r_node res2) = option_map erase (r_node res) /\ r_read res2 = r_read res /\ r_unused res2 = r_unused res /\
    r_sticky res2 = r_sticky res /\ rest s2 = rest s'.
Proof.
  intros W P HH HN E. pose proof (choice_eval _ W HH) as H. destruct (pureChoice _ _ _ _ _ _ _) as [[[[[nd rd] un] st] am]|] eqn:PC.
  2:{ rewrite E in H. destruct H. }
  destruct H as (res0 & s0 & E' & H1 & H2 & H3 & H4 & H5 & _). rewrite E in E'. injection E' as <- <-.
  apply (pure_perm _ _ _ b pre grp grp' post P HN) in PC.
  assert (HH' : forall gr x, In gr (pre ++ grp' :: post) -> In x gr -> honest fuel g s f x).
  { intros gr x I J. rewrite in_app_iff in I. destruct I as [I|[<-|I]].
    - apply (HH gr); [rewrite in_app_iff|]; auto.
    - apply (HH grp); [rewrite in_app_iff; right; now left|]. eapply Permutation_in; [apply Permutation_sym; eauto|exact J].
    - apply (HH gr); [rewrite in_app_iff; right; now right|exact J]. }
  pose proof (choice_eval _ (wf_perm _ _ _ _ P W) HH') as H. rewrite PC in H.
  destruct H as (res2 & s2 & E2 & K1 & K2 & K3 & K4 & K5 & _). exists res2, s2. split; [exact E2|].
  repeat split; try congruence. apply app_inv_head with (l := rd). congruence.
Qed.
End Choice.

(** For concrete cases. *)
Lemma honest_check fuel g s f x :
  match eval fuel g x s f with Ok (res, s') => runes_eqb (rest s) (r_read res ++ rest s') | _ => true end = true -> honest fuel g s f x.
Proof. intros H res s' E. rewrite E in H. now apply runes_eqb_eq. Qed.
Lemma honest_all fuel g s f gs : forallb (forallb (fun x =>
  match eval fuel g x s f with Ok (res, s') => runes_eqb (rest s) (r_read res ++ rest s') | _ => true end)) gs = true ->
  forall grp x, In grp gs -> In x grp -> honest fuel g s f x.
Proof.
  intros H grp x I J. rewrite forallb_forall in H. specialize (H _ I). rewrite forallb_forall in H. now apply honest_check, H.
Qed.
