(** The errors of the evaluators say why the rule fails (C69). *)
From Verif Require Import Base Stream StreamFacts PosFacts CallFacts Node Rule SpecStream SpecRule SpecError TermFacts TermSpec EvalInv RuleFacts SpecEval SemFacts
  SpecEv EvFacts EvDet SpecPlace SpecFault PlaceFacts SpecWhy.

(* ------------------------------------------------------------------ *)
(** ** The furthest error *)

Definition keepErr (x : option eerr * Z) (y : eerr * Z) : option eerr * Z := if snd y >? snd x then (Some (fst y), snd y) else x.
Lemma keepErr_furthest l : forall l0 oe i, furthest l0 oe i ->
  furthest (l0 ++ l) (fst (fold_left keepErr l (oe, i))) (snd (fold_left keepErr l (oe, i))).
Proof.
  induction l as [|[e k] l IH]; intros l0 oe i H; cbn [fold_left]; [now rewrite app_nil_r|].
  change ((e, k) :: l) with ([(e, k)] ++ l). rewrite app_assoc. unfold keepErr at 2 4. cbn [fst snd].
  destruct (Z.gtb_spec k i) as [G|G]; apply IH.
  - assert (X : Forall (fun x => snd x < k) l0 /\ 0 <= i).
    { inversion H as [l' F|l1 e' i' l2 P F1 F2]; subst.
      - split; [|lia]. eapply Forall_impl; [|exact F]. cbn. intros; lia.
      - split; [|lia]. apply Forall_app. split; [eapply Forall_impl; [|exact F1]; cbn; intros; lia|].
        constructor; [cbn; lia|]. eapply Forall_impl; [|exact F2]. cbn. intros; lia. }
    apply fu_some; [lia|apply X|constructor].
  - inversion H as [l' F|l1 e' i' l2 P F1 F2]; subst.
    + constructor. apply Forall_app. split; [exact F|]. constructor; [cbn; lia|constructor].
    + rewrite <- app_assoc. cbn [app]. apply fu_some; auto. apply Forall_app. split; [exact F2|]. constructor; [cbn; lia|constructor].
Qed.

(* ------------------------------------------------------------------ *)
(** ** Ties *)

(** An alternative: the node with the runes used, or the error with its index. *)
Definition tried := (node * nat + eerr * Z)%type.
Definition hits (os : list tried) : list (node * nat) := flat_map (fun o => match o with inl x => [x] | inr _ => [] end) os.
Definition misses (os : list tried) : list (eerr * Z) := flat_map (fun o => match o with inl _ => [] | inr x => [x] end) os.

Definition found (res : result) (x : node * nat) : Prop := r_node res = Some (fst x) /\ countUsed res = Z.of_nat (snd x).

(** None is as long as the longest before it. *)
Definition rising (l : list (node * nat)) : Prop :=
  forall p n v q, l = p ++ (n, v) :: q -> Forall (fun x => (snd x <= v)%nat) p -> Forall (fun x => (snd x < v)%nat) p.
Lemma rising_one x : rising [x].
Proof. intros [|y [|z p]] n v q H; [constructor|discriminate H|discriminate H]. Qed.
Lemma rising_low n v m u l : (u < v)%nat -> rising ((n, v) :: l) -> rising ((n, v) :: (m, u) :: l).
Proof.
  intros L R [|y [|z p]] n' w q H F; [constructor| |]; cbn [app] in H.
  - injection H as <- <- <- <-. inversion F; subst. cbn in *. lia.
  - injection H as <- <- ->. inversion F as [|a b F1 F2]; subst. inversion F2 as [|a b F3 F4]; subst.
    pose proof (R ((n, v) :: p) n' w q eq_refl ltac:(now constructor)) as X. inversion X as [|a b X1 X2]; subst. cbn in *.
    constructor; [exact X1|]. constructor; [cbn; lia|exact X2].
Qed.
Lemma rising_high n v m u l : (v < u)%nat -> rising ((m, u) :: l) -> rising ((n, v) :: (m, u) :: l).
Proof.
  intros L R [|y [|z p]] n' w q H F; [constructor| |]; cbn [app] in H.
  - injection H as <- <- <- <-. constructor; [cbn; lia|constructor].
  - injection H as <- <- ->. inversion F as [|a b F1 F2]; subst.
    pose proof (R ((m, u) :: p) n' w q eq_refl F2) as X. inversion X as [|a b X1 X2]; subst. cbn in *. constructor; [cbn; lia|exact X].
Qed.

(** [selTie] answers two results of equal use, and all before the second, except the first, use less. *)
Lemma selTie_two l ml : Forall2 found l ml -> forall v n0 fnd, found fnd (n0, v) -> selLoop (Z.of_nat v) (Some fnd) l = None ->
  exists l1 n u l2 m l3, (n0, v) :: ml = l1 ++ (n, u) :: l2 ++ (m, u) :: l3 /\ (Forall (fun x => (snd x < u)%nat) (l1 ++ l2) /\ rising (l1 ++ (n, u) :: l2)) /\
    flat_map (fun r => match r_node r with Some n => [n] | None => [] end) (selTie (Z.of_nat v) (Some fnd) l) = [n; m].
Proof.
  induction 1 as [|res [n u] l ml [RN RC] F IH]; intros v n0 fnd [FN FC]; cbn [selLoop selTie]; [discriminate|]. cbn [fst snd] in *. rewrite RC.
  destruct (Z.ltb_spec (Z.of_nat u) (Z.of_nat v)) as [L|L].
  - intros H. destruct (IH v n0 fnd (conj FN FC) H) as (l1 & n1 & u1 & l2 & m & l3 & E & (FA & RI) & T).
    destruct l1 as [|x l1]; cbn [app] in *.
    + injection E as <- <- ->. exists [], n0, v, ((n, u) :: l2), m, l3. split; [reflexivity|]. split; [|exact T].
      cbn [app] in *. split; [constructor; [cbn; lia|exact FA]|]. apply rising_low; [lia|exact RI].
    + injection E as <- ->. exists ((n0, v) :: (n, u) :: l1), n1, u1, l2, m, l3. split; [reflexivity|]. split; [|exact T].
      inversion FA as [|y ys FA1 FA2]; subst. cbn [snd] in FA1. cbn [app]. split; [|apply rising_low; [lia|exact RI]]. constructor; [cbn; lia|]. constructor; [cbn; lia|exact FA2].
  - destruct (Z.eqb_spec (Z.of_nat u) (Z.of_nat v)) as [Q|Q].
    + intros _. assert (u = v) by lia. subst u. exists [], n0, v, [], n, ml. split; [reflexivity|]. split; [split; [constructor|apply rising_one]|]. cbn. now rewrite FN, RN.
    + intros H. destruct (IH u n res (conj RN RC) H) as (l1 & n1 & u1 & l2 & m & l3 & E & (FA & RI) & T).
      rewrite E. exists ((n0, v) :: l1), n1, u1, l2, m, l3. split; [reflexivity|]. split; [|exact T]. cbn [app]. split.
      * constructor; [|exact FA]. cbn [snd].
        destruct l1 as [|x l1]; cbn [app] in *; [injection E as <- <- _; lia|]. injection E as <- _. inversion FA as [|y ys FA1 FA2]; subst. cbn in FA1. lia.
      * destruct l1 as [|x l1]; cbn [app] in *; injection E; intros; subst; (apply rising_high; [lia|exact RI]).
Qed.
Lemma select_tied l ml : Forall2 found l ml -> select l = None ->
  exists l1 n u l2 m l3, ml = l1 ++ (n, u) :: l2 ++ (m, u) :: l3 /\ (Forall (fun x => (snd x < u)%nat) (l1 ++ l2) /\ rising (l1 ++ (n, u) :: l2)) /\ tied l = [n; m].
Proof.
  intros F. inversion F as [|res [n u] l' ml' R F' E1 E2]; subst; [discriminate|]. intros H. unfold tied.
  assert (SL : selLoop 0 None (res :: l') = selLoop (Z.of_nat u) (Some res) l' /\ selTie 0 None (res :: l') = selTie (Z.of_nat u) (Some res) l').
  { cbn [selLoop selTie]. destruct R as [_ R]. cbn in R. rewrite R. replace (Z.of_nat u <? 0) with false by lia.
    destruct (Z.eqb_spec (Z.of_nat u) 0) as [->|]; auto. }
  destruct l' as [|r2 l']; [discriminate|]. cbn [select] in H. destruct SL as [SL ST]. rewrite SL in H. rewrite ST. now apply (selTie_two _ ml').
Qed.

Lemma split_hits os l1 x l2 : hits os = l1 ++ x :: l2 -> exists a b, os = a ++ inl x :: b /\ hits a = l1 /\ hits b = l2.
Proof.
  revert l1. induction os as [|o os IH]; intros l1 H; [destruct l1; discriminate|]. cbn [hits flat_map] in H. destruct o as [y|y].
  - cbn [app] in H. destruct l1 as [|z l1]; injection H as -> H.
    + exists [], os. auto.
    + apply IH in H as (a & b & -> & <- & <-). exists (inl z :: a), b. auto.
  - cbn [app] in H. apply IH in H as (a & b & -> & <- & <-). exists (inr y :: a), b. auto.
Qed.
Lemma Forall2_app_r {A B} (P : A -> B -> Prop) l m1 x m2 : Forall2 P l (m1 ++ x :: m2) ->
  exists l1 y l2, l = l1 ++ y :: l2 /\ Forall2 P l1 m1 /\ P y x /\ Forall2 P l2 m2.
Proof.
  intros H. apply Forall2_app_inv_r in H as (l1 & l2' & H1 & H2 & ->). inversion H2 as [|y z l2 m PY F]; subst. exists l1, y, l2. auto.
Qed.

(* ------------------------------------------------------------------ *)
(** ** Steps *)

Section Why.
Variables (T : list Z) (g : rules_t).
Hypothesis HG : wfRules g.

Definition base (t : list Z) : Z := Z.of_nat (length T) - Z.of_nat (length t).
Lemma base_skip t p : (p <= length t)%nat -> base (skipn p t) = base t + Z.of_nat p.
Proof. intros L. unfold base. rewrite skipn_length. lia. Qed.
Lemma base_cursor s m t : onText T s -> rest s = skipn m t -> (m <= length t)%nat -> cursor s = base t + Z.of_nat m.
Proof. intros O R L. destruct (on_cursor T s O) as [H _]. rewrite R, skipn_length in H. unfold base. lia. Qed.

Variable fu : nat.
Notation rec := (eval fu g).
Notation srec := (sem fu g).
Lemma recLock_text : recLock (onText T) (coversText T) (faultText T) rec srec.
Proof. intros r f s t W C E O. exact (sem_lockK _ _ _ g fu (text_keeps T) HG r f s t W C E O). Qed.

Hypothesis IHw : forall r f s t y res s', wfRule r -> clean t -> rest s = t -> onText T s -> srec r f t = SOk y -> rec r s f = Ok (res, s') ->
  r_node res = None -> exists e, r_err res = Some e /\ Why g r f t (base t) e (r_erridx res).

Lemma callW s0 t p m s r f y : rest s0 = t -> clean t -> wfRule r -> at_ s0 t p m s -> onText T s -> srec r f (skipn p t) = SOk y ->
  exists res s', rec r s f = Ok (res, s') /\ says (skipn p t) y res /\ (p + reads y <= length t)%nat /\
    at_ s0 t (p + reads y) (Nat.max m (p + reads y)) s' /\ onText T s' /\ Ev g r f (skipn p t) (noAmb y) /\
    (r_node res = None -> exists e, r_err res = Some e /\ Why g r f (skipn p t) (base t + Z.of_nat p) e (r_erridx res)).
Proof.
  intros E C W A O Y. pose proof (call _ _ _ _ _ recLock_text s0 t p m s r f E C W A O) as H. rewrite Y in H.
  destruct H as (res & s' & EV & SA & LK & M & A' & O' & _). exists res, s'. split; [exact EV|]. split; [exact SA|]. split; [exact LK|].
  split; [exact A'|]. split; [exact O'|]. split; [exact (sem_sound _ _ _ _ _ _ Y)|].
  intros N. rewrite <- base_skip by lia. apply (IHw r f s (skipn p t) y res s'); auto; [now apply clean_skipn|exact (at_rest _ _ _ _ _ E A)].
Qed.

Lemma concat_why b s0 t f0 : rest s0 = t -> clean t -> forall rules pre,
  descOk (RConcat b (pre ++ rules)) = true -> (forall x, In x rules -> wfRule x) -> forall s f p m read unused sticky sk kids pos y res s',
  between s0 t p m (negb (isLast rules)) s read unused -> onText T s -> inTurn g f0 t pre p f ->
  semSeq srec b rules t f p m sticky sk = SOk y ->
  concatLoop rec b (RConcat b (pre ++ rules)) (depth s0) rules s f read unused sticky kids pos = Ok (res, s') -> r_node res = None ->
  exists e, r_err res = Some e /\ Why g (RConcat b (pre ++ rules)) f0 t (base t) e (r_erridx res).
Proof.
  intros E C. induction rules as [|r rules IH]; intros pre Hd W s f p m read unused sticky sk kids pos y res s' B O IT SS EV N; cbn [concatLoop semSeq] in *.
  - injection EV as <- <-. discriminate.
  - cbn [isLast negb] in B. destruct (srec r f (skipn p t)) as [y1| |] eqn:Y1; cbn [sbind] in SS; [|discriminate..].
    destruct (callW s0 t p m _ r f y1 E C (W r (or_introl eq_refl)) (between_at _ _ _ _ _ _ _ B) (on_prepend _ _ _ O) Y1)
      as (res1 & s2 & E1 & SA & LK & A & O2 & V & WH). rewrite E1 in EV. cbn [bind] in EV.
    assert (HF : r_node res1 = None -> exists e, r_err res = Some e /\ Why g (RConcat b (pre ++ r :: rules)) f0 t (base t) e (r_erridx res)).
    { intros N1. destruct (WH N1) as (e & EE & WE). rewrite N1 in EV. destruct (account read unused res1) as [[rd un]| |]; cbn [bind] in EV; [|discriminate..].
      rewrite Hd in EV. injection EV as <- <-. cbn [r_err r_erridx]. rewrite EE. eexists. split; [reflexivity|]. eapply wh_concat; eauto. }
    destruct y1 as [n u k st|k st|k]; cbn [reads noAmb] in *; [|apply HF; apply SA..].
    destruct (safe (isLast rules) p m u k) eqn:SF; [|discriminate]. rewrite <- (negb_involutive (isLast rules)) in SF.
    destruct (between_step _ _ _ _ _ _ _ _ _ _ _ _ _ _ B SA LK A SF) as (read' & unused' & EA & B'). rewrite EA in EV. cbn [bind] in EV.
    destruct SA as (_ & _ & LU & _ & ES & nd & EN & EE). rewrite EN, nextFlag_mode, EE, ES in EV.
    replace (pre ++ r :: rules) with ((pre ++ [r]) ++ rules) in * by now rewrite <- app_assoc.
    eapply IH; eauto; [intros x Hx; apply W; now right|]. econstructor; eauto.
Qed.

Lemma rep_why b x mn mx s0 t f : rest s0 = t -> clean t -> descOk (RRep b x mn mx) = true -> wfRule x -> forall fuel
  s p m read unused sticky sk kids pos y res s',
  between s0 t p m true s read unused -> onText T s -> again g x mx f t p (length kids) -> room mx (length kids) -> length sk = length kids ->
  semRep srec fuel b x mn mx t f p m sticky sk = SOk y ->
  repLoop rec fuel b (RRep b x mn mx) x mn mx (depth s0) s f read unused sticky kids pos = Ok (res, s') -> r_node res = None ->
  exists e p n, r_err res = Some e /\ r_erridx res = cursor s' /\ again g x mx f t p n /\ Z.of_nat n < mn /\
    ((skipn p t <> [] /\ room mx n /\ exists i, Why g x f (skipn p t) (base t + Z.of_nat p) e i) \/
     (e = ERepMin (RRep b x mn mx) n /\ (skipn p t = [] \/ ~ room mx n))).
Proof.
  intros E C Hd W. induction fuel as [|fuel IH]; intros s p m read unused sticky sk kids pos y res s' B O AG RM LK0 SS EV N; cbn [repLoop semRep] in *; [discriminate|].
  pose proof (between_at _ _ _ _ _ _ _ B) as A0.
  rewrite (peek_eof _ (at_clean _ _ _ _ _ E C A0)), (at_rest _ _ _ _ _ E A0) in EV.
  assert (DN : forall idx err ei rd un st kd ps s1 r, repDone b (RRep b x mn mx) mn idx err ei rd un st kd ps = Ok r -> r_node r = None -> idx = cursor s1 ->
    (forall e, err = Some e -> ei = cursor s1) ->
    Z.of_nat (length kd) < mn /\ r_erridx r = cursor s1 /\ r_err r = Some (match err with Some e => e | None => ERepMin (RRep b x mn mx) (length kd) end)).
  { intros idx err ei rd un st kd ps s1 r H NN EI EEI. unfold repDone in H. destruct (Z.ltb_spec (Z.of_nat (length kd)) mn) as [L|L].
    - destruct err as [e|]; [|rewrite Hd in H]; injection H as <-; cbn [r_erridx r_err]; split; auto. split; [now eapply EEI|reflexivity].
    - injection H as <-. discriminate. }
  destruct (skipn p t) as [|c0 l0] eqn:ESK.
  - destruct (repDone _ _ _ _ _ _ _ _ _ _ _) as [r1| |] eqn:ED; cbn [bind] in EV; [|discriminate..]. injection EV as <- <-.
    destruct (DN _ _ _ _ _ _ _ _ _ _ ED N eq_refl ltac:(discriminate)) as (L & EI & EE). exists (ERepMin (RRep b x mn mx) (length kids)), p, (length kids). auto 10.
  - assert (NE : skipn p t <> []) by (rewrite ESK; discriminate). rewrite <- ESK in SS. clear ESK c0 l0.
    destruct (srec x f (skipn p t)) as [y1| |] eqn:Y1; cbn [sbind] in SS; [|discriminate..].
    destruct (callW s0 t p m _ x f y1 E C W A0 (on_prepend _ _ _ O) Y1) as (res1 & s2 & E1 & SA & LK & A & O2 & V & WH).
    rewrite E1 in EV. cbn [bind] in EV. destruct y1 as [n u k st|k st|k]; cbn [reads noAmb] in *; [| |discriminate].
    + rewrite LK0 in SS. set (full := (mx >? 0) && (Z.of_nat (S (length kids)) =? mx)) in *.
      destruct (safe full p m u k) eqn:SF; [|discriminate]. rewrite <- (negb_involutive full) in SF.
      destruct (between_step _ _ _ _ _ _ _ _ _ _ _ _ _ _ B SA LK A SF) as (read' & unused' & EA & B'). rewrite EA in EV. cbn [bind] in EV.
      destruct SA as (_ & _ & LU & _ & ES & nd & EN & EE). rewrite EN, ES in EV.
      change (Z.of_nat (length (nd :: kids))) with (Z.of_nat (S (length kids))) in EV. fold full in EV.
      assert (AG' : again g x mx f t (p + u) (length (nd :: kids))) by (cbn [length]; econstructor; eauto).
      destruct full eqn:EF; cbn [negb] in B'.
      * destruct (repDone _ _ _ _ _ _ _ _ _ _ _) as [r1| |] eqn:ED; cbn [bind] in EV; [|discriminate..]. injection EV as <- <-.
        destruct (DN _ _ _ _ _ _ _ _ _ _ ED N eq_refl ltac:(discriminate)) as (L & EI & EE2).
        exists (ERepMin (RRep b x mn mx) (length (nd :: kids))), (p + u)%nat, (length (nd :: kids)). split; [exact EE2|]. split; [exact EI|]. split; [exact AG'|]. split; [exact L|].
        right. split; [reflexivity|]. right. unfold full in EF. apply andb_true_iff in EF as [F1 F2]. apply Z.gtb_lt in F1. apply Z.eqb_eq in F2. cbn [length]. unfold room. lia.
      * eapply (IH s2 (p + u)%nat _ _ _ _ (n :: sk) (nd :: kids)); [exact B'|exact O2|exact AG'| |cbn [length]; now rewrite LK0|exact SS|exact EV|exact N].
        unfold full in EF. unfold room in *. cbn [length]. apply andb_false_iff in EF as [F1|F1]; [rewrite Z.gtb_ltb in F1; apply Z.ltb_ge in F1; lia|]. apply Z.eqb_neq in F1. lia.
    + destruct SA as (_ & _ & EN & _). rewrite EN in EV. destruct (account read unused res1) as [[rd un]| |]; cbn [bind] in EV; [|discriminate..].
      destruct (repDone _ _ _ _ _ _ _ _ _ _ _) as [r1| |] eqn:ED; cbn [bind] in EV; [|discriminate..]. injection EV as <- <-.
      destruct (DN _ _ _ _ _ _ _ _ _ _ ED N eq_refl ltac:(reflexivity)) as (L & EI & EE). destruct (WH EN) as (e & E2 & WE). rewrite E2 in EE.
      exists e, p, (length kids). split; [exact EE|]. split; [exact EI|]. split; [exact AG|]. split; [exact L|]. left. split; [exact NE|]. split; [exact RM|]. eauto.
Qed.

(* ---------------- alternatives ---------------- *)

Definition attempt (f : Z) (t : list Z) (x : rule) (o : tried) : Prop :=
  match o with
  | inl (n, u) => exists k st, Ev g x f t (OMatch (erase n) u k st)
  | inr (e, i) => Why g x f t (base t) e i /\ fails g x f t
  end.

Definition bare (l : list (node * nat)) : list (node * nat) := List.map (fun x => (erase (fst x), snd x)) l.
Lemma alts_why s0 t f : rest s0 = t -> clean t -> forall rules, (forall x, In x rules -> wfRule x) ->
  forall s m sticky sk maxErr maxIdx matched ml0 ml m' st', at_ s0 t m m s -> depth s = depth s0 -> onText T s ->
  semAlts srec rules t f m sk ml0 = SOk (ml, m', st') ->
  exists os l maxRead sticky' s', Forall2 (attempt f t) rules os /\
    altLoop rec (depth s0) rules s f (firstn m t) sticky maxErr maxIdx matched =
      Ok (rev matched ++ l, maxRead, sticky', fst (fold_left keepErr (misses os) (maxErr, maxIdx)), snd (fold_left keepErr (misses os) (maxErr, maxIdx)), s') /\
    maxRead = firstn m' t /\ ml = rev ml0 ++ bare (hits os) /\ Forall2 found l (hits os) /\ at_ s0 t m' m' s' /\ depth s' = depth s0 /\ onText T s'.
Proof.
  intros E C. induction rules as [|r rules IH]; intros W s m sticky sk maxErr maxIdx matched ml0 ml m' st' A D O SS; cbn [semAlts altLoop] in *.
  - injection SS as <- <- <-. exists [], [], (firstn m t), sticky, s. cbn [misses hits flat_map fold_left fst snd]. cbn [bare List.map]. rewrite !app_nil_r. auto 12.
  - assert (A0 : at_ s0 t 0 m (prepend s (firstn m t))) by (apply (at_prepend s0 t 0 m m s); exact A).
    destruct (srec r f t) as [y1| |] eqn:Y1; cbn [sbind] in SS; [|discriminate..].
    destruct (callW s0 t 0 m _ r f y1 E C (W r (or_introl eq_refl)) A0 (on_prepend _ _ _ O) Y1) as (res1 & s2 & E1 & SA & LK & A2 & O2 & V & WH).
    cbn [skipn Nat.add] in *. rewrite Z.add_0_r in WH. rewrite E1. cbn [bind]. pose proof A0 as (_ & _ & LM & _).
    assert (ER : (if (length (firstn m t) <? length (r_read res1))%nat then r_read res1 else firstn m t) = firstn (Nat.max m (reads y1)) t).
    { destruct SA as (_ & R & _). rewrite R, !firstn_length.
      destruct (Nat.ltb_spec (Nat.min m (length t)) (Nat.min (reads y1) (length t))); f_equal; lia. }
    rewrite ER. pose proof (at_unwrap _ _ _ _ _ A2) as A3.
    assert (D3 : depth (unwrap (depth s0) s2) = depth s0) by (apply unwrap_depth; apply A2).
    assert (W' : forall x, In x rules -> wfRule x) by (intros x Hx; apply W; now right).
    assert (HF : forall k st sk', noAmb y1 = OFail k st -> r_node res1 = None -> semAlts srec rules t f (Nat.max m (reads y1)) sk' ml0 = SOk (ml, m', st') ->
      exists os l maxRead sticky' s', Forall2 (attempt f t) (r :: rules) os /\
        (if r_erridx res1 >? maxIdx
         then altLoop rec (depth s0) rules (unwrap (depth s0) s2) f (firstn (Nat.max m (reads y1)) t) (sticky && r_sticky res1) (r_err res1) (r_erridx res1) matched
         else altLoop rec (depth s0) rules (unwrap (depth s0) s2) f (firstn (Nat.max m (reads y1)) t) (sticky && r_sticky res1) maxErr maxIdx matched) =
          Ok (rev matched ++ l, maxRead, sticky', fst (fold_left keepErr (misses os) (maxErr, maxIdx)), snd (fold_left keepErr (misses os) (maxErr, maxIdx)), s') /\
        maxRead = firstn m' t /\ ml = rev ml0 ++ bare (hits os) /\ Forall2 found l (hits os) /\ at_ s0 t m' m' s' /\ depth s' = depth s0 /\ onText T s').
    { intros k st sk' EO N SS'. destruct (WH N) as (e & EE & WE). rewrite EO in V.
      assert (AT : attempt f t r (inr (e, r_erridx res1))) by (split; [exact WE|now exists k, st]).
      destruct (r_erridx res1 >? maxIdx) eqn:EG.
      - destruct (IH W' (unwrap (depth s0) s2) (Nat.max m (reads y1)) (sticky && r_sticky res1) sk' (Some e) (r_erridx res1) matched ml0 ml m' st' A3 D3 (on_unwrap _ _ _ O2) SS') as
          (os & l & mr & sy & s' & FO & EL & X).
        exists (inr (e, r_erridx res1) :: os), l, mr, sy, s'. split; [now constructor|]. rewrite EE, EL. split; [|exact X].
        change (misses (inr (e, r_erridx res1) :: os)) with ((e, r_erridx res1) :: misses os). cbn [fold_left].
        replace (keepErr (maxErr, maxIdx) (e, r_erridx res1)) with (Some e, r_erridx res1) by (unfold keepErr; cbn [fst snd]; now rewrite EG). reflexivity.
      - destruct (IH W' (unwrap (depth s0) s2) (Nat.max m (reads y1)) (sticky && r_sticky res1) sk' maxErr maxIdx matched ml0 ml m' st' A3 D3 (on_unwrap _ _ _ O2) SS') as
          (os & l & mr & sy & s' & FO & EL & X).
        exists (inr (e, r_erridx res1) :: os), l, mr, sy, s'. split; [now constructor|]. rewrite EL. split; [|exact X].
        change (misses (inr (e, r_erridx res1) :: os)) with ((e, r_erridx res1) :: misses os). cbn [fold_left].
        replace (keepErr (maxErr, maxIdx) (e, r_erridx res1)) with (maxErr, maxIdx) by (unfold keepErr; cbn [fst snd]; now rewrite EG). reflexivity. }
    destruct y1 as [n u k st|k st|k]; cbn [reads noAmb] in *.
    + clear HF. pose proof (says_count _ _ _ _ _ _ SA) as CU. destruct SA as (_ & _ & LU & _ & _ & nd & EN & EE). rewrite EN.
      destruct (IH W' (unwrap (depth s0) s2) (Nat.max m k) (sticky && r_sticky res1) (sk && st) maxErr maxIdx (res1 :: matched) ((n, u) :: ml0) ml m' st' A3 D3 (on_unwrap _ _ _ O2) SS) as
          (os & l & mr & sy & s' & FO & EL & EM & EB & FF & X).
      exists (inl (nd, u) :: os), (res1 :: l), mr, sy, s'. split; [constructor; [|exact FO]; exists k, st; now rewrite EE|].
      rewrite EL. cbn [rev]. rewrite <- app_assoc. split; [reflexivity|]. split; [exact EM|]. split; [|split; [constructor; [split; auto|exact FF]|exact X]].
      rewrite EB. cbn [rev hits flat_map app bare List.map fst snd]. now rewrite <- app_assoc, EE.
    + destruct SA as (_ & _ & EN & _). rewrite EN. eapply HF; eauto.
    + destruct SA as (_ & _ & EN & _). rewrite EN. eapply HF; eauto.
Qed.

Lemma hits_whys f t rules os : Forall2 (attempt f t) rules os -> hits os = [] ->
  Whys g rules f t (base t) (misses os) /\ Forall (fun z => fails g z f t) rules.
Proof.
  induction 1 as [|x o rules os AT F IH]; intros H; [split; constructor|]. destruct o as [o|[e i]]; [discriminate|].
  destruct (IH H) as [I1 I2]. destruct AT as [A1 A2]. split; [now constructor|now constructor].
Qed.
Lemma Whys_app r1 r2 f t a l1 l2 : Whys g r1 f t a l1 -> Whys g r2 f t a l2 -> Whys g (r1 ++ r2) f t a (l1 ++ l2).
Proof. induction 1; intros; cbn [app]; [assumption|]. constructor; auto. Qed.
Lemma attempts_shorter f t rules os u : Forall2 (attempt f t) rules os -> Forall (fun x => (snd x < u)%nat) (hits os) -> Forall (shorter g f t u) rules.
Proof.
  induction 1 as [|x o rules os AT F IH]; intros H; [constructor|]. destruct o as [[n v]|[e i]]; cbn [hits flat_map app] in H.
  - inversion H as [|y ys H1 H2]; subst. constructor; [|now apply IH]. destruct AT as (k & st & V). eexists. split; [exact V|exact H1].
  - constructor; [|now apply IH]. destruct AT as (_ & k & st & V). eexists. split; [exact V|exact I].
Qed.

Lemma hits_app o1 o2 : hits (o1 ++ o2) = hits o1 ++ hits o2.
Proof. unfold hits. apply flat_map_app. Qed.
Lemma shorter_hits f t rules os v : Forall2 (attempt f t) rules os -> Forall (shorter g f t (S v)) rules -> Forall (fun x => (snd x <= v)%nat) (hits os).
Proof.
  induction 1 as [|x o rules os AT F IH]; intros H; [constructor|]. inversion H as [|y ys (oo & V & L) H2]; subst. specialize (IH H2).
  destruct o as [[n u]|[e i]]; [|exact IH]. cbn [hits flat_map app]. constructor; [|exact IH]. destruct AT as (k & st & V').
  rewrite (ev_det _ _ _ _ _ _ V V') in L. cbn in *. lia.
Qed.
Lemma attempts_rising f t rules os : Forall2 (attempt f t) rules os -> rising (hits os) -> noTie g f t rules.
Proof.
  intros F R p z q n v k st -> V FP. apply Forall2_app_inv_l in F as (o1 & o2 & F1 & F2 & ->). inversion F2 as [|a o b c AT F3]; subst.
  destruct o as [[nz u]|[e i]]; [|destruct AT as (_ & k' & st' & V'); pose proof (ev_det _ _ _ _ _ _ V V') as X; discriminate X].
  destruct AT as (k' & st' & V'). pose proof (ev_det _ _ _ _ _ _ V V') as X. injection X as -> <- <- <-.
  rewrite hits_app in R. apply (attempts_shorter f t p o1 v F1). apply (R (hits o1) nz v (hits c)); [reflexivity|]. now apply (shorter_hits f t p).
Qed.

Lemma choice_why b s0 t f : rest s0 = t -> clean t -> forall groups done,
  descOk (RChoice b (done ++ groups)) = true -> (forall grp x, In grp groups -> In x grp -> wfRule x) ->
  forall s m sticky sk maxErr maxIdx l y res s', at_ s0 t m m s -> depth s = depth s0 -> onText T s ->
  Whys g (concat done) f t (base t) l -> Forall (Forall (fun z => fails g z f t)) done -> furthest l maxErr maxIdx ->
  semChoice srec b groups t f m sk = SOk y ->
  choiceLoop rec b (RChoice b (done ++ groups)) (depth s0) groups s f (firstn m t) sticky maxErr maxIdx = Ok (res, s') -> r_node res = None ->
  fails g (RChoice b (done ++ groups)) f t -> exists e, r_err res = Some e /\ Why g (RChoice b (done ++ groups)) f t (base t) e (r_erridx res).
Proof.
  intros E C. induction groups as [|grp groups IH]; intros done Hd W s m sticky sk maxErr maxIdx l y res s' A D O WS FD FU SS EV N FA; cbn [semChoice choiceLoop] in *.
  - rewrite Hd in EV. injection EV as <- <-. cbn [r_err r_erridx]. eexists. split; [reflexivity|]. eapply wh_choice; [|exact FU]. now rewrite app_nil_r.
  - destruct (semAlts srec grp t f m sk []) as [[[ml m'] st']| |] eqn:SA; cbn [sbind] in SS; [|discriminate..].
    destruct (alts_why s0 t f E C grp (fun x Hx => W grp x (or_introl eq_refl) Hx) s m sticky sk maxErr maxIdx [] [] ml m' st' A D O SA)
      as (os & la & mr & sy & s1 & FO & EL & -> & EB & FF & A1 & D1 & O1).
    rewrite EL in EV. cbn [bind rev app] in EV. pose proof (keepErr_furthest (misses os) l maxErr maxIdx FU) as FU'.
    destruct (select la) as [[found|]|] eqn:ES.
    + destruct (r_node found); [|discriminate]. destruct (slice_from _ _); cbn [bind] in EV; [|discriminate..]. injection EV as <- <-. discriminate.
    + assert (HN : hits os = []).
      { destruct la as [|r1 [|r2 la]]; [inversion FF; reflexivity|discriminate|]. exfalso. cbn [select] in ES.
        inversion FF as [|a [n u] b' c R F' X1 X2]; subst. remember (r2 :: la) as la2. cbn [selLoop] in ES. destruct R as [_ R]. cbn in R. rewrite R in ES.
        replace (Z.of_nat u <? 0) with false in ES by lia.
        assert (Y : forall l mu fnd, selLoop mu (Some fnd) l <> Some None).
        { clear. induction l as [|r l IH]; intros mu fnd; cbn [selLoop]; [discriminate|].
          destruct (countUsed r <? mu); [apply IH|]. destruct (countUsed r =? mu); [discriminate|apply IH]. }
        destruct (Z.of_nat u =? 0); now apply Y in ES. }
      destruct (hits_whys f t grp os FO HN) as [WG FG].
      assert (EP : semChoice srec b groups t f m' st' = SOk y).
      { rewrite HN in EB. cbn [rev bare List.map app] in EB. now rewrite EB in SS. }
      replace (done ++ grp :: groups) with ((done ++ [grp]) ++ groups) in * by now rewrite <- app_assoc.
      eapply (IH (done ++ [grp])) with (l := l ++ misses os); eauto.
      * intros; eapply W; [right|]; eauto.
      * rewrite concat_app. cbn [concat]. rewrite app_nil_r. now apply Whys_app.
      * apply Forall_app. split; [exact FD|]. now constructor.
    + injection EV as <- <-. cbn [r_err r_erridx]. eexists. split; [reflexivity|].
      destruct (select_tied la (hits os) FF ES) as (l1 & n & u & l2 & k & l3 & EH & (FL & RI) & ->).
      apply split_hits in EH as (o1 & o2' & -> & H1 & EH). symmetry in EH. symmetry in EH. apply split_hits in EH as (o2 & o3 & -> & H2 & H3).
      apply Forall2_app_r in FO as (r1 & x & r' & -> & F1 & AX & FO). apply Forall2_app_r in FO as (r2 & z & r3 & -> & F2 & AZ & F3).
      destruct AX as (kx & sx & VX). destruct AZ as (kz & sz & VZ).
      eapply wh_tie; eauto.
      * apply Forall_app in FL as [FL1 FL2]. apply Forall_app. split; eapply attempts_shorter; eauto; [now rewrite H1|now rewrite H2].
      * apply (attempts_rising f t _ (o1 ++ inl (n, u) :: o2)); [apply Forall2_app; [exact F1|]; constructor; [now exists kx, sx|exact F2]|].
        rewrite hits_app. cbn [hits flat_map app]. fold (hits o2). now rewrite H1, H2.
Qed.

(* ---------------- blocks ---------------- *)

Lemma semAlts_all rules t f : forall m sk ml0 ml m' st', semAlts srec rules t f m sk ml0 = SOk (ml, m', st') ->
  exists l, ml = rev ml0 ++ l /\ (forall n u, In (n, u) l -> exists x k st, In x rules /\ Ev g x f t (OMatch n u k st)) /\
    (forall x, In x rules -> exists o, Ev g x f t o /\ match o with OMatch n u _ _ => In (n, u) l | OFail _ _ => True end).
Proof.
  induction rules as [|r rules IH]; intros m sk ml0 ml m' st' H; cbn [semAlts] in H.
  - injection H as <- <- <-. exists []. rewrite app_nil_r. split; [reflexivity|]. split; [intros n u []|intros x []].
  - destruct (srec r f t) as [y| |] eqn:Y; cbn [sbind] in H; [|discriminate..]. pose proof (sem_sound _ _ _ _ _ _ Y) as V.
    assert (X : forall sk' k st, noAmb y = OFail k st -> semAlts srec rules t f (Nat.max m (reads y)) sk' ml0 = SOk (ml, m', st') ->
      exists l, ml = rev ml0 ++ l /\ (forall n u, In (n, u) l -> exists x k st, In x (r :: rules) /\ Ev g x f t (OMatch n u k st)) /\
      (forall x, In x (r :: rules) -> exists o, Ev g x f t o /\ match o with OMatch n u _ _ => In (n, u) l | OFail _ _ => True end)).
    { intros sk' k st EO H'. destruct (IH _ _ _ _ _ _ H') as (l & EM & H1 & H2). exists l. split; [exact EM|]. split.
      - intros n u I0. destruct (H1 n u I0) as (x & k0 & st0 & IX & VX). exists x, k0, st0. split; [now right|exact VX].
      - intros x [<-|IX]; [|now apply H2]. exists (noAmb y). split; [exact V|]. rewrite EO. exact I. }
    destruct y as [n u k st|k st|k]; cbn [noAmb reads] in *; [|eapply X; eauto..]. clear X.
    destruct (IH _ _ _ _ _ _ H) as (l & EM & H1 & H2). exists ((n, u) :: l). split; [rewrite EM; cbn [rev]; now rewrite <- app_assoc|]. split.
    + intros n0 u0 [[= <- <-]|I0]; [exists r, k, st; split; [now left|exact V]|]. destruct (H1 n0 u0 I0) as (x & k0 & st0 & IX & VX). exists x, k0, st0. split; [now right|exact VX].
    + intros x [<-|IX]; [eexists; split; [exact V|]; now left|]. destruct (H2 x IX) as (o & VO & HO). exists o. split; [exact VO|]. destruct o; [now right|exact I].
Qed.
Lemma passed_quiet cl esc xs t q : passedBy srec cl esc xs t q -> quiet g cl esc xs t q.
Proof.
  intros ((k & st & HC) & HE & HX). split; [|split].
  - exists k, st. exact (sem_sound _ _ _ _ _ _ HC).
  - intros e EE. destruct (HE e EE) as (y & Y & NM). apply sem_sound in Y. destruct y as [n u k0 s0|k0 s0|k0]; [now destruct (NM n u k0 s0)|eexists; eexists; exact Y..].
  - intros x IX. destruct HX as (ml & k0 & st0 & SA & PN); [intros ->; destruct IX|]. apply pick_none in PN. subst ml.
    destruct (semAlts_all _ _ _ _ _ _ _ _ _ SA) as (l & EM & _ & H2). cbn [rev app] in EM. subst l. destruct (H2 x IX) as (o & VO & HO). destruct o; [destruct HO|]. eexists; eexists; exact VO.
Qed.

Lemma block_why fuel b o v c esc xs f s t y res s' : rest s = t -> clean t -> onText T s -> wfRule (RBlock b o v c esc xs) ->
  semBlock srec fuel b o v c esc xs t f = SOk y -> evalBlock rec fuel b o v c esc xs s f = Ok (res, s') -> r_node res = None ->
  onText T s' -> moves (reads y) s s' -> (reads y <= length t)%nat -> (exists k st, Ev g (RBlock b o v c esc xs) f t (OFail k st) /\ k = reads y) ->
  exists e, r_err res = Some e /\ Why g (RBlock b o v c esc xs) f t (base t) e (r_erridx res).
Proof.
  intros E C O W SB EB N O' M LR (kb & sb & VB & EKB). unfold semBlock, evalBlock in *.
  assert (CU : cursor s' = base t + Z.of_nat kb).
  { rewrite EKB. apply (base_cursor _ (reads y)); [exact O'| |exact LR]. rewrite (moves_rest _ _ _ M). now rewrite E. }
  inversion W as [| | | | | | | | | | |? ? ? ? ? ? WO WC WE WX]; subst.
  destruct (srec o f (rest s)) as [y1| |] eqn:Y1; cbn [sbind] in SB; [|discriminate..].
  destruct (callW s (rest s) 0 0 s o f y1 eq_refl C WO (at_start _ _ eq_refl) O Y1) as (res1 & s1 & E1 & SA & LK & A & O1 & V & WH).
  cbn [skipn Nat.add] in *. rewrite Z.add_0_r in WH. rewrite E1 in EB. cbn [bind] in EB.
  assert (HF : r_node res1 = None -> forall k st, noAmb y1 = OFail k st -> k = reads y ->
    exists e, r_err res = Some e /\ Why g (RBlock b o v c esc xs) f (rest s) (base (rest s)) e (r_erridx res)).
  { intros N1 k st EO EK. destruct (WH N1) as (e & EE & WE1). rewrite N1 in EB. injection EB as <- <-. cbn [r_err r_erridx] in *. exists e. split; [exact EE|].
    rewrite CU, <- EK. rewrite EO in V. eapply wh_open; eauto. }
  destruct y1 as [on u k st|k st|k]; cbn [reads noAmb] in *.
  2: { injection SB as <-. eapply HF; eauto. apply SA. }
  2: { injection SB as <-. eapply HF; eauto. apply SA. }
  clear HF. destruct (match esc with Some _ => true | None => (k =? u)%nat end) eqn:EE; [|discriminate].
  rewrite (says_charsUsed _ _ _ _ _ _ SA) in EB. destruct SA as (_ & R & LUK & U & _ & nd & EN & EER). cbn [reads] in R. rewrite EN in EB. cbn [bind] in EB.
  assert (A1 : at_ s (rest s) u k (prepend s1 (r_unused res1))).
  { rewrite U, skipn_firstn'. apply at_prepend. replace (u + (k - u))%nat with k by lia. replace (Nat.max 0 k) with k in A by lia. exact A. }
  pose proof (at_pos _ _ _ _ _ A1) as A2. apply (on_prepend T _ (r_unused res1)) in O1. apply on_pos in O1.
  destruct (positionOf (prepend s1 (r_unused res1))) as [cpos cs]; cbn [fst snd] in *.
  pose proof (block_lock _ _ _ (text_keeps T) _ _ recLock_text b on v c esc xs s (rest s) u eq_refl C WC WE WX fuel cs u k (r_unused res1) A2 O1 (le_n _)) as H.
  rewrite Nat.sub_diag in H. cbn [firstn] in H.
  assert (HU : esc = None -> r_unused res1 = []).
  { intros ->. apply Nat.eqb_eq in EE. subst k. rewrite U, skipn_firstn', Nat.sub_diag. reflexivity. }
  specialize (H HU ltac:(intros q LQ; lia)). rewrite SB in H. destruct H as (cs' & ex & EL & LRy & Mx & J2 & X). rewrite EL in EB. cbn [bind] in EB.
  destruct ex as [xr used content|used unused|cr used unused content].
  - destruct X as (EY & (p & w & EU & LV & LP & HQ & ml & k0 & st0 & n & SA & PK) & _). rewrite EU in EB. cbn [bind] in EB. injection EB as <- <-.
    cbn [r_err r_erridx] in *. eexists. split; [reflexivity|]. rewrite CU. 
    pose proof (pick_spec ml) as PS. rewrite PK in PS. destruct PS as (l1 & l2 & EML & FL).
    destruct (semAlts_all _ _ _ _ _ _ _ _ _ SA) as (l & EM & H1 & H2). cbn [rev app] in EM. subst l.
    destruct (H1 n w) as (x & kx & sx & IX & VX); [rewrite EML; apply in_or_app; right; now left|].
    eapply wh_excluded with (x := x); eauto; [intros q LQ; apply passed_quiet; now apply HQ|].
    apply Forall_forall. intros z IZ. destruct (H2 z IZ) as (oz & VZ & HZ). exists oz. split; [exact VZ|]. destruct oz as [nz uz kz sz|]; [|exact I].
    rewrite EML in HZ. apply in_app_or in HZ. destruct HZ as [HZ|[[= <- <-]|HZ]]; [|lia|];
      (rewrite Forall_forall in FL; assert (Y : (snd (nz, uz) < w)%nat) by (apply FL; apply in_or_app; auto); cbn in Y; lia).
  - destruct X as (EY & ER & _ & LU & HQ). rewrite (wf_descOk c WC) in EB. injection EB as <- <-. cbn [r_err r_erridx] in *. eexists. split; [reflexivity|].
    rewrite CU, ER. eapply wh_close; eauto. intros q LQ. apply passed_quiet. now apply HQ.
  - injection EB as <- <-. discriminate.
Qed.

Lemma isTerminal_terminal r : isTerminal r -> terminal r. Proof. now destruct r. Qed.
Lemma term_idx r : isTerminal r -> forall rc fuel s f res s', evalStep g rc fuel r s f = Ok (res, s') -> r_node res = None -> r_erridx res = cursor s'.
Proof.
  intros HT rc fuel s f res s' E.
  assert (X : forall x : result * stream, Ok x = Ok (res, s') -> (r_node (fst x) = None -> r_erridx (fst x) = cursor (snd x)) -> r_node res = None -> r_erridx res = cursor s')
    by (intros x [= ->]; auto).
  destruct r; try contradiction; cbn [evalStep] in E; apply (X _ E); clear;
    unfold evalChar, evalChars, evalString, evalRange, evalEOF, failT; cbv zeta;
    repeat match goal with
    | |- context [if ?c then _ else _] => destruct c
    | |- context [match ?c with _ => _ end] => destruct c
    end; cbn [fst snd r_node r_erridx]; intros; first [reflexivity|discriminate].
Qed.
Lemma step_why r f s t y res s' : wfRule r -> clean t -> rest s = t -> onText T s -> sem (S fu) g r f t = SOk y -> eval (S fu) g r s f = Ok (res, s') ->
  r_node res = None -> exists e, r_err res = Some e /\ Why g r f t (base t) e (r_erridx res).
Proof.
  intros W C E O SS EV N. pose proof (sem_sound _ _ _ _ _ _ SS) as V.
  pose proof (sem_lockK _ _ _ g (S fu) (text_keeps T) HG r f s t W C E O) as LK. rewrite SS in LK.
  destruct LK as (res0 & s0 & E0 & SA & M & O' & CV). rewrite EV in E0. injection E0 as <- <-.
  assert (VF : exists k st, Ev g r f t (OFail k st) /\ k = reads y).
  { destruct y as [n u k st|k st|k]; cbn [noAmb reads] in *; [|eauto..]. destruct SA as (_ & _ & _ & _ & _ & nd & EN & _). congruence. }
  assert (LR : (reads y <= length t)%nat) by apply SA.
  assert (CU : cursor s' = base t + Z.of_nat (reads y)).
  { apply base_cursor; [exact O'| |exact LR]. rewrite (moves_rest _ _ _ M). now rewrite E. }
  assert (HT : isTerminal r -> exists e, r_err res = Some e /\ Why g r f t (base t) e (r_erridx res)).
  { intros HT. destruct (error_blames g (S fu) r s f res s' HG W ltac:(now rewrite E) EV N) as (e & EE & BL). exists e. split; [exact EE|].
    destruct VF as (k & st & VK & EK). rewrite (term_idx r HT _ _ _ _ _ _ EV N), CU, <- EK. eapply wh_terminal; eauto. }
  cbn [eval sem] in *. destruct r; try (now apply HT); clear HT; cbn [evalStep semStep] in *.
  - destruct (lookup g ref) as [r'|] eqn:EL.
    + destruct (srec r' f t) as [y1| |] eqn:Y1; cbn [sbind] in SS; [|discriminate..]. destruct (rec r' s f) as [[res1 s1]| |] eqn:E1; cbn [bind] in EV; [|discriminate..].
      injection EV as <- <-. unfold set_node in *. cbn [r_node r_err r_erridx] in *. destruct (r_node res1) eqn:N1; [discriminate|].
      destruct (IHw r' f s t y1 res1 s1 (HG _ _ EL) C E O Y1 E1 N1) as (e & EE & WH). exists e. split; [exact EE|]. now apply wh_ref with (r := r').
    + injection EV as <- <-. cbn [r_err r_erridx]. eexists. split; [reflexivity|]. now constructor.
  - inversion W as [| | | | | |b0 x0 WX| | | | |]; subst. destruct (srec r f (rest s)) as [y1| |] eqn:Y1; cbn [sbind] in SS; [|discriminate..].
    destruct (rec r s f) as [[res1 s1]| |] eqn:E1; cbn [bind] in EV; [|discriminate..]. destruct (r_node res1) eqn:N1; injection EV as <- <-; [discriminate|]. cbn [r_err r_erridx].
    destruct (IHw r f s (rest s) y1 res1 s1 WX C eq_refl O Y1 E1 N1) as (e & EE & WH). exists e. split; [exact EE|]. now constructor.
  - destruct (rec r s f) as [[res1 s1]| |] eqn:E1; cbn [bind] in EV; [|discriminate..]. destruct (r_node res1) eqn:N1; injection EV as <- <-; discriminate.
  - pose proof (wf_descOk _ W) as HD. inversion W as [| | | | | | | |b0 x0 mn0 mx0 WX| | |]; subst.
    destruct (rep_why b r rmin rmax s (rest s) f eq_refl C HD WX (S fu) s 0 0 [] [] true [] [] None y res s') as (e & p & n & EE & EI & AG & LN & HH); auto; [|constructor|unfold room; cbn; lia|].
    { constructor; auto; try lia; [rewrite unwrap_id; apply moves_refl|]. intros _. now apply at_start. }
    exists e. split; [exact EE|]. destruct VF as (k & st & VK & EK). rewrite EI, CU, <- EK. destruct HH as [(NE & RM & i & WH)|(-> & HH)].
    + eapply wh_rep; eauto.
    + eapply wh_few; eauto.
  - pose proof (wf_descOk _ W) as HD. inversion W as [| | | | | | | | |b0 gs0 WX| |]; subst.
    apply (choice_why b s (rest s) f eq_refl C groups [] HD ltac:(assumption) s 0 true true None 0 [] y res s'); auto; [now apply at_start|constructor|constructor; constructor|]. destruct VF as (k & st & VK & _). now exists k, st.
  - pose proof (wf_descOk _ W) as HD. inversion W as [| | | | | | | | | |b0 l0 WX|]; subst.
    apply (concat_why b s (rest s) f eq_refl C rules [] HD ltac:(assumption) s f 0 0 [] [] true [] [] None y res s'); auto; [|constructor].
    constructor; auto; try lia; [rewrite unwrap_id; apply moves_refl|]. intros _. now apply at_start.
  - eapply block_why; eauto.
Qed.
End Why.

Lemma text_why T g : wfRules g -> forall fuel r f s t y res s', wfRule r -> clean t -> rest s = t -> onText T s -> sem fuel g r f t = SOk y ->
  eval fuel g r s f = Ok (res, s') -> r_node res = None -> exists e, r_err res = Some e /\ Why g r f t (base T t) e (r_erridx res).
Proof.
  intros HG. induction fuel as [|fuel IH]; [discriminate|]. intros. eapply step_why; eauto.
Qed.

(* ------------------------------------------------------------------ *)
(** ** There is one reason *)

Scheme Why_mut := Minimality for Why Sort Prop with Whys_mut := Minimality for Whys Sort Prop.
Combined Scheme Why_both from Why_mut, Whys_mut.

Definition nomatch (g : rules_t) (r : rule) (f : Z) (t : list Z) : Prop := forall n u k st, ~ Ev g r f t (OMatch n u k st).
Lemma fails_nomatch g r f t : fails g r f t -> nomatch g r f t.
Proof. intros (k & st & V) n u k' st' V'. pose proof (ev_det _ _ _ _ _ _ V V') as X. discriminate X. Qed.

Lemma turn_seq g f t l p f' : inTurn g f t l p f' -> forall b rest m st kids o, EvSeq g b (l ++ rest) f t 0 m st kids o ->
  exists m' st' kids', EvSeq g b rest f' t p m' st' kids' o.
Proof.
  induction 1 as [|l p f' x n u k st T IH V]; intros b rest m st0 kids o H; [eauto|]. rewrite <- app_assoc in H. cbn [app] in H.
  destruct (IH _ _ _ _ _ _ H) as (m1 & s1 & k1 & H1). inversion H1; subst.
  - match goal with A : Ev g x f' _ (OMatch _ _ _ _) |- _ => pose proof (ev_det _ _ _ _ _ _ V A) as X; injection X as <- <- <- <- end. eauto.
  - match goal with A : Ev g x f' _ (OFail _ _) |- _ => pose proof (ev_det _ _ _ _ _ _ V A) as X; discriminate X end.
Qed.
Lemma alts_from g rules f t m st ml m' st' : EvAlts g rules f t m st ml m' st' -> forall n u, In (n, u) ml -> exists x k s, In x rules /\ Ev g x f t (OMatch n u k s).
Proof.
  induction 1 as [| r rules f t m st n u k s ml m' st' V A IH | r rules f t m st k s ml m' st' V A IH]; intros n0 u0 I0; [destruct I0| |].
  - destruct I0 as [[= <- <-]|I0]; [exists r, k, s; split; [now left|exact V]|]. destruct (IH _ _ I0) as (x & k' & s' & IX & VX). exists x, k', s'. split; [now right|exact VX].
  - destruct (IH _ _ I0) as (x & k' & s' & IX & VX). exists x, k', s'. split; [now right|exact VX].
Qed.
Lemma choice_from g b gs f t m st n u k s : EvChoice g b gs f t m st (OMatch n u k s) -> exists x n' k' s', In x (concat gs) /\ Ev g x f t (OMatch n' u k' s').
Proof.
  revert m st. induction gs as [|grp gs IH]; intros m st H; inversion H; subst.
  - match goal with A : EvChoice _ _ gs _ _ _ _ _ |- _ => destruct (IH _ _ A) as (x & n' & k' & s' & IX & VX) end.
    exists x, n', k', s'. split; [|exact VX]. cbn [concat]. apply in_or_app. now right.
  - match goal with A : EvAlts _ _ _ _ _ _ ?ml _ _, B : strictlyLongest ?ml ?n0 _ |- _ => destruct B as (l1 & l2 & -> & _);
      destruct (alts_from _ _ _ _ _ _ _ _ _ A n0 u ltac:(apply in_or_app; right; now left)) as (x & k' & s' & IX & VX) end.
    exists x. eexists. exists k', s'. split; [|exact VX]. cbn [concat]. apply in_or_app. now left.
Qed.
Lemma quiet_scan g b on v cl esc xs t p m c o : EvScan g b on v cl esc xs t p m c o -> (p <= length t)%nat ->
  (forall q, (p <= q <= length t)%nat -> quiet g cl esc xs t q) -> forall n u k st, o <> OMatch n u k st.
Proof.
  assert (NX : forall (t : list Z) p x l, skipn p t = x :: l -> (S p <= length t)%nat).
  { intros t0 p0 x l E. pose proof (skipn_length p0 t0) as L. rewrite E in L. cbn in L. lia. }
  induction 1; intros LP HQ n0 u0 k0 st0; try discriminate; destruct (HQ p ltac:(lia)) as ((kc & sc & QC) & QE & QX);
    try (destruct (QE _ eq_refl) as (ke' & se' & VE); match goal with A : Ev g _ NOT_SKIP (skipn p t) (OMatch _ _ _ _) |- _ => pose proof (ev_det _ _ _ _ _ _ VE A) as X; discriminate X end).
  - match goal with A : Ev g cl NOT_SKIP (skipn p t) (OMatch _ _ _ _) |- _ => pose proof (ev_det _ _ _ _ _ _ QC A) as X; discriminate X end.
  - match goal with A : skipn p t = _ :: _ |- _ => apply NX in A end. apply IHEvScan; [assumption|]. intros q LQ. apply HQ. lia.
Qed.

Lemma why_nomatch_mut g : (forall r f t a e i, Why g r f t a e i -> nomatch g r f t) /\
  (forall rules f t a l, Whys g rules f t a l -> Forall (fun x => nomatch g x f t) rules).
Proof.
  apply (Why_both g (fun r f t _ _ _ => nomatch g r f t) (fun rules f t _ _ => Forall (fun x => nomatch g x f t) rules)).
  - intros r f t a e k st _ V _. apply fails_nomatch. now exists k, st.
  - intros b n f t a EL n0 u k st V. inversion V; subst; congruence.
  - intros b n r f t a e i EL _ IH n0 u k st V. inversion V; subst. match goal with A : lookup g n = Some ?r' |- _ => rewrite EL in A; injection A as <- end. eapply IH; eauto.
  - intros b x f t a e i _ IH n0 u k st V. inversion V; subst. eapply IH; eauto.
  - intros b l x l' f t a p f' e i HT _ IH n0 u k st V. inversion V; subst.
    match goal with A : EvSeq _ _ _ _ _ _ _ _ _ _ |- _ => destruct (turn_seq _ _ _ _ _ _ HT _ _ _ _ _ _ A) as (m' & st' & kids' & B) end.
    inversion B; subst. eapply IH; eauto.
  - intros b gs f t a l oe i _ IH _ n0 u k st V. inversion V; subst.
    match goal with A : EvChoice _ _ _ _ _ _ _ _ |- _ => destruct (choice_from _ _ _ _ _ _ _ _ _ _ _ A) as (x & n' & k' & s' & IX & VX) end.
    rewrite Forall_forall in IH. eapply IH; eauto.
  - intros b gs l1 x l2 y l3 gs' f t a n m u k st k' st' _ _ _ _ _ F. now apply fails_nomatch.
  - intros b x mn mx f t a p n e i k st _ _ _ _ _ _ V. apply fails_nomatch. now exists k, st.
  - intros b x mn mx f t a p n k st _ _ _ V. apply fails_nomatch. now exists k, st.
  - intros b o v c esc xs f t a e i k st _ _ V n0 u k' st' V'. inversion V'; subst.
    match goal with A : Ev g o f t (OMatch _ _ _ _) |- _ => pose proof (ev_det _ _ _ _ _ _ V A) as X; discriminate X end.
  - intros b o v c esc xs f t a on u ko so p x n w kx sx k st _ _ _ _ _ _ V. apply fails_nomatch. now exists k, st.
  - intros b o v c esc xs f t a on u ko so V L HQ n0 u' k st V'. inversion V'; subst.
    match goal with A : Ev g o f t (OMatch _ _ _ _) |- _ => pose proof (ev_det _ _ _ _ _ _ V A) as X; injection X as <- <- <- <- end.
    match goal with A : EvScan _ _ _ _ _ _ _ _ _ _ _ _ |- _ => exact (quiet_scan _ _ _ _ _ _ _ _ _ _ _ _ A L HQ _ _ _ _ eq_refl) end.
  - constructor.
  - intros x rules f t a e i l _ IH _ IHs. now constructor.
Qed.
Lemma why_nomatch g r f t a e i : Why g r f t a e i -> nomatch g r f t.
Proof. apply why_nomatch_mut. Qed.

Lemma turn_at g f t L p f' : inTurn g f t L p f' -> forall l x m, L = l ++ x :: m -> exists p1 f1, inTurn g f t l p1 f1 /\ ~ nomatch g x f1 (skipn p1 t).
Proof.
  induction 1 as [|L p f' x0 n u k st T IH V]; intros l x m E; [now destruct l|]. destruct m as [|z m] using rev_ind.
  - apply app_inj_tail in E as [-> ->]. exists p, f'. split; [exact T|]. intros H. exact (H _ _ _ _ V).
  - clear IHm. change (l ++ x :: m ++ [z]) with (l ++ (x :: m) ++ [z]) in E. rewrite app_assoc in E. apply app_inj_tail in E as [-> ->]. now apply (IH l x m).
Qed.
Lemma turn_det g f t l p f' : inTurn g f t l p f' -> forall p2 f2, inTurn g f t l p2 f2 -> p = p2 /\ f' = f2.
Proof.
  induction 1 as [|l p f' x n u k st T IH V]; intros p2 f2 H.
  - inversion H as [|l' ? ? ? ? ? ? ? ? ? E]; subst; [auto|]. now destruct l'.
  - inversion H as [E|l' p' f3 x' n' u' k' st' T' V' E]; subst; [now destruct l|]. apply app_inj_tail in E as [-> ->].
    destruct (IH _ _ T') as [<- <-]. pose proof (ev_det _ _ _ _ _ _ V V') as X. injection X as <- <- <- <-. auto.
Qed.
Lemma again_det g x mx f t p n : again g x mx f t p n -> forall p2, again g x mx f t p2 n -> p = p2.
Proof.
  induction 1 as [|p n nd u k st A IH R NE V]; intros p2 H; inversion H as [|p' n' nd' u' k' st' A' R' NE' V']; subst; [reflexivity|].
  rewrite <- (IH _ A') in *. pose proof (ev_det _ _ _ _ _ _ V V') as X. now injection X as <- <- <- <-.
Qed.
(** Where a longer chain passes. *)
Lemma again_at g x mx f t p n : again g x mx f t p n -> forall n1, (n1 < n)%nat ->
  exists p1, again g x mx f t p1 n1 /\ room mx n1 /\ skipn p1 t <> [] /\ ~ nomatch g x f (skipn p1 t).
Proof.
  induction 1 as [|p n nd u k st A IH R NE V]; intros n1 L; [lia|]. destruct (Nat.eq_dec n1 n) as [->|D]; [|apply IH; lia].
  exists p. split; [exact A|]. split; [exact R|]. split; [exact NE|]. intros H. exact (H _ _ _ _ V).
Qed.

Definition alike (x y : eerr * Z) : Prop := gist (fst x) = gist (fst y) /\ snd x = snd y.
Lemma furthest_max l oe i : furthest l oe i -> Forall (fun x => snd x <= i) l.
Proof.
  intros [l0 F|l1 e i0 l2 P F1 F2]; [exact F|]. apply Forall_app. split; [eapply Forall_impl; [|exact F1]; cbn; lia|]. constructor; [cbn; lia|exact F2].
Qed.
Lemma alike_le l l' i : Forall2 alike l l' -> Forall (fun x => snd x <= i) l' -> Forall (fun x => snd x <= i) l.
Proof. induction 1 as [|x y l l' [_ E] F IH]; intros H; [constructor|]. inversion H; subst. constructor; [lia|auto]. Qed.
Lemma alike_sym l l' : Forall2 alike l l' -> Forall2 alike l' l.
Proof. induction 1 as [|x y l l' [A B] F IH]; constructor; auto. split; congruence. Qed.
Lemma furthest_first l1 e i l2 : forall l1' e' l2', Forall2 alike (l1 ++ (e, i) :: l2) (l1' ++ (e', i) :: l2') ->
  Forall (fun x => snd x < i) l1 -> Forall (fun x => snd x < i) l1' -> gist e = gist e'.
Proof.
  induction l1 as [|x l1 IH]; intros [|y l1'] e' l2' F F1 F2; cbn [app] in F; inversion F as [|? ? ? ? A B]; subst.
  - apply A.
  - inversion F2; subst. destruct A as [_ A]. cbn in A. lia.
  - inversion F1; subst. destruct A as [_ A]. cbn in A. lia.
  - inversion F1; subst. inversion F2; subst. eapply IH; eauto.
Qed.
Lemma furthest_det l l' oe i oe' i' : Forall2 alike l l' -> furthest l oe i -> furthest l' oe' i' -> option_map gist oe = option_map gist oe' /\ i = i'.
Proof.
  intros A F F'. pose proof (alike_le _ _ _ A (furthest_max _ _ _ F')) as M. pose proof (alike_le _ _ _ (alike_sym _ _ A) (furthest_max _ _ _ F)) as M'.
  destruct F as [l0 F|l1 e i l2 P F1 F2]; destruct F' as [l0' F'|l1' e' i' l2' P' F1' F2'].
  - auto.
  - exfalso. apply Forall_app in M' as [_ M']. inversion M'; subst. cbn in *. lia.
  - exfalso. apply Forall_app in M as [_ M]. inversion M; subst. cbn in *. lia.
  - assert (i = i').
    { apply Forall_app in M as [_ M]. inversion M; subst. apply Forall_app in M' as [_ M']. inversion M'; subst. cbn in *. lia. }
    subst i'. split; [|reflexivity]. cbn. f_equal. eapply furthest_first; eauto.
Qed.

(** Two splits of one list. *)
Lemma two_splits {A} (l1 : list A) : forall x m1 l2 y m2, l1 ++ x :: m1 = l2 ++ y :: m2 ->
  (l1 = l2 /\ x = y /\ m1 = m2) \/ (exists k, l2 = l1 ++ x :: k) \/ (exists k, l1 = l2 ++ y :: k).
Proof.
  induction l1 as [|a l1 IH]; intros x m1 [|b l2] y m2 E; cbn [app] in E; injection E as -> E.
  - now left.
  - right; left. now exists l2.
  - right; right. now exists l1.
  - destruct (IH _ _ _ _ _ E) as [(-> & -> & ->)|[(k & ->)|(k & ->)]]; [now left|right; left; now exists k|right; right; now exists k].
Qed.
Lemma groups_det g f t gs : forall (grp : list rule) gs1 gs2 grp2 gs3, gs ++ grp :: gs1 = gs2 ++ grp2 :: gs3 ->
  Forall (Forall (fun z => fails g z f t)) gs -> Forall (Forall (fun z => fails g z f t)) gs2 ->
  (exists x, In x grp /\ ~ nomatch g x f t) -> (exists x, In x grp2 /\ ~ nomatch g x f t) -> gs = gs2 /\ grp = grp2 /\ gs1 = gs3.
Proof.
  intros grp gs1 gs2 grp2 gs3 E F F2 (x & IX & HX) (x2 & IX2 & HX2). destruct (two_splits _ _ _ _ _ _ E) as [H|[(k & ->)|(k & ->)]]; [exact H|exfalso..].
  - apply Forall_app in F2 as [_ F2]. inversion F2 as [|a b F3 F4]; subst. rewrite Forall_forall in F3. apply HX, fails_nomatch. now apply F3.
  - apply Forall_app in F as [_ F]. inversion F as [|a b F3 F4]; subst. rewrite Forall_forall in F3. apply HX2, fails_nomatch. now apply F3.
Qed.
Lemma shorter_in g f t u l x n v k st : Forall (shorter g f t u) l -> In x l -> Ev g x f t (OMatch n v k st) -> (v < u)%nat.
Proof.
  intros F I V. rewrite Forall_forall in F. destruct (F x I) as (o & V' & L). now rewrite (ev_det _ _ _ _ _ _ V' V) in L.
Qed.
Lemma shorter_S g f t u : forall x, shorter g f t u x -> shorter g f t (S u) x.
Proof. intros x (o & V & L). exists o. split; [exact V|]. destruct o; [lia|exact I]. Qed.
(** The two alternatives of a tie. *)
Lemma tie_det g f t l1 x l2 y l3 : forall l1' x' l2' y' l3' n m u k st k' st' n' m' u' j sj j' sj', l1 ++ x :: l2 ++ y :: l3 = l1' ++ x' :: l2' ++ y' :: l3' ->
  Forall (shorter g f t u) (l1 ++ l2) -> noTie g f t (l1 ++ x :: l2) -> Ev g x f t (OMatch n u k st) -> Ev g y f t (OMatch m u k' st') ->
  Forall (shorter g f t u') (l1' ++ l2') -> noTie g f t (l1' ++ x' :: l2') -> Ev g x' f t (OMatch n' u' j sj) -> Ev g y' f t (OMatch m' u' j' sj') ->
  n = n' /\ m = m'.
Proof.
  assert (T : forall l1 x l2 y k n m u kx sx ky sy, Forall (shorter g f t u) (l1 ++ l2) -> Ev g x f t (OMatch n u kx sx) -> Ev g y f t (OMatch m u ky sy) ->
    noTie g f t ((l1 ++ x :: l2) ++ y :: k) -> False).
  { clear. intros l1 x l2 y k n m u kx sx ky sy F VX VY NT. apply Forall_app in F as [F1 F2].
    pose proof (NT (l1 ++ x :: l2) y k m u ky sy eq_refl VY) as H. assert (X : Forall (shorter g f t u) (l1 ++ x :: l2)).
    { apply H. apply Forall_app. split; [eapply Forall_impl; [apply shorter_S|exact F1]|]. constructor; [|eapply Forall_impl; [apply shorter_S|exact F2]]. eexists. split; [exact VX|]. cbn. lia. }
    apply (shorter_in _ _ _ _ _ x n u kx sx X) in VX; [lia|]. apply in_or_app. right. now left. }
  intros l1' x' l2' y' l3' n m u k st k' st' n' m' u' j sj j' sj' E F NT VX VY F' NT' VX' VY'.
  change (l1 ++ x :: l2 ++ y :: l3) with (l1 ++ (x :: l2) ++ y :: l3) in E. change (l1' ++ x' :: l2' ++ y' :: l3') with (l1' ++ (x' :: l2') ++ y' :: l3') in E.
  rewrite !app_assoc in E. destruct (two_splits _ _ _ _ _ _ E) as [(E1 & <- & <-)|[(q & E1)|(q & E1)]].
  - pose proof (ev_det _ _ _ _ _ _ VY VY') as X. injection X as <- <- <- <-. split; [|reflexivity].
    destruct (two_splits _ _ _ _ _ _ E1) as [(-> & <- & ->)|[(q & ->)|(q & ->)]].
    + pose proof (ev_det _ _ _ _ _ _ VX VX') as X. now injection X.
    + exfalso. assert (L : (u < u)%nat); [|lia]. apply (shorter_in _ _ _ _ _ x n u k st F'); [|exact VX]. apply in_or_app. left. apply in_or_app. right. now left.
    + exfalso. assert (L : (u < u)%nat); [|lia]. apply (shorter_in _ _ _ _ _ x' n' u j sj F); [|exact VX']. apply in_or_app. left. apply in_or_app. right. now left.
  - exfalso. rewrite E1 in NT'. exact (T _ _ _ _ _ _ _ _ _ _ _ _ F VX VY NT').
  - exfalso. rewrite E1 in NT. exact (T _ _ _ _ _ _ _ _ _ _ _ _ F' VX' VY' NT).
Qed.

Lemma why_det_mut g : (forall r f t a e i, Why g r f t a e i -> forall e' i', Why g r f t a e' i' -> gist e = gist e' /\ i = i') /\
  (forall rules f t a l, Whys g rules f t a l -> forall l', Whys g rules f t a l' -> Forall2 alike l l').
Proof.
  apply (Why_both g (fun r f t a e i => forall e' i', Why g r f t a e' i' -> gist e = gist e' /\ i = i') (fun rules f t a l => forall l', Whys g rules f t a l' -> Forall2 alike l l')).
  - intros r f t a e k st HT V B e' i' W'. destruct r; try contradiction; inversion W'; subst;
      (match goal with A : Ev g _ f t (OFail _ _) |- _ => first [constr_eq A V; fail 1|pose proof (ev_det _ _ _ _ _ _ V A) as X; injection X as <- <-] end);
      (match goal with A : blames g _ e' |- _ => inversion A; subst end); inversion B; subst; auto.
  - intros b n f t a EL e' i' W'. inversion W'; subst; [contradiction|auto|congruence].
  - intros b n r f t a e i EL _ IH e' i' W'. inversion W'; subst; [contradiction|congruence|].
    match goal with A : lookup g n = Some ?r' |- _ => rewrite EL in A; injection A as <- end. now apply IH.
  - intros b x f t a e i _ IH e' i' W'. inversion W'; subst; [contradiction|]. now apply IH.
  - intros b l x l' f t a p f' e i HT WX IH e' i' W'. inversion W' as [| | | |? l0 x0 l0' ? ? ? p0 f0 e0 i0 HT' WX'| | | | | | |]; subst; [contradiction|].
    match goal with E0 : l0 ++ x0 :: l0' = l ++ x :: l' |- _ => destruct (two_splits _ _ _ _ _ _ E0) as [(-> & -> & ->)|[(k & ->)|(k & ->)]] end.
    + destruct (turn_det _ _ _ _ _ _ HT _ _ HT') as [<- <-]. destruct (IH _ _ WX') as [EG <-]. split; [|reflexivity]. cbn. now rewrite EG.
    + exfalso. destruct (turn_at _ _ _ _ _ _ HT _ _ _ eq_refl) as (p1 & f1 & HT1 & NM). destruct (turn_det _ _ _ _ _ _ HT' _ _ HT1) as [<- <-]. apply NM. eapply why_nomatch; eauto.
    + exfalso. destruct (turn_at _ _ _ _ _ _ HT' _ _ _ eq_refl) as (p1 & f1 & HT1 & NM). destruct (turn_det _ _ _ _ _ _ HT _ _ HT1) as [<- <-]. apply NM. eapply why_nomatch; eauto.
  - intros b gs f t a l oe i WS IH FU e' i' W'. inversion W'; subst; [contradiction| |].
    + destruct (furthest_det l l0 oe i oe0 i' ltac:(auto) FU ltac:(assumption)) as [EG <-]. split; [|reflexivity]. destruct oe, oe0; cbn in *; congruence.
    + exfalso. pose proof (proj2 (why_nomatch_mut g) _ _ _ _ _ WS) as NM. rewrite Forall_forall in NM.
      match goal with A : Ev g x f t _ |- _ => refine (NM x _ _ _ _ _ A) end. apply in_concat. eexists. split; [apply in_or_app; right; left; reflexivity|]. apply in_or_app. right. now left.
  - intros b gs l1 x l2 y l3 gs' f t a n m u k st k' st' FG FS NT VX VY FA e' i' W'. inversion W' as [| | | | |? ? ? ? ? ls ? ? WS|? gs0 l10 x0 l20 y0 l30 gs0' ? ? ? n0 m0 u0 j s0 j' s0' FG' FS' NT' VX' VY' FA'| | | | |]; subst; [contradiction| |].
    + exfalso. pose proof (proj2 (why_nomatch_mut g) _ _ _ _ _ WS) as NM. rewrite Forall_forall in NM.
      refine (NM x _ _ _ _ _ VX). apply in_concat. eexists. split; [apply in_or_app; right; left; reflexivity|]. apply in_or_app. right. now left.
    + split; [|reflexivity]. cbn [gist List.map]. 
      assert (X : gs0 = gs /\ l10 ++ x0 :: l20 ++ y0 :: l30 = l1 ++ x :: l2 ++ y :: l3 /\ gs0' = gs').
      { apply (groups_det g f t); auto; [exists x0|exists x]; (split; [apply in_or_app; right; now left|intros H; eapply H; eassumption]). }
      destruct X as (-> & E1 & ->). destruct (tie_det _ _ _ _ _ _ _ _ _ _ _ _ _ _ _ _ _ _ _ _ _ _ _ _ _ _ _ E1 FS' NT' VX' VY' FS NT VX VY) as [-> ->]. reflexivity.
  - intros b x mn mx f t a p n e i k st AG LN RM NE WX IH V e' i' W'.
    inversion W' as [| | | | | | |? ? ? ? ? ? ? p0 n0 e0 i0 k0 s0 AG' LN' RM' NE' WX' V'|? ? ? ? ? ? ? p0 n0 k0 s0 AG' LN' HE' V'| | |]; subst; [contradiction| |];
      pose proof (ev_det _ _ _ _ _ _ V V') as X; injection X as <- <-.
    + destruct (Nat.lt_trichotomy n n0) as [L|[<-|L]].
      * exfalso. destruct (again_at _ _ _ _ _ _ _ AG' _ L) as (p1 & A1 & _ & _ & NM). rewrite (again_det _ _ _ _ _ _ _ A1 _ AG) in NM. apply NM. eapply why_nomatch; eauto.
      * rewrite (again_det _ _ _ _ _ _ _ AG' _ AG) in *. destruct (IH _ _ WX') as [EG _]. auto.
      * exfalso. destruct (again_at _ _ _ _ _ _ _ AG _ L) as (p1 & A1 & _ & _ & NM). rewrite (again_det _ _ _ _ _ _ _ A1 _ AG') in NM. apply NM. eapply why_nomatch; eauto.
    + exfalso. destruct (Nat.lt_trichotomy n n0) as [L|[<-|L]].
      * destruct (again_at _ _ _ _ _ _ _ AG' _ L) as (p1 & A1 & _ & _ & NM). rewrite (again_det _ _ _ _ _ _ _ A1 _ AG) in NM. apply NM. eapply why_nomatch; eauto.
      * rewrite (again_det _ _ _ _ _ _ _ AG' _ AG) in *. tauto.
      * destruct (again_at _ _ _ _ _ _ _ AG _ L) as (p1 & A1 & R1 & N1 & _). rewrite (again_det _ _ _ _ _ _ _ A1 _ AG') in *. tauto.
  - intros b x mn mx f t a p n k st AG LN HE V e' i' W'.
    inversion W' as [| | | | | | |? ? ? ? ? ? ? p0 n0 e0 i0 k0 s0 AG' LN' RM' NE' WX' V'|? ? ? ? ? ? ? p0 n0 k0 s0 AG' LN' HE' V'| | |]; subst; [contradiction| |];
      pose proof (ev_det _ _ _ _ _ _ V V') as X; injection X as <- <-.
    + exfalso. destruct (Nat.lt_trichotomy n n0) as [L|[<-|L]].
      * destruct (again_at _ _ _ _ _ _ _ AG' _ L) as (p1 & A1 & R1 & N1 & _). rewrite (again_det _ _ _ _ _ _ _ A1 _ AG) in *. tauto.
      * rewrite (again_det _ _ _ _ _ _ _ AG' _ AG) in *. tauto.
      * destruct (again_at _ _ _ _ _ _ _ AG _ L) as (p1 & A1 & _ & _ & NM). rewrite (again_det _ _ _ _ _ _ _ A1 _ AG') in NM. apply NM. eapply why_nomatch; eauto.
    + split; [|reflexivity]. cbn [gist]. f_equal. destruct (Nat.lt_trichotomy n n0) as [L|[E|L]]; [exfalso|exact E|exfalso].
      * destruct (again_at _ _ _ _ _ _ _ AG' _ L) as (p1 & A1 & R1 & N1 & _). rewrite (again_det _ _ _ _ _ _ _ A1 _ AG) in *. tauto.
      * destruct (again_at _ _ _ _ _ _ _ AG _ L) as (p1 & A1 & R1 & N1 & _). rewrite (again_det _ _ _ _ _ _ _ A1 _ AG') in *. tauto.
  - intros b o v c esc xs f t a e i k st WO IH V e' i' W'.
    inversion W' as [| | | | | | | | |? ? ? ? ? ? ? ? ? e0 i0 k0 s0 WO' V'|? ? ? ? ? ? ? ? ? on0 u0 ko0 so0 p0 x0 n0 w0 kx0 sx0 k0 s0 VO' LP' HQ' IX' VX' FS' V'|? ? ? ? ? ? ? ? ? on0 u0 ko0 so0 VO' LU' HQ']; subst; [contradiction| | |].
    + pose proof (ev_det _ _ _ _ _ _ V V') as X; injection X as <- <-. destruct (IH _ _ WO'). auto.
    + pose proof (ev_det _ _ _ _ _ _ V VO') as X; discriminate X.
    + pose proof (ev_det _ _ _ _ _ _ V VO') as X; discriminate X.
  - intros b o v c esc xs f t a on u ko so p x n w kx sx k st VO LP HQ IX VX FS V e' i' W'.
    inversion W' as [| | | | | | | | |? ? ? ? ? ? ? ? ? e0 i0 k0 s0 WO' V'|? ? ? ? ? ? ? ? ? on0 u0 ko0 so0 p0 x0 n0 w0 kx0 sx0 k0 s0 VO' LP' HQ' IX' VX' FS' V'|? ? ? ? ? ? ? ? ? on0 u0 ko0 so0 VO' LU' HQ']; subst; [contradiction| | |].
    + pose proof (ev_det _ _ _ _ _ _ V' VO) as X; discriminate X.
    + pose proof (ev_det _ _ _ _ _ _ V V') as X; injection X as <- <-. pose proof (ev_det _ _ _ _ _ _ VO VO') as X; injection X as <- <- <- <-. split; [|reflexivity]. cbn [gist]. f_equal.
      destruct (Nat.lt_trichotomy p p0) as [L|[<-|L]].
      * exfalso. destruct (HQ' p ltac:(lia)) as (_ & _ & QX). exact (fails_nomatch _ _ _ _ (QX x IX) _ _ _ _ VX).
      * pose proof (shorter_in _ _ _ _ _ _ _ _ _ _ FS IX' VX'). pose proof (shorter_in _ _ _ _ _ _ _ _ _ _ FS' IX VX). f_equal. lia.
      * exfalso. destruct (HQ p0 ltac:(lia)) as (_ & _ & QX). exact (fails_nomatch _ _ _ _ (QX x0 IX') _ _ _ _ VX').
    + exfalso. pose proof (ev_det _ _ _ _ _ _ VO VO') as X; injection X as <- <- <- <-. destruct (Nat.le_gt_cases p (length t)) as [L|L].
      * destruct (HQ' p ltac:(lia)) as (_ & _ & QX). exact (fails_nomatch _ _ _ _ (QX x IX) _ _ _ _ VX).
      * destruct (HQ' (length t) ltac:(lia)) as (_ & _ & QX). refine (fails_nomatch _ _ _ _ (QX x IX) _ _ _ _ _). rewrite skipn_all2 in VX by lia. rewrite skipn_all. exact VX.
  - intros b o v c esc xs f t a on u ko so VO LU HQ e' i' W'.
    inversion W' as [| | | | | | | | |? ? ? ? ? ? ? ? ? e0 i0 k0 s0 WO' V'|? ? ? ? ? ? ? ? ? on0 u0 ko0 so0 p0 x0 n0 w0 kx0 sx0 k0 s0 VO' LP' HQ' IX' VX' FS' V'|? ? ? ? ? ? ? ? ? on0 u0 ko0 so0 VO' LU' HQ']; subst; [contradiction| | |auto].
    + pose proof (ev_det _ _ _ _ _ _ V' VO) as X; discriminate X.
    + exfalso. pose proof (ev_det _ _ _ _ _ _ VO VO') as X; injection X as <- <- <- <-. destruct (Nat.le_gt_cases p0 (length t)) as [L|L].
      * destruct (HQ p0 ltac:(lia)) as (_ & _ & QX). exact (fails_nomatch _ _ _ _ (QX x0 IX') _ _ _ _ VX').
      * destruct (HQ (length t) ltac:(lia)) as (_ & _ & QX). refine (fails_nomatch _ _ _ _ (QX x0 IX') _ _ _ _ _). rewrite skipn_all2 in VX' by lia. rewrite skipn_all. exact VX'.
  - intros f t a l' H. inversion H; subst. constructor.
  - intros x rules f t a e i l _ IH _ IHs l' H. inversion H; subst. constructor; [|now apply IHs]. destruct (IH _ _ ltac:(eassumption)). split; auto.
Qed.
Theorem why_det g r f t a e i e' i' : Why g r f t a e i -> Why g r f t a e' i' -> gist e = gist e' /\ i = i'.
Proof. intros H. exact (proj1 (why_det_mut g) _ _ _ _ _ _ H e' i'). Qed.

(* ------------------------------------------------------------------ *)
(** ** A cause that is lost *)

Definition noted (g : rules_t) (r : rule) : Prop := exists x f t a e, leads g r x /\ Why g x f t a e 0 /\ unplaced e.
Lemma noted_up g r x : (forall z, leads g x z -> leads g r z) -> noted g x -> noted g r.
Proof. intros H (z & f & t & a & e & L & W & U). exists z, f, t, a, e. auto. Qed.
Definition lost (e : eerr) (i : Z) : Prop := cause e = None \/ i <= 0.
Lemma why_lost_mut g : wfRules g -> (forall r f t a e i, Why g r f t a e i -> wfRule r -> 0 < a -> lost e i -> noted g r) /\
  (forall rules f t a l, Whys g rules f t a l -> (forall x, In x rules -> wfRule x) -> 0 < a -> Forall2 (fun r x => lost (fst x) (snd x) -> noted g r) rules l).
Proof.
  intros HG. apply (Why_both g (fun r f t a e i => wfRule r -> 0 < a -> lost e i -> noted g r)
    (fun rules f t a l => (forall x, In x rules -> wfRule x) -> 0 < a -> Forall2 (fun r x => lost (fst x) (snd x) -> noted g r) rules l)).
  - intros r f t a e k st HT V B W A [L|L]; [|lia]. destruct r; try contradiction; inversion B; subst; discriminate.
  - intros b n f t a EL W A _. exists (RRef b n), f, t, a, (EUndefined b n). split; [constructor|]. split; [now constructor|exact I].
  - intros b n r f t a e i EL _ IH W A L. apply (noted_up g _ r); [intros; eapply le_ref; eauto|]. apply IH; auto. eapply HG; eauto.
  - intros b x f t a e i _ IH W A L. inversion W; subst. apply (noted_up g _ x); [intros; now constructor|]. now apply IH.
  - intros b l x l' f t a p f' e i _ _ IH W A L. apply (noted_up g _ x); [intros; eapply le_concat; eauto; apply in_or_app; right; now left|].
    inversion W; subst. apply IH; [|lia|exact L]. match goal with H : forall x, In x _ -> wfRule x |- _ => apply H end. apply in_or_app. right. now left.
  - intros b gs f t a l oe i WS IH FU W A L. inversion W as [| | | | | | | | |b0 gs0 LN HN HW| |]; subst.
    assert (HC : forall x, In x (concat gs) -> wfRule x) by (intros x IX; apply in_concat in IX as (grp & IG & IX); eapply HW; eauto). specialize (IH HC A).
    assert (HI : exists x ex, In x (concat gs) /\ lost (fst ex) (snd ex) /\ (lost (fst ex) (snd ex) -> noted g x)).
    { destruct FU as [l F|l1 e i l2 P F1 F2].
      - destruct IH as [|x ex rules l H IH]; [cbn in LN; lia|]. inversion F; subst. exists x, ex. split; [now left|]. split; [now right|exact H].
      - destruct L as [L|L]; [|lia]. apply Forall2_app_inv_r in IH as (r1 & r2 & _ & IH & EQ). inversion IH as [|x ? r3 ? H IH']; subst.
        exists x, (e, i). split; [rewrite EQ; apply in_or_app; right; now left|]. split; [now left|exact H]. }
    destruct HI as (x & ex & IX & LX & NX). apply in_concat in IX as (grp & IG & IX). apply (noted_up g _ x); [intros; eapply le_choice; eauto|auto].
  - intros b gs l1 x l2 y l3 gs' f t a n m u k st k' st' FG FS NT VX VY FA W A _. eexists. exists f, t, a. eexists. split; [constructor|]. split; [eapply wh_tie; eauto|exact I].
  - intros b x mn mx f t a p n e i k st AG LN RM NE WX IH V W A [L|L]; [|lia]. inversion W; subst. apply (noted_up g _ x); [intros; now constructor|]. apply IH; [assumption|lia|now left].
  - intros b x mn mx f t a p n k st AG LN HE V W A [L|L]; [discriminate|lia].
  - intros b o v c esc xs f t a e i k st WO IH V W A [L|L]; [|lia]. inversion W; subst. apply (noted_up g _ o); [intros; now constructor|]. apply IH; [assumption|lia|now left].
  - intros b o v c esc xs f t a on u ko so p x n w kx sx k st _ _ _ _ _ _ _ W A [L|L]; [discriminate|lia].
  - intros b o v c esc xs f t a on u ko so _ _ _ W A [L|L]; [discriminate|lia].
  - constructor.
  - intros x rules f t a e i l _ IH _ IHs HW A. constructor; [|apply IHs; auto; intros; apply HW; now right]. cbn. apply IH; [apply HW; now left|exact A].
Qed.

(** C69. *)
Theorem eval_why T cs g fuel r f res s' : runesOk T -> wfRules g -> wfRule r ->
  let s := snd (run cs (newStream T)) in
  eval fuel g r s f = Ok (res, s') -> sem fuel g r f (rest s) <> SUnsafe -> r_node res = None ->
  exists e, r_err res = Some e /\ Why g r f (rest s) (cursor s) e (r_erridx res).
Proof.
  intros RT HG W s EV SU EN. destruct (run_shape T cs RT) as (L & CT & K & WF). fold s in L, CT, K, WF.
  destruct (stream_delivery T cs RT) as (_ & R & RG). fold s in R, RG.
  assert (O : onText T s) by (split; [exact WF|]; split; [exact CT|]; rewrite L; constructor).
  pose proof (sem_lock g fuel HG r f s (rest s) W ltac:(rewrite R; now apply clean_skipn) eq_refl) as LK.
  destruct (sem fuel g r f (rest s)) as [y| |] eqn:Y; [|tauto|cbn in LK; congruence].
  rewrite (base_cursor T s 0 (rest s) O eq_refl (Nat.le_0_l _)), Z.add_0_r.
  apply (text_why T g HG fuel r f s (rest s) y res s'); auto. rewrite R; now apply clean_skipn.
Qed.

Theorem eval_lost T cs g fuel r f res s' e : runesOk T -> wfRules g -> wfRule r ->
  let s := snd (run cs (newStream T)) in
  eval fuel g r s f = Ok (res, s') -> sem fuel g r f (rest s) <> SUnsafe -> r_node res = None -> r_err res = Some e -> cause e = None ->
  cursor s = 0 \/ exists x f' t' a' e', leads g r x /\ Why g x f' t' a' e' 0 /\ unplaced e'.
Proof.
  intros RT HG W s EV SU EN EE EC. destruct (eval_why T cs g fuel r f res s' RT HG W EV SU EN) as (e' & EE' & WH). fold s in WH. rewrite EE in EE'. injection EE' as <-.
  destruct (run_shape T cs RT) as (_ & _ & _ & WF). fold s in WF.
  destruct (Z.eq_dec (cursor s) 0) as [Z0|NZ]; [now left|right].
  apply (proj1 (why_lost_mut g HG) _ _ _ _ _ _ WH W); [|now left].
  assert (0 <= cursor s) by (destruct (stream_delivery T cs RT) as (_ & _ & X); fold s in X; lia). lia.
Qed.
