(** What holds of every evaluation, whatever the rule, the text and the state of
    the stream. *)
From Verif Require Import Base Stream StreamFacts CallFacts Node Rule SpecStream SpecRule SpecError TermFacts TermSpec.

(** The stream only moves forward, and not past its end. *)
Definition adv (s t : stream) : Prop := exists n, (n <= length (rest s))%nat /\ moves n s t.

(** The state of a stream that has been wrapped on top of [s0]. *)
Definition behind (s0 s : stream) : Prop :=
  (depth s0 <= depth s)%nat /\ clean (rest s) /\ adv s0 (unwrap (depth s0) s).

Lemma adv_refl s : adv s s.
Proof. exists O. split; [lia|apply moves_refl]. Qed.
Lemma adv_trans s t u : adv s t -> adv t u -> adv s u.
Proof.
  intros (n & L & M) (m & L' & M'). exists (n + m)%nat. split; [|eapply moves_trans; eauto].
  rewrite (moves_rest _ _ _ M), skipn_length in L'. lia.
Qed.
Lemma adv_clean s t : adv s t -> clean (rest s) -> clean (rest t).
Proof. intros (n & _ & M) C. rewrite (moves_rest _ _ _ M). now apply clean_skipn. Qed.
Lemma adv_depth s t : adv s t -> depth t = depth s.
Proof. intros (n & _ & M). eapply moves_depth; eauto. Qed.

Lemma behind_refl s : clean (rest s) -> behind s s.
Proof. intros C. split; [lia|]. split; [exact C|]. rewrite unwrap_id. apply adv_refl. Qed.
Lemma behind_prepend s0 s p : clean p -> behind s0 s -> behind s0 (prepend s p).
Proof.
  intros C (A & B & D). split; [rewrite prepend_depth; lia|]. split.
  - rewrite prepend_rest. now apply clean_app.
  - rewrite unwrap_prepend by lia. exact D.
Qed.
Lemma behind_adv s0 s t : behind s0 s -> adv s t -> behind s0 t.
Proof.
  intros (A & B & D) H. pose proof (adv_depth _ _ H) as HD. pose proof (adv_clean _ _ H B) as HC.
  split; [lia|]. split; [exact HC|]. destruct H as (n & L & M).
  destruct (moves_unwrap n (depth s0) s t A M) as (_ & M'). eapply adv_trans; [exact D|].
  eexists. split; [|exact M']. rewrite (rest_split (depth s0) s A), app_length in L. lia.
Qed.
Lemma behind_unwrap s0 s : behind s0 s -> behind s0 (unwrap (depth s0) s).
Proof.
  intros (A & B & D). split; [rewrite unwrap_depth; lia|]. split.
  - rewrite (rest_split (depth s0) s A) in B. now apply clean_app in B.
  - rewrite unwrap_unwrap by lia. exact D.
Qed.
Lemma behind_end s0 s : behind s0 s -> adv s0 (unwrap (depth s0) s).
Proof. now intros (_ & _ & D). Qed.
Lemma behind_clean s0 s : behind s0 s -> clean (rest s).
Proof. now intros (_ & C & _). Qed.
Lemma adv_pos s : adv s (snd (positionOf s)).
Proof. exists O. split; [lia|apply moves_0, position_same]. Qed.
Lemma adv_next s : adv s (snd (next s)).
Proof.
  destruct (rest s) as [|c l] eqn:E.
  - rewrite (next_rest_nil s E). apply adv_refl.
  - destruct (moves_next s c l E) as (t & -> & M & _). exists 1%nat. rewrite E. split; [cbn; lia|exact M].
Qed.

(* ------------------------------------------------------------------ *)
(** ** The invariant of a result *)

Record acc (res : result) : Prop := {
  ac_read : clean (r_read res);
  ac_unused : clean (r_unused res);
  ac_len : (length (r_unused res) <= length (r_read res))%nat }.

Record resOk (g : rules_t) (r : rule) (res : result) : Prop := {
  ro_acc : acc res;
  ro_err : r_node res = None -> exists e, r_err res = Some e /\ blames g r e;
  ro_node : forall n, r_node res = Some n -> derives g r n /\ n_sticky n = r_sticky res }.

Definition good (g : rules_t) (r : rule) (s : stream) (o : outcome (result * stream)) : Prop :=
  match o with
  | Panic => False
  | OutOfFuel => True
  | Ok (res, s') => resOk g r res /\ adv s s'
  end.

Definition recOk (g : rules_t) (rec : evalT) : Prop :=
  forall r s f, wfRule r -> clean (rest s) -> good g r s (rec r s f).

Lemma wf_descOk r : wfRule r -> descOk r = true.
Proof.
  induction 1; cbn [descOk]; auto; try (now rewrite IHwfRule, orb_true_r).
  - apply orb_true_iff; right. apply andb_true_iff. split.
    + destruct gs as [|g gs]; [cbn in *; lia|]. apply existsb_exists. exists g. split; [now left|].
      specialize (H0 g (or_introl eq_refl)). destruct g; [congruence|reflexivity].
    + apply forallb_forall. intros g Hg. apply forallb_forall. eauto.
  - apply orb_true_iff; right. apply andb_true_iff. split.
    + destruct l; [cbn in *; lia|reflexivity].
    + apply forallb_forall. auto.
  - rewrite IHwfRule1, IHwfRule2. now rewrite orb_true_r.
Qed.

Lemma slice_from_ok {A} (l : list A) k : (k <= length l)%nat -> slice_from l (Z.of_nat k) = Ok (skipn k l).
Proof.
  intros H. unfold slice_from. replace ((0 <=? Z.of_nat k) && (Z.of_nat k <=? Z.of_nat (length l))) with true by lia.
  now rewrite Nat2Z.id.
Qed.
Lemma slice_to_ok {A} (l : list A) k : (k <= length l)%nat -> slice_to l (Z.of_nat k) = Ok (firstn k l).
Proof.
  intros H. unfold slice_to. replace ((0 <=? Z.of_nat k) && (Z.of_nat k <=? Z.of_nat (length l))) with true by lia.
  now rewrite Nat2Z.id.
Qed.
Lemma countUsed_nat res : acc res -> countUsed res = Z.of_nat (length (r_read res) - length (r_unused res)).
Proof. intros A. destruct A. unfold countUsed. lia. Qed.
Lemma charsUsed_ok res : acc res ->
  charsUsed res = Ok (firstn (length (r_read res) - length (r_unused res)) (r_read res)).
Proof. intros A. unfold charsUsed. rewrite countUsed_nat by exact A. apply slice_to_ok. lia. Qed.

(** [account] does not panic and keeps the lengths in order. *)
Lemma account_ok read unused res : acc res -> clean read -> clean unused -> (length unused <= length read)%nat ->
  exists read' unused', account read unused res = Ok (read', unused') /\
    clean read' /\ clean unused' /\ (length unused' <= length read')%nat.
Proof.
  intros [A1 A2 A3] C1 C2 L. unfold account. destruct (Nat.ltb_spec (length unused) (length (r_read res))).
  - rewrite slice_from_ok by lia. cbn [bind]. do 2 eexists. split; [reflexivity|].
    split; [apply clean_app; split; [exact C1|now apply clean_skipn]|]. split; [exact A2|].
    rewrite app_length, skipn_length. lia.
  - rewrite charsUsed_ok by (constructor; assumption). cbn [bind]. rewrite firstn_length.
    rewrite slice_from_ok by lia. cbn [bind]. do 2 eexists. split; [reflexivity|]. split; [exact C1|].
    match goal with |- context [if ?b then _ else _] => destruct b end.
    + split; [exact A2|lia].
    + split; [now apply clean_skipn|]. rewrite skipn_length. lia.
Qed.

(* ------------------------------------------------------------------ *)
(** ** Terminals *)

Lemma prefix_adv s s' n : moves n s s' -> (n <= length (rest s))%nat -> adv s s'.
Proof. intros M L. exists n. auto. Qed.

Lemma term_ok g r ty b sticky t pos idx s s' :
  clean (rest s) -> tshape (rest s) t -> moves (length (readOf t)) s s' ->
  (forall cs, fst (fst t) = Some cs -> derives g r (build ty b cs [] pos sticky)) ->
  (forall e, r_err (toRes ty b sticky t pos idx) = Some e -> blames g r e) ->
  resOk g r (toRes ty b sticky t pos idx) /\ adv s s'.
Proof.
  intros C ((p & Hp) & (u & Hu) & Hf) M D B.
  assert (CR : clean (readOf t)) by (rewrite Hp in C; now apply clean_app in C).
  assert (CU : clean (unusedOf t)) by (rewrite Hu in CR; now apply clean_app in CR).
  assert (LU : (length (unusedOf t) <= length (readOf t))%nat) by (rewrite Hu, app_length; lia).
  split.
  - destruct t as [[[cs|] rd] un]; cbn [toRes readOf unusedOf fst snd] in *.
    + constructor; [constructor; assumption|discriminate|]. intros n [= <-]. split; [now apply D|reflexivity].
    + constructor; [constructor; assumption| |discriminate]. intros _. eexists. split; [reflexivity|]. now apply B.
  - eapply prefix_adv; [exact M|]. rewrite Hp, app_length. lia.
Qed.

(** The errors of the terminals. *)
Ltac termErr := repeat first
  [ match goal with |- context [if ?c then _ else _] => destruct c end
  | match goal with |- context [let '(_, _) := ?c in _] => destruct c end
  | match goal with |- context [match ?c with _ => _ end] => destruct c end];
  cbn [fst r_err failT]; first [discriminate|intros [= <-]; eauto].
Lemma evalChar_err b t s f e : r_err (fst (evalChar b t s f)) = Some e -> exists p, e = EMissing (WChar b t) p.
Proof. unfold evalChar. termErr. Qed.
Lemma evalChars_err b t s f e : r_err (fst (evalChars b t s f)) = Some e -> exists p, e = EMissing (WChars b t) p.
Proof. unfold evalChars. termErr. Qed.
Lemma evalString_err b t s f e : r_err (fst (evalString b t s f)) = Some e -> exists p, e = EMissing (WString b t) p.
Proof. unfold evalString. termErr. Qed.
Lemma evalRange_err b lo hi s f e : r_err (fst (evalRange b lo hi s f)) = Some e -> exists p, e = EMissing (WRange b lo hi) p.
Proof. unfold evalRange. termErr. Qed.
Lemma evalEOF_err b s f e : r_err (fst (evalEOF b s f)) = Some e -> e = EMissing WEOF NoPlace.
Proof. unfold evalEOF. termErr. Qed.

Section Step.
Variables (g : rules_t) (rec : evalT).
Hypothesis HR : recOk g rec.
Hypothesis HG : wfRules g.

Ltac callrec r s f W C :=
  let H := fresh "RO" in let HA := fresh "ADV" in
  pose proof (HR r s f W C) as H; destruct (rec r s f) as [[?res ?s2]| |]; cbn [bind];
  [destruct H as [H HA]|destruct H|exact I].

Lemma firstPos_app a b : firstPos (a ++ b) = match firstPos a with Some p => Some p | None => firstPos b end.
Proof. induction a as [|n a IH]; cbn; [reflexivity|]. destruct (n_pos n); auto. Qed.
Lemma orPos_firstPos kids n : orPos (firstPos (rev kids)) n = firstPos (rev (n :: kids)).
Proof. cbn [rev]. rewrite firstPos_app. unfold orPos. destruct (firstPos (rev kids)); [reflexivity|]. cbn. now destruct (n_pos n). Qed.

Lemma concat_ok b self s0 all : self = RConcat b all -> descOk self = true -> forall rules,
  (forall x, In x rules -> wfRule x) -> forall s f read unused sticky kids pos dn,
  behind s0 s -> clean read -> clean unused -> (length unused <= length read)%nat ->
  all = dn ++ rules -> Forall2 (derives g) dn (rev kids) ->
  sticky = forallb n_sticky (rev kids) -> pos = firstPos (rev kids) ->
  good g self s0 (concatLoop rec b self (depth s0) rules s f read unused sticky kids pos).
Proof.
  intros Hself Hd. induction rules as [|r rules IH]; intros W s f read unused sticky kids pos dn B CR CU LU EQ F2 ES EP;
    cbn [concatLoop].
  - split; [|now apply behind_end]. constructor; [constructor; assumption|discriminate|].
    cbn. intros n [= <-]. split; [|reflexivity]. rewrite app_nil_r in EQ. subst. now constructor.
  - pose proof (behind_prepend s0 s unused CU B) as B1.
    callrec r (prepend s unused) f (W r (or_introl eq_refl)) (behind_clean _ _ B1).
    pose proof (behind_adv _ _ _ B1 ADV) as B2. destruct RO as [AC HE HN].
    destruct (account_ok read unused res AC CR CU LU) as (rd & un & -> & C1 & C2 & L2). cbn [bind].
    destruct (r_node res) as [n|] eqn:EN.
    + destruct (HN n eq_refl) as [DN SN]. eapply IH with (dn := dn ++ [r]); auto.
      * intros x Hx. apply W. now right.
      * now rewrite <- app_assoc.
      * cbn [rev]. apply Forall2_app; [exact F2|]. constructor; [exact DN|constructor].
      * subst sticky. cbn [rev]. rewrite forallb_app. cbn [forallb]. now rewrite SN, andb_true_r.
      * subst pos. apply orPos_firstPos.
    + rewrite Hd. split; [|now apply behind_end]. constructor; [constructor; cbn; auto| |discriminate].
      intros _. destruct (HE eq_refl) as (e & -> & BL). eexists. split; [reflexivity|]. subst self. apply bl_concat with (x := r); [|exact BL].
      rewrite EQ. apply in_or_app. right. now left.
Qed.

Lemma repDone_ok b self r rmin rmax idx err erridx read unused sticky kids pos s0 s :
  self = RRep b r rmin rmax -> descOk self = true -> (forall e, err = Some e -> blames g r e) ->
  clean read -> clean unused -> (length unused <= length read)%nat ->
  (forall n, In n kids -> derives g r n) -> (0 < rmax -> Z.of_nat (length kids) <= rmax) ->
  (sticky = true -> forall n, In n kids -> n_sticky n = true) -> pos = firstPos (rev kids) ->
  adv s0 s ->
  good g self s0 (let* res := repDone b self rmin idx err erridx read unused sticky kids pos in Ok (res, s)).
Proof.
  intros -> Hd HB CR CU LU HK HM HS -> HA. unfold repDone. destruct (Z.ltb_spec (Z.of_nat (length kids)) rmin) as [Hl|Hl].
  - destruct err as [e|]; [|rewrite Hd]; cbn [bind]; (split; [|exact HA]);
      (constructor; [constructor; cbn; auto| |discriminate]); intros _; eexists; (split; [reflexivity|]).
    + apply bl_rep; [lia|auto].
    + now apply bl_few.
  - cbn [bind]. split; [|exact HA]. constructor; [constructor; cbn; auto|discriminate|].
    cbn. intros n [= <-]. split; [|reflexivity]. constructor.
    + intros n Hn. apply in_rev in Hn. auto.
    + rewrite rev_length. lia.
    + rewrite rev_length. auto.
    + intros Ht n Hn. apply in_rev in Hn. auto.
Qed.

Lemma rep_ok b self r rmin rmax s0 : self = RRep b r rmin rmax -> descOk self = true -> wfRule r -> forall fuel
  s f read unused sticky kids pos,
  behind s0 s -> clean read -> clean unused -> (length unused <= length read)%nat ->
  (forall n, In n kids -> derives g r n) -> (0 < rmax -> Z.of_nat (length kids) < rmax) ->
  (sticky = true -> forall n, In n kids -> n_sticky n = true) -> pos = firstPos (rev kids) ->
  good g self s0 (repLoop rec fuel b self r rmin rmax (depth s0) s f read unused sticky kids pos).
Proof.
  intros Hself Hd W. induction fuel as [|fuel IH]; intros s f read unused sticky kids pos B CR CU LU HK HM HS HP; cbn [repLoop]; [exact I|].
  pose proof (behind_prepend s0 s unused CU B) as B1. destruct (peek (prepend s unused) =? EOFChar).
  { eapply repDone_ok; eauto; [discriminate|intros X; specialize (HM X); lia|]. now apply behind_end. }
  callrec r (prepend s unused) f W (behind_clean _ _ B1).
  pose proof (behind_adv _ _ _ B1 ADV) as B2. destruct RO as [AC HE HN].
  destruct (account_ok read unused res AC CR CU LU) as (rd & un & -> & C1 & C2 & L2). cbn [bind].
  destruct (r_node res) as [n|] eqn:EN.
  - destruct (HN n eq_refl) as [DN SN].
    assert (HK' : forall m, In m (n :: kids) -> derives g r m) by (intros m [<-|X]; auto).
    assert (HS' : sticky && r_sticky res = true -> forall m, In m (n :: kids) -> n_sticky m = true).
    { intros X m. apply andb_true_iff in X as [X1 X2]. intros [<-|Y]; [congruence|auto]. }
    subst pos. destruct ((rmax >? 0) && (Z.of_nat (length (n :: kids)) =? rmax)) eqn:EM.
    + apply andb_true_iff in EM as [EM1 EM2]. apply Z.eqb_eq in EM2.
      eapply repDone_ok; eauto; [discriminate|lia|apply orPos_firstPos|now apply behind_end].
    + eapply IH; eauto; [|apply orPos_firstPos]. intros X. specialize (HM X). apply andb_false_iff in EM as [EM|EM]; [lia|].
      apply Z.eqb_neq in EM. cbn [length] in *. lia.
  - eapply repDone_ok; eauto; [|intros X; specialize (HM X); lia| |now apply behind_end].
    { intros e X. destruct (HE eq_refl) as (e' & E' & BL). congruence. }
    intros X. apply andb_true_iff in X as [X _]. auto.
Qed.

(* ---------------- alternatives ---------------- *)

(** What is known of the matches of a group. *)
Definition matchOk (grp : list rule) (maxRead : list Z) (sticky : bool) (res : result) : Prop :=
  acc res /\ (exists n x, r_node res = Some n /\ In x grp /\ derives g x n /\ n_sticky n = r_sticky res) /\
  (length (r_read res) <= length maxRead)%nat /\ (sticky = true -> r_sticky res = true).

(** The matches of a group, in the order of its alternatives. *)
Inductive picked : list rule -> list result -> Prop :=
| pk_nil : picked [] []
| pk_skip l ms x : picked l ms -> picked (l ++ [x]) ms
| pk_take l ms x res n : picked l ms -> r_node res = Some n -> derives g x n -> picked (l ++ [x]) (ms ++ [res]).

Lemma picked_split l ms : picked l ms -> forall a y c, ms = a ++ y :: c ->
  exists l1 x l2 n, l = l1 ++ x :: l2 /\ picked l1 a /\ r_node y = Some n /\ derives g x n.
Proof.
  induction 1 as [|l ms x P IH|l ms x res n P IH EN DN]; intros a y c E.
  - now destruct (app_cons_not_nil _ _ _ E).
  - destruct (IH _ _ _ E) as (l1 & z & l2 & m & -> & X). exists l1, z, (l2 ++ [x]), m. split; [now rewrite <- app_assoc|exact X].
  - destruct c as [|z c _] using rev_ind.
    + apply app_inj_tail in E as [-> ->]. exists l, x, [], n. auto.
    + rewrite app_comm_cons, app_assoc in E. apply app_inj_tail in E as [-> ->].
      destruct (IH _ _ _ eq_refl) as (l1 & w & l2 & m & -> & X). exists l1, w, (l2 ++ [x]), m. split; [now rewrite <- app_assoc|exact X].
Qed.
Lemma selTie_two l : forall m fnd, selLoop m fnd l = None -> exists x y, selTie m fnd l = [x; y] /\
  ((fnd = Some x /\ exists b c, l = b ++ y :: c) \/ exists a b c, l = a ++ x :: b ++ y :: c).
Proof.
  induction l as [|r l IH]; intros m fnd; cbn [selLoop selTie]; [discriminate|].
  assert (SKIP : forall x y, (fnd = Some x /\ (exists b c, l = b ++ y :: c)) \/ (exists a b c, l = a ++ x :: b ++ y :: c) ->
    (fnd = Some x /\ (exists b c, r :: l = b ++ y :: c)) \/ (exists a b c, r :: l = a ++ x :: b ++ y :: c)).
  { intros x y [[E (b & c & ->)]|(a & b & c & ->)]; [left; split; [exact E|]; now exists (r :: b), c|right; now exists (r :: a), b, c]. }
  assert (TAKE : forall x y, (Some r = Some x /\ (exists b c, l = b ++ y :: c)) \/ (exists a b c, l = a ++ x :: b ++ y :: c) ->
    (fnd = Some x /\ (exists b c, r :: l = b ++ y :: c)) \/ (exists a b c, r :: l = a ++ x :: b ++ y :: c)).
  { intros x y [[[= <-] (b & c & ->)]|(a & b & c & ->)]; right; [now exists [], b, c|now exists (r :: a), b, c]. }
  destruct (countUsed r <? m).
  - intros H. destruct (IH _ _ H) as (x & y & -> & X). exists x, y. auto.
  - destruct (countUsed r =? m).
    + destruct fnd as [x|].
      * intros _. exists x, r. split; [reflexivity|]. left. split; [reflexivity|]. now exists [], l.
      * intros H. destruct (IH _ _ H) as (x & y & -> & X). exists x, y. auto.
    + intros H. destruct (IH _ _ H) as (x & y & -> & X). exists x, y. auto.
Qed.
Lemma tie_picked grp ms : picked grp ms -> select ms = None -> exists l1 x l2 y l3 n m,
  grp = l1 ++ x :: l2 ++ y :: l3 /\ derives g x n /\ derives g y m /\ tied ms = [n; m].
Proof.
  intros P H. assert (H' : selLoop 0 None ms = None) by (destruct ms as [|a [|b ms]]; [discriminate..|exact H]).
  destruct (selTie_two _ _ _ H') as (rx & ry & ET & [[X _]|(a & b & c & E)]); [discriminate|].
  rewrite app_comm_cons, app_assoc in E.
  destruct (picked_split _ _ P _ _ _ E) as (l1 & y & l3 & m & -> & P1 & E1 & D1).
  destruct (picked_split _ _ P1 _ _ _ eq_refl) as (l0 & x & l2 & n & -> & P2 & E2 & D2).
  exists l0, x, l2, y, l3, n, m. split; [rewrite <- app_assoc; reflexivity|]. split; [exact D2|]. split; [exact D1|].
  unfold tied. rewrite ET. cbn. now rewrite E1, E2.
Qed.

Definition altOut (Q : eerr -> Prop) (grp : list rule) (s0 : stream) (o : outcome (list result * list Z * bool * option eerr * Z * stream)) : Prop :=
  match o with
  | Panic => False
  | OutOfFuel => True
  | Ok (matched, maxRead, sticky, maxErr, _, s') =>
    (forall res, In res matched -> matchOk grp maxRead sticky res) /\ clean maxRead /\ adv s0 s' /\
    picked grp matched /\ (forall e, maxErr = Some e -> Q e)
  end.

Lemma alt_ok (Q : eerr -> Prop) grp s0 : (forall x e, In x grp -> blames g x e -> Q e) -> forall rules dn, grp = dn ++ rules -> (forall x, In x rules -> wfRule x) ->
  forall s f maxRead sticky maxErr maxIdx matched,
  depth s = depth s0 -> adv s0 s -> clean (rest s) -> clean maxRead ->
  (forall res, In res matched -> matchOk grp maxRead sticky res) -> picked dn (rev matched) -> (forall e, maxErr = Some e -> Q e) ->
  altOut Q grp s0 (altLoop rec (depth s0) rules s f maxRead sticky maxErr maxIdx matched).
Proof.
  intros HQ. induction rules as [|r rules IH]; intros dn EG W s f maxRead sticky maxErr maxIdx matched D A C CM HM HP QE; cbn [altLoop].
  - cbn. split; [intros res Hr; apply in_rev in Hr; auto|]. rewrite app_nil_r in EG. subst dn. auto.
  - assert (IG : In r grp) by (rewrite EG; apply in_or_app; right; now left).
    assert (B0 : behind s s) by now apply behind_refl. pose proof (behind_prepend s s maxRead CM B0) as B1.
    callrec r (prepend s maxRead) f (W r (or_introl eq_refl)) (behind_clean _ _ B1).
    pose proof (behind_adv _ _ _ B1 ADV) as B2. pose proof (behind_unwrap _ _ B2) as B3. rewrite D in B3.
    pose proof (behind_end _ _ B2) as A2. rewrite D in A2.
    destruct RO as [AC HE HN]. set (maxRead' := if (length maxRead <? length (r_read res))%nat then r_read res else maxRead).
    assert (CM' : clean maxRead') by (unfold maxRead'; destruct (_ <? _)%nat; [apply AC|exact CM]).
    assert (LM : (length maxRead <= length maxRead')%nat /\ (length (r_read res) <= length maxRead')%nat).
    { unfold maxRead'. destruct (Nat.ltb_spec (length maxRead) (length (r_read res))); lia. }
    assert (HM' : forall x, In x matched -> matchOk grp maxRead' (sticky && r_sticky res) x).
    { intros x Hx. destruct (HM x Hx) as (X1 & X2 & X3 & X4). split; [exact X1|]. split; [exact X2|]. split; [lia|].
      intros Y. apply andb_true_iff in Y as [Y _]. auto. }
    assert (DU : depth (unwrap (depth s0) s2) = depth s0).
    { apply unwrap_depth. destruct B2 as (X & _). lia. }
    assert (AU : adv s0 (unwrap (depth s0) s2)) by (eapply adv_trans; eauto).
    assert (W' : forall x, In x rules -> wfRule x) by (intros x Hx; apply W; now right).
    assert (EG' : grp = (dn ++ [r]) ++ rules) by (rewrite <- app_assoc; exact EG).
    pose proof (behind_clean _ _ B3) as CU.
    destruct (r_node res) as [n|] eqn:EN.
    + destruct (HN n eq_refl) as [DN SN]. eapply IH with (dn := dn ++ [r]); auto; [|cbn [rev]; eapply pk_take; eauto].
      intros x [<-|Hx]; [|auto]. split; [exact AC|]. split.
      * exists n, r. repeat split; auto.
      * split; [lia|]. intros Y. apply andb_true_iff in Y. tauto.
    + destruct (r_erridx res >? maxIdx); eapply IH with (dn := dn ++ [r]); auto; try (now apply pk_skip).
      intros e X. destruct (HE eq_refl) as (e' & E' & BL). apply (HQ r); [exact IG|congruence].
Qed.

Lemma selLoop_in l : forall m fnd res, selLoop m fnd l = Some (Some res) -> fnd = Some res \/ In res l.
Proof.
  induction l as [|r l IH]; intros m fnd res H; cbn [selLoop] in H; [left; congruence|].
  destruct (countUsed r <? m); [destruct (IH _ _ _ H); [now left|right; now right]|].
  destruct (countUsed r =? m).
  - destruct fnd; [discriminate|]. destruct (IH _ _ _ H) as [X|X]; [injection X as ->; right; now left|right; now right].
  - destruct (IH _ _ _ H) as [X|X]; [injection X as ->; right; now left|right; now right].
Qed.
Lemma select_in l res : select l = Some (Some res) -> In res l.
Proof.
  destruct l as [|a [|b l]]; cbn [select].
  - discriminate.
  - intros [= ->]. now left.
  - intros H. apply selLoop_in in H as [H|H]; [discriminate|exact H].
Qed.

Lemma matchOk_unused grp maxRead sticky res : clean maxRead -> matchOk grp maxRead sticky res ->
  exists u, slice_from maxRead (countUsed res) = Ok u /\ clean u /\ (length u <= length maxRead)%nat.
Proof.
  intros C (A & _ & L & _). rewrite countUsed_nat by exact A. rewrite slice_from_ok by lia.
  eexists. split; [reflexivity|]. split; [now apply clean_skipn|]. rewrite skipn_length. lia.
Qed.

Lemma choice_ok b self all s0 : self = RChoice b all -> descOk self = true -> clean (rest s0) -> forall groups,
  (forall grp x, In grp groups -> In x grp -> wfRule x) -> (forall grp, In grp groups -> In grp all) ->
  forall s f maxRead sticky maxErr maxIdx,
  adv s0 s -> clean maxRead -> (forall e, maxErr = Some e -> exists grp x, In grp all /\ In x grp /\ blames g x e) ->
  good g self s0 (choiceLoop rec b self (depth s0) groups s f maxRead sticky maxErr maxIdx).
Proof.
  intros Hself Hd C0. induction groups as [|grp groups IH]; intros W WI s f maxRead sticky maxErr maxIdx A CM QE; cbn [choiceLoop].
  - rewrite Hd. split; [|exact A]. constructor; [constructor; cbn; auto| |discriminate].
    intros _. eexists. split; [reflexivity|]. subst self. destruct maxErr as [e|]; [|apply bl_silent].
    destruct (QE e eq_refl) as (grp & x & H1 & H2 & H3). now apply bl_choice with (grp := grp) (x := x).
  - set (Q := fun e => exists grp x, In grp all /\ In x grp /\ blames g x e).
    assert (X : altOut Q grp s0 (altLoop rec (depth s0) grp s f maxRead sticky maxErr maxIdx [])).
    { apply alt_ok with (dn := []); auto; [|intros x Hx; eapply W; [now left|exact Hx]|now apply adv_depth|eapply adv_clean; eauto|intros ? []|constructor].
      intros x e Hx BL. exists grp, x. split; [apply WI; now left|auto]. }
    destruct (altLoop _ _ _ _ _ _ _ _ _ _) as [[[[[[matched maxRead'] sticky'] maxErr'] maxIdx'] s']| |]; cbn [bind];
      [|destruct X|exact I].
    destruct X as (HM & CM' & A' & PK & QE').
    destruct (select matched) as [[fnd|]|] eqn:ES.
    + apply select_in in ES. pose proof (HM _ ES) as HF.
      destruct (matchOk_unused _ _ _ _ CM' HF) as (u & EU & CU & LU).
      destruct HF as (_ & (n & x & EN & HX & DN & SN) & _ & HS). rewrite EN, EU. cbn [bind].
      split; [|exact A']. constructor; [constructor; cbn; auto|discriminate|].
      cbn. intros m [= <-]. split; [|reflexivity]. subst self. eapply dv_choice with (grp := grp) (x := x); [apply WI; now left|exact HX|exact DN|].
      intros Y. rewrite SN. auto.
    + apply IH; auto; [intros; eapply W; [right|]; eauto|]. intros; apply WI; now right.
    + split; [|exact A']. constructor; [constructor; cbn; auto; [constructor|lia]| |discriminate].
      intros _. destruct (tie_picked _ _ PK ES) as (l1 & x & l2 & y & l3 & n & m & -> & DX & DY & TI). cbn [r_err]. rewrite TI.
      eexists. split; [reflexivity|]. subst self. eapply bl_tie; eauto. apply WI. now left.
Qed.

Lemma mostGreedy_ok rules s f : (forall x, In x rules -> wfRule x) -> clean (rest s) ->
  match mostGreedy rec rules s f with
  | Panic => False
  | OutOfFuel => True
  | Ok (res, s') => acc res /\ adv s s'
  end.
Proof.
  intros W C. unfold mostGreedy.
  assert (X : altOut (fun _ => True) rules s (altLoop rec (depth s) rules s f [] true None 0 [])).
  { apply alt_ok with (dn := []); auto; [apply adv_refl|constructor|intros ? []|constructor]. }
  destruct (altLoop _ _ _ _ _ _ _ _ _ _) as [[[[[[matched maxRead] sticky] maxErr] maxIdx] s']| |]; cbn [bind];
    [|destruct X|exact I].
  destruct X as (HM & CM & A & _). destruct (select matched) as [[fnd|]|] eqn:ES.
  - apply select_in in ES. pose proof (HM _ ES) as HF.
    destruct (matchOk_unused _ _ _ _ CM HF) as (u & EU & CU & LU). rewrite EU. cbn [bind].
    split; [constructor; cbn; auto|exact A].
  - split; [constructor; cbn; auto|exact A].
  - split; [constructor; cbn; auto; constructor|exact A].
Qed.

(* ---------------- blocks ---------------- *)

Definition exitOk (cl : rule) (excl : list rule) (e : blockExit) : Prop :=
  match e with
  | BExclude res used content => clean used /\ clean content /\ acc res /\ excl <> []
  | BEOF used unused => clean used /\ clean unused
  | BClose res used unused content =>
      clean used /\ clean unused /\ clean content /\ acc res /\
      (length (r_read res) <= length used + length unused)%nat /\
      exists n, r_node res = Some n /\ derives g cl n
  end.

Definition iterOk (cl : rule) (excl : list rule) (s0 : stream) (o : outcome (stream * ((list Z * list Z * list Z) + blockExit))) : Prop :=
  match o with
  | Panic => False
  | OutOfFuel => True
  | Ok (cs, inl (used, unused, content)) => behind s0 cs /\ clean used /\ clean unused /\ clean content
  | Ok (cs, inr e) => behind s0 cs /\ exitOk cl excl e
  end.

Lemma clean_app' a b : clean a -> clean b -> clean (a ++ b).
Proof. intros. now apply clean_app. Qed.
Hint Resolve clean_app' clean_firstn clean_skipn : core.

Lemma blockIter_ok cl esc excl s0 cs used unused content :
  wfRule cl -> (forall x, esc = Some x -> wfRule x) -> (forall x, In x excl -> wfRule x) ->
  behind s0 cs -> clean used -> clean unused -> clean content ->
  iterOk cl excl s0 (blockIter rec cl esc excl cs used unused content).
Proof.
  intros WC WE WX B CU CN CC. unfold blockIter.
  match goal with |- iterOk _ _ _ (bind ?m _) => set (e1 := m) end.
  assert (E1 : match e1 with Panic => False | OutOfFuel => True
    | Ok (escaped, escChars, used1, unused1, cs1) => clean escChars /\ clean used1 /\ clean unused1 /\ behind s0 cs1 end).
  { unfold e1. destruct esc as [e|]; [|split; [constructor|auto]].
    callrec e cs NOT_SKIP (WE e eq_refl) (behind_clean _ _ B).
    pose proof (behind_adv _ _ _ B ADV) as B2. destruct RO as [AC HE HN]. destruct (r_node res) as [n|] eqn:EN.
    - rewrite charsUsed_ok by exact AC. cbn [bind]. pose proof (ac_read _ AC). pose proof (ac_unused _ AC). auto 10.
    - pose proof (ac_read _ AC). split; [constructor|auto]. }
  destruct e1 as [[[[[escaped escChars] used1] unused1] cs1]| |]; cbn [bind]; [|destruct E1|exact I].
  destruct E1 as (CE & CU1 & CN1 & B1). pose proof (behind_prepend _ _ _ CN1 B1) as B1'.
  match goal with |- iterOk _ _ _ (bind ?m _) => set (e2 := m) end.
  assert (E2 : match e2 with Panic => False | OutOfFuel => True
    | Ok (Some res, cs2) => (acc res /\ excl <> []) /\ behind s0 cs2
    | Ok (None, cs2) => behind s0 cs2 end).
  { unfold e2. destruct excl as [|x excl]; [exact B1'|].
    pose proof (mostGreedy_ok (x :: excl) (prepend cs1 unused1) NOT_SKIP WX (behind_clean _ _ B1')) as M.
    destruct (mostGreedy _ _ _ _) as [[res s']| |]; cbn [bind]; [|exact M|exact I].
    destruct M as [M1 M2]. split; [split; [exact M1|discriminate]|]. eapply behind_adv; eauto. }
  destruct e2 as [[exres cs2]| |]; cbn [bind]; [|destruct E2|exact I].
  assert (B2 : behind s0 cs2) by (destruct exres; [apply E2|exact E2]).
  set (exr := match exres with Some res => res | None => mkRes None None 0 [] [] false end).
  assert (AX : acc exr).
  { unfold exr. destruct exres; [apply E2|]. constructor; cbn; auto; constructor. }
  assert (NX : match exres with Some res => match r_node res with Some _ => true | None => false end | None => false end = true -> excl <> []).
  { destruct exres; [intros _; apply E2|discriminate]. }
  destruct (match exres with Some res => match r_node res with Some _ => true | None => false end | None => false end).
  - destruct escaped.
    + rewrite charsUsed_ok by exact AX. cbn [bind]. pose proof (ac_read _ AX). pose proof (ac_unused _ AX). cbn. auto 10.
    + specialize (NX eq_refl). cbn. auto.
  - set (un := match exres with Some res => r_read res | None => unused1 end).
    assert (CUN : clean un) by (unfold un; destruct exres; [apply E2|exact CN1]).
    pose proof (behind_prepend _ _ _ CUN B2) as B3.
    callrec cl (prepend cs2 un) NOT_SKIP WC (behind_clean _ _ B3).
    pose proof (behind_adv _ _ _ B3 ADV) as B4. destruct RO as [AC HE HN].
    pose proof (ac_read _ AC) as CR. pose proof (ac_unused _ AC) as CRU. pose proof (ac_len _ AC) as LR.
    destruct (r_node res) as [n|] eqn:EN.
    + rewrite charsUsed_ok by exact AC. cbn [bind]. destruct escaped; cbn.
      * auto 10.
      * split; [exact B4|]. split; [auto|]. split; [exact CRU|]. split; [exact CC|]. split; [exact AC|]. split.
        -- rewrite !app_length, firstn_length. lia.
        -- exists n. split; [exact EN|]. now apply HN.
    + pose proof (behind_prepend _ _ _ CRU B4) as B5. destruct (peek (prepend s2 (r_unused res)) =? EOFChar) eqn:EP.
      * cbn. auto.
      * pose proof (adv_next (prepend s2 (r_unused res))) as AN. pose proof (behind_adv _ _ _ B5 AN) as B6.
        destruct (rest (prepend s2 (r_unused res))) as [|c l] eqn:ER.
        { rewrite peek_rest, ER, Z.eqb_refl in EP. discriminate. }
        destruct (moves_next _ _ _ ER) as (t & ET & _). rewrite ET in *. cbn [snd] in B6. cbn.
        split; [exact B6|]. split; [exact CU1|]. split; [constructor|].
        pose proof (behind_clean _ _ B5) as CB. rewrite ER in CB. repeat apply clean_app'; auto. inversion CB; subst. now constructor.
Qed.

Lemma blockLoop_ok cl esc excl s0 : wfRule cl -> (forall x, esc = Some x -> wfRule x) -> (forall x, In x excl -> wfRule x) ->
  forall fuel cs used unused content, behind s0 cs -> clean used -> clean unused -> clean content ->
  match blockLoop rec fuel cl esc excl cs used unused content with
  | Panic => False
  | OutOfFuel => True
  | Ok (cs', e) => behind s0 cs' /\ exitOk cl excl e
  end.
Proof.
  intros WC WE WX. induction fuel as [|fuel IH]; intros cs used unused content B CU CN CC; cbn [blockLoop]; [exact I|].
  pose proof (blockIter_ok cl esc excl s0 cs used unused content WC WE WX B CU CN CC) as X.
  destruct (blockIter _ _ _ _ _ _ _ _) as [[cs' [[[used' unused'] content']|e]]| |]; cbn [bind]; [|exact X|exact X|exact I].
  destruct X as (X1 & X2 & X3 & X4). now apply IH.
Qed.

Lemma block_ok fuel b o v c e xs s f : wfRule (RBlock b o v c e xs) -> clean (rest s) ->
  good g (RBlock b o v c e xs) s (evalBlock rec fuel b o v c e xs s f).
Proof.
  intros W C. inversion W as [| | | | | | | | | | |? ? ? ? ? ? WO WC WE WX]; subst. unfold evalBlock.
  callrec o s f WO C. destruct RO as [AC HE HN]. pose proof (ac_read _ AC) as CR. pose proof (ac_unused _ AC) as CU.
  destruct (r_node res) as [on|] eqn:EN.
  - destruct (HN on eq_refl) as [DO SO].
    rewrite charsUsed_ok by exact AC. cbn [bind].
    assert (B1 : behind s (prepend s2 (r_unused res))).
    { apply behind_prepend; [exact CU|]. eapply behind_adv; [apply behind_refl, C|exact ADV]. }
    pose proof (behind_adv _ _ _ B1 (adv_pos _)) as B2.
    destruct (positionOf (prepend s2 (r_unused res))) as [cpos cs]; cbn [snd] in B2.
    pose proof (blockLoop_ok c e xs s WC WE WX fuel cs
      (firstn (length (r_read res) - length (r_unused res)) (r_read res)) (r_unused res) []
      B2 (clean_firstn _ _ CR) CU (Forall_nil _)) as X.
    destruct (blockLoop _ _ _ _ _ _ _ _ _) as [[cs' ex]| |]; cbn [bind]; [|exact X|exact I].
    destruct X as (B3 & X). pose proof (behind_end _ _ B3) as AE. destruct ex as [xr used content|used unused|cr used unused content].
    + destruct X as (X1 & X2 & X3 & X4). pose proof (ac_read _ X3). rewrite charsUsed_ok by exact X3. cbn [bind]. split; [|exact AE].
      constructor; [constructor; cbn; auto| |discriminate]. intros _. eexists. split; [reflexivity|]. now apply bl_excluded.
    + rewrite (wf_descOk c WC). destruct X as (X1 & X2). split; [|exact AE].
      constructor; [constructor; cbn; auto| |discriminate]. intros _. eexists. split; [reflexivity|]. apply bl_close.
    + destruct X as (X1 & X2 & X3 & X4 & X5 & (n & EN' & DN)). split; [|exact AE].
      constructor.
      * constructor; cbn; auto.
        -- destruct v; [apply X4|exact X2].
        -- rewrite app_length. destruct v; lia.
      * discriminate.
      * cbn. intros m [= <-]. split; [|reflexivity]. rewrite EN'. now constructor.
  - split; [|exact ADV]. constructor.
    + constructor; cbn; auto. apply AC.
    + intros _. cbn. destruct (HE eq_refl) as (er & EE & BL). exists er. split; [exact EE|now apply bl_open].
    + discriminate.
Qed.

Lemma step_ok fuel r s f : wfRule r -> clean (rest s) -> good g r s (evalStep g rec fuel r s f).
Proof.
  intros W C. destruct r; cbn [evalStep].
  - inversion W; subst. pose proof (evalChar_err b txt s f) as ER. destruct (evalChar_pure b txt s f) as (s' & pos & idx & EV & M); auto. rewrite EV in *.
    apply term_ok; auto; [apply tchar_shape| |intros e X; destruct (ER e X) as (p & ->); constructor]. intros cs E. destruct (tchar txt f (rest s)) as [[o rd] un] eqn:ET; cbn in E; subst.
    apply tchar_sound in ET as [-> _]. constructor.
  - pose proof (evalChars_err b txt s f) as ER. destruct (evalChars_pure b txt s f) as (s' & pos & idx & EV & M); auto. rewrite EV in *.
    apply term_ok; auto; [apply tlit_shape| |intros e X; destruct (ER e X) as (p & ->); constructor]. intros cs E. destruct (tlit _ txt (rest s)) as [[o rd] un] eqn:ET; cbn in E; subst.
    apply tlit_sound in ET as [-> _]. constructor.
  - pose proof (evalString_err b txt s f) as ER. destruct (evalString_pure b txt s f) as (s' & pos & idx & EV & M); auto. rewrite EV in *.
    apply term_ok; auto; [apply tlit_shape| |intros e X; destruct (ER e X) as (p & ->); constructor]. intros cs E. destruct (tlit _ txt (rest s)) as [[o rd] un] eqn:ET; cbn in E; subst.
    apply tlit_sound in ET as [-> _]. constructor.
  - inversion W; subst. pose proof (evalRange_err b lo hi s f) as ER. destruct (evalRange_pure b lo hi s f) as (s' & pos & idx & EV & M); auto. rewrite EV in *.
    apply term_ok; auto; [apply trange_shape| |intros e X; destruct (ER e X) as (p & ->); constructor]. intros cs E. destruct (trange lo hi f (rest s)) as [[o rd] un] eqn:ET; cbn in E; subst.
    apply trange_sound in ET as (c & -> & H). now constructor.
  - pose proof (evalEOF_err b s f) as ER. destruct (evalEOF_pure b s f) as (s' & pos & idx & EV & M); auto. rewrite EV in *.
    apply term_ok; auto; [apply teof_shape| |intros e X; rewrite (ER e X); constructor]. intros cs E. destruct (teof f (rest s)) as [[o rd] un] eqn:ET; cbn in E; subst.
    apply teof_sound in ET as (-> & _). exact (dv_eof g b pos).
  - destruct (lookup g ref) as [r'|] eqn:EL.
    + callrec r' s f (HG _ _ EL) C. split; [|exact ADV]. destruct RO as [[A1 A2 A3] HE HN].
      constructor; [constructor; assumption| |].
      * cbn. destruct (r_node res); [discriminate|]. intros _. destruct (HE eq_refl) as (er & EE & BL). exists er.
        split; [exact EE|eapply bl_ref; eauto].
      * cbn. intros n. destruct (r_node res) as [m|]; cbn; [|discriminate]. intros [= <-].
        destruct (HN m eq_refl) as [D1 D2]. split; [econstructor; eauto|exact D2].
    + split; [|apply adv_refl]. constructor; [constructor; cbn; auto; constructor| |discriminate].
      intros _. eexists. split; [reflexivity|]. now apply bl_undefined.
  - inversion W; subst. callrec r s f H0 C. destruct RO as [[A1 A2 A3] HE HN]. destruct (r_node res) as [n|] eqn:EN.
    + split; [|exact ADV]. constructor; [constructor; assumption|discriminate|].
      cbn. intros m [= <-]. destruct (HN n eq_refl) as [D1 <-]. split; [now constructor|reflexivity].
    + split; [|exact ADV]. constructor; [constructor; cbn; auto| |discriminate]. intros _. cbn.
      destruct (HE eq_refl) as (er & EE & BL). exists er. split; [exact EE|now apply bl_group].
  - inversion W; subst. callrec r s f H0 C. destruct RO as [[A1 A2 A3] HE HN]. destruct (r_node res) as [n|] eqn:EN.
    + split; [|exact ADV]. constructor; [constructor; assumption|discriminate|].
      cbn. intros m [= <-]. destruct (HN n eq_refl) as [D1 <-]. split; [now constructor|reflexivity].
    + split; [|exact ADV]. constructor; [constructor; assumption|discriminate|].
      cbn. intros m [= <-]. split; [constructor|reflexivity].
  - pose proof (wf_descOk _ W) as HD. inversion W; subst. apply rep_ok; try assumption; try reflexivity; try apply Forall_nil;
      [apply behind_refl, C|intros ? []|now cbn|intros ? ? []].
  - pose proof (wf_descOk _ W) as HD. inversion W; subst. eapply choice_ok; eauto; [apply adv_refl|apply Forall_nil|discriminate].
  - pose proof (wf_descOk _ W) as HD. inversion W; subst. eapply concat_ok with (dn := []); try eassumption; try reflexivity; try apply Forall_nil;
      [apply behind_refl, C|apply Forall2_nil].
  - now apply block_ok.
Qed.

End Step.

Theorem eval_ok g fuel : wfRules g -> forall r s f, wfRule r -> clean (rest s) -> good g r s (eval fuel g r s f).
Proof.
  intros HG. induction fuel as [|fuel IH]; intros r s f W C; cbn [eval]; [exact I|].
  apply step_ok; auto.
Qed.
