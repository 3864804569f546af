(** [sem] and the relation [Ev]. *)
From Verif Require Import Base Stream StreamFacts CallFacts Node Rule SpecStream SpecRule TermFacts TermSpec
  EvalInv SpecEval SemFacts SpecEv.

Definition noAmb (y : sres) : ores :=
  match y with Match n u k st => OMatch n u k st | Fail k st => OFail k st | Amb k => OFail k false end.

Lemma noAmb_ofT ty b st x : noAmb (ofT ty b st x) = ofTerm ty b st x.
Proof. destruct x as [[[cs|] rd] un]; reflexivity. Qed.

(* ------------------------------------------------------------------ *)
(** ** The longest match *)

Lemma longest_app a b : longest (a ++ b) = Nat.max (longest a) (longest b).
Proof.
  induction a as [|x a IH]; [reflexivity|]. cbn [app longest fold_right]. fold (longest (a ++ b)). rewrite IH.
  fold (longest a). lia.
Qed.
Lemma longest_cons x l : longest (x :: l) = Nat.max (snd x) (longest l).
Proof. reflexivity. Qed.
Lemma longest_lt u l : Forall (fun x : node * nat => (snd x < u)%nat) l -> (longest l < u)%nat \/ l = [].
Proof.
  induction 1 as [|x l H F IH]; [now right|]. left. rewrite longest_cons.
  destruct IH as [IH| ->]; [lia|]. cbn. lia.
Qed.
Lemma filter_lt u l : Forall (fun x : node * nat => (snd x < u)%nat) l -> List.filter (fun x => (snd x =? u)%nat) l = [].
Proof.
  induction 1 as [|x l H F IH]; [reflexivity|]. cbn [List.filter]. destruct (Nat.eqb_spec (snd x) u); [lia|exact IH].
Qed.
Lemma filter_nil_lt ml l : (longest l <= longest ml)%nat -> List.filter (fun x => (snd x =? longest ml)%nat) l = [] ->
  Forall (fun x : node * nat => (snd x < longest ml)%nat) l.
Proof.
  intros L F. apply Forall_forall. intros x Hx. pose proof (longest_ge x l Hx).
  destruct (Nat.eqb_spec (snd x) (longest ml)) as [E|E]; [|lia].
  assert (X : In x (List.filter (fun x => (snd x =? longest ml)%nat) l)) by (apply filter_In; split; [exact Hx|now apply Nat.eqb_eq]).
  rewrite F in X. destruct X.
Qed.

Lemma strictly_filter ml n u : strictlyLongest ml n u <->
  List.filter (fun x => (snd x =? longest ml)%nat) ml = [(n, u)].
Proof.
  split.
  - intros (l1 & l2 & -> & F). assert (E : longest (l1 ++ (n, u) :: l2) = u).
    { apply Forall_app in F as [F1 F2]. rewrite longest_app, longest_cons. cbn [snd].
      apply longest_lt in F1 as [F1| ->]; apply longest_lt in F2 as [F2| ->]; cbn; lia. }
    rewrite E. apply Forall_app in F as [F1 F2]. rewrite filter_app. cbn [List.filter snd]. rewrite Nat.eqb_refl.
    now rewrite (filter_lt u l1 F1), (filter_lt u l2 F2).
  - intros H.
    assert (I : In (n, u) (List.filter (fun x => (snd x =? longest ml)%nat) ml)) by (rewrite H; now left).
    apply filter_In in I as [I E]. cbn in E. apply Nat.eqb_eq in E. apply in_split in I as (l1 & l2 & EQ).
    exists l1, l2. split; [exact EQ|].
    assert (L : (longest l1 <= longest ml /\ longest l2 <= longest ml)%nat).
    { rewrite EQ, longest_app, longest_cons. lia. }
    assert (F : List.filter (fun x => (snd x =? longest ml)%nat) l1 = [] /\ List.filter (fun x => (snd x =? longest ml)%nat) l2 = []).
    { rewrite <- E in *. clear E L. rewrite EQ, filter_app in H. cbn [List.filter snd] in H. rewrite Nat.eqb_refl in H.
      destruct (List.filter _ l1) as [|a l1'] eqn:E1.
      - split; [reflexivity|]. injection H as H. exact H.
      - exfalso. cbn in H. injection H as _ H. destruct l1'; discriminate H. }
    rewrite E. apply Forall_app. split; apply filter_nil_lt; tauto.
Qed.

Lemma pick_spec ml :
  match pick ml with
  | PNone => ml = []
  | POne n u => strictlyLongest ml n u
  | PTie => ml <> [] /\ forall n u, ~ strictlyLongest ml n u
  | PEarly => True
  end.
Proof.
  unfold pick. destruct (List.filter _ ml) as [|[n u] [|x2 fl]] eqn:EF.
  - destruct ml as [|x ml]; [reflexivity|]. exfalso.
    destruct (longest_in (x :: ml)) as (y & HI & HX); [discriminate|].
    assert (X : In y (List.filter (fun z => (snd z =? longest (x :: ml))%nat) (x :: ml))).
    { apply filter_In. split; [exact HI|now apply Nat.eqb_eq]. }
    rewrite EF in X. exact X.
  - destruct (earlyTie None ml); [exact I|]. now apply strictly_filter.
  - split; [intros ->; discriminate|]. intros n' u' H. apply strictly_filter in H. rewrite H in EF. discriminate.
Qed.

(* ------------------------------------------------------------------ *)
(** ** What [sem] computes is an outcome of [Ev] *)

Section Sound.
Variables (g : rules_t) (srec : semT).
Hypothesis HS : forall r f t y, srec r f t = SOk y -> Ev g r f t (noAmb y).

Lemma seq_sound b t : forall rules f p m st kids y,
  semSeq srec b rules t f p m st kids = SOk y -> EvSeq g b rules f t p m st (rev kids) (noAmb y).
Proof.
  induction rules as [|r rules IH]; intros f p m st kids y H; cbn [semSeq] in H.
  - injection H as <-. constructor.
  - destruct (srec r f (skipn p t)) as [[n u k s|k s|k]| |] eqn:ER; cbn [sbind] in H; try discriminate; apply HS in ER; cbn in ER.
    + destruct (safe _ _ _ _ _); [|discriminate]. econstructor; [exact ER|]. apply IH in H. exact H.
    + injection H as <-. cbn. eapply es_fail. exact ER.
    + injection H as <-. cbn. replace false with (st && false) by apply andb_false_r. eapply es_fail. exact ER.
Qed.

Lemma end_sound b mn kids p m st : EvEnd b mn p m st (rev kids) (noAmb (repEnd b mn kids p m st)).
Proof.
  unfold repEnd. rewrite <- rev_length. destruct (Z.ltb_spec (Z.of_nat (length (rev kids))) mn); now constructor.
Qed.

Lemma rep_sound b r mn mx t f : forall fuel p m st kids y,
  semRep srec fuel b r mn mx t f p m st kids = SOk y -> EvRep g b r mn mx f t p m st (rev kids) (noAmb y).
Proof.
  induction fuel as [|fuel IH]; intros p m st kids y H; cbn [semRep] in H; [discriminate|].
  destruct (skipn p t) as [|c l] eqn:ESK.
  - injection H as <-. apply er_end; [exact ESK|apply end_sound].
  - rewrite <- ESK in H. assert (NE : skipn p t <> []) by (rewrite ESK; discriminate).
    destruct (srec r f (skipn p t)) as [[n u k s|k s|k]| |] eqn:ER; cbn [sbind] in H; try discriminate; apply HS in ER; cbn in ER.
    + destruct (safe _ _ _ _ _); [|discriminate].
      assert (EL : Z.of_nat (length (rev kids ++ [n])) = Z.of_nat (S (length kids))).
      { rewrite app_length, rev_length. cbn. lia. }
      destruct ((mx >? 0) && (Z.of_nat (S (length kids)) =? mx)) eqn:EF.
      * injection H as <-. apply andb_true_iff in EF as [EF1 EF2]. apply Z.eqb_eq in EF2.
        eapply er_full; [exact NE|exact ER|lia|lia|]. change (rev kids ++ [n]) with (rev (n :: kids)). apply end_sound.
      * eapply er_step; [exact NE|exact ER| |].
        -- intros [X1 X2]. rewrite EL in X2. apply andb_false_iff in EF as [EF|EF]; [lia|]. apply Z.eqb_neq in EF. lia.
        -- change (rev kids ++ [n]) with (rev (n :: kids)). now apply IH.
    + injection H as <-. eapply er_stop; [exact NE|exact ER|]. apply end_sound.
Qed.

Lemma alts_sound t f : forall rules m st acc ml m' st',
  semAlts srec rules t f m st acc = SOk (ml, m', st') ->
  exists ml', ml = rev acc ++ ml' /\ EvAlts g rules f t m st ml' m' st'.
Proof.
  induction rules as [|r rules IH]; intros m st acc ml m' st' H; cbn [semAlts] in H.
  - injection H as <- <- <-. exists []. split; [now rewrite app_nil_r|constructor].
  - destruct (srec r f t) as [[n u k s|k s|k]| |] eqn:ER; cbn [sbind] in H; try discriminate; apply HS in ER; cbn in ER.
    + apply IH in H as (ml' & -> & A). exists ((n, u) :: ml'). cbn [rev]. rewrite <- app_assoc. split; [reflexivity|].
      econstructor; eauto.
    + apply IH in H as (ml' & -> & A). exists ml'. split; [reflexivity|]. eapply ea_fail; eauto.
    + apply IH in H as (ml' & -> & A). exists ml'. split; [reflexivity|]. eapply ea_fail; [exact ER|]. rewrite andb_false_r. exact A.
Qed.

Lemma choice_sound b t f : forall groups m st y,
  semChoice srec b groups t f m st = SOk y -> EvChoice g b groups f t m st (noAmb y).
Proof.
  induction groups as [|grp groups IH]; intros m st y H; cbn [semChoice] in H.
  - injection H as <-. constructor.
  - destruct (semAlts srec grp t f m st []) as [[[ml m'] st']| |] eqn:EA; cbn [sbind] in H; try discriminate.
    apply alts_sound in EA as (ml' & -> & A). cbn [rev app] in H. pose proof (pick_spec ml') as P.
    destruct (pick ml') as [|n u| |]; [|injection H as <-|injection H as <-|discriminate].
    + subst ml'. eapply ec_next; eauto.
    + eapply ec_pick; eauto.
    + destruct P. eapply ec_tie; eauto.
Qed.

Lemma scan_sound b on u0 v cl esc excl t : forall fuel p m y, (u0 <= p)%nat ->
  semScan srec fuel b on u0 v cl esc excl t p m = SOk y ->
  EvScan g b on v cl esc excl t p m (firstn (p - u0) (skipn u0 t)) (noAmb y).
Proof.
  induction fuel as [|fuel IH]; intros p m y LU H; cbn [semScan] in H; [discriminate|].
  match type of H with sbind ?x _ = _ => destruct x as [m1| |] eqn:E1; cbn [sbind] in H; try discriminate end.
  assert (P1 : EvPlain g esc t p m m1).
  { destruct esc as [e|]; [|injection E1 as <-; constructor].
    destruct (srec e NOT_SKIP (skipn p t)) as [[n u k s|k s|k]| |] eqn:ER; cbn [sbind] in E1; try discriminate;
      apply HS in ER; cbn in ER; destruct (isLast excl && negb (k =? 0)%nat); try discriminate; injection E1 as <-;
      eapply ep_fail; exact ER. }
  match type of H with sbind ?x _ = _ => destruct x as [[fnd m2]| |] eqn:E2; cbn [sbind] in H; try discriminate end.
  assert (P2 : exists ml, EvExcl g excl t p m1 ml m2 /\ (if fnd then ml <> [] else ml = [])).
  { destruct excl as [|x excl]; [injection E2 as <- <-; exists []; split; [constructor|reflexivity]|].
    destruct (semAlts srec (x :: excl) (skipn p t) NOT_SKIP 0 true []) as [[[ml k] st]| |] eqn:EA; cbn [sbind] in E2; try discriminate.
    apply alts_sound in EA as (ml' & -> & A). cbn [rev app] in E2. pose proof (pick_spec ml') as P.
    destruct (pick ml') as [|n u| |]; try discriminate.
    - injection E2 as <- <-. exists ml'. split; [|exact P]. eapply ex_alts. exact A.
    - destruct (Nat.leb_spec m1 (p + k)) as [L|L]; [|discriminate]. injection E2 as <- <-. exists ml'. split.
      + replace (p + k)%nat with (Nat.max m1 (p + k)) by lia. eapply ex_alts. exact A.
      + destruct P as (l1 & l2 & -> & _). destruct l1; discriminate. }
  destruct P2 as (ml & P2 & P3). destruct fnd.
  { injection H as <-. eapply sc_exclude; eauto. }
  subst ml. destruct (srec cl NOT_SKIP (skipn p t)) as [[n u k s|k s|k]| |] eqn:ER; cbn [sbind] in H; try discriminate;
      apply HS in ER; cbn in ER.
  - destruct (Nat.leb_spec m2 (p + k)) as [L|L]; [|discriminate]. injection H as <-. cbn [noAmb].
    replace (p + k)%nat with (Nat.max m2 (p + k)) by lia. eapply sc_close; eauto.
  - destruct (skipn p t) as [|x l] eqn:ESK.
    + injection H as <-. rewrite <- ESK in ER. eapply sc_eof; eauto.
    + rewrite <- ESK in ER. eapply sc_next; eauto.
      assert (EC : firstn (p - u0) (skipn u0 t) ++ [x] = firstn (S p - u0) (skipn u0 t)).
      { replace (S p - u0)%nat with (p - u0 + 1)%nat by lia. rewrite firstn_plus, skipn_skipn'.
        replace (u0 + (p - u0))%nat with p by lia. rewrite ESK. reflexivity. }
      rewrite EC. apply IH; [lia|exact H].
Qed.

Lemma step_sound fuel r f t y : semStep g srec fuel r f t = SOk y -> Ev g r f t (noAmb y).
Proof.
  destruct r; cbn [semStep]; intros H.
  1-5: injection H as <-; rewrite noAmb_ofT; constructor.
  - destruct (lookup g ref) as [r'|] eqn:EL.
    + destruct (srec r' f t) as [[n u k s|k s|k]| |] eqn:ER; cbn [sbind] in H; try discriminate; apply HS in ER; cbn in ER;
        injection H as <-; econstructor; eauto.
    + injection H as <-. now constructor.
  - destruct (srec r f t) as [[n u k s|k s|k]| |] eqn:ER; cbn [sbind] in H; try discriminate; apply HS in ER; cbn in ER;
        injection H as <-; econstructor; eauto.
  - destruct (srec r f t) as [[n u k s|k s|k]| |] eqn:ER; cbn [sbind] in H; try discriminate; apply HS in ER; cbn in ER;
        injection H as <-; [now apply ev_option|now apply ev_option_none].
  - apply rep_sound in H. now constructor.
  - apply choice_sound in H. now constructor.
  - apply seq_sound in H. now constructor.
  - unfold semBlock in H. destruct (srec r1 f t) as [[n u k s|k s|k]| |] eqn:ER; cbn [sbind] in H; try discriminate; apply HS in ER; cbn in ER.
    + destruct (match esc with Some _ => true | None => (k =? u)%nat end); [|discriminate].
      apply scan_sound in H; [|lia]. rewrite Nat.sub_diag in H. eapply ev_block; eauto.
    + injection H as <-. eapply ev_block_fail; eauto.
    + injection H as <-. eapply ev_block_fail; eauto.
Qed.
End Sound.

Theorem sem_sound g fuel : forall r f t y, sem fuel g r f t = SOk y -> Ev g r f t (noAmb y).
Proof.
  induction fuel as [|fuel IH]; intros r f t y H; cbn [sem] in H; [discriminate|]. eapply step_sound; eauto.
Qed.

(* ------------------------------------------------------------------ *)
(** ** More fuel does not change [sem] *)

Definition sle {A} (a b : sout A) : Prop := a = SFuel \/ a = b.
Lemma sle_refl {A} (a : sout A) : sle a a. Proof. now right. Qed.
Lemma sle_bind {A B} (a b : sout A) (k k' : A -> sout B) : sle a b -> (forall x, sle (k x) (k' x)) -> sle (sbind a k) (sbind b k').
Proof. intros [-> | ->] H; [now left|]. destruct b; cbn; [apply H|now right|now right]. Qed.
Lemma sle_trans {A} (a b c : sout A) : sle a b -> sle b c -> sle a c.
Proof. intros [-> | ->]; [now left|auto]. Qed.

Section Mono.
Variables (g : rules_t) (r1 r2 : semT).
Hypothesis HM : forall r f t, sle (r1 r f t) (r2 r f t).

Lemma seq_mono b t : forall rules f p m st kids, sle (semSeq r1 b rules t f p m st kids) (semSeq r2 b rules t f p m st kids).
Proof.
  induction rules as [|r rules IH]; intros; cbn [semSeq]; [apply sle_refl|]. apply sle_bind; [apply HM|].
  intros [n u k s|k s|k]; try apply sle_refl. destruct (safe _ _ _ _ _); [apply IH|apply sle_refl].
Qed.
Lemma rep_mono b r mn mx t f : forall n1 n2, (n1 <= n2)%nat -> forall p m st kids,
  sle (semRep r1 n1 b r mn mx t f p m st kids) (semRep r2 n2 b r mn mx t f p m st kids).
Proof.
  induction n1 as [|n1 IH]; intros [|n2] L p m st kids; cbn [semRep]; [apply sle_refl|now left|lia|].
  destruct (skipn p t); [apply sle_refl|]. apply sle_bind; [apply HM|].
  intros [n u k s|k s|k]; try apply sle_refl. destruct (safe _ _ _ _ _); [|apply sle_refl].
  destruct (_ && _); [apply sle_refl|]. apply IH. lia.
Qed.
Lemma alts_mono t f : forall rules m st acc, sle (semAlts r1 rules t f m st acc) (semAlts r2 rules t f m st acc).
Proof.
  induction rules as [|r rules IH]; intros; cbn [semAlts]; [apply sle_refl|]. apply sle_bind; [apply HM|].
  intros [n u k s|k s|k]; apply IH.
Qed.
Lemma choice_mono b t f : forall groups m st, sle (semChoice r1 b groups t f m st) (semChoice r2 b groups t f m st).
Proof.
  induction groups as [|grp groups IH]; intros; cbn [semChoice]; [apply sle_refl|]. apply sle_bind; [apply alts_mono|].
  intros [[ml m'] st']. destruct (pick ml); try apply sle_refl. apply IH.
Qed.
Lemma scan_mono b on u0 v cl esc excl t : forall n1 n2, (n1 <= n2)%nat -> forall p m,
  sle (semScan r1 n1 b on u0 v cl esc excl t p m) (semScan r2 n2 b on u0 v cl esc excl t p m).
Proof.
  induction n1 as [|n1 IH]; intros [|n2] L p m; cbn [semScan]; [apply sle_refl|now left|lia|].
  apply sle_bind.
  { destruct esc as [e|]; [|apply sle_refl]. apply sle_bind; [apply HM|]. intros; apply sle_refl. }
  intros m1. apply sle_bind.
  { destruct excl as [|x excl]; [apply sle_refl|]. apply sle_bind; [apply alts_mono|]. intros; apply sle_refl. }
  intros [[|] m2]; [apply sle_refl|]. apply sle_bind; [apply HM|]. intros [n u k s|k s|k]; try apply sle_refl.
  destruct (skipn p t); [apply sle_refl|]. apply IH. lia.
Qed.
Lemma step_mono n1 n2 r f t : (n1 <= n2)%nat -> sle (semStep g r1 n1 r f t) (semStep g r2 n2 r f t).
Proof.
  intros L. destruct r; cbn [semStep]; try apply sle_refl.
  - destruct (lookup g ref); [|apply sle_refl]. apply sle_bind; [apply HM|]. intros; apply sle_refl.
  - apply sle_bind; [apply HM|]. intros; apply sle_refl.
  - apply sle_bind; [apply HM|]. intros; apply sle_refl.
  - now apply rep_mono.
  - apply choice_mono.
  - apply seq_mono.
  - unfold semBlock. apply sle_bind; [apply HM|]. intros [n u k s|k s|k]; try apply sle_refl.
    destruct (match esc with Some _ => _ | None => _ end); [|apply sle_refl]. now apply scan_mono.
Qed.
End Mono.

Theorem sem_mono g n1 : forall n2 r f t, (n1 <= n2)%nat -> sle (sem n1 g r f t) (sem n2 g r f t).
Proof.
  induction n1 as [|n1 IH]; intros [|n2] r f t L; cbn [sem]; [apply sle_refl|now left|lia|].
  apply step_mono; [|lia]. intros. apply IH. lia.
Qed.

(* ------------------------------------------------------------------ *)
(** ** Every outcome of [Ev] is computed by [sem], unless it is unsafe *)

Scheme Ev_m := Minimality for Ev Sort Prop
with EvSeq_m := Minimality for EvSeq Sort Prop
with EvRep_m := Minimality for EvRep Sort Prop
with EvAlts_m := Minimality for EvAlts Sort Prop
with EvChoice_m := Minimality for EvChoice Sort Prop
with EvExcl_m := Minimality for EvExcl Sort Prop
with EvPlain_m := Minimality for EvPlain Sort Prop
with EvScan_m := Minimality for EvScan Sort Prop.
Combined Scheme Ev_mut from Ev_m, EvSeq_m, EvRep_m, EvAlts_m, EvChoice_m, EvExcl_m, EvPlain_m, EvScan_m.

Definition okr (o : ores) (x : sout sres) : Prop := x = SUnsafe \/ exists y, x = SOk y /\ noAmb y = o.

Definition evFuel g r f t o := exists n, forall n', (n <= n')%nat -> okr o (sem n' g r f t).

Lemma okr_match n u k s x : okr (OMatch n u k s) x -> x = SUnsafe \/ x = SOk (Match n u k s).
Proof. intros [H|(y & H & E)]; [now left|]. destruct y; inversion E; subst. now right. Qed.
Lemma okr_fail k s x : okr (OFail k s) x -> x = SUnsafe \/ x = SOk (Fail k s) \/ (x = SOk (Amb k) /\ s = false).
Proof. intros [H|(y & H & E)]; [now left|]. destruct y; inversion E; subst; right; [now left|now right]. Qed.
Lemma okr_unsafe o : okr o SUnsafe. Proof. now left. Qed.
Lemma okr_ok y : okr (noAmb y) (SOk y). Proof. right. eauto. Qed.

Lemma end_complete b mn p m st kids o : EvEnd b mn p m st kids o -> noAmb (repEnd b mn (rev kids) p m st) = o.
Proof.
  unfold repEnd. rewrite rev_length, rev_involutive. intros H. inversion H; subst;
    destruct (Z.ltb_spec (Z.of_nat (length kids)) mn); try lia; reflexivity.
Qed.
Lemma okr_end b mn p m st kids o : EvEnd b mn p m st kids o -> okr o (SOk (repEnd b mn (rev kids) p m st)).
Proof. intros H. apply end_complete in H. right. eauto. Qed.

Lemma pick_none ml : pick ml = PNone -> ml = [].
Proof. intros H. pose proof (pick_spec ml) as P. now rewrite H in P. Qed.
Lemma pick_some ml : ml <> [] -> pick ml <> PNone.
Proof. intros H E. now apply pick_none in E. Qed.
Lemma pick_strict ml n u : strictlyLongest ml n u -> pick ml = POne n u \/ pick ml = PEarly.
Proof. intros H. apply strictly_filter in H. unfold pick. rewrite H. destruct (earlyTie None ml); auto. Qed.
Lemma pick_tie ml : ml <> [] -> (forall n u, ~ strictlyLongest ml n u) -> pick ml = PTie.
Proof.
  intros NE H. pose proof (pick_spec ml) as P. unfold pick in *. destruct (List.filter _ ml) as [|[n u] [|x2 fl]] eqn:EF; auto.
  - congruence.
  - exfalso. apply (H n u). now apply strictly_filter.
Qed.

Definition semEsc (srec : semT) (esc : option rule) (excl : list rule) (t : list Z) (p m : nat) : sout nat :=
  match esc with
  | None => SOk m
  | Some e =>
    let! x := srec e NOT_SKIP (skipn p t) in
    match x with
    | Match _ _ _ _ => SUnsafe
    | Fail k _ | Amb k => if isLast excl && negb (k =? 0)%nat then SUnsafe else SOk (Nat.max m (p + k))
    end
  end.
Definition semExcl (srec : semT) (excl : list rule) (t : list Z) (p m1 : nat) : sout (bool * nat) :=
  match excl with
  | [] => SOk (false, m1)
  | _ =>
    let! (matched, k, _) := semAlts srec excl (skipn p t) NOT_SKIP 0 true [] in
    match pick matched with
    | PNone => SOk (false, Nat.max m1 (p + k))
    | POne _ _ => if (m1 <=? p + k)%nat then SOk (true, p + k)%nat else SUnsafe
    | _ => SUnsafe
    end
  end.
Lemma semScan_eq srec q b on u0 v cl esc excl t p m :
  semScan srec (S q) b on u0 v cl esc excl t p m =
  let! m1 := semEsc srec esc excl t p m in
  let! (found, m2) := semExcl srec excl t p m1 in
  if found then SOk (Fail m2 false)
  else
    let! x := srec cl NOT_SKIP (skipn p t) in
    match x with
    | Match nc u k _ =>
      if (m2 <=? p + k)%nat then
        SOk (Match (tree TBlock b (on :: contentNode (firstn (p - u0) (skipn u0 t)) :: (if v then [] else [nc])) false)
               (if v then p else p + u) (p + k) false)
      else SUnsafe
    | Fail k _ =>
      match skipn p t with
      | [] => SOk (Fail (length t) false)
      | _ => semScan srec q b on u0 v cl esc excl t (S p) (Nat.max (Nat.max m2 (p + k)) (S p))
      end
    | Amb _ => SUnsafe
    end.
Proof. reflexivity. Qed.

Lemma plain_fuel g esc excl t p m m1 :
  (esc = None /\ m1 = m) \/
    (exists e k st, esc = Some e /\ m1 = Nat.max m (p + k) /\ evFuel g e NOT_SKIP (skipn p t) (OFail k st)) ->
  exists n, forall n', (n <= n')%nat -> semEsc (sem n' g) esc excl t p m = SUnsafe \/ semEsc (sem n' g) esc excl t p m = SOk m1.
Proof.
  unfold semEsc. intros [[-> ->]|(e & k & st & -> & -> & q & H)]; [exists O; auto|]. exists q. intros n' L.
  destruct (okr_fail _ _ _ (H n' ltac:(lia))) as [-> | [-> | [-> ->]]]; cbn [sbind]; [auto| |];
    destruct (isLast excl && negb (k =? 0)%nat); auto.
Qed.

Lemma excl_fuel g excl t p m ml m2 :
  (excl = [] /\ ml = [] /\ m2 = m) \/
     (exists x xs k st, excl = x :: xs /\ m2 = Nat.max m (p + k) /\ exists n, forall n', (n <= n')%nat ->
       semAlts (sem n' g) excl (skipn p t) NOT_SKIP 0 true [] = SUnsafe \/
       semAlts (sem n' g) excl (skipn p t) NOT_SKIP 0 true [] = SOk (ml, k, st)) ->
  exists n, forall n', (n <= n')%nat -> semExcl (sem n' g) excl t p m = SUnsafe \/
    semExcl (sem n' g) excl t p m = SOk (match ml with [] => false | _ => true end, m2).
Proof.
  unfold semExcl. intros [(-> & -> & ->)|(x & xs & k & st & -> & -> & q & H)]; [exists O; auto|]. exists q. intros n' L.
  destruct (H n' L) as [-> | ->]; cbn [sbind]; [auto|]. destruct ml as [|y ml]; [right; reflexivity|].
  pose proof (pick_some (y :: ml) ltac:(discriminate)) as PN. destruct (pick (y :: ml)) as [|n u| |]; [congruence| |now left|now left].
  destruct (Nat.leb_spec m (p + k)) as [L'|L']; [right|now left]. do 2 f_equal. lia.
Qed.

Lemma escaped_fuel g b on v cl e excl t p m o ne ue ke se q1 u0 :
  (forall n', (q1 <= n')%nat -> okr (OMatch ne ue ke se) (sem n' g e NOT_SKIP (skipn p t))) ->
  exists n q, forall n' q', (n <= n')%nat -> (q <= q')%nat -> okr o (semScan (sem n' g) q' b on u0 v cl (Some e) excl t p m).
Proof.
  intros H1. exists q1, 1%nat. intros n' [|q'] L1 L2; [lia|]. rewrite semScan_eq. unfold semEsc.
  destruct (okr_match _ _ _ _ _ (H1 n' ltac:(lia))) as [-> | ->]; apply okr_unsafe.
Qed.

Lemma ev_complete_mut g :
  (forall r f t o, Ev g r f t o -> evFuel g r f t o) /\
  (forall b rules f t p m st kids o, EvSeq g b rules f t p m st kids o ->
     exists n, forall n', (n <= n')%nat -> okr o (semSeq (sem n' g) b rules t f p m st (rev kids))) /\
  (forall b r mn mx f t p m st kids o, EvRep g b r mn mx f t p m st kids o ->
     exists n q, forall n' q', (n <= n')%nat -> (q <= q')%nat -> okr o (semRep (sem n' g) q' b r mn mx t f p m st (rev kids))) /\
  (forall rules f t m st ml m' st', EvAlts g rules f t m st ml m' st' ->
     exists n, forall n' acc, (n <= n')%nat ->
       semAlts (sem n' g) rules t f m st acc = SUnsafe \/ semAlts (sem n' g) rules t f m st acc = SOk (rev acc ++ ml, m', st')) /\
  (forall b groups f t m st o, EvChoice g b groups f t m st o ->
     exists n, forall n', (n <= n')%nat -> okr o (semChoice (sem n' g) b groups t f m st)) /\
  (forall excl t p m ml m2, EvExcl g excl t p m ml m2 ->
     (excl = [] /\ ml = [] /\ m2 = m) \/
     exists x xs k st, excl = x :: xs /\ m2 = Nat.max m (p + k) /\ exists n, forall n', (n <= n')%nat ->
       semAlts (sem n' g) excl (skipn p t) NOT_SKIP 0 true [] = SUnsafe \/
       semAlts (sem n' g) excl (skipn p t) NOT_SKIP 0 true [] = SOk (ml, k, st)) /\
  (forall esc t p m m1, EvPlain g esc t p m m1 ->
     (esc = None /\ m1 = m) \/
     exists e k st, esc = Some e /\ m1 = Nat.max m (p + k) /\ evFuel g e NOT_SKIP (skipn p t) (OFail k st)) /\
  (forall b on v cl esc excl t p m c o, EvScan g b on v cl esc excl t p m c o ->
     forall u0, (u0 <= p)%nat -> c = firstn (p - u0) (skipn u0 t) ->
     exists n q, forall n' q', (n <= n')%nat -> (q <= q')%nat -> okr o (semScan (sem n' g) q' b on u0 v cl esc excl t p m)).
Proof.
  apply Ev_mut; unfold evFuel.
  - intros. exists 1%nat. intros [|n'] L; [lia|]. cbn [sem semStep]. right. eexists. split; [reflexivity|apply noAmb_ofT].
  - intros. exists 1%nat. intros [|n'] L; [lia|]. cbn [sem semStep]. right. eexists. split; [reflexivity|apply noAmb_ofT].
  - intros. exists 1%nat. intros [|n'] L; [lia|]. cbn [sem semStep]. right. eexists. split; [reflexivity|apply noAmb_ofT].
  - intros. exists 1%nat. intros [|n'] L; [lia|]. cbn [sem semStep]. right. eexists. split; [reflexivity|apply noAmb_ofT].
  - intros. exists 1%nat. intros [|n'] L; [lia|]. cbn [sem semStep]. right. eexists. split; [reflexivity|apply noAmb_ofT].
  - intros b n f t EL. exists 1%nat. intros [|n'] L; [lia|]. cbn [sem semStep]. rewrite EL. apply (okr_ok (Fail 0 false)).
  - intros b n r f t nd u k st EL _ (q & H). exists (S q). intros [|n'] L; [lia|]. cbn [sem semStep]. rewrite EL.
    destruct (okr_match _ _ _ _ _ (H n' ltac:(lia))) as [-> | ->]; [apply okr_unsafe|]. apply (okr_ok (Match (flip b nd) u k st)).
  - intros b n r f t k st EL _ (q & H). exists (S q). intros [|n'] L; [lia|]. cbn [sem semStep]. rewrite EL.
    destruct (okr_fail _ _ _ (H n' ltac:(lia))) as [-> | [-> | [-> ->]]]; [apply okr_unsafe|apply (okr_ok (Fail k st))|apply (okr_ok (Amb k))].
  - intros b r f t nd u k st _ (q & H). exists (S q). intros [|n'] L; [lia|]. cbn [sem semStep].
    destruct (okr_match _ _ _ _ _ (H n' ltac:(lia))) as [-> | ->]; [apply okr_unsafe|]. apply (okr_ok (Match _ u k st)).
  - intros b r f t k st _ (q & H). exists (S q). intros [|n'] L; [lia|]. cbn [sem semStep].
    destruct (okr_fail _ _ _ (H n' ltac:(lia))) as [-> | [-> | [-> ->]]]; [apply okr_unsafe|apply (okr_ok (Fail k st))|apply (okr_ok (Fail k false))].
  - intros b r f t nd u k st _ (q & H). exists (S q). intros [|n'] L; [lia|]. cbn [sem semStep].
    destruct (okr_match _ _ _ _ _ (H n' ltac:(lia))) as [-> | ->]; [apply okr_unsafe|]. apply (okr_ok (Match _ u k st)).
  - intros b r f t k st _ (q & H). exists (S q). intros [|n'] L; [lia|]. cbn [sem semStep].
    destruct (okr_fail _ _ _ (H n' ltac:(lia))) as [-> | [-> | [-> ->]]]; [apply okr_unsafe|apply (okr_ok (Match _ 0 k st))|apply okr_unsafe].
  - intros b l f t o _ (q & H). exists (S q). intros [|n'] L; [lia|]. cbn [sem semStep]. apply (H n'). lia.
  - intros b r mn mx f t o _ (n & q & H). exists (S (Nat.max n q)). intros [|n'] L; [lia|]. cbn [sem semStep]. apply (H n' (S n')); lia.
  - intros b gs f t o _ (q & H). exists (S q). intros [|n'] L; [lia|]. cbn [sem semStep]. apply (H n'). lia.
  - intros b op v cl esc excl f t k st _ (q & H). exists (S q). intros [|n'] L; [lia|]. cbn [sem semStep]. unfold semBlock.
    destruct (okr_fail _ _ _ (H n' ltac:(lia))) as [-> | [-> | [-> ->]]]; [apply okr_unsafe|apply (okr_ok (Fail k false))|apply (okr_ok (Amb k))].
  - intros b op v cl esc excl f t on u k st o _ (q & H) _ IS.
    destruct (IS u (le_n _)) as (n2 & q2 & H2); [now rewrite Nat.sub_diag|].
    exists (S (Nat.max q (Nat.max n2 q2))). intros [|n'] L; [lia|]. cbn [sem semStep]. unfold semBlock.
    destruct (okr_match _ _ _ _ _ (H n' ltac:(lia))) as [-> | ->]; [apply okr_unsafe|]. cbn [sbind].
    destruct (match esc with Some _ => _ | None => _ end); [|apply okr_unsafe]. apply H2; lia.
  (* sequence *)
  - intros. exists O. intros n' _. cbn [semSeq]. rewrite rev_involutive. apply (okr_ok (Match _ p m st)).
  - intros b r rules f t p m st kids n u k s o _ (q1 & H1) _ (q2 & H2). exists (Nat.max q1 q2). intros n' L. cbn [semSeq].
    destruct (okr_match _ _ _ _ _ (H1 n' ltac:(lia))) as [-> | ->]; [apply okr_unsafe|]. cbn [sbind].
    destruct (safe _ _ _ _ _); [|apply okr_unsafe]. specialize (H2 n' ltac:(lia)). now rewrite rev_app_distr in H2.
  - intros b r rules f t p m st kids k s _ (q1 & H1). exists q1. intros n' L. cbn [semSeq].
    destruct (okr_fail _ _ _ (H1 n' ltac:(lia))) as [-> | [-> | [-> ->]]]; [apply okr_unsafe|apply (okr_ok (Fail _ _))|].
    rewrite andb_false_r. apply (okr_ok (Fail _ false)).
  (* repetition *)
  - intros b r mn mx f t p m st kids o ESK EE. exists O, 1%nat. intros n' [|q'] _ L; [lia|]. cbn [semRep]. rewrite ESK.
    now apply okr_end.
  - intros b r mn mx f t p m st kids k s o ESK _ (q1 & H1) EE. exists q1, 1%nat. intros n' [|q'] L1 L2; [lia|]. cbn [semRep].
    destruct (skipn p t) as [|x l] eqn:E; [congruence|]. rewrite <- E in *.
    destruct (okr_fail _ _ _ (H1 n' ltac:(lia))) as [-> | [-> | [-> ->]]]; cbn [sbind]; [apply okr_unsafe|now apply okr_end|apply okr_unsafe].
  - intros b r mn mx f t p m st kids n u k s o ESK _ (q1 & H1) P1 P2 EE. exists q1, 1%nat. intros n' [|q'] L1 L2; [lia|]. cbn [semRep].
    destruct (skipn p t) as [|x l] eqn:E; [congruence|]. rewrite <- E in *.
    destruct (okr_match _ _ _ _ _ (H1 n' ltac:(lia))) as [-> | ->]; cbn [sbind]; [apply okr_unsafe|].
    destruct (safe _ _ _ _ _); [|apply okr_unsafe]. rewrite app_length in P2. cbn [length] in P2. rewrite rev_length.
    assert (EF : (mx >? 0) && (Z.of_nat (S (length kids)) =? mx) = true).
    { apply andb_true_iff. split; [rewrite Z.gtb_ltb; apply Z.ltb_lt; lia|apply Z.eqb_eq; lia]. }
    rewrite EF.
    apply okr_end in EE. now rewrite rev_app_distr in EE.
  - intros b r mn mx f t p m st kids n u k s o ESK _ (q1 & H1) NP _ (q2 & q3 & H2). exists (Nat.max q1 q2), (S q3).
    intros n' [|q'] L1 L2; [lia|]. cbn [semRep].
    destruct (skipn p t) as [|x l] eqn:E; [congruence|]. rewrite <- E in *.
    destruct (okr_match _ _ _ _ _ (H1 n' ltac:(lia))) as [-> | ->]; cbn [sbind]; [apply okr_unsafe|].
    destruct (safe _ _ _ _ _); [|apply okr_unsafe]. rewrite app_length in NP. cbn [length] in NP. rewrite rev_length.
    assert (EF : (mx >? 0) && (Z.of_nat (S (length kids)) =? mx) = false).
    { rewrite Z.gtb_ltb. destruct (Z.ltb_spec 0 mx); [|reflexivity]. destruct (Z.eqb_spec (Z.of_nat (S (length kids))) mx); [|reflexivity]. exfalso. apply NP. lia. }
    rewrite EF.
    specialize (H2 n' q' ltac:(lia) ltac:(lia)). now rewrite rev_app_distr in H2.
  (* alternatives *)
  - intros. exists O. intros n' acc _. right. cbn [semAlts]. now rewrite app_nil_r.
  - intros r rules f t m st n u k s ml m' st' _ (q1 & H1) _ (q2 & H2). exists (Nat.max q1 q2). intros n' acc L. cbn [semAlts].
    destruct (okr_match _ _ _ _ _ (H1 n' ltac:(lia))) as [-> | ->]; cbn [sbind]; [now left|].
    destruct (H2 n' ((n, u) :: acc) ltac:(lia)) as [-> | ->]; [now left|right]. cbn [rev]. now rewrite <- app_assoc.
  - intros r rules f t m st k s ml m' st' _ (q1 & H1) _ (q2 & H2). exists (Nat.max q1 q2). intros n' acc L. cbn [semAlts].
    destruct (okr_fail _ _ _ (H1 n' ltac:(lia))) as [-> | [-> | [-> ->]]]; cbn [sbind]; [now left|apply H2; lia|].
    rewrite andb_false_r in H2. apply H2. lia.
  (* choice *)
  - intros. exists O. intros n' _. cbn [semChoice]. apply (okr_ok (Fail m st)).
  - intros b grp groups f t m st m' st' o _ (q1 & H1) _ (q2 & H2). exists (Nat.max q1 q2). intros n' L. cbn [semChoice].
    destruct (H1 n' [] ltac:(lia)) as [-> | ->]; cbn [sbind rev app]; [apply okr_unsafe|]. apply H2. lia.
  - intros b grp groups f t m st ml m' st' n u _ (q1 & H1) SL. exists q1. intros n' L. cbn [semChoice].
    destruct (H1 n' [] ltac:(lia)) as [-> | ->]; cbn [sbind rev app]; [apply okr_unsafe|].
    destruct (pick_strict _ _ _ SL) as [-> | ->]; [apply (okr_ok (Match _ u m' st'))|apply okr_unsafe].
  - intros b grp groups f t m st ml m' st' _ (q1 & H1) NE NS. exists q1. intros n' L. cbn [semChoice].
    destruct (H1 n' [] ltac:(lia)) as [-> | ->]; cbn [sbind rev app]; [apply okr_unsafe|].
    rewrite (pick_tie _ NE NS). apply (okr_ok (Amb m')).
  (* excludes *)
  - intros. left. auto.
  - intros x excl t p m ml k st _ (q & H). right. exists x, excl, k, st. split; [reflexivity|]. split; [reflexivity|].
    exists q. intros n' L. exact (H n' [] L).
  (* plain *)
  - intros. left. auto.
  - intros e t p m k st _ (q & H). right. exists e, k, st. split; [reflexivity|]. split; [reflexivity|]. exists q. exact H.
  (* scan *)
  - intros b on v cl esc excl t p m c m1 ml m2 _ HP _ HX NE u0 LU EC.
    destruct (plain_fuel g esc excl t p m m1 HP) as (q1 & H1). destruct (excl_fuel g excl t p m1 ml m2 HX) as (q2 & H2).
    exists (Nat.max q1 q2), 1%nat. intros n' [|q'] L1 L2; [lia|]. rewrite semScan_eq.
    destruct (H1 n' ltac:(lia)) as [-> | ->]; cbn [sbind]; [apply okr_unsafe|].
    destruct (H2 n' ltac:(lia)) as [-> | ->]; cbn [sbind]; [apply okr_unsafe|].
    destruct ml; [congruence|]. apply (okr_ok (Fail m2 false)).
  - intros b on v cl esc excl t p m c m1 m2 nc u k st _ HP _ HX _ (q3 & H3) u0 LU EC.
    destruct (plain_fuel g esc excl t p m m1 HP) as (q1 & H1). destruct (excl_fuel g excl t p m1 [] m2 HX) as (q2 & H2).
    exists (Nat.max q1 (Nat.max q2 q3)), 1%nat. intros n' [|q'] L1 L2; [lia|]. rewrite semScan_eq.
    destruct (H1 n' ltac:(lia)) as [-> | ->]; cbn [sbind]; [apply okr_unsafe|].
    destruct (H2 n' ltac:(lia)) as [-> | ->]; cbn [sbind]; [apply okr_unsafe|].
    destruct (okr_match _ _ _ _ _ (H3 n' ltac:(lia))) as [-> | ->]; cbn [sbind]; [apply okr_unsafe|].
    destruct (Nat.leb_spec m2 (p + k)) as [L|L]; [|apply okr_unsafe]. right. eexists. split; [reflexivity|]. cbn [noAmb].
    replace (Nat.max m2 (p + k)) with (p + k)%nat by lia. now subst c.
  - intros b on v cl esc excl t p m c m1 m2 k st _ HP _ HX _ (q3 & H3) ESK u0 LU EC.
    destruct (plain_fuel g esc excl t p m m1 HP) as (q1 & H1). destruct (excl_fuel g excl t p m1 [] m2 HX) as (q2 & H2).
    exists (Nat.max q1 (Nat.max q2 q3)), 1%nat. intros n' [|q'] L1 L2; [lia|]. rewrite semScan_eq.
    destruct (H1 n' ltac:(lia)) as [-> | ->]; cbn [sbind]; [apply okr_unsafe|].
    destruct (H2 n' ltac:(lia)) as [-> | ->]; cbn [sbind]; [apply okr_unsafe|].
    destruct (okr_fail _ _ _ (H3 n' ltac:(lia))) as [-> | [-> | [-> ->]]]; cbn [sbind]; [apply okr_unsafe| |apply okr_unsafe].
    rewrite ESK. apply (okr_ok (Fail (length t) false)).
  - intros b on v cl esc excl t p m c m1 m2 k st x l o _ HP _ HX _ (q3 & H3) ESK _ IS u0 LU EC.
    destruct (plain_fuel g esc excl t p m m1 HP) as (q1 & H1). destruct (excl_fuel g excl t p m1 [] m2 HX) as (q2 & H2).
    destruct (IS u0) as (q4 & q5 & H4); [lia| |].
    { subst c. replace (S p - u0)%nat with (p - u0 + 1)%nat by lia. rewrite firstn_plus, skipn_skipn'.
      replace (u0 + (p - u0))%nat with p by lia. now rewrite ESK. }
    exists (Nat.max (Nat.max q1 q4) (Nat.max q2 q3)), (S q5). intros n' [|q'] L1 L2; [lia|]. rewrite semScan_eq.
    destruct (H1 n' ltac:(lia)) as [-> | ->]; cbn [sbind]; [apply okr_unsafe|].
    destruct (H2 n' ltac:(lia)) as [-> | ->]; cbn [sbind]; [apply okr_unsafe|].
    destruct (okr_fail _ _ _ (H3 n' ltac:(lia))) as [-> | [-> | [-> ->]]]; cbn [sbind]; [apply okr_unsafe| |apply okr_unsafe].
    rewrite ESK. apply H4; lia.
  - intros b on v cl e excl t p m c ne ue ke se ml m2 n u o _ (q1 & H1) _ _ _ _ _ u0 LU EC. eapply (escaped_fuel g); eauto.
  - intros b on v cl e excl t p m c ne ue ke se m2 nc u k st o _ (q1 & H1) _ _ _ _ _ _ u0 LU EC. eapply (escaped_fuel g); eauto.
  - intros b on v cl e excl t p m c ne ue ke se m2 k st x l o _ (q1 & H1) _ _ _ _ _ _ _ u0 LU EC. eapply (escaped_fuel g); eauto.
  - intros b on v cl e excl t p m c ne ue ke se m2 k st _ (q1 & H1) _ _ _ _ _ u0 LU EC. eapply (escaped_fuel g); eauto.
Qed.

(** [Ev] is total on what [sem] finds safe. *)
Theorem ev_complete g r f t o : Ev g r f t o -> evFuel g r f t o.
Proof. apply ev_complete_mut. Qed.
