(** Rules whose meaning on a text is known and never unsafe: building blocks to follow a
    concrete grammar from the terminals up. *)
From Verif Require Import Base Stream Node Rule SpecRule TermFacts SpecEval SpecEv EvFacts EvDet EvalSem SpecDriver JsonSafe ChoiceFacts.

Section Sure.
Variable g : rules_t.

(** [o] is what the rule means on the text, and [sem] computes it. *)
Definition sure (r : rule) (f : Z) (t : list Z) (o : ores) : Prop :=
  Ev g r f t o /\ forall fuel, sem fuel g r f t = SFuel \/ sem fuel g r f t = SOk (asSem o).

Lemma sure_clear r f t o : sure r f t o -> clearCut g r f t.
Proof. intros [_ X] fuel. destruct (X fuel) as [H|H]; rewrite H; split; intros; try discriminate. destruct o; discriminate. Qed.
Lemma sure_one r f t o o' : sure r f t o -> Ev g r f t o' -> o' = o.
Proof. intros [E _] E'. exact (ev_det _ _ _ _ _ _ E' E). Qed.

(* ---------------- terminals ---------------- *)

Lemma term_asSem ty b st x : ofT ty b st x = asSem (ofTerm ty b st x).
Proof. destruct x as [[[cs|] rd] un]; reflexivity. Qed.
Lemma sure_char b c u f t : sure (RChar b c u) f t (ofTerm TChar b true (tchar c f t)).
Proof. split; [apply ev_char|]. intros [|fuel]; [now left|right]. cbn [sem semStep]. now rewrite term_asSem. Qed.
Lemma sure_string b l f t : sure (RString b l) f t (ofTerm TString b false (tlit (skips f true) l t)).
Proof. split; [apply ev_string|]. intros [|fuel]; [now left|right]. cbn [sem semStep]. now rewrite term_asSem. Qed.
Lemma sure_eof b f t : sure (REOF b) f t (ofTerm TEOF (mkBase nameEOF (b_virtual b) (b_nondata b) (b_tokenized b)) true (teof f t)).
Proof. split; [apply ev_eof|]. intros [|fuel]; [now left|right]. cbn [sem semStep]. now rewrite term_asSem. Qed.

(* ---------------- references, groups ---------------- *)

Definition mapTree (h : node -> node) (o : ores) : ores := match o with OMatch n u k st => OMatch (h n) u k st | OFail k st => OFail k st end.
Lemma sure_ref b n r f t o : lookup g n = Some r -> sure r f t o -> sure (RRef b n) f t (mapTree (flip b) o).
Proof.
  intros L [E X]. split.
  - destruct o as [nd u k st|k st]; cbn [mapTree]; [eapply ev_ref|eapply ev_ref_fail]; eassumption.
  - intros [|fuel]; [now left|]. cbn [sem semStep]. rewrite L. destruct (X fuel) as [H|H]; rewrite H; [now left|right]. destruct o; reflexivity.
Qed.
Definition inGroup (b : rbase) (o : ores) : ores := match o with OMatch n u k st => OMatch (tree TGroup b [n] st) u k st | OFail k st => OFail k st end.
Lemma sure_group b r f t o : sure r f t o -> sure (RGroup b r) f t (inGroup b o).
Proof.
  intros [E X]. split.
  - destruct o as [nd u k st|k st]; cbn [inGroup]; [now apply ev_group|now apply ev_group_fail].
  - intros [|fuel]; [now left|]. cbn [sem semStep]. destruct (X fuel) as [H|H]; rewrite H; [now left|right]. destruct o; reflexivity.
Qed.

(* ---------------- choices with one group ---------------- *)

Definition hits (os : list ores) : list (node * nat) := flat_map (fun o => match o with OMatch n u _ _ => [(n, u)] | OFail _ _ => [] end) os.
Definition glued (o : ores) : bool := match o with OMatch _ _ _ st => st | OFail _ st => st end.
Definition farthest (m : nat) (os : list ores) : nat := fold_left (fun m o => Nat.max m (looked o)) os m.
Definition allGlued (st : bool) (os : list ores) : bool := fold_left (fun st o => st && glued o) os st.
Lemma sure_alts rs f t os : Forall2 (fun r o => sure r f t o) rs os -> forall m st,
  EvAlts g rs f t m st (hits os) (farthest m os) (allGlued st os) /\
  forall fuel acc, semAlts (sem fuel g) rs t f m st acc = SFuel \/ semAlts (sem fuel g) rs t f m st acc = SOk (rev acc ++ hits os, farthest m os, allGlued st os).
Proof.
  induction 1 as [|r o rs os [E X] F IH]; intros m st.
  - split; [constructor|]. intros fuel acc. right. cbn. now rewrite app_nil_r.
  - destruct (IH (Nat.max m (looked o)) (st && glued o)) as [A B]. split.
    + destruct o as [n u k s|k s]; [eapply ea_match|eapply ea_fail]; eassumption.
    + intros fuel acc. cbn [semAlts]. destruct (X fuel) as [H|H]; rewrite H; [now left|]. cbn [sbind]. destruct o as [n u k s|k s]; cbn [asSem].
      * destruct (B fuel ((n, u) :: acc)) as [Y|Y]; [left; exact Y|right]. cbn [looked glued] in Y. rewrite Y. cbn [rev]. rewrite <- app_assoc. reflexivity.
      * exact (B fuel acc).
Qed.
Lemma sure_choice_one b rs f t os n u : Forall2 (fun r o => sure r f t o) rs os -> pick (hits os) = POne n u ->
  sure (RChoice b [rs]) f t (OMatch (tree TChoice b [n] (allGlued true os)) u (farthest 0 os) (allGlued true os)).
Proof.
  intros F P. destruct (sure_alts _ _ _ _ F 0%nat true) as [A B]. split.
  - apply ev_choice. eapply ec_pick; [exact A|]. pose proof (pick_spec (hits os)) as Q. now rewrite P in Q.
  - intros [|fuel]; [now left|]. cbn [sem semStep semChoice]. destruct (B fuel []) as [H|H]; rewrite H; [now left|right]. cbn [sbind rev app]. now rewrite P.
Qed.
Lemma sure_choice_none b rs f t os : Forall2 (fun r o => sure r f t o) rs os -> hits os = [] ->
  sure (RChoice b [rs]) f t (OFail (farthest 0 os) (allGlued true os)).
Proof.
  intros F P. destruct (sure_alts _ _ _ _ F 0%nat true) as [A B]. rewrite P in *. split.
  - apply ev_choice. eapply ec_next; [exact A|]. apply ec_none.
  - intros [|fuel]; [now left|]. cbn [sem semStep semChoice]. destruct (B fuel []) as [H|H]; rewrite H; [now left|right]. reflexivity.
Qed.
Lemma pick_apart l : NoDup (List.map snd l) -> l <> [] -> exists n u, pick l = POne n u /\ In (n, u) l.
Proof.
  intros ND NE. unfold pick. assert (IN : exists x, In x l /\ snd x = SpecEval.longest l).
  { clear ND. induction l as [|[n u] l IH]; [congruence|]. cbn [SpecEval.longest fold_right snd]. fold (SpecEval.longest l).
    destruct l as [|y l]; [exists (n, u); cbn; split; [now left|lia]|]. destruct (IH ltac:(discriminate)) as (x & I & E).
    destruct (Nat.max_spec u (SpecEval.longest (y :: l))) as [[_ ->]|[_ ->]]; [exists x; split; [now right|exact E]|exists (n, u); split; [now left|reflexivity]]. }
  destruct IN as ([n u] & I & E). cbn in E. apply in_split in I as (l1 & l2 & ->). rewrite map_app in ND. cbn in ND. apply NoDup_remove_2 in ND as N2.
  assert (NO : forall z : list (node * nat), (forall x, In x z -> snd x <> u) -> List.filter (fun x => (snd x =? u)%nat) z = []).
  { induction z as [|x z IH]; intros H; [reflexivity|]. cbn. destruct (Nat.eqb_spec (snd x) u); [destruct (H x (or_introl eq_refl)); assumption|]. apply IH. intros y Y. apply H. now right. }
  rewrite <- E, filter_app. cbn [List.filter snd]. rewrite Nat.eqb_refl, !NO.
  - cbn. rewrite early_none; [exists n, u; split; [reflexivity|apply in_elt]| |discriminate]. rewrite map_app. exact ND.
  - intros x X Q. apply N2. apply in_or_app. right. rewrite <- Q. now apply in_map.
  - intros x X Q. apply N2. apply in_or_app. left. rewrite <- Q. now apply in_map.
Qed.

(* ---------------- two elements in a row ---------------- *)

Definition inSeq (b : rbase) (n : node) (u k : nat) (s : bool) (o : ores) : ores :=
  match o with
  | OMatch n2 u2 k2 s2 => OMatch (tree TConcat b [n; n2] (s && s2)) (u + u2) (Nat.max k (u + k2)) (s && s2)
  | OFail k2 s2 => OFail (Nat.max k (u + k2)) (s && s2)
  end.
Lemma sure_two b r1 r2 f t n u k s o : sure r1 f t (OMatch n u k s) -> sure r2 (nextMode f n s) (skipn u t) o ->
  (forall n2 u2 k2 s2, o = OMatch n2 u2 k2 s2 -> (k - u <= k2)%nat) -> sure (RConcat b [r1; r2]) f t (inSeq b n u k s o).
Proof.
  intros [E1 X1] [E2 X2] SF. split.
  - apply ev_concat. eapply es_step; [exact E1|]. cbn [Nat.add Nat.max andb app]. destruct o as [n2 u2 k2 s2|k2 s2]; cbn [inSeq].
    + eapply es_step; [exact E2|]. apply es_done.
    + eapply es_fail; exact E2.
  - intros [|fuel]; [now left|]. cbn [sem semStep semSeq]. cbn [skipn]. destruct (X1 fuel) as [H|H]; rewrite H; [now left|]. cbn [sbind asSem isLast]. replace (safe false 0 0 u k) with true by reflexivity. cbn [Nat.add Nat.max].
    destruct (X2 fuel) as [H2|H2]; rewrite H2; [now left|]. right. cbn [sbind]. destruct o as [n2 u2 k2 s2|k2 s2]; cbn [asSem]; [|reflexivity].
    replace (safe true u k u2 k2) with true; [reflexivity|]. symmetry. unfold safe. apply orb_true_iff. left. apply Nat.leb_le. exact (SF _ _ _ _ eq_refl).
Qed.
Lemma sure_two_fail b r1 r2 f t k s : sure r1 f t (OFail k s) -> sure (RConcat b [r1; r2]) f t (OFail k s).
Proof.
  intros [E X]. split.
  - apply ev_concat. exact (es_fail g b r1 [r2] f t 0 0 true [] k s E).
  - intros [|fuel]; [now left|]. cbn [sem semStep semSeq]. cbn [skipn]. destruct (X fuel) as [H|H]; rewrite H; [now left|]. right. reflexivity.
Qed.

(* ---------------- blocks that close visibly ---------------- *)

Section Block.
Variables (b : rbase) (cl : rule) (esc : option rule) (excl : list rule) (pre : list Z) (on : node).
Notation "'at!' c" := (length pre + length c)%nat (at level 9, c at level 9).
(** The content up to here is [c], and [here] follows. *)
Definition sureScan (c here : list Z) (o : ores) : Prop :=
  EvScan g b on false cl esc excl (pre ++ c ++ here) (at! c) (at! c) c o /\
  forall fuel lf, semScan (sem fuel g) lf b on (length pre) false cl esc excl (pre ++ c ++ here) (at! c) (at! c) = SFuel \/
    semScan (sem fuel g) lf b on (length pre) false cl esc excl (pre ++ c ++ here) (at! c) (at! c) = SOk (asSem o).
(** No escape here. *)
Definition plainAt (here : list Z) : Prop := match esc with None => True | Some e => exists st, sure e NOT_SKIP here (OFail 0 st) end.
(** The excludes here: their matches, and how far they look. *)
Definition exclAt (here : list Z) (ml : list (node * nat)) (k : nat) : Prop :=
  (excl = [] /\ ml = [] /\ k = 0%nat) \/ exists os, Forall2 (fun r o => sure r NOT_SKIP here o) excl os /\ excl <> [] /\ hits os = ml /\ farthest 0 os = k.

Lemma here_is c here : skipn (at! c) (pre ++ c ++ here) = here.
Proof. rewrite app_assoc, <- app_length, skipn_app, skipn_all, Nat.sub_diag. reflexivity. Qed.
Lemma content_is c here : firstn (at! c - length pre) (skipn (length pre) (pre ++ c ++ here)) = c.
Proof. rewrite skipn_app, skipn_all, Nat.sub_diag. cbn [skipn app]. replace (at! c - length pre)%nat with (length c) by lia. now rewrite firstn_app, firstn_all, Nat.sub_diag, app_nil_r. Qed.

Lemma plain_ev t p here : skipn p t = here -> plainAt here -> EvPlain g esc t p p p /\ forall fuel m1,
  m1 = match esc with None => SOk p | Some e => let! x := sem fuel g e NOT_SKIP here in
     match x with Match _ _ _ _ => SUnsafe | Fail k _ | Amb k => if isLast excl && negb (k =? 0)%nat then SUnsafe else SOk (Nat.max p (p + k)) end end -> m1 = SFuel \/ m1 = SOk p.
Proof.
  intros <-. unfold plainAt. destruct esc as [e|].
  - intros (st & E & X). split.
    + pose proof (ep_fail g e t p p 0 st E) as Y. replace (Nat.max p (p + 0)) with p in Y by lia. exact Y.
    + intros fuel m1 ->. destruct (X fuel) as [H|H]; rewrite H; [now left|right]. cbn [sbind asSem]. rewrite andb_false_r. f_equal. lia.
  - intros _. split; [constructor|]. intros fuel m1 ->. now right.
Qed.
Lemma excl_ev t p here ml k : skipn p t = here -> exclAt here ml k -> EvExcl g excl t p p ml (p + k) /\ forall fuel m1,
  m1 = match excl with [] => SOk (false, p) | _ => let! (matched, k, _) := semAlts (sem fuel g) excl here NOT_SKIP 0 true [] in
     match pick matched with PNone => SOk (false, Nat.max p (p + k)) | POne _ _ => if (p <=? p + k)%nat then SOk (true, p + k)%nat else SUnsafe | _ => SUnsafe end end ->
  (ml = [] -> m1 = SFuel \/ m1 = SOk (false, p + k)%nat) /\ (forall n u, pick ml = POne n u -> m1 = SFuel \/ m1 = SOk (true, p + k)%nat).
Proof.
  intros <- [(-> & -> & ->)|(os & F & NE & HI & FA)].
  - rewrite Nat.add_0_r. split; [constructor|]. intros fuel m1 ->. split; [now right|discriminate].
  - destruct (sure_alts _ _ _ _ F 0%nat true) as [A B]. rewrite HI, FA in *. destruct excl as [|x ex]; [congruence|]. split.
    + pose proof (ex_alts g x ex t p p ml k _ A) as Y. replace (Nat.max p (p + k)) with (p + k)%nat in Y by lia. exact Y.
    + intros fuel m1 ->. destruct (B fuel []) as [H|H]; rewrite H; [split; intros; now left|]. cbn [sbind rev app]. split.
      * intros ->. right. unfold pick. cbn. do 2 f_equal. lia.
      * intros n u ->. right. destruct (Nat.leb_spec p (p + k)); [reflexivity|lia].
Qed.
Lemma scan_next c x l ke kc st o : plainAt (x :: l) -> exclAt (x :: l) [] ke -> sure cl NOT_SKIP (x :: l) (OFail kc st) -> (ke <= 1)%nat -> (kc <= 1)%nat ->
  sureScan (c ++ [x]) l o -> sureScan c (x :: l) o.
Proof.
  intros PL FR [EC XC] L1 L2. pose proof (here_is c (x :: l)) as HE. unfold sureScan. replace (pre ++ (c ++ [x]) ++ l) with (pre ++ c ++ x :: l) by now rewrite <- app_assoc.
  replace (at! (c ++ [x])) with (S (at! c)) by (rewrite app_length; cbn; lia). set (t := pre ++ c ++ x :: l) in *. set (p := (at! c)) in *. intros [EN XN].
  destruct (plain_ev t p _ HE PL) as [A1 B1]. destruct (excl_ev t p _ _ _ HE FR) as [A2 B2]. split.
  - eapply sc_next; [exact A1|exact A2|rewrite HE; exact EC|exact HE|]. replace (Nat.max (Nat.max (p + ke) (p + kc)) (S p)) with (S p) by lia. exact EN.
  - intros fuel [|lf]; [now left|]. cbn [semScan]. rewrite HE. destruct (B1 fuel _ eq_refl) as [H|H]; rewrite H; [now left|]. cbn [sbind].
    destruct (B2 fuel _ eq_refl) as [C _]. destruct (C eq_refl) as [H2|H2]; rewrite H2; [now left|]. cbn [sbind]. destruct (XC fuel) as [H3|H3]; rewrite H3; [now left|]. cbn [sbind asSem].
    replace (Nat.max (Nat.max (p + ke) (p + kc)) (S p)) with (S p) by lia. apply XN.
Qed.
Lemma scan_over s : forall c here o, (forall x l, In x s -> exists ke kc st, plainAt (x :: l) /\ exclAt (x :: l) [] ke /\ sure cl NOT_SKIP (x :: l) (OFail kc st) /\ (ke <= 1)%nat /\ (kc <= 1)%nat) ->
  sureScan (c ++ s) here o -> sureScan c (s ++ here) o.
Proof.
  induction s as [|x s IH]; intros c here o H S; [now rewrite app_nil_r in S|]. destruct (H x (s ++ here) (or_introl eq_refl)) as (ke & kc & st & A & B & C & L1 & L2).
  cbn [app]. eapply scan_next; [exact A|exact B|exact C|exact L1|exact L2|]. apply IH; [intros y l Y; apply H; now right|]. now rewrite <- app_assoc.
Qed.
Lemma scan_excluded c here ml ke n u : plainAt here -> exclAt here ml ke -> pick ml = POne n u -> sureScan c here (OFail (at! c + ke) false).
Proof.
  intros PL FR PK. pose proof (here_is c here) as HE. unfold sureScan. set (t := pre ++ c ++ here) in *. set (p := (at! c)) in *.
  destruct (plain_ev t p _ HE PL) as [A1 B1]. destruct (excl_ev t p _ _ _ HE FR) as [A2 B2]. split.
  - eapply sc_exclude; [exact A1|exact A2|]. intros ->. discriminate PK.
  - intros fuel [|lf]; [now left|]. cbn [semScan]. rewrite HE. destruct (B1 fuel _ eq_refl) as [H|H]; rewrite H; [now left|]. cbn [sbind].
    destruct (B2 fuel _ eq_refl) as [_ C]. destruct (C _ _ PK) as [H2|H2]; rewrite H2; [now left|]. now right.
Qed.
Lemma scan_closed c here ke nc u k st : plainAt here -> exclAt here [] ke -> sure cl NOT_SKIP here (OMatch nc u k st) -> (ke <= k)%nat ->
  sureScan c here (OMatch (tree TBlock b [on; contentNode c; nc] false) (at! c + u) (at! c + k) false).
Proof.
  intros PL FR [EC XC] LK. pose proof (here_is c here) as HE. pose proof (content_is c here) as CO. unfold sureScan. set (t := pre ++ c ++ here) in *. set (p := (at! c)) in *.
  destruct (plain_ev t p _ HE PL) as [A1 B1]. destruct (excl_ev t p _ _ _ HE FR) as [A2 B2]. split.
  - rewrite <- HE in EC. pose proof (sc_close g b on false cl esc excl t p p c _ _ _ _ _ _ A1 A2 EC) as Y. cbn [app] in Y. replace (Nat.max (p + ke) (p + k)) with (p + k)%nat in Y by lia. exact Y.
  - intros fuel [|lf]; [now left|]. cbn [semScan]. rewrite HE. destruct (B1 fuel _ eq_refl) as [H|H]; rewrite H; [now left|]. cbn [sbind].
    destruct (B2 fuel _ eq_refl) as [C _]. destruct (C eq_refl) as [H2|H2]; rewrite H2; [now left|]. cbn [sbind]. destruct (XC fuel) as [H3|H3]; rewrite H3; [now left|]. cbn [sbind asSem].
    destruct (Nat.leb_spec (p + ke) (p + k)); [|lia]. right. rewrite CO. reflexivity.
Qed.
Lemma scan_ended c ke kc st : plainAt [] -> exclAt [] [] ke -> sure cl NOT_SKIP [] (OFail kc st) -> sureScan c [] (OFail (at! c) false).
Proof.
  intros PL FR [EC XC]. pose proof (here_is c []) as HE. unfold sureScan. set (t := pre ++ c ++ []) in *. assert (LT : length t = (at! c)) by (unfold t; now rewrite app_nil_r, app_length). set (p := (at! c)) in *.
  destruct (plain_ev t p _ HE PL) as [A1 B1]. destruct (excl_ev t p _ _ _ HE FR) as [A2 B2]. split.
  - rewrite <- HE in EC. pose proof (sc_eof g b on false cl esc excl t p p c _ _ _ _ A1 A2 EC HE) as Y. now rewrite LT in Y.
  - intros fuel [|lf]; [now left|]. cbn [semScan]. rewrite HE. destruct (B1 fuel _ eq_refl) as [H|H]; rewrite H; [now left|]. cbn [sbind].
    destruct (B2 fuel _ eq_refl) as [C _]. destruct (C eq_refl) as [H2|H2]; rewrite H2; [now left|]. cbn [sbind]. destruct (XC fuel) as [H3|H3]; rewrite H3; [now left|]. right. now rewrite LT.
Qed.
Lemma sure_block op f here o st : sure op f (pre ++ here) (OMatch on (length pre) (length pre) st) -> sureScan [] here o -> sure (RBlock b op false cl esc excl) f (pre ++ here) o.
Proof.
  intros [EO XO] [ES XS]. cbn [length app] in *. rewrite Nat.add_0_r in *. split.
  - eapply ev_block; [exact EO|exact ES].
  - intros [|fuel]; [now left|]. cbn [sem semStep]. unfold semBlock. destruct (XO fuel) as [H|H]; rewrite H; [now left|]. cbn [sbind asSem]. rewrite Nat.eqb_refl.
    replace (match esc with Some _ => true | None => true end) with true by now destruct esc. apply XS.
Qed.
End Block.
Lemma sure_block_fail b op v cl esc excl f t k st : sure op f t (OFail k st) -> sure (RBlock b op v cl esc excl) f t (OFail k false).
Proof.
  intros [EO XO]. split; [eapply ev_block_fail; exact EO|]. intros [|fuel]; [now left|]. cbn [sem semStep]. unfold semBlock. destruct (XO fuel) as [H|H]; rewrite H; [now left|now right].
Qed.

(* ---------------- unbounded repetitions ---------------- *)

Section Rep.
Variables (b : rbase) (r : rule) (f : Z) (t : list Z).
Definition sureRep (p m : nat) (st : bool) (kids : list node) (o : ores) : Prop :=
  EvRep g b r 0 0 f t p m st kids o /\
  forall fuel lf, semRep (sem fuel g) lf b r 0 0 t f p m st (rev kids) = SFuel \/ semRep (sem fuel g) lf b r 0 0 t f p m st (rev kids) = SOk (asSem o).
Lemma rep_done p m st kids : skipn p t = [] -> sureRep p m st kids (OMatch (tree TRepetition b kids st) p m st).
Proof.
  intros Q. split; [apply er_end; [exact Q|]; apply ee_ok; lia|]. intros fuel [|lf]; [now left|right]. cbn [semRep]. rewrite Q. unfold repEnd.
  destruct (Z.ltb_spec (Z.of_nat (length (rev kids))) 0); [lia|]. now rewrite rev_involutive.
Qed.
Lemma rep_stop p m st kids k s : skipn p t <> [] -> sure r f (skipn p t) (OFail k s) ->
  sureRep p m st kids (OMatch (tree TRepetition b kids (st && s)) p (Nat.max m (p + k)) (st && s)).
Proof.
  intros Q [E X]. split; [eapply er_stop; [exact Q|exact E|]; apply ee_ok; lia|]. intros fuel [|lf]; [now left|]. cbn [semRep]. destruct (skipn p t) as [|x l] eqn:QQ; [congruence|].
  destruct (X fuel) as [H|H]; rewrite H; [now left|right]. cbn [sbind asSem]. unfold repEnd. destruct (Z.ltb_spec (Z.of_nat (length (rev kids))) 0); [lia|]. now rewrite rev_involutive.
Qed.
Lemma rep_more p m st kids n u k s o : skipn p t <> [] -> sure r f (skipn p t) (OMatch n u k s) -> (m - p <= k)%nat ->
  sureRep (p + u) (Nat.max m (p + k)) (st && s) (kids ++ [n]) o -> sureRep p m st kids o.
Proof.
  intros Q [E X] SF [EN XN]. split; [eapply er_step; [exact Q|exact E|lia|exact EN]|]. intros fuel [|lf]; [now left|]. cbn [semRep]. destruct (skipn p t) as [|x l] eqn:QQ; [congruence|].
  destruct (X fuel) as [H|H]; rewrite H; [now left|]. cbn [sbind asSem Z.gtb Z.compare andb]. replace (safe false p m u k) with true by (symmetry; unfold safe; apply orb_true_iff; left; now apply Nat.leb_le).
  specialize (XN fuel lf). rewrite rev_app_distr in XN. exact XN.
Qed.
Lemma sure_rep o : sureRep 0 0 true [] o -> sure (RRep b r 0 0) f t o.
Proof. intros [E X]. split; [now apply ev_rep|]. intros [|fuel]; [now left|]. cbn [sem semStep]. exact (X fuel (S fuel)). Qed.
End Rep.
End Sure.
