(** What the terminals match, in terms of [charAt] and [literalAt]. *)
From Verif Require Import Base Stream StreamFacts CallFacts Node Rule SpecStream SpecRule TermFacts.

Lemma isWS_In c : isWS c = true <-> In c whiteSpaces.
Proof.
  unfold isWS. rewrite existsb_exists. split.
  - intros (x & H & E). apply Z.eqb_eq in E. now subst.
  - intros H. exists c. split; [exact H|apply Z.eqb_refl].
Qed.
Lemma isWS_nIn c : isWS c = false <-> ~ In c whiteSpaces.
Proof. rewrite <- isWS_In. destruct (isWS c); split; congruence. Qed.
Lemma white_ws l : white l <-> Forall (fun c => isWS c = true) l.
Proof. unfold white. rewrite !Forall_forall. split; intros H x Hx; [apply isWS_In|apply isWS_In]; auto. Qed.

(** The shape of every terminal's report: what was read is a prefix of the text,
    what is unused is a suffix of what was read, and all of it on failure. *)
Definition tshape (l : list Z) (t : tres) : Prop :=
  (exists p, l = readOf t ++ p) /\ (exists u, readOf t = u ++ unusedOf t) /\
  (fst (fst t) = None -> unusedOf t = readOf t).

Lemma tshape_fail l rd p : l = rd ++ p -> tshape l (tfail rd).
Proof. intros E. split; [|split]; cbn; eauto. exists []. reflexivity. Qed.
Lemma tshape_ok l cs u un p : l = (u ++ un) ++ p -> tshape l (Some cs, u ++ un, un).
Proof. intros E. split; [|split]; cbn; eauto. discriminate. Qed.
Lemma tshape_ok' l cs rd p : l = rd ++ p -> tshape l (Some cs, rd, []).
Proof. intros E. split; [|split]; cbn; eauto; [|discriminate]. exists rd. now rewrite app_nil_r. Qed.

Lemma headIs_cons t l : headIs t l = true -> l = t :: tl l.
Proof. destruct l as [|c l]; cbn; [discriminate|]. intros H. apply Z.eqb_eq in H. now subst. Qed.

Lemma find_idx_spec t l i : find_idx t l = Some i ->
  l = firstn i l ++ t :: skipn (S i) l /\ ~ In t (firstn i l) /\ (i < length l)%nat.
Proof.
  revert i; induction l as [|y l IH]; intros i H; cbn in H; [discriminate|].
  destruct (Z.eqb_spec y t) as [->|Hn].
  - injection H as <-. cbn. repeat split; auto. lia.
  - destruct (find_idx t l) as [j|]; cbn in H; [|discriminate]. injection H as <-.
    destruct (IH j eq_refl) as (A & B & C). cbn [firstn skipn length app]. repeat split; [|intros [X|X]; [congruence|auto]|lia].
    f_equal. exact A.
Qed.
Lemma skipn_app_exact {A} (a b : list A) : skipn (length a) (a ++ b) = b.
Proof. induction a; cbn; auto. Qed.
Lemma find_idx_app t a b : ~ In t a -> find_idx t (a ++ t :: b) = Some (length a).
Proof.
  induction a as [|y a IH]; cbn; intros H; [now rewrite Z.eqb_refl|].
  destruct (Z.eqb_spec y t) as [->|Hn]; [tauto|]. rewrite IH by tauto. reflexivity.
Qed.
Lemma find_idxp_spec p l i : find_idxp p l = Some i ->
  (i < length l)%nat /\ p (nth i l 0) = true.
Proof.
  revert i; induction l as [|y l IH]; intros i H; cbn in H; [discriminate|].
  destruct (p y) eqn:E.
  - injection H as <-. cbn. split; [lia|exact E].
  - destruct (find_idxp p l) as [j|]; cbn in H; [|discriminate]. injection H as <-.
    destruct (IH j eq_refl). cbn. split; [lia|assumption].
Qed.

Lemma ws_prefix_white_app a b : white a -> ws_prefix (a ++ b) = a ++ ws_prefix b.
Proof.
  intros H. apply white_ws in H. induction H as [|c a Hc Ha IH]; [reflexivity|]. cbn. rewrite Hc. now rewrite IH.
Qed.
Lemma ws_prefix_white l : white (ws_prefix l).
Proof. apply white_ws, ws_prefix_ws. Qed.

Lemma tchar_shape t f l : tshape l (tchar t f l).
Proof.
  unfold tchar. destruct l as [|c0 l0]; [now apply (tshape_fail [] [] [])|]. set (l := c0 :: l0).
  destruct (f =? SUGGEST_SKIP).
  - pose proof (ws_prefix_app l) as A. destruct (isWS t && nonempty (ws_prefix l)).
    + destruct (find_idx t (ws_prefix l)) as [i|] eqn:E.
      * apply find_idx_spec in E as (B & _ & C). rewrite <- (firstn_skipn (S i) (ws_prefix l)) at 1.
        eapply tshape_ok with (p := skipn (length (ws_prefix l)) l). now rewrite firstn_skipn.
      * eapply tshape_fail; exact A.
    + destruct (headIs t (skipn (length (ws_prefix l)) l)) eqn:E; [|eapply tshape_fail; exact A].
      apply headIs_cons in E. eapply tshape_ok'. rewrite <- app_assoc. cbn [app]. rewrite <- E. exact A.
  - destruct (headIs t l) eqn:E; [|now apply (tshape_fail l [] l)].
    apply headIs_cons in E. apply tshape_ok' with (p := tl l). exact E.
Qed.

Lemma tlit_shape k t l : tshape l (tlit k t l).
Proof.
  unfold tlit. destruct l as [|c0 l0]; [now apply (tshape_fail [] [] [])|]. set (l := c0 :: l0).
  set (sp := if k then ws_prefix l else []).
  assert (A : l = sp ++ skipn (length sp) l) by (unfold sp; destruct k; [apply ws_prefix_app|reflexivity]).
  clearbody sp. set (lead := if k then ws_prefix t else []).
  destruct (length sp <? length lead)%nat; [eapply tshape_fail; exact A|].
  destruct (negb (tail_is sp lead)); [eapply tshape_fail; exact A|]. cbv zeta.
  destruct (litmatch_prefix (skipn (length lead) t) (skipn (length sp) l)) as [r Hr].
  destruct (snd _); [eapply tshape_ok'|eapply tshape_fail]; rewrite <- app_assoc, <- Hr; exact A.
Qed.

Lemma trange_shape lo hi f l : tshape l (trange lo hi f l).
Proof.
  unfold trange. destruct l as [|c0 l0]; [now apply (tshape_fail [] [] [])|]. set (l := c0 :: l0).
  set (sp := if f =? SUGGEST_SKIP then ws_prefix l else []).
  assert (A : l = sp ++ skipn (length sp) l) by (unfold sp; destruct (f =? SUGGEST_SKIP); [apply ws_prefix_app|reflexivity]).
  clearbody sp. cbv zeta. destruct (find_idxp _ sp) as [i|] eqn:E.
  - rewrite <- (firstn_skipn (S i) sp) at 2. eapply tshape_ok with (p := skipn (length sp) l). now rewrite firstn_skipn.
  - destruct (skipn (length sp) l) as [|c r] eqn:E2; [eapply tshape_fail; exact A|].
    destruct ((lo <=? c) && (c <=? hi)); [|eapply tshape_fail; exact A].
    apply tshape_ok' with (p := r). rewrite <- app_assoc. exact A.
Qed.

Lemma teof_shape f l : tshape l (teof f l).
Proof.
  unfold teof. set (sp := if f =? 1 then ws_prefix l else []).
  assert (A : l = sp ++ skipn (length sp) l) by (unfold sp; destruct (f =? 1); [apply ws_prefix_app|reflexivity]).
  clearbody sp. cbv zeta. destruct (skipn (length sp) l); [eapply tshape_ok'|eapply tshape_fail]; exact A.
Qed.

(* ---------------- a single rune ---------------- *)

Lemma tchar_sound t f l cs rd un : tchar t f l = (Some cs, rd, un) ->
  cs = [t] /\ exists pre post, charAt (f =? SUGGEST_SKIP) t l pre post /\ rd = (pre ++ [t]) ++ un.
Proof.
  unfold tchar. destruct l as [|c0 l0]; [discriminate|]. set (l := c0 :: l0).
  destruct (f =? SUGGEST_SKIP).
  - pose proof (ws_prefix_app l) as A. pose proof (ws_prefix_white l) as W. destruct (isWS t && nonempty (ws_prefix l)) eqn:N.
    + destruct (find_idx t (ws_prefix l)) as [i|] eqn:E; [|discriminate].
      intros H. injection H as <- <- <-. split; [reflexivity|].
      apply find_idx_spec in E as (B & C & D). exists (firstn i (ws_prefix l)), (skipn (S i) (ws_prefix l) ++ skipn (length (ws_prefix l)) l).
      split; [split; [|split; [|split]]|].
      * rewrite app_comm_cons, app_assoc, <- B. exact A.
      * unfold white in *. apply Forall_forall. intros x Hx. rewrite Forall_forall in W. apply W.
        rewrite B. apply in_or_app. now left.
      * exact C.
      * discriminate.
      * rewrite <- app_assoc. exact B.
    + destruct (headIs t (skipn (length (ws_prefix l)) l)) eqn:E; [|discriminate]. apply headIs_cons in E.
      intros H. injection H as <- <- <-. split; [reflexivity|].
      exists (ws_prefix l), (tl (skipn (length (ws_prefix l)) l)). rewrite app_nil_r. split; [|reflexivity].
      split; [|split; [exact W|split; [|discriminate]]].
      * rewrite <- E. exact A.
      * intros X. unfold white in W. rewrite Forall_forall in W. pose proof (W t X) as Wt. apply isWS_In in Wt. rewrite Wt in N.
        destruct (ws_prefix l); [destruct X|discriminate].
  - destruct (headIs t l) eqn:E; [|discriminate]. apply headIs_cons in E.
    intros H. injection H as <- <- <-. split; [reflexivity|]. exists [], (tl l). split; [|reflexivity].
    split; [exact E|split; [constructor|split; [easy|reflexivity]]].
Qed.

Lemma tchar_complete t f l pre post : charAt (f =? SUGGEST_SKIP) t l pre post ->
  exists un, tchar t f l = (Some [t], (pre ++ [t]) ++ un, un).
Proof.
  intros (E & W & N & K). unfold tchar. destruct l as [|c0 l0]; [destruct pre; discriminate|].
  set (l := c0 :: l0) in *. destruct (f =? SUGGEST_SKIP).
  - rewrite E, ws_prefix_white_app by exact W. cbn [ws_prefix]. destruct (isWS t) eqn:T; cbn [andb].
    + replace (nonempty (pre ++ t :: ws_prefix post)) with true by (destruct pre; reflexivity).
      rewrite find_idx_app by exact N. exists (ws_prefix post). f_equal; [f_equal|].
      * now rewrite <- app_assoc.
      * change (t :: ws_prefix post) with ([t] ++ ws_prefix post). rewrite app_assoc.
        replace (S (length pre)) with (length (pre ++ [t])) by (rewrite app_length; cbn; lia).
        apply skipn_app_exact.
    + rewrite app_nil_r. rewrite skipn_app_exact. cbn [headIs]. rewrite Z.eqb_refl.
      exists []. now rewrite app_nil_r.
  - rewrite (K eq_refl) in *. cbn [app] in *. rewrite E. cbn [headIs]. rewrite Z.eqb_refl. now exists [].
Qed.

(* ---------------- a literal ---------------- *)

Lemma skipn_ws_nows t r : match skipn (length (ws_prefix t)) t with [] => True | _ =>
   ws_prefix (t ++ r) = ws_prefix t end.
Proof.
  induction t as [|c t IH]; cbn; [exact I|]. destruct (isWS c) eqn:E; cbn.
  - destruct (skipn (length (ws_prefix t)) t); [exact I|]. now rewrite IH.
  - reflexivity.
Qed.
Lemma ws_prefix_all t : skipn (length (ws_prefix t)) t = [] -> white t.
Proof.
  intros H. pose proof (ws_prefix_app t) as A. rewrite H, app_nil_r in A. rewrite A. apply ws_prefix_white.
Qed.

Lemma tlit_sound k t l cs rd un : tlit k t l = (Some cs, rd, un) ->
  cs = t /\ un = [] /\ exists pre post, literalAt k t l pre post /\ rd = pre ++ t.
Proof.
  unfold tlit. destruct l as [|c0 l0]; [discriminate|]. set (l := c0 :: l0). destruct k.
  - pose proof (ws_prefix_app l) as A. pose proof (ws_prefix_stop l) as St. pose proof (ws_prefix_white l) as W.
    set (sp := ws_prefix l) in *. clearbody sp. set (rst := skipn (length sp) l) in *. clearbody rst.
    pose proof (ws_prefix_app t) as T. pose proof (ws_prefix_all t) as TA. set (lead := ws_prefix t) in *. clearbody lead.
    destruct (Nat.ltb_spec (length sp) (length lead)); [discriminate|]. unfold tail_is.
    destruct (runes_eqb (skipn (length sp - length lead) sp) lead) eqn:E; [|discriminate]. cbn [negb]. cbv zeta.
    apply runes_eqb_eq in E. set (tr := skipn (length lead) t) in *. clearbody tr.
    destruct (snd (litmatch tr rst)) eqn:M; [|discriminate]. intros X. injection X as <- <- <-.
    apply litmatch_ok in M as (-> & r & Hr). split; [reflexivity|]. split; [reflexivity|].
    set (pre := firstn (length sp - length lead) sp). exists pre, r.
    assert (SP : sp = pre ++ lead) by (unfold pre; rewrite <- E at 2; now rewrite firstn_skipn).
    split; [split; [|split; [|split]]|].
    + rewrite A, SP, T, Hr. now rewrite <- !app_assoc.
    + unfold white in *. rewrite SP in W. apply Forall_app in W as [W _]. exact W.
    + discriminate.
    + intros _ Wt. destruct tr as [|c tr].
      * cbn in Hr. subst rst. destruct r as [|c r]; [exact I|]. apply isWS_nIn. exact St.
      * (* a non-white rune in t *) exfalso. rewrite Hr in St. cbn in St. apply isWS_nIn in St. apply St.
        unfold white in Wt. rewrite Forall_forall in Wt. apply Wt. rewrite T. apply in_or_app. right. now left.
    + rewrite SP, T. now rewrite <- app_assoc.
  - cbn [length Nat.ltb Nat.leb skipn]. rewrite tail_is_nil. cbn [negb]. cbv zeta.
    destruct (snd (litmatch t l)) eqn:M; [|discriminate]. intros X. injection X as <- <- <-.
    apply litmatch_ok in M as (-> & r & Hr). split; [reflexivity|]. split; [reflexivity|].
    exists [], r. split; [|reflexivity]. split; [exact Hr|split; [constructor|split; [reflexivity|discriminate]]].
Qed.

Lemma tlit_complete k t l pre post : l <> [] -> literalAt k t l pre post ->
  tlit k t l = (Some t, pre ++ t, []).
Proof.
  intros NE (E & W & K & B). unfold tlit. destruct l as [|c0 l0]; [congruence|]. set (l := c0 :: l0) in *. clearbody l.
  destruct k.
  - pose proof (ws_prefix_app t) as T. pose proof (ws_prefix_all t) as TA.
    set (lead := ws_prefix t) in *. set (tr := skipn (length lead) t) in *.
    assert (SP : ws_prefix l = pre ++ lead).
    { rewrite E, ws_prefix_white_app by exact W. f_equal.
      pose proof (skipn_ws_nows t post) as S. fold lead in S. fold tr in S. destruct tr as [|c tr'] eqn:Etr.
      - rewrite app_nil_r in T. rewrite T at 1. rewrite ws_prefix_white_app.
        + specialize (B eq_refl (TA eq_refl)). destruct post as [|p post]; cbn; [now rewrite app_nil_r|].
          apply isWS_nIn in B. rewrite B. now rewrite app_nil_r.
        + apply ws_prefix_white.
      - exact S. }
    rewrite SP, app_length. destruct (Nat.ltb_spec (length pre + length lead) (length lead)); [lia|].
    unfold tail_is. rewrite app_length. replace (length pre + length lead - length lead)%nat with (length pre) by lia.
    rewrite skipn_app_exact, runes_eqb_refl. cbn [negb]. cbv zeta.
    assert (R : skipn (length pre + length lead) l = tr ++ post).
    { rewrite E, T, <- !app_assoc. rewrite <- app_length. rewrite (app_assoc pre lead). apply skipn_app_exact. }
    rewrite R. assert (M : snd (litmatch tr (tr ++ post)) = true /\ fst (litmatch tr (tr ++ post)) = tr).
    { clear. induction tr as [|x tr [A B]]; cbn; [auto|]. rewrite Z.eqb_refl. destruct (litmatch tr (tr ++ post)); cbn in *.
      subst. auto. }
    destruct M as [-> ->]. f_equal. f_equal. rewrite <- app_assoc. now rewrite <- T.
  - rewrite (K eq_refl) in *. cbn [app length Nat.ltb Nat.leb skipn] in *. rewrite tail_is_nil. cbn [negb]. cbv zeta.
    rewrite E. assert (M : snd (litmatch t (t ++ post)) = true /\ fst (litmatch t (t ++ post)) = t).
    { clear. induction t as [|x tr [A B]]; cbn; [auto|]. rewrite Z.eqb_refl. destruct (litmatch tr (tr ++ post)); cbn in *.
      subst. auto. }
    destruct M as [-> ->]. reflexivity.
Qed.

(* ---------------- a range ---------------- *)

Lemma In_firstn {A} (x : A) n l : In x (firstn n l) -> In x l.
Proof. intros H. rewrite <- (firstn_skipn n l). apply in_or_app. now left. Qed.

Lemma trange_sound lo hi f l cs rd un : trange lo hi f l = (Some cs, rd, un) ->
  exists c, cs = [c] /\ ((lo <= c <= hi) \/ (In c whiteSpaces /\ lo <= c /\ hi <= c)).
Proof.
  unfold trange. destruct l as [|c0 l0]; [discriminate|]. set (l := c0 :: l0). cbv zeta.
  set (sp := if f =? SUGGEST_SKIP then ws_prefix l else []).
  assert (W : white sp) by (unfold sp; destruct (f =? SUGGEST_SKIP); [apply ws_prefix_white|constructor]).
  clearbody sp. destruct (find_idxp _ sp) as [i|] eqn:E.
  - apply find_idxp_spec in E as [L P]. intros X. injection X as <- _ _. exists (nth i sp 0). split; [reflexivity|].
    right. apply andb_true_iff in P as [P1 P2]. split; [|split; lia].
    unfold white in W. rewrite Forall_forall in W. apply W. now apply nth_In.
  - destruct (skipn (length sp) l) as [|c r]; [discriminate|].
    destruct ((lo <=? c) && (c <=? hi)) eqn:P; [|discriminate]. intros X. injection X as <- _ _. exists c.
    split; [reflexivity|left]. apply andb_true_iff in P. lia.
Qed.

Lemma teof_sound f l cs rd un : teof f l = (Some cs, rd, un) -> cs = [EOFChar] /\ un = [] /\ rd = l /\ white rd.
Proof.
  unfold teof. set (sp := if f =? 1 then ws_prefix l else []).
  assert (A : l = sp ++ skipn (length sp) l) by (unfold sp; destruct (f =? 1); [apply ws_prefix_app|reflexivity]).
  assert (W : white sp) by (unfold sp; destruct (f =? 1); [apply ws_prefix_white|constructor]). clearbody sp.
  destruct (skipn (length sp) l); [|discriminate]. intros X. injection X as <- <- <-. rewrite app_nil_r in A. auto.
Qed.

(** When no white rune of the text is as large as both bounds, a range is what it
    should be. *)
Lemma find_idxp_none p l : (forall c, In c l -> p c = false) -> find_idxp p l = None.
Proof.
  induction l as [|y l IH]; cbn; intros H; [reflexivity|]. rewrite (H y (or_introl eq_refl)). rewrite IH; auto.
Qed.

Lemma trange_exact lo hi f l :
  (f = SUGGEST_SKIP -> forall c, In c l -> In c whiteSpaces -> c < lo \/ c < hi) ->
  match trange lo hi f l with
  | (Some cs, rd, un) => exists c pre post, cs = [c] /\ lo <= c <= hi /\ firstAt (f =? SUGGEST_SKIP) c l pre post /\ rd = pre ++ [c] /\ un = []
  | (None, rd, un) => un = rd /\ forall c pre post, lo <= c <= hi -> ~ firstAt (f =? SUGGEST_SKIP) c l pre post
  end.
Proof.
  intros H. unfold trange. destruct l as [|c0 l0].
  { split; [reflexivity|]. intros c pre post _ (E & _). destruct pre; discriminate. }
  set (l := c0 :: l0) in *. cbv zeta. set (sp := if f =? SUGGEST_SKIP then ws_prefix l else []).
  assert (A : l = sp ++ skipn (length sp) l) by (unfold sp; destruct (f =? SUGGEST_SKIP); [apply ws_prefix_app|reflexivity]).
  assert (W : white sp) by (unfold sp; destruct (f =? SUGGEST_SKIP); [apply ws_prefix_white|constructor]).
  rewrite find_idxp_none.
  2:{ intros c Hc. assert (f = SUGGEST_SKIP) as Ef.
      { unfold sp in Hc. destruct (Z.eqb_spec f SUGGEST_SKIP); [assumption|destruct Hc]. }
      unfold white in W. rewrite Forall_forall in W.
      destruct (H Ef c); [rewrite A; apply in_or_app; now left|now apply W| |]; apply andb_false_iff; lia. }
  assert (ST : match skipn (length sp) l with [] => True | c :: _ => (f =? SUGGEST_SKIP) = true -> ~ In c whiteSpaces end).
  { unfold sp. destruct (f =? SUGGEST_SKIP).
    - pose proof (ws_prefix_stop l). destruct (skipn _ l); [exact I|]. intros _. now apply isWS_nIn.
    - destruct (skipn _ l); [exact I|discriminate]. }
  assert (UQ : forall c pre post, firstAt (f =? SUGGEST_SKIP) c l pre post -> skipn (length sp) l = c :: post).
  { intros c pre post (E & Wp & Nc & Np). unfold sp. destruct (f =? SUGGEST_SKIP).
    - specialize (Nc eq_refl). apply isWS_nIn in Nc. rewrite E, ws_prefix_white_app by exact Wp. cbn [ws_prefix]. rewrite Nc, app_nil_r.
      apply skipn_app_exact.
    - rewrite (Np eq_refl) in E. exact E. }
  assert (NS : (f =? SUGGEST_SKIP) = false -> sp = []) by (unfold sp; now intros ->).
  clearbody sp. destruct (skipn (length sp) l) as [|c r] eqn:ER.
  - split; [reflexivity|]. intros c pre post _ F. apply UQ in F. discriminate.
  - destruct ((lo <=? c) && (c <=? hi)) eqn:P.
    + exists c, sp, r. split; [reflexivity|]. split; [apply andb_true_iff in P; lia|]. split; [|auto].
      split; [exact A|]. split; [exact W|]. split; [exact ST|exact NS].
    + split; [reflexivity|]. intros c' pre post R F. apply UQ in F. injection F as <- <-. apply andb_false_iff in P. lia.
Qed.

(** Induction on rules with hypotheses for the members of lists. *)
Lemma rule_ind' (P : rule -> Prop) :
  (forall b c u, P (RChar b c u)) -> (forall b l, P (RChars b l)) -> (forall b l, P (RString b l)) ->
  (forall b lo lu hi hu, P (RRange b lo lu hi hu)) -> (forall b, P (REOF b)) -> (forall b n, P (RRef b n)) ->
  (forall b x, P x -> P (RGroup b x)) -> (forall b x, P x -> P (ROption b x)) -> (forall b x mn mx, P x -> P (RRep b x mn mx)) ->
  (forall b gs, (forall grp x, In grp gs -> In x grp -> P x) -> P (RChoice b gs)) ->
  (forall b l, (forall x, In x l -> P x) -> P (RConcat b l)) ->
  (forall b o v c e xs, P o -> P c -> P (RBlock b o v c e xs)) -> forall r, P r.
Proof.
  intros H1 H2 H3 H4 H5 H6 H7 H8 H9 H10 H11 H12. fix IH 1. intros [b c u|b l|b l|b lo lu hi hu|b|b n|b x|b x|b x mn mx|b gs|b l|b o v c e xs].
  - apply H1. - apply H2. - apply H3. - apply H4. - apply H5. - apply H6. - apply H7, IH. - apply H8, IH. - apply H9, IH.
  - apply H10. revert gs. fix IG 1. intros [|grp gs] q x; [intros []|]. intros [<-|I]; [|now apply (IG gs)].
    revert grp x. fix IL 1. intros [|y grp] x; [intros []|]. intros [<-|I]; [apply IH|now apply (IL grp)].
  - apply H11. revert l. fix IL 1. intros [|y l] x; [intros []|]. intros [<-|I]; [apply IH|now apply (IL l)].
  - apply H12; apply IH.
Qed.
