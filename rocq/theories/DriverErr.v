(** What the errors of EvalRaw carry. *)
From Coq Require Import Permutation.
From Verif Require Import Base Stream Node Rule Grammar StreamFacts SpecStream SpecRule SpecError EvalInv RuleFacts SpecEval SpecEv SemFacts EvFacts EvalSem ChoiceFacts SpecDriver DriverFacts.

Section Errors.
Variable g : rules_t.
Hypothesis W : wfRules g.

(** A failing root rule with its error; a matching one with its result. *)
Definition failed (x : list Z * rule) (y : list Z * eerr) : Prop := fst x = fst y /\ blames g (snd x) (snd y).
Definition hasNode (x : list Z * rule) (y : list Z * result) : Prop :=
  fst x = fst y /\ acc (snd y) /\ exists n, r_node (snd y) = Some n /\ derives g (snd x) n.

Lemma rootsLoop_errors s0 fuel f : forall order, (forall x, In x order -> wfRule (snd x)) ->
  forall cs maxRead matched errors matched' errors' maxRead' cs', behind s0 cs -> clean maxRead ->
  rootsLoop fuel g order cs f maxRead matched errors = Ok (matched', errors', maxRead', cs') ->
  exists ms es yes no, matched' = rev matched ++ ms /\ errors' = rev errors ++ es /\ Permutation (yes ++ no) order /\
    Forall2 hasNode yes ms /\ (ms = [] -> Forall2 failed order es).
Proof.
  induction order as [|[n r] order IH]; intros HW cs maxRead matched errors matched' errors' maxRead' cs' B CM E; cbn [rootsLoop] in E.
  - injection E as <- <- _ _. exists [], [], [], []. rewrite !app_nil_r. repeat split; auto.
  - pose proof (HW _ (or_introl eq_refl)) as WR. cbn [snd] in WR. pose proof (behind_prepend _ _ _ CM B) as B1.
    pose proof (eval_ok g fuel W r (prepend cs maxRead) f WR (behind_clean _ _ B1)) as G.
    destruct (eval fuel g r (prepend cs maxRead) f) as [[res cs1]| |]; cbn [bind] in E; [|discriminate..].
    destruct G as [[A ER N] AD]. pose proof (behind_adv _ _ _ B1 AD) as B2.
    assert (CM' : clean (if (length maxRead <? length (r_read res))%nat then r_read res else maxRead)) by (destruct (_ <? _)%nat; [apply A|exact CM]).
    destruct (IH (fun x Hx => HW x (or_intror Hx)) _ _ _ _ _ _ _ _ B2 CM' E) as (ms & es & yes & no & EM & EE & P & FY & FN).
    destruct (r_node res) as [nd|] eqn:EN.
    + exists ((n, res) :: ms), ((match r_err res with Some e => [(n, e)] | None => [] end) ++ es), ((n, r) :: yes), no.
      split; [cbn [rev] in EM; now rewrite EM, <- app_assoc|]. split.
      { rewrite EE. destruct (r_err res); cbn [rev app]; [now rewrite <- app_assoc|reflexivity]. }
      split; [cbn [app]; now constructor|]. split; [|discriminate]. constructor; [|exact FY].
      split; [reflexivity|]. split; [exact A|]. exists nd. split; [exact EN|]. now apply N.
    + destruct (ER eq_refl) as (e & Ee & BL). rewrite Ee in EE.
      exists ms, ((n, e) :: es), yes, ((n, r) :: no). split; [exact EM|]. split; [cbn [rev] in EE; now rewrite EE, <- app_assoc|].
      split; [apply Permutation_sym, Permutation_cons_app, Permutation_sym, P|]. split; [exact FY|].
      intros Z0. constructor; [now split|auto].
Qed.

Lemma rawSel_tie l : forall mx fnd r m, (forall x, fnd = Some x -> countUsed x = mx) -> rawSel mx fnd l = inl (r, m) ->
  countUsed r = countUsed m /\ ((exists l1 l2, fnd = Some m /\ l = l1 ++ r :: l2) \/ exists l1 l2 l3, l = l1 ++ m :: l2 ++ r :: l3).
Proof.
  induction l as [|x l IH]; intros mx fnd r m HF H; cbn [rawSel] in H; [discriminate|].
  assert (TL : rawSel (countUsed x) (Some x) l = inl (r, m) \/ rawSel mx fnd l = inl (r, m) ->
    countUsed r = countUsed m /\ ((exists l1 l2, fnd = Some m /\ x :: l = l1 ++ r :: l2) \/ exists l1 l2 l3, x :: l = l1 ++ m :: l2 ++ r :: l3)).
  { intros [Q|Q].
    - destruct (IH (countUsed x) (Some x) r m ltac:(now intros y [= ->]) Q) as [C [(l1 & l2 & [= ->] & ->)|(l1 & l2 & l3 & ->)]]; split; auto; right.
      + now exists [], l1, l2.
      + now exists (x :: l1), l2, l3.
    - destruct (IH _ _ _ _ HF Q) as [C [(l1 & l2 & EF & ->)|(l1 & l2 & l3 & ->)]]; split; auto.
      + left. now exists (x :: l1), l2.
      + right. now exists (x :: l1), l2, l3. }
  destruct fnd as [y|].
  - destruct (Z.eqb_spec (countUsed x) mx) as [Q|Q].
    + injection H as <- <-. split; [now rewrite Q, (HF y eq_refl)|]. left. now exists [], l.
    + destruct (countUsed x >=? mx); apply TL; auto.
  - destruct (countUsed x >=? mx); apply TL; auto.
Qed.
Lemma rawSelect_tie l r m : rawSelect l = inl (r, m) -> countUsed r = countUsed m /\ exists l1 l2 l3, l = l1 ++ m :: l2 ++ r :: l3.
Proof.
  destruct l as [|a [|b l]]; cbn [rawSelect]; [discriminate..|]. intros H.
  apply rawSel_tie in H as [C [(l1 & l2 & [=] & _)|X]]; [auto|]. intros x [=].
Qed.
Lemma rawSel_some l : forall mx x, match rawSel mx (Some x) l with inr None => False | _ => True end.
Proof.
  induction l as [|y l IH]; intros mx x; cbn [rawSel]; [exact I|]. destruct (_ =? _); [exact I|]. destruct (_ >=? _); apply IH.
Qed.
Lemma rawSelect_none l : (forall x, In x l -> acc x) -> rawSelect l = inr None -> l = [].
Proof.
  destruct l as [|a [|b l]]; cbn [rawSelect]; [reflexivity|discriminate|]. intros HA H. exfalso. cbn [rawSel] in H.
  rewrite (countUsed_nat a (HA a (or_introl eq_refl))) in H. destruct (Z.of_nat _ >=? 0) eqn:X; [|rewrite Z.geb_leb in X; apply Z.leb_gt in X; lia].
  pose proof (rawSel_some (b :: l) (Z.of_nat (length (r_read a) - length (r_unused a))) a) as Y. cbn [rawSel] in Y. rewrite H in Y. exact Y.
Qed.

Variables (roots : list (list Z * rule)) (o : orders).
Hypothesis HR : forall x, In x roots -> wfRule (snd x).
Hypothesis HO : legal roots o.

Definition reported (r : rawRes) : Prop :=
  match r with
  | RawNoMatch ds es => Permutation ds roots /\ exists order, Permutation order roots /\ Forall2 failed order es
  | RawAmbiguity r m => countUsed r = countUsed m /\
      exists x y l n k, Permutation (x :: y :: l) roots /\ r_node r = Some n /\ r_node m = Some k /\ derives g (snd x) n /\ derives g (snd y) k
  | _ => True
  end.

Lemma rawLoop_reported fuel : forall lf round s unused f nodes r s', clean (rest s) -> clean unused ->
  rawLoop lf fuel g o round s unused f nodes = Ok (r, s') -> reported r.
Proof.
  induction lf as [|lf IH]; intros round s unused f nodes r s' C CU E; cbn [rawLoop] in E; [discriminate|].
  destruct (peek (prepend s unused) =? EOFChar).
  - injection E as <- _. now destruct nodes.
  - pose proof (behind_prepend s s unused CU (behind_refl s C)) as B.
    assert (HW : forall x, In x (o_roots o round) -> wfRule (snd x) /\ In x roots).
    { intros x Hx. assert (X : In x roots) by (eapply Permutation_in; [apply HO|exact Hx]). auto. }
    pose proof (rootsLoop_ok g W roots s fuel f (o_roots o round) HW (prepend s unused) [] [] [] B (Forall_nil _) (fun _ X => match X with end)) as X.
    destruct (rootsLoop _ _ _ _ _ _ _ _) as [[[[matched errors] maxRead] cs1]| |] eqn:ER; cbn [bind] in E; [|discriminate..].
    destruct X as (B1 & CM & HM). pose proof (behind_end _ _ B1) as A1.
    apply (rootsLoop_errors s fuel f _ (fun x Hx => proj1 (HW x Hx))) in ER as (ms & es & yes & no & EM & EE & P & FY & FN); [|exact B|constructor].
    cbn [rev app] in EM, EE. subst ms es. pose proof (lg_matched _ _ HO round matched) as PM.
    destruct (rawSelect _) as [[a b]|[res|]] eqn:ES.
    + injection E as <- _. cbn [reported]. apply rawSelect_tie in ES as [EC (l1 & l2 & l3 & EL)]. split; [exact EC|].
      assert (F2 : Forall2 (fun y x => hasNode x y) matched yes) by (clear - FY; induction FY; constructor; auto).
      destruct (Permutation_Forall2 (Permutation_sym PM) F2) as (yes' & PY & F').
      assert (F3 : Forall2 (fun y x => acc y /\ exists n, r_node y = Some n /\ derives g (snd x) n) (List.map snd (o_matched o round matched)) yes').
      { clear - F'. induction F' as [|y x l l' (_ & X) F IH]; cbn [List.map]; constructor; auto. }
      rewrite EL in F3. apply Forall2_app_inv_l in F3 as (q1 & q23 & _ & F3 & E1).
      inversion F3 as [|? x2 ? q4 (_ & k & EK & DK) F4 EQ]; subst. apply Forall2_app_inv_l in F4 as (q5 & q6 & _ & F5 & ->).
      inversion F5 as [|? x3 ? q7 (_ & n & EN & DN) F6 EQ]; subst.
      exists x3, x2, (q1 ++ q5 ++ q7 ++ no), n, k. repeat split; auto.
      eapply Permutation_trans; [|eapply Permutation_trans; [exact P|apply HO]].
      eapply Permutation_trans; [|apply Permutation_app_tail, Permutation_sym, PY].
      rewrite <- !app_assoc. cbn [app]. rewrite <- !app_assoc. cbn [app].
      eapply Permutation_trans; [apply perm_swap|]. eapply Permutation_trans; [|apply Permutation_middle]. constructor.
      eapply Permutation_trans; [apply Permutation_middle|]. apply Permutation_app_head. apply Permutation_middle.
    + destruct (r_node res) as [nd|] eqn:EN; [|discriminate]. apply rawSelect_in in ES. apply in_map_iff in ES as (x & <- & Hx).
      assert (Hx' : In x matched) by (eapply Permutation_in; [apply PM|exact Hx]).
      destruct (HM x Hx') as (AC & LR & _). rewrite countUsed_nat in E by exact AC. rewrite slice_from_ok in E by lia. cbn [bind] in E.
      apply IH in E; [exact E|now apply adv_clean with s|now apply clean_skipn].
    + injection E as <- _. cbn [reported]. split; [apply HO|].
      assert (EM : o_matched o round matched = []).
      { apply rawSelect_none in ES; [now apply map_eq_nil in ES|]. intros y Hy. apply in_map_iff in Hy as (x & <- & Hx).
        apply HM. now apply (Permutation_in x PM). }
      rewrite EM in PM. apply Permutation_nil in PM. subst matched. specialize (FN eq_refl).
      assert (F2 : Forall2 (fun y x => failed x y) errors (o_roots o round)) by (clear - FN; induction FN; constructor; auto).
      destruct (Permutation_Forall2 (Permutation_sym (lg_errors _ _ HO errors)) F2) as (order & PO & F'). exists order. split.
      * eapply Permutation_trans; [apply Permutation_sym, PO|]. apply HO.
      * clear - F'. induction F'; constructor; auto.
Qed.
Lemma evalRaw_reported lf fuel s r s' : clean (rest s) -> evalRaw lf fuel g o s = Ok (r, s') -> reported r.
Proof.
  intros C E. unfold evalRaw in E. destruct (_ =? _); [injection E as <- _; exact I|].
  eapply rawLoop_reported; [exact C|constructor|exact E].
Qed.
End Errors.

Lemma Forall2_in_l {A B} (R : A -> B -> Prop) l l' x : Forall2 R l l' -> In x l -> exists y, In y l' /\ R x y.
Proof.
  intros F. induction F as [|a b l l' H F IH]; [intros []|]. intros [->|I]; [exists b; split; [now left|exact H]|].
  destruct (IH I) as (y & Iy & Y). exists y. split; [now right|exact Y].
Qed.
(** Why a text is not accepted. *)
Lemma lengths_hits ys u : In u (List.map snd (hitsOf ys)) <-> exists o, In o (List.map noAmb ys) /\ lengths o = Some u.
Proof.
  induction ys as [|y ys IH]; [split; [intros []|intros (o & [] & _)]|]. unfold hitsOf in *. cbn [flat_map List.map]. rewrite map_app, in_app_iff, IH. split.
  - intros [H|(o & I & E)]; [|exists o; split; [now right|exact E]]. destruct y as [n v k st|k st|k]; cbn [List.map snd] in H; [|destruct H..].
    destruct H as [<-|[]]. exists (OMatch n v k st). split; [now left|reflexivity].
  - intros (o & [<-|I] & E); [|right; eauto]. left. destruct y; [|discriminate E..]. injection E as <-. now left.
Qed.
Lemma twice_split ys u : (2 <= count_occ Nat.eq_dec (List.map snd (hitsOf ys)) u)%nat ->
  exists l1 x l2 y l3, List.map noAmb ys = l1 ++ x :: l2 ++ y :: l3 /\ lengths x = Some u /\ lengths y = Some u.
Proof.
  induction ys as [|y ys IH]; [cbn; lia|]. unfold hitsOf in *. cbn [flat_map List.map]. rewrite map_app. intros H.
  assert (ST : (2 <= count_occ Nat.eq_dec (List.map snd (flat_map (fun y => match y with Match n u _ _ => [(n, u)] | _ => [] end) ys)) u)%nat ->
    exists l1 x l2 y0 l3, noAmb y :: List.map noAmb ys = l1 ++ x :: l2 ++ y0 :: l3 /\ lengths x = Some u /\ lengths y0 = Some u).
  { intros Q. destruct (IH Q) as (l1 & x & l2 & y0 & l3 & -> & A & B). exists (noAmb y :: l1), x, l2, y0, l3. auto. }
  destruct y as [n v k st|k st|k]; cbn [List.map snd app] in H; [|auto..]. cbn [count_occ] in H. destruct (Nat.eq_dec v u) as [->|]; [|auto].
  assert (I : In u (List.map snd (hitsOf ys))) by (apply (count_occ_In Nat.eq_dec); unfold hitsOf; lia).
  apply lengths_hits in I as (y0 & I & E0). apply in_split in I as (l2 & l3 & EL). rewrite EL.
  exists [], (OMatch n u k st), l2, y0, l3. cbn [noAmb]. auto.
Qed.
Lemma longest_le l x : In x l -> (snd x <= longest l)%nat.
Proof.
  induction l as [|y l IH]; [intros []|]. unfold longest in *. cbn [fold_right]. intros [->|H]; [lia|]. specialize (IH H). lia.
Qed.
Lemma count_filter l u : count_occ Nat.eq_dec (List.map snd l) u = length (List.filter (fun x : node * nat => (snd x =? u)%nat) l).
Proof.
  induction l as [|x l IH]; [reflexivity|]. cbn [List.map count_occ List.filter]. destruct (Nat.eq_dec (snd x) u) as [E|E].
  - rewrite (proj2 (Nat.eqb_eq _ _) E). cbn [length]. now rewrite IH.
  - rewrite (proj2 (Nat.eqb_neq _ _) E). exact IH.
Qed.

Section Why.
Variables (g : rules_t) (t : list Z) (roots : list (list Z * rule)).
Hypothesis W : wfRules g.
Hypothesis C : runesOk t.
Hypothesis HR : wfRoots roots.
Hypothesis SAFE : forall x f p, In x roots -> mode f -> careful g (snd x) f (skipn p t).
Hypothesis ORD : orderly g (List.map snd roots) t.

Lemma rawText_why fuel : forall lf f p nodes x, mode f -> rawText lf fuel g (List.map snd roots) f (skipn p t) nodes = Ok x ->
  exists f' t', Rounds g (List.map snd roots) f (skipn p t) f' t' /\
    match x with
    | VTree _ | VNoNode => t' = []
    | VNoMatch => deadEnd g (List.map snd roots) f' t'
    | VAmbiguity => torn g (List.map snd roots) f' t'
    | VEmpty => False
    end.
Proof.
  induction lf as [|lf IH]; intros f p nodes x MF H; cbn [rawText] in H; [discriminate|].
  destruct (list_nil_or (skipn p t)) as [ET|(c & t0 & ET)]; rewrite ET in H.
  - exists f, []. rewrite ET. split; [constructor|]. destruct nodes; injection H as <-; reflexivity.
  - rewrite <- ET in H. assert (NE : skipn p t <> []) by (rewrite ET; discriminate).
    assert (SF : forall r, In r (List.map snd roots) -> sem fuel g r f (skipn p t) <> SUnsafe).
    { intros r Hr. apply in_map_iff in Hr as (y & <- & Hy). exact (SAFE y f p Hy MF fuel). }
    destruct (semAll_spec fuel g f (skipn p t) _ SF) as [(ys & EY & FY)|(EY & _)]; rewrite EY in H; [|discriminate].
    assert (FE : Forall2 (fun r o => Ev g r f (skipn p t) o) (List.map snd roots) (List.map noAmb ys)).
    { clear - FY. induction FY; cbn [List.map]; constructor; auto. eapply sem_sound; eauto. }
    pose proof (pick_spec (hitsOf ys)) as PS. destruct (pick (hitsOf ys)) as [|n u| |] eqn:EP.
    + injection H as <-. exists f, (skipn p t). split; [constructor|]. split; [exact NE|].
      intros r Hr. destruct (Forall2_in_l _ _ _ _ FE Hr) as (q & Iq & Eq). destruct q as [n u k st|k st]; [|eauto].
      exfalso. assert (X : In u (List.map snd (hitsOf ys))) by (apply lengths_hits; exists (OMatch n u k st); auto). rewrite PS in X. exact X.
    + assert (IN : exists k st, In (Match n u k st) ys).
      { apply hitsOf_in. destruct PS as (l1 & l2 & -> & _). apply in_or_app. right. now left. }
      destruct IN as (k & st & IN).
      assert (X : exists r, In r (List.map snd roots) /\ sem fuel g r f (skipn p t) = SOk (Match n u k st)).
      { clear - FY IN. induction FY as [|r y l ys R F IH]; [destruct IN|]. destruct IN as [->|IN]; [exists r; split; [now left|exact R]|].
        destruct (IH IN) as (r2 & I2 & X). exists r2. split; [now right|exact X]. }
      destruct X as (r & IR & Y). assert (WR : wfRule r) by (apply in_map_iff in IR as (y & <- & Hy); now apply HR).
      destruct (sem_match _ _ _ _ _ _ _ _ _ W WR (clean_skipn p t C) Y) as (ST & LU & LK). rewrite ST, skipn_skipn' in H.
      assert (MF' : mode (if st then SUGGEST_NOT_SKIP else SUGGEST_SKIP)) by (unfold mode; destruct st; auto).
      destruct (IH _ _ _ _ MF' H) as (f' & t' & RD & X). exists f', t'. split; [|exact X].
      apply rd_round with (outs := List.map noAmb ys) (n := n) (u := u) (st := st); auto; [|exists k; apply (in_map noAmb) in IN; exact IN|lia|now rewrite skipn_skipn'].
      now rewrite hits_noAmb.
    + injection H as <-. exists f, (skipn p t). split; [constructor|].
      assert (TW : (2 <= count_occ Nat.eq_dec (List.map snd (hitsOf ys)) (longest (hitsOf ys)))%nat).
      { rewrite count_filter. unfold pick in EP. destruct (List.filter _ (hitsOf ys)) as [|[n u] [|x2 fl]]; cbn [length]; [discriminate| |lia].
        destruct (earlyTie None (hitsOf ys)); discriminate. }
      apply twice_split in TW as (l1 & x & l2 & y & l3 & EL & LX & LY). exists (List.map noAmb ys), (longest (hitsOf ys)), l1, x, l2, y, l3.
      repeat (split; auto). intros q v Iq Eq. assert (X : In v (List.map snd (hitsOf ys))) by (apply lengths_hits; eauto).
      apply in_map_iff in X as (z & <- & Iz). now apply longest_le.
    + exfalso. unfold pick in EP. destruct (List.filter _ (hitsOf ys)) as [|[n u] [|x2 fl]] eqn:EF; [discriminate| |discriminate].
      pose proof (proj2 (strictly_filter _ _ _) EF) as SL. pose proof (nodup_hits g t roots ORD fuel f p ys n u MF FY SL) as ND.
      rewrite (early_none _ None ND ltac:(discriminate)) in EP. discriminate.
Qed.
End Why.

Lemma evalRaw_why g roots s : wfRules g -> wfRoots roots -> runesOk (rest s) ->
  (forall x f p, In x roots -> mode f -> careful g (snd x) f (skipn p (rest s))) ->
  orderly g (List.map snd roots) (rest s) -> looksAgain g (List.map snd roots) (rest s) ->
  forall o lf fuel r s', legal roots o -> evalRaw lf fuel g o s = Ok (r, s') ->
  exists f' t', Rounds g (List.map snd roots) SUGGEST_SKIP (rest s) f' t' /\
    match r with
    | RawOk _ => t' = []
    | RawNoMatch _ _ => deadEnd g (List.map snd roots) f' t'
    | RawAmbiguity _ _ => torn g (List.map snd roots) f' t'
    | RawEmpty => rest s = []
    | RawNoNode => False
    end.
Proof.
  intros W HR C SAFE ORD AGAIN o lf fuel r s' HO E. destruct (list_nil_or (rest s)) as [ES|(c & t & ES)].
  - unfold evalRaw in E. rewrite peek_rest, ES in E. injection E as <- _. exists SUGGEST_SKIP, (rest s). split; [constructor|exact ES].
  - assert (NE : rest s <> []) by (rewrite ES; discriminate).
    pose proof (evalRaw_text g roots s W HR C SAFE ORD AGAIN o lf fuel HO NE) as X. rewrite E in X.
    destruct (rawText lf fuel g (List.map snd roots) SUGGEST_SKIP (rest s) []) as [y| |] eqn:ET; [|destruct X|discriminate X]. cbn [sameRes] in X. subst y.
    destruct (rawText_why g (rest s) roots W C HR SAFE ORD fuel lf SUGGEST_SKIP 0 [] _ (or_introl eq_refl) ET) as (f' & t' & RD & X). cbn [skipn] in RD.
    exists f', t'. split; [exact RD|]. destruct r; cbn [verdictOf] in X; auto; [destruct X|].
    exfalso. revert ET. cbn [verdictOf]. clear - ES NE. destruct lf as [|lf]; cbn [rawText]; [discriminate|].
    destruct (rest s) as [|c0 t1]; [congruence|]. destruct (semAll _ _ _ _ _) as [ys| |]; [|discriminate..].
    destruct (pick (hitsOf ys)) as [|n u| |]; [discriminate| |discriminate..]. revert n.
    assert (X : forall lf f t ns, ns <> [] -> rawText lf fuel g (List.map snd roots) f t ns <> Ok VNoNode).
    { clear. induction lf as [|lf IH]; intros f t ns N; cbn [rawText]; [discriminate|]. destruct t as [|c t]; [destruct ns; [congruence|discriminate]|].
      destruct (semAll _ _ _ _ _) as [ys| |]; [|discriminate..]. destruct (pick (hitsOf ys)); [discriminate| |discriminate..]. now apply IH. }
    intros n. now apply X.
Qed.
