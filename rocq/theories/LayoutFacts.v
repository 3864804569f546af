(** White space that no terminal takes can be exchanged. *)
From Verif Require Import Base Stream StreamFacts CallFacts Node Rule SpecStream SpecRule TermFacts SpecEval SpecEv EvFacts EvDet SpecLayout.

Lemma skipn_twice {A} p u (t : list A) : skipn u (skipn p t) = skipn (p + u) t.
Proof. revert t; induction p as [|p IH]; intros t; [reflexivity|]. destruct t; [now rewrite !skipn_nil|apply IH]. Qed.
Lemma left_app a b : left (a ++ b) = left a ++ left b. Proof. apply flat_map_app. Qed.
Lemma right_app a b : right (a ++ b) = right a ++ right b. Proof. apply flat_map_app. Qed.

Section Layout.
Variables W E : list Z.
Hypothesis WW : forall x, In x W -> isWS x = true.
Notation run := (run W).
Notation okP := (okPieces W E).
Notation sameTree := (sameTree W).

Lemma ok_tail p P : okP (p :: P) -> okP P. Proof. inversion 1; assumption. Qed.
Lemma ok_suffix A B : okP (A ++ B) -> okP B.
Proof. induction A as [|p A IH]; [auto|]. intros H. apply IH. exact (ok_tail _ _ H). Qed.
Lemma ok_all P : okP P -> Forall (okPiece W) P.
Proof. induction 1; constructor; cbn; auto. Qed.
Lemma ok_piece A p B : okP (A ++ p :: B) -> okPiece W p.
Proof. intros H. apply ok_suffix in H. apply ok_all in H. now inversion H. Qed.
Lemma ok_shorter w1 w2 v1 v2 B : okP (PRun (w1 ++ w2) (v1 ++ v2) :: B) -> w2 <> [] -> v2 <> [] -> okP (PRun w2 v2 :: B).
Proof.
  inversion 1 as [| |? ? ? (_ & R1) (_ & R2) O M]; subst. intros N N'. apply Forall_app in R1 as (_ & R1). apply Forall_app in R2 as (_ & R2). constructor; auto; split; auto.
Qed.

(** ** Cuts *)
Definition cutAt (P : list piece) (u u' : nat) : Prop := exists A B, P = A ++ B /\ u = length (left A) /\ u' = length (right A).
Lemma piece_left p : okPiece W p -> (0 < length (leftOf p))%nat /\ (0 < length (rightOf p))%nat.
Proof. destruct p as [x|w w']; cbn; [lia|]. intros ((N & _) & N' & _). destruct w, w'; try congruence. cbn. lia. Qed.
Lemma cut_lt P : Forall (okPiece W) P -> forall u u' v v', cutAt P u u' -> cutAt P v v' -> (u < v <-> u' < v')%nat.
Proof.
  induction 1 as [|p P OP FP IH]; intros u u' v v' (A & B & EA & -> & ->) (A2 & B2 & EA2 & -> & ->).
  - destruct A, A2; try discriminate. cbn. lia.
  - destruct (piece_left _ OP). destruct A as [|a A], A2 as [|a2 A2]; cbn [app] in EA, EA2.
    + cbn. lia.
    + injection EA2 as <- EA2. cbn [left right flat_map]. rewrite !app_length. cbn. lia.
    + injection EA as <- EA. cbn [left right flat_map]. rewrite !app_length. cbn. lia.
    + injection EA as <- EA. injection EA2 as <- EA2. cbn [left right flat_map]. rewrite !app_length.
      specialize (IH _ _ _ _ (ex_intro _ A (ex_intro _ B (conj EA (conj eq_refl eq_refl)))) (ex_intro _ A2 (ex_intro _ B2 (conj EA2 (conj eq_refl eq_refl))))). unfold left, right in IH. lia.
Qed.
Lemma cut_nil P : cutAt P 0 0. Proof. exists [], P. auto. Qed.

(** ** White space in front *)
Definition calm (P : list piece) : Prop := match P with PRun _ _ :: _ => False | PRune x :: _ => isWS x = false | [] => True end.
Definition runes (l : list Z) : list piece := List.map PRune l.
Lemma left_runes l : left (runes l) = l. Proof. induction l as [|x l IH]; [reflexivity|]. cbn. f_equal. exact IH. Qed.
Lemma right_runes l : right (runes l) = l. Proof. induction l as [|x l IH]; [reflexivity|]. cbn. f_equal. exact IH. Qed.
Lemma ws_run w t : Forall (fun x => In x W) w -> ws_prefix t = [] -> ws_prefix (w ++ t) = w.
Proof. induction 1 as [|x w I F IH]; intros H; cbn [app ws_prefix]; [exact H|]. rewrite (WW _ I), IH; auto. Qed.
Lemma calm_left P : calm P -> ws_prefix (left P) = [].
Proof. destruct P as [|[x|] P]; cbn; [reflexivity| |contradiction]. now intros ->. Qed.
Lemma calm_right P : calm P -> ws_prefix (right P) = [].
Proof. destruct P as [|[x|] P]; cbn; [reflexivity| |contradiction]. now intros ->. Qed.
(** The white space in front is one exchanged run, or stands in both texts. *)
Inductive front : list piece -> list piece -> list piece -> Prop :=
| fr_run w w' B : run w -> run w' -> calm B -> front (PRun w w' :: B) [PRun w w'] B
| fr_same l B : white l -> calm B -> front (runes l ++ B) (runes l) B.
Lemma front_of P : okP P -> exists A B, P = A ++ B /\ front P A B.
Proof.
  induction P as [|[x|w w'] P IH]; intros O.
  - exists [], []. split; [reflexivity|]. apply (fr_same [] []); constructor.
  - inversion O as [|? ? O' M|]; subst. destruct (isWS x) eqn:WX.
    + destruct (IH O') as (A & B & EQ & F). inversion F; subst.
      * destruct M; congruence.
      * exists (runes (x :: l)), B. split; [reflexivity|]. apply (fr_same (x :: l) B); [|assumption]. constructor; [|assumption]. unfold isWS in WX. apply existsb_exists in WX as (y & I & Q). apply Z.eqb_eq in Q. now subst.
    + exists [], (PRune x :: P). split; [reflexivity|]. apply (fr_same [] (PRune x :: P)); [constructor|exact WX].
  - inversion O as [| |? ? ? R1 R2 O' M]; subst. exists [PRun w w'], P. split; [reflexivity|]. constructor; auto.
Qed.
Lemma front_split P A B : front P A B -> P = A ++ B. Proof. destruct 1; reflexivity. Qed.
Lemma white_ws l : white l -> forall t, ws_prefix t = [] -> ws_prefix (l ++ t) = l.
Proof.
  induction 1 as [|x l I F IH]; intros t H; cbn [app ws_prefix]; [exact H|]. assert (isWS x = true) as -> by (unfold isWS; apply existsb_exists; exists x; split; [exact I|apply Z.eqb_refl]). now rewrite IH.
Qed.
Lemma front_left P A B : front P A B -> ws_prefix (left P) = left A.
Proof.
  destruct 1 as [w w' B (_ & R1) R2 C|l B H C].
  - cbn [left flat_map leftOf]. fold (left B). rewrite app_nil_r. apply ws_run; [exact R1|now apply calm_left].
  - rewrite left_app, left_runes. apply white_ws; [exact H|now apply calm_left].
Qed.
Lemma front_right P A B : front P A B -> ws_prefix (right P) = right A.
Proof.
  destruct 1 as [w w' B R1 (_ & R2) C|l B H C].
  - cbn [right flat_map rightOf]. fold (right B). rewrite app_nil_r. apply ws_run; [exact R2|now apply calm_right].
  - rewrite right_app, right_runes. apply white_ws; [exact H|now apply calm_right].
Qed.
Lemma skip_left P A B : P = A ++ B -> skipn (length (left A)) (left P) = left B.
Proof. intros ->. rewrite left_app, skipn_app, skipn_all, Nat.sub_diag. reflexivity. Qed.
Lemma skip_right P A B : P = A ++ B -> skipn (length (right A)) (right P) = right B.
Proof. intros ->. rewrite right_app, skipn_app, skipn_all, Nat.sub_diag. reflexivity. Qed.

(** ** Terminals *)
Definition tsame (P : list piece) (x x' : tres) : Prop :=
  match x, x' with
  | (Some cs, rd, un), (Some cs', rd', un') => cs = cs' /\ cutAt P (length rd - length un) (length rd' - length un')
  | (None, _, _), (None, _, _) => True
  | _, _ => False
  end.
Lemma left_nil P : okP P -> left P = [] -> P = [].
Proof. destruct P as [|p P]; [reflexivity|]. intros O H. apply ok_all in O. inversion O as [|? ? OP ?]; subst. destruct (piece_left _ OP). cbn in H. destruct (leftOf p); [cbn in *; lia|discriminate]. Qed.
Lemma right_nil P : okP P -> right P = [] -> P = [].
Proof. destruct P as [|p P]; [reflexivity|]. intros O H. apply ok_all in O. inversion O as [|? ? OP ?]; subst. destruct (piece_left _ OP). cbn in H. destruct (rightOf p); [cbn in *; lia|discriminate]. Qed.
Lemma lit_same l : Forall (fun x => ~ In x W) l -> forall B, okP B -> snd (litmatch l (left B)) = snd (litmatch l (right B)) /\
  (snd (litmatch l (left B)) = true -> exists C, B = runes l ++ C /\ fst (litmatch l (left B)) = l /\ fst (litmatch l (right B)) = l).
Proof.
  induction 1 as [|x l NI F IH]; intros B O.
  - split; [reflexivity|]. intros _. exists B. auto.
  - destruct B as [|[y|w w'] B].
    + split; [reflexivity|discriminate].
    + cbn [left right flat_map leftOf rightOf app litmatch]. fold (left B) (right B). destruct (y =? x) eqn:Q; [|split; [reflexivity|discriminate]]. apply Z.eqb_eq in Q. subst y. destruct (IH B (ok_tail _ _ O)) as (Q & K).
      destruct (litmatch l (left B)) as [r ok], (litmatch l (right B)) as [r' ok']. cbn [fst snd] in *. split; [exact Q|]. intros H. destruct (K H) as (C & -> & -> & ->). exists C. auto.
    + inversion O as [| |? ? ? (N1 & R1) (N2 & R2) O' M]; subst. destruct w as [|a w], w' as [|a' w']; try congruence. inversion R1; subst. inversion R2; subst. cbn [left right flat_map leftOf rightOf app litmatch].
      destruct (a =? x) eqn:Q; [apply Z.eqb_eq in Q; subst; contradiction|]. destruct (a' =? x) eqn:Q'; [apply Z.eqb_eq in Q'; subst; contradiction|]. split; [reflexivity|discriminate].
Qed.
Lemma cut_app A l C : cutAt (A ++ runes l ++ C) (length (left A ++ l)) (length (right A ++ l)).
Proof. exists (A ++ runes l), C. rewrite app_assoc, left_app, right_app, left_runes, right_runes. auto. Qed.
Lemma tlit_same skip l P : okP P -> Forall (fun x => ~ In x W) l -> tsame P (tlit skip l (left P)) (tlit skip l (right P)).
Proof.
  intros O F. destruct (front_of P O) as (A & B & EQ & FR). unfold tlit.
  destruct (left P) as [|x0 t0] eqn:LP; [pose proof (left_nil _ O LP) as PN; rewrite PN; exact I|]. destruct (right P) as [|x1 t1] eqn:RP; [pose proof (right_nil _ O RP) as PN; rewrite PN in LP; discriminate|].
  rewrite <- LP, <- RP. clear x0 t0 LP x1 t1 RP. destruct skip.
  - rewrite (front_left _ _ _ FR), (front_right _ _ _ FR), (skip_left _ _ _ EQ), (skip_right _ _ _ EQ).
    assert (OB : okP B) by (apply (ok_suffix A); now rewrite <- EQ).
    assert (FL : Forall (fun x => ~ In x W) (skipn (length (ws_prefix l)) l)) by (apply Forall_forall; intros x I; rewrite Forall_forall in F; apply F; rewrite <- (firstn_skipn (length (ws_prefix l)) l); apply in_or_app; now right).
    destruct (lit_same _ FL B OB) as (Q & K).
    assert (H : forall sp sp', sp = left A -> sp' = right A -> (length sp <? length (ws_prefix l))%nat = (length sp' <? length (ws_prefix l))%nat -> tail_is sp (ws_prefix l) = tail_is sp' (ws_prefix l) ->
      (tail_is sp (ws_prefix l) = true -> ws_prefix l = [] \/ left A = right A) ->
      tsame P (if (length sp <? length (ws_prefix l))%nat then tfail sp else if negb (tail_is sp (ws_prefix l)) then tfail sp else if snd (litmatch (skipn (length (ws_prefix l)) l) (left B)) then (Some l, sp ++ fst (litmatch (skipn (length (ws_prefix l)) l) (left B)), []) else tfail (sp ++ fst (litmatch (skipn (length (ws_prefix l)) l) (left B))))
        (if (length sp' <? length (ws_prefix l))%nat then tfail sp' else if negb (tail_is sp' (ws_prefix l)) then tfail sp' else if snd (litmatch (skipn (length (ws_prefix l)) l) (right B)) then (Some l, sp' ++ fst (litmatch (skipn (length (ws_prefix l)) l) (right B)), []) else tfail (sp' ++ fst (litmatch (skipn (length (ws_prefix l)) l) (right B))))).
    { intros sp sp' -> -> Q1 Q2 _. rewrite <- Q1, <- Q2, <- Q. destruct (_ <? _)%nat; [exact I|]. destruct (tail_is _ _); cbn [negb]; [|exact I]. destruct (snd (litmatch _ (left B))) eqn:SN; [|exact I].
      destruct (K eq_refl) as (C & -> & -> & ->). cbn. split; [reflexivity|]. rewrite !Nat.sub_0_r, EQ. apply cut_app. }
    destruct (ws_prefix l) as [|a lead] eqn:WP.
    + apply H; auto; unfold tail_is; rewrite ?Nat.sub_0_r, ?skipn_all; reflexivity.
    + inversion FR as [w w' B0 (N1 & R1) (N2 & R2) C Q1 Q2 Q3|lw B0 HW C Q1 Q2 Q3]; subst.
      * assert (NT : forall sp, Forall (fun x => In x W) sp -> tail_is sp (a :: lead) = true -> False).
        { intros sp FS T. unfold tail_is in T. apply runes_eqb_eq in T. assert (IA : In a (skipn (length sp - length (a :: lead)) sp)) by (rewrite T; now left).
          assert (IL : In a l) by (pose proof (ws_prefix_app l) as PX; rewrite WP in PX; rewrite PX; now left). rewrite Forall_forall in F, FS. apply (F a IL). apply FS. rewrite <- (firstn_skipn (length sp - length (a :: lead)) sp). apply in_or_app. now right. }
        cbn [left right flat_map leftOf rightOf]. rewrite !app_nil_r. destruct (tail_is w (a :: lead)) eqn:T1; [exfalso; exact (NT _ R1 T1)|]. destruct (tail_is w' (a :: lead)) eqn:T2; [exfalso; exact (NT _ R2 T2)|].
        cbn [negb]. destruct (_ <? _)%nat, (_ <? _)%nat; exact I.
      * assert (LR : left (runes lw) = right (runes lw)) by now rewrite left_runes, right_runes. apply H; auto; rewrite LR; reflexivity.
  - cbn [length skipn]. destruct (lit_same _ F P O) as (Q & K). rewrite <- Q. cbn [Nat.ltb Nat.leb tail_is length Nat.sub skipn runes_eqb negb]. destruct (snd (litmatch l (left P))) eqn:SN; [|exact I].
    destruct (K eq_refl) as (C & EC & -> & ->). cbn. split; [reflexivity|]. rewrite !Nat.sub_0_r, EC. apply (cut_app [] l C).
Qed.
Lemma find_none (p : Z -> bool) w : Forall (fun x => p x = false) w -> find_idxp p w = None.
Proof. induction 1 as [|x w H F IH]; cbn; [reflexivity|]. now rewrite H, IH. Qed.
Lemma find_idx_none c w : ~ In c w -> find_idx c w = None.
Proof. induction w as [|x w IH]; cbn; [reflexivity|]. intros H. destruct (x =? c) eqn:Q; [apply Z.eqb_eq in Q; exfalso; apply H; now left|]. rewrite IH; auto. Qed.
Lemma head_same c P : okP P -> ~ In c W -> headIs c (left P) = headIs c (right P) /\ (headIs c (left P) = true -> exists C, P = PRune c :: C).
Proof.
  intros O N. destruct P as [|[y|w w'] B]; cbn [left right flat_map leftOf rightOf app headIs].
  - split; [reflexivity|discriminate].
  - split; [reflexivity|]. intros Q. apply Z.eqb_eq in Q. subst. now exists B.
  - inversion O as [| |? ? ? (N1 & R1) (N2 & R2) O' M]; subst. destruct w as [|a w], w' as [|a' w']; try congruence. inversion R1; subst. inversion R2; subst. cbn.
    destruct (a =? c) eqn:Q; [apply Z.eqb_eq in Q; subst; contradiction|]. destruct (a' =? c) eqn:Q'; [apply Z.eqb_eq in Q'; subst; contradiction|]. split; [reflexivity|discriminate].
Qed.
Lemma cut_white l j B : cutAt (runes l ++ B) (length l - length (skipn (S j) l)) (length l - length (skipn (S j) l)).
Proof.
  exists (runes (firstn (S j) l)), (runes (skipn (S j) l) ++ B). rewrite app_assoc. unfold runes. rewrite <- map_app, firstn_skipn. split; [reflexivity|]. fold (runes (firstn (S j) l)). rewrite left_runes, right_runes, skipn_length, firstn_length. lia.
Qed.
Lemma tchar_same c f P : okP P -> ~ In c W -> tsame P (tchar c f (left P)) (tchar c f (right P)).
Proof.
  intros O N. destruct (front_of P O) as (A & B & EQ & FR). unfold tchar.
  destruct (left P) as [|x0 t0] eqn:LP; [pose proof (left_nil _ O LP) as PN; rewrite PN; exact I|]. destruct (right P) as [|x1 t1] eqn:RP; [pose proof (right_nil _ O RP) as PN; rewrite PN in LP; discriminate|].
  rewrite <- LP, <- RP. clear x0 t0 LP x1 t1 RP. destruct (f =? SUGGEST_SKIP).
  - rewrite (front_left _ _ _ FR), (front_right _ _ _ FR), (skip_left _ _ _ EQ), (skip_right _ _ _ EQ).
    assert (OB : okP B) by (apply (ok_suffix A); now rewrite <- EQ). destruct (head_same c B OB N) as (HS & HK).
    assert (H : tsame P (if headIs c (left B) then (Some [c], left A ++ [c], []) else tfail (left A)) (if headIs c (right B) then (Some [c], right A ++ [c], []) else tfail (right A))).
    { rewrite <- HS. destruct (headIs c (left B)); [|exact I]. destruct (HK eq_refl) as (C & ->). cbn. split; [reflexivity|]. rewrite !Nat.sub_0_r, EQ. exact (cut_app A [c] C). }
    inversion FR as [w w' B0 (N1 & R1) (N2 & R2) C Q1 Q2 Q3|lw B0 HW C Q1 Q2 Q3]; subst.
    + assert (H1 : find_idx c (left [PRun w w']) = None) by (cbn [left flat_map leftOf]; rewrite app_nil_r; apply find_idx_none; intros I; rewrite Forall_forall in R1; now apply N, R1).
      assert (H2 : find_idx c (right [PRun w w']) = None) by (cbn [right flat_map rightOf]; rewrite app_nil_r; apply find_idx_none; intros I; rewrite Forall_forall in R2; now apply N, R2).
      assert (M1 : nonempty (left [PRun w w']) = true) by (cbn; rewrite app_nil_r; destruct w; [congruence|reflexivity]). assert (M2 : nonempty (right [PRun w w']) = true) by (cbn; rewrite app_nil_r; destruct w'; [congruence|reflexivity]).
      rewrite H1, H2, M1, M2. destruct (isWS c); cbn [andb]; [exact I|exact H].
    + rewrite left_runes, right_runes in *. destruct (isWS c && nonempty lw); [|exact H]. destruct (find_idx c lw) as [j|]; [|exact I]. cbn. split; [reflexivity|]. apply cut_white.
  - destruct (head_same c P O N) as (HS & HK). rewrite <- HS. destruct (headIs c (left P)); [|exact I]. destruct (HK eq_refl) as (C & EC). cbn. split; [reflexivity|]. rewrite EC. exact (cut_app [] [c] C).
Qed.
Lemma trange_same lo hi f P : okP P -> (forall x, In x W -> x < lo) -> tsame P (trange lo hi f (left P)) (trange lo hi f (right P)).
Proof.
  intros O N. destruct (front_of P O) as (A & B & EQ & FR). unfold trange.
  destruct (left P) as [|x0 t0] eqn:LP; [pose proof (left_nil _ O LP) as PN; rewrite PN; exact I|]. destruct (right P) as [|x1 t1] eqn:RP; [pose proof (right_nil _ O RP) as PN; rewrite PN in LP; discriminate|].
  rewrite <- LP, <- RP. clear x0 t0 LP x1 t1 RP.
  assert (HB : forall A B, P = A ++ B -> okP B -> tsame P (match left B with c :: _ => if (lo <=? c) && (c <=? hi) then (Some [c], left A ++ [c], []) else tfail (left A) | [] => tfail (left A) end)
    (match right B with c :: _ => if (lo <=? c) && (c <=? hi) then (Some [c], right A ++ [c], []) else tfail (right A) | [] => tfail (right A) end)).
  { clear A B EQ FR. intros A B EQ OB. destruct B as [|[y|w w'] B]; cbn [left right flat_map leftOf rightOf app].
    - exact I.
    - destruct (_ && _); [|exact I]. cbn. split; [reflexivity|]. rewrite !Nat.sub_0_r, EQ. exact (cut_app A [y] B).
    - inversion OB as [| |? ? ? (N1 & R1) (N2 & R2) O' M]; subst. destruct w as [|a w], w' as [|a' w']; try congruence. inversion R1; subst. inversion R2; subst. cbn [app].
      assert (lo <=? a = false) as -> by (apply Z.leb_gt; auto). assert (lo <=? a' = false) as -> by (apply Z.leb_gt; auto). exact I. }
  destruct (f =? SUGGEST_SKIP).
  - rewrite (front_left _ _ _ FR), (front_right _ _ _ FR), (skip_left _ _ _ EQ), (skip_right _ _ _ EQ).
    assert (OB : okP B) by (apply (ok_suffix A); now rewrite <- EQ). specialize (HB A B EQ OB).
    inversion FR as [w w' B0 (N1 & R1) (N2 & R2) C Q1 Q2 Q3|lw B0 HW C Q1 Q2 Q3]; subst.
    + assert (NF : forall v, Forall (fun x => In x W) v -> find_idxp (fun c => (lo <=? c) && (c >=? hi)) v = None).
      { intros v Fv. apply find_none. eapply Forall_impl; [|exact Fv]. intros x I. assert (lo <=? x = false) as -> by (apply Z.leb_gt; auto). reflexivity. }
      rewrite (NF (left [PRun w w'])) by (cbn [left flat_map leftOf]; now rewrite app_nil_r). rewrite (NF (right [PRun w w'])) by (cbn [right flat_map rightOf]; now rewrite app_nil_r). exact HB.
    + rewrite left_runes, right_runes in *. destruct (find_idxp _ lw) as [j|]; [|exact HB]. cbn. split; [reflexivity|]. apply cut_white.
  - cbn [find_idxp length skipn]. exact (HB [] P eq_refl O).
Qed.
Lemma teof_same f P : okP P -> tsame P (teof f (left P)) (teof f (right P)).
Proof.
  intros O. destruct (front_of P O) as (A & B & EQ & FR). unfold teof. destruct (f =? 1).
  - rewrite (front_left _ _ _ FR), (front_right _ _ _ FR), (skip_left _ _ _ EQ), (skip_right _ _ _ EQ).
    assert (OB : okP B) by (apply (ok_suffix A); now rewrite <- EQ). destruct (left B) as [|x t] eqn:LB; destruct (right B) as [|x' t'] eqn:RB.
    + apply (left_nil _ OB) in LB. subst B. cbn. split; [reflexivity|]. exists A, []. rewrite !Nat.sub_0_r. auto.
    + apply (left_nil _ OB) in LB. subst B. discriminate.
    + apply (right_nil _ OB) in RB. subst B. discriminate.
    + exact I.
  - cbn [length skipn]. destruct (left P) as [|x t] eqn:LB; destruct (right P) as [|x' t'] eqn:RB.
    + cbn. split; [reflexivity|]. exact (cut_nil P).
    + apply (left_nil _ O) in LB. rewrite LB in RB. discriminate.
    + apply (right_nil _ O) in RB. rewrite RB in LB. discriminate.
    + exact I.
Qed.

(** ** Trees *)
Definition topSame (n n' : node) : Prop := exists ty nm cs ks ks' pos st v d k,
  n = Node ty nm cs ks pos st v d k /\ n' = Node ty nm cs ks' pos st v d k /\ Forall2 sameTree ks ks'.
Lemma top_tree n n' : topSame n n' -> sameTree n n'.
Proof. intros (ty & nm & cs & ks & ks' & pos & st & v & d & k & -> & -> & F). now constructor. Qed.
Lemma top_leaf ty nm cs pos st v d k : topSame (Node ty nm cs [] pos st v d k) (Node ty nm cs [] pos st v d k).
Proof. repeat eexists. constructor. Qed.
Lemma top_build ty b cs ks ks' st : Forall2 sameTree ks ks' -> topSame (build ty b cs ks None st) (build ty b cs ks' None st).
Proof. intros F. unfold build. repeat eexists. exact F. Qed.
Lemma top_branch ty b ks ks' st : Forall2 sameTree ks ks' -> topSame (tree ty b ks st) (tree ty b ks' st).
Proof. apply top_build. Qed.
Lemma top_one ty b n n' st : topSame n n' -> topSame (tree ty b [n] st) (tree ty b [n'] st).
Proof. intros T. apply top_branch. constructor; [now apply top_tree|constructor]. Qed.
Lemma top_flip b n n' : topSame n n' -> topSame (flip b n) (flip b n').
Proof. intros (ty & nm & cs & ks & ks' & pos & st & v & d & k & -> & -> & F). unfold flip. cbn. repeat eexists. exact F. Qed.
Lemma top_mode f n n' s : topSame n n' -> nextMode f n s = nextMode f n' s.
Proof. intros (ty & nm & cs & ks & ks' & pos & st & v & d & k & -> & -> & F). unfold nextMode. cbn. destruct F; reflexivity. Qed.
Definition osame (P : list piece) (o o' : ores) : Prop :=
  match o, o' with
  | OMatch n u _ s, OMatch n' u' _ s' => topSame n n' /\ s = s' /\ cutAt P u u'
  | OFail _ s, OFail _ s' => s = s'
  | _, _ => False
  end.
Lemma osame_match P n u k s o' : osame P (OMatch n u k s) o' -> exists n' u' k', o' = OMatch n' u' k' s /\ topSame n n' /\ cutAt P u u'.
Proof. destruct o'; cbn; [|contradiction]. intros (T & <- & C). eauto 6. Qed.
Lemma osame_fail P k s o' : osame P (OFail k s) o' -> exists k', o' = OFail k' s.
Proof. destruct o'; cbn; [contradiction|]. intros <-. eauto. Qed.
Lemma osame_term P ty b st x x' : tsame P x x' -> osame P (ofTerm ty b st x) (ofTerm ty b st x').
Proof.
  destruct x as [[[cs|] rd] un], x' as [[[cs'|] rd'] un']; cbn; try contradiction; [|reflexivity]. intros (<- & C). split; [|split; [reflexivity|exact C]]. apply top_build. constructor.
Qed.
Lemma cut_more P A B u u' : P = A ++ B -> cutAt B u u' -> cutAt P (length (left A) + u) (length (right A) + u').
Proof. intros -> (C & D & -> & -> & ->). exists (A ++ C), D. rewrite app_assoc, left_app, right_app, !app_length. auto. Qed.
Lemma cut_at P A B : P = A ++ B -> cutAt P (length (left A)) (length (right A)).
Proof. intros ->. exists A, B. auto. Qed.

(** ** The longest match *)
Definition mlSame (P : list piece) : list (node * nat) -> list (node * nat) -> Prop :=
  Forall2 (fun x x' => topSame (fst x) (fst x') /\ cutAt P (snd x) (snd x')).
Lemma ml_lt P ml ml' u u' : okP P -> mlSame P ml ml' -> cutAt P u u' -> (Forall (fun x => (snd x < u)%nat) ml <-> Forall (fun x => (snd x < u')%nat) ml').
Proof.
  intros O H C. induction H as [|x x' ml ml' (_ & CX) F IH]; [split; constructor|].
  pose proof (cut_lt P (ok_all _ O) _ _ _ _ CX C) as Q. split; intros G; inversion G; subst; constructor; tauto.
Qed.
Lemma ml_split P ml ml' : mlSame P ml ml' -> forall l1 x l2, ml = l1 ++ x :: l2 -> exists l1' x' l2', ml' = l1' ++ x' :: l2' /\ topSame (fst x) (fst x') /\ cutAt P (snd x) (snd x') /\ mlSame P (l1 ++ l2) (l1' ++ l2').
Proof.
  intros H l1 x l2 ->. apply Forall2_app_inv_l in H as (l1' & r & F1 & F2 & ->). inversion F2 as [|? x' ? l2' (T & C) F3]; subst. exists l1', x', l2'. split; [reflexivity|]. split; [exact T|]. split; [exact C|]. now apply Forall2_app.
Qed.
Lemma ml_split' P ml ml' : mlSame P ml ml' -> forall l1' x' l2', ml' = l1' ++ x' :: l2' -> exists l1 x l2, ml = l1 ++ x :: l2 /\ topSame (fst x) (fst x') /\ cutAt P (snd x) (snd x') /\ mlSame P (l1 ++ l2) (l1' ++ l2').
Proof.
  intros H l1' x' l2' ->. apply Forall2_app_inv_r in H as (l1 & r & F1 & F2 & ->). inversion F2 as [|x ? l2 ? (T & C) F3]; subst. exists l1, x, l2. split; [reflexivity|]. split; [exact T|]. split; [exact C|]. now apply Forall2_app.
Qed.
Lemma ml_strict P ml ml' n u : okP P -> mlSame P ml ml' -> strictlyLongest ml n u -> exists n' u', strictlyLongest ml' n' u' /\ topSame n n' /\ cutAt P u u'.
Proof.
  intros O H (l1 & l2 & EQ & F). destruct (ml_split _ _ _ H _ _ _ EQ) as (l1' & [n' u'] & l2' & -> & T & C & M). cbn [fst snd] in *. exists n', u'. split; [|auto]. exists l1', l2'. split; [reflexivity|]. now apply (ml_lt _ _ _ _ _ O M C).
Qed.
Lemma ml_tie P ml ml' : okP P -> mlSame P ml ml' -> (forall n u, ~ strictlyLongest ml n u) -> forall n' u', ~ strictlyLongest ml' n' u'.
Proof.
  intros O H N n' u' (l1' & l2' & EQ & F). destruct (ml_split' _ _ _ H _ _ _ EQ) as (l1 & [n u] & l2 & -> & T & C & M). cbn [fst snd] in *. apply (N n u). exists l1, l2. split; [reflexivity|]. now apply (ml_lt _ _ _ _ _ O M C).
Qed.
Lemma ml_nonempty P ml ml' : mlSame P ml ml' -> ml <> [] -> ml' <> [].
Proof. destruct 1; [congruence|discriminate]. Qed.

(** ** Contents *)
Lemma content_nil : sameContent W [] []. Proof. exists []. repeat split; constructor. Qed.
Lemma content_app c c' K : sameContent W c c' -> Forall (okPiece W) K -> sameContent W (c ++ left K) (c' ++ right K).
Proof. intros (P & F & -> & ->) H. exists (P ++ K). rewrite left_app, right_app. split; [|auto]. apply Forall_app; auto. Qed.
Lemma content_rune c c' x : sameContent W c c' -> sameContent W (c ++ [x]) (c' ++ [x]).
Proof. intros H. exact (content_app c c' [PRune x] H (Forall_cons (PRune x) I (Forall_nil _))). Qed.

Definition escOk (e : option rule) : Prop := match e with None => True | Some (RChar _ x _) => In x E /\ ~ In x W | Some _ => False end.
Lemma kids_add ks ks' n n' : Forall2 sameTree ks ks' -> topSame n n' -> Forall2 sameTree (ks ++ [n]) (ks' ++ [n']).
Proof. intros F T. apply Forall2_app; [exact F|]. constructor; [now apply top_tree|constructor]. Qed.
Lemma kids_length ks ks' : Forall2 sameTree ks ks' -> length ks = length ks'.
Proof. induction 1; cbn; congruence. Qed.
Lemma end_same P A B b mn m m' st kids kids' o : P = A ++ B -> Forall2 sameTree kids kids' -> EvEnd b mn (length (left A)) m st kids o ->
  exists o', EvEnd b mn (length (right A)) m' st kids' o' /\ osame P o o'.
Proof.
  intros EQ F H. inversion H; subst.
  - eexists. split; [apply ee_few; now rewrite <- (kids_length _ _ F)|reflexivity].
  - eexists. split; [apply ee_ok; now rewrite <- (kids_length _ _ F)|]. split; [now apply top_branch|]. split; [reflexivity|]. now apply (cut_at _ A B).
Qed.

Section Grammar.
Variable g : rules_t.
Hypothesis LF : layoutFreeRules W E g.
Notation free := (layoutFree W E).

(** Nothing ends the content here. *)
Definition nothing (cl : rule) (esc : option rule) (excl : list rule) (t' : list Z) (p' : nat) : Prop :=
  (exists k s, Ev g cl NOT_SKIP (skipn p' t') (OFail k s)) /\ (forall m, exists m1, EvPlain g esc t' p' m m1) /\ (forall m, exists m2, EvExcl g excl t' p' m [] m2).
Lemma pass b on v cl esc excl t' q w' r P o c' : skipn q t' = w' ++ r ->
  (forall v1 v2, w' = v1 ++ v2 -> v2 <> [] -> nothing cl esc excl t' (q + length v1)) ->
  (forall m, exists o', EvScan g b on v cl esc excl t' (q + length w') m (c' ++ w') o' /\ osame P o o') ->
  forall v2 v1, w' = v1 ++ v2 -> forall m, exists o', EvScan g b on v cl esc excl t' (q + length v1) m (c' ++ v1) o' /\ osame P o o'.
Proof.
  intros SK N H. induction v2 as [|x v2 IH]; intros v1 EQ m.
  - rewrite app_nil_r in EQ. subst v1. apply H.
  - destruct (N v1 (x :: v2) EQ ltac:(discriminate)) as ((k & s & C) & PL & EX). destruct (PL m) as (m1 & PM). destruct (EX m1) as (m2 & XM).
    assert (SX : skipn (q + length v1) t' = x :: v2 ++ r).
    { rewrite <- skipn_twice, SK, EQ, <- app_assoc, skipn_app, skipn_all, Nat.sub_diag. reflexivity. }
    assert (EQ' : w' = (v1 ++ [x]) ++ v2) by (rewrite <- app_assoc; exact EQ).
    destruct (IH (v1 ++ [x]) EQ' (Nat.max (Nat.max m2 (q + length v1 + k)) (S (q + length v1)))) as (o' & S' & OS). exists o'. split; [|exact OS].
    eapply sc_next; [exact PM|exact XM|exact C|exact SX|]. rewrite app_length in S'. cbn [length] in S'. replace (q + (length v1 + 1))%nat with (S (q + length v1)) in S' by lia. rewrite app_assoc in S'. exact S'.
Qed.

Definition evSame (r : rule) (f : Z) (t : list Z) (o : ores) : Prop := free r -> forall P, okP P -> t = left P -> exists o', Ev g r f (right P) o' /\ osame P o o'.
Definition inRun (cl : rule) (esc : option rule) (excl : list rule) (P A B : list piece) (w1 : list Z) : Prop :=
  w1 = [] \/ exists w2 w' B1, B = PRun (w1 ++ w2) w' :: B1 /\ w2 <> [] /\ nothing cl esc excl (right P) (length (right A)).

Lemma place cl esc excl P A B w1 : okP P -> P = A ++ B -> inRun cl esc excl P A B w1 -> exists Q, okP Q /\ skipn (length (left A) + length w1) (left P) = left Q /\ skipn (length (right A)) (right P) = right Q /\
  (w1 = [] /\ Q = B \/ exists w2 w' B1, B = PRun (w1 ++ w2) w' :: B1 /\ Q = PRun w2 w' :: B1 /\ w2 <> [] /\ nothing cl esc excl (right P) (length (right A))).
Proof.
  intros O EP [->|(w2 & w' & B1 & -> & NE & N)].
  - exists B. split; [apply (ok_suffix A); now rewrite <- EP|]. cbn [length]. rewrite Nat.add_0_r, (skip_left _ _ _ EP), (skip_right _ _ _ EP). auto.
  - exists (PRun w2 w' :: B1). assert (OB : okP (PRun (w1 ++ w2) w' :: B1)) by (apply (ok_suffix A); now rewrite <- EP). split.
    + apply (ok_shorter w1 w2 [] w' B1 OB NE). inversion OB as [| |? ? ? _ (R & _)]; exact R.
    + split; [rewrite <- skipn_twice, (skip_left _ _ _ EP); cbn [left flat_map leftOf]; rewrite <- app_assoc, skipn_app, skipn_all, Nat.sub_diag; reflexivity|]. split; [exact (skip_right _ _ _ EP)|]. right. exists w2, w', B1. auto.
Qed.
Lemma char_at b x u t n k v s : Ev g (RChar b x u) NOT_SKIP t (OMatch n k v s) -> exists l, t = x :: l /\ k = 1%nat.
Proof.
  intros EV. inversion EV as [? ? ? ? ? EQ| | | | | | | | | | | | | | | |]; subst. unfold tchar in *. destruct t as [|y t]; [discriminate|]. cbn [NOT_SKIP SUGGEST_SKIP Z.eqb headIs] in *. destruct (y =? x) eqn:YX; [|discriminate].
  apply Z.eqb_eq in YX. subst y. cbn in *. exists t. split; congruence.
Qed.
Lemma char_yes b x u l : exists n k s, Ev g (RChar b x u) NOT_SKIP (x :: l) (OMatch n 1 k s).
Proof.
  pose proof (ev_char g b x u NOT_SKIP (x :: l)) as H. unfold tchar in H. cbn [NOT_SKIP SUGGEST_SKIP Z.eqb headIs] in H. rewrite Z.eqb_refl in H. cbn in H. eauto.
Qed.
Lemma esc_step e cl excl P A B w1 ne ue ke se : okP P -> P = A ++ B -> escOk (Some e) -> inRun cl (Some e) excl P A B w1 -> Ev g e NOT_SKIP (skipn (length (left A) + length w1) (left P)) (OMatch ne ue ke se) ->
  exists x B2 ne' ke' se', w1 = [] /\ B = PRune x :: B2 /\ P = (A ++ [PRune x]) ++ B2 /\ ue = 1%nat /\ okP B2 /\ (forall w w' B3, B2 <> PRun w w' :: B3) /\ skipn (length (left A) + 1) (left P) = left B2 /\ skipn (length (right A) + 1) (right P) = right B2 /\
    firstn 1 (skipn (length (left A)) (left P)) = [x] /\ firstn 1 (skipn (length (right A)) (right P)) = [x] /\ Ev g e NOT_SKIP (skipn (length (right A)) (right P)) (OMatch ne' 1 ke' se').
Proof.
  intros O EP EO IR EV. destruct (place _ _ _ _ _ _ _ O EP IR) as (Q & OQ & LQ & RQ & D). destruct e as [b x u| | | | | | | | | | |]; try contradiction. destruct EO as (IE & NW). rewrite LQ in EV. apply char_at in EV as (l & EL & ->).
  inversion OQ as [EQ|y Q1 O1 M EQ|w w' Q1 (NE & FR) R' O1 M EQ]; subst Q; cbn [left flat_map leftOf app] in EL.
  - discriminate.
  - injection EL as -> _. destruct D as [(-> & <-)|(w2 & w' & B1 & _ & EQ & _)]; [|discriminate]. cbn [length] in LQ. rewrite Nat.add_0_r in LQ.
    destruct (char_yes b x u (right Q1)) as (n' & k' & s' & EV'). exists x, Q1, n', k', s'. split; [reflexivity|]. split; [reflexivity|]. split; [rewrite <- app_assoc; exact EP|]. split; [reflexivity|]. split; [exact O1|].
    split; [intros w w' B3 ->; tauto|]. rewrite <- !skipn_twice, LQ, RQ. cbn. auto.
  - destruct w as [|y w]; [congruence|]. injection EL as -> _. inversion FR; subst. contradiction.
Qed.
Lemma layout_mut :
  (forall r f t o, Ev g r f t o -> evSame r f t o) /\
  (forall b rules f t p m st kids o, EvSeq g b rules f t p m st kids o -> (forall x, In x rules -> free x) ->
     forall P A B kids' m', okP P -> t = left P -> P = A ++ B -> p = length (left A) -> Forall2 sameTree kids kids' ->
     exists o', EvSeq g b rules f (right P) (length (right A)) m' st kids' o' /\ osame P o o') /\
  (forall b r mn mx f t p m st kids o, EvRep g b r mn mx f t p m st kids o -> free r ->
     forall P A B kids' m', okP P -> t = left P -> P = A ++ B -> p = length (left A) -> Forall2 sameTree kids kids' ->
     exists o', EvRep g b r mn mx f (right P) (length (right A)) m' st kids' o' /\ osame P o o') /\
  (forall rules f t m st ml m2 st2, EvAlts g rules f t m st ml m2 st2 -> (forall x, In x rules -> free x) ->
     forall P m', okP P -> t = left P -> exists ml' m2', EvAlts g rules f (right P) m' st ml' m2' st2 /\ mlSame P ml ml') /\
  (forall b groups f t m st o, EvChoice g b groups f t m st o -> (forall grp x, In grp groups -> In x grp -> free x) ->
     forall P m', okP P -> t = left P -> exists o', EvChoice g b groups f (right P) m' st o' /\ osame P o o') /\
  (forall excl t p m ml m2, EvExcl g excl t p m ml m2 -> (forall x, In x excl -> free x) ->
     forall Q t' p' m', okP Q -> skipn p t = left Q -> skipn p' t' = right Q -> exists ml' m2', EvExcl g excl t' p' m' ml' m2' /\ mlSame Q ml ml') /\
  (forall esc t p m m1, EvPlain g esc t p m m1 -> escOk esc ->
     forall Q t' p' m', okP Q -> skipn p t = left Q -> skipn p' t' = right Q -> exists m1', EvPlain g esc t' p' m' m1') /\
  (forall b on v cl esc excl t p m c o, EvScan g b on v cl esc excl t p m c o -> free cl -> escOk esc -> (forall x, In x excl -> free x) ->
     forall P A B w1 c0 c' m' on', okP P -> t = left P -> P = A ++ B -> p = (length (left A) + length w1)%nat -> c = c0 ++ w1 -> sameContent W c0 c' -> topSame on on' ->
     inRun cl esc excl P A B w1 -> exists o', EvScan g b on' v cl esc excl (right P) (length (right A)) m' c' o' /\ osame P o o').
Proof.
  apply Ev_mut.
  (* terminals *)
  - intros b c u f t FR P O ->. inversion FR; subst. eexists. split; [constructor|]. now apply osame_term, tchar_same.
  - intros b l f t FR P O ->. inversion FR; subst. eexists. split; [constructor|]. now apply osame_term, tlit_same.
  - intros b l f t FR P O ->. inversion FR; subst. eexists. split; [constructor|]. now apply osame_term, tlit_same.
  - intros b lo lu hi hu f t FR P O ->. inversion FR; subst. eexists. split; [constructor|]. now apply osame_term, trange_same.
  - intros b f t FR P O ->. eexists. split; [constructor|]. now apply osame_term, teof_same.
  (* references *)
  - intros b n f t L FR P O ->. eexists. split; [now apply ev_undef|reflexivity].
  - intros b n r f t nd u k st L _ IH FR P O EQ. destruct (IH (LF _ _ L) P O EQ) as (o' & EV & OS). apply osame_match in OS as (nd' & u' & k' & -> & T & C).
    eexists. split; [eapply ev_ref; eauto|]. split; [now apply top_flip|auto].
  - intros b n r f t k st L _ IH FR P O EQ. destruct (IH (LF _ _ L) P O EQ) as (o' & EV & OS). apply osame_fail in OS as (k' & ->). eexists. split; [eapply ev_ref_fail; eauto|reflexivity].
  - intros b r f t nd u k st _ IH FR P O EQ. inversion FR; subst. destruct (IH H0 P O eq_refl) as (o' & EV & OS). apply osame_match in OS as (nd' & u' & k' & -> & T & C).
    eexists. split; [eapply ev_group; eauto|]. split; [now apply top_one|auto].
  - intros b r f t k st _ IH FR P O EQ. inversion FR; subst. destruct (IH H0 P O eq_refl) as (o' & EV & OS). apply osame_fail in OS as (k' & ->). eexists. split; [eapply ev_group_fail; eauto|reflexivity].
  - intros b r f t nd u k st _ IH FR P O EQ. inversion FR; subst. destruct (IH H0 P O eq_refl) as (o' & EV & OS). apply osame_match in OS as (nd' & u' & k' & -> & T & C).
    eexists. split; [eapply ev_option; eauto|]. split; [now apply top_one|auto].
  - intros b r f t k st _ IH FR P O EQ. inversion FR; subst. destruct (IH H0 P O eq_refl) as (o' & EV & OS). apply osame_fail in OS as (k' & ->). eexists. split; [eapply ev_option_none; eauto|].
    split; [apply top_branch; constructor|]. split; [reflexivity|apply cut_nil].
  - intros b l f t o _ IH FR P O EQ. inversion FR; subst. destruct (IH H0 P [] P [] 0%nat O eq_refl eq_refl eq_refl (Forall2_nil _)) as (o' & EV & OS). exists o'. split; [now constructor|exact OS].
  - intros b r mn mx f t o _ IH FR P O EQ. inversion FR; subst. destruct (IH H0 P [] P [] 0%nat O eq_refl eq_refl eq_refl (Forall2_nil _)) as (o' & EV & OS). exists o'. split; [now constructor|exact OS].
  - intros b gs f t o _ IH FR P O EQ. inversion FR; subst. destruct (IH H0 P 0%nat O eq_refl) as (o' & EV & OS). exists o'. split; [now constructor|exact OS].
  - intros b op v cl esc excl f t k st _ IH FR P O EQ. inversion FR; subst. destruct (IH H3 P O eq_refl) as (o' & EV & OS). apply osame_fail in OS as (k' & ->). eexists. split; [eapply ev_block_fail; eauto|reflexivity].
  - intros b op v cl esc excl f t on u k st o _ IH _ IS FR P O EQ. inversion FR as [| | | | | | | | | | |? ? ? ? ? ? FO FC FE FX]; subst. destruct (IH FO P O eq_refl) as (o1 & EV & OS). apply osame_match in OS as (nd' & u' & k' & -> & T & A & B & EP & -> & ->).
    destruct (IS FC FE FX P A B [] [] [] k' nd' O eq_refl EP (eq_sym (Nat.add_0_r _)) eq_refl content_nil T (or_introl eq_refl)) as (o' & SC & OS). exists o'. split; [eapply ev_block; eauto|exact OS].
  (* sequences *)
  - intros b f t p m st kids FR P A B kids' m' O -> EP -> FK. eexists. split; [constructor|]. split; [now apply top_branch|]. split; [reflexivity|]. now apply (cut_at _ A B).
  - intros b r rules f t p m st kids n u k s o _ IH _ IS FR P A B kids' m' O -> EP -> FK. assert (OB : okP B) by (apply (ok_suffix A); now rewrite <- EP).
    destruct (IH (FR _ (or_introl eq_refl)) B OB (skip_left _ _ _ EP)) as (o1 & EV & OS). apply osame_match in OS as (n' & u' & k' & -> & T & A2 & B2 & EB & -> & ->).
    destruct (IS (fun x H => FR x (or_intror H)) P (A ++ A2) B2 (kids' ++ [n']) (Nat.max m' (length (right A) + k')) O eq_refl) as (o' & SQ & OS').
    + rewrite <- app_assoc, <- EB. exact EP.
    + now rewrite left_app, app_length.
    + now apply kids_add.
    + exists o'. split; [|exact OS']. rewrite (top_mode f _ _ s T) in SQ. eapply es_step; [rewrite (skip_right _ _ _ EP); exact EV|]. rewrite right_app, app_length in SQ. exact SQ.
  - intros b r rules f t p m st kids k s _ IH FR P A B kids' m' O -> EP -> FK. assert (OB : okP B) by (apply (ok_suffix A); now rewrite <- EP).
    destruct (IH (FR _ (or_introl eq_refl)) B OB (skip_left _ _ _ EP)) as (o1 & EV & OS). apply osame_fail in OS as (k' & ->). eexists. split; [eapply es_fail; rewrite (skip_right _ _ _ EP); exact EV|reflexivity].
  (* repetitions *)
  - intros b r mn mx f t p m st kids o SK EE FR P A B kids' m' O -> EP -> FK. assert (OB : okP B) by (apply (ok_suffix A); now rewrite <- EP). rewrite (skip_left _ _ _ EP) in SK. apply (left_nil _ OB) in SK.
    destruct (end_same P A B b mn m m' st kids kids' o EP FK EE) as (o' & EE' & OS). exists o'. split; [|exact OS]. apply er_end; [|exact EE']. rewrite (skip_right _ _ _ EP), SK. reflexivity.
  - intros b r mn mx f t p m st kids k s o SK _ IH EE FR P A B kids' m' O -> EP -> FK. assert (OB : okP B) by (apply (ok_suffix A); now rewrite <- EP). rewrite (skip_left _ _ _ EP) in SK.
    destruct (IH FR B OB (skip_left _ _ _ EP)) as (o1 & EV & OS). apply osame_fail in OS as (k' & ->).
    destruct (end_same P A B b mn _ (Nat.max m' (length (right A) + k')) (st && s) kids kids' o EP FK EE) as (o' & EE' & OS). exists o'. split; [|exact OS]. eapply er_stop; rewrite ?(skip_right _ _ _ EP); [|exact EV|exact EE'].
    intros RN. apply (right_nil _ OB) in RN. apply SK. now rewrite RN.
  - intros b r mn mx f t p m st kids n u k s o SK _ IH MX LK EE FR P A B kids' m' O -> EP -> FK. assert (OB : okP B) by (apply (ok_suffix A); now rewrite <- EP). rewrite (skip_left _ _ _ EP) in SK.
    destruct (IH FR B OB (skip_left _ _ _ EP)) as (o1 & EV & OS). apply osame_match in OS as (n' & u' & k' & -> & T & A2 & B2 & EB & -> & ->). pose proof (kids_add _ _ _ _ FK T) as FK2.
    assert (EP2 : P = (A ++ A2) ++ B2) by (rewrite <- app_assoc, <- EB; exact EP). rewrite <- app_length, <- left_app in EE.
    destruct (end_same P (A ++ A2) B2 b mn _ (Nat.max m' (length (right A) + k')) (st && s) _ _ o EP2 FK2 EE) as (o' & EE' & OS). exists o'. split; [|exact OS]. rewrite right_app, app_length in EE'.
    eapply er_full; rewrite ?(skip_right _ _ _ EP); [|exact EV|exact MX|rewrite <- (kids_length _ _ FK2); exact LK|exact EE']. intros RN. apply (right_nil _ OB) in RN. apply SK. now rewrite RN.
  - intros b r mn mx f t p m st kids n u k s o SK _ IH MX _ IS FR P A B kids' m' O -> EP -> FK. assert (OB : okP B) by (apply (ok_suffix A); now rewrite <- EP). rewrite (skip_left _ _ _ EP) in SK.
    destruct (IH FR B OB (skip_left _ _ _ EP)) as (o1 & EV & OS). apply osame_match in OS as (n' & u' & k' & -> & T & A2 & B2 & EB & -> & ->). pose proof (kids_add _ _ _ _ FK T) as FK2.
    assert (EP2 : P = (A ++ A2) ++ B2) by (rewrite <- app_assoc, <- EB; exact EP).
    destruct (IS FR P (A ++ A2) B2 (kids' ++ [n']) (Nat.max m' (length (right A) + k')) O eq_refl EP2) as (o' & SR & OS).
    + now rewrite left_app, app_length.
    + exact FK2.
    + exists o'. split; [|exact OS]. rewrite right_app, app_length in SR. eapply er_step; rewrite ?(skip_right _ _ _ EP); [|exact EV|rewrite <- (kids_length _ _ FK2); exact MX|exact SR]. intros RN. apply (right_nil _ OB) in RN. apply SK. now rewrite RN.
  (* alternatives *)
  - intros f t m st FR P m' O ->. exists [], m'. split; constructor.
  - intros r rules f t m st n u k s ml m2 st2 _ IH _ IA FR P m' O ->. destruct (IH (FR _ (or_introl eq_refl)) P O eq_refl) as (o1 & EV & OS). apply osame_match in OS as (n' & u' & k' & -> & T & C).
    destruct (IA (fun x H => FR x (or_intror H)) P (Nat.max m' k') O eq_refl) as (ml' & m2' & EA & MS). exists ((n', u') :: ml'), m2'. split; [eapply ea_match; eauto|]. constructor; [split; assumption|exact MS].
  - intros r rules f t m st k s ml m2 st2 _ IH _ IA FR P m' O ->. destruct (IH (FR _ (or_introl eq_refl)) P O eq_refl) as (o1 & EV & OS). apply osame_fail in OS as (k' & ->).
    destruct (IA (fun x H => FR x (or_intror H)) P (Nat.max m' k') O eq_refl) as (ml' & m2' & EA & MS). exists ml', m2'. split; [eapply ea_fail; eauto|exact MS].
  (* choices *)
  - intros b f t m st FR P m' O ->. eexists. split; [constructor|reflexivity].
  - intros b grp groups f t m st m2 st2 o _ IA _ IC FR P m' O ->. destruct (IA (fun x => FR grp x (or_introl eq_refl)) P m' O eq_refl) as (ml' & m2' & EA & MS). inversion MS; subst.
    destruct (IC (fun gr x H => FR gr x (or_intror H)) P m2' O eq_refl) as (o' & EC & OS). exists o'. split; [eapply ec_next; eauto|exact OS].
  - intros b grp groups f t m st ml m2 st2 n u _ IA SL FR P m' O ->. destruct (IA (fun x => FR grp x (or_introl eq_refl)) P m' O eq_refl) as (ml' & m2' & EA & MS).
    destruct (ml_strict _ _ _ _ _ O MS SL) as (n' & u' & SL' & T & C). eexists. split; [eapply ec_pick; eauto|]. split; [now apply top_one|auto].
  - intros b grp groups f t m st ml m2 st2 _ IA NE TI FR P m' O ->. destruct (IA (fun x => FR grp x (or_introl eq_refl)) P m' O eq_refl) as (ml' & m2' & EA & MS).
    eexists. split; [eapply ec_tie; [exact EA|exact (ml_nonempty _ _ _ MS NE)|exact (ml_tie _ _ _ O MS TI)]|reflexivity].
  (* excludes, escapes *)
  - intros t p m FR Q t' p' m' O L R. exists [], m'. split; constructor.
  - intros x excl t p m ml k st _ IA FR Q t' p' m' O L R. destruct (IA FR Q 0%nat O L) as (ml' & k' & EA & MS). exists ml', (Nat.max m' (p' + k')). split; [|exact MS]. eapply ex_alts. rewrite R. exact EA.
  - intros t p m EO Q t' p' m' O L R. exists m'. constructor.
  - intros e t p m k st _ IH EO Q t' p' m' O L R. destruct e; try contradiction. destruct EO as (_ & NW). destruct (IH (lf_char _ _ _ _ _ NW) Q O L) as (o1 & EV & OS). apply osame_fail in OS as (k' & ->).
    eexists. eapply ep_fail. rewrite R. exact EV.
  (* content *)
  - intros b on v cl esc excl t p m c m1 ml m2 _ IP _ IX NE FC FE FX P A B w1 c0 c' m' on' O -> EP -> -> SC T IR. destruct (place _ _ _ _ _ _ _ O EP IR) as (Q & OQ & LQ & RQ & D).
    destruct (IP FE Q (right P) (length (right A)) m' OQ LQ RQ) as (m1' & PL). destruct (IX FX Q (right P) (length (right A)) m1' OQ LQ RQ) as (ml' & m2' & EX & MS). eexists. split; [eapply sc_exclude; [exact PL|exact EX|exact (ml_nonempty _ _ _ MS NE)]|reflexivity].
  - intros b on v cl esc excl t p m c m1 m2 nc u k st _ IP _ IX _ IH FC FE FX P A B w1 c0 c' m' on' O -> EP -> -> SC T IR. destruct (place _ _ _ _ _ _ _ O EP IR) as (Q & OQ & LQ & RQ & D).
    destruct (IH FC Q OQ LQ) as (o1 & EV & OS). apply osame_match in OS as (nc' & u' & k' & -> & TC & C). rewrite <- RQ in EV.
    destruct D as [(-> & ->)|(w2 & w' & B1 & -> & -> & NE & (k0 & s0 & NC) & _)]; [|pose proof (ev_det _ _ _ _ _ _ EV NC); discriminate].
    destruct (IP FE B (right P) (length (right A)) m' OQ LQ RQ) as (m1' & PL). destruct (IX FX B (right P) (length (right A)) m1' OQ LQ RQ) as (ml' & m2' & EX & MS). inversion MS; subst.
    eexists. split; [eapply sc_close; [exact PL|exact EX|exact EV]|]. cbn [osame length]. rewrite Nat.add_0_r, app_nil_r. split; [|split; [reflexivity|]].
    + apply top_branch. constructor; [now apply top_tree|]. constructor; [now constructor|]. destruct v; [constructor|]. constructor; [now apply top_tree|constructor].
    + destruct v; [now apply (cut_at _ A B)|now apply (cut_more _ A B)].
  - intros b on v cl esc excl t p m c m1 m2 k st _ IP _ IX _ IH SK FC FE FX P A B w1 c0 c' m' on' O -> EP -> -> SC T IR. destruct (place _ _ _ _ _ _ _ O EP IR) as (Q & OQ & LQ & RQ & D). rewrite LQ in SK. apply (left_nil _ OQ) in SK. subst Q.
    destruct (IH FC [] OQ LQ) as (o1 & EV & OS). apply osame_fail in OS as (k' & ->). rewrite <- RQ in EV.
    destruct (IP FE [] (right P) (length (right A)) m' OQ LQ RQ) as (m1' & PL). destruct (IX FX [] (right P) (length (right A)) m1' OQ LQ RQ) as (ml' & m2' & EX & MS). inversion MS; subst.
    eexists. split; [eapply sc_eof; [exact PL|exact EX|exact EV|exact RQ]|reflexivity].
  - intros b on v cl esc excl t p m c m1 m2 k st x l o _ IP _ IX _ IH SK _ IS FC FE FX P A B w1 c0 c' m' on' O -> EP -> -> SC T IR. destruct (place _ _ _ _ _ _ _ O EP IR) as (Q & OQ & LQ & RQ & D). rewrite LQ in SK.
    assert (NO : forall Q' p', okP Q' -> skipn (length (left A) + length w1) (left P) = left Q' -> skipn p' (right P) = right Q' -> nothing cl esc excl (right P) p').
    { intros Q' p' OQ' LQ' RQ'. destruct (IH FC Q' OQ' LQ') as (o1 & EV & OS). apply osame_fail in OS as (k' & ->). split; [exists k', st; rewrite RQ'; exact EV|]. split; intros m0.
      - exact (IP FE Q' _ _ m0 OQ' LQ' RQ').
      - destruct (IX FX Q' _ _ m0 OQ' LQ' RQ') as (ml' & m2' & EX & MS). inversion MS; subst. eauto. }
    destruct Q as [|[y|w2 w'] Q]; [discriminate| |].
    + (* a rune *) cbn [left flat_map leftOf app] in SK. injection SK as -> _. destruct D as [(-> & <-)|(w2 & w' & B1 & _ & EQ & _)]; [|discriminate].
      destruct (NO _ _ OQ LQ RQ) as ((k' & s' & EV) & PL & EX). destruct (PL m') as (m1' & PM). destruct (EX m1') as (m2' & XM).
      destruct (IS FC FE FX P (A ++ [PRune x]) Q [] (c0 ++ [x]) (c' ++ [x]) (Nat.max (Nat.max m2' (length (right A) + k')) (S (length (right A)))) on' O eq_refl) as (o' & S' & OS).
      * rewrite <- app_assoc. exact EP.
      * rewrite left_app, app_length. cbn. lia.
      * now rewrite !app_nil_r.
      * now apply content_rune.
      * exact T.
      * now left.
      * exists o'. split; [|exact OS]. rewrite right_app, app_length in S'. cbn [right flat_map rightOf app length] in S'. rewrite Nat.add_1_r in S'. eapply sc_next; [exact PM|exact XM|exact EV|rewrite RQ; reflexivity|exact S'].
    + (* a run *) assert (DB : B = PRun (w1 ++ w2) w' :: Q). { destruct D as [(-> & <-)|(w2' & w'' & B1 & -> & EQ & _)]; [reflexivity|]. injection EQ as <- <- <-. reflexivity. }
      clear D. subst B. assert (OB : okP (PRun (w1 ++ w2) w' :: Q)) by (apply (ok_suffix A); now rewrite <- EP). assert (R : run w2 /\ run w') by (inversion OQ; auto). destruct R as ((N2 & F2) & N' & F').
      destruct w2 as [|y w2]; [congruence|]. cbn [left flat_map leftOf app] in SK. injection SK as -> _. pose proof (NO _ _ OQ LQ RQ) as N0. destruct w2 as [|y2 w2].
      * (* its last rune *)
        assert (EP2 : P = (A ++ [PRun (w1 ++ [x]) w']) ++ Q) by (rewrite <- app_assoc; exact EP).
        assert (H : forall m0, exists o', EvScan g b on' v cl esc excl (right P) (length (right A) + length w') m0 (c' ++ w') o' /\ osame P o o').
        { intros m0. destruct (IS FC FE FX P (A ++ [PRun (w1 ++ [x]) w']) Q [] (c0 ++ w1 ++ [x]) (c' ++ w') m0 on' O eq_refl EP2) as (o' & S' & OS).
          - rewrite left_app, app_length. cbn. rewrite app_nil_r, app_length. cbn. lia.
          - now rewrite app_nil_r, app_assoc.
          - pose proof (content_app _ _ [PRun (w1 ++ [x]) w'] SC) as CA. cbn [left right flat_map leftOf rightOf] in CA. rewrite !app_nil_r in CA. apply CA. constructor; [|constructor]. exact (ok_piece [] _ Q OB).
          - exact T.
          - now left.
          - exists o'. split; [|exact OS]. rewrite right_app, app_length in S'. cbn [right flat_map rightOf app] in S'. rewrite app_nil_r in S'. exact S'. }
        pose proof (pass b on' v cl esc excl (right P) (length (right A)) w' (right Q) P o c' RQ) as PA.
        destruct (PA) with (v2 := w') (v1 := @nil Z) (m := m') as (o' & S' & OS); [|exact H|reflexivity|].
        { intros v1 v2 EW NV. apply (NO (PRun [x] v2 :: Q)).
          - subst w'. apply (ok_shorter [] [x] v1 v2 Q OQ); congruence.
          - exact LQ.
          - rewrite <- skipn_twice, RQ. subst w'. cbn [right flat_map rightOf]. rewrite <- app_assoc, skipn_app, skipn_all, Nat.sub_diag. reflexivity. }
        exists o'. split; [|exact OS]. cbn [length] in S'. rewrite Nat.add_0_r, app_nil_r in S'. exact S'.
      * (* not its last *)
        apply (IS FC FE FX P A (PRun (w1 ++ x :: y2 :: w2) w' :: Q) (w1 ++ [x]) c0 c' m' on' O eq_refl EP); auto.
        -- rewrite app_length. cbn. lia.
        -- now rewrite app_assoc.
        -- right. exists (y2 :: w2), w', Q. rewrite <- app_assoc. split; [reflexivity|]. split; [discriminate|exact N0].
  (* escapes *)
  - intros b on v cl e excl t p m c ne ue ke se ml m2 n u o EV _ _ IX SL _ IS FC FE FX P A B w1 c0 c' m' on' O -> EP -> -> SC T IR.
    destruct (esc_step _ _ _ _ _ _ _ _ _ _ _ O EP FE IR EV) as (x & B2 & ne' & ke' & se' & -> & -> & EP2 & -> & OB2 & NR & L2 & R2 & _ & _ & EV'). cbn [length] in *. rewrite Nat.add_0_r in *.
    destruct (IX FX B2 (right P) (length (right A) + 1)%nat (Nat.max m' (length (right A) + ke')) OB2 L2 R2) as (ml' & m2' & EX & MS). destruct (ml_strict _ _ _ _ _ OB2 MS SL) as (n' & u' & SL' & TN & C2 & D2 & EB & -> & ->).
    destruct (IS FC FE FX P ((A ++ [PRune x]) ++ C2) D2 [] (c0 ++ left C2) (c' ++ right C2) m2' on' O eq_refl) as (o' & S' & OS).
    + rewrite <- app_assoc, <- EB. exact EP2.
    + rewrite !left_app, !app_length. cbn. lia.
    + rewrite !app_nil_r, L2, EB, left_app, firstn_app, firstn_all, Nat.sub_diag, app_nil_r. reflexivity.
    + apply content_app; [exact SC|]. apply ok_all in OB2. rewrite EB in OB2. now apply Forall_app in OB2.
    + exact T.
    + now left.
    + exists o'. split; [|exact OS]. rewrite !right_app, !app_length in S'. cbn [right flat_map rightOf app length] in S'. eapply sc_esc_exclude; [exact EV'|exact EX|exact SL'|].
      rewrite R2, EB, right_app, firstn_app, firstn_all, Nat.sub_diag, app_nil_r. exact S'.
  - intros b on v cl e excl t p m c ne ue ke se m2 nc u k st o EV _ _ IX _ IH _ IS FC FE FX P A B w1 c0 c' m' on' O -> EP -> -> SC T IR.
    destruct (esc_step _ _ _ _ _ _ _ _ _ _ _ O EP FE IR EV) as (x & B2 & ne' & ke' & se' & -> & -> & EP2 & -> & OB2 & NR & L2 & R2 & _ & _ & EV'). cbn [length] in *. rewrite Nat.add_0_r in *.
    destruct (IX FX B2 (right P) (length (right A) + 1)%nat (Nat.max m' (length (right A) + ke')) OB2 L2 R2) as (ml' & m2' & EX & MS). inversion MS; subst ml'.
    destruct (IH FC B2 OB2 L2) as (o1 & EC & OS). apply osame_match in OS as (nc' & u' & k' & -> & TN & C2 & D2 & EB & -> & ->).
    destruct (IS FC FE FX P ((A ++ [PRune x]) ++ C2) D2 [] (c0 ++ left C2) (c' ++ right C2) (Nat.max m2' (length (right A) + 1 + k')) on' O eq_refl) as (o' & S' & OS).
    + rewrite <- app_assoc, <- EB. exact EP2.
    + rewrite !left_app, !app_length. cbn. lia.
    + rewrite !app_nil_r, L2, EB, left_app, firstn_app, firstn_all, Nat.sub_diag, app_nil_r. reflexivity.
    + apply content_app; [exact SC|]. apply ok_all in OB2. rewrite EB in OB2. now apply Forall_app in OB2.
    + exact T.
    + now left.
    + exists o'. split; [|exact OS]. rewrite !right_app, !app_length in S'. cbn [right flat_map rightOf app length] in S'. eapply sc_esc_close; [exact EV'|exact EX|rewrite R2; exact EC|].
      rewrite R2. rewrite EB at 1. rewrite right_app, firstn_app, firstn_all, Nat.sub_diag, app_nil_r. exact S'.
  - intros b on v cl e excl t p m c ne ue ke se m2 k st y l o EV _ _ IX _ IH SK _ IS FC FE FX P A B w1 c0 c' m' on' O -> EP -> -> SC T IR.
    destruct (esc_step _ _ _ _ _ _ _ _ _ _ _ O EP FE IR EV) as (x & B2 & ne' & ke' & se' & -> & -> & EP2 & -> & OB2 & NR & L2 & R2 & FL & FRR & EV'). cbn [length] in *. rewrite Nat.add_0_r in *.
    destruct (IX FX B2 (right P) (length (right A) + 1)%nat (Nat.max m' (length (right A) + ke')) OB2 L2 R2) as (ml' & m2' & EX & MS). inversion MS; subst ml'.
    destruct (IH FC B2 OB2 L2) as (o1 & EC & OS). apply osame_fail in OS as (k' & ->). rewrite L2 in SK. destruct B2 as [|[z|w w'] B3]; [discriminate| |elim (NR w w' B3 eq_refl)]. cbn [left flat_map leftOf app] in SK. injection SK as -> _.
    destruct (IS FC FE FX P ((A ++ [PRune x]) ++ [PRune y]) B3 [] (c0 ++ [x; y]) (c' ++ [x; y]) (Nat.max (Nat.max m2' (length (right A) + 1 + k')) (S (length (right A) + 1))) on' O eq_refl) as (o' & S' & OS).
    + rewrite <- app_assoc. exact EP2.
    + rewrite !left_app, !app_length. cbn. lia.
    + rewrite FL, !app_nil_r. reflexivity.
    + exact (content_app _ _ [PRune x; PRune y] SC (Forall_cons (PRune x) I (Forall_cons (PRune y) I (Forall_nil _)))).
    + exact T.
    + now left.
    + exists o'. split; [|exact OS]. rewrite !right_app, !app_length in S'. cbn [right flat_map rightOf app length] in S'. eapply sc_esc_other; [exact EV'|exact EX|rewrite R2; exact EC|rewrite R2; reflexivity|].
      rewrite FRR. rewrite <- Nat.add_1_r at 1. exact S'.
  - intros b on v cl e excl t p m c ne ue ke se m2 k st EV _ _ IX _ IH SK FC FE FX P A B w1 c0 c' m' on' O -> EP -> -> SC T IR.
    destruct (esc_step _ _ _ _ _ _ _ _ _ _ _ O EP FE IR EV) as (x & B2 & ne' & ke' & se' & -> & -> & EP2 & -> & OB2 & NR & L2 & R2 & _ & _ & EV'). cbn [length] in *. rewrite Nat.add_0_r in *.
    destruct (IX FX B2 (right P) (length (right A) + 1)%nat (Nat.max m' (length (right A) + ke')) OB2 L2 R2) as (ml' & m2' & EX & MS). inversion MS; subst ml'.
    destruct (IH FC B2 OB2 L2) as (o1 & EC & OS). apply osame_fail in OS as (k' & ->). rewrite L2 in SK. apply (left_nil _ OB2) in SK. subst B2.
    eexists. split; [eapply sc_esc_eof; [exact EV'|exact EX|rewrite R2; exact EC|exact R2]|reflexivity].
Qed.
End Grammar.
End Layout.
