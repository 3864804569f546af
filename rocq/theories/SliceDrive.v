(** The drivers on slices, and what [refines] means without its bookkeeping. *)
From Verif Require Import Base Stream StreamFacts Node Rule Grammar Slices SliceFacts SliceEval.

Definition namedIn (F : list nat) (h : heap) (a : list Z * sresult) (b : list Z * result) : Prop := fst a = fst b /\ sameR F h (snd a) (snd b).
Lemma named_step n h F h' F' l m : step n h F h' F' -> Forall2 (namedIn F h) l m -> Forall2 (namedIn F' h') l m.
Proof. intros S A. induction A as [|x y l m [E R] A IH]; constructor; auto. split; auto. eapply sameR_step; eauto. Qed.

Section Refine.
Variable grow : heap -> slice -> list Z -> nat.
Notation refines := (@refines _ _).

Ltac carry S :=
  repeat match type of S with step _ ?h ?F ?h' ?F' =>
    match goal with
    | H : sameS F h _ _ |- _ => apply (sameS_step _ _ _ _ _ _ _ S) in H
    | H : sameT F h _ _ |- _ => apply (sameT_step _ _ _ _ _ _ _ S) in H
    | H : sameN F h _ _ |- _ => apply (sameN_step _ _ _ _ _ _ _ S) in H
    | H : sameR F h _ _ |- _ => apply (sameR_step _ _ _ _ _ _ _ S) in H
    | H : Forall2 (sameN F h) _ _ |- _ => apply (kids_step _ _ _ _ _ _ _ S) in H
    | H : Forall2 (namedIn F h) _ _ |- _ => apply (named_step _ _ _ _ _ _ _ S) in H
    end
  end.
Ltac carryO S :=
  repeat match type of S with step _ ?h ?F ?h' ?F' =>
    match goal with H : own _ F h _ _ |- _ => apply (own_call _ _ _ _ _ _ _ S) in H end
  end.
Ltac fields R := let E1 := fresh "E" in let E2 := fresh "E" in let E3 := fresh "E" in
  destruct (sameR_rest _ _ _ _ R) as (E1 & E2 & E3); rewrite ?E1, ?E2, ?E3; clear E1 E2 E3.

Lemma newStream_ref n h F text : (n <= length h)%nat -> length F = length h ->
  refines n h F (hNewStream grow text) (Ok (newStream text)) (fun h' F' a b => sameT F' h' a b).
Proof.
  intros N L. unfold hNewStream. eapply ref_pure; [apply ref_add; [exact N|exact L|apply own_nil]|]. intros h1 F1 c S1 [O1 _]. cbn [app] in O1. destruct (step_len _ _ _ _ _ S1) as [L1 _].
  destruct (publish _ _ _ _ _ L1 O1) as (F2 & S2 & X2 & _). apply ref_ret with F2; auto. destruct (fine_same _ _ _ _ X2) as [A B]. split; [|split; [constructor|exact A]].
  unfold streamIn, newStream. cbn. now rewrite B.
Qed.
Lemma evalRule_ref fuel g name sample h F : length F = length h -> refines (length h) h F (hEvalRule grow fuel g name sample) (evalRule fuel g name sample) (fun h' F' a b => sameR F' h' a b).
Proof.
  intros L. unfold hEvalRule, evalRule. destruct (getRule g name) as [r|].
  - eapply ref_pure; [apply newStream_ref; eauto|]. intros h1 F1 cs S1 T1. cbv beta in T1. destruct (step_len _ _ _ _ _ S1) as [L1 N1].
    eapply ref_call; [exact N1|apply eval_ref; eauto|]. intros h2 F2 [x ss2] [r2 s2] S2 [R2 T2]. cbn [fst snd] in *. destruct (step_len _ _ _ _ _ S2) as [L2 N2]. apply ref_ret with F2; [now apply step_refl|]. exact R2.
  - apply ref_ret with F; [now apply step_refl|]. apply sameR_make; auto; apply sameS_nil.
Qed.

Lemma embedLoop_ref n lf fuel g r : forall h F cs s txt txt' kids kids', (n <= length h)%nat -> length F = length h -> sameT F h cs s -> own n F h txt txt' -> Forall2 (sameN F h) kids kids' ->
  refines n h F (hEmbedLoop grow lf fuel g r cs txt kids) (embedLoop lf fuel g r s txt' kids') (fun h' F' a b => Forall2 (sameN F' h') a b).
Proof.
  induction lf as [|lf IH]; intros h F cs s txt txt' kids kids' N L T O K; cbn [hEmbedLoop embedLoop]; [exact Logic.I|].
  eapply ref_call; [exact N|apply eval_ref; eauto|]. intros h1 F1 [x ss1] [r1 s1] S1 [R1 T1]. cbn [fst snd] in *. carry S1. carryO S1. destruct (step_len _ _ _ _ _ S1) as [L1 N1]. cbv zeta.
  assert (T2 := sameT_wrap _ _ _ _ _ _ T1 (sameR_unused _ _ _ _ R1)).
  assert (FL : forall F2 h2, sameS F2 h2 txt txt' -> Forall2 (sameN F2 h2) kids kids' ->
    Forall2 (sameN F2 h2) (if (0 <? sl_len txt)%nat then hTextNode txt :: kids else kids) (if nonempty txt' then textNode txt' :: kids' else kids')).
  { intros F2 h2 X KK. rewrite (sameS_len _ _ _ _ X). destruct txt' as [|c txt']; cbn; auto. constructor; auto. apply (sameN_make F2 h2 TText (mkBase [95] false false false) txt (c :: txt') [] [] None false); auto. }
  assert (ND := sameR_node _ _ _ _ R1). destruct (a_node x) as [y|].
  - destruct ND as (z & -> & ND). destruct (publish _ _ _ _ _ L1 O) as (F2 & S2 & X2 & _). carry S2. eapply ref_ghost; [eapply step_weak; [|exact S2]; lia|]. destruct (step_len _ _ _ _ _ S2) as [L2 _].
    apply IH; auto; [lia|apply own_nil].
  - rewrite ND. apply ref_next with (prepend s1 (r_unused r1)); auto. intros ss3 T3. cbv beta iota. destruct (next (prepend s1 (r_unused r1))) as [c s3]. cbn [fst snd] in *.
    destruct (c =? EOFChar).
    + destruct (publish _ _ _ _ _ L1 O) as (F2 & S2 & X2 & _). carry S2. apply ref_ret with F2; auto. apply Forall2_rev'. auto.
    + eapply ref_pure; [apply ref_add; [|exact L1|exact O]; lia|]. intros h4 F4 t4 S4 [O4 _]. cbv beta in O4. carry S4. destruct (step_len _ _ _ _ _ S4) as [L4 N4]. apply IH; auto. lia.
Qed.
Lemma embed_ref lf fuel g name sample h F : length F = length h ->
  match hEvalEmbed grow lf fuel g name sample, evalEmbed lf fuel g name sample with
  | Some m, Some o => refines (length h) h F m o (fun h' F' a b => sameN F' h' a b)
  | None, None => True
  | _, _ => False
  end.
Proof.
  intros L. unfold hEvalEmbed, evalEmbed. destruct (getRule g name) as [r|]; [|exact Logic.I].
  eapply ref_pure; [apply newStream_ref; eauto|]. intros h1 F1 cs S1 T1. cbv beta in T1. destruct (step_len _ _ _ _ _ S1) as [L1 N1].
  eapply ref_bind; [apply embedLoop_ref; eauto; apply own_nil|]. intros h2 F2 k k' S2 K2. cbv beta in K2. destruct (step_len _ _ _ _ _ S2) as [L2 N2]. apply ref_ret with F2; [now apply step_refl|].
  apply (sameN_make F2 h2 TEmbed (mkBase name false false false) nilS [] k k' None false); auto. apply sameS_nil.
Qed.

Lemma reorder_same {A B} (P : A -> B -> Prop) p : forall l m, Forall2 P l m -> Forall2 P (reorder p l) (reorder p m).
Proof.
  intros l m K. induction p as [|i p IH]; cbn [reorder flat_map]; [constructor|]. apply Forall2_app; auto.
  assert (G : match nth_error l i, nth_error m i with Some a, Some b => P a b | None, None => True | _, _ => False end).
  { clear IH. revert i. induction K; intros [|i]; cbn; auto. apply IHK. }
  destruct (nth_error l i), (nth_error m i); try contradiction; auto.
Qed.
Definition rootsIn (h : heap) (F : list nat) (a : list (list Z * sresult) * list (list Z * eerr) * slice * sstream) (b : list (list Z * result) * list (list Z * eerr) * list Z * stream) : Prop :=
  let '(m, e, mr, ss) := a in let '(m', e', mr', s) := b in Forall2 (namedIn F h) m m' /\ e = e' /\ sameS F h mr mr' /\ sameT F h ss s.
Lemma roots_ref n fuel g order : forall h F cs s f mr mr' m m' e, (n <= length h)%nat -> length F = length h -> sameT F h cs s -> sameS F h mr mr' -> Forall2 (namedIn F h) m m' ->
  refines n h F (hRoots grow fuel g order cs f mr m e) (rootsLoop fuel g order s f mr' m' e) rootsIn.
Proof.
  induction order as [|[nm r] order IH]; intros h F cs s f mr mr' m m' e N L T M A; cbn [hRoots rootsLoop].
  - apply ref_ret with F; [now apply step_refl|]. exact (conj (Forall2_rev' _ _ _ A) (conj eq_refl (conj M T))).
  - eapply ref_call; [exact N|apply eval_ref; [exact L|now apply sameT_wrap]|]. intros h1 F1 [res ss2] [resl s2] S1 [R1 T1]. cbn [fst snd] in *. cbv zeta. carry S1. destruct (step_len _ _ _ _ _ S1) as [L1 N1].
    assert (RD := sameR_read _ _ _ _ R1). rewrite (sameS_len _ _ _ _ M), (sameS_len _ _ _ _ RD). fields R1.
    apply IH; auto; [lia|destruct (length mr' <? length (r_read resl))%nat; auto|].
    assert (ND := sameR_node _ _ _ _ R1). destruct (a_node res) as [x|]; [destruct ND as (y & -> & ND); constructor; auto; split; auto|rewrite ND; auto].
Qed.
Definition rawPicked (F : list nat) (h : heap) (a : sresult * sresult + option sresult) (b : result * result + option result) : Prop :=
  match a, b with
  | inl (x, y), inl (x', y') => sameR F h x x' /\ sameR F h y y'
  | inr (Some x), inr (Some x') => sameR F h x x'
  | inr None, inr None => True
  | _, _ => False
  end.
Lemma rawSel_same F h l l' : Forall2 (sameR F h) l l' -> forall k x y, rawPicked F h (inr x) (inr y) -> rawPicked F h (hRawSel k x l) (rawSel k y l').
Proof.
  intros A. induction A as [|a b l l' R A IH]; intros k x y P; cbn [hRawSel rawSel]; auto. rewrite (sameR_count _ _ _ _ R).
  destruct x as [x|], y as [y|]; cbn [rawPicked] in P; try contradiction.
  - destruct (countUsed b =? k); [split; auto|]. destruct (countUsed b >=? k); now apply IH.
  - destruct (countUsed b >=? k); now apply IH.
Qed.
Lemma rawSelect_same F h l l' : Forall2 (sameR F h) l l' -> rawPicked F h (hRawSelect l) (rawSelect l').
Proof.
  intros A. destruct A as [|a b l l' R A]; [exact Logic.I|]. destruct A as [|a2 b2 l l' R2 A]; [exact R|]. cbn [hRawSelect rawSelect]. apply rawSel_same; [|exact Logic.I]. constructor; [exact R|]. constructor; [exact R2|exact A].
Qed.
Definition rawSame (h : heap) (F : list nat) (a : hRawRes * sstream) (b : rawRes * stream) : Prop :=
  rawIn h (fst a) = fst b /\ sameT F h (snd a) (snd b) /\ match fst a with HRawOk l => Forall (okN F h) l | _ => True end.
Lemma rawLoop_ref n lf fuel g o : forall round h F ss s un un' f nodes nodes', (n <= length h)%nat -> length F = length h -> sameT F h ss s -> sameS F h un un' -> Forall2 (sameN F h) nodes nodes' ->
  refines n h F (hRawLoop grow lf fuel g o round ss un f nodes) (rawLoop lf fuel g (ordersOf o) round s un' f nodes') rawSame.
Proof.
  induction lf as [|lf IH]; intros round h F ss s un un' f nodes nodes' N L T U K; cbn [hRawLoop rawLoop]; [exact Logic.I|]. cbv zeta.
  assert (T1 := sameT_wrap _ _ _ _ _ _ T U). apply ref_peek with (prepend s un'); auto. destruct (peek (prepend s un') =? EOFChar).
  { apply ref_ret with F; [now apply step_refl|]. split; [|split; [exact T|]]; cbn [fst].
    - destruct K as [|x y l m X K]; [reflexivity|]. apply (Forall2_cons _ _ X) in K. cbn [rawIn]. f_equal. apply Forall2_rev' in K. induction K as [|a b l0 m0 [E _] K IK]; cbn; auto. now rewrite E, IK.
    - destruct K as [|x y l m X K]; [exact Logic.I|]. apply (Forall2_cons _ _ X) in K. apply Forall2_rev' in K. induction K as [|a b l0 m0 [_ OK] K IK]; constructor; auto. }
  eapply ref_bind; [apply roots_ref; eauto; apply sameS_nil|]. intros h1 F1 [[[m e] mr] ss1] [[[m' e'] mr'] s1] S1 (A1 & <- & M1 & T2). carry S1. destruct (step_len _ _ _ _ _ S1) as [L1 N1].
  rewrite (sameT_deep _ _ _ _ T). assert (T3 := sameT_peel _ _ _ _ (deep ss) T2). cbn [o_matched o_desc o_errors ordersOf].
  assert (A2 : Forall2 (sameR F1 h1) (List.map snd (reorder (h_matched o round) m)) (List.map snd (reorder (h_matched o round) m'))).
  { apply (reorder_same _ (h_matched o round)) in A1. induction A1 as [|a b l0 m0 [_ R] A1 IA]; cbn; constructor; auto. }
  assert (P := rawSelect_same _ _ _ _ A2). destruct (hRawSelect _) as [[x y]|[x|]], (rawSelect _) as [[x' y']|[x'|]]; cbn [rawPicked] in P; try contradiction.
  - destruct P as [(<- & _) (<- & _)]. apply ref_look, ref_look. apply ref_ret with F1; [now apply step_refl|]. split; [reflexivity|split; [exact T3|exact Logic.I]].
  - assert (ND := sameR_node _ _ _ _ P). destruct (a_node x) as [y|]; [|rewrite ND; exact Logic.I]. destruct ND as (z & -> & ND). rewrite (sameR_count _ _ _ _ P). fields P.
    eapply ref_bind; [apply ref_from; eauto|]. intros h2 F2 u2 u2' S2 U2. cbv beta in U2. carry S2. destruct (step_len _ _ _ _ _ S2) as [L2 N2]. apply IH; auto. lia.
  - apply ref_ret with F1; [now apply step_refl|]. split; [reflexivity|split; [exact T3|exact Logic.I]].
Qed.
Lemma raw_ref lf fuel g o ss s h F : length F = length h -> sameT F h ss s ->
  refines (length h) h F (hEvalRaw grow lf fuel g o ss) (evalRaw lf fuel g (ordersOf o) s) rawSame.
Proof.
  intros L T. unfold hEvalRaw, evalRaw. apply ref_peek with s; auto. destruct (peek s =? EOFChar).
  - apply ref_ret with F; [now apply step_refl|]. split; [reflexivity|split; [exact T|exact Logic.I]].
  - apply rawLoop_ref; auto. apply sameS_nil.
Qed.
End Refine.

(** ** Without bookkeeping *)
(** The slice lies within its array. *)
Definition inside (h : heap) (s : slice) : Prop := sl_len s = 0%nat \/ (sl_off s + sl_len s <= length (array h (sl_arr s)))%nat.
Definition within (h : heap) (s : sstream) : Prop := Forall (fun x => inside h (fst x)) (ss_layers s) /\ inside h (ss_chars s).
Definition whole (h : heap) : list nat := List.map (@length Z) h.
Lemma whole_seen h a : seen (whole h) a = length (array h a).
Proof. unfold seen, whole, array. exact (map_nth (@length Z) h [] a). Qed.
Lemma inside_fine h s : inside h s -> fine (whole h) h s.
Proof.
  intros I. split; [reflexivity|]. split.
  - unfold cells. destruct I as [E|I]; [now rewrite E|]. rewrite firstn_length, skipn_length. lia.
  - rewrite whole_seen. destruct I; auto.
Qed.
Lemma within_same h s : within h s -> sameT (whole h) h s (streamIn h s).
Proof. intros [A B]. split; [reflexivity|]. split; [|now apply inside_fine]. eapply Forall_impl; [|exact A]. intros x. apply inside_fine. Qed.
Lemma step_old h F h' F' : step (length h) h F h' F' -> exists more, h' = h ++ more.
Proof.
  intros (_ & _ & L & S & _). exists (skipn (length h) h'). rewrite <- (firstn_skipn (length h) h') at 1. f_equal. apply nth_ext with (d := []) (d' := []).
  - rewrite firstn_length. lia.
  - intros a A. rewrite firstn_length in A. destruct (S a) as [E _]; [lia|]. unfold array in E. rewrite <- E.
    rewrite <- (firstn_skipn (length h) h') at 2. rewrite app_nth1; auto. rewrite firstn_length. lia.
Qed.
Lemma refines_plain {A B} (view : heap -> A -> B) h F (m : prog A) (o : outcome B) (R : heap -> list nat -> A -> B -> Prop) : (forall h' F' a b, R h' F' a b -> view h' a = b) -> refines (length h) h F m o R ->
  match m h with
  | Ok (a, h') => o = Ok (view h' a) /\ exists more, h' = h ++ more
  | Panic => o = Panic
  | OutOfFuel => o = OutOfFuel
  end.
Proof.
  intros V H. unfold refines in H. destruct (m h) as [[a h']| |], o; try contradiction; auto. destruct H as (F' & S & X). split; [|eapply step_old; eauto]. f_equal. symmetry. eapply V; eauto.
Qed.
Lemma sameR_view F h x r : sameR F h x r -> resultIn h x = r.
Proof. intros R. apply R. Qed.

Lemma slices_eval grow fuel g r s f h : within h s ->
  match hEval grow fuel g r s f h with
  | Ok (x, s', h') => eval fuel g r (streamIn h s) f = Ok (resultIn h' x, streamIn h' s') /\ exists more, h' = h ++ more
  | Panic => eval fuel g r (streamIn h s) f = Panic
  | OutOfFuel => eval fuel g r (streamIn h s) f = OutOfFuel
  end.
Proof.
  intros W. assert (H := eval_ref grow g fuel r s (streamIn h s) f h (whole h) (map_length _ _) (within_same h s W)).
  apply (refines_plain (fun h' a => (resultIn h' (fst a), streamIn h' (snd a)))) in H.
  - destruct (hEval grow fuel g r s f h) as [[[x s'] h']| |]; auto.
  - intros h' F' [x s'] [r' t'] [[A _] [B _]]. cbn in *. congruence.
Qed.
Lemma slices_rule grow fuel g name sample h :
  match hEvalRule grow fuel g name sample h with
  | Ok (x, h') => evalRule fuel g name sample = Ok (resultIn h' x) /\ exists more, h' = h ++ more
  | Panic => evalRule fuel g name sample = Panic
  | OutOfFuel => evalRule fuel g name sample = OutOfFuel
  end.
Proof.
  assert (H := evalRule_ref grow fuel g name sample h (whole h) (map_length _ _)). apply (refines_plain resultIn) in H; auto. intros h' F' a b. apply sameR_view.
Qed.
Lemma slices_embed grow lf fuel g name sample h :
  match hEvalEmbed grow lf fuel g name sample with
  | Some m => match m h with
    | Ok (x, h') => evalEmbed lf fuel g name sample = Some (Ok (nodeIn h' x)) /\ exists more, h' = h ++ more
    | Panic => evalEmbed lf fuel g name sample = Some Panic
    | OutOfFuel => evalEmbed lf fuel g name sample = Some OutOfFuel
    end
  | None => evalEmbed lf fuel g name sample = None
  end.
Proof.
  assert (H := embed_ref grow lf fuel g name sample h (whole h) (map_length _ _)). destruct (hEvalEmbed grow lf fuel g name sample) as [m|], (evalEmbed lf fuel g name sample) as [o|]; try contradiction; auto.
  apply (refines_plain nodeIn) in H; [|intros h' F' a b [E _]; exact E]. destruct (m h) as [[x h']| |]; [destruct H as [-> M]; auto|now rewrite H|now rewrite H].
Qed.
Lemma slices_raw grow lf fuel g o s h : within h s ->
  match hEvalRaw grow lf fuel g o s h with
  | Ok (x, s', h') => evalRaw lf fuel g (ordersOf o) (streamIn h s) = Ok (rawIn h' x, streamIn h' s') /\ exists more, h' = h ++ more
  | Panic => evalRaw lf fuel g (ordersOf o) (streamIn h s) = Panic
  | OutOfFuel => evalRaw lf fuel g (ordersOf o) (streamIn h s) = OutOfFuel
  end.
Proof.
  intros W. assert (H := raw_ref grow lf fuel g o s (streamIn h s) h (whole h) (map_length _ _) (within_same h s W)).
  apply (refines_plain (fun h' a => (rawIn h' (fst a), streamIn h' (snd a)))) in H.
  - destruct (hEvalRaw grow lf fuel g o s h) as [[[x s'] h']| |]; auto.
  - intros h' F' [x s'] [r' t'] (A & [B _] & _). cbn in *. congruence.
Qed.
