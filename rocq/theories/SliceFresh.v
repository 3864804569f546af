(** The [Chars] of the nodes that the evaluator returns lie in arrays of their own. *)
From Coq Require Import Permutation.
From Verif Require Import Base Stream StreamFacts Node Rule Grammar Slices SliceFacts SliceEval.

(** Arrays stay and do not shrink. *)
Definition grows (h h' : heap) : Prop := (length h <= length h')%nat /\ forall a, (length (array h a) <= length (array h' a))%nat.
Lemma grows_refl h : grows h h.
Proof. split; auto. Qed.
Lemma grows_trans h h1 h2 : grows h h1 -> grows h1 h2 -> grows h h2.
Proof. intros [A B] [C D]. split; [lia|]. intros a. specialize (B a). specialize (D a). lia. Qed.

Fixpoint slicesOf (n : snode) : list slice := m_chars n :: flat_map slicesOf (m_kids n).
Definition slicesOfAll (l : list snode) : list slice := flat_map slicesOf l.
Definition solid (h : heap) (s : slice) : Prop :=
  (sl_cap s = 0 /\ sl_len s = 0 \/ sl_off s = 0 /\ sl_arr s < length h /\ 0 < sl_cap s /\ sl_len s <= sl_cap s <= length (array h (sl_arr s)))%nat.
Definition arrs (l : list slice) : list nat := flat_map (fun s => if (sl_cap s =? 0)%nat then [] else [sl_arr s]) l.
(** Each of these slices has an array of its own, got since there were [lo]. *)
Definition fresh (lo : nat) (h : heap) (l : list slice) : Prop :=
  Forall (solid h) l /\ NoDup (arrs l) /\ Forall (fun a => (lo <= a)%nat) (arrs l).

Lemma solid_grows h h' s : grows h h' -> solid h s -> solid h' s.
Proof. intros [A B] [S|(S1 & S2 & S3 & S4)]; [left; auto|right]. specialize (B (sl_arr s)). repeat split; auto; lia. Qed.
Lemma fresh_grows lo h h' l : grows h h' -> fresh lo h l -> fresh lo h' l.
Proof. intros G (A & B & C). split; [|split; auto]. eapply Forall_impl; [|exact A]. intros s. now apply solid_grows. Qed.
Lemma fresh_weak lo lo' h l : (lo' <= lo)%nat -> fresh lo h l -> fresh lo' h l.
Proof. intros L (A & B & C). split; [auto|split; auto]. eapply Forall_impl; [|exact C]. cbn. intros; lia. Qed.
Lemma fresh_nil lo h : fresh lo h [].
Proof. repeat split; constructor. Qed.
Lemma fresh_none lo h l : fresh lo h l -> fresh lo h (nilS :: l).
Proof. intros (A & B & C). split; [|split; auto]. constructor; auto. left. auto. Qed.
Lemma arrs_app l m : arrs (l ++ m) = arrs l ++ arrs m.
Proof. apply flat_map_app. Qed.
Lemma arrs_perm l m : Permutation l m -> Permutation (arrs l) (arrs m).
Proof. intros P. now apply Permutation_flat_map. Qed.
Lemma fresh_perm lo h l m : Permutation l m -> fresh lo h l -> fresh lo h m.
Proof.
  intros P (A & B & C). split; [|split].
  - now apply (Permutation_Forall P).
  - exact (Permutation_NoDup (arrs_perm _ _ P) B).
  - now apply (Permutation_Forall (arrs_perm _ _ P)).
Qed.
Lemma solid_below h l : Forall (solid h) l -> Forall (fun a => (a < length h)%nat) (arrs l).
Proof.
  intros A. induction A as [|s l S A IH]; cbn; [constructor|]. destruct (Nat.eqb_spec (sl_cap s) 0); cbn; auto. constructor; auto. destruct S as [S|S]; lia.
Qed.
(** What was made before and what is made now. *)
Lemma fresh_both lo h h' l m : (lo <= length h)%nat -> grows h h' -> fresh lo h l -> fresh (length h) h' m -> fresh lo h' (l ++ m).
Proof.
  intros L G X (D & E & F). assert (BL := solid_below _ _ (proj1 X)). apply (fresh_grows _ _ _ _ G) in X. destruct X as (A & B & C). split; [|split].
  - apply Forall_app. auto.
  - rewrite arrs_app. clear A C D. revert B BL. generalize (arrs l) as x. induction x as [|a x IH]; intros B BL; cbn; auto. inversion B; subst. inversion BL; subst. constructor; auto.
    intros Q. apply in_app_or in Q. destruct Q as [Q|Q]; auto. rewrite Forall_forall in F. specialize (F _ Q). cbn in F. lia.
  - rewrite arrs_app. apply Forall_app. split; auto. eapply Forall_impl; [|exact F]. cbn. intros; lia.
Qed.
Lemma fresh_sub lo h l m : fresh lo h (l ++ m) -> fresh lo h l /\ fresh lo h m.
Proof.
  intros (A & B & C). rewrite arrs_app in B, C. apply Forall_app in A, C. destruct A, C. split; (split; [auto|split; auto]).
  - clear - B. induction (arrs l) as [|a x IH]; [constructor|]. cbn in B. inversion B; subst. constructor; auto. intros Q. apply H1. apply in_or_app. auto.
  - clear - B. induction (arrs l) as [|a x IH]; auto. cbn in B. inversion B; subst. auto.
Qed.
Lemma slices_rev l : Permutation (slicesOfAll l) (slicesOfAll (rev l)).
Proof. apply Permutation_flat_map. apply Permutation_rev. Qed.

(** ** Streams keep their slices *)
Definition keeps (s s' : sstream) : Prop := ss_chars s' = ss_chars s /\ exists ls, List.map fst (ss_layers s') = ls ++ List.map fst (ss_layers s).
Lemma keeps_refl s : keeps s s.
Proof. split; auto. exists []. reflexivity. Qed.
Lemma keeps_trans a b c : keeps a b -> keeps b c -> keeps a c.
Proof. intros [A [x X]] [B [y Y]]. split; [congruence|]. exists (y ++ x). now rewrite Y, X, app_assoc. Qed.
Lemma keeps_wrap a b p : keeps a b -> keeps a (wrap b p).
Proof. intros [A [x X]]. unfold wrap. destruct (sl_len p =? 0)%nat; [split; eauto|]. split; auto. exists (p :: x). cbn. now rewrite X. Qed.
Lemma keeps_wrap' b p : keeps b (wrap b p).
Proof. apply keeps_wrap, keeps_refl. Qed.
Lemma keeps_peel a b : keeps a b -> keeps a (peel (deep a) b).
Proof.
  intros [A [x X]]. split; auto. exists []. cbn [peel ss_layers app]. rewrite <- skipn_map. unfold deep.
  assert (E : length (ss_layers b) = (length x + length (ss_layers a))%nat) by (rewrite <- (map_length fst (ss_layers b)), X, app_length, map_length; auto).
  rewrite E, X. replace (length x + length (ss_layers a) - length (ss_layers a))%nat with (length x) by lia. rewrite skipn_app, skipn_all, Nat.sub_diag. reflexivity.
Qed.
Lemma combine_fst (l : list slice) (m : list nat) : length l = length m -> List.map fst (combine l m) = l.
Proof. revert m. induction l as [|x l IH]; intros [|y m] E; cbn in *; try lia; auto. now rewrite IH by lia. Qed.
Lemma keeps_moved h s x : sameSlices (streamIn h s) x -> keeps s (moved s x).
Proof.
  intros [E _]. split; auto. exists []. cbn [moved ss_layers app]. apply combine_fst. rewrite !map_length. rewrite <- (map_length fst (layers x)), E, !map_length. cbn. now rewrite map_length.
Qed.

(** ** Programs *)
Definition post {A} (m : prog A) (h : heap) (Q : A -> heap -> Prop) : Prop :=
  match m h with Ok (a, h') => grows h h' /\ Q a h' | _ => True end.
Lemma post_bind {A B} (m : prog A) (k : A -> prog B) h R Q :
  post m h R -> (forall a h', grows h h' -> R a h' -> post (k a) h' Q) -> post (pbind m k) h Q.
Proof.
  unfold post, pbind. intros H K. destruct (m h) as [[a h1]| |]; cbn [bind]; auto. destruct H as [G H]. specialize (K _ _ G H).
  destruct (k a h1) as [[b h2]| |]; auto. destruct K as [G2 K]. split; auto. eapply grows_trans; eauto.
Qed.
Lemma post_ret {A} (a : A) h (Q : A -> heap -> Prop) : Q a h -> post (ret a) h Q.
Proof. intros H. split; auto. apply grows_refl. Qed.
Lemma post_look {A B} (f : heap -> A) (k : A -> prog B) h Q : post (k (f h)) h Q -> post (pbind (look f) k) h Q.
Proof. auto. Qed.
Lemma post_impl {A} (m : prog A) h (R Q : A -> heap -> Prop) : post m h R -> (forall a h', grows h h' -> R a h' -> Q a h') -> post m h Q.
Proof. unfold post. intros H K. destruct (m h) as [[a h1]| |]; auto. destruct H. auto. Qed.
Definition any {A} (_ : A) (_ : heap) : Prop := True.

Section Alloc.
Variable grow : heap -> slice -> list Z -> nat.

Lemma write_grows h a off l : grows h (write h a off l).
Proof.
  split.
  - unfold write. rewrite app_length. cbn [length]. rewrite firstn_length, skipn_length. lia.
  - intros x. destruct (Nat.lt_ge_cases a (length h)) as [L|L].
    + rewrite (array_write h a off l x L). destruct (Nat.eqb_spec x a) as [->|]; auto. rewrite !app_length, firstn_length, skipn_length. unfold array. lia.
    + unfold write, array. rewrite firstn_all2 by auto. destruct (Nat.lt_ge_cases x (length h)); [now rewrite app_nth1|]. rewrite (nth_overflow h) by auto. cbn. lia.
Qed.
Lemma app_grows h more : grows h (h ++ more).
Proof.
  split; [rewrite app_length; lia|]. intros a. unfold array. destruct (Nat.lt_ge_cases a (length h)); [now rewrite app_nth1|]. rewrite (nth_overflow h) by auto. cbn. lia.
Qed.
Lemma post_add s l h : post (add grow s l) h any.
Proof.
  unfold post, add. destruct (negb (nonempty l)); [split; [apply grows_refl|exact Logic.I]|]. destruct (_ <=? _)%nat; (split; [|exact Logic.I]); [apply write_grows|apply app_grows].
Qed.
Lemma post_addS s t h : post (addS grow s t) h any.
Proof. unfold addS. apply post_look, post_add. Qed.
Lemma post_addF lo s l h : (lo <= length h)%nat -> fresh lo h [s] -> post (add grow s l) h (fun s' h' => fresh lo h' [s']).
Proof.
  intros L (A & _ & C). assert (PA := post_add s l h). unfold post in *. unfold add in *. destruct l as [|x l0]; cbn [negb nonempty] in *; [split; [apply PA|]; split; [exact A|]; split; [|exact C]; cbn; destruct (_ =? _)%nat; repeat constructor; intros []|].
  set (l := x :: l0) in *. assert (NE : (0 < length l)%nat) by (cbn; lia). clearbody l. inversion A as [|? ? S _]; subst. destruct (_ <=? _)%nat eqn:G.
  - apply Nat.leb_le in G. destruct S as [S|(S1 & S2 & S3 & S4)]; [lia|]. split; [apply PA|]. destruct PA as [[PA PB] _]. specialize (PB (sl_arr s)). split; [|split].
    + constructor; [|constructor]. right. cbn [sl_off sl_arr sl_cap sl_len]. repeat split; auto; lia.
    + cbn [arrs flat_map sl_cap]. destruct (_ =? _)%nat; repeat constructor; intros [].
    + cbn [arrs flat_map sl_cap sl_arr] in *. exact C.
  - split; [apply PA|]. split; [|split].
    + constructor; [|constructor]. right. cbn [sl_off sl_arr sl_cap sl_len]. rewrite array_app, Nat.eqb_refl, app_length. cbn [length]. repeat split; try lia.
      assert (CL : length (cells h s) = sl_len s). { unfold cells. destruct S as [S|(S1 & S2 & S3 & S4)]; [destruct S as [_ ->]; reflexivity|]. rewrite S1. cbn [skipn]. rewrite firstn_length. lia. }
      rewrite !app_length, repeat_length. lia.
    + cbn [arrs flat_map sl_cap]. destruct (_ =? _)%nat; repeat constructor; intros [].
    + cbn [arrs flat_map sl_cap sl_arr]. destruct (_ =? _)%nat; constructor; auto.
Qed.
Lemma post_addSF lo s t h : (lo <= length h)%nat -> fresh lo h [s] -> post (addS grow s t) h (fun s' h' => fresh lo h' [s']).
Proof. intros L F. unfold addS. apply post_look. now apply post_addF. Qed.
Lemma post_new l h : post (add grow nilS l) h (fun s' h' => fresh (length h) h' [s']).
Proof. apply post_addF; auto. apply fresh_none, fresh_nil. Qed.
Lemma post_from s k h : post (from s k) h (fun _ h' => h' = h).
Proof. unfold from. destruct (_ && _); [now apply post_ret|exact Logic.I]. Qed.
Lemma post_upTo s k h : post (upTo s k) h (fun _ h' => h' = h).
Proof. unfold upTo. destruct (_ && _); [now apply post_ret|exact Logic.I]. Qed.

(** The stream is kept, and so is its depth. *)
Lemma post_next s h : post (hNext s) h (fun x h' => h' = h /\ keeps s (snd x)).
Proof. apply post_ret. split; auto. cbn [snd]. eapply keeps_moved. apply next_same. Qed.
Lemma post_position s h : post (hPosition s) h (fun x h' => h' = h /\ keeps s (snd x)).
Proof. apply post_ret. split; auto. cbn [snd]. eapply keeps_moved. apply position_same. Qed.
Lemma post_skipLoop n : forall s acc h, post (hSkipLoop grow n s acc) h (fun x _ => keeps s (snd x)).
Proof.
  induction n as [|n IH]; intros s acc h; cbn [hSkipLoop]; [apply post_ret, keeps_refl|]. apply post_look. destruct (_ =? _); [apply post_ret, keeps_refl|]. destruct (negb _); [apply post_ret, keeps_refl|].
  eapply post_bind; [apply post_next|]. intros [c s'] h1 _ [_ K]. cbn [snd] in K. eapply post_bind; [apply post_add|]. intros acc' h2 _ _. eapply post_impl; [apply IH|]. intros x h3 _ K2. eapply keeps_trans; eauto.
Qed.
Lemma post_skip s h : post (hSkip grow s) h (fun x _ => keeps s (snd x)).
Proof.
  unfold hSkip. destruct (ss_layers s) as [|l0 ls] eqn:E.
  - apply post_look. destruct (fst _); [apply post_ret, keeps_refl|]. eapply post_bind; [apply post_from|]. intros yy h1 _ _. eapply post_bind; [apply post_upTo|]. intros zz h2 _ _. apply post_ret. split; auto. exists []. cbn. now rewrite E.
  - apply post_look, post_skipLoop.
Qed.
Lemma post_match input : forall s acc h, post (hMatch grow s input acc) h (fun x _ => keeps s (snd x)).
Proof.
  induction input as [|i input IH]; intros s acc h; cbn [hMatch]; [apply post_ret, keeps_refl|]. eapply post_bind; [apply post_next|]. intros [c s'] h1 _ [_ K]. cbn [snd] in K.
  destruct (c =? EOFChar); [now apply post_ret|]. eapply post_bind; [apply post_add|]. intros acc' h2 _ _. destruct (negb _); [now apply post_ret|]. eapply post_impl; [apply IH|]. intros x h3 _ K2. eapply keeps_trans; eauto.
Qed.

(** ** Terminals *)
(** From the heap with [lo] arrays and the stream [s] on: the node has arrays of its own. *)
Definition made (lo : nat) (s : sstream) (x : sresult * sstream) (h : heap) : Prop :=
  keeps s (snd x) /\ match a_node (fst x) with Some n => fresh lo h (slicesOf n) | None => True end.
Lemma made_weak lo lo' s s' x h : (lo' <= lo)%nat -> keeps s' s -> made lo s x h -> made lo' s' x h.
Proof. intros L K [A B]. split; [eapply keeps_trans; eauto|]. destruct (a_node (fst x)); auto. eapply fresh_weak; eauto. Qed.
Lemma post_fail w p st rd lo s0 s h : keeps s0 s -> post (hFail w p st rd s) h (made lo s0).
Proof. intros K. unfold hFail. apply post_look, post_ret. split; [exact K|exact Logic.I]. Qed.
Lemma made_leaf lo s0 s h t b c pos st rd un st' : keeps s0 s -> fresh lo h [c] -> made lo s0 (mkSR (Some (makeNode t b c [] pos st)) None 0 rd un st', s) h.
Proof. intros K F. split; [exact K|exact F]. Qed.
Ltac pn := eapply post_bind; [apply post_next|]; let c := fresh "c" in let s := fresh "s" in let h := fresh "h" in let K := fresh "K" in intros [c s] h _ [-> K]; cbn [snd] in K.
Ltac pp := eapply post_bind; [apply post_position|]; let c := fresh "p" in let s := fresh "s" in let h := fresh "h" in let K := fresh "K" in intros [c s] h _ [-> K]; cbn [snd] in K.
Ltac pa := eapply post_bind; [first [apply post_addS|apply post_add]|]; let c := fresh "rd" in let h := fresh "h" in let G := fresh "G" in intros c h G _.
Ltac pnew := eapply post_bind; [apply post_new|]; let c := fresh "chars" in let h := fresh "h" in let G := fresh "G" in let F := fresh "F" in intros c h G F; cbv beta in F.
Ltac psk := eapply post_bind; [apply post_skip|]; let c := fresh "sp" in let s := fresh "s" in let h := fresh "h" in let K := fresh "K" in let G := fresh "G" in intros [c s] h G K; cbn [snd] in K.
Ltac kp := repeat first [assumption | apply keeps_refl | eapply keeps_trans; [eassumption|] ].
Ltac ln := repeat match goal with G : grows _ _ |- _ => apply proj1 in G end; lia.

Lemma post_charTail lo s0 b txt p0 rd s h : (lo <= length h)%nat -> keeps s0 s -> post (hCharTail grow b txt p0 rd s) h (made lo s0).
Proof.
  intros L K0. unfold hCharTail. apply post_look. destruct (negb _); [now apply post_fail|]. pp. pn. pa. pnew. apply post_ret. apply made_leaf; [kp|]. eapply fresh_weak; [|exact F]. ln.
Qed.
Lemma post_char b txt s f h : post (hChar grow b txt s f) h (made (length h) s).
Proof.
  unfold hChar. apply post_look. destruct (_ =? _); [apply post_fail, keeps_refl|]. pp. destruct (f =? _); [|apply post_charTail; auto].
  psk. pa. destruct (_ && _); [|apply post_charTail; [ln|kp]]. apply post_look. destruct (find_idx _ _) as [i|]; [|apply post_fail; kp]. pnew. apply post_look, post_look. eapply post_bind; [apply post_from|]. intros un h4 _ ->. apply post_ret. apply made_leaf; [kp|]. eapply fresh_weak; [|exact F]. ln.
Qed.
Lemma post_charsTail lo s0 b txt p0 rd tm start s h : (lo <= length h)%nat -> keeps s0 s -> post (hCharsTail grow b txt p0 rd tm start s) h (made lo s0).
Proof.
  intros L K0. unfold hCharsTail. eapply post_bind; [apply post_match|]. intros [[got ok] s1] h1 G1 K1. cbn [snd] in K1. pa. destruct ok; [|apply post_fail; kp]. apply post_look. pnew. apply post_ret. apply made_leaf; [kp|]. eapply fresh_weak; [|exact F]. ln.
Qed.
Lemma post_chars b txt s f h : post (hChars grow b txt s f) h (made (length h) s).
Proof.
  unfold hChars. apply post_look. destruct (_ =? _); [apply post_fail, keeps_refl|]. pp. apply post_look. destruct (f =? _); [|apply post_charsTail; auto].
  psk. pa. destruct (_ <? _)%nat; [apply post_fail; kp|]. eapply post_bind; [apply post_from|]. intros un h4 _ ->. apply post_look. destruct (negb _); [apply post_fail; kp|]. apply post_charsTail; [ln|kp].
Qed.
Lemma post_stringTail lo s0 b txt p0 rd tm s h : (lo <= length h)%nat -> keeps s0 s -> post (hStringTail grow b txt p0 rd tm s) h (made lo s0).
Proof.
  intros L K0. unfold hStringTail. eapply post_bind; [apply post_match|]. intros [[got ok] s1] h1 G1 K1. cbn [snd] in K1. pa. destruct ok; [|apply post_fail; kp]. apply post_look, post_look. pnew. apply post_ret. apply made_leaf; [kp|]. eapply fresh_weak; [|exact F]. ln.
Qed.
Lemma post_string b txt s f h : post (hString grow b txt s f) h (made (length h) s).
Proof.
  unfold hString. apply post_look. destruct (_ =? _); [apply post_fail, keeps_refl|]. pp. destruct (_ || _); [|apply post_stringTail; auto].
  psk. pa. destruct (_ <? _)%nat; [apply post_fail; kp|]. eapply post_bind; [apply post_from|]. intros un h4 _ ->. apply post_look. destruct (negb _); [apply post_fail; kp|]. apply post_stringTail; [ln|kp].
Qed.
Lemma post_rangeTail lo s0 b x y pos rd s h : (lo <= length h)%nat -> keeps s0 s -> post (hRangeTail grow b x y pos rd s) h (made lo s0).
Proof.
  intros L K0. unfold hRangeTail. pp. apply post_look. destruct (_ && _); [|apply post_fail; kp]. pn. pa. pnew. apply post_ret. apply made_leaf; [kp|]. eapply fresh_weak; [|exact F]. ln.
Qed.
Lemma post_range b x y s f h : post (hRange grow b x y s f) h (made (length h) s).
Proof.
  unfold hRange. apply post_look. destruct (_ =? _); [apply post_fail, keeps_refl|]. apply post_look, post_look. destruct (f =? _); [|apply post_rangeTail; [auto|apply keeps_refl]].
  psk. pa. apply post_look. destruct (find_idxp _ _); [|apply post_rangeTail; [ln|kp]]. eapply post_bind; [apply post_from|]. intros un h4 _ ->. pnew. apply post_ret. apply made_leaf; [kp|]. eapply fresh_weak; [|exact F]. ln.
Qed.
Lemma post_eof b s f h : post (hEOF grow b s f) h (made (length h) s).
Proof.
  unfold hEOF. eapply post_bind with (R := fun x _ => keeps s (snd x)). { destruct (f =? 1); [apply post_skip|apply post_ret, keeps_refl]. } intros [sp s1] h1 G1 K1. cbn [snd] in K1. apply post_look. destruct (_ =? _); [|now apply post_fail].
  pnew. pp. apply post_ret. split; [cbn; kp|]. cbn [fst a_node slicesOf m_chars m_kids flat_map]. eapply fresh_weak; [|exact F]. ln.
Qed.

(** ** Composite rules *)
Definition evals (rec : hevalT) : Prop := forall r s f h, post (rec r s f) h (made (length h) s).
Lemma made_none lo s0 s h e i rd un st : keeps s0 s -> made lo s0 (mkSR None e i rd un st, s) h.
Proof. intros K. split; [exact K|exact Logic.I]. Qed.
Lemma post_account rd un r h : post (hAccount grow rd un r) h any.
Proof.
  unfold hAccount, usedChars. destruct (_ <? _)%nat; [eapply post_bind; [apply post_from|]; intros; pa; now apply post_ret|]. eapply post_bind; [apply post_upTo|]; intros. eapply post_bind; [apply post_from|]; intros. now apply post_ret.
Qed.
Lemma fresh_cons lo h h' n kids : (lo <= length h)%nat -> grows h h' -> fresh lo h (slicesOfAll kids) -> fresh (length h) h' (slicesOf n) -> fresh lo h' (slicesOfAll (n :: kids)).
Proof. intros L G A B. eapply fresh_perm; [apply Permutation_app_comm|]. eapply fresh_both; eauto. Qed.
Lemma fresh_inner lo h kids : fresh lo h (slicesOfAll kids) -> fresh lo h (nilS :: flat_map slicesOf (rev kids)).
Proof. intros F. apply fresh_none. eapply fresh_perm; [apply slices_rev|exact F]. Qed.

Lemma post_concat rec b self s0 lo rules : evals rec -> forall s f rd un st kids pos h, (lo <= length h)%nat -> keeps s0 s -> fresh lo h (slicesOfAll kids) ->
  post (hConcat grow rec b self (deep s0) rules s f rd un st kids pos) h (made lo s0).
Proof.
  intros E. induction rules as [|r rules IH]; intros s f rd un st kids pos h L K F; cbn [hConcat].
  - apply post_ret. split; [now apply keeps_peel|]. now apply fresh_inner.
  - eapply post_bind; [apply E|]. intros [res s2] h1 G1 [K1 N1]. cbn [fst snd] in *. eapply post_bind; [apply post_account|]. intros [rd' un'] h2 G2 _. assert (K2 : keeps s0 s2) by (eapply keeps_trans; [apply keeps_wrap; exact K|exact K1]).
    destruct (a_node res) as [n|].
    + apply IH; [ln|exact K2|]. eapply fresh_grows; [exact G2|]. eapply fresh_cons; [exact L|exact G1|exact F|exact N1].
    + destruct (descOk self); [|exact Logic.I]. apply post_ret, made_none. now apply keeps_peel.
Qed.

Definition madeN (lo : nat) (r : sresult) (h : heap) : Prop := match a_node r with Some n => fresh lo h (slicesOf n) | None => True end.
Lemma post_repDone lo b self rmin idx err ei rd un st kids pos h : fresh lo h (slicesOfAll kids) -> post (hRepDone b self rmin idx err ei rd un st kids pos) h (madeN lo).
Proof.
  intros F. unfold hRepDone. destruct (_ <? _).
  - destruct err; [now apply post_ret|]. destruct (descOk self); [now apply post_ret|exact Logic.I].
  - apply post_ret. now apply fresh_inner.
Qed.
Lemma post_rep rec fuel b self r rmin rmax s0 lo : evals rec -> forall s f rd un st kids pos h, (lo <= length h)%nat -> keeps s0 s -> fresh lo h (slicesOfAll kids) ->
  post (hRep grow rec fuel b self r rmin rmax (deep s0) s f rd un st kids pos) h (made lo s0).
Proof.
  intros E. induction fuel as [|fuel IH]; intros s f rd un st kids pos h L K F; cbn [hRep]; [exact Logic.I|]. cbv zeta. apply post_look. assert (K1 := keeps_wrap _ _ un K). destruct (_ =? _).
  { apply post_look. eapply post_bind; [apply post_repDone; exact F|]. intros res h1 G1 N1. apply post_ret. split; [now apply keeps_peel|exact N1]. }
  eapply post_bind; [apply E|]. intros [res s2] h1 G1 [K2 N1]. cbn [fst snd] in *. eapply post_bind; [apply post_account|]. intros [rd' un'] h2 G2 _. assert (K3 : keeps s0 s2) by (eapply keeps_trans; eauto).
  destruct (a_node res) as [n|].
  - assert (F2 : fresh lo h2 (slicesOfAll (n :: kids))) by (eapply fresh_grows; [exact G2|]; eapply fresh_cons; [exact L|exact G1|exact F|exact N1]).
    destruct (_ && _); [|apply IH; [ln|exact K3|exact F2]]. apply post_look. eapply post_bind; [apply post_repDone; exact F2|]. intros res2 h3 G3 N3. apply post_ret. split; [now apply keeps_peel|exact N3].
  - apply post_look. eapply post_bind; [apply post_repDone; eapply fresh_grows; [|exact F]; eapply grows_trans; eauto|]. intros res2 h3 G3 N3. apply post_ret. split; [now apply keeps_peel|exact N3].
Qed.

Definition madeA (lo : nat) (l : list sresult) (h : heap) : Prop := Forall (fun r => madeN lo r h) l.
Lemma madeA_grows lo l h h' : grows h h' -> madeA lo l h -> madeA lo l h'.
Proof. intros G A. eapply Forall_impl; [|exact A]. intros r. unfold madeN. destruct (a_node r); auto. now apply fresh_grows. Qed.
Lemma post_alts rec s0 lo f rules : evals rec -> forall s mr st me mi matched h, (lo <= length h)%nat -> keeps s0 s -> madeA lo matched h ->
  post (hAlts rec (deep s0) rules s f mr st me mi matched) h (fun x h' => let '(m, _, _, _, _, s') := x in keeps s0 s' /\ madeA lo m h').
Proof.
  intros E. induction rules as [|r rules IH]; intros s mr st me mi matched h L K A; cbn [hAlts].
  - apply post_ret. split; auto. now apply Forall_rev.
  - eapply post_bind; [apply E|]. intros [res s1] h1 G1 [K1 N1]. cbn [fst snd] in *. cbv zeta. assert (K2 : keeps s0 (peel (deep s0) s1)) by (apply keeps_peel; eapply keeps_trans; [apply keeps_wrap; exact K|exact K1]).
    apply (madeA_grows _ _ _ _ G1) in A. destruct (a_node res) as [n|] eqn:EN.
    + apply IH; [ln|exact K2|]. constructor; auto. unfold madeN. rewrite EN. eapply fresh_weak; [|exact N1]. exact L.
    + destruct (_ >? _); (apply IH; [ln|exact K2|exact A]).
Qed.
Lemma selLoop_in l : forall k found x, hSelLoop k found l = Some (Some x) -> found = Some x \/ In x l.
Proof.
  induction l as [|r l IH]; intros k found x H; cbn [hSelLoop] in H; [injection H as ->; auto|]. destruct (_ <? _); [apply IH in H; cbn; tauto|]. destruct (_ =? _).
  - destruct found; [discriminate|]. apply IH in H. destruct H as [H|H]; [injection H as ->|]; cbn; auto.
  - apply IH in H. destruct H as [H|H]; [injection H as ->|]; cbn; auto.
Qed.
Lemma select_in l x : hSelect l = Some (Some x) -> In x l.
Proof.
  destruct l as [|a [|c l]]; cbn [hSelect]; intros H; [discriminate|injection H as ->; now left|]. apply selLoop_in in H. destruct H as [H|H]; [discriminate|exact H].
Qed.
Lemma made_in lo l h x : madeA lo l h -> In x l -> madeN lo x h.
Proof. intros A I. unfold madeA in A. rewrite Forall_forall in A. now apply A. Qed.
Lemma fresh_wrap1 lo h n : fresh lo h (slicesOf n) -> fresh lo h (nilS :: flat_map slicesOf [n]).
Proof. intros F. apply fresh_none. cbn [flat_map]. now rewrite app_nil_r. Qed.
Lemma post_choice rec b self s0 lo f groups : evals rec -> forall s mr st me mi h, (lo <= length h)%nat -> keeps s0 s ->
  post (hChoice rec b self (deep s0) groups s f mr st me mi) h (made lo s0).
Proof.
  intros E. induction groups as [|g groups IH]; intros s mr st me mi h L K; cbn [hChoice].
  - destruct (descOk self); [|exact Logic.I]. apply post_ret. now apply made_none.
  - eapply post_bind; [apply post_alts; [exact E|exact L|exact K|constructor]|]. intros [[[[[m mr'] st'] me'] mi'] s'] h1 G1 [K1 A1]. destruct (hSelect m) as [[x|]|] eqn:ES.
    + apply select_in in ES. assert (N := made_in _ _ _ _ A1 ES). unfold madeN in N. destruct (a_node x); [|exact Logic.I]. eapply post_bind; [apply post_from|]. intros un h2 G2 ->. apply post_ret. split; [exact K1|]. now apply fresh_wrap1.
    + apply IH; [ln|exact K1].
    + unfold hTied. apply post_look. apply post_ret. now apply made_none.
Qed.
Lemma post_greedy rec rules f : evals rec -> forall s h, post (hGreedy rec rules s f) h (made (length h) s).
Proof.
  intros E s h. unfold hGreedy. eapply post_bind; [apply post_alts; [exact E|auto|apply keeps_refl|constructor]|]. intros [[[[[m mr'] st'] me'] mi'] s'] h1 G1 [K1 A1]. destruct (hSelect m) as [[x|]|] eqn:ES.
  - apply select_in in ES. assert (N := made_in _ _ _ _ A1 ES). unfold madeN in N. eapply post_bind; [apply post_from|]. intros un h2 G2 ->. apply post_ret. split; [exact K1|exact N].
  - apply post_ret. now apply made_none.
  - unfold hTied. apply post_look. apply post_ret. now apply made_none.
Qed.

Definition madeE (lo : nat) (e : hExit) (h : heap) : Prop :=
  match e with HClose res _ _ c => fresh lo h (c :: match a_node res with Some n => slicesOf n | None => [] end) | _ => True end.
Lemma post_escape rec esc s0 cs used un h : evals rec -> keeps s0 cs ->
  post (match esc with
    | None => ret (false, nilS, used, un, cs)
    | Some e => do (res, cs1) <- rec e cs NOT_SKIP;
      match a_node res with
      | Some _ => do u <- usedChars res; do used' <- addS grow used u; ret (true, u, used', a_unused res, cs1)
      | None => ret (false, nilS, used, a_read res, cs1)
      end
    end) h (fun x _ => keeps s0 (snd x)).
Proof.
  intros E K. destruct esc as [e|]; [|apply post_ret; exact K]. eapply post_bind; [apply E|]. intros [res cs1] h1 G1 [K1 _]. cbn [fst snd] in *. assert (K2 := keeps_trans _ _ _ K K1). destruct (a_node res); [|apply post_ret; exact K2].
  eapply post_bind; [apply post_upTo|]. intros u h2 G2 _. pa. apply post_ret. exact K2.
Qed.
Lemma post_exclude rec excl s0 cs un h : evals rec -> keeps s0 cs ->
  post (match excl with
    | [] => ret (None, wrap cs un)
    | _ => do (res, cs1) <- hGreedy rec excl (wrap cs un) NOT_SKIP; ret (Some res, cs1)
    end) h (fun x _ => keeps s0 (snd x)).
Proof.
  intros E K. apply (keeps_wrap _ _ un) in K. destruct excl as [|e excl]; [apply post_ret; exact K|]. eapply post_bind; [apply post_greedy; exact E|]. intros [res cs1] h1 G1 [K1 _]. cbn [fst snd] in *. apply post_ret. exact (keeps_trans _ _ _ K K1).
Qed.
Lemma post_blockIter rec cl esc excl s0 lo cs used un content h : evals rec -> (lo <= length h)%nat -> keeps s0 cs -> fresh lo h [content] ->
  post (hBlockIter grow rec cl esc excl cs used un content) h (fun x h' => keeps s0 (fst x) /\ match snd x with inl (_, _, c) => fresh lo h' [c] | inr e => madeE lo e h' end).
Proof.
  intros E L K F. unfold hBlockIter. eapply post_bind; [apply post_escape; [exact E|exact K]|]. intros [[[[escaped ec] used1] un1] cs1] h1 G1 K1. cbn [snd] in K1. apply (fresh_grows _ _ _ _ G1) in F.
  eapply post_bind; [apply post_exclude; [exact E|exact K1]|]. intros [exres cs2] h2 G2 K2. cbn [snd] in K2. apply (fresh_grows _ _ _ _ G2) in F. cbv zeta.
  destruct (match exres with Some res => _ | None => false end).
  - destruct escaped; [|apply post_ret; split; [exact K2|exact Logic.I]]. eapply post_bind; [apply post_upTo|]. intros u h3 _ ->. pa. apply (fresh_grows _ _ _ _ G) in F.
    eapply post_bind; [eapply post_addSF; [|exact F]; ln|]. intros c' h4 G4 F4. apply post_ret. split; [exact K2|exact F4].
  - eapply post_bind; [apply E|]. intros [res cs3] h3 G3 [K3 N3]. cbn [fst snd] in *. assert (K4 : keeps s0 cs3) by (eapply keeps_trans; [apply keeps_wrap; exact K2|exact K3]).
    assert (L2 : (lo <= length h2)%nat) by ln. destruct (a_node res) as [n|] eqn:EN.
    + eapply post_bind; [apply post_upTo|]. intros u h4 _ ->. destruct escaped.
      * pa. eapply post_bind; [eapply post_addSF; [|eapply fresh_grows; [|exact F]; eapply grows_trans; eassumption]; ln|]. intros c' h5 G5 F5. apply post_ret. split; [exact K4|exact F5].
      * pa. pa. apply post_ret. split; [exact K4|]. cbn [madeE snd]. rewrite EN. eapply fresh_grows; [exact G0|]. eapply fresh_grows; [exact G|]. apply (fresh_both lo h2 h3 [content] (slicesOf n)); auto.
    + apply (fresh_grows _ _ _ _ G3) in F. eapply post_bind; [eapply post_addSF; [|exact F]; ln|]. intros c' h5 G5 F5. apply post_look. assert (K5 := keeps_wrap _ _ (a_unused res) K4). destruct (_ =? _).
      * pa. apply post_ret. split; [exact K5|exact Logic.I].
      * pn. eapply post_bind; [eapply post_addSF; [|exact F5]; ln|]. intros c2 h6 G6 F6. eapply post_bind; [eapply post_addF; [|exact F6]; ln|]. intros c3 h7 G7 F7. apply post_ret. split; [eapply keeps_trans; eassumption|exact F7].
Qed.
Lemma post_blockLoop rec fuel cl esc excl s0 lo : evals rec -> forall cs used un content h, (lo <= length h)%nat -> keeps s0 cs -> fresh lo h [content] ->
  post (hBlockLoop grow rec fuel cl esc excl cs used un content) h (fun x h' => keeps s0 (fst x) /\ madeE lo (snd x) h').
Proof.
  intros E. induction fuel as [|fuel IH]; intros cs used un content h L K F; cbn [hBlockLoop]; [exact Logic.I|]. eapply post_bind; [apply post_blockIter; eauto|]. intros [cs' [[[u' n'] c']|e]] h1 G1 [K1 F1]; cbn [fst snd] in *.
  - apply IH; [ln|exact K1|exact F1].
  - apply post_ret. split; auto.
Qed.
Lemma post_block rec fuel b op v cl esc excl f : evals rec -> forall s h, post (hBlock grow rec fuel b op v cl esc excl s f) h (made (length h) s).
Proof.
  intros E s h. unfold hBlock. cbv zeta. eapply post_bind; [apply E|]. intros [ores s1] h1 G1 [K1 N1]. cbn [fst snd] in *. destruct (a_node ores) as [on|]; [|apply post_look, post_ret, made_none; exact K1].
  eapply post_bind; [apply post_upTo|]. intros u0 h2 _ ->. pa. pp. eapply post_bind; [eapply (post_blockLoop _ _ _ _ _ s (length h1)); [exact E|ln|eapply keeps_trans; [apply keeps_wrap; exact K1|exact K]|apply fresh_none, fresh_nil]|].
  intros [cs' e] h3 G3 [K3 F3]. cbn [fst snd] in *. apply keeps_peel in K3. destruct e as [xr used content|used un|cres used un content].
  - eapply post_bind; [apply post_upTo|]. intros u h4 _ ->. apply post_look, post_look. pa. pa. apply post_ret, made_none, K3.
  - destruct (descOk cl); [|exact Logic.I]. apply post_look. pa. apply post_ret, made_none, K3.
  - eapply post_bind; [apply post_addS|]. intros rd2 h4 G4 _. apply post_ret. split; [exact K3|]. cbn [madeE fst a_node makeNode slicesOf m_chars m_kids] in *. apply fresh_none. cbn [flat_map slicesOf m_chars m_kids app].
    assert (FB : fresh (length h) h4 (slicesOf on ++ content :: match a_node cres with Some n => slicesOf n | None => [] end)).
    { eapply fresh_grows; [exact G4|]. eapply (fresh_both (length h) h1 h3); [ln|eapply grows_trans; eassumption|exact N1|exact F3]. }
    destruct v; [|destruct (a_node cres); cbn [flat_map]; rewrite ?app_nil_r; exact FB]. cbn [flat_map]. change (slicesOf on ++ content :: ?x) with (slicesOf on ++ [content] ++ x) in FB. rewrite app_assoc in FB. apply fresh_sub in FB. apply FB.
Qed.
Lemma slices_toggle b n : slicesOf (hToggle b n) = slicesOf n.
Proof. now destruct n. Qed.
Lemma post_eval fuel g : evals (hEval grow fuel g).
Proof.
  induction fuel as [|fuel IH]; intros r s f h; cbn [hEval]; [exact Logic.I|]. unfold hStep. destruct r.
  - apply post_char.
  - apply post_chars.
  - apply post_string.
  - apply post_range.
  - apply post_eof.
  - destruct (lookup g _); [|apply post_ret, made_none, keeps_refl]. eapply post_bind; [apply IH|]. intros [res s1] h1 G1 [K1 N1]. apply post_ret. split; [exact K1|]. cbn [fst a_node hSetNode] in *. destruct (a_node res); cbn [option_map]; auto. now rewrite slices_toggle.
  - eapply post_bind; [apply IH|]. intros [res s1] h1 G1 [K1 N1]. cbn [fst snd] in *. destruct (a_node res) eqn:EN; [|apply post_ret, made_none; exact K1]. apply post_ret. split; [exact K1|]. now apply fresh_wrap1.
  - eapply post_bind; [apply IH|]. intros [res s1] h1 G1 [K1 N1]. cbn [fst snd] in *. destruct (a_node res) eqn:EN; apply post_ret; (split; [exact K1|]); [now apply fresh_wrap1|apply fresh_none, fresh_nil].
  - apply (post_rep _ _ _ _ _ _ _ s (length h)); auto; [apply keeps_refl|apply fresh_nil].
  - apply (post_choice _ _ _ s (length h)); auto. apply keeps_refl.
  - apply (post_concat _ _ _ s (length h)); auto; [apply keeps_refl|apply fresh_nil].
  - now apply post_block.
Qed.

(** ** EvalRaw *)
Lemma post_roots fuel g s0 lo f order : forall s mr m e h, (lo <= length h)%nat -> keeps s0 s -> madeA lo (List.map snd m) h ->
  post (hRoots grow fuel g order s f mr m e) h (fun x h' => let '(m, _, _, s') := x in keeps s0 s' /\ madeA lo (List.map snd m) h').
Proof.
  induction order as [|[nm r] order IH]; intros s mr m e h L K A; cbn [hRoots].
  - apply post_ret. split; auto. rewrite map_rev. now apply Forall_rev.
  - eapply post_bind; [apply post_eval|]. intros [res s1] h1 G1 [K1 N1]. cbn [fst snd] in *. cbv zeta. apply (madeA_grows _ _ _ _ G1) in A. apply IH; [ln|eapply keeps_trans; [apply keeps_wrap; exact K|exact K1]|].
    destruct (a_node res) as [n|] eqn:EN; auto. constructor; auto. cbn [snd]. unfold madeN. rewrite EN. eapply fresh_weak; [|exact N1]. exact L.
Qed.
Lemma rawSel_in l : forall k found x, hRawSel k found l = inr (Some x) -> found = Some x \/ In x l.
Proof.
  induction l as [|r l IH]; intros k found x H; cbn [hRawSel] in H; [injection H as ->; auto|].
  destruct found as [y|]; [destruct (_ =? _); [discriminate|]|]; destruct (_ >=? _); apply IH in H; destruct H as [H|H]; try discriminate; cbn; auto; injection H as ->; auto.
Qed.
Lemma rawSelect_in l x : hRawSelect l = inr (Some x) -> In x l.
Proof.
  destruct l as [|a [|c l]]; cbn [hRawSelect]; intros H; [discriminate|injection H as ->; now left|]. apply rawSel_in in H. destruct H as [H|H]; [discriminate|exact H].
Qed.
Lemma reorder_in {A} p (l : list A) x : In x (reorder p l) -> In x l.
Proof.
  unfold reorder. intros I. apply in_flat_map in I. destruct I as (i & _ & I). destruct (nth_error l i) eqn:E; [|destruct I]. destruct I as [<-|[]]. eapply nth_error_In; eauto.
Qed.
(** All the trees together. *)
Definition madeRaw (lo : nat) (s : sstream) (x : hRawRes * sstream) (h : heap) : Prop :=
  keeps s (snd x) /\ deep (snd x) = deep s /\ match fst x with HRawOk a => fresh lo h (slicesOfAll a) | _ => True end.
Lemma peel_deep a b : keeps a b -> deep (peel (deep a) b) = deep a.
Proof.
  intros [_ [x X]]. unfold deep in *. cbn [peel ss_layers]. rewrite skipn_length. assert (E : length (ss_layers b) = (length x + length (ss_layers a))%nat) by (rewrite <- (map_length fst (ss_layers b)), X, app_length, map_length; auto). lia.
Qed.
Lemma post_rawLoop lf fuel g o s0 lo : forall round s un f nodes h, (lo <= length h)%nat -> keeps s0 s -> deep s = deep s0 -> fresh lo h (slicesOfAll nodes) ->
  post (hRawLoop grow lf fuel g o round s un f nodes) h (madeRaw lo s0).
Proof.
  induction lf as [|lf IH]; intros round s un f nodes h L K D F; cbn [hRawLoop]; [exact Logic.I|]. cbv zeta. apply post_look. destruct (_ =? _).
  { apply post_ret. split; [exact K|]. split; [exact D|]. cbn [fst]. destruct nodes as [|n nodes]; [exact Logic.I|]. eapply fresh_perm; [apply slices_rev|exact F]. }
  eapply post_bind; [apply (post_roots _ _ s (length h)); [auto|apply keeps_wrap'|constructor]|]. intros [[[m e] mr] s1] h1 G1 [K1 A1].
  assert (KP := keeps_peel _ _ K1). assert (DP := peel_deep _ _ K1). assert (K2 := keeps_trans _ _ _ K KP). assert (D2 : deep (peel (deep s) s1) = deep s0) by lia.
  destruct (hRawSelect _) as [[x y]|[x|]] eqn:ES.
  - apply post_look, post_look, post_ret. repeat split; auto; apply K2.
  - apply rawSelect_in in ES. apply in_map_iff in ES. destruct ES as (z & EZ & IZ). apply reorder_in in IZ. assert (N := made_in _ _ _ _ A1 (in_map snd _ _ IZ)). rewrite EZ in N. unfold madeN in N.
    destruct (a_node x) as [n|]; [|exact Logic.I]. eapply post_bind; [apply post_from|]. intros u2 h2 _ ->. apply IH; [ln|exact K2|exact D2|]. eapply fresh_cons; [exact L|exact G1|exact F|exact N].
  - apply post_ret. repeat split; auto; apply K2.
Qed.
Lemma post_raw lf fuel g o s h : post (hEvalRaw grow lf fuel g o s) h (madeRaw (length h) s).
Proof.
  unfold hEvalRaw. apply post_look. destruct (_ =? _); [apply post_ret; split; [apply keeps_refl|split; [reflexivity|exact Logic.I]]|]. apply (post_rawLoop _ _ _ _ s (length h)); auto; [apply keeps_refl|apply fresh_nil].
Qed.
End Alloc.
