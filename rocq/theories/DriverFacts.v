(** Facts about the evaluation drivers of grammar.go. *)
From Coq Require Import Permutation.
From Verif Require Import Base Stream StreamFacts CallFacts Node Rule Grammar SpecStream SpecRule TermFacts TermSpec EvalInv EvalFuel RuleFacts
  SpecEval SemFacts SpecEv EvFacts EvDet EvalSem TextFacts SpecChoice ChoiceFacts WfDec SpecTerm LoopFacts SpecDriver.

Lemma Forall2_len {A B} (R : A -> B -> Prop) l m : Forall2 R l m -> length l = length m.
Proof. induction 1; cbn; congruence. Qed.
Lemma list_nil_or {A} (l : list A) : l = [] \/ exists x l', l = x :: l'.
Proof. destruct l; eauto. Qed.
Lemma find_lookup m n : option_map rec_rule (find_rec m n) = lookup (List.map (fun kr => (fst kr, rec_rule (snd kr))) m) n.
Proof. induction m as [|[k r] m IH]; [reflexivity|]. cbn [find_rec List.map lookup fst snd]. destruct (runes_eqb k n); [reflexivity|exact IH]. Qed.
Lemma getRule_rules g n : getRule g n = lookup (rules_of g) n.
Proof. unfold getRule, getRecord, rules_of. apply find_lookup. Qed.

Lemma derives_type g r n : derives g r n -> isText n = false.
Proof.
  intros D. unfold isText. assert (T : n_type n <> TText) by (induction D; cbn; congruence).
  destruct (n_type n); congruence.
Qed.

(* ------------------------------------------------------------------ *)
(** ** No panic, and what comes out *)

Section Drivers.
Variable g : rules_t.
Hypothesis W : wfRules g.

Lemma embedLoop_ok r : wfRule r -> forall lf fuel cs txt kids, clean (rest cs) ->
  match embedLoop lf fuel g r cs txt kids with
  | Panic => False
  | OutOfFuel => True
  | Ok out => exists new, out = rev kids ++ new /\ (forall n, In n new -> isText n = true \/ derives g r n) /\ tidy false new
  end.
Proof.
  intros WR. induction lf as [|lf IH]; intros fuel cs txt kids C; cbn [embedLoop]; [exact I|].
  pose proof (eval_ok g fuel W r cs NOT_SKIP WR C) as G. destruct (eval fuel g r cs NOT_SKIP) as [[res cs1]| |]; cbn [bind]; [|exact G|exact I].
  destruct G as [[A _ N] AD]. pose proof (adv_clean _ _ AD C) as C1.
  assert (C2 : clean (rest (prepend cs1 (r_unused res)))) by (rewrite prepend_rest; apply clean_app; split; [apply A|exact C1]).
  destruct (r_node res) as [n|] eqn:EN.
  - destruct (N n eq_refl) as [D _]. specialize (IH fuel (prepend cs1 (r_unused res)) [] (n :: (if nonempty txt then textNode txt :: kids else kids)) C2).
    destruct (embedLoop _ _ _ _ _ _ _) as [out| |]; [|exact IH|exact I]. destruct IH as (new & -> & A1 & A2).
    pose proof (derives_type _ _ _ D) as NT.
    destruct txt as [|x txt]; cbn [nonempty rev].
    + exists (n :: new). split; [now rewrite <- app_assoc|]. split; [intros m [<-|H]; auto|]. apply td_node; auto.
    + exists (textNode (x :: txt) :: n :: new). split; [cbn [rev]; now rewrite <- !app_assoc|]. split.
      * intros m [<-|[<-|H]]; auto.
      * apply td_text; [reflexivity|discriminate|]. apply td_node; auto.
  - destruct (next (prepend cs1 (r_unused res))) as [c cs3] eqn:E3. destruct (c =? EOFChar) eqn:EC.
    + destruct txt as [|x txt]; cbn [nonempty].
      * exists []. split; [now rewrite app_nil_r|]. split; [intros m []|constructor].
      * exists [textNode (x :: txt)]. split; [reflexivity|]. split; [intros m [<-|[]]; now left|]. apply td_text; [reflexivity|discriminate|constructor].
    + assert (C3 : clean (rest cs3)).
      { pose proof (adv_clean _ _ (adv_next (prepend cs1 (r_unused res))) C2) as X. now rewrite E3 in X. }
      exact (IH fuel cs3 (txt ++ [c]) kids C3).
Qed.

(** A matched result of a round. *)
Definition hit (roots : list (list Z * rule)) (maxRead : list Z) (x : list Z * result) : Prop :=
  acc (snd x) /\ (length (r_read (snd x)) <= length maxRead)%nat /\
  exists r n, In (fst x, r) roots /\ r_node (snd x) = Some n /\ derives g r n /\ n_sticky n = r_sticky (snd x).

Lemma rootsLoop_ok roots s0 fuel f : forall order, (forall x, In x order -> wfRule (snd x) /\ In x roots) ->
  forall cs maxRead matched errors, behind s0 cs -> clean maxRead -> (forall x, In x matched -> hit roots maxRead x) ->
  match rootsLoop fuel g order cs f maxRead matched errors with
  | Panic => False
  | OutOfFuel => True
  | Ok (matched', _, maxRead', cs') => behind s0 cs' /\ clean maxRead' /\ (forall x, In x matched' -> hit roots maxRead' x)
  end.
Proof.
  induction order as [|[n r] order IH]; intros HW cs maxRead matched errors B CM HM; cbn [rootsLoop].
  - split; [exact B|]. split; [exact CM|]. intros x Hx. apply in_rev in Hx. auto.
  - destruct (HW _ (or_introl eq_refl)) as [WR IR]. cbn [snd] in WR. pose proof (behind_prepend _ _ _ CM B) as B1.
    pose proof (eval_ok g fuel W r (prepend cs maxRead) f WR (behind_clean _ _ B1)) as G.
    destruct (eval fuel g r (prepend cs maxRead) f) as [[res cs1]| |]; cbn [bind]; [|exact G|exact I].
    destruct G as [[A _ N] AD]. pose proof (behind_adv _ _ _ B1 AD) as B2.
    set (maxRead' := if (length maxRead <? length (r_read res))%nat then r_read res else maxRead).
    assert (CM' : clean maxRead') by (unfold maxRead'; destruct (_ <? _)%nat; [apply A|exact CM]).
    assert (LM : (length maxRead <= length maxRead')%nat /\ (length (r_read res) <= length maxRead')%nat).
    { unfold maxRead'. destruct (Nat.ltb_spec (length maxRead) (length (r_read res))); lia. }
    apply IH; auto.
    + intros x Hx. apply HW. now right.
    + assert (HM' : forall x, In x matched -> hit roots maxRead' x).
      { intros x Hx. destruct (HM x Hx) as (X1 & X2 & X3). split; [exact X1|]. split; [lia|exact X3]. }
      destruct (r_node res) as [nd|] eqn:EN; [|exact HM']. intros x [<-|Hx]; [|auto].
      destruct (N nd eq_refl) as [D S]. split; [exact A|]. split; [cbn [snd]; lia|]. exists r, nd. auto.
Qed.

Lemma rawSel_in l : forall m fnd res, rawSel m fnd l = inr (Some res) -> fnd = Some res \/ In res l.
Proof.
  induction l as [|r l IH]; intros m fnd res H; cbn [rawSel] in H; [left; congruence|].
  destruct fnd as [x|].
  - destruct (_ =? _); [discriminate|]. destruct (_ >=? _); destruct (IH _ _ _ H) as [X|X];
      first [injection X as ->; right; now left|now left|right; now right].
  - destruct (_ >=? _); destruct (IH _ _ _ H) as [X|X]; first [injection X as ->; right; now left|discriminate X|right; now right].
Qed.
Lemma rawSelect_in l res : rawSelect l = inr (Some res) -> In res l.
Proof.
  destruct l as [|a [|b l]]; cbn [rawSelect]; [discriminate|intros [= ->]; now left|].
  intros H. apply rawSel_in in H as [H|H]; [discriminate|exact H].
Qed.

Variables (roots : list (list Z * rule)) (o : orders).
Hypothesis HR : forall x, In x roots -> wfRule (snd x).
Hypothesis HO : legal roots o.

Definition rootNode (n : node) : Prop := exists x, In x roots /\ derives g (snd x) n.

Lemma rawLoop_ok fuel : forall lf round s unused f nodes, clean (rest s) -> clean unused ->
  (forall n, In n nodes -> rootNode n) ->
  match rawLoop lf fuel g o round s unused f nodes with
  | Panic => False
  | OutOfFuel => True
  | Ok (RawOk a, s') => a <> [] /\ (forall n, In n a -> rootNode n) /\ adv s s'
  | Ok (_, s') => adv s s'
  end.
Proof.
  induction lf as [|lf IH]; intros round s unused f nodes C CU HN; cbn [rawLoop]; [exact I|].
  destruct (peek (prepend s unused) =? EOFChar).
  - destruct nodes as [|n nodes]; [apply adv_refl|]. split; [|split; [|apply adv_refl]].
    + intros X. now destruct (app_cons_not_nil _ _ _ (eq_sym X)).
    + intros m Hm. apply in_rev in Hm. auto.
  - pose proof (behind_prepend s s unused CU (behind_refl s C)) as B.
    assert (HW : forall x, In x (o_roots o round) -> wfRule (snd x) /\ In x roots).
    { intros x Hx. assert (X : In x roots) by (eapply Permutation_in; [apply HO|exact Hx]). auto. }
    pose proof (rootsLoop_ok roots s fuel f (o_roots o round) HW (prepend s unused) [] [] [] B (Forall_nil _) (fun _ X => match X with end)) as X.
    destruct (rootsLoop _ _ _ _ _ _ _ _) as [[[[matched errors] maxRead] cs1]| |]; cbn [bind]; [|exact X|exact I].
    destruct X as (B1 & CM & HM). pose proof (behind_end _ _ B1) as A1.
    destruct (rawSelect _) as [[ra rb]|[res|]] eqn:ES; [exact A1| |exact A1].
    apply rawSelect_in in ES. apply in_map_iff in ES as (x & <- & Hx).
    assert (Hx' : In x matched) by (eapply Permutation_in; [apply HO|exact Hx]).
    destruct (HM x Hx') as (AC & LR & r & n & IR & EN & D & SN). rewrite EN.
    rewrite countUsed_nat by exact AC. rewrite slice_from_ok by lia. cbn [bind].
    match goal with |- match rawLoop ?a ?b ?c ?d ?e ?s1 ?u ?f1 ?ns with _ => _ end => specialize (IH e s1 u f1 ns) end.
    destruct (rawLoop _ _ _ _ _ _ _ _ _) as [[[a| |ro re|rx ry|] s']| |]; auto.
    + destruct IH as (Q1 & Q2 & Q3).
      * now apply adv_clean with s.
      * now apply clean_skipn.
      * intros m [<-|Hm]; [|auto]. exists (fst x, r). auto.
      * split; [exact Q1|]. split; [exact Q2|]. eapply adv_trans; eauto.
    + eapply adv_trans; [exact A1|]. apply IH; [now apply adv_clean with s|now apply clean_skipn|].
      intros m [<-|Hm]; [|auto]. exists (fst x, r). auto.
    + eapply adv_trans; [exact A1|]. apply IH; [now apply adv_clean with s|now apply clean_skipn|].
      intros m [<-|Hm]; [|auto]. exists (fst x, r). auto.
    + eapply adv_trans; [exact A1|]. apply IH; [now apply adv_clean with s|now apply clean_skipn|].
      intros m [<-|Hm]; [|auto]. exists (fst x, r). auto.
    + eapply adv_trans; [exact A1|]. apply IH; [now apply adv_clean with s|now apply clean_skipn|].
      intros m [<-|Hm]; [|auto]. exists (fst x, r). auto.
    + apply IH; [now apply adv_clean with s|now apply clean_skipn|]. intros m [<-|Hm]; [|auto]. exists (fst x, r). auto.
Qed.

Lemma evalRaw_ok lf fuel s : clean (rest s) ->
  match evalRaw lf fuel g o s with
  | Panic => False
  | OutOfFuel => True
  | Ok (RawOk a, s') => a <> [] /\ (forall n, In n a -> rootNode n) /\ adv s s'
  | Ok (_, s') => adv s s'
  end.
Proof.
  intros C. unfold evalRaw. destruct (peek s =? EOFChar); [apply adv_refl|].
  apply rawLoop_ok; [exact C|constructor|intros n []].
Qed.
End Drivers.

(* ------------------------------------------------------------------ *)
(** ** Embedded matches *)

Section Embed.
Variables (g : rules_t) (r : rule) (t : list Z) (s0 : stream).
Hypothesis W : wfRules g.
Hypothesis WR : wfRule r.
Hypothesis C : clean t.
Hypothesis E0 : rest s0 = t.

Lemma at_len s p m : at_ s0 t p m s -> (p <= length t)%nat.
Proof. intros (_ & A & B & _). lia. Qed.

Lemma embed_text fuel : (forall p, sem fuel g r NOT_SKIP (skipn p t) <> SUnsafe /\ forall k, sem fuel g r NOT_SKIP (skipn p t) <> SOk (Amb k)) ->
  forall lf p m cs txt kids out, at_ s0 t p m cs -> embedLoop lf fuel g r cs txt kids = Ok out ->
  exists items, Embeds g r (skipn p t) items /\ List.map erase out = List.map erase (rev kids) ++ render txt items.
Proof.
  intros S. induction lf as [|lf IH]; intros p m cs txt kids out A H; cbn [embedLoop] in H; [discriminate|].
  destruct (S p) as [S1 S2]. pose proof (at_rest _ _ _ _ _ E0 A) as ER. pose proof (at_len _ _ _ A) as LP.
  pose proof (sem_lock g fuel W r NOT_SKIP cs (skipn p t) WR (clean_skipn p t C) ER) as L. unfold lock in L.
  destruct (sem fuel g r NOT_SKIP (skipn p t)) as [y| |] eqn:Y; [|tauto|rewrite L in H; discriminate].
  destruct L as (res & cs1 & EV & SA & MV). rewrite EV in H. cbn [bind] in H.
  pose proof (sem_sound _ _ _ _ _ _ Y) as EVR.
  destruct SA as (LR & RD & SA). rewrite skipn_length in LR.
  assert (LY : (p + reads y <= length t)%nat) by lia. pose proof (at_move _ _ _ _ _ _ _ A LY MV) as A1.
  destruct y as [n u k st|k st|k]; cbn [reads noAmb] in *.
  - destruct SA as (LU & UN & _ & nd & EN & <-). rewrite EN in H.
    assert (A2 : at_ s0 t (p + u) (Nat.max m (p + k)) (prepend cs1 (r_unused res))).
    { rewrite UN, skipn_firstn', skipn_skipn'. apply at_prepend. now replace (p + u + (k - u))%nat with (p + k)%nat by lia. }
    destruct (IH _ _ _ _ _ _ A2 H) as (items & EM & RE).
    exists (Found (erase nd) (firstn u (skipn p t)) :: items). split.
    + apply em_found with (k := k) (st := st); [exact EVR|rewrite skipn_length; lia|]. now rewrite skipn_skipn'.
    + rewrite RE. cbn [render rev]. rewrite !map_app. destruct txt as [|x txt]; cbn [nonempty List.map rev app].
      * now rewrite <- app_assoc.
      * rewrite map_app. now rewrite <- !app_assoc.
  - destruct SA as (EN & UN & _). rewrite EN in H. rewrite UN, RD in H.
    assert (A2 : at_ s0 t p (Nat.max m (p + k)) (prepend cs1 (firstn k (skipn p t)))) by now apply at_prepend.
    pose proof (at_rest _ _ _ _ _ E0 A2) as ER2. destruct (skipn p t) as [|c t'] eqn:ET.
    + rewrite (next_rest_nil _ ER2) in H. change (EOFChar =? EOFChar) with true in H. cbv match in H. injection H as <-.
      exists []. split; [now apply em_end with k st|]. cbn [render]. destruct txt; cbn [nonempty rev]; [now rewrite app_nil_r|].
      now rewrite map_app.
    + destruct (moves_next _ _ _ ER2) as (cs3 & EX & M3 & _). rewrite EX in H.
      assert (Cc : clean (c :: t')) by (rewrite <- ET; now apply clean_skipn). rewrite (clean_not_eof _ _ Cc) in H.
      assert (L1 : (p + 1 <= length t)%nat). { pose proof (f_equal (@length Z) ET) as X. rewrite skipn_length in X. cbn in X. lia. }
      pose proof (at_move _ _ _ _ _ _ _ A2 L1 M3) as A3. destruct (IH _ _ _ _ _ _ A3 H) as (items & EM & RE).
      exists (Plain c :: items). split; [|exact RE]. apply em_plain with k st; [exact EVR|].
      replace t' with (skipn (p + 1) t); [exact EM|]. rewrite <- skipn_skipn', ET. reflexivity.
  - now destruct (S2 k).
Qed.
End Embed.

Lemma embeds_chars g r t l : Embeds g r t l -> concat (List.map chars l) = t.
Proof.
  induction 1 as [| |]; cbn [List.map concat chars]; [reflexivity|now rewrite IHEmbeds|]. rewrite IHEmbeds. apply firstn_skipn.
Qed.

(** Enough fuel for all places of a text. *)
Lemma common_fuel (P : nat -> nat -> Prop) L : (forall p, (p <= L)%nat -> exists n, forall m, (n <= m)%nat -> P m p) ->
  exists n, forall m p, (n <= m)%nat -> (p <= L)%nat -> P m p.
Proof.
  induction L as [|L IH]; intros H.
  - destruct (H O (le_n _)) as (n & X). exists n. intros m p Hm Hp. replace p with O by lia. auto.
  - destruct IH as (n & X); [intros p Hp; apply H; lia|]. destruct (H (S L) (le_n _)) as (n' & X').
    exists (Nat.max n n'). intros m p Hm Hp. destruct (Nat.eq_dec p (S L)) as [->|]; [apply X'; lia|apply X; lia].
Qed.

Section EmbedEnds.
Variables (g : rules_t) (r : rule) (t : list Z) (s0 : stream).
Hypothesis W : wfRules g.
Hypothesis WR : wfRule r.
Hypothesis C : clean t.
Hypothesis E0 : rest s0 = t.
Hypothesis DEF : forall p, exists o, Ev g r NOT_SKIP (skipn p t) o.
Hypothesis SAFE : forall p, careful g r NOT_SKIP (skipn p t).
Hypothesis USES : forall p n u k st, Ev g r NOT_SKIP (skipn p t) (OMatch n u k st) -> (1 <= u)%nat.

Lemma embed_fuel : exists n, forall m p, (n <= m)%nat -> (p <= length t)%nat -> exists y, sem m g r NOT_SKIP (skipn p t) = SOk y.
Proof.
  apply (common_fuel (fun m p => exists y, sem m g r NOT_SKIP (skipn p t) = SOk y)). intros p _. destruct (DEF p) as (o & E).
  destruct (ev_complete _ _ _ _ _ E) as (n & H). exists n. intros m Hm. destruct (H m Hm) as [U|(y & Y & _)]; [now destruct (SAFE p m)|eauto].
Qed.

Lemma embed_ends : exists n, forall fuel, (n <= fuel)%nat -> forall lf p m cs txt kids, at_ s0 t p m cs -> (length t - p < lf)%nat ->
  exists out, embedLoop lf fuel g r cs txt kids = Ok out.
Proof.
  destruct embed_fuel as (n & HF). exists n. intros fuel Hf.
  induction lf as [|lf IH]; intros p m cs txt kids A L; [lia|]. cbn [embedLoop].
  pose proof (at_rest _ _ _ _ _ E0 A) as ER. pose proof (at_len _ _ _ _ _ A) as LP.
  destruct (HF fuel p Hf LP) as (y & Y).
  pose proof (sem_lock g fuel W r NOT_SKIP cs (skipn p t) WR (clean_skipn p t C) ER) as X. rewrite Y in X.
  destruct X as (res & cs1 & -> & SA & MV). cbn [bind]. pose proof (sem_sound _ _ _ _ _ _ Y) as EVR.
  destruct SA as (LR & RD & SA). rewrite skipn_length in LR.
  assert (LY : (p + reads y <= length t)%nat) by lia. pose proof (at_move _ _ _ _ _ _ _ A LY MV) as A1.
  destruct y as [n0 u k st|k st|k]; cbn [reads noAmb] in *.
  - destruct SA as (LU & UN & _ & nd & EN & <-). rewrite EN. pose proof (USES _ _ _ _ _ EVR) as U1.
    apply IH with (p := (p + u)%nat) (m := Nat.max m (p + k)); [|lia].
    rewrite UN, skipn_firstn', skipn_skipn'. apply at_prepend. now replace (p + u + (k - u))%nat with (p + k)%nat by lia.
  - destruct SA as (EN & UN & _). rewrite EN, UN, RD.
    assert (A2 : at_ s0 t p (Nat.max m (p + k)) (prepend cs1 (firstn k (skipn p t)))) by now apply at_prepend.
    pose proof (at_rest _ _ _ _ _ E0 A2) as ER2. destruct (skipn p t) as [|c t'] eqn:ET.
    + rewrite (next_rest_nil _ ER2). change (EOFChar =? EOFChar) with true. cbv match. eauto.
    + destruct (moves_next _ _ _ ER2) as (cs3 & -> & M3 & _). assert (Cc : clean (c :: t')) by (rewrite <- ET; now apply clean_skipn).
      rewrite (clean_not_eof _ _ Cc).
      assert (L1 : (p + 1 <= length t)%nat). { pose proof (f_equal (@length Z) ET) as X. rewrite skipn_length in X. cbn in X. lia. }
      pose proof (at_move _ _ _ _ _ _ _ A2 L1 M3) as A3. eapply IH; [exact A3|lia].
  - destruct SA as (EN & UN & _). rewrite EN, UN. cbn [prepend]. pose proof (at_rest _ _ _ _ _ E0 A1) as ER2.
    destruct (list_nil_or (skipn (p + k) t)) as [ET|(c & t' & ET)]; rewrite ET in ER2.
    + rewrite (next_rest_nil _ ER2). change (EOFChar =? EOFChar) with true. cbv match. eauto.
    + destruct (moves_next _ _ _ ER2) as (cs3 & -> & M3 & _). assert (Cc : clean (c :: t')) by (rewrite <- ET; now apply clean_skipn).
      rewrite (clean_not_eof _ _ Cc).
      assert (L1 : (p + k + 1 <= length t)%nat). { pose proof (f_equal (@length Z) ET) as X. rewrite skipn_length in X. cbn in X. lia. }
      pose proof (at_move _ _ _ _ _ _ _ A1 L1 M3) as A3. eapply IH; [exact A3|lia].
Qed.
End EmbedEnds.

(* ------------------------------------------------------------------ *)
(** ** Whole texts *)

(** A round, on the text. *)
Fixpoint semAll (fuel : nat) (g : rules_t) (f : Z) (t : list Z) (rules : list rule) : sout (list sres) :=
  match rules with
  | [] => SOk []
  | r :: rs => let! y := sem fuel g r f t in let! ys := semAll fuel g f t rs in SOk (y :: ys)
  end.
Definition hitsOf (ys : list sres) : list (node * nat) :=
  flat_map (fun y => match y with Match n u _ _ => [(n, u)] | _ => [] end) ys.
Fixpoint rawText (lf fuel : nat) (g : rules_t) (roots : list rule) (f : Z) (t : list Z) (nodes : list node) : outcome verdict :=
  match lf with
  | O => OutOfFuel
  | S lf' =>
    match t with
    | [] => Ok (match nodes with [] => VNoNode | _ => VTree (rev nodes) end)
    | _ =>
      match semAll fuel g f t roots with
      | SOk ys =>
        match pick (hitsOf ys) with
        | PNone => Ok VNoMatch
        | POne n u => rawText lf' fuel g roots (if n_sticky n then SUGGEST_NOT_SKIP else SUGGEST_SKIP) (skipn u t) (n :: nodes)
        | _ => Ok VAmbiguity
        end
      | _ => OutOfFuel
      end
    end
  end.

Definition picked (x : result * result + option result) : option (option result) := match x with inl _ => None | inr y => Some y end.
Lemma picked_some x y : picked x = Some y -> x = inr y.
Proof. destruct x; [discriminate|]. now intros [= ->]. Qed.
Lemma picked_none x : picked x = None -> exists a b, x = inl (a, b).
Proof. destruct x as [[a b]|]; [eauto|discriminate]. Qed.
Lemma rawSel_selLoop l : forall m fnd, picked (rawSel m fnd l) = selLoop m fnd l.
Proof.
  induction l as [|r l IH]; intros m fnd; cbn [rawSel selLoop]; [reflexivity|].
  destruct (Z.ltb_spec (countUsed r) m), (Z.eqb_spec (countUsed r) m), (countUsed r >=? m) eqn:E; rewrite ?Z.geb_leb in E;
    destruct fnd; try lia; rewrite ?IH; auto.
  now replace m with (countUsed r) by lia.
Qed.
Lemma rawSelect_select l : picked (rawSelect l) = select l.
Proof. destruct l as [|a [|b l]]; [reflexivity..|]. apply rawSel_selLoop. Qed.

Lemma sem_match g fuel r f t n u k st : wfRules g -> wfRule r -> clean t -> sem fuel g r f t = SOk (Match n u k st) ->
  n_sticky n = st /\ (u <= k)%nat /\ (k <= length t)%nat.
Proof.
  intros W WR C Y. pose proof (sem_lock g fuel W r f (newStream t) t WR C eq_refl) as L. rewrite Y in L.
  destruct L as (res & s' & EV & (LR & _ & LU & _ & ST & nd & EN & EE) & _).
  pose proof (eval_ok g fuel W r (newStream t) f WR C) as G. rewrite EV in G. destruct G as [[_ _ N] _].
  destruct (N nd EN) as [_ X]. subst n st. cbn [reads] in LR. split; [|auto]. rewrite <- X. destruct nd; reflexivity.
Qed.

Lemma semAll_spec fuel g f t rules : (forall r, In r rules -> sem fuel g r f t <> SUnsafe) ->
  (exists ys, semAll fuel g f t rules = SOk ys /\ Forall2 (fun r y => sem fuel g r f t = SOk y) rules ys) \/
  (semAll fuel g f t rules = SFuel /\ exists r, In r rules /\ sem fuel g r f t = SFuel).
Proof.
  induction rules as [|r rules IH]; intros H; cbn [semAll].
  - left. exists []. auto.
  - destruct (sem fuel g r f t) as [y| |] eqn:Y; cbn [sbind].
    + destruct IH as [(ys & -> & F)|(-> & x & I & X)].
      * intros x Hx. apply H. now right.
      * left. exists (y :: ys). cbn [sbind]. auto.
      * right. split; [reflexivity|]. exists x. split; [now right|exact X].
    + now destruct (H r (or_introl eq_refl)).
    + right. split; [reflexivity|]. exists r. split; [now left|exact Y].
Qed.
Lemma semAll_perm fuel g f t l l' : Permutation l l' -> (forall r, In r l -> sem fuel g r f t <> SUnsafe) ->
  match semAll fuel g f t l with
  | SOk ys => exists ys', semAll fuel g f t l' = SOk ys' /\ Permutation ys ys'
  | SUnsafe => False
  | SFuel => semAll fuel g f t l' = SFuel
  end.
Proof.
  intros P H. assert (H' : forall r, In r l' -> sem fuel g r f t <> SUnsafe).
  { intros r Hr. apply H. now apply (Permutation_in r (Permutation_sym P)). }
  destruct (semAll_spec fuel g f t l H) as [(ys & -> & F)|(-> & x & I & X)].
  - destruct (Permutation_Forall2 P F) as (ys' & P' & F'). exists ys'. split; [|exact P'].
    destruct (semAll_spec fuel g f t l' H') as [(zs & -> & F2)|(_ & x & I & X)].
    + f_equal. clear - F' F2. revert zs F2. induction F' as [|r y l ys R F IH]; intros zs F2; inversion F2 as [|? z ? zs' R2 F3]; subst; [reflexivity|].
      f_equal; [congruence|auto].
    + exfalso. clear - F' I X. induction F' as [|r y l ys R F IH]; [exact I|]. destruct I as [->|I]; [congruence|auto].
  - destruct (semAll_spec fuel g f t l' H') as [(zs & _ & F2)|(-> & _)]; [|reflexivity]. exfalso.
    assert (I' : In x l') by now apply (Permutation_in x P). clear - F2 I' X.
    induction F2 as [|r y l ys R F IH]; [exact I'|]. destruct I' as [->|I']; [congruence|auto].
Qed.

Lemma hitsOf_perm ys ys' : Permutation ys ys' -> Permutation (hitsOf ys) (hitsOf ys').
Proof. intros P. unfold hitsOf. now apply Permutation_flat_map. Qed.
Lemma hitsOf_in ys n u : In (n, u) (hitsOf ys) <-> exists k st, In (Match n u k st) ys.
Proof.
  unfold hitsOf. rewrite in_flat_map. split.
  - intros (y & I & H). destruct y as [n' u' k st|k st|k]; [|destruct H..]. destruct H as [[= -> ->]|[]]. eauto.
  - intros (k & st & I). exists (Match n u k st). split; [exact I|now left].
Qed.

Section Raw.
Variables (g : rules_t) (t : list Z) (s0 : stream).
Hypothesis W : wfRules g.
Hypothesis C : clean t.
Hypothesis E0 : rest s0 = t.

Definition ready (f : Z) (p K : nat) (order : list rule) : Prop :=
  (length order <= 1)%nat \/ (K = 0%nat /\ (length order <= 2)%nat) \/
  (ForallOrdPairs (even g t) order /\ forall r o, In r order -> Ev g r f (skipn p t) o -> K = 0%nat \/ looked o = K).
Definition furthest (K : nat) (ys : list sres) : nat := fold_left (fun K y => Nat.max K (reads y)) ys K.

Lemma furthest_ge ys : forall K, (K <= furthest K ys)%nat.
Proof. unfold furthest. induction ys as [|y ys IH]; intros K; cbn [fold_left]; [lia|]. specialize (IH (Nat.max K (reads y))). lia. Qed.
Lemma furthest_in ys : forall K y, In y ys -> (reads y <= furthest K ys)%nat.
Proof.
  induction ys as [|z ys IH]; intros K y; [intros []|]. intros [->|I]; [|now apply IH]. unfold furthest. cbn [fold_left].
  pose proof (furthest_ge ys (Nat.max K (reads y))). unfold furthest in *. lia.
Qed.
Lemma furthest_is ys : forall K, furthest K ys = K \/ exists y, In y ys /\ furthest K ys = reads y.
Proof.
  induction ys as [|z ys IH]; intros K; [now left|]. unfold furthest. cbn [fold_left]. fold (furthest (Nat.max K (reads z)) ys).
  destruct (IH (Nat.max K (reads z))) as [->|(y & I & ->)]; [|right; exists y; split; [now right|reflexivity]].
  destruct (Nat.max_spec K (reads z)) as [[_ ->]|[_ ->]]; [right; exists z; split; [now left|reflexivity]|now left].
Qed.

Lemma roots_lock fuel f p M : mode f -> forall order, (forall x, In x order -> wfRule (snd x)) ->
  forall k K cs matched errors ml, at_ s0 t (p + k) (Nat.max M (p + K)) cs -> (k = K \/ order = []) -> (p + K <= length t)%nat ->
  ready f p K (List.map snd order) -> Forall2 relm (List.map snd matched) ml -> (forall x, In x ml -> (snd x <= K)%nat) ->
  match semAll fuel g f (skipn p t) (List.map snd order) with
  | SUnsafe => True
  | SFuel => rootsLoop fuel g order cs f (firstn K (skipn p t)) matched errors = OutOfFuel
  | SOk ys => let K' := furthest K ys in exists matched' errors' cs' k',
      rootsLoop fuel g order cs f (firstn K (skipn p t)) matched errors = Ok (matched', errors', firstn K' (skipn p t), cs') /\
      Forall2 relm (List.map snd matched') (rev ml ++ hitsOf ys) /\ at_ s0 t (p + k') (Nat.max M (p + K')) cs' /\ (p + K' <= length t)%nat /\
      (forall x, In x (rev ml ++ hitsOf ys) -> (snd x <= K')%nat)
  end.
Proof.
  intros MF. induction order as [|[n r] order IH]; intros HW k K cs matched errors ml A HK LK HR F HL; cbn [rootsLoop List.map snd semAll].
  - unfold furthest. cbn [fold_left]. exists (rev matched), (rev errors), cs, k. split; [reflexivity|]. cbn [hitsOf flat_map]. rewrite app_nil_r, map_rev.
    split; [now apply Forall2_rev|]. split; [exact A|]. split; [exact LK|]. intros x Hx. apply in_rev in Hx. auto.
  - destruct HK as [->|]; [|discriminate]. pose proof (HW _ (or_introl eq_refl)) as WR. cbn [snd] in WR.
    assert (A0 : at_ s0 t p (Nat.max M (p + K)) (prepend cs (firstn K (skipn p t)))) by now apply at_prepend.
    pose proof (at_rest _ _ _ _ _ E0 A0) as ER.
    pose proof (sem_lock g fuel W r f _ (skipn p t) WR (clean_skipn p t C) ER) as L. unfold lock in L.
    destruct (sem fuel g r f (skipn p t)) as [y| |] eqn:Y; cbn [sbind]; [|exact I|now rewrite L].
    destruct L as (res & cs1 & EV & SA & MV). rewrite EV. cbn [bind].
    pose proof (sem_sound _ _ _ _ _ _ Y) as EVR. pose proof SA as (LR & RD & _). rewrite skipn_length in LR.
    assert (LP : (p <= length t)%nat) by lia.
    assert (LY : (p + reads y <= length t)%nat) by lia. pose proof (at_move _ _ _ _ _ _ _ A0 LY MV) as A1.
    assert (EK : (if (length (firstn K (skipn p t)) <? length (r_read res))%nat then r_read res else firstn K (skipn p t)) =
      firstn (Nat.max K (reads y)) (skipn p t)).
    { rewrite RD, !firstn_length, skipn_length.
      destruct (Nat.ltb_spec (Nat.min K (length t - p)) (Nat.min (reads y) (length t - p))); f_equal; lia. }
    rewrite EK. replace (Nat.max (Nat.max M (p + K)) (p + reads y)) with (Nat.max M (p + Nat.max K (reads y))) in A1 by lia.
    assert (HK' : reads y = Nat.max K (reads y) \/ order = []).
    { destruct HR as [HR|[[-> HR]|[FP HR]]]; cbn [length] in HR; rewrite ?map_length in HR.
      - right. destruct order; [reflexivity|cbn in HR; lia].
      - left. lia.
      - left. destruct (HR r _ (or_introl eq_refl) EVR) as [->|HR']; [lia|]. rewrite looked_noAmb in HR'. lia. }
    assert (HR' : ready f p (Nat.max K (reads y)) (List.map snd order)).
    { destruct HR as [HR|[[-> HR]|[FP HR]]]; cbn [List.map snd length] in HR.
      - left. lia.
      - left. lia.
      - right; right. inversion FP as [|? ? FA FP']; subst. split; [exact FP'|]. intros r2 o2 I2 E2.
        rewrite Forall_forall in FA. destruct (FA r2 I2 f p _ _ MF EVR E2) as [X _]. rewrite looked_noAmb in X. right.
        destruct (HR r _ (or_introl eq_refl) EVR) as [->|HR']; [lia|]. rewrite looked_noAmb in HR'. lia. }
    set (matched1 := match r_node res with Some _ => (n, res) :: matched | None => matched end).
    set (ml1 := match y with Match nd u _ _ => (nd, u) :: ml | _ => ml end).
    assert (F1 : Forall2 relm (List.map snd matched1) ml1).
    { unfold matched1, ml1. destruct y as [nd u k0 st|k0 st|k0]; destruct SA as (_ & _ & X).
      - pose proof X as (_ & _ & _ & nd0 & EN & EE). rewrite EN. cbn [List.map snd]. constructor; [|exact F].
        split; [exists nd0; auto|]. eapply says_count. split; [|split; [exact RD|exact X]]. cbn [reads]. rewrite skipn_length. cbn [reads] in LR. lia.
      - destruct X as (-> & _). exact F.
      - destruct X as (-> & _). exact F. }
    assert (HL1 : forall x, In x ml1 -> (snd x <= Nat.max K (reads y))%nat).
    { unfold ml1. destruct y as [nd u k0 st|k0 st|k0]; cbn [reads].
      - destruct SA as (_ & _ & LU & _). intros x [<-|Hx]; [cbn; lia|]. specialize (HL x Hx). lia.
      - intros x Hx. specialize (HL x Hx). lia.
      - intros x Hx. specialize (HL x Hx). lia. }
    specialize (IH (fun x Hx => HW x (or_intror Hx)) (reads y) (Nat.max K (reads y)) cs1 matched1 (match r_err res with Some e => (n, e) :: errors | None => errors end) ml1 A1 HK' ltac:(lia) HR' F1 HL1).
    destruct (semAll fuel g f (skipn p t) (List.map snd order)) as [ys| |]; cbn [sbind]; [|exact I|exact IH].
    cbv zeta in IH |- *. destruct IH as (matched' & errors' & cs' & k' & X & F' & A' & L' & HL'). exists matched', errors', cs', k'.
    unfold furthest in *. cbn [fold_left].
    assert (EM : rev ml1 ++ hitsOf ys = rev ml ++ hitsOf (y :: ys)).
    { unfold ml1, hitsOf. cbn [flat_map]. destruct y; cbn [rev app]; [now rewrite <- app_assoc|reflexivity..]. }
    rewrite <- EM. auto.
Qed.

Variables (roots : list (list Z * rule)) (o : orders).
Hypothesis HR : forall x, In x roots -> wfRule (snd x).
Hypothesis HO : legal roots o.
Hypothesis SAFE : forall x f p, In x roots -> mode f -> careful g (snd x) f (skipn p t).
Hypothesis ORD : orderly g (List.map snd roots) t.
Hypothesis AGAIN : looksAgain g (List.map snd roots) t.

Lemma roots_perm (R : rule -> ores -> Prop) order outs : Permutation order roots -> Forall2 R (List.map snd order) outs ->
  exists outs', Forall2 R (List.map snd roots) outs' /\ Permutation outs outs'.
Proof. intros P F. destruct (Permutation_Forall2 (Permutation_map snd P) F) as (outs' & P' & F'). eauto. Qed.

Lemma even_sym r1 r2 : even g t r1 r2 -> even g t r2 r1.
Proof. intros H f p o1 o2 MF E1 E2. destruct (H f p o2 o1 MF E2 E1) as [A B]. split; [congruence|]. intros X. rewrite X. apply B. congruence. Qed.
Lemma even_perm l l' : Permutation l l' -> ForallOrdPairs (even g t) l -> ForallOrdPairs (even g t) l'.
Proof.
  clear E0.
  induction 1 as [|x l l' P IH|x y l|l1 l2 l3 P1 IH1 P2 IH2]; intros F; auto.
  - inversion F as [|? ? FA FP]; subst. constructor; [eapply Permutation_Forall; eauto|auto].
  - inversion F as [|? ? FA FP]; subst. inversion FP as [|? ? FA' FP']; subst. inversion FA as [|? ? EX FA2]; subst.
    constructor; [constructor; [now apply even_sym|exact FA']|]. constructor; assumption.
Qed.

Lemma ready_start f p order : Permutation order roots -> ready f p 0 (List.map snd order).
Proof.
  intros P. destruct ORD as [L|F].
  - right; left. split; [reflexivity|]. rewrite map_length in *. now rewrite (Permutation_length P).
  - right; right. split; [|auto]. eapply even_perm; [|exact F]. apply Permutation_map. now apply Permutation_sym.
Qed.

Lemma evs_of fuel f p rules ys : Forall2 (fun r y => sem fuel g r f (skipn p t) = SOk y) rules ys ->
  Forall2 (fun r x => Ev g r f (skipn p t) x) rules (List.map noAmb ys).
Proof. induction 1; cbn [List.map]; constructor; auto. eapply sem_sound; eauto. Qed.

Lemma nodup_hits fuel f p ys n u : mode f -> Forall2 (fun r y => sem fuel g r f (skipn p t) = SOk y) (List.map snd roots) ys ->
  strictlyLongest (hitsOf ys) n u -> NoDup (List.map snd (hitsOf ys)).
Proof.
  clear E0 AGAIN SAFE.
  intros MF F S. destruct ORD as [L|FP].
  - assert (LH : (length (hitsOf ys) <= 2)%nat).
    { rewrite (Forall2_len _ _ _ F) in L. clear - L. assert (X : (length (hitsOf ys) <= length ys)%nat); [|lia].
      clear L. induction ys as [|y ys IH]; [cbn; lia|]. unfold hitsOf in *. cbn [flat_map]. rewrite app_length. destruct y; cbn [length]; lia. }
    destruct S as (l1 & l2 & E & FA). rewrite E in *. rewrite app_length in LH. cbn [length] in LH.
    destruct l1 as [|x [|]]; [|destruct l2|cbn in LH; lia]; cbn [length] in LH; try lia.
    + destruct l2 as [|x [|]]; cbn [length] in LH; try lia; cbn [app List.map snd]; [constructor; [intros []|constructor]|].
      cbn [app] in FA. inversion FA as [|? ? X _]; subst. constructor; [intros [E1|[]]; lia|constructor; [intros []|constructor]].
    + cbn [app] in *. inversion FA as [|? ? X _]; subst. cbn [List.map snd]. constructor; [intros [E1|[]]; lia|constructor; [intros []|constructor]].
  - clear S. revert FP ys F. generalize (List.map snd roots). intros rules FP. induction FP as [|r rules FA FP IH]; intros ys F.
    + inversion F; subst. constructor.
    + inversion F as [|? y ? ys' Y F']; subst. specialize (IH ys' F'). unfold hitsOf in *. cbn [flat_map].
      destruct y as [n1 u1 k1 st1|k1 st1|k1]; cbn [app List.map snd]; [|exact IH..]. constructor; [|exact IH].
      intros I. apply in_map_iff in I as ([n2 u2] & E2 & I2). cbn [snd] in E2. subst u2. apply (hitsOf_in ys' n2 u1) in I2 as (k2 & st2 & I2).
      assert (X : exists r2, In r2 rules /\ sem fuel g r2 f (skipn p t) = SOk (Match n2 u1 k2 st2)).
      { clear - F' I2. induction F' as [|r2 y l ys R F IH]; [destruct I2|]. destruct I2 as [->|I2].
        - exists r2. split; [now left|exact R].
        - destruct (IH I2) as (r3 & I3 & X). exists r3. split; [now right|exact X]. }
      destruct X as (r2 & I3 & Y2). rewrite Forall_forall in FA.
      destruct (FA r2 I3 f p _ _ MF (sem_sound _ _ _ _ _ _ Y) (sem_sound _ _ _ _ _ _ Y2)) as [_ X]. cbn [noAmb lengths] in X. now specialize (X eq_refl).
Qed.

Definition sameRes (x : verdict) (y : outcome (rawRes * stream)) : Prop :=
  match y with Ok (r, _) => x = verdictOf r | _ => False end.

Lemma pick_strict l n u : pick l = POne n u -> strictlyLongest l n u.
Proof.
  intros H. apply strictly_filter. unfold pick in H. destruct (List.filter _ l) as [|[n1 u1] [|]]; try discriminate.
  destruct (earlyTie None l); [discriminate|]. now injection H as -> ->.
Qed.
Lemma hits_noAmb ys : flat_map (fun o => match o with OMatch n u _ _ => [(n, u)] | OFail _ _ => [] end) (List.map noAmb ys) = hitsOf ys.
Proof. unfold hitsOf. induction ys as [|y ys IH]; [reflexivity|]. cbn [List.map flat_map]. rewrite IH. now destruct y. Qed.

Lemma rounds_next rules f0 t0 f t' : Rounds g rules f0 t0 f t' -> forall outs n u st, t' <> [] ->
  Forall2 (fun r o => Ev g r f t' o) rules outs ->
  strictlyLongest (flat_map (fun o => match o with OMatch n u _ _ => [(n, u)] | OFail _ _ => [] end) outs) n u ->
  (exists k, In (OMatch n u k st) outs) -> (u <= length t')%nat ->
  Rounds g rules f0 t0 (if st then SUGGEST_NOT_SKIP else SUGGEST_SKIP) (skipn u t').
Proof.
  induction 1 as [f t1|f t1 o1 n1 u1 st1 f' t' NE F SL IN LE R IH]; intros outs n u st NE' F' SL' IN' LE'.
  - eapply rd_round; eauto. constructor.
  - eapply rd_round; eauto.
Qed.

Lemma raw_lock fuel : forall lf round s unused f nodes nodes' p M, mode f -> at_ s0 t p M (prepend s unused) -> depth s = depth s0 ->
  List.map erase nodes = nodes' -> Rounds g (List.map snd roots) SUGGEST_SKIP t f (skipn p t) ->
  ((p < length t)%nat -> forall outs, Forall2 (fun r x => Ev g r f (skipn p t) x) (List.map snd roots) outs ->
     (exists n' u' k' st', In (OMatch n' u' k' st') outs) -> (M <= p)%nat \/ exists x, In x outs /\ (M <= p + looked x)%nat) ->
  match rawText lf fuel g (List.map snd roots) f (skipn p t) nodes' with
  | OutOfFuel => rawLoop lf fuel g o round s unused f nodes = OutOfFuel
  | Panic => False
  | Ok x => sameRes x (rawLoop lf fuel g o round s unused f nodes)
  end.
Proof.
  induction lf as [|lf IH]; intros round s unused f nodes nodes' p M MF A D EN RD INV; cbn [rawText rawLoop]; [reflexivity|].
  pose proof (at_rest _ _ _ _ _ E0 A) as ER. rewrite (peek_rest (prepend s unused)), ER.
  destruct (list_nil_or (skipn p t)) as [ET|(c & t' & ET)]; rewrite ET.
  - change (EOFChar =? EOFChar) with true. cbv match. subst nodes'. destruct nodes as [|nd nodes]; [reflexivity|]. cbn [List.map].
    cbn [sameRes verdictOf]. f_equal. change (rev (List.map erase (nd :: nodes)) = List.map erase (rev (nd :: nodes))). symmetry. apply map_rev.
  - assert (Cc : clean (c :: t')) by (rewrite <- ET; now apply clean_skipn). rewrite (clean_not_eof _ _ Cc). rewrite <- ET.
    assert (LP : (p < length t)%nat). { pose proof (f_equal (@length Z) ET) as X. rewrite skipn_length in X. cbn in X. lia. }
    pose proof (lg_roots _ _ HO round) as PR. set (order := o_roots o round) in *.
    assert (HW : forall x, In x order -> wfRule (snd x)) by (intros x Hx; apply HR; now apply (Permutation_in x PR)).
    assert (SF : forall r, In r (List.map snd order) -> sem fuel g r f (skipn p t) <> SUnsafe).
    { intros r Hr. apply in_map_iff in Hr as (x & <- & Hx). apply SAFE; [now apply (Permutation_in x PR)|exact MF]. }
    assert (SF' : forall r, In r (List.map snd roots) -> sem fuel g r f (skipn p t) <> SUnsafe).
    { intros r Hr. apply in_map_iff in Hr as (x & <- & Hx). now apply SAFE. }
    assert (A0 : at_ s0 t (p + 0) (Nat.max M (p + 0)) (prepend s unused)).
    { pose proof A as (_ & X & _). rewrite Nat.add_0_r. now replace (Nat.max M p) with M by lia. }
    assert (ML0 : forall x : node * nat, In x [] -> (snd x <= 0)%nat) by (intros x []).
    pose proof (roots_lock fuel f p M MF order HW 0 0 (prepend s unused) [] [] [] A0 (or_introl eq_refl) ltac:(lia) (ready_start f p order PR) (Forall2_nil _) ML0) as RL.
    pose proof (semAll_perm fuel g f (skipn p t) _ _ (Permutation_map snd PR) SF) as SP.
    cbn [firstn] in RL.
    destruct (semAll_spec fuel g f (skipn p t) _ SF') as [(ys & EY & FY)|(EY & _)]; rewrite EY in *.
    2:{ destruct (semAll fuel g f (skipn p t) (List.map snd order)) as [zs| |]; [destruct SP as (? & X & _); discriminate|destruct SP|].
        now rewrite RL. }
    destruct (semAll fuel g f (skipn p t) (List.map snd order)) as [zs| |] eqn:EZ; [|destruct SP|discriminate SP].
    destruct SP as (ys0 & E & PY). injection E as <-. cbv zeta in RL. cbn [rev app] in RL.
    destruct RL as (matched & errors & cs1 & k' & RL & F & A1 & LK & HL).
    pose proof (rootsLoop_ok g W roots s fuel f order) as RO.
    assert (CU : clean unused). { pose proof (clean_skipn p t C) as X. rewrite <- ER, prepend_rest in X. now apply clean_app in X. }
    assert (CS : clean (rest s)). { pose proof (clean_skipn p t C) as X. rewrite <- ER, prepend_rest in X. now apply clean_app in X. }
    specialize (RO (fun x Hx => conj (HW x Hx) (Permutation_in x PR Hx)) (prepend s unused) [] [] [] (behind_prepend s s unused CU (behind_refl s CS)) (Forall_nil _) (fun _ X => match X with end)).
    rewrite RL in RO |- *. cbn [bind]. destruct RO as (_ & _ & HM).
    pose proof (lg_matched _ _ HO round matched) as PM. set (ms := o_matched o round matched) in *.
    destruct (Permutation_Forall2 (Permutation_map snd (Permutation_sym PM)) F) as (hs & PH & FH).
    pose proof (select_pick _ _ FH) as SEL. rewrite <- rawSelect_select in SEL.
    assert (PP : Permutation (hitsOf ys) hs).
    { eapply Permutation_trans; [|exact PH]. apply hitsOf_perm. now apply Permutation_sym. }
    pose proof (pick_perm _ _ PP (fun n u => nodup_hits fuel f p ys n u MF FY)) as PK.
    assert (DU : unwrap (depth s) cs1 = unwrap (depth s0) cs1) by now rewrite D.
    destruct (pick (hitsOf ys)) as [|n u| |] eqn:EP; destruct (pick hs) as [|n1 u1| |]; try (exfalso; exact PK).
    + apply picked_some in SEL. rewrite SEL. reflexivity.
    + destruct PK as [<- <-]. destruct SEL as (res & SEL & [(nd & ND & NE) CT] & IN & _). apply picked_some in SEL. rewrite SEL, ND. cbn [fst snd] in NE, CT. subst n.
      apply rawSelect_in in SEL. apply in_map_iff in SEL as (x & <- & Hx).
      assert (Hx' : In x matched) by (eapply Permutation_in; [exact PM|exact Hx]).
      destruct (HM x Hx') as (AC & LR & r0 & nd0 & IR & ND' & DV & SN). rewrite ND in ND'. injection ND' as <-.
      rewrite CT.
      assert (HU : (u <= furthest 0 zs)%nat).
      { apply (HL (erase nd, u)). apply (Permutation_in _ (Permutation_sym PH)). exact IN. }
      assert (INY : exists k st, In (Match (erase nd) u k st) ys) by (apply hitsOf_in; apply (Permutation_in _ (Permutation_sym PP)); exact IN).
      rewrite slice_from_ok by (rewrite firstn_length, skipn_length; lia). cbn [bind].
      rewrite skipn_firstn', !skipn_skipn'. rewrite DU.
      assert (FE : Forall2 (fun r x => Ev g r f (skipn p t) x) (List.map snd roots) (List.map noAmb ys)) by exact (evs_of fuel f p _ _ FY).
      assert (SL : strictlyLongest (flat_map (fun o => match o with OMatch n u _ _ => [(n, u)] | OFail _ _ => [] end) (List.map noAmb ys)) (erase nd) u)
        by (rewrite hits_noAmb; now apply pick_strict).
      destruct INY as (k & st & INY).
      assert (IO : In (OMatch (erase nd) u k st) (List.map noAmb ys)) by (apply (in_map noAmb) in INY; exact INY).
      assert (ST : n_sticky (erase nd) = st /\ (u <= length (skipn p t))%nat).
      { assert (X : exists r, In r (List.map snd roots) /\ sem fuel g r f (skipn p t) = SOk (Match (erase nd) u k st)).
        { clear - FY INY. induction FY as [|r y l ys R F IH]; [destruct INY|]. destruct INY as [->|IN]; [exists r; split; [now left|exact R]|].
          destruct (IH IN) as (r2 & I2 & X). exists r2. split; [now right|exact X]. }
        destruct X as (r & Ir & Y). apply in_map_iff in Ir as (x1 & <- & Ix). destruct (sem_match _ _ _ _ _ _ _ _ _ W (HR x1 Ix) (clean_skipn p t C) Y) as (? & ? & ?). split; [assumption|lia]. }
      destruct ST as [ST LU0].
      replace (n_sticky (erase nd)) with (r_sticky (snd x)) in * by (rewrite <- SN; now destruct nd).
      assert (MK : Nat.max M (p + furthest 0 zs) = (p + furthest 0 zs)%nat).
      { destruct (INV LP _ FE) as [X|(x0 & IX & X)]; [eauto|lia|].
        apply in_map_iff in IX as (y & <- & IY). rewrite looked_noAmb in X.
        assert (IZ : In y zs) by (apply (Permutation_in _ (Permutation_sym PY)); exact IY).
        pose proof (furthest_in zs 0 y IZ). lia. }
      rewrite MK in A1. pose proof (at_unwrap _ _ _ _ _ A1) as A2.
      assert (A3 : at_ s0 t (p + u) (p + furthest 0 zs) (prepend (unwrap (depth s0) cs1) (firstn (furthest 0 zs - u) (skipn (p + u) t)))).
      { apply at_prepend. now replace (p + u + (furthest 0 zs - u))%nat with (p + furthest 0 zs)%nat by lia. }
      apply IH with (M := (p + furthest 0 zs)%nat).
      * unfold mode. destruct (r_sticky (snd x)); auto.
      * exact A3.
      * apply unwrap_depth. apply A1.
      * cbn [List.map]. now rewrite EN.
      * rewrite ST, <- skipn_skipn'. eapply rounds_next; [exact RD|rewrite ET; discriminate|exact FE|exact SL|eauto|exact LU0].
      * intros LU outs' FO MO. right. rewrite ST, <- skipn_skipn' in FO.
        assert (LU' : (u < length (skipn p t))%nat) by (rewrite skipn_length; lia).
        pose proof (AGAIN f (skipn p t) (List.map noAmb ys) outs' (erase nd) u k st) as AG.
        destruct (furthest_is zs 0) as [E|(y & IY & E)].
        -- destruct (AG _ RD FE SL IO LU' FO MO IO) as (o' & I' & X). exists o'. split; [exact I'|]. lia.
        -- assert (IY' : In (noAmb y) (List.map noAmb ys)) by (apply in_map; apply (Permutation_in _ PY); exact IY).
           destruct (AG _ RD FE SL IO LU' FO MO IY') as (o' & I' & X). exists o'. split; [exact I'|].
           rewrite looked_noAmb in X. lia.
    + destruct (picked_none _ SEL) as (xa & xb & EX). rewrite EX. reflexivity.
Qed.
End Raw.

Lemma rawText_whole g roots : wfRules g -> (forall r, In r roots -> wfRule r) -> forall lf fuel f t nodes a, clean t ->
  mode f -> (forall r f p, In r roots -> mode f -> careful g r f (skipn p t)) ->
  rawText lf fuel g roots f t nodes = Ok (VTree a) -> exists l, Whole g roots f t l /\ a = rev nodes ++ List.map fst l.
Proof.
  intros W HR. induction lf as [|lf IH]; intros fuel f t nodes a C MF SAFE H; cbn [rawText] in H; [discriminate|].
  destruct t as [|c t0].
  - destruct nodes; [discriminate|]. injection H as <-. exists []. split; [constructor|]. now rewrite app_nil_r.
  - set (t := c :: t0) in *. assert (SF : forall r, In r roots -> sem fuel g r f t <> SUnsafe) by (intros r Hr; exact (SAFE r f O Hr MF fuel)).
    destruct (semAll_spec fuel g f t roots SF) as [(ys & EY & FY)|(EY & _)]; rewrite EY in H; [|discriminate].
    destruct (pick (hitsOf ys)) as [|n u| |] eqn:EP; try discriminate. apply pick_strict in EP.
    assert (IN : exists k st, In (Match n u k st) ys).
    { apply hitsOf_in. destruct EP as (l1 & l2 & -> & _). apply in_or_app. right. now left. }
    destruct IN as (k & st & IN).
    assert (X : exists r, In r roots /\ sem fuel g r f t = SOk (Match n u k st)).
    { clear - FY IN. induction FY as [|r y l ys R F IH]; [destruct IN|]. destruct IN as [->|IN]; [exists r; split; [now left|exact R]|].
      destruct (IH IN) as (r2 & I2 & X). exists r2. split; [now right|exact X]. }
    destruct X as (r & IR & Y). destruct (sem_match _ _ _ _ _ _ _ _ _ W (HR r IR) C Y) as (ST & LU & LK). rewrite ST in H.
    assert (SAFE' : forall r f p, In r roots -> mode f -> careful g r f (skipn p (skipn u t))).
    { intros r' f' p Hr MF'. rewrite skipn_skipn'. now apply SAFE. }
    assert (MF' : mode (if st then SUGGEST_NOT_SKIP else SUGGEST_SKIP)) by (unfold mode; destruct st; auto).
    destruct (IH fuel _ _ _ _ (clean_skipn u t C) MF' SAFE' H) as (l & WH & ->). exists ((n, firstn u t) :: l). split.
    + apply wh_round with (outs := List.map noAmb ys) (st := st); [discriminate| | | |lia|exact WH].
      * clear - FY. induction FY; cbn [List.map]; constructor; auto. eapply sem_sound; eauto.
      * now rewrite hits_noAmb.
      * exists k. apply (in_map noAmb) in IN. exact IN.
    + cbn [rev List.map fst]. now rewrite <- app_assoc.
Qed.
Lemma whole_chars g roots f t l : Whole g roots f t l -> concat (List.map snd l) = t.
Proof. induction 1; cbn [List.map concat snd]; [reflexivity|]. rewrite IHWhole. apply firstn_skipn. Qed.

(* ------------------------------------------------------------------ *)
(** ** The statements *)

Lemma evalRule_total fuel g name sample : wfRules (rules_of g) -> runesOk sample -> evalRule fuel g name sample <> Panic.
Proof.
  intros W C. unfold evalRule. rewrite getRule_rules. destruct (lookup (rules_of g) name) as [r|] eqn:E; [|discriminate].
  pose proof (eval_ok _ fuel W r (newStream sample) SUGGEST_SKIP (W _ _ E) C) as G.
  destruct (eval fuel _ r _ _) as [[res s']| |]; cbn [bind]; [discriminate|destruct G|discriminate].
Qed.
Lemma evalEmbed_total lf fuel g name sample x : wfRules (rules_of g) -> runesOk sample -> evalEmbed lf fuel g name sample = Some x -> x <> Panic.
Proof.
  intros W C. unfold evalEmbed. rewrite getRule_rules. destruct (lookup (rules_of g) name) as [r|] eqn:E; [|discriminate]. intros [= <-].
  pose proof (embedLoop_ok _ W r (W _ _ E) lf fuel (newStream sample) [] [] C) as G.
  destruct (embedLoop _ _ _ _ _ _ _); cbn [bind]; [discriminate|destruct G|discriminate].
Qed.
Definition wfRoots (roots : list (list Z * rule)) : Prop := forall x, In x roots -> wfRule (snd x).

Lemma evalRaw_total lf fuel g roots o s : wfRules g -> wfRoots roots -> legal roots o -> runesOk (rest s) ->
  evalRaw lf fuel g o s <> Panic.
Proof. intros W HR HO C E. pose proof (evalRaw_ok g W roots o HR HO lf fuel s C) as G. rewrite E in G. exact G. Qed.
Lemma evalTop_total lf fuel g roots o s level : wfRules g -> wfRoots roots -> legal roots o -> runesOk (rest s) ->
  evalTop lf fuel g o s level <> Panic.
Proof.
  intros W HR HO C. unfold evalTop. pose proof (evalRaw_ok g W roots o HR HO lf fuel s C) as G.
  destruct (evalRaw lf fuel g o s) as [[r s']| |]; cbn [bind]; [discriminate|destruct G|discriminate].
Qed.
Lemma evalRaw_trees lf fuel g roots o s a s' : wfRules g -> wfRoots roots -> legal roots o -> runesOk (rest s) ->
  evalRaw lf fuel g o s = Ok (RawOk a, s') ->
  a <> [] /\ (forall n, In n a -> exists x, In x roots /\ derives g (snd x) n) /\ exists k, (k <= length (rest s))%nat /\ rest s' = skipn k (rest s).
Proof.
  intros W HR HO C E. pose proof (evalRaw_ok g W roots o HR HO lf fuel s C) as G. rewrite E in G. destruct G as (A & B & k & L & M).
  split; [exact A|]. split; [exact B|]. exists k. split; [exact L|]. now apply moves_rest.
Qed.

Lemma embed_shape lf fuel g name sample r n : wfRules (rules_of g) -> runesOk sample -> lookup (rules_of g) name = Some r ->
  evalEmbed lf fuel g name sample = Some (Ok n) ->
  n_name n = name /\ n_type n = TEmbed /\ tidy false (n_kids n) /\ forall k, In k (n_kids n) -> isText k = true \/ derives (rules_of g) r k.
Proof.
  intros W C E. unfold evalEmbed. rewrite getRule_rules, E. intros [= H].
  pose proof (embedLoop_ok _ W r (W _ _ E) lf fuel (newStream sample) [] [] C) as G.
  destruct (embedLoop _ _ _ _ _ _ _) as [kids| |]; cbn [bind] in H; [|discriminate..]. injection H as <-.
  destruct G as (new & -> & A & B). cbn [rev app n_kids n_name n_type]. auto.
Qed.
Lemma embed_partition lf fuel g name sample r n : wfRules (rules_of g) -> runesOk sample -> lookup (rules_of g) name = Some r ->
  (forall p, clearCut (rules_of g) r NOT_SKIP (skipn p sample)) ->
  evalEmbed lf fuel g name sample = Some (Ok n) ->
  exists items, Embeds (rules_of g) r sample items /\ concat (List.map chars items) = sample /\ List.map erase (n_kids n) = render [] items.
Proof.
  intros W C E CC. unfold evalEmbed. rewrite getRule_rules, E. intros [= H].
  destruct (embedLoop _ _ _ _ _ _ _) as [kids| |] eqn:EL; cbn [bind] in H; [|discriminate..]. injection H as <-.
  destruct (embed_text (rules_of g) r sample (newStream sample) W (W _ _ E) C eq_refl fuel (fun p => CC p fuel) lf 0 0 _ [] [] kids (at_start _ _ eq_refl) EL) as (items & A & B).
  exists items. split; [exact A|]. split; [eapply embeds_chars; exact A|exact B].
Qed.
Lemma embed_returns g name sample r : wfRules (rules_of g) -> runesOk sample -> lookup (rules_of g) name = Some r ->
  (forall p, exists o, Ev (rules_of g) r NOT_SKIP (skipn p sample) o) ->
  (forall p, careful (rules_of g) r NOT_SKIP (skipn p sample)) ->
  (forall p n u k st, Ev (rules_of g) r NOT_SKIP (skipn p sample) (OMatch n u k st) -> (1 <= u)%nat) ->
  exists fuel n, evalEmbed (S (length sample)) fuel g name sample = Some (Ok n).
Proof.
  intros W C E DEF SAFE USES.
  destruct (embed_ends (rules_of g) r sample (newStream sample) W (W _ _ E) C eq_refl DEF SAFE USES) as (fuel & H).
  destruct (H fuel (le_n _) (S (length sample)) O O (newStream sample) [] [] (at_start _ _ eq_refl) ltac:(lia)) as (kids & EK).
  exists fuel. unfold evalEmbed. rewrite getRule_rules, E, EK. cbn [bind]. eauto.
Qed.

Section RawSpec.
Variables (g : rules_t) (roots : list (list Z * rule)) (s : stream).
Hypothesis W : wfRules g.
Hypothesis HR : wfRoots roots.
Hypothesis C : runesOk (rest s).
Hypothesis SAFE : forall x f p, In x roots -> mode f -> careful g (snd x) f (skipn p (rest s)).
Hypothesis ORD : orderly g (List.map snd roots) (rest s).
Hypothesis AGAIN : looksAgain g (List.map snd roots) (rest s).

Lemma evalRaw_text o lf fuel : legal roots o -> rest s <> [] ->
  match rawText lf fuel g (List.map snd roots) SUGGEST_SKIP (rest s) [] with
  | OutOfFuel => evalRaw lf fuel g o s = OutOfFuel
  | Panic => False
  | Ok x => sameRes x (evalRaw lf fuel g o s)
  end.
Proof.
  intros HO NE. unfold evalRaw. rewrite peek_rest. destruct (rest s) as [|c t] eqn:ES; [congruence|].
  rewrite (clean_not_eof c t C). rewrite <- ES in *.
  apply (raw_lock g (rest s) s W C eq_refl roots o HR HO SAFE ORD AGAIN fuel lf 0 s [] SUGGEST_SKIP [] [] 0 0).
  - now left.
  - now apply at_start.
  - reflexivity.
  - reflexivity.
  - constructor.
  - intros _ outs _ _. left. lia.
Qed.
Lemma evalRaw_whole o lf fuel a s' : legal roots o -> evalRaw lf fuel g o s = Ok (RawOk a, s') ->
  exists l, Whole g (List.map snd roots) SUGGEST_SKIP (rest s) l /\ List.map erase a = List.map fst l /\ concat (List.map snd l) = rest s.
Proof.
  intros HO E. assert (NE : rest s <> []).
  { intros X. unfold evalRaw in E. rewrite peek_rest, X in E. discriminate. }
  pose proof (evalRaw_text o lf fuel HO NE) as X. rewrite E in X.
  destruct (rawText lf fuel g (List.map snd roots) SUGGEST_SKIP (rest s) []) as [y| |] eqn:ET; [|destruct X|discriminate X]. cbn [sameRes] in X.
  cbn [verdictOf] in X. subst y.
  assert (HR' : forall r, In r (List.map snd roots) -> wfRule r) by (intros r Hr; apply in_map_iff in Hr as (x & <- & Hx); auto).
  assert (SAFE' : forall r f p, In r (List.map snd roots) -> mode f -> careful g r f (skipn p (rest s))).
  { intros r f p Hr MF. apply in_map_iff in Hr as (x & <- & Hx). auto. }
  destruct (rawText_whole g _ W HR' lf fuel _ _ [] _ C (or_introl eq_refl) SAFE' ET) as (l & WH & EA). exists l. split; [exact WH|]. split; [exact EA|].
  eapply whole_chars; eauto.
Qed.
Lemma evalRaw_orders o1 o2 lf fuel : legal roots o1 -> legal roots o2 -> sameRaw (evalRaw lf fuel g o1 s) (evalRaw lf fuel g o2 s).
Proof.
  intros H1 H2. destruct (list_nil_or (rest s)) as [E|(c & t & E)].
  - unfold evalRaw. rewrite peek_rest, E. reflexivity.
  - assert (NE : rest s <> []) by (rewrite E; discriminate). pose proof (evalRaw_text o1 lf fuel H1 NE) as X1. pose proof (evalRaw_text o2 lf fuel H2 NE) as X2.
    destruct (rawText lf fuel g (List.map snd roots) SUGGEST_SKIP (rest s) []) as [y| |]; [|destruct X1|rewrite X1, X2; exact I].
    destruct (evalRaw lf fuel g o1 s) as [[x1 s1]| |]; [|destruct X1|destruct X1].
    destruct (evalRaw lf fuel g o2 s) as [[x2 s2]| |]; [|destruct X2|destruct X2].
    cbn [sameRes sameRaw] in *. congruence.
Qed.
End RawSpec.

(** With a single root rule the iteration order does not matter at all. *)
Lemma perm_small {A} (l : list A) : (length l <= 1)%nat -> forall l', Permutation l' l -> l' = l.
Proof.
  intros L l' P. destruct l as [|x [|]]; [now apply Permutation_nil, Permutation_sym|now apply Permutation_length_1_inv, Permutation_sym|cbn in L; lia].
Qed.
Lemma rootsLoop_count fuel g f : forall order cs rd ms es ms' es' rd' cs', rootsLoop fuel g order cs f rd ms es = Ok (ms', es', rd', cs') ->
  (length ms' <= length order + length ms)%nat /\ (length es' <= length order + length es)%nat.
Proof.
  induction order as [|[n r] order IH]; intros cs rd ms es ms' es' rd' cs' H; cbn [rootsLoop] in H.
  - injection H as <- <- _ _. rewrite !rev_length. cbn. lia.
  - destruct (eval _ _ _ _ _) as [[res cs1]| |]; cbn [bind] in H; [|discriminate..]. apply IH in H. destruct (r_node res), (r_err res); cbn [length] in *; lia.
Qed.
Lemma rawLoop_one g roots o1 o2 : (length roots <= 1)%nat -> legal roots o1 -> legal roots o2 -> forall lf fuel round s unused f nodes,
  rawLoop lf fuel g o1 round s unused f nodes = rawLoop lf fuel g o2 round s unused f nodes.
Proof.
  intros L H1 H2. induction lf as [|lf IH]; intros fuel round s unused f nodes; cbn [rawLoop]; [reflexivity|].
  destruct (_ =? _); [reflexivity|].
  rewrite (perm_small _ L _ (lg_roots _ _ H1 round)), (perm_small _ L _ (lg_roots _ _ H2 round)).
  destruct (rootsLoop _ _ _ _ _ _ _ _) as [[[[ms es] rd] cs1]| |] eqn:E; cbn [bind]; [|reflexivity..].
  apply rootsLoop_count in E. cbn [length] in E. assert (LM : (length ms <= 1)%nat) by lia. assert (LE : (length es <= 1)%nat) by lia.
  rewrite (perm_small _ LE _ (lg_errors _ _ H1 es)), (perm_small _ LE _ (lg_errors _ _ H2 es)).
  rewrite (perm_small _ L _ (lg_desc _ _ H1)), (perm_small _ L _ (lg_desc _ _ H2)).
  rewrite (perm_small _ LM _ (lg_matched _ _ H1 round ms)), (perm_small _ LM _ (lg_matched _ _ H2 round ms)).
  destruct (rawSelect _) as [[x m]|[res|]]; [reflexivity| |reflexivity]. destruct (r_node res); [|reflexivity].
  destruct (slice_from _ _); cbn [bind]; [apply IH|reflexivity..].
Qed.
Lemma evalRaw_one g roots o1 o2 lf fuel s : (length roots <= 1)%nat -> legal roots o1 -> legal roots o2 ->
  evalRaw lf fuel g o1 s = evalRaw lf fuel g o2 s.
Proof. intros L H1 H2. unfold evalRaw. destruct (_ =? _); [reflexivity|]. eapply rawLoop_one; eauto. Qed.

(** Without root rules nothing is accepted. *)
Lemma evalRaw_noRoots lf fuel g o s : legal [] o -> runesOk (rest s) ->
  match evalRaw lf fuel g o s with Ok (RawOk _, _) => False | _ => True end.
Proof.
  intros HO C. unfold evalRaw. rewrite peek_rest. destruct (rest s) as [|c t] eqn:E; [exact I|]. rewrite (clean_not_eof c t C).
  destruct lf as [|lf]; cbn [rawLoop]; [exact I|]. cbn [prepend]. rewrite peek_rest, E, (clean_not_eof c t C).
  rewrite (perm_small [] (Nat.le_0_1) _ (lg_roots _ _ HO 0)). cbn [rootsLoop bind rev].
  rewrite (perm_small [] (Nat.le_0_1) _ (lg_matched _ _ HO 0 [])). reflexivity || exact I.
Qed.
Lemma evalRaw_exhausted lf fuel g o s : rest s = [] -> evalRaw lf fuel g o s = Ok (RawEmpty, s).
Proof. intros E. unfold evalRaw. now rewrite peek_rest, E. Qed.
Lemma undefined_rule lf fuel g name sample : lookup (rules_of g) name = None ->
  (exists res, evalRule fuel g name sample = Ok res /\ r_node res = None /\ r_err res = Some (EUndefined noBase name)) /\
  evalEmbed lf fuel g name sample = None.
Proof. intros E. unfold evalRule, evalEmbed. rewrite getRule_rules, E. split; [|reflexivity]. eexists. split; [reflexivity|]. auto. Qed.

(* ------------------------------------------------------------------ *)
(** ** Deciding the conditions on a given text *)

Lemma sem_ok_careful n g r f t y : sem n g r f t = SOk y -> forall fuel, sem fuel g r f t = SFuel \/ sem fuel g r f t = SOk y.
Proof.
  intros E fuel. destruct (Nat.le_ge_cases fuel n) as [L|L].
  - destruct (sem_mono g fuel n r f t L) as [X|X]; [auto|]. right. congruence.
  - destruct (sem_mono g n fuel r f t L) as [X|X]; [congruence|]. right. congruence.
Qed.
Definition isClear (n : nat) (g : rules_t) (r : rule) (f : Z) (t : list Z) : bool :=
  match sem n g r f t with SOk (Match _ _ _ _) | SOk (Fail _ _) => true | _ => false end.
Definition isCareful (n : nat) (g : rules_t) (r : rule) (f : Z) (t : list Z) : bool :=
  match sem n g r f t with SOk _ => true | _ => false end.
Lemma isClear_ok n g r f t : isClear n g r f t = true -> clearCut g r f t.
Proof.
  unfold isClear. destruct (sem n g r f t) as [y| |] eqn:E; try discriminate. intros H fuel.
  destruct (sem_ok_careful _ _ _ _ _ _ E fuel) as [-> | ->]; split; try discriminate; try (intros k; destruct y; discriminate).
Qed.
Lemma isCareful_ok n g r f t : isCareful n g r f t = true -> careful g r f t.
Proof.
  unfold isCareful. destruct (sem n g r f t) as [y| |] eqn:E; try discriminate. intros _ fuel.
  destruct (sem_ok_careful _ _ _ _ _ _ E fuel) as [-> | ->]; discriminate.
Qed.
Fixpoint tails (t : list Z) : list (list Z) := t :: match t with [] => [] | _ :: t' => tails t' end.
Lemma tails_all t : forall p, In (skipn p t) (tails t).
Proof. induction t as [|c t IH]; intros [|p]; cbn; auto. Qed.
Definition everywhere (P : list Z -> bool) (t : list Z) : bool := forallb P (tails t).
Lemma everywhere_ok P t : everywhere P t = true -> forall p, P (skipn p t) = true.
Proof. unfold everywhere. rewrite forallb_forall. intros H p. apply H, tails_all. Qed.
Definition modes : list Z := [SUGGEST_SKIP; SUGGEST_NOT_SKIP].
Lemma modes_all f : mode f -> In f modes.
Proof. intros [->| ->]; cbn; auto. Qed.
Definition rootsCareful (n : nat) (g : rules_t) (roots : list (list Z * rule)) (t : list Z) : bool :=
  forallb (fun x => forallb (fun f => everywhere (isCareful n g (snd x) f) t) modes) roots.
Lemma rootsCareful_ok n g roots t : rootsCareful n g roots t = true ->
  forall x f p, In x roots -> mode f -> careful g (snd x) f (skipn p t).
Proof.
  unfold rootsCareful. rewrite forallb_forall. intros H x f p I M. specialize (H x I). rewrite forallb_forall in H.
  apply isCareful_ok with n. apply everywhere_ok with (P := isCareful n g (snd x) f). apply H. now apply modes_all.
Qed.
(** The outcomes of the roots at a place. *)
Lemma outs_of n g f t rules ys outs : semAll n g f t rules = SOk ys -> Forall2 (fun r o => Ev g r f t o) rules outs -> outs = List.map noAmb ys.
Proof.
  revert ys outs. induction rules as [|r rules IH]; intros ys outs E F; cbn [semAll] in E; inversion F as [|? o ? outs' EV F']; subst.
  - now injection E as <-.
  - destruct (sem n g r f t) as [y| |] eqn:Y; cbn [sbind] in E; [|discriminate..].
    destruct (semAll n g f t rules) as [zs| |]; cbn [sbind] in E; [|discriminate..]. injection E as <-. cbn [List.map]. f_equal.
    + eapply ev_det; [exact EV|]. eapply sem_sound; eauto.
    + now apply IH.
Qed.
Definition againAt (n : nat) (g : rules_t) (rules : list rule) (f : Z) (t : list Z) : bool :=
  match semAll n g f t rules with
  | SOk ys => forallb (fun x => match x with
      | Match _ u _ _ => negb (u <? length t)%nat ||
          forallb (fun f' => match semAll n g f' (skipn u t) rules with
            | SOk zs => forallb (fun y => existsb (fun z => (reads y <=? u + reads z)%nat) zs) ys
            | _ => false end) modes
      | _ => true end) ys
  | _ => false
  end.
Definition isAgain (n : nat) (g : rules_t) (rules : list rule) (t : list Z) : bool :=
  forallb (fun f => everywhere (againAt n g rules f) t) modes.
Lemma rounds_skip g roots f t f' t' : Rounds g roots f t f' t' -> mode f -> mode f' /\ exists p, t' = skipn p t.
Proof.
  induction 1 as [f t|f t outs n u st f' t' NE F SL IN LE R IH]; intros M; [split; [exact M|now exists O]|].
  destruct IH as (M' & p & ->); [unfold mode; destruct st; auto|]. split; [exact M'|]. exists (u + p)%nat. apply skipn_skipn'.
Qed.
Lemma isAgain_ok n g rules t : isAgain n g rules t = true -> looksAgain g rules t.
Proof.
  unfold isAgain. rewrite forallb_forall. intros H f t' outs outs' nd u k st o RD F _ IN LU F' _ IO.
  destruct (rounds_skip _ _ _ _ _ _ RD (or_introl eq_refl)) as (M & p & ->). rewrite skipn_length in LU.
  set (f' := if st then SUGGEST_NOT_SKIP else SUGGEST_SKIP) in *. assert (M' : mode f') by (unfold mode, f'; destruct st; auto). clearbody f'.
  rewrite skipn_skipn' in F'.
  specialize (H f (modes_all f M)). pose proof (everywhere_ok _ _ H p) as X. unfold againAt in X.
  destruct (semAll n g f (skipn p t) rules) as [ys| |] eqn:EY; [|discriminate..].
  rewrite (outs_of _ _ _ _ _ _ _ EY F) in IN, IO. rewrite forallb_forall in X.
  apply in_map_iff in IN as (y & E & IY). destruct y as [nd' u' k' st'|k' st'|k']; cbn [noAmb] in E; try discriminate. injection E as -> -> -> ->.
  specialize (X _ IY). cbv beta iota in X.
  assert (LP : (p < length t)%nat) by (destruct (Nat.lt_ge_cases p (length t)); lia).
  rewrite skipn_length in X. replace (u <? length t - p)%nat with true in X by (symmetry; apply Nat.ltb_lt; lia). cbn [negb orb] in X.
  rewrite forallb_forall in X. specialize (X f' (modes_all f' M')). rewrite skipn_skipn' in X.
  destruct (semAll n g f' (skipn (p + u) t) rules) as [zs| |] eqn:EZ; [|discriminate..].
  rewrite (outs_of _ _ _ _ _ _ _ EZ F'). apply in_map_iff in IO as (y & <- & IY'). rewrite forallb_forall in X. specialize (X _ IY').
  apply existsb_exists in X as (z & IZ & LZ). apply Nat.leb_le in LZ. exists (noAmb z). split; [now apply in_map|]. now rewrite !looked_noAmb.
Qed.

(** A match without used runes repeats for ever. *)
Lemma embed_stuck g r t N n k st : wfRules g -> wfRule r -> clean t -> sem N g r NOT_SKIP t = SOk (Match n 0 k st) ->
  forall lf fuel cs txt kids, rest cs = t -> embedLoop lf fuel g r cs txt kids = OutOfFuel.
Proof.
  intros W WR C Y. induction lf as [|lf IH]; intros fuel cs txt kids E; cbn [embedLoop]; [reflexivity|].
  pose proof (sem_lock g fuel W r NOT_SKIP cs t WR C E) as L.
  destruct (sem_ok_careful _ _ _ _ _ _ Y fuel) as [X|X]; rewrite X in L; cbn [lock] in L; [now rewrite L|].
  destruct L as (res & cs1 & -> & (LR & RD & _ & UN & _ & nd & EN & _) & MV). cbn [bind reads] in *. rewrite EN. apply IH.
  rewrite prepend_rest, UN, (moves_rest _ _ _ MV), E. cbn [skipn]. apply firstn_skipn.
Qed.
Lemma storedOrder_legal g : legal (rootsOf g) (storedOrder g).
Proof. split; intros; apply Permutation_refl. Qed.
Definition reversed (o : orders) : orders := mkOrders (o_roots o) (fun k l => rev (o_matched o k l)) (fun l => rev (o_errors o l)) (rev (o_desc o)).
Lemma reversed_legal roots o : legal roots o -> legal roots (reversed o).
Proof.
  intros [A B D E]. split; [exact A| | |].
  - intros k l. cbn. eapply Permutation_trans; [apply Permutation_sym, Permutation_rev|apply B].
  - intros l. cbn. eapply Permutation_trans; [apply Permutation_sym, Permutation_rev|apply D].
  - cbn. eapply Permutation_trans; [apply Permutation_sym, Permutation_rev|apply E].
Qed.
Lemma okRoots_ok roots : forallb (fun x => okRule (snd x)) roots = true -> wfRoots roots.
Proof. rewrite forallb_forall. intros H x I. apply okRule_ok. auto. Qed.
Lemma embed_class nulls ranks g name sample r : wfRules (rules_of g) -> runesOk sample ->
  lookup (rules_of g) name = Some r -> noCircles nulls ranks (rules_of g) = true -> nullable nulls r = false ->
  (forall p, careful (rules_of g) r NOT_SKIP (skipn p sample)) ->
  exists fuel n, evalEmbed (S (length sample)) fuel g name sample = Some (Ok n).
Proof.
  intros W C L NC NL CA. eapply embed_returns; eauto.
  - intros p. eapply noCircles_total; eauto.
  - intros p n u k st E. assert (HN : forall m x, lookup (rules_of g) m = Some x -> nullable nulls x = true -> isIn m nulls = true).
    { intros m x Hx. destruct (lookup_In _ _ _ Hx) as (m' & I & ->). unfold noCircles in NC. rewrite forallb_forall in NC. specialize (NC _ I). cbn in NC.
      rewrite !andb_true_iff, orb_true_iff, negb_true_iff in NC. intros NX. destruct NC as [_ [X|X]]; congruence. }
    exact (proj1 (uses nulls (rules_of g) HN W r _ _ n u k st (W _ _ L) NL E)).
Qed.
Lemma evalRaw_nonempty loopFuel fuel g roots o s a s' : wfRules g -> wfRoots roots -> legal roots o -> runesOk (rest s) ->
  evalRaw loopFuel fuel g o s = Ok (RawOk a, s') -> a <> [].
Proof. intros W HR HO C E. exact (proj1 (evalRaw_trees _ _ _ _ _ _ _ _ W HR HO C E)). Qed.
