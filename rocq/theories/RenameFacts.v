(** Evaluation commutes with renaming and with dropping marks. *)
From Verif Require Import Base Stream StreamFacts Node Rule TermSpec Parse Grammar SpecRename.

Lemma bind_onOk {A B C} (h : A -> B) (m : outcome A) (k : B -> outcome C) : bind (onOk h m) k = bind m (fun x => k (h x)).
Proof. now destruct m. Qed.
Lemma onOk_bind {A B C} (h : B -> C) (m : outcome A) (k : A -> outcome B) : onOk h (bind m k) = bind m (fun x => onOk h (k x)).
Proof. now destruct m. Qed.
Lemma bind_ext {A B} (m : outcome A) (k k' : A -> outcome B) : (forall a, k a = k' a) -> bind m k = bind m k'.
Proof. intros H. destruct m; cbn; auto. Qed.

Section Image.
Variable rho : list Z -> list Z.
Variable marks : bool.
Hypothesis RN : renaming rho.
Notation imB := (imBase rho marks).
Notation imR := (imRule rho marks).
Notation imN := (imNode rho marks).
Notation imE := (imErr rho marks).
Notation imX := (imRes rho marks).
Definition imP (p : result * stream) : result * stream := (imX (fst p), snd p).

Lemma rho_eqb a b : runes_eqb (rho a) (rho b) = runes_eqb a b.
Proof.
  destruct (runes_eqb a b) eqn:E.
  - apply runes_eqb_eq in E. subst. apply runes_eqb_eq. reflexivity.
  - destruct (runes_eqb (rho a) (rho b)) eqn:F; [|reflexivity]. apply runes_eqb_eq in F. apply (rn_inj _ RN) in F. subst.
    assert (runes_eqb b b = true) by (apply runes_eqb_eq; reflexivity). congruence.
Qed.
Lemma rho_nonempty a : nonempty (rho a) = nonempty a.
Proof.
  destruct a as [|x a]; [now rewrite (rn_none _ RN)|]. destruct (rho (x :: a)) eqn:E; [|reflexivity].
  rewrite <- (rn_none _ RN) in E. apply (rn_inj _ RN) in E. discriminate.
Qed.
Lemma lookup_im g n : lookup (imRules rho marks g) (rho n) = option_map imR (lookup g n).
Proof.
  induction g as [|[m r] g IH]; [reflexivity|]. cbn [imRules List.map fst snd lookup]. rewrite rho_eqb.
  destruct (runes_eqb m n); [reflexivity|exact IH].
Qed.
Lemma descOk_im r : descOk (imR r) = descOk r.
Proof.
  induction r using rule_ind'; cbn [imRule descOk imBase b_name]; rewrite ?rho_nonempty; try congruence; f_equal.
  - f_equal.
    + clear H. induction gs as [|x gs IH]; [reflexivity|]. cbn [List.map existsb]. rewrite IH. f_equal. now destruct x.
    + induction gs as [|x gs IH]; [reflexivity|]. cbn [List.map forallb]. rewrite IH by (intros ? ? I; apply H; now right).
      f_equal. assert (Hx : forall y, In y x -> descOk (imR y) = descOk y) by (intros y I; apply (H x); [now left|exact I]).
      clear H IH. induction x as [|y x IH]; [reflexivity|]. cbn [List.map forallb]. rewrite IH by (intros; apply Hx; now right). f_equal. apply Hx. now left.
  - f_equal; [now destruct l|]. induction l as [|y l IH]; [reflexivity|]. cbn [List.map forallb]. rewrite IH by (intros; apply H; now right). f_equal. apply H. now left.
Qed.
Lemma mkNode_im ty b ch ks pos st : mkNode ty (imB b) ch (List.map imN ks) pos st = imN (mkNode ty b ch ks pos st).
Proof. reflexivity. Qed.
Lemma toggle_im b n : toggle (imB b) (imN n) = imN (toggle b n).
Proof. destruct n. unfold toggle, imBase. cbn. f_equal; destruct marks; cbn; try reflexivity. Qed.
Lemma pos_im n : n_pos (imN n) = n_pos n. Proof. now destruct n. Qed.
Lemma orPos_im p n : orPos p (imN n) = orPos p n. Proof. destruct p; [reflexivity|apply pos_im]. Qed.
Lemma flag_im f n st : nextFlag f (imN n) st = nextFlag f n st.
Proof. destruct n as [ty nm ch ks po sk vi nd tk]. unfold nextFlag. cbn. destruct ks; reflexivity. Qed.

Lemma char_im b t s f : evalChar (imB b) t s f = imP (evalChar b t s f).
Proof.
  unfold evalChar. destruct (peek s =? EOFChar); [reflexivity|]. destruct (f =? SUGGEST_SKIP).
  - destruct (skipSpaces (snd (positionOf s))) as [sp s2]. destruct (isWS t && nonempty sp).
    + destruct (find_idx t sp); reflexivity.
    + destruct (negb (peek s2 =? t)); [reflexivity|]. destruct (positionOf s2) as [pos s']. destruct (next s') as [c s'']. reflexivity.
  - destruct (negb (peek (snd (positionOf s)) =? t)); [reflexivity|]. destruct (positionOf (snd (positionOf s))) as [pos s']. destruct (next s') as [c s'']. reflexivity.
Qed.
Lemma chars_im b t s f : evalChars (imB b) t s f = imP (evalChars b t s f).
Proof.
  unfold evalChars. destruct (peek s =? EOFChar); [reflexivity|]. destruct (f =? SUGGEST_SKIP).
  - destruct (skipSpaces (snd (positionOf s))) as [sp s2]. destruct (length sp <? length (leadingWS t))%nat; [reflexivity|]. destruct (negb (tail_is sp (leadingWS t))); [reflexivity|].
    destruct (matchRunes s2 _) as [[got ok] s']. destruct ok; reflexivity.
  - destruct (matchRunes (snd (positionOf s)) t) as [[got ok] s']. destruct ok; reflexivity.
Qed.
Lemma string_im b t s f : evalString (imB b) t s f = imP (evalString b t s f).
Proof.
  unfold evalString. destruct (peek s =? EOFChar); [reflexivity|]. destruct ((f =? SUGGEST_SKIP) || (f =? SUGGEST_NOT_SKIP)).
  - destruct (skipSpaces (snd (positionOf s))) as [sp s2]. destruct (length sp <? length (leadingWS t))%nat; [reflexivity|]. destruct (negb (tail_is sp (leadingWS t))); [reflexivity|].
    destruct (matchRunes s2 _) as [[got ok] s']. destruct ok; reflexivity.
  - destruct (matchRunes (snd (positionOf s)) t) as [[got ok] s']. destruct ok; reflexivity.
Qed.
Lemma range_im b lo hi s f : evalRange (imB b) lo hi s f = imP (evalRange b lo hi s f).
Proof.
  unfold evalRange. destruct (peek s =? EOFChar); [reflexivity|]. destruct (f =? SUGGEST_SKIP).
  - destruct (skipSpaces s) as [sp s2]. destruct (find_idxp _ sp); [reflexivity|].
    destruct ((lo <=? peek (snd (positionOf s2))) && (peek (snd (positionOf s2)) <=? hi)); [|reflexivity]. destruct (next (snd (positionOf s2))). reflexivity.
  - destruct ((lo <=? peek (snd (positionOf s))) && (peek (snd (positionOf s)) <=? hi)); [|reflexivity]. destruct (next (snd (positionOf s))). reflexivity.
Qed.
Lemma eof_im b s f : evalEOF (imB b) s f = imP (evalEOF b s f).
Proof.
  unfold evalEOF. destruct (if f =? 1 then skipSpaces s else ([], s)) as [sp s1]. destruct (peek s1 =? EOFChar); [|reflexivity].
  destruct (positionOf s1) as [pos s2]. unfold imP, imRes. cbn. now rewrite (rn_eof _ RN).
Qed.

Lemma used_im r : charsUsed (imX r) = charsUsed r. Proof. reflexivity. Qed.
Lemma count_im r : countUsed (imX r) = countUsed r. Proof. reflexivity. Qed.
Lemma account_im rd un r : account rd un (imX r) = account rd un r. Proof. reflexivity. Qed.

Lemma sel_im l : forall mu fnd, selLoop mu (option_map imX fnd) (List.map imX l) = option_map (option_map imX) (selLoop mu fnd l).
Proof.
  induction l as [|r l IH]; intros mu fnd; [reflexivity|]. cbn [List.map selLoop]. rewrite count_im.
  destruct (countUsed r <? mu); [apply IH|]. destruct (countUsed r =? mu).
  - destruct fnd; [reflexivity|]. apply (IH mu (Some r)).
  - apply (IH (countUsed r) (Some r)).
Qed.
Lemma select_im l : select (List.map imX l) = option_map (option_map imX) (select l).
Proof. destruct l as [|a [|b l]]; [reflexivity|reflexivity|]. exact (sel_im (a :: b :: l) 0 None). Qed.
Lemma tie_im l : forall mu fnd, selTie mu (option_map imX fnd) (List.map imX l) = List.map imX (selTie mu fnd l).
Proof.
  induction l as [|r l IH]; intros mu fnd; [reflexivity|]. cbn [List.map selTie]. rewrite count_im.
  destruct (countUsed r <? mu); [apply IH|]. destruct (countUsed r =? mu).
  - destruct fnd; [reflexivity|]. apply (IH mu (Some r)).
  - apply (IH (countUsed r) (Some r)).
Qed.
Lemma tied_im l : tied (List.map imX l) = List.map imN (tied l).
Proof.
  unfold tied. pose proof (tie_im l 0 None) as X. cbn [option_map] in X. rewrite X. clear X. induction (selTie 0 None l) as [|r k IH]; [reflexivity|].
  cbn [List.map flat_map]. rewrite IH, map_app. f_equal. cbn [imRes r_node]. now destruct (r_node r).
Qed.

Section Loops.
Variables rec rec' : evalT.
Hypothesis HR : forall r s f, rec' (imR r) s f = onOk imP (rec r s f).

Ltac go := rewrite ?bind_onOk, ?onOk_bind; apply bind_ext.

Lemma concat_im b self d rules : forall s f rd un st kids pos,
  concatLoop rec' (imB b) (imR self) d (List.map imR rules) s f rd un st (List.map imN kids) pos =
  onOk imP (concatLoop rec b self d rules s f rd un st kids pos).
Proof.
  induction rules as [|r rules IH]; intros; cbn [List.map concatLoop].
  - cbn [onOk]. rewrite <- map_rev. reflexivity.
  - rewrite HR. go. intros [res s2]. cbn [imP fst snd]. rewrite account_im. go. intros [rd' un'].
    cbn [imRes r_node r_sticky r_err r_erridx]. destruct (r_node res) as [n|]; cbn [option_map].
    + rewrite flag_im, orPos_im. exact (IH _ _ _ _ _ (n :: kids) _).
    + rewrite descOk_im. destruct (descOk self); reflexivity.
Qed.

Lemma repDone_im b self mn idx err ei rd un st kids pos :
  repDone (imB b) (imR self) mn idx (option_map imE err) ei rd un st (List.map imN kids) pos = onOk imX (repDone b self mn idx err ei rd un st kids pos).
Proof.
  unfold repDone. rewrite map_length. destruct (Z.of_nat (length kids) <? mn).
  - destruct err; [reflexivity|]. cbn [option_map]. rewrite descOk_im. destruct (descOk self); reflexivity.
  - rewrite <- map_rev. reflexivity.
Qed.
Lemma rep_im b self r mn mx d fuel : forall s f rd un st kids pos,
  repLoop rec' fuel (imB b) (imR self) (imR r) mn mx d s f rd un st (List.map imN kids) pos =
  onOk imP (repLoop rec fuel b self r mn mx d s f rd un st kids pos).
Proof.
  induction fuel as [|fuel IH]; intros; [reflexivity|]. cbn [repLoop]. destruct (peek (prepend s un) =? EOFChar).
  - pose proof (repDone_im b self mn (cursor (unwrap d (prepend s un))) None 0 rd un st kids pos) as X. cbn [option_map] in X. rewrite X. go. reflexivity.
  - rewrite HR. go. intros [res s2]. cbn [imP fst snd]. rewrite account_im. go. intros [rd' un'].
    cbn [imRes r_node r_sticky r_err r_erridx]. destruct (r_node res) as [n|]; cbn [option_map].
    + cbn [length]. rewrite map_length, orPos_im. destruct ((mx >? 0) && (Z.of_nat (S (length kids)) =? mx)).
      * pose proof (repDone_im b self mn (cursor (unwrap d s2)) None 0 rd' un' (st && r_sticky res) (n :: kids) (orPos pos n)) as X. cbn [option_map List.map] in X. rewrite X. go. reflexivity.
      * exact (IH _ _ _ _ _ (n :: kids) _).
    + rewrite repDone_im. go. reflexivity.
Qed.

Definition imA (x : list result * list Z * bool * option eerr * Z * stream) : list result * list Z * bool * option eerr * Z * stream :=
  let '(m, rd, st, e, i, s) := x in (List.map imX m, rd, st, option_map imE e, i, s).
Lemma alt_im d rules : forall s f rd st e i m,
  altLoop rec' d (List.map imR rules) s f rd st (option_map imE e) i (List.map imX m) = onOk imA (altLoop rec d rules s f rd st e i m).
Proof.
  induction rules as [|r rules IH]; intros; cbn [List.map altLoop].
  - cbn [onOk imA]. now rewrite <- map_rev.
  - rewrite HR. go. intros [res s1]. cbn [imP fst snd imRes r_node r_sticky r_err r_erridx r_read]. destruct (r_node res) as [n|] eqn:N; cbn [option_map].
    + pose proof (IH (unwrap d s1) f (if (length rd <? length (r_read res))%nat then r_read res else rd) (st && r_sticky res) e i (res :: m)) as X.
      exact X.
    + destruct (r_erridx res >? i); apply IH.
Qed.
Lemma choice_im b self d gs : forall s f rd st e i,
  choiceLoop rec' (imB b) (imR self) d (List.map (List.map imR) gs) s f rd st (option_map imE e) i = onOk imP (choiceLoop rec b self d gs s f rd st e i).
Proof.
  induction gs as [|g gs IH]; intros; cbn [List.map choiceLoop].
  - rewrite descOk_im. destruct (descOk self); reflexivity.
  - pose proof (alt_im d g s f rd st e i []) as X. cbn [List.map] in X. rewrite X. go. intros [[[[[m rd'] st'] e'] i'] s']. cbn [imA].
    rewrite select_im. destruct (select m) as [[fnd|]|]; cbn [option_map].
    + cbn [imRes r_node]. destruct (r_node fnd) as [n|]; cbn [option_map]; [|reflexivity]. rewrite count_im. go. intros u. cbn [onOk]. unfold imP, imRes. cbn. rewrite pos_im. reflexivity.
    + apply IH.
    + rewrite tied_im. reflexivity.
Qed.
Lemma greedy_im rules s f : mostGreedy rec' (List.map imR rules) s f = onOk imP (mostGreedy rec rules s f).
Proof.
  unfold mostGreedy. pose proof (alt_im (depth s) rules s f [] true None 0 []) as X. cbn [List.map option_map] in X. rewrite X. go. intros [[[[[m rd'] st'] e'] i'] s']. cbn [imA].
  rewrite select_im. destruct (select m) as [[fnd|]|]; cbn [option_map]; [|reflexivity|].
  - rewrite count_im. go. intros u. reflexivity.
  - rewrite tied_im. reflexivity.
Qed.
Definition imExit (e : blockExit) : blockExit :=
  match e with BExclude r u c => BExclude (imX r) u c | BEOF u n => BEOF u n | BClose r u n c => BClose (imX r) u n c end.
Definition imIter (x : stream * ((list Z * list Z * list Z) + blockExit)) : stream * ((list Z * list Z * list Z) + blockExit) :=
  (fst x, match snd x with inl a => inl a | inr e => inr (imExit e) end).
Lemma iter_im cl esc excl cs used unused content :
  blockIter rec' (imR cl) (option_map imR esc) (List.map imR excl) cs used unused content = onOk imIter (blockIter rec cl esc excl cs used unused content).
Proof.
  unfold blockIter.
  assert (E : match option_map imR esc with
    | None => Ok (false, [], used, unused, cs)
    | Some e => let* (res, cs1) := rec' e cs NOT_SKIP in
      match r_node res with Some _ => let* u := charsUsed res in Ok (true, u, used ++ u, r_unused res, cs1) | None => Ok (false, [], used, r_read res, cs1) end end =
    match esc with
    | None => Ok (false, [], used, unused, cs)
    | Some e => let* (res, cs1) := rec e cs NOT_SKIP in
      match r_node res with Some _ => let* u := charsUsed res in Ok (true, u, used ++ u, r_unused res, cs1) | None => Ok (false, [], used, r_read res, cs1) end end).
  { destruct esc as [e|]; [|reflexivity]. cbn [option_map]. rewrite HR. go. intros [res s1]. cbn [imP fst snd imRes r_node]. destruct (r_node res); reflexivity. }
  rewrite E. go. intros [[[[escaped ec] us] un] cs1].
  assert (F : forall s, match List.map imR excl with [] => Ok (None, s) | _ => let* (res, cs1) := mostGreedy rec' (List.map imR excl) s NOT_SKIP in Ok (Some res, cs1) end =
    onOk (fun p : option result * stream => (option_map imX (fst p), snd p)) match excl with [] => Ok (None, s) | _ => let* (res, cs1) := mostGreedy rec excl s NOT_SKIP in Ok (Some res, cs1) end).
  { intros s. destruct excl as [|x xs]; [reflexivity|]. change (List.map imR (x :: xs)) with (imR x :: List.map imR xs) at 1. cbv iota. rewrite greedy_im. go. intros [res s1]. reflexivity. }
  rewrite F. go. intros [ex s2]. cbn [fst snd].
  assert (X : match option_map imX ex with Some res => match r_node res with Some _ => true | None => false end | None => false end = match ex with Some res => match r_node res with Some _ => true | None => false end | None => false end).
  { destruct ex as [res|]; [|reflexivity]. cbn [option_map imRes r_node]. now destruct (r_node res). }
  rewrite X. destruct (match ex with Some res => match r_node res with Some _ => true | None => false end | None => false end) eqn:Y.
  - destruct ex as [res|]; [|discriminate]. cbn [option_map]. destruct escaped; [|reflexivity]. rewrite used_im. go. reflexivity.
  - assert (U : match option_map imX ex with Some res => r_read res | None => un end = match ex with Some res => r_read res | None => un end) by (now destruct ex).
    rewrite U. rewrite HR. go. intros [res s3]. cbn [imP fst snd]. cbn [imRes r_node r_unused]. destruct (r_node res) eqn:N; cbn [option_map].
    + rewrite <- (used_im res). unfold imRes. rewrite N. cbn [option_map]. go. intros u. destruct escaped; [reflexivity|]. cbn. unfold imIter, imExit, imRes. cbn. rewrite N. reflexivity.
    + destruct (peek _ =? EOFChar); [reflexivity|]. destruct (next _) as [c cs']. reflexivity.
Qed.
Lemma block_im fuel cl esc excl : forall cs used unused content,
  blockLoop rec' fuel (imR cl) (option_map imR esc) (List.map imR excl) cs used unused content =
  onOk (fun x => (fst x, imExit (snd x))) (blockLoop rec fuel cl esc excl cs used unused content).
Proof.
  induction fuel as [|fuel IH]; intros; [reflexivity|]. cbn [blockLoop]. rewrite iter_im. go. intros [cs' [[[u n] c]|e]]; cbn [imIter fst snd]; [apply IH|reflexivity].
Qed.
Lemma evalBlock_im fuel b o v c e xs s f :
  evalBlock rec' fuel (imB b) (imR o) v (imR c) (option_map imR e) (List.map imR xs) s f = onOk imP (evalBlock rec fuel b o v c e xs s f).
Proof.
  unfold evalBlock. rewrite HR. go. intros [ores s1]. cbn [imP fst snd imRes r_node]. destruct (r_node ores) as [on|] eqn:N; cbn [option_map]; [|reflexivity].
  rewrite <- (used_im ores). unfold imRes. rewrite N. cbn [option_map r_unused]. go. intros used. destruct (positionOf (prepend s1 (r_unused ores))) as [cpos cs].
  rewrite block_im. go. intros [cs' ex]. cbn [fst snd]. destruct ex as [xr us ct|us un|cr us un ct]; cbn [imExit].
  - rewrite used_im. go. reflexivity.
  - rewrite descOk_im. destruct (descOk c); reflexivity.
  - cbn [onOk]. unfold imP. cbn [fst snd]. unfold imRes. cbn [r_node option_map r_read]. rewrite pos_im. do 3 f_equal. f_equal.
    rewrite <- mkNode_im. f_equal. cbn [List.map]. f_equal. f_equal.
    + cbn. now rewrite (rn_none _ RN), !andb_false_r.
    + destruct v; [reflexivity|]. now destruct (r_node cr).
Qed.
End Loops.

Theorem eval_im g : forall fuel r s f, eval fuel (imRules rho marks g) (imR r) s f = onOk imP (eval fuel g r s f).
Proof.
  induction fuel as [|fuel IH]; intros r s f; [reflexivity|]. cbn [eval]. unfold evalStep at 1 2. destruct r; cbn [imRule].
  - cbn [onOk]. now rewrite char_im.
  - cbn [onOk]. now rewrite chars_im.
  - cbn [onOk]. now rewrite string_im.
  - cbn [onOk]. now rewrite range_im.
  - cbn [onOk]. now rewrite eof_im.
  - rewrite lookup_im. destruct (lookup g ref) as [r'|]; cbn [option_map]; [|reflexivity]. rewrite IH, bind_onOk, onOk_bind. apply bind_ext. intros [res s'].
    cbn [imP fst snd imRes r_node set_node]. unfold imP, imRes, set_node. cbn. destruct (r_node res); cbn; [|reflexivity]. now rewrite toggle_im.
  - rewrite IH, bind_onOk, onOk_bind. apply bind_ext. intros [res s']. cbn [imP fst snd imRes r_node]. destruct (r_node res); reflexivity.
  - rewrite IH, bind_onOk, onOk_bind. apply bind_ext. intros [res s']. cbn [imP fst snd imRes r_node]. destruct (r_node res) as [n|]; cbn [option_map onOk]; [|reflexivity]. rewrite pos_im. reflexivity.
  - exact (rep_im _ _ IH b (RRep b r rmin rmax) r rmin rmax (depth s) (S fuel) s f [] [] true [] None).
  - exact (choice_im _ _ IH b (RChoice b groups) (depth s) groups s f [] true None 0).
  - exact (concat_im _ _ IH b (RConcat b rules) (depth s) rules s f [] [] true [] None).
  - exact (evalBlock_im _ _ IH (S fuel) b r1 vclose r2 esc excl s f).
Qed.

(** The drivers. *)
Lemma rules_im g : rules_of (imGrammar rho marks g) = imRules rho marks (rules_of g).
Proof. unfold rules_of, imGrammar, imRules, imRecs. cbn [g_records]. rewrite !map_map. reflexivity. Qed.
Lemma getRule_im g n : getRule (imGrammar rho marks g) (rho n) = option_map imR (getRule g n).
Proof.
  unfold getRule, getRecord, imGrammar. cbn [g_records]. induction (g_records g) as [|[k r] l IH]; [reflexivity|].
  cbn [imRecs List.map fst snd find_rec]. rewrite rho_eqb. destruct (runes_eqb k n); [reflexivity|exact IH].
Qed.
Lemma noBase_im : imB noBase = noBase.
Proof. unfold imBase, noBase. cbn. now rewrite (rn_none _ RN), !andb_false_r. Qed.
Theorem rule_im fuel g n t : evalRule fuel (imGrammar rho marks g) (rho n) t = onOk imX (evalRule fuel g n t).
Proof.
  unfold evalRule. rewrite getRule_im. destruct (getRule g n) as [r|]; cbn [option_map].
  - rewrite rules_im, eval_im, bind_onOk, onOk_bind. apply bind_ext. intros [res s]. reflexivity.
  - cbn [onOk]. unfold imRes. cbn. now rewrite noBase_im.
Qed.
Lemma text_im_node t : imN (textNode t) = textNode t.
Proof. unfold textNode. cbn. now rewrite (rn_text _ RN), !andb_false_r. Qed.
Lemma embedLoop_im fuel g r lf : forall cs t kids,
  embedLoop lf fuel (imRules rho marks g) (imR r) cs t (List.map imN kids) = onOk (List.map imN) (embedLoop lf fuel g r cs t kids).
Proof.
  induction lf as [|lf IH]; intros; [reflexivity|]. cbn [embedLoop]. rewrite eval_im, bind_onOk, onOk_bind. apply bind_ext. intros [res cs1]. cbn [imP fst snd imRes r_node r_unused].
  assert (F : (if nonempty t then textNode t :: List.map imN kids else List.map imN kids) = List.map imN (if nonempty t then textNode t :: kids else kids)).
  { destruct (nonempty t); [|reflexivity]. cbn [List.map]. now rewrite text_im_node. }
  rewrite F. destruct (r_node res) as [n|]; cbn [option_map].
  - exact (IH _ _ (n :: _)).
  - destruct (next (prepend cs1 (r_unused res))) as [c cs3]. destruct (c =? EOFChar); [|apply IH]. cbn [onOk]. now rewrite map_rev.
Qed.
Theorem embed_im lf fuel g n t :
  evalEmbed lf fuel (imGrammar rho marks g) (rho n) t = option_map (onOk imN) (evalEmbed lf fuel g n t).
Proof.
  unfold evalEmbed. rewrite getRule_im. destruct (getRule g n) as [r|]; cbn [option_map]; [|reflexivity]. f_equal.
  pose proof (embedLoop_im fuel (rules_of g) r lf (newStream t) [] []) as X. cbn [List.map] in X. rewrite rules_im, X, bind_onOk, onOk_bind. apply bind_ext.
  intros kids. cbn. now rewrite !andb_false_r.
Qed.
Lemma map_named {A} (h : A -> A) l : List.map snd (imNamed rho h l) = List.map h (List.map snd l).
Proof. unfold imNamed. now rewrite !map_map. Qed.
Lemma rev_named {A} (h : A -> A) l : rev (imNamed rho h l) = imNamed rho h (rev l).
Proof. unfold imNamed. now rewrite map_rev. Qed.
Definition imRoots (x : list (list Z * result) * list (list Z * eerr) * list Z * stream) :=
  let '(m, e, rd, s) := x in (imNamed rho imX m, imNamed rho imE e, rd, s).
Lemma roots_im fuel g order : forall cs f rd m e,
  rootsLoop fuel (imRules rho marks g) (imNamed rho imR order) cs f rd (imNamed rho imX m) (imNamed rho imE e) =
  onOk imRoots (rootsLoop fuel g order cs f rd m e).
Proof.
  induction order as [|[n r] order IH]; intros; cbn [imNamed List.map rootsLoop fst snd].
  - cbn [onOk imRoots]. now rewrite !rev_named.
  - rewrite eval_im, bind_onOk, onOk_bind. apply bind_ext. intros [res cs1]. cbn [imP fst snd]. rewrite <- IH. f_equal.
    + cbn [imRes r_node]. now destruct (r_node res).
    + cbn [imRes r_err]. now destruct (r_err res).
Qed.
Definition imSel (x : result * result + option result) : result * result + option result :=
  match x with inl (r, m) => inl (imX r, imX m) | inr y => inr (option_map imX y) end.
Lemma rawSel_im l : forall mu fnd, rawSel mu (option_map imX fnd) (List.map imX l) = imSel (rawSel mu fnd l).
Proof.
  induction l as [|r l IH]; intros mu fnd; [reflexivity|]. cbn [List.map rawSel]. rewrite !count_im. destruct fnd as [m|]; cbn [option_map].
  - destruct (countUsed r =? mu); [reflexivity|]. destruct (countUsed r >=? mu); [exact (IH _ (Some r))|exact (IH _ (Some m))].
  - destruct (countUsed r >=? mu); [exact (IH _ (Some r))|exact (IH _ None)].
Qed.
Lemma rawSelect_im l : rawSelect (List.map imX l) = imSel (rawSelect l).
Proof. destruct l as [|a [|b l]]; [reflexivity|reflexivity|]. exact (rawSel_im (a :: b :: l) 0 None). Qed.
Definition imQ (p : rawRes * stream) : rawRes * stream := (imRaw rho marks (fst p), snd p).
Lemma raw_im fuel g o o' (SO : sameOrders rho marks o o') lf : forall k s un f ns,
  rawLoop lf fuel (imRules rho marks g) o' k s un f (List.map imN ns) = onOk imQ (rawLoop lf fuel g o k s un f ns).
Proof.
  induction lf as [|lf IH]; intros; [reflexivity|]. cbn [rawLoop]. destruct (peek (prepend s un) =? EOFChar).
  - cbn [onOk]. unfold imQ. cbn [fst snd]. do 2 f_equal. destruct ns as [|n ns]; [reflexivity|]. cbn [List.map imRaw]. f_equal. change (imN n :: List.map imN ns) with (List.map imN (n :: ns)). now rewrite map_rev.
  - rewrite (so_roots _ _ _ _ SO). pose proof (roots_im fuel g (o_roots o k) (prepend s un) f [] [] []) as X. cbn [imNamed List.map] in X. unfold imNamed at 1 in X.
    unfold imNamed at 1. rewrite X, bind_onOk, onOk_bind. apply bind_ext. intros [[[m e] rd] cs1]. cbn [imRoots].
    rewrite (so_matched _ _ _ _ SO), map_named, rawSelect_im. destruct (rawSelect (List.map snd (o_matched o k m))) as [[r mm]|[res|]]; cbn [imSel option_map].
    + reflexivity.
    + cbn [imRes r_node]. destruct (r_node res) as [n|]; cbn [option_map]; [|reflexivity]. rewrite count_im, onOk_bind. apply bind_ext. intros u. exact (IH _ _ _ _ (n :: ns)).
    + cbn [onOk]. unfold imQ. cbn [fst snd imRaw]. rewrite (so_errors _ _ _ _ SO), (so_desc _ _ _ _ SO). reflexivity.
Qed.
Theorem evalRaw_im lf fuel g o o' s : sameOrders rho marks o o' ->
  evalRaw lf fuel (imRules rho marks g) o' s = onOk imQ (evalRaw lf fuel g o s).
Proof. intros SO. unfold evalRaw. destruct (peek s =? EOFChar); [reflexivity|]. exact (raw_im fuel g o o' SO lf 0 s [] SUGGEST_SKIP []). Qed.
Lemma stored_im g : sameOrders rho marks (storedOrder g) (storedOrder (imGrammar rho marks g)).
Proof.
  assert (R : rootsOf (imGrammar rho marks g) = imNamed rho imR (rootsOf g)).
  { unfold rootsOf, imGrammar, imNamed, imRecs. cbn [g_roots]. rewrite !map_map. reflexivity. }
  constructor; intros; cbn; try reflexivity; exact R.
Qed.
End Image.

(** Simplification of renamed trees. *)
Section Simplify.
Variable rho : list Z -> list Z.
Hypothesis RN : renaming rho.
Notation imN := (imNode rho true).
Lemma text_im n : text (imN n) = text n.
Proof.
  induction n as [n IH] using node_ind'. destruct n as [ty nm ch ks po st vi nd tk]. cbn [imNode text n_chars n_type n_kids n_name] in *.
  destruct ch; [|reflexivity]. f_equal. rewrite map_map. apply map_ext_in. intros c I. rewrite Forall_forall in IH. rewrite (IH c I). f_equal. now destruct c.
Qed.
Lemma kids_im n : n_kids (imN n) = List.map imN (n_kids n). Proof. now destruct n. Qed.
Lemma set_kids_im n l : set_kids (imN n) (List.map imN l) = imN (set_kids n l). Proof. now destruct n. Qed.
Lemma set_kids_im_nil n : set_kids (imN n) [] = imN (set_kids n []). Proof. now destruct n. Qed.
Lemma set_chars_im n l : set_chars (imN n) l = imN (set_chars n l). Proof. now destruct n. Qed.
Lemma set_sticky_im n b : set_sticky (imN n) b = imN (set_sticky n b). Proof. now destruct n. Qed.
Lemma virtual_im n : removeVirtual (imN n) = imN (removeVirtual n).
Proof.
  induction n as [n IH] using node_ind'.
  assert (E : forall m, removeVirtual m = set_kids m (flat_map (fun c => if n_virtual c then [] else [removeVirtual c]) (n_kids m))) by (intros m; now destruct m).
  rewrite (E n), (E (imN n)), kids_im, <- set_kids_im. f_equal. clear E. induction (n_kids n) as [|k ks IHk]; [reflexivity|].
  inversion IH as [|? ? A B]; subst. cbn [List.map flat_map]. rewrite map_app, IHk by exact B. f_equal.
  rewrite A. destruct k as [? ? ? ? ? ? v ? ?]. cbn. destruct v; reflexivity.
Qed.
Lemma nondata_im n : removeNonData (imN n) = imN (removeNonData n).
Proof.
  induction n as [n IH] using node_ind'.
  assert (E : forall m, removeNonData m = set_kids m (flat_map (fun c => if n_nondata c then [] else [removeNonData c]) (n_kids m))) by (intros m; now destruct m).
  rewrite (E n), (E (imN n)), kids_im, <- set_kids_im. f_equal. clear E. induction (n_kids n) as [|k ks IHk]; [reflexivity|].
  inversion IH as [|? ? A B]; subst. cbn [List.map flat_map]. rewrite map_app, IHk by exact B. f_equal.
  rewrite A. destruct k as [? ? ? ? ? ? ? v ?]. cbn. destruct v; reflexivity.
Qed.
Lemma mergeFold_im l : forall p, mergeFold (option_map imN p) (List.map (fun x => (imN (fst x), imN (snd x))) l) = List.map imN (mergeFold p l).
Proof.
  induction l as [|[c m] l IH]; intros p; cbn [List.map mergeFold fst snd].
  - destruct p as [p|]; [|reflexivity]. cbn [option_map List.map]. now rewrite set_sticky_im.
  - replace (n_sticky (imN c)) with (n_sticky c) by (now destruct c). rewrite text_im. destruct (n_sticky c).
    + destruct p as [p|]; cbn [option_map].
      * replace (n_chars (imN p)) with (n_chars p) by (now destruct p). rewrite set_chars_im. exact (IH (Some _)).
      * rewrite set_chars_im, set_kids_im_nil. exact (IH (Some _)).
    + rewrite map_app. cbn [List.map]. specialize (IH None). cbn [option_map] in IH. rewrite IH. f_equal. destruct p as [p|]; [|reflexivity]. cbn [option_map List.map]. now rewrite set_sticky_im.
Qed.
Lemma merge_im n : mergeNode (imN n) = imN (mergeNode n).
Proof.
  induction n as [n IH] using node_ind'. destruct n as [ty nm ch ks po st vi nd tk]. destruct ks as [|k ks]; [reflexivity|].
  change (mergeNode (imN (Node ty nm ch (k :: ks) po st vi nd tk))) with
    (if rtype_eqb ty TBlock then set_sticky (set_kids (imN (Node ty nm ch (k :: ks) po st vi nd tk)) (List.map (fun c => set_sticky (mergeNode c) false) (List.map imN (k :: ks)))) false
     else set_kids (imN (Node ty nm ch (k :: ks) po st vi nd tk)) (mergeFold None (List.map (fun c => (c, mergeNode c)) (List.map imN (k :: ks))))).
  change (mergeNode (Node ty nm ch (k :: ks) po st vi nd tk)) with
    (if rtype_eqb ty TBlock then set_sticky (set_kids (Node ty nm ch (k :: ks) po st vi nd tk) (List.map (fun c => set_sticky (mergeNode c) false) (k :: ks))) false
     else set_kids (Node ty nm ch (k :: ks) po st vi nd tk) (mergeFold None (List.map (fun c => (c, mergeNode c)) (k :: ks)))).
  cbn [n_kids] in IH. rewrite Forall_forall in IH. destruct (rtype_eqb ty TBlock).
  - rewrite <- set_sticky_im, <- set_kids_im. do 2 f_equal. rewrite !map_map. apply map_ext_in. intros c I. rewrite (IH c I). apply set_sticky_im.
  - rewrite <- set_kids_im. f_equal. rewrite <- (mergeFold_im _ None). cbn [option_map]. f_equal. rewrite !map_map. apply map_ext_in. intros c I. cbn [fst snd]. now rewrite (IH c I).
Qed.
Lemma name_im n : nonempty (n_name (imN n)) = nonempty (n_name n).
Proof. destruct n. apply (rho_nonempty _ RN). Qed.
Lemma chars_eq n : n_chars (imN n) = n_chars n. Proof. now destruct n. Qed.
Lemma promote1_im n : promote1 (imN n) = imN (promote1 n).
Proof.
  unfold promote1. rewrite kids_im. destruct (n_kids n) as [|k [|? ?]]; [reflexivity| |reflexivity]. cbn [List.map]. rewrite name_im, chars_eq.
  destruct (nonempty (n_name k)); [reflexivity|]. destruct (nonempty (n_chars k)).
  - now rewrite set_chars_im, set_kids_im_nil.
  - now rewrite kids_im, set_kids_im.
Qed.
Lemma promote2_im n : promote2 (imN n) = imN (promote2 n).
Proof.
  unfold promote2. rewrite kids_im. destruct (n_kids n) as [|k [|? ?]]; [reflexivity| |reflexivity]. cbn [List.map]. rewrite name_im, kids_im, chars_eq.
  replace (nonempty (List.map imN (n_kids k))) with (nonempty (n_kids k)) by (now destruct (n_kids k)).
  destruct (negb (nonempty (n_name k)) && negb (nonempty (n_kids k))); [|reflexivity]. now rewrite set_chars_im, set_kids_im_nil.
Qed.
Lemma splice_im l : splice (List.map imN l) = List.map imN (splice l).
Proof.
  unfold splice. induction l as [|c l IH]; [reflexivity|]. cbn [List.map flat_map]. rewrite map_app, IH. f_equal. rewrite text_im, name_im, kids_im.
  replace (nonempty (List.map imN (n_kids c))) with (nonempty (n_kids c)) by (now destruct (n_kids c)).
  destruct (negb (nonempty (text c)) && negb (nonempty (n_name c))); [reflexivity|]. destruct (negb (nonempty (n_name c)) && nonempty (n_kids c)); reflexivity.
Qed.
Lemma redundant_im n : removeRedundant (imN n) = imN (removeRedundant n).
Proof.
  induction n as [n IH] using node_ind'. destruct n as [ty nm ch ks po st vi nd tk]. destruct ks as [|k ks]; [reflexivity|].
  change (removeRedundant (imN (Node ty nm ch (k :: ks) po st vi nd tk))) with
    (let n1 := promote1 (set_kids (imN (Node ty nm ch (k :: ks) po st vi nd tk)) (List.map removeRedundant (List.map imN (k :: ks)))) in promote2 (set_kids n1 (splice (n_kids n1)))).
  change (removeRedundant (Node ty nm ch (k :: ks) po st vi nd tk)) with
    (let n1 := promote1 (set_kids (Node ty nm ch (k :: ks) po st vi nd tk) (List.map removeRedundant (k :: ks))) in promote2 (set_kids n1 (splice (n_kids n1)))).
  cbv zeta. rewrite map_map. cbn [n_kids] in IH. rewrite Forall_forall in IH. rewrite (map_ext_in _ _ _ IH), <- (map_map removeRedundant imN), set_kids_im, promote1_im, kids_im, splice_im, set_kids_im, promote2_im. reflexivity.
Qed.
Lemma simplify_im level a : simplify level (List.map imN a) = List.map imN (simplify level a).
Proof.
  assert (M : astMerge (List.map imN a) = List.map imN (astMerge a)).
  { unfold astMerge, mergeNodes. rewrite <- (mergeFold_im _ None). cbn [option_map]. f_equal. rewrite !map_map. apply map_ext. intros c. cbn [fst snd]. now rewrite merge_im. }
  assert (V : forall l, astRemoveVirtual (List.map imN l) = List.map imN (astRemoveVirtual l)).
  { intros l. unfold astRemoveVirtual. induction l as [|c l IH]; [reflexivity|]. cbn [List.map flat_map]. rewrite map_app, IH, virtual_im. f_equal. destruct c as [? ? ? ? ? ? v ? ?]. cbn. destruct v; reflexivity. }
  assert (D : forall l, astRemoveNonData (List.map imN l) = List.map imN (astRemoveNonData l)).
  { intros l. unfold astRemoveNonData. induction l as [|c l IH]; [reflexivity|]. cbn [List.map flat_map]. rewrite map_app, IH, nondata_im. f_equal. destruct c as [? ? ? ? ? ? ? v ?]. cbn. destruct v; reflexivity. }
  assert (R : forall l, astRemoveRedundant (List.map imN l) = List.map imN (astRemoveRedundant l)).
  { intros l. unfold astRemoveRedundant. rewrite !map_map. apply map_ext. intros c. rewrite redundant_im. destruct c as [? ? ? ? ? ? ? v ?]. cbn [n_nondata imNode andb]. destruct v; reflexivity. }
  unfold simplify. destruct (level =? -1); [reflexivity|]. rewrite <- R. f_equal. destruct (level =? 2); [now rewrite M, V, D|]. destruct (level =? 1); [now rewrite M, V|exact M].
Qed.
Theorem evalTop_im lf fuel g o o' s level : sameOrders rho true o o' ->
  evalTop lf fuel (imRules rho true g) o' s level = onOk (imQ rho true) (evalTop lf fuel g o s level).
Proof.
  intros SO. unfold evalTop. rewrite (evalRaw_im rho true RN _ _ _ _ _ _ SO), bind_onOk, onOk_bind. apply bind_ext. intros [r s']. cbn [onOk]. unfold imQ. cbn [fst snd].
  do 2 f_equal. destruct r; cbn [imRaw]; try reflexivity. now rewrite simplify_im.
Qed.
End Simplify.
