(** Rewriting a grammar changes only inner nodes. *)
From Verif Require Import Base Stream StreamFacts Node Rule Parse Grammar SpecRule TermSpec EvalInv EvalFuel SpecRefactor.

(** ** Shape of failures *)
Definition failShape (X : result) : Prop := r_node X = None -> r_unused X = r_read X \/ r_unused X = [].

Lemma bind_inv {A B} (m : outcome A) (k : A -> outcome B) b : bind m k = Ok b -> exists a, m = Ok a /\ k a = Ok b.
Proof. destruct m; cbn; intros H; [eauto|discriminate|discriminate]. Qed.

Lemma char_shape b t s f : let X := fst (evalChar b t s f) in r_node X = None -> r_unused X = r_read X.
Proof.
  unfold evalChar. destruct (peek s =? EOFChar); [reflexivity|]. destruct (f =? SUGGEST_SKIP).
  - destruct (skipSpaces (snd (positionOf s))) as [sp s2]. destruct (isWS t && nonempty sp).
    + destruct (find_idx t sp); [discriminate|reflexivity].
    + destruct (negb (peek s2 =? t)); [reflexivity|]. destruct (positionOf s2) as [pos s']. destruct (next s') as [c s'']. discriminate.
  - destruct (negb (peek (snd (positionOf s)) =? t)); [reflexivity|]. destruct (positionOf (snd (positionOf s))) as [pos s']. destruct (next s') as [c s'']. discriminate.
Qed.
Lemma chars_shape b t s f : let X := fst (evalChars b t s f) in r_node X = None -> r_unused X = r_read X.
Proof.
  unfold evalChars. destruct (peek s =? EOFChar); [reflexivity|]. destruct (f =? SUGGEST_SKIP).
  - destruct (skipSpaces (snd (positionOf s))) as [sp s2]. destruct (length sp <? length (leadingWS t))%nat; [reflexivity|]. destruct (negb (tail_is sp (leadingWS t))); [reflexivity|].
    destruct (matchRunes s2 _) as [[got ok] s']. destruct ok; [discriminate|reflexivity].
  - destruct (matchRunes (snd (positionOf s)) t) as [[got ok] s']. destruct ok; [discriminate|reflexivity].
Qed.
Lemma string_shape b t s f : let X := fst (evalString b t s f) in r_node X = None -> r_unused X = r_read X.
Proof.
  unfold evalString. destruct (peek s =? EOFChar); [reflexivity|]. destruct ((f =? SUGGEST_SKIP) || (f =? SUGGEST_NOT_SKIP)).
  - destruct (skipSpaces (snd (positionOf s))) as [sp s2]. destruct (length sp <? length (leadingWS t))%nat; [reflexivity|]. destruct (negb (tail_is sp (leadingWS t))); [reflexivity|].
    destruct (matchRunes s2 _) as [[got ok] s']. destruct ok; [discriminate|reflexivity].
  - destruct (matchRunes (snd (positionOf s)) t) as [[got ok] s']. destruct ok; [discriminate|reflexivity].
Qed.
Lemma range_shape b lo hi s f : let X := fst (evalRange b lo hi s f) in r_node X = None -> r_unused X = r_read X.
Proof.
  unfold evalRange. destruct (peek s =? EOFChar); [reflexivity|]. destruct (f =? SUGGEST_SKIP).
  - destruct (skipSpaces s) as [sp s2]. destruct (find_idxp _ sp); [discriminate|].
    destruct ((lo <=? peek (snd (positionOf s2))) && (peek (snd (positionOf s2)) <=? hi)); [|reflexivity]. destruct (next (snd (positionOf s2))). discriminate.
  - destruct ((lo <=? peek (snd (positionOf s))) && (peek (snd (positionOf s)) <=? hi)); [|reflexivity]. destruct (next (snd (positionOf s))). discriminate.
Qed.
Lemma eof_shape b s f : let X := fst (evalEOF b s f) in r_node X = None -> r_unused X = r_read X.
Proof.
  unfold evalEOF. destruct (if f =? 1 then skipSpaces s else ([], s)) as [sp s1]. destruct (peek s1 =? EOFChar); [|reflexivity].
  destruct (positionOf s1) as [pos s2]. discriminate.
Qed.
Lemma concat_shape rec b self d rules : forall s f rd un st kids pos X s',
  concatLoop rec b self d rules s f rd un st kids pos = Ok (X, s') -> r_node X = None -> r_unused X = r_read X.
Proof.
  induction rules as [|r rules IH]; intros s f rd un st kids pos X s'; cbn [concatLoop]; [intros [= <- _]; discriminate|].
  intros H. apply bind_inv in H as ((res & s2) & _ & H). apply bind_inv in H as ((rd' & un') & _ & H).
  destruct (r_node res); [exact (IH _ _ _ _ _ _ _ _ _ H)|]. destruct (descOk self); [|discriminate]. injection H as <- _. reflexivity.
Qed.
Lemma repDone_shape b self mn idx e i rd un st kids pos X : repDone b self mn idx e i rd un st kids pos = Ok X -> r_node X = None -> r_unused X = r_read X.
Proof.
  unfold repDone. destruct (_ <? _).
  - destruct e; [intros [= <-]; reflexivity|]. destruct (descOk self); [intros [= <-]; reflexivity|discriminate].
  - intros [= <-]. discriminate.
Qed.
Lemma rep_shape rec b self r mn mx d fuel : forall s f rd un st kids pos X s',
  repLoop rec fuel b self r mn mx d s f rd un st kids pos = Ok (X, s') -> r_node X = None -> r_unused X = r_read X.
Proof.
  induction fuel as [|fuel IH]; intros s f rd un st kids pos X s'; [discriminate|]. cbn [repLoop]. destruct (peek _ =? EOFChar).
  - intros H. apply bind_inv in H as (res & D & H). injection H as <- _. exact (repDone_shape _ _ _ _ _ _ _ _ _ _ _ _ D).
  - intros H. apply bind_inv in H as ((res & s2) & _ & H). apply bind_inv in H as ((rd' & un') & _ & H). destruct (r_node res).
    + destruct ((mx >? 0) && _); [|exact (IH _ _ _ _ _ _ _ _ _ H)]. apply bind_inv in H as (res' & D & H). injection H as <- _. exact (repDone_shape _ _ _ _ _ _ _ _ _ _ _ _ D).
    + apply bind_inv in H as (res' & D & H). injection H as <- _. exact (repDone_shape _ _ _ _ _ _ _ _ _ _ _ _ D).
Qed.
Lemma choice_shape rec b self d gs : forall s f rd st e i X s', choiceLoop rec b self d gs s f rd st e i = Ok (X, s') -> failShape X.
Proof.
  induction gs as [|g gs IH]; intros s f rd st e i X s'; cbn [choiceLoop].
  - destruct (descOk self); [|discriminate]. intros [= <- _]. now left.
  - intros H. apply bind_inv in H as (x & _ & H). destruct x as [[[[[m rd'] st'] e'] i'] s1]. destruct (select m) as [[fnd|]|].
    + destruct (r_node fnd); [|discriminate]. apply bind_inv in H as (u & _ & H). injection H as <- _. intros N. discriminate.
    + exact (IH _ _ _ _ _ _ _ _ H).
    + injection H as <- _. now right.
Qed.
Lemma block_shape rec fuel b o v c e xs s f X s' : evalBlock rec fuel b o v c e xs s f = Ok (X, s') -> r_node X = None ->
  r_unused X = r_read X \/ exists Y s1, rec o s f = Ok (Y, s1) /\ r_node Y = None /\ r_read X = r_read Y /\ r_unused X = r_unused Y.
Proof.
  unfold evalBlock. intros H N. apply bind_inv in H as ((Y & s1) & R & H). destruct (r_node Y) as [on|] eqn:NY.
  - apply bind_inv in H as (used & _ & H). destruct (positionOf _) as [cpos cs]. apply bind_inv in H as ((cs' & ex) & _ & H). destruct ex as [xr us ct|us un|cr us un ct].
    + apply bind_inv in H as (u & _ & H). injection H as <- _. now left.
    + destruct (descOk c); [|discriminate]. injection H as <- _. now left.
    + injection H as <- _. discriminate.
  - injection H as <- _. right. exists Y, s1. auto.
Qed.

Lemma eval_shape g : forall fuel r s f X s', eval fuel g r s f = Ok (X, s') -> failShape X.
Proof.
  induction fuel as [|fuel IH]; intros r s f X s'; [discriminate|]. destruct r; cbn [eval evalStep].
  - intros [= E] N. left. pose proof (char_shape b txt s f) as C. rewrite E in C. exact (C N).
  - intros [= E] N. left. pose proof (chars_shape b txt s f) as C. rewrite E in C. exact (C N).
  - intros [= E] N. left. pose proof (string_shape b txt s f) as C. rewrite E in C. exact (C N).
  - intros [= E] N. left. pose proof (range_shape b lo hi s f) as C. rewrite E in C. exact (C N).
  - intros [= E] N. left. pose proof (eof_shape b s f) as C. rewrite E in C. exact (C N).
  - destruct (lookup g ref); [|intros [= <- _]; now left]. intros H. apply bind_inv in H as ((Y & s1) & R & H). injection H as <- _.
    apply IH in R. unfold failShape in *. cbn. destruct (r_node Y); [discriminate|exact R].
  - intros H. apply bind_inv in H as ((Y & s1) & R & H). destruct (r_node Y); injection H as <- _; [discriminate|now left].
  - intros H. apply bind_inv in H as ((Y & s1) & R & H). destruct (r_node Y); injection H as <- _; discriminate.
  - intros H N. left. exact (rep_shape _ _ _ _ _ _ _ _ _ _ _ _ _ _ _ _ _ H N).
  - intros H. exact (choice_shape _ _ _ _ _ _ _ _ _ _ _ _ _ H).
  - intros H N. left. exact (concat_shape _ _ _ _ _ _ _ _ _ _ _ _ _ _ H N).
  - intros H N. destruct (block_shape _ _ _ _ _ _ _ _ _ _ _ _ H N) as [E|(Y & s1 & R & NY & ER & EU)]; [now left|].
    rewrite ER, EU. exact (IH _ _ _ _ _ R NY).
Qed.
Lemma select_one m : (length m <= 1)%nat -> select m <> None.
Proof. destruct m as [|a [|b m]]; cbn; intros; try discriminate. lia. Qed.
Lemma alt_length rec d rules : forall s f rd st e i m m' rd' st' e' i' s',
  altLoop rec d rules s f rd st e i m = Ok (m', rd', st', e', i', s') -> (length m' <= length rules + length m)%nat.
Proof.
  induction rules as [|r rules IH]; intros s f rd st e i m m' rd' st' e' i' s'; cbn [altLoop].
  - intros [= <- _ _ _ _ _]. rewrite rev_length. cbn. lia.
  - intros H. apply bind_inv in H as ((res & s1) & _ & H). destruct (r_node res); [apply IH in H; cbn in *; lia|].
    destruct (r_erridx res >? i); apply IH in H; cbn in *; lia.
Qed.
Lemma choice_solid rec b self d gs : Forall (fun grp => (length grp <= 1)%nat) gs -> forall s f rd st e i X s',
  choiceLoop rec b self d gs s f rd st e i = Ok (X, s') -> r_node X = None -> r_unused X = r_read X.
Proof.
  induction 1 as [|g gs L _ IH]; intros s f rd st e i X s'; cbn [choiceLoop].
  - destruct (descOk self); [|discriminate]. intros [= <- _]. reflexivity.
  - intros H. apply bind_inv in H as (x & A & H). destruct x as [[[[[m rd'] st'] e'] i'] s1]. apply alt_length in A. cbn [length] in A.
    pose proof (select_one m ltac:(lia)). destruct (select m) as [[fnd|]|]; [| |contradiction].
    + destruct (r_node fnd); [|discriminate]. apply bind_inv in H as (u & _ & H). injection H as <- _. discriminate.
    + exact (IH _ _ _ _ _ _ _ _ H).
Qed.
Lemma tie_solid g r : noTie g r -> forall fuel s f X s', eval fuel g r s f = Ok (X, s') -> r_node X = None -> r_unused X = r_read X.
Proof.
  induction 1 as [b t u|b t|b t|b l lu h hu|b|b x|b x|b x mn mx|b l|b gs F|b o v c e xs T IH|b n L|b n x L T IH]; intros [|fuel] s f X s' H; try discriminate; cbn [eval evalStep] in H.
  - injection H as E. pose proof (char_shape b t s f) as C. rewrite E in C. exact C.
  - injection H as E. pose proof (chars_shape b t s f) as C. rewrite E in C. exact C.
  - injection H as E. pose proof (string_shape b t s f) as C. rewrite E in C. exact C.
  - injection H as E. pose proof (range_shape b l h s f) as C. rewrite E in C. exact C.
  - injection H as E. pose proof (eof_shape b s f) as C. rewrite E in C. exact C.
  - apply bind_inv in H as ((Y & s1) & R & H). destruct (r_node Y); injection H as <- _; [discriminate|reflexivity].
  - apply bind_inv in H as ((Y & s1) & R & H). destruct (r_node Y); injection H as <- _; discriminate.
  - exact (rep_shape _ _ _ _ _ _ _ _ _ _ _ _ _ _ _ _ _ H).
  - exact (concat_shape _ _ _ _ _ _ _ _ _ _ _ _ _ _ H).
  - exact (choice_solid _ _ _ _ _ F _ _ _ _ _ _ _ _ H).
  - intros N. destruct (block_shape _ _ _ _ _ _ _ _ _ _ _ _ H N) as [E|(Y & s1 & R & NY & ER & EU)]; [exact E|]. rewrite ER, EU. exact (IH _ _ _ _ _ R NY).
  - rewrite L in H. injection H as <- _. reflexivity.
  - rewrite L in H. apply bind_inv in H as ((Y & s1) & R & H). injection H as <- _. cbn. intros N. apply (IH _ _ _ _ _ R). now destruct (r_node Y).
Qed.

(** ** Options that are not taken *)
Lemma untaken_type n : notTaken n -> n_type n = TOption. Proof. now intros (? & _). Qed.
Lemma char_type b t s f n : r_node (fst (evalChar b t s f)) = Some n -> n_type n = TChar.
Proof.
  unfold evalChar. destruct (peek s =? EOFChar); [discriminate|]. destruct (f =? SUGGEST_SKIP).
  - destruct (skipSpaces (snd (positionOf s))) as [sp s2]. destruct (isWS t && nonempty sp).
    + destruct (find_idx t sp); [intros [= <-]; reflexivity|discriminate].
    + destruct (negb (peek s2 =? t)); [discriminate|]. destruct (positionOf s2) as [pos s']. destruct (next s') as [c s'']. intros [= <-]; reflexivity.
  - destruct (negb (peek (snd (positionOf s)) =? t)); [discriminate|]. destruct (positionOf (snd (positionOf s))) as [pos s']. destruct (next s') as [c s'']. intros [= <-]; reflexivity.
Qed.
Lemma chars_type b t s f n : r_node (fst (evalChars b t s f)) = Some n -> n_type n = TChars.
Proof.
  unfold evalChars. destruct (peek s =? EOFChar); [discriminate|]. destruct (f =? SUGGEST_SKIP).
  - destruct (skipSpaces (snd (positionOf s))) as [sp s2]. destruct (length sp <? length (leadingWS t))%nat; [discriminate|]. destruct (negb (tail_is sp (leadingWS t))); [discriminate|].
    destruct (matchRunes s2 _) as [[got ok] s']. destruct ok; [intros [= <-]; reflexivity|discriminate].
  - destruct (matchRunes (snd (positionOf s)) t) as [[got ok] s']. destruct ok; [intros [= <-]; reflexivity|discriminate].
Qed.
Lemma string_type b t s f n : r_node (fst (evalString b t s f)) = Some n -> n_type n = TString.
Proof.
  unfold evalString. destruct (peek s =? EOFChar); [discriminate|]. destruct ((f =? SUGGEST_SKIP) || (f =? SUGGEST_NOT_SKIP)).
  - destruct (skipSpaces (snd (positionOf s))) as [sp s2]. destruct (length sp <? length (leadingWS t))%nat; [discriminate|]. destruct (negb (tail_is sp (leadingWS t))); [discriminate|].
    destruct (matchRunes s2 _) as [[got ok] s']. destruct ok; [intros [= <-]; reflexivity|discriminate].
  - destruct (matchRunes (snd (positionOf s)) t) as [[got ok] s']. destruct ok; [intros [= <-]; reflexivity|discriminate].
Qed.
Lemma range_type b lo hi s f n : r_node (fst (evalRange b lo hi s f)) = Some n -> n_type n = TChars.
Proof.
  unfold evalRange. destruct (peek s =? EOFChar); [discriminate|]. destruct (f =? SUGGEST_SKIP).
  - destruct (skipSpaces s) as [sp s2]. destruct (find_idxp _ sp); [intros [= <-]; reflexivity|].
    destruct ((lo <=? peek (snd (positionOf s2))) && (peek (snd (positionOf s2)) <=? hi)); [|discriminate]. destruct (next (snd (positionOf s2))). intros [= <-]; reflexivity.
  - destruct ((lo <=? peek (snd (positionOf s))) && (peek (snd (positionOf s)) <=? hi)); [|discriminate]. destruct (next (snd (positionOf s))). intros [= <-]; reflexivity.
Qed.
Lemma eof_type b s f n : r_node (fst (evalEOF b s f)) = Some n -> n_type n = TEOF.
Proof.
  unfold evalEOF. destruct (if f =? 1 then skipSpaces s else ([], s)) as [sp s1]. destruct (peek s1 =? EOFChar); [|discriminate].
  destruct (positionOf s1) as [pos s2]. intros [= <-]; reflexivity.
Qed.
Lemma concat_type rec b self d rules : forall s f rd un st kids pos X s' n,
  concatLoop rec b self d rules s f rd un st kids pos = Ok (X, s') -> r_node X = Some n -> n_type n = TConcat.
Proof.
  induction rules as [|r rules IH]; intros s f rd un st kids pos X s' n; cbn [concatLoop]; [intros [= <- _] [= <-]; reflexivity|].
  intros H. apply bind_inv in H as ((res & s2) & _ & H). apply bind_inv in H as ((rd' & un') & _ & H).
  destruct (r_node res); [exact (IH _ _ _ _ _ _ _ _ _ _ H)|]. destruct (descOk self); [|discriminate]. injection H as <- _. discriminate.
Qed.
Lemma repDone_type b self mn idx e i rd un st kids pos X n : repDone b self mn idx e i rd un st kids pos = Ok X -> r_node X = Some n -> n_type n = TRepetition.
Proof.
  unfold repDone. destruct (_ <? _).
  - destruct e; [intros [= <-]; discriminate|]. destruct (descOk self); [intros [= <-]; discriminate|discriminate].
  - intros [= <-] [= <-]. reflexivity.
Qed.
Lemma rep_type rec b self r mn mx d fuel : forall s f rd un st kids pos X s' n,
  repLoop rec fuel b self r mn mx d s f rd un st kids pos = Ok (X, s') -> r_node X = Some n -> n_type n = TRepetition.
Proof.
  induction fuel as [|fuel IH]; intros s f rd un st kids pos X s' n; [discriminate|]. cbn [repLoop]. destruct (peek _ =? EOFChar).
  - intros H. apply bind_inv in H as (res & D & H). injection H as <- _. exact (repDone_type _ _ _ _ _ _ _ _ _ _ _ _ _ D).
  - intros H. apply bind_inv in H as ((res & s2) & _ & H). apply bind_inv in H as ((rd' & un') & _ & H). destruct (r_node res).
    + destruct ((mx >? 0) && _); [|exact (IH _ _ _ _ _ _ _ _ _ _ H)]. apply bind_inv in H as (res' & D & H). injection H as <- _. exact (repDone_type _ _ _ _ _ _ _ _ _ _ _ _ _ D).
    + apply bind_inv in H as (res' & D & H). injection H as <- _. exact (repDone_type _ _ _ _ _ _ _ _ _ _ _ _ _ D).
Qed.
Lemma choice_type rec b self d gs : forall s f rd st e i X s' n, choiceLoop rec b self d gs s f rd st e i = Ok (X, s') -> r_node X = Some n -> n_type n = TChoice.
Proof.
  induction gs as [|g gs IH]; intros s f rd st e i X s' n; cbn [choiceLoop].
  - destruct (descOk self); [|discriminate]. intros [= <- _]. discriminate.
  - intros H. apply bind_inv in H as (x & _ & H). destruct x as [[[[[m rd'] st'] e'] i'] s1]. destruct (select m) as [[fnd|]|].
    + destruct (r_node fnd); [|discriminate]. apply bind_inv in H as (u & _ & H). injection H as <- _. intros [= <-]. reflexivity.
    + exact (IH _ _ _ _ _ _ _ _ _ H).
    + injection H as <- _. discriminate.
Qed.
Lemma block_type rec fuel b o v c e xs s f X s' n : evalBlock rec fuel b o v c e xs s f = Ok (X, s') -> r_node X = Some n -> n_type n = TBlock.
Proof.
  unfold evalBlock. intros H. apply bind_inv in H as ((Y & s1) & R & H). destruct (r_node Y) as [on|] eqn:NY; [|injection H as <- _; discriminate].
  apply bind_inv in H as (used & _ & H). destruct (positionOf _) as [cpos cs]. apply bind_inv in H as ((cs' & ex) & _ & H). destruct ex as [xr us ct|us un|cr us un ct].
  - apply bind_inv in H as (u & _ & H). injection H as <- _. discriminate.
  - destruct (descOk c); [|discriminate]. injection H as <- _. discriminate.
  - injection H as <- _. intros [= <-]. reflexivity.
Qed.
Lemma option_solid g r : noOption g r -> forall fuel s f X s' n, eval fuel g r s f = Ok (X, s') -> r_node X = Some n -> ~ notTaken n.
Proof.
  intros NO fuel s f X s' n H N NT. apply untaken_type in NT. revert fuel s f X s' n H N NT.
  induction NO as [b t u|b t|b t|b l lu h hu|b|b x|b x mn mx|b gs|b l|b o v c e xs|b n L|b n x L T IH]; intros [|fuel] s f X s' nd H; try discriminate; cbn [eval evalStep] in H.
  - injection H as E. pose proof (char_type b t s f nd) as C. rewrite E in C. intros N NT. rewrite (C N) in NT. discriminate.
  - injection H as E. pose proof (chars_type b t s f nd) as C. rewrite E in C. intros N NT. rewrite (C N) in NT. discriminate.
  - injection H as E. pose proof (string_type b t s f nd) as C. rewrite E in C. intros N NT. rewrite (C N) in NT. discriminate.
  - injection H as E. pose proof (range_type b l h s f nd) as C. rewrite E in C. intros N NT. rewrite (C N) in NT. discriminate.
  - injection H as E. pose proof (eof_type b s f nd) as C. rewrite E in C. intros N NT. rewrite (C N) in NT. discriminate.
  - apply bind_inv in H as ((Y & s1) & R & H). destruct (r_node Y); injection H as <- _; [|discriminate]. intros [= <-]. discriminate.
  - intros N NT. rewrite (rep_type _ _ _ _ _ _ _ _ _ _ _ _ _ _ _ _ _ _ H N) in NT. discriminate.
  - intros N NT. rewrite (choice_type _ _ _ _ _ _ _ _ _ _ _ _ _ _ H N) in NT. discriminate.
  - intros N NT. rewrite (concat_type _ _ _ _ _ _ _ _ _ _ _ _ _ _ _ H N) in NT. discriminate.
  - intros N NT. rewrite (block_type _ _ _ _ _ _ _ _ _ _ _ _ _ H N) in NT. discriminate.
  - rewrite L in H. injection H as <- _. discriminate.
  - rewrite L in H. apply bind_inv in H as ((Y & s1) & R & H). injection H as <- _. cbn. destruct (r_node Y) as [m|] eqn:E; [|discriminate]. intros [= <-]. cbn. exact (IH _ _ _ _ _ _ R E).
Qed.

(** ** Alike results *)
Lemma f2_length {A B} (P : A -> B -> Prop) k k' : Forall2 P k k' -> length k = length k'.
Proof. induction 1; cbn; congruence. Qed.
Lemma Forall2_rev {A B} (P : A -> B -> Prop) k k' : Forall2 P k k' -> Forall2 P (rev k) (rev k').
Proof. induction 1; [constructor|]. cbn [rev]. apply Forall2_app; auto. Qed.
Lemma alike_weak st X X' : alikeRes true X X' -> alikeRes st X X'.
Proof. intros (A & B). split; [|exact B]. destruct (r_node X), (r_node X'); auto. Qed.
Lemma alike_count X X' n : alikeRes false X X' -> r_node X = Some n -> countUsed X = countUsed X'.
Proof. intros (A & R & _) N. rewrite N in A. destruct (r_node X'); [|contradiction]. destruct A as (_ & U). unfold countUsed. now rewrite R, U. Qed.
Lemma alike_used X X' n : alikeRes false X X' -> r_node X = Some n -> charsUsed X = charsUsed X'.
Proof. intros A N. pose proof (alike_count _ _ _ A N) as C. destruct A as (_ & R & _). unfold charsUsed. now rewrite C, R. Qed.
Lemma taken_flag n : (negb (rtype_eqb (n_type n) TOption) || nonempty (n_kids n) || nonempty (n_chars n) = false) <-> notTaken n.
Proof.
  unfold notTaken. split.
  - intros H. apply orb_false_iff in H as (H & C). apply orb_false_iff in H as (T & K). split; [|split].
    + now destruct (n_type n). + now destruct (n_kids n). + now destruct (n_chars n).
  - intros (-> & -> & ->). reflexivity.
Qed.
Lemma alike_flag f n n' st : alikeNodes n n' -> nextFlag f n st = nextFlag f n' st.
Proof.
  intros (_ & T). unfold nextFlag. rewrite <- !taken_flag in T.
  destruct (negb (rtype_eqb (n_type n) TOption) || nonempty (n_kids n) || nonempty (n_chars n)); destruct (negb (rtype_eqb (n_type n') TOption) || nonempty (n_kids n') || nonempty (n_chars n')); try reflexivity;
    destruct T as [T1 T2]; [specialize (T2 eq_refl)|specialize (T1 eq_refl)]; discriminate.
Qed.
Lemma leaves_list l l' : Forall2 alikeNodes l l' -> flat_map leaves l = flat_map leaves l'.
Proof. induction 1 as [|n n' l l' (A & _) _ IH]; [reflexivity|]. cbn. now rewrite A, IH. Qed.
Lemma alike_branch ty b b' kids kids' pos pos' st : ty <> TOption -> Forall2 alikeNodes kids kids' -> (kids = [] -> pos = pos') ->
  alikeNodes (mkNode ty b [] kids pos st) (mkNode ty b' [] kids' pos' st).
Proof.
  intros NO F P. split.
  - pose proof (leaves_list _ _ F) as L. destruct F as [|n n' l l' A F].
    + cbn. unfold leafOf. cbn. now rewrite P.
    + exact L.
  - split; intros T; apply untaken_type in T; cbn in T; contradiction.
Qed.
Lemma alike_account rd un X X' n : alikeRes false X X' -> r_node X = Some n -> account rd un X = account rd un X'.
Proof.
  intros A N. pose proof (alike_used _ _ _ A N) as C. destruct A as (A & R & _). rewrite N in A. destruct (r_node X'); [|contradiction]. destruct A as (_ & U).
  unfold account. now rewrite C, R, U.
Qed.
Lemma account_fail rd un X X' rd' un' : r_read X = r_read X' -> r_node X' = None -> failShape X' -> account rd un X = Ok (rd', un') -> exists un'', account rd un X' = Ok (rd', un'').
Proof.
  intros R N S. unfold account. rewrite <- R. destruct (length un <? length (r_read X))%nat eqn:L.
  - intros H. apply bind_inv in H as (x & E & H). rewrite E. cbn. injection H as <- _. eauto.
  - intros H. apply bind_inv in H as (u & E & H). apply bind_inv in H as (l & F & H). injection H as <- _.
    apply Nat.ltb_ge in L.
    assert (Q : exists v, charsUsed X' = Ok v /\ (length v <= length (r_read X'))%nat).
    { unfold charsUsed, countUsed, slice_to. destruct (S N) as [->| ->].
      - replace (Z.of_nat (length (r_read X')) - Z.of_nat (length (r_read X'))) with 0 by lia. cbn [Z.leb]. replace (0 <=? Z.of_nat (length (r_read X'))) with true by (symmetry; apply Z.leb_le; lia). cbn. eexists. split; [reflexivity|]. cbn. lia.
      - cbn [length]. replace ((0 <=? Z.of_nat (length (r_read X')) - Z.of_nat 0) && (Z.of_nat (length (r_read X')) - Z.of_nat 0 <=? Z.of_nat (length (r_read X')))) with true.
        + eexists. split; [reflexivity|]. rewrite firstn_length. lia.
        + symmetry. apply andb_true_iff. split; apply Z.leb_le; lia. }
    destruct Q as (v & -> & LV). cbn [bind]. unfold slice_from. rewrite <- R in LV.
    replace ((0 <=? Z.of_nat (length v)) && (Z.of_nat (length v) <=? Z.of_nat (length un))) with true by (symmetry; apply andb_true_iff; split; apply Z.leb_le; lia).
    cbn. eauto.
Qed.

(** ** The rewriting goes both ways *)
Scheme rw_min := Minimality for rewritten Sort Prop
  with rwl_min := Minimality for rewrittenAll Sort Prop
  with rwg_min := Minimality for rewrittenGroups Sort Prop
  with rwo_min := Minimality for rewrittenOpt Sort Prop.
Lemma rewritten_sym g g' tight st r r' : rewritten g g' tight st r r' -> rewritten g' g tight st r' r.
Proof.
  revert st r r'. apply (rw_min g g' tight (fun st r r' => rewritten g' g tight st r' r) (fun l l' => rewrittenAll g' g tight l' l)
    (fun l l' => rewrittenGroups g' g tight l' l) (fun e e' => rewrittenOpt g' g tight e' e)); intros; try (now constructor).
  - eapply rw_unname; eassumption.
  - eapply rw_name; eassumption.
Qed.
Lemma rewrites_sym g g' tight : rewrites g g' tight -> rewrites g' g tight.
Proof. intros H n x x' L L'. destruct (H n x' x L' L) as (A & B). split; [now apply rewritten_sym|]. intros T. apply rewritten_sym. auto. Qed.

(** ** Evaluation *)
Section Simulation.
Variables g g' : rules_t.
Variable tight : list Z -> Prop.
Hypothesis RW : rewrites g g' tight.
Hypothesis WF : wfRules g'.
Notation rw := (rewritten g g' tight).

Definition mirrored (rec : evalT) : Prop := forall st r r', rw st r r' -> wfRule r' -> forall s f X s2, rec r s f = Ok (X, s2) ->
  exists X' F, (forall n, (F <= n)%nat -> eval n g' r' s f = Ok (X', s2)) /\ alikeRes st X X'.
Lemma shape_of r s f X' s2 F : (forall n, (F <= n)%nat -> eval n g' r s f = Ok (X', s2)) -> failShape X'.
Proof. intros H. exact (eval_shape _ _ _ _ _ _ _ (H F (le_n F))). Qed.

Section Loops.
Variable rec : evalT.
Hypothesis HR : mirrored rec.

Lemma concat_mirror b b' self self' d rules rules' : rewrittenAll g g' tight rules rules' -> (forall x, In x rules' -> wfRule x) -> descOk self' = true ->
  forall s f rd un st kids kids' pos pos' X s2, Forall2 alikeNodes kids kids' -> (kids = [] -> pos = pos') ->
  concatLoop rec b self d rules s f rd un st kids pos = Ok (X, s2) ->
  exists X' F, (forall n, (F <= n)%nat -> concatLoop (eval n g') b' self' d rules' s f rd un st kids' pos' = Ok (X', s2)) /\ alikeRes true X X'.
Proof.
  intros RL W D. revert W. induction RL as [|x x' l l' RX RL IH]; intros W s f rd un st kids kids' pos pos' X s2 K P; cbn [concatLoop].
  - intros [= <- <-]. eexists. exists 0%nat. split; [reflexivity|]. split; [|cbn; tauto]. cbn [r_node r_unused]. split; [|reflexivity].
    apply alike_branch; [discriminate| |].
    + now apply Forall2_rev.
    + intros E. apply P. destruct kids as [|a k]; [reflexivity|]. cbn in E. now apply app_eq_nil in E as (_ & ?).
  - intros H. apply bind_inv in H as ((res & s3) & E & H). destruct (HR _ _ _ RX (W _ (or_introl eq_refl)) _ _ _ _ E) as (res' & F & EF & A).
    apply bind_inv in H as ((rd' & un') & AC & H). destruct (r_node res) as [nd|] eqn:N.
    + pose proof A as (AN & _ & SK & _). rewrite N in AN. destruct (r_node res') as [nd'|] eqn:N'; [|contradiction].
      rewrite (alike_flag _ _ _ _ (proj1 AN)) in H. rewrite SK in H.
      destruct (IH ltac:(intros; apply W; now right) _ _ _ _ _ _ (nd' :: kids') _ (orPos pos' nd') _ _ (Forall2_cons _ _ (proj1 AN) K) ltac:(discriminate) H) as (X' & F' & EF' & A').
      exists X', (max F F'). split; [|exact A']. intros n L. rewrite EF by lia. cbn [bind]. rewrite <- (alike_account _ _ _ _ _ A N), AC. cbn [bind]. rewrite N'. apply EF'. lia.
    + pose proof A as (AN & R & SK & IX0 & Q). rewrite N in AN. destruct (r_node res') as [nd'|] eqn:N'; [contradiction|].
      destruct (descOk self); [|discriminate]. injection H as <- <-.
      destruct (account_fail _ _ _ _ _ _ R N' (shape_of _ _ _ _ _ _ EF) AC) as (un'' & AC').
      eexists. exists F. split.
      { intros n L. rewrite EF by lia. cbn [bind]. rewrite AC'. cbn [bind]. rewrite N', D. reflexivity. }
      split; [intros _; reflexivity|]. cbn. rewrite SK, IX0. repeat split; discriminate.
Qed.

Lemma repDone_mirror b b' self self' mn idx e e' i rd un st kids kids' pos pos' X : descOk self' = true -> Forall2 alikeNodes kids kids' -> (kids = [] -> pos = pos') -> (e = None <-> e' = None) ->
  repDone b self mn idx e i rd un st kids pos = Ok X -> exists X', repDone b' self' mn idx e' i rd un st kids' pos' = Ok X' /\ alikeRes true X X'.
Proof.
  intros D K P EE. unfold repDone. pose proof (f2_length _ _ _ K) as LK. rewrite <- LK. destruct (Z.of_nat (length kids) <? mn).
  - destruct e as [e|]; destruct e' as [e'|]; try (destruct EE as [E1 E2]; try (discriminate (E1 eq_refl)); discriminate (E2 eq_refl)).
    + intros [= <-]. eexists. split; [reflexivity|]. split; [intros _; reflexivity|]. cbn. repeat split; discriminate.
    + destruct (descOk self); [|discriminate]. intros [= <-]. rewrite D. eexists. split; [reflexivity|]. split; [intros _; reflexivity|]. cbn. repeat split; discriminate.
  - intros [= <-]. eexists. split; [reflexivity|]. split; [|cbn; tauto]. cbn [r_node r_unused]. split; [|reflexivity]. apply alike_branch; [discriminate| |].
    + now apply Forall2_rev.
    + intros E. apply P. destruct kids as [|a k]; [reflexivity|]. cbn in E. now apply app_eq_nil in E as (_ & ?).
Qed.
Lemma alike_account_strict rd un X X' : alikeRes true X X' -> account rd un X = account rd un X'.
Proof.
  intros (A & R & _). assert (U : r_unused X = r_unused X').
  { destruct (r_node X), (r_node X'); [exact (proj2 A)|contradiction|contradiction|now apply A]. }
  unfold account, charsUsed, countUsed. now rewrite R, U.
Qed.
Lemma rep_mirror b b' self self' x x' mn mx d : rw true x x' -> wfRule x' -> descOk self' = true -> forall fuel s f rd un st kids kids' pos pos' X s2,
  Forall2 alikeNodes kids kids' -> (kids = [] -> pos = pos') ->
  repLoop rec fuel b self x mn mx d s f rd un st kids pos = Ok (X, s2) ->
  exists X' F, (forall n m, (F <= n)%nat -> (F <= m)%nat -> repLoop (eval n g') m b' self' x' mn mx d s f rd un st kids' pos' = Ok (X', s2)) /\ alikeRes true X X'.
Proof.
  intros RX W D. induction fuel as [|fuel IH]; intros s f rd un st kids kids' pos pos' X s2 K P; [discriminate|]. cbn [repLoop]. destruct (peek (prepend s un) =? EOFChar) eqn:PK.
  - intros H. apply bind_inv in H as (Y & E & H). injection H as <- <-. destruct (repDone_mirror b b' self self' _ _ _ None _ _ _ _ _ kids' _ pos' _ D K P ltac:(tauto) E) as (X' & E' & A).
    exists X', 1%nat. split; [|exact A]. intros n [|m] L M; [lia|]. cbn [repLoop]. rewrite PK, E'. reflexivity.
  - intros H. apply bind_inv in H as ((res & s3) & E & H). destruct (HR _ _ _ RX W _ _ _ _ E) as (res' & F & EF & A).
    apply bind_inv in H as ((rd' & un') & AC & H). pose proof A as (AN & R & SK & IX0 & Q). rewrite (alike_account_strict _ _ _ _ A) in AC. rewrite SK in H. destruct (r_node res) as [nd|] eqn:N.
    + destruct (r_node res') as [nd'|] eqn:N'; [|contradiction].
      cbn [length] in H. rewrite (f2_length _ _ _ K) in H. destruct ((mx >? 0) && (Z.of_nat (S (length kids')) =? mx)) eqn:MX.
      * apply bind_inv in H as (Y & DN & H). injection H as <- <-.
        destruct (repDone_mirror b b' self self' _ _ _ None _ _ _ _ _ (nd' :: kids') _ (orPos pos' nd') _ D (Forall2_cons _ _ (proj1 AN) K) ltac:(discriminate) ltac:(tauto) DN) as (X' & E' & A').
        exists X', (S F). split; [|exact A']. intros n [|m] L M; [lia|]. cbn [repLoop]. rewrite PK, EF by lia. cbn [bind]. rewrite AC. cbn [bind]. rewrite N'. cbn [length]. rewrite MX, E'. reflexivity.
      * destruct (IH _ _ _ _ _ _ (nd' :: kids') _ (orPos pos' nd') _ _ (Forall2_cons _ _ (proj1 AN) K) ltac:(discriminate) H) as (X' & F' & EF' & A').
        exists X', (S (max F F')). split; [|exact A']. intros n [|m] L M; [lia|]. cbn [repLoop]. rewrite PK, EF by lia. cbn [bind]. rewrite AC. cbn [bind]. rewrite N'. cbn [length]. rewrite MX. apply EF'; lia.
    + destruct (r_node res') as [nd'|] eqn:N'; [contradiction|].
      apply bind_inv in H as (Y & DN & H). injection H as <- <-. destruct (repDone_mirror b b' self self' _ _ _ (r_err res') _ _ _ _ _ kids' _ pos' _ D K P Q DN) as (X' & E' & A').
      exists X', (S F). split; [|exact A']. intros n [|m] L M; [lia|]. cbn [repLoop]. rewrite PK, EF by lia. cbn [bind]. rewrite AC. cbn [bind]. rewrite N', E'. reflexivity.
Qed.

Definition matches (X : result) : Prop := exists n, r_node X = Some n.
Notation alikeMatch := bothMatch.
Lemma alt_mirror d rules rules' : rewrittenAll g g' tight rules rules' -> (forall x, In x rules' -> wfRule x) ->
  forall s f rd st e e' i m m' M rd2 st2 e2 i2 s2, (e = None <-> e' = None) -> Forall2 alikeMatch m m' ->
  altLoop rec d rules s f rd st e i m = Ok (M, rd2, st2, e2, i2, s2) ->
  exists M' e2' F, (forall n, (F <= n)%nat -> altLoop (eval n g') d rules' s f rd st e' i m' = Ok (M', rd2, st2, e2', i2, s2)) /\ (e2 = None <-> e2' = None) /\ Forall2 alikeMatch M M'.
Proof.
  induction 1 as [|x x' l l' RX RL IH]; intros W s f rd st e e' i m m' M rd2 st2 e2 i2 s2 EE FM; cbn [altLoop].
  - intros [= <- <- <- <- <- <-]. exists (rev m'), e', 0%nat. split; [reflexivity|]. split; [exact EE|]. now apply Forall2_rev.
  - intros H. apply bind_inv in H as ((res & s3) & E & H). destruct (HR _ _ _ RX (W _ (or_introl eq_refl)) _ _ _ _ E) as (res' & F & EF & A).
    pose proof A as (AN & R & SK & IX0 & Q). rewrite R, SK, IX0 in H. assert (W' : forall y, In y l' -> wfRule y) by (intros; apply W; now right). destruct (r_node res) as [nd|] eqn:N.
    + destruct (r_node res') as [nd'|] eqn:N'; [|contradiction].
      destruct (IH W' _ _ _ _ _ e' _ _ (res' :: m') _ _ _ _ _ _ EE (Forall2_cons res res' (conj A (ex_intro _ nd N)) FM) H) as (M' & e2' & F' & EF' & B).
      exists M', e2', (max F F'). split; [|exact B]. intros n L. rewrite EF by lia. cbn [bind]. rewrite N'. apply EF'. lia.
    + destruct (r_node res') as [nd'|] eqn:N'; [contradiction|]. destruct (r_erridx res' >? i) eqn:IX.
      * destruct (IH W' _ _ _ _ _ (r_err res') _ _ m' _ _ _ _ _ _ Q FM H) as (M' & e2' & F' & EF' & B).
        exists M', e2', (max F F'). split; [|exact B]. intros n L. rewrite EF by lia. cbn [bind]. rewrite N', IX. apply EF'. lia.
      * destruct (IH W' _ _ _ _ _ e' _ _ m' _ _ _ _ _ _ EE FM H) as (M' & e2' & F' & EF' & B).
        exists M', e2', (max F F'). split; [|exact B]. intros n L. rewrite EF by lia. cbn [bind]. rewrite N', IX. apply EF'. lia.
Qed.
Lemma match_count X X' : alikeMatch X X' -> countUsed X = countUsed X'.
Proof. intros (A & n & N). exact (alike_count _ _ _ A N). Qed.
Definition alikeSel (x x' : option (option result)) : Prop :=
  match x, x' with
  | None, None => True
  | Some None, Some None => True
  | Some (Some X), Some (Some X') => alikeMatch X X'
  | _, _ => False
  end.
Lemma sel_mirror l l' : Forall2 alikeMatch l l' -> forall mu fnd fnd', alikeSel (Some fnd) (Some fnd') -> alikeSel (selLoop mu fnd l) (selLoop mu fnd' l').
Proof.
  induction 1 as [|X X' l l' A F IH]; intros mu fnd fnd' B; cbn [selLoop]; [exact B|]. rewrite (match_count _ _ A). destruct (countUsed X' <? mu); [now apply IH|]. destruct (countUsed X' =? mu).
  - destruct fnd, fnd'; try contradiction; [exact I|]. now apply IH.
  - now apply IH.
Qed.
Lemma select_mirror l l' : Forall2 alikeMatch l l' -> alikeSel (select l) (select l').
Proof.
  intros F. destruct F as [|X X' l l' A F]; [exact I|]. destruct F as [|Y Y' l l' B F]; [exact A|]. apply (sel_mirror (X :: Y :: l) (X' :: Y' :: l')); [|exact I]. constructor; [exact A|constructor; [exact B|exact F]].
Qed.
Lemma choice_mirror b b' self self' d gs gs' : rewrittenGroups g g' tight gs gs' -> (forall grp x, In grp gs' -> In x grp -> wfRule x) -> descOk self' = true ->
  forall s f rd st e e' i X s2, (e = None <-> e' = None) ->
  choiceLoop rec b self d gs s f rd st e i = Ok (X, s2) ->
  exists X' F, (forall n, (F <= n)%nat -> choiceLoop (eval n g') b' self' d gs' s f rd st e' i = Ok (X', s2)) /\ alikeRes true X X'.
Proof.
  intros RG W D. revert W. induction RG as [|x x' l l' RX RG IH]; intros W s f rd st e e' i X s2 EE; cbn [choiceLoop].
  - destruct (descOk self); [|discriminate]. intros [= <- <-]. eexists. exists 0%nat. split; [intros; rewrite D; reflexivity|]. split; [intros _; reflexivity|]. cbn. repeat split; discriminate.
  - intros H. apply bind_inv in H as (y & AL & H). destruct y as [[[[[m rd'] st'] e1] i'] s1].
    destruct (alt_mirror d _ _ RX ltac:(intros z I; exact (W x' z (or_introl eq_refl) I)) _ _ _ _ _ e' _ _ [] _ _ _ _ _ _ EE (Forall2_nil _) AL) as (M' & e2' & F & EF & E2 & FM).
    pose proof (select_mirror _ _ FM) as SE. destruct (select m) as [[fnd|]|] eqn:SL; destruct (select M') as [[fnd'|]|] eqn:SL'; try contradiction.
    + pose proof (match_count _ _ SE) as CU. destruct SE as (A & nd & N). rewrite N in H. pose proof A as (AN & _). rewrite N in AN. destruct (r_node fnd') as [nd'|] eqn:N'; [|contradiction].
      apply bind_inv in H as (u & SU & H). injection H as <- <-. eexists. exists F. split.
      { intros n L. rewrite EF by lia. cbn [bind]. rewrite SL', N', <- CU, SU. reflexivity. }
      split; [|cbn; tauto]. cbn [r_node r_unused]. split; [|reflexivity]. apply alike_branch; [discriminate| |discriminate]. constructor; [apply AN|constructor].
    + destruct (IH ltac:(intros grp z I J; exact (W grp z (or_intror I) J)) _ _ _ _ _ e2' _ _ _ E2 H) as (X' & F' & EF' & A').
      exists X', (max F F'). split; [|exact A']. intros n L. rewrite EF by lia. cbn [bind]. rewrite SL'. apply EF'. lia.
    + injection H as <- <-. eexists. exists F. split; [intros n L; rewrite EF by lia; cbn [bind]; rewrite SL'; reflexivity|]. split; [intros _; reflexivity|]. cbn. repeat split; discriminate.
Qed.
Lemma greedy_mirror rules rules' s f X s2 : rewrittenAll g g' tight rules rules' -> (forall x, In x rules' -> wfRule x) ->
  mostGreedy rec rules s f = Ok (X, s2) -> exists X' F, (forall n, (F <= n)%nat -> mostGreedy (eval n g') rules' s f = Ok (X', s2)) /\ alikeRes true X X'.
Proof.
  intros RL W. unfold mostGreedy. intros H. apply bind_inv in H as (y & AL & H). destruct y as [[[[[m rd'] st'] e1] i'] s1].
  destruct (alt_mirror (depth s) _ _ RL W _ _ _ _ _ None _ _ [] _ _ _ _ _ _ ltac:(tauto) (Forall2_nil _) AL) as (M' & e2' & F & EF & E2 & FM).
  pose proof (select_mirror _ _ FM) as SE. destruct (select m) as [[fnd|]|] eqn:SL; destruct (select M') as [[fnd'|]|] eqn:SL'; try contradiction.
  - pose proof (match_count _ _ SE) as CU. destruct SE as (A & nd & N). apply bind_inv in H as (u & SU & H). injection H as <- <-. eexists. exists F. split.
    { intros n L. rewrite EF by lia. cbn [bind]. rewrite SL', <- CU, SU. reflexivity. }
    destruct A as (AN & _ & SK & _). split; [|cbn; tauto]. cbn [r_node r_unused]. rewrite N in *. destruct (r_node fnd'); [|contradiction]. split; [exact (proj1 AN)|reflexivity].
  - injection H as <- <-. eexists. exists F. split; [intros n L; rewrite EF by lia; cbn [bind]; rewrite SL'; reflexivity|]. split; [intros _; reflexivity|]. cbn. tauto.
  - injection H as <- <-. eexists. exists F. split; [intros n L; rewrite EF by lia; cbn [bind]; rewrite SL'; reflexivity|]. split; [intros _; reflexivity|]. cbn. repeat split; discriminate.
Qed.

Definition alikeExit (e e' : blockExit) : Prop :=
  match e, e' with
  | BExclude r u c, BExclude r' u' c' => alikeRes true r r' /\ matches r /\ u = u' /\ c = c'
  | BEOF u n, BEOF u' n' => u = u' /\ n = n'
  | BClose r u n c, BClose r' u' n' c' => alikeRes true r r' /\ matches r /\ u = u' /\ n = n' /\ c = c'
  | _, _ => False
  end.
Definition alikeIter (x x' : (list Z * list Z * list Z) + blockExit) : Prop :=
  match x, x' with inl a, inl a' => a = a' | inr e, inr e' => alikeExit e e' | _, _ => False end.
Lemma matches_both st X X' : alikeRes st X X' -> forall n, r_node X = Some n -> exists n', r_node X' = Some n' /\ alikeNodes n n' /\ r_unused X = r_unused X'.
Proof. intros (A & _) n N. rewrite N in A. destruct (r_node X') as [n'|]; [|contradiction]. exists n'. split; [reflexivity|exact A]. Qed.
Lemma fails_both st X X' : alikeRes st X X' -> r_node X = None -> r_node X' = None.
Proof. intros (A & _) N. rewrite N in A. destruct (r_node X'); [contradiction|reflexivity]. Qed.
Lemma alike_any st X X' : alikeRes st X X' -> alikeRes false X X'.
Proof. intros (A & B). split; [|exact B]. destruct (r_node X), (r_node X'); auto. discriminate. Qed.

Lemma iter_mirror cl cl' esc esc' excl excl' cs used unused content cs2 x : rw true cl cl' -> wfRule cl' -> rewrittenOpt g g' tight esc esc' -> (forall e, esc' = Some e -> wfRule e) ->
  rewrittenAll g g' tight excl excl' -> (forall e, In e excl' -> wfRule e) ->
  blockIter rec cl esc excl cs used unused content = Ok (cs2, x) ->
  exists x' F, (forall n, (F <= n)%nat -> blockIter (eval n g') cl' esc' excl' cs used unused content = Ok (cs2, x')) /\ alikeIter x x'.
Proof.
  intros RC WC RE WE RL WL. unfold blockIter. intros H.
  apply bind_inv in H as (y & EQ & H).
  assert (E1 : exists F, forall n, (F <= n)%nat -> match esc' with
    | None => Ok (false, [], used, unused, cs)
    | Some e => let* (res, cs1) := eval n g' e cs NOT_SKIP in
      match r_node res with Some _ => let* u := charsUsed res in Ok (true, u, used ++ u, r_unused res, cs1) | None => Ok (false, [], used, r_read res, cs1) end end = Ok y).
  { destruct RE as [|e e' R]; [exists 0%nat; auto|]. apply bind_inv in EQ as ((res & s1) & E & EQ).
    destruct (HR _ _ _ R (WE _ eq_refl) _ _ _ _ E) as (res' & F & EF & A). exists F. intros n L. rewrite EF by exact L. cbn [bind]. destruct (r_node res) as [nd|] eqn:N.
    - destruct (matches_both _ _ _ A _ N) as (nd' & -> & _ & U). rewrite <- (alike_used _ _ _ A N), <- U. exact EQ.
    - rewrite (fails_both _ _ _ A N). destruct A as (_ & R' & _). rewrite <- R'. exact EQ. }
  destruct E1 as (F1 & E1). clear EQ. destruct y as [[[[escaped ec] us] un] cs1]. cbv beta iota zeta in H.
  apply bind_inv in H as (y & EQ & H). destruct y as [ex cs3].
  assert (E2 : exists ex' F, (forall n, (F <= n)%nat -> match excl' with [] => Ok (None, prepend cs1 un) | _ => let* (res, c) := mostGreedy (eval n g') excl' (prepend cs1 un) NOT_SKIP in Ok (Some res, c) end = Ok (ex', cs3)) /\
    match ex, ex' with None, None => True | Some X, Some X' => alikeRes true X X' | _, _ => False end).
  { destruct RL as [|e e' l l' R RL].
    - injection EQ as <- <-. exists None, 0%nat. split; [reflexivity|exact I].
    - apply bind_inv in EQ as ((res & s1) & E & EQ). injection EQ as <- <-.
      destruct (greedy_mirror (e :: l) (e' :: l') _ _ _ _ (rwl_cons _ _ _ _ _ _ _ R RL) WL E) as (X' & F & EF & A). exists (Some X'), F. split; [|exact A].
      intros n L. rewrite EF by exact L. reflexivity. }
  destruct E2 as (ex' & F2 & E2 & AX). clear EQ.
  assert (FE : match ex' with Some res => match r_node res with Some _ => true | None => false end | None => false end = match ex with Some res => match r_node res with Some _ => true | None => false end | None => false end).
  { destruct ex as [X|], ex' as [X'|]; try contradiction; [|reflexivity]. destruct (r_node X) eqn:N; [destruct (matches_both _ _ _ AX _ N) as (? & -> & _)|rewrite (fails_both _ _ _ AX N)]; reflexivity. }
  destruct (match ex with Some res => match r_node res with Some _ => true | None => false end | None => false end) eqn:FD.
  - destruct ex as [X|]; [|discriminate]. destruct ex' as [X'|]; [|contradiction]. destruct (r_node X) as [nd|] eqn:N; [|discriminate].
    destruct (matches_both _ _ _ AX _ N) as (nd' & N' & _ & U). destruct escaped.
    + apply bind_inv in H as (u & EU & H). injection H as <- <-. eexists. exists (max F1 F2). split.
      * intros n L. rewrite E1 by lia. cbn [bind]. rewrite E2 by lia. cbn [bind]. rewrite FE, <- (alike_used _ _ _ (alike_any _ _ _ AX) N), EU. cbn [bind]. reflexivity.
      * cbn. now rewrite U.
    + injection H as <- <-. eexists. exists (max F1 F2). split.
      * intros n L. rewrite E1 by lia. cbn [bind]. rewrite E2 by lia. cbn [bind]. rewrite FE. reflexivity.
      * cbn. split; [exact AX|]. split; [now exists nd|auto].
  - assert (RU : match ex' with Some res => r_read res | None => un end = match ex with Some res => r_read res | None => un end).
    { destruct ex as [X|], ex' as [X'|]; try contradiction; [|reflexivity]. destruct AX as (_ & R' & _). now rewrite R'. }
    apply bind_inv in H as ((res & cs4) & E & H). destruct (HR _ _ _ RC WC _ _ _ _ E) as (res' & F3 & E3 & A).
    assert (E3' : forall n, (max F1 (max F2 F3) <= n)%nat -> eval n g' cl' (prepend cs3 (match ex' with Some res => r_read res | None => un end)) NOT_SKIP = Ok (res', cs4)).
    { intros n L. rewrite RU. apply E3. lia. }
    clear E3 E. destruct (r_node res) as [nd|] eqn:N.
    + destruct (matches_both _ _ _ A _ N) as (nd' & N' & _ & U). apply bind_inv in H as (u & EU & H). rewrite (alike_used _ _ _ (alike_any _ _ _ A) N) in EU. destruct escaped.
      * injection H as <- <-. eexists. exists (max F1 (max F2 F3)). split.
        -- intros n L. rewrite E1 by lia. cbn [bind]. rewrite E2 by lia. cbn [bind]. rewrite FE. rewrite E3' by lia. cbn [bind]. rewrite N', EU. reflexivity.
        -- cbn. rewrite U. reflexivity.
      * injection H as <- <-. eexists. exists (max F1 (max F2 F3)). split.
        -- intros n L. rewrite E1 by lia. cbn [bind]. rewrite E2 by lia. cbn [bind]. rewrite FE. rewrite E3' by lia. cbn [bind]. rewrite N', EU. reflexivity.
        -- cbn. rewrite <- U. split; [exact A|]. split; [now exists nd|auto].
    + pose proof (fails_both _ _ _ A N) as N'. assert (U : r_unused res = r_unused res') by (destruct A as (A & _); rewrite N, N' in A; now apply A). rewrite U in H.
      destruct (peek (prepend cs4 (r_unused res')) =? EOFChar) eqn:PK.
      * injection H as <- <-. eexists. exists (max F1 (max F2 F3)). split.
        -- intros n L. rewrite E1 by lia. cbn [bind]. rewrite E2 by lia. cbn [bind]. rewrite FE. rewrite E3' by lia. cbn [bind]. rewrite N', PK. reflexivity.
        -- split; reflexivity.
      * destruct (next (prepend cs4 (r_unused res'))) as [c cs5] eqn:NX. injection H as <- <-. eexists. exists (max F1 (max F2 F3)). split.
        -- intros n L. rewrite E1 by lia. cbn [bind]. rewrite E2 by lia. cbn [bind]. rewrite FE. rewrite E3' by lia. cbn [bind]. rewrite N', PK, NX. reflexivity.
        -- reflexivity.
Qed.
Lemma blockLoop_mirror cl cl' esc esc' excl excl' : rw true cl cl' -> wfRule cl' -> rewrittenOpt g g' tight esc esc' -> (forall e, esc' = Some e -> wfRule e) ->
  rewrittenAll g g' tight excl excl' -> (forall e, In e excl' -> wfRule e) -> forall fuel cs used unused content cs2 e,
  blockLoop rec fuel cl esc excl cs used unused content = Ok (cs2, e) ->
  exists e' F, (forall n m, (F <= n)%nat -> (F <= m)%nat -> blockLoop (eval n g') m cl' esc' excl' cs used unused content = Ok (cs2, e')) /\ alikeExit e e'.
Proof.
  intros RC WC RE WE RL WL. induction fuel as [|fuel IH]; intros cs used unused content cs2 e; [discriminate|]. cbn [blockLoop]. intros H. apply bind_inv in H as ((cs1 & x) & E & H).
  destruct (iter_mirror _ _ _ _ _ _ _ _ _ _ _ _ RC WC RE WE RL WL E) as (x' & F & EF & A). destruct x as [[[u n0] c]|ex], x' as [a'|ex']; try contradiction; cbn in A.
  - subst a'. destruct (IH _ _ _ _ _ _ H) as (e' & F' & EF' & A'). exists e', (S (max F F')). split; [|exact A']. intros n [|m] L M; [lia|]. cbn [blockLoop]. rewrite EF by lia. cbn [bind]. apply EF'; lia.
  - injection H as <- <-. exists ex', (S F). split; [|exact A]. intros n [|m] L M; [lia|]. cbn [blockLoop]. rewrite EF by lia. reflexivity.
Qed.
Lemma block_mirror st fuel b b' o o' v cl cl' esc esc' excl excl' s f X s2 : rw st o o' -> wfRule o' -> rw true cl cl' -> wfRule cl' -> rewrittenOpt g g' tight esc esc' -> (forall e, esc' = Some e -> wfRule e) ->
  rewrittenAll g g' tight excl excl' -> (forall e, In e excl' -> wfRule e) ->
  evalBlock rec fuel b o v cl esc excl s f = Ok (X, s2) ->
  exists X' F, (forall n m, (F <= n)%nat -> (F <= m)%nat -> evalBlock (eval n g') m b' o' v cl' esc' excl' s f = Ok (X', s2)) /\ alikeRes st X X'.
Proof.
  intros RO WO RC WC RE WE RL WL. unfold evalBlock. intros H. apply bind_inv in H as ((ores & s1) & E & H). destruct (HR _ _ _ RO WO _ _ _ _ E) as (ores' & F & EF & A).
  destruct (r_node ores) as [on|] eqn:N.
  - destruct (matches_both _ _ _ A _ N) as (on' & N' & AN & U). apply bind_inv in H as (used & EU & H). rewrite (alike_used _ _ _ (alike_any _ _ _ A) N) in EU. rewrite U in H.
    destruct (positionOf (prepend s1 (r_unused ores'))) as [cpos cs] eqn:PO. apply bind_inv in H as ((cs' & e) & EL & H).
    destruct (blockLoop_mirror _ _ _ _ _ _ RC WC RE WE RL WL _ _ _ _ _ _ _ EL) as (e' & F' & EF' & AE).
    destruct e as [xr us ct|us un|cr us un ct]; destruct e' as [xr' us' ct'|us' un'|cr' us' un' ct']; try contradiction.
    + destruct AE as (AX & (xn & NX) & <- & <-). apply bind_inv in H as (u & EX & H). injection H as <- <-. rewrite (alike_used _ _ _ (alike_any _ _ _ AX) NX) in EX.
      eexists. exists (max F F'). split.
      * intros n m L M. rewrite EF by lia. cbn [bind]. rewrite N', EU. cbn [bind]. rewrite PO. rewrite EF' by lia. cbn [bind]. rewrite EX. reflexivity.
      * destruct AX as (_ & R & _). rewrite R. split; [intros _; reflexivity|]. cbn. repeat split; discriminate.
    + destruct AE as (<- & <-). destruct (descOk cl); [|discriminate]. injection H as <- <-. eexists. exists (max F F'). split.
      * intros n m L M. rewrite EF by lia. cbn [bind]. rewrite N', EU. cbn [bind]. rewrite PO. rewrite EF' by lia. cbn [bind]. rewrite (wf_descOk _ WC). reflexivity.
      * split; [intros _; reflexivity|]. cbn. repeat split; discriminate.
    + destruct AE as (AX & (xn & NX) & <- & <- & <-). injection H as <- <-. eexists. exists (max F F'). split.
      * intros n m L M. rewrite EF by lia. cbn [bind]. rewrite N', EU. cbn [bind]. rewrite PO. rewrite EF' by lia. cbn [bind]. reflexivity.
      * destruct (matches_both _ _ _ AX _ NX) as (xn' & NX' & AXN & _). destruct AX as (_ & R & _). rewrite R, NX, NX'. split; [|cbn; tauto]. cbn [r_node r_unused]. split; [|reflexivity].
        apply alike_branch; [discriminate| |discriminate]. constructor; [exact AN|]. constructor; [split; [reflexivity|tauto]|]. destruct v; [constructor|]. constructor; [exact AXN|constructor].
  - pose proof (fails_both _ _ _ A N) as N'. injection H as <- <-. eexists. exists F. split.
    + intros n m L M. rewrite EF by lia. cbn [bind]. rewrite N'. reflexivity.
    + destruct A as (AN & R & SK & IX & Q). rewrite N, N' in AN. split; [exact AN|]. cbn. rewrite R. tauto.
Qed.
End Loops.

Lemma toggle_alike b b' n n' : alikeNodes n n' -> alikeNodes (toggle b n) (toggle b' n').
Proof. intros (L & T). split; [|exact T]. destruct n as [? ? ? [|? ?] ? ? ? ? ?], n' as [? ? ? [|? ?] ? ? ? ? ?]; exact L. Qed.
Lemma toggle_alike_l b n n' : alikeNodes n n' -> alikeNodes (toggle b n) n'.
Proof. intros (L & T). split; [|exact T]. destruct n as [? ? ? [|? ?] ? ? ? ? ?]; exact L. Qed.
Lemma toggle_alike_r b n n' : alikeNodes n n' -> alikeNodes n (toggle b n').
Proof. intros (L & T). split; [|exact T]. destruct n' as [? ? ? [|? ?] ? ? ? ? ?]; exact L. Qed.
Lemma alike_terminal st X X' : r_read X = r_read X' -> r_unused X = r_unused X' -> r_sticky X = r_sticky X' -> r_erridx X = r_erridx X' -> (r_err X = None <-> r_err X' = None) ->
  match r_node X, r_node X' with Some n, Some n' => alikeNodes n n' | None, None => True | _, _ => False end -> alikeRes st X X'.
Proof. intros A B C D E F. split; [|auto]. destruct (r_node X), (r_node X'); auto. Qed.

Ltac leafs := repeat (match goal with
    | |- context[let '(_, _) := ?x in _] => destruct x eqn:?
    | |- context[match ?x with Some _ => _ | None => _ end] => destruct x eqn:?
    | |- context[if ?x then _ else _] => destruct x eqn:?
    end; cbn [fst snd]); split; try reflexivity; apply alike_terminal; cbn; try tauto; try (split; discriminate); try (split; [reflexivity|unfold notTaken; cbn; intuition discriminate]).
Lemma char_alike b b' t s f : snd (evalChar b t s f) = snd (evalChar b' t s f) /\ alikeRes true (fst (evalChar b t s f)) (fst (evalChar b' t s f)).
Proof. unfold evalChar. leafs. Qed.
Lemma chars_alike b b' t s f : snd (evalChars b t s f) = snd (evalChars b' t s f) /\ alikeRes true (fst (evalChars b t s f)) (fst (evalChars b' t s f)).
Proof. unfold evalChars. leafs. Qed.
Lemma string_alike b b' t s f : snd (evalString b t s f) = snd (evalString b' t s f) /\ alikeRes true (fst (evalString b t s f)) (fst (evalString b' t s f)).
Proof. unfold evalString. leafs. Qed.
Lemma range_alike b b' lo hi s f : snd (evalRange b lo hi s f) = snd (evalRange b' lo hi s f) /\ alikeRes true (fst (evalRange b lo hi s f)) (fst (evalRange b' lo hi s f)).
Proof. unfold evalRange. leafs. Qed.
Lemma eof_alike b b' s f : snd (evalEOF b s f) = snd (evalEOF b' s f) /\ alikeRes true (fst (evalEOF b s f)) (fst (evalEOF b' s f)).
Proof. unfold evalEOF. leafs. Qed.
Lemma terminal_mirror (st : bool) (e e' : result * stream) r' s f X s2 : (forall n, eval (S n) g' r' s f = Ok e') -> snd e = snd e' /\ alikeRes true (fst e) (fst e') -> Ok e = Ok (X, s2) ->
  exists X' F, (forall n, (F <= n)%nat -> eval n g' r' s f = Ok (X', s2)) /\ alikeRes st X X'.
Proof.
  intros Q (A & B) H. injection H as ->. cbn [fst snd] in A, B. destruct e' as [X' s']. cbn [fst snd] in *. subst s'. exists X', 1%nat. split; [|now apply alike_weak].
  intros [|n] L; [lia|]. apply Q.
Qed.
Lemma shift_fuel (P : nat -> Prop) F : (forall n, (F <= n)%nat -> P (S n)) -> forall n, (S F <= n)%nat -> P n.
Proof. intros H [|n] L; [lia|]. apply H. lia. Qed.
Lemma group_leaves b n st : leaves (mkNode TGroup b [] [n] None st) = leaves n.
Proof. cbn. now rewrite app_nil_r. Qed.

Lemma eval_mirror : forall fuel, mirrored (eval fuel g).
Proof.
  induction fuel as [|fuel IH]; [intros st r r' R W s f X s2 E; discriminate|]. intros st r r' R. revert st r r' R.
  apply (rw_min g g' tight (fun st r r' => wfRule r' -> forall s f X s2, eval (S fuel) g r s f = Ok (X, s2) -> exists X' F, (forall n, (F <= n)%nat -> eval n g' r' s f = Ok (X', s2)) /\ alikeRes st X X')
    (fun _ _ => True) (fun _ _ => True) (fun _ _ => True)); try (intros; exact I).
  - intros st b b' t u u' W s f X s2 E. cbn [eval evalStep] in E. eapply terminal_mirror; [reflexivity|apply char_alike|exact E].
  - intros st b b' t W s f X s2 E. cbn [eval evalStep] in E. eapply terminal_mirror; [reflexivity|apply chars_alike|exact E].
  - intros st b b' t W s f X s2 E. cbn [eval evalStep] in E. eapply terminal_mirror; [reflexivity|apply string_alike|exact E].
  - intros st b b' l lu lu' h hu hu' W s f X s2 E. cbn [eval evalStep] in E. eapply terminal_mirror; [reflexivity|apply range_alike|exact E].
  - intros st b b' W s f X s2 E. cbn [eval evalStep] in E. eapply terminal_mirror; [reflexivity|apply eof_alike|exact E].
  - intros st b b' n ND T W s f X s2 E. cbn [eval evalStep] in E. destruct (lookup g n) as [x|] eqn:L1; destruct (lookup g' n) as [x'|] eqn:L2.
    + apply bind_inv in E as ((X0 & s0) & E & Q). injection Q as <- <-. destruct (RW _ _ _ L1 L2) as (RF & RT).
      assert (R : rw st x x') by (destruct st; auto). destruct (IH _ _ _ R (WF _ _ L2) _ _ _ _ E) as (X' & F & EF & A).
      exists (set_node X' (option_map (toggle b') (r_node X'))), (S F). split.
      * apply shift_fuel. intros m L. cbn [eval evalStep]. rewrite L2, EF by exact L. reflexivity.
      * destruct A as (A & B). split; [|exact B]. cbn. destruct (r_node X0), (r_node X'); cbn; try tauto. split; [apply toggle_alike|]; tauto.
    + destruct ND as (_ & ND). now specialize (ND eq_refl).
    + destruct ND as (ND & _). now specialize (ND eq_refl).
    + injection E as <- <-. eexists. exists 1%nat. split.
      * apply shift_fuel. intros m _. cbn [eval evalStep]. rewrite L2. reflexivity.
      * apply alike_terminal; try reflexivity. split; discriminate.
  - intros st b b' x x' R _ W s f X s2 E. inversion W as [| | | | | |? ? Wx| | | | |]; subst. cbn [eval evalStep] in E. apply bind_inv in E as ((X0 & s0) & E & Q). destruct (IH _ _ _ R Wx _ _ _ _ E) as (X' & F & EF & A).
    destruct (r_node X0) as [nd|] eqn:N; [destruct (matches_both _ _ _ A _ N) as (nd' & N' & (LV & _) & U)|pose proof (fails_both _ _ _ A N) as N']; injection Q as <- <-; eexists; exists (S F); (split; [apply shift_fuel; intros m L; cbn [eval evalStep]; rewrite EF by exact L; cbn [bind]|]).
    + rewrite N'. reflexivity.
    + destruct A as (_ & R' & SK & B). split; [|cbn; tauto]. cbn [set_node r_node r_unused]. split; [|exact U].
      split; [rewrite !group_leaves; exact LV|unfold notTaken; cbn; intuition discriminate].
    + rewrite N'. reflexivity.
    + destruct A as (_ & R' & SK & B). rewrite R'. split; [intros _; reflexivity|cbn; tauto].
  - intros st b b' x x' R _ W s f X s2 E. inversion W as [| | | | | | |? ? Wx| | | |]; subst. cbn [eval evalStep] in E. apply bind_inv in E as ((X0 & s0) & E & Q). destruct (IH _ _ _ R Wx _ _ _ _ E) as (X' & F & EF & A).
    destruct (r_node X0) as [nd|] eqn:N; [destruct (matches_both _ _ _ A _ N) as (nd' & N' & (LV & _) & U)|pose proof (fails_both _ _ _ A N) as N']; injection Q as <- <-; eexists; exists (S F); (split; [apply shift_fuel; intros m L; cbn [eval evalStep]; rewrite EF by exact L; cbn [bind]|]).
    + rewrite N'. reflexivity.
    + destruct A as (_ & R' & SK & B). split; [|cbn; tauto]. cbn [set_node r_node r_unused]. split; [|exact U].
      split; [cbn; rewrite !app_nil_r; exact LV|unfold notTaken; cbn; intuition discriminate].
    + rewrite N'. reflexivity.
    + destruct A as (AN & R' & SK & B). rewrite N, N' in AN. split; [|cbn; tauto]. cbn. split; [|now apply AN]. split; [cbn; rewrite SK; reflexivity|unfold notTaken; cbn; tauto].
  - intros st b b' x x' mn mx R _ W s f X s2 E. assert (D := wf_descOk _ W). inversion W as [| | | | | | | |? ? ? ? Wx| | |]; subst. cbn [eval evalStep] in E.
    destruct (rep_mirror _ IH b b' _ _ _ _ mn mx _ R Wx D _ _ _ _ _ _ _ [] _ None _ _ (Forall2_nil _) (fun _ => eq_refl) E) as (X' & F & EF & A).
    exists X', (S F). split; [|now apply alike_weak]. apply shift_fuel. intros m L. cbn [eval evalStep]. apply EF; lia.
  - intros st b b' gs gs' R _ W s f X s2 E. assert (D := wf_descOk _ W). inversion W as [| | | | | | | | |? ? ? ? Wx| |]; subst. cbn [eval evalStep] in E.
    destruct (choice_mirror _ IH b b' _ _ _ _ _ R Wx D _ _ _ _ _ None _ _ _ (conj (fun x => x) (fun x => x)) E) as (X' & F & EF & A).
    exists X', (S F). split; [|now apply alike_weak]. apply shift_fuel. intros m L. cbn [eval evalStep]. apply EF; lia.
  - intros st b b' l l' R _ W s f X s2 E. assert (D := wf_descOk _ W). inversion W as [| | | | | | | | | |? ? ? Wx|]; subst. cbn [eval evalStep] in E.
    destruct (concat_mirror _ IH b b' _ _ _ _ _ R Wx D _ _ _ _ _ _ [] _ None _ _ (Forall2_nil _) (fun _ => eq_refl) E) as (X' & F & EF & A).
    exists X', (S F). split; [|now apply alike_weak]. apply shift_fuel. intros m L. cbn [eval evalStep]. apply EF; lia.
  - intros st b b' o o' v c c' e e' xs xs' RO _ RC _ RE _ RX _ W s f X s2 E. inversion W as [| | | | | | | | | | |? ? ? ? ? ? Wo Wc We Wx]; subst. cbn [eval evalStep] in E.
    destruct (block_mirror _ IH st _ b b' _ _ v _ _ _ _ _ _ _ _ _ _ RO Wo RC Wc RE We RX Wx E) as (X' & F & EF & A).
    exists X', (S F). split; [|exact A]. apply shift_fuel. intros m L. cbn [eval evalStep]. apply EF; lia.
  - intros st b' x x' R IR NO NT W s f X s2 E. inversion W as [| | | | | |? ? Wx| | | | |]; subst. destruct (IR Wx _ _ _ _ E) as (X' & F & EF & A).
    destruct (r_node X) as [nd|] eqn:N; [destruct (matches_both _ _ _ A _ N) as (nd' & N' & (LV & _) & U)|pose proof (fails_both _ _ _ A N) as N']; eexists; exists (S F); (split; [apply shift_fuel; intros m L; cbn [eval evalStep]; rewrite EF by exact L; cbn [bind]|]).
    + rewrite N'. reflexivity.
    + destruct A as (_ & R' & SK & B). split; [|cbn; tauto]. rewrite N. cbn [set_node r_node r_unused]. split; [|exact U].
      split; [rewrite !group_leaves; exact LV|]. pose proof (option_solid _ _ NO _ _ _ _ _ _ E N) as NN. split; [intros Z; now apply NN in Z|unfold notTaken; cbn; intuition discriminate].
    + rewrite N'. reflexivity.
    + destruct A as (_ & R' & SK & B). rewrite <- R'. split; [|cbn; tauto]. rewrite N. cbn. intros ->. exact (tie_solid _ _ NT _ _ _ _ _ E N).
  - intros st b x x' R _ NO NT W s f X s2 E. cbn [eval evalStep] in E. apply bind_inv in E as ((X0 & s0) & E & Q). destruct (IH _ _ _ R W _ _ _ _ E) as (X' & F & EF & A).
    destruct (r_node X0) as [nd|] eqn:N; injection Q as <- <-; exists X', F; (split; [exact EF|]).
    + destruct (matches_both _ _ _ A _ N) as (nd' & N' & (LV & _) & U). destruct A as (_ & R' & SK & B). split; [|cbn; tauto]. rewrite N'. cbn [set_node r_node r_unused]. split; [|exact U].
      split; [rewrite !group_leaves; exact LV|]. pose proof (option_solid _ _ NO _ _ _ _ _ _ (EF F (le_n _)) N') as NN. split; [unfold notTaken; cbn; intuition discriminate|intros Z; now apply NN in Z].
    + pose proof (fails_both _ _ _ A N) as N'. destruct A as (_ & R' & SK & B). split; [|cbn; tauto]. rewrite N'. cbn. intros ->. rewrite R'. symmetry. exact (tie_solid _ _ NT _ _ _ _ _ (EF F (le_n _)) N').
  - intros st b' n x x' LK R IR W s f X s2 E. destruct (IR (WF _ _ LK) _ _ _ _ E) as (X' & F & EF & A).
    exists (set_node X' (option_map (toggle b') (r_node X'))), (S F). split.
    + apply shift_fuel. intros m L. cbn [eval evalStep]. rewrite LK, EF by exact L. reflexivity.
    + destruct A as (A & B). split; [|exact B]. cbn. destruct (r_node X), (r_node X'); cbn; try tauto. split; [apply toggle_alike_r|]; tauto.
  - intros st b n x x' LK R _ W s f X s2 E. cbn [eval evalStep] in E. rewrite LK in E. apply bind_inv in E as ((X0 & s0) & E & Q). injection Q as <- <-. destruct (IH _ _ _ R W _ _ _ _ E) as (X' & F & EF & A).
    exists X', F. split; [exact EF|]. destruct A as (A & B). split; [|exact B]. cbn. destruct (r_node X0), (r_node X'); cbn; try tauto. split; [apply toggle_alike_l|]; tauto.
Qed.

Lemma roots_mirror fuel order order' : Forall2 (named (fun r r' => rw false r r' /\ wfRule r')) order order' -> forall cs f mr m m' e e' M E2 R s2,
  Forall2 (named bothMatch) m m' -> rootsLoop fuel g order cs f mr m e = Ok (M, E2, R, s2) ->
  exists M' E2' F, (forall n, (F <= n)%nat -> rootsLoop n g' order' cs f mr m' e' = Ok (M', E2', R, s2)) /\ Forall2 (named bothMatch) M M'.
Proof.
  induction 1 as [|[k r] [k' r'] order order' (NM & RR & Wr) FO IH]; intros cs f mr m m' e e' M E2 R s2 FM; cbn [rootsLoop].
  - intros [= <- <- <- <-]. exists (rev m'), (rev e'), 0%nat. split; [reflexivity|]. now apply Forall2_rev.
  - cbn [fst snd] in NM, RR, Wr. subst k'. intros H. apply bind_inv in H as ((X & s1) & E & H). destruct (eval_mirror fuel _ _ _ RR Wr _ _ _ _ E) as (X' & F & EF & A).
    pose proof A as (AN & RD & _). rewrite RD in H.
    assert (FM' : Forall2 (named bothMatch) (match r_node X with Some _ => (k, X) :: m | None => m end) (match r_node X' with Some _ => (k, X') :: m' | None => m' end)).
    { destruct (r_node X) as [nd|] eqn:N; destruct (r_node X') eqn:N'; try contradiction; [|exact FM]. constructor; [|exact FM]. split; [reflexivity|]. split; [exact A|]. now exists nd. }
    destruct (IH _ _ _ _ _ _ (match r_err X' with Some e0 => (k, e0) :: e' | None => e' end) _ _ _ _ FM' H) as (M' & E2' & F' & EF' & B).
    exists M', E2', (max F F'). split; [|exact B]. intros n L. rewrite EF by lia. cbn [bind]. apply EF'. lia.
Qed.
Definition alikeRawSel (x x' : result * result + option result) : Prop :=
  match x, x' with
  | inl (a, b), inl (a', b') => bothMatch a a' /\ bothMatch b b'
  | inr None, inr None => True
  | inr (Some a), inr (Some a') => bothMatch a a'
  | _, _ => False
  end.
Lemma rawSel_mirror l l' : Forall2 bothMatch l l' -> forall mu fnd fnd', alikeRawSel (inr fnd) (inr fnd') -> alikeRawSel (rawSel mu fnd l) (rawSel mu fnd' l').
Proof.
  induction 1 as [|X X' l l' A F IH]; intros mu fnd fnd' B; cbn [rawSel]; [exact B|]. rewrite (match_count _ _ A). destruct fnd as [x|], fnd' as [x'|]; try contradiction.
  - destruct (countUsed X' =? mu); [split; assumption|]. destruct (countUsed X' >=? mu); now apply IH.
  - destruct (countUsed X' >=? mu); now apply IH.
Qed.
Lemma rawSelect_mirror l l' : Forall2 bothMatch l l' -> alikeRawSel (rawSelect l) (rawSelect l').
Proof.
  intros F. destruct F as [|X X' l l' A F]; [exact I|]. destruct F as [|Y Y' l l' B F]; [exact A|]. apply (rawSel_mirror (X :: Y :: l) (X' :: Y' :: l')); [|exact I]. constructor; [exact A|constructor; [exact B|exact F]].
Qed.
Lemma named_map l l' : Forall2 (named bothMatch) l l' -> Forall2 bothMatch (List.map snd l) (List.map snd l').
Proof. induction 1 as [|? ? ? ? (_ & A) F IH]; cbn; constructor; assumption. Qed.
Lemma rawLoop_mirror o o' : alikeOrders g g' tight o o' -> forall lf fuel k s un f nodes nodes' a s2, Forall2 (fun n n' => leaves n = leaves n') nodes nodes' ->
  rawLoop lf fuel g o k s un f nodes = Ok (a, s2) ->
  exists a' F, (forall n m, (F <= n)%nat -> (F <= m)%nat -> rawLoop m n g' o' k s un f nodes' = Ok (a', s2)) /\ alikeRaw a a'.
Proof.
  intros (OR & OM). induction lf as [|lf IH]; intros fuel k s un f nodes nodes' a s2 FN; cbn [rawLoop]; [discriminate|]. destruct (peek (prepend s un) =? EOFChar) eqn:PK.
  - intros H. assert (a = match nodes with [] => RawNoNode | _ => RawOk (rev nodes) end /\ s2 = s) as (-> & ->) by (split; congruence). clear H.
    exists (match nodes' with [] => RawNoNode | _ => RawOk (rev nodes') end), 1%nat. split.
    + intros n [|m] L M; [lia|]. cbn [rawLoop]. rewrite PK. reflexivity.
    + destruct FN as [|x x' nodes nodes' HX FN]; [exact I|]. apply (Forall2_rev _ (x :: nodes) (x' :: nodes')). now constructor.
  - intros H. apply bind_inv in H as ((((M & E2) & R) & cs1) & E & H). destruct (roots_mirror fuel _ _ (OR k) _ _ _ _ [] _ [] _ _ _ _ (Forall2_nil _) E) as (M' & E2' & F & EF & FM).
    pose proof (rawSelect_mirror _ _ (named_map _ _ (OM k _ _ FM))) as SEL. destruct (rawSelect (List.map snd (o_matched o k M))) as [[x y]|[X|]] eqn:Q; destruct (rawSelect (List.map snd (o_matched o' k M'))) as [[x' y']|[X'|]] eqn:Q'; try contradiction; cbn in SEL.
    + injection H as <- <-. exists (RawAmbiguity x' y'), (S F). split; [|destruct SEL as ((? & _) & ? & _); split; assumption]. intros n [|m] L L2; [lia|]. cbn [rawLoop]. rewrite PK, EF by lia. cbn [bind]. rewrite Q'. reflexivity.
    + destruct SEL as (A & nd & N). rewrite N in H. apply bind_inv in H as (un' & SL & H). destruct (matches_both _ _ _ A _ N) as (nd' & N' & (LV & _) & U). rewrite (alike_count _ _ _ A N) in SL.
      assert (SK : r_sticky X = r_sticky X') by (destruct A as (_ & _ & ? & _); assumption). rewrite SK in H.
      destruct (IH _ _ _ _ _ _ (nd' :: nodes') _ _ (Forall2_cons _ _ LV FN) H) as (a' & F' & EF' & B). exists a', (S (max F F')). split; [|exact B]. intros n [|m] L L2; [lia|].
      cbn [rawLoop]. rewrite PK, EF by lia. cbn [bind]. rewrite Q', N', SL. cbn [bind]. apply EF'; lia.
    + injection H as <- <-. eexists. exists (S F). split.
      * intros n [|m] L L2; [lia|]. cbn [rawLoop]. rewrite PK, EF by lia. cbn [bind]. rewrite Q'. reflexivity.
      * exact I.
Qed.
Lemma evalRaw_mirror o o' lf fuel s a s2 : alikeOrders g g' tight o o' -> evalRaw lf fuel g o s = Ok (a, s2) ->
  exists a' F, (forall n m, (F <= n)%nat -> (F <= m)%nat -> evalRaw m n g' o' s = Ok (a', s2)) /\ alikeRaw a a'.
Proof.
  intros O. unfold evalRaw. destruct (peek s =? EOFChar).
  - intros [= <- <-]. exists RawEmpty, 0%nat. split; [reflexivity|exact I].
  - intros H. exact (rawLoop_mirror _ _ O _ _ _ _ _ _ _ [] _ _ (Forall2_nil _) H).
Qed.
End Simulation.
