(** The expressions of the shipped arithmetic grammar: the textbook semantics against
    SpecArith.v. *)
From Verif Require Import Base Stream StreamFacts CallFacts Node Rule Grammar SpecStream SpecRule TermFacts TermSpec SpecEval SpecEv EvFacts EvDet
  SpecTerm WfDec LoopFacts SpecDriver SpecLL LLFacts LLDec LangFacts JsonLex JsonLang RepoSamples SpecArith ArithLex ArithSafe ArithLang ArithNum.

Definition anyOp (c : Z) : Prop := timesDivide c \/ plusMinus c.
Lemma name_dark c : nameRune c -> isWS c = false.
Proof. intros H. apply not_true_is_false. rewrite isWS_In. cbn. unfold nameRune, letter, decDigit in H. lia. Qed.
Lemma anyOp_dark c : anyOp c -> isWS c = false.
Proof. intros H. apply not_true_is_false. rewrite isWS_In. cbn. unfold anyOp, timesDivide, plusMinus in H. lia. Qed.
Lemma goes_not (ops : Z -> Prop) w o r : (forall c, ops c -> isWS c = false) -> white w -> isWS o = false -> ~ ops o -> ~ nameRune o -> o <> 46 -> ~ goesOn ops (w ++ o :: r).
Proof.
  intros OD W D NO NN N46 [(w' & c & r' & E & W' & C)|(c & r' & E & C)].
  - assert (DC : isWS c = false) by (destruct C as [C|C]; [now apply OD|now apply dec_dark]).
    destruct (white_head w' c r' _ W' DC E) as (_ & A & _). destruct (white_head w o r _ W D eq_refl) as (_ & B & _). rewrite B in A. injection A as <- _.
    destruct C as [C|C]; [now apply NO|]. apply NN. right. now left.
  - destruct w as [|v w]; cbn [app] in E; injection E as -> _.
    + destruct C; [now apply NN|now apply N46].
    + pose proof (Forall_inv W) as V. apply isWS_In in V. destruct C as [C|C]; [apply name_dark in C; congruence|subst; discriminate].
Qed.

(* ---------------- stickiness ---------------- *)

Lemma alts_false rules t : forall m ml m' st', EvAlts gA rules SK t m false ml m' st' -> st' = false.
Proof. induction rules as [|r rules IH]; intros m ml m' st' H; inversion H; subst; [reflexivity| |]; eapply IH; eassumption. Qed.
Lemma alts_soft_in r rules t : In r rules -> softly gA r t -> forall m st ml m' st', EvAlts gA rules SK t m st ml m' st' -> st' = false.
Proof.
  induction rules as [|r' rules IH]; intros J SO m st ml m' st' H; [destruct J|]. destruct J as [->|J].
  - exact (alts_soft gA r rules t _ _ _ _ _ SO H).
  - inversion H; subst; eapply IH; eassumption.
Qed.
Lemma paren_soft t : softly gA xParen t.
Proof.
  pose proof (concat_soft gA nb (RString nb [40]) [ref aExpr; RString nb [41]] t (word_soft gA nb [40] t)) as CS.
  intros o H. inversion H; subst; match goal with X : Ev _ _ _ _ _ |- _ => exact (CS _ X) end.
Qed.
Lemma factor_soft t n u k st : Ev gA (ref aFactor) SK t (OMatch n u k st) -> st = false.
Proof.
  intros E. apply (inv_ref_any gA _ _ _ _ _ look_factor) in E. inversion E as [| | | | | | | | | | | | | |? ? ? ? ? C| |]; subst.
  inversion C as [|? ? ? ? ? ? ? ? ? ? AL EL|? ? ? ? ? ? ? ? ? ? n1 ? AL SL|]; subst; [inversion EL|].
  eapply (alts_soft_in xParen); [|apply paren_soft|exact AL]. right. right. now left.
Qed.

(* ---------------- parentheses ---------------- *)

Definition IsParen (x : factor) (s : list Z) : Prop := exists w e t w', x = FParen e /\ white w /\ Sum found e t /\ white w' /\ s = w ++ 40 :: t ++ w' ++ [41].
Definition parT (x : factor) : node := match x with FParen e => parenTree (sumTree e) | _ => nd TEOF [] [] [] end.

Section Parens.
Variable bound : nat.
Hypothesis HE : forall t o, (length t < bound)%nat -> plainSpace t -> Ev gA (ref aExpr) SK t o -> longest (Sum found) sumTree (goesOn anyOp) t o.
Hypothesis ES : forall t n u k st, Ev gA (ref aExpr) SK t (OMatch n u k st) -> st = false.

Lemma paren_inv t y s s' : IsParen y s -> t = s ++ s' -> exists e t1 w', y = FParen e /\ Sum found e t1 /\ white w' /\ s = firstn (lead t) t ++ 40 :: t1 ++ w' ++ [41] /\
  skipn (lead t) t = 40 :: t1 ++ w' ++ 41 :: s'.
Proof.
  intros (w & e & t1 & w' & -> & W & E & W' & ->) TE. destruct (token_inv w 40 (t1 ++ w' ++ [41]) s' t W eq_refl TE) as (A & B & _). exists e, t1, w'. rewrite A, B.
  repeat (split; [assumption || reflexivity|]). repeat rewrite <- app_assoc. reflexivity.
Qed.
Lemma paren_never w r : white w -> ~ goesOn anyOp (w ++ 41 :: r).
Proof.
  intros W. apply goes_not; [exact anyOp_dark|exact W|reflexivity| | |discriminate]; unfold anyOp, timesDivide, plusMinus, nameRune, letter, decDigit; lia.
Qed.
Lemma paren_longest t o : (length t <= bound)%nat -> plainSpace t -> Ev gA xParen SK t o -> longest IsParen parT (goesOn nothing) t o.
Proof.
  intros LT PS E. pose proof (one_word 40 t eq_refl) as E1. destruct (lead_white t) as (TE & W & LW). destruct (headIs 40 (skipn (lead t) t)) eqn:H.
  2:{ assert (X : Ev gA xParen SK t (OFail (length (fst (litmatch [40] (skipn (lead t) t))) + lead t) false)).
      { apply ev_group_fail. apply ev_concat. eapply evseq_eq; [eapply es_fail; exact E1|]. reflexivity. }
      rewrite (ev_det _ _ _ _ _ _ E X). intros y s s' EQ Y. destruct (paren_inv t y s s' Y EQ) as (e & t1 & w' & _ & _ & _ & _ & A). rewrite A in H. discriminate. }
  pose proof (head_tail _ _ _ H) as HT. set (r := skipn (lead t + 1) t) in *. pose proof (skipn_length (lead t) t) as LL. rewrite HT in LL. cbn [length] in LL.
  assert (PR : plainSpace r) by now apply plain_skipn. destruct (aTotal aExpr _ SK r look_expr) as (oe & EE). pose proof (HE r oe ltac:(lia) PR EE) as LE.
  assert (INV : forall y s s', t = s ++ s' -> IsParen y s -> exists e t1 w', y = FParen e /\ Sum found e t1 /\ white w' /\ s = firstn (lead t) t ++ 40 :: t1 ++ w' ++ [41] /\ r = t1 ++ w' ++ 41 :: s').
  { intros y s s' EQ Y. destruct (paren_inv t y s s' Y EQ) as (e & t1 & w' & A & B & C & D & F). rewrite HT in F. injection F as F. exists e, t1, w'. auto. }
  destruct oe as [n u k st|k st].
  2:{ assert (X : exists k s, Ev gA xParen SK t (OFail k s)).
      { eexists. eexists. apply ev_group_fail. apply ev_concat. eapply es_step; [exact E1|]. change (nextMode SK (wordNode nb [40]) false) with SK. cbn [andb app]. eapply es_fail. rewrite Nat.add_0_l. exact EE. }
      destruct X as (k' & s1 & X). rewrite (ev_det _ _ _ _ _ _ E X). intros y s s' EQ Y. destruct (INV y s s' EQ Y) as (e & t1 & w' & _ & B & _ & _ & F). exact (LE e t1 _ F B). }
  assert (st = false) by (eapply ES; exact EE). subst st. destruct LE as (U & e0 & X0 & B0 & OT). pose proof (skipn_length u r) as LR. set (v := skipn u r) in *.
  assert (SAME : forall y s s', t = s ++ s' -> IsParen y s -> exists w', y = FParen e0 /\ white w' /\ s = firstn (lead t) t ++ 40 :: firstn u r ++ w' ++ [41] /\ v = w' ++ 41 :: s').
  { intros y s s' EQ Y. destruct (INV y s s' EQ Y) as (e & t1 & w' & -> & B & C & -> & F). destruct (OT e t1 _ F B) as [[-> ->]|[_ G]]; [|destruct (paren_never w' s' C G)].
    exists w'. repeat (split; [assumption || reflexivity|]). rewrite <- (firstn_skipn u r) in F at 1. now apply app_inv_head in F. }
  pose proof (one_word 41 v eq_refl) as E2. destruct (lead_white v) as (VE & VW & LV). destruct (headIs 41 (skipn (lead v) v)) eqn:HV.
  2:{ assert (X : exists k s, Ev gA xParen SK t (OFail k s)).
      { eexists. eexists. apply ev_group_fail. apply ev_concat. eapply es_step; [exact E1|]. change (nextMode SK (wordNode nb [40]) false) with SK. cbn [andb app]. eapply es_step; [rewrite Nat.add_0_l; exact EE|].
        rewrite arg_mode'. eapply es_fail. rewrite Nat.add_0_l. rewrite <- skipn_plus. exact E2. }
      destruct X as (k' & s1 & X). rewrite (ev_det _ _ _ _ _ _ E X). intros y s s' EQ Y. destruct (SAME y s s' EQ Y) as (w' & _ & W' & _ & F).
      destruct (white_head w' 41 s' v W' eq_refl F) as (_ & A & _). rewrite A in HV. discriminate. }
  pose proof (head_tail _ _ _ HV) as HT2. set (z := skipn (lead v + 1) v) in *. pose proof (skipn_length (lead v) v) as LZ. rewrite HT2 in LZ. cbn [length] in LZ.
  assert (X : exists k, Ev gA xParen SK t (OMatch (tree TGroup nb [tree TConcat nb [wordNode nb [40]; n; wordNode nb [41]] false] false) (lead t + (1 + (u + (lead v + 1)))) k false)).
  { eexists. eapply ev_group. apply ev_concat. eapply es_step; [exact E1|]. change (nextMode SK (wordNode nb [40]) false) with SK. cbn [andb app]. eapply es_step; [rewrite Nat.add_0_l; exact EE|].
    rewrite arg_mode'. eapply es_step; [rewrite Nat.add_0_l; rewrite <- skipn_plus; exact E2|]. eapply evseq_eq; [apply es_done|]. cbn [andb app]. f_equal. lia. }
  destruct X as (k' & X). rewrite (ev_det _ _ _ _ _ _ E X). clear X.
  assert (TX : firstn (lead t + (1 + (u + (lead v + 1)))) t = firstn (lead t) t ++ 40 :: firstn u r ++ firstn (lead v) v ++ [41]).
  { rewrite token_text, HT. cbn [Nat.add firstn]. rewrite firstn_plus. fold v. rewrite firstn_plus, HT2. reflexivity. }
  cbn [longest]. rewrite TX. split; [lia|]. exists (FParen e0). split; [|split].
  - exists (firstn (lead t) t), e0, (firstn u r), (firstn (lead v) v). auto.
  - cbn [parT]. unfold parenTree. rewrite <- B0. reflexivity.
  - intros y s s' EQ Y. destruct (SAME y s s' EQ Y) as (w' & -> & W' & -> & F). destruct (white_head w' 41 s' v W' eq_refl F) as (_ & _ & A). left. now rewrite A.
Qed.

(* ---------------- factors ---------------- *)

Lemma num_head t x s s' : Number found x s -> t = s ++ s' -> exists c r, skipn (lead t) t = c :: r /\ (decDigit c \/ c = 45 \/ c = 46).
Proof.
  assert (BA : forall (mk : list Z -> number) c Q (y : number), (exists w ds, y = mk ds /\ white w /\ some Q ds /\ s = w ++ 48 :: c :: ds) -> t = s ++ s' -> exists d r, skipn (lead t) t = d :: r /\ (decDigit d \/ d = 45 \/ d = 46)).
  { intros mk c Q y (w & ds & _ & W & _ & ->) E. destruct (token_inv w 48 (c :: ds) s' t W eq_refl E) as (A & _). rewrite A. exists 48. eexists. split; [reflexivity|]. left. unfold decDigit. lia. }
  intros X E. destruct X as [w m ds W D|w ds W D|w ds W D|w ds W D|m ds es t' D F FO].
  - destruct (dec_inv t (NDec m ds) (w ++ sign m ++ ds) s') as (w' & m' & ds' & EQ & D' & _ & _ & _ & A & _); [exists w, m, ds; auto|exact E|]. injection EQ as <- <-. rewrite A.
    destruct m; cbn [sign app]; [eexists; eexists; split; [reflexivity|right; now left]|]. destruct D as [NE D]. destruct ds as [|d ds]; [congruence|]. cbn [app]. eexists. eexists. split; [reflexivity|]. left. exact (Forall_inv D).
  - apply (BA NOct 111 octDigit (NOct ds)); [|exact E]. exists w, ds. auto.
  - apply (BA NHex 120 hexDigit (NHex ds)); [|exact E]. exists w, ds. auto.
  - apply (BA NBin 98 binDigit (NBin ds)); [|exact E]. exists w, ds. auto.
  - destruct (float_inv t (NFloat m ds es) t' s') as [(ds' & es' & _ & _ & _ & A & _)|(_ & ds' & l & es' & _ & SD & _ & _ & TE)]; [exists m, ds, es; auto|exact E|rewrite A; eexists; eexists; split; [reflexivity|right; now left]|].
    destruct SD as [|w0 d0 ds' l W0 D0 SD].
    + destruct (white_head [] 46 (es' ++ s') _ (Forall_nil _) eq_refl TE) as (_ & A & _). rewrite A. eexists. eexists. split; [reflexivity|]. right. now right.
    + rewrite <- app_assoc in TE. destruct (white_head w0 d0 _ _ W0 (dec_dark d0 D0) TE) as (_ & A & _). rewrite A. eexists. eexists. split; [reflexivity|]. now left.
Qed.
Lemma var_head t x s s' : IsVar x s -> t = s ++ s' -> exists c r, skipn (lead t) t = c :: r /\ letter c.
Proof. intros (w & c & l & -> & W & C & F & ->) E. destruct (token_inv w c l s' t W (letter_dark c C) E) as (A & _). rewrite A. eauto. Qed.

Definition litT (x : factor) : node := match x with FNum n => numTree n | _ => nd TEOF [] [] [] end.
Definition varT (x : factor) : node := match x with FVar n => varTree n | _ => nd TEOF [] [] [] end.
Definition factorBranches : list (@branch factor) :=
  [(ref aLiteral, fun x s => exists n, x = FNum n /\ Number found n s, litT); (ref aVar, fun x s => exists n, x = FVar n /\ IsVar n s, varT); (xParen, IsParen, parT)].
Lemma factor_longest t o : (length t <= bound)%nat -> plainSpace t -> Ev gA (ref aFactor) SK t o -> longest (Factor found) factorTree (goesOn nothing) t o.
Proof.
  intros LT PS E. apply (inv_ref_any gA _ _ _ _ _ look_factor) in E. apply (longest_iff (fun x s => exists b, In b factorBranches /\ spells b x s)).
  { intros x s. split.
    - intros (b & B & X). unfold factorBranches in B. eachOf; subst b; unfold spells in X; cbn [fst snd] in X.
      + destruct X as (n & -> & X). now constructor.
      + destruct X as (n & -> & w & c & l & -> & W & C & F & ->). now constructor.
      + destruct X as (w & e & t1 & w' & -> & W & C & F & ->). now constructor.
    - intros X. destruct X as [n s X|w c l W C F|w e t1 w' W X W'].
      + exists (ref aLiteral, fun x s => exists n, x = FNum n /\ Number found n s, litT). split; [now left|]. exists n. auto.
      + exists (ref aVar, fun x s => exists n, x = FVar n /\ IsVar n s, varT). split; [right; now left|]. exists (c :: l). split; [reflexivity|]. exists w, c, l. auto.
      + exists (xParen, IsParen, parT). split; [right; right; now left|]. exists w, e, t1, w'. auto. }
  apply (choice_longest (named aFactor) (goesOn nothing) factorTree t factorBranches); [| | | |exact E].
  - intros x X a s Y. unfold factorBranches in X. eachOf; subst x; unfold spells in Y; cbn [fst snd] in Y.
    + destruct Y as (n & -> & _). reflexivity.
    + destruct Y as (n & -> & _). reflexivity.
    + destruct Y as (w & e & t1 & w' & -> & _). reflexivity.
  - now split.
  - intros x X o' E'. unfold factorBranches in X. eachOf; subst x; unfold ruleIn, spells in *; cbn [fst snd] in *.
    + apply (longest_map FNum (Number found) numTree litT); [reflexivity|]. now apply lit_longest.
    + apply (longest_map FVar IsVar varTree varT); [reflexivity|]. now apply var_longest.
    + now apply paren_longest.
  - unfold factorBranches. constructor; [|constructor; [|constructor; [constructor|constructor]]].
    + constructor; [|constructor; [|constructor]]; intros a s s' c z z' E1 E2 X Y; unfold spells in *; cbn [fst snd] in *; exfalso; destruct X as (n & -> & X);
        destruct (num_head t n s s' X E1) as (d & r & A & D).
      * destruct Y as (n' & -> & Y). destruct (var_head t n' z z' Y E2) as (d' & r' & A' & D'). rewrite A in A'. injection A' as <- _. unfold letter in D'. unfold decDigit in D. lia.
      * destruct (paren_inv t c z z' Y E2) as (e & t1 & w' & _ & _ & _ & _ & A'). rewrite A in A'. injection A' as -> _. unfold decDigit in D. lia.
    + constructor; [|constructor]. intros a s s' c z z' E1 E2 X Y. unfold spells in *. cbn [fst snd] in *. exfalso. destruct X as (n & -> & X).
      destruct (var_head t n s s' X E1) as (d & r & A & D). destruct (paren_inv t c z z' Y E2) as (e & t1 & w' & _ & _ & _ & _ & A'). rewrite A in A'. injection A' as -> _. unfold letter in D. lia.
Qed.

(* ---------------- products and sums ---------------- *)

Lemma term_longest t o : (length t <= bound)%nat -> plainSpace t -> Ev gA (ref aTerm) SK t o -> longest (Product found) productTree (goesOn timesDivide) t o.
Proof.
  intros LT PS E. refine (chain_longest aTerm aFop aFactor 42 47 xFactor (Factor found) factorTree (goesOn nothing) (goesOn timesDivide) look_fop look_factor eq_refl eq_refl _ _ _ _ factor_soft bound _ look_term t o PS LT E).
  - discriminate.
  - intros w o' r W O. apply goes_not; [intros c []|exact W|destruct O as [->| ->]; reflexivity|intros []| |]; unfold isOp in O; unfold nameRune, letter, decDigit; lia.
  - intros w o' r W O. left. exists w, o', r. auto.
  - intros s. apply goesOn_mono. intros c [].
  - intros t0 o0 L0 P0 E0. now apply factor_longest.
Qed.
Lemma term_soft t n u k st : Ev gA (ref aTerm) SK t (OMatch n u k st) -> st = false.
Proof. exact (chain_soft aTerm aFop aFactor factor_soft look_term t n u k st). Qed.
Lemma expr_longest t o : (length t <= bound)%nat -> plainSpace t -> Ev gA (ref aExpr) SK t o -> longest (Sum found) sumTree (goesOn anyOp) t o.
Proof.
  intros LT PS E. refine (chain_longest aExpr aTop aTerm 43 45 _ (Product found) productTree (goesOn timesDivide) (goesOn anyOp) look_top look_term eq_refl eq_refl _ _ _ _ term_soft bound _ look_expr t o PS LT E).
  - discriminate.
  - intros w o' r W O. apply goes_not; [intros c C; apply anyOp_dark; now left|exact W|destruct O as [->| ->]; reflexivity| | |]; unfold isOp in O; unfold timesDivide, nameRune, letter, decDigit; lia.
  - intros w o' r W O. left. exists w, o', r. split; [reflexivity|]. split; [exact W|]. left. right. exact O.
  - intros s. apply goesOn_mono. intros c C. now left.
  - intros t0 o0 L0 P0 E0. now apply term_longest.
Qed.
End Parens.

Lemma expr_soft t n u k st : Ev gA (ref aExpr) SK t (OMatch n u k st) -> st = false.
Proof. exact (chain_soft aExpr aTop aTerm term_soft look_expr t n u k st). Qed.
Lemma sum_below N : forall t o, (length t < N)%nat -> plainSpace t -> Ev gA (ref aExpr) SK t o -> longest (Sum found) sumTree (goesOn anyOp) t o.
Proof.
  induction N as [|N IH]; intros t o L PS E; [lia|]. apply (expr_longest N IH expr_soft); [lia|exact PS|exact E].
Qed.
(** The outcome of the rule [expr]: the longest text of a sum, with the tree of the sum. *)
Theorem sum_longest t o : plainSpace t -> Ev gA (ref aExpr) SK t o -> longest (Sum found) sumTree (goesOn anyOp) t o.
Proof. intros PS E. apply (sum_below (S (length t)) t o); [lia|exact PS|exact E]. Qed.
