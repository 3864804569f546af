(** C87: the arithmetic grammar shipped in main/samples/arithmetic: its root rule exprs,
    through EvalRule and EvalRaw. *)
From Verif Require Import Base Stream Node Rule Grammar SpecStream SpecRule SpecDriver SpecLL RepoSamples SpecArith SpecLines ArithLex DriverFacts ArithDrive.

(** Full claim: EvalRaw reads a text page by page; a page is a sum, always the longest one
    there, and the rows below it.  If nothing remains the trees of the pages are the
    answer, otherwise there is no match.  [ok] limits the texts. *)
Definition C87_claim (ok : list Z -> Prop) : Prop := forall s ords, runesOk (rest s) -> ok (rest s) -> rest s <> [] -> legal (rootsOf gArith) ords ->
  forall lf fuel r s', evalRaw lf fuel (rules_of gArith) ords s = Ok (r, s') ->
  exists ps t, Pages ps (rest s) t /\ ((t = [] /\ exists a, r = RawOk a /\ List.map bare a = List.map pageTree ps) \/ (t <> [] /\ exists d e, r = RawNoMatch d e)).

Definition c87Raw (t : list Z) : option (list node) :=
  match evalRaw 60 60 (rules_of gArith) (storedOrder gArith) (newStream t) with Ok (RawOk a, _) => Some (List.map bare a) | _ => None end.
Lemma c87_raw t x : c87Raw t = Some x -> exists a s', evalRaw 60 60 (rules_of gArith) (storedOrder gArith) (newStream t) = Ok (RawOk a, s') /\ List.map bare a = x.
Proof. unfold c87Raw. destruct (evalRaw _ _ _ _ _) as [[[a| | | |] s']| |]; try discriminate. intros [= <-]. eauto. Qed.
Lemma c87_legal : legal (rootsOf gArith) (storedOrder gArith).
Proof. exact (storedOrder_legal gArith). Qed.

(** False in general: U+00A0 is read as a digit (see C42). *)
Theorem C87_space_refuted : ~ C87_claim (fun _ => True).
Proof.
  intros H. assert (X : exists x, c87Raw [160] = Some x) by (eexists; vm_compute; reflexivity). destruct X as (x & X). destruct (c87_raw _ _ X) as (a & s' & E & _).
  destruct (H (newStream [160]) (storedOrder gArith) ltac:(repeat constructor; lia) Logic.I ltac:(discriminate) c87_legal 60%nat 60%nat _ _ E) as (ps & t & PS & A).
  assert (N : noSum [160]) by (apply blank_noSum; constructor; [cbn; tauto|constructor]). change (rest (newStream [160])) with [160] in PS.
  inversion PS as [? NS Q1 Q2 Q3|p ? t1 l ? PG PS']; subst; [destruct A as [[A _]|(_ & d & e & A)]; [discriminate A|discriminate A]|]. exact (page_inv _ _ _ PG N).
Qed.
Print Assumptions C87_space_refuted.
(** True for all texts in which no white space is beyond the blank. *)
Theorem C87_raw_partial : C87_claim plainSpace.
Proof. exact arith_raw. Qed.
Print Assumptions C87_raw_partial.
Theorem C87_returns_partial s ords : runesOk (rest s) -> plainSpace (rest s) -> rest s <> [] -> legal (rootsOf gArith) ords ->
  exists N, forall lf fuel, (length (rest s) < lf)%nat -> (N <= fuel)%nat -> exists r s', evalRaw lf fuel (rules_of gArith) ords s = Ok (r, s').
Proof. exact (arith_raw_returns s ords). Qed.
Print Assumptions C87_returns_partial.
(** There is one such reading. *)
Theorem C87_once_partial ps ps' t r r' : plainSpace t -> Pages ps t r -> Pages ps' t r' -> ps = ps' /\ r = r'.
Proof. exact (fun P H => pages_once ps t r H ps' r' P). Qed.
Print Assumptions C87_once_partial.
(** EvalRule reads one page. *)
Theorem C87_rule_partial fuel sample res : runesOk sample -> plainSpace sample -> evalRule fuel gArith (rs "exprs") sample = Ok res ->
  (exists p r n, Page p sample r /\ r_node res = Some n /\ bare n = pageTree p /\ (length (r_read res) - length (r_unused res) + length r = length sample)%nat) \/
  (noSum sample /\ r_node res = None).
Proof. exact (exprs_rule fuel sample res). Qed.
Print Assumptions C87_rule_partial.
Theorem C87_rule_returns_partial sample : runesOk sample -> plainSpace sample ->
  exists N res, forall fuel, (N <= fuel)%nat -> evalRule fuel gArith (rs "exprs") sample = Ok res.
Proof. exact (exprs_returns sample). Qed.
Print Assumptions C87_rule_returns_partial.

(** Rows are read as they are written, if each starts with a letter or a parenthesis. *)
Theorem C87_written_partial ords e s l t : legal (rootsOf gArith) ords -> runesOk (s ++ t) -> plainSpace (s ++ t) -> Sum usual e s -> Written l t ->
  exists N, forall lf fuel, (length (s ++ t) < lf)%nat -> (N <= fuel)%nat ->
    exists n s', evalRaw lf fuel (rules_of gArith) ords (newStream (s ++ t)) = Ok (RawOk [n], s') /\ bare n = pageTree (e, l).
Proof. exact (arith_written ords e s l t). Qed.
Print Assumptions C87_written_partial.
(** Not if a row starts with a minus: A and -5 below it are read as A-5. *)
Definition C87_rows_claim : Prop := forall e s c e' t a s', Sum usual e s -> newline c -> flush t -> Sum usual e' t ->
  evalRaw 60 60 (rules_of gArith) (storedOrder gArith) (newStream (s ++ c :: t)) = Ok (RawOk a, s') -> List.map bare a = [pageTree (e, [(c, e')])].
Lemma c87_alone x t : Factor usual x t -> Sum usual ((x, []), []) t.
Proof. intros H. rewrite <- (app_nil_r t). constructor; [|constructor]. rewrite <- (app_nil_r t). constructor; [exact H|constructor]. Qed.
Lemma c87_A : Sum usual ((FVar [65], []), []) [65].
Proof. apply c87_alone. apply (fa_var usual [] 65 []); [constructor|left; lia|constructor]. Qed.
Definition c87Minus : page := (((FVar [65], []), [(45, (FNum (NDec false [53]), []))]), []).
Theorem C87_rows_refuted : ~ C87_rows_claim.
Proof.
  intros H. destruct (c87_raw [65; 10; 45; 53] [pageTree c87Minus] ltac:(vm_compute; reflexivity)) as (a & s' & E & B).
  assert (F : Sum usual ((FNum (NDec true [53]), []), []) [45; 53]).
  { apply c87_alone. constructor. apply (nu_dec usual [] true [53]); [constructor|]. split; [discriminate|]. repeat constructor; unfold decDigit; lia. }
  specialize (H ((FVar [65], []), []) [65] 10 ((FNum (NDec true [53]), []), []) [45; 53] a s' c87_A (or_introl eq_refl) ltac:(cbn; lia) F E). rewrite B in H.
  apply (f_equal (fun l => match l with n :: _ => match n_kids n with [_; r] => length (n_kids r) | _ => 0%nat end | _ => 0%nat end)) in H. vm_compute in H. discriminate H.
Qed.
Print Assumptions C87_rows_refuted.
(** A text that ends with white space, as with a newline at the end of the last line, is
    refused. *)
Theorem C87_end_refuted lf fuel ords e s w r s' : legal (rootsOf gArith) ords -> runesOk (s ++ w) -> plainSpace (s ++ w) -> Sum usual e s -> white w -> w <> [] ->
  evalRaw lf fuel (rules_of gArith) ords (newStream (s ++ w)) = Ok (r, s') -> exists d er, r = RawNoMatch d er.
Proof. exact (arith_blank lf fuel ords e s w r s'). Qed.
Print Assumptions C87_end_refuted.

(** 1+b, below it a*2, below it (7); the second line is followed by a blank line. *)
Definition c87Text : list Z := Eval vm_compute in (rs "1+b" ++ [10] ++ rs "a*2" ++ [10; 10] ++ rs "(7)").
Definition c87Page : page :=
  (((FNum (NDec false [49]), []), [(43, (FVar [98], []))]),
   [(10, ((FVar [97], [(42, FNum (NDec false [50]))]), [])); (10, ((FParen ((FNum (NDec false [55]), []), []), []), []))]).
Example C87_example : c87Raw c87Text = Some [pageTree c87Page].
Proof. vm_compute. reflexivity. Qed.
Ltac spell := repeat first [apply Forall_nil | apply Forall_cons; [cbn; tauto || (unfold decDigit, nameRune, letter; lia)|] | split; [discriminate|]].
Lemma c87_digit d : decDigit d -> Factor usual (FNum (NDec false [d])) [d].
Proof. intros D. constructor. apply (nu_dec usual [] false [d]); [constructor|]. split; [discriminate|]. constructor; [exact D|constructor]. Qed.
Example C87_text : exists s t, c87Text = s ++ t /\ Sum usual (fst c87Page) s /\ Written (snd c87Page) t.
Proof.
  exists (rs "1+b"), ([10] ++ rs "a*2" ++ [10; 10] ++ rs "(7)"). split; [reflexivity|]. split.
  - change (rs "1+b") with ([49] ++ ([] ++ 43 :: [98]) ++ []). constructor; [|constructor; [constructor|now left| |constructor]].
    + rewrite <- (app_nil_r [49]). constructor; [apply c87_digit; unfold decDigit; lia|constructor].
    + rewrite <- (app_nil_r [98]). constructor; [apply (fa_var usual [] 98 []); [constructor|right; lia|constructor]|constructor].
  - change ([10] ++ rs "a*2" ++ [10; 10] ++ rs "(7)") with ([] ++ 10 :: (97 :: [42; 50]) ++ ([10] ++ 10 :: (40 :: [55; 41]) ++ [])).
    apply wr_more; [constructor|now left|left; right; lia| |].
    + apply (ch_intro plusMinus (Product usual) (FVar [97], [(42, FNum (NDec false [50]))]) [97; 42; 50] [] []); [|constructor]. change [97; 42; 50] with ([97] ++ ([] ++ 42 :: [50]) ++ []). constructor; [apply (fa_var usual [] 97 []); [constructor|right; lia|constructor]|].
      constructor; [constructor|now left|apply c87_digit; unfold decDigit; lia|constructor].
    + apply wr_more; [spell|now left|now right| |constructor]. apply c87_alone. apply (fa_paren usual [] _ [55] []); [constructor| |constructor]. apply c87_alone. apply c87_digit. unfold decDigit. lia.
Qed.
