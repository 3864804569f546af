(** C86: the arithmetic grammar shipped in main/samples/arithmetic: EvalRule on its rule expr. *)
From Verif Require Import Base Stream Node Rule Grammar SpecStream SpecRule SpecEval SpecLL LLFacts JsonLex RepoSamples SpecArith ArithLex ArithRule.

(** Full claim: EvalRule on expr finds the longest text of a sum in front of the sample
    and returns the tree of that sum.  [dotted] says how numbers with a dot are written,
    [ok] limits the samples. *)
Definition C86_claim (dotted : bool -> list Z -> list Z -> list Z -> Prop) (ok : list Z -> Prop) : Prop :=
  forall fuel sample res, runesOk sample -> ok sample -> evalRule fuel gArith (rs "expr") sample = Ok res ->
  (exists e s s' n, sample = s ++ s' /\ Sum dotted e s /\ r_node res = Some n /\ bare n = sumTree e /\ (length (r_read res) - length (r_unused res) = length s)%nat /\
     forall e' z z', sample = z ++ z' -> Sum dotted e' z -> (length z <= length s)%nat) \/
  ((forall e s s', sample = s ++ s' -> ~ Sum dotted e s) /\ r_node res = None).

(** False as numbers are meant to be written: .5 with a blank in front of it is refused. *)
Definition c86Out (t : list Z) : option node * nat :=
  match evalRule 60 gArith (rs "expr") t with Ok res => (option_map bare (r_node res), (length (r_read res) - length (r_unused res))%nat) | _ => (None, 0%nat) end.
Lemma c86_out t x : c86Out t = x -> snd x <> 0%nat -> exists res, evalRule 60 gArith (rs "expr") t = Ok res /\ option_map bare (r_node res) = fst x /\ (length (r_read res) - length (r_unused res) = snd x)%nat.
Proof. intros <- H. unfold c86Out in *. destruct (evalRule 60 gArith (rs "expr") t) as [res| |]; cbn [fst snd] in *; [|congruence..]. exists res. auto. Qed.
Theorem C86_meant_refuted : ~ C86_claim meant plainSpace.
Proof.
  intros H. specialize (H 60%nat [32; 46; 53]).
  assert (X : match evalRule 60 gArith (rs "expr") [32; 46; 53] with Ok res => r_node res = None | _ => False end) by (vm_compute; reflexivity).
  destruct (evalRule 60 gArith (rs "expr") [32; 46; 53]) as [res| |]; [|destruct X..].
  destruct (H res ltac:(repeat constructor; lia) ltac:(repeat constructor; cbn; lia) eq_refl) as [(e & s & s' & n & _ & _ & N & _)|[N _]]; [congruence|].
  apply (N ((FNum (NFloat false [] [53]), []), []) [32; 46; 53] [] eq_refl).
  apply (ch_intro plusMinus (Product meant) (FNum (NFloat false [] [53]), []) [32; 46; 53] [] []); [|constructor].
  apply (ch_intro timesDivide (Factor meant) (FNum (NFloat false [] [53])) [32; 46; 53] [] []); [|constructor].
  constructor. apply nu_float; [constructor|split; [discriminate|repeat constructor; lia]|]. exists [32]. split; [constructor; [cbn; tauto|constructor]|reflexivity].
Qed.
Print Assumptions C86_meant_refuted.
(** And 1 on one line with 2.5 on the next is read as 12.5. *)
Definition C86_lines_claim : Prop := forall fuel sample res n e, runesOk sample -> plainSpace sample -> evalRule fuel gArith (rs "expr") sample = Ok res ->
  r_node res = Some n -> bare n = sumTree e -> forall s s', sample = s ++ s' -> length s = (length (r_read res) - length (r_unused res))%nat -> Sum meant e s.
Definition c86Twelve : sum := ((FNum (NFloat false [49; 50] [53]), []), []).
Lemma c86_number P n s : Sum P ((FNum n, []), []) s -> Number P n s.
Proof.
  intros H. inversion H as [x t l t' X L EX ES]. inversion L. inversion X as [x' u l' u' Y L' EX' ES']. inversion L'. inversion Y as [n' v N| |]. now rewrite !app_nil_r.
Qed.
Lemma c86_twelve : ~ Sum meant c86Twelve [49; 10; 50; 46; 53].
Proof.
  intros H. apply c86_number in H. inversion H as [| | | |? ? ? ? _ _ (w & W & V)]. destruct w as [|a [|b w]]; cbn in V; try discriminate; pose proof (Forall_inv W) as A; injection V as V1 V2; cbn in A; lia.
Qed.
Theorem C86_lines_refuted : ~ C86_lines_claim.
Proof.
  intros H. destruct (c86_out [49; 10; 50; 46; 53] (Some (sumTree c86Twelve), 5%nat) ltac:(vm_compute; reflexivity) ltac:(discriminate)) as (res & E & N & L). cbn [fst snd] in N, L.
  destruct (r_node res) as [n|] eqn:RN; [|discriminate]. injection N as N.
  apply c86_twelve.
  apply (H 60%nat [49; 10; 50; 46; 53] res n c86Twelve ltac:(repeat constructor; lia) ltac:(repeat constructor; cbn; lia) E RN N _ []); [reflexivity|now rewrite L].
Qed.
Print Assumptions C86_lines_refuted.
(** Also with the numbers as they are read the claim is false for all samples: U+00A0 is
    read as a digit (see C42). *)
Definition c86Nbsp : option node * nat := Eval vm_compute in c86Out [160].
Theorem C86_space_refuted : ~ C86_claim found (fun _ => True).
Proof.
  intros H. destruct (c86_out [160] c86Nbsp ltac:(vm_compute; reflexivity) ltac:(discriminate)) as (res & E & N & L).
  destruct (H 60%nat [160] res ltac:(repeat constructor; lia) Logic.I E) as [(e & s & s' & n & EQ & X & _ & _ & LS & _)|[_ M]]; [|rewrite M in N; discriminate N].
  rewrite L in LS. destruct s as [|a [|b s]]; [discriminate LS| |discriminate LS]. injection EQ as <- _. apply (sum_dark e [160] X). vm_compute. reflexivity.
Qed.
Print Assumptions C86_space_refuted.

(** True for all samples in which no white space is beyond the blank. *)
Theorem C86_sums_partial : C86_claim found plainSpace.
Proof. exact arith_rule. Qed.
Print Assumptions C86_sums_partial.
Theorem C86_returns_partial sample : runesOk sample -> plainSpace sample ->
  exists N res, forall fuel, (N <= fuel)%nat -> evalRule fuel gArith (rs "expr") sample = Ok res.
Proof. exact (arith_returns sample). Qed.
Print Assumptions C86_returns_partial.
(** A text of a sum is read to its end, as that sum. *)
Theorem C86_whole_partial e t : runesOk t -> plainSpace t -> Sum found e t ->
  exists N, forall fuel, (N <= fuel)%nat -> exists res n, evalRule fuel gArith (rs "expr") t = Ok res /\ r_node res = Some n /\ bare n = sumTree e /\
    (length (r_read res) - length (r_unused res) = length t)%nat.
Proof. exact (arith_whole e t). Qed.
Print Assumptions C86_whole_partial.
(** The texts written as they are meant, with a digit or a sign in front of every dot. *)
Theorem C86_usual e t : Sum usual e t -> Sum found e t /\ Sum meant e t.
Proof. exact (fun H => conj (sum_usual e t H) (sum_meant e t H)). Qed.
Print Assumptions C86_usual.
(** The grammar is not ambiguous. *)
Theorem C86_once_partial e e' t : plainSpace t -> Sum found e t -> Sum found e' t -> e = e'.
Proof. exact (sum_once e e' t). Qed.
Print Assumptions C86_once_partial.

(** Products bind more strongly than sums, both from the left: 1+b *(-3 - 0x1F). *)
Definition c86Sum : sum :=
  ((FNum (NDec false [49]), []),
   [(43, (FVar [98], [(42, FParen ((FNum (NDec true [51]), []), [(45, (FNum (NHex [49; 70]), []))]))]))]).
Definition c86Text : list Z := Eval vm_compute in rs "1+b *(-3 - 0x1F) ?".
Example C86_example : c86Out c86Text = (Some (sumTree c86Sum), 16%nat).
Proof. vm_compute. reflexivity. Qed.
Ltac spell := repeat first [apply Forall_nil | apply Forall_cons; [cbn; tauto || (unfold decDigit, hexDigit, nameRune, letter; lia)|] | split; [discriminate|]].
Lemma c86_dec w d m P : white w -> decDigit d -> Factor P (FNum (NDec m [d])) (w ++ sign m ++ [d]).
Proof. intros W D. constructor. constructor; [exact W|]. split; [discriminate|]. repeat constructor; apply D. Qed.
Lemma c86_alone P x t : Factor P x t -> Product P (x, []) t.
Proof. intros H. rewrite <- (app_nil_r t). constructor; [exact H|constructor]. Qed.
Example C86_text : Sum usual c86Sum (firstn 16 c86Text).
Proof.
  unfold c86Sum. change (firstn 16 c86Text) with ([49] ++ (([] ++ 43 :: ([98] ++ (([32] ++ 42 :: ([] ++ 40 :: (([45; 51] ++ ((([32] ++ 45 :: [32; 48; 120; 49; 70]) ++ []))) ++ [] ++ [41]))) ++ []))) ++ [])).
  constructor; [apply c86_alone; apply (c86_dec [] 49 false); [constructor|unfold decDigit; lia]|]. constructor; [constructor|now left| |constructor].
  constructor; [apply (fa_var usual [] 98 []); [constructor|right; lia|constructor]|]. constructor; [spell|now left| |constructor].
  apply fa_paren; [constructor| |constructor]. constructor; [apply c86_alone; apply (c86_dec [] 51 true); [constructor|unfold decDigit; lia]|]. constructor; [spell|now right| |constructor].
  apply c86_alone. constructor. apply (nu_hex usual [32] [49; 70]); spell.
Qed.
