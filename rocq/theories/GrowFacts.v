(** Repetitions whose body uses text each time and that do not end: the body puts back more
    than it read. *)
From Verif Require Import Base Stream StreamFacts Node Rule Parse Grammar SpecStream SpecRule TermFacts SpecEval EvalFuel WfDec TextFacts.

Section Grow.
Variables (g : rules_t) (body : rule) (t : list Z) (n0 : nat).
Hypothesis WG : wfRules g.
Hypothesis WB : wfRule body.
Hypothesis R : runesOk t.
Hypothesis NE : t <> [].
(** The body matches [t], has more than [t] in CharsRead and [t] in CharsUnused. *)
Definition backAgain (x : outcome (result * stream)) : Prop :=
  match x with Ok (res, s') => r_node res <> None /\ (length t < length (r_read res))%nat /\ r_unused res = t /\ rest s' = [] | _ => False end.
Hypothesis ONCE : backAgain (eval n0 g body (newStream t) SUGGEST_SKIP).

Lemma grow_step fuel s : rest s = t -> eval fuel g body s SUGGEST_SKIP = OutOfFuel \/ backAgain (eval fuel g body s SUGGEST_SKIP).
Proof.
  intros E. assert (RS : runesOk (rest s)) by now rewrite E.
  pose proof (eval_text_only g fuel body SUGGEST_SKIP s (newStream t) WG WB RS E) as T. pose proof ONCE as O.
  destruct (eval n0 g body (newStream t) SUGGEST_SKIP) as [[res0 s0]| |] eqn:E0; try contradiction.
  destruct (eval fuel g body s SUGGEST_SKIP) as [[res s']| |]; destruct (eval fuel g body (newStream t) SUGGEST_SKIP) as [[res1 s1]| |] eqn:E1; try contradiction; [right|now left].
  assert (Q : Ok (res1, s1) = Ok (res0, s0)).
  { rewrite <- (ple_ok _ _ _ (eval_mono _ fuel (Nat.max fuel n0) _ _ _ (Nat.le_max_l _ _)) E1). exact (ple_ok _ _ _ (eval_mono _ n0 (Nat.max fuel n0) _ _ _ (Nat.le_max_r _ _)) E0). }
  injection Q as -> ->. destruct T as (TN & TR & TU & _ & TS & _). destruct O as (ON & OR & OU & OS). cbn [backAgain]. rewrite TR, TU, TS. repeat split; try assumption. intros N. rewrite N in TN. destruct (r_node res0); [discriminate|congruence].
Qed.
Lemma grow_loop fuel n b self d mn : forall s read unused sticky kids pos, rest (prepend s unused) = t -> (length unused <= length t)%nat ->
  repLoop (eval fuel g) n b self body mn 0 d s SUGGEST_SKIP read unused sticky kids pos = OutOfFuel.
Proof.
  induction n as [|n IH]; intros s read unused sticky kids pos E L; [reflexivity|]. cbn [repLoop]. rewrite peek_rest, E. destruct t as [|c l] eqn:ET; [now destruct NE|]. rewrite <- ET in *.
  assert (C : c =? EOFChar = false) by (apply Z.eqb_neq; rewrite ET in R; apply Forall_inv in R; unfold EOFChar; lia). rewrite C.
  destruct (grow_step fuel (prepend s unused) E) as [-> |B]; [reflexivity|]. destruct (eval fuel g body (prepend s unused) SUGGEST_SKIP) as [[res s2]| |]; try contradiction. destruct B as (TN & TR & TU & TS). cbn [bind].
  unfold account. replace (length unused <? length (r_read res))%nat with true by (symmetry; apply Nat.ltb_lt; lia). unfold slice_from. replace ((0 <=? Z.of_nat (length unused)) && (Z.of_nat (length unused) <=? Z.of_nat (length (r_read res)))) with true by (symmetry; apply andb_true_iff; split; apply Z.leb_le; lia).
  cbn [bind]. destruct (r_node res) as [m|]; [|congruence]. cbn [Z.gtb Z.compare andb]. rewrite TU. apply IH; [rewrite prepend_rest, TS; apply app_nil_r|lia].
Qed.
Lemma grow_eval fuel b mn s : rest s = t -> eval fuel g (RRep b body mn 0) s SUGGEST_SKIP = OutOfFuel.
Proof. destruct fuel as [|fuel]; [reflexivity|]. intros E. change (repLoop (eval fuel g) (S fuel) b (RRep b body mn 0) body mn 0 (depth s) s SUGGEST_SKIP [] [] true [] None = OutOfFuel). apply grow_loop; [exact E|cbn [length]; lia]. Qed.
End Grow.
