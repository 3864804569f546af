(** A repetition that is given text back. *)
From Verif Require Import Base Stream StreamFacts CallFacts Node Rule Grammar SpecStream SpecRule EvalInv EvalFuel RuleFacts
  SpecEval SemFacts SpecEv EvFacts EvalSem TextFacts WfDec SpecTerm DriverFacts.

Section Circle.
Variables (g : rules_t) (r : rule) (f : Z) (n : nat) (t1 t2 : list Z) (n1 n2 : node) (u1 u2 k2 : nat) (st1 st2 : bool).
Hypothesis W : wfRules g.
Hypothesis WR : wfRule r.
Hypothesis C1 : clean t1.
Hypothesis C2 : clean t2.
(** On [t1] the body reads everything and leaves [t2]; on [t2] it looks less far, and
    what is left is put in front of what was not looked at: [t1] again. *)
Hypothesis E1 : sem n g r f t1 = SOk (Match n1 u1 (length t1) st1).
Hypothesis T2 : skipn u1 t1 = t2.
Hypothesis E2 : sem n g r f t2 = SOk (Match n2 u2 k2 st2).
Hypothesis L2 : (2 * u2 <= length t2)%nat.
Hypothesis T1 : skipn u2 t2 ++ skipn k2 t2 = t1.
Hypothesis S1 : (length t2 < length t1 + u2)%nat.
Hypothesis N1 : t1 <> [].
Hypothesis N2 : t2 <> [].

Definition turn (unused left : list Z) : Prop :=
  (unused ++ left = t1 /\ (length unused < length t1)%nat) \/ (unused = t2 /\ left = []).

Lemma circle b self mn d fuel : forall lf s read unused sticky kids pos, turn unused (rest s) ->
  repLoop (eval fuel g) lf b self r mn 0 d s f read unused sticky kids pos = OutOfFuel.
Proof.
  induction lf as [|lf IH]; intros s read unused sticky kids pos T; cbn [repLoop]; [reflexivity|].
  rewrite peek_rest, prepend_rest.
  assert (X : exists t, unused ++ rest s = t /\ clean t /\ t <> [] /\ (t = t1 /\ (length unused < length t1)%nat \/ t = t2 /\ unused = t2 /\ rest s = [])).
  { destruct T as [(E & L)|(-> & E)]; [exists t1; auto 6|]. rewrite E, app_nil_r. exists t2. auto 7. }
  destruct X as (t & ET & CT & NT & X). rewrite ET. destruct t as [|c t']; [congruence|]. rewrite (clean_not_eof _ _ CT). rewrite <- ET in CT.
  assert (ER : rest (prepend s unused) = unused ++ rest s) by apply prepend_rest.
  pose proof (sem_lock g fuel W r f (prepend s unused) (unused ++ rest s) WR CT ER) as LK.
  destruct X as [(E & LU)|(E & EU & EL)]; rewrite <- ET in E.
  - rewrite E in LK, ER, CT. destruct (sem_ok_careful _ _ _ _ _ _ E1 fuel) as [Y|Y]; rewrite Y in LK; [rewrite LK; reflexivity|].
    destruct LK as (res & s' & -> & (LR & RD & LE & UN & ST & nd & ND & _) & MV). cbn [bind reads] in *. rewrite firstn_all in RD, UN. rewrite T2 in UN.
    unfold account. rewrite RD. destruct (Nat.ltb_spec (length unused) (length t1)); [|lia].
    rewrite slice_from_ok by lia. cbn [bind]. rewrite ND. cbn [andb]. rewrite UN.
    apply IH. right. split; [reflexivity|]. rewrite (moves_rest _ _ _ MV), ER, skipn_all. reflexivity.
  - rewrite E in LK, ER, CT. destruct (sem_ok_careful _ _ _ _ _ _ E2 fuel) as [Y|Y]; rewrite Y in LK; [rewrite LK; reflexivity|].
    destruct LK as (res & s' & -> & (LR & RD & LE & UN & ST & nd & ND & _) & MV). cbn [bind reads] in *.
    assert (LRD : length (r_read res) = k2) by (rewrite RD, firstn_length; lia).
    unfold account. rewrite LRD, EU. destruct (Nat.ltb_spec (length t2) k2); [lia|].
    assert (CU : exists cu, charsUsed res = Ok cu /\ length cu = u2).
    { unfold charsUsed, countUsed. rewrite UN, RD.
      assert (LF : length (firstn k2 t2) = k2) by (rewrite firstn_length; lia). assert (LS : length (skipn u2 (firstn k2 t2)) = (k2 - u2)%nat) by (rewrite skipn_length; lia).
      unfold slice_to. rewrite LF, LS. replace (Z.of_nat k2 - Z.of_nat (k2 - u2)) with (Z.of_nat u2) by lia.
      destruct (Z.leb_spec 0 (Z.of_nat u2)); [|lia]. destruct (Z.leb_spec (Z.of_nat u2) (Z.of_nat k2)); [|lia]. cbn [andb]. eexists. split; [reflexivity|]. rewrite firstn_length. lia. }
    destruct CU as (cu & -> & LC). cbn [bind]. rewrite LC. rewrite slice_from_ok by lia. cbn [bind].
    rewrite skipn_length. destruct (Nat.ltb_spec (length t2 - u2) u2); [lia|]. rewrite ND. cbn [andb].
    apply IH. left. rewrite (moves_rest _ _ _ MV), ER. split; [exact T1|]. rewrite skipn_length. lia.
Qed.
End Circle.
