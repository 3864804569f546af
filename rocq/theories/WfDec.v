(** A decision procedure for well-formedness, for concrete rules in examples. *)
From Verif Require Import Base Stream Node Rule SpecStream SpecRule StreamFacts.

Definition okRunes (l : list Z) : bool := forallb (fun c => 0 <=? c) l.
Lemma okRunes_ok l : okRunes l = true -> runesOk l.
Proof. intros H. apply Forall_forall. intros x Hx. unfold okRunes in H. rewrite forallb_forall in H. apply H in Hx. lia. Qed.

Definition okIdent (n : list Z) : bool :=
  nonempty n && negb (runes_eqb n nameEOF) &&
  forallb (fun c => ((48 <=? c) && (c <=? 57)) || ((65 <=? c) && (c <=? 90)) || ((97 <=? c) && (c <=? 122)) || (c =? 95)) n.
Lemma okIdent_ok n : okIdent n = true -> ident n.
Proof.
  unfold okIdent. rewrite !andb_true_iff, negb_true_iff. intros [[A B] C]. split; [now destruct n|].
  split; [intros ->; now rewrite runes_eqb_refl in B|]. apply Forall_forall. intros x Hx. rewrite forallb_forall in C.
  apply C in Hx. rewrite !orb_true_iff, !andb_true_iff in Hx. lia.
Qed.

Fixpoint okRule (r : rule) : bool :=
  match r with
  | RChar _ t _ => 0 <=? t
  | RChars _ t => (2 <=? length t)%nat && okRunes t
  | RString _ t => okRunes t
  | RRange _ lo _ hi _ => (0 <=? lo) && (0 <=? hi)
  | REOF _ => true
  | RRef _ n => okIdent n
  | RGroup _ x => okRule x
  | ROption _ x => okRule x
  | RRep _ x mn mx => okRule x && (0 <=? mn) && (mn <? 4294967296) && (0 <=? mx) && (mx <? 4294967296) && ((mx =? 0) || (mn <=? mx))
  | RChoice _ gs => (2 <=? length (concat gs))%nat && forallb (fun g => nonempty g && forallb okRule g) gs
  | RConcat _ l => (2 <=? length l)%nat && forallb okRule l
  | RBlock _ o _ c e xs => okRule o && okRule c && match e with Some x => okRule x | None => true end && forallb okRule xs
  end.

Fixpoint rsize (r : rule) : nat :=
  match r with
  | RGroup _ x | ROption _ x | RRep _ x _ _ => S (rsize x)
  | RChoice _ gs => S (list_sum (List.map (fun g => list_sum (List.map rsize g)) gs))
  | RConcat _ l => S (list_sum (List.map rsize l))
  | RBlock _ o _ c e xs => S (rsize o + rsize c + match e with Some x => rsize x | None => 0 end + list_sum (List.map rsize xs))
  | _ => 1%nat
  end.
Lemma list_sum_in {A} (f : A -> nat) l x : In x l -> (f x <= list_sum (List.map f l))%nat.
Proof. induction l as [|a l IH]; cbn; [tauto|]. intros [->|H]; [lia|]. apply IH in H. unfold list_sum in H. lia. Qed.

Lemma okRule_ok r : okRule r = true -> wfRule r.
Proof.
  remember (rsize r) as n eqn:E. assert (L : (rsize r <= n)%nat) by lia. clear E. revert r L.
  induction n as [|n IH]; intros r L H; [destruct r; cbn in L; lia|]. destruct r; cbn [rsize okRule] in *.
  - constructor. lia.
  - apply andb_true_iff in H as [A B]. apply Nat.leb_le in A. constructor; [exact A|now apply okRunes_ok].
  - constructor. now apply okRunes_ok.
  - apply andb_true_iff in H as [A B]. constructor; lia.
  - constructor.
  - constructor. now apply okIdent_ok.
  - constructor. apply IH; [lia|exact H].
  - constructor. apply IH; [lia|exact H].
  - rewrite !andb_true_iff, orb_true_iff in H. constructor; try lia. apply IH; [lia|tauto].
  - apply andb_true_iff in H as [A B]. apply Nat.leb_le in A. rewrite forallb_forall in B. constructor; [exact A| |].
    + intros g Hg. apply B in Hg. apply andb_true_iff in Hg as [X _]. now destruct g.
    + intros g x Hg Hx. pose proof (B _ Hg) as X. apply andb_true_iff in X as [_ X]. rewrite forallb_forall in X. apply IH; [|auto].
      pose proof (list_sum_in (fun g => list_sum (List.map rsize g)) _ _ Hg). pose proof (list_sum_in rsize _ _ Hx). cbn in *. lia.
  - apply andb_true_iff in H as [A B]. apply Nat.leb_le in A. rewrite forallb_forall in B. constructor; [exact A|].
    intros x Hx. apply IH; [|auto]. pose proof (list_sum_in rsize _ _ Hx). lia.
  - rewrite !andb_true_iff in H. destruct H as [[[A B] C] D]. rewrite forallb_forall in D. constructor.
    + apply IH; [lia|exact A].
    + apply IH; [lia|exact B].
    + intros x ->. apply IH; [lia|exact C].
    + intros x Hx. apply IH; [|auto]. pose proof (list_sum_in rsize _ _ Hx). lia.
Qed.

Definition okRules (g : rules_t) : bool := forallb (fun x => okRule (snd x)) g.
Lemma okRules_ok g : okRules g = true -> wfRules g.
Proof.
  unfold okRules. rewrite forallb_forall. intros H n r. induction g as [|[m x] g IH]; cbn [lookup]; [discriminate|].
  destruct (runes_eqb m n).
  - intros [= <-]. apply okRule_ok. exact (H _ (or_introl eq_refl)).
  - apply IH. intros y Hy. apply H. now right.
Qed.
