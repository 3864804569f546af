(** More fuel never changes an answer. *)
From Verif Require Import Base Stream Node Rule.

(** [o'] answers as [o] does, or [o] ran out of fuel. *)
Definition ple {A} (o o' : outcome A) : Prop := o = OutOfFuel \/ o = o'.

Lemma ple_refl {A} (o : outcome A) : ple o o. Proof. now right. Qed.
Lemma ple_bind {A B} (m m' : outcome A) (k k' : A -> outcome B) :
  ple m m' -> (forall a, ple (k a) (k' a)) -> ple (bind m k) (bind m' k').
Proof.
  intros [-> | ->] H; [now left|]. destruct m'; cbn; [apply H|now right|now left].
Qed.
Lemma ple_ok {A} (o o' : outcome A) a : ple o o' -> o = Ok a -> o' = Ok a.
Proof. intros [-> | ->] H; [discriminate|exact H]. Qed.
Lemma ple_agree {A} (o o' : outcome A) a b : ple o o' \/ ple o' o -> o = Ok a -> o' = Ok b -> a = b.
Proof. intros [[-> | ->]|[-> | ->]] H1 H2; congruence. Qed.

Definition recle (rec rec' : evalT) : Prop := forall r s f, ple (rec r s f) (rec' r s f).

Ltac pb := apply ple_bind; [auto using ple_refl|].

Section Mono.
Variables rec rec' : evalT.
Hypothesis HR : recle rec rec'.

Lemma concat_mono b self d rules : forall s f read unused sticky kids pos,
  ple (concatLoop rec b self d rules s f read unused sticky kids pos)
      (concatLoop rec' b self d rules s f read unused sticky kids pos).
Proof.
  induction rules as [|r rules IH]; intros; cbn [concatLoop]; [apply ple_refl|].
  pb. intros [res s2]. pb. intros [rd un]. destruct (r_node res); auto using ple_refl.
Qed.

Lemma rep_mono b self r rmin rmax d fuel : forall fuel' s f read unused sticky kids pos, (fuel <= fuel')%nat ->
  ple (repLoop rec fuel b self r rmin rmax d s f read unused sticky kids pos)
      (repLoop rec' fuel' b self r rmin rmax d s f read unused sticky kids pos).
Proof.
  induction fuel as [|fuel IH]; intros fuel' s f read unused sticky kids pos L; [now left|].
  destruct fuel' as [|fuel']; [lia|]. cbn [repLoop]. destruct (peek (prepend s unused) =? EOFChar); [apply ple_refl|].
  pb. intros [res s2]. pb. intros [rd un]. destruct (r_node res); [|apply ple_refl].
  match goal with |- context [if ?c then _ else _] => destruct c end; [apply ple_refl|]. apply IH. lia.
Qed.

Lemma alt_mono d rules : forall s f maxRead sticky maxErr maxIdx matched,
  ple (altLoop rec d rules s f maxRead sticky maxErr maxIdx matched)
      (altLoop rec' d rules s f maxRead sticky maxErr maxIdx matched).
Proof.
  induction rules as [|r rules IH]; intros; cbn [altLoop]; [apply ple_refl|].
  pb. intros [res s2]. destruct (r_node res); auto using ple_refl. destruct (r_erridx res >? maxIdx); auto.
Qed.

Lemma choice_mono b self d groups : forall s f maxRead sticky maxErr maxIdx,
  ple (choiceLoop rec b self d groups s f maxRead sticky maxErr maxIdx)
      (choiceLoop rec' b self d groups s f maxRead sticky maxErr maxIdx).
Proof.
  induction groups as [|grp groups IH]; intros; cbn [choiceLoop]; [apply ple_refl|].
  apply ple_bind; [apply alt_mono|]. intros [[[[[matched maxRead'] sticky'] maxErr'] maxIdx'] s'].
  destruct (select matched) as [[fnd|]|]; auto using ple_refl.
Qed.

Lemma mostGreedy_mono rules s f : ple (mostGreedy rec rules s f) (mostGreedy rec' rules s f).
Proof. unfold mostGreedy. apply ple_bind; [apply alt_mono|]. intros x. apply ple_refl. Qed.

Lemma blockIter_mono cl esc excl cs used unused content :
  ple (blockIter rec cl esc excl cs used unused content) (blockIter rec' cl esc excl cs used unused content).
Proof.
  unfold blockIter. apply ple_bind.
  { destruct esc; [|apply ple_refl]. pb. intros x. apply ple_refl. }
  intros [[[[escaped escChars] used1] unused1] cs1]. apply ple_bind.
  { destruct excl; [apply ple_refl|]. apply ple_bind; [apply mostGreedy_mono|]. intros x; apply ple_refl. }
  intros [exres cs2]. cbv zeta.
  destruct (match exres with Some res => match r_node res with Some _ => true | None => false end | None => false end);
    [apply ple_refl|]. pb. intros x; apply ple_refl.
Qed.

Lemma blockLoop_mono cl esc excl fuel : forall fuel' cs used unused content, (fuel <= fuel')%nat ->
  ple (blockLoop rec fuel cl esc excl cs used unused content) (blockLoop rec' fuel' cl esc excl cs used unused content).
Proof.
  induction fuel as [|fuel IH]; intros fuel' cs used unused content L; [now left|].
  destruct fuel' as [|fuel']; [lia|]. cbn [blockLoop]. apply ple_bind; [apply blockIter_mono|].
  intros [cs' [[[u v] w]|e]]; [|apply ple_refl]. apply IH. lia.
Qed.

Lemma step_mono g fuel fuel' r s f : (fuel <= fuel')%nat -> ple (evalStep g rec fuel r s f) (evalStep g rec' fuel' r s f).
Proof.
  intros L. destruct r; cbn [evalStep]; auto using ple_refl, concat_mono, rep_mono, choice_mono.
  - destruct (lookup g ref); [|apply ple_refl]. pb. intros x; apply ple_refl.
  - pb. intros x; apply ple_refl.
  - pb. intros x; apply ple_refl.
  - unfold evalBlock. pb. intros [ores s1]. destruct (r_node ores); [|apply ple_refl]. pb. intros used. cbv zeta.
    destruct (positionOf _) as [cpos cs]. apply ple_bind; [now apply blockLoop_mono|]. intros x; apply ple_refl.
Qed.
End Mono.

Theorem eval_mono g fuel : forall fuel' r s f, (fuel <= fuel')%nat -> ple (eval fuel g r s f) (eval fuel' g r s f).
Proof.
  induction fuel as [|fuel IH]; intros fuel' r s f L; [now left|].
  destruct fuel' as [|fuel']; [lia|]. cbn [eval]. apply step_mono; [|exact L].
  intros r' s' f'. apply IH. lia.
Qed.

Corollary eval_more g fuel fuel' r s f x : (fuel <= fuel')%nat -> eval fuel g r s f = Ok x -> eval fuel' g r s f = Ok x.
Proof. intros L. apply ple_ok, eval_mono, L. Qed.

Corollary eval_det g fuel fuel' r s f x y : eval fuel g r s f = Ok x -> eval fuel' g r s f = Ok y -> x = y.
Proof.
  apply ple_agree. destruct (Nat.le_gt_cases fuel fuel'); [left|right]; apply eval_mono; lia.
Qed.
