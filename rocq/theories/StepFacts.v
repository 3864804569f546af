(** C94: the bounds on steps with which the model of grammar.go works do not show in answers. *)
From Verif Require Import Base Stream Node Rule Parse Grammar Print Show EvalFuel Cli.

Lemma embedLoop_mono lf : forall lf' fuel fuel' g r s txt kids, (lf <= lf')%nat -> (fuel <= fuel')%nat ->
  ple (embedLoop lf fuel g r s txt kids) (embedLoop lf' fuel' g r s txt kids).
Proof.
  induction lf as [|lf IH]; intros lf' fuel fuel' g r s txt kids L F; [now left|]. destruct lf' as [|lf']; [lia|]. cbn [embedLoop].
  apply ple_bind; [now apply eval_mono|]. intros [res s1]. destruct (r_node res); [apply IH; lia|].
  destruct (next _) as [c s2]. destruct (c =? EOFChar); [apply ple_refl|apply IH; lia].
Qed.
Lemma rootsLoop_mono fuel fuel' g : (fuel <= fuel')%nat -> forall order cs f mr matched errors,
  ple (rootsLoop fuel g order cs f mr matched errors) (rootsLoop fuel' g order cs f mr matched errors).
Proof.
  intros F. induction order as [|[n r] order IH]; intros cs f mr matched errors; cbn [rootsLoop]; [apply ple_refl|].
  apply ple_bind; [now apply eval_mono|]. intros [res s1]. apply IH.
Qed.
Lemma rawLoop_mono lf : forall lf' fuel fuel' g o k s un f nodes, (lf <= lf')%nat -> (fuel <= fuel')%nat ->
  ple (rawLoop lf fuel g o k s un f nodes) (rawLoop lf' fuel' g o k s un f nodes).
Proof.
  induction lf as [|lf IH]; intros lf' fuel fuel' g o k s un f nodes L F; [now left|]. destruct lf' as [|lf']; [lia|]. cbn [rawLoop].
  destruct (peek _ =? EOFChar); [apply ple_refl|]. apply ple_bind; [now apply rootsLoop_mono|]. intros [[[m e] mr] cs].
  destruct (rawSelect _) as [[a b]|[res|]]; try apply ple_refl. destruct (r_node res); [|apply ple_refl].
  apply ple_bind; [apply ple_refl|]. intros un'. apply IH; lia.
Qed.
Theorem evalRule_mono fuel fuel' g name sample : (fuel <= fuel')%nat -> ple (evalRule fuel g name sample) (evalRule fuel' g name sample).
Proof.
  intros F. unfold evalRule. destruct (getRule g name); [|apply ple_refl]. apply ple_bind; [now apply eval_mono|]. intros [a b]. apply ple_refl.
Qed.
Theorem evalEmbed_mono lf lf' fuel fuel' g name sample a : (lf <= lf')%nat -> (fuel <= fuel')%nat -> evalEmbed lf fuel g name sample = Some (Ok a) ->
  evalEmbed lf' fuel' g name sample = Some (Ok a).
Proof.
  intros L F. unfold evalEmbed. destruct (getRule g name) as [r|]; [|discriminate]. intros [= E]. f_equal.
  destruct (embedLoop_mono lf lf' fuel fuel' (rules_of g) r (newStream sample) [] [] L F) as [X|X]; rewrite X in E; [discriminate|exact E].
Qed.
Theorem evalRaw_mono lf lf' fuel fuel' g o s : (lf <= lf')%nat -> (fuel <= fuel')%nat -> ple (evalRaw lf fuel g o s) (evalRaw lf' fuel' g o s).
Proof. intros L F. unfold evalRaw. destruct (peek s =? EOFChar); [apply ple_refl|now apply rawLoop_mono]. Qed.
Theorem evalTop_mono lf lf' fuel fuel' g o s level : (lf <= lf')%nat -> (fuel <= fuel')%nat -> ple (evalTop lf fuel g o s level) (evalTop lf' fuel' g o s level).
Proof. intros L F. unfold evalTop. apply ple_bind; [now apply evalRaw_mono|]. intros [r s']. apply ple_refl. Qed.

Section CliMono.
Variables (lf lf' fuel fuel' : nat).
Hypothesis L : (lf <= lf')%nat.
Hypothesis F : (fuel <= fuel')%nat.
Lemma textsLoop_mono g cfg os : forall l k, ple (textsLoop lf fuel g cfg os k l) (textsLoop lf' fuel' g cfg os k l).
Proof.
  induction l as [|t l IH]; intros k; cbn [textsLoop]; [apply ple_refl|]. apply ple_bind; [now apply evalTop_mono|]. intros [r s].
  destruct r; try apply ple_refl. apply ple_bind; [apply IH|]. intros [out go]. apply ple_refl.
Qed.
Lemma filesLoop_mono g cfg fs os : forall l k, ple (filesLoop lf fuel g cfg fs os k l) (filesLoop lf' fuel' g cfg fs os k l).
Proof.
  induction l as [|t l IH]; intros k; cbn [filesLoop]; [apply ple_refl|]. destruct (fs t); [|apply ple_refl]. apply ple_bind; [now apply evalTop_mono|]. intros [r s].
  destruct r; try apply ple_refl. apply ple_bind; [apply IH|]. intros [out go]. apply ple_refl.
Qed.
Theorem cli_mono w a : ple (cli lf fuel w a) (cli lf' fuel' w a).
Proof.
  unfold cli. destruct (a_help a); [apply ple_refl|]. destruct (_ && _); [apply ple_refl|]. destruct (w_file w _); [|apply ple_refl].
  destruct (newGrammarFromString _) as [g|[line e]]; [|apply ple_refl]. destruct (rulesLoop _ _) as [out1 [g1|]]; [|apply ple_refl].
  destruct (listGrammar _ _) as [out2 g2]. apply ple_bind; [apply textsLoop_mono|]. intros [out3 go]. destruct go; [|apply ple_refl].
  apply ple_bind; [apply filesLoop_mono|]. intros [out4 go]. apply ple_refl.
Qed.
End CliMono.

Lemma ple_same {A} (F : nat -> nat -> outcome A) a b c d x y : (forall a b a' b', (a <= a')%nat -> (b <= b')%nat -> ple (F a b) (F a' b')) -> F a b = x -> F c d = y -> x <> OutOfFuel -> y <> OutOfFuel -> x = y.
Proof.
  intros M X Y NX NY. destruct (M a b (Nat.max a c) (Nat.max b d) ltac:(lia) ltac:(lia)) as [P|P]; [congruence|].
  destruct (M c d (Nat.max a c) (Nat.max b d) ltac:(lia) ltac:(lia)) as [Q|Q]; congruence.
Qed.
Theorem eval_one fuel fuel' g r s f x y : eval fuel g r s f = x -> eval fuel' g r s f = y -> x <> OutOfFuel -> y <> OutOfFuel -> x = y.
Proof. apply (ple_same (fun a _ => eval a g r s f) fuel O fuel' O). intros a b a' b' L _. now apply eval_mono. Qed.
Theorem evalRule_one fuel fuel' g name sample x y : evalRule fuel g name sample = x -> evalRule fuel' g name sample = y -> x <> OutOfFuel -> y <> OutOfFuel -> x = y.
Proof. apply (ple_same (fun a _ => evalRule a g name sample) fuel O fuel' O). intros a b a' b' L _. now apply evalRule_mono. Qed.
Theorem evalEmbed_one lf fuel lf' fuel' g name sample a b : evalEmbed lf fuel g name sample = Some (Ok a) -> evalEmbed lf' fuel' g name sample = Some (Ok b) -> a = b.
Proof.
  intros X Y. pose proof (evalEmbed_mono _ _ _ _ _ _ _ _ (Nat.le_max_l lf lf') (Nat.le_max_l fuel fuel') X) as P.
  pose proof (evalEmbed_mono _ _ _ _ _ _ _ _ (Nat.le_max_r lf lf') (Nat.le_max_r fuel fuel') Y) as Q. congruence.
Qed.
Theorem evalRaw_one lf fuel lf' fuel' g o s x y : evalRaw lf fuel g o s = x -> evalRaw lf' fuel' g o s = y -> x <> OutOfFuel -> y <> OutOfFuel -> x = y.
Proof. apply (ple_same (fun a b => evalRaw a b g o s)). intros. now apply evalRaw_mono. Qed.
Theorem evalTop_one lf fuel lf' fuel' g o s level x y : evalTop lf fuel g o s level = x -> evalTop lf' fuel' g o s level = y -> x <> OutOfFuel -> y <> OutOfFuel -> x = y.
Proof. apply (ple_same (fun a b => evalTop a b g o s level)). intros. now apply evalTop_mono. Qed.
Theorem cli_one lf fuel lf' fuel' w a x y : cli lf fuel w a = x -> cli lf' fuel' w a = y -> x <> OutOfFuel -> y <> OutOfFuel -> x = y.
Proof. apply (ple_same (fun a' b => cli a' b w a)). intros. now apply cli_mono. Qed.
