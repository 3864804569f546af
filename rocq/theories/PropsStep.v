(** C94: evaluations have one answer; the bounds on steps of the model do not show in it. *)
From Verif Require Import Base Stream Node Rule Parse Grammar Print Show Cli EvalFuel StepFacts PropsDriver.

Theorem C94_eval fuel fuel' g r s f x y : eval fuel g r s f = x -> eval fuel' g r s f = y -> x <> OutOfFuel -> y <> OutOfFuel -> x = y.
Proof. exact (eval_one fuel fuel' g r s f x y). Qed.
Print Assumptions C94_eval.
Theorem C94_rule fuel fuel' g name sample x y : evalRule fuel g name sample = x -> evalRule fuel' g name sample = y -> x <> OutOfFuel -> y <> OutOfFuel -> x = y.
Proof. exact (evalRule_one fuel fuel' g name sample x y). Qed.
Print Assumptions C94_rule.
Theorem C94_embed lf fuel lf' fuel' g name sample a b : evalEmbed lf fuel g name sample = Some (Ok a) -> evalEmbed lf' fuel' g name sample = Some (Ok b) -> a = b.
Proof. exact (evalEmbed_one lf fuel lf' fuel' g name sample a b). Qed.
Print Assumptions C94_embed.
Theorem C94_raw lf fuel lf' fuel' g o s x y : evalRaw lf fuel g o s = x -> evalRaw lf' fuel' g o s = y -> x <> OutOfFuel -> y <> OutOfFuel -> x = y.
Proof. exact (evalRaw_one lf fuel lf' fuel' g o s x y). Qed.
Print Assumptions C94_raw.
Theorem C94_top lf fuel lf' fuel' g o s level x y : evalTop lf fuel g o s level = x -> evalTop lf' fuel' g o s level = y -> x <> OutOfFuel -> y <> OutOfFuel -> x = y.
Proof. exact (evalTop_one lf fuel lf' fuel' g o s level x y). Qed.
Print Assumptions C94_top.
Theorem C94_cli lf fuel lf' fuel' w a x y : cli lf fuel w a = x -> cli lf' fuel' w a = y -> x <> OutOfFuel -> y <> OutOfFuel -> x = y.
Proof. exact (cli_one lf fuel lf' fuel' w a x y). Qed.
Print Assumptions C94_cli.

(** ... and an answer stays when the bounds grow. *)
Theorem C94_more lf lf' fuel fuel' g o s level x : (lf <= lf')%nat -> (fuel <= fuel')%nat -> evalTop lf fuel g o s level = Ok x -> evalTop lf' fuel' g o s level = Ok x.
Proof. intros L F E. destruct (evalTop_mono lf lf' fuel fuel' g o s level L F) as [X|X]; congruence. Qed.
Print Assumptions C94_more.
Theorem C94_embed_more lf lf' fuel fuel' g name sample a : (lf <= lf')%nat -> (fuel <= fuel')%nat -> evalEmbed lf fuel g name sample = Some (Ok a) -> evalEmbed lf' fuel' g name sample = Some (Ok a).
Proof. exact (evalEmbed_mono lf lf' fuel fuel' g name sample a). Qed.
Print Assumptions C94_embed_more.
Theorem C94_cli_more lf lf' fuel fuel' w a x : (lf <= lf')%nat -> (fuel <= fuel')%nat -> cli lf fuel w a = Ok x -> cli lf' fuel' w a = Ok x.
Proof. intros L F E. destruct (cli_mono lf lf' fuel fuel' L F w a) as [X|X]; congruence. Qed.
Print Assumptions C94_cli_more.

(** Too few steps, just enough, and more. *)
Example C94_example :
  let t := newStream (rs "(1+23) ab (4+5)") in let e lf fuel := evalTop lf fuel (rules_of exG) (storedOrder exG) t 0 in
  e 3%nat 50%nat = OutOfFuel /\ e 9%nat 1%nat = OutOfFuel /\ e 9%nat 20%nat = e 4%nat 50%nat /\ match e 4%nat 50%nat with Ok (RawOk a, _) => length a = 3%nat | _ => False end.
Proof. vm_compute. repeat split. Qed.
