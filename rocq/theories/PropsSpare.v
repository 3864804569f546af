(** C97: levels that have nothing to drop. *)
From Verif Require Import Base Stream Node Rule Parse Grammar SpecStream SpecRule SpecNode PropsNode NodeLean SpecDriver DriverFacts WfDec PropsDriver SpecSpare SpareFacts.

(** Without '~' in the grammar, level 1 is level 0. *)
Theorem C97_virtual : forall loopFuel fuel g roots o s, wfRules g -> wfRoots roots -> legal roots o -> runesOk (rest s) -> without_mark true g roots ->
  evalTop loopFuel fuel g o s 1 = evalTop loopFuel fuel g o s 0.
Proof. exact spare_virtual. Qed.
Print Assumptions C97_virtual.
(** Without '#' in it, level 2 is level 1. *)
Theorem C97_nondata : forall loopFuel fuel g roots o s, wfRules g -> wfRoots roots -> legal roots o -> runesOk (rest s) -> without_mark false g roots ->
  evalTop loopFuel fuel g o s 2 = evalTop loopFuel fuel g o s 1.
Proof. exact spare_nondata. Qed.
Print Assumptions C97_nondata.

(** [r = "a" #x], [x = "b"] has no '~', [s = "a" ~y], [y = "b"] no '#'; the other levels differ. *)
Definition c97G : grammar := Eval vm_compute in grammarOf (rs "r = ""a"" #x" ++ [10] ++ rs "x = ""b""" ++ [10]).
Definition c97H : grammar := Eval vm_compute in grammarOf (rs "s = ""a"" ~y" ++ [10] ++ rs "y = ""b""" ++ [10]).
Definition c97At (g : grammar) (level : Z) : list Z :=
  match evalTop 20 50 (rules_of g) (storedOrder g) (newStream (rs "ab")) level with Ok (RawOk a, _) => astText a | _ => [] end.
Example C97_example : (forall g, In g [c97G; c97H] -> wfRules (rules_of g) /\ wfRoots (rootsOf g) /\ legal (rootsOf g) (storedOrder g)) /\ runesOk (rest (newStream (rs "ab"))) /\
  without_mark true (rules_of c97G) (rootsOf c97G) /\ without_mark false (rules_of c97H) (rootsOf c97H) /\
  List.map (c97At c97G) [0; 1; 2] = [rs "a b"; rs "a b"; rs "a"] /\ List.map (c97At c97H) [0; 1; 2] = [rs "a b"; rs "a"; rs "a"].
Proof.
  split; [intros g [<-|[<-|[]]]; (split; [apply okRules_ok; reflexivity|split; [apply okRoots_ok; reflexivity|apply storedOrder_legal]])|].
  split; [apply okRunes_ok; reflexivity|]. split; [apply withoutOk_ok; reflexivity|]. split; [apply withoutOk_ok; reflexivity|]. vm_compute. auto.
Qed.
