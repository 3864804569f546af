(** C95: what Eval has simplified stays as it is. *)
From Verif Require Import Base Stream Node Rule Parse Grammar SpecNode PropsNode SpecStill StillFacts.

Theorem C95_again : forall level' level a, noMore level' level -> simplify level' (simplify level a) = simplify level a.
Proof. exact simplify_still. Qed.
Print Assumptions C95_again.
Theorem C95_eval : forall loopFuel fuel g o s level level' out s', noMore level' level ->
  evalTop loopFuel fuel g o s level = Ok (RawOk out, s') -> simplify level' out = out.
Proof. exact eval_still. Qed.
Print Assumptions C95_eval.
(** Nothing is left in it that the level asks to merge or to drop. *)
Theorem C95_settled : forall level a m, level <> -1 -> inside m (simplify level a) -> n_sticky m = false /\ dropsAt level m = false.
Proof. exact simplify_inside. Qed.
Print Assumptions C95_settled.

(** [r = "a" #( "b" "c" ) "d"] on [abcd]: raising the level afterwards is something else, since
    the unnamed group that has the mark is gone by then. *)
Definition c95 : ast := Eval vm_compute in rawTree (rs "r = ""a"" #( ""b"" ""c"" ) ""d""") (rs "abcd").
Example C95_upwards : c95 = rawTree (rs "r = ""a"" #( ""b"" ""c"" ) ""d""") (rs "abcd") /\
  astText (simplify 2 (simplify 1 c95)) = rs "a b c d" /\ astText (simplify 2 c95) = rs "a d".
Proof. vm_compute. auto. Qed.
Example C95_example : noMore 1 2 /\ noMore 0 1 /\ noMore 2 2 /\ noMore (-1) 0 /\ ~ noMore 2 1 /\
  astCountNodes (simplify 2 c95) <> astCountNodes c95 /\ simplify 1 (simplify 2 c95) = simplify 2 c95.
Proof. unfold noMore. repeat split; try lia; vm_compute; try discriminate; reflexivity. Qed.
