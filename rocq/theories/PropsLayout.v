(** C77: how a text is laid out does not matter. *)
From Verif Require Import Base Stream StreamFacts SpecStream Node Rule Parse Grammar PropsDriver SpecRule WfDec SpecEval SpecEv SpecDriver DriverFacts SpecLayout LayoutFacts LayoutRaw LayoutDec.

(* ---------------- C77 ---------------- *)

(** The meaning of a rule does not depend on the kind and amount of white space between
    the parts of a text, if no terminal of the grammar takes that white space.  Missing:
    white space that is not below all ranges (there the claim is false, see below), blocks
    with an escape rule that is not one rune, and white space directly behind an escape. *)
Theorem C77_match_partial : forall W E, (forall x, In x W -> isWS x = true) -> forall g, layoutFreeRules W E g ->
  forall r f t t' o, layoutFree W E r -> sameLayout W E t t' -> Ev g r f t o -> exists o', Ev g r f t' o' /\ sameOutcome W E t t' o o'.
Proof. exact layout_outcome. Qed.
Print Assumptions C77_match_partial.
(** Hence EvalRule gives the same tree, the same part of the text, or an error in both cases. *)
Theorem C77_rule_partial : forall W E, (forall x, In x W -> isWS x = true) -> forall g, layoutFreeRules W E (rules_of g) -> wfRules (rules_of g) ->
  forall name r t t' res res' fuel fuel', lookup (rules_of g) name = Some r -> runesOk t -> runesOk t' -> sameLayout W E t t' ->
  careful (rules_of g) r SUGGEST_SKIP t -> careful (rules_of g) r SUGGEST_SKIP t' -> evalRule fuel g name t = Ok res -> evalRule fuel' g name t' = Ok res' ->
  exists o o', shows t o res /\ shows t' o' res' /\ sameOutcome W E t t' o o'.
Proof. exact (fun W E WW g LF WF name r t t' res res' fuel fuel' => rule_layout W E WW (rules_of g) LF g name r t t' res res' fuel fuel' eq_refl WF). Qed.
Print Assumptions C77_rule_partial.
(** And EvalRaw gives the same trees, or refuses both texts for the same reason. *)
Theorem C77_raw_partial : forall W E, (forall x, In x W -> isWS x = true) -> forall g, layoutFreeRules W E g ->
  forall roots s s2 o o2, wfRules g -> wfRoots roots -> (forall x, In x roots -> layoutFree W E (snd x)) -> sameLayout W E (rest s) (rest s2) ->
  runesOk (rest s) -> (forall x f p, In x roots -> mode f -> careful g (snd x) f (skipn p (rest s))) -> orderly g (List.map snd roots) (rest s) -> looksAgain g (List.map snd roots) (rest s) ->
  runesOk (rest s2) -> (forall x f p, In x roots -> mode f -> careful g (snd x) f (skipn p (rest s2))) -> orderly g (List.map snd roots) (rest s2) -> looksAgain g (List.map snd roots) (rest s2) ->
  legal roots o -> legal roots o2 -> forall lf fuel r s', evalRaw lf fuel g o s = Ok (r, s') ->
  exists N, forall lf2 fuel2, (N <= lf2)%nat -> (N <= fuel2)%nat -> exists r2 s2', evalRaw lf2 fuel2 g o2 s2 = Ok (r2, s2') /\ sameVerdict W (verdictOf r) (verdictOf r2).
Proof. exact raw_layout. Qed.
Print Assumptions C77_raw_partial.

(** Assignments with a string in which the white space counts. *)
Definition c77W : list Z := [9; 10; 13; 32].
Definition c77G : grammar := Eval vm_compute in grammarOf (rs "set = {'a'-'z'}<1> ""="" ( num | str ) "";""
num = {'0'-'9'}<1>
str = <'""' '\\' '""'>").
Definition c77P : list piece := Eval vm_compute in
  List.map PRune (rs "ab") ++ [PRun [32] [10; 9]] ++ List.map PRune (rs "=") ++ [PRun [32] [32; 32]] ++ List.map PRune (rs "12") ++ [PRun [32] [10]] ++ List.map PRune (rs ";c=""x") ++
  [PRun [32; 32] [9]] ++ List.map PRune (rs "y z"";").
Example C77_example : (forall x, In x c77W -> isWS x = true) /\ layoutFreeRules c77W [92] (rules_of c77G) /\ wfRules (rules_of c77G) /\ wfRoots (rootsOf c77G) /\
  (forall x, In x (rootsOf c77G) -> layoutFree c77W [92] (snd x)) /\ sameLayout c77W [92] (left c77P) (right c77P) /\ left c77P <> right c77P /\
  (forall t, t = left c77P \/ t = right c77P -> runesOk t /\ (forall x f p, In x (rootsOf c77G) -> mode f -> careful (rules_of c77G) (snd x) f (skipn p t)) /\
     orderly (rules_of c77G) (List.map snd (rootsOf c77G)) t /\ looksAgain (rules_of c77G) (List.map snd (rootsOf c77G)) t /\
     match evalRaw 9 40 (rules_of c77G) (storedOrder c77G) (newStream t) with Ok (RawOk a, _) => length a = 2%nat | _ => False end).
Proof.
  split; [intros x [<-|[<-|[<-|[<-|[]]]]]; reflexivity|]. split; [apply okFreeRules_ok; vm_compute; reflexivity|]. split; [apply okRules_ok; vm_compute; reflexivity|]. split; [apply okRoots_ok; vm_compute; reflexivity|].
  split; [intros x I; apply okFree_ok; revert x I; apply forallb_forall; vm_compute; reflexivity|]. split; [exists c77P; split; [apply okLayout_ok; vm_compute; reflexivity|auto]|]. split; [vm_compute; discriminate|].
  intros t [-> | ->].
  - split; [apply okRunes_ok; vm_compute; reflexivity|]. split; [apply (rootsCareful_ok 60); vm_compute; reflexivity|]. split; [left; vm_compute; auto|]. split; [apply (isAgain_ok 60); vm_compute; reflexivity|]. vm_compute. reflexivity.
  - split; [apply okRunes_ok; vm_compute; reflexivity|]. split; [apply (rootsCareful_ok 60); vm_compute; reflexivity|]. split; [left; vm_compute; auto|]. split; [apply (isAgain_ok 60); vm_compute; reflexivity|]. vm_compute. reflexivity.
Qed.

(** With white space above the range the claim is false: ['0'-'9'] takes the digit behind a
    blank, but takes a no-break space itself (rule_terminal_range.go:45 compares with >=). *)
Theorem C77_wide_refuted : ~ forall b lo hi x y d fuel X X' s2 s2', isWS x = true -> isWS y = true -> ~ lo <= x <= hi -> ~ lo <= y <= hi -> isWS d = false ->
  wfRule (RRange b lo false hi false) -> runesOk [x; d] -> runesOk [y; d] ->
  eval fuel [] (RRange b lo false hi false) (newStream [x; d]) SUGGEST_SKIP = Ok (X, s2) -> eval fuel [] (RRange b lo false hi false) (newStream [y; d]) SUGGEST_SKIP = Ok (X', s2') ->
  forall n n', r_node X = Some n -> r_node X' = Some n' -> n_chars n = n_chars n'.
Proof.
  intros H. destruct (eval 9 [] (RRange noBase 48 false 57 false) (newStream [32; 49]) SUGGEST_SKIP) as [[X s2]| |] eqn:E1; [|vm_compute in E1; discriminate..].
  destruct (eval 9 [] (RRange noBase 48 false 57 false) (newStream [160; 49]) SUGGEST_SKIP) as [[X' s2']| |] eqn:E2; [|vm_compute in E2; discriminate..].
  assert (Q := H noBase 48 57 32 160 49 9%nat X X' s2 s2' eq_refl eq_refl ltac:(lia) ltac:(lia) eq_refl (okRule_ok (RRange noBase 48 false 57 false) eq_refl) (okRunes_ok [32; 49] eq_refl) (okRunes_ok [160; 49] eq_refl) E1 E2).
  vm_compute in E1, E2. injection E1 as <- <-. injection E2 as <- <-. specialize (Q _ _ eq_refl eq_refl). discriminate.
Qed.
Print Assumptions C77_wide_refuted.
