(** C25 and C66, the other direction: EvalRaw answers whenever the rounds end. *)
From Verif Require Import Base Stream StreamFacts SpecStream Node Rule Parse Grammar PropsDriver SpecRule WfDec SpecEval SpecEv SpecDriver DriverFacts RawExact.

(* ---------------- C25 ---------------- *)

(** Under the conditions of [C25_whole_text_partial] every text that is a sequence of
    strictly longest matches of root rules is parsed, with these trees. *)
Theorem C25_answers_partial : forall g s roots, wfRules g -> wfRoots roots -> runesOk (rest s) ->
  (forall x f p, In x roots -> mode f -> careful g (snd x) f (skipn p (rest s))) ->
  orderly g (List.map snd roots) (rest s) -> looksAgain g (List.map snd roots) (rest s) ->
  forall o l, legal roots o -> rest s <> [] -> Whole g (List.map snd roots) SUGGEST_SKIP (rest s) l ->
  exists N, forall lf fuel, (N <= lf)%nat -> (N <= fuel)%nat -> exists a s', evalRaw lf fuel g o s = Ok (RawOk a, s') /\ List.map erase a = List.map fst l.
Proof. exact evalRaw_answers. Qed.
Print Assumptions C25_answers_partial.
Example C25_answers_example : exists l, length l = 3%nat /\ Whole (rules_of exG) (List.map snd (rootsOf exG)) SUGGEST_SKIP c25Text l.
Proof.
  destruct C25_example as (W & HR & C & SAFE & ORD & AG & LG). set (s := newStream c25Text). destruct (evalRaw 9 60 (rules_of exG) (storedOrder exG) s) as [[r s']| |] eqn:E; [|vm_compute in E; discriminate..].
  assert (X : match r with RawOk a => length a = 3%nat | _ => False end) by (vm_compute in E; injection E as <- _; reflexivity). destruct r as [a| | | |]; [|destruct X..].
  destruct (evalRaw_whole (rules_of exG) (rootsOf exG) s (okRules_ok _ W) HR (okRunes_ok _ C) SAFE ORD AG _ _ _ _ _ LG E) as (l & WH & EA & _). exists l. split; [|exact WH]. rewrite <- (map_length fst), <- EA, map_length. exact X.
Qed.

(* ---------------- C66 ---------------- *)

(** And a text that cannot be parsed this way is refused for that reason. *)
Theorem C66_answers_partial : forall g s roots, wfRules g -> wfRoots roots -> runesOk (rest s) ->
  (forall x f p, In x roots -> mode f -> careful g (snd x) f (skipn p (rest s))) ->
  orderly g (List.map snd roots) (rest s) -> looksAgain g (List.map snd roots) (rest s) ->
  forall o f' t', legal roots o -> rest s <> [] -> Rounds g (List.map snd roots) SUGGEST_SKIP (rest s) f' t' ->
  (deadEnd g (List.map snd roots) f' t' -> exists N, forall lf fuel, (N <= lf)%nat -> (N <= fuel)%nat -> exists r s', evalRaw lf fuel g o s = Ok (r, s') /\ verdictOf r = VNoMatch) /\
  (torn g (List.map snd roots) f' t' -> exists N, forall lf fuel, (N <= lf)%nat -> (N <= fuel)%nat -> exists r s', evalRaw lf fuel g o s = Ok (r, s') /\ verdictOf r = VAmbiguity).
Proof. exact evalRaw_refuses. Qed.
Print Assumptions C66_answers_partial.
(** Two rules of the same text: torn at once. *)
Definition c66Torn : grammar := Eval vm_compute in grammarOf (rs "a = ""x""" ++ [10] ++ rs "b = ""x"" ").
Example C66_answers_example : okRules (rules_of c66Torn) = true /\ torn (rules_of c66Torn) (List.map snd (rootsOf c66Torn)) SUGGEST_SKIP (rs "x") /\
  match evalRaw 9 9 (rules_of c66Torn) (storedOrder c66Torn) (newStream (rs "x")) with Ok (r, _) => verdictOf r = VAmbiguity | _ => False end.
Proof.
  split; [vm_compute; reflexivity|]. split; [|vm_compute; reflexivity].
  assert (F : Forall2 (fun r o => Ev (rules_of c66Torn) r SUGGEST_SKIP (rs "x") o) (List.map snd (rootsOf c66Torn))
    (List.map (fun r => match r with RString b l => ofTerm TString b false (TermFacts.tlit (skips SUGGEST_SKIP true) l (rs "x")) | _ => OFail 0 false end) (List.map snd (rootsOf c66Torn)))) by (repeat constructor).
  eexists _, 1%nat, [], _, [], _, []. split; [vm_compute; discriminate|]. split; [exact F|]. split; [vm_compute; reflexivity|]. split; [reflexivity|]. split; [reflexivity|].
  intros o v IO L. revert L. vm_compute in IO. destruct IO as [<-|[<-|[]]]; intros [= <-]; auto.
Qed.
