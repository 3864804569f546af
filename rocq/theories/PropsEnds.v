(** C21 once more, and C73: EvalRule, Eval and EvalRaw come back. *)
From Coq Require Import Permutation.
From Verif Require Import Base Stream Node Rule Parse Grammar SpecStream SpecRule SpecEval SpecEv SpecTerm WfDec SpecDriver DriverFacts DriverMore PropsEval PropsDriver SpecEnds RawEnds RepCircle.

(* ---------------- C21 ---------------- *)

(** A repetition of [a], [b] and [ababx] on [abab]: after [a] the text [bab] has been
    looked at, after [b] its rest [ab] is put in front of [ab], which is [abab] again. *)
Definition c21Look : grammar := Eval vm_compute in grammarOf (rs "r = { 'a' | 'b' | 'ababx' }").
Definition c21Body : rule := Eval vm_compute in match lookup (rules_of c21Look) (rs "r") with Some (RRep _ x _ _) => x | _ => REOF noBase end.
Lemma c21_circle fuel : evalRule fuel c21Look (rs "r") (rs "abab") = OutOfFuel.
Proof.
  unfold evalRule. destruct (getRule c21Look (rs "r")) as [r|] eqn:E; [|vm_compute in E; discriminate].
  vm_compute in E. injection E as <-. destruct fuel as [|fuel]; [reflexivity|]. cbn [eval evalStep].
  match goal with |- context [repLoop _ ?lf ?b ?self ?x ?mn ?mx ?d ?s ?f ?rd ?un ?st ?k ?p] =>
    assert (X : repLoop (eval fuel (rules_of c21Look)) lf b self c21Body mn 0 d s f rd un st k p = OutOfFuel) end.
  { eapply (circle (rules_of c21Look) c21Body SUGGEST_SKIP 20 (rs "abab") (rs "bab")); try (vm_compute; reflexivity).
    - apply okRules_ok. vm_compute. reflexivity.
    - apply okRule_ok. vm_compute. reflexivity.
    - apply okRunes_ok. reflexivity.
    - apply okRunes_ok. reflexivity.
    - vm_compute. lia.
    - vm_compute. lia.
    - discriminate.
    - discriminate.
    - left. vm_compute. split; [reflexivity|lia]. }
  unfold c21Body in X. rewrite X. reflexivity.
Qed.
Theorem C21_class_refuted :
  ~ forall nulls ranks g name r sample, wfRules (rules_of g) -> noCircles nulls ranks (rules_of g) = true -> lookup (rules_of g) name = Some r -> runesOk sample ->
      exists fuel, evalRule fuel g name sample <> OutOfFuel.
Proof.
  intros H. destruct (lookup (rules_of c21Look) (rs "r")) as [r|] eqn:E; [|vm_compute in E; discriminate].
  destruct (H [rs "r"] [] c21Look (rs "r") r (rs "abab")) as (fuel & X); [apply okRules_ok; vm_compute; reflexivity|vm_compute; reflexivity|exact E|now apply okRunes_ok|].
  apply X. apply c21_circle.
Qed.
Print Assumptions C21_class_refuted.

(* ---------------- C73 ---------------- *)

(** [r = ['a']] on [b]: each round matches nothing. *)
Theorem C73_returns_refuted :
  ~ forall g roots o s, wfRules g -> wfRoots roots -> legal roots o -> runesOk (rest s) -> exists loopFuel fuel x, evalRaw loopFuel fuel g o s = Ok x.
Proof.
  intros H. set (s := newStream (rs "b")).
  destruct (H _ _ _ s (okRules_ok (rules_of c24Loop) eq_refl) (okRoots_ok (rootsOf c24Loop) eq_refl) (storedOrder_legal c24Loop) (okRunes_ok (rest s) eq_refl)) as (lf & fuel & x & E).
  destruct (after 9 (rules_of c24Loop) (storedOrder c24Loop) 0 s [] SUGGEST_SKIP) as [[[s1 un] f]|] eqn:A; [|vm_compute in A; discriminate].
  rewrite (raw_stays 9 (rules_of c24Loop) (storedOrder c24Loop) s s1 un f) in E; [discriminate|reflexivity|reflexivity|discriminate|exact A|].
  vm_compute in A. injection A as <- <- <-. vm_compute. reflexivity.
Qed.
Print Assumptions C73_returns_refuted.

(** Root rules that always use text do not help: on [aa] the third rule is given the
    text read by the first one once more, [aaa], reads all of it and uses one rune.
    What is left is [aa] again. *)
Definition c73G : grammar := Eval vm_compute in grammarOf (rs "p = 'aa' 'x'
q = 'b'
r = 'a' | ('aaa' 'x')").
Definition c73St : stream * list Z * Z := Eval vm_compute in
  match after 20 (rules_of c73G) (storedOrder c73G) 0 (newStream (rs "aa")) [] SUGGEST_SKIP with Some x => x | None => (newStream [], [], 0) end.
Theorem C73_uses_refuted :
  ~ forall g roots o s, wfRules g -> wfRoots roots -> legal roots o -> runesOk (rest s) ->
      noCircles [] [] g = true -> (forall x, In x roots -> lookup g (fst x) = Some (snd x) /\ nullable [] (snd x) = false) ->
      exists loopFuel fuel x, evalRaw loopFuel fuel g o s = Ok x.
Proof.
  intros H. set (s := newStream (rs "aa")).
  destruct (H _ _ _ s (okRules_ok (rules_of c73G) eq_refl) (okRoots_ok (rootsOf c73G) eq_refl) (storedOrder_legal c73G) (okRunes_ok (rest s) eq_refl)) as (lf & fuel & x & E).
  - vm_compute. reflexivity.
  - intros x I. vm_compute in I. destruct I as [<-|[<-|[<-|[]]]]; split; vm_compute; reflexivity.
  - rewrite (raw_stays 20 (rules_of c73G) (storedOrder c73G) s (fst (fst c73St)) (snd (fst c73St)) (snd c73St)) in E;
      [discriminate|reflexivity|reflexivity|discriminate|vm_compute; reflexivity|vm_compute; reflexivity].
Qed.
Print Assumptions C73_uses_refuted.

(** Missing from the full statement: careful rules with an outcome everywhere, at
    most two root rules (or rules that look equally far), and the rounds do not come
    back to the same text.  The last condition is exact. *)
Theorem C73_returns_partial : forall g roots s, wfRules g -> wfRoots roots -> runesOk (rest s) ->
  (forall x f p, In x roots -> mode f -> careful g (snd x) f (skipn p (rest s))) ->
  orderly g (List.map snd roots) (rest s) -> looksAgain g (List.map snd roots) (rest s) ->
  (forall x f p, In x roots -> mode f -> exists o, Ev g (snd x) f (skipn p (rest s)) o) ->
  forall o, legal roots o ->
  ((exists loopFuel fuel x, evalRaw loopFuel fuel g o s = Ok x) <-> ~ goesRound g (List.map snd roots) (rest s)).
Proof. exact raw_iff. Qed.
Print Assumptions C73_returns_partial.
Theorem C73_eval_partial : forall g roots s, wfRules g -> wfRoots roots -> runesOk (rest s) ->
  (forall x f p, In x roots -> mode f -> careful g (snd x) f (skipn p (rest s))) ->
  orderly g (List.map snd roots) (rest s) -> looksAgain g (List.map snd roots) (rest s) ->
  (forall x f p, In x roots -> mode f -> exists o, Ev g (snd x) f (skipn p (rest s)) o) ->
  forall o level, legal roots o ->
  ((exists loopFuel fuel x, evalTop loopFuel fuel g o s level = Ok x) <-> ~ goesRound g (List.map snd roots) (rest s)).
Proof. exact top_iff. Qed.
Print Assumptions C73_eval_partial.
(** It never takes more than two rounds for a rune. *)
Theorem C73_rounds_partial : forall g roots s, wfRules g -> wfRoots roots -> runesOk (rest s) ->
  (forall x f p, In x roots -> mode f -> careful g (snd x) f (skipn p (rest s))) ->
  orderly g (List.map snd roots) (rest s) -> looksAgain g (List.map snd roots) (rest s) ->
  (forall x f p, In x roots -> mode f -> exists o, Ev g (snd x) f (skipn p (rest s)) o) ->
  forall o, legal roots o -> goesRound g (List.map snd roots) (rest s) \/
    exists loopFuel fuel r s', (loopFuel <= 2 * length (rest s) + 1)%nat /\ evalRaw loopFuel fuel g o s = Ok (r, s').
Proof. exact raw_ends. Qed.
Print Assumptions C73_rounds_partial.
(** Only a match of no text makes the rounds go round. *)
Theorem C73_idles : forall g roots t, goesRound g roots t -> idles g roots t.
Proof. exact goes_idles. Qed.
Print Assumptions C73_idles.
(** A class that can be read off the grammar. *)
Theorem C73_class_partial : forall nulls ranks g roots o s, wfRules g -> wfRoots roots -> runesOk (rest s) ->
  noCircles nulls ranks g = true -> (forall x, In x roots -> lookup g (fst x) = Some (snd x) /\ nullable nulls (snd x) = false) ->
  (forall x f p, In x roots -> mode f -> careful g (snd x) f (skipn p (rest s))) ->
  orderly g (List.map snd roots) (rest s) -> looksAgain g (List.map snd roots) (rest s) -> legal roots o ->
  exists loopFuel fuel r s', (loopFuel <= 2 * length (rest s) + 1)%nat /\ evalRaw loopFuel fuel g o s = Ok (r, s').
Proof. exact raw_class. Qed.
Print Assumptions C73_class_partial.

(** Two root rules, four rounds; and rounds that go round after the first one. *)
Definition c73Ex : grammar := Eval vm_compute in grammarOf (rs "a = 'a'
c = 'ab' | 'x'").
Example C73_example : noCircles [] [] (rules_of c73Ex) = true /\
  (forall x, In x (rootsOf c73Ex) -> lookup (rules_of c73Ex) (fst x) = Some (snd x) /\ nullable [] (snd x) = false) /\
  orderly (rules_of c73Ex) (List.map snd (rootsOf c73Ex)) (rs "abaxa") /\ looksAgain (rules_of c73Ex) (List.map snd (rootsOf c73Ex)) (rs "abaxa") /\
  (forall x f p, In x (rootsOf c73Ex) -> mode f -> careful (rules_of c73Ex) (snd x) f (skipn p (rs "abaxa"))) /\
  match evalRaw 9 20 (rules_of c73Ex) (storedOrder c73Ex) (newStream (rs "abaxa")) with
  | Ok (RawOk a, _) => List.map n_name a = [rs "c"; rs "a"; rs "c"; rs "a"] | _ => False end.
Proof.
  split; [vm_compute; reflexivity|]. split; [intros x I; vm_compute in I; destruct I as [<-|[<-|[]]]; split; vm_compute; reflexivity|].
  split; [left; vm_compute; auto|]. split; [apply (isAgain_ok 60); vm_compute; reflexivity|]. split; [apply (rootsCareful_ok 60); vm_compute; reflexivity|]. vm_compute. reflexivity.
Qed.
Example C73_goes : goesRound (rules_of c24Loop) (List.map snd (rootsOf c24Loop)) (rs "ab").
Proof.
  assert (EV : forall f t n u k st, sem 9 (rules_of c24Loop) (snd (List.hd ([], REOF noBase) (rootsOf c24Loop))) f t = SOk (Match n u k st) ->
    t <> [] -> (u <= length t)%nat -> Round (rules_of c24Loop) (List.map snd (rootsOf c24Loop)) f t (if st then SUGGEST_NOT_SKIP else SUGGEST_SKIP) (skipn u t)).
  { intros f t n u k st Y NE LE. exists [OMatch n u k st], n, u, k, st. split; [exact NE|]. split; [constructor; [|constructor]; apply (EvFacts.sem_sound _ _ _ _ _ _ Y)|].
    split; [exists [], []; cbn; auto|]. split; [now left|]. auto. }
  assert (R1 : Round (rules_of c24Loop) (List.map snd (rootsOf c24Loop)) SUGGEST_SKIP (rs "ab") SUGGEST_NOT_SKIP (rs "b")).
  { eapply (EV _ (rs "ab") _ 1%nat _ true); [vm_compute; reflexivity|discriminate|cbn; lia]. }
  assert (R2 : Round (rules_of c24Loop) (List.map snd (rootsOf c24Loop)) SUGGEST_NOT_SKIP (rs "b") SUGGEST_NOT_SKIP (rs "b")).
  { eapply (EV _ (rs "b") _ 0%nat _ true); [vm_compute; reflexivity|discriminate|cbn; lia]. }
  exists SUGGEST_NOT_SKIP, (rs "b"), SUGGEST_NOT_SKIP, (rs "b"). split; [|split; [exact R2|constructor]].
  eapply round_rounds with (roots := rootsOf c24Loop); [exact R1|constructor].
Qed.
