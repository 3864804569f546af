(** C16-C18: choices. *)
From Coq Require Import Permutation.
From Verif Require Import Base Stream Node Rule Parse Grammar SpecStream SpecRule SpecEval WfDec SpecChoice ChoiceFacts PropsEval.

Definition groupsOf (r : rule) : list (list rule) := match r with RChoice _ gs => gs | _ => [] end.
Definition baseOf (r : rule) : rbase := match r with RChoice b _ => b | _ => noBase end.

(* ---------------- C16 ---------------- *)

(** [r = ("x" {'a'} ['z'] "b") | 'x a  bc'] on [x a bc]: the first alternative
    matches and reports a blank too many, so the second one, which does not match
    this text, is found longer and becomes the child. *)
Definition c16Bad : rule := Eval vm_compute in ruleOf (rs "r = (""x"" {'a'} ['z'] ""b"") | 'x a  bc'").
Theorem C16_greediest_refuted :
  ~ forall g fuel b gs s f res s' n, wfRules g -> runesOk (rest s) -> wfRule (RChoice b gs) ->
      eval (S fuel) g (RChoice b gs) s f = Ok (res, s') -> r_node res = Some n ->
      exists grp x rx nx k, In grp gs /\ In x grp /\ answer fuel g s f x = Some rx /\ r_node rx = Some nx /\
        n_kids n = [k] /\ erase k = erase nx.
Proof.
  intros H. set (s := newStream (rs "x a bc")). set (gs := groupsOf c16Bad). set (b := baseOf c16Bad).
  assert (X : match eval 20 [] (RChoice b gs) s SUGGEST_SKIP with
    | Ok (res, _) => match r_node res with Some n => List.map n_type (n_kids n) = [TChars] | None => False end
    | _ => False end) by (vm_compute; reflexivity).
  destruct (eval 20 [] (RChoice b gs) s SUGGEST_SKIP) as [[res s']| |] eqn:E; [|exact X..].
  destruct (r_node res) as [n|] eqn:EN; [|exact X].
  destruct (H _ _ _ _ _ _ _ _ _ (okRules_ok [] eq_refl) (okRunes_ok (rest s) eq_refl) (okRule_ok (RChoice b gs) eq_refl) E EN)
    as (grp & x & rx & nx & k & IG & IX & A & NX & K & EK).
  assert (Y : forall x, In x (concat gs) -> match answer 19 [] s SUGGEST_SKIP x with
    | Some r => match r_node r with Some n => n_type n <> TChars | None => True end | None => True end).
  { intros y [<-|[<-|[]]]; vm_compute; [discriminate|exact I]. }
  specialize (Y x). rewrite A, NX in Y. apply Y.
  - apply in_concat. eauto.
  - rewrite K in X. cbn in X. injection X as X. apply (f_equal n_type) in EK. destruct k, nx. cbn in *. congruence.
Qed.
Print Assumptions C16_greediest_refuted.

(** What is missing: alternatives that report more or less than they read (C14).
    Otherwise the child is the strictly greediest match of the first group with a
    match. *)
Theorem C16_greediest_partial : forall g fuel b s f, wfRules g -> runesOk (rest s) -> forall gs res s' n, wfRule (RChoice b gs) ->
  (forall grp x, In grp gs -> In x grp -> honest fuel g s f x) ->
  eval (S fuel) g (RChoice b gs) s f = Ok (res, s') -> r_node res = Some n ->
  exists pre l1 x l2 post rx nx, gs = pre ++ (l1 ++ x :: l2) :: post /\ answer fuel g s f x = Some rx /\ r_node rx = Some nx /\
    (exists k, n_kids n = [k] /\ erase k = erase nx) /\ used res = used rx /\
    (forall y, In y (concat pre) -> exists ry, answer fuel g s f y = Some ry /\ r_node ry = None) /\
    (forall y, In y (l1 ++ l2) -> exists ry, answer fuel g s f y = Some ry /\ (r_node ry <> None -> (used ry < used rx)%nat)).
Proof. exact choice_greediest. Qed.
Print Assumptions C16_greediest_partial.

(** Three groups: the first has no match, in the second the second of three matches is the longest. *)
Definition c16Ex : rule := Eval vm_compute in ruleOf (rs "r = 'x' | 'y' > 'ab' | 'abcd' | 'abc' > 'abcde'").
Example C16_example :
  (forall grp x, In grp (groupsOf c16Ex) -> In x grp -> honest 20 [] (newStream (rs "abcde")) SUGGEST_SKIP x) /\
  length (groupsOf c16Ex) = 3%nat /\
  match eval 21 [] c16Ex (newStream (rs "abcde")) SUGGEST_SKIP with
  | Ok (res, _) => used res = 4%nat /\ r_read res = rs "abcd" /\ r_node res <> None
  | _ => False
  end.
Proof. split; [apply honest_all; vm_compute; reflexivity|]. vm_compute. repeat split. discriminate. Qed.

(* ---------------- C17 ---------------- *)

(** ['a' | 'a' | 'ab'] on [ab] is ambiguous, ['ab' | 'a' | 'a'] is not. *)
Definition c17A : rule := Eval vm_compute in ruleOf (rs "r = 'a' | 'a' | 'ab'").
Definition c17B : rule := Eval vm_compute in ruleOf (rs "r = 'ab' | 'a' | 'a'").
Theorem C17_unordered_refuted :
  ~ forall g fuel b pre grp grp' post s f res s' res2 s2, wfRules g -> runesOk (rest s) -> wfRule (RChoice b (pre ++ grp :: post)) ->
      Permutation grp grp' -> (forall gr x, In gr (pre ++ grp :: post) -> In x gr -> honest fuel g s f x) ->
      eval (S fuel) g (RChoice b (pre ++ grp :: post)) s f = Ok (res, s') ->
      eval (S fuel) g (RChoice b (pre ++ grp' :: post)) s f = Ok (res2, s2) ->
      (r_node res = None <-> r_node res2 = None).
Proof.
  intros H. set (s := newStream (rs "ab")). set (grp := concat (groupsOf c17A)). set (grp' := concat (groupsOf c17B)).
  assert (X : match eval 20 [] (RChoice noBase [grp]) s SUGGEST_SKIP, eval 20 [] (RChoice noBase [grp']) s SUGGEST_SKIP with
    | Ok (res, _), Ok (res2, _) => r_node res = None /\ r_node res2 <> None
    | _, _ => False end) by (vm_compute; split; [reflexivity|discriminate]).
  destruct (eval 20 [] (RChoice noBase [grp]) s SUGGEST_SKIP) as [[res s']| |] eqn:E; [|destruct X..].
  destruct (eval 20 [] (RChoice noBase [grp']) s SUGGEST_SKIP) as [[res2 s2]| |] eqn:E2; [|destruct X..].
  destruct X as [X1 X2]. apply X2.
  refine (proj1 (H [] 19%nat noBase [] grp grp' [] s SUGGEST_SKIP res s' res2 s2 (okRules_ok [] eq_refl) (okRunes_ok (rest s) eq_refl)
    (okRule_ok (RChoice noBase [grp]) eq_refl) _ _ E E2) X1).
  - unfold grp, grp'. cbn. eapply perm_trans; [apply perm_skip, perm_swap|apply perm_swap].
  - apply honest_all. vm_compute. reflexivity.
Qed.
Print Assumptions C17_unordered_refuted.

(** What is missing: groups where one match is the greediest and two shorter
    matches have the same length, and alternatives that misreport what they read.
    Otherwise the order of the alternatives does not matter. *)
Theorem C17_unordered_partial : forall g fuel b s f, wfRules g -> runesOk (rest s) -> forall pre grp grp' post res s',
  wfRule (RChoice b (pre ++ grp :: post)) -> Permutation grp grp' ->
  (forall gr x, In gr (pre ++ grp :: post) -> In x gr -> honest fuel g s f x) ->
  (forall rs, answers fuel g s f grp rs -> hasGreediest rs -> NoDup (List.map used (List.filter matched rs))) ->
  eval (S fuel) g (RChoice b (pre ++ grp :: post)) s f = Ok (res, s') ->
  exists res2 s2, eval (S fuel) g (RChoice b (pre ++ grp' :: post)) s f = Ok (res2, s2) /\
    option_map erase (r_node res2) = option_map erase (r_node res) /\ r_read res2 = r_read res /\ r_unused res2 = r_unused res /\
    r_sticky res2 = r_sticky res /\ rest s2 = rest s'.
Proof. exact choice_unordered. Qed.
Print Assumptions C17_unordered_partial.

(** ['a' | 'abc' | 'ab'] on [abcd]: three matches of different lengths. *)
Definition c17Ex : list rule := Eval vm_compute in concat (groupsOf (ruleOf (rs "r = 'a' | 'abc' | 'ab'"))).
Example C17_example :
  (forall gr x, In gr [c17Ex] -> In x gr -> honest 20 [] (newStream (rs "abcd")) SUGGEST_SKIP x) /\
  exists rs, answers 20 [] (newStream (Base.rs "abcd")) SUGGEST_SKIP c17Ex rs /\ List.map used (List.filter matched rs) = [1; 3; 2]%nat /\
    hasGreediest rs.
Proof.
  split; [apply honest_all; vm_compute; reflexivity|]. eexists. split; [|split].
  - repeat (constructor; [vm_compute; reflexivity|]). constructor.
  - vm_compute. reflexivity.
  - eexists [_], _, [_]. split; [reflexivity|]. split; [reflexivity|]. intros r' [<-|[<-|[]]] _; vm_compute; lia.
Qed.

(* ---------------- C18 ---------------- *)

(** [r = ['a' | 'a'] 'b'] on [ab]: the ambiguity is taken for an absent option and
    the [a] is dropped. *)
Definition c18Bad : rule := Eval vm_compute in ruleOf (rs "r = ['a' | 'a'] 'b'").
Theorem C18_ambiguity_refuted :
  ~ forall g fuel b b' x y s f ra sa res s', wfRules g -> runesOk (rest s) -> wfRule (RConcat b [ROption b' x; y]) ->
      eval fuel g x s f = Ok (ra, sa) -> (exists nm ns, r_err ra = Some (EAmbiguity nm ns)) ->
      eval (S (S fuel)) g (RConcat b [ROption b' x; y]) s f = Ok (res, s') -> r_node res = None.
Proof.
  intros H. set (s := newStream (rs "ab")). unfold c18Bad in *.
  set (amb := RChoice noBase [[RChar noBase 97 false; RChar noBase 97 false]]).
  set (r := RConcat noBase [ROption noBase amb; RChar noBase 98 false]).
  assert (X : match eval 20 [] amb s SUGGEST_SKIP, eval 22 [] r s SUGGEST_SKIP with
    | Ok (ra, _), Ok (res, _) => (exists nm ns, r_err ra = Some (EAmbiguity nm ns)) /\ r_node res <> None
    | _, _ => False end) by (vm_compute; split; [do 2 eexists; reflexivity|discriminate]).
  destruct (eval 20 [] amb s SUGGEST_SKIP) as [[ra sa]| |] eqn:E; [|destruct X..].
  destruct (eval 22 [] r s SUGGEST_SKIP) as [[res s']| |] eqn:E2; [|destruct X..].
  destruct X as [X1 X2]. apply X2.
  exact (H _ _ _ _ _ _ _ _ _ _ _ _ (okRules_ok [] eq_refl) (okRunes_ok (rest s) eq_refl) (okRule_ok r eq_refl) E X1 E2).
Qed.
Print Assumptions C18_ambiguity_refuted.
(** The same from the grammar text. *)
Example C18_silent :
  match eval 22 [] c18Bad (newStream (rs "ab")) SUGGEST_SKIP with Ok (res, _) => r_node res <> None /\ r_err res = None | _ => False end.
Proof. vm_compute. split; [discriminate|reflexivity]. Qed.

(** What is missing: the error is lost inside an option, a repetition or a block.
    The choice itself reports it whenever the first group with a match has no
    greediest one. *)
Theorem C18_ambiguity_partial : forall g fuel b s f, wfRules g -> runesOk (rest s) -> forall pre grp post rs,
  wfRule (RChoice b (pre ++ grp :: post)) ->
  (forall gr x, In gr (pre ++ grp :: post) -> In x gr -> honest fuel g s f x) ->
  (forall y, In y (concat pre) -> exists ry, answer fuel g s f y = Some ry /\ r_node ry = None) ->
  answers fuel g s f grp rs -> (exists r, In r rs /\ matched r = true) -> ~ hasGreediest rs ->
  exists res s', eval (S fuel) g (RChoice b (pre ++ grp :: post)) s f = Ok (res, s') /\ r_node res = None /\ exists nm ns, r_err res = Some (EAmbiguity nm ns).
Proof. exact choice_tie. Qed.
Print Assumptions C18_ambiguity_partial.

(** ['x' > 'ab' | ('a' 'b')] on [ab]. *)
Definition c18Ex : rule := Eval vm_compute in ruleOf (rs "r = 'x' > 'ab' | ('a' 'b')").
Example C18_example :
  (forall gr x, In gr (groupsOf c18Ex) -> In x gr -> honest 20 [] (newStream (rs "ab")) SUGGEST_SKIP x) /\
  length (groupsOf c18Ex) = 2%nat /\
  exists rs, answers 20 [] (newStream (Base.rs "ab")) SUGGEST_SKIP (nth 1 (groupsOf c18Ex) []) rs /\
    List.map used (List.filter matched rs) = [2; 2]%nat.
Proof.
  split; [apply honest_all; vm_compute; reflexivity|]. split; [reflexivity|]. eexists. split.
  - repeat (constructor; [vm_compute; reflexivity|]). constructor.
  - vm_compute. reflexivity.
Qed.
