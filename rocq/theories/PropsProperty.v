(** C88: the property grammar shipped in main/samples/property: its root rule property,
    through EvalRule and Eval. *)
From Verif Require Import Base Stream Node Rule Grammar SpecStream SpecRule SpecDriver SpecLL RepoSamples SpecArith SpecLines SpecProperty DriverFacts PropLine PropDrive.

(** Full claim: Eval reads a text entry by entry (see SpecProperty.v for what an entry is).
    If nothing remains the trees of the entries are the answer, otherwise there is no
    match.  [ok] limits the texts; 1 and 2 are the levels without virtual nodes, the
    tests use 1. *)
Definition C88_claim (ok : list Z -> Prop) : Prop := forall s ords level, runesOk (rest s) -> ok (rest s) -> rest s <> [] -> legal (rootsOf gProp) ords -> level = 1 \/ level = 2 ->
  forall lf fuel r s', evalTop lf fuel (rules_of gProp) ords s level = Ok (r, s') ->
  exists es t, Entries es (rest s) t /\ ((t = [] /\ exists a, r = RawOk a /\ List.map bare a = List.map entryTree es) \/ (t <> [] /\ exists d e, r = RawNoMatch d e)).

Definition c88Eval (t : list Z) : option (list node) :=
  match evalTop 60 60 (rules_of gProp) (storedOrder gProp) (newStream t) 1 with Ok (RawOk a, _) => Some (List.map bare a) | _ => None end.
Lemma c88_eval t x : c88Eval t = Some x -> exists a s', evalTop 60 60 (rules_of gProp) (storedOrder gProp) (newStream t) 1 = Ok (RawOk a, s') /\ List.map bare a = x.
Proof. unfold c88Eval. destruct (evalTop _ _ _ _ _ _) as [[[a| | | |] s']| |]; try discriminate. intros [= <-]. eauto. Qed.
Lemma c88_legal : legal (rootsOf gProp) (storedOrder gProp).
Proof. exact (storedOrder_legal gProp). Qed.
Ltac runs := repeat first [apply Forall_nil | apply Forall_cons; [first [unfold nameRune, lineRune, separator; lia | lia]|]].

(** False in general: a backslash that stands before no separator or newline is doubled in
    the value.  a=b\c is read as a and b\\c. *)
Theorem C88_escape_refuted : ~ C88_claim (fun _ => True).
Proof.
  intros H. destruct (c88_eval (rs "a=b\c") [entryTree (Pair [97] 61 [98; 92; 92; 99])] ltac:(vm_compute; reflexivity)) as (a & s' & E & B).
  destruct (H (newStream (rs "a=b\c")) (storedOrder gProp) 1 ltac:(repeat constructor; lia) Logic.I ltac:(discriminate) c88_legal (or_introl eq_refl) 60%nat 60%nat _ _ E) as (es & t & PS & A). change (rest (newStream (rs "a=b\c"))) with [97; 61; 98; 92; 99] in PS.
  assert (EN : Entry (Pair [97] 61 [98; 92; 99]) [97; 61; 98; 92; 99] []).
  { apply (en_pair _ [97] 61 [98; 92; 99] [98; 92; 99] [] []); [apply start_here; [cbn; lia|discriminate]|runs|now left|apply start_here; [cbn; lia|discriminate]|runs|constructor|apply flush_trail; exact Logic.I]. }
  destruct (entries_once _ _ _ (et_more _ _ _ _ _ EN (et_none _ none_empty)) _ _ PS) as [<- <-]. destruct A as [(_ & a' & [= <-] & B')|[A _]]; [|now apply A]. rewrite B in B'. vm_compute in B'. discriminate B'.
Qed.
Print Assumptions C88_escape_refuted.
(** True for all texts without backslashes. *)
Theorem C88_eval_partial : C88_claim noEscape.
Proof. exact prop_eval. Qed.
Print Assumptions C88_eval_partial.
Theorem C88_returns_partial s ords level : runesOk (rest s) -> noEscape (rest s) -> rest s <> [] -> legal (rootsOf gProp) ords ->
  exists N, forall lf fuel, (length (rest s) < lf)%nat -> (N <= fuel)%nat -> exists r s', evalTop lf fuel (rules_of gProp) ords s level = Ok (r, s').
Proof. exact (prop_eval_returns s ords level). Qed.
Print Assumptions C88_returns_partial.
(** There is one such reading. *)
Theorem C88_once es es' t r r' : Entries es t r -> Entries es' t r' -> es = es' /\ r = r'.
Proof. exact (fun H => entries_once es t r H es' r'). Qed.
Print Assumptions C88_once.
(** EvalRule reads one entry; its tree is here simplified as Eval does it. *)
Theorem C88_rule_partial fuel sample res : runesOk sample -> noEscape sample -> evalRule fuel gProp (rs "property") sample = Ok res ->
  (exists e r n, Entry e sample r /\ r_node res = Some n /\ bare (removeRedundant (removeVirtual (mergeNode n))) = entryTree e /\ (length (r_read res) - length (r_unused res) + length r = length sample)%nat) \/
  (noEntry sample /\ r_node res = None).
Proof. exact (prop_rule fuel sample res). Qed.
Print Assumptions C88_rule_partial.
Theorem C88_rule_returns_partial sample : runesOk sample -> noEscape sample ->
  exists N res, forall fuel, (N <= fuel)%nat -> evalRule fuel gProp (rs "property") sample = Ok res.
Proof. exact (prop_returns sample). Qed.
Print Assumptions C88_rule_returns_partial.

(** Entries are read as they are written, one on each line. *)
Theorem C88_file_partial ords level es : legal (rootsOf gProp) ords -> level = 1 \/ level = 2 -> Forall tidy es -> es <> [] -> runesOk (file es) -> noEscape (file es) ->
  exists N, forall lf fuel, (length (file es) < lf)%nat -> (N <= fuel)%nat ->
    exists a s', evalTop lf fuel (rules_of gProp) ords (newStream (file es)) level = Ok (RawOk a, s') /\ List.map bare a = List.map entryTree es.
Proof. exact (prop_file ords level es). Qed.
Print Assumptions C88_file_partial.
(** Not if a value is empty: then the next line is the value.  a= and below it b=c is read
    as one entry. *)
Definition C88_empty_claim : Prop := forall k c e a s', flush k -> Forall nameRune k -> separator c -> tidy e ->
  evalTop 60 60 (rules_of gProp) (storedOrder gProp) (newStream (file [Pair k c []; e])) 1 = Ok (RawOk a, s') -> List.map bare a = [entryTree (Pair k c []); entryTree e].
Theorem C88_empty_refuted : ~ C88_empty_claim.
Proof.
  intros H. destruct (c88_eval (file [Pair [97] 61 []; Pair [98] 61 [99]]) [entryTree (Pair [97] 61 [98; 61; 99])] ltac:(vm_compute; reflexivity)) as (a & s' & E & B).
  specialize (H [97] 61 (Pair [98] 61 [99]) a s' ltac:(cbn; lia) ltac:(runs) (or_introl eq_refl)). rewrite B in H. assert (T : tidy (Pair [98] 61 [99])).
  { split; [cbn; lia|]. split; [runs|]. split; [now left|]. split; [cbn; lia|]. split; [discriminate|]. runs. }
  specialize (H T E). vm_compute in H. discriminate H.
Qed.
Print Assumptions C88_empty_refuted.
(** White space in front of the separator belongs to the key.  a = b has the key "a ". *)
Definition C88_space_claim : Prop := forall k v a s', flush k -> k <> [] -> Forall nameRune k -> flush v -> v <> [] -> Forall lineRune v -> noEscape (k ++ v) ->
  evalTop 60 60 (rules_of gProp) (storedOrder gProp) (newStream (k ++ [32; 61; 32] ++ v)) 1 = Ok (RawOk a, s') -> List.map bare a = [entryTree (Pair k 61 v)].
Theorem C88_space_refuted : ~ C88_space_claim.
Proof.
  intros H. destruct (c88_eval (rs "a = b") [entryTree (Pair [97; 32] 61 [98])] ltac:(vm_compute; reflexivity)) as (a & s' & E & B).
  specialize (H [97] [98] a s' ltac:(cbn; lia) ltac:(discriminate) ltac:(runs) ltac:(cbn; lia) ltac:(discriminate) ltac:(runs) ltac:(unfold noEscape; cbn [app]; runs) E). rewrite B in H. vm_compute in H. discriminate H.
Qed.
Print Assumptions C88_space_refuted.

(** A name alone, a pair, a pair with blanks; the hypotheses of C88_file_partial hold. *)
Definition c88Es : list entry := Eval vm_compute in [Alone (rs "empty key"); Pair (rs "db.url") 61 (rs "localhost"); Pair (rs "k") 58 (rs "http://x = y")].
Example C88_example : c88Eval (file c88Es) = Some (List.map entryTree c88Es).
Proof. vm_compute. reflexivity. Qed.
Example C88_tidy : Forall tidy c88Es /\ runesOk (file c88Es) /\ noEscape (file c88Es).
Proof.
  split; [|split; [unfold runesOk|unfold noEscape]; cbn [file flat_map written c88Es app]; runs].
  apply Forall_cons; [split; [cbn; lia|]; split; [discriminate|]; runs|].
  apply Forall_cons; [split; [cbn; lia|]; split; [runs|]; split; [now left|]; split; [cbn; lia|]; split; [discriminate|]; runs|].
  apply Forall_cons; [split; [cbn; lia|]; split; [runs|]; split; [now right|]; split; [cbn; lia|]; split; [discriminate|]; runs|apply Forall_nil].
Qed.
(** The text of the test, with white space around the entries. *)
Example C88_spaced : c88Eval ([10] ++ rs "db.url=localhost" ++ [10] ++ rs "db.user=mkyong" ++ [10] ++ rs "db.password=password" ++ [9; 10; 9]) =
  Some (List.map entryTree [Pair (rs "db.url") 61 (rs "localhost"); Pair (rs "db.user") 61 (rs "mkyong"); Pair (rs "db.password") 61 (rs "password" ++ [9])]).
Proof. vm_compute. reflexivity. Qed.
