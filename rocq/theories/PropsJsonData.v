(** C89: the JSON grammar at the data-only level of Eval. *)
From Verif Require Import Base Stream Node Rule Grammar SpecStream SpecRule SpecEval SpecEv SpecDriver DriverFacts WfDec RepoSamples SpecJson EraseFacts SpecEval JsonDriver SpecJsonData JsonDataDrive.

(** Full claim: the tree has a node for every part of every array and object. *)
Definition C89_claim (ok : json -> Prop) : Prop :=
  forall ords v t, legal (rootsOf gJson) ords -> Spells v t -> runesOk t -> ok v ->
  exists N, forall lf fuel, (length t < lf)%nat -> (N <= fuel)%nat ->
    exists a s', evalTop lf fuel (rules_of gJson) ords (newStream t) 2 = Ok (RawOk a, s') /\ List.map erase a = [wholeOf v].
(** The second part of [1,[],2] is lost. *)
Definition c89Hole : json := JArr [JNum false [49] None; JArr []; JNum false [50] None].
Theorem C89_parts_refuted : ~ C89_claim (fun _ => True).
Proof.
  intros H. assert (SP : spellable c89Hole) by (apply spellableB_ok; reflexivity). destruct (print_value c89Hole SP) as (_ & S & R).
  destruct (H (storedOrder gJson) c89Hole (neat c89Hole) (storedOrder_legal gJson) S R Logic.I) as (N & X).
  destruct (json_data_value (storedOrder gJson) c89Hole (neat c89Hole) (storedOrder_legal gJson) S R) as (M & Y). set (lf := Datatypes.S (length (neat c89Hole))).
  destruct (X lf (N + M)%nat ltac:(unfold lf; lia) ltac:(lia)) as (a & s' & E & A). destruct (Y lf (N + M)%nat ltac:(unfold lf; lia) ltac:(lia)) as (a' & s'' & E' & A').
  rewrite E in E'. injection E' as <- _. rewrite A in A'. vm_compute in A'. discriminate A'.
Qed.
Print Assumptions C89_parts_refuted.
(** It has when no string, array or object in it is empty. *)
Theorem C89_whole_partial : C89_claim (fun v => full v = true).
Proof. exact json_whole. Qed.
Print Assumptions C89_whole_partial.

(** Exactly, on every text without backslashes: values in a row, each with its tree. *)
Theorem C89_eval_partial lf fuel ords s r s' : legal (rootsOf gJson) ords -> runesOk (rest s) -> ~ In 92 (rest s) -> rest s <> [] -> evalTop lf fuel (rules_of gJson) ords s 2 = Ok (r, s') ->
  (exists vs a, SpellsAll vs (rest s) /\ r = RawOk a /\ List.map erase a = List.map dataOf vs) \/
  ((forall vs, ~ SpellsAll vs (rest s)) /\ exists d e, r = RawNoMatch d e).
Proof. exact (json_data lf fuel ords s r s'). Qed.
Print Assumptions C89_eval_partial.
Theorem C89_value_partial ords v t : legal (rootsOf gJson) ords -> Spells v t -> runesOk t ->
  exists N, forall lf fuel, (length t < lf)%nat -> (N <= fuel)%nat -> exists a s', evalTop lf fuel (rules_of gJson) ords (newStream t) 2 = Ok (RawOk a, s') /\ List.map erase a = [dataOf v].
Proof. exact (json_data_value ords v t). Qed.
Print Assumptions C89_value_partial.
(** Two values get the same tree if they differ in parts without any text, other than first
    parts, and in nothing else. *)
Theorem C89_lost v v' : spellable v -> spellable v' -> (dataOf v = dataOf v' <-> trim v = trim v').
Proof. exact (data_tells v v'). Qed.
Print Assumptions C89_lost.
(** All texts of the value are there, in their order, and no others. *)
Theorem C89_texts v : leaves (dataOf v) = atoms v.
Proof. exact (data_atoms v). Qed.
Print Assumptions C89_texts.

(** {"a":[1,[],"",2],"":[],"b":[[],3]} *)
Definition c89Value : json :=
  JObj [(rs "a", JArr [JNum false [49] None; JArr []; JStr []; JNum false [50] None]); ([], JArr []); (rs "b", JArr [JArr []; JNum false [51] None])].
Example C89_example : spellable c89Value /\ full c89Value = false /\
  trim c89Value = JObj [(rs "a", JArr [JNum false [49] None; JNum false [50] None]); (rs "b", JArr [JArr []; JNum false [51] None])] /\
  atoms c89Value = [rs "a"; rs "1"; rs "2"; rs "b"; rs "3"].
Proof. split; [apply spellableB_ok; reflexivity|]. repeat split; reflexivity. Qed.
Example C89_full_example : full (JObj [(rs "a", JArr [JNum false [49] None; JStr (rs "x")])]) = true.
Proof. reflexivity. Qed.
