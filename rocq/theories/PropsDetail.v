(** C67, C68: the outlines of rules and the printed results. *)
From Verif Require Import Base Stream Node Rule SpecStream SpecRule Parse Grammar Print SpecParse SpecGrammar GrammarFacts GrammarText HistoryFacts Show SpecShow ShowFacts DrawFacts SpecNode SpecSerial OutlineFacts
  Message Detail SpecDetail DetailFacts WfDec PropsEval PropsNode PropsDriver.

(* ---------------- C67 ---------------- *)

(** StringWithIndent writes one piece for every part of the rule, in the order of the
    text of the rule, each behind as many margins as it is deep; text that goes over more
    than one line keeps that margin. *)
Theorem C67_outline : forall m r, ~ In 10 m -> isOutline m 0 r (outlineOf m r).
Proof. exact outline_is. Qed.
Print Assumptions C67_outline.
(** Serialize(true) puts the outline one step further in. *)
Theorem C67_below : forall m r, ~ In 10 m -> isOutline m 1 r (m ++ indent m (outlineOf m r)).
Proof. exact outline_below. Qed.
Print Assumptions C67_below.
(** The outline does not determine the rule: a choice by order looks like one by length,
    and the marks of a group are not shown.  *)
Theorem C67_order_refuted : ~ (forall r r' m, okRule r = true -> okRule r' = true -> outlineOf m r = outlineOf m r' -> print r = print r').
Proof.
  intros H. specialize (H (ruleOf (rs "r = ""a"" | ""ab""")) (ruleOf (rs "r = ""a"" > ""ab""")) (rs "    ") ltac:(vm_compute; reflexivity) ltac:(vm_compute; reflexivity) ltac:(vm_compute; reflexivity)).
  revert H. vm_compute. discriminate.
Qed.
Print Assumptions C67_order_refuted.
Theorem C67_marks_refuted : ~ (forall r r' m, okRule r = true -> okRule r' = true -> outlineOf m r = outlineOf m r' -> b_virtual (base_of r) = b_virtual (base_of r')).
Proof.
  intros H. specialize (H (ruleOf (rs "r = (""a"" ""b"")")) (ruleOf (rs "r = ~(""a"" ""b"")")) (rs "    ") ltac:(vm_compute; reflexivity) ltac:(vm_compute; reflexivity) ltac:(vm_compute; reflexivity)).
  revert H. vm_compute. discriminate.
Qed.
Print Assumptions C67_marks_refuted.
(** A block is put one margin further in than other parts of its depth. *)
Theorem C67_depth_refuted : ~ (forall m r z, okRule r = true -> m <> [] -> outlineOf m r <> m ++ z).
Proof.
  intros H. apply (H (rs "    ") (ruleOf (rs "r = <""a"" ""b"">")) (print (ruleOf (rs "r = <""a"" ""b"">"))) ltac:(vm_compute; reflexivity) ltac:(discriminate)). vm_compute. reflexivity.
Qed.
Print Assumptions C67_depth_refuted.

Example C67_example :
  outlineOf (rs "  ") (ruleOf (rs "r = { ""a"" | ('x' 'y'-'z') }<2,3> [ <""("" "")""> ]")) =
  rs "concatenate:" ++ [10]
  ++ rs "  repetition<2,3>:" ++ [10]
  ++ rs "    choice:" ++ [10]
  ++ rs "      token:""a""" ++ [10]
  ++ rs "      group:" ++ [10]
  ++ rs "        concatenate:" ++ [10]
  ++ rs "          char:'x'" ++ [10]
  ++ rs "          range:'y'-'z'" ++ [10]
  ++ rs "  option:" ++ [10]
  ++ rs "      <""("" "")"">".
Proof. vm_compute. reflexivity. Qed.
Definition c67Src : list Z := rs "s = n | (n ',')" ++ [10] ++ rs "n = '0'-'9'".
Example C67_serialize_example :
  serialize true (grammarOf c67Src) (g_records (grammarOf c67Src)) (g_records (grammarOf c67Src)) =
  rs "Root Rules: s," ++ [10] ++ rs "Rule Reference Map: " ++ [10]
  ++ rs "    n    : s,s," ++ [10]
  ++ rs "Rules:" ++ [10]
  ++ rs "    L0001: s     = n | ( n ',' )" ++ [10]
  ++ rs "    choice:" ++ [10]
  ++ rs "        reference:n" ++ [10]
  ++ rs "        group:" ++ [10]
  ++ rs "            concatenate:" ++ [10]
  ++ rs "                reference:n" ++ [10]
  ++ rs "                char:','" ++ [10]
  ++ rs "L0002: n[T]  = '0'-'9'" ++ [10]
  ++ rs "    range:'0'-'9'" ++ [10].
Proof. vm_compute. reflexivity. Qed.

(* ---------------- C68 ---------------- *)

(** Two results are printed alike exactly when they have the same runes, read and unused,
    and trees that look alike, or no tree and the same error: the runes can be told from
    what follows because they are counted. *)
Theorem C68_faithful : forall cfg r r', c_inner cfg = false -> clearNode r -> clearNode r' ->
  resultTree cfg r = resultTree cfg r' <-> glance (c_type cfg) r = glance (c_type cfg) r'.
Proof. exact result_faithful. Qed.
Print Assumptions C68_faithful.
(** The layout, with the numbers of runes. *)
Theorem C68_layout : forall cfg r, printed (fun n d => d = stringTree cfg n) r (resultTree cfg r).
Proof. exact result_printed. Qed.
Print Assumptions C68_layout.
(** The results of EvalRule can be printed. *)
Theorem C68_results : forall calls fuel name sample res, decoded calls -> runesOk sample -> evalRule fuel (history calls) name sample = Ok res -> clearNode res.
Proof. intros calls fuel name sample res D C E n N. exact (evalRule_drawable calls fuel name sample res n D C E N). Qed.
Print Assumptions C68_results.
(** MergeStickyNodes of a result changes the tree only. *)
Theorem C68_merge : forall r, r_read (mergeResult r) = r_read r /\ r_unused (mergeResult r) = r_unused r /\ r_err (mergeResult r) = r_err r /\
  match r_node r, r_node (mergeResult r) with Some n, Some m => mergedNode n m | None, None => True | _, _ => False end.
Proof. exact mergeResult_merged. Qed.
Print Assumptions C68_merge.
(** An error next to a tree is not printed. *)
Definition c68Res : result :=
  Eval vm_compute in match evalRule 20 (history [AddRule (rs "r = { ""a"" }")]) (rs "r") (rs "aab") with Ok r => r | _ => mkRes None None 0 [] [] false end.
Theorem C68_error_shown_refuted : ~ (forall cfg calls fuel name sample res r', decoded calls -> evalRule fuel (history calls) name sample = Ok res ->
  resultTree cfg res = resultTree cfg r' -> (r_err res = None <-> r_err r' = None)).
Proof.
  intros H. specialize (H (mkConfig true false) [AddRule (rs "r = { ""a"" }")] 20%nat (rs "r") (rs "aab") c68Res (mkRes (r_node c68Res) None 0 (r_read c68Res) (r_unused c68Res) false)
    ltac:(repeat constructor; cbn; lia) ltac:(vm_compute; reflexivity) ltac:(vm_compute; reflexivity)).
  destruct H as [_ H]. specialize (H eq_refl). revert H. vm_compute. discriminate.
Qed.
Print Assumptions C68_error_shown_refuted.

Definition c68Text (rule text : list Z) : list Z :=
  match evalRule 20 (history [AddRule rule]) (rs "r") text with Ok r => resultTree defaultConfig r | _ => [] end.
Example C68_example :
  c68Text (rs "r = ('0'-'9') ""x""") (rs "7 x!") =
  rs "EvalResult" ++ [10; cTee] ++ repeat cHor 3 ++ rs "CharsRead[3]  :7 x*" ++ [10; cTee] ++ repeat cHor 3 ++ rs "CharsUnused[0]:*"
  ++ [10; cCorner] ++ repeat cHor 3 ++ rs "Node: L1:3:r/concatenate"
  ++ [10] ++ rs "    " ++ [cTee; cHor; cHor] ++ rs "L0:0:/group+"
  ++ [10] ++ rs "    " ++ [cBar] ++ rs "  " ++ [cCorner; cHor; cHor] ++ rs "L0:0:/chars+: >7<"
  ++ [10] ++ rs "    " ++ [cCorner; cHor; cHor] ++ rs "L1:3:/string: >x<".
Proof. vm_compute. reflexivity. Qed.
Example C68_error_example :
  c68Text (rs "r = 'a' ""x""") (rs "ay") =
  rs "EvalResult" ++ [10; cTee] ++ repeat cHor 3 ++ rs "CharsRead[2]  :ay*" ++ [10; cTee] ++ repeat cHor 3 ++ rs "CharsUnused[2]:ay*"
  ++ [10; cCorner] ++ repeat cHor 3 ++ rs "Node: nil; r: missing ""x"" at L1:2".
Proof. vm_compute. reflexivity. Qed.
