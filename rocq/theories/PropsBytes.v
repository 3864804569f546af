(** C80: Go strings. *)
From Verif Require Import Base Stream StreamFacts SpecStream Node Rule Parse Grammar PropsDriver SpecRule WfDec SpecEval SpecDriver SpecGrammar DriverFacts Complain Bytes BytesFacts BytesRule.

(* ---------------- C80 ---------------- *)

(** Reading a grammar from a string is reading it from the runes of the string, for every
    string of bytes, also if it is not UTF-8. *)
Theorem C80_grammar : forall b, newGrammarFromBytes b = newGrammarFromString (runes b).
Proof. exact newGrammar_runes. Qed.
Print Assumptions C80_grammar.
(** The same for every sequence of calls, ... *)
Theorem C80_calls : forall calls, historyBytes calls = history (List.map asCall calls).
Proof. exact history_runes. Qed.
Print Assumptions C80_calls.
(** ... and for EvalRule on the grammar that they build. *)
Theorem C80_rule : forall calls fuel name b, Forall madeOfBytes calls ->
  evalRuleBytes fuel (historyBytes calls) name b = evalRule fuel (history (List.map asCall calls)) (runes name) (runes b).
Proof. exact evalRule_runes. Qed.
Print Assumptions C80_rule.
(** The runes of a string are code points; in particular the theorems about texts and about
    histories apply to all strings. *)
Theorem C80_code_points : forall b, Forall isByte b -> Forall scalar (runes b) /\ runesOk (runes b).
Proof. exact (fun b B => conj (runes_scalar b B) (runes_ok b B)). Qed.
Print Assumptions C80_code_points.
Theorem C80_decoded : forall calls, Forall madeOfBytes calls -> decoded (List.map asCall calls).
Proof. exact calls_decoded. Qed.
Print Assumptions C80_decoded.
(** What decoding does: it takes the bytes of a code point if the string begins with them, else one
    byte, as U+FFFD. *)
Theorem C80_decode : forall b, b <> [] -> Forall isByte b ->
  (exists c rest, scalar c /\ b = encodeRune c ++ rest /\ runes b = c :: runes rest) \/
  ((forall c rest, scalar c -> b <> encodeRune c ++ rest) /\ runes b = runeError :: runes (tl b)).
Proof. exact decode_exact. Qed.
Print Assumptions C80_decode.
(** There and back. *)
Theorem C80_bytes_back : forall b, Forall isByte b -> (encode (runes b) = b <-> utf8 b).
Proof. exact utf8_round. Qed.
Print Assumptions C80_bytes_back.
Theorem C80_runes_back : forall l, runes (encode l) = l <-> Forall scalar l.
Proof. exact rune_round. Qed.
Print Assumptions C80_runes_back.
(** Writing runes and reading the string again replaces what is no code point, as the model
    of [inString] and of the messages says. *)
Theorem C80_written : forall l, runes (encode l) = List.map utf8_rune l.
Proof. exact runes_encode_all. Qed.
Print Assumptions C80_written.
(** The first byte of a name, which the message about a bad name shows. *)
Theorem C80_first_byte : forall c, scalar c -> firstByte c = List.hd 0 (encodeRune c).
Proof. exact first_byte. Qed.
Print Assumptions C80_first_byte.
(* ---------------- C82 ---------------- *)

(** What EvalRule says it read is, as a string, the beginning of the string it was given.
    Missing: strings that are not UTF-8 (false, see below) and evaluations that are not careful
    (CharsRead is wrong there, see C14). *)
Theorem C82_read_partial : forall fuel g name r b res, wfRules (rules_of g) -> lookup (rules_of g) name = Some r -> utf8 b ->
  careful (rules_of g) r SUGGEST_SKIP (runes b) -> evalRuleBytes fuel g name b = Ok res ->
  exists later, b = encode (r_read res) ++ later /\ utf8 later /\ runes later = skipn (length (r_read res)) (runes b).
Proof. exact read_bytes. Qed.
Print Assumptions C82_read_partial.

(** A definition with umlauts, an ideographic space at the end and a comment; a text with a
    rune of four bytes. *)
Definition c80Src : list Z := Eval vm_compute in encode (rs " w = { 'a'-'z' | '" ++ [228] ++ rs "' | '" ++ [128512] ++ rs "' }<1>  " ++ [12288; 10] ++ rs "// " ++ [8364] ++ rs "
v = w ';'").
Definition c80G : grammar := Eval vm_compute in match newGrammarFromBytes c80Src with inl g => g | inr _ => newGrammar end.
Definition c80B : list Z := Eval vm_compute in encode ([97; 228; 128512] ++ rs "b;" ++ [8364]).
Example C80_example : newGrammarFromBytes c80Src = inl c80G /\ length (g_records c80G) = 2%nat /\
  runes c80B = [97; 228; 128512] ++ rs "b;" ++ [8364] /\ length c80B = 12%nat /\
  match evalRuleBytes 30 c80G (rs "v") c80B with Ok res => r_read res = [97; 228; 128512] ++ rs "b;" /\ r_node res <> None | _ => False end.
Proof. split; [vm_compute; reflexivity|]. split; [vm_compute; reflexivity|]. split; [vm_compute; reflexivity|]. split; [vm_compute; reflexivity|]. vm_compute. split; [reflexivity|discriminate]. Qed.
Example C82_example : wfRules (rules_of c80G) /\ (exists r, lookup (rules_of c80G) (rs "v") = Some r /\ careful (rules_of c80G) r SUGGEST_SKIP (runes c80B)) /\ utf8 c80B.
Proof.
  split; [apply okRules_ok; vm_compute; reflexivity|]. split.
  - eexists. split; [vm_compute; reflexivity|]. apply (isCareful_ok 60). vm_compute. reflexivity.
  - exists (runes c80B). split; [|vm_compute; reflexivity]. apply runes_scalar. repeat constructor; unfold isByte; lia.
Qed.
(** Bytes that are not UTF-8, and a surrogate: each bad byte is read as U+FFFD, so the string
    is not given back. *)
Example C80_bad_bytes : runes [97; 255; 237; 160; 128; 98; 226; 130] = [97; 65533; 65533; 65533; 65533; 98; 65533; 65533] /\
  encode (runes [97; 255]) = [97; 239; 191; 189].
Proof. vm_compute. split; reflexivity. Qed.
Theorem C82_not_utf8_refuted : ~ forall fuel g name r b res, wfRules (rules_of g) -> lookup (rules_of g) name = Some r -> Forall isByte b ->
  careful (rules_of g) r SUGGEST_SKIP (runes b) -> evalRuleBytes fuel g name b = Ok res -> exists later, b = encode (r_read res) ++ later.
Proof.
  pose (g := grammarOf (rs "r = \u0021-\uFFFE")).
  destruct (lookup (rules_of g) (rs "r")) as [r|] eqn:L; [|vm_compute in L; discriminate].
  destruct (evalRuleBytes 9 g (rs "r") [255]) as [res| |] eqn:E; [|vm_compute in E; discriminate..].
  intros H. destruct (H 9%nat g (rs "r") r [255] res) as (later & X).
  - apply okRules_ok. vm_compute. reflexivity.
  - exact L.
  - repeat constructor; unfold isByte; lia.
  - apply (isCareful_ok 60). vm_compute in L. injection L as <-. vm_compute. reflexivity.
  - exact E.
  - assert (R : r_read res = [65533]) by (vm_compute in E; injection E as <-; reflexivity). rewrite R in X. discriminate.
Qed.
Print Assumptions C82_not_utf8_refuted.
