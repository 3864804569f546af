(** C01-C06: the character stream. *)
From Verif Require Import Base Stream SpecStream CallFacts.

(** A two-line text, used in the examples. *)
Definition sample : list Z := rs "ab " ++ [10] ++ rs "cd".
Example sample_ok : runesOk sample.
Proof. repeat constructor; discriminate. Qed.

(* ---------------- C01 ---------------- *)

Theorem C01_stream_delivers_text : forall text cs, runesOk text ->
  let s := snd (run cs (newStream text)) in
  delivered cs (fst (run cs (newStream text))) = firstn (Z.to_nat (cursor s)) text /\
  rest s = skipn (Z.to_nat (cursor s)) text /\
  0 <= cursor s <= Z.of_nat (length text).
Proof. exact stream_delivery. Qed.
Print Assumptions C01_stream_delivers_text.

Theorem C01_observers_do_not_move : forall s,
  (forall i, snd (run1 (CLookup i) s) = s) /\ snd (run1 CPeek s) = s /\ snd (run1 CCursor s) = s /\
  rest (snd (run1 CPos s)) = rest s /\ cursor (snd (run1 CPos s)) = cursor s.
Proof. exact observers_do_not_move. Qed.
Print Assumptions C01_observers_do_not_move.

Theorem C01_peek_predicts_next : forall s, peek s = fst (next s).
Proof. exact peek_predicts. Qed.
Print Assumptions C01_peek_predicts_next.

Theorem C01_eof_is_final : forall s, rest s = [] -> next s = (EOFChar, s).
Proof. exact next_at_end. Qed.
Print Assumptions C01_eof_is_final.

Theorem C01_next_takes_one : forall s c l, rest s = c :: l ->
  fst (next s) = c /\ rest (snd (next s)) = l /\ cursor (snd (next s)) = cursor s + 1.
Proof. exact next_step. Qed.
Print Assumptions C01_next_takes_one.

Example C01_example :
  let cs := [CNext; CPeek; CMatch (rs "bx"); CPos; CSkip; CLookup 0; CNext; CCursor] in
  delivered cs (fst (run cs (newStream sample))) = rs "ab " ++ [10] ++ rs "c" /\
  cursor (snd (run cs (newStream sample))) = 5.
Proof. vm_compute. auto. Qed.

(* ---------------- C02 ---------------- *)

Theorem C02_skip_takes_whitespace : forall s, exists sp,
  fst (skipSpaces s) = sp /\ rest s = sp ++ rest (snd (skipSpaces s)) /\
  Forall whiteSpace sp /\
  (forall c l, rest (snd (skipSpaces s)) = c :: l -> ~ whiteSpace c) /\
  cursor (snd (skipSpaces s)) = cursor s + Z.of_nat (length sp).
Proof. exact skip_takes_whitespace. Qed.
Print Assumptions C02_skip_takes_whitespace.
(** The table of space.go is the Unicode property. *)
Theorem C02_white_space : forall c, isWS c = true <-> whiteSpace c.
Proof. exact isWS_unicode. Qed.
Print Assumptions C02_white_space.

(** Runes of the wrapper and of the stream under it are skipped in one go. *)
Example C02_example :
  fst (skipSpaces (prepend (snd (run [CNext; CNext] (newStream sample))) [9; 160])) = [9; 160; 32; 10].
Proof. reflexivity. Qed.

(* ---------------- C03 ---------------- *)

Theorem C03_match_is_prefix_test : forall w s, runesOk (rest s) -> exists got ok s',
  matchRunes s w = (got, ok, s') /\
  (ok = true <-> exists r, rest s = w ++ r) /\
  (ok = true -> got = w) /\
  (ok = false -> got = lcp w (rest s) ++ firstn 1 (skipn (length (lcp w (rest s))) (rest s))) /\
  rest s = got ++ rest s' /\ cursor s' = cursor s + Z.of_nat (length got).
Proof. exact match_exact. Qed.
Print Assumptions C03_match_is_prefix_test.

Example C03_example_ok : fst (matchRunes (newStream sample) (rs "ab")) = (rs "ab", true).
Proof. reflexivity. Qed.
Example C03_example_fail : fst (matchRunes (newStream sample) (rs "abc")) = (rs "ab ", false).
Proof. reflexivity. Qed.
Example C03_example_eof : fst (matchRunes (prepend (newStream []) (rs "ab")) (rs "abc")) = (rs "ab", false).
Proof. reflexivity. Qed.

(* ---------------- C04 ---------------- *)

Theorem C04_position_is_true : forall text cs, runesOk text ->
  let s := snd (run cs (newStream text)) in
  fst (positionOf s) =
  match rest s with [] => None | _ => Some (lineCol (firstn (Z.to_nat (cursor s)) text)) end.
Proof. exact position_true. Qed.
Print Assumptions C04_position_is_true.

Theorem C04_position_is_harmless : forall text cs ds, runesOk text -> Forall noLookup ds ->
  let s := snd (run cs (newStream text)) in
  fst (run ds (snd (run1 CPos s))) = fst (run ds s).
Proof. exact position_harmless. Qed.
Print Assumptions C04_position_is_harmless.

Example C04_example :
  fst (positionOf (snd (run [CNext; CPos; CSkip; CNext; CPos; CSkip; CNext] (newStream sample)))) = Some (2, 2).
Proof. reflexivity. Qed.

(* ---------------- C05 ---------------- *)

(** Full claim: every index below the cursor is mapped to its line and column. *)
Definition C05_claim : Prop := forall text cs idx, runesOk text ->
  let s := snd (run cs (newStream text)) in
  0 <= idx < cursor s -> positionLookup s idx = Some (lineCol (firstn (Z.to_nat idx) text)).

(** False: a rune inside the first line, once the line's newline was read. *)
Theorem C05_lookup_refuted : ~ C05_claim.
Proof.
  intros H. assert (R : runesOk (rs "abc" ++ [10] ++ rs "de")) by (repeat constructor; discriminate).
  specialize (H (rs "abc" ++ [10] ++ rs "de") [CNext; CNext; CNext; CNext] 1 R ltac:(vm_compute; split; congruence)).
  vm_compute in H. discriminate.
Qed.
Print Assumptions C05_lookup_refuted.

(** What is missing: the indexes described by [C05_lookup_wrong]. *)
Theorem C05_lookup_partial : forall text cs idx, runesOk text ->
  let s := snd (run cs (newStream text)) in
  0 <= idx < cursor s ->
  idx = 0 \/ In 10 (firstn (S (Z.to_nat idx)) text) \/ ~ In 10 (firstn (S (Z.to_nat (cursor s))) text) ->
  positionLookup s idx = Some (lineCol (firstn (Z.to_nat idx) text)).
Proof. exact lookup_right. Qed.
Print Assumptions C05_lookup_partial.

(** Every other answer below the cursor is wrong (with the newline read). *)
Theorem C05_lookup_wrong : forall text cs idx, runesOk text ->
  let s := snd (run cs (newStream text)) in
  0 < idx < cursor s -> ~ In 10 (firstn (S (Z.to_nat idx)) text) -> In 10 (firstn (Z.to_nat (cursor s)) text) ->
  lineCol (firstn (Z.to_nat idx) text) = (1, idx + 1) /\
  exists col, col < 0 /\ positionLookup s idx = Some (2, col).
Proof. exact lookup_wrong. Qed.
Print Assumptions C05_lookup_wrong.

Theorem C05_lookup_nil : forall text cs idx, runesOk text ->
  let s := snd (run cs (newStream text)) in
  idx < 0 \/ (idx <> 0 /\ cursor s <= idx) -> positionLookup s idx = None.
Proof. exact lookup_nil. Qed.
Print Assumptions C05_lookup_nil.

Example C05_example :
  positionLookup (snd (run [CMatch sample] (newStream sample))) 5 = Some (2, 2) /\
  positionLookup (snd (run [CMatch sample] (newStream sample))) 3 = Some (1, 4) /\
  positionLookup (snd (run [CMatch sample] (newStream sample))) 2 = Some (2, -1).
Proof. repeat split. Qed.

(* ---------------- C06 ---------------- *)

Theorem C06_prepend_rewinds : forall s cs w ds, runesOk (rest s) ->
  w = delivered cs (fst (run cs s)) -> Forall plain ds ->
  fst (run ds (prepend (snd (run cs s)) w)) = fst (run ds s) /\
  rest (prepend (snd (run cs s)) w) = rest s /\ cursor (prepend (snd (run cs s)) w) = cursor s.
Proof. exact prepend_rewinds. Qed.
Print Assumptions C06_prepend_rewinds.

Theorem C06_prepend_position : forall s cs w, runesOk (rest s) ->
  w = delivered cs (fst (run cs s)) -> w <> [] ->
  fst (positionOf (prepend (snd (run cs s)) w)) = positionLookup (snd (run cs s)) (cursor s).
Proof. exact prepend_position. Qed.
Print Assumptions C06_prepend_position.

(** Two nested wraps. *)
Example C06_example :
  let s1 := snd (run [CNext; CSkip; CMatch (rs "b")] (newStream sample)) in
  let s2 := prepend s1 (rs "ab") in
  let s3 := prepend (snd (run [CNext] s2)) (rs "a") in
  fst (run [CMatch sample; CCursor] s3) = [OMatch sample true; ONum 6].
Proof. reflexivity. Qed.
