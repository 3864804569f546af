(** C37, C38, C44-C48: reading and printing rule definitions. *)
From Verif Require Import Base Stream Node Rule Parse Print Grammar SpecStream SpecRule TermFacts WfDec SpecParse SpecPrint SpecGrammar GrammarFacts GrammarText
  NotationFacts PrintFacts ReadFacts.

Definition nm : list Z := [110].
Example nm_good : goodName nm. Proof. exists 110, []. split; [reflexivity|]. split; [lia|constructor]. Qed.
(** What a definition is read as. *)
Definition bodyOf (text : list Z) : rule := match parseText text with POk r _ _ => r | _ => REOF noBase end.

(* ---------------- C37 ---------------- *)

(** GFuel stands for a parser that goes on for ever. *)
Theorem C37_parseRule_verdict : forall g name str, runesOk str -> fst (parseRule g name str) <> inr GFuel.
Proof. exact parseRule_ends. Qed.
Print Assumptions C37_parseRule_verdict.
Theorem C37_addRule_verdict : forall g def, runesOk def -> fst (addRule g def) <> inr GFuel.
Proof. exact addRule_ends. Qed.
Print Assumptions C37_addRule_verdict.
Theorem C37_grammar_verdict : forall txt k, runesOk txt -> newGrammarFromString txt <> inr (k, GFuel).
Proof. exact fromString_ends. Qed.
Print Assumptions C37_grammar_verdict.

(** A definition cut off in the middle, with every bracket open. *)
Example C37_example : okRunes (rs "( [ { <'a' ( 'b' | ") = true /\ unreadable nm (rs "( [ { <'a' ( 'b' | ").
Proof. split; [reflexivity|]. eexists. vm_compute. reflexivity. Qed.

(* ---------------- C38 ---------------- *)

Theorem C38_parseRule_well_formed : forall g name str r g', runesOk str -> parseRule g name str = (inl r, g') -> wfRule r.
Proof. exact parseRule_wf. Qed.
Print Assumptions C38_parseRule_well_formed.
Theorem C38_addRule_well_formed : forall g def r g', runesOk def -> addRule g def = (inl r, g') -> wfRule r.
Proof. exact addRule_wf. Qed.
Print Assumptions C38_addRule_well_formed.
(** The text spells the rule, letter by letter; references are the names that
    stand in it. *)
Theorem C38_spelling : forall name text r, runesOk text -> readAs name text r ->
  exists body rest r0, trimmed text (body ++ rest) /\ Body body r0 /\ r = setName r0 name.
Proof. exact read_spelling. Qed.
Print Assumptions C38_spelling.

Example C38_example : exists r, readAs nm (rs "~<'(' ^')' x ['b'] !> | {y}<2,3> 'c'") r /\ refs r = [rs "x"; rs "y"].
Proof. eexists. split; [eexists; vm_compute; reflexivity|vm_compute; reflexivity]. Qed.

(* ---------------- C44 ---------------- *)

Definition rereads (r : rule) : Prop := readAs (b_name (base_of r)) (print r) r.

Theorem C44_round_trip_refuted : ~ forall name text r, runesOk text -> readAs name text r -> rereads r.
Proof.
  intros H. set (t := rs "{'a'}<2,2>").
  assert (R : exists r, readAs nm t r /\ print r = rs "{ 'a' }<2>") by (eexists; split; [eexists; vm_compute; reflexivity|vm_compute; reflexivity]).
  destruct R as (r & R & P). pose proof (H nm t r (okRunes_ok t eq_refl) R) as [g E]. rewrite P in E.
  destruct R as [g' R]. vm_compute in R. injection R as <- _. vm_compute in E. discriminate.
Qed.
Print Assumptions C44_round_trip_refuted.

(** What is lost or changed, by example: texts whose rule is printed as something
    that is not a definition, or is the definition of another rule. *)
Definition misprinted (text : list Z) (printed : list Z) : Prop :=
  exists r, readAs nm text r /\ print r = printed /\ (unreadable nm printed \/ exists r', readAs nm printed r' /\ r' <> r).
Ltac mis_read := eexists; split; [eexists; vm_compute; reflexivity|]; split; [vm_compute; reflexivity|]; right; eexists; split; [eexists; vm_compute; reflexivity|vm_compute; discriminate].
Ltac mis_fail := eexists; split; [eexists; vm_compute; reflexivity|]; split; [vm_compute; reflexivity|]; left; eexists; vm_compute; reflexivity.
(** equal bounds become a lower bound *)
Example C44_equal_bounds : misprinted (rs "{'a'}<2,2>") (rs "{ 'a' }<2>"). Proof. mis_read. Qed.
(** a double quote or a backslash in a string, a backslash in a group of chars *)
Example C44_string_quote : misprinted (rs """a\""b""") (rs """a""b"""). Proof. mis_fail. Qed.
Example C44_string_backslash : misprinted (rs """\\u0041""") (rs """\u0041"""). Proof. mis_read. Qed.
Example C44_chars_backslash : misprinted (rs "'\\n'") (rs "'\n'"). Proof. mis_read. Qed.
(** ranges that start with a backslash, end with a quote, or have annotations *)
Example C44_range_backslash : misprinted (rs "'\\'-'a'") (rs "'\'-'a'"). Proof. mis_fail. Qed.
Example C44_range_quote : misprinted (rs "' '-'''") (rs "' '-'\''"). Proof. mis_fail. Qed.
Example C44_range_annotation : misprinted (rs "~'a'-\u0062") (rs "~'a'-~\u0062"). Proof. mis_fail. Qed.
(** a choice with annotations becomes a group, a choice of choices becomes flat *)
Example C44_annotated_choice : misprinted (rs "'a' ~ > 'b'") (rs "~('a' > 'b')"). Proof. mis_read. Qed.
Example C44_nested_choice : misprinted (rs "'a' | 'b'" ++ [9] ++ rs "| 'c'") (rs "'a' | 'b' | 'c'"). Proof. mis_read. Qed.
(** a block whose opening is a concatenation *)
Example C44_block_open : misprinted (rs "<'a''b' 'c'>") (rs "<'a' 'b' 'c'>"). Proof. mis_read. Qed.

(** What is missing: rules with the features above ([plain], SpecPrint.v). *)
Theorem C44_round_trip_partial : forall name r, goodName name -> plain r -> rereads (setName r name).
Proof. exact print_rereads. Qed.
Print Assumptions C44_round_trip_partial.

(** A rule with everything that [plain] allows. *)
Definition c44Text := rs "~( 'a' | $""bc"" > x 'yz' ) #{ '\''-'z' }<2,5> [ $\u0041 | EOF ] <'(' '\\' ^x ')' !>".
Definition c44Rule : rule := Eval vm_compute in bodyOf c44Text.
Example C44_example_text : print c44Rule = rs "~( 'a' | $""bc"" > x 'yz' ) #{ '\''-'z' }<2,5> [ $\u0041 | EOF ] <'(' '\\' ^x ')' !>" /\ c44Rule = bodyOf c44Text.
Proof. split; vm_compute; reflexivity. Qed.
Example C44_example : plain c44Rule /\ rereads (setName c44Rule nm).
Proof.
  assert (P : plain c44Rule); [|split; [exact P|apply C44_round_trip_partial; [exact nm_good|exact P]]].
  assert (I : forall c, 97 <= c <= 122 -> ident [c]) by (intros c H; split; [discriminate|]; split; [discriminate|]; constructor; [lia|constructor]).
  apply (pl_seq [_; _; _; _]). apply its_cons; [|apply its_cons; [|apply its_cons; [|apply its_one]]].
  - apply it_atom, at_group; [reflexivity|]. apply (pl_seq [_; _]). apply its_cons; [|apply its_one].
    + apply (it_choice (RChar _ 97 false) (false, _) [(true, _)]); [|apply alt_cons; [|apply alt_cons; [|apply alt_nil]]].
      * apply at_char; [reflexivity|left; lia].
      * apply at_string; [reflexivity|]. repeat constructor; unfold encodable; lia.
      * apply at_ref; [reflexivity|right; left; lia|apply I; lia].
    + apply it_atom, at_chars; [reflexivity|cbn; lia|]. repeat constructor; unfold encodable; lia.
  - apply it_atom, at_rep; [reflexivity| |lia..]. apply (pl_seq [_]). apply its_one, it_atom, at_range; [reflexivity|split; [left; lia|lia]|split; [left; lia|lia]].
  - apply it_atom, at_option; [reflexivity|]. apply (pl_seq [_]). apply its_one.
    apply (it_choice (RChar _ 65 true) (false, _) []); [|apply alt_cons; [|apply alt_nil]]; [apply at_char; [reflexivity|unfold codePoint; lia]|apply at_eof; reflexivity].
  - apply it_atom, at_block_esc; [reflexivity|..].
    + apply at_char; [reflexivity|left; lia].
    + apply at_char; [reflexivity|left; lia].
    + apply at_char; [reflexivity|left; lia].
    + apply ats_cons; [|apply ats_nil]. apply at_ref; [reflexivity|right; left; lia|apply I; lia].
Qed.

(* ---------------- C45 ---------------- *)

(** A comment ends the definition even if more lines follow. *)
Theorem C45_read_to_the_end_refuted :
  ~ forall name text r, runesOk text -> readAs name text r -> exists m r0, trimmed text m /\ Body m r0 /\ r = setName r0 name.
Proof.
  intros H. set (t := rs "'a'//" ++ [10] ++ rs ")").
  assert (R : readAs nm t (setName (RChar noBase 97 false) nm)) by (eexists; vm_compute; reflexivity).
  destruct (H nm t _ (okRunes_ok t eq_refl) R) as (m & r0 & T & B & E). apply trimmed_trim in T. vm_compute in T. subst m.
  destruct r0; cbn in E; try discriminate. injection E as _ _ _ <- <-.
  apply (stray_paren _ _ _ (rs "'a'//" ++ [10])) in B as (pre & x & X & N). vm_compute in X.
  clear H. do 7 (destruct pre as [|? pre]; cbn [app] in X; [try discriminate; injection X as X; subst x; apply N; now left|injection X as _ X]). destruct pre; discriminate.
Qed.
Print Assumptions C45_read_to_the_end_refuted.
(** Annotations with nothing behind them are dropped: the last rune of the
    definition has no effect. *)
Theorem C45_no_rune_is_dropped_refuted :
  ~ forall name text c r, runesOk (text ++ [c]) -> ~ In c whiteSpaces -> ~ In 47 (text ++ [c]) -> readAs name (text ++ [c]) r -> ~ readAs name text r.
Proof.
  intros H. refine (H nm (rs "'a' ") 126 (setName (RChar noBase 97 false) nm) (okRunes_ok (rs "'a' " ++ [126]) eq_refl) _ _ _ _).
  - cbn. lia.
  - cbn. lia.
  - eexists. vm_compute. reflexivity.
  - eexists. vm_compute. reflexivity.
Qed.
Print Assumptions C45_no_rune_is_dropped_refuted.

(** What is missing: text behind the end of a comment's line (and annotations in
    front of nothing, which [Body] lets pass).  Otherwise every rune of the
    definition has its place in the spelling of the rule. *)
Theorem C45_read_to_the_end_partial : forall name text r, runesOk text -> readAs name text r ->
  exists m body rest r0, trimmed text m /\ m = body ++ rest /\ Body body r0 /\ r = setName r0 name /\
    (rest = [] \/ exists pre t, m = pre ++ 47 :: 47 :: t ++ 10 :: rest /\ ~ In 10 t).
Proof. exact read_most. Qed.
Print Assumptions C45_read_to_the_end_partial.
Theorem C45_one_line : forall name text r, runesOk text -> ~ In 10 text -> readAs name text r ->
  exists m r0, trimmed text m /\ Body m r0 /\ r = setName r0 name.
Proof. exact read_one_line. Qed.
Print Assumptions C45_one_line.
(** So every definition of a grammar text, which is split into lines, is read to
    its end. *)
Example C45_example : exists r, readAs nm (rs " 'a' | x // a comment ") r /\ okRunes (rs " 'a' | x // a comment ") = true /\ ~ In 10 (rs " 'a' | x // a comment ").
Proof. eexists. split; [eexists; vm_compute; reflexivity|]. split; [reflexivity|]. cbn. lia. Qed.

(* ---------------- C46 ---------------- *)

(** In a string a code point that UTF-8 cannot encode is replaced. *)
Theorem C46_string_escape_refuted :
  ~ forall name ds v, goodName name -> length ds = 4%nat -> denotes 16 ds v -> readAs name (34 :: 92 :: 117 :: ds ++ [34]) (setName (RString noBase [v]) name).
Proof.
  intros H. assert (D : denotes 16 (rs "D800") 55296).
  { change 55296 with (13 * 16 ^ Z.of_nat 3 + (8 * 16 ^ Z.of_nat 2 + (0 * 16 ^ Z.of_nat 1 + (0 * 16 ^ Z.of_nat 0 + 0)))).
    apply (den_cons 16 68 13 [56; 48; 48]); [split; [lia|right; right; lia]|]. apply (den_cons 16 56 8 [48; 48]); [split; [lia|left; lia]|].
    apply (den_cons 16 48 0 [48]); [split; [lia|left; lia]|]. apply (den_cons 16 48 0 []); [split; [lia|left; lia]|]. constructor. }
  destruct (H nm (rs "D800") _ nm_good eq_refl D) as [g E]. vm_compute in E. discriminate.
Qed.
Print Assumptions C46_string_escape_refuted.

(** What is missing: code points D800-DFFF in strings.  By itself: *)
Theorem C46_escape_partial : forall name ds v, goodName name -> length ds = 4%nat -> denotes 16 ds v ->
  readAs name (92 :: 117 :: ds) (setName (RChar noBase v true) name).
Proof. exact escape_read. Qed.
Print Assumptions C46_escape_partial.
(** between single quotes, alone or among other runes: *)
Theorem C46_char_escape_partial : forall name t c u, goodName name -> runesOk t -> inside 39 t [c] u ->
  readAs name (39 :: t ++ [39]) (setName (RChar noBase c u) name).
Proof. exact char_read. Qed.
Print Assumptions C46_char_escape_partial.
Theorem C46_chars_escape_partial : forall name t v u, goodName name -> runesOk t -> inside 39 t v u -> (2 <= length v)%nat ->
  readAs name (39 :: t ++ [39]) (setName (RChars noBase v) name).
Proof. exact chars_read. Qed.
Print Assumptions C46_chars_escape_partial.
(** in a string: *)
Theorem C46_string_escape_partial : forall name t v u, goodName name -> runesOk t -> inside 34 t v u ->
  readAs name (34 :: t ++ [34]) (setName (RString noBase (List.map goRune v)) name).
Proof. exact string_read. Qed.
Print Assumptions C46_string_escape_partial.
(** [denotes] gives a value to every four hexadecimal digits, and only one. *)
Theorem C46_value : forall ds, length ds = 4%nat ->
  (exists v, denotes 16 ds v) <-> Forall (fun c => 48 <= c <= 57 \/ 65 <= c <= 70 \/ 97 <= c <= 102) ds.
Proof. exact hex_value. Qed.
Print Assumptions C46_value.
Theorem C46_one_value : forall ds v w, denotes 16 ds v -> denotes 16 ds w -> v = w.
Proof. exact (denotes_fun 16). Qed.
Print Assumptions C46_one_value.
(** Anything else is rejected, by itself and in literals. *)
Theorem C46_rejected : forall name l, goodName name -> runesOk l -> (forall ds v rest, l = ds ++ rest -> length ds = 4%nat -> ~ denotes 16 ds v) ->
  unreadable name (92 :: 117 :: l).
Proof. exact unicode_reject. Qed.
Print Assumptions C46_rejected.
Theorem C46_rejected_in_literal : forall name q t v u l, goodName name -> q = 39 \/ q = 34 -> runesOk t -> runesOk l -> inside q t v u ->
  (forall ds v rest, l = ds ++ rest -> length ds = 4%nat -> ~ denotes 16 ds v) -> unreadable name (q :: t ++ 92 :: 117 :: l).
Proof. exact literal_reject. Qed.
Print Assumptions C46_rejected_in_literal.

Example C46_example : (exists r, readAs nm (rs "'x\u00eF\''") r /\ r = RChars (mkBase nm false false false) [120; 239; 39]) /\ unreadable nm (rs """x\u00eg""") /\
  Forall (fun c => 48 <= c <= 57 \/ 65 <= c <= 70 \/ 97 <= c <= 102) (rs "00eF").
Proof. split; [eexists; split; [eexists; vm_compute; reflexivity|reflexivity]|]. split; [eexists; vm_compute; reflexivity|]. repeat constructor; cbn; lia. Qed.

(* ---------------- C47 ---------------- *)

(** [repeated x s] is "{ x }" followed by [s]. *)
Theorem C47_bounds : forall name x s mn mx, goodName name -> plain x -> bounds s mn mx ->
  readAs name (repeated x s) (setName (RRep noBase x mn mx) name).
Proof. exact bounds_read. Qed.
Print Assumptions C47_bounds.
Theorem C47_one_meaning : forall s mn mx mn' mx', bounds s mn mx -> bounds s mn' mx' -> mn = mn' /\ mx = mx'.
Proof. exact bounds_fun. Qed.
Print Assumptions C47_one_meaning.
Theorem C47_too_large : forall name x w t n st l, goodName name -> plain x -> white w -> runesOk l -> number t n -> 2 ^ 32 <= n -> st = 62 \/ st = 44 ->
  unreadable name (repeated x (60 :: w ++ t ++ st :: l)).
Proof. exact large_reject. Qed.
Print Assumptions C47_too_large.
Theorem C47_wrong_order : forall name x w t n t' m l, goodName name -> plain x -> white w -> runesOk l -> number t n -> number t' m ->
  2 ^ 32 <= m \/ (m <> 0 /\ m < n) -> unreadable name (repeated x (60 :: w ++ t ++ 44 :: t' ++ 62 :: l)).
Proof. exact order_reject. Qed.
Print Assumptions C47_wrong_order.
(** Nothing else may follow '<'. *)
Theorem C47_nothing_else : forall name x t, goodName name -> plain x -> runesOk t ->
  (forall s1 s2 mn mx, 60 :: t = s1 ++ s2 -> s1 <> [] -> ~ bounds s1 mn mx) -> unreadable name (repeated x (60 :: t)).
Proof. exact bounds_reject. Qed.
Print Assumptions C47_nothing_else.
(** Every repetition in an accepted definition, nested or not, has the counts
    that are written behind it: [p_rep] in the spelling of C38 and C45. *)
Example C47_example : bounds (rs "< 1 0 , 25>") 10 25 /\ bounds (rs "<3,>") 3 0 /\
  readAs nm (rs "{ 'a' }< 1 0 , 25>") (RRep (mkBase nm false false false) (RChar noBase 97 false) 10 25) /\
  unreadable nm (rs "{ 'a' }<3,2>") /\ unreadable nm (rs "{ 'a' }<4294967296>") /\ unreadable nm (rs "{ 'a' }<1;2>").
Proof.
  assert (D : forall c, 48 <= c <= 57 -> digitOf 10 c (c - 48)) by (intros c H; split; [lia|left; lia]).
  split; [|split; [|split; [eexists; vm_compute; reflexivity|split; [eexists; vm_compute; reflexivity|split; eexists; vm_compute; reflexivity]]]].
  - apply (bd_both [32] [49; 32; 48; 32] 10 [32; 50; 53] 25); [constructor; [cbn; auto 10|constructor]| | |lia..].
    + exists [49; 48]. split; [apply sp_digit; [lia|]; apply sp_blank; [now left|]; apply sp_digit; [lia|]; apply sp_blank; [now left|constructor]|].
      apply (den_cons 10 49 1 [48] 0); [apply (D 49); lia|]. apply (den_cons 10 48 0 [] 0); [apply (D 48); lia|constructor].
    + exists [50; 53]. split; [apply sp_blank; [now left|]; apply sp_digit; [lia|]; apply sp_digit; [lia|constructor]|].
      apply (den_cons 10 50 2 [53] 5); [apply (D 50); lia|]. apply (den_cons 10 53 5 [] 0); [apply (D 53); lia|constructor].
  - apply (bd_both [] [51] 3 [] 0); [constructor| | |lia..].
    + exists [51]. split; [apply sp_digit; [lia|constructor]|]. apply (den_cons 10 51 3 [] 0); [apply (D 51); lia|constructor].
    + exists []. split; constructor.
Qed.

(* ---------------- C48 ---------------- *)

Theorem C48_nonempty_refuted :
  ~ forall name text b lo lu hi hu, runesOk text -> readAs name text (RRange b lo lu hi hu) -> lo <= hi.
Proof.
  intros H. assert (R : readAs nm (rs "'Z'-'A'") (RRange (mkBase nm false false false) 90 false 65 false)) by (eexists; vm_compute; reflexivity).
  apply (H nm (rs "'Z'-'A'") _ _ _ _ _ (okRunes_ok (rs "'Z'-'A'") eq_refl)) in R. lia.
Qed.
Print Assumptions C48_nonempty_refuted.
(** What holds: the ends are those that are written. *)
Theorem C48_ends_partial : forall name t lo lu t' hi hu, goodName name -> runesOk t -> runesOk t' -> low t lo lu -> high t' hi hu ->
  readAs name (t ++ 45 :: t') (setName (RRange noBase lo lu hi hu) name).
Proof. exact range_read. Qed.
Print Assumptions C48_ends_partial.
Example C48_example : low (rs "'a'") 97 false /\ high (rs "'z'") 122 false /\ readAs nm (rs "'a'-'z'") (RRange (mkBase nm false false false) 97 false 122 false).
Proof.
  split; [apply (low_quoted [97]); apply in_plain; [lia|lia|constructor]|]. split; [apply high_plain; lia|]. eexists. vm_compute. reflexivity.
Qed.
