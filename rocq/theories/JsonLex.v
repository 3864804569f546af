(** The tokens of the JSON grammar shipped with the repository (main/samples/json):
    what the textbook semantics says about digits, numbers and strings. *)
From Verif Require Import Base Stream StreamFacts CallFacts Node Rule Grammar SpecStream SpecRule TermFacts TermSpec SpecEval SpecEv EvDet SpecLL LLFacts LangFacts RepoTests RepoSamples.

(** json.xbnf:1-12, parsed. *)
Definition gJ : rules_t := Eval vm_compute in rules_of gJson.
Definition nb : rbase := noBase.
Definition named (n : list Z) : rbase := mkBase n false false false.
(** of a rule marked with # *)
Definition mark : rbase := mkBase [] false true false.
Definition ref (n : list Z) : rule := RRef nb n.

Definition nDigit := Eval vm_compute in rs "digit".
Definition nInteger := Eval vm_compute in rs "integer".
Definition nFloat := Eval vm_compute in rs "float".
Definition nNumber := Eval vm_compute in rs "number".
Definition nString := Eval vm_compute in rs "string".
Definition nBool := Eval vm_compute in rs "bool".
Definition nLiteral := Eval vm_compute in rs "literal".
Definition nArray := Eval vm_compute in rs "array".
Definition nKv := Eval vm_compute in rs "kv".
Definition nObject := Eval vm_compute in rs "object".
Definition nValue := Eval vm_compute in rs "value".
Definition nJson := Eval vm_compute in rs "json".
Definition wTrue := Eval vm_compute in rs "true".
Definition wFalse := Eval vm_compute in rs "false".
Definition wNull := Eval vm_compute in rs "null".

Definition tenDigits : list Z := [48; 49; 50; 51; 52; 53; 54; 55; 56; 57].
Definition jDigit : rule := RChoice (named nDigit) [List.map (fun c => RChar nb c false) tenDigits].
Definition jDigits : rule := RRep nb (ref nDigit) 0 0.
Definition jInteger : rule := RConcat (named nInteger) [ref nDigit; jDigits].
Definition jFloat : rule := RConcat (named nFloat) [ref nInteger; RChar nb 46 false; ref nDigit; jDigits].
Definition jEither : rule := RChoice nb [[ref nInteger; ref nFloat]].
Definition jMinus : rule := ROption nb (RChar nb 45 false).
Definition jNumber : rule := RConcat (named nNumber) [RString nb []; jMinus; jEither].
Definition jQuote : rule := RChar mark 34 false.
Definition jString : rule := RBlock (named nString) jQuote false jQuote (Some (RChar nb 92 false)) [RChar nb 10 true].
Definition jBool : rule := RChoice (named nBool) [[RString nb wTrue; RString nb wFalse]].
Definition jLiteral : rule := RChoice (named nLiteral) [[ref nNumber; ref nString; ref nBool; RString nb wNull]].
Definition sep (c : Z) : rule := RString mark [c].
(** x { "," x } *)
Definition jMore (n : list Z) : rule := RRep nb (RConcat nb [sep 44; ref n]) 0 0.
Definition jItems (n : list Z) : rule := ROption nb (RConcat nb [ref n; jMore n]).
Definition jArray : rule := RConcat (named nArray) [sep 91; jItems nValue; sep 93].
Definition jKv : rule := RConcat (named nKv) [ref nString; sep 58; ref nValue].
Definition jObject : rule := RConcat (named nObject) [sep 123; jItems nKv; sep 125].
Definition jValue : rule := RChoice (named nValue) [[ref nLiteral; ref nArray; ref nObject]].
Definition jJson : rule := RRef (named nJson) nValue.

Lemma gJ_is : rules_of gJson = gJ. Proof. reflexivity. Qed.
Lemma look_digit : lookup gJ nDigit = Some jDigit. Proof. reflexivity. Qed.
Lemma look_integer : lookup gJ nInteger = Some jInteger. Proof. reflexivity. Qed.
Lemma look_float : lookup gJ nFloat = Some jFloat. Proof. reflexivity. Qed.
Lemma look_number : lookup gJ nNumber = Some jNumber. Proof. reflexivity. Qed.
Lemma look_string : lookup gJ nString = Some jString. Proof. reflexivity. Qed.
Lemma look_bool : lookup gJ nBool = Some jBool. Proof. reflexivity. Qed.
Lemma look_literal : lookup gJ nLiteral = Some jLiteral. Proof. reflexivity. Qed.
Lemma look_array : lookup gJ nArray = Some jArray. Proof. reflexivity. Qed.
Lemma look_kv : lookup gJ nKv = Some jKv. Proof. reflexivity. Qed.
Lemma look_object : lookup gJ nObject = Some jObject. Proof. reflexivity. Qed.
Lemma look_value : lookup gJ nValue = Some jValue. Proof. reflexivity. Qed.
Lemma look_json : lookup gJ nJson = Some jJson. Proof. reflexivity. Qed.
Lemma gJ_all : gJ = [(nDigit, jDigit); (nInteger, jInteger); (nFloat, jFloat); (nNumber, jNumber); (nString, jString); (nBool, jBool);
  (nLiteral, jLiteral); (nArray, jArray); (nKv, jKv); (nObject, jObject); (nValue, jValue); (nJson, jJson)].
Proof. reflexivity. Qed.
Lemma roots_json : rootsOf gJson = [(nJson, jJson)]. Proof. reflexivity. Qed.
Global Opaque gJ.

(* ---------------- moving outcomes ---------------- *)

Definition shift (s : nat) (x : ores) : ores :=
  match x with OMatch n u k st => OMatch n (s + u) (s + k) st | OFail k st => OFail (s + k) st end.
Lemma shift_0 x : shift 0 x = x. Proof. now destruct x. Qed.
Lemma shift_shift a b x : shift a (shift b x) = shift (a + b) x. Proof. destruct x; cbn; f_equal; lia. Qed.
Lemma ev_eq' g r f t a b : Ev g r f t a -> a = b -> Ev g r f t b. Proof. now intros H <-. Qed.

Lemma evseq_eq g b l f t p m st kids x y : EvSeq g b l f t p m st kids x -> x = y -> EvSeq g b l f t p m st kids y.
Proof. now intros H <-. Qed.

(** How many runes of white space a single rune skips. *)
Definition sp (f : Z) (t : list Z) : nat := if f =? SUGGEST_SKIP then lead t else 0%nat.
Lemma sp_skip t : sp SUGGEST_SKIP t = lead t. Proof. reflexivity. Qed.
Lemma sp_not t : sp SUGGEST_NOT_SKIP t = 0%nat. Proof. reflexivity. Qed.
Lemma sp_never t : sp NOT_SKIP t = 0%nat. Proof. reflexivity. Qed.
Lemma sp_nil f : sp f [] = 0%nat. Proof. unfold sp. now destruct (f =? SUGGEST_SKIP). Qed.
Lemma sp_lead f t : (sp f t <= lead t)%nat. Proof. unfold sp. destruct (f =? SUGGEST_SKIP); lia. Qed.
Lemma lead_dark t : lead (skipn (lead t) t) = 0%nat.
Proof.
  unfold lead. pose proof (ws_prefix_stop t) as H. destruct (skipn (length (ws_prefix t)) t) as [|c l]; [reflexivity|]. cbn [ws_prefix]. now rewrite H.
Qed.

(** A single rune. *)
Definition charNode (b : rbase) (c : Z) : node := build TChar b [c] [] None true.
Definition chOut (b : rbase) (c : Z) (l : list Z) : ores :=
  if headIs c l then OMatch (charNode b c) 1 1 true else OFail 0 true.
Lemma char_ev g b c u f t : isWS c = false -> Ev g (RChar b c u) f t (shift (sp f t) (chOut b c (skipn (sp f t) t))).
Proof.
  intros W. eapply ev_eq'; [apply ev_char|]. unfold tchar, chOut. destruct t as [|x t]; [rewrite sp_nil; reflexivity|].
  set (t' := x :: t) in *. unfold sp. destruct (f =? SUGGEST_SKIP).
  - rewrite W. cbn [andb]. cbv zeta. unfold lead. destruct (headIs c (skipn (length (ws_prefix t')) t')); cbn [tfail ofTerm shift].
    + rewrite app_length. cbn [length]. unfold charNode. f_equal; lia.
    + f_equal; lia.
  - cbn [skipn]. destruct (headIs c t'); cbn [tfail ofTerm shift length]; unfold charNode; f_equal.
Qed.

(** A word, white space being skipped. *)
Definition wordNode (b : rbase) (w : list Z) : node := build TString b w [] None false.
Definition wOut (b : rbase) (w l : list Z) : ores :=
  if snd (litmatch w l) then OMatch (wordNode b w) (length w) (length w) false else OFail (length (fst (litmatch w l))) false.
Lemma litmatch_all w : forall l, snd (litmatch w l) = true -> fst (litmatch w l) = w.
Proof.
  induction w as [|x w IH]; intros [|y l]; cbn; try easy. destruct (Z.eqb_spec y x) as [->|]; [|discriminate].
  specialize (IH l). destruct (litmatch w l) as [r ok]. cbn in *. intros H. f_equal. now apply IH.
Qed.
Lemma word_ev g b c w t : isWS c = false ->
  Ev g (RString b (c :: w)) SUGGEST_SKIP t (shift (lead t) (wOut b (c :: w) (skipn (lead t) t))).
Proof.
  intros W. eapply ev_eq'; [apply ev_string|]. unfold tlit, wOut. destruct t as [|x t]; [reflexivity|]. set (t' := x :: t) in *.
  change (skips SUGGEST_SKIP true) with true. cbv zeta iota. change (ws_prefix (c :: w)) with (if isWS c then c :: ws_prefix w else []). rewrite W.
  cbn [length Nat.ltb Nat.leb]. rewrite tail_is_nil. cbn [negb]. change (skipn 0 (c :: w)) with (c :: w). fold (lead t').
  destruct (snd (litmatch (c :: w) (skipn (lead t') t'))) eqn:E; cbn [tfail ofTerm shift].
  - rewrite (litmatch_all _ _ E), app_length. unfold wordNode, lead. f_equal; cbn [length]; lia.
  - rewrite app_length. reflexivity.
Qed.

(* ---------------- digits ---------------- *)

Definition isDigit (c : Z) : bool := (48 <=? c) && (c <=? 57).
Definition digitNode (d : Z) : node := tree TChoice (named nDigit) [charNode nb d] true.
Definition dOut (l : list Z) : ores :=
  match l with d :: _ => if isDigit d then OMatch (digitNode d) 1 1 true else OFail 0 true | [] => OFail 0 true end.

Lemma digit_cases d : isDigit d = true -> In d tenDigits.
Proof. unfold isDigit, tenDigits. rewrite andb_true_iff. intros [A B]. cbn. lia. Qed.
Lemma digit_dark d : isDigit d = true -> isWS d = false.
Proof. intros H. apply digit_cases in H. cbn in H. repeat (destruct H as [<-|H]; [reflexivity|]). destruct H. Qed.

Lemma alts_miss g b f t : forall cs m, (forall c, In c cs -> isWS c = false /\ headIs c (skipn (sp f t) t) = false) -> (sp f t <= m)%nat ->
  EvAlts g (List.map (fun c => RChar b c false) cs) f t m true [] m true.
Proof.
  induction cs as [|c cs IH]; intros m H LE; [apply ea_nil|]. destruct (H c (or_introl eq_refl)) as [W E]. cbn [List.map].
  eapply ea_fail; [eapply ev_eq'; [now apply char_ev|]; unfold chOut; rewrite E; reflexivity|].
  cbn [shift andb]. replace (Nat.max m (sp f t + 0)) with m by lia. apply IH; [|exact LE]. intros x X. apply H. now right.
Qed.
Lemma digit_ev f t : Ev gJ (ref nDigit) f t (shift (sp f t) (dOut (skipn (sp f t) t))).
Proof.
  assert (M : dOut (skipn (sp f t) t) = OFail 0 true -> (forall d, In d tenDigits -> headIs d (skipn (sp f t) t) = false) ->
    Ev gJ (ref nDigit) f t (shift (sp f t) (dOut (skipn (sp f t) t)))).
  { intros -> H. cbn [shift]. eapply ev_ref_fail; [exact look_digit|]. unfold jDigit. apply ev_choice. eapply ec_next; [|apply ec_none].
    unfold tenDigits in *. cbn [List.map]. eapply ea_fail.
    { eapply ev_eq'; [now apply char_ev|]. unfold chOut. rewrite H; [reflexivity|now left]. }
    cbn [shift andb]. replace (Nat.max 0 (sp f t + 0)) with (sp f t + 0)%nat by lia.
    apply (alts_miss gJ nb f t [49; 50; 51; 52; 53; 54; 55; 56; 57]); [|lia].
    intros c C. split; [|apply H; now right]. apply digit_dark. cbn in C. repeat (destruct C as [<-|C]; [reflexivity|]). destruct C. }
  destruct (skipn (sp f t) t) as [|d l] eqn:E.
  { apply M; [reflexivity|]. intros d _. reflexivity. }
  destruct (isDigit d) eqn:D.
  2:{ apply M; [cbn; now rewrite D|]. intros c C. cbn. apply Z.eqb_neq. intros ->. cbn in C. repeat (destruct C as [<-|C]; [discriminate|]). destruct C. }
  clear M. cbn [dOut]. rewrite D. cbn [shift]. apply (ev_ref gJ nb nDigit jDigit f t (digitNode d)); [exact look_digit|]. unfold jDigit. apply ev_choice.
  destruct (in_split _ _ (digit_cases d D)) as (A & B & AB).
  assert (ND : NoDup (A ++ d :: B)).
  { rewrite <- AB. unfold tenDigits. repeat (apply NoDup_cons; [cbn; lia|]). apply NoDup_nil. }
  assert (WS : forall c, In c (A ++ d :: B) -> isWS c = false).
  { rewrite <- AB. intros c C. cbn in C. repeat (destruct C as [<-|C]; [reflexivity|]). destruct C. }
  rewrite AB, map_app. cbn [List.map]. apply NoDup_remove_2 in ND.
  assert (NA : forall c, In c (A ++ B) -> isWS c = false /\ headIs c (skipn (sp f t) t) = false).
  { intros c C. split; [apply WS; apply in_app_iff in C; apply in_or_app; destruct C; [now left|right; now right]|]. rewrite E. cbn. apply Z.eqb_neq. now intros ->. }
  assert (X : forall m, (m <= S (sp f t))%nat -> EvAlts gJ (List.map (fun c => RChar nb c false) A ++ RChar nb d false :: List.map (fun c => RChar nb c false) B) f t m true
    [(charNode nb d, sp f t + 1)%nat] (S (sp f t)) true).
  { assert (NB : forall c, In c B -> isWS c = false /\ headIs c (skipn (sp f t) t) = false) by (intros c C; apply NA, in_or_app; now right).
    assert (NA' : forall c, In c A -> isWS c = false /\ headIs c (skipn (sp f t) t) = false) by (intros c C; apply NA, in_or_app; now left).
    clear AB WS ND NA. induction A as [|a A IH]; intros m LE; cbn [List.map app].
    - eapply ea_match; [eapply ev_eq'; [apply char_ev; now apply digit_dark|]; rewrite E; unfold chOut; cbn [headIs]; rewrite Z.eqb_refl; cbn [shift]; reflexivity|].
      cbn [andb]. replace (Nat.max m (sp f t + 1)) with (S (sp f t)) by lia. apply alts_miss; [exact NB|lia].
    - destruct (NA' a (or_introl eq_refl)) as [W H]. eapply ea_fail; [eapply ev_eq'; [now apply char_ev|]; unfold chOut; rewrite H; reflexivity|].
      cbn [shift andb]. apply IH; [intros c C; apply NA'; now right|lia]. }
  specialize (X 0%nat ltac:(lia)). pose proof (ec_pick gJ (named nDigit) _ [] f t 0 true _ _ _ (charNode nb d) (sp f t + 1)%nat X) as P.
  replace (S (sp f t)) with (sp f t + 1)%nat in P by lia. apply P. exists [], []. split; [reflexivity|constructor].
Qed.

Fixpoint run (l : list Z) : list Z := match l with c :: l' => if isDigit c then c :: run l' else [] | [] => [] end.
Lemma run_split l : l = run l ++ skipn (length (run l)) l.
Proof. induction l as [|c l IH]; [reflexivity|]. cbn [run]. destruct (isDigit c); [|reflexivity]. cbn [app length skipn]. now f_equal. Qed.
Lemma run_stop l : match skipn (length (run l)) l with d :: _ => isDigit d = false | [] => True end.
Proof. induction l as [|c l IH]; [exact I|]. cbn [run]. destruct (isDigit c) eqn:E; [exact IH|exact E]. Qed.
Lemma run_digits l : Forall (fun c => isDigit c = true) (run l).
Proof. induction l as [|c l IH]; [constructor|]. cbn [run]. destruct (isDigit c) eqn:E; [now constructor|constructor]. Qed.
Lemma run_app ds l : Forall (fun c => isDigit c = true) ds -> match l with d :: _ => isDigit d = false | [] => True end -> run (ds ++ l) = ds.
Proof.
  induction 1 as [|d ds D _ IH]; intros H; cbn [app run].
  - destruct l as [|c l]; [reflexivity|]. cbn. now rewrite H.
  - rewrite D. now rewrite IH.
Qed.
Lemma run_len l : (length (run l) <= length l)%nat.
Proof. rewrite (run_split l) at 2. rewrite app_length. lia. Qed.

Definition digitsNode (ds : list Z) : node := tree TRepetition nb (List.map digitNode ds) true.
Lemma digits_rep t : forall n p m kids, length (run (skipn p t)) = n -> (p <= m)%nat ->
  EvRep gJ nb (ref nDigit) 0 0 SUGGEST_NOT_SKIP t p m true kids
    (OMatch (tree TRepetition nb (kids ++ List.map digitNode (run (skipn p t))) true) (p + n) (Nat.max m (p + n)) true).
Proof.
  induction n as [|n IH]; intros p m kids L LE.
  - apply length_zero_iff_nil in L. rewrite L. cbn [List.map]. rewrite app_nil_r, Nat.add_0_r. replace (Nat.max m p) with m by lia.
    destruct (skipn p t) as [|c l] eqn:E.
    + apply er_end; [exact E|]. apply ee_ok. lia.
    + eapply er_stop; [rewrite E; discriminate| |].
      * eapply ev_eq'; [apply digit_ev|]. rewrite sp_not, shift_0. cbn [skipn]. rewrite E. cbn [dOut]. cbn [run] in L.
        destruct (isDigit c); [discriminate|reflexivity].
      * cbn [andb]. replace (Nat.max m (p + 0)) with m by lia. apply ee_ok. lia.
  - destruct (skipn p t) as [|c l] eqn:E; [discriminate|]. cbn [run] in *. destruct (isDigit c) eqn:D; [|discriminate]. cbn [length] in L. injection L as L.
    assert (E' : skipn (p + 1) t = l) by (rewrite <- skipn_plus, E; reflexivity).
    eapply (er_step gJ nb (ref nDigit) 0 0 SUGGEST_NOT_SKIP t p m true kids (digitNode c) 1 1 true).
    + rewrite E. discriminate.
    + eapply ev_eq'; [apply digit_ev|]. rewrite sp_not, shift_0. cbn [skipn]. rewrite E. cbn [dOut]. now rewrite D.
    + lia.
    + specialize (IH (p + 1)%nat (Nat.max m (p + 1)) (kids ++ [digitNode c])). rewrite E' in IH. specialize (IH L ltac:(lia)).
      rewrite <- app_assoc in IH. cbn [andb app] in IH |- *. cbn [List.map].
      replace (p + S n)%nat with (p + 1 + n)%nat by lia. replace (Nat.max m (p + 1 + n)) with (Nat.max (Nat.max m (p + 1)) (p + 1 + n)) by lia. exact IH.
Qed.
Lemma digits_ev t : Ev gJ jDigits SUGGEST_NOT_SKIP t (OMatch (digitsNode (run t)) (length (run t)) (length (run t)) true).
Proof. apply ev_rep. exact (digits_rep t (length (run t)) 0 0 [] eq_refl ltac:(lia)). Qed.

(* ---------------- numbers ---------------- *)

Definition intNode (ds : list Z) : node :=
  match ds with d :: ds' => tree TConcat (named nInteger) [digitNode d; digitsNode ds'] true | [] => digitNode 0 end.
Definition iOut (l : list Z) : ores :=
  match run l with [] => OFail 0 true | ds => OMatch (intNode ds) (length ds) (length ds) true end.
Lemma integer_ev f t : Ev gJ (ref nInteger) f t (shift (sp f t) (iOut (skipn (sp f t) t))).
Proof.
  pose proof (digit_ev f t) as D. unfold iOut. destruct (skipn (sp f t) t) as [|d l] eqn:E.
  - cbn [run shift dOut] in *. eapply ev_ref_fail; [exact look_integer|]. apply ev_concat.
    pose proof (es_fail gJ (named nInteger) (ref nDigit) [jDigits] f t 0 0 true [] _ _ D) as X. exact X.
  - cbn [run dOut] in *. destruct (isDigit d) eqn:I; cbn [shift] in *.
    + apply (ev_ref gJ nb nInteger jInteger f t (intNode (d :: run l))); [exact look_integer|]. apply ev_concat.
      eapply (es_step gJ (named nInteger) (ref nDigit) [jDigits] f t 0 0 true [] (digitNode d)); [exact D|].
      change (nextMode f (digitNode d) true) with SUGGEST_NOT_SKIP. cbn [andb app].
      pose proof (digits_ev (skipn (sp f t + 1) t)) as R. rewrite <- skipn_plus, E in R. change (skipn 1 (d :: l)) with l in R.
      eapply es_step.
      { rewrite Nat.add_0_l, <- skipn_plus, E. change (skipn 1 (d :: l)) with l. exact R. }
      cbn [andb app]. eapply evseq_eq; [apply es_done|]. cbn [length intNode]. f_equal; lia.
    + eapply ev_ref_fail; [exact look_integer|]. apply ev_concat. exact (es_fail gJ (named nInteger) (ref nDigit) [jDigits] f t 0 0 true [] _ _ D).
Qed.

Definition floatNode (ds es : list Z) : node :=
  match es with e :: es' => tree TConcat (named nFloat) [intNode ds; charNode nb 46; digitNode e; digitsNode es'] true | [] => digitNode 0 end.
(** the part behind the dot *)
Definition frac (l : list Z) : option (list Z) := match l with c :: l' => if c =? 46 then Some (run l') else None | [] => None end.
Definition fOut (l : list Z) : ores :=
  match run l with
  | [] => OFail 0 true
  | ds => match frac (skipn (length ds) l) with
          | None => OFail (length ds) true
          | Some [] => OFail (S (length ds)) true
          | Some es => OMatch (floatNode ds es) (S (length ds) + length es) (S (length ds) + length es) true
          end
  end.
Lemma float_ev f t : Ev gJ (ref nFloat) f t (shift (sp f t) (fOut (skipn (sp f t) t))).
Proof.
  pose proof (integer_ev f t) as D. unfold fOut, iOut in *. set (l := skipn (sp f t) t) in *.
  assert (K : forall k st, EvSeq gJ (named nFloat) [ref nInteger; RChar nb 46 false; ref nDigit; jDigits] f t 0 0 true [] (OFail k st) ->
    Ev gJ (ref nFloat) f t (OFail k st)) by (intros k st X; eapply ev_ref_fail; [exact look_float|apply ev_concat; exact X]).
  destruct (run l) as [|d ds] eqn:R.
  { apply K. exact (es_fail gJ (named nFloat) (ref nInteger) _ f t 0 0 true [] _ _ D). }
  set (I := d :: ds) in *. cbn [shift] in D.
  assert (S1 : forall x, EvSeq gJ (named nFloat) [RChar nb 46 false; ref nDigit; jDigits] SUGGEST_NOT_SKIP t (sp f t + length I) (sp f t + length I) true [intNode I] x ->
    EvSeq gJ (named nFloat) [ref nInteger; RChar nb 46 false; ref nDigit; jDigits] f t 0 0 true [] x).
  { intros x X. eapply es_step; [exact D|]. change (nextMode f (intNode I) true) with SUGGEST_NOT_SKIP. exact X. }
  assert (P1 : skipn (sp f t + length I) t = skipn (length I) l) by (unfold l; now rewrite skipn_plus).
  pose proof (char_ev gJ nb 46 false SUGGEST_NOT_SKIP (skipn (sp f t + length I) t) eq_refl) as C. rewrite sp_not, shift_0, P1 in C. cbn [skipn] in C.
  unfold chOut in C. unfold frac. destruct (skipn (length I) l) as [|c l'] eqn:L'.
  { cbn [shift]. cbn [headIs] in C. apply K, S1. eapply evseq_eq; [eapply es_fail; rewrite P1; exact C|]. cbn [andb]. f_equal; lia. }
  cbn [headIs] in C. destruct (c =? 46) eqn:DOT.
  2:{ cbn [shift]. apply K, S1. eapply evseq_eq; [eapply es_fail; rewrite P1; exact C|]. cbn [andb]. f_equal; lia. }
  assert (P2 : skipn (sp f t + length I + 1) t = l') by (rewrite <- skipn_plus, P1; reflexivity).
  assert (S2 : forall x, EvSeq gJ (named nFloat) [ref nDigit; jDigits] SUGGEST_NOT_SKIP t (sp f t + length I + 1) (sp f t + length I + 1) true [intNode I; charNode nb 46] x ->
    EvSeq gJ (named nFloat) [RChar nb 46 false; ref nDigit; jDigits] SUGGEST_NOT_SKIP t (sp f t + length I) (sp f t + length I) true [intNode I] x).
  { intros x X. eapply es_step; [rewrite P1; exact C|]. change (nextMode SUGGEST_NOT_SKIP (charNode nb 46) true) with SUGGEST_NOT_SKIP.
    replace (Nat.max (sp f t + length I) (sp f t + length I + 1)) with (sp f t + length I + 1)%nat by lia. exact X. }
  pose proof (digit_ev SUGGEST_NOT_SKIP (skipn (sp f t + length I + 1) t)) as D2. rewrite sp_not, shift_0, P2 in D2. cbn [skipn] in D2.
  destruct l' as [|e l']; cbn [run dOut] in *.
  { cbn [shift]. apply K, S1, S2. eapply evseq_eq; [eapply es_fail; rewrite P2; exact D2|]. cbn [andb]. f_equal; lia. }
  destruct (isDigit e) eqn:DE.
  2:{ cbn [shift]. apply K, S1, S2. eapply evseq_eq; [eapply es_fail; rewrite P2; exact D2|]. cbn [andb]. f_equal; lia. }
  assert (P3 : skipn (sp f t + length I + 1 + 1) t = l') by (rewrite <- skipn_plus, P2; reflexivity).
  cbn [shift]. apply (ev_ref gJ nb nFloat jFloat f t (floatNode I (e :: run l'))); [exact look_float|]. apply ev_concat. apply S1, S2.
  eapply es_step; [rewrite P2; exact D2|]. change (nextMode SUGGEST_NOT_SKIP (digitNode e) true) with SUGGEST_NOT_SKIP.
  eapply es_step; [rewrite P3; apply digits_ev|]. cbn [andb app]. eapply evseq_eq; [apply es_done|]. unfold floatNode. cbn [length]. f_equal; lia.
Qed.

(** integer | float: the longer one, which is the float if it matches. *)
Definition eitherNode (n : node) : node := tree TChoice nb [n] true.
Definition eOut (l : list Z) : ores :=
  match run l with
  | [] => OFail 0 true
  | ds => match frac (skipn (length ds) l) with
          | None => OMatch (eitherNode (intNode ds)) (length ds) (length ds) true
          | Some [] => OMatch (eitherNode (intNode ds)) (length ds) (S (length ds)) true
          | Some es => OMatch (eitherNode (floatNode ds es)) (S (length ds) + length es) (S (length ds) + length es) true
          end
  end.
Lemma evch_eq g b gs f t m st x y : EvChoice g b gs f t m st x -> x = y -> EvChoice g b gs f t m st y.
Proof. now intros H <-. Qed.
Lemma either_ev f t : Ev gJ jEither f t (shift (sp f t) (eOut (skipn (sp f t) t))).
Proof.
  pose proof (integer_ev f t) as I. pose proof (float_ev f t) as F. unfold iOut, fOut, eOut in *. apply ev_choice.
  destruct (run (skipn (sp f t) t)) as [|d ds].
  { cbn [shift] in *. eapply ec_next; [|apply ec_none]. eapply ea_fail; [exact I|]. eapply ea_fail; [exact F|]. cbn [andb].
    replace (Nat.max (Nat.max 0 (sp f t + 0)) (sp f t + 0)) with (sp f t + 0)%nat by lia. apply ea_nil. }
  set (D := d :: ds) in *. destruct (frac (skipn (length D) (skipn (sp f t) t))) as [[|e es]|]; cbn [shift] in *.
  - eapply evch_eq; [eapply ec_pick; [eapply ea_match; [exact I|eapply ea_fail; [exact F|apply ea_nil]]|exists [], []; split; [reflexivity|constructor]]|].
    cbn [andb]. unfold eitherNode. f_equal; lia.
  - eapply evch_eq; [eapply ec_pick; [eapply ea_match; [exact I|eapply ea_match; [exact F|apply ea_nil]]|exists [(intNode D, sp f t + length D)%nat], []; split; [reflexivity|]]|].
    { cbn [app]. constructor; [cbn [snd length]; lia|constructor]. }
    cbn [andb]. unfold eitherNode. f_equal; lia.
  - eapply evch_eq; [eapply ec_pick; [eapply ea_match; [exact I|eapply ea_fail; [exact F|apply ea_nil]]|exists [], []; split; [reflexivity|constructor]]|].
    cbn [andb]. unfold eitherNode. f_equal; lia.
Qed.

Definition signNode (minus : bool) : node := tree TOption nb (if minus then [charNode nb 45] else []) true.
Definition numNode (minus : bool) (n : node) : node := tree TConcat (named nNumber) [wordNode nb []; signNode minus; n] false.
Definition wrap (minus : bool) (x : ores) : ores :=
  match x with OMatch n u k _ => OMatch (numNode minus n) u k false | OFail k _ => OFail k false end.
Definition nOut (l : list Z) : ores :=
  if headIs 45 l then shift 1 (wrap true (eOut (tl l))) else wrap false (eOut l).
Lemma number_ev f t : Ev gJ (ref nNumber) f t (shift (lead t) (nOut (skipn (lead t) t))).
Proof.
  assert (Y : forall n u k st, EvSeq gJ (named nNumber) [RString nb []; jMinus; jEither] f t 0 0 true [] (OMatch n u k st) ->
    flip nb n = n -> Ev gJ (ref nNumber) f t (OMatch n u k st)).
  { intros n u k st X FL. rewrite <- FL. eapply ev_ref; [exact look_number|]. apply ev_concat. exact X. }
  assert (N : forall k st, EvSeq gJ (named nNumber) [RString nb []; jMinus; jEither] f t 0 0 true [] (OFail k st) -> Ev gJ (ref nNumber) f t (OFail k st)).
  { intros k st X. eapply ev_ref_fail; [exact look_number|]. apply ev_concat. exact X. }
  destruct t as [|x t0].
  { apply (N 0%nat false). apply (es_fail gJ (named nNumber) (RString nb []) [jMinus; jEither] f [] 0 0 true [] 0 false).
    eapply ev_eq'; [apply ev_string|]. reflexivity. }
  set (t := x :: t0) in *. set (q := if skips f true then lead t else 0%nat).
  assert (E0 : Ev gJ (RString nb []) f t (OMatch (wordNode nb []) q q false)).
  { eapply ev_eq'; [apply ev_string|]. unfold tlit. fold t. change (match t with [] => tfail [] | _ :: _ => ?a end) with a. unfold t at 1. fold t.
    cbv zeta. replace (if skips f true then ws_prefix [] else []) with (@nil Z) by now destruct (skips f true).
    cbn [length Nat.ltb Nat.leb]. rewrite tail_is_nil. cbn [negb skipn litmatch snd fst]. cbn [ofTerm]. rewrite app_nil_r. cbn [length]. rewrite Nat.sub_0_r.
    unfold wordNode, q, lead. now destruct (skips f true). }
  assert (Q : (q + lead (skipn q t) = lead t)%nat /\ skipn (lead (skipn q t)) (skipn q t) = skipn (lead t) t).
  { unfold q. destruct (skips f true); [|now split]. rewrite lead_dark. split; [lia|reflexivity]. }
  destruct Q as [QL QS]. clearbody q. set (l := skipn (lead t) t) in *.
  assert (S1 : forall y, EvSeq gJ (named nNumber) [jMinus; jEither] SUGGEST_SKIP t q q false [wordNode nb []] y ->
    EvSeq gJ (named nNumber) [RString nb []; jMinus; jEither] f t 0 0 true [] y).
  { intros y H. eapply es_step; [exact E0|]. exact H. }
  pose proof (char_ev gJ nb 45 false SUGGEST_SKIP (skipn q t) eq_refl) as C. rewrite sp_skip, QS in C. unfold chOut in C. unfold nOut.
  destruct (headIs 45 l) eqn:H.
  - cbn [shift] in C. apply headIs_cons in H.
    assert (S2 : forall y, EvSeq gJ (named nNumber) [jEither] SUGGEST_NOT_SKIP t (lead t + 1) (lead t + 1) false [wordNode nb []; signNode true] y ->
      EvSeq gJ (named nNumber) [jMinus; jEither] SUGGEST_SKIP t q q false [wordNode nb []] y).
    { intros y Z. eapply es_step; [eapply ev_option; exact C|]. cbn [andb app]. change (nextMode SUGGEST_SKIP (tree TOption nb [charNode nb 45] true) true) with SUGGEST_NOT_SKIP.
      replace (q + (lead (skipn q t) + 1))%nat with (lead t + 1)%nat by lia. replace (Nat.max q (lead t + 1)) with (lead t + 1)%nat by lia. exact Z. }
    assert (P : skipn (lead t + 1) t = tl l) by (rewrite <- skipn_plus; fold l; rewrite H; reflexivity).
    pose proof (either_ev SUGGEST_NOT_SKIP (skipn (lead t + 1) t)) as EE. rewrite sp_not, shift_0, P in EE. cbn [skipn] in EE. rewrite shift_shift.
    destruct (eOut (tl l)) as [n u k st|k st]; cbn [wrap shift].
    + apply Y; [|reflexivity]. apply S1, S2. eapply evseq_eq; [eapply es_step; [rewrite P; exact EE|apply es_done]|]. cbn [andb app]. unfold numNode. f_equal; lia.
    + apply N. apply S1, S2. eapply evseq_eq; [eapply es_fail; rewrite P; exact EE|]. cbn [andb]. f_equal; lia.
  - cbn [shift] in C.
    assert (S2 : forall y, EvSeq gJ (named nNumber) [jEither] SUGGEST_SKIP t q (lead t) false [wordNode nb []; signNode false] y ->
      EvSeq gJ (named nNumber) [jMinus; jEither] SUGGEST_SKIP t q q false [wordNode nb []] y).
    { intros y Z. eapply es_step; [eapply ev_option_none; exact C|]. cbn [andb app]. change (nextMode SUGGEST_SKIP (tree TOption nb [] true) true) with SUGGEST_SKIP.
      replace (q + 0)%nat with q by lia. replace (Nat.max q (q + (lead (skipn q t) + 0))) with (lead t) by lia. exact Z. }
    pose proof (either_ev SUGGEST_SKIP (skipn q t)) as EE. rewrite sp_skip, QS in EE.
    destruct (eOut l) as [n u k st|k st]; cbn [wrap shift] in *.
    + apply Y; [|reflexivity]. apply S1, S2. eapply evseq_eq; [eapply es_step; [exact EE|apply es_done]|]. cbn [andb app]. unfold numNode. f_equal; lia.
    + apply N. apply S1, S2. eapply evseq_eq; [eapply es_fail; exact EE|]. cbn [andb]. f_equal; lia.
Qed.

(* ---------------- strings ---------------- *)

Definition strNode (c : list Z) : node :=
  tree TBlock (named nString) [charNode mark 34; contentNode c; charNode mark 34] false.
Fixpoint strOut (c l : list Z) : ores :=
  match l with
  | [] => OFail 0 false
  | x :: l' => if x =? 10 then OFail 1 false else if x =? 34 then OMatch (strNode c) 1 1 false else shift 1 (strOut (c ++ [x]) l')
  end.
Definition sOut (l : list Z) : ores := if headIs 34 l then shift 1 (strOut [] (tl l)) else OFail 0 false.

Lemma char_here g b c u t : Ev g (RChar b c u) NOT_SKIP t (chOut b c t).
Proof. eapply ev_eq'; [apply ev_char|]. unfold tchar, chOut. destruct t as [|x t]; [reflexivity|]. cbn [Z.eqb NOT_SKIP SUGGEST_SKIP]. now destruct (headIs c (x :: t)). Qed.
Lemma evscan_eq g b on v cl e xs t p m c x y : EvScan g b on v cl e xs t p m c x -> x = y -> EvScan g b on v cl e xs t p m c y.
Proof. now intros H <-. Qed.

Lemma scan_ev t : forall l p c, skipn p t = l -> (p <= length t)%nat -> ~ In 92 l ->
  EvScan gJ (named nString) (charNode mark 34) false jQuote (Some (RChar nb 92 false)) [RChar nb 10 true] t p p c (shift p (strOut c l)).
Proof.
  induction l as [|x l IH]; intros p c E LE NE.
  - assert (p = length t) by (pose proof (skipn_length p t) as L; rewrite E in L; cbn in L; lia). subst p.
    cbn [strOut shift]. rewrite Nat.add_0_r. eapply sc_eof.
    + eapply ep_fail. rewrite E. exact (char_here gJ nb 92 false []).
    + eapply ex_alts. rewrite E. eapply ea_fail; [exact (char_here gJ nb 10 true [])|apply ea_nil].
    + rewrite E. exact (char_here gJ mark 34 false []).
    + exact E.
  - assert (N92 : (x =? 92) = false) by (apply Z.eqb_neq; intros ->; apply NE; now left).
    pose proof (char_here gJ nb 92 false (x :: l)) as E92. unfold chOut in E92. cbn [headIs] in E92. rewrite N92 in E92.
    pose proof (char_here gJ nb 10 true (x :: l)) as E10. unfold chOut in E10. cbn [headIs] in E10.
    pose proof (char_here gJ mark 34 false (x :: l)) as E34. unfold chOut in E34. cbn [headIs] in E34.
    cbn [strOut]. destruct (x =? 10).
    { cbn [shift]. eapply evscan_eq; [eapply sc_exclude|].
      - eapply ep_fail. rewrite E. exact E92.
      - eapply ex_alts. rewrite E. eapply ea_match; [exact E10|apply ea_nil].
      - discriminate.
      - f_equal. lia. }
    destruct (x =? 34).
    { cbn [shift]. eapply evscan_eq; [eapply sc_close|].
      - eapply ep_fail. rewrite E. exact E92.
      - eapply ex_alts. rewrite E. eapply ea_fail; [exact E10|apply ea_nil].
      - rewrite E. exact E34.
      - cbv iota. unfold strNode. f_equal; lia. }
    eapply sc_next.
    + eapply ep_fail. rewrite E. exact E92.
    + eapply ex_alts. rewrite E. eapply ea_fail; [exact E10|apply ea_nil].
    + rewrite E. exact E34.
    + exact E.
    + assert (E' : skipn (S p) t = l) by (replace (S p) with (p + 1)%nat by lia; rewrite <- skipn_plus, E; reflexivity).
      assert (LE' : (S p <= length t)%nat) by (pose proof (skipn_length p t) as L; rewrite E in L; cbn in L; lia).
      eapply evscan_eq; [|rewrite shift_shift; reflexivity]. replace (p + 1)%nat with (S p) by lia.
      match goal with |- EvScan _ _ _ _ _ _ _ _ _ ?m _ _ => replace m with (S p) by lia end.
      apply IH; [exact E'|exact LE'|]. intros X. apply NE. now right.
Qed.
Lemma string_ev f t : ~ In 92 t -> Ev gJ (ref nString) f t (shift (sp f t) (sOut (skipn (sp f t) t))).
Proof.
  intros NE. pose proof (char_ev gJ mark 34 false f t eq_refl) as C. unfold chOut, sOut in *. set (l := skipn (sp f t) t) in *.
  destruct (headIs 34 l) eqn:H; cbn [shift] in C.
  - apply headIs_cons in H.
    assert (P : skipn (sp f t + 1) t = tl l) by (rewrite <- skipn_plus; fold l; rewrite H; reflexivity).
    assert (LE : (sp f t + 1 <= length t)%nat).
    { pose proof (skipn_length (sp f t) t) as L. fold l in L. rewrite H in L. cbn [length] in L. lia. }
    assert (NE' : ~ In 92 (tl l)).
    { intros X. apply NE. rewrite <- (firstn_skipn (sp f t + 1) t), P. apply in_or_app. now right. }
    pose proof (scan_ev t (tl l) (sp f t + 1) [] P LE NE') as S.
    assert (B : Ev gJ jString f t (shift (sp f t + 1) (strOut [] (tl l)))) by (unfold jString; eapply ev_block; [exact C|exact S]).
    rewrite shift_shift.
    assert (FL : match strOut [] (tl l) with OMatch n _ _ _ => flip nb n = n | _ => True end).
    { clear. generalize (tl l) (@nil Z). induction l0 as [|x l0 IH]; intros c; cbn [strOut]; [exact I|]. destruct (x =? 10); [exact I|].
      destruct (x =? 34); [reflexivity|]. specialize (IH (c ++ [x])). destruct (strOut (c ++ [x]) l0); exact IH. }
    destruct (strOut [] (tl l)) as [n u k st|k st]; cbn [shift] in *.
    + rewrite <- FL. eapply ev_ref; [exact look_string|exact B].
    + eapply ev_ref_fail; [exact look_string|exact B].
  - cbn [shift]. eapply ev_ref_fail; [exact look_string|]. unfold jString. eapply ev_block_fail. exact C.
Qed.
