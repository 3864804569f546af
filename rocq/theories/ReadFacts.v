(** What particular definitions are read as: printed rules, unicode escapes,
    repetition counts; and how much of a definition is read. *)
From Verif Require Import Base Stream StreamFacts Node Rule Parse Print Grammar SpecStream SpecRule TermSpec SpecParse SpecPrint SpecGrammar ParseFacts NotationFacts ParseMono PrintFacts GrammarFacts GrammarText.

(* ---------------- white space around a definition ---------------- *)

Lemma nonwhite_ws c : isWS c = false -> ~ In c whiteSpaces. Proof. intros W I. apply white_dec in I. congruence. Qed.
Lemma trim_edged c l : ~ In c whiteSpaces -> lastOk (c :: l) -> trim (c :: l) = c :: l.
Proof.
  intros W (x & d & E & D). apply trimmed_trim. exists [], []. cbn [app]. rewrite app_nil_r. split; [reflexivity|]. split; [constructor|]. split; [constructor|].
  intros e [[y Y]|[y Y]]; [congruence|]. rewrite E in Y. apply app_inj_tail in Y as [_ <-]. now apply nonwhite_ws.
Qed.
Lemma trim_mid a d l : (a = [] \/ exists c b, a = c :: b /\ ~ In c whiteSpaces) -> ~ In d whiteSpaces ->
  exists l1 w, trim (a ++ d :: l) = a ++ d :: l1 /\ l = l1 ++ w /\ white w.
Proof.
  intros A D. destruct (trim_trimmed (d :: l)) as (w & w' & E & W & W' & ED). destruct w as [|x w]; [|exfalso; cbn in E; injection E as <- _; inversion W; contradiction].
  cbn [app] in E. destruct (trim (d :: l)) as [|y m]; [exfalso; cbn in E; subst w'; inversion W'; contradiction|].
  cbn [app] in E. injection E as <- E. exists m, w'. split; [|split; [exact E|exact W']]. apply trimmed_trim. exists [], w'. cbn [app]. rewrite E.
  split; [now rewrite <- app_assoc|]. split; [constructor|]. split; [exact W'|]. intros c [[z Z]|[z Z]].
  - destruct A as [->|(c0 & b & -> & N)]; [|cbn in Z; congruence]. cbn in Z. congruence.
  - destruct (@exists_last _ (d :: m) ltac:(discriminate)) as (q & e & Q). rewrite Q, app_assoc in Z. apply app_inj_tail in Z as [_ <-]. apply ED. right. now exists q.
Qed.

(* ---------------- one rule that fills the definition ---------------- *)

Lemma loop_prim c t r l us : heading c -> isAnn c = false -> ev (fun n => pPrim n (c :: t) []) (POk r l us) -> forall x,
  ev (fun n => pLoop n [EOFChar] [annotate noAnn r] noAnn l us) x -> ev (fun n => pLoop n [EOFChar] [] noAnn (c :: t) []) x.
Proof.
  intros H A P x X.
  apply ev_step with (g := fun n => pbind (pPrim n (c :: t) []) (fun r l1 us1 => pLoop n [EOFChar] [annotate noAnn r] noAnn l1 us1)).
  - intros n. cbn [pLoop lpeek existsb]. rewrite (heading_not c EOFChar H), (heading_white c H), A by (cbn; auto). rewrite (Z.eqb_sym EOFChar c), (heading_not c EOFChar H) by (cbn; auto). cbn [orb].
    rewrite (heading_not c cChoice H), (heading_not c cGt H), (heading_not c cSlash H) by (cbn; auto 20). reflexivity.
  - eapply ev_bind; [exact P|exact X].
Qed.
Lemma loop_fails c t us : heading c -> isAnn c = false -> ev (fun n => pPrim n (c :: t) []) (PErr us) -> ev (fun n => pLoop n [EOFChar] [] noAnn (c :: t) []) (PErr us).
Proof.
  intros H A [k P].
  apply ev_step with (g := fun n => pbind (pPrim n (c :: t) []) (fun r l1 us1 => pLoop n [EOFChar] [annotate noAnn r] noAnn l1 us1)).
  - intros n. cbn [pLoop lpeek existsb]. rewrite (heading_not c EOFChar H), (heading_white c H), A by (cbn; auto). rewrite (Z.eqb_sym EOFChar c), (heading_not c EOFChar H) by (cbn; auto). cbn [orb].
    rewrite (heading_not c cChoice H), (heading_not c cGt H), (heading_not c cSlash H) by (cbn; auto 20). reflexivity.
  - exists k. intros n N. now rewrite P.
Qed.
Lemma text_ev c t x : heading c -> clean (c :: t) -> x <> PFuel -> ev (fun n => pLoop n [EOFChar] [] noAnn (c :: t) []) x -> parseText (c :: t) = x.
Proof. intros H C N [n E]. apply parse_by_fuel with (n := n); [exact C| |exact N]. rewrite lskip_heading by exact H. now apply E. Qed.
Lemma text_prim c t r us : heading c -> isAnn c = false -> clean (c :: t) -> ev (fun n => pPrim n (c :: t) []) (POk r [] us) -> parseText (c :: t) = POk (annotate noAnn r) [] us.
Proof. intros H A C P. apply text_ev; [exact H|exact C|discriminate|]. eapply loop_prim; [exact H|exact A|exact P|]. now apply ev_now. Qed.
Lemma text_fails c t us : heading c -> isAnn c = false -> clean (c :: t) -> ev (fun n => pPrim n (c :: t) []) (PErr us) -> parseText (c :: t) = PErr us.
Proof. intros H A C P. apply text_ev; [exact H|exact C|discriminate|]. now apply loop_fails. Qed.

Lemma reads_whole name t r l us : goodName name -> trim t = t -> parseText t = POk r l us -> readAs name t (setName r name).
Proof. intros N T P. apply readAs_iff. split; [exact N|]. rewrite T. eauto. Qed.
Lemma unreadable_iff name t : unreadable name t <-> goodName name /\ exists us, parseText (trim t) = PErr us.
Proof.
  unfold unreadable. split.
  - intros [g' E]. assert (V : goodName name).
    { apply validName_iff. unfold parseRule in E. destruct (validName name); [reflexivity|discriminate]. }
    split; [exact V|]. destruct (new_parse name t V) as [(us & P & g1 & E1)|[(P & g1 & E1)|(r0 & l & us & P & g1 & E1)]]; rewrite E in E1; try discriminate. eauto.
  - intros [V (us & P)]. destruct (new_parse name t V) as [(us1 & P1 & g1 & E1)|[(P1 & g1 & E1)|(r1 & l1 & us1 & P1 & g1 & E1)]]; rewrite P in P1; try discriminate. eauto.
Qed.

(* ---------------- printed rules ---------------- *)

Lemma print_setName r n : print (setName r n) = print r. Proof. destruct r; reflexivity. Qed.
Lemma print_read name r : goodName name -> plain r -> readAs name (print r) (setName r name).
Proof.
  intros N P. pose proof (parse_print r P (print_clean r P)) as E. pose proof (plain_last r P) as L. destruct (plain_head r P) as (c & t & EQ & H).
  eapply reads_whole; [exact N| |exact E]. rewrite EQ in *. apply trim_edged; [apply nonwhite_ws, heading_white, H|exact L].
Qed.

(* ---------------- literals ---------------- *)

Lemma unicode_clean t v : unicode t v -> clean t /\ lastOk t.
Proof.
  intros (ds & -> & L & D). assert (F : Forall (fun c => 48 <= c <= 122 /\ isWS c = false) ds).
  { clear L. induction D as [|c d l v (B & DO) D IH]; constructor; [|exact IH]. split; [lia|]. destruct (isWS c) eqn:W; [|reflexivity]. apply white_in in W. repeat (destruct W as [W|W]; [lia|]). destruct W. }
  split; [apply clean_cons; [lia|]; apply clean_cons; [lia|]; eapply Forall_impl; [|exact F]; cbn; lia|].
  do 2 apply last_cons. destruct (exists_last (l := ds)) as (x & c & ->); [intros ->; discriminate|]. exists x, c. split; [reflexivity|]. apply Forall_app in F as [_ F]. now inversion F.
Qed.
Lemma unicode_reads t v l : unicode t v -> parseUnicodeEscape (tl t ++ l) = Some (v, l).
Proof. intros U. apply escape_iff. exists t. destruct U as (ds & -> & U). split; [reflexivity|]. now exists ds. Qed.
Lemma unicode_head t v : unicode t v -> exists x, t = 92 :: 117 :: x. Proof. intros (ds & -> & _). eauto. Qed.

Lemma quoted_reads q t v u : q <> 92 -> inside q t v u -> forall n l, (length t < n)%nat -> quoted n q (t ++ q :: l) = Some (v, u, l).
Proof.
  intros Q. induction 1 as [|c t v u N1 N2 _ IH|c t v u N _ IH|e c t v u U I IH]; intros n l L.
  - destruct n; [lia|]. apply quoted_end.
  - destruct n as [|n]; [lia|]. cbn [app length] in *. rewrite quoted_plain by assumption. rewrite IH by lia. reflexivity.
  - destruct n as [|n]; [lia|]. cbn [app length] in *. rewrite quoted_escape by assumption. rewrite IH by lia. reflexivity.
  - destruct n as [|n]; [lia|]. destruct (unicode_head e c U) as [x ->]. pose proof (unicode_reads _ _ (t ++ q :: l) U) as R. cbn [tl app length] in *. rewrite <- app_assoc.
    cbn [quoted lpeek]. rewrite (proj2 (Z.eqb_neq 92 q)) by auto. cbn [Z.eqb]. change (92 =? cBack) with true. change (117 =? 117) with true. cbn iota. rewrite R, IH; [reflexivity|]. rewrite app_length in L. lia.
Qed.
Lemma quoted_bad q t v u l : q <> 92 -> inside q t v u -> parseUnicodeEscape (117 :: l) = None -> forall n, quoted n q (t ++ 92 :: 117 :: l) = None.
Proof.
  intros Q I B. induction I as [|c t v u N1 N2 _ IH|c t v u N _ IH|e c t v u U I IH]; intros [|n]; try reflexivity.
  - cbn [app quoted lpeek]. rewrite (proj2 (Z.eqb_neq 92 q)) by auto. change (92 =? cBack) with true. change (117 =? 117) with true. cbn iota. now rewrite B.
  - cbn [app]. rewrite quoted_plain by assumption. now rewrite IH.
  - cbn [app]. rewrite quoted_escape by assumption. now rewrite IH.
  - destruct (unicode_head e c U) as [x ->]. pose proof (unicode_reads _ _ (t ++ 92 :: 117 :: l) U) as R. cbn [tl app] in *. rewrite <- app_assoc.
    cbn [quoted lpeek]. rewrite (proj2 (Z.eqb_neq 92 q)) by auto. change (92 =? cBack) with true. change (117 =? 117) with true. cbn iota. now rewrite R, IH.
Qed.

Lemma heads : heading 92 /\ heading 39 /\ heading 34 /\ heading 123. Proof. repeat split; left; cbn; auto 20. Qed.

Lemma unicode_read name t v : goodName name -> unicode t v -> readAs name t (setName (RChar noBase v true) name).
Proof.
  intros N U. destruct (unicode_clean t v U) as [C L]. destruct (unicode_head t v U) as [x ->]. eapply reads_whole; [exact N|apply trim_edged; [apply nonwhite_ws; reflexivity|exact L]|].
  apply (text_prim 92 (117 :: x) (RChar noBase v true)); [apply heads|reflexivity|exact C|]. apply ev_now. intros n. cbn [pPrim lpeek].
  change (92 =? cQuote) with false. change (92 =? cBack) with true. cbn iota. unfold inUnicode. cbn [lnext tl]. pose proof (unicode_reads _ _ [] U) as R. cbn [tl] in R. rewrite app_nil_r in R. now rewrite R.
Qed.
Lemma literal_trim q t : q = 39 \/ q = 34 -> trim (q :: t ++ [q]) = q :: t ++ [q].
Proof. intros Q. assert (W : isWS q = false) by (destruct Q as [->| ->]; reflexivity). apply trim_edged; [now apply nonwhite_ws|]. exists (q :: t), q. now split. Qed.
Lemma literal_clean q t : q = 39 \/ q = 34 -> clean t -> clean (q :: t ++ [q]).
Proof. intros Q C. apply clean_cons; [lia|]. apply clean_app; [exact C|]. apply clean_cons; [lia|apply clean_nil]. Qed.
Lemma char_read name t c u : goodName name -> clean t -> inside 39 t [c] u -> readAs name (39 :: t ++ [39]) (setName (RChar noBase c u) name).
Proof.
  intros N C I. eapply reads_whole; [exact N|apply literal_trim; auto|].
  apply (text_prim 39 (t ++ [39]) (RChar noBase c u)); [apply heads|reflexivity|apply literal_clean; auto|]. apply ev_now. intros n. cbn [pPrim lpeek].
  change (39 =? cQuote) with true. cbn iota. unfold inChar. cbn [lnext tl]. unfold cQuote.
  rewrite (quoted_reads 39 t [c] u ltac:(lia) I _ []) by (cbn [length]; rewrite app_length; lia). reflexivity.
Qed.
Lemma chars_read name t v u : goodName name -> clean t -> inside 39 t v u -> (2 <= length v)%nat -> readAs name (39 :: t ++ [39]) (setName (RChars noBase v) name).
Proof.
  intros N C I L. eapply reads_whole; [exact N|apply literal_trim; auto|].
  apply (text_prim 39 (t ++ [39]) (RChars noBase v)); [apply heads|reflexivity|apply literal_clean; auto|]. apply ev_now. intros n. cbn [pPrim lpeek].
  change (39 =? cQuote) with true. cbn iota. unfold inChar. cbn [lnext tl]. unfold cQuote.
  rewrite (quoted_reads 39 t v u ltac:(lia) I _ []) by (cbn [length]; rewrite app_length; lia). destruct v as [|c [|d v]]; [cbn in L; lia|cbn in L; lia|reflexivity].
Qed.
Lemma string_read name t v u : goodName name -> clean t -> inside 34 t v u -> readAs name (34 :: t ++ [34]) (setName (RString noBase (List.map goRune v)) name).
Proof.
  intros N C I. eapply reads_whole; [exact N|apply literal_trim; auto|].
  apply (text_prim 34 (t ++ [34]) (RString noBase (List.map goRune v))); [apply heads|reflexivity|apply literal_clean; auto|]. apply ev_now. intros n. cbn [pPrim lpeek].
  change (34 =? cQuote) with false. change (34 =? cBack) with false. change (34 =? cDQuote) with true. cbn iota. unfold inString. cbn [lnext tl]. unfold cDQuote.
  rewrite (quoted_reads 34 t v u ltac:(lia) I _ []) by (cbn [length]; rewrite app_length; lia). cbn [lift]. f_equal. f_equal. apply map_ext. exact goRune_utf8.
Qed.

(** A broken escape: not followed by four hexadecimal digits. *)
Lemma bad_escape l w : (forall ds v rest, l ++ w = ds ++ rest -> length ds = 4%nat -> ~ denotes 16 ds v) -> parseUnicodeEscape (117 :: l) = None.
Proof.
  intros H. destruct (parseUnicodeEscape (117 :: l)) as [[v l']|] eqn:E; [|reflexivity]. exfalso. apply escape_iff in E as (t & T & (ds & -> & L & D)).
  cbn [app] in T. injection T as T. apply (H ds v (l' ++ w)); [rewrite app_assoc; now rewrite <- T|exact L|exact D].
Qed.
Lemma prefix_clean a b : clean (a ++ b) -> clean a. Proof. intros C. now apply Forall_app in C. Qed.
Lemma unicode_reject name l : goodName name -> clean l -> (forall ds v rest, l = ds ++ rest -> length ds = 4%nat -> ~ denotes 16 ds v) -> unreadable name (92 :: 117 :: l).
Proof.
  intros N C B. destruct (trim_mid [92] 117 l) as (l1 & w & T & -> & _); [right; exists 92, []; split; [reflexivity|apply nonwhite_ws; reflexivity]|apply nonwhite_ws; reflexivity|].
  apply unreadable_iff. split; [exact N|]. exists []. cbn [app] in T. rewrite T. apply text_fails; [apply heads|reflexivity| |].
  - apply clean_cons; [lia|]. apply clean_cons; [lia|]. eapply prefix_clean, C.
  - apply ev_now. intros n. cbn [pPrim lpeek]. change (92 =? cQuote) with false. change (92 =? cBack) with true. cbn iota. unfold inUnicode. cbn [lnext tl]. now rewrite (bad_escape l1 w B).
Qed.
Lemma literal_reject name q t v u l : goodName name -> q = 39 \/ q = 34 -> clean t -> clean l -> inside q t v u ->
  (forall ds v rest, l = ds ++ rest -> length ds = 4%nat -> ~ denotes 16 ds v) -> unreadable name (q :: t ++ 92 :: 117 :: l).
Proof.
  intros N Q CT CL I B. assert (QW : ~ In q whiteSpaces) by (destruct Q as [->| ->]; apply nonwhite_ws; reflexivity).
  destruct (trim_mid (q :: t ++ [92]) 117 l) as (l1 & w & T & -> & _); [right; exists q, (t ++ [92]); split; [reflexivity|exact QW]|apply nonwhite_ws; reflexivity|].
  apply unreadable_iff. split; [exact N|]. exists []. cbn [app] in T. rewrite <- !app_assoc in T. cbn [app] in T. rewrite T.
  assert (H : heading q /\ isAnn q = false) by (destruct Q as [->| ->]; split; try apply heads; reflexivity). destruct H as [H A]. apply text_fails; [exact H|exact A| |].
  - apply clean_cons; [lia|]. apply clean_app; [exact CT|]. apply clean_cons; [lia|]. apply clean_cons; [lia|]. eapply prefix_clean, CL.
  - pose proof (bad_escape l1 w B) as BE. apply ev_now. intros n. cbn [pPrim lpeek]. destruct Q as [->| ->].
    + change (39 =? cQuote) with true. cbn iota. unfold inChar. cbn [lnext tl]. unfold cQuote. rewrite (quoted_bad 39 t v u l1) by (auto; lia). reflexivity.
    + change (34 =? cQuote) with false. change (34 =? cBack) with false. change (34 =? cDQuote) with true. cbn iota. unfold inString. cbn [lnext tl]. unfold cDQuote. rewrite (quoted_bad 34 t v u l1) by (auto; lia). reflexivity.
Qed.

(* ---------------- repetition counts ---------------- *)

Lemma blank_ws c : blank c -> isWS c = true. Proof. intros [->|[->| ->]]; reflexivity. Qed.
Lemma digits_spaced sc t ds st l : spaced t ds -> (st = 62 \/ sc = true /\ st = 44) -> digitsTo sc (t ++ st :: l) = Some (ds, st, l).
Proof.
  intros S ST. induction S as [|c t ds B S IH|c t ds D S IH]; cbn [app digitsTo].
  - destruct ST as [->|[-> ->]]; [|reflexivity]. destruct sc; reflexivity.
  - assert (E : (c =? 32) || (c =? 9) || (c =? 10) = true) by (destruct B as [->|[->| ->]]; reflexivity). now rewrite E.
  - assert (E : (c =? 32) || (c =? 9) || (c =? 10) = false) by (rewrite !orb_false_iff, !Z.eqb_neq; lia). rewrite E.
    rewrite (proj2 (Z.eqb_neq c 44)), (proj2 (Z.eqb_neq c cGt)) by (unfold cGt; lia). rewrite andb_false_r. rewrite (proj2 (isDigit_range c) D), IH. reflexivity.
Qed.
Lemma lskip_white w l : white w -> lskip (w ++ l) = lskip l.
Proof.
  intros W. unfold lskip. rewrite ws_prefix_white_app by exact W. rewrite app_length. rewrite skipn_app, skipn_all2 by lia. cbn [app]. f_equal. lia.
Qed.
Lemma lskip_blank c l : isWS c = true -> lskip (c :: l) = lskip l.
Proof. intros W. apply (lskip_white [c]). constructor; [|constructor]. now apply white_dec. Qed.
Lemma lskip_spaced w t ds st l : white w -> spaced t ds -> isWS st = false -> exists t', lskip (w ++ t ++ st :: l) = t' ++ st :: l /\ spaced t' ds.
Proof.
  intros W S ST. rewrite lskip_white by exact W. clear W. induction S as [|c t ds B S IH|c t ds D S IH]; cbn [app].
  - exists []. split; [now apply lskip_nonwhite|constructor].
  - rewrite lskip_blank by now apply blank_ws. exact IH.
  - exists (c :: t). split; [apply lskip_nonwhite; now apply dig_nonwhite|now constructor].
Qed.
Lemma spaced_digits t ds : spaced t ds -> Forall (fun d => isDigit d = true) ds.
Proof. induction 1; [constructor|assumption|constructor; [now apply isDigit_range|assumption]]. Qed.
Lemma spaced_val t ds n : spaced t ds -> denotes 10 ds n -> decVal ds = n.
Proof. intros S D. eapply denotes_fun; [|exact D]. apply decVal_denotes. eapply spaced_digits, S. Qed.
Lemma uint_val t ds n : spaced t ds -> denotes 10 ds n -> n < 2 ^ 32 -> parseUint32 ds = Some n.
Proof. intros S D L. unfold parseUint32. rewrite (spaced_val _ _ _ S D). destruct (Z.leb_spec n 4294967295); [reflexivity|lia]. Qed.
Lemma bounds_suffix s mn mx l : bounds s mn mx -> (s = [] -> l = []) -> repSuffix (s ++ l) = Some (mn, mx, l).
Proof.
  intros [| | |w t n W (ds & S & D) L|w t n t' m W (ds & S & D) (ds' & S' & D') L L' LE] E.
  - rewrite E by reflexivity. reflexivity.
  - reflexivity.
  - reflexivity.
  - destruct (lskip_spaced w t ds 62 l W S eq_refl) as (t1 & T1 & S1). unfold repSuffix. cbn [app lpeek]. change (60 =? 42) with false. change (60 =? 43) with false. change (60 =? cLt) with true. cbn iota.
    unfold inRepeatSpec. cbn [lnext tl]. rewrite <- !app_assoc. cbn [app]. rewrite T1, (digits_spaced true t1 ds 62 l S1) by auto. rewrite (uint_val t ds n S D L). reflexivity.
  - destruct (lskip_spaced w t ds 44 (t' ++ 62 :: l) W S eq_refl) as (t1 & T1 & S1). unfold repSuffix. cbn [app lpeek]. change (60 =? 42) with false. change (60 =? 43) with false. change (60 =? cLt) with true. cbn iota.
    unfold inRepeatSpec. cbn [lnext tl]. rewrite <- !app_assoc. cbn [app]. rewrite <- !app_assoc. cbn [app]. rewrite T1, (digits_spaced true t1 ds 44 _ S1) by auto.
    rewrite (uint_val t ds n S D L). change (44 =? 44) with true. cbn iota. rewrite (digits_spaced false t' ds' 62 l S') by auto. rewrite (uint_val t' ds' m S' D' L').
    destruct (Z.eqb_spec m 0); [reflexivity|]. destruct (Z.ltb_spec m n); [lia|reflexivity].
Qed.
Lemma bounds_fun s a b a' b' : bounds s a b -> bounds s a' b' -> a = a' /\ b = b'.
Proof. intros B B'. apply (bounds_suffix s a b []) in B; [|auto]. apply (bounds_suffix s a' b' []) in B'; [|auto]. rewrite B in B'. injection B' as -> ->. auto. Qed.
Lemma spec_shorter t mn mx l : repSuffix (60 :: t) = Some (mn, mx, l) -> (length l <= length t)%nat.
Proof.
  unfold repSuffix. cbn [lpeek]. change (60 =? 42) with false. change (60 =? 43) with false. change (60 =? cLt) with true. cbn iota. unfold inRepeatSpec. cbn [lnext tl].
  pose proof (lskip_len t) as LS. destruct (digitsTo true (lskip t)) as [[[ds st] l1]|] eqn:E1; [|discriminate].
  apply digitsTo_ok in E1 as (T1 & _). apply some_len in T1. destruct (parseUint32 ds) as [v|]; [|discriminate]. destruct (st =? 44).
  - destruct (digitsTo false l1) as [[[ds2 st2] l2]|] eqn:E2; [|discriminate]. apply digitsTo_ok in E2 as (T2 & _). apply some_len in T2. destruct (parseUint32 ds2) as [w|]; [|discriminate].
    destruct (_ && _); [discriminate|]. intros E. assert (l = l2) as -> by congruence. lia.
  - intros E. assert (l = l1) as -> by congruence. lia.
Qed.
Lemma suffix_bad t w : (forall s1 s2 mn mx, 60 :: t ++ w = s1 ++ s2 -> s1 <> [] -> ~ bounds s1 mn mx) -> repSuffix (60 :: t) = None.
Proof.
  intros H. destruct (repSuffix (60 :: t)) as [[[mn mx] l]|] eqn:E; [|reflexivity]. exfalso. pose proof (spec_shorter _ _ _ _ E) as L. apply repSuffix_bounds in E as (s1 & EQ & B).
  apply (H s1 (l ++ w) mn mx); [rewrite app_assoc; now rewrite <- EQ| |exact B]. intros ->. cbn [app] in EQ. subst l. cbn [length] in L. lia.
Qed.

Lemma white_clean w : white w -> clean w. Proof. intros W. eapply Forall_impl; [|exact W]. intros c I. cbn in I. lia. Qed.
Lemma number_clean t n : number t n -> clean t.
Proof. intros (ds & S & _). induction S as [|c t ds B S IH|c t ds D S IH]; [apply clean_nil| |]; (apply clean_cons; [|exact IH]); [unfold blank in B|]; lia. Qed.
Lemma bounds_clean s mn mx : bounds s mn mx -> clean s.
Proof.
  pose proof white_clean as WC. pose proof number_clean as NC.
  intros [| | |w t n W NU L|w t n t' m W NU NU' L L' LE]; repeat (apply clean_cons; [lia|]); try apply clean_nil; (apply clean_app; [auto|]); (apply clean_app; [eapply NC; eassumption|]);
    (apply clean_cons; [lia|]); [apply clean_nil|]. apply clean_app; [eapply NC; eassumption|]. apply clean_cons; [lia|apply clean_nil].
Qed.
Lemma bounds_last s mn mx l : bounds s mn mx -> lastOk l -> lastOk (l ++ s).
Proof.
  intros [| | |w t n W NU L|w t n t' m W NU NU' L L' LE] LO; [now rewrite app_nil_r|apply last_app, last_one; reflexivity|apply last_app, last_one; reflexivity|..].
  - apply last_app, last_cons, last_app, last_app, last_one. reflexivity.
  - apply last_app, last_cons, last_app, last_app, last_cons, last_app, last_one. reflexivity.
Qed.

(** "{ x }" followed by a count. *)
Definition repeated (x : rule) (s : list Z) : list Z := 123 :: 32 :: print x ++ 32 :: 125 :: s.
Lemma repeated_clean x s : plain x -> clean s -> clean (repeated x s).
Proof. intros P C. unfold repeated. do 2 (apply clean_cons; [lia|]). apply clean_app; [now apply print_clean|]. do 2 (apply clean_cons; [lia|]). exact C. Qed.
Lemma plain_reads x : plain x -> plainOk x. Proof. apply print_reads. Qed.
Lemma bounds_read name x s mn mx : goodName name -> plain x -> bounds s mn mx -> readAs name (repeated x s) (setName (RRep noBase x mn mx) name).
Proof.
  intros N P B. eapply reads_whole; [exact N| |].
  - apply trim_edged; [apply nonwhite_ws; reflexivity|]. unfold repeated. do 2 apply last_cons. apply last_app. change (32 :: 125 :: s) with ([32; 125] ++ s). eapply bounds_last; [exact B|]. exists [32], 125. now split.
  - apply (text_prim 123 _ (RRep noBase x mn mx) (refs x)); [apply heads|reflexivity|apply repeated_clean; [exact P|eapply bounds_clean, B]|].
    pose proof (repetition_reads x s mn mx [] [] P (plain_reads x P) (bounds_suffix s mn mx [] B ltac:(auto))) as R. rewrite app_nil_r in R. exact R.
Qed.
Lemma bounds_reject name x t : goodName name -> plain x -> clean t -> (forall s1 s2 mn mx, 60 :: t = s1 ++ s2 -> s1 <> [] -> ~ bounds s1 mn mx) ->
  unreadable name (repeated x (60 :: t)).
Proof.
  intros N P C B. destruct (trim_mid (123 :: 32 :: print x ++ [32; 125]) 60 t) as (t1 & w & T & -> & _);
    [right; eexists _, _; split; [reflexivity|apply nonwhite_ws; reflexivity]|apply nonwhite_ws; reflexivity|].
  apply unreadable_iff. split; [exact N|]. exists (refs x). unfold repeated. cbn [app] in T. rewrite <- !app_assoc in T. cbn [app] in T. rewrite T.
  apply text_fails; [apply heads|reflexivity| |].
  - apply (repeated_clean x (60 :: t1) P). apply clean_cons; [lia|]. eapply prefix_clean, C.
  - apply (repetition_fails x (60 :: t1) [] P (plain_reads x P)). now apply suffix_bad with w.
Qed.
(** Counts that cannot be: the number in front of the '>' or ',' is too large,
    or the second one is smaller than the first. *)
Lemma number_fun t v v' : number t v -> number t v' -> v = v'.
Proof.
  intros (ds & S & D) (ds' & S' & D'). assert (ds = ds') as <-; [|eapply denotes_fun; eassumption].
  clear D D'. revert ds' S'. induction S as [|c t ds B S IH|c t ds R S IH]; intros ds' S'; inversion S'; subst; auto; unfold blank in *; try lia. f_equal. now apply IH.
Qed.
Lemma uint_none t ds n : spaced t ds -> denotes 10 ds n -> 2 ^ 32 <= n -> parseUint32 ds = None.
Proof. intros S D L. unfold parseUint32. rewrite (spaced_val _ _ _ S D). destruct (Z.leb_spec n 4294967295); [lia|reflexivity]. Qed.
Lemma suffix_large w t n st l : white w -> number t n -> 2 ^ 32 <= n -> st = 62 \/ st = 44 -> repSuffix (60 :: w ++ t ++ st :: l) = None.
Proof.
  intros W (ds & S & D) L ST. destruct (lskip_spaced w t ds st l W S) as (t1 & T1 & S1); [destruct ST as [->| ->]; reflexivity|].
  unfold repSuffix. cbn [lpeek]. change (60 =? 42) with false. change (60 =? 43) with false. change (60 =? cLt) with true. cbn iota.
  unfold inRepeatSpec. cbn [lnext tl]. rewrite T1, (digits_spaced true t1 ds st l S1) by tauto. now rewrite (uint_none t ds n S D L).
Qed.
Lemma suffix_order w t n t' m l : white w -> number t n -> number t' m -> 2 ^ 32 <= m \/ (m <> 0 /\ m < n) -> repSuffix (60 :: w ++ t ++ 44 :: t' ++ 62 :: l) = None.
Proof.
  intros W (ds & S & D) (ds' & S' & D') L. destruct (lskip_spaced w t ds 44 (t' ++ 62 :: l) W S eq_refl) as (t1 & T1 & S1).
  unfold repSuffix. cbn [lpeek]. change (60 =? 42) with false. change (60 =? 43) with false. change (60 =? cLt) with true. cbn iota.
  unfold inRepeatSpec. cbn [lnext tl]. rewrite T1, (digits_spaced true t1 ds 44 _ S1) by tauto. destruct (parseUint32 ds) as [v|] eqn:E; [|reflexivity].
  assert (v = n) as -> by (unfold parseUint32 in E; rewrite (spaced_val _ _ _ S D) in E; destruct (_ <=? _); congruence).
  change (44 =? 44) with true. cbn iota. rewrite (digits_spaced false t' ds' 62 l S') by auto. destruct (parseUint32 ds') as [v'|] eqn:E'; [|reflexivity].
  unfold parseUint32 in E'. rewrite (spaced_val _ _ _ S' D') in E'. destruct (Z.leb_spec m 4294967295); [|discriminate]. injection E' as <-.
  destruct (Z.eqb_spec m 0), (Z.ltb_spec m n); cbn [negb andb]; try reflexivity; lia.
Qed.
Lemma suffix_reject name x a d l : goodName name -> plain x -> clean (60 :: a ++ d :: l) -> isWS d = false -> (forall l1, repSuffix (60 :: a ++ d :: l1) = None) ->
  unreadable name (repeated x (60 :: a ++ d :: l)).
Proof.
  intros N P C D B. destruct (trim_mid (123 :: 32 :: print x ++ 32 :: 125 :: 60 :: a) d l) as (l1 & w & T & -> & _);
    [right; eexists _, _; split; [reflexivity|apply nonwhite_ws; reflexivity]|now apply nonwhite_ws|].
  apply unreadable_iff. split; [exact N|]. exists (refs x). unfold repeated. cbn [app] in T. rewrite <- !app_assoc in T. cbn [app] in T. rewrite T.
  apply text_fails; [apply heads|reflexivity| |].
  - apply (repeated_clean x (60 :: a ++ d :: l1) P). apply prefix_clean with w. cbn [app]. rewrite <- app_assoc. exact C.
  - apply (repetition_fails x (60 :: a ++ d :: l1) [] P (plain_reads x P)). apply B.
Qed.
Lemma large_reject name x w t n st l : goodName name -> plain x -> white w -> clean l -> number t n -> 2 ^ 32 <= n -> st = 62 \/ st = 44 ->
  unreadable name (repeated x (60 :: w ++ t ++ st :: l)).
Proof.
  intros N P W C NU L ST. rewrite app_assoc. apply suffix_reject; [exact N|exact P| |destruct ST as [->| ->]; reflexivity|].
  - apply clean_cons; [lia|]. apply clean_app; [apply clean_app; [now apply white_clean|eapply number_clean, NU]|]. apply clean_cons; [lia|exact C].
  - intros l1. rewrite <- app_assoc. now apply suffix_large with n.
Qed.
Lemma order_reject name x w t n t' m l : goodName name -> plain x -> white w -> clean l -> number t n -> number t' m -> 2 ^ 32 <= m \/ (m <> 0 /\ m < n) ->
  unreadable name (repeated x (60 :: w ++ t ++ 44 :: t' ++ 62 :: l)).
Proof.
  intros N P W C NU NU' L. replace (w ++ t ++ 44 :: t' ++ 62 :: l) with ((w ++ t ++ 44 :: t') ++ 62 :: l) by (rewrite <- !app_assoc; reflexivity).
  apply suffix_reject; [exact N|exact P| |reflexivity|].
  - apply clean_cons; [lia|]. apply clean_app; [|apply clean_cons; [lia|exact C]]. apply clean_app; [now apply white_clean|]. apply clean_app; [eapply number_clean, NU|]. apply clean_cons; [lia|eapply number_clean, NU'].
  - intros l1. rewrite <- !app_assoc. cbn [app]. now apply suffix_order with n m.
Qed.

(* ---------------- how much of a definition is read ---------------- *)

(** The rest begins a new line, behind a comment. *)
Definition cutOff (l l' : list Z) : Prop := exists pre t, l = pre ++ 47 :: 47 :: t ++ 10 :: l' /\ ~ In 10 t.
Lemma cutOff_later a l l' : takes a l -> cutOff l l' -> cutOff a l'.
Proof. intros [p ->] (pre & t & -> & N). exists (p ++ pre), t. split; [now rewrite <- app_assoc|exact N]. Qed.
Lemma dropLine_rest m : dropLine m = [] \/ exists t, m = t ++ 10 :: dropLine m /\ ~ In 10 t.
Proof.
  induction m as [|c m IH]; [now left|]. cbn [dropLine]. destruct (Z.eqb_spec c 10) as [->|N]; [right; exists []; split; [reflexivity|intros []]|].
  destruct IH as [->|(t & E & NI)]; [now left|]. right. exists (c :: t). split; [cbn [app]; now rewrite <- E|]. intros [X|X]; [congruence|contradiction].
Qed.
Lemma loop_rest fuel : forall rules a l us r l' us', clean l -> Forall wfRule rules -> pLoop fuel [EOFChar] rules a l us = POk r l' us' -> l' = [] \/ cutOff l l'.
Proof.
  induction fuel as [|fuel IH]; intros rules a l us r l' us' C F; [discriminate|]. cbn [pLoop].
  assert (NIL : (lpeek l =? EOFChar) = true -> l = []).
  { destruct l as [|c l]; [reflexivity|]. cbn. unfold EOFChar. inversion C; subst. intros E. apply Z.eqb_eq in E. lia. }
  assert (DONE : forall l1, (match finish rules with Some r => POk r l1 us | None => PErr us end) = POk r l' us' -> l' = l1) by (intros l1; destruct (finish rules); congruence).
  destruct (lpeek l =? EOFChar) eqn:E0; [intros E; apply DONE in E; left; rewrite E; now apply NIL|]. cbn [existsb]. rewrite Z.eqb_sym, E0. cbn [orb].
  assert (CN : clean (lnext l)) by (eapply takes_clean; [apply takes_lnext|exact C]).
  assert (NX : forall l1, takes l l1 -> l' = [] \/ cutOff l1 l' -> l' = [] \/ cutOff l l') by (intros l1 T [->|X]; [now left|right; now apply cutOff_later with l1]).
  destruct (isWS (lpeek l)); [intros E; apply IH in E; auto; eapply NX; [apply takes_lnext|exact E]|].
  destruct (isAnn (lpeek l)); [destruct (lpeek (lnext l) =? cChoice); [discriminate|]; intros E; apply IH in E; auto; eapply NX; [apply takes_lnext|exact E]|].
  destruct (parser_sound fuel) as (_ & PP & _ & _ & PC).
  destruct (_ || _).
  { destruct rules as [|r0 rules]; [discriminate|]. inversion F as [|? ? W0 F0]; subst.
    pose proof (PC [r0] [] l us C (Forall_cons _ W0 (Forall_nil _)) ltac:(discriminate) (Forall_nil _)) as X.
    destruct (pChoice fuel [r0] [] l us) as [ch l1 us1| |]; cbn [pbind]; [|discriminate..]. destruct X as [W T _ _]. intros E.
    apply IH in E; [eapply NX; [exact T|exact E]|eapply takes_clean; eassumption|]. constructor; [now apply annotate_wf|exact F0]. }
  destruct (lpeek l =? cSlash) eqn:E1.
  { destruct (lpeek (lnext l) =? cSlash) eqn:E2; [|discriminate]. intros E. apply DONE in E. apply peek_cons in E1; [|unfold cSlash; lia]. apply peek_cons in E2; [|unfold cSlash; lia].
    destruct (dropLine_rest (lnext (lnext l))) as [D|(t & D & NI)]; [left; now rewrite E|]. right. exists [], t. split; [|exact NI]. cbn [app]. rewrite E1, E2 at 1. unfold cSlash. now rewrite E, <- D. }
  pose proof (PP l us C) as X. destruct (pPrim fuel l us) as [r1 l1 us1| |]; cbn [pbind]; [|discriminate..]. destruct X as [W T _ _]. intros E.
  apply IH in E; [eapply NX; [exact T|exact E]|eapply takes_clean; eassumption|]. constructor; [now apply annotate_wf|exact F].
Qed.
Lemma parse_rest l r l' us : clean l -> parseText l = POk r l' us -> l' = [] \/ cutOff l l'.
Proof.
  intros C E. unfold parseText in E. apply loop_rest in E; [|now apply lskip_clean|constructor]. destruct E as [->|X]; [now left|right]. eapply cutOff_later; [apply takes_lskip|exact X].
Qed.
Lemma read_all name text r : clean text -> readAs name text r -> exists body rest r0, trim text = body ++ rest /\ Body body r0 /\ r = setName r0 name /\
  (rest = [] \/ cutOff (trim text) rest).
Proof.
  intros C R. apply readAs_iff in R as [_ (r0 & l & us & P & ->)]. destruct (parse_spells _ _ _ _ P) as (body & E & B). exists body, l, r0. split; [exact E|]. split; [exact B|]. split; [reflexivity|].
  eapply parse_rest; [now apply trim_clean|exact P].
Qed.
Lemma read_line name text r : clean text -> ~ In 10 text -> readAs name text r -> exists r0, Body (trim text) r0 /\ r = setName r0 name.
Proof.
  intros C NL R. destruct (read_all name text r C R) as (body & rest & r0 & E & B & -> & [->|(pre & t & X & _)]); [rewrite app_nil_r in E; rewrite E; eauto|].
  exfalso. destruct (trim_trimmed text) as (w & w' & T & _). apply NL. rewrite T, X. apply in_or_app. right. apply in_or_app. left. apply in_or_app. right. do 2 right. apply in_or_app. right. now left.
Qed.

(* ---------------- ranges ---------------- *)

Lemma high_read t hi hu lo lu : high t hi hu -> inRange (45 :: t) lo lu = Some (RRange noBase lo lu hi hu, []).
Proof.
  intros [c N|x c U|x c U].
  - cbn [inRange]. change (negb (45 =? cDash)) with false. change (39 =? cQuote) with true. cbn iota. rewrite (proj2 (Z.eqb_neq c cBack)) by exact N. reflexivity.
  - destruct (unicode_head x c U) as [y ->]. pose proof (unicode_reads _ _ [39] U) as R. cbn [tl app] in *. cbn [inRange]. change (negb (45 =? cDash)) with false. change (39 =? cQuote) with true.
    change (92 =? cBack) with true. cbn [lpeek]. change (117 =? 117) with true. cbn iota. rewrite R. reflexivity.
  - destruct (unicode_head x c U) as [y ->]. pose proof (unicode_reads _ _ [] U) as R. cbn [tl app] in *. rewrite app_nil_r in R. cbn [inRange]. change (negb (45 =? cDash)) with false. change (92 =? cQuote) with false.
    change (92 =? cBack) with true. cbn iota. rewrite R. reflexivity.
Qed.
Lemma high_last t hi hu : high t hi hu -> lastOk t.
Proof.
  intros [c N|x c U|x c U]; [do 2 apply last_cons; apply last_one; reflexivity|apply last_cons, last_app, last_one; reflexivity|]. now apply unicode_clean in U.
Qed.
Lemma range_read name t lo lu t' hi hu : goodName name -> clean t -> clean t' -> low t lo lu -> high t' hi hu -> readAs name (t ++ 45 :: t') (setName (RRange noBase lo lu hi hu) name).
Proof.
  intros N C C' L H. assert (CL : clean (t ++ 45 :: t')) by (apply clean_app; [exact C|apply clean_cons; [lia|exact C']]).
  assert (LA : lastOk (t ++ 45 :: t')) by (apply last_app, last_cons; eapply high_last, H). pose proof (high_read t' hi hu lo lu H) as R.
  destruct L as [x c u I|x c U].
  - cbn [app] in *. eapply reads_whole; [exact N|apply trim_edged; [apply nonwhite_ws; reflexivity|exact LA]|].
    apply (text_prim 39 _ (RRange noBase c u hi hu)); [apply heads|reflexivity|exact CL|]. apply ev_now. intros n. cbn [pPrim lpeek].
    change (39 =? cQuote) with true. cbn iota. unfold inChar. cbn [lnext tl]. unfold cQuote. rewrite <- app_assoc. cbn [app].
    rewrite (quoted_reads 39 x [c] u ltac:(lia) I _ (45 :: t')) by (cbn [length]; rewrite app_length; lia). cbn [lpeek]. change (45 =? cDash) with true. cbn iota. rewrite R. reflexivity.
  - destruct (unicode_head x c U) as [y ->]. cbn [app] in *. eapply reads_whole; [exact N|apply trim_edged; [apply nonwhite_ws; reflexivity|exact LA]|].
    apply (text_prim 92 _ (RRange noBase c true hi hu)); [apply heads|reflexivity|exact CL|]. apply ev_now. intros n. cbn [pPrim lpeek].
    change (92 =? cQuote) with false. change (92 =? cBack) with true. cbn iota. unfold inUnicode. cbn [lnext tl]. pose proof (unicode_reads _ _ (45 :: t') U) as R1. cbn [tl app] in R1. rewrite R1.
    cbn [lpeek]. change (45 =? cDash) with true. cbn iota. rewrite R. reflexivity.
Qed.

(* ---------------- a text that the notation does not know ---------------- *)

Lemma marked_last m ms : marked m ms -> m = [] \/ exists x c, m = x ++ [c] /\ (In c whiteSpaces \/ In c [126; 35; 36]).
Proof. intros [| | | |]; [now left|right..]; eexists _, _; (split; [reflexivity|]); cbn; tauto. Qed.
Lemma unicode_end t v x : unicode t v -> t = x ++ [41] -> False.
Proof.
  intros (ds & -> & L & D) E. assert (F : Forall (fun c => 48 <= c) ds) by (clear -D; induction D as [|c d l v (B & DO) D IH]; constructor; [lia|exact IH]).
  destruct (exists_last (l := ds)) as (y & c & ->); [intros ->; discriminate|]. apply Forall_app in F as [_ F]. inversion F; subst.
  change (92 :: 117 :: y ++ [c]) with ((92 :: 117 :: y) ++ [c]) in E. apply app_inj_tail in E as [_ ->]. lia.
Qed.
Lemma stray_paren b c u body : Body (body ++ [41]) (RChar b c u) -> exists pre t, body ++ [41] = pre ++ 47 :: 47 :: t /\ ~ In 10 t.
Proof.
  intros B. inversion B as [t rs m ms E N M EQ R|t rs m ms cm E N M CM EQ R]; subst.
  - exfalso. apply marked_last in M as [->|(x & d & -> & D)].
    2:{ rewrite app_assoc in EQ. apply app_inj_tail in EQ as [_ ->]. cbn in D. lia. }
    rewrite app_nil_r in EQ. subst t. destruct rs as [|r [|r2 rs]]; [discriminate| |discriminate]. cbn in R. subst r.
    inversion E as [|t0 rs0 t1 r1 E0 E1 EQ1 R1]; subst. destruct rs0 as [|? rs0]; [|destruct rs0; discriminate]. injection R1 as R1.
    assert (t0 = []) as ->; [remember [] as nil eqn:NL in E0; destruct E0 as [|ta ra tb rb]; [reflexivity|destruct ra; discriminate]|]. cbn [app] in EQ1. subst r1 t1.
    inversion E1 as [m t1 ms1 r0 M1 P EQ2 R2|]; subst; try discriminate.
    destruct r0; try discriminate. inversion P as [x cc uu I EX|x v uu I L EX|x cc U EX|x v uu I EX|t1' lo lu t2' hi hu LO HI EX|EX|cc nn F I EX|x r0 BB EX|x r0 BB EX|x r0 s mn mx BB BO EX|]; subst.
    + change (39 :: x ++ [39]) with ((39 :: x) ++ [39]) in EQ2. rewrite app_assoc in EQ2. apply app_inj_tail in EQ2 as [_ EQ2]. discriminate.
    + assert (t1 <> []) by (destruct (unicode_head _ _ U) as [y ->]; discriminate). destruct (exists_last (l := t1)) as (y & d & ->); [assumption|]. rewrite app_assoc in EQ2. apply app_inj_tail in EQ2 as [_ ->].
      eapply unicode_end; [exact U|reflexivity].
  - destruct CM as [t1 N1|t1 N1].
    + exfalso. change (47 :: 47 :: t1 ++ [10]) with ((47 :: 47 :: t1) ++ [10]) in EQ. rewrite !app_assoc in EQ. apply app_inj_tail in EQ as [_ EQ]. discriminate.
    + exists (t ++ m), t1. split; [rewrite <- app_assoc; now symmetry|exact N1].
Qed.

(* ---------------- forms for the theorems ---------------- *)

Lemma fromString_ends txt k : clean txt -> newGrammarFromString txt <> inr (k, GFuel).
Proof.
  intros C E. destruct (fromString_cases txt (splitLines txt) C (splitLines_lines txt)) as [(g & E' & _)|[(j & e & E' & [B _])|(E' & _)]]; rewrite E in E'; try discriminate.
  injection E' as _ <-. inversion B.
Qed.
Lemma read_spelling name text r : clean text -> readAs name text r -> exists body rest r0, trimmed text (body ++ rest) /\ Body body r0 /\ r = setName r0 name.
Proof. intros C R. destruct (read_all name text r C R) as (body & rest & r0 & E & B & -> & _). exists body, rest, r0. split; [rewrite <- E; apply trim_trimmed|auto]. Qed.
Lemma read_most name text r : clean text -> readAs name text r ->
  exists m body rest r0, trimmed text m /\ m = body ++ rest /\ Body body r0 /\ r = setName r0 name /\
    (rest = [] \/ exists pre t, m = pre ++ 47 :: 47 :: t ++ 10 :: rest /\ ~ In 10 t).
Proof. intros C R. destruct (read_all name text r C R) as (body & rest & r0 & E & B & -> & X). exists (trim text), body, rest, r0. split; [apply trim_trimmed|auto]. Qed.
Lemma read_one_line name text r : clean text -> ~ In 10 text -> readAs name text r -> exists m r0, trimmed text m /\ Body m r0 /\ r = setName r0 name.
Proof. intros C N R. destruct (read_line name text r C N R) as (r0 & B & ->). exists (trim text), r0. split; [apply trim_trimmed|auto]. Qed.
Lemma setName_base r n : b_name (base_of (setName r n)) = n. Proof. now destruct r. Qed.
Lemma print_rereads name r : goodName name -> plain r -> readAs (b_name (base_of (setName r name))) (print (setName r name)) (setName r name).
Proof. intros N P. rewrite setName_base, print_setName. now apply print_read. Qed.
Lemma escape_read name ds v : goodName name -> length ds = 4%nat -> denotes 16 ds v -> readAs name (92 :: 117 :: ds) (setName (RChar noBase v true) name).
Proof. intros N L D. apply unicode_read; [exact N|]. exists ds. auto. Qed.
Lemma hex_value ds : length ds = 4%nat -> (exists v, denotes 16 ds v) <-> Forall (fun c => 48 <= c <= 57 \/ 65 <= c <= 70 \/ 97 <= c <= 102) ds.
Proof.
  intros _. split.
  - intros [v D]. induction D as [|c d l v (B & DO) D IH]; constructor; [lia|exact IH].
  - induction 1 as [|c l H F [v IH]]; [eexists; constructor|].
    assert (X : exists d, digitOf 16 c d) by (destruct H as [H|[H|H]]; [exists (c - 48)|exists (c - 55)|exists (c - 87)]; split; lia). destruct X as [d X]. eexists. now apply den_cons; [exact X|exact IH].
Qed.
