(** What the definition parser accepts is spelled in the notation of SpecParse.v. *)
From Verif Require Import Base Stream StreamFacts Node Rule Parse SpecStream SpecRule TermSpec SpecParse ParseFacts.

Ltac apps := cbn [app]; repeat (rewrite <- app_assoc; cbn [app]); reflexivity.
Lemma lskip_split l : l = ws_prefix l ++ lskip l. Proof. apply ws_prefix_app. Qed.
Lemma white_in c : isWS c = true -> In c whiteSpaces.
Proof. unfold isWS. intros H. apply existsb_exists in H as (x & Hx & E). apply Z.eqb_eq in E. now subst. Qed.

(* ---------------- numbers ---------------- *)

Lemma hexVal_digit c v : hexVal c = Some v <-> digitOf 16 c v.
Proof.
  unfold hexVal, digitOf. destruct ((48 <=? c) && (c <=? 57)) eqn:A; [rewrite andb_true_iff, !Z.leb_le in A|rewrite andb_false_iff, !Z.leb_gt in A].
  { split; [intros [= <-]; lia|]. intros H. f_equal. lia. }
  destruct ((97 <=? c) && (c <=? 102)) eqn:B; [rewrite andb_true_iff, !Z.leb_le in B|rewrite andb_false_iff, !Z.leb_gt in B].
  { split; [intros [= <-]; lia|]. intros H. f_equal. lia. }
  destruct ((65 <=? c) && (c <=? 70)) eqn:D; [rewrite andb_true_iff, !Z.leb_le in D|rewrite andb_false_iff, !Z.leb_gt in D].
  { split; [intros [= <-]; lia|]. intros H. f_equal. lia. }
  split; [discriminate|lia].
Qed.
Lemma digitOf_fun base c v w : digitOf base c v -> digitOf base c w -> v = w.
Proof. unfold digitOf. lia. Qed.
Lemma denotes_fun base l v w : denotes base l v -> denotes base l w -> v = w.
Proof.
  intros H. revert w. induction H as [|c d l v D H IH]; intros w K; inversion K as [|? ? ? ? D' K']; subst; [reflexivity|].
  rewrite (digitOf_fun _ _ _ _ D D'), (IH _ K'). reflexivity.
Qed.
Lemma escape_iff l v l' : parseUnicodeEscape l = Some (v, l') <-> exists t, 92 :: l = t ++ l' /\ unicode t v.
Proof.
  unfold parseUnicodeEscape, unicode. split.
  - destruct l as [|u [|a [|b [|c [|d l]]]]]; try discriminate. destruct (Z.eqb_spec u 117) as [->|]; [|discriminate].
    destruct (hexVal a) as [va|] eqn:A; [|discriminate]. destruct (hexVal b) as [vb|] eqn:B; [|discriminate].
    destruct (hexVal c) as [vc|] eqn:C; [|discriminate]. destruct (hexVal d) as [vd|] eqn:D; [|discriminate].
    intros [= <- <-]. apply hexVal_digit in A, B, C, D. exists [92; 117; a; b; c; d]. split; [reflexivity|]. exists [a; b; c; d]. split; [reflexivity|]. split; [reflexivity|].
    replace (((va * 16 + vb) * 16 + vc) * 16 + vd) with (va * 16 ^ Z.of_nat 3 + (vb * 16 ^ Z.of_nat 2 + (vc * 16 ^ Z.of_nat 1 + (vd * 16 ^ Z.of_nat 0 + 0)))) by (cbn; lia).
    apply (den_cons 16 a va [b; c; d]); [assumption|]. apply (den_cons 16 b vb [c; d]); [assumption|].
    apply (den_cons 16 c vc [d]); [assumption|]. apply (den_cons 16 d vd []); [assumption|constructor].
  - intros (t & E & ds & -> & L & D). injection E as E. subst l. destruct ds as [|a [|b [|c [|d [|? ds]]]]]; try discriminate.
    inversion D as [|? va ? ? A D1]; subst. inversion D1 as [|? vb ? ? B D2]; subst. inversion D2 as [|? vc ? ? C D3]; subst. inversion D3 as [|? vd ? ? X D4]; subst.
    inversion D4; subst. apply hexVal_digit in A, B, C, X. cbn [app]. rewrite Z.eqb_refl, A, B, C, X. f_equal. f_equal. cbn. lia.
Qed.

Lemma isDigit_range c : isDigit c = true <-> 48 <= c <= 57.
Proof. unfold isDigit. rewrite andb_true_iff, !Z.leb_le. reflexivity. Qed.
Lemma decVal_denotes ds : Forall (fun d => isDigit d = true) ds -> denotes 10 ds (decVal ds).
Proof.
  unfold decVal. intros F.
  assert (G : forall a, exists v, denotes 10 ds v /\ fold_left (fun a d => a * 10 + (d - 48)) ds a = a * 10 ^ Z.of_nat (length ds) + v).
  { induction F as [|d ds D F IH]; intros a; [exists 0; split; [constructor|cbn; lia]|]. apply isDigit_range in D.
    cbn [fold_left]. destruct (IH (a * 10 + (d - 48))) as (v & V & E). exists ((d - 48) * 10 ^ Z.of_nat (length ds) + v). split.
    - constructor; [|exact V]. unfold digitOf. lia.
    - rewrite E. cbn [length]. rewrite Nat2Z.inj_succ, Z.pow_succ_r by lia. ring. }
  destruct (G 0) as (v & V & ->). now rewrite Z.mul_0_l.
Qed.
Lemma digitsTo_spaced sc : forall l ds st l', digitsTo sc l = Some (ds, st, l') -> exists t, l = t ++ st :: l' /\ spaced t ds.
Proof.
  induction l as [|c l IH]; intros ds st l' H; cbn [digitsTo] in H; [discriminate|].
  destruct ((c =? 32) || (c =? 9) || (c =? 10)) eqn:B.
  - apply IH in H as (t & -> & S). exists (c :: t). split; [reflexivity|]. constructor; [|exact S].
    rewrite !orb_true_iff, !Z.eqb_eq in B. unfold blank. tauto.
  - destruct (sc && (c =? 44)); [injection H as <- <- <-; exists []; split; [reflexivity|constructor]|].
    destruct (c =? cGt); [injection H as <- <- <-; exists []; split; [reflexivity|constructor]|].
    destruct (isDigit c) eqn:D; [|discriminate]. destruct (digitsTo sc l) as [[[ds1 st1] l1]|]; [|discriminate]. injection H as <- <- <-.
    destruct (IH _ _ _ eq_refl) as (t & -> & S). exists (c :: t). split; [reflexivity|]. constructor; [now apply isDigit_range|exact S].
Qed.
Lemma digitsTo_stop sc : forall l ds st l', digitsTo sc l = Some (ds, st, l') -> st = cGt \/ (sc = true /\ st = 44).
Proof.
  induction l as [|c l IH]; intros ds st l' H; cbn [digitsTo] in H; [discriminate|]. destruct ((c =? 32) || (c =? 9) || (c =? 10)); [eauto|].
  destruct (sc && (c =? 44)) eqn:B; [injection H as <- <- <-; apply andb_true_iff in B as [-> B]; right; split; [reflexivity|now apply Z.eqb_eq]|].
  destruct (Z.eqb_spec c cGt); [injection H as <- <- <-; now left|]. destruct (isDigit c); [|discriminate].
  destruct (digitsTo sc l) as [[[ds1 st1] l1]|]; [|discriminate]. injection H as <- <- <-. eauto.
Qed.
Lemma peek_cons l k : (lpeek l =? k) = true -> 0 <= k -> l = k :: lnext l.
Proof. intros E H. apply Z.eqb_eq in E. destruct l; cbn in E |- *; [unfold EOFChar in E; lia|now subst]. Qed.
Lemma repSuffix_bounds l mn mx l' : repSuffix l = Some (mn, mx, l') -> exists s, l = s ++ l' /\ bounds s mn mx.
Proof.
  unfold repSuffix. destruct (lpeek l =? 42) eqn:E1; [intros [= <- <- <-]; exists [42]; split; [now apply peek_cons|constructor]|].
  destruct (lpeek l =? 43) eqn:E2; [intros [= <- <- <-]; exists [43]; split; [now apply peek_cons|constructor]|].
  destruct (lpeek l =? cLt) eqn:E3; [|intros [= <- <- <-]; exists []; split; [reflexivity|constructor]].
  apply peek_cons in E3; [|unfold cLt; lia]. unfold inRepeatSpec. pose proof (lskip_split (lnext l)) as W.
  destruct (digitsTo true (lskip (lnext l))) as [[[ds st] l1]|] eqn:D1; [|discriminate].
  pose proof (digitsTo_ok _ _ _ _ _ D1) as (_ & F1 & _). pose proof (digitsTo_stop _ _ _ _ _ D1) as S1. apply digitsTo_spaced in D1 as (t & T & SP).
  unfold parseUint32 at 1. destruct (Z.leb_spec (decVal ds) 4294967295) as [L1|]; [|discriminate].
  assert (N1 : number t (decVal ds)) by (exists ds; split; [exact SP|now apply decVal_denotes]).
  assert (WW : white (ws_prefix (lnext l))) by apply ws_prefix_white.
  destruct (Z.eqb_spec st 44) as [->|NC].
  - destruct (digitsTo false l1) as [[[ds2 st2] l2]|] eqn:D2; [|discriminate].
    pose proof (digitsTo_ok _ _ _ _ _ D2) as (_ & F2 & _). pose proof (digitsTo_stop _ _ _ _ _ D2) as [->|[? _]]; [|discriminate].
    apply digitsTo_spaced in D2 as (t2 & T2 & SP2). unfold parseUint32. destruct (Z.leb_spec (decVal ds2) 4294967295) as [L2|]; [|discriminate].
    assert (N2 : number t2 (decVal ds2)) by (exists ds2; split; [exact SP2|now apply decVal_denotes]).
    intros H. assert (B : decVal ds2 = 0 \/ decVal ds <= decVal ds2).
    { destruct (Z.eqb_spec (decVal ds2) 0); [now left|]. cbn [negb andb] in H. destruct (Z.ltb_spec (decVal ds2) (decVal ds)); [discriminate|now right]. }
    destruct (_ && _); [discriminate|]. injection H as <- <- <-. exists (60 :: ws_prefix (lnext l) ++ t ++ 44 :: t2 ++ [62]). split.
    + rewrite E3 at 1. rewrite W at 1. rewrite T, T2. unfold cLt, cGt. cbn [app]. f_equal. rewrite <- !app_assoc. cbn [app]. now rewrite <- app_assoc.
    + apply bd_both; auto; lia.
  - destruct S1 as [->|[_ ?]]; [|congruence]. intros [= <- <- <-]. exists (60 :: ws_prefix (lnext l) ++ t ++ [62]). split.
    + rewrite E3 at 1. rewrite W at 1. rewrite T. unfold cLt, cGt. cbn [app]. f_equal. now rewrite <- !app_assoc.
    + apply bd_min; auto; lia.
Qed.

(* ---------------- literals ---------------- *)

Lemma quoted_inside n q : forall l buf u l', quoted n q l = Some (buf, u, l') -> exists t, l = t ++ q :: l' /\ inside q t buf u.
Proof.
  induction n as [|n IH]; intros l buf u l' H; cbn [quoted] in H; [discriminate|]. destruct l as [|c l1]; [discriminate|].
  destruct (Z.eqb_spec c q) as [->|NQ]; [injection H as <- <- <-; exists []; split; [reflexivity|constructor]|].
  destruct (Z.eqb_spec c cBack) as [->|NB].
  - destruct (Z.eqb_spec (lpeek l1) 117) as [E1|E1].
    + destruct (parseUnicodeEscape l1) as [[v l2]|] eqn:E; [|discriminate]. apply escape_iff in E as (e & E & U).
      destruct (quoted n q l2) as [[[buf1 u1] l3]|] eqn:Q; [|discriminate]. injection H as <- <- <-. apply IH in Q as (t & -> & IN).
      exists (e ++ t). split; [rewrite <- app_assoc; exact E|]. eapply in_unicode; eauto.
    + destruct l1 as [|c1 l2]; [discriminate|]. cbn [lpeek] in E1. destruct (quoted n q l2) as [[[buf1 u1] l3]|] eqn:Q; [|discriminate]. injection H as <- <- <-.
      apply IH in Q as (t & -> & IN). exists (92 :: c1 :: t). split; [reflexivity|]. now constructor.
  - destruct (quoted n q l1) as [[[buf1 u1] l3]|] eqn:Q; [|discriminate]. injection H as <- <- <-. apply IH in Q as (t & -> & IN).
    exists (c :: t). split; [reflexivity|]. now constructor.
Qed.
Lemma inRange_high l lo lu r l' : inRange l lo lu = Some (r, l') -> exists t hi hu, l = 45 :: t ++ l' /\ high t hi hu /\ r = RRange noBase lo lu hi hu.
Proof.
  unfold inRange. destruct l as [|dash [|q l1]]; try discriminate. destruct (Z.eqb_spec dash cDash) as [->|]; cbn [negb]; [|discriminate].
  destruct (Z.eqb_spec q cQuote) as [->|].
  - destruct l1 as [|e l2]; [discriminate|]. destruct (Z.eqb_spec e cBack) as [->|NB].
    + destruct (lpeek l2 =? 117); [|discriminate]. destruct (parseUnicodeEscape l2) as [[hi l3]|] eqn:E; [|discriminate].
      apply escape_iff in E as (t & E & U). destruct (lpeek l3 =? cQuote) eqn:E3; [|discriminate]. apply peek_cons in E3; [|unfold cQuote; lia].
      intros [= <- <-]. exists (39 :: t ++ [39]), hi, true. split; [|split; [now constructor|reflexivity]].
      unfold cDash, cQuote, cBack in *. cbn [app]. f_equal. f_equal. rewrite E, E3 at 1. now rewrite <- app_assoc.
    + destruct (lpeek l2 =? cQuote) eqn:E3; [|discriminate]. apply peek_cons in E3; [|unfold cQuote; lia]. intros [= <- <-].
      exists [39; e; 39], e, false. split; [|split; [now constructor|reflexivity]]. unfold cDash, cQuote in *. cbn [app]. now rewrite E3 at 1.
  - destruct (Z.eqb_spec q cBack) as [->|]; [|discriminate]. destruct (parseUnicodeEscape l1) as [[hi l2]|] eqn:E; [|discriminate].
    apply escape_iff in E as (t & E & U). intros [= <- <-]. exists t, hi, true. split; [|split; [now constructor|reflexivity]].
    unfold cDash, cBack in *. f_equal. exact E.
Qed.
Lemma inChar_prim l r l' : (lpeek l =? cQuote) = true -> inChar l = Some (r, l') -> exists t, l = t ++ l' /\ Prim t r.
Proof.
  intros E. apply peek_cons in E; [|unfold cQuote; lia]. unfold inChar. destruct (quoted (length l) cQuote (lnext l)) as [[[buf u] l1]|] eqn:Q; [|discriminate].
  apply quoted_inside in Q as (t & T & IN). assert (EL : l = (39 :: t ++ [39]) ++ l1).
  { rewrite E, T. unfold cQuote. cbn [app]. f_equal. now rewrite <- app_assoc. }
  destruct buf as [|c [|c2 buf]]; [discriminate| |].
  - destruct (lpeek l1 =? cDash).
    + intros H. apply inRange_high in H as (t' & hi & hu & -> & HI & ->). exists ((39 :: t ++ [39]) ++ 45 :: t'). split; [rewrite EL; now rewrite <- app_assoc|].
      apply p_range; [now constructor|exact HI].
    + intros [= <- <-]. eexists; split; [exact EL|]. now apply p_char.
  - intros [= <- <-]. eexists; split; [exact EL|]. eapply p_chars; [exact IN|cbn; lia].
Qed.
Lemma inUnicode_prim l r l' : (lpeek l =? cBack) = true -> inUnicode l = Some (r, l') -> exists t, l = t ++ l' /\ Prim t r.
Proof.
  intros E. apply peek_cons in E; [|unfold cBack; lia]. unfold inUnicode. destruct (parseUnicodeEscape (lnext l)) as [[v l1]|] eqn:U; [|discriminate].
  apply escape_iff in U as (t & T & U). unfold cBack in E. rewrite <- E in T. destruct (lpeek l1 =? cDash).
  - intros H. apply inRange_high in H as (t' & hi & hu & -> & HI & ->). exists (t ++ 45 :: t'). split; [rewrite T; now rewrite <- app_assoc|].
    apply p_range; [now constructor|exact HI].
  - intros [= <- <-]. exists t. split; [exact T|now apply p_unicode].
Qed.
Lemma goRune_utf8 c : utf8_rune c = goRune c.
Proof.
  unfold utf8_rune, goRune. destruct (Z.ltb_spec c 0), (Z.leb_spec 0 c), (Z.leb_spec 55296 c), (Z.leb_spec c 57343), (Z.ltb_spec 1114111 c), (Z.ltb_spec c 55296), (Z.leb_spec 57344 c), (Z.leb_spec c 1114111); cbn [orb andb]; try reflexivity; lia.
Qed.
Lemma inString_prim l r l' : (lpeek l =? cDQuote) = true -> inString l = Some (r, l') -> exists t, l = t ++ l' /\ Prim t r.
Proof.
  intros E. apply peek_cons in E; [|unfold cDQuote; lia]. unfold inString. destruct (quoted (length l) cDQuote (lnext l)) as [[[buf u] l1]|] eqn:Q; [|discriminate].
  apply quoted_inside in Q as (t & T & IN). intros [= <- <-]. exists (34 :: t ++ [34]). split.
  - rewrite E, T. unfold cDQuote. cbn [app]. f_equal. now rewrite <- app_assoc.
  - rewrite (map_ext _ _ goRune_utf8). eapply p_string; eauto.
Qed.
Lemma firstOf_ok c : isLetter c || (c =? 95) = true -> firstOf c.
Proof. unfold isLetter, firstOf. rewrite !orb_true_iff, !andb_true_iff, !Z.leb_le, Z.eqb_eq. lia. Qed.
Lemma inReference_prim l us r l' us' : isLetter (lpeek l) || (lpeek l =? 95) = true -> inReference l us = POk r l' us' -> exists t, l = t ++ l' /\ Prim t r.
Proof.
  intros E. assert (S0 : lskip l = l).
  { destruct l as [|c l]; [reflexivity|]. unfold lskip. cbn [ws_prefix lpeek] in *. assert (W : isWS c = false); [|now rewrite W].
    destruct (isWS c) eqn:W; [|reflexivity]. apply white_in in W. apply firstOf_ok in E. unfold firstOf in E.
    repeat (destruct W as [W|W]; [lia|]). destruct W. }
  intros H. pose proof (inReference_ok _ _ _ _ _ H) as (_ & WF & _). revert H. unfold inReference. rewrite S0, E. cbn [negb].
  pose proof (span_ok isRefChar (lnext l)) as (S1 & _). destruct (span isRefChar (lnext l)) as [nm l2]. cbn [fst snd] in S1.
  assert (EL : l = (lpeek l :: nm) ++ l2). { destruct l; [discriminate|]. cbn in *. now f_equal. }
  destruct (runes_eqb (lpeek l :: nm) nameEOF) eqn:EE; intros [= <- <- <-]; (exists (lpeek l :: nm); split; [exact EL|]).
  - apply runes_eqb_eq in EE. rewrite EE. constructor.
  - inversion WF; subst. apply p_ref; [now apply firstOf_ok|assumption].
Qed.

(* ---------------- rules ---------------- *)

Definition marksOf (a : ann) : marks := mkMarks (a_tok a) (a_nondata a) (a_virt a).
Lemma annotate_marks a r : annotate a r = withMarks (marksOf a) r. Proof. reflexivity. Qed.
Lemma marked_white w : white w -> marked w (marksOf noAnn).
Proof.
  intros W. rewrite <- (rev_involutive w). assert (W' : white (rev w)) by now apply Forall_rev. clear W. induction W' as [|d l H W IH]; [constructor|]. cbn [rev]. now apply mk_white.
Qed.
Lemma marked_add an a c : isAnn c = true -> marked an (marksOf a) -> marked (an ++ [c]) (marksOf (addAnn a c)).
Proof.
  unfold isAnn, addAnn, marksOf, cVirt, cNonData, cTok. intros E M. destruct (Z.eqb c 126) eqn:E1; [apply Z.eqb_eq in E1; rewrite E1; apply (mk_virt _ _ M)|].
  destruct (Z.eqb c 35) eqn:E2; [apply Z.eqb_eq in E2; rewrite E2; apply (mk_nondata _ _ M)|]. cbn [orb] in E. apply Z.eqb_eq in E. rewrite E. apply (mk_tok _ _ M).
Qed.
Lemma grouped_not_nil r alts : grouped r alts <> [].
Proof. revert r. induction alts as [|[[] x] alts IH]; intros r; cbn; try discriminate. destruct (grouped x alts); discriminate. Qed.
Lemma grouped_ordered r alts x : grouped r (alts ++ [(true, x)]) = grouped r alts ++ [[x]].
Proof.
  revert r. induction alts as [|[[] y] alts IH]; intros r; cbn; [reflexivity|now rewrite IH|].
  rewrite IH. pose proof (grouped_not_nil y alts). destruct (grouped y alts); [congruence|reflexivity].
Qed.
Lemma grouped_plain r alts x gs g : grouped r alts = gs ++ [g] -> grouped r (alts ++ [(false, x)]) = gs ++ [g ++ [x]].
Proof.
  revert r gs g. induction alts as [|[[] y] alts IH]; intros r gs g E; cbn in *.
  - destruct gs as [|? [|? ?]]; [|discriminate..]. injection E as <-. reflexivity.
  - destruct gs as [|g0 gs]. { injection E as <- E. now apply grouped_not_nil in E. }
    injection E as <- E. cbn. f_equal. now apply IH.
  - pose proof (grouped_not_nil y alts). destruct (grouped y alts) as [|h hs] eqn:G; [congruence|]. destruct gs as [|g0 gs].
    + injection E as <- ->. rewrite (IH y [] h) by now rewrite G. reflexivity.
    + injection E as <- ->. rewrite (IH y (h :: gs) g) by now rewrite G. reflexivity.
Qed.
Lemma finish_sequence rules r : finish rules = Some r -> r = sequence (rev rules) /\ rev rules <> [].
Proof.
  unfold finish. destruct rules as [|x [|y rules]]; [discriminate| |].
  - intros [= <-]. now split.
  - intros H. assert (E : r = RConcat noBase (rev (x :: y :: rules))) by congruence. rewrite E. split.
    + unfold sequence. destruct (rev (x :: y :: rules)) as [|a [|b l]] eqn:R; try reflexivity.
      apply (f_equal (@length rule)) in R. rewrite rev_length in R. discriminate.
    + intros R. apply (f_equal (@length rule)) in R. rewrite rev_length in R. discriminate.
Qed.
Lemma dropLine_comment l : exists c, 47 :: 47 :: l = c ++ dropLine l /\ comment c.
Proof.
  assert (G : exists t, (~ In 10 t) /\ (l = t ++ 10 :: dropLine l \/ (l = t /\ dropLine l = []))).
  { induction l as [|c l (t & N & IH)]; cbn [dropLine]; [exists []; split; [intros []|now right]|].
    destruct (Z.eqb_spec c 10) as [->|NC]; [exists []; split; [intros []|now left]|]. exists (c :: t). split; [now intros [E|E]|].
    destruct IH as [IH|[IH ->]]; [left|right]; cbn; [now rewrite IH at 1|]. now rewrite IH. }
  destruct G as (t & N & [G|[G ->]]).
  - exists (47 :: 47 :: t ++ [10]). split; [|now constructor]. rewrite G at 1. cbn. now rewrite <- app_assoc.
  - exists (47 :: 47 :: t). subst l. split; [now rewrite app_nil_r|now constructor].
Qed.

Lemma parser_spells fuel :
  (forall terms rules a l us r l' us', pLoop fuel terms rules a l us = POk r l' us' ->
     forall pre an, Elems pre (rev rules) -> marked an (marksOf a) -> exists body, pre ++ an ++ l = body ++ l' /\ Body body r) /\
  (forall l us r l' us', pPrim fuel l us = POk r l' us' -> exists t, l = t ++ l' /\ Prim t r) /\
  (forall o e xs l us r l' us', pExcl fuel o e xs l us = POk r l' us' ->
     forall to te tx p, Body to o -> Escape te e -> Excl tx (rev xs) -> white p -> exists t, 60 :: to ++ te ++ tx ++ p ++ l = t ++ l' /\ Prim t r) /\
  (forall a l us r l' us', pOne fuel a l us = POk r l' us' ->
     forall an, marked an (marksOf a) -> exists m ms t r0, an ++ l = m ++ t ++ l' /\ marked m ms /\ Prim t r0 /\ r = withMarks ms r0) /\
  (forall rules gs l us r l' us', pChoice fuel rules gs l us = POk r l' us' ->
     forall r0 pre alts p, Alts pre alts -> white p -> grouped r0 alts = rev (rev rules :: gs) ->
     exists body w alts', pre ++ p ++ l = body ++ w ++ l' /\ Alts body alts' /\ alts' <> [] /\ white w /\ r = RChoice noBase (grouped r0 alts')).
Proof.
  induction fuel as [|fuel (IL & IP & IX & IO & IC)]; [repeat split; intros; discriminate|].
  assert (BODYP : forall p terms l us r l' us', white p -> pLoop fuel terms [] noAnn (lskip l) us = POk r l' us' -> exists body, p ++ l = body ++ l' /\ Body body r).
  { intros p terms l us r l' us' W H. destruct (IL _ _ _ _ _ _ _ _ H [] (p ++ ws_prefix l)) as (body & E & B);
      [constructor|apply marked_white, Forall_app; split; [exact W|apply ws_prefix_white]|].
    exists body. split; [|exact B]. rewrite <- E. cbn [app]. rewrite <- app_assoc. now rewrite <- lskip_split. }
  assert (BODY : forall terms l us r l' us', pLoop fuel terms [] noAnn (lskip l) us = POk r l' us' -> exists body, l = body ++ l' /\ Body body r).
  { intros terms l us r l' us'. apply (BODYP []). constructor. }
  repeat split.
  - intros terms rules a l us r l' us' H pre an EL MA. cbn [pLoop] in H.
    assert (DONE : forall l1, match finish rules with Some r => POk r l1 us | None => PErr us end = POk r l' us' -> l1 = l' /\ r = sequence (rev rules) /\ rev rules <> []).
    { intros l1 E. destruct (finish rules) as [x|] eqn:F; [|discriminate]. injection E as <- <- _. split; [reflexivity|]. now apply finish_sequence. }
    destruct (lpeek l =? EOFChar) eqn:E0.
    { apply DONE in H as (<- & -> & N). exists (pre ++ an). split; [now rewrite app_assoc|]. eapply bo_plain; eauto. }
    apply Z.eqb_neq in E0. assert (EL1 : l = lpeek l :: lnext l) by (destruct l; [now destruct E0|reflexivity]).
    destruct (existsb _ terms).
    { apply DONE in H as (<- & -> & N). exists (pre ++ an). split; [now rewrite app_assoc|]. eapply bo_plain; eauto. }
    destruct (isWS (lpeek l)) eqn:E1.
    { destruct (IL _ _ _ _ _ _ _ _ H pre (an ++ [lpeek l]) EL) as (body & E & B); [apply mk_white; [now apply white_in|exact MA]|].
      exists body. split; [|exact B]. rewrite <- E, EL1 at 1. now rewrite <- app_assoc. }
    destruct (isAnn (lpeek l)) eqn:E2.
    { destruct (lpeek (lnext l) =? cChoice); [discriminate|].
      destruct (IL _ _ _ _ _ _ _ _ H pre (an ++ [lpeek l]) EL) as (body & E & B); [now apply marked_add|].
      exists body. split; [|exact B]. rewrite <- E, EL1 at 1. now rewrite <- app_assoc. }
    destruct ((lpeek l =? cChoice) || (lpeek l =? cGt)).
    { destruct rules as [|r0 rules]; [discriminate|]. destruct (pChoice fuel [r0] [] l us) as [ch l1 us1| |] eqn:EC; cbn [pbind] in H; [|discriminate..].
      destruct (IC _ _ _ _ _ _ _ EC r0 [] [] []) as (body & w & alts' & E & A & N & W & ->); [constructor|constructor|reflexivity|]. cbn [app] in E.
      cbn [rev] in EL. inversion EL as [|t rs t' r' HE HR X Y]; [destruct (rev rules); discriminate|]. apply app_inj_tail in Y as [-> ->]. subst pre.
      destruct (IL _ _ _ _ _ _ _ _ H (t ++ t' ++ an ++ body) w) as (b & EB & B).
      - cbn [rev]. rewrite annotate_marks. apply es_snoc; [exact HE|]. now apply el_choice.
      - now apply marked_white.
      - exists b. split; [|exact B]. rewrite <- EB, E. now rewrite <- !app_assoc. }
    destruct (lpeek l =? cSlash) eqn:E3.
    { destruct (lpeek (lnext l) =? cSlash) eqn:E4; [|discriminate]. apply DONE in H as (<- & -> & N).
      apply peek_cons in E3; [|unfold cSlash; lia]. apply peek_cons in E4; [|unfold cSlash; lia].
      destruct (dropLine_comment (lnext (lnext l))) as (c & EC & CM). exists (pre ++ an ++ c). split; [|eapply bo_comment; eauto].
      rewrite <- !app_assoc. f_equal. f_equal. rewrite <- EC. unfold cSlash in *. rewrite E3 at 1. now rewrite E4 at 1. }
    destruct (pPrim fuel l us) as [x l1 us1| |] eqn:EP; cbn [pbind] in H; [|discriminate..]. apply IP in EP as (t & T & P).
    destruct (IL _ _ _ _ _ _ _ _ H (pre ++ an ++ t) []) as (b & EB & B).
    + cbn [rev]. rewrite annotate_marks. apply es_snoc; [exact EL|]. now apply el_prim.
    + constructor.
    + exists b. split; [|exact B]. rewrite <- EB, T. now rewrite <- !app_assoc.
  - intros l us r l' us' H. cbn [pPrim] in H.
    assert (LIFT : forall o, lift o us = POk r l' us' -> o = Some (r, l')) by (intros [[? ?]|]; cbn; intros E; now inversion E).
    destruct (lpeek l =? cQuote) eqn:E1; [apply LIFT in H; now apply inChar_prim|].
    destruct (lpeek l =? cBack) eqn:E2; [apply LIFT in H; now apply inUnicode_prim|].
    destruct (lpeek l =? cDQuote) eqn:E3; [apply LIFT in H; now apply inString_prim|].
    destruct (lpeek l =? cLBrack) eqn:E4.
    { destruct (pLoop fuel [cRBrack] [] noAnn (lskip (lnext l)) us) as [x l1 us1| |] eqn:EL; cbn [pbind] in H; [|discriminate..].
      apply BODY in EL as (b & E & B). destruct (lpeek l1 =? cRBrack) eqn:E5; [|discriminate]. injection H as <- <- <-.
      apply peek_cons in E4; [|unfold cLBrack; lia]. apply peek_cons in E5; [|unfold cRBrack; lia]. exists (91 :: b ++ [93]). split; [|now constructor].
      rewrite E4, E, E5 at 1. unfold cLBrack, cRBrack. cbn [app]. now rewrite <- app_assoc. }
    destruct (lpeek l =? cLBrace) eqn:E5.
    { destruct (pLoop fuel [cRBrace] [] noAnn (lskip (lnext l)) us) as [x l1 us1| |] eqn:EL; cbn [pbind] in H; [|discriminate..].
      apply BODY in EL as (b & E & B). destruct (lpeek l1 =? cRBrace) eqn:E6; [|discriminate].
      destruct (repSuffix (lnext l1)) as [[[mn mx] l2]|] eqn:ER; [|discriminate]. injection H as <- <- <-. apply repSuffix_bounds in ER as (s & ES & BD).
      apply peek_cons in E5; [|unfold cLBrace; lia]. apply peek_cons in E6; [|unfold cRBrace; lia]. exists (123 :: b ++ 125 :: s). split; [|now constructor].
      rewrite E5, E, E6, ES at 1. unfold cLBrace, cRBrace. cbn [app]. now rewrite <- app_assoc. }
    destruct (lpeek l =? cLt) eqn:E6.
    { apply peek_cons in E6; [|unfold cLt; lia]. unfold cLt in E6.
      destruct (pLoop fuel termsBlock [] noAnn (lskip (lnext l)) us) as [o l1 us1| |] eqn:EL; cbn [pbind] in H; [|discriminate..].
      apply BODY in EL as (bo & EO & BO). pose proof (lskip_split l1) as W1.
      destruct (lpeek (lskip l1) =? cNeg) eqn:E7; cbn [negb] in H.
      - destruct (IX _ _ _ _ _ _ _ _ H bo [] [] (ws_prefix l1) BO es_none ex_nil (ws_prefix_white l1)) as (t & T & P).
        exists t. split; [|exact P]. rewrite <- T. cbn [app]. rewrite <- W1, <- EO. exact E6.
      - destruct (pLoop fuel termsBlock [] noAnn (lskip (lskip l1)) us1) as [x l3 us2| |] eqn:EL2; cbn [pbind] in H; [|discriminate..].
        apply (BODYP (ws_prefix l1)) in EL2 as (bx & EX & BX); [|apply ws_prefix_white]. rewrite <- W1 in EX. pose proof (lskip_split l3) as W3.
        destruct (lpeek (lskip l3) =? cGt) eqn:E8.
        { injection H as <- <- <-. apply peek_cons in E8; [|unfold cGt; lia]. exists (60 :: bo ++ [] ++ [] ++ bx ++ ws_prefix l3 ++ [62]). split.
          - rewrite E6, EO, EX, W3, E8 at 1. unfold cGt. apps.
          - apply p_block; auto; [constructor|constructor|]. apply cl_real, ws_prefix_white. }
        destruct (lpeek (lskip l3) =? cBang) eqn:E9.
        { apply peek_cons in E9; [|unfold cBang; lia]. destruct (lpeek (lskip (lnext (lskip l3))) =? cGt) eqn:E10; [|discriminate]. apply peek_cons in E10; [|unfold cGt; lia].
          injection H as <- <- <-. pose proof (lskip_split (lnext (lskip l3))) as W4.
          exists (60 :: bo ++ [] ++ [] ++ bx ++ (ws_prefix l3 ++ 33 :: ws_prefix (lnext (lskip l3))) ++ [62]). split.
          - rewrite E6, EO, EX, W3, E9, W4, E10 at 1. unfold cGt, cBang. apps.
          - apply p_block; auto; [constructor|constructor|]. apply cl_virtual; apply ws_prefix_white. }
        destruct (IX _ _ _ _ _ _ _ _ H bo bx [] (ws_prefix l3) BO (es_some _ _ BX) ex_nil (ws_prefix_white l3)) as (t & T & P).
        exists t. split; [|exact P]. rewrite <- T. cbn [app]. rewrite <- W3, <- EX, <- EO. exact E6. }
    destruct (lpeek l =? cLPar) eqn:E7.
    { destruct (pLoop fuel [cRPar] [] noAnn (lskip (lnext l)) us) as [x l1 us1| |] eqn:EL; cbn [pbind] in H; [|discriminate..].
      apply BODY in EL as (b & E & B). destruct (lpeek l1 =? cRPar) eqn:E8; [|discriminate]. injection H as <- <- <-.
      apply peek_cons in E7; [|unfold cLPar; lia]. apply peek_cons in E8; [|unfold cRPar; lia]. exists (40 :: b ++ [41]). split; [|now constructor].
      rewrite E7, E, E8 at 1. unfold cLPar, cRPar. cbn [app]. now rewrite <- app_assoc. }
    destruct (isLetter (lpeek l) || (lpeek l =? 95)) eqn:E8; [|discriminate]. eapply inReference_prim; eauto.
  - intros o e xs l us r l' us' H to te tx p BO ES EX WP. cbn [pExcl] in H. pose proof (lskip_split l) as W.
    destruct (lpeek (lskip l) =? cNeg) eqn:E0.
    + apply peek_cons in E0; [|unfold cNeg; lia].
      destruct (pLoop fuel termsBlock [] noAnn (lskip (lnext (lskip l))) us) as [x l2 us1| |] eqn:EL; cbn [pbind] in H; [|discriminate..].
      apply BODY in EL as (b & E & B).
      destruct (IX _ _ _ _ _ _ _ _ H to te (tx ++ (p ++ ws_prefix l) ++ 94 :: b) [] BO ES) as (t & T & P).
      * cbn [rev]. apply ex_snoc; auto. apply Forall_app. split; [exact WP|apply ws_prefix_white].
      * constructor.
      * exists t. split; [|exact P]. rewrite <- T. rewrite W, E0, E at 1. unfold cNeg. apps.
    + destruct (pLoop fuel termsClose [] noAnn (lskip (lskip l)) us) as [cl l2 us1| |] eqn:EL; cbn [pbind] in H; [|discriminate..].
      apply (BODYP (p ++ ws_prefix l)) in EL as (b & E & B); [|apply Forall_app; split; [exact WP|apply ws_prefix_white]].
      rewrite <- app_assoc, <- W in E. rewrite E. destruct (lpeek l2 =? cBang) eqn:E1.
      * apply peek_cons in E1; [|unfold cBang; lia]. destruct (lpeek (lskip (lnext l2)) =? cGt) eqn:E2; [|discriminate]. apply peek_cons in E2; [|unfold cGt; lia].
        injection H as <- <- <-. pose proof (lskip_split (lnext l2)) as W2. exists (60 :: to ++ te ++ tx ++ b ++ ([] ++ 33 :: ws_prefix (lnext l2)) ++ [62]). split.
        -- rewrite E1, W2, E2 at 1. unfold cBang, cGt. apps.
        -- apply p_block; auto. apply cl_virtual; [constructor|apply ws_prefix_white].
      * destruct (lpeek l2 =? cGt) eqn:E2; [|discriminate]. apply peek_cons in E2; [|unfold cGt; lia]. injection H as <- <- <-.
        exists (60 :: to ++ te ++ tx ++ b ++ [] ++ [62]). split.
        -- rewrite E2 at 1. unfold cGt. apps.
        -- apply p_block; auto. apply cl_real. constructor.
  - intros a l us r l' us' H an MA. cbn [pOne] in H.
    destruct ((lpeek l =? 32) || (lpeek l =? 10) || (lpeek l =? 9) || (lpeek l =? 13)) eqn:E.
    { assert (NE : lpeek l <> EOFChar) by (intros X; rewrite X in E; discriminate). assert (EL1 : l = lpeek l :: lnext l) by (destruct l; [now destruct NE|reflexivity]).
      destruct (IO _ _ _ _ _ _ H (an ++ [lpeek l])) as (m & ms & t & r0 & EQ & M & P & R).
      - apply mk_white; [|exact MA]. rewrite !orb_true_iff, !Z.eqb_eq in E. destruct E as [[[-> | ->]| ->]| ->]; cbn; tauto.
      - exists m, ms, t, r0. split; [|auto]. rewrite <- EQ, EL1 at 1. now rewrite <- app_assoc. }
    destruct (lpeek l =? EOFChar) eqn:E0; [discriminate|]. apply Z.eqb_neq in E0. assert (EL1 : l = lpeek l :: lnext l) by (destruct l; [now destruct E0|reflexivity]).
    destruct (isAnn (lpeek l)) eqn:E2.
    { destruct (lpeek (lnext l) =? cChoice); [discriminate|].
      destruct (IO _ _ _ _ _ _ H (an ++ [lpeek l])) as (m & ms & t & r0 & EQ & M & P & R); [now apply marked_add|].
      exists m, ms, t, r0. split; [|auto]. rewrite <- EQ, EL1 at 1. now rewrite <- app_assoc. }
    destruct (pPrim fuel l us) as [x l1 us1| |] eqn:EP; cbn [pbind] in H; [|discriminate..]. apply IP in EP as (t & -> & P). injection H as <- <- <-.
    exists an, (marksOf a), t, x. now rewrite annotate_marks.
  - intros rules gs l us r l' us' H r0 pre alts p AL WP G. cbn [pChoice] in H.
    destruct (lpeek l =? cSpace) eqn:E0.
    { apply peek_cons in E0; [|unfold cSpace; lia].
      destruct (IC _ _ _ _ _ _ _ H r0 pre alts (p ++ [32]) AL) as (b & w & alts' & EQ & A & N & W & R); [apply Forall_app; split; [exact WP|repeat constructor; cbn; tauto]|exact G|].
      exists b, w, alts'. split; [|auto]. rewrite <- EQ, E0 at 1. unfold cSpace. now rewrite <- app_assoc. }
    assert (STEP : forall o x m ms t, marked m ms -> Prim t x -> Alts (pre ++ p ++ sign o :: m ++ t) (alts ++ [(o, withMarks ms x)])).
    { intros. now apply al_snoc. }
    destruct (lpeek l =? cChoice) eqn:E1.
    { apply peek_cons in E1; [|unfold cChoice; lia]. destruct (pOne fuel noAnn (lnext l) us) as [x l1 us1| |] eqn:EO; cbn [pbind] in H; [|discriminate..].
      destruct (IO _ _ _ _ _ _ EO []) as (m & ms & t & x0 & EQ & M & P & ->); [constructor|].
      specialize (STEP false x0 m ms t M P).
      destruct (IC _ _ _ _ _ _ _ H r0 _ _ [] STEP) as (b & w & alts' & EQ2 & A & N & W & R); [constructor| |].
      - cbn [rev] in G |- *. now apply grouped_plain.
      - exists b, w, alts'. split; [|auto]. rewrite <- EQ2, E1 at 1. cbn [app] in EQ. rewrite EQ. unfold cChoice, sign. apps. }
    destruct (lpeek l =? cGt) eqn:E2.
    { apply peek_cons in E2; [|unfold cGt; lia]. destruct rules as [|r1 rules0] eqn:ER; [discriminate|]. rewrite <- ER in *. clear ER.
      destruct (pOne fuel noAnn (lnext l) us) as [x l1 us1| |] eqn:EO; cbn [pbind] in H; [|discriminate..].
      destruct (IO _ _ _ _ _ _ EO []) as (m & ms & t & x0 & EQ & M & P & ->); [constructor|].
      specialize (STEP true x0 m ms t M P).
      destruct (IC _ _ _ _ _ _ _ H r0 _ _ [] STEP) as (b & w & alts' & EQ2 & A & N & W & R); [constructor| |].
      - rewrite grouped_ordered, G. reflexivity.
      - exists b, w, alts'. split; [|auto]. rewrite <- EQ2, E2 at 1. cbn [app] in EQ. rewrite EQ. unfold cGt, sign. apps. }
    assert (FIN : forall ch, alts <> [] -> POk (RChoice noBase (rev (rev rules :: gs))) l us = POk r l' us' -> ch = r ->
      exists body w alts', pre ++ p ++ l = body ++ w ++ l' /\ Alts body alts' /\ alts' <> [] /\ white w /\ r = RChoice noBase (grouped r0 alts')).
    { intros ch N E _. assert (l = l') by congruence. assert (ER : r = RChoice noBase (rev (rev rules :: gs))) by congruence. subst l'. exists pre, p, alts. rewrite G. auto. }
    destruct gs as [|g0 gs].
    + destruct rules as [|x [|y rules]]; [discriminate..|]. apply (FIN r); auto. intros ->. cbn in G. injection G as G.
      apply (f_equal (@length rule)) in G. cbn in G. rewrite !app_length in G. cbn in G. lia.
    + assert (N : alts <> []). { intros ->. apply (f_equal (@length (list rule))) in G. rewrite rev_length in G. discriminate. }
      destruct rules; apply (FIN r); auto.
Qed.

Lemma parse_spells l r l' us : parseText l = POk r l' us -> exists body, l = body ++ l' /\ Body body r.
Proof.
  unfold parseText. intros H. destruct (parser_spells (parseFuel l)) as (IL & _).
  destruct (IL _ _ _ _ _ _ _ _ H [] (ws_prefix l)) as (body & E & B); [constructor|apply marked_white, ws_prefix_white|].
  exists body. split; [|exact B]. rewrite <- E. apply lskip_split.
Qed.
