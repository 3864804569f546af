(** Facts about the definition parser. *)
From Verif Require Import Base Stream StreamFacts Node Rule Parse SpecStream SpecRule SpecParse.

(** The parser's view of a stream as the list of runes still to be read. *)
Lemma base_stream_is_list s : peek s = lpeek (rest s) /\ fst (next s) = lpeek (rest s) /\ rest (snd (next s)) = lnext (rest s) /\ rest (snd (skipSpaces s)) = lskip (rest s).
Proof.
  split; [apply peek_rest|]. split; [|split; [apply next1_rest|]].
  - destruct (rest s) as [|c l] eqn:E; [now rewrite (next_rest_nil s E)|]. destruct (moves_next s c l E) as (t & -> & _). reflexivity.
  - destruct (skip_spec s) as (t & -> & M). cbn [snd]. now rewrite (moves_rest _ _ _ M).
Qed.


(* ---------------- taking from the front ---------------- *)

Lemma takes_refl l : takes l l. Proof. now exists []. Qed.
Lemma takes_trans a b c : takes a b -> takes b c -> takes a c.
Proof. intros (p & ->) (q & ->). exists (p ++ q). now rewrite app_assoc. Qed.
Lemma some_takes a b : takesSome a b -> takes a b.
Proof. intros (c & p & ->). now exists (c :: p). Qed.
Lemma some_trans a b c : takesSome a b -> takes b c -> takesSome a c.
Proof. intros (x & p & ->) (q & ->). exists x, (p ++ q). now rewrite app_assoc. Qed.
Lemma trans_some a b c : takes a b -> takesSome b c -> takesSome a c.
Proof. intros ([|x p] & ->) (y & q & ->); [now exists y, q|]. exists x, (p ++ y :: q). cbn. now rewrite <- app_assoc. Qed.
Lemma takes_len a b : takes a b -> (length b <= length a)%nat.
Proof. intros (p & ->). rewrite app_length. lia. Qed.
Lemma some_len a b : takesSome a b -> (length b < length a)%nat.
Proof. intros (c & p & ->). cbn. rewrite app_length. lia. Qed.
Lemma takes_clean a b : takes a b -> clean a -> clean b.
Proof. intros (p & ->) C. now apply clean_app in C. Qed.
Lemma takes_lnext l : takes l (lnext l).
Proof. destruct l as [|c l]; [apply takes_refl|now exists [c]]. Qed.
Lemma some_lnext l : lpeek l <> EOFChar -> takesSome l (lnext l).
Proof. destruct l as [|c l]; [now intros []|]. intros _. exists c, []. reflexivity. Qed.
Lemma takes_lskip l : takes l (lskip l).
Proof. exists (ws_prefix l). apply ws_prefix_app. Qed.
Lemma takes_cons c l : takes (c :: l) l. Proof. now exists [c]. Qed.
Lemma some_cons c l : takesSome (c :: l) l. Proof. now exists c, []. Qed.
Lemma dropLine_takes l : takes l (dropLine l).
Proof.
  induction l as [|c l IH]; [apply takes_refl|]. cbn [dropLine]. destruct (c =? 10); [apply takes_cons|]. eapply takes_trans; [apply takes_cons|exact IH].
Qed.
Ltac takes :=
  repeat first [assumption | apply takes_refl | apply takes_cons | apply takes_lnext | apply takes_lskip | (eapply takes_trans; [apply takes_cons|])].

(* ---------------- terminals ---------------- *)

Lemma hexVal_pos c v : hexVal c = Some v -> 0 <= v < 16.
Proof.
  unfold hexVal. destruct ((48 <=? c) && (c <=? 57)) eqn:A; [intros [= <-]; rewrite andb_true_iff, !Z.leb_le in A; lia|].
  destruct ((97 <=? c) && (c <=? 102)) eqn:B; [intros [= <-]; rewrite andb_true_iff, !Z.leb_le in B; lia|].
  destruct ((65 <=? c) && (c <=? 70)) eqn:D; [intros [= <-]; rewrite andb_true_iff, !Z.leb_le in D; lia|discriminate].
Qed.
Lemma escape_ok l v l' : parseUnicodeEscape l = Some (v, l') -> takesSome l l' /\ 0 <= v < 65536.
Proof.
  unfold parseUnicodeEscape. destruct l as [|u [|a [|b [|c [|d l]]]]]; try discriminate. destruct (u =? 117); [|discriminate].
  destruct (hexVal a) as [va|] eqn:A; [|discriminate]. destruct (hexVal b) as [vb|] eqn:B; [|discriminate].
  destruct (hexVal c) as [vc|] eqn:C; [|discriminate]. destruct (hexVal d) as [vd|] eqn:D; [|discriminate].
  intros [= <- <-]. apply hexVal_pos in A, B, C, D. split; [|lia]. now exists u, [a; b; c; d].
Qed.
Lemma inRange_ok l lo lu r l' : inRange l lo lu = Some (r, l') -> 0 <= lo -> clean l ->
  takesSome l l' /\ wfRule r /\ refs r = [] /\ exists hi hu, r = RRange noBase lo lu hi hu.
Proof.
  unfold inRange. destruct l as [|dash [|q l1]]; try discriminate. destruct (dash =? cDash); cbn [negb]; [|discriminate].
  intros H LO C. assert (T0 : takesSome (dash :: q :: l1) l1) by (now exists dash, [q]).
  assert (C1 : clean l1) by (eapply takes_clean; [apply some_takes; exact T0|exact C]).
  assert (K : forall hi hu, 0 <= hi -> wfRule (RRange noBase lo lu hi hu) /\ refs (RRange noBase lo lu hi hu) = [] /\
    exists h u, RRange noBase lo lu hi hu = RRange noBase lo lu h u) by (intros hi hu Hh; split; [now constructor|split; [reflexivity|eauto]]).
  destruct (q =? cQuote).
  - destruct l1 as [|e l2]; [discriminate|]. assert (T1 : takes (e :: l2) l2) by apply takes_cons. destruct (e =? cBack).
    + destruct (lpeek l2 =? 117); [|discriminate]. destruct (parseUnicodeEscape l2) as [[hi l3]|] eqn:E; [|discriminate].
      apply escape_ok in E as [T2 V]. destruct (lpeek l3 =? cQuote); [|discriminate]. injection H as <- <-. split.
      * eapply some_trans; [exact T0|]. eapply takes_trans; [exact T1|]. eapply takes_trans; [apply some_takes; exact T2|apply takes_lnext].
      * apply K. lia.
    + destruct (lpeek l2 =? cQuote); [|discriminate]. injection H as <- <-. split.
      * eapply some_trans; [exact T0|]. eapply takes_trans; [exact T1|apply takes_lnext].
      * apply K. now inversion C1.
  - destruct (q =? cBack); [|discriminate]. destruct (parseUnicodeEscape l1) as [[hi l2]|] eqn:E; [|discriminate].
    apply escape_ok in E as [T2 V]. injection H as <- <-. split; [eapply some_trans; [exact T0|now apply some_takes]|apply K; lia].
Qed.
Lemma quoted_ok n q : forall l buf u l', quoted n q l = Some (buf, u, l') -> takesSome l l' /\ (clean l -> clean buf).
Proof.
  induction n as [|n IH]; intros l buf u l' H; cbn [quoted] in H; [discriminate|]. destruct l as [|c l1]; [discriminate|].
  destruct (c =? q); [injection H as <- <- <-; split; [apply some_cons|constructor]|].
  destruct (c =? cBack).
  - destruct (lpeek l1 =? 117).
    + destruct (parseUnicodeEscape l1) as [[v l2]|] eqn:E; [|discriminate]. apply escape_ok in E as [T V].
      destruct (quoted n q l2) as [[[buf1 u1] l3]|] eqn:Q; [|discriminate]. injection H as <- <- <-. apply IH in Q as [T2 C2]. split.
      * eapply some_trans; [apply some_cons|]. eapply takes_trans; [apply some_takes; exact T|now apply some_takes].
      * intros C. inversion C; subst. constructor; [lia|]. apply C2. eapply takes_clean; [apply some_takes; exact T|assumption].
    + destruct l1 as [|c1 l2]; [discriminate|]. destruct (quoted n q l2) as [[[buf1 u1] l3]|] eqn:Q; [|discriminate]. injection H as <- <- <-.
      apply IH in Q as [T2 C2]. split.
      * eapply some_trans; [apply some_cons|]. eapply takes_trans; [apply takes_cons|now apply some_takes].
      * intros C. inversion C as [|? ? ? C']; subst. inversion C'; subst. constructor; [assumption|]. now apply C2.
  - destruct (quoted n q l1) as [[[buf1 u1] l3]|] eqn:Q; [|discriminate]. injection H as <- <- <-. apply IH in Q as [T2 C2]. split.
    + eapply some_trans; [apply some_cons|now apply some_takes].
    + intros C. inversion C; subst. constructor; [assumption|]. now apply C2.
Qed.
Lemma inChar_ok l r l' : inChar l = Some (r, l') -> clean l -> takesSome l l' /\ wfRule r /\ refs r = [].
Proof.
  unfold inChar. intros H C. assert (C1 : clean (lnext l)) by (eapply takes_clean; [apply takes_lnext|exact C]).
  destruct (quoted (length l) cQuote (lnext l)) as [[[buf u] l1]|] eqn:Q; [|discriminate]. apply quoted_ok in Q as [T CB]. specialize (CB C1).
  assert (T1 : takesSome l l1) by (eapply trans_some; [apply takes_lnext|exact T]).
  assert (C2 : clean l1) by (eapply takes_clean; [apply some_takes; exact T1|exact C]).
  destruct buf as [|c [|c2 buf]]; [discriminate| |].
  - inversion CB; subst. destruct (lpeek l1 =? cDash).
    + apply inRange_ok in H as (T2 & W & R & _); [|assumption..]. split; [|auto]. eapply some_trans; [exact T1|now apply some_takes].
    + injection H as <- <-. split; [exact T1|]. split; [now constructor|reflexivity].
  - injection H as <- <-. split; [exact T1|]. split; [constructor; [cbn; lia|exact CB]|reflexivity].
Qed.
Lemma inUnicode_ok l r l' : inUnicode l = Some (r, l') -> clean l -> takesSome l l' /\ wfRule r /\ refs r = [].
Proof.
  unfold inUnicode. intros H C. destruct (parseUnicodeEscape (lnext l)) as [[v l1]|] eqn:E; [|discriminate]. apply escape_ok in E as [T V].
  assert (T1 : takesSome l l1) by (eapply trans_some; [apply takes_lnext|exact T]).
  destruct (lpeek l1 =? cDash).
  - apply inRange_ok in H as (T2 & W & R & _); [|lia|eapply takes_clean; [apply some_takes; exact T1|exact C]].
    split; [|auto]. eapply some_trans; [exact T1|now apply some_takes].
  - injection H as <- <-. split; [exact T1|]. split; [constructor; lia|reflexivity].
Qed.
Lemma utf8_pos c : 0 <= utf8_rune c.
Proof. unfold utf8_rune. destruct (c <? 0) eqn:E; cbn [orb]; [lia|]. destruct (_ || _); lia. Qed.
Lemma inString_ok l r l' : inString l = Some (r, l') -> takesSome l l' /\ wfRule r /\ refs r = [].
Proof.
  unfold inString. intros H. destruct (quoted (length l) cDQuote (lnext l)) as [[[buf u] l1]|] eqn:Q; [|discriminate].
  apply quoted_ok in Q as [T _]. injection H as <- <-. split; [eapply trans_some; [apply takes_lnext|exact T]|]. split; [|reflexivity].
  constructor. apply Forall_forall. intros c Hc. apply in_map_iff in Hc as (x & <- & _). apply utf8_pos.
Qed.
Lemma span_ok p l : l = fst (span p l) ++ snd (span p l) /\ Forall (fun c => p c = true) (fst (span p l)) /\
  match snd (span p l) with [] => True | c :: _ => p c = false end.
Proof.
  induction l as [|c l (IH1 & IH2 & IH3)]; [repeat split; constructor|]. cbn [span]. destruct (p c) eqn:E.
  - destruct (span p l) as [a r]. cbn [fst snd] in *. split; [now rewrite IH1 at 1|]. split; [now constructor|exact IH3].
  - cbn [fst snd]. split; [reflexivity|]. split; [constructor|exact E].
Qed.
Lemma refChar_range c : isRefChar c = true -> (48 <= c <= 57) \/ (65 <= c <= 90) \/ (97 <= c <= 122) \/ c = 95.
Proof. unfold isRefChar, isLetter, isDigit. rewrite !orb_true_iff, !andb_true_iff, !Z.leb_le, Z.eqb_eq. lia. Qed.
Lemma inReference_ok l us r l' us' : inReference l us = POk r l' us' ->
  takesSome l l' /\ wfRule r /\ us' = us ++ refs r.
Proof.
  unfold inReference. destruct (isLetter (lpeek (lskip l)) || (lpeek (lskip l) =? 95)) eqn:E; cbn [negb]; [|discriminate].
  pose proof (span_ok isRefChar (lnext (lskip l))) as (S1 & S2 & _). destruct (span isRefChar (lnext (lskip l))) as [nm l2]. cbn [fst snd] in *.
  assert (NE : lpeek (lskip l) <> EOFChar) by (intros X; rewrite X in E; discriminate).
  assert (T : takesSome l l2).
  { eapply trans_some; [apply takes_lskip|]. eapply some_trans; [now apply some_lnext|]. now exists nm. }
  destruct (runes_eqb (lpeek (lskip l) :: nm) nameEOF) eqn:EE; intros [= <- <- <-].
  - split; [exact T|]. split; [constructor|]. now rewrite app_nil_r.
  - split; [exact T|]. split; [|reflexivity]. constructor. split; [discriminate|]. split; [now apply runes_eqb_neq|].
    constructor.
    + apply refChar_range. unfold isRefChar. rewrite E. reflexivity.
    + eapply Forall_impl; [|exact S2]. intros c. apply refChar_range.
Qed.

(* ---------------- repetition counts ---------------- *)

Lemma digitsTo_ok sc : forall l ds st l', digitsTo sc l = Some (ds, st, l') -> takesSome l l' /\ Forall (fun d => isDigit d = true) ds /\
  (st = 44 \/ st = cGt).
Proof.
  induction l as [|c l IH]; intros ds st l' H; cbn [digitsTo] in H; [discriminate|].
  destruct ((c =? 32) || (c =? 9) || (c =? 10)).
  - apply IH in H as (T & D & S). split; [|auto]. eapply some_trans; [apply some_cons|now apply some_takes].
  - destruct (sc && (c =? 44)) eqn:E1.
    + injection H as <- <- <-. apply andb_true_iff in E1 as [_ E1]. split; [apply some_cons|]. split; [constructor|left; lia].
    + destruct (c =? cGt) eqn:E2; [injection H as <- <- <-; split; [apply some_cons|]; split; [constructor|right; lia]|].
      destruct (isDigit c) eqn:E3; [|discriminate]. destruct (digitsTo sc l) as [[[ds1 st1] r1]|]; [|discriminate].
      injection H as <- <- <-. destruct (IH _ _ _ eq_refl) as (T & D & S). split; [eapply some_trans; [apply some_cons|now apply some_takes]|].
      split; [now constructor|exact S].
Qed.
Lemma decVal_pos ds : Forall (fun d => isDigit d = true) ds -> 0 <= decVal ds.
Proof.
  unfold decVal. assert (G : forall a, 0 <= a -> Forall (fun d => isDigit d = true) ds -> 0 <= fold_left (fun a d => a * 10 + (d - 48)) ds a); [|intros; apply G; [lia|assumption]].
  induction ds as [|d ds IH]; intros a HA F; cbn [fold_left]; [exact HA|]. inversion F as [|? ? D F']; subst.
  apply IH; [|exact F']. unfold isDigit in D. rewrite andb_true_iff, !Z.leb_le in D. lia.
Qed.
Lemma parseUint32_ok ds v : Forall (fun d => isDigit d = true) ds -> parseUint32 ds = Some v -> 0 <= v < 4294967296.
Proof.
  unfold parseUint32. intros F. apply decVal_pos in F. destruct (Z.leb_spec (decVal ds) 4294967295); [|discriminate]. intros [= <-]. lia.
Qed.
Lemma repSuffix_ok l mn mx l' : repSuffix l = Some (mn, mx, l') ->
  takes l l' /\ 0 <= mn < 4294967296 /\ 0 <= mx < 4294967296 /\ (mx = 0 \/ mn <= mx).
Proof.
  unfold repSuffix. destruct (lpeek l =? 42); [intros [= <- <- <-]; split; [takes|lia]|].
  destruct (lpeek l =? 43); [intros [= <- <- <-]; split; [takes|lia]|].
  destruct (lpeek l =? cLt); [|intros [= <- <- <-]; split; [takes|lia]].
  unfold inRepeatSpec. destruct (digitsTo true (lskip (lnext l))) as [[[ds st] l1]|] eqn:E1; [|discriminate].
  apply digitsTo_ok in E1 as (T1 & D1 & S1). destruct (parseUint32 ds) as [v|] eqn:P1; [|discriminate]. apply parseUint32_ok in P1; [|exact D1].
  assert (T : takes l l1) by (eapply takes_trans; [apply takes_lnext|]; eapply takes_trans; [apply takes_lskip|now apply some_takes]).
  destruct (st =? 44).
  - destruct (digitsTo false l1) as [[[ds2 st2] l2]|] eqn:E2; [|discriminate]. apply digitsTo_ok in E2 as (T2 & D2 & S2).
    destruct (parseUint32 ds2) as [w|] eqn:P2; [|discriminate]. apply parseUint32_ok in P2; [|exact D2].
    destruct (Z.eqb_spec w 0), (Z.ltb_spec w v); cbn [negb andb]; try discriminate; intros [= <- <- <-]; (split; [eapply takes_trans; [exact T|now apply some_takes]|lia]).
  - intros [= <- <- <-]. split; [exact T|lia].
Qed.

(* ---------------- rules ---------------- *)

Lemma set_base_wf r b : wfRule r -> wfRule (set_base r b).
Proof. intros H. destruct H; cbn [set_base]; econstructor; eauto. Qed.
Lemma set_base_refs r b : refs (set_base r b) = refs r.
Proof. now destruct r. Qed.
Lemma annotate_wf a r : wfRule r -> wfRule (annotate a r).
Proof. apply set_base_wf. Qed.
Lemma annotate_refs a r : refs (annotate a r) = refs r.
Proof. apply set_base_refs. Qed.
Definition refsR (rules : list rule) : list (list Z) := flat_map refs (rev rules).
Lemma refsR_cons r rules : refsR (r :: rules) = refsR rules ++ refs r.
Proof. unfold refsR. cbn [rev]. rewrite flat_map_app. cbn. now rewrite app_nil_r. Qed.
Lemma finish_ok rules r : Forall wfRule rules -> finish rules = Some r -> wfRule r /\ refs r = refsR rules /\ rules <> [].
Proof.
  intros F. unfold finish. destruct rules as [|x [|y rules]]; [discriminate| |].
  - intros [= <-]. split; [now inversion F|]. split; [|discriminate]. unfold refsR. cbn. now rewrite app_nil_r.
  - intros H. assert (E : r = RConcat noBase (rev (x :: y :: rules))) by congruence. rewrite E. clear H E.
    split; [|split; [reflexivity|discriminate]]. apply wf_concat.
    + rewrite rev_length. cbn. lia.
    + intros z Hz. apply in_rev in Hz. rewrite Forall_forall in F. auto.
Qed.

(** A successful parse. *)
Record good (strict : Prop) (l : list Z) (us before : list (list Z)) (r : rule) (l' : list Z) (us' : list (list Z)) : Prop := {
  gd_wf : wfRule r;
  gd_takes : takes l l';
  gd_some : strict -> takesSome l l';
  gd_refs : exists new, us' = us ++ new /\ refs r = before ++ new }.
Definition sound (strict : Prop) (l : list Z) (us before : list (list Z)) (x : pres rule) : Prop :=
  match x with POk r l' us' => good strict l us before r l' us' | _ => True end.

Lemma good_later (strict strict' : Prop) l0 l us us0 mid before r l' us' : takes l0 l -> (strict' -> strict \/ takesSome l0 l) ->
  us = us0 ++ mid -> good strict l us (before ++ mid) r l' us' -> good strict' l0 us0 before r l' us'.
Proof.
  intros T S -> [W T' S' (new & -> & R)]. split; [exact W|eapply takes_trans; eauto| |].
  - intros X. destruct (S X) as [Y|Y]; [eapply trans_some; eauto|eapply some_trans; eauto].
  - exists (mid ++ new). split; [now rewrite app_assoc|]. now rewrite app_assoc.
Qed.
Lemma sound_later (strict strict' : Prop) l0 l us us0 mid before x : takes l0 l -> (strict' -> strict \/ takesSome l0 l) ->
  us = us0 ++ mid -> sound strict l us (before ++ mid) x -> sound strict' l0 us0 before x.
Proof. destruct x; cbn; auto. intros. eapply good_later; eauto. Qed.
Lemma sound_same (strict strict' : Prop) l0 l us before x : takes l0 l -> (strict' -> strict \/ takesSome l0 l) ->
  sound strict l us before x -> sound strict' l0 us before x.
Proof. intros T S H. apply (sound_later strict strict' l0 l us us [] before x T S); [now rewrite app_nil_r|]. now rewrite app_nil_r. Qed.

Definition orRefs (e : option rule) : list (list Z) := match e with Some x => refs x | None => [] end.

Lemma peek_ne l k : lpeek l = k -> 0 <= k -> lpeek l <> EOFChar.
Proof. intros -> H. unfold EOFChar. lia. Qed.

Lemma parser_sound fuel :
  (forall terms rules a l us, clean l -> Forall wfRule rules -> sound (rules = []) l us (refsR rules) (pLoop fuel terms rules a l us)) /\
  (forall l us, clean l -> sound True l us [] (pPrim fuel l us)) /\
  (forall o e xs l us, clean l -> wfRule o -> (forall x, e = Some x -> wfRule x) -> Forall wfRule xs ->
     sound True l us (refs o ++ orRefs e ++ refsR xs) (pExcl fuel o e xs l us)) /\
  (forall a l us, clean l -> sound True l us [] (pOne fuel a l us)) /\
  (forall rules gs l us, clean l -> Forall wfRule rules -> rules <> [] -> Forall (fun g => Forall wfRule g /\ g <> []) gs ->
     sound (lpeek l = cChoice \/ lpeek l = cGt) l us (flat_map (flat_map refs) (rev gs) ++ refsR rules) (pChoice fuel rules gs l us)).
Proof.
  induction fuel as [|fuel (IL & IP & IX & IO & IC)]; [repeat split; intros; exact I|].
  repeat split.
  - intros terms rules a l us C F. cbn [pLoop].
    assert (DONE : forall l', takes l l' -> sound (rules = []) l us (refsR rules) (match finish rules with Some r => POk r l' us | None => PErr us end)).
    { intros l' T. destruct (finish rules) as [r|] eqn:E; [|exact I]. apply finish_ok in E as (W & R & N); [|exact F]. split; auto; [congruence|].
      exists []. now rewrite !app_nil_r. }
    destruct (lpeek l =? EOFChar) eqn:E0; [apply DONE, takes_refl|]. apply Z.eqb_neq in E0.
    destruct (existsb _ terms); [apply DONE, takes_refl|].
    assert (CN : clean (lnext l)) by (eapply takes_clean; [apply takes_lnext|exact C]).
    destruct (isWS (lpeek l)); [eapply sound_same; [apply takes_lnext| |apply IL; auto]; auto|].
    destruct (isAnn (lpeek l)).
    { destruct (lpeek (lnext l) =? cChoice); [exact I|]. eapply sound_same; [apply takes_lnext| |apply IL; auto]; auto. }
    destruct ((lpeek l =? cChoice) || (lpeek l =? cGt)) eqn:E1.
    { destruct rules as [|r rules]; [exact I|]. inversion F as [|? ? WR F']; subst.
      pose proof (IC [r] [] l us C (Forall_cons _ WR (Forall_nil _)) ltac:(discriminate) (Forall_nil _)) as X.
      destruct (pChoice fuel [r] [] l us) as [ch l1 us1| |]; cbn [pbind]; [|exact I..]. destruct X as [W T S (new & -> & R)].
      cbn [rev flat_map app] in R. unfold refsR in R. cbn in R. rewrite app_nil_r in R.
      assert (C1 : clean l1) by (eapply takes_clean; eauto).
      pose proof (IL terms (annotate a ch :: rules) noAnn l1 (us ++ new) C1 (Forall_cons _ (annotate_wf a ch W) F')) as Y.
      rewrite refsR_cons, annotate_refs, R, app_assoc, <- refsR_cons in Y. eapply sound_later; [exact T| |reflexivity|exact Y]. discriminate. }
    destruct (lpeek l =? cSlash).
    { destruct (lpeek (lnext l) =? cSlash); [|exact I]. apply DONE. eapply takes_trans; [apply takes_lnext|]. eapply takes_trans; [apply takes_lnext|apply dropLine_takes]. }
    pose proof (IP l us C) as X. destruct (pPrim fuel l us) as [r l1 us1| |]; cbn [pbind]; [|exact I..]. destruct X as [W T S (new & -> & R)].
    cbn [app] in R. assert (C1 : clean l1) by (eapply takes_clean; eauto).
    pose proof (IL terms (annotate a r :: rules) noAnn l1 (us ++ new) C1 (Forall_cons _ (annotate_wf a r W) F)) as Y.
    rewrite refsR_cons, annotate_refs, R in Y. eapply sound_later; [exact T| |reflexivity|exact Y]. auto.
  - intros l us C. cbn [pPrim].
    assert (LIFT : forall o, (forall r l', o = Some (r, l') -> takesSome l l' /\ wfRule r /\ refs r = []) -> sound True l us [] (lift o us)).
    { intros [[r l']|] H; cbn [lift]; [|exact I]. destruct (H _ _ eq_refl) as (T & W & R). split; auto; [now apply some_takes|].
      exists []. now rewrite app_nil_r. }
    destruct (lpeek l =? cQuote); [apply LIFT; intros; now apply inChar_ok|].
    destruct (lpeek l =? cBack); [apply LIFT; intros; now apply inUnicode_ok|].
    destruct (lpeek l =? cDQuote); [apply LIFT; intros; now apply inString_ok|].
    assert (SUB : forall k, 0 <= k -> lpeek l = k -> takesSome l (lskip (lnext l))).
    { intros k Hk E. eapply some_trans; [apply some_lnext; eapply peek_ne; eauto|apply takes_lskip]. }
    assert (CS : clean (lskip (lnext l))) by (eapply takes_clean; [|exact C]; eapply takes_trans; [apply takes_lnext|apply takes_lskip]).
    assert (TAIL : forall (wrap : rule -> list Z -> list (list Z) -> pres rule) terms k, 0 <= k -> lpeek l = k ->
      (forall r l1 us1, wfRule r -> match wrap r l1 us1 with POk r' l' us' => wfRule r' /\ refs r' = refs r /\ takes l1 l' /\ us' = us1 | _ => True end) ->
      sound True l us [] (do! r, l1, us1 <- pLoop fuel terms [] noAnn (lskip (lnext l)) us; wrap r l1 us1)).
    { intros wrap terms k Hk E HW. pose proof (IL terms [] noAnn (lskip (lnext l)) us CS (Forall_nil _)) as X.
      destruct (pLoop fuel terms [] noAnn (lskip (lnext l)) us) as [r l1 us1| |]; cbn [pbind]; [|exact I..].
      destruct X as [W T _ (new & -> & R)]. specialize (HW r l1 (us ++ new) W). destruct (wrap r l1 (us ++ new)) as [r' l' us'| |]; [|exact I..].
      destruct HW as (W' & R' & T' & ->). pose proof (SUB k Hk E) as S. split; auto.
      - eapply takes_trans; [apply some_takes; exact S|]. eapply takes_trans; eauto.
      - intros _. eapply some_trans; [exact S|]. eapply takes_trans; eauto.
      - exists new. rewrite R', R. auto. }
    destruct (lpeek l =? cLBrack) eqn:E1.
    { apply TAIL with (k := cLBrack); [unfold cLBrack; lia|now apply Z.eqb_eq|]. intros r l1 us1 W. destruct (lpeek l1 =? cRBrack); [|exact I].
      split; [now constructor|]. split; [reflexivity|]. split; [apply takes_lnext|reflexivity]. }
    destruct (lpeek l =? cLBrace) eqn:E2.
    { apply TAIL with (k := cLBrace); [unfold cLBrace; lia|now apply Z.eqb_eq|]. intros r l1 us1 W. destruct (lpeek l1 =? cRBrace); [|exact I].
      destruct (repSuffix (lnext l1)) as [[[mn mx] l2]|] eqn:ER; [|exact I]. apply repSuffix_ok in ER as (T & A & B & D).
      split; [now constructor|]. split; [reflexivity|]. split; [eapply takes_trans; [apply takes_lnext|exact T]|reflexivity]. }
    destruct (lpeek l =? cLt) eqn:E3.
    { assert (S0 : takesSome l (lskip (lnext l))) by (apply SUB with cLt; [unfold cLt; lia|now apply Z.eqb_eq]).
      pose proof (IL termsBlock [] noAnn (lskip (lnext l)) us CS (Forall_nil _)) as X.
      destruct (pLoop fuel termsBlock [] noAnn (lskip (lnext l)) us) as [o l1 us1| |]; cbn [pbind]; [|exact I..].
      destruct X as [WO T1 _ (new & -> & RO)]. cbn [app] in RO.
      assert (T2 : takes l (lskip l1)).
      { eapply takes_trans; [apply some_takes; exact S0|]. eapply takes_trans; [exact T1|apply takes_lskip]. }
      assert (S2 : takesSome l (lskip l1)).
      { eapply some_trans; [exact S0|]. eapply takes_trans; [exact T1|apply takes_lskip]. }
      assert (C2 : clean (lskip l1)) by (eapply takes_clean; eauto).
      destruct (lpeek (lskip l1) =? cNeg); cbn [negb].
      - pose proof (IX o None [] (lskip l1) (us ++ new) C2 WO ltac:(discriminate) (Forall_nil _)) as Y.
        unfold refsR in Y. cbn [orRefs rev flat_map app] in Y. rewrite app_nil_r, RO in Y. change (refsR []) with (@nil (list Z)) in Y. cbn [app] in Y.
        eapply sound_later with (mid := new) (before := []); [exact T2| |reflexivity|exact Y]. auto.
      - assert (C2' : clean (lskip (lskip l1))) by (eapply takes_clean; [apply takes_lskip|exact C2]).
        pose proof (IL termsBlock [] noAnn (lskip (lskip l1)) (us ++ new) C2' (Forall_nil _)) as X.
        destruct (pLoop fuel termsBlock [] noAnn (lskip (lskip l1)) (us ++ new)) as [r l3 us2| |]; cbn [pbind]; [|exact I..].
        destruct X as [WR T3 _ (new2 & -> & RR)]. change (refsR []) with (@nil (list Z)) in RR. cbn [app] in RR.
        assert (T4 : takes (lskip l1) (lskip l3)).
        { eapply takes_trans; [apply takes_lskip|]. eapply takes_trans; [exact T3|apply takes_lskip]. }
        assert (S4 : takesSome l (lskip l3)) by (eapply some_trans; eauto).
        assert (C4 : clean (lskip l3)) by (eapply takes_clean; eauto).
        destruct (lpeek (lskip l3) =? cGt).
        { split; [constructor; auto; [discriminate|intros x []]| | |].
          - eapply takes_trans; [apply some_takes; exact S4|apply takes_lnext].
          - intros _. eapply some_trans; [exact S4|apply takes_lnext].
          - exists (new ++ new2). split; [now rewrite app_assoc|]. cbn [refs flat_map app]. now rewrite RO, RR. }
        destruct (lpeek (lskip l3) =? cBang).
        { destruct (lpeek (lskip (lnext (lskip l3))) =? cGt); [|exact I].
          assert (T5 : takes (lskip l3) (lnext (lskip (lnext (lskip l3))))).
          { eapply takes_trans; [apply takes_lnext|]. eapply takes_trans; [apply takes_lskip|apply takes_lnext]. }
          split; [constructor; auto; [discriminate|intros x []]| | |].
          - eapply takes_trans; [apply some_takes; exact S4|exact T5].
          - intros _. eapply some_trans; [exact S4|exact T5].
          - exists (new ++ new2). split; [now rewrite app_assoc|]. cbn [refs flat_map app]. now rewrite RO, RR. }
        pose proof (IX o (Some r) [] (lskip l3) ((us ++ new) ++ new2) C4 WO) as Y.
        assert (HS : forall x, Some r = Some x -> wfRule x) by now intros x [= <-].
        specialize (Y HS (Forall_nil _)). change (refsR []) with (@nil (list Z)) in Y. cbn [orRefs app] in Y. rewrite app_nil_r, RO, RR in Y.
        eapply sound_later with (mid := new ++ new2) (before := []); [apply some_takes; exact S4| |symmetry; apply app_assoc|exact Y]. auto. }
    destruct (lpeek l =? cLPar) eqn:E4.
    { apply TAIL with (k := cLPar); [unfold cLPar; lia|now apply Z.eqb_eq|]. intros r l1 us1 W. destruct (lpeek l1 =? cRPar); [|exact I].
      split; [now constructor|]. split; [reflexivity|]. split; [apply takes_lnext|reflexivity]. }
    destruct (isLetter (lpeek l) || (lpeek l =? 95)); [|exact I].
    destruct (inReference l us) as [r l1 us1| |] eqn:ER; [|exact I..]. apply inReference_ok in ER as (T & W & ->). split; auto; [now apply some_takes|].
    exists (refs r). auto.
  - intros o e xs l us C WO WE F. cbn [pExcl].
    assert (C1 : clean (lskip l)) by (eapply takes_clean; [apply takes_lskip|exact C]).
    destruct (lpeek (lskip l) =? cNeg) eqn:E0.
    + assert (S1 : takesSome l (lskip (lnext (lskip l)))).
      { eapply trans_some; [apply takes_lskip|]. eapply some_trans; [apply some_lnext; apply Z.eqb_eq in E0; eapply peek_ne; [exact E0|unfold cNeg; lia]|apply takes_lskip]. }
      assert (C2 : clean (lskip (lnext (lskip l)))) by (eapply takes_clean; [apply some_takes; exact S1|exact C]).
      pose proof (IL termsBlock [] noAnn (lskip (lnext (lskip l))) us C2 (Forall_nil _)) as X.
      destruct (pLoop fuel termsBlock [] noAnn (lskip (lnext (lskip l))) us) as [x l2 us1| |]; cbn [pbind]; [|exact I..].
      destruct X as [WX T2 _ (new & -> & RX)]. change (refsR []) with (@nil (list Z)) in RX. cbn [app] in RX.
      assert (S2 : takesSome l l2) by (eapply some_trans; eauto). assert (C3 : clean l2) by (eapply takes_clean; [apply some_takes; exact S2|exact C]).
      pose proof (IX o e (x :: xs) l2 (us ++ new) C3 WO WE (Forall_cons _ WX F)) as Y. rewrite refsR_cons, RX in Y.
      eapply sound_later with (mid := new); [apply some_takes; exact S2| |reflexivity|]; [auto|]. rewrite <- !app_assoc. exact Y.
    + assert (C2 : clean (lskip (lskip l))) by (eapply takes_clean; [apply takes_lskip|exact C1]).
      pose proof (IL termsClose [] noAnn (lskip (lskip l)) us C2 (Forall_nil _)) as X.
      destruct (pLoop fuel termsClose [] noAnn (lskip (lskip l)) us) as [cl l2 us1| |]; cbn [pbind]; [|exact I..].
      destruct X as [WC T2 S2 (new & -> & RC)]. change (refsR []) with (@nil (list Z)) in RC. cbn [app] in RC.
      assert (S3 : takesSome l l2).
      { eapply trans_some; [apply takes_lskip|]. eapply trans_some; [apply takes_lskip|]. now apply S2. }
      assert (FIN : forall v l', takes l2 l' -> sound True l us (refs o ++ orRefs e ++ refsR xs) (POk (RBlock noBase o v cl e (rev xs)) l' (us ++ new))).
      { intros v l' T'. split.
        - constructor; auto. intros x Hx. apply in_rev in Hx. rewrite Forall_forall in F. auto.
        - eapply takes_trans; [apply some_takes; exact S3|exact T'].
        - intros _. eapply some_trans; eauto.
        - exists new. split; [reflexivity|]. cbn [refs]. unfold orRefs, refsR. now rewrite RC, <- !app_assoc. }
      destruct (lpeek l2 =? cBang).
      * destruct (lpeek (lskip (lnext l2)) =? cGt); [|exact I]. apply FIN. eapply takes_trans; [apply takes_lnext|]. eapply takes_trans; [apply takes_lskip|apply takes_lnext].
      * destruct (lpeek l2 =? cGt); [|exact I]. apply FIN. apply takes_lnext.
  - intros a l us C. cbn [pOne].
    assert (CN : clean (lnext l)) by (eapply takes_clean; [apply takes_lnext|exact C]).
    destruct ((lpeek l =? 32) || (lpeek l =? 10) || (lpeek l =? 9) || (lpeek l =? 13)).
    { eapply sound_same; [apply takes_lnext| |apply IO; auto]. auto. }
    destruct (lpeek l =? EOFChar); [exact I|]. destruct (isAnn (lpeek l)).
    { destruct (lpeek (lnext l) =? cChoice); [exact I|]. eapply sound_same; [apply takes_lnext| |apply IO; auto]. auto. }
    pose proof (IP l us C) as X. destruct (pPrim fuel l us) as [r l1 us1| |]; cbn [pbind]; [|exact I..]. destruct X as [W T S R]. split; auto.
    + now apply annotate_wf.
    + now rewrite annotate_refs.
  - intros rules gs l us C F NR FG. cbn [pChoice].
    assert (CN : clean (lnext l)) by (eapply takes_clean; [apply takes_lnext|exact C]).
    destruct (lpeek l =? cSpace) eqn:E0.
    { apply Z.eqb_eq in E0. eapply sound_same with (strict := (lpeek (lnext l) = cChoice \/ lpeek (lnext l) = cGt)); [apply takes_lnext| |apply IC; auto].
      rewrite E0. unfold cSpace, cChoice, cGt. lia. }
    destruct (lpeek l =? cChoice) eqn:E1.
    { pose proof (IO noAnn (lnext l) us CN) as X. destruct (pOne fuel noAnn (lnext l) us) as [r l1 us1| |]; cbn [pbind]; [|exact I..].
      destruct X as [W T S (new & -> & R)]. cbn [app] in R.
      assert (S1 : takesSome l l1) by (eapply trans_some; [apply takes_lnext|]; now apply S).
      assert (C1 : clean l1) by (eapply takes_clean; [apply some_takes; exact S1|exact C]).
      pose proof (IC (r :: rules) gs l1 (us ++ new) C1 (Forall_cons _ W F) ltac:(discriminate) FG) as Y.
      rewrite refsR_cons, R in Y. eapply sound_later with (mid := new); [apply some_takes; exact S1| |reflexivity|].
      - intros _. now right.
      - rewrite <- app_assoc. exact Y. }
    destruct (lpeek l =? cGt) eqn:E2.
    { destruct rules as [|r0 rules0] eqn:ER; [congruence|]. rewrite <- ER in *. 
      pose proof (IO noAnn (lnext l) us CN) as X. destruct (pOne fuel noAnn (lnext l) us) as [r l1 us1| |]; cbn [pbind]; [|exact I..].
      destruct X as [W T S (new & -> & R)]. cbn [app] in R.
      assert (S1 : takesSome l l1) by (eapply trans_some; [apply takes_lnext|]; now apply S).
      assert (C1 : clean l1) by (eapply takes_clean; [apply some_takes; exact S1|exact C]).
      assert (FG' : Forall (fun g => Forall wfRule g /\ g <> []) (rev rules :: gs)).
      { constructor; [|exact FG]. split; [now apply Forall_rev|]. intros X. apply NR. rewrite <- (rev_involutive rules), X. reflexivity. }
      pose proof (IC [r] (rev rules :: gs) l1 (us ++ new) C1 (Forall_cons _ W (Forall_nil _)) ltac:(discriminate) FG') as Y.
      assert (ERF : flat_map (flat_map refs) (rev (rev rules :: gs)) ++ refsR [r] = (flat_map (flat_map refs) (rev gs) ++ refsR rules) ++ new).
      { cbn [rev]. rewrite flat_map_app. cbn [flat_map]. rewrite app_nil_r. unfold refsR. cbn [rev flat_map app]. now rewrite app_nil_r, R. }
      rewrite ERF in Y. eapply sound_later with (mid := new); [apply some_takes; exact S1| |reflexivity|exact Y]. intros _. now right. }
    assert (OK : (2 <= length (concat (rev (rev rules :: gs))))%nat -> sound (lpeek l = cChoice \/ lpeek l = cGt) l us
      (flat_map (flat_map refs) (rev gs) ++ refsR rules) (POk (RChoice noBase (rev (rev rules :: gs))) l us)).
    { intros L2. split.
      - constructor; [exact L2| |].
        + intros g Hg. apply in_rev in Hg. destruct Hg as [<-|Hg].
          * intros X. apply NR. rewrite <- (rev_involutive rules), X. reflexivity.
          * rewrite Forall_forall in FG. now apply FG.
        + intros g x Hg Hx. apply in_rev in Hg. destruct Hg as [<-|Hg].
          * apply in_rev in Hx. rewrite Forall_forall in F. auto.
          * rewrite Forall_forall in FG. destruct (FG g Hg) as [FG1 _]. rewrite Forall_forall in FG1. auto.
      - apply takes_refl.
      - apply Z.eqb_neq in E1, E2. intros [X|X]; congruence.
      - exists []. rewrite !app_nil_r. split; [reflexivity|]. cbn [refs rev]. rewrite flat_map_app. cbn [flat_map]. now rewrite app_nil_r. }
    destruct gs as [|g0 gs].
    + destruct rules as [|x [|y rules]]; [exact I..|]. apply OK. cbn [rev app concat]. rewrite app_nil_r, !app_length. cbn. lia.
    + assert (L2 : (2 <= length (concat (rev (rev rules :: g0 :: gs))))%nat).
      { inversion FG as [|? ? [_ N0] _]; subst. cbn [rev]. rewrite !concat_app, !app_length. cbn [concat]. rewrite !app_nil_r, rev_length.
        destruct g0; [congruence|]. destruct rules; [congruence|]. cbn [length]. lia. }
      destruct rules; apply OK; exact L2.
Qed.

(* ---------------- the fuel is enough ---------------- *)

Lemma lnext_len l : lpeek l <> EOFChar -> (S (length (lnext l)) = length l)%nat.
Proof. destruct l; [now intros []|reflexivity]. Qed.
Lemma lskip_len l : (length (lskip l) <= length l)%nat.
Proof. apply takes_len, takes_lskip. Qed.
Lemma lnext_le l : (length (lnext l) <= length l)%nat.
Proof. apply takes_len, takes_lnext. Qed.
Lemma eqb_peek l k : (lpeek l =? k) = true -> 0 <= k -> lpeek l <> EOFChar.
Proof. intros E. apply Z.eqb_eq in E. now apply peek_ne. Qed.

Lemma lift_ends {A} (o : option (A * list Z)) us : lift o us <> PFuel.
Proof. destruct o as [[? ?]|]; discriminate. Qed.
Lemma inReference_ends l us : inReference l us <> PFuel.
Proof.
  unfold inReference. destruct (negb _); [discriminate|]. destruct (span _ _). destruct (runes_eqb _ _); discriminate.
Qed.

Lemma parser_ends fuel :
  (forall terms rules a l us, clean l -> Forall wfRule rules -> (8 * length l + 2 <= fuel)%nat -> pLoop fuel terms rules a l us <> PFuel) /\
  (forall l us, clean l -> (8 * length l + 1 <= fuel)%nat -> pPrim fuel l us <> PFuel) /\
  (forall o e xs l us, clean l -> wfRule o -> (forall x, e = Some x -> wfRule x) -> Forall wfRule xs ->
     (8 * length l + 3 <= fuel)%nat -> pExcl fuel o e xs l us <> PFuel) /\
  (forall a l us, clean l -> (8 * length l + 2 <= fuel)%nat -> pOne fuel a l us <> PFuel) /\
  (forall rules gs l us, clean l -> Forall wfRule rules -> rules <> [] -> Forall (fun g => Forall wfRule g /\ g <> []) gs ->
     (8 * length l + 1 <= fuel)%nat -> pChoice fuel rules gs l us <> PFuel).
Proof.
  induction fuel as [|fuel (IL & IP & IX & IO & IC)]; [repeat split; intros; lia|].
  destruct (parser_sound fuel) as (SL & SP & _ & SO & SC).
  repeat split.
  - intros terms rules a l us C F L. cbn [pLoop].
    assert (DONE : forall l', match finish rules with Some r => POk r l' us | None => PErr us end <> PFuel) by (intros l'; destruct (finish rules); discriminate).
    destruct (lpeek l =? EOFChar) eqn:E0; [apply DONE|]. apply Z.eqb_neq in E0. pose proof (lnext_len l E0) as LN.
    destruct (existsb _ terms); [apply DONE|].
    assert (CN : clean (lnext l)) by (eapply takes_clean; [apply takes_lnext|exact C]).
    destruct (isWS (lpeek l)); [apply IL; auto; lia|].
    destruct (isAnn (lpeek l)).
    { destruct (lpeek (lnext l) =? cChoice); [discriminate|]. apply IL; auto; lia. }
    destruct ((lpeek l =? cChoice) || (lpeek l =? cGt)) eqn:E1.
    { destruct rules as [|r rules]; [discriminate|]. inversion F as [|? ? WR F']; subst.
      assert (FR : Forall wfRule [r]) by (constructor; [exact WR|constructor]).
      pose proof (SC [r] [] l us C FR ltac:(discriminate) (Forall_nil _)) as X.
      pose proof (IC [r] [] l us C FR ltac:(discriminate) (Forall_nil _) ltac:(lia)) as Y.
      destruct (pChoice fuel [r] [] l us) as [ch l1 us1| |]; cbn [pbind]; [|discriminate|congruence].
      destruct X as [W T S _]. apply orb_true_iff in E1. rewrite !Z.eqb_eq in E1. specialize (S E1). apply some_len in S.
      apply IL; [eapply takes_clean; eauto|constructor; [now apply annotate_wf|exact F']|lia]. }
    destruct (lpeek l =? cSlash).
    { destruct (lpeek (lnext l) =? cSlash); [apply DONE|discriminate]. }
    pose proof (SP l us C) as X. pose proof (IP l us C ltac:(lia)) as Y. destruct (pPrim fuel l us) as [r l1 us1| |]; cbn [pbind]; [|discriminate|congruence].
    destruct X as [W T S _]. specialize (S I). apply some_len in S.
    apply IL; [eapply takes_clean; eauto|constructor; [now apply annotate_wf|exact F]|lia].
  - intros l us C L. cbn [pPrim].
    destruct (lpeek l =? cQuote); [apply lift_ends|]. destruct (lpeek l =? cBack); [apply lift_ends|]. destruct (lpeek l =? cDQuote); [apply lift_ends|].
    assert (CS : clean (lskip (lnext l))) by (eapply takes_clean; [|exact C]; eapply takes_trans; [apply takes_lnext|apply takes_lskip]).
    pose proof (lskip_len (lnext l)) as LS.
    assert (SUB : forall k terms, 0 <= k -> (lpeek l =? k) = true -> pLoop fuel terms [] noAnn (lskip (lnext l)) us <> PFuel).
    { intros k terms Hk E. pose proof (lnext_len l (eqb_peek l k E Hk)). apply IL; [exact CS|constructor|lia]. }
    destruct (lpeek l =? cLBrack) eqn:E1.
    { specialize (SUB cLBrack [cRBrack] ltac:(unfold cLBrack; lia) E1). destruct (pLoop fuel [cRBrack] [] noAnn (lskip (lnext l)) us) as [r l1 us1| |]; cbn [pbind]; [|discriminate|congruence]. destruct (lpeek l1 =? cRBrack); discriminate. }
    destruct (lpeek l =? cLBrace) eqn:E2.
    { specialize (SUB cLBrace [cRBrace] ltac:(unfold cLBrace; lia) E2). destruct (pLoop fuel [cRBrace] [] noAnn (lskip (lnext l)) us) as [r l1 us1| |]; cbn [pbind]; [|discriminate|congruence]. destruct (lpeek l1 =? cRBrace); [|discriminate].
      destruct (repSuffix _) as [[[? ?] ?]|]; discriminate. }
    destruct (lpeek l =? cLt) eqn:E3.
    { pose proof (lnext_len l (eqb_peek l cLt E3 ltac:(unfold cLt; lia))) as LN.
      specialize (SUB cLt termsBlock ltac:(unfold cLt; lia) E3). pose proof (SL termsBlock [] noAnn (lskip (lnext l)) us CS (Forall_nil _)) as X.
      destruct (pLoop fuel termsBlock [] noAnn (lskip (lnext l)) us) as [o l1 us1| |]; cbn [pbind]; [|discriminate|congruence].
      destruct X as [WO T1 _ _]. pose proof (takes_len _ _ T1) as L1. pose proof (lskip_len l1) as L2.
      assert (C1 : clean l1) by (eapply takes_clean; eauto). assert (C2 : clean (lskip l1)) by (eapply takes_clean; [apply takes_lskip|exact C1]).
      destruct (lpeek (lskip l1) =? cNeg); cbn [negb].
      - apply IX; auto; [discriminate|lia].
      - assert (C3 : clean (lskip (lskip l1))) by (eapply takes_clean; [apply takes_lskip|exact C2]). pose proof (lskip_len (lskip l1)) as L3.
        pose proof (SL termsBlock [] noAnn (lskip (lskip l1)) us1 C3 (Forall_nil _)) as X.
        pose proof (IL termsBlock [] noAnn (lskip (lskip l1)) us1 C3 (Forall_nil _) ltac:(lia)) as Y.
        destruct (pLoop fuel termsBlock [] noAnn (lskip (lskip l1)) us1) as [r l3 us2| |]; cbn [pbind]; [|discriminate|congruence].
        destruct X as [WR T3 _ _]. pose proof (takes_len _ _ T3) as L4. pose proof (lskip_len l3) as L5.
        assert (C4 : clean (lskip l3)) by (eapply takes_clean; [apply takes_lskip|]; eapply takes_clean; eauto).
        destruct (lpeek (lskip l3) =? cGt); [discriminate|]. destruct (lpeek (lskip l3) =? cBang).
        { destruct (lpeek (lskip (lnext (lskip l3))) =? cGt); discriminate. }
        apply IX; auto; [now intros x [= <-]|lia]. }
    destruct (lpeek l =? cLPar) eqn:E4.
    { specialize (SUB cLPar [cRPar] ltac:(unfold cLPar; lia) E4). destruct (pLoop fuel [cRPar] [] noAnn (lskip (lnext l)) us) as [r l1 us1| |]; cbn [pbind]; [|discriminate|congruence]. destruct (lpeek l1 =? cRPar); discriminate. }
    destruct (isLetter (lpeek l) || (lpeek l =? 95)); [apply inReference_ends|discriminate].
  - intros o e xs l us C WO WE F L. cbn [pExcl]. pose proof (lskip_len l) as L1.
    assert (C1 : clean (lskip l)) by (eapply takes_clean; [apply takes_lskip|exact C]).
    destruct (lpeek (lskip l) =? cNeg) eqn:E0.
    + pose proof (lnext_len _ (eqb_peek _ _ E0 ltac:(unfold cNeg; lia))) as LN. pose proof (lskip_len (lnext (lskip l))) as L2.
      assert (C2 : clean (lskip (lnext (lskip l)))) by (eapply takes_clean; [|exact C1]; eapply takes_trans; [apply takes_lnext|apply takes_lskip]).
      pose proof (SL termsBlock [] noAnn (lskip (lnext (lskip l))) us C2 (Forall_nil _)) as X.
      pose proof (IL termsBlock [] noAnn (lskip (lnext (lskip l))) us C2 (Forall_nil _) ltac:(lia)) as Y.
      destruct (pLoop fuel termsBlock [] noAnn (lskip (lnext (lskip l))) us) as [x l2 us1| |]; cbn [pbind]; [|discriminate|congruence].
      destruct X as [WX T2 _ _]. pose proof (takes_len _ _ T2) as L3. apply IX; auto; [eapply takes_clean; eauto|lia].
    + assert (C2 : clean (lskip (lskip l))) by (eapply takes_clean; [apply takes_lskip|exact C1]). pose proof (lskip_len (lskip l)) as L2.
      pose proof (IL termsClose [] noAnn (lskip (lskip l)) us C2 (Forall_nil _) ltac:(lia)) as Y.
      destruct (pLoop fuel termsClose [] noAnn (lskip (lskip l)) us) as [cl l2 us1| |]; cbn [pbind]; [|discriminate|congruence].
      destruct (lpeek l2 =? cBang); [|destruct (lpeek l2 =? cGt); discriminate]. destruct (lpeek (lskip (lnext l2)) =? cGt); discriminate.
  - intros a l us C L. cbn [pOne].
    assert (CN : clean (lnext l)) by (eapply takes_clean; [apply takes_lnext|exact C]).
    destruct ((lpeek l =? 32) || (lpeek l =? 10) || (lpeek l =? 9) || (lpeek l =? 13)) eqn:E.
    { assert (NE : lpeek l <> EOFChar) by (intros X; rewrite X in E; discriminate). pose proof (lnext_len l NE). apply IO; auto; lia. }
    destruct (lpeek l =? EOFChar) eqn:E0; [discriminate|]. apply Z.eqb_neq in E0. pose proof (lnext_len l E0) as LN. destruct (isAnn (lpeek l)).
    { destruct (lpeek (lnext l) =? cChoice); [discriminate|]. apply IO; auto; lia. }
    pose proof (IP l us C ltac:(lia)) as Y. destruct (pPrim fuel l us); cbn [pbind]; [discriminate|discriminate|congruence].
  - intros rules gs l us C F NR FG L. cbn [pChoice].
    assert (CN : clean (lnext l)) by (eapply takes_clean; [apply takes_lnext|exact C]).
    assert (LN : forall k, 0 <= k -> (lpeek l =? k) = true -> (S (length (lnext l)) = length l)%nat).
    { intros k Hk E. apply lnext_len. eapply eqb_peek; eauto. }
    destruct (lpeek l =? cSpace) eqn:E0. { specialize (LN cSpace ltac:(unfold cSpace; lia) E0). apply IC; auto; lia. }
    destruct (lpeek l =? cChoice) eqn:E1.
    { specialize (LN cChoice ltac:(unfold cChoice; lia) E1). pose proof (SO noAnn (lnext l) us CN) as X. pose proof (IO noAnn (lnext l) us CN ltac:(lia)) as Y.
      destruct (pOne fuel noAnn (lnext l) us) as [r l1 us1| |]; cbn [pbind]; [|discriminate|congruence].
      destruct X as [W T S _]. pose proof (takes_len _ _ T). apply IC; auto; [eapply takes_clean; eauto|discriminate|lia]. }
    destruct (lpeek l =? cGt) eqn:E2.
    { specialize (LN cGt ltac:(unfold cGt; lia) E2). destruct rules as [|r0 rules0] eqn:ER; [discriminate|]. rewrite <- ER in *.
      pose proof (SO noAnn (lnext l) us CN) as X. pose proof (IO noAnn (lnext l) us CN ltac:(lia)) as Y.
      destruct (pOne fuel noAnn (lnext l) us) as [r l1 us1| |]; cbn [pbind]; [|discriminate|congruence].
      destruct X as [W T S _]. pose proof (takes_len _ _ T). apply IC; [eapply takes_clean; eauto|now constructor|discriminate| |lia].
      constructor; [|exact FG]. split; [now apply Forall_rev|]. intros Z. apply NR. rewrite <- (rev_involutive rules), Z. reflexivity. }
    destruct gs; [destruct rules as [|? [|? ?]]; discriminate|]. destruct rules; discriminate.
Qed.

Lemma lskip_clean l : clean l -> clean (lskip l).
Proof. apply takes_clean, takes_lskip. Qed.
Lemma parse_enough l : clean l -> parseText l <> PFuel.
Proof.
  intros C. unfold parseText. destruct (parser_ends (parseFuel l)) as (IL & _). apply IL; [now apply lskip_clean|constructor|].
  pose proof (lskip_len l). unfold parseFuel. lia.
Qed.
Lemma parse_sound l r l' us : clean l -> parseText l = POk r l' us -> wfRule r /\ us = refs r /\ takes l l'.
Proof.
  intros C E. destruct (parser_sound (parseFuel l)) as (SL & _). pose proof (SL [EOFChar] [] noAnn (lskip l) [] (lskip_clean l C) (Forall_nil _)) as X.
  unfold parseText in E. rewrite E in X. destruct X as [W T _ (new & -> & R)]. cbn in R. split; [exact W|]. split; [now symmetry|].
  eapply takes_trans; [apply takes_lskip|exact T].
Qed.
