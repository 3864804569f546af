(** Proofs about the texts of the errors of the grammar functions. *)
From Verif Require Import Base Stream Node Rule Parse Grammar SpecStream SpecRule SpecParse SpecShow ShowFacts SpecGrammar StreamFacts ParseFacts NotationFacts GrammarFacts GrammarText ReadFacts Message Show MessageFacts
  Refuse SpecRefuse RefuseFacts StopTerm StopFacts Complain SpecComplain.

Lemma showRune_go c : showRune c = [goRune c].
Proof. unfold showRune, str. cbn [List.map]. now rewrite goRune_utf8. Qed.

(** Errors that no constructor of [about] is for cannot occur. *)
Fixpoint real (e : perr) : Prop :=
  match e with
  | PRefStart | PChoiceGroup | PChoiceFew => False
  | PSpecNumber ds => Forall (fun c => 48 <= c <= 57) ds
  | PBlockOpen e' => real e'
  | _ => True
  end.
Lemma spaced_digits z ds : spaced z ds -> Forall (fun c => 48 <= c <= 57) ds.
Proof. induction 1; auto. Qed.
Lemma about_real e x y : about e x y -> real e.
Proof. induction 1; cbn [real]; auto. eapply spaced_digits; eassumption. Qed.

Lemma digits_go ds : Forall (fun c => 48 <= c <= 57) ds -> str ds = ds.
Proof.
  induction 1 as [|c ds C D IH]; [reflexivity|]. unfold str in *. cbn [List.map]. rewrite IH, goRune_utf8. unfold goRune. destruct (Z.leb_spec 0 c), (Z.ltb_spec c 55296); try lia. reflexivity.
Qed.
Lemma perrText_words e : real e -> wording e (perrText e).
Proof.
  induction e; cbn [real perrText]; intros R; rewrite ?showRune_go; try contradiction; try (constructor; fail).
  - rewrite digits_go by exact R. constructor.
  - apply wo_order; apply showInt_written.
  - constructor. auto.
Qed.

Lemma isLetter_iff c : isLetter c = true <-> letter c.
Proof. unfold isLetter, letter. lia. Qed.
Lemma firstByte_leads c : leads c (firstByte c).
Proof.
  unfold leads, firstByte. destruct (Z.ltb_spec c 128); [left; lia|]. right. destruct (Z.ltb_spec c 2048); [left|right; destruct (Z.ltb_spec c 65536); [left|right]].
  - split; [lia|]. replace (192 + c / 64 - 192) with (c / 64) by lia. assert (X := Z.div_mod c 64 ltac:(lia)). assert (Y := Z.mod_pos_bound c 64 ltac:(lia)). lia.
  - split; [lia|]. replace (224 + c / 4096 - 224) with (c / 4096) by lia. assert (X := Z.div_mod c 4096 ltac:(lia)). assert (Y := Z.mod_pos_bound c 4096 ltac:(lia)). lia.
  - split; [lia|]. replace (240 + c / 262144 - 240) with (c / 262144) by lia. assert (X := Z.div_mod c 262144 ltac:(lia)). assert (Y := Z.mod_pos_bound c 262144 ltac:(lia)). lia.
Qed.
Lemma nameText_none n : nameText n = None <-> goodName n.
Proof.
  rewrite <- validName_iff. destruct n as [|c n]; cbn [nameText validName]; [split; discriminate|]. destruct (isLetter c); cbn [negb andb]; [|split; discriminate].
  destruct (forallb _ n); cbn [negb]; split; congruence.
Qed.
Lemma nameText_some n t : nameText n = Some t -> ~ goodName n /\ namePart n t.
Proof.
  intros E. split; [rewrite <- nameText_none; congruence|]. destruct n as [|c n]; cbn [nameText] in E; [injection E as <-; constructor|].
  destruct (isLetter c) eqn:L; cbn [negb] in E.
  - destruct (forallb _ n) eqn:F; cbn [negb] in E; [discriminate|]. injection E as <-. apply na_rest; [now apply isLetter_iff|]. rewrite <- nameText_none. cbn [nameText]. rewrite L, F. discriminate.
  - match type of E with Some ?a = Some ?b => assert (b = a) as -> by congruence end. rewrite showRune_go. apply na_start; [|apply firstByte_leads]. rewrite <- isLetter_iff. congruence.
Qed.

Lemma body_refused name body e us : goodName name -> clean body -> readText (trim body) = FErr e us -> unreadable name body /\ bodyPart name body (perrText e).
Proof.
  intros GN C E. split; [apply unreadable_iff; split; [exact GN|]; exists us; now apply (readText_err _ e)|].
  destruct (trim_trimmed body) as (w & w' & T & W & W' & ED). destruct (refused name (trim body) e us GN ED (trim_clean _ C) E) as (x & y & S & A).
  exists (trim body), e, x, y. split; [apply trim_trimmed|]. split; [exact S|]. split; [exact A|]. apply perrText_words. eapply about_real, A.
Qed.
Lemma readText_fuel m : clean m -> readText m <> FFuel.
Proof. intros C E. assert (F := forget_text m). rewrite E in F. cbn in F. symmetry in F. now apply parse_enough in F. Qed.

(** ParseRule fails exactly when there is a text. *)
Lemma ruleText_none g name body : clean body -> ruleText g name body = None <-> exists r, fst (parseRule g name body) = inl r.
Proof.
  intros C. unfold ruleText. destruct (parseRule_cases g name body) as [[V E]|[(V & (rec & R) & E)|(V & N & K)]].
  - destruct (nameText name) as [t|] eqn:NT; [|apply nameText_none, validName_iff in NT; congruence]. rewrite E. split; [discriminate|]. intros [r H]. discriminate.
  - apply validName_iff, nameText_none in V. rewrite V, R, E. split; [discriminate|]. intros [r H]. discriminate.
  - apply validName_iff, nameText_none in V. rewrite V, N. assert (F := forget_text (trim body)). assert (NF := readText_fuel (trim body) (trim_clean _ C)).
    destruct K as [(us & P & E)|[[P E]|(r & l & us & P & E)]]; rewrite E, P in *; destruct (readText (trim body)) as [r' l' us'|e us'|]; cbn in F; try congruence.
    + split; [discriminate|]. intros [r H]. discriminate.
    + split; [|reflexivity]. cbn [fst]. eauto.
Qed.
Lemma addText_none g def : clean def -> addText g def = None <-> exists r, fst (addRule g def) = inl r.
Proof.
  intros C. unfold addText, addRule. destruct (splitEq def) as [[a b]|] eqn:SE; [|split; [discriminate|intros [r H]; discriminate]].
  apply ruleText_none. apply trim_clean. eapply split_clean; eassumption.
Qed.

Lemma undefined_in g t : In t (undefinedTexts g) <-> exists m n, t = rs "rule name '" ++ m ++ rs "' referenced but not defined" /\ In (m, n) (g_usage g) /\ ~ In m (List.map fst (g_records g)).
Proof.
  unfold undefinedTexts. rewrite in_map_iff. split.
  - intros ([m n] & <- & I). apply filter_In in I as [I H]. exists m, n. split; [reflexivity|]. split; [exact I|]. cbn [fst] in H. rewrite <- hasKey_iff. destruct (hasKey m (g_records g)); [discriminate|congruence].
  - intros (m & n & -> & I & H). exists (m, n). split; [reflexivity|]. apply filter_In. split; [exact I|]. cbn [fst]. rewrite <- hasKey_iff in H. destruct (hasKey m (g_records g)); [congruence|reflexivity].
Qed.

(* ---------------- texts of definitions ---------------- *)

Lemma linesText_says q : forall p g, Forall clean q -> after p g ->
  (forall t, In t (linesText g (Z.of_nat (length p)) q) -> complaint (p ++ q) t) /\
  match addLines g (Z.of_nat (length p)) q with
  | inl g' => linesText g (Z.of_nat (length p)) q = undefinedTexts g'
  | inr _ => linesText g (Z.of_nat (length p)) q <> []
  end.
Proof.
  induction q as [|ln q IH]; intros p g C A; cbn [linesText addLines].
  { split; [|reflexivity]. rewrite app_nil_r. intros t T. apply undefined_in in T as (m & n & -> & U & N). apply co_undefined.
    - apply (af_fine _ _ A).
    - apply (after_refs _ _ m A). apply usage_referenced; [apply (af_inv _ _ A)|apply (af_exact _ _ A)|]. now apply (in_map fst) in U.
    - intros D. apply N. now apply (after_defined _ _ m A). }
  inversion C as [|? ? C0 C']; subst.
  assert (EQ : p ++ ln :: q = (p ++ [ln]) ++ q) by now rewrite <- app_assoc.
  assert (LEN : Z.of_nat (length p) + 1 = Z.of_nat (length (p ++ [ln]))) by (rewrite app_length; cbn; lia).
  assert (FB : forall e, badLine (p ++ ln :: q) (length p) e -> firstBad (p ++ ln :: q) (length p) e).
  { intros e B. split; [exact B|]. intros j e' J B'. apply (af_fine _ _ A j e'). eapply bad_app; [exact J|exact B']. }
  destruct (negb (nonempty (trim ln)) || isComment (trim ln)) eqn:IN.
  - apply inert_iff in IN. pose proof (step_inert _ _ _ A IN) as A1. rewrite LEN in A1 |- *. rewrite EQ. now apply IH.
  - assert (NI : ~ inert ln) by (rewrite inert_iff; congruence).
    destruct (splitEq (trim ln)) as [[a b]|] eqn:SE.
    + assert (D : defines ln (trim a) (trim b)) by (apply defines_iff; eauto).
      assert (L : line (p ++ ln :: q) (length p) (trim a) (trim b)) by (apply mid_line; auto).
      pose proof (before_line p ln q g (trim a) A) as BL.
      assert (CB : clean (trim b)) by (apply trim_clean; eapply split_clean; [exact SE|]; now apply trim_clean).
      assert (RN := ruleText_none g (trim a) (trim b) CB).
      assert (SAY : forall e t, badLine (p ++ ln :: q) (length p) e -> reason (p ++ ln :: q) (length p) (trim a) (trim b) t -> ruleText g (trim a) (trim b) = Some t ->
        forall t', In t' [rs "L#" ++ showInt (Z.of_nat (length p) + 1) ++ rs ": rule [" ++ trim a ++ rs "] - " ++ t] -> complaint (p ++ ln :: q) t').
      { intros e t B R _ t' [<-|[]]. eapply co_line; [apply FB, B|exact L|apply showInt_written|exact R]. }
      destruct (parseRule_cases g (trim a) (trim b)) as [[V PR]|[(V & R & PR)|(V & N & [(us & P & PR)|[[P PR]|(r & l & us & P & PR)]])]]; rewrite PR in RN |- *; cbn [fst snd] in RN |- *.
      * destruct (ruleText g (trim a) (trim b)) as [t|] eqn:RT; [|destruct (proj1 RN eq_refl) as [r X]; discriminate]. split; [|discriminate]. eapply SAY; [|  |reflexivity].
        -- eapply bad_name; [exact L|]. rewrite <- validName_iff. congruence.
        -- unfold ruleText in RT. destruct (nameText (trim a)) as [t0|] eqn:NT; [|apply nameText_none, validName_iff in NT; congruence]. injection RT as <-. apply nameText_some in NT as [NG NP]. now apply rn_name.
      * destruct (ruleText g (trim a) (trim b)) as [t|] eqn:RT; [|destruct (proj1 RN eq_refl) as [r X]; discriminate]. split; [|discriminate].
        apply validName_iff in V. assert (NT := proj2 (nameText_none _) V). unfold ruleText in RT. rewrite NT in RT. destruct R as [rec R]. rewrite R in RT. injection RT as <-.
        assert (RI := R). unfold getRecord in RI. apply find_in in RI. apply (af_records _ _ A) in RI as (j & body' & LJ & _ & RL). assert (J := line_lt _ _ _ _ LJ). apply line_app with (ls' := ln :: q) in LJ.
        eapply SAY; [| |reflexivity].
        -- eapply bad_duplicate; [exact L|exact V|exact J|exact LJ].
        -- rewrite RL. eapply rn_duplicate; [exact V|exact J|exact LJ|apply showInt_written].
      * destruct (ruleText g (trim a) (trim b)) as [t|] eqn:RT; [|destruct (proj1 RN eq_refl) as [r X]; discriminate]. split; [|discriminate].
        apply validName_iff in V. assert (NT := proj2 (nameText_none _) V). unfold ruleText in RT. rewrite NT, N in RT. destruct (readText (trim (trim b))) as [? ? ?|e us'|] eqn:RE; try discriminate. injection RT as <-.
        destruct (body_refused (trim a) (trim b) e us' V CB RE) as [UR BP]. eapply SAY; [| |reflexivity].
        -- eapply bad_body; [exact L|exact V| |exact UR]. intros j body J LJ. destruct (proj2 BL) as [rec R]; [eauto|congruence].
        -- now apply rn_body.
      * exfalso. apply parse_enough in P; [exact P|]. now apply trim_clean.
      * assert (RT : ruleText g (trim a) (trim b) = None) by (apply RN; eauto). rewrite RT.
        rewrite trim_trim in P. apply validName_iff in V. pose proof (step_define p ln g _ _ r l us C0 A NI D V N P) as A1.
        unfold setMaxLine. cbn. rewrite LEN in A1 |- *. rewrite EQ. now apply IH.
    + split; [|discriminate]. intros t [<-|[]]. eapply co_noeq; [|apply mid|apply trim_trimmed|apply showInt_written]. apply FB. apply bad_noeq with ln; [apply mid|exact NI|].
      apply splitEq_none in SE. rewrite <- in_trim; [exact SE|rewrite white_dec; discriminate].
Qed.

Lemma lines_of txt ls : clean txt -> linesOf txt ls -> ls = splitLines txt /\ Forall clean ls.
Proof. intros C L. apply lines_unique in L. subst ls. split; [reflexivity|]. apply Forall_forall. intros ln. now apply line_clean. Qed.

Theorem grammarTexts_say txt ls t : clean txt -> linesOf txt ls -> In t (grammarTexts txt) -> complaint ls t.
Proof.
  intros C L. apply lines_of in L as [-> CL]; [|exact C]. unfold grammarTexts. apply (linesText_says (splitLines txt) [] newGrammar CL after_new).
Qed.
Lemma undefined_none g : undefinedTexts g = [] <-> fst (validate g) = None.
Proof.
  rewrite validate_none. split.
  - intros E m n U. destruct (in_dec (list_eq_dec Z.eq_dec) m (List.map fst (g_records g))) as [I|N]; [exact I|]. exfalso.
    assert (X := proj2 (undefined_in g _) (ex_intro _ m (ex_intro _ n (conj eq_refl (conj U N))))). rewrite E in X. exact X.
  - intros H. destruct (undefinedTexts g) as [|t l] eqn:E; [reflexivity|]. exfalso. assert (I : In t (undefinedTexts g)) by (rewrite E; now left).
    apply undefined_in in I as (m & n & _ & U & N). apply N. eauto.
Qed.
Theorem grammarTexts_none txt : clean txt -> grammarTexts txt = [] <-> exists g, newGrammarFromString txt = inl g.
Proof.
  intros C. assert (CL : Forall clean (splitLines txt)) by (apply Forall_forall; intros ln; now apply line_clean).
  assert (H := proj2 (linesText_says (splitLines txt) [] newGrammar CL after_new)). cbn [length Z.of_nat] in H. unfold grammarTexts, newGrammarFromString.
  destruct (addLines newGrammar 0 (splitLines txt)) as [g|[j e]].
  - rewrite H, undefined_none. destruct (validate g) as [[e|] g']; cbn [fst]; split; try discriminate; eauto. intros [g0 E]. discriminate.
  - split; [contradiction|]. intros [g E]. discriminate.
Qed.
(** Any undefined name can be the one that is named. *)
Theorem grammarTexts_any txt ls m : clean txt -> linesOf txt ls -> (forall k e, ~ badLine ls k e) -> mentioned ls m -> ~ defined ls m ->
  In (rs "rule name '" ++ m ++ rs "' referenced but not defined") (grammarTexts txt).
Proof.
  intros C L F M D. apply lines_of in L as [-> CL]; [|exact C]. assert (H := proj2 (linesText_says (splitLines txt) [] newGrammar CL after_new)). cbn [length Z.of_nat] in H. unfold grammarTexts.
  assert (G := addLines_new txt C). destruct (addLines newGrammar 0 (splitLines txt)) as [g|[j e]]; [|destruct G as (k & _ & B & _); now apply F in B].
  rewrite H. apply undefined_in. assert (R := proj2 (after_refs _ _ m G) M). apply usage_referenced in R; [|apply (af_inv _ _ G)|apply (af_exact _ _ G)].
  apply in_map_iff in R as ([m' n] & <- & U). exists m', n. split; [reflexivity|]. split; [exact U|]. intros I. apply D. now apply (after_defined _ _ m' G).
Qed.

(** There is one place where the text stops. *)
Lemma begins_prefix name p q : begins name (p ++ q) -> begins name p.
Proof. intros (q' & r & E & C & R). exists (q ++ q'), r. rewrite app_assoc. auto. Qed.
Lemma longer (x : list Z) : forall y x' y', x ++ y = x' ++ y' -> (length x < length x')%nat -> exists c t, x' = x ++ c :: t /\ y = c :: t ++ y'.
Proof.
  induction x as [|d x IH]; intros y x' y' E L.
  - destruct x' as [|c t]; cbn in *; [lia|]. eauto.
  - destruct x' as [|c' x']; cbn in *; [lia|]. injection E as <- E. destruct (IH y x' y' E ltac:(lia)) as (c & t & -> & ->). eauto.
Qed.
Lemma stops_shorter name x y x' y' : x ++ y = x' ++ y' -> (length x < length x')%nat -> begins name x' -> (forall c t, y = c :: t -> ~ begins name (x ++ [c])) -> False.
Proof.
  intros E L B N. destruct (longer x y x' y' E L) as (c & t & -> & ->). apply (N c (t ++ y') eq_refl). apply begins_prefix with t. now rewrite <- app_assoc.
Qed.
Lemma stops_once name m x y x' y' : stopsAt name m x y -> stopsAt name m x' y' -> x = x' /\ y = y'.
Proof.
  intros (E & B & N) (E' & B' & N'). assert (L : length x = length x').
  { destruct (Nat.lt_trichotomy (length x) (length x')) as [L|[L|L]]; [|exact L|]; exfalso.
    - eapply (stops_shorter name x y x' y'); eauto; congruence.
    - eapply (stops_shorter name x' y' x y); eauto; congruence. }
  rewrite E in E'. clear -E' L. revert x' L E'. induction x as [|c x IH]; intros [|c' x'] L E; cbn in *; try lia; [auto|]. injection E as -> E. destruct (IH x' ltac:(lia) E) as [-> ->]. auto.
Qed.

(** The wording. *)
Lemma wording_one e t : wording e t -> forall t', wording e t' -> t = t'.
Proof.
  induction 1; intros t' W'; inversion W'; subst; try reflexivity.
  - assert (a = a0) as -> by (eapply written_one; eassumption). assert (b = b0) as -> by (eapply written_one; eassumption). reflexivity.
  - f_equal. auto.
Qed.
Lemma written_no_comma z a : written z a -> ~ In 44 a.
Proof.
  intros [[_ (D & _ & _ & F)]|[_ (a' & -> & D & _ & _ & F)]] I.
  - eapply Forall_forall in F; [|exact I]. lia.
  - destruct I as [I|I]; [lia|]. eapply Forall_forall in F; [|exact I]. lia.
Qed.
Lemma written_value z z' a : written z a -> written z' a -> z = z'.
Proof.
  intros [[H (D & _ & _ & F)]|[H (a' & -> & D & _ & _ & F)]] [[H' (D' & _ & _ & F')]|[H' (b' & E' & D' & _ & _ & F')]].
  - eapply denotes_fun; eassumption.
  - subst a. apply Forall_inv in F. lia.
  - apply Forall_inv in F'. lia.
  - injection E' as ->. assert (- z = - z') by (eapply denotes_fun; eassumption). lia.
Qed.
Lemma comma_split (a a' b b' : list Z) : ~ In 44 a -> ~ In 44 a' -> a ++ 44 :: b = a' ++ 44 :: b' -> a = a' /\ b = b'.
Proof.
  revert a'. induction a as [|c a IH]; intros [|c' a'] N N' E; cbn in *.
  - injection E as ->. auto.
  - injection E as E1 E. exfalso. apply N'. left. congruence.
  - injection E as E1 E. exfalso. apply N. left. congruence.
  - injection E as -> E. destruct (IH a' ltac:(tauto) ltac:(tauto) E) as [-> ->]. auto.
Qed.
Lemma wording_tells e t : wording e t -> forall e', shown e -> shown e' -> wording e' t -> e = e'.
Proof.
  intros W. induction W; intros e' Sh Sh' W'; inversion W'; subst; try reflexivity; try (exfalso; match goal with H : _ = _ |- _ => revert H; cbn; discriminate end); cbn [shown] in *.
  1-4, 9: congruence.
  1-2: exfalso; match goal with H : Forall _ (_ :: _) |- _ => apply Forall_inv in H; lia end.
  - match goal with H : _ = _ |- _ => apply comma_split in H as [Ea Eb]; [|eapply written_no_comma; eassumption..] end.
    apply app_inv_tail in Eb. subst. f_equal; eapply written_value; eassumption.
  - f_equal. auto.
Qed.

(** The refusal of a definition. *)
Theorem refusal_told name body m : clean body -> trimmed body m -> unreadable name body ->
  exists e us x y, readText m = FErr e us /\ stopsAt name m x y /\ about e x y.
Proof.
  intros C T U. apply trimmed_iff in T. subst m. apply unreadable_iff in U as (GN & us & E). assert (F := forget_text (trim body)). rewrite E in F.
  destruct (readText (trim body)) as [r l us'|e us'|] eqn:R; cbn in F; try discriminate.
  destruct (trim_trimmed body) as (w & w' & _ & _ & _ & ED). destruct (refused name (trim body) e us' GN ED (trim_clean _ C) R) as (x & y & S & A). eauto 8.
Qed.
Theorem refusal_fits name m e us x y : goodName name -> edged m -> clean m -> readText m = FErr e us -> stopsAt name m x y -> about e x y.
Proof.
  intros GN ED C R S. destruct (refused name m e us GN ED C R) as (x' & y' & S' & A). destruct (stops_once _ _ _ _ _ _ S S') as [-> ->]. exact A.
Qed.
Lemma refusal_missing name m e us x y : goodName name -> edged m -> clean m -> readText m = FErr e us -> stopsAt name m x y ->
  missing e <> [] -> exists c, In c (missing e) /\ begins name (x ++ [c]).
Proof.
  intros GN ED C R S. destruct (refused_all name m e us GN ED C R) as (x' & y' & S' & _ & M). destruct (stops_once _ _ _ _ _ _ S S') as [-> ->]. exact M.
Qed.
Lemma refusal_iff name m : goodName name -> edged m -> clean m -> (exists e us, readText m = FErr e us) <-> unreadable name m.
Proof.
  intros GN ED C. rewrite unreadable_iff, (edged_trim m ED). assert (F := forget_text m). destruct (readText m) as [r l us'|e us'|]; cbn [forget] in F; split.
  - intros (e & us & X). discriminate.
  - intros (_ & us & X). congruence.
  - eauto.
  - eauto.
  - intros (e & us & X). discriminate.
  - intros (_ & us & X). congruence.
Qed.
Lemma acceptance_same m r l us : readText m = FOk r l us <-> parseText m = POk r l us.
Proof.
  split; [apply readText_ok|]. intros E. assert (F := forget_text m). rewrite E in F. destruct (readText m); cbn [forget] in F; congruence.
Qed.
Lemma edged_of m : trim m = m -> edged m.
Proof. intros E. destruct (trim_trimmed m) as (w & w' & _ & _ & _ & ED). now rewrite E in ED. Qed.

(** One definition. *)
Lemma ruleText_says g name body t : clean body -> ruleText g name body = Some t -> objection g name body t.
Proof.
  intros C. unfold ruleText. destruct (nameText name) as [t0|] eqn:NT.
  { intros [= <-]. apply nameText_some in NT as [NG NP]. now apply ob_name. }
  apply nameText_none in NT. unfold getRecord. destruct (find_rec (g_records g) name) as [rec|] eqn:R.
  { intros [= <-]. apply find_in in R. eapply ob_duplicate; [exact NT|exact R|apply showInt_written]. }
  destruct (readText (trim body)) as [? ? ?|e us|] eqn:RE; try discriminate. intros [= <-].
  destruct (body_refused name body e us NT C RE) as [UR BP]. apply ob_body; [exact NT| |exact UR|exact BP].
  now apply find_none.
Qed.
Lemma addText_says g def t : clean def -> addText g def = Some t -> addObjection g def t.
Proof.
  intros C. unfold addText. destruct (splitEq def) as [[a b]|] eqn:SE.
  - intros H. pose proof (split_clean _ _ _ SE C) as CB. apply splitEq_some in SE as [-> N].
    eapply ao_rule; [reflexivity|exact N|apply trim_trimmed|apply trim_trimmed|]. apply ruleText_says; [now apply trim_clean|exact H].
  - intros [= <-]. apply ao_noeq. now apply splitEq_none.
Qed.
