(** C70, C71: the errors of the definition parser and of the grammar functions. *)
From Verif Require Import Base Stream Node Rule Parse Grammar SpecStream SpecRule SpecParse SpecShow SpecGrammar PropsParse Refuse SpecRefuse RefuseFacts StopFacts Message Complain SpecComplain ComplainFacts.

(* ---------------- C70 ---------------- *)
(** Reading with errors is reading: the same texts are accepted, with the same rule. *)
Theorem C70_same_acceptance : forall m r rest us, readText m = FOk r rest us <-> parseText m = POk r rest us.
Proof. exact acceptance_same. Qed.
Print Assumptions C70_same_acceptance.
Theorem C70_same_refusal : forall name m, goodName name -> edged m -> runesOk m -> (exists e us, readText m = FErr e us) <-> unreadable name m.
Proof. exact refusal_iff. Qed.
Print Assumptions C70_same_refusal.
(** A refused text is the beginning of a definition up to some place and no further, and
    the error is one that fits this place. *)
Theorem C70_refusal : forall name body m, runesOk body -> trimmed body m -> unreadable name body ->
  exists e us x y, readText m = FErr e us /\ stopsAt name m x y /\ about e x y.
Proof. exact refusal_told. Qed.
Print Assumptions C70_refusal.
Theorem C70_error_fits : forall name m e us x y, goodName name -> edged m -> runesOk m -> readText m = FErr e us -> stopsAt name m x y -> about e x y.
Proof. exact refusal_fits. Qed.
Print Assumptions C70_error_fits.
Theorem C70_one_place : forall name m x y x' y', stopsAt name m x y -> stopsAt name m x' y' -> x = x' /\ y = y'.
Proof. exact stops_once. Qed.
Print Assumptions C70_one_place.
(** When the error says that something is missing, the text with it is the beginning of a
    definition. *)
Theorem C70_missing : forall name m e us x y, goodName name -> edged m -> runesOk m -> readText m = FErr e us -> stopsAt name m x y ->
  missing e <> [] -> exists c, In c (missing e) /\ begins name (x ++ [c]).
Proof. exact refusal_missing. Qed.
Print Assumptions C70_missing.

Definition c70Text : list Z := Eval vm_compute in rs "('a' 'b'-x) { c }".
Example C70_example : edged c70Text /\ runesOk c70Text /\ readText c70Text = FErr PRangeSecond [] /\
  exists x y, stopsAt nm c70Text x y /\ x = rs "('a' 'b'-" /\ y = rs "x) { c }".
Proof.
  assert (ED : edged c70Text) by (apply edged_of; reflexivity).
  assert (C : runesOk c70Text) by (repeat constructor; discriminate).
  assert (R : readText c70Text = FErr PRangeSecond []) by (vm_compute; reflexivity).
  split; [exact ED|]. split; [exact C|]. split; [exact R|].
  destruct (refused nm c70Text _ _ nm_good ED C R) as (x & y & S & A). exists x, y. split; [exact S|]. destruct S as (E & _ & _).
  inversion A as [| | | | | | | | | | | | | | | | | | | |x' y' N1 N2 Ex Ey| | | | | | | | | |]; subst. clear -E N1.
  assert (X : forall x, c70Text = (x ++ [45]) ++ y -> x = rs "('a' 'b'" /\ y = rs "x) { c }").
  { intros x E'. unfold c70Text in E'. do 9 (destruct x as [|? x]; cbn in E'; [discriminate || (injection E' as <-; split; reflexivity)|injection E' as <- E']).
    do 8 (destruct x as [|? x]; cbn in E'; [discriminate|injection E' as <- E']). destruct x; discriminate. }
  destruct (X x' E) as [-> ->]. split; reflexivity.
Qed.

Definition c70Open : list Z := Eval vm_compute in rs "('a' | ['b' c // open".
Example C70_missing_example : edged c70Open /\ runesOk c70Open /\ readText c70Open = FErr POptionEnd [rs "c"] /\ missing POptionEnd = [93] /\
  stopsAt nm c70Open c70Open [] /\ begins nm (c70Open ++ [93]).
Proof.
  assert (ED : edged c70Open) by (apply edged_of; reflexivity).
  assert (C : runesOk c70Open) by (repeat constructor; discriminate).
  assert (R : readText c70Open = FErr POptionEnd [rs "c"]) by (vm_compute; reflexivity).
  destruct (refused nm c70Open _ _ nm_good ED C R) as (x & y & S & A).
  assert (Y : y = []).
  { inversion A as [| | | | | | | | | | | | | | | | | | | | | |p z y' _ [Y|(v & t & -> & _)]| | | | | | | |]; subst; [reflexivity|]. exfalso. destruct S as (E & _ & _). clear -E.
    unfold c70Open in E. assert (J : In 10 c70Open) by (unfold c70Open; rewrite E; rewrite !in_app_iff; left; right; right; rewrite in_app_iff; right; right; right; rewrite in_app_iff; right; now left).
    revert J. unfold c70Open. cbn. lia. }
  subst y. assert (X : c70Open = x) by (destruct S as (E & _ & _); now rewrite app_nil_r in E). subst x.
  split; [exact ED|]. split; [exact C|]. split; [exact R|]. split; [reflexivity|]. split; [exact S|].
  destruct (C70_missing nm c70Open _ _ _ _ nm_good ED C R S) as (c & [<-|[]] & B); [discriminate|exact B].
Qed.

(** The rune that an error shows need not be the one at the place: a number can have gone
    wrong before it. *)
Definition c70Big : list Z := Eval vm_compute in rs "{'a'}<99999999999".
Theorem C70_shown_rune_is_next_refuted :
  ~ forall name m c us x y, goodName name -> edged m -> runesOk m -> readText m = FErr (PSpecChar c) us -> stopsAt name m x y -> c = EOFChar \/ exists t, y = c :: t.
Proof.
  intros H. set (m := c70Big ++ [120; 62]). set (m' := c70Big ++ [62]).
  assert (ED : edged m) by (apply edged_of; reflexivity). assert (ED' : edged m') by (apply edged_of; reflexivity).
  assert (C : runesOk m) by (repeat constructor; discriminate). assert (C' : runesOk m') by (repeat constructor; discriminate).
  assert (R : readText m = FErr (PSpecChar 120) []) by (vm_compute; reflexivity).
  assert (R' : readText m' = FErr (PSpecNumber (rs "99999999999")) []) by (vm_compute; reflexivity).
  destruct (refused nm m _ _ nm_good ED C R) as (x & y & S & _). destruct (H nm m _ _ x y nm_good ED C R S) as [K|[t ->]]; [discriminate|].
  destruct (refused nm m' _ _ nm_good ED' C' R') as (x' & y' & S' & A). destruct S as (E & B & _). destruct S' as (E' & _ & N').
  assert (X : x = c70Big).
  { clear -E. unfold m, c70Big in E. do 19 (destruct x as [|? x]; cbn in E; [discriminate || (injection E as <-; reflexivity)|injection E as <- E]). destruct x; discriminate. }
  inversion A as [| | | | | | | | | | | | | | | | | | | | | | | | | |ds v x1 z z' st t' SP NE _ _ K| | | |]; subst x' y' ds. destruct z' as [|d z']; [congruence|]. apply (N' d (z' ++ st :: t') eq_refl).
  apply begins_prefix with z'. rewrite <- app_assoc. cbn [app]. replace ((x1 ++ z) ++ d :: z') with x; [exact B|]. rewrite X. clear -E' K.
  change ((d :: z') ++ st :: t') with (d :: z' ++ st :: t') in E'. set (p := x1 ++ z) in *. clearbody p. replace (p ++ d :: z' ++ st :: t') with ((p ++ d :: z') ++ st :: t') in E' by (rewrite <- app_assoc; reflexivity).
  set (q := p ++ d :: z') in *. clearbody q. unfold m', c70Big in *.
  do 17 (destruct q as [|? q]; cbn in E'; [injection E' as E1 _; destruct K; subst; discriminate|injection E' as <- E']).
  destruct q as [|? q]; cbn in E'; [reflexivity|injection E' as _ E']. destruct q; discriminate.
Qed.
Print Assumptions C70_shown_rune_is_next_refuted.

(* ---------------- C71 ---------------- *)
(** Every text that the error of NewGrammarFromString can have is about the first line
    with something wrong, or about a name without a definition when there is none. *)
Theorem C71_complaint : forall txt ls t, runesOk txt -> linesOf txt ls -> In t (grammarTexts txt) -> complaint ls t.
Proof. exact grammarTexts_say. Qed.
Print Assumptions C71_complaint.
Theorem C71_error_iff_text : forall txt, runesOk txt -> grammarTexts txt = [] <-> exists g, newGrammarFromString txt = inl g.
Proof. exact grammarTexts_none. Qed.
Print Assumptions C71_error_iff_text.
Theorem C71_any_undefined : forall txt ls m, runesOk txt -> linesOf txt ls -> (forall k e, ~ badLine ls k e) -> mentioned ls m -> ~ defined ls m ->
  In (rs "rule name '" ++ m ++ rs "' referenced but not defined") (grammarTexts txt).
Proof. exact grammarTexts_any. Qed.
Print Assumptions C71_any_undefined.
(** The same for single definitions. *)
Theorem C71_parse_rule : forall g name body, runesOk body -> ruleText g name body = None <-> exists r, fst (parseRule g name body) = inl r.
Proof. exact ruleText_none. Qed.
Print Assumptions C71_parse_rule.
Theorem C71_add_rule : forall g def, runesOk def -> addText g def = None <-> exists r, fst (addRule g def) = inl r.
Proof. exact addText_none. Qed.
Print Assumptions C71_add_rule.
Theorem C71_parse_rule_text : forall g name body t, runesOk body -> ruleText g name body = Some t -> objection g name body t.
Proof. exact ruleText_says. Qed.
Print Assumptions C71_parse_rule_text.
Theorem C71_add_rule_text : forall g def t, runesOk def -> addText g def = Some t -> addObjection g def t.
Proof. exact addText_says. Qed.
Print Assumptions C71_add_rule_text.
(** Blanks around a text without [=] are shown. *)
Example C71_add_rule_example : addText newGrammar (rs " a ") = Some (rs "invalid(missing =):  a ") /\
  addText newGrammar (rs " a = ]") = Some (rs "invalid char ']'") /\ addObjection newGrammar (rs " a ") (rs "invalid(missing =):  a ").
Proof. split; [reflexivity|]. split; [vm_compute; reflexivity|]. apply addText_says; [repeat constructor; cbv; discriminate|reflexivity]. Qed.
(** What is said about the text of a definition, and about a name. *)
Theorem C71_body : forall name body e us, goodName name -> runesOk body -> readText (trim body) = FErr e us -> unreadable name body /\ bodyPart name body (perrText e).
Proof. exact body_refused. Qed.
Print Assumptions C71_body.
Theorem C71_name : forall n t, nameText n = Some t -> ~ goodName n /\ namePart n t.
Proof. exact nameText_some. Qed.
Print Assumptions C71_name.
Theorem C71_one_wording : forall e t, wording e t -> forall t', wording e t' -> t = t'.
Proof. exact wording_one. Qed.
Print Assumptions C71_one_wording.
(** Different errors read differently. *)
Theorem C71_wording_determines_partial : forall e t, wording e t -> forall e', shown e -> shown e' -> wording e' t -> e = e'.
Proof. exact wording_tells. Qed.
Print Assumptions C71_wording_determines_partial.
(** Except that the end of the text reads like U+FFFD. *)
Theorem C71_wording_determines_refuted : ~ forall e e' x y x' y' t, about e x y -> about e' x' y' -> wording e t -> wording e' t -> e = e'.
Proof.
  intros H. assert (X : PBlockEnd EOFChar = PBlockEnd 65533); [|discriminate X].
  apply (H _ _ [] [] [] [65533] _ (ab_block_eof []) (ab_block_end 65533 [] [] ltac:(discriminate)) (wo_block EOFChar)). exact (wo_block 65533).
Qed.
Print Assumptions C71_wording_determines_refuted.

Definition c71Text : list Z := Eval vm_compute in rs "a = 'x'" ++ [10] ++ rs "// note" ++ [10] ++ rs "b = ('x' ] )".
Example C71_example : grammarTexts c71Text = [rs "L#3: rule [b] - invalid char ']'"] /\ linesOf c71Text [rs "a = 'x'"; rs "// note"; rs "b = ('x' ] )"].
Proof.
  split; [vm_compute; reflexivity|]. split; [discriminate|]. split; [|eexists _, _; split; reflexivity].
  intros l [<-|[<-|[<-|[]]]] I; cbn in I; intuition discriminate.
Qed.
Example C71_messages :
  grammarTexts (rs "a = b c") = [rs "rule name 'b' referenced but not defined"; rs "rule name 'c' referenced but not defined"] /\
  grammarTexts (rs "a 'x'") = [rs "L#1: invalid(missing =): a 'x'"] /\
  grammarTexts (rs "1a = 'x'") = [rs "L#1: rule [1a] - rule name must starts with a letter character: '1' is invalid"] /\
  grammarTexts (rs "a = 'x'" ++ [10] ++ rs "a = 'y'") = [rs "L#2: rule [a] - rule 'a' already defined at line 1"] /\
  grammarTexts (rs "a = {'x'}<3,2>") = [rs "L#1: rule [a] - invalid repetition specification: max repeat less than min repeat: <3,2>"] /\
  grammarTexts (rs "a = <>") = [rs "L#1: rule [a] - missing block open rule: no rule found"] /\
  grammarTexts (233 :: rs " = 'x'") = [rs "L#1: rule [" ++ [233] ++ rs "] - rule name must starts with a letter character: '" ++ [195] ++ rs "' is invalid"].
Proof. vm_compute. repeat split. Qed.
