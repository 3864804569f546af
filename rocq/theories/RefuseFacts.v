(** Facts about the refusal of definitions. *)
From Verif Require Import Base Stream Node Rule Parse SpecStream SpecRule SpecParse StreamFacts ParseFacts NotationFacts ParseMono Refuse.

(* ---------------- the parser of Parse.v ---------------- *)

Definition forget {A} (x : fres A) : pres A :=
  match x with FOk a l us => POk a l us | FErr _ us => PErr us | FFuel => PFuel end.
Definition forgetS {A} (x : A + perr) : option A := match x with inl a => Some a | inr _ => None end.

Lemma forget_escape l : forgetS (fEscape l) = parseUnicodeEscape l.
Proof.
  unfold fEscape, parseUnicodeEscape. destruct l as [|u l]; [reflexivity|]. cbn [lpeek lnext tl].
  destruct (u =? 117) eqn:U.
  - destruct l as [|a [|b [|c [|d l]]]]; cbn [fHex]; try (rewrite ?U; reflexivity);
      repeat (match goal with |- context [hexVal ?x] => destruct (hexVal x) end; cbn [fHex forgetS]; try reflexivity).
  - destruct l as [|a [|b [|c [|d l]]]]; cbn [forgetS]; try reflexivity.
Qed.
Lemma forget_range l lo lu : forgetS (fRange l lo lu) = inRange l lo lu.
Proof.
  unfold fRange, inRange. destruct l as [|dash [|q l1]]; cbn [lpeek lnext tl]; [reflexivity| |].
  { destruct (dash =? cDash); reflexivity. }
  destruct (negb (dash =? cDash)); [reflexivity|]. destruct (q =? cQuote).
  - destruct l1 as [|e l2]; [reflexivity|]. cbn [lpeek lnext tl]. destruct (e =? cBack).
    + destruct (lpeek l2 =? 117); [|reflexivity]. rewrite <- forget_escape. destruct (fEscape l2) as [[hi l3]|]; [|reflexivity]. cbn [sbind forgetS].
      destruct (lpeek l3 =? cQuote); reflexivity.
    + destruct (lpeek l2 =? cQuote); reflexivity.
  - destruct (q =? cBack); [|reflexivity]. rewrite <- forget_escape. destruct (fEscape l1) as [[hi l3]|]; reflexivity.
Qed.
Lemma forget_quoted n q e : forall l, forgetS (fQuoted n q e l) = quoted n q l.
Proof.
  induction n as [|n IH]; intros l; cbn [fQuoted quoted]; [reflexivity|]. destruct l as [|c l1]; [reflexivity|].
  destruct (c =? q); [reflexivity|]. destruct (c =? cBack).
  - destruct (lpeek l1 =? 117).
    + rewrite <- forget_escape. destruct (fEscape l1) as [[v l2]|]; [|reflexivity]. cbn [sbind forgetS]. rewrite <- IH.
      destruct (fQuoted n q e l2) as [[[? ?] ?]|]; reflexivity.
    + destruct l1 as [|c1 l2]; [reflexivity|]. rewrite <- IH. destruct (fQuoted n q e l2) as [[[? ?] ?]|]; reflexivity.
  - rewrite <- IH. destruct (fQuoted n q e l1) as [[[? ?] ?]|]; reflexivity.
Qed.
Lemma forget_char l : forgetS (fChar l) = inChar l.
Proof.
  unfold fChar, inChar. rewrite <- (forget_quoted _ _ PCharEnd). destruct (fQuoted _ _ _ _) as [[[buf u] l1]|]; [|reflexivity]. cbn [sbind forgetS].
  destruct buf as [|c [|d buf]]; [reflexivity| |reflexivity]. destruct (lpeek l1 =? cDash); [apply forget_range|reflexivity].
Qed.
Lemma forget_unicode l : forgetS (fUnicode l) = inUnicode l.
Proof.
  unfold fUnicode, inUnicode. rewrite <- forget_escape. destruct (lpeek (lnext l) =? 117) eqn:E; cbn [negb].
  - destruct (fEscape (lnext l)) as [[v l1]|]; [|reflexivity]. cbn [sbind forgetS]. destruct (lpeek l1 =? cDash); [apply forget_range|reflexivity].
  - unfold fEscape. rewrite E. reflexivity.
Qed.
Lemma forget_string l : forgetS (fString l) = inString l.
Proof.
  unfold fString, inString. rewrite <- (forget_quoted _ _ PStringEnd). destruct (fQuoted _ _ _ _) as [[[buf u] l1]|]; reflexivity.
Qed.
Lemma forget_digits sc l : forgetS (fDigits sc l) = digitsTo sc l.
Proof.
  induction l as [|c l IH]; cbn [fDigits digitsTo]; [reflexivity|]. destruct (_ || _); [exact IH|]. destruct (sc && _); [reflexivity|].
  destruct (c =? cGt); [reflexivity|]. destruct (isDigit c); [|reflexivity]. rewrite <- IH. destruct (fDigits sc l) as [[[? ?] ?]|]; reflexivity.
Qed.
Lemma forget_suffix l : forgetS (fSuffix l) = repSuffix l.
Proof.
  unfold fSuffix, repSuffix. destruct (_ =? 42); [reflexivity|]. destruct (_ =? 43); [reflexivity|]. destruct (_ =? cLt); [|reflexivity].
  unfold fSpec, inRepeatSpec. rewrite <- forget_digits. destruct (fDigits true _) as [[[ds st] l1]|]; [|reflexivity]. cbn [sbind forgetS].
  unfold fNumber. destruct (parseUint32 ds) as [mn|]; [|reflexivity]. cbn [sbind]. destruct (st =? 44); [|reflexivity].
  rewrite <- forget_digits. destruct (fDigits false l1) as [[[ds2 st2] l2]|]; [|reflexivity]. cbn [sbind forgetS].
  destruct (parseUint32 ds2) as [mx|]; [|reflexivity]. cbn [sbind]. destruct (_ && _); reflexivity.
Qed.

Lemma forget_lift {A} (o : (A * list Z) + perr) us : forget (flift o us) = lift (forgetS o) us.
Proof. destruct o as [[? ?]|]; reflexivity. Qed.
Lemma forget_bind {A B} (m : fres A) (k : A -> list Z -> list (list Z) -> fres B) k' :
  (forall a l us, forget (k a l us) = k' a l us) -> forget (fbind m k) = pbind (forget m) k'.
Proof. intros H. destruct m; cbn; auto. Qed.
Lemma forget_open {A} (m : fres A) : forget (asOpen m) = forget m.
Proof. now destruct m. Qed.

Lemma forgets fuel :
  (forall terms rules a l us, forget (fLoop fuel terms rules a l us) = pLoop fuel terms rules a l us) /\
  (forall other l us, forget (fPrim fuel other l us) = pPrim fuel l us) /\
  (forall o e xs l us, forget (fExcl fuel o e xs l us) = pExcl fuel o e xs l us) /\
  (forall a l us, forget (fOne fuel a l us) = pOne fuel a l us) /\
  (forall rules gs l us, forget (fChoice fuel rules gs l us) = pChoice fuel rules gs l us).
Proof.
  induction fuel as [|fuel (IL & IP & IX & IO & IC)]; [repeat split|]. split; [|split; [|split; [|split]]].
  - intros terms rules a l us. cbn [fLoop pLoop].
    assert (D : forall l', forget (match finish rules with Some r => FOk r l' us | None => FErr PNoRule us end) = match finish rules with Some r => POk r l' us | None => PErr us end)
      by (intros; destruct (finish rules); reflexivity).
    destruct (_ =? EOFChar); [apply D|]. destruct (existsb _ _); [apply D|].
    destruct (isWS _); [apply IL|]. destruct (isAnn _); [destruct (_ =? cChoice); [reflexivity|apply IL]|].
    destruct (_ || _). { destruct rules; [reflexivity|]. rewrite <- IC. apply forget_bind. intros; apply IL. }
    destruct (_ =? cSlash); [destruct (_ =? cSlash); [apply D|reflexivity]|]. erewrite forget_bind; [rewrite IP; reflexivity|]. intros; apply IL.
  - intros other l us. cbn [fPrim pPrim]. destruct (_ =? cQuote); [now rewrite forget_lift, forget_char|]. destruct (_ =? cBack); [now rewrite forget_lift, forget_unicode|].
    destruct (_ =? cDQuote); [now rewrite forget_lift, forget_string|].
    destruct (_ =? cLBrack); [rewrite <- IL; apply forget_bind; intros; destruct (_ =? cRBrack); reflexivity|].
    destruct (_ =? cLBrace).
    { rewrite <- IL. apply forget_bind. intros. destruct (_ =? cRBrace); [|reflexivity]. rewrite <- forget_suffix. destruct (fSuffix _) as [[[? ?] ?]|]; reflexivity. }
    destruct (_ =? cLt).
    { rewrite <- IL, <- (forget_open (fLoop _ _ _ _ _ _)). apply forget_bind. intros o l1 us1. destruct (negb _); [|apply IX]. rewrite <- IL. apply forget_bind. intros r l3 us2.
      destruct (_ =? cGt); [reflexivity|]. destruct (_ =? cBang); [destruct (_ =? cGt); reflexivity|apply IX]. }
    destruct (_ =? cLPar); [rewrite <- IL; apply forget_bind; intros; destruct (_ =? cRPar); reflexivity|].
    destruct (_ || _); [|reflexivity]. unfold fReference. destruct (inReference l us); reflexivity.
  - intros o e xs l us. cbn [fExcl pExcl]. destruct (_ =? cNeg); rewrite <- IL; apply forget_bind; intros; [apply IX|].
    destruct (_ =? cBang); [destruct (_ =? cGt); reflexivity|]. destruct (_ =? cGt); reflexivity.
  - intros a l us. cbn [fOne pOne]. destruct (_ || _); [apply IO|]. destruct (_ =? EOFChar); [reflexivity|].
    destruct (isAnn _); [destruct (_ =? cChoice); [reflexivity|apply IO]|]. erewrite forget_bind; [rewrite IP; reflexivity|]. reflexivity.
  - intros rules gs l us. cbn [fChoice pChoice]. destruct (_ =? cSpace); [apply IC|].
    destruct (_ =? cChoice); [rewrite <- IO; apply forget_bind; intros; apply IC|].
    destruct (_ =? cGt); [destruct rules; [reflexivity|]; rewrite <- IO; apply forget_bind; intros; apply IC|].
    destruct gs as [|? ?], rules as [|? [|? ?]]; reflexivity.
Qed.
Lemma forget_text l : forget (readText l) = parseText l.
Proof. apply forgets. Qed.

(* ---------------- fuel ---------------- *)

Definition fbelow {A} (p q : fres A) : Prop := p = FFuel \/ p = q.
Lemma fbelow_refl {A} (p : fres A) : fbelow p p. Proof. now right. Qed.
Lemma fbelow_fuel {A} (p : fres A) : fbelow FFuel p. Proof. now left. Qed.
Lemma fbelow_bind {A B} (p q : fres A) (k k' : A -> list Z -> list (list Z) -> fres B) :
  fbelow p q -> (forall a l us, fbelow (k a l us) (k' a l us)) -> fbelow (fbind p k) (fbind q k').
Proof. intros [->| ->] H; [apply fbelow_fuel|]. destruct q; cbn [fbind]; [apply H|apply fbelow_refl|apply fbelow_refl]. Qed.
Lemma fbelow_open {A} (p q : fres A) : fbelow p q -> fbelow (asOpen p) (asOpen q).
Proof. intros [->| ->]; [apply fbelow_fuel|apply fbelow_refl]. Qed.

Lemma fparser_mono fuel : forall m, (fuel <= m)%nat ->
  (forall terms rules a l us, fbelow (fLoop fuel terms rules a l us) (fLoop m terms rules a l us)) /\
  (forall other l us, fbelow (fPrim fuel other l us) (fPrim m other l us)) /\
  (forall o e xs l us, fbelow (fExcl fuel o e xs l us) (fExcl m o e xs l us)) /\
  (forall a l us, fbelow (fOne fuel a l us) (fOne m a l us)) /\
  (forall rules gs l us, fbelow (fChoice fuel rules gs l us) (fChoice m rules gs l us)).
Proof.
  induction fuel as [|fuel IH]; [repeat split; intros; apply fbelow_fuel|]. intros [|m] H; [lia|].
  destruct (IH m ltac:(lia)) as (IL & IP & IX & IO & IC). clear IH H.
  split; [|split; [|split; [|split]]].
  - intros terms rules a l us. cbn [fLoop]. destruct (_ =? EOFChar); [apply fbelow_refl|]. destruct (existsb _ _); [apply fbelow_refl|].
    destruct (isWS _); [apply IL|]. destruct (isAnn _); [destruct (_ =? cChoice); [apply fbelow_refl|apply IL]|].
    destruct (_ || _). { destruct rules; [apply fbelow_refl|]. apply fbelow_bind; [apply IC|intros; apply IL]. }
    destruct (_ =? cSlash); [apply fbelow_refl|]. apply fbelow_bind; [apply IP|intros; apply IL].
  - intros other l us. cbn [fPrim]. destruct (_ =? cQuote); [apply fbelow_refl|]. destruct (_ =? cBack); [apply fbelow_refl|].
    destruct (_ =? cDQuote); [apply fbelow_refl|].
    destruct (_ =? cLBrack); [apply fbelow_bind; [apply IL|intros; apply fbelow_refl]|].
    destruct (_ =? cLBrace); [apply fbelow_bind; [apply IL|intros; apply fbelow_refl]|].
    destruct (_ =? cLt).
    { apply fbelow_bind; [apply fbelow_open, IL|]. intros o l1 us1. destruct (negb _); [|apply IX]. apply fbelow_bind; [apply IL|]. intros r l3 us2.
      destruct (_ =? cGt); [apply fbelow_refl|]. destruct (_ =? cBang); [apply fbelow_refl|apply IX]. }
    destruct (_ =? cLPar); [apply fbelow_bind; [apply IL|intros; apply fbelow_refl]|]. apply fbelow_refl.
  - intros o e xs l us. cbn [fExcl]. destruct (_ =? cNeg); (apply fbelow_bind; [apply IL|intros]); [apply IX|apply fbelow_refl].
  - intros a l us. cbn [fOne]. destruct (_ || _); [apply IO|]. destruct (_ =? EOFChar); [apply fbelow_refl|].
    destruct (isAnn _); [destruct (_ =? cChoice); [apply fbelow_refl|apply IO]|]. apply fbelow_bind; [apply IP|intros; apply fbelow_refl].
  - intros rules gs l us. cbn [fChoice]. destruct (_ =? cSpace); [apply IC|]. destruct (_ =? cChoice); [apply fbelow_bind; [apply IO|intros; apply IC]|].
    destruct (_ =? cGt); [|apply fbelow_refl]. destruct rules; [apply fbelow_refl|]. apply fbelow_bind; [apply IO|intros; apply IC].
Qed.
