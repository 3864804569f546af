(** More fuel does not change what the parser says. *)
From Verif Require Import Base Stream Node Rule Parse SpecStream SpecRule SpecParse StreamFacts ParseFacts.

Definition below {A} (p q : pres A) : Prop := p = PFuel \/ p = q.
Lemma below_refl {A} (p : pres A) : below p p. Proof. now right. Qed.
Lemma below_fuel {A} (p : pres A) : below PFuel p. Proof. now left. Qed.
Lemma below_bind {A B} (p q : pres A) (k k' : A -> list Z -> list (list Z) -> pres B) :
  below p q -> (forall a l us, below (k a l us) (k' a l us)) -> below (pbind p k) (pbind q k').
Proof. intros [->| ->] H; [apply below_fuel|]. destruct q; cbn [pbind]; [apply H|apply below_refl|apply below_refl]. Qed.

Lemma parser_mono fuel : forall m, (fuel <= m)%nat ->
  (forall terms rules a l us, below (pLoop fuel terms rules a l us) (pLoop m terms rules a l us)) /\
  (forall l us, below (pPrim fuel l us) (pPrim m l us)) /\
  (forall o e xs l us, below (pExcl fuel o e xs l us) (pExcl m o e xs l us)) /\
  (forall a l us, below (pOne fuel a l us) (pOne m a l us)) /\
  (forall rules gs l us, below (pChoice fuel rules gs l us) (pChoice m rules gs l us)).
Proof.
  induction fuel as [|fuel IH]; [repeat split; intros; apply below_fuel|]. intros [|m] H; [lia|].
  destruct (IH m ltac:(lia)) as (IL & IP & IX & IO & IC). clear IH H.
  split; [|split; [|split; [|split]]].
  - intros terms rules a l us. cbn [pLoop]. destruct (_ =? EOFChar); [apply below_refl|]. destruct (existsb _ _); [apply below_refl|].
    destruct (isWS _); [apply IL|]. destruct (isAnn _); [destruct (_ =? cChoice); [apply below_refl|apply IL]|].
    destruct (_ || _). { destruct rules; [apply below_refl|]. apply below_bind; [apply IC|intros; apply IL]. }
    destruct (_ =? cSlash); [apply below_refl|]. apply below_bind; [apply IP|intros; apply IL].
  - intros l us. cbn [pPrim]. destruct (_ =? cQuote); [apply below_refl|]. destruct (_ =? cBack); [apply below_refl|].
    destruct (_ =? cDQuote); [apply below_refl|].
    destruct (_ =? cLBrack); [apply below_bind; [apply IL|intros; apply below_refl]|].
    destruct (_ =? cLBrace); [apply below_bind; [apply IL|intros; apply below_refl]|].
    destruct (_ =? cLt).
    { apply below_bind; [apply IL|]. intros o l1 us1. destruct (negb _); [|apply IX]. apply below_bind; [apply IL|]. intros r l3 us2.
      destruct (_ =? cGt); [apply below_refl|]. destruct (_ =? cBang); [apply below_refl|apply IX]. }
    destruct (_ =? cLPar); [apply below_bind; [apply IL|intros; apply below_refl]|]. apply below_refl.
  - intros o e xs l us. cbn [pExcl]. destruct (_ =? cNeg); (apply below_bind; [apply IL|intros]); [apply IX|apply below_refl].
  - intros a l us. cbn [pOne]. destruct (_ || _); [apply IO|]. destruct (_ =? EOFChar); [apply below_refl|].
    destruct (isAnn _); [destruct (_ =? cChoice); [apply below_refl|apply IO]|]. apply below_bind; [apply IP|intros; apply below_refl].
  - intros rules gs l us. cbn [pChoice]. destruct (_ =? cSpace); [apply IC|]. destruct (_ =? cChoice); [apply below_bind; [apply IO|intros; apply IC]|].
    destruct (_ =? cGt); [|apply below_refl]. destruct rules; [apply below_refl|]. apply below_bind; [apply IO|intros; apply IC].
Qed.
Lemma pLoop_mono terms rules a l us n m : (n <= m)%nat -> below (pLoop n terms rules a l us) (pLoop m terms rules a l us).
Proof. intros H. now apply parser_mono. Qed.

(** Enough fuel is as good as any. *)
Lemma parse_by_fuel l n p : clean l -> pLoop n [EOFChar] [] noAnn (lskip l) [] = p -> p <> PFuel -> parseText l = p.
Proof.
  intros C H N. pose proof (parse_enough l C) as E. unfold parseText in *.
  destruct (pLoop_mono [EOFChar] [] noAnn (lskip l) [] n (Nat.max n (parseFuel l)) (Nat.le_max_l _ _)) as [K|K]; [congruence|].
  destruct (pLoop_mono [EOFChar] [] noAnn (lskip l) [] (parseFuel l) (Nat.max n (parseFuel l)) (Nat.le_max_r _ _)) as [M|M]; congruence.
Qed.
