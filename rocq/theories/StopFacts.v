(** How far a text is the beginning of a definition: the errors of the parser stand where
    the text stops being one. *)
From Verif Require Import Base Stream Node Rule Parse Grammar SpecStream SpecRule SpecParse SpecGrammar StreamFacts ParseFacts NotationFacts GrammarFacts GrammarText ReadFacts Refuse SpecRefuse RefuseFacts StopTerm.

Definition run := nat -> list (list Z) -> fres rule.
(** With enough fuel the run ends in a way that satisfies [P]. *)
Definition always (f : run) (P : fres rule -> Prop) : Prop := forall us, exists n o, P o /\ forall m, (n <= m)%nat -> f m us = o.
Definition isRead (r : rule) (l : list Z) (o : fres rule) : Prop := exists us, o = FOk r l us.
Definition isOk (l : list Z) (o : fres rule) : Prop := exists r us, o = FOk r l us.
Definition isErr (o : fres rule) : Prop := exists e us, o = FErr e us.

Definition Lp (terms : list Z) (rules : list rule) (a : ann) (l : list Z) : run := fun n us => fLoop n terms rules a l us.
Definition Pr (other : perr) (l : list Z) : run := fun n us => fPrim n other l us.
Definition Ex (o : rule) (e : option rule) (xs : list rule) (l : list Z) : run := fun n us => fExcl n o e xs l us.
Definition On (a : ann) (l : list Z) : run := fun n us => fOne n a l us.
Definition Ch (rules : list rule) (gs : list (list rule)) (l : list Z) : run := fun n us => fChoice n rules gs l us.

Lemma always_S (f g : run) P : (forall n us, f (S n) us = g n us) -> always g P -> always f P.
Proof.
  intros E H us. destruct (H us) as (n & o & PO & R). exists (S n), o. split; [exact PO|]. intros [|m] M; [lia|]. rewrite E. apply R. lia.
Qed.
Lemma always_const (f : list (list Z) -> fres rule) (P : fres rule -> Prop) : (forall us, P (f us)) -> always (fun _ us => f us) P.
Proof. intros H us. exists O, (f us). auto. Qed.
Lemma always_bind (f : run) (k : nat -> rule -> list Z -> list (list Z) -> fres rule) r l P :
  always f (isRead r l) -> always (fun n us => k n r l us) P -> always (fun n us => fbind (f n us) (k n)) P.
Proof.
  intros F K us. destruct (F us) as (n & o & (us1 & ->) & R). destruct (K us1) as (n2 & o2 & P2 & R2). exists (max n n2), o2. split; [exact P2|].
  intros m M. rewrite R by lia. cbn [fbind]. apply R2. lia.
Qed.
Lemma always_bind_ok (f : run) (k : nat -> rule -> list Z -> list (list Z) -> fres rule) l P :
  always f (isOk l) -> (forall r, always (fun n us => k n r l us) P) -> always (fun n us => fbind (f n us) (k n)) P.
Proof.
  intros F K us. destruct (F us) as (n & o & (r & us1 & ->) & R). destruct (K r us1) as (n2 & o2 & P2 & R2). exists (max n n2), o2. split; [exact P2|].
  intros m M. rewrite R by lia. cbn [fbind]. apply R2. lia.
Qed.
Lemma always_bind_err (f : run) (k : nat -> rule -> list Z -> list (list Z) -> fres rule) : always f isErr -> always (fun n us => fbind (f n us) (k n)) isErr.
Proof. intros F us. destruct (F us) as (n & o & (e & us1 & ->) & R). exists n, (FErr e us1). split; [now exists e, us1|]. intros m M. now rewrite R. Qed.
Lemma always_open (f : run) l : always f (isOk l) -> always (fun n us => asOpen (f n us)) (isOk l).
Proof. intros F us. destruct (F us) as (n & o & (r & us1 & ->) & R). exists n, (FOk r l us1). split; [now exists r, us1|]. intros m M. now rewrite R. Qed.
Lemma always_open_read (f : run) r l : always f (isRead r l) -> always (fun n us => asOpen (f n us)) (isRead r l).
Proof. intros F us. destruct (F us) as (n & o & (us1 & ->) & R). exists n, (FOk r l us1). split; [now exists us1|]. intros m M. now rewrite R. Qed.
Lemma always_open_err (f : run) : always f isErr -> always (fun n us => asOpen (f n us)) isErr.
Proof. intros F us. destruct (F us) as (n & o & (e & us1 & ->) & R). exists n, (FErr (PBlockOpen e) us1). split; [now eexists _, _|]. intros m M. now rewrite R. Qed.
Lemma always_weak f (P Q : fres rule -> Prop) : (forall o, P o -> Q o) -> always f P -> always f Q.
Proof. intros I F us. destruct (F us) as (n & o & PO & R). exists n, o. auto. Qed.
Lemma read_ok r l o : isRead r l o -> isOk l o. Proof. intros (us & ->). now exists r, us. Qed.

(* ---------------- single steps of the loop ---------------- *)

(** [c] neither ends the text nor the rule. *)
Definition inner (terms : list Z) (c : Z) : bool := negb (c =? EOFChar) && negb (existsb (fun t => t =? c) terms).
Lemma inner_false terms c : inner terms c = false <-> c = EOFChar \/ In c terms.
Proof.
  unfold inner. rewrite andb_false_iff, !negb_false_iff, Z.eqb_eq, existsb_exists. split; intros [H|H]; auto.
  - destruct H as (t & I & E). apply Z.eqb_eq in E. subst. auto.
  - right. exists c. split; [exact H|]. now apply Z.eqb_refl.
Qed.
Lemma inner_true terms c : inner terms c = true -> (c =? EOFChar) = false /\ existsb (fun t => t =? c) terms = false.
Proof. unfold inner. rewrite andb_true_iff, !negb_true_iff. auto. Qed.

Section Loop.
  Context (terms : list Z).
  Lemma L_done rules a l r : lpeek l = EOFChar \/ In (lpeek l) terms -> finish rules = Some r -> always (Lp terms rules a l) (isRead r l).
  Proof.
    intros I F. apply (always_S _ (fun _ us => FOk r l us)); [|apply always_const; intros us; now exists us].
    intros n us. unfold Lp. cbn [fLoop]. rewrite F. destruct (lpeek l =? EOFChar) eqn:E; [reflexivity|]. apply inner_false in I. unfold inner in I. rewrite E in I. cbn [negb andb] in I.
    apply negb_false_iff in I. now rewrite I.
  Qed.
  Lemma L_empty a l : lpeek l = EOFChar \/ In (lpeek l) terms -> always (Lp terms [] a l) isErr.
  Proof.
    intros I. apply (always_S _ (fun _ us => FErr PNoRule us)); [|apply always_const; intros us; now eexists _, _].
    intros n us. unfold Lp. cbn [fLoop finish]. destruct (lpeek l =? EOFChar) eqn:E; [reflexivity|]. apply inner_false in I. unfold inner in I. rewrite E in I. cbn [negb andb] in I.
    apply negb_false_iff in I. now rewrite I.
  Qed.
  Lemma L_white rules a c t P : inner terms c = true -> isWS c = true -> always (Lp terms rules a t) P -> always (Lp terms rules a (c :: t)) P.
  Proof.
    intros I W. apply always_S. intros n us. unfold Lp. cbn [fLoop lpeek lnext tl]. apply inner_true in I as [-> ->]. now rewrite W.
  Qed.
  Lemma L_ann rules a c t P : inner terms c = true -> isWS c = false -> isAnn c = true -> (lpeek t =? cChoice) = false ->
    always (Lp terms rules (addAnn a c) t) P -> always (Lp terms rules a (c :: t)) P.
  Proof.
    intros I W A N. apply always_S. intros n us. unfold Lp. cbn [fLoop lpeek lnext tl]. apply inner_true in I as [-> ->]. now rewrite W, A, N.
  Qed.
  Lemma L_ann_err rules a c t : inner terms c = true -> isWS c = false -> isAnn c = true -> (lpeek t =? cChoice) = true -> always (Lp terms rules a (c :: t)) isErr.
  Proof.
    intros I W A N. apply (always_S _ (fun _ us => FErr (PAnnChoice c) us)); [|apply always_const; intros us; now eexists _, _].
    intros n us. unfold Lp. cbn [fLoop lpeek lnext tl]. apply inner_true in I as [-> ->]. now rewrite W, A, N.
  Qed.
  Lemma L_between a c t : inner terms c = true -> isWS c = false -> isAnn c = false -> ((c =? cChoice) || (c =? cGt)) = true -> always (Lp terms [] a (c :: t)) isErr.
  Proof.
    intros I W A N. apply (always_S _ (fun _ us => FErr PChoiceBetween us)); [|apply always_const; intros us; now eexists _, _].
    intros n us. unfold Lp. cbn [fLoop lpeek lnext tl]. apply inner_true in I as [-> ->]. now rewrite W, A, N.
  Qed.
  Lemma L_choice_eq r rules a c t n us : inner terms c = true -> isWS c = false -> isAnn c = false -> ((c =? cChoice) || (c =? cGt)) = true ->
    fLoop (S n) terms (r :: rules) a (c :: t) us = fbind (fChoice n [r] [] (c :: t) us) (fun ch l us => fLoop n terms (annotate a ch :: rules) noAnn l us).
  Proof. intros I W A N. cbn [fLoop lpeek lnext tl]. apply inner_true in I as [-> ->]. now rewrite W, A, N. Qed.
  Lemma L_choice r rules a c t ch l P : inner terms c = true -> isWS c = false -> isAnn c = false -> ((c =? cChoice) || (c =? cGt)) = true ->
    always (Ch [r] [] (c :: t)) (isRead ch l) -> always (Lp terms (annotate a ch :: rules) noAnn l) P -> always (Lp terms (r :: rules) a (c :: t)) P.
  Proof.
    intros I W A N C K. eapply (always_S _ (fun n us => fbind (fChoice n [r] [] (c :: t) us) _)); [intros n us; now apply L_choice_eq|].
    eapply (always_bind (Ch [r] [] (c :: t)) (fun n ch l us => fLoop n terms (annotate a ch :: rules) noAnn l us)); [exact C|exact K].
  Qed.
  Lemma L_choice_ok r rules a c t l P : inner terms c = true -> isWS c = false -> isAnn c = false -> ((c =? cChoice) || (c =? cGt)) = true ->
    always (Ch [r] [] (c :: t)) (isOk l) -> (forall ch, always (Lp terms (annotate a ch :: rules) noAnn l) P) -> always (Lp terms (r :: rules) a (c :: t)) P.
  Proof.
    intros I W A N C K. eapply (always_S _ (fun n us => fbind (fChoice n [r] [] (c :: t) us) _)); [intros n us; now apply L_choice_eq|].
    eapply (always_bind_ok (Ch [r] [] (c :: t)) (fun n ch l us => fLoop n terms (annotate a ch :: rules) noAnn l us)); [exact C|exact K].
  Qed.
  Lemma L_choice_err r rules a c t : inner terms c = true -> isWS c = false -> isAnn c = false -> ((c =? cChoice) || (c =? cGt)) = true ->
    always (Ch [r] [] (c :: t)) isErr -> always (Lp terms (r :: rules) a (c :: t)) isErr.
  Proof.
    intros I W A N C. eapply (always_S _ (fun n us => fbind (fChoice n [r] [] (c :: t) us) _)); [intros n us; now apply L_choice_eq|].
    now apply (always_bind_err (Ch [r] [] (c :: t)) (fun n ch l us => fLoop n terms (annotate a ch :: rules) noAnn l us)).
  Qed.
  Lemma L_comment rules a t r : inner terms 47 = true -> finish rules = Some r -> always (Lp terms rules a (47 :: 47 :: t)) (isRead r (dropLine t)).
  Proof.
    intros I F. apply (always_S _ (fun _ us => FOk r (dropLine t) us)); [|apply always_const; intros us; now exists us].
    intros n us. unfold Lp. cbn [fLoop lpeek lnext tl]. apply inner_true in I as [-> ->]. cbn -[dropLine]. now rewrite F.
  Qed.
  Lemma L_slash rules a t : inner terms 47 = true -> rules = [] \/ (lpeek t =? cSlash) = false -> always (Lp terms rules a (47 :: t)) isErr.
  Proof.
    intros I F. apply (always_S _ (fun _ us => FErr (if lpeek t =? cSlash then PNoRule else PInvalidChar 47) us)); [|apply always_const; intros us; now eexists _, _].
    intros n us. unfold Lp. cbn [fLoop lpeek lnext tl]. apply inner_true in I as [-> ->]. cbn -[dropLine Z.eqb]. change (47 =? cChoice) with false. change (47 =? cGt) with false. cbn [orb].
    change (isWS 47) with false. change (isAnn 47) with false. cbn [Z.eqb Pos.eqb]. change (47 =? cSlash) with true. cbv iota.
    destruct (lpeek t =? cSlash) eqn:E; [|reflexivity]. destruct F as [->|F]; [reflexivity|discriminate].
  Qed.
  Definition heading' (c : Z) : bool := negb (isWS c) && negb (isAnn c) && negb ((c =? cChoice) || (c =? cGt)) && negb (c =? cSlash).
  Lemma L_prim_eq rules a c t n us : inner terms c = true -> heading' c = true ->
    fLoop (S n) terms rules a (c :: t) us = fbind (fPrim n (PInvalidChar c) (c :: t) us) (fun r l us => fLoop n terms (annotate a r :: rules) noAnn l us).
  Proof.
    intros I H. unfold heading' in H. rewrite !andb_true_iff, !negb_true_iff in H. destruct H as (((W & A) & N) & SL).
    cbn [fLoop lpeek lnext tl]. apply inner_true in I as [-> ->]. now rewrite W, A, N, SL.
  Qed.
  Lemma L_prim rules a c t r l P : inner terms c = true -> heading' c = true ->
    always (Pr (PInvalidChar c) (c :: t)) (isRead r l) -> always (Lp terms (annotate a r :: rules) noAnn l) P -> always (Lp terms rules a (c :: t)) P.
  Proof.
    intros I H C K. eapply (always_S _ (fun n us => fbind (fPrim n (PInvalidChar c) (c :: t) us) _)); [intros n us; now apply L_prim_eq|].
    eapply (always_bind (Pr (PInvalidChar c) (c :: t)) (fun n ch l us => fLoop n terms (annotate a ch :: rules) noAnn l us)); [exact C|exact K].
  Qed.
  Lemma L_prim_ok rules a c t l P : inner terms c = true -> heading' c = true ->
    always (Pr (PInvalidChar c) (c :: t)) (isOk l) -> (forall r, always (Lp terms (annotate a r :: rules) noAnn l) P) -> always (Lp terms rules a (c :: t)) P.
  Proof.
    intros I H C K. eapply (always_S _ (fun n us => fbind (fPrim n (PInvalidChar c) (c :: t) us) _)); [intros n us; now apply L_prim_eq|].
    eapply (always_bind_ok (Pr (PInvalidChar c) (c :: t)) (fun n ch l us => fLoop n terms (annotate a ch :: rules) noAnn l us)); [exact C|exact K].
  Qed.
  Lemma L_prim_err rules a c t : inner terms c = true -> heading' c = true -> always (Pr (PInvalidChar c) (c :: t)) isErr -> always (Lp terms rules a (c :: t)) isErr.
  Proof.
    intros I H C. eapply (always_S _ (fun n us => fbind (fPrim n (PInvalidChar c) (c :: t) us) _)); [intros n us; now apply L_prim_eq|].
    now apply (always_bind_err (Pr (PInvalidChar c) (c :: t)) (fun n ch l us => fLoop n terms (annotate a ch :: rules) noAnn l us)).
  Qed.

  Definition okTerms : Prop := forall c, In c terms -> In c [EOFChar; 32; 33; 41; 62; 93; 125].
  Hypothesis OK : okTerms.
  Lemma ends_safe l : lpeek l = EOFChar \/ In (lpeek l) terms -> safe l.
  Proof. intros [E|I]; unfold safe; [rewrite E; now left|]. apply OK in I. cbn in I |- *. tauto. Qed.
  Lemma inner_out c : ~ In c [EOFChar; 32; 33; 41; 62; 93; 125] -> inner terms c = true.
  Proof. intros N. apply not_false_is_true. rewrite inner_false. intros [->|I]; apply N; [now left|now apply OK]. Qed.

  Lemma char_reads other tl : safe tl -> always (Pr other (39 :: 120 :: 39 :: tl)) (isRead (RChar noBase 120 false) tl).
  Proof.
    intros ST. apply (always_S _ (fun _ us => flift (fChar (39 :: 120 :: 39 :: tl)) us)); [intros n us; reflexivity|]. apply always_const. intros us.
    rewrite fChar_eq, fQ_plain, fQ_end by lia. cbn [sbind]. rewrite (safe_dash _ ST). now exists us.
  Qed.
  Lemma quick rules a tl : lpeek tl = EOFChar \/ In (lpeek tl) terms -> always (Lp terms rules a (39 :: 120 :: 39 :: tl)) (isOk tl).
  Proof.
    intros I. eapply L_prim; [apply inner_out; cbn; unfold EOFChar; lia|reflexivity|apply char_reads; now apply ends_safe|].
    assert (exists r, finish (annotate a (RChar noBase 120 false) :: rules) = Some r) as (r & F) by (destruct rules; cbn; eauto).
    eapply always_weak; [apply read_ok|]. apply L_done; [exact I|exact F].
  Qed.
End Loop.

(* ---------------- what the induction says ---------------- *)

(** The error says what is missing only behind a beginning of what misses it. *)
Definition fits (e : perr) (x y : list Z) : Prop := about e x y /\ (x = [] -> missing e = []).
(** Continuations that start with what the error says is missing. *)
Definition ends (e : perr) (q : list Z) : Prop := solid q /\ heads e q.
Definition leads (e : perr) (q : list Z) : Prop := clean q /\ heads e q.
Lemma fits_left e x y z : fits e x y -> fits e (z ++ x) y.
Proof. intros (A & N). split; [now apply about_left|]. intros E. apply app_eq_nil in E as [_ ->]. now apply N. Qed.
Lemma fits_cons e c x y : about e (c :: x) y -> fits e (c :: x) y. Proof. intros A. split; [exact A|discriminate]. Qed.
Lemma fits_none e x y : missing e = [] -> about e x y -> fits e x y. Proof. intros M A. now split. Qed.
Lemma ends_none e q : missing e = [] -> solid q -> ends e q. Proof. intros M Q. split; [exact Q|now left]. Qed.
Lemma leads_none e q : missing e = [] -> solid q -> leads e q. Proof. intros M Q. split; [apply Q|now left]. Qed.
Lemma ends_leads e q : ends e q -> leads e q. Proof. intros (A & B). split; [apply A|exact B]. Qed.
Lemma ends_app e q p : ends e q -> solid p -> ends e (q ++ p).
Proof. intros (A & B) P. split; [apply solid_app; [apply A|exact P]|now apply heads_app]. Qed.
Lemma leads_app e q p : ends e q -> clean p -> leads e (q ++ p).
Proof. intros (A & B) P. split; [apply Forall_app; split; [apply A|exact P]|now apply heads_app]. Qed.
Lemma leads_solid e q p : leads e q -> solid p -> ends e (q ++ p).
Proof. intros (A & B) P. split; [now apply solid_app|now apply heads_app]. Qed.

(** Closing signs that end a choice as well: a text before [d] can be completed with a
    text that starts with [d]. *)
Definition closing : list Z := [33; 41; 93; 125].
Definition closable (terms : list Z) (f : list Z -> run) : Prop :=
  forall d, In d closing -> In d terms -> exists q, clean q /\ (q = [] \/ lpeek q = d) /\ forall tl, always (f (q ++ d :: tl)) (isOk (d :: tl)).
Lemma closable_peek q d tl : q = [] \/ lpeek q = d -> 0 <= d -> lpeek (q ++ d :: tl) = d.
Proof. intros [->|E] D; [reflexivity|]. destruct q; [cbn in E; unfold EOFChar in E; lia|exact E]. Qed.
Lemma closing_pos d : In d closing -> 0 <= d. Proof. cbn. lia. Qed.

Definition loopOk (terms : list Z) (rules : list rule) (a : ann) (l : list Z) (r : rule) (l' : list Z) : Prop :=
  exists x, l = x ++ l' /\ (rules = [] -> x <> []) /\
    ((afterComment x /\ forall z, always (Lp terms rules a (x ++ z)) (isRead r z)) \/
     ((lpeek l' = EOFChar \/ In (lpeek l') terms) /\ forall z, lpeek z = lpeek l' -> (l' = [] -> z = []) -> always (Lp terms rules a (x ++ z)) (isRead r z))) /\
    (exists q, clean q /\ (x = [] -> q = [] \/ lpeek q = 39) /\ forall tl, In (lpeek tl) terms -> always (Lp terms rules a (x ++ q ++ tl)) (isOk tl)) /\
    closable terms (fun l => Lp terms rules a (x ++ l)).
Definition loopErr (terms : list Z) (rules : list rule) (a : ann) (l : list Z) (e : perr) : Prop :=
  exists x y, l = x ++ y /\ fits e x y /\ (forall c t, y = c :: t -> forall t', always (Lp terms rules a (x ++ c :: t')) isErr) /\
    (exists q, leads e q /\ (x = [] -> lpeek q = 39) /\ forall tl, In (lpeek tl) terms -> always (Lp terms rules a (x ++ q ++ tl)) (isOk tl)) /\
    (exists q, ends e q /\ (x = [] -> lpeek q = 39) /\ always (Lp terms rules a (x ++ q)) (isOk [])).
Definition primOk (l : list Z) (r : rule) (l' : list Z) : Prop :=
  exists x, l = x ++ l' /\ x <> [] /\ forall other y, near l' y -> always (Pr other (x ++ y)) (isRead r y).
Definition starts (c : Z) : bool :=
  (c =? cQuote) || (c =? cBack) || (c =? cDQuote) || (c =? cLBrack) || (c =? cLBrace) || (c =? cLt) || (c =? cLPar) || (isLetter c || (c =? 95)).
Definition primErr (other : perr) (l : list Z) (e : perr) : Prop :=
  (e = other /\ starts (lpeek l) = false) \/
  exists x y, l = x ++ y /\ x <> [] /\ about e x y /\ (forall c t, y = c :: t -> forall other' t', always (Pr other' (x ++ c :: t')) isErr) /\
    exists q, ends e q /\ forall other' tl, safe tl -> always (Pr other' (x ++ q ++ tl)) (isOk tl).
Definition exclOk (o : rule) (e : option rule) (xs : list rule) (l : list Z) (r : rule) (l' : list Z) : Prop :=
  exists x, l = x ++ l' /\ lskip x <> [] /\ forall y, always (Ex o e xs (x ++ y)) (isRead r y).
Definition exclErr (o : rule) (es : option rule) (xs : list rule) (l : list Z) (e : perr) : Prop :=
  exists x y, l = x ++ y /\ fits e x y /\ (lskip x = [] -> lpeek (lskip l) <> 94 /\ isWS (lpeek y) = false) /\
    (forall c t, y = c :: t -> forall t', always (Ex o es xs (x ++ c :: t')) isErr) /\
    exists q, ends e q /\ (lskip x = [] -> lpeek q = 39) /\ forall tl, always (Ex o es xs (x ++ q ++ tl)) (isOk tl).
Definition oneOk (a : ann) (l : list Z) (r : rule) (l' : list Z) : Prop :=
  exists x, l = x ++ l' /\ x <> [] /\ forall y, near l' y -> always (On a (x ++ y)) (isRead r y).
Definition oneErr (a : ann) (l : list Z) (e : perr) : Prop :=
  exists x y, l = x ++ y /\ about e x y /\ (forall c t, y = c :: t -> forall t', always (On a (x ++ c :: t')) isErr) /\
    exists q, ends e q /\ (x = [] -> lpeek q = 39) /\ forall tl, safe tl -> always (On a (x ++ q ++ tl)) (isOk tl).
Definition choiceOk (rules : list rule) (gs : list (list rule)) (l : list Z) (r : rule) (l' : list Z) : Prop :=
  exists x, l = x ++ l' /\ (lpeek l = 124 \/ lpeek l = 62 -> x <> []) /\ forall y, (lpeek y = lpeek l' \/ In (lpeek y) [33; 39; 41; 93; 125]) -> always (Ch rules gs (x ++ y)) (isRead r y).
Definition choiceErr (rules : list rule) (gs : list (list rule)) (l : list Z) (e : perr) : Prop :=
  exists x y, l = x ++ y /\ x <> [] /\ about e x y /\ (forall c t, y = c :: t -> forall t', always (Ch rules gs (x ++ c :: t')) isErr) /\
    exists q, ends e q /\ forall tl, lpeek tl = 39 -> always (Ch rules gs (x ++ q ++ tl)) (isOk tl).
(** A choice gets two rules. *)
Definition choosing (rules : list rule) (gs : list (list rule)) (l : list Z) : Prop :=
  rules <> [] /\ (gs <> [] \/ (2 <= length rules)%nat \/ lpeek l = 124 \/ lpeek l = 62).

Lemma clean_eof l : clean l -> lpeek l = EOFChar -> l = [].
Proof. intros C E. destruct l as [|c l]; [reflexivity|]. inversion C. cbn [lpeek] in E. unfold EOFChar in E. lia. Qed.
Lemma clean_tail x y : clean (x ++ y) -> clean y. Proof. intros C. now apply Forall_app in C. Qed.
Lemma solid_clean q : solid q -> clean q. Proof. now intros []. Qed.
Lemma solid_peek q tl : solid q -> lpeek (q ++ tl) = lpeek q.
Proof. intros (_ & q' & c & -> & _). destruct q'; reflexivity. Qed.
Lemma finish_some r rules : exists r', finish (r :: rules) = Some r'. Proof. destruct rules; cbn; eauto. Qed.
Lemma afterComment_left x z : afterComment x -> afterComment (z ++ x).
Proof. intros (x' & t & -> & N). exists (z ++ x'), t. now rewrite app_assoc. Qed.
Lemma afterComment_some x : afterComment x -> x <> [].
Proof. intros (x' & t & -> & _). destruct x'; discriminate. Qed.
Lemma front x y z : isWS (lpeek (x ++ y)) = false -> (x = [] -> isWS (lpeek z) = false) -> isWS (lpeek (x ++ z)) = false.
Proof. destruct x; [auto|auto]. Qed.

Lemma prim_none other c l n us : starts c = false -> fPrim (S n) other (c :: l) us = FErr other us.
Proof.
  unfold starts. rewrite !orb_false_iff. intros (((((((A & B) & C) & D) & E) & F) & G) & H1 & H2). cbn [fPrim lpeek]. now rewrite A, B, C, D, E, F, G, H1, H2.
Qed.
Lemma dropLine_at b z : ~ In 10 b -> dropLine (b ++ 10 :: z) = z.
Proof. induction b as [|c b IH]; intros N; [reflexivity|]. cbn [app dropLine]. destruct (Z.eqb_spec c 10) as [->|_]; [exfalso; apply N; now left|]. apply IH. intros J. apply N. now right. Qed.
Lemma dropLine_cases m : (~ In 10 m /\ dropLine m = []) \/ exists b, m = b ++ 10 :: dropLine m /\ ~ In 10 b.
Proof.
  induction m as [|c m IH]; [left; auto|]. cbn [dropLine]. destruct (Z.eqb_spec c 10) as [->|N]; [right; exists []; auto|].
  destruct IH as [(I & D)|(b & E & I)]; [left|right].
  - split; [|exact D]. intros [J|J]; congruence.
  - exists (c :: b). split; [cbn [app]; now rewrite <- E|]. intros [J|J]; congruence.
Qed.

Lemma comment_reads terms rules a b z r : inner terms 47 = true -> finish rules = Some r -> ~ In 10 b -> always (Lp terms rules a (47 :: 47 :: b ++ 10 :: z)) (isRead r z).
Proof. intros I F N. assert (X := L_comment terms rules a (b ++ 10 :: z) r I F). now rewrite dropLine_at in X. Qed.

Section Step.
  Context (fuel : nat).
  Hypothesis IL : forall terms rules a l us, okTerms terms -> clean l -> match fLoop fuel terms rules a l us with FOk r l' _ => loopOk terms rules a l r l' | FErr e _ => loopErr terms rules a l e | FFuel => True end.
  Hypothesis IP : forall other l us, clean l -> match fPrim fuel other l us with FOk r l' _ => primOk l r l' | FErr e _ => primErr other l e | FFuel => True end.
  Hypothesis IX : forall o es xs l us, clean l -> match fExcl fuel o es xs l us with FOk r l' _ => exclOk o es xs l r l' | FErr e _ => exclErr o es xs l e | FFuel => True end.
  Hypothesis IO : forall a l us, clean l -> match fOne fuel a l us with FOk r l' _ => oneOk a l r l' | FErr e _ => oneErr a l e | FFuel => True end.
  Hypothesis IC : forall rules gs l us, choosing rules gs l -> clean l -> match fChoice fuel rules gs l us with FOk r l' _ => choiceOk rules gs l r l' | FErr e _ => choiceErr rules gs l e | FFuel => True end.

  Lemma step_loop terms rules a l us : okTerms terms -> clean l ->
    match fLoop (S fuel) terms rules a l us with FOk r l' _ => loopOk terms rules a l r l' | FErr e _ => loopErr terms rules a l e | FFuel => True end.
  Proof.
    intros OK CL.
    assert (QK : forall rules' a' tl, lpeek tl = EOFChar \/ In (lpeek tl) terms -> always (Lp terms rules' a' ([39; 120; 39] ++ tl)) (isOk tl)) by (intros; now apply quick).
    assert (SK : solid [39; 120; 39]) by solids.
    assert (N124 : forall tl, In (lpeek tl) terms -> (lpeek tl =? cChoice) = false).
    { intros tl I. apply OK in I. apply Z.eqb_neq. intros X. rewrite X in I. cbn in I. unfold cChoice, EOFChar in I. lia. }
    destruct (inner terms (lpeek l)) eqn:I.
    2:{ (* the end *)
      apply inner_false in I. cbn [fLoop].
      assert (E : forall X (k : X), (if lpeek l =? EOFChar then k else if existsb (fun t => t =? lpeek l) terms then k else k) = k) by (intros; destruct (_ =? _); [|destruct (existsb _ _)]; reflexivity).
      assert (D : match match finish rules with Some r => FOk r l us | None => FErr PNoRule us end with FOk r l' _ => loopOk terms rules a l r l' | FErr e _ => loopErr terms rules a l e | FFuel => True end).
      { destruct rules as [|r0 rules].
        - cbn [finish]. destruct l as [|c t].
          + exists [], []. split; [reflexivity|]. split; [apply fits_none; [reflexivity|apply ab_nothing]|]. split; [discriminate|]. split.
            * exists [39; 120; 39]. split; [now apply leads_none|]. split; [reflexivity|]. intros tl T. apply QK. now right.
            * exists [39; 120; 39]. split; [now apply ends_none|]. split; [reflexivity|]. apply (QK [] a []). now left.
          + assert (C0 : 0 <= c) by (inversion CL; assumption). assert (EN : In c terms) by (destruct I as [I|I]; [cbn in I; unfold EOFChar in I; lia|exact I]).
            exists [], (c :: t). split; [reflexivity|]. split; [apply fits_none; [reflexivity|]; apply ab_nothing_inside; apply OK in EN; unfold ending; cbn in EN |- *; unfold EOFChar in EN; lia|]. split.
            * intros c' t0 [= <- <-] t'. cbn [app]. apply L_empty. now right.
            * split.
              -- exists [39; 120; 39]. split; [now apply leads_none|]. split; [reflexivity|]. intros tl T. apply QK. now right.
              -- exists [39; 120; 39]. split; [now apply ends_none|]. split; [reflexivity|]. apply (QK [] a []). now left.
        - destruct (finish_some r0 rules) as (r' & F). rewrite F. exists []. split; [reflexivity|]. split; [discriminate|]. split; [|split].
          + right. split; [exact I|]. intros z Z ZN. cbn [app]. apply L_done; [now rewrite Z|exact F].
          + exists []. split; [constructor|]. split; [auto|]. intros tl T. cbn [app]. eapply always_weak; [apply read_ok|]. apply L_done; [now right|exact F].
          + intros d0 D1 D2. exists []. split; [constructor|]. split; [now left|]. intros tl. cbn [app]. eapply always_weak; [apply read_ok|]. apply L_done; [now right|exact F]. }
      destruct (lpeek l =? EOFChar) eqn:E1; [exact D|]. destruct I as [I|I]; [rewrite I in E1; discriminate|].
      assert (E2 : existsb (fun t => t =? lpeek l) terms = true) by (apply existsb_exists; exists (lpeek l); split; [exact I|apply Z.eqb_refl]). rewrite E2. exact D. }
    destruct l as [|c t]; [discriminate|]. cbn [lpeek] in I. assert (CT : clean t) by now inversion CL.
    destruct (isWS c) eqn:W.
    { (* white space *)
      assert (E : fLoop (S fuel) terms rules a (c :: t) us = fLoop fuel terms rules a t us) by (cbn [fLoop lpeek lnext tl]; apply inner_true in I as [-> ->]; now rewrite W).
      rewrite E. assert (H := IL terms rules a t us OK CT). destruct (fLoop fuel terms rules a t us) as [r l' us'|e us'|]; [| |exact Logic.I].
      - destruct H as (x & -> & N & R & (q & CQ & XQ & Q) & BQ). exists (c :: x). split; [reflexivity|]. split; [discriminate|]. split; [|split].
        + destruct R as [(AC & R)|(EN & R)].
          * left. split; [now apply (afterComment_left x [c])|]. intros z. cbn [app]. apply L_white; auto.
          * right. split; [exact EN|]. intros z Z ZN. cbn [app]. apply L_white; auto.
        + exists q. split; [exact CQ|]. split; [discriminate|]. intros tl T. cbn [app]. apply L_white; auto.
        + intros d0 D1 D2. destruct (BQ d0 D1 D2) as (q2 & C2 & P2 & Q2). exists q2. split; [exact C2|]. split; [exact P2|]. intros tl. cbn [app]. apply L_white; auto.
      - destruct H as (x & y & -> & AB & R & (q & CQ & XQ & Q) & q0 & SQ & XQ0 & Q0). exists (c :: x), y. split; [reflexivity|]. split; [now apply (fits_left _ _ _ [c])|]. split; [|split].
        + intros c' t0 -> t'. cbn [app]. apply L_white; eauto.
        + exists q. split; [exact CQ|]. split; [discriminate|]. intros tl T. cbn [app]. apply L_white; auto.
        + exists q0. split; [exact SQ|]. split; [discriminate|]. cbn [app]. apply L_white; auto. }
    destruct (isAnn c) eqn:A.
    { (* annotations *)
      assert (AC : In c [35; 36; 126]).
      { unfold isAnn in A. rewrite !orb_true_iff, !Z.eqb_eq in A. unfold cVirt, cNonData, cTok in A. cbn. lia. }
      destruct (lpeek t =? cChoice) eqn:K.
      - assert (E : fLoop (S fuel) terms rules a (c :: t) us = FErr (PAnnChoice c) us) by (cbn [fLoop lpeek lnext tl]; apply inner_true in I as [-> ->]; now rewrite W, A, K).
        rewrite E. assert (K' := K). pk K'. exists [c], t. split; [reflexivity|]. split; [apply fits_none; [reflexivity|]; rewrite K'; now apply (ab_ann c [])|]. split; [|split].
        + intros c' t0 -> t'. cbn [app]. apply L_ann_err; auto.
        + exists [39; 120; 39]. split; [now apply leads_none|]. split; [discriminate|]. intros tl T. cbn [app]. apply L_ann; auto. apply QK. now right.
        + exists [39; 120; 39]. split; [now apply ends_none|]. split; [discriminate|]. cbn [app]. apply L_ann; auto. apply (QK rules (addAnn a c) []). now left.
      - assert (E : fLoop (S fuel) terms rules a (c :: t) us = fLoop fuel terms rules (addAnn a c) t us) by (cbn [fLoop lpeek lnext tl]; apply inner_true in I as [-> ->]; now rewrite W, A, K).
        rewrite E. assert (H := IL terms rules (addAnn a c) t us OK CT). destruct (fLoop fuel terms rules (addAnn a c) t us) as [r l' us'|e us'|]; [| |exact Logic.I].
        + destruct H as (x & -> & N & R & (q & CQ & XQ & Q) & BQ). exists (c :: x). split; [reflexivity|]. split; [discriminate|]. split; [|split].
          * destruct R as [(AF & R)|(EN & R)].
            -- left. split; [now apply (afterComment_left x [c])|]. intros z. cbn [app]. apply L_ann; auto. apply afterComment_some in AF. destruct x; [congruence|exact K].
            -- right. split; [exact EN|]. intros z Z ZN. cbn [app]. apply L_ann; auto. destruct x; [cbn [app] in *; now rewrite Z|exact K].
          * exists q. split; [exact CQ|]. split; [discriminate|]. intros tl T. cbn [app]. apply L_ann; auto. destruct x; [|exact K]. cbn [app].
            destruct (XQ eq_refl) as [->|X]; [now apply N124|]. destruct q as [|d q]; [discriminate|]. cbn [app lpeek] in *. now rewrite X.
          * intros d0 D1 D2. destruct (BQ d0 D1 D2) as (q2 & C2 & P2 & Q2). exists q2. split; [exact C2|]. split; [exact P2|]. intros tl. cbn [app]. apply L_ann; auto. destruct x; [|exact K]. cbn [app].
            rewrite closable_peek; [|exact P2|now apply closing_pos]. apply (N124 [d0]). exact D2.
        + destruct H as (x & y & -> & AB & R & (q & CQ & XQ & Q) & q0 & SQ & XQ0 & Q0). exists (c :: x), y. split; [reflexivity|]. split; [now apply (fits_left _ _ _ [c])|]. split; [|split].
          * intros c' t0 -> t'. cbn [app]. apply L_ann; eauto. destruct x; exact K.
          * exists q. split; [exact CQ|]. split; [discriminate|]. intros tl T. cbn [app]. apply L_ann; auto. destruct x; [|exact K]. cbn [app].
            specialize (XQ eq_refl). destruct q as [|d q]; [discriminate|]. cbn [app lpeek] in *. now rewrite XQ.
          * exists q0. split; [exact SQ|]. split; [discriminate|]. cbn [app]. apply L_ann; auto. destruct x; [|exact K]. cbn [app]. now rewrite (XQ0 eq_refl). }
    destruct ((c =? cChoice) || (c =? cGt)) eqn:CH.
    { (* choices *)
      destruct rules as [|r0 rules].
      - assert (E : fLoop (S fuel) terms [] a (c :: t) us = FErr PChoiceBetween us) by (cbn [fLoop lpeek lnext tl]; apply inner_true in I as [-> ->]; now rewrite W, A, CH).
        rewrite E. exists [], (c :: t). split; [reflexivity|]. split; [apply fits_none; [reflexivity|]; apply ab_between; apply orb_true_iff in CH; rewrite !Z.eqb_eq in CH; exact CH|]. split; [|split].
        + intros c' t0 [= <- <-] t'. cbn [app]. now apply L_between.
        + exists [39; 120; 39]. split; [now apply leads_none|]. split; [reflexivity|]. intros tl T. apply QK. now right.
        + exists [39; 120; 39]. split; [now apply ends_none|]. split; [reflexivity|]. apply (QK [] a []). now left.
      - assert (E : fLoop (S fuel) terms (r0 :: rules) a (c :: t) us = fbind (fChoice fuel [r0] [] (c :: t) us) (fun ch l us => fLoop fuel terms (annotate a ch :: rules) noAnn l us)) by now apply L_choice_eq.
        rewrite E. assert (CG : choosing [r0] [] (c :: t)).
        { split; [discriminate|]. right. right. apply orb_true_iff in CH. rewrite !Z.eqb_eq in CH. exact CH. }
        assert (H := IC [r0] [] (c :: t) us CG CL). destruct (fChoice fuel [r0] [] (c :: t) us) as [ch l1 us1|e us1|]; cbn [fbind]; [| |exact Logic.I].
        + destruct H as (x1 & E1 & XN & RC). assert (C1 : clean l1) by (rewrite E1 in CL; eapply clean_tail, CL). specialize (XN (let (_, X) := CG in match X with or_introl X => False_ind _ (X eq_refl) | or_intror (or_introl X) => False_ind _ (Nat.nle_succ_0 _ (le_S_n _ _ X)) | or_intror (or_intror X) => X end)).
          destruct x1 as [|d x1]; [congruence|]. injection E1 as <- ->.
          assert (LC : forall z P, lpeek z = lpeek l1 \/ In (lpeek z) [33; 39; 41; 93; 125] -> always (Lp terms (annotate a ch :: rules) noAnn z) P -> always (Lp terms (r0 :: rules) a ((c :: x1) ++ z)) P).
          { intros z P Z K. cbn [app]. apply (L_choice terms r0 rules a c _ ch z P I W A CH); [now apply RC|exact K]. }
          assert (H := IL terms (annotate a ch :: rules) noAnn l1 us1 OK C1). destruct (fLoop fuel terms (annotate a ch :: rules) noAnn l1 us1) as [r l' us'|e us'|]; [| |exact Logic.I].
          * destruct H as (x2 & -> & _ & R & (q & CQ & XQ & Q) & BQ). exists ((c :: x1) ++ x2). split; [cbn [app]; now rewrite <- app_assoc|]. split; [discriminate|]. split; [|split].
            -- destruct R as [(AF & R)|(EN & R)].
               ++ left. split; [now apply afterComment_left|]. intros z. rewrite <- app_assoc. apply LC; [|apply R]. left. apply afterComment_some in AF. destruct x2; [congruence|reflexivity].
               ++ right. split; [exact EN|]. intros z Z ZN. rewrite <- app_assoc. apply LC; [|now apply R]. left. apply peek_app. auto.
            -- destruct x2 as [|d x2].
               ++ exists [39; 120; 39]. split; [apply SK|]. split; [discriminate|]. intros tl T. rewrite app_nil_r. apply LC; [right; cbn; tauto|]. apply QK. now right.
               ++ exists q. split; [exact CQ|]. split; [discriminate|]. intros tl T. rewrite <- app_assoc. apply LC; [now left|now apply Q].
            -- intros d0 D1 D2. destruct (BQ d0 D1 D2) as (q2 & C2 & P2 & Q2). exists q2. split; [exact C2|]. split; [exact P2|]. intros tl. rewrite <- app_assoc. apply LC; [|apply Q2].
               destruct x2 as [|d x2]; [right|now left]. cbn [app]. rewrite closable_peek; [|exact P2|now apply closing_pos]. cbn in D1 |- *. tauto.
          * destruct H as (x2 & y & -> & AB & R & (q & CQ & XQ & Q) & q0 & SQ & XQ0 & Q0). exists ((c :: x1) ++ x2), y. split; [cbn [app]; now rewrite <- app_assoc|]. split; [now apply fits_left|]. split; [|split].
            -- intros c' t0 -> t'. rewrite <- app_assoc. apply LC; [left; now apply peek_app|]. eapply R. reflexivity.
            -- exists q. split; [exact CQ|]. split; [discriminate|]. intros tl T. rewrite <- app_assoc. apply LC; [|now apply Q]. destruct x2 as [|d x2]; [|now left]. right.
               specialize (XQ eq_refl). cbn [app]. destruct q; [discriminate|]. cbn [app lpeek] in XQ |- *. rewrite XQ. cbn. tauto.
            -- exists q0. split; [exact SQ|]. split; [discriminate|]. rewrite <- app_assoc. apply LC; [|exact Q0]. destruct x2 as [|d x2]; [|now left]. right. cbn [app]. rewrite (XQ0 eq_refl). cbn. tauto.
        + destruct H as (x & y & E1 & XN & AB & R & q & SQ & Q). destruct x as [|d x]; [congruence|]. injection E1 as <- ->.
          exists (c :: x), y. split; [reflexivity|]. split; [now apply fits_cons|]. split; [|split].
          * intros c' t0 -> t'. cbn [app]. apply L_choice_err; auto. eapply R. reflexivity.
          * exists (q ++ [39; 120; 39]). split; [apply leads_app; [exact SQ|apply SK]|]. split; [discriminate|]. intros tl T. rewrite <- app_assoc. cbn [app].
            eapply (L_choice_ok terms r0 rules a c _ _ _ I W A CH); [apply Q; reflexivity|]. intros ch. apply QK. now right.
          * exists (q ++ [39; 120; 39]). split; [apply ends_app; [exact SQ|apply SK]|]. split; [discriminate|]. cbn [app].
            eapply (L_choice_ok terms r0 rules a c _ _ _ I W A CH); [apply Q; reflexivity|]. intros ch. apply (QK _ _ []). now left. }
    destruct (c =? cSlash) eqn:SL.
    { (* comments *)
      apply Z.eqb_eq in SL. subst c. change cSlash with 47 in *.
      assert (E : fLoop (S fuel) terms rules a (47 :: t) us = if lpeek t =? cSlash then match finish rules with Some r => FOk r (dropLine (lnext t)) us | None => FErr PNoRule us end else FErr (PInvalidChar 47) us).
      { cbn [fLoop lpeek lnext tl]. apply inner_true in I as [-> ->]. rewrite W, A, CH. reflexivity. }
      rewrite E. destruct (lpeek t =? cSlash) eqn:K.
      - pk K. change cSlash with 47 in K. destruct rules as [|r0 rules].
        + cbn [finish]. exists [], (47 :: t). split; [reflexivity|]. split; [apply fits_none; [reflexivity|]; rewrite K; apply ab_nothing_but_comment|]. split; [|split].
          * intros c' t0 [= <- <-] t'. cbn [app]. apply L_slash; auto.
          * exists [39; 120; 39]. split; [now apply leads_none|]. split; [reflexivity|]. intros tl T. apply QK. now right.
          * exists [39; 120; 39]. split; [now apply ends_none|]. split; [reflexivity|]. apply (QK [] a []). now left.
        + destruct (finish_some r0 rules) as (r' & F). rewrite F. set (t1 := lnext t) in *. rewrite K.
          destruct (dropLine_cases t1) as [(N & D)|(b & D & NB)].
          * (* no end of line *)
            rewrite D. exists (47 :: 47 :: t1). split; [now rewrite app_nil_r|]. split; [discriminate|]. split; [|split].
            -- right. split; [now left|]. intros z Z ZN. assert (X := L_comment terms (r0 :: rules) a t1 r' I F). rewrite D in X. rewrite (ZN eq_refl), app_nil_r. exact X.
            -- exists [10]. split; [repeat constructor; lia|]. split; [discriminate|]. intros tl T. cbn [app]. eapply always_weak; [apply (read_ok r')|]. now apply comment_reads.
            -- intros d0 D1 D2. exists [d0; 10]. split; [repeat constructor; [now apply closing_pos|lia]|]. split; [now right|]. intros tl. eapply always_weak; [apply (read_ok r')|].
               replace ((47 :: 47 :: t1) ++ [d0; 10] ++ d0 :: tl) with (47 :: 47 :: (t1 ++ [d0]) ++ 10 :: d0 :: tl) by (cbn [app]; now rewrite <- app_assoc).
               apply comment_reads; [exact I|exact F|]. intros J. apply in_app_or in J as [J|[J|[]]]; [now apply N|]. subst d0. cbn in D1. lia.
          * exists (47 :: 47 :: b ++ [10]). split; [rewrite D at 1; cbn [app]; now rewrite <- app_assoc|]. split; [discriminate|]. split; [|split].
            -- left. split; [exists [], b; auto|]. intros z. cbn [app]. rewrite <- app_assoc. cbn [app]. now apply comment_reads.
            -- exists []. split; [constructor|]. split; [auto|]. intros tl T. cbn [app]. rewrite <- app_assoc. cbn [app]. eapply always_weak; [apply (read_ok r')|]. now apply comment_reads.
            -- intros d0 D1 D2. exists []. split; [constructor|]. split; [now left|]. intros tl. cbn [app]. rewrite <- app_assoc. cbn [app]. eapply always_weak; [apply (read_ok r')|]. now apply comment_reads.
      - destruct rules as [|r0 rules].
        + exists [], (47 :: t). split; [reflexivity|]. split; [apply fits_none; [reflexivity|]; apply ab_lone_slash; now apply notNext_peek|]. split; [|split].
          * intros c' t0 [= <- <-] t'. cbn [app]. apply L_slash; auto.
          * exists [39; 120; 39]. split; [now apply leads_none|]. split; [reflexivity|]. intros tl T. apply QK. now right.
          * exists [39; 120; 39]. split; [now apply ends_none|]. split; [reflexivity|]. apply (QK [] a []). now left.
        + destruct (finish_some r0 rules) as (r' & F).
          exists [47], t. split; [reflexivity|]. split; [apply fits_none; [reflexivity|]; apply (ab_slash []); now apply notNext_peek|]. split; [|split].
          * intros c' t0 -> t'. cbn [app]. apply L_slash; auto.
          * exists [47; 10]. split; [split; [repeat constructor; lia|now left]|]. split; [discriminate|]. intros tl T. cbn [app]. eapply always_weak; [apply read_ok|]. apply (L_comment terms (r0 :: rules) a (10 :: tl) r' I F).
          * exists [47]. split; [apply ends_none; [reflexivity|solids]|]. split; [discriminate|]. cbn [app]. eapply always_weak; [apply read_ok|]. apply (L_comment terms (r0 :: rules) a [] r' I F). }
    (* rules *)
    assert (HE : heading' c = true) by (unfold heading'; now rewrite W, A, CH, SL).
    rewrite (L_prim_eq terms rules a c t fuel us I HE).
    assert (H := IP (PInvalidChar c) (c :: t) us CL). destruct (fPrim fuel (PInvalidChar c) (c :: t) us) as [r1 l1 us1|e us1|]; cbn [fbind]; [| |exact Logic.I].
    - destruct H as (x1 & E1 & XN & RC). assert (C1 : clean l1) by (rewrite E1 in CL; eapply clean_tail, CL).
      destruct x1 as [|d x1]; [congruence|]. injection E1 as <- ->.
      assert (LC : forall z P, near l1 z -> always (Lp terms (annotate a r1 :: rules) noAnn z) P -> always (Lp terms rules a ((c :: x1) ++ z)) P).
      { intros z P Z K. cbn [app]. apply (L_prim terms rules a c _ r1 z P I HE); [now apply RC|exact K]. }
      assert (H := IL terms (annotate a r1 :: rules) noAnn l1 us1 OK C1). destruct (fLoop fuel terms (annotate a r1 :: rules) noAnn l1 us1) as [r l' us'|e us'|]; [| |exact Logic.I].
      + destruct H as (x2 & -> & _ & R & (q & CQ & XQ & Q) & BQ). exists ((c :: x1) ++ x2). split; [cbn [app]; now rewrite <- app_assoc|]. split; [discriminate|]. split; [|split].
        * destruct R as [(AF & R)|(EN & R)].
          -- left. split; [now apply afterComment_left|]. intros z. rewrite <- app_assoc. apply LC; [|apply R]. left. apply afterComment_some in AF. destruct x2; [congruence|reflexivity].
          -- right. split; [exact EN|]. intros z Z ZN. rewrite <- app_assoc. apply LC; [|now apply R]. left. apply peek_app. auto.
        * exists q. split; [exact CQ|]. split; [discriminate|]. intros tl T. rewrite <- app_assoc. apply LC; [|now apply Q]. destruct x2 as [|d x2]; [|now left]. right.
          destruct (XQ eq_refl) as [->|X]; cbn [app]; [apply (ends_safe terms OK); now right|]. destruct q as [|d q]; [discriminate|]. cbn [lpeek] in X. subst d. unfold safe. cbn. tauto.
        * intros d0 D1 D2. destruct (BQ d0 D1 D2) as (q2 & C2 & P2 & Q2). exists q2. split; [exact C2|]. split; [exact P2|]. intros tl. rewrite <- app_assoc. apply LC; [|apply Q2].
          destruct x2 as [|d x2]; [right|now left]. cbn [app]. unfold safe. rewrite closable_peek; [|exact P2|now apply closing_pos]. cbn in D1 |- *. tauto.
      + destruct H as (x2 & y & -> & AB & R & (q & CQ & XQ & Q) & q0 & SQ & XQ0 & Q0). exists ((c :: x1) ++ x2), y. split; [cbn [app]; now rewrite <- app_assoc|]. split; [now apply fits_left|]. split; [|split].
        * intros c' t0 -> t'. rewrite <- app_assoc. apply LC; [left; now apply peek_app|]. eapply R. reflexivity.
        * exists q. split; [exact CQ|]. split; [discriminate|]. intros tl T. rewrite <- app_assoc. apply LC; [|now apply Q]. destruct x2 as [|d x2]; [|now left]. right.
          specialize (XQ eq_refl). destruct q as [|d q]; [discriminate|]. cbn [lpeek] in XQ. subst d. unfold safe. cbn. tauto.
        * exists q0. split; [exact SQ|]. split; [discriminate|]. rewrite <- app_assoc. apply LC; [|exact Q0]. destruct x2 as [|d x2]; [|now left]. right. specialize (XQ0 eq_refl). cbn [app].
          unfold safe. rewrite XQ0. cbn. tauto.
    - destruct H as [(-> & ST)|(x & y & E1 & XN & AB & R & q & SQ & Q)].
      + exists [], (c :: t). split; [reflexivity|]. split; [|split; [|split]].
        * apply fits_none; [reflexivity|]. apply ab_invalid. unfold heading' in HE. rewrite !andb_true_iff, !negb_true_iff in HE. cbn [lpeek] in ST.
          intros [U|[U|U]].
          -- apply white_dec in U. congruence.
          -- unfold starts in ST. apply orb_false_iff in ST as [_ ST]. apply orb_false_iff in ST as [S1 S2]. unfold isLetter in S1. unfold firstOf in U. lia.
          -- cbn in U. repeat (destruct U as [<-|U]; [try discriminate; try (cbn in ST; discriminate); try (cbn in CH; discriminate)|]). destruct U.
        * intros c' t0 [= <- <-] t'. cbn [app]. apply L_prim_err; [exact I|exact HE|]. apply (always_S _ (fun _ us => FErr (PInvalidChar c) us)); [|apply always_const; intros ?; now eexists _, _].
          intros n us2. cbn [lpeek] in ST. now apply prim_none.
        * exists [39; 120; 39]. split; [now apply leads_none|]. split; [reflexivity|]. intros tl T. apply QK. now right.
        * exists [39; 120; 39]. split; [now apply ends_none|]. split; [reflexivity|]. apply (QK rules a []). now left.
      + destruct x as [|d x]; [congruence|]. injection E1 as <- ->. exists (c :: x), y. split; [reflexivity|]. split; [now apply fits_cons|].
        assert (LE : forall tl, lpeek tl = EOFChar \/ In (lpeek tl) terms -> always (Lp terms rules a ((c :: x) ++ q ++ tl)) (isOk tl)).
        { intros tl T. cbn [app]. apply (L_prim_ok terms rules a c _ tl _ I HE); [apply Q, (ends_safe terms OK), T|]. intros r. destruct (finish_some (annotate a r) rules) as (r' & F).
          eapply always_weak; [apply (read_ok r')|]. exact (L_done terms _ _ _ _ T F). }
        split; [|split].
        * intros c' t0 -> t'. cbn [app]. apply L_prim_err; [exact I|exact HE|]. eapply R. reflexivity.
        * exists q. split; [now apply ends_leads|]. split; [discriminate|]. intros tl T. apply LE. now right.
        * exists q. split; [exact SQ|]. split; [discriminate|]. rewrite <- (app_nil_r q). apply (LE []). now left.
  Qed.

  (* ---------------- one rule of a choice ---------------- *)

  Definition gap (c : Z) : bool := (c =? 32) || (c =? 10) || (c =? 9) || (c =? 13).
  Lemma O_white a c t P : gap c = true -> always (On a t) P -> always (On a (c :: t)) P.
  Proof. intros G. apply always_S. intros n us. unfold On. cbn [fOne lpeek lnext tl]. unfold gap in G. now rewrite G. Qed.
  Lemma O_ann a c t P : gap c = false -> 0 <= c -> isAnn c = true -> (lpeek t =? cChoice) = false -> always (On (addAnn a c) t) P -> always (On a (c :: t)) P.
  Proof.
    intros G C A K. apply always_S. intros n us. unfold On. cbn [fOne lpeek lnext tl]. unfold gap in G. rewrite G. assert (E : (c =? EOFChar) = false) by (unfold EOFChar; lia). now rewrite E, A, K.
  Qed.
  Lemma O_ann_err a c t : gap c = false -> 0 <= c -> isAnn c = true -> (lpeek t =? cChoice) = true -> always (On a (c :: t)) isErr.
  Proof.
    intros G C A K. apply (always_S _ (fun _ us => FErr (PAnnChoice c) us)); [|apply always_const; intros us; now eexists _, _].
    intros n us. unfold On. cbn [fOne lpeek lnext tl]. unfold gap in G. rewrite G. assert (E : (c =? EOFChar) = false) by (unfold EOFChar; lia). now rewrite E, A, K.
  Qed.
  Lemma O_prim_eq a c t n us : gap c = false -> 0 <= c -> isAnn c = false ->
    fOne (S n) a (c :: t) us = fbind (fPrim n (PNotARule c) (c :: t) us) (fun r l us => FOk (annotate a r) l us).
  Proof. intros G C A. cbn [fOne lpeek lnext tl]. unfold gap in G. rewrite G. assert (E : (c =? EOFChar) = false) by (unfold EOFChar; lia). now rewrite E, A. Qed.
  Lemma O_prim a c t r l : gap c = false -> 0 <= c -> isAnn c = false -> always (Pr (PNotARule c) (c :: t)) (isRead r l) -> always (On a (c :: t)) (isRead (annotate a r) l).
  Proof.
    intros G C A H. eapply (always_S _ (fun n us => fbind (fPrim n (PNotARule c) (c :: t) us) _)); [intros n us; now apply O_prim_eq|].
    eapply (always_bind (Pr (PNotARule c) (c :: t)) (fun _ r l us => FOk (annotate a r) l us)); [exact H|]. apply always_const. intros us. now exists us.
  Qed.
  Lemma O_prim_ok a c t l : gap c = false -> 0 <= c -> isAnn c = false -> always (Pr (PNotARule c) (c :: t)) (isOk l) -> always (On a (c :: t)) (isOk l).
  Proof.
    intros G C A H. eapply (always_S _ (fun n us => fbind (fPrim n (PNotARule c) (c :: t) us) _)); [intros n us; now apply O_prim_eq|].
    eapply (always_bind_ok (Pr (PNotARule c) (c :: t)) (fun _ r l us => FOk (annotate a r) l us)); [exact H|]. intros r. apply always_const. intros us. now eexists _, us.
  Qed.
  Lemma O_prim_err a c t : gap c = false -> 0 <= c -> isAnn c = false -> always (Pr (PNotARule c) (c :: t)) isErr -> always (On a (c :: t)) isErr.
  Proof.
    intros G C A H. eapply (always_S _ (fun n us => fbind (fPrim n (PNotARule c) (c :: t) us) _)); [intros n us; now apply O_prim_eq|].
    now apply (always_bind_err (Pr (PNotARule c) (c :: t)) (fun _ r l us => FOk (annotate a r) l us)).
  Qed.
  Lemma quick_one a tl : safe tl -> always (On a ([39; 120; 39] ++ tl)) (isOk tl).
  Proof.
    intros ST. eapply always_weak; [apply read_ok|]. apply (O_prim a 39 (120 :: 39 :: tl)); [reflexivity|lia|reflexivity|]. now apply char_reads.
  Qed.

  Lemma step_one a l us : clean l -> match fOne (S fuel) a l us with FOk r l' _ => oneOk a l r l' | FErr e _ => oneErr a l e | FFuel => True end.
  Proof.
    intros CL. assert (SK : solid [39; 120; 39]) by solids.
    destruct l as [|c t].
    { cbn. exists [], []. split; [reflexivity|]. split; [apply ab_eof|]. split; [discriminate|]. exists [39; 120; 39]. split; [now apply ends_none|]. split; [reflexivity|]. intros tl T. now apply quick_one. }
    assert (C0 : 0 <= c) by now inversion CL. assert (CT : clean t) by now inversion CL. destruct (gap c) eqn:GP.
    { assert (E : fOne (S fuel) a (c :: t) us = fOne fuel a t us) by (cbn [fOne lpeek lnext tl]; unfold gap in GP; now rewrite GP). rewrite E.
      assert (H := IO a t us CT). destruct (fOne fuel a t us) as [r l' us'|e us'|]; [| |exact I].
      - destruct H as (x & -> & N & R). exists (c :: x). split; [reflexivity|]. split; [discriminate|]. intros y Y. cbn [app]. apply O_white; auto.
      - destruct H as (x & y & -> & AB & R & q & SQ & XQ & Q). exists (c :: x), y. split; [reflexivity|]. split; [now apply (about_left _ _ _ [c])|]. split.
        + intros c' t0 -> t'. cbn [app]. apply O_white; [exact GP|]. eapply R. reflexivity.
        + exists q. split; [exact SQ|]. split; [discriminate|]. intros tl T. cbn [app]. apply O_white; auto. }
    destruct (isAnn c) eqn:A.
    { assert (EF : (c =? EOFChar) = false) by (unfold EOFChar; lia).
      destruct (lpeek t =? cChoice) eqn:K.
      - assert (E : fOne (S fuel) a (c :: t) us = FErr (PAnnChoice c) us) by (cbn [fOne lpeek lnext tl]; unfold gap in GP; now rewrite GP, EF, A, K). rewrite E.
        assert (K' := K). pk K'. exists [c], t. split; [reflexivity|]. split.
        + rewrite K'. apply (ab_ann c []). unfold isAnn in A. rewrite !orb_true_iff, !Z.eqb_eq in A. unfold cVirt, cNonData, cTok in A. cbn. lia.
        + split; [intros c' t0 -> t'; cbn [app]; now apply O_ann_err|]. exists [39; 120; 39]. split; [now apply ends_none|]. split; [discriminate|]. intros tl T. cbn [app]. apply O_ann; auto. now apply quick_one.
      - assert (E : fOne (S fuel) a (c :: t) us = fOne fuel (addAnn a c) t us) by (cbn [fOne lpeek lnext tl]; unfold gap in GP; now rewrite GP, EF, A, K). rewrite E.
        assert (H := IO (addAnn a c) t us CT). destruct (fOne fuel (addAnn a c) t us) as [r l' us'|e us'|]; [| |exact I].
        + destruct H as (x & -> & N & R). exists (c :: x). split; [reflexivity|]. split; [discriminate|]. intros y Y. cbn [app]. apply O_ann; auto. destruct x; [congruence|exact K].
        + destruct H as (x & y & -> & AB & R & q & SQ & XQ & Q). exists (c :: x), y. split; [reflexivity|]. split; [now apply (about_left _ _ _ [c])|]. split.
          * intros c' t0 -> t'. cbn [app]. apply O_ann; auto; [destruct x; exact K|]. eapply R. reflexivity.
          * exists q. split; [exact SQ|]. split; [discriminate|]. intros tl T. cbn [app]. apply O_ann; auto. destruct x; [|exact K]. cbn [app]. rewrite solid_peek by apply SQ. now rewrite (XQ eq_refl). }
    rewrite (O_prim_eq a c t fuel us GP C0 A). assert (H := IP (PNotARule c) (c :: t) us CL). destruct (fPrim fuel (PNotARule c) (c :: t) us) as [r1 l1 us1|e us1|]; cbn [fbind]; [| |exact I].
    - destruct H as (x & E1 & XN & R). destruct x as [|d x]; [congruence|]. injection E1 as <- ->. exists (c :: x). split; [reflexivity|]. split; [discriminate|]. intros y Y. cbn [app].
      apply O_prim; auto. exact (R (PNotARule c) y Y).
    - destruct H as [(-> & ST)|(x & y & E1 & XN & AB & R & q & SQ & Q)].
      + cbn [lpeek] in ST. exists [], (c :: t). split; [reflexivity|]. split; [|split].
        * apply ab_no_rule.
          -- intros U. unfold starts in ST. apply orb_false_iff in ST as [_ ST]. apply orb_false_iff in ST as [S1 S2]. unfold isLetter in S1. unfold firstOf in U. lia.
          -- intros U. cbn in U. repeat (destruct U as [<-|U]; [try discriminate; try (cbn in ST; discriminate); try (cbn in GP; discriminate)|]). destruct U.
        * intros c' t0 [= <- <-] t'. cbn [app]. apply O_prim_err; auto. apply (always_S _ (fun _ us => FErr (PNotARule c) us)); [|apply always_const; intros ?; now eexists _, _].
          intros n us2. now apply prim_none.
        * exists [39; 120; 39]. split; [now apply ends_none|]. split; [reflexivity|]. intros tl T. now apply quick_one.
      + destruct x as [|d x]; [congruence|]. injection E1 as <- ->. exists (c :: x), y. split; [reflexivity|]. split; [exact AB|]. split.
        * intros c' t0 -> t'. cbn [app]. apply O_prim_err; auto. exact (R c' t0 eq_refl (PNotARule c) t').
        * exists q. split; [exact SQ|]. split; [discriminate|]. intros tl T. cbn [app]. apply O_prim_ok; auto. exact (Q (PNotARule c) tl T).
  Qed.

  (* ---------------- choices ---------------- *)

  Lemma C_space rules gs t P : always (Ch rules gs t) P -> always (Ch rules gs (32 :: t)) P.
  Proof. apply always_S. intros n us. reflexivity. Qed.
  (** The state of the choice behind a sign. *)
  Definition later (c : Z) (rules : list rule) (gs : list (list rule)) (r : rule) : list rule * list (list rule) :=
    if c =? 124 then (r :: rules, gs) else ([r], rev rules :: gs).
  Lemma C_sign_eq c rules gs t n us : c = 124 \/ c = 62 -> rules <> [] ->
    fChoice (S n) rules gs (c :: t) us = fbind (fOne n noAnn t us) (fun r l us => fChoice n (fst (later c rules gs r)) (snd (later c rules gs r)) l us).
  Proof. intros [->| ->] N; cbn; [reflexivity|]. destruct rules; [congruence|reflexivity]. Qed.
  Lemma C_sign c rules gs t r l P : c = 124 \/ c = 62 -> rules <> [] -> always (On noAnn t) (isRead r l) ->
    always (Ch (fst (later c rules gs r)) (snd (later c rules gs r)) l) P -> always (Ch rules gs (c :: t)) P.
  Proof.
    intros C N H K. eapply (always_S _ (fun n us => fbind (fOne n noAnn t us) _)); [intros n us; now apply C_sign_eq|].
    eapply (always_bind (On noAnn t) (fun n r l us => fChoice n (fst (later c rules gs r)) (snd (later c rules gs r)) l us)); [exact H|exact K].
  Qed.
  Lemma C_sign_ok c rules gs t l P : c = 124 \/ c = 62 -> rules <> [] -> always (On noAnn t) (isOk l) ->
    (forall r, always (Ch (fst (later c rules gs r)) (snd (later c rules gs r)) l) P) -> always (Ch rules gs (c :: t)) P.
  Proof.
    intros C N H K. eapply (always_S _ (fun n us => fbind (fOne n noAnn t us) _)); [intros n us; now apply C_sign_eq|].
    eapply (always_bind_ok (On noAnn t) (fun n r l us => fChoice n (fst (later c rules gs r)) (snd (later c rules gs r)) l us)); [exact H|exact K].
  Qed.
  Lemma C_sign_err c rules gs t : c = 124 \/ c = 62 -> rules <> [] -> always (On noAnn t) isErr -> always (Ch rules gs (c :: t)) isErr.
  Proof.
    intros C N H. eapply (always_S _ (fun n us => fbind (fOne n noAnn t us) _)); [intros n us; now apply C_sign_eq|].
    now apply (always_bind_err (On noAnn t) (fun n r l us => fChoice n (fst (later c rules gs r)) (snd (later c rules gs r)) l us)).
  Qed.
  Definition enough (rules : list rule) (gs : list (list rule)) : Prop := rules <> [] /\ (gs <> [] \/ (2 <= length rules)%nat).
  Lemma C_end_eq rules gs l n us : enough rules gs -> lpeek l <> 32 -> lpeek l <> 124 -> lpeek l <> 62 -> fChoice (S n) rules gs l us = FOk (RChoice noBase (rev (rev rules :: gs))) l us.
  Proof.
    intros (N & H) A B C. apply Z.eqb_neq in A, B, C. cbn [fChoice]. change cSpace with 32. change cChoice with 124. change cGt with 62. rewrite A, B, C.
    destruct gs as [|g gs], rules as [|r [|r' rules]]; try congruence; try reflexivity. destruct H as [H|H]; [congruence|cbn in H; lia].
  Qed.
  Lemma C_end rules gs l : enough rules gs -> lpeek l <> 32 -> lpeek l <> 124 -> lpeek l <> 62 -> always (Ch rules gs l) (isRead (RChoice noBase (rev (rev rules :: gs))) l).
  Proof.
    intros H A B C. apply (always_S _ (fun _ us => FOk (RChoice noBase (rev (rev rules :: gs))) l us)); [|apply always_const; intros us; now exists us]. intros n us. now apply C_end_eq.
  Qed.
  Lemma later_enough c rules gs r : rules <> [] -> enough (fst (later c rules gs r)) (snd (later c rules gs r)).
  Proof.
    intros N. unfold later, enough. destruct (c =? 124); cbn [fst snd]; split; try discriminate.
    - right. destruct rules; [congruence|cbn; lia].
    - left. discriminate.
  Qed.

  Lemma step_choice rules gs l us : choosing rules gs l -> clean l -> match fChoice (S fuel) rules gs l us with FOk r l' _ => choiceOk rules gs l r l' | FErr e _ => choiceErr rules gs l e | FFuel => True end.
  Proof.
    intros (RN & CG) CL. destruct (Z.eq_dec (lpeek l) 32) as [S32|N32].
    { destruct l as [|c t]; [discriminate|]. cbn [lpeek] in S32. subst c. change (fChoice (S fuel) rules gs (32 :: t) us) with (fChoice fuel rules gs t us).
      assert (CT : clean t) by now inversion CL. assert (CT' : choosing rules gs t) by (split; [exact RN|]; destruct CG as [X|[X|[X|X]]]; auto; discriminate).
      assert (H := IC rules gs t us CT' CT). destruct (fChoice fuel rules gs t us) as [r l' us'|e us'|]; [| |exact I].
      - destruct H as (x & -> & _ & R). exists (32 :: x). split; [reflexivity|]. split; [discriminate|]. intros y Y. cbn [app]. apply C_space. now apply R.
      - destruct H as (x & y & -> & N & AB & R & q & SQ & Q). exists (32 :: x), y. split; [reflexivity|]. split; [discriminate|]. split; [now apply (about_left _ _ _ [32])|]. split.
        + intros c t0 -> t'. cbn [app]. apply C_space. eapply R. reflexivity.
        + exists q. split; [exact SQ|]. intros tl T. cbn [app]. apply C_space. now apply Q. }
    destruct (Z.eq_dec (lpeek l) 124) as [S124|N124]; [|destruct (Z.eq_dec (lpeek l) 62) as [S62|N62]].
    3:{ assert (EN : enough rules gs) by (split; [exact RN|]; destruct CG as [X|[X|[X|X]]]; auto; contradiction).
        rewrite (C_end_eq rules gs l fuel us EN N32 N124 N62). exists []. split; [reflexivity|]. split; [intros [X|X]; contradiction|]. intros y Y. cbn [app].
        apply C_end; [exact EN|..]; (destruct Y as [-> |Y]; [auto|]); cbn in Y; lia. }
    all: destruct l as [|c t]; [discriminate|]; assert (HC : c = 124 \/ c = 62) by (cbn [lpeek] in *; auto); assert (CT : clean t) by now inversion CL.
    all: rewrite (C_sign_eq c rules gs t fuel us HC RN); assert (H := IO noAnn t us CT); destruct (fOne fuel noAnn t us) as [r1 l1 us1|e us1|]; cbn [fbind]; [| |exact I].
    all: try (destruct H as (x & y & -> & AB & R & q & SQ & XQ & Q); exists (c :: x), y; split; [reflexivity|]; split; [discriminate|]; split; [now apply (about_left _ _ _ [c])|]; split;
      [intros c' t0 -> t'; cbn [app]; apply C_sign_err; auto; eapply R; reflexivity
      |exists q; split; [exact SQ|]; intros tl T; cbn [app]; apply (C_sign_ok c rules gs _ tl _ HC RN); [apply Q; unfold safe; rewrite T; cbn; tauto|];
       intros r; eapply always_weak; [apply read_ok|]; apply C_end; [now apply later_enough|lia|lia|lia]]).
    all: destruct H as (x1 & -> & XN & R1); assert (C1 : clean l1) by (eapply clean_tail, CT).
    all: assert (LE := later_enough c rules gs r1 RN).
    all: assert (CG' : choosing (fst (later c rules gs r1)) (snd (later c rules gs r1)) l1) by (split; [apply LE|]; destruct LE as (_ & [X|X]); auto).
    all: assert (H := IC _ _ l1 us1 CG' C1); destruct (fChoice fuel _ _ l1 us1) as [r l' us'|e us'|]; [| |exact I].
    all: assert (CS : forall z P, near l1 z -> always (Ch (fst (later c rules gs r1)) (snd (later c rules gs r1)) z) P -> always (Ch rules gs ((c :: x1) ++ z)) P) by
      (intros z P Z K; cbn [app]; apply (C_sign c rules gs _ r1 z P HC RN); [now apply R1|exact K]).
    all: try (destruct H as (x2 & -> & _ & R); exists ((c :: x1) ++ x2); split; [cbn [app]; now rewrite <- app_assoc|]; split; [discriminate|]; intros y Y; rewrite <- app_assoc; apply CS; [|now apply R];
       destruct x2 as [|d x2]; [|now left]; cbn [app]; destruct Y as [Y|Y]; [now left|right]; unfold safe; cbn in Y |- *; tauto).
    all: destruct H as (x2 & y & -> & N & AB & R & q & SQ & Q); exists ((c :: x1) ++ x2), y; split; [cbn [app]; now rewrite <- app_assoc|]; split; [discriminate|]; split; [now apply about_left|]; split;
      [intros c' t0 -> t'; rewrite <- app_assoc; apply CS; [left; now apply peek_app|]; eapply R; reflexivity
      |exists q; split; [exact SQ|]; intros tl T; rewrite <- app_assoc; apply CS; [left; destruct x2; [congruence|reflexivity]|now apply Q]].
  Qed.

  (* ---------------- the loop behind white space ---------------- *)

  Definition Sk (terms : list Z) (l : list Z) : run := Lp terms [] noAnn (lskip l).
  Lemma lskip_all x y : lskip x = [] -> lskip (x ++ y) = lskip y.
  Proof. intros E. destruct (lskip_white_split x) as (w & W & L). rewrite E, app_nil_r in L. subst w. now apply lskip_white. Qed.
  Lemma lskip_some x y : lskip x <> [] -> lskip (x ++ y) = lskip x ++ y.
  Proof.
    intros N. destruct (lskip_white_split x) as (w & W & L). assert (P := lskip_peek x). rewrite L at 1. rewrite <- app_assoc. apply lskip_front; [exact W|]. destruct (lskip x); [congruence|exact P].
  Qed.
  Lemma lskip_idem l : lskip (lskip l) = lskip l. Proof. apply lskip_solid, lskip_peek. Qed.
  Lemma lskip_nonempty x : lskip x <> [] -> x <> []. Proof. intros N ->. now apply N. Qed.
  Lemma lskip_behind w x2 v : white w -> isWS (lpeek (x2 ++ v)) = false -> lskip (w ++ x2) = x2.
  Proof. intros W V. apply lskip_front; [exact W|]. destruct x2; [reflexivity|exact V]. Qed.
  Lemma clean_skip l : clean l -> clean (lskip l).
  Proof. intros C. destruct (lskip_white_split l) as (w & _ & L). rewrite L in C. now apply clean_tail in C. Qed.

  Definition skOk (terms : list Z) (l : list Z) (r : rule) (l' : list Z) : Prop :=
    exists x, l = x ++ l' /\ lskip x <> [] /\
      ((afterComment x /\ forall z, always (Sk terms (x ++ z)) (isRead r z)) \/
       ((lpeek l' = EOFChar \/ In (lpeek l') terms) /\ forall z, lpeek z = lpeek l' -> (l' = [] -> z = []) -> always (Sk terms (x ++ z)) (isRead r z))) /\
      (exists q, clean q /\ forall tl, In (lpeek tl) terms -> always (Sk terms (x ++ q ++ tl)) (isOk tl)) /\
      closable terms (fun l => Sk terms (x ++ l)).
  Definition skErr (terms : list Z) (l : list Z) (e : perr) : Prop :=
    exists x y, l = x ++ y /\ fits e x y /\ (lskip x = [] -> isWS (lpeek y) = false) /\ (forall c t, y = c :: t -> forall t', always (Sk terms (x ++ c :: t')) isErr) /\
      exists q, leads e q /\ (lskip x = [] -> lpeek q = 39) /\ forall tl, In (lpeek tl) terms -> always (Sk terms (x ++ q ++ tl)) (isOk tl).

  Lemma skip_loop terms l us : okTerms terms -> clean l ->
    match fLoop fuel terms [] noAnn (lskip l) us with FOk r l' _ => skOk terms l r l' | FErr e _ => skErr terms l e | FFuel => True end.
  Proof.
    intros OK CL. destruct (lskip_white_split l) as (w & W & L). assert (P := lskip_peek l). assert (H := IL terms [] noAnn (lskip l) us OK (clean_skip l CL)).
    destruct (fLoop fuel terms [] noAnn (lskip l) us) as [r l' us'|e us'|]; [| |exact I].
    - destruct H as (x & E & N & R & (q & CQ & _ & Q) & BQ). specialize (N eq_refl). rewrite E in P. assert (SX : lskip (w ++ x) = x) by (eapply lskip_behind; eassumption).
      assert (K : forall z, lskip ((w ++ x) ++ z) = x ++ z) by (intros z; rewrite lskip_some; rewrite SX; [reflexivity|exact N]).
      exists (w ++ x). split; [now rewrite L, E, app_assoc|]. split; [now rewrite SX|]. split; [|split].
      + destruct R as [(AC & R)|(EN & R)]; [left|right].
        * split; [now apply afterComment_left|]. intros z. unfold Sk. rewrite K. apply R.
        * split; [exact EN|]. intros z. unfold Sk. rewrite K. apply R.
      + exists q. split; [exact CQ|]. intros tl. unfold Sk. rewrite K. apply Q.
      + intros d0 D1 D2. destruct (BQ d0 D1 D2) as (q2 & C2 & P2 & Q2). exists q2. split; [exact C2|]. split; [exact P2|]. intros tl. unfold Sk. rewrite K. apply Q2.
    - destruct H as (x & y & E & AB & R & (q & CQ & XQ & Q) & _). rewrite E in P. assert (SX : lskip (w ++ x) = x) by (eapply lskip_behind; eassumption).
      assert (K : forall z, isWS (lpeek (x ++ z)) = false -> lskip ((w ++ x) ++ z) = x ++ z) by (intros z Z; rewrite <- app_assoc; now apply lskip_front).
      exists (w ++ x), y. split; [now rewrite L, E, app_assoc|]. split; [now apply fits_left|]. rewrite SX. split; [intros ->; exact P|]. split.
      + intros c t -> t'. unfold Sk. rewrite K; [eapply R; reflexivity|]. destruct x; exact P.
      + exists q. split; [exact CQ|]. split; [exact XQ|]. intros tl T. unfold Sk. rewrite K; [now apply Q|]. destruct x as [|d x]; [|exact P]. cbn [app].
        assert (Q9 := XQ eq_refl). destruct q as [|d q]; [cbn in Q9; unfold EOFChar in Q9; lia|]. cbn in Q9 |- *. now subst d.
  Qed.

  (* ---------------- groups, options and repetitions ---------------- *)

  Section Bracket.
    Context (open close : Z) (E : perr) (K : rule -> list Z -> (rule * list Z) + perr).
    Hypothesis EQ : forall n other t us, fPrim (S n) other (open :: t) us = fbind (Sk [close] t n us) (fun r l us => if lpeek l =? close then flift (K r (lnext l)) us else FErr E us).
    Hypothesis OC : In close [41; 93; 125].
    Hypothesis AB : forall x y, notNext close y -> y = [] \/ afterComment x -> about E (open :: x) y.
    Hypothesis ME : missing E = [close].
    Hypothesis KO : forall r l r' l', K r l = inl (r', l') -> sOk0 (K r) l r' l'.
    Hypothesis KE : forall r l e, K r l = inr e -> sErr (K r) l e.
    Hypothesis KS : forall r tl, safe tl -> exists r', K r tl = inl (r', tl).

    Lemma Kclose_ok : okTerms [close]. Proof. intros c [<-|[]]. cbn in OC |- *. tauto. Qed.
    Lemma bracket_in other t r l (P : fres rule -> Prop) : always (Sk [close] t) (isRead r (close :: l)) -> (forall us, P (flift (K r l) us)) -> always (Pr other (open :: t)) P.
    Proof.
      intros H PK. eapply (always_S _ (fun n us => fbind (Sk [close] t n us) (fun r l us => if lpeek l =? close then flift (K r (lnext l)) us else FErr E us))); [intros n us; apply EQ|].
      eapply (always_bind (Sk [close] t) (fun _ r l us => if lpeek l =? close then flift (K r (lnext l)) us else FErr E us)); [exact H|]. apply always_const. intros us. cbn [lpeek lnext tl]. rewrite Z.eqb_refl. apply PK.
    Qed.
    Lemma bracket_ok other t l : always (Sk [close] t) (isOk (close :: l)) -> safe l -> always (Pr other (open :: t)) (isOk l).
    Proof.
      intros H ST. eapply (always_S _ (fun n us => fbind (Sk [close] t n us) (fun r l us => if lpeek l =? close then flift (K r (lnext l)) us else FErr E us))); [intros n us; apply EQ|].
      eapply (always_bind_ok (Sk [close] t) (fun _ r l us => if lpeek l =? close then flift (K r (lnext l)) us else FErr E us)); [exact H|]. intros r. apply always_const. intros us. cbn [lpeek lnext tl]. rewrite Z.eqb_refl.
      destruct (KS r l ST) as (r' & ->). now exists r', us.
    Qed.
    Lemma bracket_err other t : always (Sk [close] t) isErr -> always (Pr other (open :: t)) isErr.
    Proof.
      intros H. eapply (always_S _ (fun n us => fbind (Sk [close] t n us) (fun r l us => if lpeek l =? close then flift (K r (lnext l)) us else FErr E us))); [intros n us; apply EQ|].
      now apply (always_bind_err (Sk [close] t) (fun _ r l us => if lpeek l =? close then flift (K r (lnext l)) us else FErr E us)).
    Qed.
    Lemma bracket_open other t r c l : always (Sk [close] t) (isRead r (c :: l)) -> c <> close -> always (Pr other (open :: t)) isErr.
    Proof.
      intros H N. eapply (always_S _ (fun n us => fbind (Sk [close] t n us) (fun r l us => if lpeek l =? close then flift (K r (lnext l)) us else FErr E us))); [intros n us; apply EQ|].
      eapply (always_bind (Sk [close] t) (fun _ r l us => if lpeek l =? close then flift (K r (lnext l)) us else FErr E us)); [exact H|]. apply always_const. intros us. cbn [lpeek]. apply Z.eqb_neq in N. rewrite N. now eexists _, us.
    Qed.

    Lemma close_solid q : clean q -> solid (q ++ [close]).
    Proof. intros C. apply solid_app; [exact C|]. cbn in OC. apply solid_one; [lia|]. destruct OC as [<-|[<-|[<-|[]]]]; reflexivity. Qed.
    Lemma step_bracket other t us : clean (open :: t) -> match fPrim (S fuel) other (open :: t) us with FOk r l' _ => primOk (open :: t) r l' | FErr e _ => primErr other (open :: t) e | FFuel => True end.
    Proof.
      intros CL. assert (CT : clean t) by now inversion CL. rewrite EQ. unfold Sk, Lp. assert (H := skip_loop [close] t us Kclose_ok CT).
      destruct (fLoop fuel [close] [] noAnn (lskip t) us) as [r1 l1 us1|e us1|]; cbn [fbind]; [| |exact I].
      - destruct H as (x1 & -> & N & R & _ & BQ). assert (RC : forall z, lpeek l1 = close -> always (Sk [close] (x1 ++ close :: z)) (isRead r1 (close :: z))).
        { intros z Z. destruct R as [(_ & R)|(_ & R)]; [apply R|]. apply R; [symmetry; exact Z|]. intros ->. cbn in Z, OC. unfold EOFChar in Z. lia. }
        destruct (lpeek l1 =? close) eqn:C.
        + apply Z.eqb_eq in C. destruct l1 as [|c l1]; [cbn in C, OC; unfold EOFChar in C; lia|]. cbn [lpeek lnext tl] in *. subst c.
          destruct (K r1 l1) as [[r2 l2]|e] eqn:KK; cbn [flift].
          * apply KO in KK as (xk & -> & RK). exists (open :: x1 ++ close :: xk). split; [cbn [app]; now rewrite <- app_assoc|]. split; [discriminate|]. intros other' y Y. cbn [app]. rewrite <- app_assoc. cbn [app].
            eapply bracket_in; [now apply RC|]. intros us2. rewrite RK by exact Y. now exists us2.
          * apply KE in KK as (xk & y & -> & XN & A & RK & q & SQ & HQ & QK). right. exists (open :: x1 ++ close :: xk), y. split; [cbn [app]; now rewrite <- app_assoc|]. split; [discriminate|]. split.
            { change (open :: x1 ++ close :: xk) with ((open :: x1) ++ [close] ++ xk). rewrite app_assoc. now apply about_left. } split.
            -- intros c t0 -> other' t'. cbn [app]. rewrite <- app_assoc. cbn [app]. eapply bracket_in; [now apply RC|]. intros us2. destruct (RK c t0 eq_refl t') as (e' & ->). now exists e', us2.
            -- exists q. split; [now split|]. intros other' tl T. cbn [app]. rewrite <- app_assoc. cbn [app]. eapply bracket_in; [now apply RC|]. intros us2. destruct (QK tl T) as (r' & ->). now exists r', us2.
        + right. assert (C' := C). apply Z.eqb_neq in C'. destruct R as [(AC & R)|(EN & R)].
          * exists (open :: x1), l1. split; [reflexivity|]. split; [discriminate|]. split; [apply AB; [now apply notNext_peek|now right]|]. split.
            -- intros c t0 -> other' t'. cbn [app]. eapply bracket_open; [apply R|exact C'].
            -- exists [close]. split; [split; [apply (close_solid []); constructor|right; rewrite ME; now left]|]. intros other' tl T. cbn [app]. destruct (KS r1 tl T) as (r' & KT). eapply bracket_in; [apply R|]. intros us2. rewrite KT. now exists r', us2.
          * assert (l1 = []) as -> by (apply clean_eof; [now apply clean_tail in CT|]; destruct EN as [EN|[EN|[]]]; [exact EN|congruence]).
            exists (open :: x1), []. split; [reflexivity|]. split; [discriminate|]. split; [apply AB; [intros t; discriminate|now left]|]. split; [discriminate|].
            destruct (BQ close) as (q1 & CQ & PQ & Q); [cbn in OC |- *; tauto|now left|].
            exists (q1 ++ [close]). split; [split; [now apply close_solid|right; rewrite ME, closable_peek; [now left|exact PQ|cbn in OC; lia]]|]. intros other' tl T. cbn [app]. rewrite <- app_assoc. cbn [app]. apply bracket_ok; [|exact T]. apply Q.
      - destruct H as (x & y & -> & (A & _) & _ & R & q & CQ & XQ & Q). right. exists (open :: x), y. split; [reflexivity|]. split; [discriminate|]. split; [now apply (about_left _ _ _ [open])|]. split.
        + intros c t0 -> other' t'. cbn [app]. apply bracket_err. eapply R. reflexivity.
        + exists (q ++ [close]). split; [apply leads_solid; [exact CQ|apply (close_solid []); constructor]|]. intros other' tl T. cbn [app]. rewrite <- app_assoc. cbn [app]. apply bracket_ok; [|exact T]. apply Q. now left.
    Qed.
  End Bracket.

  (* ---------------- a rule and what follows, in a block ---------------- *)

  Definition tailOk (f : list Z -> run) (l : list Z) (r : rule) (l' : list Z) : Prop :=
    exists x, l = x ++ l' /\ x <> [] /\ forall y, always (f (x ++ y)) (isRead r y).
  Definition tailErr (q9 : list Z) (f : list Z -> run) (l : list Z) (e : perr) : Prop :=
    exists x y, l = x ++ y /\ (about e x y /\ (x = [] -> missing e = [] \/ (lpeek q9 = 33 /\ In 33 (missing e)))) /\ (forall c t, y = c :: t -> forall t', always (f (x ++ c :: t')) isErr) /\
      exists q, ends e q /\ forall tl, always (f (x ++ q ++ tl)) (isOk tl).
  Definition pairOk (f : list Z -> run) (l : list Z) (r : rule) (l' : list Z) : Prop :=
    exists x, l = x ++ l' /\ lskip x <> [] /\ forall y, always (f (x ++ y)) (isRead r y).
  Definition pairErr (p : list Z) (f : list Z -> run) (l : list Z) (e : perr) : Prop :=
    exists x y, l = x ++ y /\ (about e (p ++ x) y /\ (x = [] -> missing e = [])) /\ (lskip x = [] -> isWS (lpeek y) = false) /\ (forall c t, y = c :: t -> forall t', always (f (x ++ c :: t')) isErr) /\
      exists q, ends e q /\ (lskip x = [] -> lpeek q = 39) /\ forall tl, always (f (x ++ q ++ tl)) (isOk tl).

  Section Pair.
    Context (terms : list Z) (k : nat -> rule -> list Z -> list (list Z) -> fres rule) (q9 p : list Z) (w : fres rule -> fres rule).
    Hypothesis OK : okTerms terms.
    Hypothesis S9 : solid q9.
    Hypothesis T9 : In (lpeek q9) terms.
    Hypothesis Q9 : forall r tl, always (fun n us => k n r (q9 ++ tl) us) (isOk tl).
    Hypothesis WR : forall f r l, always f (isRead r l) -> always (fun n us => w (f n us)) (isRead r l).
    Hypothesis WO : forall f l, always f (isOk l) -> always (fun n us => w (f n us)) (isOk l).
    Hypothesis WE : forall f, always f isErr -> always (fun n us => w (f n us)) isErr.
    Hypothesis WOk : forall r l us, w (FOk r l us) = FOk r l us.
    Hypothesis WErr : forall e us, exists e', w (FErr e us) = FErr e' us /\ missing e' = missing e /\ forall x y, about e x y -> about e' (p ++ x) y.
    Hypothesis WF : w FFuel = FFuel.
    Definition Pair (l : list Z) : run := fun n us => fbind (w (Sk terms l n us)) (k n).
    Hypothesis IK : forall r l us, clean l -> match k fuel r l us with FOk r' l' _ => tailOk (fun l n us => k n r l us) l r' l' | FErr e _ => tailErr q9 (fun l n us => k n r l us) l e | FFuel => True end.

    Lemma pair_read l r l' P : always (Sk terms l) (isRead r l') -> always (fun n us => k n r l' us) P -> always (Pair l) P.
    Proof. intros A B. exact (always_bind (fun n us => w (Sk terms l n us)) k r l' P (WR _ _ _ A) B). Qed.
    Lemma pair_ok l l' P : always (Sk terms l) (isOk l') -> (forall r, always (fun n us => k n r l' us) P) -> always (Pair l) P.
    Proof. intros A B. exact (always_bind_ok (fun n us => w (Sk terms l n us)) k l' P (WO _ _ A) B). Qed.
    Lemma pair_err l : always (Sk terms l) isErr -> always (Pair l) isErr.
    Proof. intros A. exact (always_bind_err (fun n us => w (Sk terms l n us)) k (WE _ A)). Qed.

    Lemma step_pair l us : clean l -> match fbind (w (fLoop fuel terms [] noAnn (lskip l) us)) (k fuel) with FOk r l' _ => pairOk Pair l r l' | FErr e _ => pairErr p Pair l e | FFuel => True end.
    Proof.
      intros CL. assert (H := skip_loop terms l us OK CL). destruct (fLoop fuel terms [] noAnn (lskip l) us) as [r1 l1 us1|e us1|].
      - rewrite WOk. cbn [fbind]. destruct H as (x1 & -> & N1 & R & (q1 & CQ & Q) & BQ). assert (C1 : clean l1) by now apply clean_tail in CL.
        assert (H := IK r1 l1 us1 C1). assert (N2 : forall x2, lskip (x1 ++ x2) <> []) by (intros x2; rewrite lskip_some by exact N1; destruct (lskip x1); [congruence|discriminate]).
        assert (RS : forall z P, lpeek z = lpeek l1 -> (l1 = [] -> z = []) -> always (fun n us => k n r1 z us) P -> always (Pair (x1 ++ z)) P).
        { intros z P Z ZN A. eapply pair_read; [|exact A]. destruct R as [(_ & R)|(_ & R)]; [apply R|now apply R]. }
        destruct (k fuel r1 l1 us1) as [r2 l2 us2|e us2|]; [| |exact I].
        + destruct H as (x2 & -> & XN & R2). exists (x1 ++ x2). split; [now rewrite app_assoc|]. split; [apply N2|]. intros y. rewrite <- app_assoc.
          apply RS; [destruct x2; [congruence|reflexivity]|destruct x2; [congruence|discriminate]|apply R2].
        + destruct H as (x2 & y & -> & (AB & MN) & R2 & q & SQ & Q2). exists (x1 ++ x2), y. split; [now rewrite app_assoc|]. split; [split; [now apply about_left, about_left|intros X; exfalso; apply (N2 x2); now rewrite X]|]. split; [intros X; now apply N2 in X|]. split.
          * intros c t -> t'. rewrite <- app_assoc. apply RS; [destruct x2; reflexivity|destruct x2; discriminate|]. eapply R2. reflexivity.
          * destruct x2 as [|d x2].
            -- destruct R as [(_ & R)|_].
               ++ exists q. split; [exact SQ|]. split; [intros X; now apply N2 in X|]. intros tl. rewrite <- app_assoc. eapply pair_read; [apply R|]. apply Q2.
               ++ destruct (MN eq_refl) as [M|(P9 & M)].
                  2:{ assert (T33 : In 33 terms) by (rewrite <- P9; exact T9). destruct (BQ 33 (or_introl eq_refl) T33) as (q2 & C2 & P2 & QQ). destruct q9 as [|d9 q9']; [discriminate|]. cbn [lpeek] in P9. subst d9.
                      exists (q2 ++ 33 :: q9'). split; [split; [now apply solid_app|right; rewrite closable_peek; [exact M|exact P2|lia]]|]. split; [intros X; now apply N2 in X|]. intros tl.
                      rewrite app_nil_r, <- app_assoc. cbn [app]. eapply pair_ok; [apply QQ|]. intros r. apply (Q9 r tl). }
                  exists (q1 ++ q9). split; [split; [now apply solid_app|now left]|]. split; [intros X; now apply N2 in X|]. intros tl. rewrite app_nil_r, <- app_assoc. eapply pair_ok; [apply Q; now rewrite solid_peek|]. intros r. apply Q9.
            -- exists q. split; [exact SQ|]. split; [intros X; now apply N2 in X|]. intros tl. rewrite <- app_assoc. apply RS; [reflexivity|discriminate|apply Q2].
      - destruct (WErr e us1) as (e' & -> & WM & WA). cbn [fbind]. destruct H as (x & y & -> & (AB & MN) & NW & R & q & CQ & XQ & Q). exists x, y. split; [reflexivity|]. split; [split; [now apply WA|now rewrite WM]|]. split; [exact NW|]. split.
        + intros c t -> t'. apply pair_err. eapply R. reflexivity.
        + exists (q ++ q9). split; [unfold ends, heads; rewrite WM; now apply leads_solid|]. split.
          * intros X. apply XQ in X. destruct q; [cbn in X; unfold EOFChar in X; lia|exact X].
          * intros tl. rewrite <- app_assoc. eapply pair_ok; [apply Q; now rewrite solid_peek|]. intros r. apply Q9.
      - rewrite WF. exact I.
    Qed.
  End Pair.

  (* ---------------- the ends of blocks ---------------- *)

  Definition bang (o : rule) (es : option rule) (xs : list rule) (cl : rule) (l : list Z) : (rule * list Z) + perr :=
    let l4 := lskip l in if lpeek l4 =? cGt then inl (RBlock noBase o true cl es (rev xs), lnext l4) else inr (PBlockEnd (lpeek l4)).
  Definition shut (o : rule) (es : option rule) (xs : list rule) (cl : rule) (l : list Z) : (rule * list Z) + perr :=
    if lpeek l =? cBang then bang o es xs cl (lnext l)
    else if lpeek l =? cGt then inl (RBlock noBase o false cl es (rev xs), lnext l) else inr (PBlockEnd (lpeek l)).
  Lemma block_end_about x y : (lpeek y =? cGt) = false -> clean y -> about (PBlockEnd (lpeek y)) x y.
  Proof. intros C CY. destruct y as [|c y]; [apply ab_block_eof|]. apply ab_block_end. now apply Z.eqb_neq in C. Qed.
  Lemma bang_ok o es xs cl l r l' : bang o es xs cl l = inl (r, l') -> exists x, l = x ++ l' /\ x <> [] /\ forall y, bang o es xs cl (x ++ y) = inl (r, y).
  Proof.
    unfold bang. destruct (lskip_white_split l) as (w & W & L). destruct (lpeek (lskip l) =? cGt) eqn:G; [|discriminate]. pk G. intros [= <- <-].
    exists (w ++ [62]). split; [rewrite L, G at 1; now rewrite <- app_assoc|]. split; [destruct w; discriminate|]. intros y. rewrite <- app_assoc. rewrite lskip_front; [reflexivity|exact W|reflexivity].
  Qed.
  Lemma bang_err o es xs cl l e : clean l -> bang o es xs cl l = inr e -> exists x y, l = x ++ y /\ about e x y /\ missing e = [62; 33] /\ (forall c t, y = c :: t -> forall t', exists e', bang o es xs cl (x ++ c :: t') = inr e') /\
    forall tl, exists r, bang o es xs cl (x ++ 62 :: tl) = inl (r, tl).
  Proof.
    unfold bang. intros CL. destruct (lskip_white_split l) as (w & W & L). destruct (lpeek (lskip l) =? cGt) eqn:G; [discriminate|]. intros [= <-]. assert (P := lskip_peek l).
    exists w, (lskip l). split; [exact L|]. split; [apply block_end_about; [exact G|now apply clean_skip]|]. split; [reflexivity|]. split.
    - intros c t E t'. rewrite E in P, G. rewrite lskip_front; [|exact W|exact P]. cbn [lpeek] in *. rewrite G. now eexists.
    - intros tl. rewrite lskip_front; [|exact W|reflexivity]. now eexists.
  Qed.
  Lemma always_lift (f : (rule * list Z) + perr) (P : fres rule -> Prop) : (forall us, P (flift f us)) -> always (fun _ us => flift f us) P.
  Proof. apply (always_const (fun us => flift f us)). Qed.
  Lemma shut_tail o es xs cl l us : clean l -> match flift (shut o es xs cl l) us with FOk r l' _ => tailOk (fun l _ us => flift (shut o es xs cl l) us) l r l' | FErr e _ => tailErr [33; 62] (fun l _ us => flift (shut o es xs cl l) us) l e | FFuel => True end.
  Proof.
    intros CL. unfold shut at 1. destruct (lpeek l =? cBang) eqn:B.
    - pk B. rewrite B in CL. assert (CT : clean (lnext l)) by now inversion CL. destruct (bang o es xs cl (lnext l)) as [[r l']|e] eqn:E; cbn [flift].
      + apply bang_ok in E as (x & E & N & R). exists (33 :: x). split; [rewrite B, E at 1; reflexivity|]. split; [discriminate|]. intros y. apply always_lift. intros us2. cbn [app].
        change (shut o es xs cl (33 :: x ++ y)) with (bang o es xs cl (x ++ y)). rewrite R. now exists us2.
      + apply bang_err in E as (x & y & E & AB & M & R & Q); [|exact CT]. exists (33 :: x), y. split; [rewrite B, E at 1; reflexivity|]. split; [split; [now apply (about_left _ _ _ [33])|discriminate]|]. split.
        * intros c t -> t'. apply always_lift. intros us2. cbn [app]. change (shut o es xs cl (33 :: x ++ c :: t')) with (bang o es xs cl (x ++ c :: t')). destruct (R c t eq_refl t') as (e' & ->). now eexists _, us2.
        * exists [62]. split; [split; [solids|right; rewrite M; now left]|]. intros tl. apply always_lift. intros us2. cbn [app]. change (shut o es xs cl (33 :: x ++ 62 :: tl)) with (bang o es xs cl (x ++ 62 :: tl)). destruct (Q tl) as (r & ->). now eexists _, us2.
    - destruct (lpeek l =? cGt) eqn:G; cbn [flift].
      + pk G. exists [62]. split; [exact G|]. split; [discriminate|]. intros y. apply always_lift. intros us2. now exists us2.
      + exists [], l. split; [reflexivity|]. split; [split; [now apply block_end_about|intros _; right; split; [reflexivity|right; now left]]|]. split.
        * intros c t -> t'. apply always_lift. intros us2. cbn [app]. unfold shut. cbn [lpeek] in *. rewrite B, G. now eexists _, us2.
        * exists [62]. split; [split; [solids|right; now left]|]. intros tl. apply always_lift. intros us2. now eexists _, us2.
  Qed.

  (* ---------------- excludes and the closing rule ---------------- *)

  Definition wid (m : fres rule) : fres rule := m.
  Definition xk (o : rule) (es : option rule) (xs : list rule) (n : nat) (x : rule) (l : list Z) (us : list (list Z)) : fres rule := fExcl n o es (x :: xs) l us.
  Definition ck (o : rule) (es : option rule) (xs : list rule) (n : nat) (cl : rule) (l : list Z) (us : list (list Z)) : fres rule := flift (shut o es xs cl l) us.
  Lemma Ex_neg_eq o es xs l n us : lpeek (lskip l) = 94 -> fExcl (S n) o es xs l us = Pair termsBlock (xk o es xs) wid (lnext (lskip l)) n us.
  Proof. intros E. cbn [fExcl]. rewrite E. reflexivity. Qed.
  Lemma Ex_close_eq o es xs l n us : lpeek (lskip l) <> 94 -> fExcl (S n) o es xs l us = Pair termsClose (ck o es xs) wid l n us.
  Proof.
    intros E. cbn [fExcl]. apply Z.eqb_neq in E. change cNeg with 94. rewrite E. unfold Pair, wid, Sk, Lp. rewrite lskip_idem.
    destruct (fLoop n termsClose [] noAnn (lskip l) us) as [cl l2 us1|e us1|]; [|reflexivity|reflexivity]. cbn [fbind]. unfold ck, shut, bang.
    destruct (lpeek l2 =? cBang); [|destruct (lpeek l2 =? cGt); reflexivity]. cbv zeta. destruct (lpeek (lskip (lnext l2)) =? cGt); reflexivity.
  Qed.
  Lemma Ex_neg o es xs l P : lpeek (lskip l) = 94 -> always (Pair termsBlock (xk o es xs) wid (lnext (lskip l))) P -> always (Ex o es xs l) P.
  Proof. intros E. apply always_S. intros n us. now apply Ex_neg_eq. Qed.
  Lemma Ex_close o es xs l P : lpeek (lskip l) <> 94 -> always (Pair termsClose (ck o es xs) wid l) P -> always (Ex o es xs l) P.
  Proof. intros E. apply always_S. intros n us. now apply Ex_close_eq. Qed.

  Lemma ok_block : okTerms termsBlock. Proof. intros c [<-|[<-|[<-|[]]]]; cbn; tauto. Qed.
  Lemma ok_close : okTerms termsClose. Proof. intros c [<-|[<-|[]]]; cbn; tauto. Qed.
  Definition lastly : list Z := [32; 39; 120; 39; 62].
  Lemma lastly_solid : solid lastly. Proof. unfold lastly. solids. Qed.
  Lemma quick_close o es xs tl : always (Ex o es xs (lastly ++ tl)) (isOk tl).
  Proof.
    apply Ex_close; [discriminate|]. apply (pair_ok termsClose (ck o es xs) wid (fun f l H => H) (lastly ++ tl) (62 :: tl)).
    - change (Sk termsClose (lastly ++ tl)) with (Lp termsClose [] noAnn (39 :: 120 :: 39 :: 62 :: tl)). apply quick; [apply ok_close|]. right. now left.
    - intros r. apply always_lift. intros us. now eexists _, us.
  Qed.

  Lemma step_excl o es xs l us : clean l -> match fExcl (S fuel) o es xs l us with FOk r l' _ => exclOk o es xs l r l' | FErr e _ => exclErr o es xs l e | FFuel => True end.
  Proof.
    intros CL. destruct (Z.eq_dec (lpeek (lskip l)) 94) as [NG|NG].
    - rewrite Ex_neg_eq by exact NG. destruct (lskip_white_split l) as (w & W & L). assert (CS := clean_skip l CL).
      destruct (lskip l) as [|c m] eqn:SK; [cbn in NG; unfold EOFChar in NG; lia|]. cbn [lpeek lnext tl] in NG |- *. subst c. assert (CM : clean m) by now inversion CS.
      assert (FR : forall z, lskip (w ++ 94 :: z) = 94 :: z) by (intros z; now apply lskip_front).
      assert (F2 : forall z, lskip (w ++ 94 :: z) <> []) by (intros z; rewrite FR; discriminate).
      assert (EX : forall z P, always (Pair termsBlock (xk o es xs) wid z) P -> always (Ex o es xs (w ++ 94 :: z)) P) by (intros z P A; apply Ex_neg; rewrite FR; [reflexivity|exact A]).
      assert (H := step_pair termsBlock (xk o es xs) lastly [] wid ok_block lastly_solid (or_introl eq_refl) (fun r tl => quick_close o es (r :: xs) tl) (fun f r l H => H) (fun f l H => H) (fun f H => H) (fun r l us => eq_refl)
        (fun e us => ex_intro _ e (conj eq_refl (conj eq_refl (fun x y H => H)))) eq_refl).
      assert (H2 := fun IK => H IK m us CM). clear H. unfold Pair at 1. unfold Sk at 1, Lp at 1.
      match type of H2 with ?A -> _ => assert (IK : A) end.
      { intros r l0 us0 C0. unfold xk. assert (H := IX o es (r :: xs) l0 us0 C0). destruct (fExcl fuel o es (r :: xs) l0 us0) as [r' l' us'|e us'|]; [| |exact I].
        - destruct H as (x & -> & N & R). exists x. split; [reflexivity|]. split; [now apply lskip_nonempty|exact R].
        - destruct H as (x & y & -> & (AB & MN) & _ & R & q & SQ & _ & Q). exists x, y. split; [reflexivity|]. split; [split; [exact AB|intros X; left; now apply MN]|]. split; [exact R|]. exists q. now split. }
      specialize (H2 IK). destruct (fbind _ _) as [r l' us'|e us'|]; [| |exact I].
      + destruct H2 as (x & -> & N & R). exists (w ++ 94 :: x). split; [rewrite L; now rewrite <- app_assoc|]. split; [apply F2|]. intros y. rewrite <- app_assoc. cbn [app]. apply EX, R.
      + destruct H2 as (x & y & -> & (AB & MN) & _ & R & q & SQ & _ & Q). exists (w ++ 94 :: x), y. split; [rewrite L; now rewrite <- app_assoc|]. split.
        { change (94 :: x) with ([94] ++ x). rewrite app_assoc. now apply fits_left. } split; [intros X; now apply F2 in X|]. split.
        * intros c t -> t'. rewrite <- app_assoc. cbn [app]. apply EX. eapply R. reflexivity.
        * exists q. split; [exact SQ|]. split; [intros X; now apply F2 in X|]. intros tl. rewrite <- app_assoc. cbn [app]. apply EX, Q.
    - rewrite Ex_close_eq by exact NG. unfold Pair, Sk, Lp.
      assert (H := step_pair termsClose (ck o es xs) [33; 62] [] wid ok_close ltac:(solids) ltac:(cbn; tauto) (fun r tl => always_lift (shut o es xs r (33 :: 62 :: tl)) (isOk tl) (fun us => ex_intro _ _ (ex_intro _ us eq_refl)))
        (fun f r l H => H) (fun f l H => H) (fun f H => H) (fun r l us => eq_refl) (fun e us => ex_intro _ e (conj eq_refl (conj eq_refl (fun x y H => H)))) eq_refl (fun r l us => shut_tail o es xs r l us) l us CL).
      destruct (fbind _ _) as [r l' us'|e us'|]; [| |exact I].
      + destruct H as (x & -> & N & R). exists x. split; [reflexivity|]. split; [exact N|]. intros y. apply Ex_close; [|apply R]. rewrite lskip_some in NG |- * by exact N. destruct (lskip x); [congruence|exact NG].
      + destruct H as (x & y & -> & AB & NW & R & q & SQ & XQ & Q). exists x, y. split; [reflexivity|]. split; [exact AB|]. split; [intros X; split; [exact NG|now apply NW]|].
        assert (HD : forall z, (lskip x = [] -> isWS (lpeek z) = false /\ lpeek z <> 94) -> lpeek (lskip (x ++ z)) <> 94).
        { intros z Z. destruct (lskip x) as [|d x'] eqn:SX.
          - rewrite lskip_all by exact SX. destruct (Z eq_refl) as [Z1 Z2]. now rewrite lskip_solid.
          - rewrite lskip_some in NG |- * by (rewrite SX; discriminate). rewrite SX in NG |- *. exact NG. }
        split.
        * intros c t -> t'. apply Ex_close; [|eapply R; reflexivity]. apply HD. intros X. assert (NC := NW X). cbn [lpeek] in NC |- *. split; [exact NC|]. rewrite lskip_all, lskip_solid in NG by assumption. exact NG.
        * exists q. split; [exact SQ|]. split; [exact XQ|]. intros tl. apply Ex_close; [|apply Q]. apply HD. intros X. apply XQ in X. rewrite solid_peek by apply SQ. rewrite X. split; [reflexivity|discriminate].
  Qed.

  (* ---------------- blocks ---------------- *)

  Lemma always_ext (f g : run) P : (forall n us, f n us = g n us) -> always g P -> always f P.
  Proof. intros E H us. destruct (H us) as (n & o & PO & R). exists n, o. split; [exact PO|]. intros m M. rewrite E. now apply R. Qed.
  Lemma excl_skip n o es xs l us : fExcl n o es xs (lskip l) us = fExcl n o es xs l us.
  Proof. destruct n; [reflexivity|]. cbn [fExcl]. now rewrite !lskip_idem. Qed.

  (** Behind the second rule of a block. *)
  Definition sk (o : rule) (n : nat) (r : rule) (l3 : list Z) (us : list (list Z)) : fres rule :=
    let l4 := lskip l3 in
    if lpeek l4 =? cGt then FOk (RBlock noBase o false r None []) (lnext l4) us
    else if lpeek l4 =? cBang then
      let l5 := lskip (lnext l4) in
      if lpeek l5 =? cGt then FOk (RBlock noBase o true r None []) (lnext l5) us else FErr (PBlockEnd (lpeek l5)) us
    else fExcl n o (Some r) [] l4 us.
  (** Behind the first. *)
  Definition ok (n : nat) (o : rule) (l1 : list Z) (us : list (list Z)) : fres rule :=
    let l2 := lskip l1 in
    if negb (lpeek l2 =? cNeg) then fbind (fLoop n termsBlock [] noAnn (lskip l2) us) (sk o n) else fExcl n o None [] l2 us.
  Lemma block_eq n other t us : fPrim (S n) other (60 :: t) us = Pair termsBlock ok asOpen t n us.
  Proof. reflexivity. Qed.

  Lemma sk_gt o n r l us : lpeek (lskip l) = 62 -> sk o n r l us = FOk (RBlock noBase o false r None []) (lnext (lskip l)) us.
  Proof. intros E. unfold sk. now rewrite E. Qed.
  Lemma sk_bang o n r l us : lpeek (lskip l) = 33 -> sk o n r l us = flift (bang o None [] r (lnext (lskip l))) us.
  Proof. intros E. unfold sk, bang. rewrite E. cbv zeta. change (33 =? cGt) with false. change (33 =? cBang) with true. cbv iota. destruct (lpeek (lskip (lnext (lskip l))) =? cGt); reflexivity. Qed.
  Lemma sk_excl o n r l us : lpeek (lskip l) <> 62 -> lpeek (lskip l) <> 33 -> sk o n r l us = fExcl n o (Some r) [] l us.
  Proof. intros A B. unfold sk. apply Z.eqb_neq in A, B. change cGt with 62. change cBang with 33. rewrite A, B. cbv zeta. apply excl_skip. Qed.
  Definition skr (o r : rule) (l : list Z) : run := fun n us => sk o n r l us.
  Lemma skr_gt o r w y : white w -> always (skr o r (w ++ 62 :: y)) (isRead (RBlock noBase o false r None []) y).
  Proof.
    intros W. eapply (always_ext _ (fun _ us => FOk (RBlock noBase o false r None []) y us)); [|apply always_const; intros us; now exists us].
    intros n us. unfold skr. rewrite sk_gt; rewrite lskip_front by (exact W || reflexivity); reflexivity.
  Qed.
  Lemma skr_bang o r w y (P : fres rule -> Prop) : white w -> (forall us, P (flift (bang o None [] r y) us)) -> always (skr o r (w ++ 33 :: y)) P.
  Proof.
    intros W H. eapply (always_ext _ (fun _ us => flift (bang o None [] r y) us)); [|now apply always_const].
    intros n us. unfold skr. rewrite sk_bang; rewrite lskip_front by (exact W || reflexivity); reflexivity.
  Qed.
  Lemma skr_excl o r l P : lpeek (lskip l) <> 62 -> lpeek (lskip l) <> 33 -> always (Ex o (Some r) [] l) P -> always (skr o r l) P.
  Proof. intros A B. apply always_ext. intros n us. now apply sk_excl. Qed.

  Lemma step_sk o r l us : clean l -> match sk o fuel r l us with FOk r' l' _ => tailOk (skr o r) l r' l' | FErr e _ => tailErr [62] (skr o r) l e | FFuel => True end.
  Proof.
    intros CL. destruct (lskip_white_split l) as (w & W & L). assert (CS := clean_skip l CL). destruct (Z.eq_dec (lpeek (lskip l)) 62) as [G|G].
    { rewrite sk_gt by exact G. destruct (lskip l) as [|c m] eqn:SK; [cbn in G; unfold EOFChar in G; lia|]. cbn [lpeek lnext tl] in G |- *. subst c.
      exists (w ++ [62]). split; [rewrite L; now rewrite <- app_assoc|]. split; [destruct w; discriminate|]. intros y. rewrite <- app_assoc. now apply skr_gt. }
    destruct (Z.eq_dec (lpeek (lskip l)) 33) as [B|B].
    { rewrite sk_bang by exact B. destruct (lskip l) as [|c m] eqn:SK; [cbn in B; unfold EOFChar in B; lia|]. cbn [lpeek lnext tl] in B |- *. subst c. assert (CM : clean m) by now inversion CS.
      destruct (bang o None [] r m) as [[r' l']|e] eqn:E; cbn [flift].
      - apply bang_ok in E as (x & -> & N & R). exists (w ++ 33 :: x). split; [rewrite L; now rewrite <- app_assoc|]. split; [destruct w; discriminate|]. intros y. rewrite <- app_assoc. cbn [app].
        apply skr_bang; [exact W|]. intros us2. rewrite R. now exists us2.
      - apply bang_err in E as (x & y & -> & AB & M & R & Q); [|exact CM]. exists (w ++ 33 :: x), y. split; [rewrite L; now rewrite <- app_assoc|]. split.
        { split; [change (33 :: x) with ([33] ++ x); rewrite app_assoc; now apply about_left|destruct w; discriminate]. } split.
        + intros c t -> t'. rewrite <- app_assoc. cbn [app]. apply skr_bang; [exact W|]. intros us2. destruct (R c t eq_refl t') as (e' & ->). now exists e', us2.
        + exists [62]. split; [split; [solids|right; rewrite M; now left]|]. intros tl. rewrite <- app_assoc. cbn [app]. apply skr_bang; [exact W|]. intros us2. destruct (Q tl) as (r' & ->). now exists r', us2. }
    rewrite sk_excl by assumption. assert (H := IX o (Some r) [] l us CL). clear w W L. destruct (fExcl fuel o (Some r) [] l us) as [r' l' us'|e us'|]; [| |exact I].
    - destruct H as (x & -> & N & R). exists x. split; [reflexivity|]. split; [now apply lskip_nonempty|]. intros y. rewrite lskip_some in G, B by exact N.
      apply skr_excl; [| |apply R]; rewrite lskip_some by exact N; destruct (lskip x); try congruence; assumption.
    - destruct H as (x & y & -> & (AB & MN) & NW & R & q & SQ & XQ & Q). exists x, y. split; [reflexivity|]. split; [split; [exact AB|intros X; left; now apply MN]|].
      assert (HD : forall z, (lskip x = [] -> isWS (lpeek z) = false /\ lpeek z <> 62 /\ lpeek z <> 33) -> lpeek (lskip (x ++ z)) <> 62 /\ lpeek (lskip (x ++ z)) <> 33).
      { intros z Z. destruct (lskip x) as [|d x'] eqn:SX.
        - rewrite lskip_all by exact SX. destruct (Z eq_refl) as [Z1 Z2]. now rewrite lskip_solid.
        - rewrite lskip_some in G, B |- * by (rewrite SX; discriminate). rewrite SX in G, B |- *. split; assumption. }
      split.
      + intros c t -> t'. destruct (HD (c :: t')) as [H1 H2]; [|apply skr_excl; [exact H1|exact H2|]; eapply R; reflexivity].
        intros X. assert (NC := proj2 (NW X)). cbn [lpeek] in NC |- *. rewrite lskip_all, lskip_solid in G, B by assumption. now split.
      + exists q. split; [exact SQ|]. intros tl. destruct (HD (q ++ tl)) as [H1 H2]; [|apply skr_excl; [exact H1|exact H2|apply Q]].
        intros X. apply XQ in X. rewrite solid_peek by apply SQ. rewrite X. repeat split; discriminate.
  Qed.

  Definition okr (o : rule) (l : list Z) : run := fun n us => ok n o l us.
  Lemma okr_neg o l P : lpeek (lskip l) = 94 -> always (Ex o None [] l) P -> always (okr o l) P.
  Proof. intros E. apply always_ext. intros n us. unfold okr, ok. rewrite E. cbn [negb Z.eqb Pos.eqb cNeg]. apply excl_skip. Qed.
  Lemma okr_pair_eq o l n us : lpeek (lskip l) <> 94 -> ok n o l us = Pair termsBlock (sk o) wid l n us.
  Proof. intros E. unfold ok. apply Z.eqb_neq in E. change cNeg with 94. rewrite E. cbn [negb]. unfold Pair, Sk, Lp, wid. now rewrite lskip_idem. Qed.
  Lemma okr_pair o l P : lpeek (lskip l) <> 94 -> always (Pair termsBlock (sk o) wid l) P -> always (okr o l) P.
  Proof. intros E. apply always_ext. intros n us. now apply okr_pair_eq. Qed.
  Lemma quick_ok o tl : always (okr o (lastly ++ tl)) (isOk tl).
  Proof.
    apply okr_pair; [discriminate|]. apply (pair_ok termsBlock (sk o) wid (fun f l H => H) (lastly ++ tl) (62 :: tl)).
    - change (Sk termsBlock (lastly ++ tl)) with (Lp termsBlock [] noAnn (39 :: 120 :: 39 :: 62 :: tl)). apply quick; [apply ok_block|]. right. right. now left.
    - intros r. eapply always_weak; [apply read_ok|]. apply (skr_gt o r [] tl). constructor.
  Qed.

  Lemma step_ok o l us : clean l -> match ok fuel o l us with FOk r l' _ => tailOk (okr o) l r l' | FErr e _ => tailErr lastly (okr o) l e | FFuel => True end.
  Proof.
    intros CL. destruct (Z.eq_dec (lpeek (lskip l)) 94) as [NG|NG].
    - assert (E : ok fuel o l us = fExcl fuel o None [] l us) by (unfold ok; rewrite NG; cbn [negb Z.eqb Pos.eqb cNeg]; apply excl_skip). rewrite E.
      assert (H := IX o None [] l us CL). destruct (fExcl fuel o None [] l us) as [r' l' us'|e us'|]; [| |exact I].
      + destruct H as (x & -> & N & R). exists x. split; [reflexivity|]. split; [now apply lskip_nonempty|]. intros y. rewrite lskip_some in NG by exact N.
        apply okr_neg; [|apply R]. rewrite lskip_some by exact N. destruct (lskip x); [congruence|exact NG].
      + destruct H as (x & y & -> & (AB & MN) & NW & R & q & SQ & _ & Q). assert (N : lskip x <> []) by (intros X; apply NW in X as [X _]; contradiction).
        assert (HD : forall z, lpeek (lskip (x ++ z)) = 94) by (intros z; rewrite lskip_some in NG |- * by exact N; destruct (lskip x); [congruence|exact NG]).
        exists x, y. split; [reflexivity|]. split; [split; [exact AB|intros X; left; now apply MN]|]. split.
        * intros c t -> t'. apply okr_neg; [apply HD|]. eapply R. reflexivity.
        * exists q. split; [exact SQ|]. intros tl. apply okr_neg; [apply HD|apply Q].
    - rewrite okr_pair_eq by exact NG. unfold Pair, Sk, Lp.
      assert (Q9 : forall r tl, always (fun n us => sk o n r ([62] ++ tl) us) (isOk tl)) by (intros r tl; eapply always_weak; [apply read_ok|]; apply (skr_gt o r [] tl); constructor).
      assert (H := step_pair termsBlock (sk o) [62] [] wid ok_block ltac:(solids) (or_intror (or_introl eq_refl)) Q9
        (fun f r l H => H) (fun f l H => H) (fun f H => H) (fun r l us => eq_refl) (fun e us => ex_intro _ e (conj eq_refl (conj eq_refl (fun x y H => H)))) eq_refl (fun r l us => step_sk o r l us) l us CL).
      destruct (fbind _ _) as [r l' us'|e us'|]; [| |exact I].
      + destruct H as (x & -> & N & R). exists x. split; [reflexivity|]. split; [now apply lskip_nonempty|]. intros y. apply okr_pair; [|apply R]. rewrite lskip_some in NG |- * by exact N. destruct (lskip x); [congruence|exact NG].
      + destruct H as (x & y & -> & (AB & MN) & NW & R & q & SQ & XQ & Q). exists x, y. split; [reflexivity|]. split; [split; [exact AB|intros X; left; now apply MN]|].
        assert (HD : forall z, (lskip x = [] -> isWS (lpeek z) = false /\ lpeek z <> 94) -> lpeek (lskip (x ++ z)) <> 94).
        { intros z Z. destruct (lskip x) as [|d x'] eqn:SX.
          - rewrite lskip_all by exact SX. destruct (Z eq_refl) as [Z1 Z2]. now rewrite lskip_solid.
          - rewrite lskip_some in NG |- * by (rewrite SX; discriminate). rewrite SX in NG |- *. exact NG. }
        split.
        * intros c t -> t'. apply okr_pair; [|eapply R; reflexivity]. apply HD. intros X. assert (NC := NW X). cbn [lpeek] in NC |- *. split; [exact NC|]. rewrite lskip_all, lskip_solid in NG by assumption. exact NG.
        * exists q. split; [exact SQ|]. intros tl. apply okr_pair; [|apply Q]. apply HD. intros X. apply XQ in X. rewrite solid_peek by apply SQ. rewrite X. split; [reflexivity|discriminate].
  Qed.

  Lemma step_block other t us : clean t -> match fPrim (S fuel) other (60 :: t) us with FOk r l' _ => primOk (60 :: t) r l' | FErr e _ => primErr other (60 :: t) e | FFuel => True end.
  Proof.
    intros CL. rewrite block_eq. unfold Pair, Sk, Lp.
    assert (H := step_pair termsBlock ok lastly [60] asOpen ok_block lastly_solid (or_introl eq_refl) quick_ok always_open_read always_open always_open_err (fun r l us => eq_refl)
      (fun e us => ex_intro _ (PBlockOpen e) (conj eq_refl (conj eq_refl (fun x y H => ab_block_open e [] x y H)))) eq_refl step_ok t us CL).
    destruct (fbind _ _) as [r l' us'|e us'|]; [| |exact I].
    - destruct H as (x & -> & N & R). exists (60 :: x). split; [reflexivity|]. split; [discriminate|]. intros other' y _. cbn [app]. eapply always_S; [intros n us2; apply block_eq|]. apply R.
    - destruct H as (x & y & -> & (AB & _) & _ & R & q & SQ & _ & Q). right. exists (60 :: x), y. split; [reflexivity|]. split; [discriminate|]. split; [exact AB|]. split.
      + intros c t0 -> other' t'. cbn [app]. eapply always_S; [intros n us2; apply block_eq|]. eapply R. reflexivity.
      + exists q. split; [exact SQ|]. intros other' tl _. cbn [app]. eapply always_S; [intros n us2; apply block_eq|]. apply Q.
  Qed.

  (* ---------------- single rules ---------------- *)

  Lemma step_leaf (F : list Z -> (rule * list Z) + perr) c other t us :
    (forall n other' t' us', fPrim (S n) other' (c :: t') us' = flift (F (c :: t')) us') ->
    (forall l r l', F (c :: l) = inl (r, l') -> sOk F (c :: l) r l') -> (forall l e, F (c :: l) = inr e -> sErr F (c :: l) e) ->
    match fPrim (S fuel) other (c :: t) us with FOk r l' _ => primOk (c :: t) r l' | FErr e _ => primErr other (c :: t) e | FFuel => True end.
  Proof.
    intros EQ FO FE. rewrite EQ. assert (PL : forall other' x (P : fres rule -> Prop), lpeek x = c -> 0 <= c -> (forall us, P (flift (F x) us)) -> always (Pr other' x) P).
    { intros other' x P X C H. destruct x as [|d x]; [cbn in X; unfold EOFChar in X; lia|]. cbn [lpeek] in X. subst d. eapply always_S; [intros n us2; apply EQ|]. now apply always_const. }
    assert (PL2 : forall other' x (P : fres rule -> Prop) y, x <> [] -> c :: t = x ++ y -> forall z, (forall us, P (flift (F (x ++ z)) us)) -> always (Pr other' (x ++ z)) P).
    { intros other' x P y X E z H. destruct x as [|d x]; [congruence|]. injection E as <- _. cbn [app] in H |- *. eapply always_S; [intros n us2; apply EQ|]. now apply always_const. }
    destruct (F (c :: t)) as [[r l']|e] eqn:E; cbn [flift].
    - apply FO in E as (x & E & N & R). exists x. split; [exact E|]. split; [exact N|]. intros other' y Y. eapply PL2; [exact N|exact E|]. intros us2. rewrite R by exact Y. now exists us2.
    - apply FE in E as (x & y & E & N & AB & R & q & SQ & HQ & Q). right. exists x, y. split; [exact E|]. split; [exact N|]. split; [exact AB|]. split.
      + intros c' t0 -> other' t'. eapply PL2; [exact N|exact E|]. intros us2. destruct (R c' t0 eq_refl t') as (e' & ->). now exists e', us2.
      + exists q. split; [now split|]. intros other' tl T. eapply PL2; [exact N|exact E|]. intros us2. destruct (Q tl T) as (a & ->). now exists a, us2.
  Qed.

  Definition repK (r : rule) (l : list Z) : (rule * list Z) + perr := match fSuffix l with inl (mn, mx, l2) => inl (RRep noBase r mn mx, l2) | inr e => inr e end.
  Lemma repK_ok r l r' l' : repK r l = inl (r', l') -> sOk0 (repK r) l r' l'.
  Proof.
    unfold repK. destruct (fSuffix l) as [[[mn mx] l2]|e] eqn:E; [|discriminate]. intros [= <- <-]. apply suffix_ok in E as (x & -> & R). exists x. split; [reflexivity|]. intros y Y. now rewrite R.
  Qed.
  Lemma repK_err r l e : repK r l = inr e -> sErr (repK r) l e.
  Proof.
    intros H. unfold repK in H. destruct (fSuffix l) as [[[mn mx] l2]|e0] eqn:E; [discriminate|]. injection H as ->. apply suffix_err in E as (x & y & -> & N & AB & R & q & SQ & HQ & Q).
    exists x, y. split; [reflexivity|]. split; [exact N|]. split; [exact AB|]. unfold repK. split.
    - intros c t -> t'. destruct (R c t eq_refl t') as (e' & ->). now exists e'.
    - exists q. split; [exact SQ|]. split; [exact HQ|]. intros tl T. destruct (Q tl T) as ([mn mx] & ->). now eexists.
  Qed.
  Lemma repK_safe r tl : safe tl -> exists r', repK r tl = inl (r', tl).
  Proof.
    intros T. unfold repK, fSuffix. rewrite (safe_peek tl 42), (safe_peek tl 43), (safe_peek tl cLt) by (try exact T; cbn; unfold EOFChar, cLt; lia). now eexists.
  Qed.

  Lemma rep_eq n other t us : fPrim (S n) other (cLBrace :: t) us = fbind (fLoop n [cRBrace] [] noAnn (lskip t) us) (fun r l1 us1 =>
      if lpeek l1 =? cRBrace then
        match fSuffix (lnext l1) with
        | inl (mn, mx, l2) => FOk (RRep noBase r mn mx) l2 us1
        | inr e => FErr e us1
        end
      else FErr PRepEnd us1).
  Proof. reflexivity. Qed.

  Lemma step_prim other l us : clean l -> match fPrim (S fuel) other l us with FOk r l' _ => primOk l r l' | FErr e _ => primErr other l e | FFuel => True end.
  Proof.
    intros CL. destruct l as [|c t]; [cbn; left; auto|]. destruct (starts c) eqn:ST; [|rewrite prim_none by exact ST; left; auto].
    assert (CT : clean t) by now inversion CL. unfold starts in ST.
    destruct (Z.eqb_spec c cQuote) as [->|N1]; [apply (step_leaf fChar); [reflexivity|exact char_ok|exact char_err]|].
    destruct (Z.eqb_spec c cBack) as [->|N2]; [apply (step_leaf fUnicode); [reflexivity|exact unicode_ok|exact unicode_err]|].
    destruct (Z.eqb_spec c cDQuote) as [->|N3]; [apply (step_leaf fString); [reflexivity|exact string_ok|exact string_err]|].
    destruct (Z.eqb_spec c cLBrack) as [->|N4].
    { apply (step_bracket cLBrack cRBrack POptionEnd (fun r l => inl (ROption noBase r, l))); auto.
      - cbn. unfold cRBrack. lia.
      - intros x y; apply (ab_option []).
      - intros r l r' l' [= <- <-]. exists []. split; [reflexivity|]. reflexivity.
      - discriminate.
      - intros. now eexists. }
    destruct (Z.eqb_spec c cLBrace) as [->|N5].
    { apply (step_bracket cLBrace cRBrace PRepEnd repK); auto using repK_ok, repK_err, repK_safe.
      - intros n other' t' us'. rewrite rep_eq. unfold Sk, Lp. destruct (fLoop n [cRBrace] [] noAnn (lskip t') us') as [r l us1|e us1|]; [|reflexivity|reflexivity]. cbn [fbind].
        destruct (lpeek l =? cRBrace); [|reflexivity]. unfold repK. destruct (fSuffix (lnext l)) as [[[mn mx] l2]|e]; reflexivity.
      - cbn. unfold cRBrace. lia.
      - intros x y; apply (ab_rep []). }
    destruct (Z.eqb_spec c cLt) as [->|N6]; [now apply step_block|].
    destruct (Z.eqb_spec c cLPar) as [->|N7].
    { apply (step_bracket cLPar cRPar PGroupEnd (fun r l => inl (RGroup noBase r, l))); auto.
      - cbn. unfold cRPar. lia.
      - intros x y; apply (ab_group []).
      - intros r l r' l' [= <- <-]. exists []. split; [reflexivity|]. reflexivity.
      - discriminate.
      - intros. now eexists. }
    cbn [orb] in ST. destruct (ref_ok (c :: t) us ST) as (r & x & l' & add & E & N & R1 & R).
    assert (PE : forall n other' z us', fPrim (S n) other' (c :: z) us' = fReference (c :: z) us').
    { intros n other' z us'. cbn [fPrim lpeek]. apply Z.eqb_neq in N1, N2, N3, N4, N5, N6, N7. now rewrite N1, N2, N3, N4, N5, N6, N7, ST. }
    rewrite PE, R1. exists x. split; [exact E|]. split; [exact N|]. intros other' y Y. destruct x as [|d x]; [congruence|]. injection E as <- _. cbn [app] in R |- *.
    eapply always_S; [intros n us2; apply PE|]. apply (always_const (fun us2 => fReference (c :: x ++ y) us2)). intros us2. rewrite R by exact Y. now eexists.
  Qed.
End Step.

(* ---------------- all together ---------------- *)

Theorem stops_everywhere fuel :
  (forall terms rules a l us, okTerms terms -> clean l -> match fLoop fuel terms rules a l us with FOk r l' _ => loopOk terms rules a l r l' | FErr e _ => loopErr terms rules a l e | FFuel => True end) /\
  (forall other l us, clean l -> match fPrim fuel other l us with FOk r l' _ => primOk l r l' | FErr e _ => primErr other l e | FFuel => True end) /\
  (forall o es xs l us, clean l -> match fExcl fuel o es xs l us with FOk r l' _ => exclOk o es xs l r l' | FErr e _ => exclErr o es xs l e | FFuel => True end) /\
  (forall a l us, clean l -> match fOne fuel a l us with FOk r l' _ => oneOk a l r l' | FErr e _ => oneErr a l e | FFuel => True end) /\
  (forall rules gs l us, choosing rules gs l -> clean l -> match fChoice fuel rules gs l us with FOk r l' _ => choiceOk rules gs l r l' | FErr e _ => choiceErr rules gs l e | FFuel => True end).
Proof.
  induction fuel as [|fuel (IL & IP & IX & IO & IC)]; [cbn; auto 10|]. split; [|split; [|split; [|split]]].
  - intros. now apply step_loop.
  - intros. now apply step_prim.
  - intros. now apply step_excl.
  - intros. now apply step_one.
  - intros. now apply step_choice.
Qed.

(* ---------------- the text of a definition ---------------- *)

Lemma top_ok : okTerms [EOFChar]. Proof. intros c [<-|[]]. now left. Qed.
Lemma always_text m (P : fres rule -> Prop) : clean m -> always (Lp [EOFChar] [] noAnn (lskip m)) P -> P (readText m).
Proof.
  intros C A. destruct (A []) as (n & o & PO & R). unfold readText, Lp in *.
  assert (N : readText m <> FFuel).
  { intros E. assert (F := forget_text m). rewrite E in F. cbn in F. symmetry in F. now apply parse_enough in F. }
  unfold readText in N. assert (M := proj1 (fparser_mono (parseFuel m) (max n (parseFuel m)) ltac:(lia)) [EOFChar] [] noAnn (lskip m) []).
  destruct M as [M|M]; [contradiction|]. rewrite M, R by lia. exact PO.
Qed.
Lemma edged_skip m : edged m -> lskip m = m.
Proof. intros E. apply lskip_solid. destruct m as [|c m]; [reflexivity|]. cbn [lpeek]. apply not_true_is_false. intros W. apply white_in in W. apply (E c); [left; now exists m|exact W]. Qed.
Lemma edged_trim m : edged m -> trim m = m.
Proof. intros E. apply trimmed_trim. exists [], []. cbn [app]. rewrite app_nil_r. split; [reflexivity|]. split; [constructor|]. split; [constructor|exact E]. Qed.
Lemma readText_ok m r l us : readText m = FOk r l us -> parseText m = POk r l us.
Proof. intros E. rewrite <- forget_text, E. reflexivity. Qed.
Lemma readText_err m e us : readText m = FErr e us -> parseText m = PErr us.
Proof. intros E. rewrite <- forget_text, E. reflexivity. Qed.

Theorem refused_all name m e us : goodName name -> edged m -> clean m -> readText m = FErr e us -> exists x y, stopsAt name m x y /\ about e x y /\ (missing e <> [] -> exists c, In c (missing e) /\ begins name (x ++ [c])).
Proof.
  intros GN ED CL E. assert (H := proj1 (stops_everywhere (parseFuel m)) [EOFChar] [] noAnn (lskip m) [] top_ok (clean_skip m CL)).
  unfold readText in E. rewrite E in H. rewrite edged_skip in H by exact ED. destruct H as (x & y & EM & (AB & _) & R & _ & q & (SQ & HQ) & XQ & Q).
  exists x, y.
  assert (HD : forall z c t, x ++ z = c :: t -> (x = [] -> ~ In (lpeek z) whiteSpaces) -> ~ In c whiteSpaces).
  { intros z c t X Z. destruct x as [|d x]; [cbn in X; subst z; now apply Z|]. cbn in X. injection X as <- _. apply ED. left. exists (x ++ y). now rewrite EM. }
  assert (CX : clean (x ++ q)) by (apply Forall_app; split; [rewrite EM in CL; now apply Forall_app in CL|now apply solid_clean]).
  assert (EX : edged (x ++ q)).
  { intros c [(t & X)|(t & X)].
    - eapply HD; [exact X|]. intros X0. rewrite (XQ X0). apply nonwhite_ws; reflexivity.
    - destruct SQ as (_ & q' & d & -> & D). rewrite app_assoc in X. apply app_inj_tail in X as [_ <-]. exact D. }
  rewrite <- (edged_skip (x ++ q) EX) in Q. apply always_text in Q as (r & us' & Q); [|exact CX].
  assert (RA : readAs name (x ++ q) (setName r name)) by (eapply reads_whole; [exact GN|now apply edged_trim|eapply readText_ok; exact Q]).
  split; [split; [exact EM|split]|split; [exact AB|]].
  - now exists q, (setName r name).
  - intros c t -> (q' & r' & EX' & CX' & RA'). rewrite <- app_assoc in EX', CX', RA'. cbn [app] in EX', CX', RA'. assert (RE := R c t eq_refl q'). rewrite <- (edged_skip _ EX') in RE.
    apply always_text in RE as (e' & us2 & RE); [|exact CX']. apply readText_err in RE. apply readAs_iff in RA' as [_ (r0 & l & us3 & RA' & _)]. rewrite edged_trim in RA' by exact EX'. congruence.
  - intros MN. destruct HQ as [HQ|HQ]; [congruence|]. destruct q as [|c q]; [now apply missing_eof in HQ|]. exists c. split; [exact HQ|].
    exists q, (setName r name). rewrite <- app_assoc. cbn [app]. auto.
Qed.
Theorem refused name m e us : goodName name -> edged m -> clean m -> readText m = FErr e us -> exists x y, stopsAt name m x y /\ about e x y.
Proof. intros GN ED C R. destruct (refused_all name m e us GN ED C R) as (x & y & S & A & _). eauto. Qed.
