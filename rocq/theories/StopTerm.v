(** How far a text is the beginning of a literal, a reference or a repetition count. *)
From Verif Require Import Base Stream Node Rule Parse Grammar SpecStream SpecRule SpecParse SpecGrammar StreamFacts ParseFacts NotationFacts GrammarFacts ReadFacts Refuse SpecRefuse RefuseFacts.

(** What may follow a rule without going on with it. *)
Definition safe (y : list Z) : Prop := In (lpeek y) [EOFChar; 32; 33; 39; 41; 62; 93; 125].
Definition near (l y : list Z) : Prop := lpeek y = lpeek l \/ safe y.
(** A clean text that does not end in white space. *)
Definition solid (q : list Z) : Prop := clean q /\ exists q' c, q = q' ++ [c] /\ ~ In c whiteSpaces.

Lemma solid_app a q : clean a -> solid q -> solid (a ++ q).
Proof. intros A (C & q' & c & -> & N). split; [apply Forall_app; auto|]. exists (a ++ q'), c. now rewrite app_assoc. Qed.
Lemma solid_cons a q : 0 <= a -> solid q -> solid (a :: q).
Proof. intros A Q. apply (solid_app [a]); [|exact Q]. repeat constructor. exact A. Qed.
Lemma solid_one c : 0 <= c -> isWS c = false -> solid [c].
Proof. intros C W. split; [repeat constructor; exact C|]. exists [], c. split; [reflexivity|]. now apply nonwhite_ws. Qed.
Ltac pk H := apply peek_cons in H; [|vm_compute; discriminate].
Ltac solids := repeat first [apply solid_one; [lia|reflexivity] | apply solid_cons; [lia|]].

Lemma about_left e x y z : about e x y -> about e (z ++ x) y.
Proof.
  induction 1; rewrite ?app_assoc; try (econstructor; eassumption).
  - apply ab_char_end. destruct H as (p & w & -> & W). exists (z ++ p), w. now rewrite app_assoc.
  - apply ab_string_end. destruct H as (p & w & -> & W). exists (z ++ p), w. now rewrite app_assoc.
  - rewrite <- (app_assoc (z ++ x)). eapply ab_range_unicode; eassumption.
Qed.

(** A text that goes on with what the error says is missing. *)
Definition heads (e : perr) (q : list Z) : Prop := missing e = [] \/ In (lpeek q) (missing e).
Lemma missing_eof e : ~ In EOFChar (missing e).
Proof. induction e; cbn; unfold EOFChar; try lia. exact IHe. Qed.
Lemma heads_app e q p : heads e q -> heads e (q ++ p).
Proof. intros [H|H]; [now left|right]. destruct q; [now apply missing_eof in H|exact H]. Qed.
Ltac hd := first [assumption | (left; reflexivity) | (right; cbn; tauto) | (apply heads_app; assumption)].

Definition sOk {A} (F : list Z -> (A * list Z) + perr) (l : list Z) (a : A) (l' : list Z) : Prop :=
  exists x, l = x ++ l' /\ x <> [] /\ forall y, near l' y -> F (x ++ y) = inl (a, y).
Definition sErr {A} (F : list Z -> (A * list Z) + perr) (l : list Z) (e : perr) : Prop :=
  exists x y, l = x ++ y /\ x <> [] /\ about e x y /\
    (forall c t, y = c :: t -> forall t', exists e', F (x ++ c :: t') = inr e') /\
    exists q, solid q /\ heads e q /\ forall tl, safe tl -> exists a, F (x ++ q ++ tl) = inl (a, tl).

(* ---------------- escapes ---------------- *)

Lemma hexNext_iff c t : hexNext (c :: t) <-> exists d, hexVal c = Some d.
Proof.
  split.
  - intros (c' & v & t' & [= <- <-] & D). exists v. now apply hexVal_digit.
  - intros (d & D). exists c, d, t. split; [reflexivity|]. now apply hexVal_digit.
Qed.
Lemma fHex_ok n : forall v l a l', fHex n v l = inl (a, l') -> exists ds, l = ds ++ l' /\ length ds = n /\ Forall (fun c => exists d, hexVal c = Some d) ds /\
  forall y, fHex n v (ds ++ y) = inl (a, y).
Proof.
  induction n as [|n IH]; intros v l a l' E; cbn [fHex] in E.
  - injection E as <- <-. exists []. repeat split; constructor.
  - destruct l as [|c l]; [discriminate|]. destruct (hexVal c) as [d|] eqn:D; [|discriminate]. apply IH in E as (ds & -> & L & F & R).
    exists (c :: ds). split; [reflexivity|]. split; [cbn; lia|]. split; [constructor; [eauto|exact F]|]. intros y. cbn [app fHex]. rewrite D. apply R.
Qed.
Lemma fHex_zero n : forall v y, exists a, fHex n v (repeat 48 n ++ y) = inl (a, y).
Proof. induction n as [|n IH]; intros v y; cbn [repeat app fHex]; [eauto|]. cbn [hexVal]. apply IH. Qed.
Lemma fHex_err n : forall v l e, fHex n v l = inr e -> e = PEscapeHex /\ exists ds y, l = ds ++ y /\ (length ds < n)%nat /\ Forall (fun c => exists d, hexVal c = Some d) ds /\ ~ hexNext y /\
  (forall c t, y = c :: t -> forall t', fHex n v (ds ++ c :: t') = inr PEscapeHex) /\
  forall tl, exists a, fHex n v (ds ++ repeat 48 (n - length ds) ++ tl) = inl (a, tl).
Proof.
  induction n as [|n IH]; intros v l e E; cbn [fHex] in E; [discriminate|].
  destruct l as [|c l].
  { injection E as <-. split; [reflexivity|]. exists [], []. split; [reflexivity|]. split; [cbn; lia|]. split; [constructor|].
    split; [intros (? & ? & ? & ? & _); discriminate|]. split; [discriminate|]. intros tl. apply (fHex_zero (S n)). }
  destruct (hexVal c) as [d|] eqn:D.
  - apply IH in E as (-> & ds & y & -> & L & F & N & R & Q). split; [reflexivity|]. exists (c :: ds), y.
    split; [reflexivity|]. split; [cbn; lia|]. split; [constructor; [eauto|exact F]|]. split; [exact N|]. split.
    + intros c' t E t'. cbn [app fHex]. rewrite D. eapply R, E.
    + intros tl. cbn [app fHex length Nat.sub]. rewrite D. apply Q.
  - injection E as <-. split; [reflexivity|]. exists [], (c :: l). split; [reflexivity|]. split; [cbn; lia|]. split; [constructor|].
    split; [rewrite hexNext_iff; intros (d & X); congruence|]. split.
    + intros c' t [= <- <-] t'. cbn [app fHex]. now rewrite D.
    + intros tl. apply (fHex_zero (S n)).
Qed.
Lemma hex_digits ds : Forall (fun c => exists d, hexVal c = Some d) ds -> Forall (fun c => exists v, digitOf 16 c v) ds.
Proof. apply Forall_impl. intros c (d & D). exists d. now apply hexVal_digit. Qed.
Lemma zeros_solid n : (0 < n)%nat -> solid (repeat 48 n).
Proof.
  intros H. split; [apply Forall_forall; intros c I; apply repeat_spec in I; lia|]. destruct n as [|n]; [lia|].
  exists (repeat 48 n), 48. split; [|now apply nonwhite_ws]. change [48] with (repeat 48 1). rewrite <- repeat_app. f_equal. lia.
Qed.

(** "u" and four digits, behind a backslash. *)
Lemma esc_ok l v l' : fEscape l = inl (v, l') -> exists x, l = 117 :: x ++ l' /\ length x = 4%nat /\ Forall (fun c => exists d, hexVal c = Some d) x /\ forall y, fEscape (117 :: x ++ y) = inl (v, y).
Proof.
  unfold fEscape. destruct (lpeek l =? 117) eqn:U; [|discriminate]. intros E. pk U. apply fHex_ok in E as (ds & E & L & F & R).
  exists ds. split; [rewrite U, E; reflexivity|]. split; [exact L|]. split; [exact F|]. intros y. apply R.
Qed.
Lemma esc_err l e : fEscape l = inr e -> lpeek l = 117 -> e = PEscapeHex /\ exists ds y, l = 117 :: ds ++ y /\ (length ds < 4)%nat /\ Forall (fun c => exists d, hexVal c = Some d) ds /\ ~ hexNext y /\
  (forall c t, y = c :: t -> forall t', fEscape (117 :: ds ++ c :: t') = inr PEscapeHex) /\
  exists q, solid q /\ forall tl, exists a, fEscape (117 :: ds ++ q ++ tl) = inl (a, tl).
Proof.
  unfold fEscape. intros E U. rewrite U in E. cbn [Z.eqb Pos.eqb] in E. assert (P : l = 117 :: lnext l) by (apply peek_cons; [now apply Z.eqb_eq|lia]).
  apply fHex_err in E as (-> & ds & y & E & L & F & N & R & Q). split; [reflexivity|]. exists ds, y.
  split; [rewrite P, E; reflexivity|]. split; [exact L|]. split; [exact F|]. split; [exact N|]. split; [exact R|].
  exists (repeat 48 (4 - length ds)). split; [apply zeros_solid; lia|exact Q].
Qed.
Lemma esc_zero tl : exists a, fEscape (117 :: 48 :: 48 :: 48 :: 48 :: tl) = inl (a, tl).
Proof. apply (fHex_zero 4). Qed.
Lemma esc_unicode x : length x = 4%nat -> Forall (fun c => exists d, hexVal c = Some d) x -> exists v, unicode (92 :: 117 :: x) v.
Proof.
  intros L F. assert (exists v, denotes 16 x v) as (v & D).
  { clear L. induction F as [|c x (d & D) F (v & IH)]; [eexists; constructor|]. eexists. apply den_cons; [apply hexVal_digit, D|exact IH]. }
  exists v, x. auto.
Qed.

(* ---------------- ranges ---------------- *)

Lemma safe_peek tl c : safe tl -> ~ In c [EOFChar; 32; 33; 39; 41; 62; 93; 125] -> (lpeek tl =? c) = false.
Proof. intros S N. apply Z.eqb_neq. intros E. rewrite <- E in N. now apply N. Qed.
Lemma notNext_peek c y : (lpeek y =? c) = false -> notNext c y.
Proof. intros E t ->. cbn [lpeek] in E. now rewrite Z.eqb_refl in E. Qed.

Lemma range_quoted l lo lu : fRange (45 :: 39 :: 92 :: 117 :: l) lo lu =
  sbind (fEscape (117 :: l)) (fun '(hi, l3) => if lpeek l3 =? cQuote then inl (RRange noBase lo lu hi true, lnext l3) else inr PRangeEnds).
Proof. reflexivity. Qed.
Lemma range_plain c l lo lu : c <> 92 -> fRange (45 :: 39 :: c :: l) lo lu = if lpeek l =? 39 then inl (RRange noBase lo lu c false, lnext l) else inr PRangeEnds.
Proof. intros N. unfold fRange. cbn [lpeek lnext tl]. apply Z.eqb_neq in N. change cBack with 92. rewrite N. reflexivity. Qed.
Lemma range_bare l lo lu : fRange (45 :: 92 :: l) lo lu = sbind (fEscape l) (fun '(hi, l2) => inl (RRange noBase lo lu hi true, l2)).
Proof. reflexivity. Qed.

Lemma range_ok l lo lu r l' : fRange l lo lu = inl (r, l') -> sOk (fun z => fRange z lo lu) l r l'.
Proof.
  intros H. unfold fRange in H. revert H. destruct (negb _) eqn:D; [discriminate|]. apply negb_false_iff in D. pk D.
  destruct (lpeek (lnext l) =? cQuote) eqn:Q.
  - pk Q. destruct (lpeek (lnext (lnext l)) =? cBack) eqn:B.
    + pk B. destruct (_ =? 117) eqn:U; [|discriminate]. destruct (fEscape _) as [[hi l3]|] eqn:E; [|discriminate]. cbn [sbind].
      destruct (lpeek l3 =? cQuote) eqn:Q3; [|discriminate]. intros [= <- <-]. pk Q3. apply esc_ok in E as (x & E & _ & _ & R).
      exists (45 :: 39 :: 92 :: 117 :: x ++ [39]). split; [|split; [discriminate|]].
      * rewrite D, Q, B, E at 1. rewrite Q3 at 1. cbn [app]. now rewrite <- app_assoc.
      * intros y _. cbn [app]. rewrite <- app_assoc, range_quoted, R. reflexivity.
    + destruct (_ =? cQuote) eqn:Q2; [|discriminate]. intros [= <- <-]. pk Q2. destruct (lnext (lnext l)) as [|c l2] eqn:L2; [discriminate Q2|].
      exists [45; 39; c; 39]. split; [|split; [discriminate|]].
      * rewrite D, Q at 1. cbn [lnext tl] in Q2. rewrite Q2. reflexivity.
      * intros y _. cbn [app]. rewrite range_plain; [reflexivity|]. now apply Z.eqb_neq in B.
  - destruct (_ =? cBack) eqn:B; [|discriminate]. pk B. destruct (fEscape _) as [[hi l3]|] eqn:E; [|discriminate]. cbn [sbind].
    intros [= <- <-]. apply esc_ok in E as (x & E & _ & _ & R). exists (45 :: 92 :: 117 :: x). split; [|split; [discriminate|]].
    + rewrite D, B, E. reflexivity.
    + intros y _. cbn [app]. rewrite range_bare, R. reflexivity.
Qed.
Lemma range_err l lo lu e : (lpeek l =? cDash) = true -> fRange l lo lu = inr e -> sErr (fun z => fRange z lo lu) l e.
Proof.
  intros D H. unfold fRange in H. rewrite D in H. revert H. cbn [negb]. pk D.
  destruct (lpeek (lnext l) =? cQuote) eqn:Q.
  - pk Q. destruct (lpeek (lnext (lnext l)) =? cBack) eqn:B.
    + pk B. destruct (_ =? 117) eqn:U.
      * assert (U' := U). pk U'. apply Z.eqb_eq in U. destruct (fEscape _) as [[hi l3]|] eqn:E; cbn [sbind].
        -- destruct (lpeek l3 =? cQuote) eqn:Q3; [discriminate|]. intros [= <-]. apply esc_ok in E as (x & E & LX & FX & R).
           destruct (esc_unicode _ LX FX) as (v & UV).
           exists (45 :: 39 :: 92 :: 117 :: x), l3. split; [|split; [discriminate|split; [|split]]].
           ++ rewrite D, Q, B, E. reflexivity.
           ++ change (45 :: 39 :: 92 :: 117 :: x) with ([] ++ [45; 39] ++ 92 :: 117 :: x). eapply ab_range_unicode; [exact UV|]. now apply notNext_peek.
           ++ intros c t -> t'. exists PRangeEnds. cbn [app]. rewrite range_quoted, R. cbn [sbind lpeek]. cbn [lpeek] in Q3. now rewrite Q3.
           ++ exists [39]. split; [solids|]. split; [hd|]. intros tl _. eexists. cbn [app]. rewrite range_quoted, (R (39 :: tl)). reflexivity.
        -- intros [= ->]. apply esc_err in E as (-> & ds & y & E & L & F & N & R & q & SQ & Q'); [|exact U].
           exists (45 :: 39 :: 92 :: 117 :: ds), y. split; [|split; [discriminate|split; [|split]]].
           ++ rewrite D, Q, B, E. reflexivity.
           ++ change (45 :: 39 :: 92 :: 117 :: ds) with ([45; 39] ++ 92 :: 117 :: ds). apply ab_escape_hex; auto using hex_digits.
           ++ intros c t -> t'. exists PEscapeHex. cbn [app]. rewrite range_quoted, (R c t); reflexivity.
           ++ exists (q ++ [39]). split; [apply solid_app; [apply SQ|solids]|]. split; [hd|]. intros tl _. destruct (Q' (39 :: tl)) as (a & QE). eexists.
              rewrite <- app_assoc. cbn [app]. rewrite range_quoted, QE. reflexivity.
      * intros [= <-]. exists [45; 39; 92], (lnext (lnext (lnext l))). split; [|split; [discriminate|split; [|split]]].
        -- rewrite D, Q, B at 1. reflexivity.
        -- apply (ab_range_escape []). now apply notNext_peek.
        -- intros c t E t'. rewrite E in U. exists PRangeEscape. unfold fRange. cbn -[Z.eqb]. cbn [lpeek] in U. rewrite U. reflexivity.
        -- exists [117; 48; 48; 48; 48; 39]. split; [solids|]. split; [hd|]. intros tl _. eexists. reflexivity.
    + destruct (_ =? cQuote) eqn:Q2; [discriminate|]. intros [= <-]. destruct (lnext (lnext l)) as [|c l2] eqn:L2.
      * exists [45; 39], []. split; [|split; [discriminate|split; [|split]]].
        -- rewrite D, Q at 1. reflexivity.
        -- apply (ab_range_end []).
        -- discriminate.
        -- exists [39; 39]. split; [solids|]. split; [hd|]. intros tl _. eexists. reflexivity.
      * cbn [lpeek] in B. apply Z.eqb_neq in B. exists [45; 39; c], l2. split; [|split; [discriminate|split; [|split]]].
        -- rewrite D, Q at 1. reflexivity.
        -- apply (ab_range_plain []); [exact B|]. now apply notNext_peek.
        -- intros d t -> t'. exists PRangeEnds. cbn [app]. rewrite range_plain by exact B. cbn [lnext tl lpeek] in Q2 |- *. change cQuote with 39 in Q2. rewrite Q2. reflexivity.
        -- exists [39]. split; [solids|]. split; [hd|]. intros tl _. eexists. cbn [app]. rewrite range_plain by exact B. reflexivity.
  - destruct (_ =? cBack) eqn:B.
    + pk B. destruct (fEscape _) as [[hi l3]|] eqn:E; [discriminate|]. cbn [sbind]. intros [= ->].
      destruct (lpeek (lnext (lnext l)) =? 117) eqn:U.
      * apply Z.eqb_eq in U. apply esc_err in E as (-> & ds & y & E & L & F & N & R & q & SQ & Q'); [|exact U].
        exists (45 :: 92 :: 117 :: ds), y. split; [|split; [discriminate|split; [|split]]].
        -- rewrite D, B, E. reflexivity.
        -- change (45 :: 92 :: 117 :: ds) with ([45] ++ 92 :: 117 :: ds). apply ab_escape_hex; auto using hex_digits.
        -- intros c t -> t'. exists PEscapeHex. cbn [app]. rewrite range_bare, (R c t); reflexivity.
        -- exists q. split; [exact SQ|]. split; [hd|]. intros tl _. destruct (Q' tl) as (a & QE). eexists. cbn [app]. rewrite range_bare, QE. reflexivity.
      * unfold fEscape in E. rewrite U in E. injection E as <-. exists [45; 92], (lnext (lnext l)). split; [|split; [discriminate|split; [|split]]].
        -- rewrite D, B at 1. reflexivity.
        -- apply (ab_escape_start []). now apply notNext_peek.
        -- intros c t E t'. rewrite E in U. exists PEscapeStart. cbn [app]. rewrite range_bare. unfold fEscape. cbn [lpeek] in U |- *. rewrite U. reflexivity.
        -- exists [117; 48; 48; 48; 48]. split; [solids|]. split; [hd|]. intros tl _. eexists. reflexivity.
    + intros [= <-]. exists [45], (lnext l). split; [|split; [discriminate|split; [|split]]].
      * rewrite D at 1. reflexivity.
      * apply (ab_range_second []); now apply notNext_peek.
      * intros c t E t'. rewrite E in B, Q. exists PRangeSecond. unfold fRange. cbn -[Z.eqb]. cbn [lpeek] in B, Q. rewrite Q, B. reflexivity.
      * exists [39; 120; 39]. split; [solids|]. split; [hd|]. intros tl _. eexists. reflexivity.
Qed.

(* ---------------- quoted texts ---------------- *)

Definition fQ (q : Z) (e : perr) (l : list Z) := fQuoted (S (length l)) q e l.
Lemma fQuoted_enough q e n : forall m l, (length l < n)%nat -> (length l < m)%nat -> fQuoted n q e l = fQuoted m q e l.
Proof.
  induction n as [|n IH]; intros m l N M; [lia|]. destruct m as [|m]; [lia|]. cbn [fQuoted]. destruct l as [|c l1]; [reflexivity|]. cbn [length] in *.
  destruct (c =? q); [reflexivity|]. destruct (c =? cBack).
  - destruct (lpeek l1 =? 117) eqn:U.
    + destruct (fEscape l1) as [[v l2]|] eqn:E; [|reflexivity]. cbn [sbind]. apply esc_ok in E as (x & -> & _).
      rewrite (IH m l2); [reflexivity| |]; cbn [length] in *; rewrite app_length in *; lia.
    + destruct l1 as [|c1 l2]; [reflexivity|]. cbn [length] in *. rewrite (IH m l2); [reflexivity| |]; lia.
  - rewrite (IH m l1); [reflexivity| |]; lia.
Qed.
Lemma fQuoted_S n q e l : fQuoted (S n) q e l =
    match l with
    | [] => inr e
    | c :: l1 =>
      if c =? q then inl ([], false, l1)
      else if c =? cBack then
        if lpeek l1 =? 117 then
          sbind (fEscape l1) (fun '(v, l2) => sbind (fQuoted n q e l2) (fun '(buf, _, l3) => inl (v :: buf, true, l3)))
        else
          match l1 with
          | [] => inr e
          | c1 :: l2 => sbind (fQuoted n q e l2) (fun '(buf, u, l3) => inl (c1 :: buf, u, l3))
          end
      else sbind (fQuoted n q e l1) (fun '(buf, u, l3) => inl (c :: buf, u, l3))
    end.
Proof. reflexivity. Qed.
Lemma fQ_nil q e : fQ q e [] = inr e. Proof. reflexivity. Qed.
Lemma fQ_end q e l : fQ q e (q :: l) = inl ([], false, l).
Proof. unfold fQ. cbn [length fQuoted]. now rewrite Z.eqb_refl. Qed.
Lemma fQ_plain q e c l : c <> q -> c <> 92 -> fQ q e (c :: l) = sbind (fQ q e l) (fun '(buf, u, l3) => inl (c :: buf, u, l3)).
Proof.
  intros A B. apply Z.eqb_neq in A, B. unfold fQ. cbn [length]. cbn [fQuoted]. rewrite A. change cBack with 92. rewrite B.
  reflexivity.
Qed.
Lemma fQ_code q e l : q <> 92 -> fQ q e (92 :: 117 :: l) = sbind (fEscape (117 :: l)) (fun '(v, l2) => sbind (fQ q e l2) (fun '(buf, _, l3) => inl (v :: buf, true, l3))).
Proof.
  intros N. unfold fQ at 1. cbn [length]. rewrite fQuoted_S. destruct (92 =? q) eqn:E; [apply Z.eqb_eq in E; congruence|]. cbn [Z.eqb Pos.eqb cBack lpeek].
  destruct (fEscape (117 :: l)) as [[v l2]|] eqn:F; [|reflexivity]. cbn [sbind]. apply esc_ok in F as (x & [= ->] & _).
  unfold fQ. rewrite (fQuoted_enough _ _ _ (S (length l2))); [reflexivity| |]; rewrite ?app_length; lia.
Qed.
Lemma fQ_escape q e c l : q <> 92 -> c <> 117 -> fQ q e (92 :: c :: l) = sbind (fQ q e l) (fun '(buf, u, l3) => inl (c :: buf, u, l3)).
Proof.
  intros N M. unfold fQ at 1. cbn [length]. rewrite fQuoted_S. destruct (92 =? q) eqn:E; [apply Z.eqb_eq in E; congruence|]. cbn [lpeek]. apply Z.eqb_neq in M. rewrite M.
  cbn [Z.eqb Pos.eqb cBack]. unfold fQ. rewrite (fQuoted_enough _ _ _ (S (length l))); [reflexivity| |]; lia.
Qed.
Lemma fQ_half q e : q <> 92 -> fQ q e [92] = inr e.
Proof. intros N. unfold fQ. cbn [length fQuoted]. destruct (92 =? q) eqn:E; [apply Z.eqb_eq in E; congruence|]. reflexivity. Qed.
Lemma q_cases q (l : list Z) : l = [] \/ (exists t, l = q :: t) \/ (exists c t, l = c :: t /\ c <> q /\ c <> 92) \/ (exists t, l = 92 :: 117 :: t) \/
  (exists c t, l = 92 :: c :: t /\ c <> 117) \/ l = [92].
Proof.
  destruct l as [|c l]; [auto|]. destruct (Z.eq_dec c q) as [->|N]; [eauto|]. destruct (Z.eq_dec c 92) as [->|M]; [|eauto 8].
  destruct l as [|d l]; [auto 8|]. destruct (Z.eq_dec d 117) as [->|K]; eauto 10.
Qed.

Lemma fQ_ok q e : q <> 92 -> forall n l buf u l', (length l <= n)%nat -> fQ q e l = inl (buf, u, l') -> exists x, l = x ++ l' /\ forall y, fQ q e (x ++ y) = inl (buf, u, y).
Proof.
  intros Q. induction n as [|n IH]; intros l buf u l' N.
  { destruct l; [|cbn in N; lia]. rewrite fQ_nil. discriminate. }
  destruct (q_cases q l) as [->|[(t & ->)|[(c & t & -> & A & B)|[(t & ->)|[(c & t & -> & A)| ->]]]]]; cbn [length] in N.
  - rewrite fQ_nil. discriminate.
  - rewrite fQ_end. intros [= <- <- <-]. exists [q]. split; [reflexivity|]. intros y. apply fQ_end.
  - rewrite fQ_plain by assumption. destruct (fQ q e t) as [[[b u1] l1]|] eqn:E; [|discriminate]. cbn [sbind]. intros [= <- <- <-].
    apply IH in E as (x & -> & R); [|lia]. exists (c :: x). split; [reflexivity|]. intros y. cbn [app]. rewrite fQ_plain, R by assumption. reflexivity.
  - rewrite fQ_code by assumption. destruct (fEscape _) as [[v l2]|] eqn:E; [|discriminate]. cbn [sbind]. apply esc_ok in E as (d & [= ->] & _ & _ & RE).
    destruct (fQ q e l2) as [[[b u1] l1]|] eqn:E; [|discriminate]. cbn [sbind]. intros [= <- <- <-].
    apply IH in E as (x & -> & R); [|rewrite app_length in N; lia]. exists (92 :: 117 :: d ++ x). split; [cbn [app]; now rewrite app_assoc|]. intros y. cbn [app].
    rewrite <- app_assoc, fQ_code, RE by assumption. cbn [sbind]. rewrite R. reflexivity.
  - rewrite fQ_escape by assumption. destruct (fQ q e t) as [[[b u1] l1]|] eqn:E; [|discriminate]. cbn [sbind]. intros [= <- <- <-].
    apply IH in E as (x & -> & R); [|lia]. exists (92 :: c :: x). split; [reflexivity|]. intros y. cbn [app]. rewrite fQ_escape, R by assumption. reflexivity.
  - rewrite fQ_half by assumption. discriminate.
Qed.

Lemma within_hex q ds w : hexVal q = None -> Forall (fun c => exists d, hexVal c = Some d) ds -> within q w -> within q (ds ++ w).
Proof.
  intros Q F W. induction F as [|c ds (d & D) F IH]; [exact W|]. cbn [app]. apply wi_plain; [congruence| |exact IH]. intros ->. discriminate D.
Qed.
Lemma fQ_err q e : q <> 92 -> q <> 120 -> 0 <= q -> isWS q = false -> hexVal q = None -> forall n l e0, (length l <= n)%nat -> fQ q e l = inr e0 ->
  exists x y, l = x ++ y /\ ((e0 = e /\ y = [] /\ within q x) \/ (missing e0 = [] /\ about e0 x y)) /\ (forall c t, y = c :: t -> forall t', exists e', fQ q e (x ++ c :: t') = inr e') /\
  exists p, solid p /\ forall tl, exists buf u, buf <> [] /\ fQ q e (x ++ p ++ tl) = inl (buf, u, tl).
Proof.
  intros Q QX Q0 QW QH. assert (F : forall tl, exists buf u, buf <> [] /\ fQ q e ([120; q] ++ tl) = inl (buf, u, tl)).
  { intros tl. exists [120], false. split; [discriminate|]. cbn [app]. rewrite fQ_plain, fQ_end by (auto; lia). reflexivity. }
  assert (SF : solid [120; q]) by (apply solid_cons; [lia|]; now apply solid_one).
  induction n as [|n IH]; intros l e0 N.
  { destruct l; [|cbn in N; lia]. rewrite fQ_nil. intros [= <-]. exists [], []. split; [reflexivity|]. split; [left; split; [reflexivity|]; split; [reflexivity|]; apply wi_nil|]. split; [discriminate|]. exists [120; q]. split; [exact SF|exact F]. }
  destruct (q_cases q l) as [->|[(t & ->)|[(c & t & -> & A & B)|[(t & ->)|[(c & t & -> & A)| ->]]]]]; cbn [length] in N.
  - rewrite fQ_nil. intros [= <-]. exists [], []. split; [reflexivity|]. split; [left; split; [reflexivity|]; split; [reflexivity|]; apply wi_nil|]. split; [discriminate|]. exists [120; q]. split; [exact SF|exact F].
  - rewrite fQ_end. discriminate.
  - rewrite fQ_plain by assumption. destruct (fQ q e t) as [[[b u1] l1]|p0] eqn:E; [discriminate|]. cbn [sbind]. intros [= <-].
    apply IH in E as (x & y & -> & AB & R & p & SP & P); [|lia]. exists (c :: x), y. split; [reflexivity|]. split; [destruct AB as [(-> & -> & W)|[M AB]]; [left; auto using wi_plain|right; split; [exact M|now apply (about_left _ _ _ [c])]]|]. split.
    + intros d s -> t'. cbn [app]. rewrite fQ_plain by assumption. destruct (R d s eq_refl t') as (e' & ->). eexists. reflexivity.
    + exists p. split; [exact SP|]. intros tl. cbn [app]. rewrite fQ_plain by assumption. destruct (P tl) as (buf & u & _ & ->). cbn [sbind]. exists (c :: buf), u. split; [discriminate|reflexivity].
  - rewrite fQ_code by assumption. destruct (fEscape _) as [[v l2]|p0] eqn:E; cbn [sbind].
    + apply esc_ok in E as (d & [= ->] & _ & HX & RE). destruct (fQ q e l2) as [[[b u1] l1]|p0] eqn:E; [discriminate|]. cbn [sbind]. intros [= <-].
      apply IH in E as (x & y & -> & AB & R & p & SP & P); [|rewrite app_length in N; lia]. exists (92 :: 117 :: d ++ x), y. split; [cbn [app]; now rewrite app_assoc|].
      split; [destruct AB as [(-> & -> & W)|[M AB]]; [left; split; [reflexivity|]; split; [reflexivity|]; apply wi_escape; now apply within_hex|right; split; [exact M|now apply (about_left _ _ _ (92 :: 117 :: d))]]|]. split.
      * intros c s -> t'. cbn [app]. rewrite <- app_assoc, fQ_code, RE by assumption. cbn [sbind]. destruct (R c s eq_refl t') as (e' & ->). eexists. reflexivity.
      * exists p. split; [exact SP|]. intros tl. cbn [app]. rewrite <- app_assoc, fQ_code, RE by assumption. cbn [sbind]. destruct (P tl) as (buf & u & _ & ->). cbn [sbind].
        eexists _, _. split; [|reflexivity]. discriminate.
    + intros [= <-]. apply esc_err in E as (-> & ds & y & [= ->] & L & FD & NX & R & p & SP & P); [|reflexivity].
      exists (92 :: 117 :: ds), y. split; [reflexivity|]. split; [right; split; [reflexivity|]; apply (ab_escape_hex []); auto using hex_digits|]. split.
      * intros c s -> t'. cbn [app]. rewrite fQ_code, (R c s) by auto. eexists. reflexivity.
      * exists (p ++ [q]). split; [apply solid_app; [apply SP|now apply solid_one]|]. intros tl. cbn [app]. rewrite fQ_code by assumption. rewrite <- app_assoc.
        destruct (P ([q] ++ tl)) as (a & ->). cbn [sbind app]. rewrite fQ_end. cbn [sbind]. eexists _, _. split; [|reflexivity]. discriminate.
  - rewrite fQ_escape by assumption. destruct (fQ q e t) as [[[b u1] l1]|p0] eqn:E; [discriminate|]. cbn [sbind]. intros [= <-].
    apply IH in E as (x & y & -> & AB & R & p & SP & P); [|lia]. exists (92 :: c :: x), y. split; [reflexivity|]. split; [destruct AB as [(-> & -> & W)|[M AB]]; [left; auto using wi_escape|right; split; [exact M|now apply (about_left _ _ _ [92; c])]]|]. split.
    + intros d s -> t'. cbn [app]. rewrite fQ_escape by assumption. destruct (R d s eq_refl t') as (e' & ->). eexists. reflexivity.
    + exists p. split; [exact SP|]. intros tl. cbn [app]. rewrite fQ_escape by assumption. destruct (P tl) as (buf & u & _ & ->). cbn [sbind]. exists (c :: buf), u. split; [discriminate|reflexivity].
  - rewrite fQ_half by assumption. intros [= <-]. exists [92], []. split; [reflexivity|]. split; [left; split; [reflexivity|]; split; [reflexivity|]; apply wi_backslash|]. split; [discriminate|].
    exists [120; q]. split; [exact SF|]. intros tl. cbn [app]. rewrite fQ_escape, fQ_end by (auto; lia). cbn [sbind]. eexists _, _. split; [|reflexivity]. discriminate.
Qed.

(* ---------------- literals ---------------- *)

Lemma fChar_eq l : fChar (39 :: l) =
  sbind (fQ 39 PCharEnd l) (fun '(buf, u, l1) =>
  match buf with
  | [] => inr PCharEmpty
  | [c] => if lpeek l1 =? cDash then fRange l1 c u else inl (RChar noBase c u, l1)
  | _ => inl (RChars noBase buf, l1)
  end).
Proof. reflexivity. Qed.
Lemma near_dash l y : (lpeek l =? cDash) = false -> near l y -> (lpeek y =? cDash) = false.
Proof. intros E [N|N]; [now rewrite N|]. apply safe_peek; [exact N|]. cbn. unfold cDash, EOFChar. lia. Qed.
Lemma safe_dash y : safe y -> (lpeek y =? cDash) = false.
Proof. intros N. apply safe_peek; [exact N|]. cbn. unfold cDash, EOFChar. lia. Qed.
(** A range behind its lower end. *)
Lemma after_ok (F : list Z -> (rule * list Z) + perr) x1 l1 lo lu r l' : (forall y, (lpeek y =? cDash) = true -> F (x1 ++ y) = fRange y lo lu) -> (lpeek l1 =? cDash) = true ->
  fRange l1 lo lu = inl (r, l') -> sOk F (x1 ++ l1) r l'.
Proof.
  intros H D E. apply range_ok in E as (x & -> & N & R). exists (x1 ++ x). split; [now rewrite app_assoc|]. split; [destruct x1; [exact N|discriminate]|].
  intros y Y. rewrite <- app_assoc, H; [now apply R|]. destruct x; [congruence|exact D].
Qed.
Lemma after_err (F : list Z -> (rule * list Z) + perr) x1 l1 lo lu e : (forall y, (lpeek y =? cDash) = true -> F (x1 ++ y) = fRange y lo lu) -> (lpeek l1 =? cDash) = true ->
  fRange l1 lo lu = inr e -> sErr F (x1 ++ l1) e.
Proof.
  intros H D E. apply range_err in E as (x & y & -> & N & AB & R & q & SQ & HQ & Q); [|exact D]. destruct x as [|c x]; [congruence|]. exists (x1 ++ c :: x), y.
  split; [now rewrite app_assoc|]. split; [destruct x1; discriminate|]. split; [now apply about_left|]. split.
  - intros d t -> t'. rewrite <- app_assoc, H by exact D. eapply R. reflexivity.
  - exists q. split; [exact SQ|]. split; [exact HQ|]. intros tl T. rewrite <- app_assoc, H by exact D. now apply Q.
Qed.
Lemma char_ok l r l' : fChar (39 :: l) = inl (r, l') -> sOk fChar (39 :: l) r l'.
Proof.
  rewrite fChar_eq. destruct (fQ 39 PCharEnd l) as [[[buf u] l1]|p0] eqn:E; [|discriminate]. cbn [sbind].
  apply (fQ_ok 39 PCharEnd ltac:(lia) _ _ _ _ _ (le_n _)) in E as (x & -> & R). destruct buf as [|c [|d buf]]; [discriminate| |].
  - destruct (lpeek l1 =? cDash) eqn:D.
    + intros E. apply (after_ok _ (39 :: x) l1 c u); [|exact D|exact E]. intros y Y. cbn [app]. rewrite fChar_eq, R. cbn [sbind]. now rewrite Y.
    + intros [= <- <-]. exists (39 :: x). split; [reflexivity|]. split; [discriminate|]. intros y Y. cbn [app]. rewrite fChar_eq, R. cbn [sbind].
      now rewrite (near_dash _ _ D Y).
  - intros [= <- <-]. exists (39 :: x). split; [reflexivity|]. split; [discriminate|]. intros y Y. cbn [app]. rewrite fChar_eq, R. reflexivity.
Qed.
Lemma char_empty x (l1 : list Z) u : (forall y, fQ 39 PCharEnd (x ++ y) = inl ([], u, y)) -> x = [39].
Proof.
  intros R. assert (E := R []). rewrite app_nil_r in E. destruct (q_cases 39 x) as [->|[(t & ->)|[(c & t & -> & A & B)|[(t & ->)|[(c & t & -> & A)| ->]]]]].
  - discriminate.
  - rewrite fQ_end in E. injection E as _ ->. reflexivity.
  - rewrite fQ_plain in E by assumption. destruct (fQ _ _ _) as [[[? ?] ?]|]; discriminate.
  - rewrite fQ_code in E by lia. destruct (fEscape _) as [[? ?]|]; [|discriminate]. cbn [sbind] in E. destruct (fQ _ _ _) as [[[? ?] ?]|]; discriminate.
  - rewrite fQ_escape in E by (auto; lia). destruct (fQ _ _ _) as [[[? ?] ?]|]; discriminate.
  - discriminate.
Qed.
Lemma char_err l e : fChar (39 :: l) = inr e -> sErr fChar (39 :: l) e.
Proof.
  rewrite fChar_eq. destruct (fQ 39 PCharEnd l) as [[[buf u] l1]|p0] eqn:E; cbn [sbind].
  - apply (fQ_ok 39 PCharEnd ltac:(lia) _ _ _ _ _ (le_n _)) in E as (x & -> & R). destruct buf as [|c [|d buf]]; [| |discriminate].
    + intros [= <-]. apply (char_empty _ l1) in R as ->. exists [39], (39 :: l1). split; [reflexivity|]. split; [discriminate|]. split; [apply (ab_char_empty [])|]. split.
      * intros c t [= <- <-] t'. eexists. reflexivity.
      * exists [120; 39]. split; [solids|]. split; [hd|]. intros tl T. cbn [app]. rewrite fChar_eq, fQ_plain, fQ_end by lia. cbn [sbind]. rewrite (safe_dash _ T). eauto.
    + destruct (lpeek l1 =? cDash) eqn:D; [|discriminate]. intros E. apply (after_err _ (39 :: x) l1 c u); [|exact D|exact E]. intros y Y. cbn [app]. rewrite fChar_eq, R. cbn [sbind]. now rewrite Y.
  - intros [= <-]. apply (fQ_err 39 PCharEnd ltac:(lia) ltac:(lia) ltac:(lia) eq_refl eq_refl _ _ _ (le_n _)) in E as (x & y & -> & AB & R & p & SP & P).
    exists (39 :: x), y. split; [reflexivity|]. split; [discriminate|]. split; [destruct AB as [(-> & -> & W)|[_ AB]]; [apply ab_char_end; exists [], x; auto|now apply (about_left _ _ _ [39])]|]. split.
    + intros c t -> t'. cbn [app]. rewrite fChar_eq. destruct (R c t eq_refl t') as (e' & ->). eexists. reflexivity.
    + exists p. split; [exact SP|]. split; [destruct AB as [(-> & _ & _)|[M _]]; [now left|now left]|]. intros tl T. cbn [app]. rewrite fChar_eq. destruct (P tl) as (buf & u & N & ->). cbn [sbind].
      destruct buf as [|c [|d buf]]; [congruence| |eauto]. rewrite (safe_dash _ T). eauto.
Qed.

Lemma fString_eq l : fString (34 :: l) = sbind (fQ 34 PStringEnd l) (fun '(buf, _, l1) => inl (RString noBase (List.map utf8_rune buf), l1)).
Proof. reflexivity. Qed.
Lemma string_ok l r l' : fString (34 :: l) = inl (r, l') -> sOk fString (34 :: l) r l'.
Proof.
  rewrite fString_eq. destruct (fQ 34 PStringEnd l) as [[[buf u] l1]|p0] eqn:E; [|discriminate]. cbn [sbind].
  apply (fQ_ok 34 PStringEnd ltac:(lia) _ _ _ _ _ (le_n _)) in E as (x & -> & R). intros [= <- <-].
  exists (34 :: x). split; [reflexivity|]. split; [discriminate|]. intros y Y. cbn [app]. rewrite fString_eq, R. reflexivity.
Qed.
Lemma string_err l e : fString (34 :: l) = inr e -> sErr fString (34 :: l) e.
Proof.
  rewrite fString_eq. destruct (fQ 34 PStringEnd l) as [[[buf u] l1]|p0] eqn:E; [discriminate|]. cbn [sbind].
  intros [= <-]. apply (fQ_err 34 PStringEnd ltac:(lia) ltac:(lia) ltac:(lia) eq_refl eq_refl _ _ _ (le_n _)) in E as (x & y & -> & AB & R & p & SP & P).
  exists (34 :: x), y. split; [reflexivity|]. split; [discriminate|]. split; [destruct AB as [(-> & -> & W)|[_ AB]]; [apply ab_string_end; exists [], x; auto|now apply (about_left _ _ _ [34])]|]. split.
  + intros c t -> t'. cbn [app]. rewrite fString_eq. destruct (R c t eq_refl t') as (e' & ->). eexists. reflexivity.
  + exists p. split; [exact SP|]. split; [destruct AB as [(-> & _ & _)|[M _]]; [now left|now left]|]. intros tl T. cbn [app]. rewrite fString_eq. destruct (P tl) as (buf & u & N & ->). cbn [sbind]. eauto.
Qed.

Lemma fUnicode_eq l : fUnicode (92 :: 117 :: l) = sbind (fEscape (117 :: l)) (fun '(v, l1) => if lpeek l1 =? cDash then fRange l1 v true else inl (RChar noBase v true, l1)).
Proof. reflexivity. Qed.
Lemma unicode_u l : fUnicode (92 :: l) = if lpeek l =? 117 then fUnicode (92 :: l) else inr PUnicodeStart.
Proof. unfold fUnicode. cbn [lnext tl]. destruct (_ =? 117); reflexivity. Qed.
Lemma unicode_ok l r l' : fUnicode (92 :: l) = inl (r, l') -> sOk fUnicode (92 :: l) r l'.
Proof.
  rewrite unicode_u. destruct (lpeek l =? 117) eqn:U; [|discriminate]. pk U. rewrite U. rewrite fUnicode_eq.
  destruct (fEscape _) as [[v l1]|p0] eqn:E; [|discriminate]. cbn [sbind]. apply esc_ok in E as (x & [= ->] & _ & _ & R).
  destruct (lpeek l1 =? cDash) eqn:D.
  - intros E. apply (after_ok _ (92 :: 117 :: x) l1 v true); [|exact D|exact E]. intros y Y. cbn [app]. rewrite fUnicode_eq, R. cbn [sbind]. now rewrite Y.
  - intros [= <- <-]. exists (92 :: 117 :: x). split; [reflexivity|]. split; [discriminate|]. intros y Y. cbn [app]. rewrite fUnicode_eq, R. cbn [sbind].
    now rewrite (near_dash _ _ D Y).
Qed.
Lemma unicode_err l e : fUnicode (92 :: l) = inr e -> sErr fUnicode (92 :: l) e.
Proof.
  rewrite unicode_u. destruct (lpeek l =? 117) eqn:U.
  - pk U. rewrite U. rewrite fUnicode_eq. destruct (fEscape _) as [[v l1]|p0] eqn:E; cbn [sbind].
    + apply esc_ok in E as (x & [= ->] & _ & _ & R). destruct (lpeek l1 =? cDash) eqn:D; [|discriminate].
      intros E. apply (after_err _ (92 :: 117 :: x) l1 v true); [|exact D|exact E]. intros y Y. cbn [app]. rewrite fUnicode_eq, R. cbn [sbind]. now rewrite Y.
    + intros [= <-]. apply esc_err in E as (-> & ds & y & [= ->] & L & FD & NX & R & p & SP & P); [|reflexivity].
      exists (92 :: 117 :: ds), y. split; [reflexivity|]. split; [discriminate|]. split; [apply (ab_escape_hex []); auto using hex_digits|]. split.
      * intros c s -> t'. cbn [app]. rewrite fUnicode_eq, (R c s) by auto. eexists. reflexivity.
      * exists p. split; [exact SP|]. split; [hd|]. intros tl T. cbn [app]. rewrite fUnicode_eq. destruct (P tl) as (a & ->). cbn [sbind]. rewrite (safe_dash _ T). eauto.
  - intros [= <-]. exists [92], l. split; [reflexivity|]. split; [discriminate|]. split; [apply (ab_unicode_start []); now apply notNext_peek|]. split.
    + intros c t -> t'. cbn [app]. rewrite unicode_u. cbn [lpeek] in U |- *. rewrite U. eauto.
    + exists [117; 48; 48; 48; 48]. split; [solids|]. split; [hd|]. intros tl T. cbn [app]. rewrite fUnicode_eq. destruct (esc_zero tl) as (a & ->). cbn [sbind]. rewrite (safe_dash _ T). eauto.
Qed.

(* ---------------- references ---------------- *)

Lemma span_run p x y : Forall (fun c => p c = true) x -> (y = [] \/ p (lpeek y) = false) -> span p (x ++ y) = (x, y).
Proof.
  intros F Y. induction F as [|c x C F IH]; cbn [app span].
  - destruct y as [|c y]; [reflexivity|]. destruct Y as [Y|Y]; [discriminate|]. cbn [lpeek] in Y. cbn [span]. now rewrite Y.
  - now rewrite C, IH.
Qed.
Lemma lskip_solid l : isWS (lpeek l) = false -> lskip l = l.
Proof. unfold lskip. destruct l as [|c l]; [reflexivity|]. cbn [lpeek ws_prefix]. now intros ->. Qed.
Lemma safe_ref y : safe y -> isRefChar (lpeek y) = false.
Proof. intros S. unfold safe in S. cbn in S. destruct S as [<-|[<-|[<-|[<-|[<-|[<-|[<-|[<-|[]]]]]]]]]; reflexivity. Qed.
Lemma ref_char c : isLetter c || (c =? 95) = true -> isRefChar c = true /\ isWS c = false.
Proof.
  intros C. split; [unfold isRefChar; now rewrite C|]. apply firstOf_ok in C. unfold firstOf in C. unfold isWS, whiteSpaces. cbn [existsb].
  repeat (match goal with |- context [?a =? ?b] => destruct (Z.eqb_spec a b); [lia|] end). reflexivity.
Qed.
Lemma ref_ok l us : isLetter (lpeek l) || (lpeek l =? 95) = true -> exists r x l' add, l = x ++ l' /\ x <> [] /\ fReference l us = FOk r l' (us ++ add) /\
  forall y us1, near l' y -> fReference (x ++ y) us1 = FOk r y (us1 ++ add).
Proof.
  intros C. assert (D := ref_char _ C). destruct l as [|c l]; [cbn in C; discriminate|]. cbn [lpeek] in *.
  destruct (span isRefChar l) as [nm l'] eqn:SP. assert (SO := span_ok isRefChar l). rewrite SP in SO. cbn [fst snd] in SO. destruct SO as (-> & F & N).
  assert (R : forall y us1, near l' y -> fReference ((c :: nm) ++ y) us1 = if runes_eqb (c :: nm) nameEOF then FOk (REOF (mkBase [] true true false)) y us1 else FOk (RRef noBase (c :: nm)) y (us1 ++ [c :: nm])).
  { intros y us1 Y. cbn [app]. unfold fReference, inReference. rewrite lskip_solid by apply D. cbn [lpeek lnext tl]. rewrite C. cbn [negb].
    rewrite span_run; [destruct (runes_eqb _ _); reflexivity|exact F|]. destruct Y as [Y|Y]; [|right; now apply safe_ref].
    right. rewrite Y. destruct l' as [|d l']; [reflexivity|exact N]. }
  assert (R0 := R l' us (or_introl eq_refl)). destruct (runes_eqb _ _).
  - exists (REOF (mkBase [] true true false)), (c :: nm), l', []. split; [reflexivity|]. split; [discriminate|]. split; [rewrite app_nil_r; exact R0|]. intros y us1 Y. rewrite app_nil_r. now apply R.
  - exists (RRef noBase (c :: nm)), (c :: nm), l', [c :: nm]. split; [reflexivity|]. split; [discriminate|]. split; [exact R0|]. intros y us1 Y. now apply R.
Qed.

(* ---------------- repetition counts ---------------- *)

Definition stops (sc : bool) (c : Z) : Prop := c = 62 \/ sc = true /\ c = 44.
Definition stray (sc : bool) (c : Z) : Prop := ~ (48 <= c <= 57) /\ ~ blank c /\ c <> 62 /\ (sc = true -> c <> 44).
Lemma blank_dec c : ((c =? 32) || (c =? 9) || (c =? 10)) = true <-> blank c.
Proof. unfold blank. rewrite !orb_true_iff, !Z.eqb_eq. tauto. Qed.
Lemma fDigits_app sc z ds l : spaced z ds -> fDigits sc (z ++ l) = sbind (fDigits sc l) (fun '(d, st, r) => inl (ds ++ d, st, r)).
Proof.
  induction 1 as [|c t ds B S IH|c t ds D S IH]; cbn [app fDigits].
  - destruct (fDigits sc l) as [[[? ?] ?]|]; reflexivity.
  - apply blank_dec in B. now rewrite B.
  - assert (NB : ((c =? 32) || (c =? 9) || (c =? 10)) = false) by (apply not_true_is_false; rewrite blank_dec; unfold blank; lia). rewrite NB.
    destruct (Z.eqb_spec c 44); [lia|]. rewrite andb_false_r. unfold cGt. destruct (Z.eqb_spec c 62); [lia|].
    assert (I : isDigit c = true) by now apply isDigit_range. rewrite I, IH. destruct (fDigits sc l) as [[[? ?] ?]|]; reflexivity.
Qed.
Lemma fDigits_stop sc c r : stops sc c -> fDigits sc (c :: r) = inl ([], c, r).
Proof. intros [->|(-> & ->)]; [destruct sc; reflexivity|reflexivity]. Qed.
Lemma fDigits_stray sc c r : stray sc c -> fDigits sc (c :: r) = inr (PSpecChar c).
Proof.
  intros (D & B & G & K). cbn [fDigits]. assert (NB : ((c =? 32) || (c =? 9) || (c =? 10)) = false) by (apply not_true_is_false; rewrite blank_dec; exact B). rewrite NB.
  assert (E : (sc && (c =? 44)) = false) by (destruct sc; [|reflexivity]; apply Z.eqb_neq; auto). rewrite E. unfold cGt. destruct (Z.eqb_spec c 62); [contradiction|].
  assert (I : isDigit c = false) by (apply not_true_is_false; rewrite isDigit_range; exact D). now rewrite I.
Qed.
Lemma fDigits_cases sc l : exists z ds y, l = z ++ y /\ spaced z ds /\ (y = [] \/ exists c t, y = c :: t /\ (stops sc c \/ stray sc c)).
Proof.
  induction l as [|c l (z & ds & y & -> & S & H)].
  - exists [], [], []. split; [reflexivity|]. split; [constructor|auto].
  - destruct ((c =? 32) || (c =? 9) || (c =? 10)) eqn:B.
    { apply blank_dec in B. exists (c :: z), ds, y. split; [reflexivity|]. split; [now constructor|exact H]. }
    destruct (isDigit c) eqn:D.
    { apply isDigit_range in D. exists (c :: z), (c :: ds), y. split; [reflexivity|]. split; [now constructor|exact H]. }
    exists [], [], (c :: z ++ y). split; [reflexivity|]. split; [constructor|]. right. exists c, (z ++ y). split; [reflexivity|].
    apply not_true_iff_false in B, D. rewrite blank_dec in B. rewrite isDigit_range in D.
    destruct (Z.eq_dec c 62) as [->|N]; [left; now left|]. destruct (Z.eq_dec c 44) as [->|M].
    + destruct sc; [left; now right|]. right. split; [exact D|]. split; [exact B|]. split; [exact N|discriminate].
    + right. split; [exact D|]. split; [exact B|]. split; [exact N|auto].
Qed.
Lemma fDigits_inv sc z ds l r : spaced z ds -> fDigits sc (z ++ l) = inl r -> exists es st t, r = (ds ++ es, st, t) /\ stops sc st /\ Forall (fun d => isDigit d = true) es.
Proof.
  intros S. rewrite (fDigits_app _ _ _ _ S). destruct (fDigits_cases sc l) as (z' & es & y & -> & S' & Y). rewrite (fDigits_app _ _ _ _ S').
  destruct Y as [->|(c & t & -> & [ST|ST])].
  - discriminate.
  - rewrite fDigits_stop by exact ST. cbn [sbind]. intros [= <-]. exists es, c, t. rewrite app_nil_r. split; [reflexivity|]. split; [exact ST|]. eapply spaced_digits, S'.
  - rewrite fDigits_stray by exact ST. discriminate.
Qed.
Lemma spaced_app a da b db : spaced a da -> spaced b db -> spaced (a ++ b) (da ++ db).
Proof. intros A B. induction A; cbn [app]; [exact B|now constructor|now constructor]. Qed.

(** The first digit, if any, that makes a number hopeless. *)
Lemma spaced_cut (H : list Z -> bool) z ds : spaced z ds -> forall pre, H pre = true ->
  H (pre ++ ds) = true \/ exists z1 c z2 ds1 ds2, z = z1 ++ c :: z2 /\ ds = ds1 ++ c :: ds2 /\ spaced z1 ds1 /\ spaced z2 ds2 /\ 48 <= c <= 57 /\ H (pre ++ ds1) = true /\ H (pre ++ ds1 ++ [c]) = false.
Proof.
  induction 1 as [|c t ds B S IH|c t ds D S IH]; intros pre P.
  - left. now rewrite app_nil_r.
  - destruct (IH pre P) as [X|(z1 & d & z2 & ds1 & ds2 & -> & -> & S1 & S2 & DD & H1 & H2)]; [now left|]. right.
    exists (c :: z1), d, z2, ds1, ds2. repeat (split; [first [reflexivity|assumption|now constructor]|]). exact H2.
  - destruct (H (pre ++ [c])) eqn:PC.
    + destruct (IH _ PC) as [X|(z1 & d & z2 & ds1 & ds2 & -> & -> & S1 & S2 & DD & H1 & H2)]; [left; now rewrite <- app_assoc in X|]. right.
      rewrite <- app_assoc in H1, H2. exists (c :: z1), d, z2, (c :: ds1), ds2. repeat (split; [first [reflexivity|assumption|now constructor]|]). exact H2.
    + right. exists [], c, t, [], ds. rewrite app_nil_r. repeat (split; [first [reflexivity|assumption|now constructor]|]). exact PC.
Qed.

Section Number.
  Context {A : Type} (sc : bool) (H : list Z -> bool) (K : list Z -> Z -> list Z -> (A * list Z) + perr).
  Definition G (l : list Z) : (A * list Z) + perr := sbind (fDigits sc l) (fun '(ds, st, r) => K ds st r).
  Hypothesis H0 : H [] = true.
  Hypothesis H1 : forall ds, H ds = true -> exists es, Forall (fun d => isDigit d = true) es /\ forall tl, exists a, K (ds ++ es) 62 tl = inl (a, tl).
  Hypothesis H2 : forall ds es st r, H ds = false -> Forall (fun d => isDigit d = true) ds -> Forall (fun d => isDigit d = true) es -> stops sc st -> exists e, K (ds ++ es) st r = inr e.

  Definition final (z1 y1 : list Z) : Prop := forall c t, y1 = c :: t -> forall t', exists e', G (z1 ++ c :: t') = inr e'.
  Definition completes (z1 : list Z) : Prop := exists q, solid q /\ isWS (lpeek q) = false /\ forall tl, exists a, G (z1 ++ q ++ tl) = inl (a, tl).

  Lemma digits_spaced' es : Forall (fun d => isDigit d = true) es -> spaced es es.
  Proof. induction 1 as [|c es C F IH]; [constructor|]. apply sp_digit; [now apply isDigit_range|exact IH]. Qed.
  Lemma number_completes z ds : spaced z ds -> H ds = true -> completes z.
  Proof.
    intros S P. destruct (H1 ds P) as (es & D & Q). exists (es ++ [62]). split; [|split].
    - apply solid_app; [|solids]. eapply Forall_impl; [|exact D]. intros c C. apply isDigit_range in C. lia.
    - destruct D as [|c es C D]; [reflexivity|]. cbn [app lpeek]. apply isDigit_range in C. unfold isWS, whiteSpaces. cbn [existsb].
      repeat (match goal with |- context [?a =? ?b] => destruct (Z.eqb_spec a b); [lia|] end). reflexivity.
    - intros tl. destruct (Q tl) as (a & E). exists a. unfold G. rewrite (fDigits_app _ _ _ _ S), <- app_assoc, (fDigits_app _ _ _ _ (digits_spaced' _ D)). cbn [app].
      rewrite fDigits_stop by now left. cbn [sbind]. rewrite app_nil_r. exact E.
  Qed.
  Lemma number_err l e : G l = inr e ->
    (exists z1 y1, l = z1 ++ y1 /\ digits z1 /\ final z1 y1 /\ completes z1 /\
       ((exists z2, digits z2 /\ ((y1 = z2 /\ e = PSpecChar EOFChar) \/ exists c t, y1 = z2 ++ c :: t /\ stray sc c /\ e = PSpecChar c)) \/
        (exists z2 ds st r, y1 = z2 ++ st :: r /\ z2 <> [] /\ spaced (z1 ++ z2) ds /\ stops sc st /\ (exists d1 es, ds = d1 ++ es /\ H d1 = false) /\ K ds st r = inr e))) \/
    exists z ds st r, l = z ++ st :: r /\ spaced z ds /\ stops sc st /\ H ds = true /\ completes z /\ (forall r', G (z ++ st :: r') = K ds st r') /\ K ds st r = inr e.
  Proof.
    destruct (fDigits_cases sc l) as (z & ds & y & -> & SZ & Y). intros E.
    destruct (spaced_cut H z ds SZ [] H0) as [HD|(z1 & c & z2 & ds1 & ds2 & -> & -> & S1 & S2 & DC & HT & HF)]; cbn [app] in *.
    - (* the number may stand *)
      destruct Y as [->|(c & t & -> & [ST|ST])].
      + left. exists z, []. split; [reflexivity|]. split; [now exists ds|]. split; [discriminate|]. split; [eapply number_completes; eassumption|]. left. exists []. split; [exists []; constructor|].
        left. split; [reflexivity|]. unfold G in E. rewrite (fDigits_app _ _ _ _ SZ) in E. cbn in E. congruence.
      + right. exists z, ds, c, t. split; [reflexivity|]. split; [exact SZ|]. split; [exact ST|]. split; [exact HD|]. split; [eapply number_completes; eassumption|].
        assert (R : forall r', G (z ++ c :: r') = K ds c r').
        { intros r'. unfold G. rewrite (fDigits_app _ _ _ _ SZ), fDigits_stop by exact ST. cbn [sbind]. now rewrite app_nil_r. }
        split; [exact R|]. now rewrite <- R.
      + left. exists z, (c :: t). split; [reflexivity|]. split; [now exists ds|]. split; [|split; [eapply number_completes; eassumption|]].
        * intros c' t0 [= <- <-] t'. exists (PSpecChar c). unfold G. rewrite (fDigits_app _ _ _ _ SZ), fDigits_stray by exact ST. reflexivity.
        * left. exists []. split; [exists []; constructor|]. right. exists c, t. split; [reflexivity|]. split; [exact ST|]. unfold G in E. rewrite (fDigits_app _ _ _ _ SZ), fDigits_stray in E by exact ST. cbn in E. congruence.
    - (* a digit makes it hopeless *)
      left. exists z1, (c :: z2 ++ y). split; [now rewrite <- app_assoc|]. split; [now exists ds1|].
      assert (SC : spaced (z1 ++ [c]) (ds1 ++ [c])) by (apply spaced_app; [exact S1|apply sp_digit; [exact DC|constructor]]).
      split; [|split; [eapply number_completes; eassumption|]].
      + intros c' t0 [= <- <-] t'. unfold G. destruct (fDigits sc (z1 ++ c :: t')) as [r|e'] eqn:F; [|now exists e'].
        replace (z1 ++ c :: t') with ((z1 ++ [c]) ++ t') in F by now rewrite <- app_assoc. apply (fDigits_inv _ _ _ _ _ SC) in F as (es & st & t & -> & ST & D). cbn [sbind].
        apply H2; [exact HF|eapply spaced_digits, SC|exact D|exact ST].
      + destruct Y as [->|(d & t & -> & [ST|ST])].
        * left. exists (c :: z2). split; [exists (c :: ds2); now constructor|]. left. rewrite app_nil_r. split; [reflexivity|]. unfold G in E. rewrite (fDigits_app _ _ _ _ SZ) in E. cbn in E. congruence.
        * right. exists (c :: z2), (ds1 ++ c :: ds2), d, t. split; [reflexivity|]. split; [discriminate|]. split; [exact SZ|]. split; [exact ST|].
          split; [exists (ds1 ++ [c]), ds2; split; [now rewrite <- app_assoc|exact HF]|].
          unfold G in E. rewrite (fDigits_app _ _ _ _ SZ), fDigits_stop in E by exact ST. cbn [sbind] in E. now rewrite app_nil_r in E.
        * left. exists (c :: z2). split; [exists (c :: ds2); now constructor|]. right. exists d, t. split; [reflexivity|]. split; [exact ST|].
          unfold G in E. rewrite (fDigits_app _ _ _ _ SZ), fDigits_stray in E by exact ST. cbn in E. congruence.
  Qed.
End Number.

Definition second (mn : Z) (ds : list Z) (st : Z) (r : list Z) : (Z * Z * list Z) + perr :=
  sbind (fNumber ds) (fun mx => if negb (mx =? 0) && (mx <? mn) then inr (PSpecOrder mn mx) else inl (mn, mx, r)).
Definition first (ds : list Z) (st : Z) (r : list Z) : (Z * Z * list Z) + perr :=
  sbind (fNumber ds) (fun mn => if st =? 44 then G false (second mn) r else inl (mn, 0, r)).
Lemma fSpec_eq l : fSpec (60 :: l) = G true first (lskip l). Proof. reflexivity. Qed.

Lemma decVal_fold ds : forall a, fold_left (fun a d => a * 10 + (d - 48)) ds a = a * 10 ^ Z.of_nat (length ds) + decVal ds.
Proof.
  unfold decVal. induction ds as [|d ds IH]; intros a; cbn [fold_left length]; [rewrite Z.pow_0_r; lia|]. rewrite IH, (IH (0 * 10 + (d - 48))). rewrite Nat2Z.inj_succ, Z.pow_succ_r by lia. lia.
Qed.
Lemma decVal_app ds es : decVal (ds ++ es) = decVal ds * 10 ^ Z.of_nat (length es) + decVal es.
Proof. unfold decVal at 1. rewrite fold_left_app. apply decVal_fold. Qed.
Lemma decVal_low es : Forall (fun d => isDigit d = true) es -> 0 <= decVal es.
Proof. apply decVal_pos. Qed.
Lemma decVal_more ds es : 0 <= decVal ds -> Forall (fun d => isDigit d = true) es -> decVal ds <= decVal (ds ++ es).
Proof.
  intros P D. rewrite decVal_app. apply decVal_low in D. assert (1 <= 10 ^ Z.of_nat (length es)) by (change 1 with (10 ^ 0); apply Z.pow_le_mono_r; lia). nia.
Qed.

(** [v] can be continued to an accepted upper bound. *)
Definition accepted (mn v : Z) : bool := (v <=? 4294967295) && ((v =? 0) || (mn <=? v)).
Fixpoint hopeful (n : nat) (mn v : Z) : bool :=
  accepted mn v || match n with O => false | S n' => existsb (fun d => hopeful n' mn (v * 10 + d)) [0; 1; 2; 3; 4; 5; 6; 7; 8; 9] end.
Lemma hopeful_sound n mn : forall ds, hopeful n mn (decVal ds) = true -> exists es, Forall (fun d => isDigit d = true) es /\ accepted mn (decVal (ds ++ es)) = true.
Proof.
  induction n as [|n IH]; intros ds E; cbn [hopeful] in E.
  - rewrite orb_false_r in E. exists []. split; [constructor|]. now rewrite app_nil_r.
  - apply orb_true_iff in E as [E|E]; [exists []; split; [constructor|now rewrite app_nil_r]|]. apply existsb_exists in E as (d & I & E).
    assert (V : decVal (ds ++ [d + 48]) = decVal ds * 10 + d) by (rewrite decVal_app; cbn; lia). rewrite <- V in E. apply IH in E as (es & D & Q).
    exists ((d + 48) :: es). split; [|now rewrite <- app_assoc in Q]. constructor; [|exact D]. apply isDigit_range. cbn in I. lia.
Qed.
Lemma hopeful_complete mn es : Forall (fun d => isDigit d = true) es -> forall n ds, (length es <= n)%nat -> accepted mn (decVal (ds ++ es)) = true -> hopeful n mn (decVal ds) = true.
Proof.
  induction 1 as [|d es D F IH]; intros n ds L Q.
  - rewrite app_nil_r in Q. destruct n; cbn [hopeful]; now rewrite Q.
  - destruct n as [|n]; [cbn in L; lia|]. cbn [hopeful]. apply orb_true_iff. right. apply existsb_exists. exists (d - 48). apply isDigit_range in D. split; [cbn; lia|].
    replace (decVal ds * 10 + (d - 48)) with (decVal (ds ++ [d])) by (rewrite decVal_app; cbn; lia). apply IH; [cbn in L; lia|]. now rewrite <- app_assoc.
Qed.
Lemma hopeful_none mn ds es : 0 <= decVal ds -> hopeful 10 mn (decVal ds) = false -> Forall (fun d => isDigit d = true) es -> accepted mn (decVal (ds ++ es)) = false.
Proof.
  intros P E D. apply not_true_is_false. intros Q. destruct (le_lt_dec (length es) 10) as [L|L].
  { rewrite (hopeful_complete _ _ D 10 ds L Q) in E. discriminate. }
  destruct (Z.eq_dec (decVal ds) 0) as [Z0|Z0].
  { rewrite Z0 in E. discriminate E. }
  unfold accepted in Q. apply andb_true_iff in Q as [Q _]. apply Z.leb_le in Q. rewrite decVal_app in Q. apply decVal_low in D.
  assert (10 ^ 10 <= 10 ^ Z.of_nat (length es)) by (apply Z.pow_le_mono_r; lia). change (10 ^ 10) with 10000000000 in H. nia.
Qed.
Lemma second_acc mn ds st r : second mn ds st r = if accepted mn (decVal ds) then inl (mn, decVal ds, r) else if decVal ds <=? 4294967295 then inr (PSpecOrder mn (decVal ds)) else inr (PSpecNumber ds).
Proof.
  unfold second, fNumber, parseUint32, accepted. destruct (decVal ds <=? 4294967295); [|reflexivity]. cbn [sbind andb]. destruct (decVal ds =? 0); [reflexivity|]. cbn [negb andb orb].
  destruct (Z.leb_spec mn (decVal ds)), (Z.ltb_spec (decVal ds) mn); try lia; reflexivity.
Qed.

Definition H1st (ds : list Z) : bool := decVal ds <=? 4294967295.
Lemma second_hope mn ds : hopeful 10 mn (decVal ds) = true -> exists es, Forall (fun d => isDigit d = true) es /\ forall tl, exists a, second mn (ds ++ es) 62 tl = inl (a, tl).
Proof. intros E. apply hopeful_sound in E as (es & D & Q). exists es. split; [exact D|]. intros tl. rewrite second_acc, Q. eauto. Qed.
Lemma second_none mn ds es st r : hopeful 10 mn (decVal ds) = false -> Forall (fun d => isDigit d = true) ds -> Forall (fun d => isDigit d = true) es -> stops false st -> exists e, second mn (ds ++ es) st r = inr e.
Proof.
  intros E P D _. rewrite second_acc, (hopeful_none _ _ _ (decVal_low _ P) E D). destruct (_ <=? _); eauto.
Qed.
Lemma first_hope ds : H1st ds = true -> exists es, Forall (fun d => isDigit d = true) es /\ forall tl, exists a, first (ds ++ es) 62 tl = inl (a, tl).
Proof. intros E. exists []. split; [constructor|]. intros tl. rewrite app_nil_r. unfold first, fNumber, parseUint32. unfold H1st in E. rewrite E. cbn. eauto. Qed.
Lemma first_none ds es st r : H1st ds = false -> Forall (fun d => isDigit d = true) ds -> Forall (fun d => isDigit d = true) es -> stops true st -> exists e, first (ds ++ es) st r = inr e.
Proof.
  intros E P D _. assert (L := decVal_more ds es (decVal_low _ P) D). unfold H1st in E. apply Z.leb_gt in E. unfold first, fNumber, parseUint32.
  destruct (Z.leb_spec (decVal (ds ++ es)) 4294967295); [lia|]. cbn. eauto.
Qed.

Lemma lskip_front w v : white w -> isWS (lpeek v) = false -> lskip (w ++ v) = v.
Proof. intros W V. rewrite lskip_white by exact W. now apply lskip_solid. Qed.
Lemma lskip_peek l : isWS (lpeek (lskip l)) = false.
Proof.
  unfold lskip. induction l as [|c l IH]; [reflexivity|]. cbn [ws_prefix]. destruct (isWS c) eqn:W; [exact IH|]. cbn [length skipn lpeek]. exact W.
Qed.
Lemma lskip_white_split l : exists w, white w /\ l = w ++ lskip l.
Proof.
  exists (ws_prefix l). split; [|apply lskip_split]. induction l as [|c l IH]; cbn [ws_prefix]; [constructor|]. destruct (isWS c) eqn:W; [constructor; [now apply white_in|exact IH]|constructor].
Qed.
Lemma peek_app (x y y' : list Z) : (x = [] -> lpeek y = lpeek y') -> lpeek (x ++ y) = lpeek (x ++ y').
Proof. destruct x; [auto|reflexivity]. Qed.

Definition sOk0 {A} (F : list Z -> (A * list Z) + perr) (l : list Z) (a : A) (l' : list Z) : Prop :=
  exists x, l = x ++ l' /\ forall y, near l' y -> F (x ++ y) = inl (a, y).

Lemma digit_ws c : 48 <= c <= 57 -> isWS c = false.
Proof. intros C. unfold isWS, whiteSpaces. cbn [existsb]. repeat (match goal with |- context [?a =? ?b] => destruct (Z.eqb_spec a b); [lia|] end). reflexivity. Qed.

Lemma number_ok {A} sc K l (a : A) l' : G sc K l = inl (a, l') -> exists z ds st r, l = z ++ st :: r /\ spaced z ds /\ stops sc st /\ K ds st r = inl (a, l') /\ forall r', G sc K (z ++ st :: r') = K ds st r'.
Proof.
  intros E. destruct (fDigits_cases sc l) as (z & ds & y & -> & SZ & Y). unfold G in E. rewrite (fDigits_app _ _ _ _ SZ) in E.
  destruct Y as [->|(c & t & -> & [ST|ST])]; [discriminate| |rewrite fDigits_stray in E by exact ST; discriminate].
  rewrite fDigits_stop in E by exact ST. cbn [sbind] in E. rewrite app_nil_r in E. exists z, ds, c, t. repeat (split; [first [reflexivity|assumption]|]).
  intros r'. unfold G. rewrite (fDigits_app _ _ _ _ SZ), fDigits_stop by exact ST. cbn [sbind]. now rewrite app_nil_r.
Qed.

Lemma spec_ok l a l' : fSpec (60 :: l) = inl (a, l') -> exists x, 60 :: l = x ++ l' /\ forall y, fSpec (x ++ y) = inl (a, y).
Proof.
  rewrite fSpec_eq. intros E. destruct (lskip_white_split l) as (w & W & L). assert (P := lskip_peek l). apply number_ok in E as (z & ds & st & r & EL & SZ & ST & E & R).
  assert (RW : forall r', fSpec (60 :: w ++ z ++ st :: r') = first ds st r').
  { intros r'. rewrite fSpec_eq, lskip_front, R; [reflexivity|exact W|]. rewrite EL in P. destruct z; [exact P|exact P]. }
  unfold first in E. destruct (fNumber ds) as [mn|] eqn:N; [|discriminate]. cbn [sbind] in E. destruct (st =? 44) eqn:C.
  - apply number_ok in E as (z2 & ds2 & st2 & r2 & -> & S2 & ST2 & E & R2). rewrite second_acc in E. destruct (accepted _ _) eqn:AC; [|destruct (_ <=? _); discriminate]. injection E as <- <-.
    exists (60 :: w ++ z ++ st :: z2 ++ [st2]). split; [rewrite L, EL; cbn [app]; rewrite <- ?app_assoc; cbn [app]; rewrite <- ?app_assoc; reflexivity|].
    intros y. replace ((60 :: w ++ z ++ st :: z2 ++ [st2]) ++ y) with (60 :: w ++ z ++ st :: z2 ++ st2 :: y) by (cbn [app]; rewrite <- ?app_assoc; cbn [app]; rewrite <- ?app_assoc; reflexivity).
    rewrite RW. unfold first. rewrite N. cbn [sbind]. rewrite C, R2, second_acc, AC. reflexivity.
  - injection E as <- <-. exists (60 :: w ++ z ++ [st]). split; [rewrite L, EL; cbn [app]; rewrite <- ?app_assoc; reflexivity|].
    intros y. replace ((60 :: w ++ z ++ [st]) ++ y) with (60 :: w ++ z ++ st :: y) by (cbn [app]; rewrite <- ?app_assoc; reflexivity).
    rewrite RW. unfold first. rewrite N. cbn [sbind]. now rewrite C.
Qed.

Lemma stray_about sc c x z t : digits z -> stray sc c -> about (PSpecChar c) x (z ++ c :: t).
Proof. intros D (A & B & C & _). now apply ab_spec_char. Qed.
Lemma digits_missing sc l e : fDigits sc l = inr e -> missing e = [].
Proof.
  revert e. induction l as [|c l IH]; intros e; cbn [fDigits]; [now intros [= <-]|]. destruct (_ || _); [apply IH|]. destruct (_ && _); [discriminate|]. destruct (c =? cGt); [discriminate|].
  destruct (isDigit c); [|now intros [= <-]]. destruct (fDigits sc l) as [[[ds st] r]|e']; cbn [sbind]; [discriminate|]. intros [= <-]. now apply IH.
Qed.
Lemma spec_missing l e : fSpec l = inr e -> missing e = [].
Proof.
  unfold fSpec. destruct (fDigits true _) as [[[ds st] l1]|e'] eqn:D; cbn [sbind]; [|intros [= <-]; eapply digits_missing, D].
  unfold fNumber. destruct (parseUint32 ds) as [mn|]; cbn [sbind]; [|now intros [= <-]]. destruct (st =? 44); [|discriminate].
  destruct (fDigits false l1) as [[[ds2 st2] l2]|e'] eqn:D2; cbn [sbind]; [|intros [= <-]; eapply digits_missing, D2].
  destruct (parseUint32 ds2) as [mx|]; cbn [sbind]; [|now intros [= <-]]. destruct (_ && _); [now intros [= <-]|discriminate].
Qed.
Lemma spec_err l e : fSpec (60 :: l) = inr e -> sErr fSpec (60 :: l) e.
Proof.
  intros E. assert (HN0 : forall q, heads e q) by (intros q; left; exact (spec_missing _ _ E)). rewrite fSpec_eq in E. destruct (lskip_white_split l) as (w & W & L). assert (P := lskip_peek l).
  assert (FR : forall v, isWS (lpeek v) = false -> fSpec ((60 :: w) ++ v) = G true first v) by (intros v V; cbn [app]; rewrite fSpec_eq, lskip_front; auto).
  apply (number_err true H1st first eq_refl first_hope first_none) in E as [(z1 & y1 & EL & DZ & FI & (q & SQ & WQ & Q) & AB)|(z & ds & st & r & EL & SZ & ST & HD & _ & R & E)].
  - exists ((60 :: w) ++ z1), y1. split; [rewrite <- app_assoc, <- EL; cbn [app]; now rewrite <- L|]. split; [discriminate|]. split; [|split].
    + destruct AB as [(z2 & D2 & [(-> & ->)|(c & t & -> & SC & ->)])|(z2 & ds & st & r & -> & N & SZ & ST & (d1 & es & -> & HF) & E)].
      * now apply ab_spec_end.
      * eapply stray_about; eassumption.
      * assert (SD := spaced_digits _ _ SZ). assert (SD' := SD). apply Forall_app in SD' as [F1 F2]. assert (M := decVal_more d1 es (decVal_low _ F1) F2).
        unfold H1st in HF. apply Z.leb_gt in HF. unfold first, fNumber, parseUint32 in E. destruct (Z.leb_spec (decVal (d1 ++ es)) 4294967295); [lia|]. cbn [sbind] in E. injection E as <-.
        eapply ab_spec_number; [exact SZ|exact N|apply decVal_denotes, SD|lia|]. destruct ST as [->|(_ & ->)]; auto.
    + intros c t -> t'. rewrite <- app_assoc, FR; [eapply FI; reflexivity|]. rewrite EL in P. destruct z1; exact P.
    + exists q. split; [exact SQ|]. split; [apply HN0|]. intros tl _. rewrite <- app_assoc, FR; [apply Q|]. destruct z1; [|now rewrite EL in P]. destruct q as [|d q]; [destruct SQ as (_ & [|? ?] & ? & ? & _); discriminate|exact WQ].
  - unfold first, fNumber, parseUint32 in E. unfold H1st in HD. rewrite HD in E. cbn [sbind] in E. destruct ST as [->|(_ & ->)]; [discriminate|]. cbn [Z.eqb Pos.eqb] in E.
    set (mn := decVal ds) in *.
    assert (FR2 : forall v, fSpec ((60 :: w ++ z ++ [44]) ++ v) = G false (second mn) v).
    { intros v. replace ((60 :: w ++ z ++ [44]) ++ v) with ((60 :: w) ++ z ++ 44 :: v) by (cbn [app]; rewrite <- !app_assoc; reflexivity).
      rewrite FR; [|rewrite EL in P; destruct z; exact P]. rewrite R. unfold first, fNumber, parseUint32. fold mn. rewrite HD. reflexivity. }
    assert (EL2 : forall v, r = v -> 60 :: l = (60 :: w ++ z ++ [44]) ++ v) by (intros v <-; rewrite L, EL; cbn [app]; rewrite <- !app_assoc; reflexivity).
    apply (number_err false (fun d => hopeful 10 mn (decVal d)) (second mn) eq_refl (second_hope mn) (second_none mn)) in E
      as [(z1 & y1 & E2 & DZ & FI & (q & SQ & WQ & Q) & AB)|(z2 & ds2 & st2 & r2 & E2 & S2 & ST2 & HD2 & (q & SQ & WQ & Q) & R2 & E)].
    + exists ((60 :: w ++ z ++ [44]) ++ z1), y1. split; [rewrite <- app_assoc; now apply EL2|]. split; [discriminate|]. split; [|split].
      * destruct AB as [(z2 & D2 & [(-> & ->)|(c & t & -> & SC & ->)])|(z2 & ds2 & st & r2 & -> & N & SZ2 & ST & (d1 & es & -> & HF) & E)].
        -- now apply ab_spec_end.
        -- eapply stray_about; eassumption.
        -- destruct ST as [->|(? & _)]; [|discriminate]. assert (SD := spaced_digits _ _ SZ2). assert (SD' := SD). apply Forall_app in SD' as [F1 F2].
           rewrite second_acc, (hopeful_none _ _ _ (decVal_low _ F1) HF F2) in E. assert (HN := hopeful_none _ _ _ (decVal_low _ F1) HF F2).
           destruct (Z.leb_spec (decVal (d1 ++ es)) 4294967295).
           ++ injection E as <-. unfold accepted in HN. destruct (Z.leb_spec (decVal (d1 ++ es)) 4294967295); [|lia]. cbn [andb] in HN. apply orb_false_iff in HN as [N0 N1].
              apply Z.eqb_neq in N0. apply Z.leb_gt in N1. apply ab_spec_order; [|exact N0|exact N1]. exists (d1 ++ es). split; [exact SZ2|]. now apply decVal_denotes.
           ++ injection E as <-. eapply ab_spec_number; [exact SZ2|exact N|apply decVal_denotes, SD|lia|now right].
      * intros c t -> t'. rewrite <- app_assoc, FR2. eapply FI. reflexivity.
      * exists q. split; [exact SQ|]. split; [apply HN0|]. intros tl _. rewrite <- app_assoc, FR2. apply Q.
    + destruct ST2 as [->|(? & _)]; [|discriminate]. exists ((60 :: w ++ z ++ [44]) ++ z2), (62 :: r2). split; [rewrite <- app_assoc; now apply EL2|]. split; [discriminate|]. split; [|split].
      * rewrite second_acc in E. destruct (accepted mn (decVal ds2)) eqn:AC; [discriminate|]. assert (SD := spaced_digits _ _ S2). assert (DN := decVal_denotes _ SD).
        unfold accepted in AC. destruct (Z.leb_spec (decVal ds2) 4294967295).
        -- injection E as <-. cbn [andb] in AC. apply orb_false_iff in AC as [N0 N1]. apply Z.eqb_neq in N0. apply Z.leb_gt in N1.
           apply (ab_spec_order mn (decVal ds2) _ z2 [] r2); [|exact N0|exact N1]. exists ds2. rewrite app_nil_r. split; [exact S2|exact DN].
        -- assert (X := hopeful_sound _ _ _ HD2). destruct X as (es & D & A). unfold accepted in A. apply andb_true_iff in A as [A _]. apply Z.leb_le in A.
           assert (M := decVal_more ds2 es (decVal_low _ SD) D). lia.
      * intros c t [= <- <-] t'. rewrite <- app_assoc, FR2, R2. rewrite second_acc in E. rewrite second_acc. destruct (accepted _ _); [discriminate|]. destruct (_ <=? _); eauto.
      * exists q. split; [exact SQ|]. split; [apply HN0|]. intros tl _. rewrite <- app_assoc, FR2. apply Q.
Qed.

Lemma suffix_ok l a l' : fSuffix l = inl (a, l') -> sOk0 fSuffix l a l'.
Proof.
  unfold fSuffix at 1. destruct (lpeek l =? 42) eqn:A; [|destruct (lpeek l =? 43) eqn:B; [|destruct (lpeek l =? cLt) eqn:C]].
  - pk A. intros [= <- <-]. exists [42]. split; [exact A|]. intros y _. reflexivity.
  - pk B. intros [= <- <-]. exists [43]. split; [exact B|]. intros y _. reflexivity.
  - pk C. rewrite C. intros E. apply spec_ok in E as (x & E & R). exists x. split; [exact E|]. intros y _.
    destruct x as [|c x]; [specialize (R []); discriminate|]. injection E as <- _. cbn [app]. unfold fSuffix. cbn [lpeek]. apply R.
  - intros [= <- <-]. exists []. split; [reflexivity|]. intros y Y. cbn [app]. unfold fSuffix. destruct Y as [Y|Y].
    + rewrite Y, A, B, C. reflexivity.
    + rewrite !safe_peek; [reflexivity|exact Y| |exact Y| |exact Y|]; cbn; unfold EOFChar, cLt; lia.
Qed.
Lemma suffix_err l e : fSuffix l = inr e -> sErr fSuffix l e.
Proof.
  unfold fSuffix at 1. destruct (lpeek l =? 42) eqn:A; [discriminate|]. destruct (lpeek l =? 43) eqn:B; [discriminate|]. destruct (lpeek l =? cLt) eqn:C; [|discriminate].
  pk C. rewrite C. intros E. apply spec_err in E as (x & y & E & N & AB & R & q & SQ & Q). destruct x as [|c x]; [congruence|]. injection E as <- E.
  exists (cLt :: x), y. split; [cbn [app]; now rewrite <- E|]. split; [discriminate|]. split; [exact AB|]. split; [exact R|]. exists q. split; [exact SQ|exact Q].
Qed.
