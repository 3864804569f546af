(** The texts of the errors. *)
From Coq Require Import Permutation.
From Verif Require Import Base Stream Node Rule Parse Grammar SpecStream SpecRule SpecError SpecEval SpecPlace SpecFault PlaceFacts Print Show Message SpecParse TermSpec NotationFacts SpecShow ShowFacts SpecDriver DriverFacts DriverErr SpecMessage.

Fixpoint eerr_ind' (P : eerr -> Prop) (H : forall e, (forall r x, e = EConcat r (Some x) \/ e = EChoice r (Some x) -> P x) -> P e) (e : eerr) : P e :=
  H e (fun r x E =>
    match e as e0 return (e0 = EConcat r (Some x) \/ e0 = EChoice r (Some x)) -> P x with
    | EConcat r0 (Some x0) => fun E => eq_ind x0 P (eerr_ind' P H x0) x ltac:(destruct E as [E|E]; congruence)
    | EChoice r0 (Some x0) => fun E => eq_ind x0 P (eerr_ind' P H x0) x ltac:(destruct E as [E|E]; congruence)
    | _ => fun E => ltac:(exfalso; destruct E as [E|E]; congruence)
    end E).

Lemma errText_chain e : errText e = flat_map (fun r => desc r ++ rs ": ") (trail e) ++ match cause e with Some c => errText c | None => nilError end.
Proof.
  induction e as [e IH] using eerr_ind'.
  destruct e as [w p|b n|r [x|]|r [x|]|n ns|ns|r n|txt|c]; cbn [trail cause flat_map app]; try reflexivity.
  - cbn [errText]. rewrite (IH r x (or_introl eq_refl)), <- !app_assoc. reflexivity.
  - cbn [errText]. rewrite app_nil_r, <- app_assoc. reflexivity.
  - cbn [errText]. rewrite (IH r x (or_intror eq_refl)), <- !app_assoc. reflexivity.
  - cbn [errText]. rewrite app_nil_r, <- app_assoc. reflexivity.
Qed.
Lemma cause_end e c : cause e = Some c -> trail c = [] /\ cause c = Some c.
Proof.
  induction e as [e IH] using eerr_ind'. intros H.
  destruct e as [w p|b n|r [x|]|r [x|]|n ns|ns|r n|txt|cl]; cbn [cause] in H; try discriminate; try (injection H as <-; split; reflexivity).
  - exact (IH r x (or_introl eq_refl) H).
  - exact (IH r x (or_intror eq_refl) H).
Qed.
Lemma located_cause T a b e c : located T a b e -> cause e = Some c -> located T a b c.
Proof. induction 1; cbn [cause]; intros E; auto; try (injection E as <-; econstructor; eauto; fail); discriminate. Qed.

(* ------------------------------------------------------------------ *)
(** ** The wording *)

Lemma str_quoted l : str l = quoted l.
Proof. unfold str, quoted. apply map_ext. exact goRune_utf8. Qed.
Lemma andList_listed l : (2 <= length l)%nat -> listed (rs "and") l (andList l).
Proof.
  destruct l as [|x l]; [cbn; lia|]. intros H. cbn [length] in H. unfold andList. revert x H. induction l as [|y l IH]; intros x H; [cbn in H; lia|].
  destruct l as [|z l]; [apply li_two|].
  replace (x ++ flat_map (fun x0 => rs ", " ++ x0) (removelast (y :: z :: l)) ++ rs " and " ++ last (y :: z :: l) x)
    with (x ++ rs ", " ++ (y ++ flat_map (fun x0 => rs ", " ++ x0) (removelast (z :: l)) ++ rs " and " ++ last (z :: l) y)).
  - apply li_more. apply IH. cbn. lia.
  - change (removelast (y :: z :: l)) with (y :: removelast (z :: l)). cbn [flat_map]. rewrite <- !app_assoc. do 5 f_equal.
    change (last (y :: z :: l) x) with (last (z :: l) x). clear. revert y z. induction l as [|w l IH]; intros y z; [reflexivity|]. exact (IH y w).
Qed.
Lemma times_often mn mx : oftenness mn mx (times mn mx).
Proof. unfold times. destruct (Z.eqb_spec mx 0) as [->|N]; constructor; auto; apply showInt_written. Qed.
Lemma name_describes r b d : callable r = Some b -> (b_name b = [] -> describes r d) -> describes r (nameOr b d).
Proof. intros C H. unfold nameOr. destruct (b_name b) as [|c n] eqn:E; [auto|]. rewrite <- E. apply de_name; [exact C|congruence]. Qed.
Lemma Forall2_desc l : (forall x, In x l -> describes x (desc x)) -> Forall2 describes l (List.map desc l).
Proof. induction l as [|x l IH]; intros H; [constructor|]. constructor; [apply H; now left|]. apply IH. intros; apply H; now right. Qed.
Lemma desc_describes r : wfRule r -> describes r (desc r).
Proof.
  induction r using rule_ind'; intros W; cbn [desc]; rewrite ?str_quoted.
  - apply name_describes; [reflexivity|]. apply de_char.
  - apply name_describes; [reflexivity|]. apply de_chars.
  - apply name_describes; [reflexivity|]. apply de_string.
  - apply name_describes; [reflexivity|]. apply de_range.
  - apply de_eof.
  - apply de_ref.
  - inversion W; subst. apply name_describes; [reflexivity|]. intros; apply de_group; auto.
  - inversion W; subst. unfold nameOr. destruct (b_name b) as [|c n] eqn:E; [apply de_option; auto|]. rewrite <- E. apply de_option_name. congruence.
  - inversion W; subst. destruct (b_name b) as [|c n] eqn:E; [apply de_rep; auto using times_often|]. rewrite <- E. apply de_rep_name; [congruence|apply times_often].
  - inversion W; subst. apply name_describes; [reflexivity|]. intros EN. rewrite <- concat_map.
    eapply de_choice; [exact EN|apply Forall2_desc|apply andList_listed; now rewrite map_length].
    intros x IX. apply in_concat in IX as (grp & IG & IX). eauto.
  - inversion W; subst. apply name_describes; [reflexivity|]. intros EN.
    eapply de_concat; [exact EN|apply Forall2_desc|apply andList_listed; now rewrite map_length]. auto.
  - inversion W; subst. apply name_describes; [reflexivity|]. intros EN. apply de_block; auto.
Qed.
Lemma missing_tells w p : wants w (descWanted w) -> tells (EMissing w p) (errText (EMissing w p)).
Proof.
  intros H. destruct p as [|[[l c]|]|]; cbn [errText].
  - now apply te_missing; [|constructor].
  - apply te_missing; [exact H|]. apply (wr_pos (Some (l, c))); apply showInt_written.
  - apply te_missing; [exact H|]. apply (wr_pos None (rs "0") (rs "0")); apply (showInt_written 0).
  - rewrite <- (app_nil_r (descWanted w)). apply te_missing; [exact H|constructor].
Qed.
Lemma blames_tells g : wfRules g -> forall r e, blames g r e -> wfRule r -> tells e (errText e).
Proof.
  intros HG. induction 1; intros W.
  - apply missing_tells. apply wa_char with (u := u). now apply desc_describes.
  - apply missing_tells. apply wa_chars. now apply desc_describes.
  - apply missing_tells. apply wa_string. now apply desc_describes.
  - apply missing_tells. apply wa_range with (lu := lu) (hu := hu). now apply desc_describes.
  - apply missing_tells. constructor.
  - cbn [errText]. apply (te_undefined b n).
  - apply IHblames. eapply HG; eauto.
  - inversion W; subst. auto.
  - inversion W; subst. auto.
  - cbn [errText]. apply te_few; [now apply desc_describes|apply showInt_written..].
  - cbn [errText]. apply te_concat; [now apply desc_describes|]. inversion W; subst. auto.
  - cbn [errText]. apply te_choice; [now apply desc_describes|]. inversion W; subst. eauto.
  - cbn [errText]. apply te_silent. now apply desc_describes.
  - cbn [errText]. rewrite (flat_map_ext _ (fun m => [9; 10] ++ n_name m ++ rs ": " ++ quoted (text m))); [apply (te_tie (b_name b) [n; m])|].
    intros nd. unfold named. now rewrite str_quoted.
  - inversion W; subst. auto.
  - cbn [errText]. rewrite str_quoted. apply te_excluded.
  - cbn [errText]. apply te_close. inversion W; subst. now apply desc_describes.
Qed.

(** One wording. *)
Lemma denotes_bound l v : denotes 10 l v -> Forall (fun c => 48 <= c <= 57) l -> 0 <= v < 10 ^ Z.of_nat (length l).
Proof.
  induction 1 as [|c d l v D H IH]; intros F; [cbn; lia|]. inversion F; subst. specialize (IH ltac:(assumption)). cbn [length]. rewrite Nat2Z.inj_succ, Z.pow_succ_r by lia.
  destruct D as [D0 D]. nia.
Qed.
Lemma denotes_same l v : denotes 10 l v -> Forall (fun c => 48 <= c <= 57) l -> forall l', denotes 10 l' v -> Forall (fun c => 48 <= c <= 57) l' -> length l = length l' -> l = l'.
Proof.
  induction 1 as [|c d l v D H IH]; intros F l' H' F' L.
  - now destruct l'.
  - destruct l' as [|c' l']; [discriminate|]. injection L as L. inversion H' as [|? d' ? v' D' H2 E1 E2]; subst. inversion F; subst. inversion F'; subst.
    pose proof (denotes_bound _ _ H ltac:(assumption)) as B. pose proof (denotes_bound _ _ H2 ltac:(assumption)) as B'. rewrite <- L in *.
    assert (ED : d = d') by nia. subst d'. assert (EV : v = v') by lia. subst v'. f_equal; [|apply IH; auto].
    destruct D as [_ D], D' as [_ D']. lia.
Qed.
Lemma numeral_length l n : numeral l n -> 10 ^ Z.of_nat (length l - 1) <= n \/ (n = 0 /\ length l = 1%nat).
Proof.
  intros (D & NE & LZ & F). destruct D as [|c d l v D H]; [congruence|]. inversion F; subst. cbn [length]. rewrite Nat.sub_0_r || replace (S (length l) - 1)%nat with (length l) by lia.
  pose proof (denotes_bound _ _ H ltac:(assumption)) as B. destruct (Z.eq_dec d 0) as [->|ND].
  - assert (c = 48) by (destruct D as [_ D]; lia). subst c. rewrite (LZ l eq_refl) in *. inversion H; subst. now right.
  - left. destruct D as [D _]. nia.
Qed.
Lemma numeral_one l l' n : numeral l n -> numeral l' n -> l = l'.
Proof.
  intros H H'. pose proof (numeral_length _ _ H) as L. pose proof (numeral_length _ _ H') as L'.
  destruct H as (D & NE & _ & F), H' as (D' & NE' & _ & F'). apply (denotes_same _ _ D F _ D' F').
  pose proof (denotes_bound _ _ D F) as B. pose proof (denotes_bound _ _ D' F') as B'.
  assert (0 < length l)%nat by (destruct l; [congruence|cbn; lia]). assert (0 < length l')%nat by (destruct l'; [congruence|cbn; lia]).
  assert (P : forall a b : nat, 10 ^ Z.of_nat a < 10 ^ Z.of_nat b -> (a < b)%nat).
  { intros a b X. destruct (Nat.le_gt_cases b a) as [Y|Y]; [|exact Y]. pose proof (Z.pow_le_mono_r 10 (Z.of_nat b) (Z.of_nat a) ltac:(lia) ltac:(lia)). lia. }
  assert (Z0 : forall a : nat, 0 < 10 ^ Z.of_nat a) by (intros; apply Z.pow_pos_nonneg; lia).
  destruct L as [L|[-> L]], L' as [L'|[E' L']].
  - pose proof (P (length l - 1)%nat (length l') ltac:(lia)). pose proof (P (length l' - 1)%nat (length l) ltac:(lia)). lia.
  - subst n. pose proof (Z0 (length l - 1)%nat). lia.
  - pose proof (Z0 (length l' - 1)%nat). lia.
  - lia.
Qed.
Lemma written_one z a b : written z a -> written z b -> a = b.
Proof.
  intros [[H A]|[H (a' & -> & A)]] [[H' B]|[H' (b' & -> & B)]]; try lia; [eapply numeral_one; eauto|]. f_equal. eapply numeral_one; eauto.
Qed.
Lemma listed_one w l t : listed w l t -> forall t', listed w l t' -> t = t'.
Proof.
  induction 1 as [x y|x l t H IH]; intros t' H'; inversion H' as [|? ? t2 H2]; subst; [reflexivity| | |].
  - inversion H2 as [|? ? ? H3]; inversion H3.
  - inversion H as [|? ? ? H3]; inversion H3.
  - now rewrite (IH _ H2).
Qed.
Lemma often_one mn mx t t' : oftenness mn mx t -> oftenness mn mx t' -> t = t'.
Proof. intros H H'. destruct H; inversion H'; subst; try congruence; repeat f_equal; eapply written_one; eauto. Qed.
Lemma Forall2_one (l : list rule) : (forall x, In x l -> forall t t', describes x t -> describes x t' -> t = t') ->
  forall d d', Forall2 describes l d -> Forall2 describes l d' -> d = d'.
Proof.
  induction l as [|x l IH]; intros H d d' F F'; inversion F; inversion F'; subst; [reflexivity|]. f_equal; [eapply H; eauto; now left|]. apply IH; auto. intros; eapply H; eauto; now right.
Qed.
Lemma describes_one r : forall t t', describes r t -> describes r t' -> t = t'.
Proof.
  induction r using rule_ind'; intros t t' D D'; inversion D; subst; inversion D'; subst; cbn [callable] in *;
    repeat match goal with A : Some _ = Some _ |- _ => injection A as <- | A : None = Some _ |- _ => discriminate A end; try congruence; auto.
  - f_equal. eauto.
  - f_equal; [|f_equal; eauto]. eapply often_one; eauto.
  - do 2 f_equal. eapply often_one; eauto.
  - match goal with A : Forall2 describes _ ?d, B : Forall2 describes _ ?d' |- _ => constr_eq d d'; fail 1 | A : Forall2 describes _ ?d, B : Forall2 describes _ ?d' |- _ => assert (d = d') by
      (eapply (Forall2_one (concat gs)); eauto; intros x IX; apply in_concat in IX as (grp & IG & IX); eauto); subst end. eapply listed_one; eauto.
  - match goal with A : Forall2 describes _ ?d, B : Forall2 describes _ ?d' |- _ => constr_eq d d'; fail 1 | A : Forall2 describes _ ?d, B : Forall2 describes _ ?d' |- _ => assert (d = d') by
      (eapply (Forall2_one l); eauto); subst end. eapply listed_one; eauto.
  - f_equal; [eauto|]. f_equal. eauto.
Qed.
Lemma wants_one w t t' : wants w t -> wants w t' -> t = t'.
Proof.
  assert (CH : forall b c u u' t, describes (RChar b c u) t -> describes (RChar b c u') t).
  { intros b c u u' t0 D. inversion D; subst; [|now constructor]. cbn in *. injection H as <-. now apply (de_name (RChar b c u') b). }
  assert (RG : forall b c d u v u' v' t, describes (RRange b c u d v) t -> describes (RRange b c u' d v') t).
  { intros b c d u v u' v' t0 D. inversion D; subst; [|now constructor]. cbn in *. injection H as <-. now apply (de_name (RRange b c u' d v') b). }
  intros H H'. destruct H; inversion H'; subst; try reflexivity; eapply describes_one; eauto.
Qed.
Lemma where_one p t t' : where_ p t -> where_ p t' -> t = t'.
Proof. intros H H'. destruct H; inversion H'; subst; try reflexivity. repeat f_equal; eapply written_one; eauto. Qed.
Lemma tells_one e : forall t t', tells e t -> tells e t' -> t = t'.
Proof.
  induction e as [e IH] using eerr_ind'. intros t t' T T'. inversion T; subst; inversion T'; subst; try reflexivity.
  - f_equal. f_equal; [eapply wants_one; eauto|eapply where_one; eauto].
  - f_equal; [eapply describes_one; eauto|]. f_equal. eapply (IH r); eauto.
  - f_equal; [eapply describes_one; eauto|]. f_equal. eapply (IH r); eauto.
  - f_equal. eapply describes_one; eauto.
  - f_equal; [eapply describes_one; eauto|]. f_equal. f_equal; [eapply written_one; eauto|]. f_equal. eapply written_one; eauto.
  - f_equal. f_equal. eapply describes_one; eauto.
Qed.

(** ** The errors of the drivers *)

Lemma orList_oneOf l : l <> [] -> oneOf l (orList l).
Proof.
  destruct l as [|x l]; [congruence|]. intros _. destruct l as [|y l]; [left; cbn; now rewrite app_nil_r|right]. cbn [orList].
  revert x y. induction l as [|z l IH]; intros x y; [cbn [orTail]; apply li_two|].
  change (orTail (y :: z :: l)) with (rs ", " ++ y ++ orTail (z :: l)). apply li_more. apply IH.
Qed.
Lemma rawError_refusal lf fuel g roots o s r s' : wfRules g -> wfRoots roots -> roots <> [] -> legal roots o -> runesOk (rest s) ->
  evalRaw lf fuel g o s = Ok (r, s') -> match rawError r with Some t => refusal r t | None => exists a, r = RawOk a end.
Proof.
  intros W HR NE HO C E. pose proof (evalRaw_reported g W roots o HR HO lf fuel s r s' C E) as H.
  destruct r as [a| |rts es|r m|]; cbn [rawError]; [eauto|constructor| | |constructor].
  - destruct H as (P & order & PO & F). 
    replace (flat_map (fun x => errText (snd x) ++ rs "; ") es) with (flat_map (fun t => t ++ rs "; ") (List.map (fun x => errText (snd x)) es))
      by (rewrite flat_map_concat_map, map_map, flat_map_concat_map; reflexivity).
    apply re_nomatch with (ds := List.map (fun x => desc (snd x)) rts).
    + assert (WR : forall x, In x rts -> wfRule (snd x)) by (intros x IX; apply HR; exact (Permutation_in _ P IX)). clear - WR.
      induction rts as [|x rts IH]; [constructor|]. constructor; [apply desc_describes, WR; now left|]. apply IH. intros; apply WR; now right.
    + apply orList_oneOf. intros EM. apply map_eq_nil in EM. subst rts. apply Permutation_nil in P. auto.
    + assert (WR : forall x, In x order -> wfRule (snd x)) by (intros x IX; apply HR; exact (Permutation_in _ PO IX)). clear - W F WR.
      induction F as [|x y order es [_ B] F IH]; [constructor|]. constructor; [eapply blames_tells; eauto; apply WR; now left|]. apply IH. intros; apply WR; now right.
  - destruct H as (_ & x & y & l & n & k & _ & EN & EK & _). unfold side. rewrite EN, EK, !str_quoted.
    change [cDQuote; 41] with (rs """)"). change [40; cDQuote] with (rs "(""").
    replace (rs "ambiguity found: " ++ (n_name n ++ rs "(""" ++ quoted (r_read r) ++ rs """)") ++ rs " vs " ++ n_name k ++ rs "(""" ++ quoted (r_read m) ++ rs """)")
      with (rs "ambiguity found: " ++ n_name n ++ rs "(""" ++ quoted (r_read r) ++ rs """) vs " ++ n_name k ++ rs "(""" ++ quoted (r_read m) ++ rs """)")
      by (rewrite <- !app_assoc; reflexivity).
    now apply re_tie.
Qed.
