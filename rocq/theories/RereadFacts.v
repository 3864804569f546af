(** The text of a match is matched in the same way. *)
From Verif Require Import Base Stream StreamFacts SpecStream Node Rule Grammar SpecRule TermFacts SpecNode NodeText NodeFacts NodeLean NodeExact SpecEval SpecEv SpecDriver DriverFacts DriverMore GrammarFacts
  SpecLL SpecLang SpecLayout LayoutFacts LayoutRaw SpecReread.

Section Lay.
Variable W : list Z.
Hypothesis WS : forall x, In x W -> isWS x = true.
Hypothesis W32 : In 32 W.

Lemma pieces_last P x : okPieces W [] (P ++ [PRune x]) -> last (right (P ++ [PRune x])) 0 = x.
Proof. intros _. rewrite right_app. cbn. apply last_last. Qed.
Lemma ok_join P x y Q w w' : okPieces W [] (P ++ [PRune x]) -> okPieces W [] (PRune y :: Q) -> isWS x = false -> isWS y = false -> run W w -> run W w' ->
  okPieces W [] ((P ++ [PRune x]) ++ PRun w w' :: PRune y :: Q).
Proof.
  intros OP OQ X Y R R'. induction P as [|p P IH].
  - cbn [app]. apply ok_rune; [apply ok_run; auto|]. split; [exact X|intros []].
  - cbn [app] in *. inversion OP as [|x0 P0 O1 C|v v' P0 R1 R2 O1 C]; subst; specialize (IH O1).
    + apply ok_rune; [exact IH|]. destruct P as [|[z|v v'] P]; cbn [app] in *; auto.
    + apply ok_run; auto. destruct P as [|[z|v1 v1'] P]; cbn [app] in *; auto.
Qed.
Lemma ok_glue P x y Q : okPieces W [] (P ++ [PRune x]) -> okPieces W [] (PRune y :: Q) -> okPieces W [] ((P ++ [PRune x]) ++ PRune y :: Q).
Proof.
  intros OP OQ. induction P as [|p P IH].
  - cbn [app]. apply ok_rune; [exact OQ|exact I].
  - cbn [app] in *. inversion OP as [|x0 P0 O1 C|v v' P0 R1 R2 O1 C]; subst; specialize (IH O1).
    + apply ok_rune; [exact IH|]. destruct P as [|[z|v v'] P]; cbn [app] in *; auto.
    + apply ok_run; auto. destruct P as [|[z|v1 v1'] P]; cbn [app] in *; auto.
Qed.

(** Pieces that begin and end with a common rune. *)
Inductive framed : list piece -> Prop :=
| fr_nil : framed []
| fr_some x P y Q : PRune x :: P = Q ++ [PRune y] -> okPieces W [] (PRune x :: P) -> framed (PRune x :: P).
Lemma framed_ok P : framed P -> okPieces W [] P.
Proof. destruct 1; [constructor|assumption]. Qed.
Lemma framed_app P Q : framed P -> framed Q -> framed (P ++ Q).
Proof.
  intros FP FQ. destruct FP as [|x P y P' EP OP]; [exact FQ|]. destruct FQ as [|x2 Q y2 Q' EQ OQ]; [rewrite app_nil_r; eapply fr_some; eauto|].
  apply (fr_some x (P ++ PRune x2 :: Q) y2 ((PRune x :: P) ++ Q')).
  - rewrite EQ. cbn [app]. now rewrite <- app_assoc.
  - change (PRune x :: P ++ PRune x2 :: Q) with ((PRune x :: P) ++ PRune x2 :: Q). rewrite EP in *. now apply ok_glue.
Qed.
Lemma framed_join P Q w w' : framed P -> framed Q -> right P <> [] -> right Q <> [] -> isWS (last (right P) 0) = false -> isWS (hd 0 (right Q)) = false ->
  run W w -> run W w' -> framed (P ++ PRun w w' :: Q).
Proof.
  intros FP FQ NP NQ LP HQ R R'. destruct FP as [|x P y P' EP OP]; [now destruct NP|]. destruct FQ as [|x2 Q y2 Q' EQ OQ]; [now destruct NQ|].
  apply (fr_some x (P ++ PRun w w' :: PRune x2 :: Q) y2 ((PRune x :: P) ++ PRun w w' :: Q')).
  - rewrite EQ. cbn [app]. now rewrite <- app_assoc.
  - change (PRune x :: P ++ PRun w w' :: PRune x2 :: Q) with ((PRune x :: P) ++ PRun w w' :: PRune x2 :: Q). rewrite EP in *. rewrite pieces_last in LP by exact OP. now apply ok_join.
Qed.
Lemma framed_runes l : framed (List.map PRune l).
Proof.
  destruct l as [|x l]; [constructor|]. cbn [List.map]. assert (O : forall l, okPieces W [] (List.map PRune l)).
  { clear. induction l as [|x l IH]; cbn [List.map]; [constructor|]. apply ok_rune; [exact IH|]. destruct l; exact I. }
  destruct (exists_last (l := x :: l)) as (l' & y & E); [discriminate|]. apply (fr_some x (List.map PRune l) y (List.map PRune l')); [|apply (O (x :: l))].
  change (PRune x :: List.map PRune l) with (List.map PRune (x :: l)). rewrite E, map_app. reflexivity.
Qed.
Lemma runes_both l : left (List.map PRune l) = l /\ right (List.map PRune l) = l.
Proof. split; (induction l as [|x l IH]; [reflexivity|cbn; f_equal; exact IH]). Qed.

Lemma laid_pieces n t : laidOut W n t -> exists P, framed P /\ left P = t /\ right P = text n.
Proof.
  induction 1 as [n N|n N K|n pre c t gap t' N K _ (P & FP & LP & RP) _ (Q & FQ & LQ & RQ) G].
  - exists (List.map PRune (text n)). destruct (runes_both (text n)). split; [apply framed_runes|auto].
  - exists []. split; [constructor|]. split; [reflexivity|]. now rewrite text_childless.
  - destruct (text_snoc n pre c N K) as (gap' & T & G'). destruct G as [[S R]|[S ->]], G' as [[S' ->]|[S' ->]]; try contradiction.
    + exists (P ++ PRun gap [32] :: Q). split; [|split].
      * destruct S as (_ & A & B & C & D & _). rewrite <- RP in A, B. rewrite <- RQ in C, D. rewrite white_dec in B, D. apply not_true_iff_false in B, D.
        apply framed_join; auto. split; [discriminate|]. constructor; auto.
      * rewrite left_app. cbn [left flat_map leftOf]. now rewrite LP, <- LQ.
      * rewrite right_app. cbn [right flat_map rightOf]. rewrite RP. fold (right Q). rewrite RQ. now rewrite T.
    + exists (P ++ Q). split; [now apply framed_app|]. rewrite left_app, right_app, LP, LQ, RP, RQ. cbn [app] in T. auto.
Qed.
(** Text itself is laid out like this. *)
Lemma laid_text n : laidOut W n (text n).
Proof.
  induction n as [n IH] using node_ind'. destruct (n_chars n) as [|x l] eqn:C; [|apply lay_leaf; congruence].
  assert (X : forall pre post, n_kids n = pre ++ post -> laidOut W (set_kids n pre) (text (set_kids n pre))).
  { induction pre as [|c pre IP] using rev_ind; intros post K.
    - rewrite text_childless by (now destruct n). apply lay_none; now destruct n.
    - specialize (IP ([c] ++ post)). rewrite app_assoc in IP. specialize (IP K). rewrite Forall_forall in IH. assert (IC : laidOut W c (text c)) by (apply IH; rewrite K, <- app_assoc; apply in_elt).
      set (m := set_kids n (pre ++ [c])). assert (CM : n_chars m = []) by (now destruct n). assert (KM : n_kids m = pre ++ [c]) by (now destruct n).
      destruct (text_snoc m pre c CM KM) as (gap & T & G). assert (SM : set_kids m pre = set_kids n pre) by (now destruct n). rewrite T. apply lay_more with (pre := pre) (c := c); auto; rewrite SM in *; auto.
      destruct G as [[S ->]|[S ->]]; [left|right; auto]. split; [exact S|]. split; [discriminate|]. constructor; auto. }
  specialize (X (n_kids n) [] (eq_sym (app_nil_r _))). destruct n. exact X.
Qed.
Lemma laid_layout n t : laidOut W n t -> sameLayout W [] t (text n).
Proof. intros L. destruct (laid_pieces n t L) as (P & F & <- & <-). exists P. split; [now apply framed_ok|auto]. Qed.
End Lay.

Lemma layout_runes W t t' : (forall x, In x W -> isWS x = true) -> sameLayout W [] t t' -> runesOk t -> runesOk t'.
Proof.
  intros WS (P & O & -> & ->) R. assert (F : Forall (okPiece W) P) by (now apply (ok_all W [])). clear O. induction F as [|p P OP F IH]; [constructor|].
  cbn [left right flat_map] in *. apply Forall_app in R as [R1 R2]. apply Forall_app. split; [|now apply IH]. destruct p as [x|w w']; [exact R1|]. destruct OP as [_ [_ A]].
  eapply Forall_impl; [|exact A]. intros x I. apply WS in I. apply white_dec in I. unfold whiteSpaces in I. cbn in I. lia.
Qed.
Lemma reread W : (forall x, In x W -> isWS x = true) -> In 32 W -> forall g, layoutFreeRules W [] (rules_of g) -> wfRules (rules_of g) ->
  forall name r t res n fuel, lookup (rules_of g) name = Some r -> runesOk t -> careful (rules_of g) r SUGGEST_SKIP t -> evalRule fuel g name t = Ok res ->
  r_node res = Some n -> usesAll res t -> laidOut W n t -> careful (rules_of g) r SUGGEST_SKIP (text n) ->
  exists fuel' res' n', evalRule fuel' g name (text n) = Ok res' /\ usesAll res' (text n) /\ r_node res' = Some n' /\ sameTree W (erase n) (erase n').
Proof.
  intros WS W32 g LF WF name r t res n fuel L R CF E N (_ & RD & UN) LO CF'. pose proof (laid_layout W W32 n t LO) as SL. pose proof (layout_runes W t (text n) WS SL R) as R'.
  destruct (rule_layout_answers W [] WS (rules_of g) LF g name r t (text n) res fuel eq_refl WF L R R' SL CF CF' E) as (fuel' & res' & o & o' & E' & SH & SH' & SO).
  exists fuel', res'. destruct o as [m u k s|k s]; [|destruct SH as (_ & _ & _ & X); congruence]. destruct o' as [m' u' k' s'|k' s']; [|destruct SO].
  destruct SH as (U & A & B & C & nd & N1 & M). destruct SH' as (U' & A' & B' & C' & nd' & N1' & M'). destruct SO as (T & _ & P & Q & O & F1 & F2 & F3 & F4).
  exists nd'. split; [exact E'|]. rewrite N in N1. injection N1 as <-. subst m m'. split; [|split; [exact N1'|exact T]].
  assert (UT : u = length t).
  { rewrite UN in B. assert (KT : k = length t) by (assert (length (r_read res) = length (firstn k t)) by (now rewrite A); rewrite RD, firstn_length in H; lia).
    assert (LL : length (skipn u (firstn k t)) = 0%nat) by (now rewrite <- B). rewrite skipn_length, firstn_length in LL. lia. }
  rewrite UT, skipn_all in F3. assert (Q = []).
  { destruct Q as [|[x|w w'] Q]; [reflexivity|discriminate|]. apply ok_suffix in O. inversion O as [| |? ? ? R1 _ _ _]; subst. destruct R1 as [R1 _]. destruct w; [now destruct R1|discriminate]. }
  subst Q. cbn in F4. assert (length (skipn u' (text n)) = 0%nat) by (now rewrite F4). rewrite skipn_length in H.
  assert (u' = length (text n) /\ k' = length (text n)) as [-> ->] by lia. split; [congruence|]. split; [rewrite A'; apply firstn_all|]. rewrite B', firstn_all. apply skipn_all.
Qed.
