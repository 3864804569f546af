(** Facts about the drawings of trees. *)
From Verif Require Import Base Stream Node Rule SpecRule RuleFacts Parse Grammar Print SpecParse NotationFacts PrintFacts SpecNode NodeFacts NodeLean NodeExact Show SpecShow.

(* ---------------- unique splits ---------------- *)

Definition stops (P : Z -> Prop) (l : list Z) : Prop := match l with [] => True | c :: _ => ~ P c end.
Lemma span_inj P a : forall b x y, Forall P a -> Forall P b -> stops P x -> stops P y -> a ++ x = b ++ y -> a = b /\ x = y.
Proof.
  induction a as [|c a IH]; intros b x y A B X Y E.
  - destruct b as [|d b]; [auto|]. cbn [app] in E. subst x. inversion B; subst. cbn in X. contradiction.
  - inversion A; subst. destruct b as [|d b]; cbn [app] in E.
    + subst y. cbn in Y. contradiction.
    + inversion B; subst. injection E as -> E. destruct (IH b x y) as [-> ->]; auto.
Qed.
Lemma mark_inj c (p q : bool) x y : hd 0 x <> c -> hd 0 y <> c ->
  (if p then [c] else []) ++ x = (if q then [c] else []) ++ y -> p = q /\ x = y.
Proof.
  intros X Y E. destruct p, q; cbn [app] in E.
  - injection E as E. auto.
  - subst y. cbn in Y. congruence.
  - subst x. cbn in X. congruence.
  - auto.
Qed.

(* ---------------- numbers ---------------- *)

Lemma dec_val_all n : 0 <= n -> decVal (natDigits n) = n.
Proof.
  intros H. unfold natDigits. apply dec_val. split; [exact H|]. rewrite Nat2Z.inj_succ, Z2Nat.id by apply Z.log2_nonneg.
  destruct (Z.eq_dec n 0) as [->|NZ]; [reflexivity|]. destruct (Z.log2_spec n ltac:(lia)) as [_ L].
  eapply Z.lt_le_trans; [exact L|]. apply Z.pow_le_mono_l. lia.
Qed.
Lemma natDigits_digits n : 0 <= n -> Forall isDig (natDigits n).
Proof. intros H. now apply dec_digits. Qed.
Definition intRune (c : Z) : Prop := 48 <= c <= 57 \/ c = 45.
Lemma showInt_runes n : Forall intRune (showInt n).
Proof.
  unfold showInt. destruct (Z.ltb_spec n 0).
  - constructor; [now right|]. eapply Forall_impl; [|apply natDigits_digits; lia]. now left.
  - eapply Forall_impl; [|apply natDigits_digits; lia]. now left.
Qed.
Lemma natDigits_inj n m : 0 <= n -> 0 <= m -> natDigits n = natDigits m -> n = m.
Proof. intros A B E. rewrite <- (dec_val_all n A), <- (dec_val_all m B). now rewrite E. Qed.
Lemma showInt_inj n m : showInt n = showInt m -> n = m.
Proof.
  assert (N : forall k x, 0 <= k -> natDigits k <> 45 :: x).
  { intros k x K E. pose proof (natDigits_digits k K) as D. rewrite E in D. inversion D as [|? ? H _]; subst. unfold isDig in H. lia. }
  unfold showInt. destruct (Z.ltb_spec n 0), (Z.ltb_spec m 0); intros E.
  - injection E as E. apply natDigits_inj in E; lia.
  - symmetry in E. apply N in E; [contradiction|lia].
  - apply N in E; [contradiction|lia].
  - apply natDigits_inj in E; lia.
Qed.

(* ---------------- indenting ---------------- *)

Lemma indent_app m a b : indent m (a ++ b) = indent m a ++ indent m b.
Proof. unfold indent. apply flat_map_app. Qed.
Lemma indent_clear m s : ~ In 10 s -> indent m s = s.
Proof.
  unfold indent. induction s as [|c s IH]; intros H; [reflexivity|]. cbn [flat_map]. rewrite IH by (intros X; apply H; now right).
  destruct (Z.eqb_spec c 10) as [->|]; [destruct H; now left|reflexivity].
Qed.
Lemma indent_twice m k s : ~ In 10 k -> indent m (indent k s) = indent (m ++ k) s.
Proof.
  intros K. induction s as [|c s IH]; [reflexivity|]. unfold indent in *. cbn [flat_map]. rewrite flat_map_app, IH. f_equal.
  destruct (Z.eqb_spec c 10) as [->|].
  - cbn [flat_map]. rewrite Z.eqb_refl. cbn [app]. f_equal. f_equal. exact (indent_clear m k K).
  - cbn [flat_map app]. now destruct (Z.eqb_spec c 10).
Qed.
Lemma indent_nil s : indent [] s = s.
Proof. unfold indent. induction s as [|c s IH]; [reflexivity|]. cbn [flat_map]. rewrite IH. now destruct (Z.eqb_spec c 10) as [->|]. Qed.
Lemma indent_under m s t : under m s t <-> t = indent m s.
Proof.
  split.
  - induction 1 as [|c s t N U IH|s t U IH]; [reflexivity| |]; subst; unfold indent; cbn [flat_map].
    + now destruct (Z.eqb_spec c 10).
    + reflexivity.
  - intros ->. induction s as [|c s IH]; [constructor|]. unfold indent. cbn [flat_map]. destruct (Z.eqb_spec c 10) as [->|N].
    + apply un_break. exact IH.
    + now apply un_line.
Qed.
(** Inside an indented text a newline is followed by the margin. *)
Definition breaks (m : Z) (l : list Z) : Prop := match l with [] => True | c :: l' => c = 10 /\ match l' with [] => False | d :: _ => d <> m end end.
Lemma indent_inj m k s : forall t x y, breaks m x -> breaks m y -> indent (m :: k) s ++ x = indent (m :: k) t ++ y -> s = t /\ x = y.
Proof.
  induction s as [|c s IH]; intros t x y X Y E.
  - destruct t as [|d t]; [auto|]. exfalso. unfold indent in E. cbn [flat_map app] in E. subst x. destruct (Z.eqb_spec d 10) as [->|]; cbn in X; destruct X as [? X]; [now apply X|contradiction].
  - destruct t as [|d t].
    + exfalso. unfold indent in E. cbn [flat_map app] in E. subst y. destruct (Z.eqb_spec c 10) as [->|]; cbn in Y; destruct Y as [? Y]; [now apply Y|contradiction].
    + unfold indent in E. cbn [flat_map] in E. fold (indent (m :: k) s) in E. fold (indent (m :: k) t) in E.
      destruct (Z.eqb_spec c 10) as [->|NC], (Z.eqb_spec d 10) as [->|ND]; cbn [app] in E.
      * injection E as E. rewrite <- !app_assoc in E. apply app_inv_head in E. destruct (IH _ _ _ X Y E) as [-> ->]. auto.
      * exfalso. injection E as E1 E2. congruence.
      * exfalso. injection E as E1 E2. congruence.
      * injection E as -> E. destruct (IH _ _ _ X Y E) as [-> ->]. auto.
Qed.

(** ** Children *)
Lemma drawKids_cons w x y l : drawKids w (x :: y :: l) = [10; cTee] ++ repeat cHor w ++ indent (cBar :: repeat cSpace w) x ++ drawKids w (y :: l).
Proof. reflexivity. Qed.
Lemma drawKids_breaks w l : breaks cBar (drawKids w l).
Proof. destruct l as [|x [|y l]]; cbn; auto; split; auto; discriminate. Qed.
Lemma drawKids_inj w l : forall l', drawKids w l = drawKids w l' -> l = l'.
Proof.
  induction l as [|x l IH]; intros l' E.
  - destruct l' as [|y [|z l']]; [reflexivity|discriminate..].
  - destruct l' as [|y l']; [destruct l; discriminate|]. destruct l as [|x2 l], l' as [|y2 l'].
    + cbn [drawKids] in E. apply app_inv_head in E. apply app_inv_head in E. destruct (indent_inj cSpace (repeat cSpace w) x y [] []) as [-> _]; cbn; auto. now rewrite !app_nil_r.
    + rewrite drawKids_cons in E. discriminate.
    + rewrite drawKids_cons in E. discriminate.
    + rewrite !drawKids_cons in E. apply app_inv_head in E. apply app_inv_head in E.
      apply indent_inj in E as [-> E]; [|apply drawKids_breaks..]. f_equal. now apply IH.
Qed.
Lemma drawKids_head w l : l <> [] -> exists x, drawKids w l = 10 :: x.
Proof. intros H. destruct l as [|a [|b l]]; [congruence|cbn; eauto..]. Qed.

(* ---------------- the drawing of a tree ---------------- *)

Lemma stringTree_eq cfg n : stringTree cfg n = header cfg n
  ++ (if negb (nonempty (n_kids n)) || c_inner cfg then rs ": >" ++ List.map utf8_rune (text n) ++ rs "<" else [])
  ++ (if drawsKids (n_type n) then drawKids 2 (List.map (stringTree cfg) (n_kids n)) else []).
Proof. now destruct n. Qed.
Lemma drawable_kids n : drawable n -> plainNode n /\ Forall drawable (n_kids n).
Proof. intros H. split; [apply H; constructor|]. apply Forall_forall. intros c Hc m Hm. apply H. econstructor; eauto. Qed.
Lemma drawable_intro n : plainNode n -> Forall drawable (n_kids n) -> drawable n.
Proof. intros P F m Hm. apply sub_cases in Hm as [->|(k & Hk & S)]; [exact P|]. rewrite Forall_forall in F. exact (F k Hk m S). Qed.
Lemma drawsKids_may t : mayHaveKids t <-> drawsKids t = true.
Proof. destruct t; cbn; split; intros; auto; try discriminate; contradiction. Qed.
Lemma kids_drawn cfg n : drawable n ->
  (if drawsKids (n_type n) then drawKids 2 (List.map (stringTree cfg) (n_kids n)) else []) = drawKids 2 (List.map (stringTree cfg) (n_kids n)).
Proof.
  intros D. apply drawable_kids in D as [[_ K] _]. destruct (n_kids n) as [|c l] eqn:E; [now destruct (drawsKids _)|].
  now rewrite (proj1 (drawsKids_may _) (K ltac:(discriminate))).
Qed.
Lemma utf8_go c : utf8_rune c = goRune c.
Proof. unfold utf8_rune, goRune. destruct (Z.ltb_spec c 0), (Z.leb_spec 0 c), (Z.leb_spec 55296 c), (Z.ltb_spec c 55296), (Z.leb_spec c 57343), (Z.leb_spec 57344 c), (Z.ltb_spec 1114111 c), (Z.leb_spec c 1114111); cbn; try reflexivity; lia. Qed.

(** Position, name, type and marks in front of a tail that starts with a newline, a
    colon or not at all. *)
Definition front (types : bool) (s : sight) : list Z :=
  [76] ++ showInt (fst (s_pos s)) ++ [58] ++ showInt (snd (s_pos s)) ++ [58] ++ s_name s
  ++ (match s_type s with Some t => [47] ++ typeName t | None => [] end)
  ++ (let '(tk, nd, v, st) := s_marks s in (if tk then [cTok] else []) ++ (if nd then [cNonData] else []) ++ (if v then [cVirt] else []) ++ (if st then [43] else [])).
Lemma header_front cfg n : header cfg n = front (c_type cfg) (seen (c_type cfg) n).
Proof.
  unfold header, front, seen, showPos. cbn [s_pos s_name s_type s_marks]. destruct (n_pos n) as [[l c]|]; cbn [fst snd].
  - rewrite <- !app_assoc. now destruct (c_type cfg).
  - change (showInt 0) with [48]. change (rs "L0:0") with [76; 48; 58; 48]. now destruct (c_type cfg).
Qed.
Definition tailRune (l : list Z) : Prop := hd 10 l = 10 \/ hd 10 l = 58.
Lemma letters_type t : Forall (fun c => (65 <= c <= 90) \/ (97 <= c <= 122)) (typeName t).
Proof. destruct t; unfold typeName, rs; cbn; repeat (constructor; [lia|]); constructor. Qed.
Lemma typeName_inj t u : typeName t = typeName u -> t = u.
Proof. destruct t, u; try reflexivity; discriminate. Qed.
Lemma marks_inj (m m' : bool * bool * bool * bool) x y : tailRune x -> tailRune y ->
  (let '(tk, nd, v, st) := m in (if tk then [cTok] else []) ++ (if nd then [cNonData] else []) ++ (if v then [cVirt] else []) ++ (if st then [43] else [])) ++ x =
  (let '(tk, nd, v, st) := m' in (if tk then [cTok] else []) ++ (if nd then [cNonData] else []) ++ (if v then [cVirt] else []) ++ (if st then [43] else [])) ++ y ->
  m = m' /\ x = y.
Proof.
  destruct m as [[[a b] c] d], m' as [[[a' b'] c'] d']. intros X Y E. rewrite <- !app_assoc in E.
  assert (H : forall z, tailRune z -> hd 0 z <> cTok /\ hd 0 z <> cNonData /\ hd 0 z <> cVirt /\ hd 0 z <> 43).
  { intros [|z0 z] Z; [repeat split; discriminate|]. unfold tailRune in Z. cbn [hd] in *. destruct Z as [->| ->]; repeat split; discriminate. }
  pose proof (H _ X) as (X1 & X2 & X3 & X4). pose proof (H _ Y) as (Y1 & Y2 & Y3 & Y4). clear H.
  apply mark_inj in E as [-> E]; [|destruct b, c, d; cbn [app hd]; try discriminate; assumption|destruct b', c', d'; cbn [app hd]; try discriminate; assumption].
  apply mark_inj in E as [-> E]; [|destruct c, d; cbn [app hd]; try discriminate; assumption|destruct c', d'; cbn [app hd]; try discriminate; assumption].
  apply mark_inj in E as [-> E]; [|destruct d; cbn [app hd]; try discriminate; assumption|destruct d'; cbn [app hd]; try discriminate; assumption].
  apply mark_inj in E as [-> E]; auto.
Qed.
Lemma marks_stop P (m : bool * bool * bool * bool) x : tailRune x -> ~ P 10 -> ~ P 58 -> ~ P cTok -> ~ P cNonData -> ~ P cVirt -> ~ P 43 ->
  stops P ((let '(tk, nd, v, st) := m in (if tk then [cTok] else []) ++ (if nd then [cNonData] else []) ++ (if v then [cVirt] else []) ++ (if st then [43] else [])) ++ x).
Proof.
  intros X. destruct m as [[[[] []] []] []]; cbn [app stops]; intros; auto. destruct x as [|c x]; [exact I|]. destruct X as [X|X]; cbn in X; subst; auto.
Qed.
Lemma front_inj types s t x y : nameRunes (s_name s) -> nameRunes (s_name t) -> (s_type s = None <-> s_type t = None) -> tailRune x -> tailRune y ->
  front types s ++ x = front types t ++ y ->
  s_pos s = s_pos t /\ s_name s = s_name t /\ s_type s = s_type t /\ s_marks s = s_marks t /\ x = y.
Proof.
  intros N1 N2 T X Y E. unfold front in E. rewrite <- !app_assoc in E. apply app_inv_head in E.
  apply (span_inj intRune) in E as [E1 E]; [|apply showInt_runes..|cbn; unfold intRune; lia|cbn; unfold intRune; lia]. apply app_inv_head in E.
  apply (span_inj intRune) in E as [E2 E]; [|apply showInt_runes..|cbn; unfold intRune; lia|cbn; unfold intRune; lia]. apply app_inv_head in E.
  apply showInt_inj in E1, E2.
  assert (S : forall (s : sight) z, tailRune z -> stops (fun c => (48 <= c <= 57) \/ (65 <= c <= 90) \/ (97 <= c <= 122) \/ c = 95)
    ((match s_type s with Some t => [47] ++ typeName t | None => [] end) ++
     (let '(tk, nd, v, st) := s_marks s in (if tk then [cTok] else []) ++ (if nd then [cNonData] else []) ++ (if v then [cVirt] else []) ++ (if st then [43] else [])) ++ z)).
  { intros u z Z. destruct (s_type u); [cbn; lia|]. cbn [app]. apply marks_stop; [exact Z|unfold cTok, cNonData, cVirt; lia..]. }
  apply (span_inj (fun c => (48 <= c <= 57) \/ (65 <= c <= 90) \/ (97 <= c <= 122) \/ c = 95)) in E as [E3 E]; [|exact N1|exact N2|apply S; assumption..].
  assert (E4 : s_type s = s_type t /\ (let '(tk, nd, v, st) := s_marks s in (if tk then [cTok] else []) ++ (if nd then [cNonData] else []) ++ (if v then [cVirt] else []) ++ (if st then [43] else [])) ++ x =
    (let '(tk, nd, v, st) := s_marks t in (if tk then [cTok] else []) ++ (if nd then [cNonData] else []) ++ (if v then [cVirt] else []) ++ (if st then [43] else [])) ++ y).
  { destruct (s_type s) as [a|] eqn:A, (s_type t) as [b|] eqn:B; [|destruct T as [_ T]; discriminate (T eq_refl)|destruct T as [T _]; discriminate (T eq_refl)|auto].
    rewrite <- !app_assoc in E. apply app_inv_head in E.
    apply (span_inj (fun c => (65 <= c <= 90) \/ (97 <= c <= 122))) in E as [E5 E]; [|apply letters_type..|apply marks_stop; [assumption|unfold cTok, cNonData, cVirt; lia..]|apply marks_stop; [assumption|unfold cTok, cNonData, cVirt; lia..]].
    apply typeName_inj in E5. subst. auto. }
  destruct E4 as [E4 E5]. apply marks_inj in E5 as [E5 E6]; auto.
  repeat split; auto. destruct (s_pos s), (s_pos t); cbn [fst snd] in *; congruence.
Qed.

Lemma numeral_digits n : 0 <= n -> numeral (natDigits n) n.
Proof.
  intros H. pose proof (natDigits_digits n H) as D. split; [|split; [|split; [|exact D]]].
  - rewrite <- (dec_val_all n H) at 2. apply decVal_denotes. refine (Forall_impl _ _ D). intros c X. unfold isDigit. unfold isDig in X.
    destruct (Z.leb_spec 48 c), (Z.leb_spec c 57); auto; lia.
  - unfold natDigits. cbn [dec]. intros X. apply app_eq_nil in X as [_ X]. discriminate.
  - assert (L : forall fuel k l, 0 <= k < 10 ^ Z.of_nat fuel -> dec fuel k = 48 :: l -> l = [] /\ k = 0).
    { induction fuel as [|fuel IH]; intros k l B E; [discriminate|]. cbn [dec] in E. destruct (Z.ltb_spec k 10) as [SM|SM].
      - pose proof (f_equal (hd 0) E) as E1. pose proof (f_equal (@tl Z) E) as E2. cbn [app hd tl] in E1, E2. rewrite Z.mod_small in E1 by lia. split; [congruence|lia].
      - exfalso. rewrite Nat2Z.inj_succ, Z.pow_succ_r in B by lia.
        assert (Q : 0 <= k / 10 < 10 ^ Z.of_nat fuel) by (split; [apply Z.div_pos; lia|apply Z.div_lt_upper_bound; lia]).
        assert (1 <= k / 10) by (apply Z.div_le_lower_bound; lia).
        destruct fuel as [|fuel]; [cbn in Q; lia|]. destruct (dec (S fuel) (k / 10)) as [|d ds] eqn:F; [cbn [dec] in F; apply app_eq_nil in F as [_ F]; discriminate|].
        cbn [app] in E. injection E as -> E. destruct (IH _ _ Q F) as [_ Z0]. lia. }
    intros l E. unfold natDigits in E. apply L in E as [E _]; [exact E|]. split; [exact H|].
    rewrite Nat2Z.inj_succ, Z2Nat.id by apply Z.log2_nonneg. destruct (Z.eq_dec n 0) as [->|NZ]; [reflexivity|]. destruct (Z.log2_spec n ltac:(lia)) as [_ X].
    eapply Z.lt_le_trans; [exact X|]. apply Z.pow_le_mono_l. lia.
Qed.

(** The tail of a drawing. *)
Lemma sketch_eq types n : sketchOf types n = Sketch (seen types n) (List.map (sketchOf types) (n_kids n)).
Proof. now destruct n. Qed.
Definition body (cfg : config) (n : node) : list Z :=
  match n_kids n with [] => rs ": >" ++ List.map utf8_rune (text n) ++ rs "<" | l => drawKids 2 (List.map (stringTree cfg) l) end.
Lemma stringTree_body cfg n : drawable n -> c_inner cfg = false -> stringTree cfg n = front (c_type cfg) (seen (c_type cfg) n) ++ body cfg n.
Proof.
  intros D I. rewrite stringTree_eq, kids_drawn, header_front, I by exact D. f_equal. unfold body. destruct (n_kids n) as [|c l]; [|reflexivity].
  cbn [nonempty negb orb List.map drawKids]. now rewrite app_nil_r.
Qed.
Lemma body_tail cfg n : tailRune (body cfg n).
Proof.
  unfold body. destruct (n_kids n) as [|c l]; [now right|]. destruct (drawKids_head 2 (List.map (stringTree cfg) (c :: l)) ltac:(discriminate)) as (x & ->). now left.
Qed.

Theorem drawing_faithful cfg n : c_inner cfg = false -> forall m, drawable n -> drawable m ->
  stringTree cfg n = stringTree cfg m <-> sketchOf (c_type cfg) n = sketchOf (c_type cfg) m.
Proof.
  intros I. induction n as [n IH] using node_ind'. intros m D M. rewrite !sketch_eq, !stringTree_body by assumption.
  pose proof (drawable_kids _ D) as [[N1 _] K1]. pose proof (drawable_kids _ M) as [[N2 _] K2]. split; intros E.
  - apply front_inj in E as (E1 & E2 & E3 & E4 & E5); [|exact N1|exact N2|cbn; destruct (c_type cfg); split; congruence|apply body_tail..].
    assert (X : s_text (seen (c_type cfg) n) = s_text (seen (c_type cfg) m) /\ List.map (sketchOf (c_type cfg)) (n_kids n) = List.map (sketchOf (c_type cfg)) (n_kids m)).
    { clear E1 E2 E3 E4 N1 N2. unfold body in E5. cbn [s_text seen]. destruct (n_kids n) as [|a l] eqn:A, (n_kids m) as [|b k] eqn:B.
      - split; [|reflexivity]. apply app_inv_head, app_inv_tail in E5. f_equal. rewrite !(map_ext _ _ utf8_go) in E5. exact E5.
      - exfalso. destruct (drawKids_head 2 (List.map (stringTree cfg) (b :: k)) ltac:(discriminate)) as (x & X). rewrite X in E5. discriminate.
      - exfalso. destruct (drawKids_head 2 (List.map (stringTree cfg) (a :: l)) ltac:(discriminate)) as (x & X). rewrite X in E5. discriminate.
      - split; [reflexivity|]. apply drawKids_inj in E5. revert E5 IH K1 K2. clear. generalize (a :: l) (b :: k). clear a l b k.
        induction l as [|a l IHl]; intros [|b k] E IH K1 K2; try discriminate; [reflexivity|]. cbn [List.map] in *. injection E as E1 E2. inversion IH; inversion K1; inversion K2; subst. f_equal; [|auto].
        match goal with H : forall m, _ |- _ => apply H; auto end. }
    destruct X as [X1 X2]. rewrite X2. f_equal. revert E1 E2 E3 E4 X1. destruct (seen (c_type cfg) n), (seen (c_type cfg) m). cbn. congruence.
  - assert (E1 : seen (c_type cfg) n = seen (c_type cfg) m) by exact (f_equal (fun x => match x with Sketch t _ => t end) E).
    pose proof (f_equal (fun x => match x with Sketch _ l => l end) E) as E2. cbv beta iota in E2. rewrite E1. f_equal. unfold body. assert (T : s_text (seen (c_type cfg) n) = s_text (seen (c_type cfg) m)) by now rewrite E1.
    cbn [s_text seen] in T. clear E1 N1 N2. destruct (n_kids n) as [|a l] eqn:A, (n_kids m) as [|b k] eqn:B; try discriminate.
    + injection T as T. rewrite !(map_ext _ _ utf8_go). now rewrite T.
    + f_equal. revert E2 IH K1 K2. clear. generalize (a :: l) (b :: k). clear a l b k.
      induction l as [|a l IHl]; intros [|b k] E IH K1 K2; try discriminate; [reflexivity|]. cbn [List.map] in *. injection E as E1 E2. inversion IH; inversion K1; inversion K2; subst. f_equal; [|auto].
      match goal with H : forall m, _ |- _ => apply H; auto end.
Qed.

(* ---------------- lines ---------------- *)

Fixpoint entriesAll (way : list bool) (l : list node) : list (list bool * node) :=
  match l with
  | [] => []
  | k :: l' => entries (way ++ [match l' with [] => true | _ => false end]) k ++ entriesAll way l'
  end.
Lemma entries_eq way n : entries way n = (way, n) :: entriesAll way (n_kids n).
Proof. destruct n as [ty nm ch ks po st v nd tk]. cbn [entries n_kids]. f_equal. induction ks as [|k ks IH]; [reflexivity|]. cbn [entriesAll]. now rewrite IH. Qed.
Lemma margin_app a b : margin (a ++ b) = margin a ++ margin b.
Proof. unfold margin. apply flat_map_app. Qed.
Lemma margin_clear way : ~ In 10 (margin way).
Proof. unfold margin. intros H. apply in_flat_map in H as (b & _ & H). destruct b; cbn in H; repeat (destruct H as [H|H]; [discriminate|]); exact H. Qed.
Lemma lead_snoc way b : lead (way ++ [b]) = margin way ++ (if b then [9492; 9472; 9472] else [9500; 9472; 9472]).
Proof. unfold lead. rewrite rev_app_distr. cbn [rev app]. now rewrite rev_involutive. Qed.

Definition caption (cfg : config) (n : node) : list Z :=
  header cfg n ++ (if negb (nonempty (n_kids n)) || c_inner cfg then rs ": >" ++ List.map utf8_rune (text n) ++ rs "<" else []).
Definition paint (cfg : config) (e : list bool * node) : list Z := lead (fst e) ++ indent (margin (fst e)) (caption cfg (snd e)).
Lemma indent_branch m x k s : ~ In 10 x -> ~ In 10 k -> indent m (10 :: x ++ indent k s) = 10 :: m ++ x ++ indent (m ++ k) s.
Proof. intros X K. change (10 :: x ++ indent k s) with ([10] ++ x ++ indent k s). rewrite !indent_app, (indent_clear m x X), (indent_twice m k s K). change (indent m [10]) with (10 :: m ++ []). now rewrite app_nil_r. Qed.
Lemma paint_all cfg n : drawable n -> forall way,
  flat_map (fun e => 10 :: paint cfg e) (entries way n) = 10 :: lead way ++ indent (margin way) (stringTree cfg n).
Proof.
  induction n as [n IH] using node_ind'. intros D way. rewrite entries_eq. cbn [flat_map app]. f_equal.
  rewrite stringTree_eq, app_assoc, kids_drawn by exact D. change (header cfg n ++ _) with (caption cfg n). unfold paint at 1. cbn [fst snd].
  rewrite indent_app, <- !app_assoc. f_equal. f_equal. apply drawable_kids in D as [_ K]. clear -IH K. induction (n_kids n) as [|a l IHl]; [reflexivity|].
  inversion IH as [|? ? A IH']; subst. inversion K as [|? ? DA K']; subst. specialize (IHl IH' K'). cbn [entriesAll]. rewrite flat_map_app, A, IHl by exact DA.
  rewrite lead_snoc, margin_app. destruct l as [|b l]; cbn [List.map].
  - change (indent (margin way) (drawKids 2 [])) with (@nil Z). rewrite app_nil_r.
    change (drawKids 2 [stringTree cfg a]) with ([10] ++ [9492; 9472; 9472] ++ indent [32; 32; 32] (stringTree cfg a)).
    change ([10] ++ [9492; 9472; 9472] ++ indent [32; 32; 32] (stringTree cfg a)) with (10 :: [9492; 9472; 9472] ++ indent [32; 32; 32] (stringTree cfg a)).
    rewrite indent_branch by (intros H; repeat (destruct H as [H|H]; [discriminate|]); exact H). now rewrite <- app_assoc.
  - change (drawKids 2 (stringTree cfg a :: stringTree cfg b :: List.map (stringTree cfg) l)) with
      ((10 :: [9500; 9472; 9472] ++ indent [9474; 32; 32] (stringTree cfg a)) ++ drawKids 2 (List.map (stringTree cfg) (b :: l))).
    rewrite indent_app, indent_branch by (intros H; repeat (destruct H as [H|H]; [discriminate|]); exact H). rewrite <- !app_assoc. cbn [app]. now rewrite <- !app_assoc.
Qed.

Lemma showInt_written z : written z (showInt z).
Proof.
  unfold written, showInt. destruct (Z.ltb_spec z 0); [right|left]; (split; [lia|]); [|apply numeral_digits; lia].
  eexists. split; [reflexivity|]. apply numeral_digits. lia.
Qed.
Lemma caption_captioned cfg n : captioned (c_type cfg) (c_inner cfg) n (caption cfg n).
Proof.
  exists (showInt (fst (s_pos (seen (c_type cfg) n)))), (showInt (snd (s_pos (seen (c_type cfg) n)))), (if c_type cfg then [47] ++ typeName (n_type n) else []).
  split; [apply showInt_written|]. split; [apply showInt_written|]. split.
  - destruct (c_type cfg); [|reflexivity]. exists (typeName (n_type n)). split; [|reflexivity]. destruct (n_type n); cbn; repeat (try (left; reflexivity); right).
  - unfold caption. rewrite header_front. unfold front. cbn [s_name s_type s_marks seen]. rewrite <- !app_assoc.
    rewrite (map_ext _ _ utf8_go).
    change (rs "L") with [76]. change (rs ":") with [58]. change (rs "$") with [cTok]. change (rs "#") with [cNonData]. change (rs "~") with [cVirt]. change (rs "+") with [43].
    f_equal. f_equal. f_equal. f_equal. f_equal. f_equal. f_equal; [now destruct (c_type cfg)|]. do 4 f_equal. destruct (n_kids n); [reflexivity|]. now destruct (c_inner cfg).
Qed.
Lemma stacked_flat l : l <> [] -> 10 :: stacked l = flat_map (fun x => 10 :: x) l.
Proof.
  induction l as [|x [|y l] IH]; intros H; [congruence| |].
  - cbn. now rewrite app_nil_r.
  - change (stacked (x :: y :: l)) with (x ++ 10 :: stacked (y :: l)). change (flat_map (fun x => 10 :: x) (x :: y :: l)) with (10 :: x ++ flat_map (fun x => 10 :: x) (y :: l)).
    now rewrite IH by discriminate.
Qed.
Theorem drawing_lines cfg n : drawable n ->
  exists ps, Forall2 (drawn (c_type cfg) (c_inner cfg)) (entries [] n) ps /\ stringTree cfg n = stacked ps.
Proof.
  intros D. exists (List.map (paint cfg) (entries [] n)). split.
  - induction (entries [] n) as [|e l IH]; cbn [List.map]; constructor; [|exact IH]. exists (caption cfg (snd e)), (indent (margin (fst e)) (caption cfg (snd e))).
    split; [apply caption_captioned|]. split; [now apply indent_under|reflexivity].
  - pose proof (paint_all cfg n D []) as H. change (lead []) with (@nil Z) in H. change (margin []) with (@nil Z) in H. rewrite indent_nil in H. cbn [app] in H.
    assert (X : 10 :: stacked (List.map (paint cfg) (entries [] n)) = 10 :: stringTree cfg n); [|now injection X].
    rewrite stacked_flat by (rewrite entries_eq; discriminate). rewrite <- H. clear. induction (entries [] n) as [|e l IH]; [reflexivity|]. cbn [List.map flat_map]. now rewrite IH.
Qed.
Lemma entries_nodes n : forall way, List.map snd (entries way n) = nodesOf n.
Proof.
  induction n as [n IH] using node_ind'. intros way. rewrite entries_eq, nodesOf_eq. cbn [List.map snd]. f_equal.
  induction IH as [|k l K IH IHl]; [reflexivity|]. cbn [entriesAll flat_map]. now rewrite map_app, K, IHl.
Qed.

(* ---------------- AST ---------------- *)

Theorem ast_faithful cfg file a b : c_inner cfg = false -> Forall drawable a -> Forall drawable b ->
  astTree cfg file a = astTree cfg file b <-> List.map (sketchOf (c_type cfg)) a = List.map (sketchOf (c_type cfg)) b.
Proof.
  intros I A B.
  assert (M : forall a b, Forall drawable a -> Forall drawable b -> List.map (stringTree cfg) a = List.map (stringTree cfg) b <-> List.map (sketchOf (c_type cfg)) a = List.map (sketchOf (c_type cfg)) b).
  { clear - I. induction a as [|x a IH]; intros [|y b] A B; cbn [List.map]; try (split; intros; congruence). inversion A; inversion B; subst.
    split; intros E; injection E as E1 E2; f_equal; try (now apply IH); now apply drawing_faithful. }
  unfold astTree. split; intros E.
  - apply (proj1 (M a b A B)). do 4 apply app_inv_head in E. destruct a as [|x a], b as [|y b]; try discriminate; [reflexivity|].
    cbv iota in E. do 2 apply app_inv_head in E. apply (span_inj intRune) in E as [_ E]; [|apply showInt_runes..| |].
    + exact (drawKids_inj _ _ _ E).
    + destruct (drawKids_head 3 (List.map (stringTree cfg) (x :: a)) ltac:(discriminate)) as (z & ->). cbn. unfold intRune. lia.
    + destruct (drawKids_head 3 (List.map (stringTree cfg) (y :: b)) ltac:(discriminate)) as (z & ->). cbn. unfold intRune. lia.
  - apply (proj2 (M a b A B)) in E. rewrite E. assert (L : length a = length b) by (apply (f_equal (@length _)) in E; now rewrite !map_length in E).
    rewrite L. now destruct a, b.
Qed.
