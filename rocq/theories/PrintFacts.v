(** Reading back what String() prints. *)
From Verif Require Import Base Stream StreamFacts Node Rule Parse Print SpecStream SpecRule SpecParse SpecPrint ParseFacts NotationFacts ParseMono.

Scheme atomic_mind := Induction for atomic Sort Prop
with atomics_mind := Induction for atomics Sort Prop
with alternatives_mind := Induction for alternatives Sort Prop
with item_mind := Induction for item Sort Prop
with items_mind := Induction for items Sort Prop
with plain_mind := Induction for plain Sort Prop.
Combined Scheme print_mind from atomic_mind, atomics_mind, alternatives_mind, item_mind, items_mind, plain_mind.

(** With enough fuel. *)
Definition ev {A} (f : nat -> A) (x : A) : Prop := exists n, forall m, (n <= m)%nat -> f m = x.
Lemma ev_step {A} (f g : nat -> A) x : (forall n, f (S n) = g n) -> ev g x -> ev f x.
Proof. intros S [n H]. exists (Datatypes.S n). intros [|m] L; [lia|]. rewrite S. apply H. lia. Qed.
Lemma ev_bind {A B} (f : nat -> pres A) (k : nat -> A -> list Z -> list (list Z) -> pres B) a l us x :
  ev f (POk a l us) -> ev (fun n => k n a l us) x -> ev (fun n => pbind (f n) (k n)) x.
Proof. intros [n H] [m K]. exists (Nat.max n m). intros p L. rewrite H by lia. cbn [pbind]. apply K. lia. Qed.
Lemma ev_const {A} (x : A) : ev (fun _ => x) x. Proof. exists 0%nat. auto. Qed.

(* ---------------- literals ---------------- *)

Lemma encodable_utf8 c : encodable c -> utf8_rune c = c.
Proof.
  intros E. unfold utf8_rune. destruct (Z.ltb_spec c 0), (Z.leb_spec 55296 c), (Z.leb_spec c 57343), (Z.ltb_spec 1114111 c); cbn [orb andb]; unfold encodable in E; try reflexivity; lia.
Qed.
Lemma hexDigit_val d : 0 <= d < 16 -> hexVal (hexDigit d) = Some d.
Proof.
  intros D. unfold hexDigit. destruct (Z.ltb_spec d 10); unfold hexVal.
  - destruct (Z.leb_spec 48 (48 + d)), (Z.leb_spec (48 + d) 57); try lia. cbn [andb]. f_equal. lia.
  - destruct (Z.leb_spec 48 (55 + d)), (Z.leb_spec (55 + d) 57), (Z.leb_spec 97 (55 + d)), (Z.leb_spec (55 + d) 102), (Z.leb_spec 65 (55 + d)), (Z.leb_spec (55 + d) 70); cbn [andb]; try lia. f_equal. lia.
Qed.
Lemma hex4_escape c l : codePoint c -> parseUnicodeEscape (117 :: hex4 c ++ l) = Some (c, l).
Proof.
  intros H. unfold parseUnicodeEscape, hex4. cbn [app]. rewrite Z.eqb_refl, !hexDigit_val by (apply Z.mod_pos_bound; lia). f_equal. f_equal.
  unfold codePoint in H.
  assert (E1 : c / 256 = c / 16 / 16) by (rewrite Z.div_div by lia; reflexivity).
  assert (E2 : c / 4096 = c / 16 / 16 / 16) by (rewrite !Z.div_div by lia; reflexivity).
  assert (E3 : c / 16 / 16 / 16 / 16 = 0) by (rewrite !Z.div_div by lia; apply Z.div_small; lia).
  rewrite E1, E2. set (x := c / 16) in *. set (y := x / 16) in *. set (z := y / 16) in *.
  pose proof (Z.div_mod c 16 ltac:(lia)) as D0. pose proof (Z.div_mod x 16 ltac:(lia)) as D1. pose proof (Z.div_mod y 16 ltac:(lia)) as D2. pose proof (Z.div_mod z 16 ltac:(lia)) as D3.
  fold x in D0. fold y in D1. fold z in D2. lia.
Qed.
Lemma quoted_plain n q c l : c <> q -> c <> 92 -> quoted (S n) q (c :: l) = match quoted n q l with Some (buf, u, l3) => Some (c :: buf, u, l3) | None => None end.
Proof. intros A B. cbn [quoted]. apply Z.eqb_neq in A, B. rewrite A. unfold cBack. now rewrite B. Qed.
Lemma quoted_escape n q c l : q <> 92 -> c <> 117 -> quoted (S n) q (92 :: c :: l) = match quoted n q l with Some (buf, u, l3) => Some (c :: buf, u, l3) | None => None end.
Proof. intros Q A. cbn [quoted]. assert (E : (92 =? q) = false) by (apply Z.eqb_neq; lia). rewrite E. change (92 =? cBack) with true. cbn [lpeek]. apply Z.eqb_neq in A. now rewrite A. Qed.
Lemma quoted_end n q l : quoted (S n) q (q :: l) = Some ([], false, l).
Proof. cbn [quoted]. now rewrite Z.eqb_refl. Qed.
Definition esc39 (t : list Z) : list Z := flat_map (fun c => if c =? 39 then [92; 39] else [c]) t.
Lemma quoted_runes t l : Forall (fun c => c <> 92) t -> forall n, (length (esc39 t) < n)%nat -> quoted n 39 (esc39 t ++ 39 :: l) = Some (t, false, l).
Proof.
  unfold esc39. induction 1 as [|c t N1 F IH]; intros n L; (destruct n as [|n]; [lia|]); [apply quoted_end|].
  cbn [flat_map] in *. destruct (Z.eqb_spec c 39) as [->|NC]; cbn [app length] in *.
  - rewrite quoted_escape by lia. rewrite IH; [reflexivity|lia].
  - rewrite quoted_plain by lia. rewrite IH; [reflexivity|lia].
Qed.
Lemma quoted_string t l : Forall (fun c => c <> 92 /\ c <> 34) t -> forall n, (length t < n)%nat -> quoted n 34 (t ++ 34 :: l) = Some (t, false, l).
Proof.
  induction 1 as [|c t [N1 N2] F IH]; intros n L; (destruct n as [|n]; [lia|]); [apply quoted_end|].
  cbn [app length] in *. rewrite quoted_plain by auto. rewrite IH; [reflexivity|lia].
Qed.
Lemma escQuote_ok t : Forall (fun c => encodable c /\ c <> 92) t -> escQuote t = esc39 t.
Proof.
  unfold esc39, escQuote, cQuote, cBack, str1. induction 1 as [|c t [E N] F IH]; [reflexivity|]. cbn [flat_map]. rewrite IH. destruct (c =? 39); [reflexivity|]. now rewrite encodable_utf8.
Qed.
Lemma utf8_all t : Forall encodable t -> List.map utf8_rune t = t.
Proof. induction 1 as [|c t E F IH]; [reflexivity|]. cbn. now rewrite IH, encodable_utf8. Qed.

(* ---------------- numbers ---------------- *)

Definition isDig (d : Z) : Prop := 48 <= d <= 57.
Lemma dec_digits fuel n : 0 <= n -> Forall isDig (dec fuel n).
Proof.
  revert n. induction fuel as [|k IH]; intros n H; cbn [dec]; [constructor|]. apply Forall_app. split.
  - destruct (n <? 10); [constructor|]. apply IH. apply Z.div_pos; lia.
  - constructor; [|constructor]. unfold isDig. pose proof (Z.mod_pos_bound n 10 ltac:(lia)). lia.
Qed.
Lemma decVal_app a b : decVal (a ++ [b]) = decVal a * 10 + (b - 48).
Proof. unfold decVal. now rewrite fold_left_app. Qed.
Lemma dec_val fuel n : 0 <= n < 10 ^ Z.of_nat fuel -> decVal (dec fuel n) = n.
Proof.
  revert n. induction fuel as [|k IH]; intros n H; cbn [dec].
  - cbn in H. unfold decVal. cbn. lia.
  - rewrite decVal_app. pose proof (Z.div_mod n 10 ltac:(lia)). pose proof (Z.mod_pos_bound n 10 ltac:(lia)). destruct (Z.ltb_spec n 10).
    + change (decVal []) with 0. rewrite Z.mod_small by lia. lia.
    + rewrite IH; [lia|]. split; [apply Z.div_pos; lia|]. apply Z.div_lt_upper_bound; [lia|]. rewrite Nat2Z.inj_succ, Z.pow_succ_r in H by lia. lia.
Qed.
Lemma decimal_val n : 0 <= n < 2 ^ 32 -> decVal (decimal n) = n.
Proof. intros H. apply dec_val. change (10 ^ Z.of_nat 10) with 10000000000. change (2 ^ 32) with 4294967296 in H. lia. Qed.
Lemma digits_to sc ds st l : Forall isDig ds -> (st = 62 \/ sc = true /\ st = 44) -> digitsTo sc (ds ++ st :: l) = Some (ds, st, l).
Proof.
  intros F S. induction F as [|d ds D F IH].
  - cbn [app digitsTo]. destruct S as [->|[-> ->]]; [cbn; now rewrite andb_false_r|reflexivity].
  - cbn [app digitsTo]. unfold isDig in D. destruct (Z.eqb_spec d 32), (Z.eqb_spec d 9), (Z.eqb_spec d 10), (Z.eqb_spec d 44); try lia. unfold cGt. destruct (Z.eqb_spec d 62); [lia|].
    cbn [orb]. rewrite andb_false_r. unfold isDigit. destruct (Z.leb_spec 48 d), (Z.leb_spec d 57); try lia. cbn [andb]. now rewrite IH.
Qed.
Lemma lskip_nonwhite c l : isWS c = false -> lskip (c :: l) = c :: l.
Proof. intros W. unfold lskip. cbn [ws_prefix]. now rewrite W. Qed.
Lemma dig_nonwhite d : isDig d -> isWS d = false.
Proof. intros D. destruct (isWS d) eqn:W; [|reflexivity]. apply white_in in W. unfold isDig in D. repeat (destruct W as [W|W]; [lia|]). destruct W. Qed.
Lemma dec_nonempty n : dec 10 n <> [].
Proof. cbn [dec]. intros H. apply app_eq_nil in H as [_ H]. discriminate. Qed.
Lemma lskip_dec n l : 0 <= n -> lskip (decimal n ++ l) = decimal n ++ l.
Proof.
  intros H. unfold decimal. pose proof (dec_digits 10 n H) as D. pose proof (dec_nonempty n) as N. destruct (dec 10 n) as [|d ds]; [congruence|]. inversion D; subst.
  apply lskip_nonwhite. now apply dig_nonwhite.
Qed.

Definition stop (l : list Z) : Prop := match l with [] => True | c :: _ => In c [32; 41; 93; 125; 62] end.
Lemma stop_not k l : stop l -> 0 <= k -> ~ In k [32; 41; 93; 125; 62] -> (lpeek l =? k) = false.
Proof. intros S K N. apply Z.eqb_neq. intros E. destruct l as [|c l]; cbn in E; [unfold EOFChar in E; lia|]. cbn in S. subst. contradiction. Qed.
Ltac notin := unfold cDash, cChoice, cGt, cQuote, cLt, cNeg, cSlash; cbn; lia.

Lemma repSpec_reads mn mx l : 0 <= mn < 2 ^ 32 -> 0 <= mx < 2 ^ 32 -> (mn = 0 /\ mx = 0 \/ mx = 0 \/ mn < mx) -> stop l ->
  repSuffix (repSpec mn mx ++ l) = Some (mn, mx, l).
Proof.
  intros Bn Bx C S. unfold repSpec. change (2 ^ 32) with 4294967296 in *.
  assert (P : forall n, 0 <= n < 4294967296 -> parseUint32 (decimal n) = Some n).
  { intros n H. unfold parseUint32. rewrite decimal_val by exact H. destruct (Z.leb_spec n 4294967295); [reflexivity|lia]. }
  assert (DD : forall n, 0 <= n -> Forall isDig (decimal n)) by (intros; now apply dec_digits).
  assert (LT : forall ds x, 0 <= x < 4294967296 -> Forall isDig ds -> parseUint32 ds = Some x -> (x = 0 \/ mn < x) ->
    repSuffix (60 :: decimal mn ++ 44 :: ds ++ 62 :: l) = Some (mn, x, l)).
  { intros ds x B D PX O. unfold repSuffix. change (inRepeatSpec (60 :: decimal mn ++ 44 :: ds ++ 62 :: l) = Some (mn, x, l)).
    unfold inRepeatSpec, lnext. cbn [tl]. rewrite lskip_dec by lia. rewrite (digits_to true _ 44) by (auto; apply DD; lia). rewrite P by lia.
    change (44 =? 44) with true. cbn iota. rewrite (digits_to false _ 62) by auto. rewrite PX.
    assert (E : negb (x =? 0) && (x <? mn) = false); [|now rewrite E]. destruct (Z.eqb_spec x 0); [reflexivity|]. destruct (Z.ltb_spec x mn); [lia|reflexivity]. }
  destruct (Z.eqb_spec mn mx) as [->|NE].
  - destruct (Z.eqb_spec mx 0) as [->|]; [|lia]. cbn [negb app]. unfold repSuffix.
    now rewrite (stop_not 42 l S), (stop_not 43 l S), (stop_not cLt l S) by notin.
  - unfold cLt, cGt. destruct (Z.eqb_spec mx 0) as [->|NZ].
    + destruct (Z.eqb_spec mn 1) as [->|N1]; [reflexivity|].
      replace (([60] ++ decimal mn ++ [44; 48; 62]) ++ l) with (60 :: decimal mn ++ 44 :: [48] ++ 62 :: l) by (cbn [app]; now rewrite <- app_assoc).
      apply LT; [lia| |reflexivity|lia]. constructor; [unfold isDig; lia|constructor].
    + replace (([60] ++ decimal mn ++ [44] ++ decimal mx ++ [62]) ++ l) with (60 :: decimal mn ++ 44 :: decimal mx ++ 62 :: l).
      2: { cbn [app]. rewrite <- app_assoc. cbn [app]. now rewrite <- app_assoc. }
      apply LT; [lia|apply DD; lia|apply P; lia|lia].
Qed.

(* ---------------- first runes ---------------- *)

Definition heading (c : Z) : Prop := In c [36; 126; 35; 39; 92; 34; 40; 91; 123; 60] \/ firstOf c.
Lemma heading_white c : heading c -> isWS c = false.
Proof.
  intros H. destruct (isWS c) eqn:W; [|reflexivity]. apply white_in in W. unfold heading, firstOf in H. cbn in H. exfalso.
  repeat (destruct W as [W|W]; [lia|]). destruct W.
Qed.
Lemma heading_not c k : heading c -> In k [-1; 41; 93; 125; 62; 33; 94; 124; 47; 32; 10; 9; 13] -> (c =? k) = false.
Proof. intros H K. apply Z.eqb_neq. intros ->. unfold heading, firstOf in H. cbn in H, K. lia. Qed.

Definition tame (terms : list Z) : Prop := forall c, In c terms -> In c [-1; 41; 93; 125; 62; 33; 32].
Lemma tame_head c terms : tame terms -> heading c -> existsb (fun t => t =? c) terms = false.
Proof.
  intros T H. apply not_true_iff_false. intros E. apply existsb_exists in E as (t & I & E). apply Z.eqb_eq in E. subst t.
  apply T in I. unfold heading, firstOf in H. cbn in H, I. lia.
Qed.

(* ---------------- annotations ---------------- *)

Definition annOf (b : rbase) : ann := mkAnn (b_tokenized b) (b_nondata b) (b_virtual b).
Definition bare (r : rule) : list Z := print (set_base r noBase).
Definition core (r : rule) : rule := match r with REOF _ => REOF (mkBase [] true true false) | _ => set_base r noBase end.
Lemma core_annotate r : unnamed (base_of r) -> annotate (annOf (base_of r)) (core r) = r.
Proof. intros N. destruct r; cbn in N |- *; unfold annotate, setAnnotation; cbn; rewrite <- N; now destruct b. Qed.
Lemma annotation_ann b : Forall (fun c => isAnn c = true) (annotation b).
Proof. unfold annotation. destruct (b_tokenized b), (b_virtual b), (b_nondata b); cbn; repeat constructor. Qed.
Lemma annotation_once b : fold_left addAnn (annotation b) noAnn = annOf b.
Proof. unfold annotation, annOf. now destruct (b_tokenized b), (b_virtual b), (b_nondata b). Qed.
Lemma annotation_twice b : fold_left addAnn (annotation b ++ annotation b) noAnn = annOf b.
Proof. unfold annotation, annOf. now destruct (b_tokenized b), (b_virtual b), (b_nondata b). Qed.
Lemma isAnn_cases c : isAnn c = true -> c = 126 \/ c = 35 \/ c = 36.
Proof. unfold isAnn, cVirt, cNonData, cTok. rewrite !orb_true_iff, !Z.eqb_eq. lia. Qed.
Lemma isAnn_heading c : isAnn c = true -> heading c.
Proof. intros H. apply isAnn_cases in H. left. cbn. lia. Qed.

Lemma ann_loop terms rules t us x : tame terms -> lpeek t <> 124 -> forall cs a, Forall (fun c => isAnn c = true) cs ->
  ev (fun n => pLoop n terms rules (fold_left addAnn cs a) t us) x -> ev (fun n => pLoop n terms rules a (cs ++ t) us) x.
Proof.
  intros T N. induction cs as [|c cs IH]; intros a F E; [exact E|]. inversion F as [|? ? A F']; subst. cbn [fold_left app] in *.
  apply ev_step with (g := fun n => pLoop n terms rules (addAnn a c) (cs ++ t) us); [|now apply IH].
  intros n. cbn [pLoop lpeek]. pose proof (isAnn_heading c A) as HD.
  rewrite (heading_not c EOFChar HD), (tame_head c terms T HD), (heading_white c HD), A by (cbn; auto). cbn [lnext tl].
  destruct (Z.eqb_spec (lpeek (cs ++ t)) cChoice) as [E2|_]; [|reflexivity]. exfalso. destruct cs as [|d cs]; [now apply N|].
  cbn in E2. inversion F' as [|? ? A2 _]; subst. discriminate.
Qed.
Lemma ann_one t us x : lpeek t <> 124 -> forall cs a, Forall (fun c => isAnn c = true) cs ->
  ev (fun n => pOne n (fold_left addAnn cs a) t us) x -> ev (fun n => pOne n a (cs ++ t) us) x.
Proof.
  intros N. induction cs as [|c cs IH]; intros a F E; [exact E|]. inversion F as [|? ? A F']; subst. cbn [fold_left app] in *.
  apply ev_step with (g := fun n => pOne n (addAnn a c) (cs ++ t) us); [|now apply IH].
  intros n. cbn [pOne lpeek]. pose proof (isAnn_heading c A) as HD.
  rewrite (heading_not c 32 HD), (heading_not c 10 HD), (heading_not c 9 HD), (heading_not c 13 HD), (heading_not c EOFChar HD), A by (cbn; auto 20). cbn [lnext tl orb].
  destruct (Z.eqb_spec (lpeek (cs ++ t)) cChoice) as [E2|_]; [|reflexivity]. exfalso. destruct cs as [|d cs]; [now apply N|].
  cbn in E2. inversion F' as [|? ? A2 _]; subst. discriminate.
Qed.

Lemma annotation_none : annotation noBase = []. Proof. reflexivity. Qed.
Lemma print_bare r : atomic r -> exists cs, print r = cs ++ bare r /\ Forall (fun c => isAnn c = true) cs /\ fold_left addAnn cs noAnn = annOf (base_of r).
Proof.
  intros A. assert (ONE : print r = annotation (base_of r) ++ bare r -> exists cs, print r = cs ++ bare r /\ Forall (fun c => isAnn c = true) cs /\ fold_left addAnn cs noAnn = annOf (base_of r)).
  { intros E. exists (annotation (base_of r)). split; [exact E|]. split; [apply annotation_ann|apply annotation_once]. }
  destruct A as [b c u N H|b t N L F|b t N F|b lo lu hi hu N H1 H2| | | | | | | | ]; try (apply ONE; reflexivity).
  - apply ONE. unfold bare. cbn [print set_base base_of]. destruct u; [reflexivity|]. destruct (c =? cBack); [reflexivity|]. destruct (c =? cQuote); reflexivity.
  - unfold bare. cbn [print set_base base_of]. rewrite annotation_none. cbn [app].
    assert (EH : rangeEnd b hi hu = rangeEnd noBase hi hu) by (destruct hu; [destruct H2 as [_ ->]; reflexivity|reflexivity]). rewrite EH.
    destruct lu.
    + exists (annotation b ++ annotation b). split; [cbn [rangeEnd]; rewrite annotation_none; cbn [app]; now rewrite <- !app_assoc|]. split; [apply Forall_app; split; apply annotation_ann|apply annotation_twice].
    + exists (annotation b). split; [reflexivity|]. split; [apply annotation_ann|apply annotation_once].
Qed.
Lemma bare_head r : atomic r -> exists c t, bare r = c :: t /\ heading c /\ isAnn c = false.
Proof.
  assert (X : forall c t, In c [39; 92; 34; 40; 91; 123; 60] -> exists c0 t0, c :: t = c0 :: t0 /\ heading c0 /\ isAnn c0 = false).
  { intros c t I. exists c, t. split; [reflexivity|]. split; [left; cbn in *; lia|]. cbn in I. repeat (destruct I as [<-|I]; [reflexivity|]). destruct I. }
  assert (Y : forall c t, firstOf c -> exists c0 t0, c :: t = c0 :: t0 /\ heading c0 /\ isAnn c0 = false).
  { intros c t I. exists c, t. split; [reflexivity|]. split; [now right|]. unfold isAnn, cVirt, cNonData, cTok. unfold firstOf in I.
    destruct (Z.eqb_spec c 126), (Z.eqb_spec c 35), (Z.eqb_spec c 36); try lia; reflexivity. }
  destruct 1 as [b c u N H|b t N L F|b t N F|b lo lu hi hu N H1 H2|b N|b c n N FO I|b x N P|b x N P|b x mn mx N P|b o v c N A1 A2|b o v c x xs N A1 A2 A3|b o v c e xs N A1 A2 A3 A4];
    unfold bare; cbn [print set_base]; rewrite ?annotation_none; cbn [app nonempty]; try (apply X; cbn; auto 10; fail).
  - destruct u; [apply X; cbn; auto|]. destruct (c =? cBack); [apply X; cbn; auto|]. destruct (c =? cQuote); apply X; cbn; auto.
  - unfold rangeEnd. destruct lu; [apply X; cbn; auto|]. destruct (lo =? cQuote); apply X; cbn; auto.
  - apply Y. unfold firstOf. lia.
  - now apply Y.
Qed.
Lemma print_head r : atomic r -> exists c t, print r = c :: t /\ heading c.
Proof.
  intros A. destruct (print_bare r A) as (cs & E & F & _). destruct (bare_head r A) as (c & t & B & H & _). rewrite E, B.
  destruct cs as [|d cs]; [exists c, t; now split|]. cbn [app]. exists d, (cs ++ c :: t). split; [reflexivity|]. inversion F; subst. now apply isAnn_heading.
Qed.

(** A primary rule that is read back can be read back as an element and as an alternative. *)
Definition primOk (r : rule) : Prop := forall us l, stop l -> ev (fun n => pPrim n (bare r ++ l) us) (POk (core r) l (us ++ refs r)).
Lemma atom_named r : atomic r -> unnamed (base_of r).
Proof. now destruct 1. Qed.
Lemma bare_peek r l : atomic r -> lpeek (bare r ++ l) <> 124.
Proof. intros A. destruct (bare_head r A) as (c & t & -> & H & _). cbn. intros ->. unfold heading, firstOf in H. cbn in H. lia. Qed.
Lemma atom_loop r terms rules us l x : atomic r -> primOk r -> tame terms -> stop l ->
  ev (fun n => pLoop n terms (r :: rules) noAnn l (us ++ refs r)) x -> ev (fun n => pLoop n terms rules noAnn (print r ++ l) us) x.
Proof.
  intros A P T S E. destruct (print_bare r A) as (cs & EQ & F & FA). rewrite EQ, <- app_assoc. apply ann_loop; [exact T|now apply bare_peek|exact F|]. rewrite FA.
  apply ev_step with (g := fun n => pbind (pPrim n (bare r ++ l) us) (fun r0 l1 us1 => pLoop n terms (annotate (annOf (base_of r)) r0 :: rules) noAnn l1 us1)).
  - intros n. destruct (bare_head r A) as (c & t & -> & HD & NA). cbn [app pLoop lpeek].
    rewrite (heading_not c EOFChar HD), (tame_head c terms T HD), (heading_white c HD), NA by (cbn; auto).
    rewrite (heading_not c cChoice HD), (heading_not c cGt HD), (heading_not c cSlash HD) by (cbn; auto 20). reflexivity.
  - eapply ev_bind; [apply P; exact S|]. cbv beta. rewrite core_annotate by now apply atom_named. exact E.
Qed.
Lemma atom_one r us l : atomic r -> primOk r -> stop l -> ev (fun n => pOne n noAnn (32 :: print r ++ l) us) (POk r l (us ++ refs r)).
Proof.
  intros A P S. apply ev_step with (g := fun n => pOne n noAnn (print r ++ l) us); [reflexivity|].
  destruct (print_bare r A) as (cs & EQ & F & FA). rewrite EQ, <- app_assoc. apply ann_one; [now apply bare_peek|exact F|]. rewrite FA.
  apply ev_step with (g := fun n => pbind (pPrim n (bare r ++ l) us) (fun r0 l1 us1 => POk (annotate (annOf (base_of r)) r0) l1 us1)).
  - intros n. destruct (bare_head r A) as (c & t & -> & HD & NA). cbn [app pOne lpeek].
    rewrite (heading_not c 32 HD), (heading_not c 10 HD), (heading_not c 9 HD), (heading_not c 13 HD), (heading_not c EOFChar HD), NA by (cbn; auto 20). reflexivity.
  - eapply ev_bind; [apply P; exact S|]. cbv beta. rewrite core_annotate by now apply atom_named. apply ev_const.
Qed.

(* ---------------- primaries without parts ---------------- *)

Lemma ev_now {A} (f : nat -> A) x : (forall n, f (S n) = x) -> ev f x.
Proof. intros H. exists 1%nat. intros [|m] L; [lia|apply H]. Qed.
Lemma stop_dash l : stop l -> (lpeek l =? cDash) = false. Proof. intros S. apply stop_not; [exact S|notin|notin]. Qed.

Lemma quoted_rune c l n : c <> 92 -> (3 <= n)%nat -> quoted n 39 ((if c =? 39 then [92; 39] else [c]) ++ 39 :: l) = Some ([c], false, l).
Proof.
  intros N L. pose proof (quoted_runes [c] l ltac:(now constructor) n) as Q. unfold esc39 in Q. cbn [flat_map] in Q. rewrite app_nil_r in Q. apply Q.
  destruct (c =? 39); cbn; lia.
Qed.
Lemma rangeEnd_text b c : encodable c -> c <> 92 -> rangeEnd b c false = 39 :: (if c =? 39 then [92; 39] else [c]) ++ [39].
Proof. intros E N. unfold rangeEnd, cQuote, cBack, str1. rewrite encodable_utf8 by exact E. destruct (c =? 39); reflexivity. Qed.

Lemma char_reads b c u : atomic (RChar b c u) -> primOk (RChar b c u).
Proof.
  intros A us l S. inversion A as [? ? ? N H| | | | | | | | | | | ]; subst. cbn [core set_base refs]. rewrite app_nil_r. apply ev_now. intros n. unfold bare. cbn [set_base print]. rewrite annotation_none. cbn [app].
  destruct u.
  - change (lift (inUnicode (92 :: 117 :: hex4 c ++ l)) us = POk (RChar noBase c true) l us). unfold inUnicode. cbn [lnext tl]. rewrite hex4_escape by exact H. now rewrite stop_dash.
  - destruct (Z.eqb_spec c cBack) as [->|NB].
    + change (lift (inChar (39 :: 92 :: 92 :: 39 :: l)) us = POk (RChar noBase 92 false) l us). unfold inChar. cbn [length lnext tl]. unfold cQuote.
      rewrite quoted_escape, quoted_end by lia. now rewrite stop_dash.
    + assert (E : (if c =? cQuote then [cQuote; cBack; cQuote; cQuote] else cQuote :: str1 c ++ [cQuote]) = 39 :: (if c =? 39 then [92; 39] else [c]) ++ [39]).
      { unfold cQuote, cBack, str1. rewrite encodable_utf8 by exact H. destruct (c =? 39); reflexivity. }
      rewrite E. cbn [app]. rewrite <- app_assoc. cbn [app].
      change (lift (inChar (39 :: (if c =? 39 then [92; 39] else [c]) ++ 39 :: l)) us = POk (RChar noBase c false) l us). unfold inChar. cbn [lnext tl]. unfold cQuote.
      rewrite quoted_rune; [now rewrite stop_dash|exact NB|]. destruct (c =? 39); cbn; lia.
Qed.
Lemma chars_reads b t : atomic (RChars b t) -> primOk (RChars b t).
Proof.
  intros A us l S. inversion A as [|? ? N L F| | | | | | | | | | ]; subst. cbn [core set_base refs]. rewrite app_nil_r. apply ev_now. intros n. unfold bare. cbn [set_base print]. rewrite annotation_none. cbn [app].
  rewrite escQuote_ok by exact F. rewrite <- app_assoc. cbn [app].
  change (lift (inChar (39 :: esc39 t ++ 39 :: l)) us = POk (RChars noBase t) l us). unfold inChar. cbn [lnext tl]. unfold cQuote. rewrite quoted_runes.
  - destruct t as [|a [|b0 t]]; [cbn in L; lia..|]. reflexivity.
  - eapply Forall_impl; [|exact F]. now intros c [_ ?].
  - cbn. rewrite app_length. cbn. lia.
Qed.
Lemma string_reads b t : atomic (RString b t) -> primOk (RString b t).
Proof.
  intros A us l S. inversion A as [| |? ? N F| | | | | | | | | ]; subst. cbn [core set_base refs]. rewrite app_nil_r. apply ev_now. intros n. unfold bare. cbn [set_base print]. rewrite annotation_none. cbn [app].
  assert (U : List.map utf8_rune t = t) by (apply utf8_all; eapply Forall_impl; [|exact F]; now intros c [? _]).
  rewrite U, <- app_assoc. cbn [app]. change (lift (inString (34 :: t ++ 34 :: l)) us = POk (RString noBase t) l us). unfold inString. cbn [lnext tl]. unfold cDQuote. rewrite quoted_string.
  - now rewrite U.
  - eapply Forall_impl; [|exact F]. now intros c (_ & ?).
  - cbn. rewrite app_length. cbn. lia.
Qed.
Lemma high_reads hi hu lo lu l : highOk noBase hi hu -> inRange (45 :: rangeEnd noBase hi hu ++ l) lo lu = Some (RRange noBase lo lu hi hu, l).
Proof.
  intros H. destruct hu.
  - destruct H as [H _]. unfold rangeEnd. rewrite annotation_none. cbn [app]. unfold inRange.
    change (match parseUnicodeEscape (117 :: hex4 hi ++ l) with Some (h, l2) => Some (RRange noBase lo lu h true, l2) | None => None end = Some (RRange noBase lo lu hi true, l)).
    now rewrite hex4_escape.
  - destruct H as (E & N & Q). rewrite rangeEnd_text by assumption. apply Z.eqb_neq in Q, N. rewrite Q. cbn [app]. unfold inRange, cDash, cQuote, cBack. cbn [lpeek lnext tl]. now rewrite !Z.eqb_refl, N.
Qed.
Lemma highOk_noBase b hi hu : highOk b hi hu -> highOk noBase hi hu.
Proof. destruct hu; cbn; [intros [? _]; now split|auto]. Qed.
Lemma range_reads b lo lu hi hu : atomic (RRange b lo lu hi hu) -> primOk (RRange b lo lu hi hu).
Proof.
  intros A us l S. inversion A as [| | |? ? ? ? ? N L H| | | | | | | | ]; subst. cbn [core set_base refs]. rewrite app_nil_r. apply ev_now. intros n. unfold bare. cbn [set_base print]. rewrite annotation_none. cbn [app].
  apply highOk_noBase in H. rewrite <- app_assoc. cbn [app]. unfold cDash.
  pose proof (high_reads hi hu lo lu l H) as HR. destruct lu.
  - unfold rangeEnd at 1. rewrite annotation_none. cbn [app].
    change (lift (inUnicode (92 :: 117 :: hex4 lo ++ 45 :: rangeEnd noBase hi hu ++ l)) us = POk (RRange noBase lo true hi hu) l us).
    unfold inUnicode. cbn [lnext tl]. rewrite hex4_escape by exact L. cbn [lpeek]. unfold cDash. rewrite Z.eqb_refl. now rewrite HR.
  - destruct L as [E NB]. rewrite (rangeEnd_text noBase lo) by assumption. cbn [app]. rewrite <- app_assoc. cbn [app].
    change (lift (inChar (39 :: (if lo =? 39 then [92; 39] else [lo]) ++ 39 :: 45 :: rangeEnd noBase hi hu ++ l)) us = POk (RRange noBase lo false hi hu) l us).
    unfold inChar. cbn [lnext tl]. unfold cQuote. rewrite quoted_rune; [|exact NB|destruct (lo =? 39); cbn; lia]. cbn [lpeek]. unfold cDash. rewrite Z.eqb_refl. now rewrite HR.
Qed.
Lemma span_all p a l : Forall (fun c => p c = true) a -> match l with [] => True | c :: _ => p c = false end -> span p (a ++ l) = (a, l).
Proof.
  intros F S. induction F as [|c a E F IH]; cbn [app].
  - destruct l as [|c l]; [reflexivity|]. cbn [span]. now rewrite S.
  - cbn [span]. rewrite E. now rewrite IH.
Qed.
Lemma stop_ref l : stop l -> match l with [] => True | c :: _ => isRefChar c = false end.
Proof. destruct l as [|c l]; [auto|]. intros I. cbn in I. repeat (destruct I as [<-|I]; [reflexivity|]). destruct I. Qed.
Lemma isRefChar_ok c : (48 <= c <= 57) \/ (65 <= c <= 90) \/ (97 <= c <= 122) \/ c = 95 -> isRefChar c = true.
Proof. unfold isRefChar, isLetter, isDigit. rewrite !orb_true_iff, !andb_true_iff, !Z.leb_le, Z.eqb_eq. lia. Qed.
Lemma firstOf_letter c : firstOf c -> isLetter c || (c =? 95) = true.
Proof. unfold firstOf, isLetter. rewrite !orb_true_iff, !andb_true_iff, !Z.leb_le, Z.eqb_eq. lia. Qed.
Lemma firstOf_prim n c t us : firstOf c -> pPrim (S n) (c :: t) us = inReference (c :: t) us.
Proof.
  intros F. cbn [pPrim lpeek]. assert (X : forall k, In k [39; 92; 34; 91; 123; 60; 40] -> (c =? k) = false).
  { intros k K. apply Z.eqb_neq. intros ->. unfold firstOf in F. cbn in K. lia. }
  unfold cQuote, cBack, cDQuote, cLBrack, cLBrace, cLt, cLPar. rewrite !X by (cbn; auto 10). now rewrite firstOf_letter.
Qed.
Lemma firstOf_white c : firstOf c -> isWS c = false. Proof. intros F. apply heading_white. now right. Qed.
Lemma eof_reads b : primOk (REOF b).
Proof.
  intros us l S. cbn [core refs]. rewrite app_nil_r. apply ev_now. intros n. unfold bare. cbn [set_base print]. rewrite annotation_none. cbn [app]. unfold nameEOF. cbn [app].
  rewrite firstOf_prim by (unfold firstOf; lia). unfold inReference. rewrite lskip_nonwhite by reflexivity. cbn [lpeek lnext tl]. change (negb (isLetter 69 || (69 =? 95))) with false. cbn iota.
  change (79 :: 70 :: l) with ([79; 70] ++ l). rewrite span_all; [|repeat constructor|now apply stop_ref]. reflexivity.
Qed.
Lemma ref_reads b c n : firstOf c -> ident (c :: n) -> primOk (RRef b (c :: n)).
Proof.
  intros F (_ & NE & I) us l S. cbn [core set_base refs]. apply ev_now. intros k. unfold bare. cbn [set_base print]. rewrite annotation_none. cbn [app].
  rewrite firstOf_prim by exact F. unfold inReference. rewrite lskip_nonwhite by now apply firstOf_white. cbn [lpeek lnext tl]. rewrite firstOf_letter by exact F. cbn [negb].
  rewrite span_all; [|inversion I; subst; eapply Forall_impl; [|eassumption]; apply isRefChar_ok|now apply stop_ref].
  assert (EQ : runes_eqb (c :: n) nameEOF = false) by now apply runes_eqb_neq. now rewrite EQ.
Qed.

(* ---------------- sequences ---------------- *)

Inductive ends : list Z -> list Z -> list Z -> Prop :=
| end_text : ends [EOFChar] [] []
| end_bracket t k : In t [41; 93; 125] -> ends [t] (32 :: t :: k) (t :: k).
Definition follows (l k : list Z) : Prop :=
  (l = [] /\ k = []) \/ (l = 32 :: k /\ exists c t, k = c :: t /\ (heading c \/ In c [41; 93; 125])).

Lemma ends_follows terms l k : ends terms l k -> follows l k.
Proof. intros [|t k0 I]; [now left|]. right. split; [reflexivity|]. exists t, k0. auto. Qed.
Lemma follows_stop l k : follows l k -> stop l.
Proof. intros [[-> _]|[-> _]]; cbn; auto. Qed.
Definition tail (alts : list (bool * rule)) : list Z := flat_map (fun a => 32 :: sign (fst a) :: 32 :: print (snd a)) alts.
Lemma tail_stop alts l : stop l -> stop (tail alts ++ l).
Proof. destruct alts as [|[o x] alts]; [auto|]. intros _. cbn. now left. Qed.
Definition prefix (p : list rule) (gs : list (list rule)) : list (list rule) := match gs with [] => [] | g :: gs' => (p ++ g) :: gs' end.
Lemma prefix_app p q gs : prefix p (prefix q gs) = prefix (p ++ q) gs.
Proof. destruct gs; cbn; [reflexivity|]. now rewrite app_assoc. Qed.
Definition altRefs (alts : list (bool * rule)) : list (list Z) := flat_map (fun a => refs (snd a)) alts.

Lemma choice_end x rs gs us l k : follows l k -> ~ (gs = [] /\ rs = []) ->
  ev (fun n => pChoice n (x :: rs) gs l us) (POk (RChoice noBase (rev gs ++ [rev rs ++ [x]])) k us).
Proof.
  intros F N.
  assert (K : ev (fun n => pChoice n (x :: rs) gs k us) (POk (RChoice noBase (rev gs ++ [rev rs ++ [x]])) k us)).
  { apply ev_now. intros n. cbn [pChoice].
    assert (X : forall c, In c [32; 124; 62] -> (lpeek k =? c) = false).
    { intros c C. destruct F as [[_ ->]|(_ & d & t & -> & H)]; [cbn in C; apply Z.eqb_neq; cbn [lpeek]; unfold EOFChar; lia|]. cbn [lpeek]. destruct H as [H|H].
      - apply heading_not; [exact H|]. cbn in *. intuition.
      - apply Z.eqb_neq. intros ->. cbn in C, H. lia. }
    unfold cSpace, cChoice, cGt. rewrite !X by (cbn; auto). cbn [rev]. destruct gs as [|g gs]; [|reflexivity]. destruct rs as [|y rs]; [|reflexivity]. destruct N. auto. }
  destruct F as [[-> ->]|[-> _]]; [exact K|]. apply ev_step with (2 := K). intros n. reflexivity.
Qed.
Lemma alts_reads alts : (forall o x, In (o, x) alts -> atomic x /\ primOk x) -> forall x rs gs us l k, follows l k -> ~ (alts = [] /\ gs = [] /\ rs = []) ->
  ev (fun n => pChoice n (x :: rs) gs (tail alts ++ l) us) (POk (RChoice noBase (rev gs ++ prefix (rev rs) (grouped x alts))) k (us ++ altRefs alts)).
Proof.
  induction alts as [|[o y] alts IH]; intros H x rs gs us l k F N.
  - cbn [tail flat_map app altRefs grouped prefix]. rewrite app_nil_r. apply choice_end; [exact F|]. intros [-> ->]. now apply N.
  - destruct (H o y) as [A P]; [now left|]. assert (ST : stop (tail alts ++ l)) by (apply tail_stop; eapply follows_stop; eauto).
    cbn [tail flat_map fst snd]. fold (tail alts).
    apply ev_step with (g := fun n => pChoice n (x :: rs) gs ((sign o :: 32 :: print y) ++ tail alts ++ l) us).
    { intros n. cbn [pChoice lpeek app]. change (32 =? cSpace) with true. cbn [lnext tl app]. now rewrite <- app_assoc. }
    pose proof (IH (fun o' x' I => H o' x' (or_intror I)) y) as IH'. unfold altRefs. cbn [flat_map snd]. fold (altRefs alts). rewrite (app_assoc us).
    destruct o; cbn [sign app].
    + apply ev_step with (g := fun n => pbind (pOne n noAnn (32 :: print y ++ tail alts ++ l) us) (fun r l1 us1 => pChoice n [r] (rev (x :: rs) :: gs) l1 us1)); [reflexivity|].
      eapply ev_bind; [apply (atom_one y us _ A P ST)|]. cbv beta. specialize (IH' [] (rev (x :: rs) :: gs) (us ++ refs y) l k F ltac:(intros (_ & ? & _); discriminate)).
      cbn [rev app] in IH'. rewrite <- app_assoc in IH'. cbn [app] in IH'. cbn [grouped prefix rev].
      replace (prefix [] (grouped y alts)) with (grouped y alts) in IH' by (now destruct (grouped y alts)). exact IH'.
    + apply ev_step with (g := fun n => pbind (pOne n noAnn (32 :: print y ++ tail alts ++ l) us) (fun r l1 us1 => pChoice n (r :: x :: rs) gs l1 us1)); [reflexivity|].
      eapply ev_bind; [apply (atom_one y us _ A P ST)|]. cbv beta. specialize (IH' (x :: rs) gs (us ++ refs y) l k F ltac:(intros (_ & _ & ?); discriminate)).
      cbn [grouped]. pose proof (grouped_not_nil y alts) as NN. destruct (grouped y alts) as [|g0 gs0]; [congruence|]. cbn [prefix rev] in *. rewrite <- app_assoc in IH'. exact IH'.
Qed.
Lemma ev_unstep {A} (f g : nat -> A) x : (forall n, f (S n) = g n) -> ev f x -> ev g x.
Proof. intros S [n H]. exists n. intros m L. rewrite <- S. apply H. lia. Qed.

Lemma joinWith_cons sep x l : l <> [] -> joinWith sep (x :: l) = x ++ sep ++ joinWith sep l.
Proof. destruct l; [congruence|reflexivity]. Qed.
Lemma print_choice r alts : print (RChoice noBase (grouped r alts)) = print r ++ tail alts.
Proof.
  change (print (RChoice noBase (grouped r alts))) with (joinWith [32; 62; 32] (List.map (fun g => joinWith [32; 124; 32] (List.map print g)) (grouped r alts))).
  revert r. induction alts as [|[o x] alts IH]; intros r; cbn [grouped tail flat_map fst snd]; [cbn; now rewrite app_nil_r|]. fold (tail alts).
  pose proof (grouped_not_nil x alts) as N. destruct o; cbn [sign].
  - cbn [List.map]. rewrite joinWith_cons by (destruct (grouped x alts); [congruence|discriminate]). rewrite IH. cbn. reflexivity.
  - specialize (IH x). destruct (grouped x alts) as [|g gs] eqn:E; [congruence|]. cbn [List.map] in *.
    assert (G : g <> []). { clear - E. destruct alts as [|[[] y] alts]; cbn in E; [injection E as <- <-; discriminate..|]. destruct (grouped y alts); injection E as <- <-; discriminate. }
    assert (J : joinWith [32; 124; 32] (print r :: List.map print g) = print r ++ [32; 124; 32] ++ joinWith [32; 124; 32] (List.map print g)) by (apply joinWith_cons; destruct g; [congruence|discriminate]).
    rewrite J. destruct gs as [|g2 gs].
    + cbn [List.map joinWith] in *. rewrite IH. cbn. reflexivity.
    + cbn [List.map] in *. rewrite joinWith_cons in * by discriminate. rewrite <- !app_assoc. rewrite IH. cbn. reflexivity.
Qed.
Lemma refs_choice r alts : refs (RChoice noBase (grouped r alts)) = refs r ++ altRefs alts.
Proof.
  cbn [refs]. unfold altRefs. revert r. induction alts as [|[o x] alts IH]; intros r; cbn [grouped flat_map]; [now rewrite !app_nil_r|]. specialize (IH x).
  destruct o; cbn [flat_map snd]; [rewrite IH, app_nil_r; reflexivity|]. destruct (grouped x alts) as [|g gs] eqn:E; [now apply grouped_not_nil in E|].
  cbn [flat_map] in *. now rewrite <- app_assoc, IH.
Qed.
Definition itemOk (r : rule) : Prop := forall terms rules us l k x, tame terms -> ~ In 32 terms -> ~ In 62 terms -> follows l k ->
  ev (fun n => pLoop n terms (r :: rules) noAnn k (us ++ refs r)) x -> ev (fun n => pLoop n terms rules noAnn (print r ++ l) us) x.
Lemma space_step terms rules l us x : ~ In 32 terms -> ev (fun n => pLoop n terms rules noAnn l us) x -> ev (fun n => pLoop n terms rules noAnn (32 :: l) us) x.
Proof.
  intros N. apply ev_step. intros n. cbn [pLoop lpeek]. assert (E : existsb (fun t => t =? 32) terms = false); [|now rewrite E].
  apply not_true_iff_false. intros E. apply existsb_exists in E as (t & I & E). apply Z.eqb_eq in E. now subst.
Qed.
Lemma atom_item r : atomic r -> primOk r -> itemOk r.
Proof.
  intros A P terms rules us l k x T N N62 F E. apply atom_loop; auto; [eapply follows_stop; eauto|].
  destruct F as [[-> ->]|[-> _]]; [exact E|]. now apply space_step.
Qed.
Lemma choice_item r a alts : atomic r -> primOk r -> (forall o x, In (o, x) (a :: alts) -> atomic x /\ primOk x) -> itemOk (RChoice noBase (grouped r (a :: alts))).
Proof.
  intros A P H terms rules us l k x T N N62 F E. rewrite print_choice, <- app_assoc. assert (ST : stop (tail (a :: alts) ++ l)) by (cbn; now left).
  apply atom_loop; auto. pose proof (alts_reads (a :: alts) H r [] [] (us ++ refs r) l k F ltac:(intros (? & _); discriminate)) as AR.
  destruct a as [o y]. cbn [tail flat_map fst snd app] in *. fold (tail alts) in *. apply space_step; [exact N|].
  assert (C : ev (fun n => pChoice n [r] [] (sign o :: 32 :: (print y ++ tail alts) ++ l) (us ++ refs r)) (POk (RChoice noBase (grouped r ((o, y) :: alts))) k ((us ++ refs r) ++ altRefs ((o, y) :: alts)))).
  { eapply ev_unstep; [|replace (grouped r ((o, y) :: alts)) with (prefix [] (grouped r ((o, y) :: alts))) by (now destruct (grouped r ((o, y) :: alts))); exact AR]. intros n. reflexivity. }
  apply ev_step with (g := fun n => pbind (pChoice n [r] [] (sign o :: 32 :: (print y ++ tail alts) ++ l) (us ++ refs r)) (fun ch l1 us1 => pLoop n terms (annotate noAnn ch :: rules) noAnn l1 us1)).
  - intros n. cbn [pLoop lpeek]. assert (E0 : existsb (fun t => t =? sign o) terms = false).
    { apply not_true_iff_false. intros E0. apply existsb_exists in E0 as (t & I & E0). apply Z.eqb_eq in E0. subst t. destruct o; cbn in I; [contradiction|]. apply T in I. cbn in I. lia. }
    rewrite E0. destruct o; reflexivity.
  - eapply ev_bind; [exact C|]. cbv beta. rewrite refs_choice, app_assoc in E. exact E.
Qed.
Lemma ends_terms terms l k : ends terms l k -> tame terms /\ ~ In 32 terms /\ ~ In 62 terms.
Proof. intros [|t k0 I]; (split; [|split]); cbn in *; unfold EOFChar; try lia; intros c [<-|[]]; cbn; lia. Qed.
Lemma ends_done terms l k rules us r : ends terms l k -> finish rules = Some r -> ev (fun n => pLoop n terms rules noAnn k us) (POk r k us).
Proof.
  intros E F. apply ev_now. intros n. cbn [pLoop]. rewrite F. destruct E as [|t k0 I]; [reflexivity|]. cbn [lpeek existsb]. rewrite Z.eqb_refl. cbn [orb].
  now destruct (t =? EOFChar).
Qed.
Definition itemsText (rs : list rule) : list Z := joinWith [32] (List.map print rs).
Lemma item_head r : item r -> exists c t, print r = c :: t /\ heading c.
Proof.
  intros [x A|x a alts A _]; [now apply print_head|]. rewrite print_choice. destruct (print_head x A) as (c & t & -> & H). exists c, (t ++ tail (a :: alts)). now split.
Qed.
Lemma items_reads rs : rs <> [] -> (forall r, In r rs -> item r /\ itemOk r) -> forall terms rules us l k x, ends terms l k ->
  finish (rev rs ++ rules) = Some x -> ev (fun n => pLoop n terms rules noAnn (itemsText rs ++ l) us) (POk x k (us ++ flat_map refs rs)).
Proof.
  unfold itemsText. induction rs as [|r rs IH]; intros NE H terms rules us l k x E F; [congruence|]. destruct (ends_terms _ _ _ E) as (T & N & N62). destruct (H r (or_introl eq_refl)) as [_ IO].
  destruct rs as [|r2 rs].
  - cbn [List.map joinWith flat_map]. rewrite app_nil_r. apply IO with (k := k); auto; [eapply ends_follows; eauto|]. eapply ends_done; [exact E|exact F].
  - cbn [List.map]. rewrite joinWith_cons by discriminate. change (print r2 :: List.map print rs) with (List.map print (r2 :: rs)). rewrite <- !app_assoc. cbn [app].
    cbn [flat_map]. rewrite app_assoc. apply IO with (k := joinWith [32] (List.map print (r2 :: rs)) ++ l); auto.
    + right. split; [reflexivity|]. destruct (item_head r2) as (c & t & P & HD); [apply H; right; now left|]. cbn [List.map]. destruct rs as [|r3 rs].
      * cbn [List.map joinWith]. rewrite P. cbn [app]. eauto.
      * cbn [List.map]. rewrite joinWith_cons by discriminate. rewrite P. cbn [app]. eauto.
    + apply IH; auto; [discriminate|intros; apply H; now right|]. cbn [rev] in F |- *. rewrite <- !app_assoc in *. exact F.
Qed.
Definition plainOk (r : rule) : Prop := forall terms us l k, ends terms l k -> ev (fun n => pLoop n terms [] noAnn (print r ++ l) us) (POk r k (us ++ refs r)).
Lemma print_sequence rs : rs <> [] -> print (sequence rs) = itemsText rs /\ refs (sequence rs) = flat_map refs rs.
Proof. intros N. destruct rs as [|r [|r2 rs]]; [congruence| |]; cbn [sequence]; [|split; reflexivity]. cbn. rewrite app_nil_r. now split. Qed.
Lemma finish_rev rs : rs <> [] -> finish (rev rs ++ []) = Some (sequence rs).
Proof.
  intros N. rewrite app_nil_r. destruct rs as [|r [|r2 rs]]; [congruence|reflexivity|]. unfold finish, sequence.
  destruct (rev (r :: r2 :: rs)) as [|a [|b l]] eqn:E; try (apply (f_equal (@length rule)) in E; rewrite rev_length in E; cbn in E; lia).
  rewrite <- E, rev_involutive. reflexivity.
Qed.
Lemma sequence_ok rs : rs <> [] -> (forall r, In r rs -> item r /\ itemOk r) -> plainOk (sequence rs).
Proof.
  intros N H terms us l k E. destruct (print_sequence rs N) as [-> ->]. eapply items_reads; eauto. now apply finish_rev.
Qed.

(* ---------------- brackets ---------------- *)

Lemma plain_head r : plain r -> exists c t, print r = c :: t /\ heading c.
Proof.
  intros [rs I]. assert (N : rs <> []) by (destruct I; discriminate). destruct (print_sequence rs N) as [-> _]. unfold itemsText.
  destruct I as [x I|x rs0 I _]; destruct (item_head x I) as (c & t & P & H); cbn [List.map].
  - cbn [joinWith]. rewrite P. eauto.
  - destruct rs0 as [|y rs0]; [cbn [List.map joinWith]; rewrite P; eauto|]. cbn [List.map]. rewrite joinWith_cons by discriminate. rewrite P. cbn [app]. eauto.
Qed.
Lemma lskip_space l : lskip (32 :: l) = lskip l.
Proof. unfold lskip. cbn [ws_prefix]. reflexivity. Qed.
Lemma lskip_heading c t : heading c -> lskip (c :: t) = c :: t. Proof. intros H. apply lskip_nonwhite. now apply heading_white. Qed.
Lemma lskip_plain r l : plain r -> lskip (32 :: print r ++ l) = print r ++ l.
Proof. intros P. destruct (plain_head r P) as (c & t & -> & H). rewrite lskip_space. cbn [app]. now apply lskip_heading. Qed.
Lemma lskip_atom r l : atomic r -> lskip (32 :: print r ++ l) = print r ++ l.
Proof. intros A. destruct (print_head r A) as (c & t & -> & H). rewrite lskip_space. cbn [app]. now apply lskip_heading. Qed.
Lemma lskip_atom' r l : atomic r -> lskip (print r ++ l) = print r ++ l.
Proof. intros A. destruct (print_head r A) as (c & t & -> & H). cbn [app]. now apply lskip_heading. Qed.

Lemma group_reads b x : plain x -> plainOk x -> primOk (RGroup b x).
Proof.
  intros P O us l S. cbn [core set_base refs]. unfold bare. cbn [set_base print]. rewrite annotation_none. cbn [app]. rewrite <- app_assoc. cbn [app].
  apply ev_step with (g := fun n => pbind (pLoop n [41] [] noAnn (lskip (32 :: print x ++ 32 :: 41 :: l)) us) (fun r l1 us1 => if lpeek l1 =? cRPar then POk (RGroup noBase r) (lnext l1) us1 else PErr us1)); [reflexivity|].
  rewrite lskip_plain by exact P. eapply ev_bind; [apply O; apply end_bracket; cbn; auto|]. apply ev_const.
Qed.
Lemma option_reads b x : plain x -> plainOk x -> primOk (ROption b x).
Proof.
  intros P O us l S. cbn [core set_base refs]. unfold bare. cbn [set_base print]. rewrite annotation_none. cbn [app]. rewrite <- app_assoc. cbn [app].
  apply ev_step with (g := fun n => pbind (pLoop n [93] [] noAnn (lskip (32 :: print x ++ 32 :: 93 :: l)) us) (fun r l1 us1 => if lpeek l1 =? cRBrack then POk (ROption noBase r) (lnext l1) us1 else PErr us1)); [reflexivity|].
  rewrite lskip_plain by exact P. eapply ev_bind; [apply O; apply end_bracket; cbn; auto|]. apply ev_const.
Qed.
(** A repetition, with whatever follows the brace. *)
Lemma repetition_reads x s mn mx l us : plain x -> plainOk x -> repSuffix (s ++ l) = Some (mn, mx, l) ->
  ev (fun n => pPrim n (123 :: 32 :: print x ++ 32 :: 125 :: s ++ l) us) (POk (RRep noBase x mn mx) l (us ++ refs x)).
Proof.
  intros P O R.
  apply ev_step with (g := fun n => pbind (pLoop n [125] [] noAnn (lskip (32 :: print x ++ 32 :: 125 :: s ++ l)) us) (fun r l1 us1 => if lpeek l1 =? cRBrace then
        match repSuffix (lnext l1) with Some (mn, mx, l2) => POk (RRep noBase r mn mx) l2 us1 | None => PErr us1 end else PErr us1)); [reflexivity|].
  rewrite lskip_plain by exact P. eapply ev_bind; [apply O; apply end_bracket; cbn; auto|]. cbv beta. cbn [lpeek lnext tl]. rewrite R. apply ev_const.
Qed.
Lemma repetition_fails x s us : plain x -> plainOk x -> repSuffix s = None ->
  ev (fun n => pPrim n (123 :: 32 :: print x ++ 32 :: 125 :: s) us) (PErr (us ++ refs x)).
Proof.
  intros P O R.
  apply ev_step with (g := fun n => pbind (pLoop n [125] [] noAnn (lskip (32 :: print x ++ 32 :: 125 :: s)) us) (fun r l1 us1 => if lpeek l1 =? cRBrace then
        match repSuffix (lnext l1) with Some (mn, mx, l2) => POk (RRep noBase r mn mx) l2 us1 | None => PErr us1 end else PErr us1)); [reflexivity|].
  rewrite lskip_plain by exact P. eapply ev_bind; [apply O; apply end_bracket; cbn; auto|]. cbv beta. cbn [lpeek lnext tl]. rewrite R. apply ev_const.
Qed.
Lemma rep_reads b x mn mx : atomic (RRep b x mn mx) -> plainOk x -> primOk (RRep b x mn mx).
Proof.
  intros A O us l S. inversion A as [| | | | | | | |? ? ? ? N P B1 B2 C| | | ]; subst. cbn [core set_base refs]. unfold bare. cbn [set_base print]. rewrite annotation_none. cbn [app].
  rewrite <- app_assoc. cbn [app]. apply repetition_reads; auto. now apply repSpec_reads.
Qed.

(* ---------------- blocks ---------------- *)

Lemma tame_block : tame termsBlock. Proof. intros c H. cbn in *. unfold cSpace, cGt, cBang in *. lia. Qed.
Lemma tame_close : tame termsClose. Proof. intros c H. cbn in *. unfold cGt, cBang in *. lia. Qed.
Lemma part_reads r c l us : atomic r -> primOk r -> (c = 32 \/ c = 62) -> ev (fun n => pLoop n termsBlock [] noAnn (print r ++ c :: l) us) (POk r (c :: l) (us ++ refs r)).
Proof.
  intros A P C. apply atom_loop; auto; [apply tame_block|cbn; lia|]. apply ev_now. intros n. destruct C as [-> | ->]; reflexivity.
Qed.
Definition closeText (v : bool) (l : list Z) : list Z := (if v then [32; 33] else []) ++ 62 :: l.
Definition closeRest (v : bool) (l : list Z) : list Z := (if v then [33] else []) ++ 62 :: l.
Lemma close_reads r v l us : atomic r -> primOk r -> ev (fun n => pLoop n termsClose [] noAnn (print r ++ closeText v l) us) (POk r (closeRest v l) (us ++ refs r)).
Proof.
  intros A P. apply atom_loop; auto; [apply tame_close|destruct v; cbn; lia|]. destruct v; unfold closeText, closeRest; cbn [app].
  - apply space_step; [cbn; unfold cGt, cBang; lia|]. apply ev_now. reflexivity.
  - apply ev_now. reflexivity.
Qed.
Definition exclText (xs : list rule) : list Z := flat_map (fun y => [32; 94] ++ print y) xs.
Lemma excl_reads o e c v l : atomic c -> primOk c -> forall xs, (forall x, In x xs -> atomic x /\ primOk x) -> forall done us t,
  (t = exclText xs ++ 32 :: print c ++ closeText v l \/ 32 :: t = exclText xs ++ 32 :: print c ++ closeText v l) ->
  ev (fun n => pExcl n o e done t us) (POk (RBlock noBase o v c e (rev done ++ xs)) l (us ++ flat_map refs xs ++ refs c)).
Proof.
  intros AC PC. induction xs as [|x xs IH]; intros H done us t T.
  - cbn [exclText flat_map app] in T.
    assert (L : lskip t = print c ++ closeText v l).
    { destruct T as [-> | [= ->]]; [now apply lskip_atom|now apply lskip_atom']. }
    apply ev_step with (g := fun n => pbind (pLoop n termsClose [] noAnn (print c ++ closeText v l) us) (fun cl l2 us1 =>
      let c := lpeek l2 in let l3 := lnext l2 in
      if c =? cBang then let l4 := lskip l3 in if lpeek l4 =? cGt then POk (RBlock noBase o true cl e (rev done)) (lnext l4) us1 else PErr us1
      else if c =? cGt then POk (RBlock noBase o false cl e (rev done)) l3 us1 else PErr us1)).
    { intros n. cbn [pExcl]. rewrite L. assert (X : (lpeek (print c ++ closeText v l) =? cNeg) = false).
      { destruct (print_head c AC) as (d & p & -> & HD). cbn. apply heading_not; [exact HD|]. cbn. auto 20. }
      rewrite X. rewrite (lskip_atom' c _ AC). reflexivity. }
    eapply ev_bind; [now apply close_reads|]. cbv beta. rewrite app_nil_r. cbn [flat_map app]. destruct v; apply ev_const.
  - destruct (H x) as [A P]; [now left|].
    assert (T' : t = exclText (x :: xs) ++ 32 :: print c ++ closeText v l \/ t = 94 :: print x ++ exclText xs ++ 32 :: print c ++ closeText v l).
    { destruct T as [T|T]; [now left|right]. cbn [exclText flat_map] in T. rewrite <- app_assoc in T. cbn [app] in T. now injection T. }
    set (k := exclText xs ++ 32 :: print c ++ closeText v l) in *.
    assert (K : exists k', k = 32 :: k') by (unfold k; destruct xs; cbn; eauto). destruct K as [k' K].
    assert (L : lskip t = 94 :: print x ++ k).
    { destruct T' as [-> | ->]; [|reflexivity]. cbn [exclText flat_map]. rewrite <- app_assoc. cbn [app]. rewrite lskip_space. reflexivity. }
    apply ev_step with (g := fun n => pbind (pLoop n termsBlock [] noAnn (print x ++ k) us) (fun x0 l2 us1 => pExcl n o e (x0 :: done) l2 us1)).
    { intros n. cbn [pExcl]. rewrite L. cbn [lpeek lnext tl]. rewrite (lskip_atom' x _ A). reflexivity. }
    rewrite K. eapply ev_bind; [apply part_reads; auto|]. cbv beta. cbn [flat_map]. rewrite <- K, <- app_assoc, (app_assoc us).
    replace (rev done ++ x :: xs) with (rev (x :: done) ++ xs) by (cbn [rev]; now rewrite <- app_assoc). apply IH; [intros; apply H; now right|]. now left.
Qed.

Lemma open_step o t us : atomic o -> primOk o -> forall x,
  ev (fun n => (fun o l1 us1 =>
      let l2 := lskip l1 in
      if negb (lpeek l2 =? cNeg) then
        do! r, l3, us2 <- pLoop n termsBlock [] noAnn (lskip l2) us1;
        let l4 := lskip l3 in
        if lpeek l4 =? cGt then POk (RBlock noBase o false r None []) (lnext l4) us2
        else if lpeek l4 =? cBang then
          let l5 := lskip (lnext l4) in
          if lpeek l5 =? cGt then POk (RBlock noBase o true r None []) (lnext l5) us2 else PErr us2
        else pExcl n o (Some r) [] l4 us2
      else pExcl n o None [] l2 us1) o (32 :: t) (us ++ refs o)) x ->
  ev (fun n => pPrim n (60 :: print o ++ 32 :: t) us) x.
Proof.
  intros A P x E.
  apply ev_step with (g := fun n => pbind (pLoop n termsBlock [] noAnn (lskip (print o ++ 32 :: t)) us) (fun o l1 us1 =>
      let l2 := lskip l1 in
      if negb (lpeek l2 =? cNeg) then
        do! r, l3, us2 <- pLoop n termsBlock [] noAnn (lskip l2) us1;
        let l4 := lskip l3 in
        if lpeek l4 =? cGt then POk (RBlock noBase o false r None []) (lnext l4) us2
        else if lpeek l4 =? cBang then
          let l5 := lskip (lnext l4) in
          if lpeek l5 =? cGt then POk (RBlock noBase o true r None []) (lnext l5) us2 else PErr us2
        else pExcl n o (Some r) [] l4 us2
      else pExcl n o None [] l2 us1)); [reflexivity|].
  rewrite (lskip_atom' o _ A). eapply ev_bind; [apply part_reads; auto|]. exact E.
Qed.
Lemma atom_notneg r l : atomic r -> (lpeek (print r ++ l) =? cNeg) = false /\ (lpeek (print r ++ l) =? cGt) = false /\ (lpeek (print r ++ l) =? cBang) = false.
Proof. intros A. destruct (print_head r A) as (d & p & -> & HD). cbn [app lpeek]. repeat split; apply heading_not; auto; cbn; auto 20. Qed.
Lemma block_reads b o v c e xs : atomic o -> primOk o -> atomic c -> primOk c -> (forall x, e = Some x -> atomic x /\ primOk x) ->
  (forall x, In x xs -> atomic x /\ primOk x) -> primOk (RBlock b o v c e xs).
Proof.
  intros AO PO AC PC HE HX us l S. cbn [core set_base refs]. unfold bare. cbn [set_base print]. rewrite annotation_none. cbn [app].
  set (en := exclText xs ++ 32 :: print c ++ closeText v l).
  assert (TX : 60 :: (print o ++ match e with Some e0 => 32 :: print e0 | None => [] end ++ flat_map (fun y => [32; 94] ++ print y) xs ++ 32 :: print c ++ (if v then [32; 33] else []) ++ [62]) ++ l =
    60 :: print o ++ match e with Some e0 => 32 :: print e0 | None => [] end ++ en).
  { f_equal. unfold en, closeText, exclText. rewrite <- !app_assoc. cbn [app]. rewrite <- !app_assoc. reflexivity. }
  change (flat_map (fun y : rule => cSpace :: cNeg :: print y) xs) with (flat_map (fun y => [32; 94] ++ print y) xs).
  change (ev (fun n => pPrim n (60 :: (print o ++ match e with Some e0 => 32 :: print e0 | None => [] end ++ flat_map (fun y => [32; 94] ++ print y) xs ++ 32 :: print c ++ (if v then [32; 33] else []) ++ [62]) ++ l) us)
    (POk (RBlock noBase o v c e xs) l (us ++ refs o ++ match e with Some x => refs x | None => [] end ++ flat_map refs xs ++ refs c))).
  rewrite TX. clear TX. rewrite (app_assoc us). destruct e as [e|].
  - destruct (HE e eq_refl) as [AE PE]. apply open_step; auto. cbv beta zeta. rewrite (lskip_atom e _ AE). destruct (atom_notneg e en AE) as (-> & _). cbn [negb]. rewrite (lskip_atom' e _ AE).
    assert (K : exists k', en = 32 :: k') by (unfold en; destruct xs; cbn; eauto). destruct K as [k' K]. rewrite K.
    eapply ev_bind; [apply part_reads; auto|]. cbv beta.
    assert (L : lskip (32 :: k') = k' /\ (lpeek k' =? cGt) = false /\ (lpeek k' =? cBang) = false).
    { rewrite lskip_space. unfold en in K. destruct xs as [|x xs].
      - cbn [exclText flat_map app] in K. injection K as <-. split; [now apply lskip_atom'|]. apply (atom_notneg c _ AC).
      - cbn [exclText flat_map] in K. injection K as <-. rewrite <- app_assoc. cbn [app]. repeat split; reflexivity. }
    destruct L as (-> & -> & ->). rewrite (app_assoc (us ++ refs o)). change (RBlock noBase o v c (Some e) xs) with (RBlock noBase o v c (Some e) (rev [] ++ xs)).
    apply excl_reads; auto.
  - cbn [app]. destruct xs as [|x xs].
    + unfold en. cbn [exclText flat_map app]. apply open_step; auto. cbv beta zeta. rewrite (lskip_atom c _ AC). destruct (atom_notneg c (closeText v l) AC) as (-> & _). cbn [negb]. rewrite (lskip_atom' c _ AC).
      destruct v; unfold closeText; cbn [app]; (eapply ev_bind; [apply part_reads; auto|]); exists 0%nat; intros; reflexivity.
    + unfold en. set (k := print x ++ exclText xs ++ 32 :: print c ++ closeText v l).
      assert (EQ : exclText (x :: xs) ++ 32 :: print c ++ closeText v l = 32 :: 94 :: k) by (unfold k; cbn [exclText flat_map]; rewrite <- app_assoc; reflexivity).
      rewrite EQ. apply open_step; auto. cbv beta zeta. rewrite lskip_space. rewrite (lskip_nonwhite 94) by reflexivity. cbn [lpeek]. change (negb (94 =? cNeg)) with false. cbn iota.
      change (RBlock noBase o v c None (x :: xs)) with (RBlock noBase o v c None (rev [] ++ x :: xs)). apply excl_reads; auto.
Qed.

(* ---------------- all together ---------------- *)

Lemma print_reads :
  (forall r, atomic r -> primOk r) /\ (forall xs, atomics xs -> forall x, In x xs -> atomic x /\ primOk x) /\
  (forall alts, alternatives alts -> forall o x, In (o, x) alts -> atomic x /\ primOk x) /\ (forall r, item r -> itemOk r) /\
  (forall rs, items rs -> rs <> [] /\ forall r, In r rs -> item r /\ itemOk r) /\ (forall r, plain r -> plainOk r).
Proof.
  apply print_mind.
  - intros. apply char_reads. now constructor.
  - intros. apply chars_reads. now constructor.
  - intros. apply string_reads. now constructor.
  - intros. apply range_reads. now constructor.
  - intros. apply eof_reads.
  - intros. now apply ref_reads.
  - intros. now apply group_reads.
  - intros. now apply option_reads.
  - intros. apply rep_reads; [now constructor|assumption].
  - intros. apply block_reads; auto; try discriminate; try (intros ? []).
  - intros. apply block_reads; auto; try discriminate.
  - intros. apply block_reads; auto. intros y [= <-]. auto.
  - intros x [].
  - intros x xs A P AS H y [<-|Y]; auto.
  - intros o x [].
  - intros o x alts A P AS H o' y [[= <- <-]|Y]; eauto.
  - intros r A P. now apply atom_item.
  - intros r a alts A P AS H. now apply choice_item.
  - intros r I O. split; [discriminate|]. intros x [<-|[]]. auto.
  - intros r rs I O IS [_ H]. split; [discriminate|]. intros x [<-|X]; auto.
  - intros rs IS [N H]. now apply sequence_ok.
Qed.

Lemma parse_print r : plain r -> clean (print r) -> parseText (print r) = POk r [] (refs r).
Proof.
  intros P C. destruct print_reads as (_ & _ & _ & _ & _ & PR). destruct (PR r P [EOFChar] [] [] [] end_text) as [n E]. rewrite app_nil_r in E. cbn [app] in E.
  apply parse_by_fuel with (n := n); [exact C| |discriminate].
  destruct (plain_head r P) as (c & t & EQ & H). rewrite EQ in *. rewrite lskip_heading by exact H. now apply E.
Qed.

(* ---------------- the printed text as an argument of ParseRule ---------------- *)

Lemma clean_app a b : clean a -> clean b -> clean (a ++ b). Proof. intros A B. now apply Forall_app. Qed.
Lemma clean_cons c l : 0 <= c -> clean l -> clean (c :: l). Proof. intros A B. now constructor. Qed.
Lemma clean_nil : clean []. Proof. constructor. Qed.
Lemma hex_clean c : clean (hex4 c).
Proof.
  assert (H : forall d, 0 <= hexDigit (d mod 16)) by (intros d; unfold hexDigit; pose proof (Z.mod_pos_bound d 16 ltac:(lia)); destruct (_ <? _); lia).
  unfold hex4. repeat (apply clean_cons; [apply H|]). apply clean_nil.
Qed.
Lemma annotation_clean b : clean (annotation b).
Proof. unfold annotation, cTok, cVirt, cNonData. destruct (b_tokenized b), (b_virtual b), (b_nondata b); cbn; repeat (apply clean_cons; [lia|]); apply clean_nil. Qed.
Lemma rangeEnd_clean b c u : clean (rangeEnd b c u).
Proof.
  unfold rangeEnd, cBack, cQuote, str1. destruct u; [apply clean_app; [apply annotation_clean|]; cbn [app]; repeat (apply clean_cons; [lia|]); apply hex_clean|].
  destruct (c =? 39); cbn [app]; repeat (apply clean_cons; [try lia; apply utf8_pos|]); apply clean_nil.
Qed.
Lemma decimal_clean n : 0 <= n -> clean (decimal n).
Proof. intros H. eapply Forall_impl; [|apply (dec_digits 10 n H)]. unfold isDig. intros. lia. Qed.
Lemma repSpec_clean mn mx : 0 <= mn -> 0 <= mx -> clean (repSpec mn mx).
Proof.
  intros A B. unfold repSpec, cLt, cGt. destruct (mn =? mx); [destruct (negb _); [|apply clean_nil]|destruct (mx =? 0); [destruct (mn =? 1); [apply clean_cons; [lia|apply clean_nil]|]|]];
    cbn [app]; (apply clean_cons; [lia|]); (apply clean_app; [now apply decimal_clean|]); repeat (apply clean_cons; [lia|]); try apply clean_nil.
  apply clean_app; [now apply decimal_clean|]. apply clean_cons; [lia|apply clean_nil].
Qed.
Lemma escQuote_clean t : clean (escQuote t).
Proof. unfold escQuote. induction t as [|c t IH]; [apply clean_nil|]. cbn [flat_map]. apply clean_app; [|exact IH]. unfold cQuote, cBack, str1. destruct (c =? 39); repeat (apply clean_cons; [try lia; apply utf8_pos|]); apply clean_nil. Qed.
Lemma utf8_clean t : clean (List.map utf8_rune t).
Proof. induction t as [|c t IH]; [apply clean_nil|]. cbn [List.map]. apply clean_cons; [apply utf8_pos|exact IH]. Qed.
Lemma joinWith_clean sep l : clean sep -> (forall x, In x l -> clean x) -> clean (joinWith sep l).
Proof.
  intros S. induction l as [|x [|y l] IH]; intros H; [apply clean_nil|apply H; now left|]. rewrite joinWith_cons by discriminate.
  apply clean_app; [apply H; now left|]. apply clean_app; [exact S|]. apply IH. intros z Z. apply H. now right.
Qed.
Ltac cl := cbn [app]; repeat first [assumption | apply clean_nil | apply annotation_clean | apply hex_clean | apply escQuote_clean | apply utf8_clean | apply rangeEnd_clean
  | (apply clean_cons; [first [unfold cTok, cVirt, cNonData, cNeg, cChoice, cGt, cLBrace, cRBrace, cLBrack, cRBrack, cLPar, cRPar, cLt, cBang, cDash, cQuote, cDQuote, cBack, cSlash, cSpace; lia | apply utf8_pos]|])
  | apply clean_app].
Lemma tail_clean alts : (forall o x, In (o, x) alts -> clean (print x)) -> clean (tail alts).
Proof.
  intros H. unfold tail. induction alts as [|[o x] alts IH]; [apply clean_nil|]. cbn [flat_map fst snd].
  assert (S : 0 <= sign o) by (destruct o; cbn; lia). assert (X : clean (print x)) by (eapply H; left; reflexivity). apply clean_app; [|apply IH; intros; eapply H; right; eassumption].
  apply clean_cons; [lia|]. apply clean_cons; [exact S|]. apply clean_cons; [lia|exact X].
Qed.
Lemma print_clean_all :
  (forall r, atomic r -> clean (print r)) /\ (forall xs, atomics xs -> forall x, In x xs -> clean (print x)) /\
  (forall alts, alternatives alts -> forall o x, In (o, x) alts -> clean (print x)) /\ (forall r, item r -> clean (print r)) /\
  (forall rs, items rs -> rs <> [] /\ forall r, In r rs -> clean (print r)) /\ (forall r, plain r -> clean (print r)).
Proof.
  assert (EX : forall xs, (forall x, In x xs -> clean (print x)) -> clean (flat_map (fun y => [cSpace; cNeg] ++ print y) xs)).
  { intros xs H. induction xs as [|x xs IH]; [apply clean_nil|]. cbn [flat_map]. assert (clean (print x)) by (apply H; now left). apply clean_app; [cl|]. apply IH. intros; apply H; now right. }
  apply print_mind.
  - intros b c u _ _. cbn [print]. unfold str1. destruct u; [cl|]. destruct (c =? cBack); [cl|]. destruct (c =? cQuote); cl.
  - intros. cbn [print]. cl.
  - intros. cbn [print]. cl.
  - intros. cbn [print]. cl.
  - intros. cbn [print]. unfold nameEOF. cl; lia.
  - intros b c n _ F (_ & _ & I). cbn [print]. apply clean_app; [apply annotation_clean|]. eapply Forall_impl; [|exact I]. cbn. intros. lia.
  - intros. cbn [print]. cl.
  - intros. cbn [print]. cl.
  - intros b x mn mx _ _ C B1 B2 _. cbn [print]. assert (clean (repSpec mn mx)) by (apply repSpec_clean; lia). cl.
  - intros b o v c _ _ C1 _ C2. cbn [print]. destruct v; cl.
  - intros b o v c x xs _ _ C1 _ C2 _ H. cbn [print]. apply EX in H. revert H. generalize (flat_map (fun y => [cSpace; cNeg] ++ print y) (x :: xs)). intros fm H. destruct v; cl.
  - intros b o v c e xs _ _ C1 _ C2 _ C3 _ H. cbn [print]. apply EX in H. destruct v; cl.
  - intros x [].
  - intros x xs A P AS H y [<-|Y]; auto.
  - intros o x [].
  - intros o x alts A P AS H o' y [[= <- <-]|Y]; eauto.
  - auto.
  - intros r a alts A C AS H. rewrite print_choice. apply clean_app; [exact C|now apply tail_clean].
  - intros r I C. split; [discriminate|]. intros x [<-|[]]. exact C.
  - intros r rs I C IS [_ H]. split; [discriminate|]. intros x [<-|X]; auto.
  - intros rs IS [N H]. destruct (print_sequence rs N) as [-> _]. unfold itemsText. apply joinWith_clean; [cl; lia|]. intros t T. apply in_map_iff in T as (x & <- & X). auto.
Qed.
Lemma print_clean r : plain r -> clean (print r). Proof. apply print_clean_all. Qed.

Definition lastOk (l : list Z) : Prop := exists x c, l = x ++ [c] /\ isWS c = false.
Lemma last_app a b : lastOk b -> lastOk (a ++ b).
Proof. intros (x & c & -> & W). exists (a ++ x), c. split; [now rewrite app_assoc|exact W]. Qed.
Lemma last_cons a b : lastOk b -> lastOk (a :: b). Proof. apply (last_app [a]). Qed.
Lemma last_one c : isWS c = false -> lastOk [c]. Proof. intros W. now exists [], c. Qed.
Lemma hexDigit_nonwhite d : isWS (hexDigit (d mod 16)) = false.
Proof.
  destruct (isWS _) eqn:W; [|reflexivity]. apply white_in in W. unfold hexDigit in W. pose proof (Z.mod_pos_bound d 16 ltac:(lia)). destruct (Z.ltb_spec (d mod 16) 10); repeat (destruct W as [W|W]; [lia|]); destruct W.
Qed.
Lemma hex_last c : lastOk (hex4 c).
Proof. unfold hex4. do 3 apply last_cons. apply last_one, hexDigit_nonwhite. Qed.
Lemma ident_last n : n <> [] -> Forall (fun c => (48 <= c <= 57) \/ (65 <= c <= 90) \/ (97 <= c <= 122) \/ c = 95) n -> lastOk n.
Proof.
  intros N F. destruct (exists_last N) as (x & c & ->). exists x, c. split; [reflexivity|]. apply Forall_app in F as [_ F]. inversion F; subst.
  destruct (isWS c) eqn:W; [|reflexivity]. apply white_in in W. repeat (destruct W as [W|W]; [lia|]). destruct W.
Qed.
Lemma rep_last mn mx l : lastOk l -> lastOk (l ++ repSpec mn mx).
Proof.
  intros L. unfold repSpec. destruct (mn =? mx); [destruct (negb _); [|now rewrite app_nil_r]|destruct (mx =? 0); [destruct (mn =? 1)|]]; apply last_app; [|apply last_one; reflexivity|..];
    apply last_cons, last_app; [apply last_one; reflexivity|apply last_cons, last_cons, last_one; reflexivity|]. apply last_cons, last_app, last_one. reflexivity.
Qed.
Lemma atom_last r : atomic r -> lastOk (print r).
Proof.
  assert (RE : forall b c u, lastOk (rangeEnd b c u)).
  { intros b c u. unfold rangeEnd. destruct u; [apply last_app, last_app, hex_last|]. destruct (c =? cQuote); [do 3 apply last_cons; apply last_one; reflexivity|]. do 2 apply last_app. apply last_one. reflexivity. }
  destruct 1 as [b c u N H|b t N L F|b t N F|b lo lu hi hu N H1 H2|b N|b c n N FO (NE & _ & I)|b x N P|b x N P|b x mn mx N P|b o v c N A1 A2|b o v c x xs N A1 A2 A3|b o v c e xs N A1 A2 A3 A4]; cbn [print].
  - destruct u; [do 2 apply last_app; apply hex_last|]. destruct (c =? cBack); [apply last_app; do 3 apply last_cons; apply last_one; reflexivity|].
    destruct (c =? cQuote); [apply last_app; do 3 apply last_cons; apply last_one; reflexivity|]. do 3 apply last_app. apply last_one. reflexivity.
  - do 3 apply last_app. apply last_one. reflexivity.
  - do 3 apply last_app. apply last_one. reflexivity.
  - do 3 apply last_app. apply RE.
  - apply last_app. do 2 apply last_cons. apply last_one. reflexivity.
  - apply last_app. now apply ident_last.
  - do 3 apply last_app. apply last_cons, last_one. reflexivity.
  - do 3 apply last_app. apply last_cons, last_one. reflexivity.
  - do 3 apply last_app. apply rep_last, last_cons, last_one. reflexivity.
  - repeat apply last_app. apply last_one. reflexivity.
  - repeat apply last_app. apply last_one. reflexivity.
  - repeat apply last_app. apply last_one. reflexivity.
Qed.

Lemma tail_last l alts : lastOk l -> (forall o x, In (o, x) alts -> lastOk (print x)) -> lastOk (l ++ tail alts).
Proof.
  intros L H. revert l L. unfold tail. induction alts as [|[o x] alts IH]; intros l L; cbn [flat_map fst snd]; [now rewrite app_nil_r|].
  rewrite app_assoc. apply IH; [intros; eapply H; right; eassumption|]. apply last_app. do 3 apply last_cons. eapply H. left. reflexivity.
Qed.
Lemma item_last r : item r -> lastOk (print r).
Proof.
  destruct 1 as [r A|r a alts A AS]; [now apply atom_last|]. rewrite print_choice. apply tail_last; [now apply atom_last|].
  revert AS. generalize (a :: alts). intros l AS. induction AS as [|o x l AX AS IH]; [intros o x []|]. intros o' y [[= <- <-]|Y]; [now apply atom_last|now apply (IH o')].
Qed.
Lemma items_last rs : items rs -> lastOk (itemsText rs).
Proof.
  unfold itemsText. induction 1 as [r I|r rs I IS IH]; cbn [List.map]; [now apply item_last|].
  rewrite joinWith_cons by (inversion IS; discriminate). apply last_app, last_app, IH.
Qed.
Lemma plain_last r : plain r -> lastOk (print r).
Proof. intros [rs IS]. destruct (print_sequence rs ltac:(inversion IS; discriminate)) as [-> _]. now apply items_last. Qed.
