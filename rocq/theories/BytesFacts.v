(** Proofs about the conversions between bytes and runes. *)
From Coq Require Import Wf_nat.
From Verif Require Import Base Stream StreamFacts Node Rule Parse Grammar Bytes.

Ltac bytes := unfold two, three, four, cont in *; rewrite ?andb_true_iff, ?andb_false_iff, ?orb_true_iff, ?negb_true_iff, ?negb_false_iff in *.

(* ---------------- one rune ---------------- *)

Lemma first_width l : l <> [] -> (1 <= snd (firstRune l) <= length l)%nat.
Proof.
  intros N. destruct l as [|a [|b [|c [|d l]]]]; [congruence|..]; unfold firstRune;
    repeat match goal with |- context [if ?x then _ else _] => destruct x end; cbn [snd length]; lia.
Qed.

(** Bytes that together are one rune. *)
Definition isChunk (t : list Z) : bool :=
  match t with
  | [a; b] => two a b
  | [a; b; c] => three a b c
  | [a; b; c; d] => four a b c d
  | _ => false
  end.

Lemma two_hi a b : two a b = true -> 128 <= a /\ cont a = false /\ cont b = true.
Proof. unfold two, cont. lia. Qed.
Lemma three_hi a b c : three a b c = true -> 128 <= a /\ cont a = false /\ cont b = true /\ cont c = true /\ two a b = false.
Proof. unfold three, two, cont. lia. Qed.
Lemma four_hi a b c d : four a b c d = true -> 128 <= a /\ cont a = false /\ cont b = true /\ cont c = true /\ cont d = true /\ two a b = false /\ three a b c = false.
Proof. unfold four, three, two, cont. lia. Qed.

Lemma chunk_first t : isChunk t = true -> exists r, firstRune t = (r, length t) /\ cont (hd 0 t) = false.
Proof.
  destruct t as [|a [|b [|c [|d [|e t]]]]]; cbn [isChunk]; try discriminate; intros H.
  - destruct (two_hi _ _ H) as (P & Q & _). unfold firstRune. rewrite H. destruct (Z.ltb_spec a 128); [lia|]. cbn. eauto.
  - destruct (three_hi _ _ _ H) as (P & Q & _ & _ & R). unfold firstRune. rewrite R, H. destruct (Z.ltb_spec a 128); [lia|]. cbn. eauto.
  - destruct (four_hi _ _ _ _ H) as (P & Q & _ & _ & _ & R & R'). unfold firstRune. rewrite R, R', H. destruct (Z.ltb_spec a 128); [lia|]. cbn. eauto.
Qed.

(** One more byte at the end matters only if it completes a rune. *)
Lemma first_snoc l c : l <> [] -> firstRune (l ++ [c]) = firstRune l \/ isChunk (l ++ [c]) = true.
Proof.
  intros N. destruct l as [|a [|b [|d [|e l]]]]; [congruence|..]; cbn [app].
  - unfold firstRune. destruct (a <? 128); [auto|]. destruct (two a c) eqn:E; auto.
  - unfold firstRune. destruct (a <? 128); [auto|]. destruct (two a b); [auto|]. destruct (three a b c) eqn:E; auto.
  - unfold firstRune. destruct (a <? 128); [auto|]. destruct (two a b); [auto|]. destruct (three a b d); [auto|]. destruct (four a b d c) eqn:E; auto.
  - left. reflexivity.
Qed.

Lemma chunk_last l c : isChunk (l ++ [c]) = true -> cont c = true.
Proof.
  destruct l as [|a [|b [|d [|e l]]]]; cbn; try discriminate.
  - intros H. now apply two_hi in H.
  - intros H. now apply three_hi in H.
  - intros H. now apply four_hi in H.
  - destruct l; discriminate.
Qed.

(** What starts with a byte that does not continue a rune does not matter at all. *)
Lemma first_app l x m : l <> [] -> cont x = false -> firstRune (l ++ x :: m) = firstRune l.
Proof.
  intros N C. destruct l as [|a [|b [|d [|e l]]]]; [congruence|..]; cbn [app]; unfold firstRune.
  - destruct (a <? 128); [auto|]. assert (T : two a x = false) by (bytes; tauto). rewrite T.
    destruct m as [|y m]; [auto|]. assert (T2 : three a x y = false) by (bytes; tauto). rewrite T2.
    destruct m as [|z m]; [auto|]. assert (T3 : four a x y z = false) by (bytes; tauto). now rewrite T3.
  - destruct (a <? 128); [auto|]. destruct (two a b); [auto|]. assert (T2 : three a b x = false) by (bytes; tauto). rewrite T2.
    destruct m as [|z m]; [auto|]. assert (T3 : four a b x z = false) by (bytes; tauto). now rewrite T3.
  - destruct (a <? 128); [auto|]. destruct (two a b); [auto|]. destruct (three a b d); [auto|].
    assert (T3 : four a b d x = false) by (bytes; tauto). now rewrite T3.
  - reflexivity.
Qed.

Lemma first_ascii a l : a < 128 -> firstRune (a :: l) = (a, 1%nat).
Proof. intros L. unfold firstRune. destruct (Z.ltb_spec a 128); [reflexivity|lia]. Qed.
Lemma first_high a l : 128 <= a -> 128 <= fst (firstRune (a :: l)).
Proof.
  intros L. unfold firstRune. destruct (Z.ltb_spec a 128); [lia|].
  destruct l as [|b l]; [cbn; unfold runeError; lia|]. destruct (two a b) eqn:E; [cbn; bytes; lia|].
  destruct l as [|c l]; [cbn; unfold runeError; lia|]. destruct (three a b c) eqn:E3; [cbn [fst]; unfold three, cont in E3; lia|].
  destruct l as [|d l]; [cbn; unfold runeError; lia|]. destruct (four a b c d) eqn:E4; [cbn [fst]; unfold four, cont in E4; lia|].
  cbn; unfold runeError; lia.
Qed.

Definition scalar (r : Z) : Prop := 0 <= r <= 1114111 /\ ~ 55296 <= r <= 57343.

Lemma first_scalar l : l <> [] -> Forall isByte l -> scalar (fst (firstRune l)).
Proof.
  intros N B. destruct l as [|a l]; [congruence|]. inversion B as [|? ? BA BL]; subst. unfold isByte in BA. unfold firstRune.
  destruct (Z.ltb_spec a 128); [cbn; unfold scalar; lia|].
  assert (RE : scalar runeError) by (unfold scalar, runeError; lia).
  destruct l as [|b l]; [exact RE|]. destruct (two a b) eqn:E; [cbn [fst]; unfold two, cont in E; unfold scalar; lia|].
  destruct l as [|c l]; [exact RE|]. destruct (three a b c) eqn:E3; [cbn [fst]; unfold three, cont in E3; unfold scalar; lia|].
  destruct l as [|d l]; [exact RE|]. destruct (four a b c d) eqn:E4; [cbn [fst]; unfold four, cont in E4; unfold scalar; lia|].
  exact RE.
Qed.

(* ---------------- all runes ---------------- *)

Lemma runesN_enough n : forall m l, (length l <= n)%nat -> (length l <= m)%nat -> runesN n l = runesN m l.
Proof.
  induction n as [|n IH]; intros [|m] l N M; cbn [runesN]; auto.
  - destruct l; [reflexivity|cbn in N; lia].
  - destruct l; [reflexivity|cbn in M; lia].
  - destruct l as [|a l]; [reflexivity|]. pose proof (first_width (a :: l) ltac:(discriminate)) as W.
    destruct (firstRune (a :: l)) as [r w]. cbn [snd] in W. f_equal. apply IH; rewrite skipn_length; lia.
Qed.
Lemma runes_nil : runes [] = [].
Proof. reflexivity. Qed.
Lemma runes_step l : l <> [] -> runes l = fst (firstRune l) :: runes (skipn (snd (firstRune l)) l).
Proof.
  intros N. unfold runes. destruct l as [|a l]; [congruence|]. cbn [length runesN].
  pose proof (first_width (a :: l) N) as W. destruct (firstRune (a :: l)) as [r w]. cbn [fst snd] in *. f_equal.
  apply runesN_enough; rewrite skipn_length; cbn [length] in *; lia.
Qed.

Lemma len_ind (P : list Z -> Prop) : (forall l, (forall m, (length m < length l)%nat -> P m) -> P l) -> forall l, P l.
Proof. intros H l. apply (well_founded_ind (well_founded_ltof _ (@length Z))). exact H. Qed.

Lemma runes_app l x m : cont x = false -> runes (l ++ x :: m) = runes l ++ runes (x :: m).
Proof.
  intros C. induction l as [l IH] using len_ind. destruct l as [|a l]; [reflexivity|].
  rewrite (runes_step (a :: l)) by discriminate. rewrite (runes_step ((a :: l) ++ x :: m)) by discriminate.
  rewrite (first_app (a :: l) x m) by (discriminate || exact C).
  pose proof (first_width (a :: l) ltac:(discriminate)) as W. cbn [app]. f_equal.
  change (a :: l ++ x :: m) with ((a :: l) ++ x :: m). rewrite skipn_app.
  replace (snd (firstRune (a :: l)) - length (a :: l))%nat with O by lia. cbn [skipn]. apply IH. rewrite skipn_length. lia.
Qed.

Lemma cont_ascii c : c < 128 -> cont c = false.
Proof. unfold cont. lia. Qed.
Lemma runes_ascii c l : c < 128 -> runes (c :: l) = c :: runes l.
Proof. intros L. rewrite runes_step, first_ascii by (discriminate || exact L). reflexivity. Qed.
Lemma runes_cut l c m : c < 128 -> runes (l ++ c :: m) = runes l ++ c :: runes m.
Proof. intros L. rewrite (runes_app l c m (cont_ascii c L)), runes_ascii by exact L. reflexivity. Qed.

Lemma runes_scalar l : Forall isByte l -> Forall scalar (runes l).
Proof.
  induction l as [l IH] using len_ind. intros B. destruct l as [|a l]; [constructor|].
  rewrite runes_step by discriminate. constructor; [apply first_scalar; [discriminate|exact B]|].
  pose proof (first_width (a :: l) ltac:(discriminate)) as W. apply IH; [rewrite skipn_length; lia|].
  apply Forall_forall. intros x I. rewrite Forall_forall in B. apply B.
  rewrite <- (firstn_skipn (snd (firstRune (a :: l))) (a :: l)). apply in_or_app. now right.
Qed.

Lemma in_skipn {A} k (l : list A) x : In x (skipn k l) -> In x l.
Proof. intros I. rewrite <- (firstn_skipn k l). apply in_or_app. now right. Qed.

Lemma in_runes c l : c < 128 -> In c (runes l) -> In c l.
Proof.
  intros L. induction l as [l IH] using len_ind. destruct l as [|a l]; [auto|].
  rewrite runes_step by discriminate. pose proof (first_width (a :: l) ltac:(discriminate)) as W. intros [E|I].
  - destruct (Z.lt_ge_cases a 128) as [A|A]; [rewrite first_ascii in E by exact A; left; exact E|].
    pose proof (first_high a l A). lia.
  - apply in_skipn with (snd (firstRune (a :: l))). apply IH; [rewrite skipn_length; lia|exact I].
Qed.

Lemma ascii_runes l : Forall (fun c => c < 128) (runes l) -> runes l = l.
Proof.
  induction l as [l IH] using len_ind. destruct l as [|a l]; [auto|]. intros F.
  destruct (Z.lt_ge_cases a 128) as [A|A].
  - rewrite runes_ascii in * by exact A. inversion F; subst. f_equal. apply IH; [cbn; lia|assumption].
  - rewrite runes_step in F by discriminate. pose proof (first_high a l A). apply Forall_inv in F. cbv beta in F. lia.
Qed.

(* ---------------- encoding ---------------- *)

Lemma utf8_scalar r : scalar r <-> utf8_rune r = r /\ 0 <= r.
Proof. unfold scalar, utf8_rune. destruct ((r <? 0) || _ || _) eqn:E; lia. Qed.
Lemma utf8_is_scalar r : scalar (utf8_rune r).
Proof. unfold scalar, utf8_rune. destruct ((r <? 0) || _ || _) eqn:E; lia. Qed.
Lemma utf8_utf8 r : utf8_rune (utf8_rune r) = utf8_rune r.
Proof. apply utf8_scalar. apply utf8_is_scalar. Qed.

Lemma first_encode r l : firstRune (encodeRune r ++ l) = (utf8_rune r, length (encodeRune r)).
Proof.
  unfold encodeRune. pose proof (utf8_is_scalar r) as (R & NS). set (q := utf8_rune r) in *. clearbody q.
  destruct (Z.ltb_spec q 128); [cbn [app length]; apply first_ascii; lia|].
  destruct (Z.ltb_spec q 2048).
  - cbn [app length]. unfold firstRune. pose proof (Z.div_mod q 64 ltac:(lia)). pose proof (Z.mod_pos_bound q 64 ltac:(lia)).
    assert (2 <= q / 64 < 32) by (split; [apply Z.div_le_lower_bound|apply Z.div_lt_upper_bound]; lia).
    destruct (Z.ltb_spec (192 + q / 64) 128); [lia|].
    assert (T : two (192 + q / 64) (128 + q mod 64) = true) by (unfold two, cont; lia). rewrite T. f_equal. lia.
  - destruct (Z.ltb_spec q 65536).
    + cbn [app length]. unfold firstRune. pose proof (Z.div_mod q 64 ltac:(lia)). pose proof (Z.mod_pos_bound q 64 ltac:(lia)).
      pose proof (Z.div_mod (q / 64) 64 ltac:(lia)). pose proof (Z.mod_pos_bound (q / 64) 64 ltac:(lia)).
      assert (DD : q / 4096 = q / 64 / 64) by (rewrite Z.div_div by lia; reflexivity). rewrite DD.
      assert (0 <= q / 64 / 64 < 16) by (rewrite <- DD; split; [apply Z.div_le_lower_bound|apply Z.div_lt_upper_bound]; lia).
      destruct (Z.ltb_spec (224 + q / 64 / 64) 128); [lia|].
      set (x := q / 64 / 64) in *. set (y := (q / 64) mod 64) in *. set (z := q mod 64) in *. set (w := q / 64) in *.
      assert (T : two (224 + x) (128 + y) = false) by (unfold two, cont; lia). rewrite T.
      assert (T3 : three (224 + x) (128 + y) (128 + z) = true) by (unfold three, cont; lia). rewrite T3. f_equal. lia.
    + cbn [app length]. unfold firstRune. pose proof (Z.div_mod q 64 ltac:(lia)). pose proof (Z.mod_pos_bound q 64 ltac:(lia)).
      pose proof (Z.div_mod (q / 64) 64 ltac:(lia)). pose proof (Z.mod_pos_bound (q / 64) 64 ltac:(lia)).
      pose proof (Z.div_mod (q / 64 / 64) 64 ltac:(lia)). pose proof (Z.mod_pos_bound (q / 64 / 64) 64 ltac:(lia)).
      assert (DD : q / 4096 = q / 64 / 64) by (rewrite Z.div_div by lia; reflexivity). rewrite DD.
      assert (DE : q / 262144 = q / 64 / 64 / 64) by (rewrite !Z.div_div by lia; reflexivity). rewrite DE.
      assert (0 <= q / 64 / 64 / 64 < 5) by (rewrite <- DE; split; [apply Z.div_le_lower_bound|apply Z.div_lt_upper_bound]; lia).
      set (v := q / 64 / 64 / 64) in *. set (x := (q / 64 / 64) mod 64) in *. set (y := (q / 64) mod 64) in *. set (z := q mod 64) in *.
      destruct (Z.ltb_spec (240 + v) 128); [lia|].
      assert (T : two (240 + v) (128 + x) = false) by (unfold two, cont; lia). rewrite T.
      assert (T3 : three (240 + v) (128 + x) (128 + y) = false) by (unfold three, cont; lia). rewrite T3.
      assert (T4 : four (240 + v) (128 + x) (128 + y) (128 + z) = true) by (unfold four, cont; lia). rewrite T4. f_equal. lia.
Qed.

Lemma encode_not_nil r : encodeRune r <> [].
Proof. unfold encodeRune. repeat match goal with |- context [if ?x then _ else _] => destruct x end; discriminate. Qed.

Lemma first_exact l : l <> [] -> Forall isByte l -> encodeRune (fst (firstRune l)) = firstn (snd (firstRune l)) l \/ firstRune l = (runeError, 1%nat).
Proof.
  intros N B. assert (SC := first_scalar l N B). apply utf8_scalar in SC. destruct SC as [SC _]. unfold encodeRune. rewrite SC. cbv zeta. clear SC.
  destruct l as [|a l]; [congruence|]. inversion B as [|? ? Ba B1]; subst. unfold isByte in *. unfold firstRune. destruct (Z.ltb_spec a 128) as [A|A].
  { left. cbn [fst snd firstn]. destruct (Z.ltb_spec a 128); [reflexivity|lia]. }
  destruct l as [|b l]; [now right|]. inversion B1 as [|? ? Bb B2]; subst. destruct (two a b) eqn:T2.
  { left. cbn [fst snd firstn]. unfold two, cont in T2. repeat (apply andb_prop in T2; destruct T2 as [T2 ?]). repeat match goal with H : _ && _ = true |- _ => apply andb_prop in H; destruct H end. repeat match goal with H : (_ <=? _) = true |- _ => apply Z.leb_le in H end.
    destruct (Z.ltb_spec ((a - 192) * 64 + (b - 128)) 128); [lia|]. destruct (Z.ltb_spec ((a - 192) * 64 + (b - 128)) 2048); [|lia].
    f_equal; [|f_equal]; Z.to_euclidean_division_equations; lia. }
  destruct l as [|c l]; [now right|]. inversion B2 as [|? ? Bc B3]; subst. destruct (three a b c) eqn:T3.
  { left. cbn [fst snd firstn]. clear T2. unfold three, cont in T3. repeat match goal with H : _ && _ = true |- _ => apply andb_prop in H; destruct H end. repeat match goal with H : (_ <=? _) = true |- _ => apply Z.leb_le in H end.
    match goal with H : negb (a =? 224) || _ = true |- _ => assert (a <> 224 \/ 160 <= b) by (destruct (Z.eqb_spec a 224); [right; apply Z.leb_le; exact H|left; lia]) end.
    set (r := (a - 224) * 4096 + (b - 128) * 64 + (c - 128)) in *. assert (2048 <= r < 65536) by (unfold r; lia).
    destruct (Z.ltb_spec r 128); [lia|]. destruct (Z.ltb_spec r 2048); [lia|]. destruct (Z.ltb_spec r 65536); [|lia].
    f_equal; [|f_equal; [|f_equal]]; unfold r; Z.to_euclidean_division_equations; lia. }
  destruct l as [|d l]; [now right|]. inversion B3 as [|? ? Bd B4]; subst. destruct (four a b c d) eqn:T4; [|now right].
  left. cbn [fst snd firstn]. clear T2 T3. unfold four, cont in T4. repeat match goal with H : _ && _ = true |- _ => apply andb_prop in H; destruct H end. repeat match goal with H : (_ <=? _) = true |- _ => apply Z.leb_le in H end.
  match goal with H : negb (a =? 240) || _ = true |- _ => assert (a <> 240 \/ 144 <= b) by (destruct (Z.eqb_spec a 240); [right; apply Z.leb_le; exact H|left; lia]) end.
  set (r := (a - 240) * 262144 + (b - 128) * 4096 + (c - 128) * 64 + (d - 128)) in *. assert (65536 <= r) by (unfold r; lia).
  destruct (Z.ltb_spec r 128); [lia|]. destruct (Z.ltb_spec r 2048); [lia|]. destruct (Z.ltb_spec r 65536); [lia|].
  f_equal; [|f_equal; [|f_equal; [|f_equal]]]; unfold r; Z.to_euclidean_division_equations; lia.
Qed.
Lemma decode_exact b : b <> [] -> Forall isByte b ->
  (exists c rest, scalar c /\ b = encodeRune c ++ rest /\ runes b = c :: runes rest) \/
  ((forall c rest, scalar c -> b <> encodeRune c ++ rest) /\ runes b = runeError :: runes (tl b)).
Proof.
  intros N B. destruct (first_exact b N B) as [E|E].
  - left. exists (fst (firstRune b)), (skipn (snd (firstRune b)) b). split; [now apply first_scalar|]. split; [rewrite E; symmetry; apply firstn_skipn|]. now apply runes_step.
  - right. split.
    + intros c rest SC ->. rewrite first_encode in E. injection E as E1 E2. apply utf8_scalar in SC. destruct SC as [SC _]. rewrite SC in E1. subst c. discriminate E2.
    + rewrite (runes_step b N), E. cbn [fst snd]. now destruct b.
Qed.
Lemma runes_encode l m : runes (encode l ++ m) = List.map utf8_rune l ++ runes m.
Proof.
  induction l as [|r l IH]; [reflexivity|]. cbn [encode flat_map List.map app]. rewrite <- app_assoc.
  assert (N : encodeRune r ++ flat_map encodeRune l ++ m <> []).
  { intros E. apply app_eq_nil in E. destruct E as (E & _). exact (encode_not_nil r E). }
  rewrite (runes_step _ N), first_encode. cbn [fst snd]. f_equal. rewrite skipn_app, skipn_all, Nat.sub_diag. exact IH.
Qed.
Lemma runes_encode_all l : runes (encode l) = List.map utf8_rune l.
Proof. rewrite <- (app_nil_r (encode l)), runes_encode. apply app_nil_r. Qed.

Lemma map_scalar l : Forall scalar l -> List.map utf8_rune l = l.
Proof. induction 1 as [|r l H F IH]; [reflexivity|]. cbn. rewrite IH. f_equal. now apply utf8_scalar. Qed.
Lemma encode_map l : encode (List.map utf8_rune l) = encode l.
Proof. induction l as [|r l IH]; [reflexivity|]. cbn. f_equal; [|exact IH]. unfold encodeRune. now rewrite utf8_utf8. Qed.
Lemma encode_app l m : encode (l ++ m) = encode l ++ encode m.
Proof. apply flat_map_app. Qed.

(** A byte string is UTF-8 if it spells code points. *)
Definition utf8 (b : list Z) : Prop := exists l, Forall scalar l /\ b = encode l.

Lemma utf8_round b : Forall isByte b -> (encode (runes b) = b <-> utf8 b).
Proof.
  intros B. split.
  - intros E. exists (runes b). split; [now apply runes_scalar|now symmetry].
  - intros (l & F & ->). now rewrite runes_encode_all, encode_map.
Qed.
Lemma rune_round l : runes (encode l) = l <-> Forall scalar l.
Proof.
  rewrite runes_encode_all. split; [|apply map_scalar]. intros E. apply Forall_forall. intros r I.
  rewrite <- E in I. apply in_map_iff in I. destruct I as (q & <- & _). apply utf8_is_scalar.
Qed.

(* ---------------- the last rune ---------------- *)

Lemma snoc_or l c : cont c = true ->
  runes (l ++ [c]) = runes l ++ [runeError] \/ exists p t, l ++ [c] = p ++ t /\ isChunk t = true.
Proof.
  intros C. induction l as [l IH] using len_ind. destruct l as [|a l].
  - left. assert (H : 128 <= c) by (unfold cont in C; lia). cbn. destruct (Z.ltb_spec c 128); [lia|reflexivity].
  - destruct (first_snoc (a :: l) c ltac:(discriminate)) as [E|E]; [|right; exists [], ((a :: l) ++ [c]); auto].
    pose proof (first_width (a :: l) ltac:(discriminate)) as W.
    rewrite (runes_step (a :: l)) by discriminate. rewrite (runes_step ((a :: l) ++ [c])) by discriminate. rewrite E.
    set (w := snd (firstRune (a :: l))) in *.
    assert (SK : skipn w ((a :: l) ++ [c]) = skipn w (a :: l) ++ [c]).
    { rewrite skipn_app. replace (w - length (a :: l))%nat with O by lia. reflexivity. }
    rewrite SK. destruct (IH (skipn w (a :: l))) as [R|(p & t & PT & CH)]; [rewrite skipn_length; lia| |].
    + left. now rewrite R.
    + right. exists (firstn w (a :: l) ++ p), t. split; [|exact CH]. rewrite <- app_assoc, <- PT, <- SK.
      assert (FW : firstn w (a :: l) = firstn w ((a :: l) ++ [c])).
      { rewrite firstn_app. replace (w - length (a :: l))%nat with O by lia. cbn [firstn]. now rewrite app_nil_r. }
      rewrite FW. symmetry. apply firstn_skipn.
Qed.

Lemma tail_of (p t : list Z) n : length t = n -> (length (p ++ t) <? n)%nat = false /\ skipn (length (p ++ t) - n) (p ++ t) = t.
Proof.
  intros <-. rewrite app_length. split; [apply Nat.ltb_ge; lia|].
  replace (length p + length t - length t)%nat with (length p) by lia. rewrite skipn_app, skipn_all, Nat.sub_diag. reflexivity.
Qed.

(** If the string ends with a rune of several bytes, that is found. *)
Lemma last_finds p t : isChunk t = true -> exists r, lastFrom 3 2 (p ++ t) = (r, length t) /\ firstRune t = (r, length t) /\ cont (hd 0 t) = false.
Proof.
  intros H. destruct (chunk_first t H) as (r & F & C). exists r. split; [|auto].
  destruct t as [|a [|b [|c [|d [|e t]]]]]; cbn [isChunk] in H; try discriminate.
  - cbn [lastFrom]. destruct (tail_of p [a; b] 2 eq_refl) as (X & Y). rewrite X, Y. cbn [hd] in *. rewrite C. cbn [negb].
    rewrite F. reflexivity.
  - destruct (three_hi _ _ _ H) as (_ & _ & CB & CC & _). cbn [lastFrom].
    assert (Z2 : p ++ [a; b; c] = (p ++ [a]) ++ [b; c]) by (rewrite <- app_assoc; reflexivity).
    destruct (tail_of (p ++ [a]) [b; c] 2 eq_refl) as (X & Y). rewrite <- Z2 in X, Y. rewrite X, Y. cbn [hd]. rewrite CB. cbn [negb].
    destruct (tail_of p [a; b; c] 3 eq_refl) as (X3 & Y3). rewrite X3, Y3. cbn [hd] in *. rewrite C. cbn [negb]. rewrite F. reflexivity.
  - destruct (four_hi _ _ _ _ H) as (_ & _ & CB & CC & CD & _). cbn [lastFrom].
    assert (Z2 : p ++ [a; b; c; d] = (p ++ [a; b]) ++ [c; d]) by (rewrite <- app_assoc; reflexivity).
    destruct (tail_of (p ++ [a; b]) [c; d] 2 eq_refl) as (X & Y). rewrite <- Z2 in X, Y. rewrite X, Y. cbn [hd]. rewrite CC. cbn [negb].
    assert (Z3 : p ++ [a; b; c; d] = (p ++ [a]) ++ [b; c; d]) by (rewrite <- app_assoc; reflexivity).
    destruct (tail_of (p ++ [a]) [b; c; d] 3 eq_refl) as (X3 & Y3). rewrite <- Z3 in X3, Y3. rewrite X3, Y3. cbn [hd]. rewrite CB. cbn [negb].
    destruct (tail_of p [a; b; c; d] 4 eq_refl) as (X4 & Y4). rewrite X4, Y4. cbn [hd] in *. rewrite C. cbn [negb]. rewrite F. reflexivity.
Qed.

Lemma last_cases k : forall n l, (1 <= n)%nat -> lastFrom k n l = (runeError, 1%nat) \/
  exists p t r, l = p ++ t /\ t <> [] /\ cont (hd 0 t) = false /\ firstRune t = (r, length t) /\ lastFrom k n l = (r, length t).
Proof.
  induction k as [|k IH]; intros n l N; cbn [lastFrom]; [auto|]. destruct (Nat.ltb_spec (length l) n); [auto|].
  destruct (negb (cont (hd 0 (skipn (length l - n) l)))) eqn:C; [|apply IH; lia].
  set (t := skipn (length l - n) l) in *. assert (LT : length t = n) by (unfold t; rewrite skipn_length; lia).
  destruct (firstRune t) as [r w] eqn:F. destruct (Nat.eqb_spec w n); [|auto]. right.
  exists (firstn (length l - n) l), t, r. split; [symmetry; apply firstn_skipn|].
  split; [intros X; rewrite X in LT; cbn in LT; lia|]. split; [now apply negb_true_iff|]. rewrite LT. subst w. auto.
Qed.

Lemma chunk_runes p t r : t <> [] -> cont (hd 0 t) = false -> firstRune t = (r, length t) ->
  runes (p ++ t) = runes (firstn (length (p ++ t) - length t) (p ++ t)) ++ [r] /\ (1 <= length t <= length (p ++ t))%nat.
Proof.
  intros N C F. destruct t as [|x t]; [congruence|]. cbn [hd] in C. split; [|rewrite app_length; cbn [length]; lia].
  rewrite (runes_app p x t C). rewrite (runes_step (x :: t)) by discriminate. rewrite F. cbn [fst snd]. rewrite skipn_all, runes_nil.
  f_equal. f_equal. rewrite app_length. replace (length p + length (x :: t) - length (x :: t))%nat with (length p) by lia.
  rewrite firstn_app, firstn_all, Nat.sub_diag. cbn [firstn]. now rewrite app_nil_r.
Qed.

Lemma last_rune l : l <> [] -> (1 <= snd (lastRune l) <= length l)%nat /\
  runes l = runes (firstn (length l - snd (lastRune l)) l) ++ [fst (lastRune l)].
Proof.
  intros N. destruct (exists_last N) as (m & c & ->). unfold lastRune. rewrite last_last.
  assert (CUT : firstn (length (m ++ [c]) - 1) (m ++ [c]) = m).
  { rewrite app_length. cbn [length]. replace (length m + 1 - 1)%nat with (length m) by lia.
    rewrite firstn_app, firstn_all, Nat.sub_diag. apply app_nil_r. }
  assert (ONE : (1 <= 1 <= length (m ++ [c]))%nat) by (rewrite app_length; cbn [length]; lia).
  destruct (Z.ltb_spec c 128) as [A|A].
  - cbn [fst snd]. split; [exact ONE|]. rewrite CUT. apply (runes_cut m c []). exact A.
  - assert (ERR : lastFrom 3 2 (m ++ [c]) = (runeError, 1%nat) -> runes (m ++ [c]) = runes m ++ [runeError] ->
      (1 <= snd (lastFrom 3 2 (m ++ [c])) <= length (m ++ [c]))%nat /\
      runes (m ++ [c]) = runes (firstn (length (m ++ [c]) - snd (lastFrom 3 2 (m ++ [c]))) (m ++ [c])) ++ [fst (lastFrom 3 2 (m ++ [c]))]).
    { intros E R. rewrite E. cbn [fst snd]. rewrite CUT. auto. }
    assert (OK : forall p t r, m ++ [c] = p ++ t -> t <> [] -> cont (hd 0 t) = false -> firstRune t = (r, length t) -> lastFrom 3 2 (m ++ [c]) = (r, length t) ->
      (1 <= snd (lastFrom 3 2 (m ++ [c])) <= length (m ++ [c]))%nat /\
      runes (m ++ [c]) = runes (firstn (length (m ++ [c]) - snd (lastFrom 3 2 (m ++ [c]))) (m ++ [c])) ++ [fst (lastFrom 3 2 (m ++ [c]))]).
    { intros p t r E NT C F L. rewrite L. cbn [fst snd]. rewrite E. destruct (chunk_runes p t r NT C F). auto. }
    destruct (last_cases 3 2 (m ++ [c]) ltac:(lia)) as [E|(p & t & r & E & NT & C & F & L)]; [|exact (OK p t r E NT C F L)].
    destruct (cont c) eqn:CC.
    + destruct (snoc_or m c CC) as [R|(p & t & PT & CH)]; [exact (ERR E R)|].
      destruct (last_finds p t CH) as (r & L & F & C). rewrite <- PT in L. apply (OK p t r PT); auto. now destruct t.
    + apply ERR; [exact E|]. rewrite (runes_app m c [] CC). f_equal. cbn. destruct (Z.ltb_spec c 128); [lia|reflexivity].
Qed.

(* ---------------- TrimSpace ---------------- *)

Lemma trimLeft_step r l : trimLeft (r :: l) = if isWS r then trimLeft l else r :: l.
Proof. unfold trimLeft. cbn [ws_prefix]. destruct (isWS r); reflexivity. Qed.

Lemma trimLeft_runes n : forall l, (length l <= n)%nat -> runes (trimLeftN n l) = trimLeft (runes l).
Proof.
  induction n as [|n IH]; intros l L; cbn [trimLeftN].
  - destruct l; [reflexivity|cbn in L; lia].
  - destruct l as [|a l]; [reflexivity|]. pose proof (first_width (a :: l) ltac:(discriminate)) as W.
    pose proof (runes_step (a :: l) ltac:(discriminate)) as R.
    destruct (firstRune (a :: l)) as [r w]. cbn [fst snd] in *. rewrite R, trimLeft_step. destruct (isWS r); [|exact R].
    apply IH. rewrite skipn_length. lia.
Qed.
Lemma trimRight_runes n : forall l, (length l <= n)%nat -> runes (trimRightN n l) = rev (trimLeft (rev (runes l))).
Proof.
  induction n as [|n IH]; intros l L; cbn [trimRightN].
  - destruct l; [reflexivity|cbn in L; lia].
  - destruct l as [|a l]; [reflexivity|]. destruct (last_rune (a :: l) ltac:(discriminate)) as (W & R).
    destruct (lastRune (a :: l)) as [r w]. cbn [fst snd] in *. rewrite R, rev_app_distr. cbn [rev app]. rewrite trimLeft_step.
    destruct (isWS r).
    + apply IH. rewrite firstn_length. lia.
    + rewrite R. cbn [rev]. now rewrite rev_involutive.
Qed.
Lemma trim_runes l : runes (trimBytes l) = trim (runes l).
Proof. unfold trimBytes, trim. rewrite trimRight_runes by lia. now rewrite trimLeft_runes by lia. Qed.

(* ---------------- splitting ---------------- *)

Lemma in_first (c : Z) l : In c l -> exists x y, l = x ++ c :: y /\ ~ In c x.
Proof.
  induction l as [|a l IH]; [intros []|]. intros I. destruct (Z.eq_dec a c) as [->|N].
  - exists [], l. auto.
  - destruct I as [I|I]; [congruence|]. destruct (IH I) as (x & y & -> & NI). exists (a :: x), y. split; [reflexivity|].
    intros [E|E]; auto.
Qed.

Lemma splitEq_none l : ~ In 61 l -> splitEq l = None.
Proof.
  induction l as [|a l IH]; [reflexivity|]. intros N. cbn. destruct (Z.eqb_spec a 61) as [->|]; [destruct N; now left|].
  rewrite IH; [reflexivity|]. intros I. apply N. now right.
Qed.
Lemma splitEq_some x y : ~ In 61 x -> splitEq (x ++ 61 :: y) = Some (x, y).
Proof.
  induction x as [|a x IH]; intros N; [reflexivity|]. cbn. destruct (Z.eqb_spec a 61) as [->|]; [destruct N; now left|].
  rewrite IH; [reflexivity|]. intros I. apply N. now right.
Qed.
Lemma splitEq_runes l : splitEq (runes l) = option_map (fun p => (runes (fst p), runes (snd p))) (splitEq l).
Proof.
  destruct (in_dec Z.eq_dec 61 l) as [I|N].
  - destruct (in_first _ _ I) as (x & y & -> & NX). rewrite runes_cut by lia. rewrite (splitEq_some x y NX).
    cbn [option_map fst snd]. apply splitEq_some. intros J. apply NX. apply in_runes; [lia|exact J].
  - rewrite (splitEq_none l N). apply splitEq_none. intros J. apply N. apply in_runes; [lia|exact J].
Qed.

Lemma splitLines_none l : ~ In 10 l -> splitLines l = [l].
Proof.
  induction l as [|a l IH]; [reflexivity|]. intros N. cbn. destruct (Z.eqb_spec a 10) as [->|]; [destruct N; now left|].
  rewrite IH; [reflexivity|]. intros I. apply N. now right.
Qed.
Lemma splitLines_some x y : ~ In 10 x -> splitLines (x ++ 10 :: y) = x :: splitLines y.
Proof.
  induction x as [|a x IH]; intros N; [reflexivity|]. cbn. destruct (Z.eqb_spec a 10) as [->|]; [destruct N; now left|].
  rewrite IH; [reflexivity|]. intros I. apply N. now right.
Qed.
Lemma splitLines_runes l : splitLines (runes l) = List.map runes (splitLines l).
Proof.
  induction l as [l IH] using len_ind. destruct (in_dec Z.eq_dec 10 l) as [I|N].
  - destruct (in_first _ _ I) as (x & y & -> & NX). rewrite runes_cut by lia. rewrite (splitLines_some x y NX).
    rewrite splitLines_some; [|intros J; apply NX; apply in_runes; [lia|exact J]]. cbn [List.map]. f_equal.
    apply IH. rewrite app_length. cbn [length]. lia.
  - rewrite (splitLines_none l N). apply splitLines_none. intros J. apply N. apply in_runes; [lia|exact J].
Qed.

(* ---------------- the grammar functions ---------------- *)

Lemma nonempty_runes l : nonempty (runes l) = nonempty l.
Proof. destruct l as [|a l]; [reflexivity|]. now rewrite runes_step by discriminate. Qed.

Lemma comment_runes l : isComment (runes l) = isComment l.
Proof.
  destruct l as [|a l]; [reflexivity|]. destruct (Z.lt_ge_cases a 128) as [A|A].
  - rewrite runes_ascii by exact A. destruct l as [|b l]; [reflexivity|]. destruct (Z.lt_ge_cases b 128) as [B|B].
    + rewrite runes_ascii by exact B. reflexivity.
    + rewrite runes_step by discriminate. pose proof (first_high b l B). cbn [isComment].
      assert (X : (fst (firstRune (b :: l)) =? 47) = false) by lia. assert (Y : (b =? 47) = false) by lia. now rewrite X, Y.
  - rewrite runes_step by discriminate. pose proof (first_high a l A) as H.
    assert (X : (fst (firstRune (a :: l)) =? 47) = false) by lia. assert (Y : (a =? 47) = false) by lia.
    unfold isComment. rewrite X, Y. destruct (runes _), l; reflexivity.
Qed.

Lemma letter_ascii c : isLetter c = true -> c < 128.
Proof. unfold isLetter. lia. Qed.
Lemma digit_ascii c : isDigit c = true -> c < 128.
Proof. unfold isDigit. lia. Qed.

Lemma validName_ascii n : validName n = true -> Forall (fun c => c < 128) n.
Proof.
  destruct n as [|c n]; [discriminate|]. cbn [validName]. rewrite andb_true_iff, forallb_forall. intros (L & F).
  constructor; [now apply letter_ascii|]. apply Forall_forall. intros x I. specialize (F x I).
  rewrite !orb_true_iff in F. destruct F as [[F|F]|F]; [now apply letter_ascii|lia|now apply digit_ascii].
Qed.
Lemma validName_runes n : validNameBytes n = validName (runes n).
Proof.
  destruct n as [|c n]; [reflexivity|]. cbn [validNameBytes]. destruct (Z.lt_ge_cases c 128) as [A|A].
  - rewrite runes_ascii by exact A. reflexivity.
  - rewrite (runes_step (c :: n)) by discriminate. pose proof (first_high c n A). cbn [validName].
    destruct (isLetter c) eqn:L; [apply letter_ascii in L; lia|].
    destruct (isLetter (fst (firstRune (c :: n)))) eqn:L'; [apply letter_ascii in L'; lia|]. reflexivity.
Qed.

Lemma parseRule_runes g name str : parseRuleBytes g name str = parseRule g (runes name) (runes str).
Proof.
  unfold parseRuleBytes, parseRule. rewrite validName_runes. destruct (validName (runes name)) eqn:V; [|reflexivity]. cbn [negb].
  rewrite (ascii_runes name (validName_ascii _ V)), trim_runes. reflexivity.
Qed.
Lemma addRule_runes g def : addRuleBytes g def = addRule g (runes def).
Proof.
  unfold addRuleBytes, addRule. rewrite splitEq_runes. destruct (splitEq def) as [(a, b)|]; [|reflexivity].
  cbn [option_map fst snd]. now rewrite parseRule_runes, !trim_runes.
Qed.
Lemma addLines_runes lines : forall g i, addLinesBytes g i lines = addLines g i (List.map runes lines).
Proof.
  induction lines as [|ln lines IH]; intros g i; [reflexivity|]. cbn [addLinesBytes addLines List.map]. cbv zeta.
  rewrite <- trim_runes, nonempty_runes, comment_runes, splitEq_runes. destruct (_ || _); [apply IH|].
  destruct (splitEq (trimBytes ln)) as [(a, b)|]; [|reflexivity]. cbn [option_map fst snd].
  rewrite parseRule_runes, !trim_runes. destruct (parseRule g (trim (runes a)) (trim (runes b))) as [[r|e] g']; [apply IH|reflexivity].
Qed.
Theorem newGrammar_runes txt : newGrammarFromBytes txt = newGrammarFromString (runes txt).
Proof. unfold newGrammarFromBytes, newGrammarFromString. now rewrite addLines_runes, splitLines_runes. Qed.
