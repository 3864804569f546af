(** The evaluator agrees with [sem] wherever [sem] is not [SUnsafe]. *)
From Verif Require Import Base Stream StreamFacts CallFacts Node Rule SpecStream SpecRule TermFacts TermSpec EvalInv SpecEval.

(* ------------------------------------------------------------------ *)
(** ** Lists *)

Lemma skipn_firstn' {A} u k (l : list A) : skipn u (firstn k l) = firstn (k - u) (skipn u l).
Proof. apply skipn_firstn_comm. Qed.

Lemma firstn_slice {A} p m (l : list A) : (p <= m)%nat -> firstn p l ++ firstn (m - p) (skipn p l) = firstn m l.
Proof. intros H. rewrite <- firstn_plus. f_equal. lia. Qed.

Lemma slice_skipn {A} p m (l : list A) : (p <= m)%nat -> firstn (m - p) (skipn p l) ++ skipn m l = skipn p l.
Proof.
  intros H. replace (skipn m l) with (skipn (m - p) (skipn p l)) by (rewrite skipn_skipn'; f_equal; lia).
  apply firstn_skipn.
Qed.

Lemma slice_cat {A} a k (l : list A) : firstn k l ++ firstn a (skipn k l) = firstn (k + a) l.
Proof. symmetry. apply firstn_plus. Qed.

(** [s] is a stream wrapped on top of [s0] whose text is that of [s0] from [p]
    on, while [s0] itself has been read up to [m]. *)
Definition at_ (s0 : stream) (t : list Z) (p m : nat) (s : stream) : Prop :=
  (depth s0 <= depth s)%nat /\ (p <= m)%nat /\ (m <= length t)%nat /\ moves m s0 (unwrap (depth s0) s) /\
  pend (depth s0) s = firstn (m - p) (skipn p t).

Lemma at_start s t : rest s = t -> at_ s t 0 0 s.
Proof.
  intros <-. split; [lia|]. split; [lia|]. split; [lia|]. rewrite unwrap_id, pend_self. split; [apply moves_refl|reflexivity].
Qed.
Lemma at_rest s0 t p m s : rest s0 = t -> at_ s0 t p m s -> rest s = skipn p t.
Proof.
  intros E (D & L & LT & M & P). rewrite (rest_split _ _ D), P, (moves_rest _ _ _ M), E. now apply slice_skipn.
Qed.
Lemma at_move s0 t p m s k s' : at_ s0 t p m s -> (p + k <= length t)%nat -> moves k s s' ->
  at_ s0 t (p + k) (Nat.max m (p + k)) s'.
Proof.
  intros (D & L & LT & M & P) LK K. pose proof (moves_depth _ _ _ K) as DK.
  destruct (moves_unwrap k (depth s0) s s' D K) as [P' M']. rewrite P in P', M'.
  rewrite firstn_length, skipn_length in M'.
  split; [lia|]. split; [lia|]. split; [lia|]. split.
  - pose proof (moves_trans _ _ _ _ _ M M') as X.
    replace (m + (k - Nat.min (m - p) (length t - p)))%nat with (Nat.max m (p + k))%nat in X by lia. exact X.
  - rewrite P', skipn_firstn', skipn_skipn'. f_equal. lia.
Qed.
Lemma at_prepend s0 t p k m s : at_ s0 t (p + k) m s -> at_ s0 t p m (prepend s (firstn k (skipn p t))).
Proof.
  intros (D & L & LT & M & P). split; [rewrite prepend_depth; lia|]. split; [lia|]. split; [lia|]. split.
  - rewrite unwrap_prepend by exact D. exact M.
  - rewrite pend_prepend by exact D. rewrite P, <- skipn_skipn', slice_cat. f_equal. lia.
Qed.
Lemma at_unwrap s0 t p m s : at_ s0 t p m s -> at_ s0 t m m (unwrap (depth s0) s).
Proof.
  intros (D & L & LT & M & P). split; [rewrite unwrap_depth; lia|]. split; [lia|]. split; [lia|]. split.
  - rewrite unwrap_unwrap by lia. exact M.
  - rewrite Nat.sub_diag. replace (depth s0) with (depth (unwrap (depth s0) s)) at 1 by (now apply unwrap_depth).
    apply pend_self.
Qed.
Lemma at_moves s0 t p m s : at_ s0 t p m s -> moves m s0 (unwrap (depth s0) s).
Proof. now intros (_ & _ & _ & M & _). Qed.
Lemma at_pos s0 t p m s : at_ s0 t p m s -> at_ s0 t p m (snd (positionOf s)).
Proof.
  intros A. pose proof A as (_ & L & LT & _). assert (M : moves 0 s (snd (positionOf s))) by (apply moves_0, position_same).
  pose proof (at_move s0 t p m s 0 (snd (positionOf s)) A) as X. rewrite Nat.add_0_r in X. replace (Nat.max m p) with m in X by lia.
  apply X; [lia|exact M].
Qed.
Lemma at_clean s0 t p m s : rest s0 = t -> clean t -> at_ s0 t p m s -> clean (rest s).
Proof. intros E C A. rewrite (at_rest _ _ _ _ _ E A). now apply clean_skipn. Qed.

(* ------------------------------------------------------------------ *)
(** ** Agreement *)

Definition reads (x : sres) : nat := match x with Match _ _ k _ => k | Fail k _ => k | Amb k => k end.

(** The result says what [x] says. *)
Definition says (t : list Z) (x : sres) (res : result) : Prop :=
  (reads x <= length t)%nat /\ r_read res = firstn (reads x) t /\
  match x with
  | Match n u k st => (u <= k)%nat /\ r_unused res = skipn u (firstn k t) /\ r_sticky res = st /\
      exists nd, r_node res = Some nd /\ erase nd = n
  | Fail k st => r_node res = None /\ r_unused res = r_read res /\ r_sticky res = st
  | Amb _ => r_node res = None /\ r_unused res = [] /\ r_sticky res = false
  end.

Definition lock (t : list Z) (s : stream) (o : sout sres) (x : outcome (result * stream)) : Prop :=
  match o with
  | SUnsafe => True
  | SFuel => x = OutOfFuel
  | SOk y => exists res s', x = Ok (res, s') /\ says t y res /\ moves (reads y) s s'
  end.

Lemma erase_mkNode ty b cs kids pos st :
  erase (mkNode ty b cs kids pos st) = build ty b cs (List.map erase kids) None st.
Proof. reflexivity. Qed.
Lemma erase_toggle b n : erase (toggle b n) = flip b (erase n).
Proof. destruct n; reflexivity. Qed.
Lemma nextFlag_mode f n st : nextFlag f n st = nextMode f (erase n) st.
Proof. destruct n as [ty nm cs kids pos sk v nd tk]. unfold nextFlag, nextMode. cbn. destruct ty, kids, cs; reflexivity. Qed.
Lemma nextFlag_erase f n st : nextFlag f (erase n) st = nextFlag f n st.
Proof. destruct n as [ty nm cs kids pos sk v nd tk]. unfold nextFlag. cbn. destruct kids; reflexivity. Qed.

Lemma says_count t n u k st res : says t (Match n u k st) res -> countUsed res = Z.of_nat u.
Proof.
  intros (L & R & LU & U & _). cbn [reads] in *. unfold countUsed. rewrite R, U, skipn_length, firstn_length. lia.
Qed.
Lemma says_charsUsed t n u k st res : says t (Match n u k st) res -> charsUsed res = Ok (firstn u t).
Proof.
  intros S. unfold charsUsed. rewrite (says_count _ _ _ _ _ _ S). destruct S as (L & R & LU & _). cbn [reads] in *.
  rewrite slice_to_ok by (rewrite R, firstn_length; lia). rewrite R, firstn_firstn. do 2 f_equal. lia.
Qed.

(** The bookkeeping of concatenations and repetitions (rule_concatenate.go:52-62)
    is right when the step looked at least as far as what was pending. *)
Lemma account_exact t p m u k read unused res :
  (p <= m)%nat -> (m <= length t)%nat -> (p + k <= length t)%nat -> (u <= k)%nat ->
  read = firstn m t -> unused = firstn (m - p) (skipn p t) ->
  r_read res = firstn k (skipn p t) -> r_unused res = skipn u (r_read res) ->
  (m - p <= k \/ 2 * u <= m - p)%nat ->
  account read unused res =
    Ok (firstn (Nat.max m (p + k)) t, firstn (Nat.max m (p + k) - (p + u)) (skipn (p + u) t)).
Proof.
  intros L1 L2 L3 L4 -> -> R U S. unfold account.
  assert (LR : length (r_read res) = k) by (rewrite R, firstn_length, skipn_length; lia).
  assert (LU : length (firstn (m - p) (skipn p t)) = (m - p)%nat) by (rewrite firstn_length, skipn_length; lia).
  assert (UU : r_unused res = firstn (k - u) (skipn (p + u) t)) by (rewrite U, R, skipn_firstn', skipn_skipn'; reflexivity).
  assert (LRU : length (r_unused res) = (k - u)%nat) by (rewrite U, skipn_length; lia).
  rewrite LR, LU. destruct (Nat.ltb_spec (m - p) k) as [H|H].
  - rewrite slice_from_ok by lia. cbn [bind]. rewrite UU. do 2 f_equal.
    + rewrite R, skipn_firstn', skipn_skipn'. replace (p + (m - p))%nat with m by lia.
      replace (Nat.max m (p + k)) with (m + (k - (m - p)))%nat by lia. apply slice_cat.
    + f_equal. lia.
  - assert (CU : charsUsed res = Ok (firstn u (r_read res))).
    { unfold charsUsed, countUsed. rewrite LR, LRU. replace (Z.of_nat k - Z.of_nat (k - u)) with (Z.of_nat u) by lia.
      apply slice_to_ok. lia. }
    rewrite CU. cbn [bind]. assert (LF : length (firstn u (r_read res)) = u) by (rewrite firstn_length; lia).
    rewrite LF, slice_from_ok by (rewrite LU; lia). cbn [bind].
    rewrite skipn_firstn', skipn_skipn'. 
    assert (LL : length (firstn (m - p - u) (skipn (p + u) t)) = (m - p - u)%nat) by (rewrite firstn_length, skipn_length; lia).
    rewrite LL. replace (Nat.max m (p + k)) with m by lia. replace (m - (p + u))%nat with (m - p - u)%nat by lia.
    destruct (Nat.ltb_spec (m - p - u) u); [|reflexivity]. rewrite UU. do 3 f_equal. lia.
Qed.

(** Whatever the ambiguous result does to the pending text, the text read is right. *)
Lemma account_read t p m k read unused res :
  (p <= m)%nat -> (m <= length t)%nat -> (p + k <= length t)%nat ->
  read = firstn m t -> unused = firstn (m - p) (skipn p t) ->
  r_read res = firstn k (skipn p t) -> r_unused res = [] ->
  exists un, account read unused res = Ok (firstn (Nat.max m (p + k)) t, un).
Proof.
  intros L1 L2 L3 -> -> R U. unfold account.
  assert (LR : length (r_read res) = k) by (rewrite R, firstn_length, skipn_length; lia).
  assert (LU : length (firstn (m - p) (skipn p t)) = (m - p)%nat) by (rewrite firstn_length, skipn_length; lia).
  rewrite LR, LU. destruct (Nat.ltb_spec (m - p) k) as [H|H].
  - rewrite slice_from_ok by lia. cbn [bind]. eexists. do 2 f_equal.
    rewrite R, skipn_firstn', skipn_skipn'. replace (p + (m - p))%nat with m by lia.
    replace (Nat.max m (p + k)) with (m + (k - (m - p)))%nat by lia. apply slice_cat.
  - assert (CU : charsUsed res = Ok (firstn k (r_read res))).
    { unfold charsUsed, countUsed. rewrite LR, U. cbn [length]. replace (Z.of_nat k - Z.of_nat 0) with (Z.of_nat k) by lia.
      apply slice_to_ok. lia. }
    rewrite CU. cbn [bind]. rewrite firstn_length, slice_from_ok by lia. cbn [bind].
    eexists. replace (Nat.max m (p + k)) with m by lia. reflexivity.
Qed.

Definition terminal (r : rule) : Prop :=
  match r with RChar _ _ _ | RChars _ _ | RString _ _ | RRange _ _ _ _ _ | REOF _ => True | _ => False end.

Definition composite (ty : rtype) : Prop :=
  match ty with TGroup | TOption | TRepetition | TChoice | TConcat => True | _ => False end.

(** A terminal that fails has an error. *)
Lemma term_err r : terminal r -> forall g rec fuel s f res s', evalStep g rec fuel r s f = Ok (res, s') -> r_node res = None ->
  r_err res = Some (match r_err res with Some e => e | None => EGreedy [] end).
Proof.
  intros HT g rec fuel s f res s' E.
  assert (X : forall x : result * stream, Ok x = Ok (res, s') -> (r_node (fst x) = None -> r_err (fst x) <> None) -> r_node res = None ->
    r_err res = Some (match r_err res with Some e => e | None => EGreedy [] end)).
  { intros x [= ->] H N. cbn in H. destruct (r_err res); [reflexivity|]. now specialize (H N). }
  destruct r; try contradiction; cbn [evalStep] in E; apply (X _ E); clear;
    unfold evalChar, evalChars, evalString, evalRange, evalEOF, failT; cbv zeta;
    repeat match goal with
    | |- context [if ?c then _ else _] => destruct c
    | |- context [match ?c with _ => _ end] => destruct c
    end; cbn [fst r_node r_err]; intros; discriminate.
Qed.

(** Along with the agreement the proof carries three predicates: [J] on streams, kept
    by every stream operation, [K t u nd] on the nodes made from the first [u]
    runes of [t], and [Er t m e i] on the errors [e] with [ErrIdx] [i] of the results
    that read [m] runes of [t].  They are used for the positions (PlaceFacts.v,
    ErrorFacts.v). *)
Section Step.
Variables (J : stream -> Prop) (K : list Z -> nat -> node -> Prop) (Er : list Z -> nat -> eerr -> Z -> Prop).
Definition covers (t : list Z) (res : result) : Prop :=
  (forall nd, r_node res = Some nd -> K t (Z.to_nat (countUsed res)) nd) /\
  (r_node res = None -> exists e, r_err res = Some e /\ Er t (length (r_read res)) e (r_erridx res)).
(** The nodes [kids], last first, were made one after the other from the first [p]
    runes of [t]. *)
Inductive chain (t : list Z) : nat -> list node -> Prop :=
| ch_nil : chain t 0 []
| ch_cons p kids u n : chain t p kids -> (p + u <= length t)%nat -> K (skipn p t) u n -> chain t (p + u) (n :: kids).
Record keeps : Prop := {
  k_prepend : forall s l, J s -> J (prepend s l);
  k_unwrap : forall n s, J s -> J (unwrap n s);
  k_pos : forall s, J s -> J (snd (positionOf s));
  k_next : forall s, J s -> J (snd (next s));
  k_term : forall r, terminal r -> wfRule r -> forall g rec fuel s f res s', clean (rest s) -> J s ->
    evalStep g rec fuel r s f = Ok (res, s') -> J s' /\ covers (rest s) res;
  k_kids : forall ty b t p kids pos st, composite ty -> chain t p kids -> K t p (mkNode ty b [] (rev kids) pos st);
  k_toggle : forall b t u nd, K t u nd -> K t u (toggle b nd);
  k_block : forall b t u p on s kids q pos st, K t u on -> J s -> rest s = skipn u t -> (u <= p <= length t)%nat -> (p + q <= length t)%nat ->
    (kids = [] /\ q = 0%nat \/ exists nc, kids = [nc] /\ K (skipn p t) q nc) ->
    K t (p + q) (mkNode TBlock b [] (on :: Node TChars [] (firstn (p - u) (skipn u t)) [] (fst (positionOf s)) true false false false :: kids) pos st);
  k_wide : forall t p k m e i, Er (skipn p t) k e i -> (p + k <= m <= length t)%nat -> Er t m e i;
  k_index : forall t m e i s, Er t m e i -> J s -> rest s = skipn m t -> (m <= length t)%nat -> Er t m e (cursor s);
  k_concat : forall t m self e i, Er t m e i -> Er t m (EConcat self (Some e)) i;
  k_choice : forall t m self e i, Er t m e i -> Er t m (EChoice self (Some e)) i;
  k_silent : forall t m self, Er t m (EChoice self None) 0;
  k_tie : forall t m nm ns, Er t m (EAmbiguity nm ns) 0;
  k_undefined : forall t b n, Er t 0 (EUndefined b n) 0;
  k_few : forall t m self n s, J s -> rest s = skipn m t -> (m <= length t)%nat -> Er t m (ERepMin self n) (cursor s);
  k_excluded : forall t p u m s, J s -> rest s = skipn m t -> (p + u <= m <= length t)%nat -> Er t m (EExclude (firstn u (skipn p t))) (cursor s);
  k_close : forall t c s, J s -> rest s = [] -> Er t (length t) (EBlockEOF c) (cursor s) }.
Hypothesis HK : keeps.

Definition lockK (t : list Z) (s : stream) (o : sout sres) (x : outcome (result * stream)) : Prop :=
  match o with
  | SUnsafe => True
  | SFuel => x = OutOfFuel
  | SOk y => exists res s', x = Ok (res, s') /\ says t y res /\ moves (reads y) s s' /\ J s' /\ covers t res
  end.
Definition recLock (rec : evalT) (srec : semT) : Prop :=
  forall r f s t, wfRule r -> clean t -> rest s = t -> J s -> lockK t s (srec r f t) (rec r s f).

Lemma covers_none t e i read unused st m : read = firstn m t -> (m <= length t)%nat -> Er t m e i -> covers t (mkRes None (Some e) i read unused st).
Proof.
  intros -> L H. split; [discriminate|]. intros _. exists e. split; [reflexivity|]. cbn [r_read r_erridx]. rewrite firstn_length.
  now replace (Nat.min m (length t)) with m by lia.
Qed.
(** The error of a step, seen from the whole. *)
Lemma covers_err t res p k m : covers (skipn p t) res -> r_node res = None -> length (r_read res) = k -> (p + k <= m <= length t)%nat ->
  exists e, r_err res = Some e /\ Er t m e (r_erridx res).
Proof. intros [_ H] N L LM. destruct (H N) as (e & EE & X). exists e. split; [exact EE|]. subst k. eapply (k_wide HK); eauto. Qed.
Lemma covers_eq t res n u k st nd : says t (Match n u k st) res -> covers t res -> r_node res = Some nd -> K t u nd.
Proof. intros S [H _] E. specialize (H nd E). rewrite (says_count _ _ _ _ _ _ S), Nat2Z.id in H. exact H. Qed.
Lemma covers_ok t read unused err idx sticky nd u k : read = firstn k t -> (k <= length t)%nat -> (u <= k)%nat -> unused = skipn u read -> K t u nd ->
  covers t (mkRes (Some nd) err idx read unused sticky).
Proof.
  intros -> L1 L2 -> H. split; [|discriminate]. intros nd' [= <-]. unfold countUsed. cbn. rewrite skipn_length, firstn_length.
  replace (Z.to_nat _) with u by lia. exact H.
Qed.
Lemma chain_one t u nd : (u <= length t)%nat -> K t u nd -> chain t u [nd].
Proof. intros L H. apply (ch_cons t 0 [] u nd); [constructor|exact L|exact H]. Qed.

Variables (g : rules_t) (rec : evalT) (srec : semT).
Hypothesis HR : recLock rec srec.
Hypothesis HG : wfRules g.

(** Call [rec] on a stream that is at [p], [m]. *)
Lemma call s0 t p m s r f : rest s0 = t -> clean t -> wfRule r -> at_ s0 t p m s -> J s ->
  match srec r f (skipn p t) with
  | SUnsafe => True
  | SFuel => rec r s f = OutOfFuel
  | SOk y => exists res s', rec r s f = Ok (res, s') /\ says (skipn p t) y res /\
      (p + reads y <= length t)%nat /\ moves (reads y) s s' /\ at_ s0 t (p + reads y) (Nat.max m (p + reads y)) s' /\
      J s' /\ covers (skipn p t) res
  end.
Proof.
  intros E C W A JS. pose proof (HR r f s (skipn p t) W (clean_skipn _ _ C) (at_rest _ _ _ _ _ E A) JS) as H.
  destruct (srec r f (skipn p t)) as [y| |]; cbn [lockK] in H; [|exact I|exact H].
  destruct H as (res & s' & -> & S & M & JK). exists res, s'. split; [reflexivity|]. split; [exact S|].
  destruct S as (L & _). rewrite skipn_length in L. pose proof A as (A1 & A2 & A3 & A4).
  split; [lia|]. split; [exact M|]. split; [|exact JK]. apply at_move with (s := s); [exact A|lia|exact M].
Qed.

Lemma safe_spec last p m u k : safe last p m u k = true ->
  (m - p <= k)%nat \/ (last = true /\ (2 * u <= m - p)%nat).
Proof.
  unfold safe. intros H. apply orb_true_iff in H as [H|H]; [left; now apply Nat.leb_le|].
  apply andb_true_iff in H as [H1 H2]. right. split; [exact H1|now apply Nat.leb_le].
Qed.

(** Between two steps: the text read, what is pending, and a stream that stands
    where reading stopped, unless no step follows. *)
Record between (s0 : stream) (t : list Z) (p m : nat) (more : bool) (s : stream) (read unused : list Z) : Prop := {
  bt_read : read = firstn m t;
  bt_unused : unused = firstn (m - p) (skipn p t);
  bt_pm : (p <= m <= length t)%nat;
  bt_moves : moves m s0 (unwrap (depth s0) s);
  bt_more : more = true -> at_ s0 t m m s }.

Lemma between_at s0 t p m s read unused : between s0 t p m true s read unused -> at_ s0 t p m (prepend s unused).
Proof.
  intros [-> -> L M H]. apply at_prepend. replace (p + (m - p))%nat with m by lia. now apply H.
Qed.

(** After a step that matched. *)
Lemma between_step s0 t p m s read unused n u k st res s' more :
  between s0 t p m true s read unused -> says (skipn p t) (Match n u k st) res ->
  (p + k <= length t)%nat -> at_ s0 t (p + k) (Nat.max m (p + k)) s' -> safe (negb more) p m u k = true ->
  exists read' unused', account read unused res = Ok (read', unused') /\
    between s0 t (p + u) (Nat.max m (p + k)) more s' read' unused'.
Proof.
  intros [-> -> L M H] S LK A SF. pose proof S as (_ & R & LU & U & _). cbn [reads] in R.
  apply safe_spec in SF.
  assert (AE : account (firstn m t) (firstn (m - p) (skipn p t)) res =
    Ok (firstn (Nat.max m (p + k)) t, firstn (Nat.max m (p + k) - (p + u)) (skipn (p + u) t))).
  { apply account_exact; auto; try lia. rewrite U, R. reflexivity. }
  rewrite AE. do 2 eexists. split; [reflexivity|]. constructor; auto; try lia.
  - now apply at_moves with (p := (p + k)%nat) (t := t).
  - intros ->. cbn [negb] in SF. destruct SF as [SF|[SF _]]; [|discriminate].
    replace (Nat.max m (p + k)) with (p + k)%nat in * by lia. exact A.
Qed.

Lemma concat_lock b self s0 t : rest s0 = t -> clean t -> descOk self = true -> forall rules,
  (forall x, In x rules -> wfRule x) -> forall s f p m read unused sticky kids pos,
  between s0 t p m (negb (isLast rules)) s read unused -> J s -> chain t p kids ->
  lockK t s0 (semSeq srec b rules t f p m sticky (List.map erase kids))
    (concatLoop rec b self (depth s0) rules s f read unused sticky kids pos).
Proof.
  intros E C Hd. induction rules as [|r rules IH]; intros W s f p m read unused sticky kids pos B JS CH; cbn [concatLoop semSeq].
  - destruct B as [-> -> L M _]. cbn [lockK]. do 2 eexists. split; [reflexivity|]. split; [|split; [exact M|split; [now apply HK|]]].
    2: { apply (covers_ok _ _ _ _ _ _ _ p m); auto; try lia; [symmetry; apply skipn_firstn'|]. now apply (k_kids HK). }
    split; [cbn; lia|]. split; [reflexivity|]. cbn. split; [lia|]. split; [symmetry; apply skipn_firstn'|]. split; [reflexivity|].
    eexists. split; [reflexivity|]. cbn. now rewrite map_rev.
  - cbn [isLast negb] in B. pose proof (call s0 t p m _ r f E C (W r (or_introl eq_refl)) (between_at _ _ _ _ _ _ _ B) (k_prepend HK _ _ JS)) as H.
    destruct (srec r f (skipn p t)) as [y| |]; cbn [sbind lockK] in *; [|exact I|now rewrite H].
    destruct H as (res & s2 & -> & S & LK & _ & A & J2 & CV). cbn [bind]. destruct y as [n u k st|k st|k]; cbn [reads] in *.
    + destruct (safe (isLast rules) p m u k) eqn:SF; [|exact I].
      rewrite <- (negb_involutive (isLast rules)) in SF.
      destruct (between_step _ _ _ _ _ _ _ _ _ _ _ _ _ _ B S LK A SF) as (read' & unused' & -> & B').
      cbn [bind]. pose proof (fun nd => covers_eq _ _ _ _ _ _ nd S CV) as KN.
      destruct S as (_ & _ & LU & _ & <- & nd & EN & <-). rewrite EN, nextFlag_mode.
      change (erase nd :: List.map erase kids) with (List.map erase (nd :: kids)). apply IH; [|exact B'|exact J2|].
      * intros x Hx. apply W. now right.
      * constructor; [exact CH|lia|]. now apply KN.
    + destruct B as [-> -> L M _]. destruct S as (_ & R & EN & U & <-). cbn [reads] in R.
      rewrite (account_exact t p m 0 k); auto; try lia. cbn [bind]. rewrite EN, Hd. cbn [lockK].
      assert (LR : length (r_read res) = k) by (rewrite R, firstn_length, skipn_length; lia).
      destruct (covers_err t res p k (Nat.max m (p + k)) CV EN LR) as (e & -> & X); [lia|].
      do 2 eexists. split; [reflexivity|]. split; [|split; [now apply at_moves in A|split; [now apply HK|]]].
      2: { eapply covers_none; [reflexivity|lia|]. now apply (k_concat HK). }
      split; [cbn; lia|]. split; [reflexivity|]. cbn. auto.
    + destruct B as [-> -> L M _]. destruct S as (_ & R & EN & U & ES). cbn [reads] in R.
      destruct (account_read t p m k (firstn m t) (firstn (m - p) (skipn p t)) res) as (un & ->); auto; try lia. cbn [bind]. rewrite EN, Hd, ES. cbn [lockK].
      assert (LR : length (r_read res) = k) by (rewrite R, firstn_length, skipn_length; lia).
      destruct (covers_err t res p k (Nat.max m (p + k)) CV EN LR) as (e & -> & X); [lia|].
      do 2 eexists. split; [reflexivity|]. split; [|split; [now apply at_moves in A|split; [now apply HK|]]].
      2: { eapply covers_none; [reflexivity|lia|]. now apply (k_concat HK). }
      split; [cbn; lia|]. split; [reflexivity|]. cbn. rewrite andb_false_r. auto.
Qed.

Lemma repDone_lock b self mn idx err erridx s0 t p m more s1 s read unused sticky kids pos :
  descOk self = true -> between s0 t p m more s1 read unused -> s = unwrap (depth s0) s1 -> J s1 -> chain t p kids -> rest s0 = t -> idx = cursor s ->
  (forall e, err = Some e -> Er t m e erridx) ->
  lockK t s0 (SOk (repEnd b mn (List.map erase kids) p m sticky))
    (let* res := repDone b self mn idx err erridx read unused sticky kids pos in Ok (res, s)).
Proof.
  intros Hd [-> -> L M _] -> JS CH E0 EI HE. unfold repEnd, repDone. rewrite map_length. destruct (Z.of_nat (length kids) <? mn).
  - assert (X : exists e i, (match err with
      | Some e => Ok (mkRes None (Some e) erridx (firstn m t) (firstn m t) sticky)
      | None => if descOk self then Ok (mkRes None (Some (ERepMin self (length kids))) idx (firstn m t) (firstn m t) sticky) else Panic
      end) = Ok (mkRes None (Some e) i (firstn m t) (firstn m t) sticky) /\ Er t m e i).
    { destruct err; [eauto|]. rewrite Hd. do 2 eexists. split; [reflexivity|]. rewrite EI. apply (k_few HK); [now apply HK| |lia].
      rewrite (moves_rest _ _ _ M). now rewrite E0. }
    destruct X as (e & i & -> & X). cbn [bind lockK]. do 2 eexists. split; [reflexivity|]. split; [|split; [exact M|split; [now apply HK|]]].
    2: { eapply covers_none; [reflexivity|lia|exact X]. }
    split; [cbn; lia|]. split; [reflexivity|]. cbn. auto.
  - cbn [bind lockK]. do 2 eexists. split; [reflexivity|]. split; [|split; [exact M|split; [now apply HK|]]].
    2: { apply (covers_ok _ _ _ _ _ _ _ p m); auto; try lia; [symmetry; apply skipn_firstn'|]. now apply (k_kids HK). }
    split; [cbn; lia|]. split; [reflexivity|]. cbn. split; [lia|]. split; [symmetry; apply skipn_firstn'|]. split; [reflexivity|].
    eexists. split; [reflexivity|]. cbn. now rewrite map_rev.
Qed.

Lemma rep_lock b self r mn mx s0 t : rest s0 = t -> clean t -> descOk self = true -> wfRule r -> forall fuel
  s f p m read unused sticky kids pos,
  between s0 t p m true s read unused -> J s -> chain t p kids ->
  lockK t s0 (semRep srec fuel b r mn mx t f p m sticky (List.map erase kids))
    (repLoop rec fuel b self r mn mx (depth s0) s f read unused sticky kids pos).
Proof.
  intros E C Hd W. induction fuel as [|fuel IH]; intros s f p m read unused sticky kids pos B JS CH; cbn [repLoop semRep]; [reflexivity|].
  pose proof (between_at _ _ _ _ _ _ _ B) as A0.
  rewrite (peek_eof _ (at_clean _ _ _ _ _ E C A0)), (at_rest _ _ _ _ _ E A0).
  assert (H0 : lockK t s0 (SOk (repEnd b mn (List.map erase kids) p m sticky))
    (let* res := repDone b self mn (cursor (unwrap (depth s0) (prepend s unused))) None 0 read unused sticky kids pos in
     Ok (res, unwrap (depth s0) (prepend s unused)))).
  { eapply repDone_lock; [exact Hd|exact B| |exact JS|exact CH|exact E|reflexivity|discriminate]. apply unwrap_prepend. now apply (bt_more _ _ _ _ _ _ _ _ B). }
  pose proof (call s0 t p m _ r f E C W A0 (k_prepend HK _ _ JS)) as H.
  destruct (skipn p t) as [|c0 l0] eqn:ESK; [exact H0|]. clear H0. rewrite <- ESK in *. clear ESK c0 l0.
  destruct (srec r f (skipn p t)) as [y| |]; cbn [sbind lockK] in *; [|exact I|now rewrite H].
  destruct H as (res & s2 & -> & S & LK & _ & A & J2 & CV). cbn [bind]. destruct y as [n u k st|k st|k]; cbn [reads] in *; [| |exact I].
  - rewrite map_length. set (full := (mx >? 0) && (Z.of_nat (Datatypes.S (length kids)) =? mx)).
    destruct (safe full p m u k) eqn:SF; [|exact I].
    rewrite <- (negb_involutive full) in SF.
    destruct (between_step _ _ _ _ _ _ _ _ _ _ _ _ _ _ B S LK A SF) as (read' & unused' & -> & B').
    cbn [bind]. pose proof (fun nd => covers_eq _ _ _ _ _ _ nd S CV) as KN.
    destruct S as (_ & _ & LU & _ & <- & nd & EN & <-). rewrite EN.
    assert (CH2 : chain t (p + u) (nd :: kids)) by (constructor; [exact CH|lia|now apply KN]).
    change (erase nd :: List.map erase kids) with (List.map erase (nd :: kids)).
    change (Z.of_nat (length (nd :: kids))) with (Z.of_nat (Datatypes.S (length kids))). fold full.
    destruct full; cbn [negb] in B'.
    + eapply repDone_lock; [exact Hd|exact B'|reflexivity|exact J2|exact CH2|exact E|reflexivity|discriminate].
    + now apply IH.
  - destruct B as [-> -> L M _]. destruct S as (_ & R & EN & U & <-). cbn [reads] in R.
    rewrite (account_exact t p m 0 k); auto; try lia. cbn [bind]. rewrite EN, Nat.add_0_r.
    assert (LR : length (r_read res) = k) by (rewrite R, firstn_length, skipn_length; lia).
    destruct (covers_err t res p k (Nat.max m (p + k)) CV EN LR) as (e & -> & X); [lia|].
    eapply repDone_lock with (more := false) (s1 := s2); [exact Hd| |reflexivity|exact J2|exact CH|exact E|reflexivity|].
    + constructor; auto; try lia; try discriminate. now apply at_moves in A.
    + intros e' [= <-]. apply (k_index HK _ _ _ _ _ X); [now apply HK| |lia]. apply at_moves in A. rewrite (moves_rest _ _ _ A). now rewrite E.
Qed.

(* ---------------- alternatives ---------------- *)

Lemma Forall2_rev {A B} (P : A -> B -> Prop) l m : Forall2 P l m -> Forall2 P (rev l) (rev m).
Proof.
  induction 1 as [|x y l m HP F IH]; [constructor|]. cbn [rev]. apply Forall2_app; [exact IH|]. constructor; [exact HP|constructor].
Qed.

Definition relm (res : result) (x : node * nat) : Prop :=
  (exists nd, r_node res = Some nd /\ erase nd = fst x) /\ countUsed res = Z.of_nat (snd x).

(** The error kept by the loops over alternatives. *)
Definition heldErr (t : list Z) (m : nat) (err : option eerr) (i : Z) : Prop :=
  match err with Some e => Er t m e i | None => i = 0 end.
Lemma held_wide t m m' err i : heldErr t m err i -> (m <= m' <= length t)%nat -> heldErr t m' err i.
Proof. destruct err; cbn; [|auto]. intros H L. apply (k_wide HK t 0 m m'); [exact H|lia]. Qed.

Lemma alts_lock s0 t : rest s0 = t -> clean t -> forall rules, (forall x, In x rules -> wfRule x) ->
  forall s f m sticky maxErr maxIdx matched ml, at_ s0 t m m s -> depth s = depth s0 -> J s -> Forall (covers t) matched ->
  Forall2 relm matched ml -> (forall x, In x ml -> (snd x <= m)%nat) -> heldErr t m maxErr maxIdx ->
  match semAlts srec rules t f m sticky ml with
  | SUnsafe => True
  | SFuel => altLoop rec (depth s0) rules s f (firstn m t) sticky maxErr maxIdx matched = OutOfFuel
  | SOk (ml', m', sticky') => exists matched' maxErr' maxIdx' s',
      altLoop rec (depth s0) rules s f (firstn m t) sticky maxErr maxIdx matched =
        Ok (matched', firstn m' t, sticky', maxErr', maxIdx', s') /\
      Forall2 relm matched' ml' /\ at_ s0 t m' m' s' /\ depth s' = depth s0 /\ (forall x, In x ml' -> (snd x <= m')%nat) /\
      J s' /\ Forall (covers t) matched' /\ heldErr t m' maxErr' maxIdx'
  end.
Proof.
  intros E C. induction rules as [|r rules IH]; intros W s f m sticky maxErr maxIdx matched ml A D JS CV F HL HE; cbn [semAlts altLoop].
  - do 4 eexists. split; [reflexivity|]. split; [now apply Forall2_rev|]. split; [exact A|]. split; [exact D|].
    split; [intros x Hx; apply in_rev in Hx; auto|]. split; [exact JS|]. split; [now apply Forall_rev|exact HE].
  - assert (A0 : at_ s0 t 0 m (prepend s (firstn m t))) by (apply (at_prepend s0 t 0 m m s); exact A).
    pose proof (call s0 t 0 m _ r f E C (W r (or_introl eq_refl)) A0 (k_prepend HK _ _ JS)) as H. cbn [skipn] in H.
    destruct (srec r f t) as [y| |]; cbn [sbind]; [|exact I|now rewrite H].
    destruct H as (res & s2 & -> & S & LK & _ & A2 & J2 & CR). cbn [bind Nat.add] in *.
    apply (k_unwrap HK (depth s0)) in J2. pose proof A0 as (_ & _ & LM & _).
    assert (ER : (if (length (firstn m t) <? length (r_read res))%nat then r_read res else firstn m t) =
      firstn (Nat.max m (reads y)) t).
    { destruct S as (_ & R & _). rewrite R, !firstn_length.
      destruct (Nat.ltb_spec (Nat.min m (length t)) (Nat.min (reads y) (length t))); f_equal; lia. }
    rewrite ER. pose proof (at_unwrap _ _ _ _ _ A2) as A3.
    assert (D3 : depth (unwrap (depth s0) s2) = depth s0) by (apply unwrap_depth; apply A2).
    assert (W' : forall x, In x rules -> wfRule x) by (intros x Hx; apply W; now right).
    assert (HL' : forall x, In x ml -> (snd x <= Nat.max m (reads y))%nat) by (intros x Hx; specialize (HL x Hx); lia).
    assert (HE1 : heldErr t (Nat.max m (reads y)) maxErr maxIdx) by (eapply held_wide; [exact HE|lia]).
    assert (HE2 : r_node res = None -> heldErr t (Nat.max m (reads y)) (r_err res) (r_erridx res)).
    { intros EN. destruct S as (_ & R & _). assert (LR : length (r_read res) = reads y) by (rewrite R, firstn_length; lia).
      destruct (covers_err t res 0 (reads y) (Nat.max m (reads y)) CR EN LR) as (e & -> & X); [lia|exact X]. }
    destruct y as [n u k st|k st|k]; cbn [reads] in *.
    + pose proof (says_count _ _ _ _ _ _ S) as CU. destruct S as (_ & _ & LU & _ & <- & nd & EN & <-). rewrite EN.
      apply IH; auto.
      * constructor; [|exact F]. split; [exists nd; split; [exact EN|reflexivity]|exact CU].
      * intros x [<-|Hx]; [cbn; lia|auto].
    + destruct S as (_ & _ & EN & _ & <-). rewrite EN. destruct (r_erridx res >? maxIdx); apply IH; auto.
    + destruct S as (_ & _ & EN & _ & ES). rewrite EN, ES, andb_false_r. destruct (r_erridx res >? maxIdx); apply IH; auto.
Qed.

Lemma selLoop_tie l ml : Forall2 relm l ml -> forall v fnd, 
  selLoop (Z.of_nat v) (Some fnd) l = None <-> earlyTie (Some v) ml = true.
Proof.
  induction 1 as [|res [n u] l ml R F IH]; intros v fnd; cbn [selLoop earlyTie]; [split; discriminate|].
  destruct R as [_ R]. cbn [snd] in R. rewrite R.
  destruct (Nat.ltb_spec u v) as [H|H].
  - replace (Z.of_nat u <? Z.of_nat v) with true by lia. apply IH.
  - replace (Z.of_nat u <? Z.of_nat v) with false by lia. destruct (Nat.eqb_spec u v) as [H2|H2].
    + replace (Z.of_nat u =? Z.of_nat v) with true by lia. tauto.
    + replace (Z.of_nat u =? Z.of_nat v) with false by lia. apply IH.
Qed.
Lemma selLoop_max l ml : Forall2 relm l ml -> forall v fnd n0, relm fnd (n0, v) -> earlyTie (Some v) ml = false ->
  exists res n u, selLoop (Z.of_nat v) (Some fnd) l = Some (Some res) /\ relm res (n, u) /\
    In (n, u) ((n0, v) :: ml) /\ u = Nat.max v (longest ml).
Proof.
  induction 1 as [|res [n u] l ml R F IH]; intros v fnd n0 RF T; cbn [selLoop earlyTie longest fold_right] in *.
  - exists fnd, n0, v. repeat split; auto; [apply RF|apply RF|now left|lia].
  - pose proof R as R0. destruct R as [_ R]. cbn [snd] in *. rewrite R. fold (longest ml).
    destruct (Nat.ltb_spec u v) as [H|H].
    + replace (Z.of_nat u <? Z.of_nat v) with true by lia.
      destruct (IH v fnd n0 RF T) as (x & n' & u' & E & RX & HI & HU). exists x, n', u'. repeat split; auto; try apply RX; [|lia].
      destruct HI as [HI|HI]; [now left|right; now right].
    + replace (Z.of_nat u <? Z.of_nat v) with false by lia. destruct (Nat.eqb_spec u v) as [H2|H2]; [discriminate|].
      replace (Z.of_nat u =? Z.of_nat v) with false by lia.
      destruct (IH u res n R0 T) as (x & n' & u' & E & RX & HI & HU). exists x, n', u'. repeat split; auto; try apply RX; [|lia].
      right. exact HI.
Qed.

Lemma longest_ge x l : In x l -> (snd x <= longest l)%nat.
Proof. induction l as [|y l IH]; cbn; [intros []|]. intros [->|H]; [lia|]. specialize (IH H). unfold longest in IH. lia. Qed.
Lemma longest_in l : l <> [] -> exists x, In x l /\ snd x = longest l.
Proof.
  induction l as [|y l IH]; [congruence|]. intros _. destruct l as [|z l].
  - exists y. cbn. split; [now left|lia].
  - destruct IH as (x & HI & HX); [discriminate|]. cbn [longest fold_right] in *. fold (longest l) in *.
    destruct (Nat.le_gt_cases (Nat.max (snd z) (longest l)) (snd y)).
    + exists y. split; [now left|lia].
    + exists x. split; [now right|lia].
Qed.

(** Two matches of the greatest length make a tie. *)
Lemma tie_early ml : forall v, (1 <= length (List.filter (fun x => (snd x =? Nat.max v (longest ml))%nat) ml))%nat ->
  (longest ml <= v)%nat -> earlyTie (Some v) ml = true.
Proof.
  induction ml as [|[n u] ml IH]; intros v H L; [cbn in H; lia|].
  cbn [longest fold_right snd] in L. fold (longest ml) in L. cbn [earlyTie].
  destruct (Nat.ltb_spec u v) as [H1|H1].
  - apply IH; [|lia]. cbn [List.filter longest fold_right snd] in H. fold (longest ml) in H.
    replace (Nat.max v (Nat.max u (longest ml))) with (Nat.max v (longest ml)) in H by lia.
    destruct (u =? Nat.max v (longest ml))%nat eqn:E; [apply Nat.eqb_eq in E; lia|exact H].
  - replace (u =? v)%nat with true; [reflexivity|]. symmetry. apply Nat.eqb_eq. lia.
Qed.
Lemma tie_early2 ml : forall v, (2 <= length (List.filter (fun x => (snd x =? longest ml)%nat) ml))%nat ->
  (v < longest ml)%nat -> earlyTie (Some v) ml = true.
Proof.
  induction ml as [|[n u] ml IH]; intros v H L; [cbn in H; lia|].
  cbn [longest fold_right snd List.filter] in *. fold (longest ml) in *. cbn [earlyTie].
  destruct (Nat.eqb_spec u (Nat.max u (longest ml))) as [E|E].
  - destruct (Nat.ltb_spec u v); [lia|]. destruct (Nat.eqb_spec u v); [reflexivity|].
    apply tie_early; [|lia]. cbn [length] in H. rewrite <- E in H.
    replace (Nat.max u (longest ml)) with u by lia. lia.
  - replace (Nat.max u (longest ml)) with (longest ml) in H by lia.
    destruct (Nat.ltb_spec u v); [apply IH; [exact H|lia]|]. destruct (Nat.eqb_spec u v); [reflexivity|].
    apply IH; [exact H|lia].
Qed.
Lemma tie_early_none ml : (2 <= length (List.filter (fun x => (snd x =? longest ml)%nat) ml))%nat -> earlyTie None ml = true.
Proof.
  destruct ml as [|[n u] ml]; [cbn; lia|]. cbn [earlyTie List.filter longest fold_right snd]. fold (longest ml).
  intros H. destruct (Nat.eqb_spec u (Nat.max u (longest ml))) as [E|E].
  - apply tie_early; [|lia]. cbn [length] in H. rewrite <- E in H. replace (Nat.max u (longest ml)) with u by lia. lia.
  - replace (Nat.max u (longest ml)) with (longest ml) in H by lia. apply tie_early2; [exact H|lia].
Qed.

Lemma select_pick l ml : Forall2 relm l ml ->
  match pick ml with
  | PNone => select l = Some None
  | POne n u => exists res, select l = Some (Some res) /\ relm res (n, u) /\ In (n, u) ml /\ u = longest ml
  | PTie => select l = None
  | PEarly => select l = None
  end.
Proof.
  intros F. inversion F as [|res [n u] l' ml' R F' E1 E2]; subst; [reflexivity|].
  assert (SL : select (res :: l') = selLoop 0 None (res :: l')).
  { destruct l'; [|reflexivity]. cbn. destruct R as [_ R]. cbn in R. rewrite R.
    replace (Z.of_nat u <? 0) with false by lia. destruct (Z.of_nat u =? 0); reflexivity. }
  assert (SL2 : select (res :: l') = selLoop (Z.of_nat u) (Some res) l').
  { rewrite SL. cbn [selLoop]. destruct R as [_ R]. cbn in R. rewrite R. replace (Z.of_nat u <? 0) with false by lia.
    destruct (Z.eqb_spec (Z.of_nat u) 0) as [->|]; reflexivity. }
  unfold pick. destruct (List.filter _ ((n, u) :: ml')) as [|[n1 u1] [|x2 fl]] eqn:EF.
  - exfalso. destruct (longest_in ((n, u) :: ml')) as (x & HI & HX); [discriminate|].
    assert (X : In x (List.filter (fun x => (snd x =? longest ((n, u) :: ml'))%nat) ((n, u) :: ml'))).
    { apply filter_In. split; [exact HI|now apply Nat.eqb_eq]. }
    rewrite EF in X. exact X.
  - cbn [earlyTie]. destruct (earlyTie (Some u) ml') eqn:ET.
    + rewrite SL2. now apply (selLoop_tie l' ml' F' u res).
    + destruct (selLoop_max l' ml' F' u res n R ET) as (x & n' & u' & E & RX & HI & HU).
      assert (X : In (n', u') (List.filter (fun x => (snd x =? longest ((n, u) :: ml'))%nat) ((n, u) :: ml'))).
      { apply filter_In. split; [exact HI|]. apply Nat.eqb_eq. cbn [snd longest fold_right]. exact HU. }
      rewrite EF in X. destruct X as [X|[]]. injection X as <- <-. exists x. rewrite SL2. split; [exact E|]. split; [exact RX|].
      split; [exact HI|exact HU].
  - rewrite SL2. apply (selLoop_tie l' ml' F' u res). change (earlyTie None ((n, u) :: ml') = true).
    apply tie_early_none. rewrite EF. cbn. lia.
Qed.

Lemma choice_lock b self s0 t : rest s0 = t -> clean t -> descOk self = true -> forall groups,
  (forall grp x, In grp groups -> In x grp -> wfRule x) ->
  forall s f m sticky maxErr maxIdx, at_ s0 t m m s -> depth s = depth s0 -> J s -> heldErr t m maxErr maxIdx ->
  lockK t s0 (semChoice srec b groups t f m sticky)
    (choiceLoop rec b self (depth s0) groups s f (firstn m t) sticky maxErr maxIdx).
Proof.
  intros E C Hd. induction groups as [|grp groups IH]; intros W s f m sticky maxErr maxIdx A D JS HE; cbn [semChoice choiceLoop].
  - rewrite Hd. cbn [lockK]. do 2 eexists. split; [reflexivity|]. pose proof A as (_ & _ & LM & M & _).
    rewrite (unwrap_id' _ _ D) in M. split; [|split; [exact M|split; [exact JS|]]].
    2: { eapply covers_none; [reflexivity|lia|]. destruct maxErr; cbn in HE; [now apply (k_choice HK)|rewrite HE; apply (k_silent HK)]. }
    split; [exact LM|]. split; [reflexivity|]. cbn. auto.
  - pose proof (alts_lock s0 t E C grp (fun x Hx => W grp x (or_introl eq_refl) Hx) s f m sticky maxErr maxIdx [] [] A D JS (Forall_nil _)
      (Forall2_nil _) (fun x Hx => match Hx with end) HE) as H.
    destruct (semAlts srec grp t f m sticky []) as [[[ml m'] st']| |]; cbn [sbind]; [|exact I|now rewrite H].
    destruct H as (matched & me & mi & s' & -> & F & A' & D' & HL & J' & CV & HE'). cbn [bind].
    pose proof A' as (_ & _ & LM & M & _). rewrite (unwrap_id' _ _ D') in M.
    pose proof (select_pick _ _ F) as SP. destruct (pick ml) as [|n u| |].
    + rewrite SP. apply IH; auto. intros; eapply W; [right|]; eauto.
    + destruct SP as (res & SE & ((nd & EN & EE) & CU) & HI & _). rewrite SE. cbn [snd fst] in *. rewrite EN, CU.
      specialize (HL _ HI). cbn in HL. rewrite slice_from_ok by (rewrite firstn_length; lia). cbn [bind lockK].
      assert (KN : K t u nd).
      { pose proof (proj1 (proj1 (Forall_forall _ _) CV res (select_in _ _ SE)) nd EN) as X. now rewrite CU, Nat2Z.id in X. }
      do 2 eexists. split; [reflexivity|]. split; [|split; [exact M|split; [exact J'|]]].
      2: { apply (covers_ok _ _ _ _ _ _ _ u m'); auto. apply (k_kids HK _ _ _ _ [nd]); [exact I|]. apply chain_one; [lia|exact KN]. }
      split; [exact LM|]. split; [reflexivity|].
      cbn. split; [lia|]. split; [reflexivity|]. split; [reflexivity|]. eexists. split; [reflexivity|]. cbn. now rewrite EE.
    + rewrite SP. cbn [lockK]. do 2 eexists. split; [reflexivity|]. split; [|split; [exact M|split; [exact J'|]]].
      2: { eapply covers_none; [reflexivity|lia|apply (k_tie HK)]. }
      split; [exact LM|]. split; [reflexivity|].
      cbn. auto.
    + exact I.
Qed.

(* ---------------- blocks ---------------- *)

Lemma greedy_lock s0 t p m s rules : rest s0 = t -> clean t -> (forall x, In x rules -> wfRule x) -> at_ s0 t p m s -> J s ->
  match semAlts srec rules (skipn p t) NOT_SKIP 0 true [] with
  | SUnsafe => True
  | SFuel => mostGreedy rec rules s NOT_SKIP = OutOfFuel
  | SOk (ml, k, _) =>
    match pick ml with
    | PNone => exists res s', mostGreedy rec rules s NOT_SKIP = Ok (res, s') /\ r_node res = None /\
        r_read res = firstn k (skipn p t) /\ (p + k <= length t)%nat /\ at_ s0 t (p + k) (Nat.max m (p + k)) s' /\ J s'
    | POne _ v => exists res s' nd, mostGreedy rec rules s NOT_SKIP = Ok (res, s') /\ (r_node res = Some nd /\ charsUsed res = Ok (firstn v (skipn p t)) /\ (p + v <= length t)%nat /\ (v <= k)%nat) /\
        r_read res = firstn k (skipn p t) /\ (p + k <= length t)%nat /\ at_ s0 t (p + k) (Nat.max m (p + k)) s' /\ J s'
    | _ => True
    end
  end.
Proof.
  intros E C W A JS. unfold mostGreedy. pose proof (at_rest _ _ _ _ _ E A) as ER.
  pose proof (at_start s (skipn p t) ER) as A1.
  pose proof (alts_lock s (skipn p t) ER (clean_skipn _ _ C) rules W s NOT_SKIP 0 true None 0 [] [] A1 eq_refl JS (Forall_nil _)
      (Forall2_nil _) (fun x Hx => match Hx with end) eq_refl) as H. cbn [firstn] in H.
  destruct (semAlts srec rules (skipn p t) NOT_SKIP 0 true []) as [[[ml k] st]| |]; [|exact I|now rewrite H].
  destruct H as (matched & me & mi & s' & -> & F & A' & D' & HL & J' & CV & _). cbn [bind].
  pose proof A' as (_ & _ & LM & M & _). rewrite (unwrap_id' _ _ D') in M. rewrite skipn_length in LM.
  pose proof A as (_ & LP & LT & _).
  assert (AM : at_ s0 t (p + k) (Nat.max m (p + k)) s') by (apply at_move with (s := s); [exact A|lia|exact M]).
  pose proof (select_pick _ _ F) as SP. destruct (pick ml) as [|n u| |]; [| |exact I|exact I].
  - rewrite SP. do 2 eexists. split; [reflexivity|]. cbn. repeat split; auto; try lia; apply AM.
  - destruct SP as (res & -> & ((nd & EN & EE) & CU) & HI & _). cbn [snd fst] in *. rewrite CU.
    specialize (HL _ HI). cbn in HL. rewrite slice_from_ok by (rewrite firstn_length, skipn_length; lia). cbn [bind].
    do 3 eexists. split; [reflexivity|]. cbn [r_node r_read]. split; [split; [exact EN|]|repeat split; auto; try lia; apply AM].
    unfold charsUsed, countUsed. cbn [r_read r_unused]. split; [|lia]. rewrite skipn_length, firstn_length, skipn_length, <- Nat2Z.inj_sub by lia.
    replace (Nat.min k (length t - p) - (Nat.min k (length t - p) - u))%nat with u by lia.
    rewrite slice_to_ok by (rewrite firstn_length, skipn_length; lia). rewrite firstn_firstn. do 2 f_equal. lia.
Qed.

(** Nothing stops a block at [q]. *)
Definition passedBy (cl : rule) (esc : option rule) (excl : list rule) (t : list Z) (q : nat) : Prop :=
  (exists k st, srec cl NOT_SKIP (skipn q t) = SOk (Fail k st)) /\
  (forall e, esc = Some e -> exists y, srec e NOT_SKIP (skipn q t) = SOk y /\ forall n u k st, y <> Match n u k st) /\
  (excl <> [] -> exists ml k st, semAlts srec excl (skipn q t) NOT_SKIP 0 true [] = SOk (ml, k, st) /\ pick ml = PNone).
(** What the loop of a block leaves. *)
Definition exitSays (cl : rule) (esc : option rule) (excl : list rule) (s0 : stream) (t : list Z) (u0 : nat) (b : rbase) (on : node) (vclose : bool)
  (y : sres) (cs : stream) (e : blockExit) : Prop :=
  (reads y <= length t)%nat /\ moves (reads y) s0 (unwrap (depth s0) cs) /\ J cs /\
  match e with
  | BExclude xr used content => y = Fail (reads y) false /\ (exists p v, charsUsed xr = Ok (firstn v (skipn p t)) /\ (p + v <= reads y)%nat /\
      (u0 <= p)%nat /\ (forall q, (u0 <= q < p)%nat -> passedBy cl esc excl t q) /\
      exists ml k st n, semAlts srec excl (skipn p t) NOT_SKIP 0 true [] = SOk (ml, k, st) /\ pick ml = POne n v) /\ used ++ content ++ r_read xr = firstn (reads y) t
  | BEOF used unused => y = Fail (reads y) false /\ reads y = length t /\ used ++ unused = firstn (reads y) t /\
      (u0 <= length t)%nat /\ forall q, (u0 <= q <= length t)%nat -> passedBy cl esc excl t q
  | BClose cr used unused content => exists nc u p,
      r_node cr = Some nc /\ (p + u <= reads y)%nat /\ used ++ unused = firstn (reads y) t /\
      unused = skipn (p + u) (firstn (reads y) t) /\ r_read cr = skipn p (firstn (reads y) t) /\
      content = firstn (p - u0) (skipn u0 t) /\ (u0 <= p)%nat /\ K (skipn p t) u nc /\
      y = Match (tree TBlock b (on :: Node TChars [] content [] None true false false false ::
                                  (if vclose then [] else [erase nc])) false)
            (if vclose then p else (p + u)%nat) (reads y) false
  end.

Lemma block_lock b on vclose cl esc excl s0 t u0 : rest s0 = t -> clean t ->
  wfRule cl -> (forall x, esc = Some x -> wfRule x) -> (forall x, In x excl -> wfRule x) ->
  forall fuel cs p m unused,
  at_ s0 t p m cs -> J cs -> (u0 <= p)%nat -> (esc = None -> unused = []) -> (forall q, (u0 <= q < p)%nat -> passedBy cl esc excl t q) ->
  match semScan srec fuel b on u0 vclose cl esc excl t p m with
  | SUnsafe => True
  | SFuel => blockLoop rec fuel cl esc excl cs (firstn u0 t) unused (firstn (p - u0) (skipn u0 t)) = OutOfFuel
  | SOk y => exists cs' e, blockLoop rec fuel cl esc excl cs (firstn u0 t) unused (firstn (p - u0) (skipn u0 t)) = Ok (cs', e) /\
      exitSays cl esc excl s0 t u0 b on vclose y cs' e
  end.
Proof.
  intros E C WC WE WX. induction fuel as [|fuel IH]; intros cs p m unused A JC LU HU HQ; cbn [semScan blockLoop]; [reflexivity|].
  unfold blockIter.
  set (S1 := match esc with None => SOk m | Some e => let! x := srec e NOT_SKIP (skipn p t) in
       match x with Match _ _ _ _ => SUnsafe | Fail k _ | Amb k =>
         if isLast excl && negb (k =? 0)%nat then SUnsafe else SOk (Nat.max m (p + k)) end end).
  match goal with |- context [bind (bind ?x _) _] => set (E1 := x) end.
  assert (H1 : match S1 with
    | SUnsafe => True | SFuel => E1 = OutOfFuel
    | SOk m1 => exists un cs1, E1 = Ok (false, [], firstn u0 t, un, cs1) /\ at_ s0 t p m1 (prepend cs1 un) /\ J cs1 /\
         (excl = [] -> un = []) end).
  { unfold S1, E1. destruct esc as [e|].
    - pose proof (call s0 t p m cs e NOT_SKIP E C (WE e eq_refl) A JC) as H.
      destruct (srec e NOT_SKIP (skipn p t)) as [y| |]; cbn [sbind]; [|exact I|now rewrite H].
      destruct H as (res & s2 & -> & S & LK & _ & A2 & J2 & CV). cbn [bind].
      assert (X : r_node res = None -> forall k, k = reads y ->
        match (if isLast excl && negb (k =? 0)%nat then SUnsafe else SOk (Nat.max m (p + k))) with
        | SUnsafe => True
        | SFuel => match r_node res with Some _ => let* u := charsUsed res in Ok (true, u, firstn u0 t ++ u, r_unused res, s2)
            | None => Ok (false, [], firstn u0 t, r_read res, s2) end = OutOfFuel
        | SOk m1 => exists un cs1, match r_node res with Some _ => let* u := charsUsed res in Ok (true, u, firstn u0 t ++ u, r_unused res, s2)
            | None => Ok (false, [], firstn u0 t, r_read res, s2) end = Ok (false, [], firstn u0 t, un, cs1) /\
            at_ s0 t p m1 (prepend cs1 un) /\ J cs1 /\ (excl = [] -> un = []) end).
      { intros EN k ->. rewrite EN. destruct (isLast excl && negb (reads y =? 0)%nat) eqn:EX; [exact I|].
        destruct S as (_ & R & _). do 2 eexists. split; [reflexivity|]. rewrite R. split; [|split; [exact J2|]].
        - now apply at_prepend.
        - intros ->. cbn [isLast andb] in EX. apply negb_false_iff, Nat.eqb_eq in EX. now rewrite EX. }
      destruct y as [n u k st|k st|k]; [exact I| |]; apply X; auto; apply S.
    - exists unused, cs. split; [reflexivity|]. rewrite (HU eq_refl). split; [exact A|]. split; [exact JC|auto]. }
  assert (Q1 : forall m1, S1 = SOk m1 -> forall e, esc = Some e -> exists y, srec e NOT_SKIP (skipn p t) = SOk y /\ forall n u k st, y <> Match n u k st).
  { unfold S1. intros m1 X e ->. destruct (srec e NOT_SKIP (skipn p t)) as [y| |]; [|discriminate..]. exists y. split; [reflexivity|].
    intros n u k st ->. discriminate. }
  clearbody S1 E1. destruct S1 as [m1| |]; cbn [sbind]; [|exact I|now rewrite H1]. specialize (Q1 m1 eq_refl).
  destruct H1 as (un & cs1 & -> & A1 & J1 & HUN). apply (k_prepend HK _ un) in J1. cbn [bind].
  match goal with |- context [sbind ?x _] => set (S2 := x) end.
  match goal with |- context [bind (bind ?x _) _] => set (E2 := x) end.
  assert (H2 : match S2 with
    | SUnsafe => True | SFuel => E2 = OutOfFuel
    | SOk (true, m2) => exists res nd cs2, E2 = Ok (Some res, cs2) /\ (r_node res = Some nd /\ exists v, charsUsed res = Ok (firstn v (skipn p t)) /\ (p + v <= m2)%nat /\
           exists ml k st n, semAlts srec excl (skipn p t) NOT_SKIP 0 true [] = SOk (ml, k, st) /\ pick ml = POne n v) /\ (p <= m2 <= length t)%nat /\
         r_read res = firstn (m2 - p) (skipn p t) /\ moves m2 s0 (unwrap (depth s0) cs2) /\ J cs2
    | SOk (false, m2) => (exists cs2, E2 = Ok (None, cs2) /\ un = [] /\ at_ s0 t p m2 cs2 /\ J cs2) \/
         exists res cs2, E2 = Ok (Some res, cs2) /\ r_node res = None /\ at_ s0 t p m2 (prepend cs2 (r_read res)) /\ J cs2 end).
  { unfold S2, E2. destruct excl as [|x excl].
    - left. exists (prepend cs1 un). split; [reflexivity|]. split; [auto|]. split; [exact A1|exact J1].
    - pose proof (greedy_lock s0 t p m1 _ (x :: excl) E C WX A1 J1) as H.
      destruct (semAlts srec (x :: excl) (skipn p t) NOT_SKIP 0 true []) as [[[ml k] st]| |] eqn:ESA; cbn [sbind]; [|exact I|now rewrite H].
      destruct (pick ml) as [|n u| |] eqn:EPK; [| |exact I|exact I].
      + destruct H as (res & s' & -> & EN & R & LK & A2 & J2). right. exists res, s'. split; [reflexivity|]. split; [exact EN|].
        rewrite R. split; [now apply at_prepend|exact J2].
      + destruct H as (res & s' & nd & -> & EN & R & LK & A2 & J2). destruct (Nat.leb_spec m1 (p + k)) as [H|H]; [|exact I].
        exists res, nd, s'. split; [reflexivity|]. split; [destruct EN as (EN & EV & LV & LVK); split; [exact EN|]; exists u; split; [exact EV|]; split; [lia|]; exists ml, k, st, n; auto|]. split; [lia|]. split; [|split; [|exact J2]].
        * rewrite R. f_equal. lia.
        * apply at_moves in A2. now replace (Nat.max m1 (p + k)) with (p + k)%nat in A2 by lia. }
  assert (Q2 : forall m2, S2 = SOk (false, m2) -> excl <> [] -> exists ml k st, semAlts srec excl (skipn p t) NOT_SKIP 0 true [] = SOk (ml, k, st) /\ pick ml = PNone).
  { unfold S2. intros m2 X NE. destruct excl as [|x excl]; [congruence|].
    destruct (semAlts srec (x :: excl) (skipn p t) NOT_SKIP 0 true []) as [[[ml k] st]| |]; cbn [sbind] in X; [|discriminate..].
    exists ml, k, st. split; [reflexivity|]. destruct (pick ml) as [|n u| |]; [reflexivity| |discriminate..]. destruct (m1 <=? p + k)%nat; discriminate. }
  clearbody S2 E2. destruct S2 as [[[|] m2]| |]; cbn [sbind]; [| |exact I|now rewrite H2].
  { destruct H2 as (res & nd & cs2 & -> & (EN & EU) & LM & R & M & J2). cbn [bind]. rewrite EN. cbn [bind].
    do 2 eexists. split; [reflexivity|]. split; [cbn; lia|]. split; [exact M|]. split; [exact J2|]. cbn [reads]. split; [reflexivity|]. split.
    { destruct EU as (v & EU & LV & X). exists p, v. auto. }
    rewrite R, app_assoc. rewrite (firstn_slice u0 p) by lia. apply firstn_slice. lia. }
  specialize (Q2 m2 eq_refl).
  match goal with |- context [bind ?x (fun '(_, _) => match _ with inl _ => _ | inr _ => _ end)] => set (E3 := x) end.
  assert (H3 : exists cs3, at_ s0 t p m2 cs3 /\ J cs3 /\ E3 =
    let* (res, cs4) := rec cl cs3 NOT_SKIP in
    match r_node res with
    | Some _ => let* u := charsUsed res in
        Ok (cs4, inr (BClose res (firstn u0 t ++ firstn (p - u0) (skipn u0 t) ++ u) (r_unused res) (firstn (p - u0) (skipn u0 t))))
    | None =>
      let cs5 := prepend cs4 (r_unused res) in
      if peek cs5 =? EOFChar then Ok (cs5, inr (BEOF (firstn u0 t ++ firstn (p - u0) (skipn u0 t)) (r_unused res)))
      else let '(c, cs6) := next cs5 in Ok (cs6, inl (firstn u0 t, [], firstn (p - u0) (skipn u0 t) ++ [c]))
    end).
  { unfold E3. clear E3. destruct H2 as [(cs2 & -> & -> & A2 & J2)|(res & cs2 & -> & EN & A2 & J2)].
    - exists cs2. split; [exact A2|]. split; [exact J2|]. cbn [bind prepend app]. destruct (rec cl cs2 NOT_SKIP) as [[rc s4]| |]; cbn [bind]; try reflexivity.
      destruct (r_node rc); [reflexivity|]. now rewrite app_nil_r.
    - exists (prepend cs2 (r_read res)). split; [exact A2|]. split; [now apply HK|]. cbn [bind]. rewrite EN. cbn [bind prepend app].
      destruct (rec cl (prepend cs2 (r_read res)) NOT_SKIP) as [[rc s4]| |]; cbn [bind]; try reflexivity.
      destruct (r_node rc); [reflexivity|]. now rewrite app_nil_r. }
  clearbody E3. clear H2 E2. destruct H3 as (cs3 & A3 & J3 & ->).
  pose proof (call s0 t p m2 cs3 cl NOT_SKIP E C WC A3 J3) as H.
  destruct (srec cl NOT_SKIP (skipn p t)) as [y| |] eqn:ECL; cbn [sbind]; [|exact I|now rewrite H].
  destruct H as (res & s4 & -> & S & LK & _ & A4 & J4 & CV). cbn [bind]. destruct y as [nc u k st|k st|k]; cbn [reads] in *; [| |exact I].
  - destruct (Nat.leb_spec m2 (p + k)) as [H|H]; [|exact I].
    rewrite (says_charsUsed _ _ _ _ _ _ S). pose proof (fun nd => covers_eq _ _ _ _ _ _ nd S CV) as KN.
    destruct S as (_ & R & LUK & U & _ & nd & EN & <-). cbn [reads] in R. rewrite EN. cbn [bind].
    do 2 eexists. split; [reflexivity|]. split; [exact LK|]. cbn [reads]. split; [|split; [exact J4|]].
    + apply at_moves in A4. now replace (Nat.max m2 (p + k)) with (p + k)%nat in A4 by lia.
    + exists nd, u, p. split; [exact EN|]. split; [lia|]. split.
      { rewrite app_assoc, (firstn_slice u0 p) by lia. rewrite U, skipn_firstn', skipn_skipn'.
        rewrite slice_cat. replace (k - u)%nat with (p + k - (p + u))%nat by lia. apply firstn_slice. lia. }
      split; [rewrite U, !skipn_firstn', skipn_skipn'; f_equal; lia|].
      split; [rewrite R, skipn_firstn'; f_equal; lia|]. split; [reflexivity|]. split; [lia|]. split; [now apply KN|reflexivity].
  - assert (HQ' : forall q, (u0 <= q < Datatypes.S p)%nat -> passedBy cl esc excl t q).
    { intros q LQ. destruct (Nat.eq_dec q p) as [->|]; [|apply HQ; lia]. split; [eauto|]. split; [exact Q1|exact Q2]. }
    destruct S as (_ & R & EN & U & _). cbn [reads] in R. rewrite EN, U, R. cbv zeta.
    pose proof (at_prepend _ _ _ _ _ _ A4) as A5. pose proof (at_rest _ _ _ _ _ E A5) as E5.
    rewrite (peek_eof _ (at_clean _ _ _ _ _ E C A5)), E5.
    destruct (skipn p t) as [|c0 l0] eqn:ESK.
    + assert (LP : p = length t).
      { pose proof (f_equal (@length Z) ESK) as X. rewrite skipn_length in X. cbn in X. lia. }
      cbn [bind]. rewrite firstn_nil. do 2 eexists. split; [reflexivity|]. unfold exitSays; cbn [reads]. split; [lia|]. split; [|split; [exact J4|]].
      * cbn [prepend]. pose proof A4 as (_ & X1 & X2 & _). apply at_moves in A4. now replace (Nat.max m2 (p + k)) with (length t) in A4 by lia.
      * split; [reflexivity|]. split; [reflexivity|]. rewrite app_nil_r, (firstn_slice u0 p) by lia. split; [now rewrite LP|]. split; [lia|]. intros q LQ. apply HQ'. lia.
    + destruct (moves_next _ _ _ E5) as (s6 & EN6 & M6 & _). rewrite EN6. cbn [bind].
      assert (LP : (p < length t)%nat).
      { pose proof (f_equal (@length Z) ESK) as X. rewrite skipn_length in X. cbn in X. lia. }
      assert (A6 : at_ s0 t (Datatypes.S p) (Nat.max (Nat.max m2 (p + k)) (Datatypes.S p)) s6).
      { replace (Datatypes.S p) with (p + 1)%nat by lia. rewrite <- ESK in A5. apply at_move with (1 := A5); [lia|]. rewrite ESK. exact M6. }
      assert (EC : firstn (p - u0) (skipn u0 t) ++ [c0] = firstn (Datatypes.S p - u0) (skipn u0 t)).
      { replace (Datatypes.S p - u0)%nat with (p - u0 + 1)%nat by lia. rewrite firstn_plus, skipn_skipn'.
        replace (u0 + (p - u0))%nat with p by lia. rewrite ESK. reflexivity. }
      rewrite EC. apply IH; [exact A6| |lia|auto|exact HQ']. pose proof (k_next HK _ (k_prepend HK _ (firstn k (c0 :: l0)) J4)) as X2.
      rewrite EN6 in X2. exact X2.
Qed.

Lemma evalBlock_lock fuel b op vclose cl esc excl s t f : rest s = t -> clean t ->
  wfRule op -> wfRule cl -> (forall x, esc = Some x -> wfRule x) -> (forall x, In x excl -> wfRule x) -> J s ->
  lockK t s (semBlock srec fuel b op vclose cl esc excl t f) (evalBlock rec fuel b op vclose cl esc excl s f).
Proof.
  intros E C WO WC WE WX JS. unfold semBlock, evalBlock.
  pose proof (call s t 0 0 s op f E C WO (at_start _ _ E) JS) as H. cbn [skipn] in H.
  destruct (srec op f t) as [y| |]; cbn [sbind]; [|exact I|cbn [lockK]; now rewrite H].
  destruct H as (res & s1 & -> & S & LK & M0 & A & J1 & CV). cbn [bind Nat.add] in *.
  destruct y as [on u k st|k st|k]; cbn [reads] in *.
  - destruct (match esc with Some _ => true | None => (k =? u)%nat end) eqn:EE; [|exact I].
    rewrite (says_charsUsed _ _ _ _ _ _ S). pose proof (fun nd => covers_eq _ _ _ _ _ _ nd S CV) as KN.
    destruct S as (_ & R & LUK & U & _ & nd & EN & <-). cbn [reads] in R. rewrite EN. cbn [bind].
    assert (A1 : at_ s t u k (prepend s1 (r_unused res))).
    { rewrite U, skipn_firstn'. apply at_prepend. replace (u + (k - u))%nat with k by lia.
      replace (Nat.max 0 k) with k in A by lia. exact A. }
    pose proof (at_pos _ _ _ _ _ A1) as A2. apply (k_prepend HK _ (r_unused res)) in J1.
    assert (KC : forall p kids q, (u <= p <= length t)%nat -> (p + q <= length t)%nat ->
      (kids = [] /\ q = 0%nat \/ exists nc, kids = [nc] /\ K (skipn p t) q nc) -> K t (p + q) (mkNode TBlock b [] (nd :: Node TChars [] (firstn (p - u) (skipn u t)) [] (fst (positionOf (prepend s1 (r_unused res)))) true false false false :: kids) (n_pos nd) false)).
    { intros. apply (k_block HK); auto. exact (at_rest _ _ _ _ _ E A1). }
    apply (k_pos HK) in J1.
    destruct (positionOf (prepend s1 (r_unused res))) as [cpos cs]; cbn [fst snd] in *.
    pose proof (block_lock b (erase nd) vclose cl esc excl s t u E C WC WE WX fuel cs u k (r_unused res) A2 J1 (le_n _)) as H.
    rewrite Nat.sub_diag in H. cbn [firstn] in H.
    assert (HU : esc = None -> r_unused res = []).
    { intros ->. apply Nat.eqb_eq in EE. subst k. rewrite U, skipn_firstn', Nat.sub_diag. reflexivity. }
    specialize (H HU ltac:(intros q LQ; lia)). destruct (semScan srec fuel b (erase nd) u vclose cl esc excl t u k) as [y| |]; [|exact I|cbn [lockK]; now rewrite H].
    destruct H as (cs' & ex & -> & LR & M & J2 & X). apply (k_unwrap HK (depth s)) in J2. cbn [bind].
    destruct ex as [xr used content|used unused|cr used unused content].
    + destruct X as (EY & (p & v & -> & LV & _) & X). cbn [bind lockK]. do 2 eexists. split; [reflexivity|]. split; [|split; [exact M|split; [exact J2|]]].
      2: { eapply covers_none; [exact X|exact LR|]. apply (k_excluded HK); [exact J2| |lia]. rewrite (moves_rest _ _ _ M). now rewrite E. }
      split; [exact LR|]. rewrite X. split; [reflexivity|]. rewrite EY. cbn. auto.
    + destruct X as (EY & ER & X & _). rewrite (wf_descOk cl WC). cbn [lockK]. do 2 eexists. split; [reflexivity|]. split; [|split; [exact M|split; [exact J2|]]].
      2: { eapply covers_none; [exact X|exact LR|]. rewrite ER. apply (k_close HK); [exact J2|]. rewrite (moves_rest _ _ _ M), E, ER. apply skipn_all. }
      split; [exact LR|]. rewrite X. split; [reflexivity|]. rewrite EY. cbn. auto.
    + destruct X as (nc & u' & p & ENC & LP & X1 & X2 & X3 & -> & LUP & KNC & EY). cbn [lockK]. do 2 eexists. split; [reflexivity|]. split; [|split; [exact M|split; [exact J2|]]].
      2: { rewrite ENC. destruct vclose.
           - apply (covers_ok _ _ _ _ _ _ _ (p + 0)%nat (reads y)); auto; [lia|now rewrite X3, X1, Nat.add_0_r|]. apply KC; [lia|lia|now left].
           - apply (covers_ok _ _ _ _ _ _ _ (p + u')%nat (reads y)); auto; [rewrite X1; exact X2|].
             apply KC; [lia|lia|]. right. eauto. }
      split; [exact LR|]. rewrite X1. split; [reflexivity|]. rewrite EY. cbn [reads]. rewrite ENC.
      split; [destruct vclose; lia|]. split; [destruct vclose; [exact X3|exact X2]|]. split; [reflexivity|].
      eexists. split; [reflexivity|]. cbn. destruct vclose; reflexivity.
  - destruct S as (LR & R & EN & U & _). rewrite EN. cbn [lockK reads] in *. destruct (proj2 CV EN) as (e & -> & X).
    do 2 eexists. split; [reflexivity|]. split; [|split; [exact M0|split; [exact J1|]]].
    2: { eapply covers_none; [exact R|exact LR|]. rewrite R, firstn_length in X. replace (Nat.min k (length t)) with k in X by lia.
         apply (k_index HK _ _ _ _ _ X); [exact J1| |exact LR]. rewrite (moves_rest _ _ _ M0). now rewrite E. }
    repeat split; auto.
  - destruct S as (LR & R & EN & U & _). rewrite EN. cbn [lockK reads] in *. destruct (proj2 CV EN) as (e & -> & X).
    do 2 eexists. split; [reflexivity|]. split; [|split; [exact M0|split; [exact J1|]]].
    2: { eapply covers_none; [exact R|exact LR|]. rewrite R, firstn_length in X. replace (Nat.min k (length t)) with k in X by lia.
         apply (k_index HK _ _ _ _ _ X); [exact J1| |exact LR]. rewrite (moves_rest _ _ _ M0). now rewrite E. }
    repeat split; auto.
Qed.

Lemma term_lock ty b st s s' x pos idx : tshape (rest s) x -> moves (length (readOf x)) s s' ->
  J s' -> covers (rest s) (toRes ty b st x pos idx) ->
  lockK (rest s) s (SOk (ofT ty b st x)) (Ok (toRes ty b st x pos idx, s')).
Proof.
  intros ((p & Hp) & (u & Hu) & Hf) M JS CV. cbn [lockK]. exists (toRes ty b st x pos idx), s'. split; [reflexivity|].
  destruct x as [[[cs|] rd] un]; cbn [ofT toRes readOf unusedOf fst snd reads] in *.
  - split; [|split; [exact M|split; [exact JS|exact CV]]]. split; [cbn; rewrite Hp, app_length; lia|]. cbn. pose proof (prefix_firstn _ _ _ Hp) as X.
    split; [exact X|]. split; [lia|]. split.
    + rewrite <- X, Hu, app_length. replace (length u + length un - length un)%nat with (length u) by lia.
      now rewrite skipn_app, Nat.sub_diag, skipn_all.
    + split; [reflexivity|]. eexists. split; reflexivity.
  - split; [|split; [exact M|split; [exact JS|exact CV]]]. split; [cbn; rewrite Hp, app_length; lia|]. cbn. split; [exact (prefix_firstn _ _ _ Hp)|].
    split; [reflexivity|]. split; [now apply Hf|reflexivity].
Qed.

Lemma step_lock fuel r s t f : wfRule r -> clean t -> rest s = t -> J s ->
  lockK t s (semStep g srec fuel r f t) (evalStep g rec fuel r s f).
Proof.
  intros W C E JS.
  assert (TM : terminal r -> forall res s', evalStep g rec fuel r s f = Ok (res, s') -> J s' /\ covers (rest s) res).
  { intros HT res s' EV. apply (k_term HK r HT W g rec fuel s f); auto. now rewrite E. }
  destruct r; cbn [evalStep semStep] in *.
  - inversion W; subst. destruct (evalChar_pure b txt s f) as (s' & pos & idx & EV & M); auto. rewrite EV in *.
    specialize (TM I _ _ eq_refl) as [J1 CV]. apply term_lock; [apply tchar_shape|exact M|exact J1|exact CV].
  - subst. destruct (evalChars_pure b txt s f) as (s' & pos & idx & EV & M); auto. rewrite EV in *.
    specialize (TM I _ _ eq_refl) as [J1 CV]. apply term_lock; [apply tlit_shape|exact M|exact J1|exact CV].
  - subst. destruct (evalString_pure b txt s f) as (s' & pos & idx & EV & M); auto. rewrite EV in *.
    specialize (TM I _ _ eq_refl) as [J1 CV]. apply term_lock; [apply tlit_shape|exact M|exact J1|exact CV].
  - inversion W; subst. destruct (evalRange_pure b lo hi s f) as (s' & pos & idx & EV & M); auto. rewrite EV in *.
    specialize (TM I _ _ eq_refl) as [J1 CV]. apply term_lock; [apply trange_shape|exact M|exact J1|exact CV].
  - subst. destruct (evalEOF_pure b s f) as (s' & pos & idx & EV & M); auto. rewrite EV in *.
    specialize (TM I _ _ eq_refl) as [J1 CV]. apply term_lock; [apply teof_shape|exact M|exact J1|exact CV].
  - destruct (lookup g ref) as [r'|] eqn:EL.
    + pose proof (HR r' f s t (HG _ _ EL) C E JS) as H.
      destruct (srec r' f t) as [y| |]; cbn [sbind lockK] in *; [|exact I|now rewrite H].
      destruct H as (res & s' & -> & S & M & J1 & CV). cbn [bind]. do 2 eexists. split; [reflexivity|].
      assert (CV2 : covers t (set_node res (option_map (toggle b) (r_node res)))).
      { split.
        - intros nd. unfold set_node. cbn [r_node]. destruct (r_node res) as [nd0|] eqn:EN; [|discriminate]. intros [= <-].
          apply (k_toggle HK). exact (proj1 CV _ EN).
        - unfold set_node. cbn [r_node r_err r_read r_erridx]. intros X. apply (proj2 CV). destruct (r_node res); [discriminate|reflexivity]. }
      destruct y as [n u k st|k st|k]; (split; [|split; [exact M|split; [exact J1|exact CV2]]]); destruct S as (S1 & S2 & S3); (split; [exact S1|]); (split; [exact S2|]).
      * destruct S3 as (S3 & S4 & S5 & nd & EN & <-). cbn. split; [exact S3|]. split; [exact S4|]. split; [exact S5|].
        rewrite EN. eexists. split; [reflexivity|]. apply erase_toggle.
      * destruct S3 as (EN & S4 & S5). cbn. rewrite EN. auto.
      * destruct S3 as (EN & S4 & S5). cbn. rewrite EN. auto.
    + cbn [lockK]. do 2 eexists. split; [reflexivity|]. split; [|split; [apply moves_refl|split; [exact JS|]]].
      2: { apply (covers_none t _ _ _ _ _ 0); [reflexivity|lia|apply (k_undefined HK)]. }
      split; [cbn; lia|]. cbn. auto.
  - inversion W; subst. pose proof (HR r f s (rest s) H0 C eq_refl JS) as H.
    destruct (srec r f (rest s)) as [y| |]; cbn [sbind lockK] in *; [|exact I|now rewrite H].
    destruct H as (res & s' & -> & S & M & J1 & CV). cbn [bind].
    assert (CG : forall nd, r_node res = Some nd -> covers (rest s) (set_node res (Some (mkNode TGroup b [] [nd] None (r_sticky res))))).
    { intros nd EN. split; [|discriminate]. intros nd' [= <-]. apply (k_kids HK _ _ _ _ [nd]); [exact I|]. apply chain_one; [|exact (proj1 CV nd EN)].
      destruct S as (L & R & _). change (Z.to_nat (countUsed res) <= length (rest s))%nat. unfold countUsed. rewrite R, firstn_length. lia. }
    destruct y as [n u k st|k st|k]; destruct S as (S1 & S2 & S3); cbn [reads] in *.
    + destruct S3 as (S3 & S4 & <- & nd & EN & <-). rewrite EN. do 2 eexists. split; [reflexivity|].
      split; [|split; [exact M|split; [exact J1|now apply CG]]].
      split; [exact S1|]. split; [exact S2|]. cbn. split; [exact S3|]. split; [exact S4|]. split; [reflexivity|].
      eexists. split; reflexivity.
    + destruct S3 as (EN & S4 & <-). rewrite EN. do 2 eexists. split; [reflexivity|]. split; [|split; [exact M|split; [exact J1|]]].
      2: { destruct (proj2 CV EN) as (e & -> & X). split; [discriminate|]. intros _. exists e. split; [reflexivity|exact X]. }
      split; [exact S1|]. split; [exact S2|]. cbn. auto.
    + destruct S3 as (EN & S4 & S5). rewrite EN. do 2 eexists. split; [reflexivity|]. split; [|split; [exact M|split; [exact J1|]]].
      2: { destruct (proj2 CV EN) as (e & -> & X). split; [discriminate|]. intros _. exists e. split; [reflexivity|exact X]. }
      split; [exact S1|]. split; [exact S2|]. cbn. auto.
  - inversion W; subst. pose proof (HR r f s (rest s) H0 C eq_refl JS) as H.
    destruct (srec r f (rest s)) as [y| |]; cbn [sbind lockK] in *; [|exact I|now rewrite H].
    destruct H as (res & s' & -> & S & M & J1 & CV). cbn [bind].
    assert (CG : forall nd, r_node res = Some nd -> covers (rest s) (set_node res (Some (mkNode TOption b [] [nd] (n_pos nd) (r_sticky res))))).
    { intros nd EN. split; [|discriminate]. intros nd' [= <-]. apply (k_kids HK _ _ _ _ [nd]); [exact I|]. apply chain_one; [|exact (proj1 CV nd EN)].
      destruct S as (L & R & _). change (Z.to_nat (countUsed res) <= length (rest s))%nat. unfold countUsed. rewrite R, firstn_length. lia. }
    destruct y as [n u k st|k st|k]; destruct S as (S1 & S2 & S3); cbn [reads] in *; [| |exact I].
    + destruct S3 as (S3 & S4 & <- & nd & EN & <-). rewrite EN. cbn [lockK]. do 2 eexists. split; [reflexivity|].
      split; [|split; [exact M|split; [exact J1|now apply CG]]].
      split; [exact S1|]. split; [exact S2|]. cbn. split; [exact S3|]. split; [exact S4|]. split; [reflexivity|].
      eexists. split; reflexivity.
    + destruct S3 as (EN & S4 & <-). rewrite EN. cbn [lockK]. do 2 eexists. split; [reflexivity|].
      split; [|split; [exact M|split; [exact J1|]]].
      2: { apply (covers_ok _ _ _ _ _ _ _ 0 k S2 S1 (Nat.le_0_l k) S4). apply (k_kids HK _ _ _ _ []); [exact I|]. constructor. }
      split; [exact S1|]. split; [exact S2|]. cbn. split; [lia|]. split; [congruence|]. split; [reflexivity|].
      eexists. split; reflexivity.
  - pose proof (wf_descOk _ W) as HD. inversion W; subst. apply (rep_lock b _ r rmin rmax s (rest s) eq_refl C HD ltac:(assumption) fuel s f 0 0 [] [] true [] None); [|exact JS|constructor].
    constructor; auto; try lia; [rewrite unwrap_id; apply moves_refl|]. intros _. now apply at_start.
  - pose proof (wf_descOk _ W) as HD. inversion W; subst.
    apply (choice_lock b _ s (rest s) eq_refl C HD groups ltac:(assumption) s f 0 true None 0); [now apply at_start|reflexivity|exact JS|reflexivity].
  - pose proof (wf_descOk _ W) as HD. inversion W; subst.
    apply (concat_lock b _ s (rest s) eq_refl C HD rules ltac:(assumption) s f 0 0 [] [] true [] None); [|exact JS|constructor].
    constructor; auto; try lia; [rewrite unwrap_id; apply moves_refl|]. intros _. now apply at_start.
  - inversion W; subst. now apply evalBlock_lock.
Qed.
End Step.

Theorem sem_lockK J K Er g fuel : keeps J K Er -> wfRules g -> forall r f s t, wfRule r -> clean t -> rest s = t -> J s ->
  lockK J K Er t s (sem fuel g r f t) (eval fuel g r s f).
Proof.
  intros HK HG. induction fuel as [|fuel IH]; intros r f s t W C E JS; cbn [eval sem]; [reflexivity|].
  apply step_lock; auto.
Qed.

Theorem sem_lock g fuel : wfRules g -> forall r f s t, wfRule r -> clean t -> rest s = t ->
  lock t s (sem fuel g r f t) (eval fuel g r s f).
Proof.
  intros HG r f s t W C E.
  assert (HK : keeps (fun _ => True) (fun _ _ _ => True) (fun _ _ _ _ => True)).
  { constructor; auto. intros r0 HT W0 g0 rec0 fuel0 s0 f0 res s' C0 _ EV. split; [exact I|]. split; [auto|]. intros N.
    exists (match r_err res with Some e => e | None => EGreedy [] end). split; [|exact I]. now apply (term_err r0 HT g0 rec0 fuel0 s0 f0 res s'). }
  pose proof (sem_lockK _ _ _ g fuel HK HG r f s t W C E I) as L. unfold lockK, lock in *.
  destruct (sem fuel g r f t); auto. destruct L as (res & s' & X & SA & M & _). eauto.
Qed.
