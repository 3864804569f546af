(** Consequences of the evaluation invariant. *)
From Verif Require Import Base Stream StreamFacts CallFacts Node Rule SpecStream SpecRule TermFacts TermSpec EvalInv EvalFuel.

Section DerivesInd.
Variables (g : rules_t) (P : rule -> node -> Prop).
Hypothesis H_char : forall b t u pos, P (RChar b t u) (build TChar b [t] [] pos true).
Hypothesis H_chars : forall b t pos, P (RChars b t) (build TChars b t [] pos true).
Hypothesis H_string : forall b t pos, P (RString b t) (build TString b t [] pos false).
Hypothesis H_range : forall b lo lu hi hu c pos,
    (lo <= c <= hi) \/ (In c whiteSpaces /\ lo <= c /\ hi <= c) ->
    P (RRange b lo lu hi hu) (build TChars b [c] [] pos true).
Hypothesis H_eof : forall b pos, P (REOF b) (Node TEOF nameEOF [EOFChar] [] pos true (b_virtual b) (b_nondata b) (b_tokenized b)).
Hypothesis H_ref : forall b n r nd, lookup g n = Some r -> derives g r nd -> P r nd -> P (RRef b n) (flip b nd).
Hypothesis H_group : forall b x nd, derives g x nd -> P x nd -> P (RGroup b x) (build TGroup b [] [nd] None (n_sticky nd)).
Hypothesis H_opt0 : forall b x st, P (ROption b x) (build TOption b [] [] None st).
Hypothesis H_opt1 : forall b x nd, derives g x nd -> P x nd -> P (ROption b x) (build TOption b [] [nd] (n_pos nd) (n_sticky nd)).
Hypothesis H_rep : forall b x mn mx kids st,
    (forall n, In n kids -> derives g x n) -> (forall n, In n kids -> P x n) ->
    mn <= Z.of_nat (length kids) -> (0 < mx -> Z.of_nat (length kids) <= mx) ->
    (st = true -> forall n, In n kids -> n_sticky n = true) ->
    P (RRep b x mn mx) (build TRepetition b [] kids (firstPos kids) st).
Hypothesis H_choice : forall b gs grp x nd st, In grp gs -> In x grp -> derives g x nd -> P x nd ->
    (st = true -> n_sticky nd = true) -> P (RChoice b gs) (build TChoice b [] [nd] (n_pos nd) st).
Hypothesis H_concat : forall b l kids, Forall2 (derives g) l kids -> Forall2 P l kids ->
    P (RConcat b l) (build TConcat b [] kids (firstPos kids) (forallb n_sticky kids)).
Hypothesis H_block : forall b o (v : bool) c e xs no nc content cpos, derives g o no -> P o no -> derives g c nc -> P c nc ->
    P (RBlock b o v c e xs)
      (build TBlock b []
         (no :: Node TChars [] content [] cpos true false false false :: (if v then [] else [nc]))
         (n_pos no) false).

Fixpoint derives_ind' r n (d : derives g r n) {struct d} : P r n :=
  match d in derives _ r n return P r n with
  | dv_char _ b t u pos => H_char b t u pos
  | dv_chars _ b t pos => H_chars b t pos
  | dv_string _ b t pos => H_string b t pos
  | dv_range _ b lo lu hi hu c pos H => H_range b lo lu hi hu c pos H
  | dv_eof _ b pos => H_eof b pos
  | dv_ref _ b n r nd H d' => H_ref b n r nd H d' (derives_ind' _ _ d')
  | dv_group _ b x nd d' => H_group b x nd d' (derives_ind' _ _ d')
  | dv_option_none _ b x st => H_opt0 b x st
  | dv_option_some _ b x nd d' => H_opt1 b x nd d' (derives_ind' _ _ d')
  | dv_rep _ b x mn mx kids st H1 H2 H3 H4 =>
      H_rep b x mn mx kids st H1 (fun n Hn => derives_ind' _ _ (H1 n Hn)) H2 H3 H4
  | dv_choice _ b gs grp x nd st H1 H2 d' H3 => H_choice b gs grp x nd st H1 H2 d' (derives_ind' _ _ d') H3
  | dv_concat _ b l kids F =>
      H_concat b l kids F
        ((fix go l kids (F : Forall2 (derives g) l kids) : Forall2 P l kids :=
            match F in Forall2 _ l kids return Forall2 P l kids with
            | Forall2_nil _ => Forall2_nil _
            | Forall2_cons _ _ d' F' => Forall2_cons _ _ (derives_ind' _ _ d') (go _ _ F')
            end) l kids F)
  | dv_block _ b o v c e xs no nc content cpos d1 d2 =>
      H_block b o v c e xs no nc content cpos d1 (derives_ind' _ _ d1) d2 (derives_ind' _ _ d2)
  end.
End DerivesInd.

(* ---------------- stickiness ---------------- *)

Definition stickyLocal (m : node) : Prop :=
  (n_sticky m = true -> forall k, In k (n_kids m) -> n_sticky k = true) /\
  (n_type m = TString \/ n_type m = TBlock -> n_sticky m = false).

Lemma sub_leaf m n : n_kids n = [] -> sub m n -> m = n.
Proof. intros E S. inversion S; subst; [reflexivity|]. rewrite E in *. contradiction. Qed.

Lemma sub_flip b m n : sub m (flip b n) -> m = flip b n \/ (exists k, In k (n_kids n) /\ sub m k).
Proof. intros S. inversion S; subst; [now left|right]. eauto. Qed.

Lemma Forall2_In_r {A B} (R : A -> B -> Prop) l k y : Forall2 R l k -> In y k -> exists x, In x l /\ R x y.
Proof.
  induction 1; intros H'; [destruct H'|]. destruct H' as [<-|H']; [exists x; split; [now left|assumption]|].
  destruct (IHForall2 H') as (z & Hz & Rz). exists z. split; [now right|assumption].
Qed.

Lemma derives_sticky g r n : derives g r n -> forall m, sub m n -> stickyLocal m.
Proof.
  intros D. induction D using derives_ind'; intros m S.
  - apply sub_leaf in S as ->; [|reflexivity]. split; cbn; [intros _ ? []|intros [X|X]; discriminate].
  - apply sub_leaf in S as ->; [|reflexivity]. split; cbn; [intros _ ? []|intros [X|X]; discriminate].
  - apply sub_leaf in S as ->; [|reflexivity]. split; cbn; [intros _ ? []|reflexivity].
  - apply sub_leaf in S as ->; [|reflexivity]. split; cbn; [intros _ ? []|intros [X|X]; discriminate].
  - apply sub_leaf in S as ->; [|reflexivity]. split; cbn; [intros _ ? []|intros [X|X]; discriminate].
  - apply sub_flip in S as [->|(k & Hk & S)].
    + destruct (IHD nd (sub_here _)) as [A B]. split; cbn; assumption.
    + apply IHD. eapply sub_kid; eauto.
  - inversion S; subst; cbn in *.
    + split; cbn; [intros E k [<-|[]]; exact E|intros [X|X]; discriminate].
    + destruct H as [<-|[]]. auto.
  - apply sub_leaf in S as ->; [|reflexivity]. split; cbn; [intros _ ? []|intros [X|X]; discriminate].
  - inversion S; subst; cbn in *.
    + split; cbn; [intros E k [<-|[]]; exact E|intros [X|X]; discriminate].
    + destruct H as [<-|[]]. auto.
  - inversion S; subst; cbn in *.
    + split; cbn; [auto|intros [X|X]; discriminate].
    + eauto.
  - inversion S; subst; cbn in *.
    + split; cbn; [intros E k [<-|[]]; auto|intros [X|X]; discriminate].
    + match goal with H : _ \/ False |- _ => destruct H as [<-|[]] end. auto.
  - inversion S; subst; cbn in *.
    + split; cbn; [|intros [X|X]; discriminate]. intros E k Hk. eapply forallb_forall in E; eauto.
    + destruct (Forall2_In_r _ _ _ _ H0 H1) as (x & _ & Hx). auto.
  - inversion S; subst; cbn in *.
    + split; cbn; [discriminate|reflexivity].
    + destruct H as [<-|[<-|H]].
      * auto.
      * apply sub_leaf in H0 as ->; [|reflexivity]. split; cbn; [intros _ ? []|intros [X|X]; discriminate].
      * destruct v; [destruct H|]. destruct H as [<-|[]]. auto.
Qed.

Lemma sticky_down n : (forall m, sub m n -> stickyLocal m) -> n_sticky n = true -> forall m, sub m n -> n_sticky m = true.
Proof.
  intros H E m S. induction S as [n|m k n Hk S IH]; [exact E|]. apply IH.
  - intros m' S'. apply H. eapply sub_kid; eauto.
  - destruct (H n (sub_here _)) as [A _]. auto.
Qed.

Lemma sub_trans a b c : sub a b -> sub b c -> sub a c.
Proof. intros S1 S2. induction S2; [exact S1|]. eapply sub_kid; eauto. Qed.

(* ---------------- statements for the Props file ---------------- *)

Lemma eval_good g fuel r s f res s' : wfRules g -> wfRule r -> runesOk (rest s) ->
  eval fuel g r s f = Ok (res, s') -> resOk g r res /\ adv s s'.
Proof. intros G W C E. pose proof (eval_ok g fuel G r s f W C) as H. rewrite E in H. exact H. Qed.

Lemma never_panics g fuel r s f : wfRules g -> wfRule r -> runesOk (rest s) -> eval fuel g r s f <> Panic.
Proof. intros G W C E. pose proof (eval_ok g fuel G r s f W C) as H. rewrite E in H. exact H. Qed.

Lemma trees_derive g fuel r s f res s' n : wfRules g -> wfRule r -> runesOk (rest s) ->
  eval fuel g r s f = Ok (res, s') -> r_node res = Some n -> derives g r n.
Proof. intros G W C E N. destruct (eval_good _ _ _ _ _ _ _ G W C E) as [H _]. now apply (ro_node _ _ _ H). Qed.

Lemma node_or_error g fuel r s f res s' : wfRules g -> wfRule r -> runesOk (rest s) ->
  eval fuel g r s f = Ok (res, s') -> r_node res = None -> r_err res <> None.
Proof. intros G W C E N. destruct (eval_good _ _ _ _ _ _ _ G W C E) as [H _]. destruct (ro_err _ _ _ H N) as (e & -> & _). discriminate. Qed.

(** What the error blames. *)
Lemma error_blames g fuel r s f res s' : wfRules g -> wfRule r -> runesOk (rest s) ->
  eval fuel g r s f = Ok (res, s') -> r_node res = None -> exists e, r_err res = Some e /\ SpecError.blames g r e.
Proof. intros G W C E N. destruct (eval_good _ _ _ _ _ _ _ G W C E) as [H _]. exact (ro_err _ _ _ H N). Qed.

Lemma accounting g fuel r s f res s' : wfRules g -> wfRule r -> runesOk (rest s) ->
  eval fuel g r s f = Ok (res, s') ->
  (length (r_unused res) <= length (r_read res))%nat /\ runesOk (r_read res) /\ runesOk (r_unused res) /\
  (exists taken, rest s = taken ++ rest s' /\ cursor s' = cursor s + Z.of_nat (length taken)) /\
  cs_chars (sbase s') = cs_chars (sbase s) /\ depth s' = depth s.
Proof.
  intros G W C E. destruct (eval_good _ _ _ _ _ _ _ G W C E) as [[[A1 A2 A3] _ _] (n & L & M)].
  split; [exact A3|]. split; [exact A1|]. split; [exact A2|]. split; [|split; [eapply moves_chars; eauto|eapply moves_depth; eauto]].
  exists (firstn n (rest s)). split; [now apply moves_prefix|]. rewrite firstn_length, Nat.min_l by exact L. now apply moves_cursor.
Qed.

Lemma stickiness g fuel r s f res s' n : wfRules g -> wfRule r -> runesOk (rest s) ->
  eval fuel g r s f = Ok (res, s') -> r_node res = Some n ->
  n_sticky n = r_sticky res /\
  (forall m, sub m n -> n_sticky m = true -> forall k, sub k m -> n_sticky k = true) /\
  (forall m, sub m n -> n_type m = TString \/ n_type m = TBlock -> n_sticky m = false).
Proof.
  intros G W C E N. destruct (eval_good _ _ _ _ _ _ _ G W C E) as [H _]. destruct (ro_node _ _ _ H n N) as [D S].
  pose proof (derives_sticky _ _ _ D) as L. split; [exact S|]. split.
  - intros m Sm Em k Sk. apply (sticky_down m); [intros x Sx; apply L; eapply sub_trans; eauto|exact Em|exact Sk].
  - intros m Sm. apply L. exact Sm.
Qed.

Lemma toggles g fuel b n s f : match lookup g n with
  | None => eval (S fuel) g (RRef b n) s f = Ok (mkRes None (Some (EUndefined b n)) 0 [] [] false, s)
  | Some r =>
    forall res s', eval fuel g r s f = Ok (res, s') ->
    exists res', eval (S fuel) g (RRef b n) s f = Ok (res', s') /\
      r_read res' = r_read res /\ r_unused res' = r_unused res /\ r_err res' = r_err res /\
      r_erridx res' = r_erridx res /\ r_sticky res' = r_sticky res /\
      match r_node res with
      | None => r_node res' = None
      | Some nd => exists nd', r_node res' = Some nd' /\
          n_type nd' = n_type nd /\ n_name nd' = n_name nd /\ n_chars nd' = n_chars nd /\ n_kids nd' = n_kids nd /\
          n_pos nd' = n_pos nd /\ n_sticky nd' = n_sticky nd /\
          n_virtual nd' = xorb (b_virtual b) (n_virtual nd) /\
          n_nondata nd' = xorb (b_nondata b) (n_nondata nd) /\
          n_tokenized nd' = xorb (b_tokenized b) (n_tokenized nd)
      end
  end.
Proof.
  cbn [eval evalStep]. destruct (lookup g n); [|reflexivity]. intros res s' E. rewrite E. cbn [bind].
  eexists. split; [reflexivity|]. cbn. repeat split. destruct (r_node res); cbn; [|reflexivity].
  eexists. split; [reflexivity|]. cbn. repeat split.
Qed.

(* ---------------- terminals ---------------- *)

Lemma term_read t s s' : tshape (rest s) t -> moves (length (readOf t)) s s' -> rest s = readOf t ++ rest s'.
Proof.
  intros ((p & Hp) & _) M. rewrite (moves_rest _ _ _ M). rewrite Hp at 1. f_equal. rewrite Hp. now rewrite skipn_app_exact.
Qed.

Lemma char_exact fuel g b t u s f : 0 <= t -> runesOk (rest s) -> exists res s',
  eval (S fuel) g (RChar b t u) s f = Ok (res, s') /\ rest s = r_read res ++ rest s' /\
  match r_node res with
  | Some n => n_chars n = [t] /\ n_kids n = [] /\
      exists pre post, charAt (skips f false) t (rest s) pre post /\ r_read res = (pre ++ [t]) ++ r_unused res
  | None => r_unused res = r_read res /\ forall pre post, ~ charAt (skips f false) t (rest s) pre post
  end.
Proof.
  intros T C. destruct (evalChar_pure b t s f T C) as (s' & pos & idx & E & M). cbn [eval evalStep].
  exists (toRes TChar b true (tchar t f (rest s)) pos idx), s'. split; [now rewrite E|].
  pose proof (tchar_shape t f (rest s)) as SH. pose proof (term_read _ _ _ SH M) as RD.
  unfold skips. cbn [andb]. rewrite orb_false_r.
  destruct (tchar t f (rest s)) as [[[cs|] rd] un] eqn:ET; cbn [toRes r_read r_unused r_node] in *.
  - split; [exact RD|]. apply tchar_sound in ET as (-> & pre & post & H & ->). split; [reflexivity|]. split; [reflexivity|]. eauto.
  - split; [exact RD|]. destruct SH as (_ & _ & SH). split; [now apply SH|]. intros pre post H.
    apply tchar_complete in H as (un' & H). congruence.
Qed.

Lemma chars_exact fuel g b t s f : t <> [] -> runesOk (rest s) -> exists res s',
  eval (S fuel) g (RChars b t) s f = Ok (res, s') /\ rest s = r_read res ++ rest s' /\
  match r_node res with
  | Some n => n_chars n = t /\ n_kids n = [] /\ r_unused res = [] /\
      exists pre post, literalAt (skips f false) t (rest s) pre post /\ r_read res = pre ++ t
  | None => r_unused res = r_read res /\ forall pre post, ~ literalAt (skips f false) t (rest s) pre post
  end.
Proof.
  intros T C. destruct (evalChars_pure b t s f C) as (s' & pos & idx & E & M). cbn [eval evalStep].
  exists (toRes TChars b true (tlit (skips f false) t (rest s)) pos idx), s'. split; [now rewrite E|].
  pose proof (tlit_shape (skips f false) t (rest s)) as SH. pose proof (term_read _ _ _ SH M) as RD.
  destruct (tlit (skips f false) t (rest s)) as [[[cs|] rd] un] eqn:ET; cbn [toRes r_read r_unused r_node] in *.
  - split; [exact RD|]. apply tlit_sound in ET as (-> & -> & pre & post & H & ->). repeat (split; [reflexivity|]). eauto.
  - split; [exact RD|]. destruct SH as (_ & _ & SH). split; [now apply SH|]. intros pre post H.
    apply tlit_complete in H; [congruence|]. destruct H as (-> & _). destruct pre, t; cbn; congruence.
Qed.

Lemma string_exact fuel g b t s f : t <> [] -> runesOk (rest s) -> exists res s',
  eval (S fuel) g (RString b t) s f = Ok (res, s') /\ rest s = r_read res ++ rest s' /\
  match r_node res with
  | Some n => n_chars n = t /\ n_kids n = [] /\ r_unused res = [] /\
      exists pre post, literalAt (skips f true) t (rest s) pre post /\ r_read res = pre ++ t
  | None => r_unused res = r_read res /\ forall pre post, ~ literalAt (skips f true) t (rest s) pre post
  end.
Proof.
  intros T C. destruct (evalString_pure b t s f C) as (s' & pos & idx & E & M). cbn [eval evalStep].
  exists (toRes TString b false (tlit (skips f true) t (rest s)) pos idx), s'. split; [now rewrite E|].
  pose proof (tlit_shape (skips f true) t (rest s)) as SH. pose proof (term_read _ _ _ SH M) as RD.
  destruct (tlit (skips f true) t (rest s)) as [[[cs|] rd] un] eqn:ET; cbn [toRes r_read r_unused r_node] in *.
  - split; [exact RD|]. apply tlit_sound in ET as (-> & -> & pre & post & H & ->). repeat (split; [reflexivity|]). eauto.
  - split; [exact RD|]. destruct SH as (_ & _ & SH). split; [now apply SH|]. intros pre post H.
    apply tlit_complete in H; [congruence|]. destruct H as (-> & _). destruct pre, t; cbn; congruence.
Qed.

Lemma range_exact fuel g b lo lu hi hu s f : 0 <= lo -> runesOk (rest s) ->
  (f = SUGGEST_SKIP -> forall c, In c (rest s) -> In c whiteSpaces -> c < lo \/ c < hi) -> exists res s',
  eval (S fuel) g (RRange b lo lu hi hu) s f = Ok (res, s') /\ rest s = r_read res ++ rest s' /\
  match r_node res with
  | Some n => exists c pre post, n_chars n = [c] /\ n_kids n = [] /\ lo <= c <= hi /\
      firstAt (f =? SUGGEST_SKIP) c (rest s) pre post /\ r_read res = pre ++ [c] /\ r_unused res = []
  | None => r_unused res = r_read res /\ forall c pre post, lo <= c <= hi -> ~ firstAt (f =? SUGGEST_SKIP) c (rest s) pre post
  end.
Proof.
  intros T C H. destruct (evalRange_pure b lo hi s f T C) as (s' & pos & idx & E & M). cbn [eval evalStep].
  exists (toRes TChars b true (trange lo hi f (rest s)) pos idx), s'. split; [now rewrite E|].
  pose proof (term_read _ _ _ (trange_shape lo hi f (rest s)) M) as RD. pose proof (trange_exact lo hi f (rest s) H) as X.
  destruct (trange lo hi f (rest s)) as [[[cs|] rd] un]; cbn [toRes r_read r_unused r_node] in *.
  - split; [exact RD|]. destruct X as (c & pre & post & -> & A & B & D & F). exists c, pre, post. cbn. auto 10.
  - split; [exact RD|]. exact X.
Qed.

Lemma range_always fuel g b lo lu hi hu s f res s' n : 0 <= lo -> runesOk (rest s) ->
  eval (S fuel) g (RRange b lo lu hi hu) s f = Ok (res, s') -> r_node res = Some n ->
  exists c, n_chars n = [c] /\ lo <= c /\ (c <= hi \/ (f = SUGGEST_SKIP /\ In c whiteSpaces)).
Proof.
  intros T C E N. destruct (Z.eq_dec f SUGGEST_SKIP) as [->|Hf].
  - destruct (evalRange_pure b lo hi s SUGGEST_SKIP T C) as (s1 & pos & idx & E1 & M). cbn [eval evalStep] in E. rewrite E1 in E.
    injection E as <- <-. destruct (trange lo hi SUGGEST_SKIP (rest s)) as [[[cs|] rd] un] eqn:ET; cbn in N; [|discriminate].
    injection N as <-. apply trange_sound in ET as (c & -> & X). exists c. split; [reflexivity|]. destruct X as [X|(X & Y & Z)]; [split; [lia|left; lia]|].
    split; [lia|right; auto].
  - destruct (range_exact fuel g b lo lu hi hu s f T C) as (res1 & s1 & E1 & _ & X); [congruence|]. rewrite E1 in E. injection E as -> ->.
    rewrite N in X. destruct X as (c & pre & post & A & _ & B & _). exists c. split; [exact A|]. lia.
Qed.
