(** Texts and values of JSON: what SpecJson.v says about itself (C72). *)
From Verif Require Import Base Stream StreamFacts Node Rule SpecStream SpecRule SpecEval SpecEv EvDet NodeText JsonLex JsonSafe SpecJson EraseFacts JsonLang JsonValue JsonTree.

Lemma white_ok w : white w -> runesOk w /\ noEsc w.
Proof.
  intros W. split.
  - apply Forall_forall. intros c C. unfold white in W. rewrite Forall_forall in W. specialize (W c C). cbn in W. lia.
  - intros I. unfold white in W. rewrite Forall_forall in W. specialize (W 92 I). cbn in W. lia.
Qed.
Lemma digits_ok l : Forall (fun c => 48 <= c <= 57) l -> runesOk l /\ noEsc l.
Proof.
  intros F. rewrite Forall_forall in F. split; [apply Forall_forall; intros c C; specialize (F c C); lia|]. intros I. specialize (F 92 I). lia.
Qed.
Lemma minus_ok m : runesOk (minusSign m) /\ noEsc (minusSign m).
Proof. destruct m; (split; [repeat constructor; lia|intros I; cbn in I; lia]). Qed.
Lemma dotted_ok fr : (forall l, fr = Some l -> digitRun l) -> runesOk (dotted fr) /\ noEsc (dotted fr).
Proof.
  intros H. destruct fr as [l|]; cbn [dotted]; [|split; [constructor|intros []]]. destruct (H l eq_refl) as [_ F]. apply digits_ok in F as [A B].
  split; [constructor; [lia|exact A]|]. intros [I|I]; [lia|now apply B].
Qed.
Lemma bool_ok b : runesOk (boolWord b) /\ noEsc (boolWord b).
Proof. destruct b; (split; [repeat constructor; lia|intros I; cbn in I; lia]). Qed.
Lemma noEsc_cons c t : noEsc (c :: t) <-> c <> 92 /\ noEsc t.
Proof. unfold noEsc. cbn [In]. tauto. Qed.
Lemma simple_noEsc l : Forall simple l -> noEsc l.
Proof. intros F I. rewrite Forall_forall in F. destruct (F 92 I) as (_ & H & _). congruence. Qed.

(** A text of a value has no backslash. *)
Lemma commas_noEsc {A} (P : A -> list Z -> Prop) l : Forall (fun x => forall t, P x t -> noEsc t) l -> forall t, Commas P l t -> noEsc t.
Proof.
  induction 1 as [|x l H F IH]; intros t C; inversion C as [|? ? PX|? t0 w y l0 t' PX W C']; subst.
  - intros [].
  - now apply H.
  - apply noEsc_app. split; [now apply H|]. apply noEsc_app. split; [now apply white_ok|]. apply noEsc_cons. split; [lia|now apply IH].
Qed.
Lemma spells_noEsc v : forall t, Spells v t -> noEsc t.
Proof.
  induction v as [m i fr|l|b| |l IH|l IH] using json_rect'; intros t H; inversion H as [w ? ? ? W D F|w ? W F|w ? W|w W|w ? tt w' W C W'|w ? tt w' W C W']; subst.
  - repeat (apply noEsc_app; split); [now apply white_ok|now apply minus_ok|now apply digits_ok, D|now apply dotted_ok].
  - apply noEsc_app. split; [now apply white_ok|]. apply noEsc_cons. split; [lia|]. apply noEsc_app. split; [now apply simple_noEsc|]. intros [I|[]]. lia.
  - apply noEsc_app. split; [now apply white_ok|now apply bool_ok].
  - apply noEsc_app. split; [now apply white_ok|]. intros I. cbn in I. lia.
  - apply noEsc_app. split; [now apply white_ok|]. apply noEsc_cons. split; [lia|]. apply noEsc_app. split; [now apply (commas_noEsc Spells l)|]. apply noEsc_app. split; [now apply white_ok|]. intros [I|[]]. lia.
  - apply noEsc_app. split; [now apply white_ok|]. apply noEsc_cons. split; [lia|]. apply noEsc_app. split.
    + apply (commas_noEsc (Member Spells) l); [|exact C]. apply Forall_forall. intros [k v] M t M'. rewrite Forall_forall in IH. specialize (IH _ M). cbn [snd] in IH.
      inversion M' as [w1 ? w2 ? t1 W1 K W2 S]; subst. apply noEsc_app. split; [now apply white_ok|]. apply noEsc_cons. split; [lia|]. apply noEsc_app. split; [now apply simple_noEsc|].
      apply noEsc_cons. split; [lia|]. apply noEsc_app. split; [now apply white_ok|]. apply noEsc_cons. split; [lia|now apply IH].
    + apply noEsc_app. split; [now apply white_ok|]. intros [I|[]]. lia.
Qed.

(** The values that have a text of runes are the spellable ones. *)
Lemma runes_app a b : runesOk (a ++ b) <-> runesOk a /\ runesOk b.
Proof. apply Forall_app. Qed.
Lemma runes_cons c t : runesOk (c :: t) <-> 0 <= c /\ runesOk t.
Proof. split; [intros H; now inversion H|intros [A B]; now constructor]. Qed.
Lemma commas_all {A} (P : A -> list Z -> Prop) (Q : A -> Prop) l : Forall (fun x => forall t, P x t -> runesOk t -> Q x) l -> forall t, Commas P l t -> runesOk t -> Forall Q l.
Proof.
  induction 1 as [|x l H F IH]; intros t C R; inversion C as [|? ? PX|? t0 w y l0 t' PX W C']; subst.
  - constructor.
  - constructor; [now apply (H t)|constructor].
  - apply runes_app in R as [R1 R]. apply runes_app in R as [_ R]. apply runes_cons in R as [_ R2]. constructor; [now apply (H t0)|now apply (IH t')].
Qed.
Lemma simple_runes l : Forall simple l -> runesOk l -> Forall (fun c => simple c /\ 0 <= c) l.
Proof. intros A B. unfold runesOk in B. rewrite Forall_forall in *. auto. Qed.
Lemma spells_spellable v : forall t, Spells v t -> runesOk t -> spellable v.
Proof.
  induction v as [m i fr|l|b| |l IH|l IH] using json_rect'; intros t H R; inversion H as [w ? ? ? W D F|w ? W F|w ? W|w W|w ? tt w' W C W'|w ? tt w' W C W']; subst.
  - split; assumption.
  - apply runes_app in R as [_ R]. apply runes_cons in R as [_ R]. apply runes_app in R as [R _]. now apply simple_runes.
  - exact I.
  - exact I.
  - apply runes_app in R as [_ R]. apply runes_cons in R as [_ R]. apply runes_app in R as [R _]. apply spellable_arr. now apply (commas_all Spells spellable l IH tt).
  - apply runes_app in R as [_ R]. apply runes_cons in R as [_ R]. apply runes_app in R as [R _]. apply spellable_obj.
    apply (commas_all (Member Spells) _ l) with (t := tt); [|exact C|exact R]. apply Forall_forall. intros [k v] M t M' R'. rewrite Forall_forall in IH. specialize (IH _ M). cbn [fst snd] in *.
    inversion M' as [w1 ? w2 ? t1 W1 K W2 S]; subst. apply runes_app in R' as [_ R']. apply runes_cons in R' as [_ R']. apply runes_app in R' as [RK R']. apply runes_cons in R' as [_ R'].
    apply runes_app in R' as [_ R']. apply runes_cons in R' as [_ R']. split; [now apply simple_runes|]. now apply (IH t1).
Qed.

(** The neat text is a text, and one of runes. *)
Lemma blank_white : white [32].
Proof. constructor; [cbn; lia|constructor]. Qed.
Lemma spells_white v t w : Spells v t -> white w -> Spells v (w ++ t).
Proof.
  intros S W. assert (A : forall w', white w' -> white (w ++ w')) by (intros; now apply Forall_app).
  inversion S; subst; rewrite (app_assoc w); constructor; auto.
Qed.
Lemma member_white m t w : Member Spells m t -> white w -> Member Spells m (w ++ t).
Proof. intros M W. inversion M; subst. rewrite app_assoc. constructor; auto. now apply Forall_app. Qed.
Lemma commas_join {A} (P : A -> list Z -> Prop) (tx : A -> list Z) l : (forall x t, P x t -> P x ([32] ++ t)) -> Forall (fun x => P x (tx x)) l -> l <> [] -> Commas P l (32 :: join (List.map tx l)).
Proof.
  intros WH F. induction F as [|x l H F IH]; [congruence|]. intros _. destruct l as [|y l].
  - cbn [List.map join]. apply cs_last. now apply (WH x).
  - change (join (List.map tx (x :: y :: l))) with (tx x ++ [32] ++ 44 :: 32 :: join (List.map tx (y :: l))).
    change (32 :: tx x ++ [32] ++ 44 :: 32 :: join (List.map tx (y :: l))) with (([32] ++ tx x) ++ [32] ++ 44 :: 32 :: join (List.map tx (y :: l))).
    apply cs_more; [now apply WH|apply blank_white|]. now apply IH.
Qed.
Lemma join_runes l : Forall runesOk l -> runesOk (join l).
Proof.
  induction 1 as [|x l H F IH]; [constructor|]. destruct l as [|y l]; [exact H|]. change (join (x :: y :: l)) with (x ++ [32; 44; 32] ++ join (y :: l)).
  apply runes_app. split; [exact H|]. apply runes_app. split; [repeat constructor; lia|exact IH].
Qed.
Lemma wrapped_eq a z l : l <> [] -> wrapped a z l = [] ++ a :: (32 :: l) ++ [32] ++ [z].
Proof. intros NE. unfold wrapped. destruct l; [congruence|]. cbn [app]. f_equal. f_equal. f_equal. now rewrite <- app_assoc. Qed.
Lemma wrapped_runes a z l : 0 <= a -> 0 <= z -> runesOk l -> runesOk (wrapped a z l).
Proof.
  intros A Z R. unfold wrapped. constructor; [exact A|]. constructor; [lia|]. apply runes_app. split; [|repeat constructor; exact Z].
  destruct l; [constructor|]. apply runes_app. split; [exact R|repeat constructor; lia].
Qed.
Lemma quotes_runes l : Forall (fun c => simple c /\ 0 <= c) l -> runesOk (inQuotes l).
Proof. intros F. constructor; [lia|]. apply runes_app. split; [|repeat constructor; lia]. eapply Forall_impl; [|exact F]. now intros c [_ H]. Qed.
Lemma simple_only l : Forall (fun c => simple c /\ 0 <= c) l -> Forall simple l.
Proof. intros F. eapply Forall_impl; [|exact F]. now intros c [H _]. Qed.

Theorem neat_spells v : spellable v -> Spells v (neat v) /\ runesOk (neat v).
Proof.
  induction v as [m i fr|l|b| |l IH|l IH] using json_rect'; intros S.
  - destruct S as [D F]. split; [apply (sp_num [] m i fr); [constructor|exact D|exact F]|]. cbn [neat]. apply runes_app. split; [apply minus_ok|]. apply runes_app. split; [now apply digits_ok, D|now apply dotted_ok].
  - cbn [spellable] in S. split; [apply (sp_str [] l); [constructor|now apply simple_only]|now apply quotes_runes].
  - split; [apply (sp_bool [] b); constructor|apply bool_ok].
  - split; [apply (sp_null []); constructor|]. repeat constructor; lia.
  - apply spellable_arr in S. cbn [neat].
    assert (FS : Forall (fun v => Spells v (neat v)) l /\ Forall runesOk (List.map neat l)).
    { rewrite Forall_forall in IH, S. split; apply Forall_forall; [intros v V; now apply IH; [exact V|apply S]|]. intros t T. apply in_map_iff in T as (v & <- & V). now apply IH; [exact V|apply S]. }
    destruct FS as [FS FR]. split; [|apply wrapped_runes; [lia|lia|now apply join_runes]].
    destruct l as [|v l]; [apply (sp_arr [] [] [] [32]); [constructor|constructor|apply blank_white]|].
    assert (NJ : join (List.map neat (v :: l)) <> []).
    { apply join_nonempty; [|discriminate]. apply Forall_forall. intros t T. apply in_map_iff in T as (x & <- & V). rewrite Forall_forall in S. now apply tree_text, S. }
    rewrite wrapped_eq by exact NJ. apply sp_arr; [constructor| |apply blank_white]. apply commas_join; [|exact FS|discriminate].
    intros x t P. apply spells_white; [exact P|apply blank_white].
  - apply spellable_obj in S. cbn [neat]. set (tx := fun m : list Z * json => inQuotes (fst m) ++ 32 :: 58 :: 32 :: neat (snd m)).
    assert (FS : Forall (fun m => Member Spells m (tx m)) l /\ Forall runesOk (List.map tx l)).
    { rewrite Forall_forall in IH, S. split; apply Forall_forall.
      - intros [k v] V. destruct (S _ V) as [K SV]. destruct (IH _ V SV) as [P _]. cbn [fst snd] in *. unfold tx, inQuotes. cbn [fst snd].
        change ((34 :: k ++ [34]) ++ 32 :: 58 :: 32 :: neat v) with ([] ++ 34 :: (k ++ [34]) ++ [32] ++ 58 :: 32 :: neat v). rewrite <- app_assoc. cbn [app].
        apply (mb_intro Spells [] k [32] v ([32] ++ neat v)); [constructor|now apply simple_only|apply blank_white|]. apply spells_white; [exact P|apply blank_white].
      - intros t T. apply in_map_iff in T as ([k v] & <- & V). destruct (S _ V) as [K SV]. destruct (IH _ V SV) as [_ R]. cbn [fst snd] in *. unfold tx. cbn [fst snd]. apply runes_app. split; [now apply quotes_runes|].
        constructor; [lia|]. constructor; [lia|]. constructor; [lia|exact R]. }
    destruct FS as [FS FR]. split; [|apply wrapped_runes; [lia|lia|now apply join_runes]].
    destruct l as [|m l]; [apply (sp_obj [] [] [] [32]); [constructor|constructor|apply blank_white]|].
    assert (NJ : join (List.map tx (m :: l)) <> []).
    { assert (TE : forall m, tx m <> []) by (intros m'; unfold tx, inQuotes; discriminate). clearbody tx. cbn [List.map join]. destruct (List.map tx l); [apply TE|]. intros X. apply app_eq_nil in X as [X _]. now apply (TE m). }
    rewrite wrapped_eq by exact NJ. apply sp_obj; [constructor| |apply blank_white]. apply commas_join; [|exact FS|discriminate].
    intros x t P. apply member_white; [exact P|apply blank_white].
Qed.

(** The tree determines the value. *)
Lemma digits_split i i' r r' : Forall (fun c => 48 <= c <= 57) i -> Forall (fun c => 48 <= c <= 57) i' ->
  (forall c x, r = c :: x -> ~ 48 <= c <= 57) -> (forall c x, r' = c :: x -> ~ 48 <= c <= 57) -> i ++ r = i' ++ r' -> i = i' /\ r = r'.
Proof.
  intros F. revert i'. induction F as [|d i D F IH]; intros i' F' R R' E.
  - destruct F' as [|d' i' D' F']; [auto|]. cbn [app] in E. subst r. exfalso. now apply (R d' (i' ++ r')).
  - destruct F' as [|d' i' D' F']; [cbn [app] in E; subst r'; exfalso; now apply (R' d (i ++ r))|]. cbn [app] in E. injection E as -> E. destruct (IH _ F' R R' E) as [-> ->]. auto.
Qed.
Lemma num_inj m i fr m' i' fr' : digitRun i -> digitRun i' -> minusSign m ++ i ++ dotted fr = minusSign m' ++ i' ++ dotted fr' -> m = m' /\ i = i' /\ fr = fr'.
Proof.
  intros [NI FI] [NI' FI'] E.
  assert (DT : forall f c x, dotted f = c :: x -> ~ 48 <= c <= 57) by (intros [l|] c x X; [injection X as <- _; lia|discriminate]).
  assert (DI : forall f f', dotted f = dotted f' -> f = f') by (intros [l|] [l'|] X; try discriminate; [injection X as <-|]; reflexivity).
  destruct i as [|d i]; [congruence|]. destruct i' as [|d' i']; [congruence|].
  assert (MM : m = m').
  { destruct m, m'; [reflexivity| | |reflexivity]; cbn [minusSign app] in E; injection E as E _; inversion FI; inversion FI'; subst; lia. }
  subst m'. apply app_inv_head in E. destruct (digits_split _ _ _ _ FI FI' (DT fr) (DT fr') E) as [-> X]. auto.
Qed.
Lemma commaed_inj l : forall l', commaed l = commaed l' -> l = l'.
Proof. induction l as [|x l IH]; intros [|y l'] E; try discriminate; [reflexivity|]. cbn in E. injection E as -> E. now rewrite (IH _ E). Qed.
Lemma between_inj l l' : between l = between l' -> l = l'.
Proof.
  destruct l as [|x l], l' as [|y l']; intros E; [reflexivity|rewrite between_commaed in E; discriminate|rewrite between_commaed in E; discriminate|].
  rewrite !between_commaed in E. injection E as -> E. now rewrite (commaed_inj _ _ E).
Qed.
Lemma quoted_inj l l' : quotedTree l = quotedTree l' -> l = l'.
Proof. destruct l as [|c l], l' as [|c' l']; intros E; try discriminate; [reflexivity|]. unfold quotedTree in E. cbn [app] in E. now injection E as -> ->. Qed.
Lemma map_inj {A B} (f : A -> B) (Q : A -> Prop) l : Forall (fun x => forall y, Q x -> Q y -> f x = f y -> x = y) l -> forall l', Forall Q l -> Forall Q l' -> List.map f l = List.map f l' -> l = l'.
Proof.
  induction 1 as [|x l H F IH]; intros [|y l'] QL QL' E; try discriminate; [reflexivity|]. cbn [List.map] in E. injection E as EX E. inversion QL; inversion QL'; subst.
  f_equal; [now apply H|now apply IH].
Qed.
Lemma cons_inj {A} (x y : A) l l' : x :: l = y :: l' -> x = y /\ l = l'.
Proof. now intros [=]. Qed.
Lemma body_inj v : forall v', spellable v -> spellable v' -> bodyTree v = bodyTree v' -> v = v'.
Proof.
  assert (KIDS : forall ty n k ty' n' k', branch ty n k = branch ty' n' k' -> n = n' /\ k = k') by (intros ? ? ? ? ? ? [=]; auto).
  induction v as [m i fr|l|b| |l IH|l IH] using json_rect'; intros [m' i' fr'|l'|b'| |l'|l'] S S' E; cbn [bodyTree] in E; unfold litTree in E; try discriminate; try reflexivity.
  - injection E as E. destruct S as [D _], S' as [D' _]. destruct (num_inj m i fr m' i' fr' D D' E) as (-> & -> & ->). reflexivity.
  - f_equal. apply quoted_inj. apply KIDS in E as [_ E]. now apply cons_inj in E.
  - destruct b, b'; [reflexivity|discriminate..|reflexivity].
  - apply KIDS in E as [_ E]. apply cons_inj in E as [_ E]. apply app_inj_tail in E as [E _]. apply between_inj in E. f_equal. apply spellable_arr in S, S'.
    apply (map_inj (fun v => branch TChoice (rs "value") [bodyTree v]) spellable l); [|exact S|exact S'|exact E].
    eapply Forall_impl; [|exact IH]. intros x H y SX SY EQ. apply H; [exact SX|exact SY|]. apply KIDS in EQ as [_ EQ]. now apply cons_inj in EQ.
  - apply KIDS in E as [_ E]. apply cons_inj in E as [_ E]. apply app_inj_tail in E as [E _]. apply between_inj in E. f_equal. apply spellable_obj in S, S'.
    refine (map_inj _ (fun m => Forall (fun c => simple c /\ 0 <= c) (fst m) /\ spellable (snd m)) l _ l' S S' E).
    eapply Forall_impl; [|exact IH]. intros [k x] H [k' y] [_ SX] [_ SY] EQ. cbn [fst snd] in *. apply KIDS in EQ as [_ EQ]. apply cons_inj in EQ as [EK EQ]. apply cons_inj in EQ as [_ EQ]. apply cons_inj in EQ as [EV _]. apply KIDS in EV as [_ EV]. apply cons_inj in EV as [EV _].
    f_equal; [now apply quoted_inj|now apply H].
Qed.
Theorem tree_inj v v' : spellable v -> spellable v' -> treeOf v = treeOf v' -> v = v'.
Proof. intros S S' E. apply body_inj; [exact S|exact S'|]. unfold treeOf, branch in E. injection E as E. exact E. Qed.

(** A text has one value; a row of values is read in one way. *)
Lemma follow_nil v : mayFollow v [].
Proof. destruct v as [m i fr| | | | |]; try exact I. split; [intros (c & t & E & _); discriminate|]. intros _ t' E. discriminate. Qed.
Lemma app_len_inj {A} (a b c d : list A) : a ++ b = c ++ d -> length a = length c -> a = c /\ b = d.
Proof. revert c. induction a as [|x a IH]; intros [|y c] E L; try discriminate; [auto|]. cbn [app] in E. injection E as -> E. injection L as L. destruct (IH c E L) as [-> ->]. auto. Qed.
Lemma match_inj n u k s n' u' k' s' : OMatch n u k s = OMatch n' u' k' s' -> n = n' /\ u = u'.
Proof. intros [=]. auto. Qed.
Lemma spells_once v v' t1 t2 t1' t2' : t1 ++ t2 = t1' ++ t2' -> noEsc (t1 ++ t2) -> runesOk (t1 ++ t2) -> Spells v t1 -> mayFollow v t2 -> Spells v' t1' -> mayFollow v' t2' ->
  v = v' /\ t1 = t1' /\ t2 = t2'.
Proof.
  intros E D R S F S' F'. destruct (value_yes v t1 t2 S F D) as (k & X). pose proof D as D'. rewrite E in D'. destruct (value_yes v' t1' t2' S' F' D') as (k' & X').
  rewrite E in X. pose proof (ev_det _ _ _ _ _ _ X X') as EQ. apply match_inj in EQ as [EN EL].
  assert (t1 = t1' /\ t2 = t2') as [<- <-].
  { apply app_len_inj; assumption. }
  apply runes_app in R as [R _]. split; [|auto]. apply tree_inj; [now apply (spells_spellable v t1)|now apply (spells_spellable v' t1)|].
  rewrite <- !slim_value by (eapply spells_spellable; eassumption). now rewrite EN.
Qed.
