(** One entry of the shipped property grammar: the rule property. *)
From Verif Require Import Base Stream StreamFacts CallFacts Node Rule Grammar SpecStream SpecRule TermFacts TermSpec SpecEval SpecEv EvFacts EvDet EvalSem
  SpecDriver SpecLL LLFacts JsonLex JsonSafe RepoSamples SpecArith SpecLines SpecProperty LangFacts ArithLook SureFacts PropRules.
From Verif Require GrammarFacts.

(* ---------------- where an entry starts ---------------- *)

Definition started (t : list Z) : Prop := skipn (lead t) t <> [] \/ exists w c, t = w ++ [c] /\ ~ blank c.
Lemma lead_split t : t = ws_prefix t ++ skipn (lead t) t.
Proof. exact (ws_prefix_app t). Qed.
Lemma lead_flush t : flush (skipn (lead t) t).
Proof. pose proof (ws_prefix_stop t) as X. unfold lead. destruct (skipn (length (ws_prefix t)) t) as [|c l]; [exact X|]. cbn. intros H. apply GrammarFacts.white_dec in H. congruence. Qed.
Lemma flush_prefix w b : white w -> flush b -> ws_prefix (w ++ b) = w.
Proof.
  intros W FL. rewrite ws_prefix_white_app by exact W. rewrite <- (app_nil_r w) at 2. f_equal. destruct b as [|c here]; [reflexivity|]. cbn [ws_prefix]. destruct (isWS c) eqn:E; [|reflexivity]. cbn in FL. destruct FL. now apply GrammarFacts.white_dec.
Qed.
Lemma flush_lead w b : white w -> flush b -> lead (w ++ b) = length w /\ skipn (lead (w ++ b)) (w ++ b) = b.
Proof. intros W FL. unfold lead. rewrite (flush_prefix w b W FL). split; [reflexivity|]. rewrite skipn_app, skipn_all, Nat.sub_diag. reflexivity. Qed.
Lemma start_iff t b : Start t b <-> b = skipn (lead t) t /\ started t.
Proof.
  split.
  - intros (w & -> & W & FL & L). destruct (flush_lead w b W FL) as [_ E]. split; [now symmetry|]. unfold started. rewrite E. destruct b as [|c b]; [right|left; discriminate]. destruct (L eq_refl) as (w' & c & -> & N). exists w', c. now rewrite app_nil_r.
  - intros [-> ST]. exists (ws_prefix t). split; [apply lead_split|]. split; [apply ws_prefix_white|]. split; [apply lead_flush|]. intros E. destruct ST as [ST|(w & c & ET & N)]; [contradiction|]. exists w, c. split; [|exact N]. rewrite <- ET. rewrite (lead_split t) at 2. now rewrite E, app_nil_r.
Qed.

(* ---------------- white space and a block ---------------- *)

Definition leadOut (name : list Z) (ns : list node) (o : ores) : ores :=
  match o with OMatch n u k s => OMatch (tree TConcat (named name) [tree TRepetition vb ns true; n] false) u k false | OFail k s => OFail k false end.
Lemma lead_block name cl esc excl f t o : mode f -> glued o = false -> scans cl esc excl (skipn (lead t) t) o ->
  (exists ns, sureP (RConcat (named name) [xLead; xBlock cl esc excl]) f t (leadOut name ns (shiftOut (lead t) o)) /\ (f = SK -> started t) /\ t <> []) \/
  (exists k, sureP (RConcat (named name) [xLead; xBlock cl esc excl]) f t (OFail k false) /\ (k <= lead t)%nat /\ skipn (lead t) t = [] /\ (f = SK -> ~ started t)).
Proof.
  intros MF GO SC. destruct (blanks_rep lLead f t lead_blanks MF) as (ns & u & k & S1 & LU & EI & HS). change (xBlanks (List.map fst lLead)) with xLead in S1.
  assert (LS : lead (skipn u t) = (lead t - u)%nat) by (apply lead_skip; lia). assert (BD : skipn (lead (skipn u t)) (skipn u t) = skipn (lead t) t) by (rewrite LS, skipn_plus; f_equal; lia).
  pose proof (lead_split (skipn u t)) as SP. rewrite BD in SP. destruct (skipn u t) as [|c0 t0] eqn:Q.
  - right. assert (B0 : skipn (lead t) t = []) by (symmetry in SP; now apply app_eq_nil in SP). exists (Nat.max k (u + 0)). split; [|split; [lia|split; [exact B0|]]].
    + pose proof (sure_block_fail gP nb (RString nb []) false cl esc excl NS (skipn u t) 0 false ltac:(rewrite Q; apply open_none)) as X. apply (sure_two gP (named name) xLead (xBlock cl esc excl) f t _ u k true _ S1 X). discriminate.
    + intros E [H|(w & c & ET & N)]; [contradiction|]. assert (FT : firstn u t = t) by (rewrite <- (firstn_skipn u t) at 2; now rewrite Q, app_nil_r). rewrite FT in EI. destruct EI as [EI|(w' & x & EI & IX)]; [rewrite EI in ET; destruct w; discriminate|].
      rewrite ET in EI. apply app_inj_tail in EI as [_ ->]. apply N. unfold lLead in IX. cbn in IX. unfold blank. destruct IX as [<-|[<-|[<-|[]]]]; cbn; auto.
  - left. assert (NT : t <> []) by (intros ->; rewrite skipn_nil in Q; discriminate Q). rewrite <- Q in *. exists ns. set (w2 := ws_prefix (skipn u t)) in *. set (body := skipn (lead t) t) in *. assert (L2 : length w2 = (lead t - u)%nat) by exact LS. split; [|split; [|exact NT]].
    + assert (OP : sureP (RString nb []) NS (w2 ++ body) (OMatch openNode (length w2) (length w2) false)) by (apply open_some; [now left|apply ws_prefix_white|apply lead_flush|rewrite <- SP, Q; discriminate]).
      pose proof (sure_block gP nb cl esc excl w2 openNode (RString nb []) NS body _ _ OP (SC w2)) as X. rewrite <- SP in X.
      pose proof (sure_two gP (named name) xLead (xBlock cl esc excl) f t _ u k true _ S1 X) as Y. destruct o as [n2 u2 k2 s2|k2 s2]; cbn [shiftOut glued] in *; subst s2; cbn [inSeq leadOut andb] in *; rewrite L2 in Y.
      * replace (u + (lead t - u + u2))%nat with (lead t + u2)%nat in Y by lia. replace (Nat.max k (u + (lead t - u + k2))) with (lead t + k2)%nat in Y by lia. apply Y. intros ? ? ? ? [= _ _ <- _]. lia.
      * replace (Nat.max k (u + (lead t - u + k2))) with (lead t + k2)%nat in Y by lia. apply Y. discriminate.
    + intros E. destruct body as [|c1 b1] eqn:EB; [|left; fold body; rewrite EB; discriminate]. right. rewrite app_nil_r in SP. destruct (HS E) as [_ NB]. fold w2 in NB.
      destruct (exists_last (l := w2) ltac:(rewrite <- SP, Q; discriminate)) as (w' & c & EW). exists (firstn u t ++ w'), c. split; [rewrite <- app_assoc, <- EW, <- SP; symmetry; apply firstn_skipn|].
      intros B. assert (IC : In c w2) by (rewrite EW; apply in_elt). destruct B as [-> |[-> | ->]]; [apply (NB (pSpace, 32))|apply (NB (pTab, 9))|apply (NB (pNl, 10))]; cbn; auto.
Qed.

(* ---------------- runs of runes ---------------- *)

Definition halts (P : Z -> Prop) (t : list Z) : Prop := match t with [] => True | c :: _ => ~ P c end.
Lemma run_once (P : Z -> Prop) s : forall s' t t', s ++ t = s' ++ t' -> Forall P s -> Forall P s' -> halts P t -> halts P t' -> s = s' /\ t = t'.
Proof.
  induction s as [|x s IH]; intros [|x' s'] t t' E F F' H H'; cbn [app] in E.
  - auto.
  - subst t. inversion F'; subst. cbn in H. contradiction.
  - subst t'. inversion F; subst. cbn in H'. contradiction.
  - injection E as -> E. inversion F; inversion F'; subst. destruct (IH s' t t' E) as [-> ->]; auto.
Qed.
Lemma run_split (P : Z -> Prop) (D : forall c, P c \/ ~ P c) t : exists s t', t = s ++ t' /\ Forall P s /\ halts P t'.
Proof.
  induction t as [|c t (s & t' & -> & F & H)]; [exists [], []; repeat constructor|]. destruct (D c) as [Y|N]; [exists (c :: s), t'; split; [reflexivity|]; split; [now constructor|exact H]|].
  exists [], (c :: s ++ t'). split; [reflexivity|]. split; [constructor|exact N].
Qed.
Lemma name_dec c : nameRune c \/ ~ nameRune c.
Proof. unfold nameRune, separator. lia. Qed.
Lemma line_dec c : lineRune c \/ ~ lineRune c.
Proof. unfold lineRune. lia. Qed.
Lemma name_halts t : halts nameRune t -> t = [] \/ (exists l, t = 10 :: l) \/ exists c l, t = c :: l /\ separator c.
Proof. destruct t as [|c l]; cbn; [auto|]. intros N. right. destruct (Z.eq_dec c 10) as [->|N1]; [left; eauto|right]. exists c, l. split; [reflexivity|]. unfold nameRune, separator in *. lia. Qed.
Lemma line_halts t : halts lineRune t -> t = [] \/ exists l, t = 10 :: l.
Proof. destruct t as [|c l]; cbn; [auto|]. intros N. right. assert (c = 10) as -> by (unfold lineRune in N; lia). eauto. Qed.
Lemma end_halts e t : LineEnd e t -> halts nameRune e /\ halts lineRune e.
Proof. intros [|l]; cbn; [auto|]. unfold nameRune, lineRune. split; intros X; [destruct X|]; congruence. Qed.
Lemma sep_halts c l : separator c -> halts nameRune (c :: l).
Proof. cbn. intros H [_ N]. contradiction. Qed.

(* ---------------- an entry without what trails ---------------- *)

Inductive Head : entry -> list Z -> list Z -> Prop :=
| hd_alone t k e t1 : Start t (k ++ e) -> Forall nameRune k -> LineEnd e t1 -> Head (Alone k) t t1
| hd_pair t k c t1 v e t2 : Start t (k ++ c :: t1) -> Forall nameRune k -> separator c -> Start t1 (v ++ e) -> Forall lineRune v -> LineEnd e t2 -> Head (Pair k c v) t t2.
Lemma entry_head e t r : Entry e t r <-> exists t1, Head e t t1 /\ Trail t1 r.
Proof.
  split.
  - intros [? ? ? t1 ? A B C D|? ? ? ? ? ? t2 ? A B C D E F G]; [exists t1|exists t2]; (split; [|assumption]); econstructor; eassumption.
  - intros (t1 & H & T). destruct H; econstructor; eassumption.
Qed.
Lemma end_once e t t' : LineEnd e t -> LineEnd e t' -> t = t'.
Proof. intros [|l] H; inversion H; reflexivity. Qed.
Lemma head_once e t r : Head e t r -> forall e' r', Head e' t r' -> e = e' /\ r = r'.
Proof.
  intros H e' r' H'. destruct H as [t k en t1 A B C|t k c t1 v en t2 A B C D E F]; inversion H' as [? k' en' ? A' B' C'|? k' c' u' v' en' ? A' B' C' D' E' F']; subst.
  - apply start_iff in A as [A _], A' as [A' _]. rewrite <- A in A'. symmetry in A'. destruct (run_once nameRune _ _ _ _ A' B B' (proj1 (end_halts _ _ C)) (proj1 (end_halts _ _ C'))) as [<- <-]. split; [reflexivity|]. exact (end_once _ _ _ C C').
  - exfalso. apply start_iff in A as [A _], A' as [A' _]. rewrite <- A in A'. symmetry in A'. destruct (run_once nameRune _ _ _ _ A' B B' (proj1 (end_halts _ _ C)) (sep_halts _ _ C')) as [_ ->]. inversion C; subst. destruct C' as [C'|C']; lia.
  - exfalso. apply start_iff in A as [A _], A' as [A' _]. rewrite <- A in A'. symmetry in A'. destruct (run_once nameRune _ _ _ _ A' B B' (sep_halts _ _ C) (proj1 (end_halts _ _ C'))) as [_ <-]. inversion C'; subst. destruct C as [C|C]; lia.
  - apply start_iff in A as [A _], A' as [A' _]. rewrite <- A in A'. symmetry in A'. destruct (run_once nameRune _ _ _ _ A' B B' (sep_halts _ _ C) (sep_halts _ _ C')) as [<- Q]. injection Q as <- <-.
    apply start_iff in D as [D _], D' as [D' _]. rewrite <- D in D'. symmetry in D'. destruct (run_once lineRune _ _ _ _ D' E E' (proj2 (end_halts _ _ F)) (proj2 (end_halts _ _ F'))) as [<- <-]. split; [reflexivity|]. exact (end_once _ _ _ F F').
Qed.

(* ---------------- a name alone, or with a value ---------------- *)

Definition leaf (name : list Z) (s : list Z) (n : node) : Prop := exists ns nc, closing nc /\ n = tree TConcat (named name) [tree TRepetition vb ns true; blockTree s nc] false.
Definition eitherTree (e : entry) (n : node) : Prop :=
  match e with
  | Alone k => exists x, leaf pEmpty k x /\ n = tree TChoice nb [x] false
  | Pair k _ v => exists x y, leaf pKey k x /\ leaf pValue v y /\ n = tree TChoice nb [tree TGroup nb [tree TConcat nb [x; y] false] false] false
  end.
Definition eitherOut (f : Z) (t : list Z) (o : ores) : Prop :=
  match o with
  | OMatch n u k s => s = false /\ k = u /\ (lead t <= u <= length t)%nat /\ (0 < u)%nat /\ exists e, (f = SK -> Head e t (skipn u t)) /\ eitherTree e n
  | OFail _ _ => f = SK -> forall e r, ~ Head e t r
  end.
Lemma skip_run t (s l : list Z) : skipn (lead t) t = s ++ l -> skipn (lead t + length s) t = l.
Proof. intros E. rewrite <- skipn_plus, E, skipn_app, skipn_all, Nat.sub_diag. reflexivity. Qed.
Lemma escape_skip p t : noEscape t -> noEscape (skipn p t).
Proof. unfold noEscape. intros H. rewrite <- (firstn_skipn p t) in H. now apply Forall_app in H. Qed.
Lemma not_started t e r : ~ started t -> ~ Head e t r.
Proof. intros N H. destruct H as [? ? ? ? A|? ? ? ? ? ? ? A]; apply start_iff in A as [_ A]; contradiction. Qed.
Lemma body_len t (s l : list Z) : skipn (lead t) t = s ++ l -> length t = (lead t + length s + length l)%nat.
Proof. intros E. apply (f_equal (@length Z)) in E. rewrite skipn_length, app_length in E. pose proof (lead_le t). lia. Qed.

(** The key fails: the name is alone, or there is none. *)
Lemma alone_sure f t s post t1 u : mode f -> skipn (lead t) t = s ++ post -> Forall nameRune s -> LineEnd post t1 -> skipn u t = t1 -> (u <= length t)%nat ->
  (exists nc, closing nc /\ scans xEol None [xNoSep] (s ++ post) (OMatch (blockTree s nc) (u - lead t) (u - lead t) false)) -> (lead t <= u)%nat ->
  (exists k, (lead t + k <= u)%nat /\ scans xSep (Some xEsc) [ref pNl] (s ++ post) (OFail k false)) ->
  exists o, sureP xEither f t o /\ eitherOut f t o.
Proof.
  intros MF BD FS LE SU UL (nc & CN & SC1) LU (k & LK & SC2). rewrite <- BD in SC1, SC2.
  assert (KF : exists k', (k' <= u)%nat /\ sureP xPair f t (OFail k' false)).
  { assert (X : exists k', (k' <= u)%nat /\ sureP xKey f t (OFail k' false)).
    { destruct (lead_block pKey _ _ _ f t (OFail k false) MF eq_refl SC2) as [(ns & X & _)|(k' & X & L & _)]; cbn [shiftOut leadOut] in X; [exists (lead t + k)%nat|exists k']; (split; [lia|exact X]). }
    destruct X as (k' & L & X). exists k'. split; [exact L|]. apply (sure_ref gP nb _ _ _ _ _ look_key) in X. cbn [mapTree] in X. apply (sure_two_fail gP nb _ (ref pValue)) in X. apply (sure_group gP nb) in X. exact X. }
  destruct KF as (k' & LK' & KF). destruct (lead_block pEmpty _ _ _ f t (OMatch (blockTree s nc) (u - lead t) (u - lead t) false) MF eq_refl SC1) as [(ns & X & ST & NT)|(k0 & X & L0 & B0 & ST)].
  - cbn [shiftOut leadOut] in X. replace (lead t + (u - lead t))%nat with u in X by lia. apply (sure_ref gP nb _ _ _ _ _ look_empty) in X. rewrite map_nb in X.
    pose proof (sure_choice_one gP nb [ref pEmpty; xPair] f t _ _ _ ltac:(two X KF) (pick_one _ _)) as Y. eexists. split; [exact Y|]. cbn [allGlued fold_left glued andb farthest looked]. split; [reflexivity|]. split; [lia|]. split; [lia|]. split.
    + destruct (Nat.eq_dec u 0) as [E0|]; [|lia]. exfalso. subst u. assert (L0 : lead t = 0%nat) by lia. cbn [skipn] in SU. rewrite L0 in BD. cbn [skipn] in BD. rewrite SU in BD. destruct LE as [|l]; cbn in *.
      * contradiction.
      * apply (f_equal (@length Z)) in BD. rewrite app_length in BD. cbn in BD. lia.
    + exists (Alone s). split; [|now exists (tree TConcat (named pEmpty) [tree TRepetition vb ns true; blockTree s nc] false); split; [exists ns, nc|]]. intros E. rewrite SU. apply (hd_alone t s post t1); [|exact FS|exact LE]. apply start_iff. split; [now symmetry|now apply ST].
  - apply (sure_ref gP nb _ _ _ _ _ look_empty) in X. cbn [mapTree] in X. pose proof (sure_choice_none gP nb [ref pEmpty; xPair] f t _ ltac:(two X KF) eq_refl) as Y. eexists. split; [exact Y|]. cbn [eitherOut]. intros E e r. apply not_started. now apply ST.
Qed.

(** The key is there. *)
Lemma pair_sure f t s c l : mode f -> noEscape t -> skipn (lead t) t = s ++ c :: l -> Forall nameRune s -> separator c -> exists o, sureP xEither f t o /\ eitherOut f t o.
Proof.
  intros MF NE BD FS SC. assert (BN : skipn (lead t) t <> []) by (rewrite BD; destruct s; discriminate). pose proof (escape_skip (lead t) t NE) as NB. rewrite BD in NB. pose proof (body_len _ _ _ BD) as LB. cbn [length] in LB.
  set (p := (lead t + (length s + 1))%nat). assert (SL : skipn p t = l) by (unfold p; rewrite Nat.add_assoc, <- skipn_plus, (skip_run t s _ BD); reflexivity).
  (* no name alone *)
  assert (EA : sureP (ref pEmpty) f t (OFail p false)).
  { pose proof (empty_scan_sep s c l FS SC) as X. rewrite <- BD in X. destruct (lead_block pEmpty _ _ _ f t (OFail (length s + 1) false) MF eq_refl X) as [(ns & Y & _)|(k & _ & _ & B0 & _)]; [|contradiction]. exact (sure_ref gP nb _ _ _ _ _ look_empty Y). }
  (* the key *)
  destruct (key_scan_sep s c l FS SC NB) as (nc & CN & XK). rewrite <- BD in XK.
  destruct (lead_block pKey _ _ _ f t (OMatch (blockTree s nc) (length s + 1) (length s + 1) false) MF eq_refl XK) as [(ns & YK & ST & _)|(k & _ & _ & B0 & _)]; [|contradiction]. cbn [shiftOut leadOut] in YK. fold p in YK.
  apply (sure_ref gP nb _ _ _ _ _ look_key) in YK. rewrite map_nb in YK. set (kn := tree TConcat (named pKey) [tree TRepetition vb ns true; blockTree s nc] false) in *.
  (* the value *)
  assert (NL : noEscape l) by (rewrite <- SL; now apply escape_skip). destruct (run_split lineRune line_dec (skipn (lead l) l)) as (v & e & BV & FV & HV).
  pose proof (escape_skip (lead l) l NL) as NV. rewrite BV in NV. pose proof (body_len _ _ _ BV) as LV.
  assert (VS : exists nc' q t2, closing nc' /\ LineEnd e t2 /\ skipn (lead l + q) l = t2 /\ (lead l + q <= length l)%nat /\ scans xEol (Some xEsc) [] (skipn (lead l) l) (OMatch (blockTree v nc') q q false)).
  { rewrite BV. destruct (line_halts e HV) as [-> |(l2 & ->)].
    - rewrite app_nil_r in *. destruct (value_scan_end v FV NV) as (nc' & C' & X). exists nc', (length v), []. split; [exact C'|]. split; [constructor|]. split; [apply (skip_run l v []); now rewrite app_nil_r|]. split; [lia|exact X].
    - destruct (value_scan_nl v l2 FV NV) as (nc' & C' & X). exists nc', (length v + 1)%nat, l2. split; [exact C'|]. split; [constructor|]. split; [rewrite Nat.add_assoc, <- skipn_plus, (skip_run l v _ BV); reflexivity|]. cbn [length] in LV. split; [lia|exact X]. }
  destruct VS as (nc' & q & t2 & C' & LE & SQ & LQ & XV). pose proof (lead_block pValue _ _ _ SK l (OMatch (blockTree v nc') q q false) (or_introl eq_refl) eq_refl XV) as YV.
  assert (LL : length l = (length t - p)%nat) by (rewrite <- SL; apply skipn_length).
  destruct YV as [(ns' & YV & STV & _)|(kv & YV & LKV & _ & STV)].
  - cbn [shiftOut leadOut] in YV. apply (sure_ref gP nb _ _ _ _ _ look_value) in YV. rewrite map_nb in YV. set (vn := tree TConcat (named pValue) [tree TRepetition vb ns' true; blockTree v nc'] false) in *. rewrite <- SL in YV at 1.
    pose proof (sure_two gP nb _ _ f t _ _ _ _ _ YK YV) as YP. cbn [inSeq andb] in YP. specialize (YP ltac:(intros; lia)). replace (Nat.max p (p + (lead l + q))) with (p + (lead l + q))%nat in YP by lia. apply (sure_group gP nb) in YP. cbn [inGroup] in YP.
    pose proof (sure_choice_one gP nb [ref pEmpty; xPair] f t _ _ _ ltac:(two EA YP) (pick_one _ _)) as Y. eexists. split; [exact Y|]. cbn [allGlued fold_left glued andb farthest looked eitherOut]. split; [reflexivity|]. split; [lia|]. split; [unfold p in *; lia|]. split; [unfold p; lia|].
    exists (Pair s c v). split.
    + intros E. rewrite <- skipn_plus, SL, SQ. apply (hd_pair t s c l v e t2); [apply start_iff; split; [now symmetry|now apply ST]|exact FS|exact SC|apply start_iff; split; [now symmetry|now apply STV]|exact FV|exact LE].
    + exists kn, vn. split; [now exists ns, nc|]. split; [now exists ns', nc'|]. reflexivity.
  - apply (sure_ref gP nb _ _ _ _ _ look_value) in YV. cbn [mapTree] in YV. rewrite <- SL in YV at 1. pose proof (sure_two gP nb _ _ f t _ _ _ _ _ YK YV) as YP. cbn [inSeq andb] in YP. specialize (YP ltac:(discriminate)). apply (sure_group gP nb) in YP. cbn [inGroup] in YP.
    pose proof (sure_choice_none gP nb [ref pEmpty; xPair] f t _ ltac:(two EA YP) eq_refl) as Y. eexists. split; [exact Y|]. cbn [eitherOut]. intros E e0 r H. specialize (STV eq_refl). inversion H as [? k' en' ? A' B' LE'|? k' c' u' v' en' ? A' B' C1 D' E' F']; subst.
    + apply start_iff in A' as [A' _]. rewrite BD in A'. destruct (run_once nameRune _ _ _ _ A' B' FS (proj1 (end_halts _ _ LE')) (sep_halts _ _ SC)) as [_ ->]. inversion LE'; subst. destruct SC; lia.
    + apply start_iff in A' as [A' _]. rewrite BD in A'. destruct (run_once nameRune _ _ _ _ A' B' FS (sep_halts _ _ C1) (sep_halts _ _ SC)) as [_ Q]. injection Q as -> ->. apply start_iff in D' as [_ D']. contradiction.
Qed.
Lemma either_sure f t : mode f -> noEscape t -> exists o, sureP xEither f t o /\ eitherOut f t o.
Proof.
  intros MF NE. destruct (run_split nameRune name_dec (skipn (lead t) t)) as (s & post & BD & FS & HA). pose proof (escape_skip (lead t) t NE) as NB. rewrite BD in NB. pose proof (body_len _ _ _ BD) as LB.
  destruct (name_halts post HA) as [-> |[(l & ->)|(c & l & -> & SC)]].
  - cbn [length] in LB. destruct (empty_scan_end s FS) as (nc & CN & X). apply (alone_sure f t s [] [] (lead t + length s)); try assumption; try lia.
    + constructor.
    + now apply skip_run.
    + exists nc. split; [exact CN|]. rewrite app_nil_r. replace (lead t + length s - lead t)%nat with (length s) by lia. exact X.
    + exists (length s). split; [lia|]. rewrite app_nil_r in *. now apply key_scan_end.
  - cbn [length] in LB. destruct (empty_scan_nl s l FS) as (nc & CN & X). apply (alone_sure f t s (10 :: l) l (lead t + (length s + 1))); try assumption; try lia.
    + constructor.
    + rewrite Nat.add_assoc, <- skipn_plus, (skip_run t s _ BD). reflexivity.
    + exists nc. split; [exact CN|]. replace (lead t + (length s + 1) - lead t)%nat with (length s + 1)%nat by lia. exact X.
    + exists (length s + 1)%nat. split; [lia|]. now apply key_scan_nl.
  - exact (pair_sure f t s c l MF NE BD FS SC).
Qed.

(* ---------------- the entry ---------------- *)

Definition entryNode (e : entry) (n : node) : Prop := exists x ns, eitherTree e x /\ n = tree TConcat (named pProp) [x; tree TRepetition vb ns true] false.
Definition propOut (f : Z) (t : list Z) (o : ores) : Prop :=
  match o with
  | OMatch n u k s => s = false /\ (0 < u <= length t)%nat /\ (k <= u + lead (skipn u t))%nat /\ (lead t <= k)%nat /\ exists e, (f = SK -> Entry e t (skipn u t)) /\ entryNode e n
  | OFail _ _ => f = SK -> noEntry t
  end.
Lemma tail_codes x : blank x <-> exists y, In y lTail /\ snd y = x.
Proof.
  unfold blank, lTail. split.
  - intros [-> |[-> | ->]]; [exists (pSpace, 32)|exists (pTab, 9)|exists (pNl, 10)]; cbn; auto.
  - intros (y & I & <-). cbn in I. destruct I as [<-|[<-|[<-|[]]]]; cbn; auto.
Qed.
Lemma prop_sure f t : mode f -> noEscape t -> exists o, sureP xProp f t o /\ propOut f t o.
Proof.
  intros MF NE. destruct (either_sure f t MF NE) as (o & S1 & EO). destruct o as [n u k s|k s]; cbn [eitherOut] in EO.
  - destruct EO as (-> & -> & LU & U0 & e & HE & TE). destruct (blanks_rep lTail SK (skipn u t) tail_blanks (or_introl eq_refl)) as (ns & u' & k' & S2 & LU' & EI & HS). change (xBlanks (List.map fst lTail)) with xTail in S2.
    destruct (HS eq_refl) as [-> NB]. assert (NM : nextMode f n false = SK) by (destruct e as [a|a b c]; cbn [eitherTree] in TE; [destruct TE as (x & _ & ->)|destruct TE as (x & y & _ & _ & ->)]; reflexivity). rewrite <- NM in S2.
    pose proof (sure_two gP (named pProp) xEither xTail f t _ _ _ _ _ S1 S2 ltac:(intros; lia)) as Y. cbn [inSeq andb] in Y. eexists. split; [exact Y|]. cbn [propOut]. split; [reflexivity|].
    pose proof (lead_le (skipn u t)) as LL. rewrite skipn_length in LL. split; [lia|]. split; [rewrite <- skipn_plus, (lead_skip (skipn u t) u') by lia; lia|]. split; [lia|]. exists e. split; [|now exists n, ns]. intros E. apply entry_head. exists (skipn u t). split; [now apply HE|].
    exists (firstn u' (skipn u t)). split; [rewrite <- skipn_plus; symmetry; apply firstn_skipn|]. split.
    + assert (P : firstn u' (skipn u t) = firstn u' (ws_prefix (skipn u t))).
      { rewrite (lead_split (skipn u t)) at 1. rewrite firstn_app. replace (u' - length (ws_prefix (skipn u t)))%nat with 0%nat by (unfold lead in LU'; lia). cbn [firstn]. apply app_nil_r. }
      rewrite P. pose proof (ws_prefix_white (skipn u t)) as W. unfold white in *. rewrite <- (firstn_skipn u' (ws_prefix (skipn u t))) in W. now apply Forall_app in W.
    + split.
      * destruct EI as [EI|(w' & x & EI & IX)]; [now left|right]. exists w', (snd x). split; [exact EI|]. apply tail_codes. now exists x.
      * intros w' c t' ET W B. apply tail_codes in B as (y & IY & <-). apply (NB y IY). rewrite skipn_plus, ET, ws_prefix_white_app by exact W. apply in_or_app. right. cbn [ws_prefix].
        assert (WS : isWS (snd y) = true) by (unfold lTail in IY; cbn in IY; destruct IY as [<-|[<-|[<-|[]]]]; reflexivity). rewrite WS. now left.
  - pose proof (sure_two_fail gP (named pProp) xEither xTail f t k s S1) as Y. eexists. split; [exact Y|]. cbn [propOut]. intros E e r H. apply entry_head in H as (t1 & H & _). exact (EO E _ _ H).
Qed.

(* ---------------- one reading ---------------- *)

Lemma trail_once t r r' : Trail t r -> Trail t r' -> r = r'.
Proof.
  assert (G : forall w d r r', white (w ++ d) -> (w ++ d = [] \/ exists w' c, w ++ d = w' ++ [c] /\ blank c) -> r = d ++ r' -> (forall w' c t', r = w' ++ c :: t' -> white w' -> ~ blank c) -> d = []).
  { intros w d r0 r1 W EB ER NB. destruct d as [|x d]; [reflexivity|]. exfalso. destruct (exists_last (l := x :: d) ltac:(discriminate)) as (d' & c & ED). rewrite ED in *. destruct EB as [EB|(w' & c' & EB & B)]; [destruct w, d'; discriminate|].
    rewrite app_assoc in EB. apply app_inj_tail in EB as [_ <-]. apply (NB d' c r1); [rewrite ER, <- app_assoc; reflexivity| |exact B]. unfold white in *. apply Forall_app in W as [_ W]. now apply Forall_app in W. }
  intros (w & E & W & EB & NB) (w' & E' & W' & EB' & NB'). assert (Q : w ++ r = w' ++ r') by congruence. destruct (app_eq_app _ _ _ _ Q) as (d & [[-> ->]|[-> ->]]).
  - rewrite (G w' d (d ++ r) r W EB eq_refl NB'). reflexivity.
  - rewrite (G w d (d ++ r') r' W' EB' eq_refl NB). reflexivity.
Qed.
Lemma entry_once e t r : Entry e t r -> forall e' r', Entry e' t r' -> e = e' /\ r = r'.
Proof.
  intros H e' r' H'. apply entry_head in H as (t1 & H & T), H' as (t1' & H' & T'). destruct (head_once _ _ _ H _ _ H') as [<- <-]. split; [reflexivity|]. exact (trail_once _ _ _ T T').
Qed.
Lemma entries_once es t r : Entries es t r -> forall es' r', Entries es' t r' -> es = es' /\ r = r'.
Proof.
  induction 1 as [t NO|e t t1 l r EN ES IH]; intros es' r' H.
  - inversion H as [|e' ? t1' l' ? EN' ES']; subst; [now split|]. exfalso. exact (NO _ _ EN').
  - inversion H as [? NO|e' ? t1' l' ? EN' ES']; subst; [exfalso; exact (NO _ _ EN)|]. destruct (entry_once _ _ _ EN _ _ EN') as [<- <-]. destruct (IH _ _ ES') as [<- <-]. now split.
Qed.
