(** The shipped JSON grammar: arrays, objects and values. *)
From Verif Require Import Base Stream StreamFacts CallFacts Node Rule Grammar SpecStream SpecRule TermFacts TermSpec SpecEval SpecEv EvFacts EvDet
  SpecTerm WfDec LoopFacts SpecDriver SpecLL LLFacts LLDec LangFacts LLKnown JsonLex JsonSafe RepoSamples SpecJson JsonLang.

Lemma noEsc_app a b : noEsc (a ++ b) <-> noEsc a /\ noEsc b.
Proof. unfold noEsc. rewrite in_app_iff. tauto. Qed.
Lemma noEsc_cons c b : noEsc (c :: b) -> noEsc b.
Proof. intros H X. apply H. now right. Qed.
Lemma skip_app {A} (a b : list A) : skipn (length a) (a ++ b) = b.
Proof. rewrite skipn_app, Nat.sub_diag, skipn_all. reflexivity. Qed.
Lemma skip_at {A} n (a b : list A) : n = length a -> skipn n (a ++ b) = b.
Proof. intros ->. apply skip_app. Qed.

(** What was taken, and from where on. *)
Inductive More {A} (P : A -> list Z -> Prop) : list A -> list Z -> Prop :=
| mo_none : More P [] []
| mo_more w x t l t' : white w -> P x t -> More P l t' -> More P (x :: l) ((w ++ 44 :: t) ++ t').
Lemma commas_more {A} (P : A -> list Z -> Prop) l : forall x t t', P x t -> More P l t' -> Commas P (x :: l) (t ++ t').
Proof.
  induction l as [|y l IH]; intros x t t' H M; inversion M as [|w ? t1 ? t2 W P1 M1]; subst.
  - rewrite app_nil_r. now apply cs_last.
  - replace (t ++ (w ++ 44 :: t1) ++ t2) with (t ++ w ++ 44 :: (t1 ++ t2)) by (now rewrite <- app_assoc). apply cs_more; [exact H|exact W|]. now apply IH.
Qed.
Lemma more_commas {A} (P : A -> list Z -> Prop) l : forall x T, Commas P (x :: l) T -> exists t t', T = t ++ t' /\ P x t /\ More P l t'.
Proof.
  induction l as [|y l IH]; intros x T H; inversion H as [|? ? PX|? t w ? ? T' PX W C]; subst.
  - exists T, []. rewrite app_nil_r. split; [reflexivity|]. split; [assumption|constructor].
  - destruct (IH _ _ C) as (t1 & t2 & -> & P1 & M). exists t, ((w ++ 44 :: t1) ++ t2). split; [now rewrite <- app_assoc|]. split; [exact PX|]. now constructor.
Qed.

Definition pairNode (n : node) : node := tree TConcat nb [wordNode mark [44]; n] false.
Definition itemsNode (ns : list node) : node :=
  match ns with
  | [] => tree TOption nb [] false
  | n :: ns' => tree TOption nb [tree TConcat nb [n; tree TRepetition nb (List.map pairNode ns') false] false] false
  end.
Definition listNode (nn : list Z) (a z : Z) (ns : list node) : node := tree TConcat (named nn) [wordNode mark [a]; itemsNode ns; wordNode mark [z]] false.

Section Items.
Context {A : Type}.
Variables (P : A -> list Z -> Prop) (tr : A -> node) (nm : list Z).
Hypothesis SOFT : forall t, noEsc t -> softly gJ (ref nm) t.
Notation body := (RConcat nb [sep 44; ref nm]).

Section Inv.
Variable N : nat.
Hypothesis HS : forall t, (length t < N)%nat -> noEsc t -> forall n u k st, Ev gJ (ref nm) SK t (OMatch n u k st) ->
  exists x tx t', t = tx ++ t' /\ u = length tx /\ P x tx /\ n = tr x /\ st = false.

Lemma body_inv t n u k s : (length t <= N)%nat -> noEsc t -> Ev gJ body SK t (OMatch n u k s) ->
  exists w x tx t', t = (w ++ 44 :: tx) ++ t' /\ white w /\ P x tx /\ u = length (w ++ 44 :: tx) /\ n = pairNode (tr x) /\ s = false.
Proof.
  intros L D H. inversion H as [| | | | | | | | | | | |? ? ? ? ? C| | | |]; subst. apply inv_seq in C as (n1 & u1 & k1 & s1 & E1 & C). cbn [skipn] in E1.
  destruct (word_inv mark 44 [] _ _ _ _ _ eq_refl E1) as (w & t' & T & W & U & -> & ->). apply inv_seq in C as (n2 & u2 & k2 & s2 & E2 & C).
  change (nextMode SK (wordNode mark [44]) false) with SK in E2. apply inv_seq_end in C as (-> & -> & ->). cbn [app length] in *.
  assert (Q : skipn (0 + u1) t = t') by (rewrite T; replace (w ++ 44 :: t') with ((w ++ [44]) ++ t') by (now rewrite <- app_assoc); apply skip_at; rewrite app_length; cbn; lia).
  rewrite Q in E2.
  assert (LT : length t = (length w + S (length t'))%nat) by (rewrite T, app_length; reflexivity).
  assert (D' : noEsc t') by (rewrite <- Q; now apply noEsc_skip).
  destruct (HS t' ltac:(lia) D' _ _ _ _ E2) as (x & tx & t2 & -> & -> & PX & -> & ->). exists w, x, tx, t2.
  split; [rewrite T; rewrite <- app_assoc; reflexivity|]. split; [exact W|]. split; [exact PX|]. split; [rewrite app_length; cbn [length]; lia|]. split; reflexivity.
Qed.

Lemma more_inv : forall L t p m st kids n u k s, (length (skipn p t) <= L)%nat -> (length (skipn p t) <= N)%nat -> noEsc t ->
  EvRep gJ nb body 0 0 SK t p m st kids (OMatch n u k s) -> skipn u t <> [] ->
  exists xs tx, skipn p t = tx ++ skipn u t /\ u = (p + length tx)%nat /\ More P xs tx /\ n = tree TRepetition nb (kids ++ List.map pairNode (List.map tr xs)) false /\ s = false.
Proof.
  induction L as [|L IH]; intros t p m st kids n u k s LL LN D H NE;
    inversion H as [? ? ? ? ? ? ? ? ? ? ? E EN|? ? ? ? ? ? ? ? ? ? k1 s1 ? E B EN|? ? ? ? ? ? ? ? ? ? n1 u1 k1 s1 ? E B M|? ? ? ? ? ? ? ? ? ? n1 u1 k1 s1 ? E B M R]; subst.
  1,5: inversion EN; subst; congruence.
  2,5: lia.
  1,3: assert (s1 = false) by (apply (concat_soft gJ nb (sep 44) [ref nm] _ (word_soft _ _ _ _) _ B)); subst s1; rewrite andb_false_r in EN; inversion EN; subst;
    exists [], []; cbn [List.map app length]; rewrite app_nil_r; repeat (split; [try reflexivity; try lia; try constructor|]); reflexivity.
  - exfalso. destruct (skipn p t); [congruence|cbn in LL; lia].
  - destruct (body_inv _ _ _ _ _ LN (noEsc_skip p t D) B) as (w & x & tx & t' & T & W & PX & U & -> & ->).
    assert (Q : skipn (p + u1) t = t') by (rewrite <- skipn_plus, T; apply skip_at; exact U).
    assert (LT : length (skipn p t) = (u1 + length t')%nat) by (rewrite T, app_length; lia).
    assert (U1 : (1 <= u1)%nat) by (rewrite U, app_length; cbn; lia).
    assert (G1 : (length (skipn (p + u1) t) <= L)%nat) by (rewrite Q; lia). assert (G2 : (length (skipn (p + u1) t) <= N)%nat) by (rewrite Q; lia).
    destruct (IH _ _ _ _ _ _ _ _ _ G1 G2 D R NE) as (xs & ty & T' & -> & M' & -> & ->). exists (x :: xs), ((w ++ 44 :: tx) ++ ty).
    split; [rewrite T, <- (app_assoc _ ty), <- T'; now rewrite Q|]. split; [rewrite app_length; lia|]. split; [now constructor|]. split; [|reflexivity].
    cbn [List.map]. now rewrite <- app_assoc.
Qed.

Lemma items_inv t n u k s : (length t < N)%nat -> noEsc t -> Ev gJ (jItems nm) SK t (OMatch n u k s) -> skipn u t <> [] ->
  exists xs tx t', t = tx ++ t' /\ u = length tx /\ Commas P xs tx /\ n = itemsNode (List.map tr xs) /\ s = false.
Proof.
  intros L D H NE. inversion H as [| | | | | | | | | |? ? ? ? n1 ? ? ? E|? ? ? ? ? ? E| | | | |]; subst.
  - inversion E as [| | | | | | | | | | | |? ? ? ? ? C| | | |]; subst. apply inv_seq in C as (n2 & u2 & k2 & s2 & E2 & C). cbn [skipn] in E2.
    destruct (HS t L D _ _ _ _ E2) as (x & tx & t' & -> & -> & PX & -> & ->). apply inv_seq in C as (n3 & u3 & k3 & s3 & E3 & C).
    apply inv_seq_end in C as (-> & -> & ->). cbn [andb app] in *.
    assert (F : nextMode SK (tr x) false = SK) by (unfold nextMode; destruct (n_type (tr x)), (n_kids (tr x)), (n_chars (tr x)); reflexivity). rewrite F in E3.
    rewrite Nat.add_0_l, skip_app in E3. inversion E3 as [| | | | | | | | | | | | |? ? ? ? ? ? ? R| | |]; subst.
    rewrite Nat.add_0_l in NE. rewrite <- skipn_plus, skip_app in NE. assert (LT : (length t' <= N)%nat) by (rewrite app_length in L; lia).
    destruct (more_inv (length t') t' 0 0 true [] n3 u3 k3 s3 (Nat.le_refl _) LT (proj2 (proj1 (noEsc_app _ _) D)) R NE) as (xs & ty & T & -> & M & -> & ->). cbn [skipn] in T.
    exists (x :: xs), (tx ++ ty), (skipn (0 + length ty) t'). split; [now rewrite <- app_assoc, <- T|]. split; [rewrite app_length; lia|].
    split; [now apply commas_more|]. split; reflexivity.
  - exists [], [], t. split; [reflexivity|]. split; [reflexivity|]. split; [constructor|].
    assert (S : s = false) by exact (concat_soft gJ nb (ref nm) [jMore nm] t (SOFT t D) _ E). subst. split; reflexivity.
Qed.

Lemma list_inv nn a z t n u k s : isWS a = false -> isWS z = false -> (length t <= N)%nat -> noEsc t ->
  Ev gJ (RConcat (named nn) [sep a; jItems nm; sep z]) SK t (OMatch n u k s) ->
  exists w xs tx w' t', t = (w ++ a :: tx ++ w' ++ [z]) ++ t' /\ u = length (w ++ a :: tx ++ w' ++ [z]) /\ white w /\ Commas P xs tx /\ white w' /\
    n = listNode nn a z (List.map tr xs) /\ s = false.
Proof.
  intros WA WZ L D H. inversion H as [| | | | | | | | | | | |? ? ? ? ? C| | | |]; subst. apply inv_seq in C as (n1 & u1 & k1 & s1 & E1 & C). cbn [skipn] in E1.
  destruct (word_inv _ _ _ _ _ _ _ _ WA E1) as (w & t1 & T & W & U & -> & ->). apply inv_seq in C as (n2 & u2 & k2 & s2 & E2 & C).
  change (nextMode SK (wordNode mark [a]) false) with SK in *. cbn [app length andb] in *. apply inv_seq in C as (n3 & u3 & k3 & s3 & E3 & C).
  assert (Q : skipn u1 t = t1) by (rewrite T; replace (w ++ a :: t1) with ((w ++ [a]) ++ t1) by (now rewrite <- app_assoc); apply skip_at; rewrite app_length; cbn; lia).
  rewrite Nat.add_0_l in *. rewrite Q in E2. rewrite <- skipn_plus, Q in E3.
  assert (LT : length t = (length w + S (length t1))%nat) by (rewrite T, app_length; reflexivity).
  assert (D' : noEsc t1) by (rewrite <- Q; now apply noEsc_skip).
  assert (NE : skipn u2 t1 <> []).
  { intros X. rewrite X in E3. inversion E3 as [| |? ? ? ? X1| | | | | | | | | | | | | |]. }
  destruct (items_inv t1 _ _ _ _ ltac:(lia) D' E2 NE) as (xs & tx & t2 & -> & -> & CM & -> & ->). rewrite skip_app in E3.
  assert (F : nextMode SK (itemsNode (List.map tr xs)) false = SK) by (destruct xs; reflexivity). rewrite F in *.
  destruct (word_inv _ _ _ _ _ _ _ _ WZ E3) as (w' & t3 & -> & W' & -> & -> & ->). apply inv_seq_end in C as (-> & -> & ->).
  exists w, xs, tx, w', t3. split; [rewrite T, <- !app_assoc; cbn [app]; rewrite <- !app_assoc; reflexivity|].
  split; [rewrite !app_length; cbn [length]; rewrite !app_length; cbn [length]; lia|]. auto.
Qed.
End Inv.

(** The other way round: texts that are spelled are taken. *)
Definition closes (t : list Z) : Prop := exists w c r, t = w ++ c :: r /\ white w /\ (c = 44 \/ c = 93 \/ c = 125).
Hypothesis NO : forall w c r, noEsc (w ++ c :: r) -> white w -> c = 93 \/ c = 125 -> fails gJ (ref nm) (w ++ c :: r).
Definition yes (x : A) : Prop := forall tx t, P x tx -> closes t -> noEsc (tx ++ t) -> exists k, Ev gJ (ref nm) SK (tx ++ t) (OMatch (tr x) (length tx) k false).

Lemma body_yes w x tx t : white w -> P x tx -> yes x -> closes t -> noEsc ((w ++ 44 :: tx) ++ t) ->
  exists k, Ev gJ body SK ((w ++ 44 :: tx) ++ t) (OMatch (pairNode (tr x)) (length (w ++ 44 :: tx)) k false).
Proof.
  intros W PX Y CL D. assert (T : (w ++ 44 :: tx) ++ t = w ++ 44 :: (tx ++ t)) by (now rewrite <- app_assoc). rewrite T in *.
  assert (D' : noEsc (tx ++ t)) by (apply noEsc_app in D as [_ D]; now apply noEsc_cons in D).
  destruct (Y tx t PX CL D') as (k & E). apply seq_concat. eapply seq_next; [exact (word_yes mark 44 [] w (tx ++ t) eq_refl W)|].
  change (nextMode SK (wordNode mark [44]) false) with SK. cbn [andb app length].
  assert (Q : skipn (0 + (length w + 1)) (w ++ 44 :: tx ++ t) = tx ++ t).
  { replace (w ++ 44 :: tx ++ t) with ((w ++ [44]) ++ tx ++ t) by (now rewrite <- app_assoc). apply skip_at. rewrite app_length. cbn. lia. }
  eapply seq_next; [rewrite Q; exact E|]. apply seq_done; [reflexivity| |reflexivity]. rewrite app_length. cbn [length]. lia.
Qed.

Definition Reps t p st kids n u : Prop := forall m, exists k, EvRep gJ nb body 0 0 SK t p m st kids (OMatch n u k false).
Lemma more_yes z : z = 93 \/ z = 125 -> forall xs tm, More P xs tm -> Forall yes xs -> forall pre w r st kids, white w ->
  noEsc (tm ++ w ++ z :: r) ->
  Reps (pre ++ tm ++ w ++ z :: r) (length pre) st kids (tree TRepetition nb (kids ++ List.map pairNode (List.map tr xs)) false) (length pre + length tm).
Proof.
  intros Z xs tm M. induction M as [|w1 x tx xs tm W1 PX M IH]; intros Y pre w r st kids W D m.
  - cbn [List.map app length]. rewrite app_nil_r, Nat.add_0_r.
    assert (DA : darkAt (w ++ z :: r) z).
    { exists r. apply white_lead; [exact W|]. destruct Z as [->| ->]; reflexivity. }
    destruct (word_no mark 44 [] (w ++ z :: r) z eq_refl DA ltac:(lia)) as (k & s & E).
    assert (S : s = false) by exact (word_soft gJ mark [44] _ _ E). subst s.
    eexists. eapply er_stop.
    + rewrite skip_app. destruct w; discriminate.
    + rewrite skip_app. apply ev_concat. apply (es_fail gJ nb (sep 44) [ref nm] SK (w ++ z :: r) 0 0 true [] k false). exact E.
    + rewrite !andb_false_r. apply ee_ok. lia.
  - inversion Y as [|? ? Y1 Y2]; subst. assert (CL : closes (tm ++ w ++ z :: r)).
    { inversion M as [|w2 ? t2 ? tm2 W2 P2 M2]; subst.
      - exists w, z, r. split; [reflexivity|]. split; [exact W|]. tauto.
      - exists w2, 44, (t2 ++ tm2 ++ w ++ z :: r). split; [|auto]. rewrite <- !app_assoc. cbn [app]. reflexivity. }
    rewrite <- app_assoc in D.
    destruct (body_yes w1 x tx (tm ++ w ++ z :: r) W1 PX Y1 CL D) as (k & E).
    specialize (IH Y2 (pre ++ w1 ++ 44 :: tx) w r (st && false) (kids ++ [pairNode (tr x)]) W (proj2 (proj1 (noEsc_app _ _) D)) (Nat.max m (length pre + k))).
    destruct IH as (k' & R). exists k'. rewrite <- (app_assoc _ tm). rewrite <- !(app_assoc pre) in R.
    eapply er_step with (u := length (w1 ++ 44 :: tx)).
    + rewrite skip_app. destruct w1; discriminate.
    + rewrite skip_app. exact E.
    + lia.
    + rewrite app_length in R. cbn [List.map]. rewrite <- (app_assoc kids) in R. cbn [app] in R. cbn [app].
      replace (length pre + length ((w1 ++ 44%Z :: tx) ++ tm))%nat with (length pre + length (w1 ++ 44%Z :: tx) + length tm)%nat by (rewrite (app_length _ tm); lia).
      exact R.
Qed.

Lemma items_yes z xs T w r : z = 93 \/ z = 125 -> Commas P xs T -> Forall yes xs -> white w -> noEsc (T ++ w ++ z :: r) ->
  exists k, Ev gJ (jItems nm) SK (T ++ w ++ z :: r) (OMatch (itemsNode (List.map tr xs)) (length T) k false).
Proof.
  intros Z CM Y W D. destruct xs as [|x xs].
  - inversion CM; subst. cbn [app length List.map itemsNode] in *. destruct (NO w z r D W Z) as (k & s & E). pose proof (SOFT _ D _ E) as S. cbn in S. subst s.
    eexists. apply ev_option_none with (k := Nat.max 0 (0 + k)). apply ev_concat. exact (es_fail gJ nb (ref nm) [jMore nm] SK (w ++ z :: r) 0 0 true [] k false E).
  - destruct (more_commas P xs x T CM) as (t & tm & -> & PX & M). inversion Y as [|? ? Y1 Y2]; subst. rewrite <- app_assoc in D |- *.
    assert (CL : closes (tm ++ w ++ z :: r)).
    { inversion M as [|w2 ? t2 ? tm2 W2 P2 M2]; subst.
      - exists w, z, r. split; [reflexivity|]. split; [exact W|]. tauto.
      - exists w2, 44, (t2 ++ tm2 ++ w ++ z :: r). split; [|auto]. rewrite <- !app_assoc. cbn [app]. reflexivity. }
    destruct (Y1 t _ PX CL D) as (k & E).
    assert (X : exists k, Ev gJ (RConcat nb [ref nm; jMore nm]) SK (t ++ tm ++ w ++ z :: r)
      (OMatch (tree TConcat nb [tr x; tree TRepetition nb (List.map pairNode (List.map tr xs)) false] false) (length (t ++ tm)) k false)).
    { apply seq_concat. eapply seq_next; [exact E|].
      assert (F : nextMode SK (tr x) false = SK) by (unfold nextMode; destruct (n_type (tr x)), (n_kids (tr x)), (n_chars (tr x)); reflexivity). rewrite F.
      destruct (more_yes z Z xs tm M Y2 [] w r true [] W (proj2 (proj1 (noEsc_app _ _) D)) 0%nat) as (k' & R). cbn [app length Nat.add] in R.
      eapply seq_next; [rewrite Nat.add_0_l, skip_app; apply ev_rep; exact R|]. apply seq_done; [reflexivity|rewrite app_length; lia|reflexivity]. }
    destruct X as (k2 & X). eexists. apply ev_option. exact X.
Qed.

Lemma list_yes nn a z w xs T w' r : isWS a = false -> z = 93 \/ z = 125 -> white w -> Commas P xs T -> Forall yes xs -> white w' ->
  noEsc ((w ++ a :: T ++ w' ++ [z]) ++ r) ->
  exists k, Ev gJ (RConcat (named nn) [sep a; jItems nm; sep z]) SK ((w ++ a :: T ++ w' ++ [z]) ++ r)
    (OMatch (listNode nn a z (List.map tr xs)) (length (w ++ a :: T ++ w' ++ [z])) k false).
Proof.
  intros WA Z W CM Y W' D. assert (WZ : isWS z = false) by (destruct Z as [->| ->]; reflexivity).
  assert (E0 : (w ++ a :: T ++ w' ++ [z]) ++ r = w ++ a :: (T ++ w' ++ z :: r)) by (rewrite <- !app_assoc; cbn [app]; rewrite <- !app_assoc; reflexivity).
  rewrite E0 in *. assert (D' : noEsc (T ++ w' ++ z :: r)) by (apply noEsc_app in D as [_ D]; now apply noEsc_cons in D).
  destruct (items_yes z xs T w' r Z CM Y W' D') as (k & E). apply seq_concat. eapply seq_next; [exact (word_yes mark a [] w (T ++ w' ++ z :: r) WA W)|].
  change (nextMode SK (wordNode mark [a]) false) with SK. cbn [andb app length].
  assert (Q : skipn (length w + 1) (w ++ a :: T ++ w' ++ z :: r) = T ++ w' ++ z :: r).
  { replace (w ++ a :: T ++ w' ++ z :: r) with ((w ++ [a]) ++ T ++ w' ++ z :: r) by (now rewrite <- app_assoc). apply skip_at. rewrite app_length. cbn. lia. }
  eapply seq_next; [rewrite Nat.add_0_l, Q; exact E|]. cbn [andb app].
  assert (F : nextMode SK (itemsNode (List.map tr xs)) false = SK) by (destruct xs; reflexivity). rewrite F.
  eapply seq_next; [rewrite Nat.add_0_l, <- skipn_plus, Q, skip_app; exact (word_yes mark z [] w' r WZ W')|].
  apply seq_done; [reflexivity| |reflexivity]. rewrite !app_length. cbn [length]. rewrite !app_length. cbn [length]. lia.
Qed.
End Items.

(* ---------------- values ---------------- *)

Definition valueNode (n : node) : node := tree TChoice (named nValue) [n] false.
Definition litNode (n : node) : node := tree TChoice (named nLiteral) [n] false.
Definition kvNode (k : list Z) (n : node) : node := tree TConcat (named nKv) [strNode k; wordNode mark [58]; n] false.
Fixpoint bodyRaw (v : json) : node :=
  match v with
  | JNum m i fr => litNode (numRaw m i fr)
  | JStr l => litNode (strNode l)
  | JBool b => litNode (tree TChoice (named nBool) [wordNode nb (boolWord b)] false)
  | JNull => litNode (wordNode nb wNull)
  | JArr l => listNode nArray 91 93 (List.map (fun v => valueNode (bodyRaw v)) l)
  | JObj l => listNode nObject 123 125 (List.map (fun m => kvNode (fst m) (valueNode (bodyRaw (snd m)))) l)
  end.
Definition rawOf (v : json) : node := valueNode (bodyRaw v).
Definition kvRaw (m : list Z * json) : node := kvNode (fst m) (rawOf (snd m)).

Lemma json_rect' (P : json -> Prop) :
  (forall m i fr, P (JNum m i fr)) -> (forall l, P (JStr l)) -> (forall b, P (JBool b)) -> P JNull ->
  (forall l, Forall P l -> P (JArr l)) -> (forall l, Forall (fun m => P (snd m)) l -> P (JObj l)) -> forall v, P v.
Proof.
  intros H1 H2 H3 H4 H5 H6. fix IH 1. intros [m i fr|l|b| |l|l]; [apply H1|apply H2|apply H3|apply H4|apply H5|apply H6].
  - induction l as [|v l IHl]; constructor; [apply IH|exact IHl].
  - induction l as [|[k v] l IHl]; constructor; [apply IH|exact IHl].
Qed.

(* stickiness *)
Lemma ref_soft n r t : lookup gJ n = Some r -> softly gJ r t -> softly gJ (ref n) t.
Proof. intros L S o H. apply S. now apply (inv_ref_any gJ n). Qed.
Lemma value_soft t : softly gJ (ref nValue) t.
Proof. eapply ref_soft; [exact look_value|]. apply choice_soft. eapply ref_soft; [exact look_literal|]. apply choice_soft. apply num_soft. Qed.
Lemma kv_soft t : noEsc t -> softly gJ (ref nKv) t.
Proof. intros D. eapply ref_soft; [exact look_kv|]. apply concat_soft. now apply str_soft. Qed.

Lemma lead_in {A} (x : A) l : In x [l] -> x = l. Proof. intros [->|[]]. reflexivity. Qed.

Lemma literal_inv t n u k s : noEsc t -> Ev gJ (ref nLiteral) SK t (OMatch n u k s) ->
  exists v tv t', t = tv ++ t' /\ u = length tv /\ Spells v tv /\ mayFollow v t' /\ n = bodyRaw v.
Proof.
  intros D H. pose proof (choice_soft gJ (named nLiteral) (ref nNumber) [ref nString; ref nBool; RString nb wNull] t (num_soft t)) as SO.
  apply (inv_ref gJ nLiteral jLiteral) in H; [|exact look_literal]. pose proof (SO _ H) as S. cbn in S. subst s.
  apply inv_choice in H as (r & n1 & k1 & s1 & I & -> & E). cbn [In] in I. destruct I as [<-|[<-|[<-|[<-|[]]]]].
  - destruct (num_inv _ _ _ _ _ E) as (w & m & i & fr & t' & T & W & U & -> & -> & DI & DF & F). exists (JNum m i fr), (w ++ minusSign m ++ i ++ dotted fr), t'.
    split; [now rewrite <- app_assoc|]. split; [now rewrite app_length|]. split; [now constructor|]. split; [exact F|reflexivity].
  - destruct (str_inv _ _ _ _ _ D E) as (w & x & t' & T & W & F & U & -> & ->). exists (JStr x), (w ++ 34 :: x ++ [34]), t'.
    split; [now rewrite <- app_assoc|]. split; [now rewrite app_length|]. split; [now constructor|]. split; [exact I|reflexivity].
  - pose proof (choice_soft gJ (named nBool) (RString nb wTrue) [RString nb wFalse] t (word_soft _ _ _ _)) as SB.
    apply (inv_ref gJ nBool jBool) in E; [|exact look_bool]. pose proof (SB _ E) as S. cbn in S. subst s1.
    apply inv_choice in E as (r & n2 & k2 & s2 & I & -> & E). cbn [In] in I. destruct I as [<-|[<-|[]]].
    + destruct (word_inv nb 116 [114; 117; 101] _ _ _ _ _ eq_refl E) as (w & t' & T & W & U & -> & ->). exists (JBool true), (w ++ boolWord true), t'.
      split; [rewrite <- app_assoc; exact T|]. split; [rewrite app_length; exact U|]. split; [now constructor|]. split; [exact I|reflexivity].
    + destruct (word_inv nb 102 [97; 108; 115; 101] _ _ _ _ _ eq_refl E) as (w & t' & T & W & U & -> & ->). exists (JBool false), (w ++ boolWord false), t'.
      split; [rewrite <- app_assoc; exact T|]. split; [rewrite app_length; exact U|]. split; [now constructor|]. split; [exact I|reflexivity].
  - destruct (word_inv nb 110 [117; 108; 108] _ _ _ _ _ eq_refl E) as (w & t' & T & W & U & -> & ->). exists JNull, (w ++ rs "null"), t'.
    split; [rewrite <- app_assoc; exact T|]. split; [rewrite app_length; exact U|]. split; [now constructor|]. split; [exact I|reflexivity].
Qed.

Lemma value_inv : forall N t, (length t < N)%nat -> noEsc t -> forall n u k s, Ev gJ (ref nValue) SK t (OMatch n u k s) ->
  exists v tv t', t = tv ++ t' /\ u = length tv /\ Spells v tv /\ mayFollow v t' /\ n = rawOf v /\ s = false.
Proof.
  induction N as [|N IH]; intros t L D n u k s H; [lia|]. pose proof (value_soft t _ H) as S. cbn in S. subst s.
  apply (inv_ref gJ nValue jValue) in H; [|exact look_value]. apply inv_choice in H as (r & n1 & k1 & s1 & I & -> & E).
  assert (HV : forall t, (length t < N)%nat -> noEsc t -> forall n u k st, Ev gJ (ref nValue) SK t (OMatch n u k st) ->
    exists v tx t', t = tx ++ t' /\ u = length tx /\ Spells v tx /\ n = rawOf v /\ st = false).
  { intros t0 L0 D0 n0 u0 k0 s0 E0. destruct (IH t0 L0 D0 _ _ _ _ E0) as (v & tv & t' & A & B & C & _ & F & G). eauto 9. }
  assert (HM : forall t, (length t < N)%nat -> noEsc t -> forall n u k st, Ev gJ (ref nKv) SK t (OMatch n u k st) ->
    exists v tx t', t = tx ++ t' /\ u = length tx /\ Member Spells v tx /\ n = kvRaw v /\ st = false).
  { intros t0 L0 D0 n0 u0 k0 s0 E0. pose proof (kv_soft t0 D0 _ E0) as S0. cbn in S0. subst s0.
    apply (inv_ref gJ nKv jKv) in E0; [|exact look_kv]. inversion E0 as [| | | | | | | | | | | |? ? ? ? ? C| | | |]; subst.
    apply inv_seq in C as (n1' & u1 & k1' & s1' & E1 & C). cbn [skipn] in E1. destruct (str_inv _ _ _ _ _ D0 E1) as (w & x & t1 & T & W & F & U & -> & ->).
    change (nextMode SK (strNode x) false) with SK in C. cbn [andb app] in C. apply inv_seq in C as (n2 & u2 & k2 & s2 & E2 & C). rewrite Nat.add_0_l in *.
    assert (Q1 : skipn u1 t0 = t1) by (rewrite T, app_assoc; apply skip_at; rewrite app_length; exact U). rewrite Q1 in E2.
    destruct (word_inv mark 58 [] _ _ _ _ _ eq_refl E2) as (w' & t2 & T2 & W' & U2 & -> & ->). change (nextMode SK (wordNode mark [58]) false) with SK in C. cbn [andb app length] in *.
    apply inv_seq in C as (n3 & u3 & k3 & s3 & E3 & C). rewrite <- skipn_plus, Q1 in E3.
    assert (Q2 : skipn u2 t1 = t2).
    { rewrite T2. replace (w' ++ 58 :: t2) with ((w' ++ [58]) ++ t2) by (now rewrite <- app_assoc). apply skip_at. rewrite app_length. cbn. lia. }
    rewrite Q2 in E3. assert (D2 : noEsc t2) by (rewrite <- Q2, <- Q1; now apply noEsc_skip, noEsc_skip).
    assert (L2 : (length t2 < N)%nat).
    { rewrite <- Q2, <- Q1. rewrite !skipn_length. lia. }
    destruct (HV t2 L2 D2 _ _ _ _ E3) as (v & tv & t' & -> & -> & SV & -> & ->). apply inv_seq_end in C as (-> & -> & _).
    exists (x, v), (w ++ 34 :: x ++ 34 :: w' ++ 58 :: tv), t'. split.
    { rewrite T, T2. rewrite <- !app_assoc. cbn [app]. rewrite <- !app_assoc. cbn [app]. rewrite <- !app_assoc. reflexivity. }
    split; [rewrite U, U2; rewrite !app_length; cbn [length]; rewrite !app_length; cbn [length]; rewrite !app_length; cbn [length]; lia|].
    split; [now constructor|]. split; reflexivity. }
  cbn [In] in I. destruct I as [<-|[<-|[<-|[]]]].
  - destruct (literal_inv _ _ _ _ _ D E) as (v & tv & t' & A & B & C & F & ->). exists v, tv, t'. repeat (split; [assumption|]). split; reflexivity.
  - apply (inv_ref gJ nArray jArray) in E; [|exact look_array].
    destruct (list_inv Spells rawOf nValue (fun t _ => value_soft t) N HV nArray 91 93 t _ _ _ _ eq_refl eq_refl ltac:(lia) D E)
      as (w & xs & tx & w' & t' & A & B & W & CM & W' & -> & ->).
    exists (JArr xs), (w ++ 91 :: tx ++ w' ++ [93]), t'. split; [exact A|]. split; [exact B|]. split; [now constructor|]. split; [exact I|]. split; reflexivity.
  - apply (inv_ref gJ nObject jObject) in E; [|exact look_object].
    destruct (list_inv (Member Spells) kvRaw nKv kv_soft N HM nObject 123 125 t _ _ _ _ eq_refl eq_refl ltac:(lia) D E)
      as (w & xs & tx & w' & t' & A & B & W & CM & W' & -> & ->).
    exists (JObj xs), (w ++ 123 :: tx ++ w' ++ [125]), t'. split; [exact A|]. split; [exact B|]. split; [now constructor|]. split; [exact I|]. split; reflexivity.
Qed.

(* ---------------- spelled values are taken ---------------- *)

Ltac outside := let x := fresh "x" in let I := fresh "I" in let B := fresh "B" in
  intros (x & I & B); vm_compute in I; repeat (destruct I as [<-|I]; [cbn in B; lia|]); exact I.
Lemma miss_ref n r t c : lookup gJ n = Some r -> noEsc t -> darkAt t c -> nulC jEnv (ref n) = false -> ~ memb c (firC jEnv (ref n)) -> fails gJ (ref n) t.
Proof. intros L. apply miss; [eapply ref_class; exact L|eapply jTotal; exact L]. Qed.
Lemma dark_at w c t : white w -> isWS c = false -> darkAt (w ++ c :: t) c.
Proof. intros W D. exists t. now apply white_lead. Qed.

Lemma literal_number t c n u k : noEsc t -> darkAt t c -> c = 45 \/ 48 <= c <= 57 -> Ev gJ (ref nNumber) SK t (OMatch n u k false) ->
  exists k', Ev gJ (ref nLiteral) SK t (OMatch (litNode n) u k' false).
Proof.
  intros D DA C E. destruct (choice_one gJ (named nLiteral) [] (ref nNumber) [ref nString; ref nBool; RString nb wNull] t n u k) as (k' & X).
  - constructor.
  - constructor; [eapply miss_ref; [exact look_string|exact D|exact DA|reflexivity|outside]|].
    constructor; [eapply miss_ref; [exact look_bool|exact D|exact DA|reflexivity|outside]|].
    constructor; [|constructor]. apply (word_no nb 110 [117; 108; 108] t c eq_refl DA). lia.
  - exact E.
  - exists k'. eapply go_ref; [exact look_literal|exact X].
Qed.
Lemma literal_string t n u k : noEsc t -> darkAt t 34 -> Ev gJ (ref nString) SK t (OMatch n u k false) ->
  exists k', Ev gJ (ref nLiteral) SK t (OMatch (litNode n) u k' false).
Proof.
  intros D DA E. destruct (choice_one gJ (named nLiteral) [ref nNumber] (ref nString) [ref nBool; RString nb wNull] t n u k) as (k' & X).
  - constructor; [|constructor]. eapply miss_ref; [exact look_number|exact D|exact DA|reflexivity|outside].
  - constructor; [eapply miss_ref; [exact look_bool|exact D|exact DA|reflexivity|outside]|].
    constructor; [|constructor]. apply (word_no nb 110 [117; 108; 108] t 34 eq_refl DA). lia.
  - exact E.
  - exists k'. eapply go_ref; [exact look_literal|exact X].
Qed.
Lemma literal_bool t c n u k : noEsc t -> darkAt t c -> c = 116 \/ c = 102 -> Ev gJ (ref nBool) SK t (OMatch n u k false) ->
  exists k', Ev gJ (ref nLiteral) SK t (OMatch (litNode n) u k' false).
Proof.
  intros D DA C E. destruct (choice_one gJ (named nLiteral) [ref nNumber; ref nString] (ref nBool) [RString nb wNull] t n u k) as (k' & X).
  - constructor; [eapply miss_ref; [exact look_number|exact D|exact DA|reflexivity|outside]|].
    constructor; [|constructor]. eapply miss_ref; [exact look_string|exact D|exact DA|reflexivity|outside].
  - constructor; [|constructor]. apply (word_no nb 110 [117; 108; 108] t c eq_refl DA). lia.
  - exact E.
  - exists k'. eapply go_ref; [exact look_literal|exact X].
Qed.
Lemma literal_null t n u k : noEsc t -> darkAt t 110 -> Ev gJ (RString nb wNull) SK t (OMatch n u k false) ->
  exists k', Ev gJ (ref nLiteral) SK t (OMatch (litNode n) u k' false).
Proof.
  intros D DA E. destruct (choice_one gJ (named nLiteral) [ref nNumber; ref nString; ref nBool] (RString nb wNull) [] t n u k) as (k' & X).
  - constructor; [eapply miss_ref; [exact look_number|exact D|exact DA|reflexivity|outside]|].
    constructor; [eapply miss_ref; [exact look_string|exact D|exact DA|reflexivity|outside]|].
    constructor; [|constructor]. eapply miss_ref; [exact look_bool|exact D|exact DA|reflexivity|outside].
  - constructor.
  - exact E.
  - exists k'. eapply go_ref; [exact look_literal|exact X].
Qed.
Lemma bool_yes b w t : noEsc (w ++ boolWord b ++ t) -> white w ->
  exists k, Ev gJ (ref nBool) SK (w ++ boolWord b ++ t) (OMatch (tree TChoice (named nBool) [wordNode nb (boolWord b)] false) (length (w ++ boolWord b)) k false).
Proof.
  intros D W. rewrite app_length. destruct b.
  - destruct (choice_one gJ (named nBool) [] (RString nb wTrue) [RString nb wFalse] (w ++ boolWord true ++ t) (wordNode nb wTrue) (length w + length (boolWord true)) (length w + length (boolWord true))) as (k' & X).
    + constructor.
    + constructor; [|constructor]. apply (word_no nb 102 [97; 108; 115; 101] _ 116 eq_refl); [|lia]. now apply (dark_at w 116).
    + exact (word_yes nb 116 [114; 117; 101] w t eq_refl W).
    + exists k'. eapply go_ref; [exact look_bool|exact X].
  - destruct (choice_one gJ (named nBool) [RString nb wTrue] (RString nb wFalse) [] (w ++ boolWord false ++ t) (wordNode nb wFalse) (length w + length (boolWord false)) (length w + length (boolWord false))) as (k' & X).
    + constructor; [|constructor]. apply (word_no nb 116 [114; 117; 101] _ 102 eq_refl); [|lia]. now apply (dark_at w 102).
    + constructor.
    + exact (word_yes nb 102 [97; 108; 115; 101] w t eq_refl W).
    + exists k'. eapply go_ref; [exact look_bool|exact X].
Qed.

(** A value of each kind. *)
Lemma value_literal t c n u k : noEsc t -> darkAt t c -> c <> 91 -> c <> 123 -> Ev gJ (ref nLiteral) SK t (OMatch n u k false) ->
  exists k', Ev gJ (ref nValue) SK t (OMatch (valueNode n) u k' false).
Proof.
  intros D DA N1 N2 E. destruct (choice_one gJ (named nValue) [] (ref nLiteral) [ref nArray; ref nObject] t n u k) as (k' & X).
  - constructor.
  - constructor; [eapply miss_ref; [exact look_array|exact D|exact DA|reflexivity|outside]|].
    constructor; [|constructor]. eapply miss_ref; [exact look_object|exact D|exact DA|reflexivity|outside].
  - exact E.
  - exists k'. eapply go_ref; [exact look_value|exact X].
Qed.
Lemma value_array t n u k : noEsc t -> darkAt t 91 -> Ev gJ (ref nArray) SK t (OMatch n u k false) ->
  exists k', Ev gJ (ref nValue) SK t (OMatch (valueNode n) u k' false).
Proof.
  intros D DA E. destruct (choice_one gJ (named nValue) [ref nLiteral] (ref nArray) [ref nObject] t n u k) as (k' & X).
  - constructor; [|constructor]. eapply miss_ref; [exact look_literal|exact D|exact DA|reflexivity|outside].
  - constructor; [|constructor]. eapply miss_ref; [exact look_object|exact D|exact DA|reflexivity|outside].
  - exact E.
  - exists k'. eapply go_ref; [exact look_value|exact X].
Qed.
Lemma value_object t n u k : noEsc t -> darkAt t 123 -> Ev gJ (ref nObject) SK t (OMatch n u k false) ->
  exists k', Ev gJ (ref nValue) SK t (OMatch (valueNode n) u k' false).
Proof.
  intros D DA E. destruct (choice_one gJ (named nValue) [ref nLiteral; ref nArray] (ref nObject) [] t n u k) as (k' & X).
  - constructor; [eapply miss_ref; [exact look_literal|exact D|exact DA|reflexivity|outside]|].
    constructor; [|constructor]. eapply miss_ref; [exact look_array|exact D|exact DA|reflexivity|outside].
  - constructor.
  - exact E.
  - exists k'. eapply go_ref; [exact look_value|exact X].
Qed.

Lemma ws_not c : In c whiteSpaces -> ~ 48 <= c <= 57 /\ c <> 46.
Proof. intros I. cbn in I. repeat (destruct I as [<-|I]; [lia|]). destruct I. Qed.
Lemma closes_follow v t : closes t -> mayFollow v t.
Proof.
  intros (w & c & r & -> & W & C). destruct v; try exact Logic.I.
  assert (H : exists d x, w ++ c :: r = d :: x /\ ~ 48 <= d <= 57 /\ d <> 46).
  { destruct W as [|d w I _]; [exists c, r; split; [reflexivity|lia]|]. exists d, (w ++ c :: r). split; [reflexivity|now apply ws_not]. }
  destruct H as (d & x & -> & A & B). split.
  - intros (d' & x' & E & F). injection E as <- <-. lia.
  - intros _ x' E. injection E as -> ->. congruence.
Qed.
Lemma value_no w c r : noEsc (w ++ c :: r) -> white w -> c = 93 \/ c = 125 -> fails gJ (ref nValue) (w ++ c :: r).
Proof.
  intros D W C. eapply (miss_ref nValue _ _ c); [exact look_value|exact D|apply dark_at; [exact W|destruct C as [->| ->]; reflexivity]|reflexivity|outside].
Qed.
Lemma kv_no w c r : noEsc (w ++ c :: r) -> white w -> c = 93 \/ c = 125 -> fails gJ (ref nKv) (w ++ c :: r).
Proof.
  intros D W C. eapply (miss_ref nKv _ _ c); [exact look_kv|exact D|apply dark_at; [exact W|destruct C as [->| ->]; reflexivity]|reflexivity|outside].
Qed.

Lemma value_yes v : forall tv t, Spells v tv -> mayFollow v t -> noEsc (tv ++ t) ->
  exists k, Ev gJ (ref nValue) SK (tv ++ t) (OMatch (rawOf v) (length tv) k false).
Proof.
  induction v as [m i fr|l|b| |l IH|l IH] using json_rect'; intros tv t SP F D;
    inversion SP as [w ? ? ? H1 H2 H4|w ? H0 H1|w ? H0|w H|w ? t0 w' H0 H1 H3|w ? t0 w' H0 H1 H3]; subst.
  - rewrite <- app_assoc in D |- *. destruct (num_yes w m i fr t H1 H2 H4 F) as (k & E).
    assert (DA : exists c, darkAt (w ++ (minusSign m ++ i ++ dotted fr) ++ t) c /\ (c = 45 \/ 48 <= c <= 57)).
    { destruct m; [exists 45; split; [now apply (dark_at w 45)|now left]|]. destruct H2 as [NI FI]. destruct i as [|d i]; [congruence|]. inversion FI; subst.
      exists d. split; [|now right]. apply (dark_at w d); [exact H1|]. apply digit_dark. now apply isDigit_iff. }
    destruct DA as (c & DA & C). destruct (literal_number _ c _ _ _ D DA C E) as (k1 & E1). rewrite app_length.
    eapply value_literal; [exact D|exact DA|lia|lia|exact E1].
  - rewrite <- app_assoc in D |- *. destruct (str_yes w l t D H0 H1) as (k & E). assert (DA : darkAt (w ++ (34 :: l ++ [34]) ++ t) 34) by (now apply (dark_at w 34)).
    destruct (literal_string _ _ _ _ D DA E) as (k1 & E1). rewrite app_length. eapply value_literal; [exact D|exact DA|lia|lia|exact E1].
  - rewrite <- app_assoc in D |- *. destruct (bool_yes b w t D H0) as (k & E).
    assert (DA : exists c, darkAt (w ++ boolWord b ++ t) c /\ (c = 116 \/ c = 102)).
    { destruct b; [exists 116; split; [now apply (dark_at w 116)|now left]|exists 102; split; [now apply (dark_at w 102)|now right]]. }
    destruct DA as (c & DA & C). destruct (literal_bool _ c _ _ _ D DA C E) as (k1 & E1). eapply value_literal; [exact D|exact DA|lia|lia|exact E1].
  - rewrite <- app_assoc in D |- *. pose proof (word_yes nb 110 [117; 108; 108] w t eq_refl H) as E. assert (DA : darkAt (w ++ rs "null" ++ t) 110) by (now apply (dark_at w 110)).
    destruct (literal_null _ _ _ _ D DA E) as (k1 & E1). rewrite app_length. eapply value_literal; [exact D|exact DA|lia|lia|exact E1].
  - assert (Y : Forall (yes Spells rawOf nValue) l).
    { apply Forall_forall. rewrite Forall_forall in IH. intros x X tx t2 PX CL DX. apply (IH x X); [exact PX|now apply closes_follow|exact DX]. }
    destruct (list_yes Spells rawOf nValue (fun t _ => value_soft t) value_no nArray 91 93 w l t0 w' t eq_refl (or_introl eq_refl) H0 H1 Y H3 D) as (k & E).
    eapply value_array; [exact D| |eapply go_ref; [exact look_array|exact E]]. rewrite <- app_assoc. now apply (dark_at w 91).
  - assert (Y : Forall (yes (Member Spells) kvRaw nKv) l).
    { apply Forall_forall. rewrite Forall_forall in IH. intros x X tx t2 PX CL DX. inversion PX as [w1 key w2 v tx' W1 FK W2 SV]; subst. specialize (IH _ X). cbn [snd] in IH.
      assert (E0 : (w1 ++ 34 :: key ++ 34 :: w2 ++ 58 :: tx') ++ t2 = w1 ++ (34 :: key ++ [34]) ++ w2 ++ 58 :: tx' ++ t2).
      { rewrite <- !app_assoc. cbn [app]. rewrite <- !app_assoc. cbn [app]. rewrite <- !app_assoc. reflexivity. }
      rewrite E0 in *. destruct (str_yes w1 key (w2 ++ 58 :: tx' ++ t2) DX W1 FK) as (k1 & E1).
      assert (D1 : noEsc (w2 ++ 58 :: tx' ++ t2)) by (apply noEsc_app in DX as [_ DX]; now apply noEsc_app in DX as [_ DX]).
      assert (D2 : noEsc (tx' ++ t2)) by (apply noEsc_app in D1 as [_ D1]; now apply noEsc_cons in D1).
      destruct (IH tx' t2 SV (closes_follow _ _ CL) D2) as (k2 & E2).
      destruct (seq_concat gJ (named nKv) [ref nString; sep 58; ref nValue] SK (w1 ++ (34 :: key ++ [34]) ++ w2 ++ 58 :: tx' ++ t2) (kvRaw (key, v)) (length (w1 ++ 34 :: key ++ 34 :: w2 ++ 58 :: tx')) false) as (k3 & E3).
      - assert (Q1 : skipn (length w1 + length (34%Z :: key ++ [34])) (w1 ++ (34 :: key ++ [34]) ++ w2 ++ 58 :: tx' ++ t2) = w2 ++ 58 :: tx' ++ t2).
        { rewrite app_assoc. apply skip_at. now rewrite app_length. }
        assert (Q2 : skipn (length w2 + 1) (w2 ++ 58 :: tx' ++ t2) = tx' ++ t2).
        { replace (w2 ++ 58 :: tx' ++ t2) with ((w2 ++ [58]) ++ tx' ++ t2) by (now rewrite <- app_assoc). apply skip_at. rewrite app_length. cbn. lia. }
        eapply seq_next; [exact E1|]. change (nextMode SK (strNode key) false) with SK.
        eapply seq_next; [rewrite Nat.add_0_l, Q1; exact (word_yes mark 58 [] w2 (tx' ++ t2) eq_refl W2)|]. change (nextMode SK (wordNode mark [58]) false) with SK.
        eapply seq_next; [rewrite Nat.add_0_l, <- skipn_plus, Q1; cbn [length]; rewrite Q2; exact E2|].
        apply seq_done; [reflexivity| |reflexivity]. rewrite !app_length. cbn [length]. rewrite !app_length. cbn [length]. rewrite !app_length. cbn [length]. lia.
      - exists k3. eapply go_ref; [exact look_kv|exact E3]. }
    destruct (list_yes (Member Spells) kvRaw nKv kv_soft kv_no nObject 123 125 w l t0 w' t eq_refl (or_intror eq_refl) H0 H1 Y H3 D) as (k & E).
    eapply value_object; [exact D| |eapply go_ref; [exact look_object|exact E]]. rewrite <- app_assoc. now apply (dark_at w 123).
Qed.
