(** The rules of the shipped property grammar (main/samples/property/property.xbnf) on texts
    without a backslash. *)
From Verif Require Import Base Stream StreamFacts CallFacts Node Rule Grammar SpecStream SpecRule TermFacts TermSpec SpecEval SpecEv EvFacts EvDet EvalSem
  SpecDriver SpecLL LLFacts JsonLex JsonSafe RepoSamples SpecArith SpecLines SpecProperty ArithLook SureFacts.
From Verif Require GrammarFacts.

(** property.xbnf:1-8, parsed. *)
Definition gP : rules_t := Eval vm_compute in rules_of gProp.
Definition pSpace := Eval vm_compute in rs "SPACE".
Definition pTab := Eval vm_compute in rs "TAB".
Definition pNl := Eval vm_compute in rs "NL".
Definition pKey := Eval vm_compute in rs "key".
Definition pValue := Eval vm_compute in rs "value".
Definition pEmpty := Eval vm_compute in rs "emptykey".
Definition pProp := Eval vm_compute in rs "property".
Definition vb : rbase := mkBase [] true false false.
Definition xBlanks (l : list (list Z)) : rule := RRep vb (RChoice nb [List.map ref l]) 0 0.
Definition xLead : rule := xBlanks [pSpace; pTab; pNl].
Definition xTail : rule := xBlanks [pSpace; pNl; pTab].
Definition xEol : rule := RGroup vb (RChoice nb [[ref pNl; REOF nb]]).
Definition xSep : rule := RGroup vb (RChoice nb [[RString nb [61]; RString nb [58]]]).
Definition xNoSep : rule := RGroup nb (RChoice nb [[RChar nb 61 false; RChar nb 58 false]]).
Definition xEsc : rule := RChar nb 92 false.
Definition xBlock (cl : rule) (esc : option rule) (excl : list rule) : rule := RBlock nb (RString nb []) false cl esc excl.
Definition xKeyB : rule := xBlock xSep (Some xEsc) [ref pNl].
Definition xValueB : rule := xBlock xEol (Some xEsc) [].
Definition xEmptyB : rule := xBlock xEol None [xNoSep].
Definition xKey : rule := RConcat (named pKey) [xLead; xKeyB].
Definition xValue : rule := RConcat (named pValue) [xLead; xValueB].
Definition xEmpty : rule := RConcat (named pEmpty) [xLead; xEmptyB].
Definition xPair : rule := RGroup nb (RConcat nb [ref pKey; ref pValue]).
Definition xEither : rule := RChoice nb [[ref pEmpty; xPair]].
Definition xProp : rule := RConcat (named pProp) [xEither; xTail].
Lemma look_space : lookup gP pSpace = Some (RChar (named pSpace) 32 true). Proof. reflexivity. Qed.
Lemma look_tab : lookup gP pTab = Some (RChar (named pTab) 9 true). Proof. reflexivity. Qed.
Lemma look_nl : lookup gP pNl = Some (RChar (named pNl) 10 true). Proof. reflexivity. Qed.
Lemma look_key : lookup gP pKey = Some xKey. Proof. reflexivity. Qed.
Lemma look_value : lookup gP pValue = Some xValue. Proof. reflexivity. Qed.
Lemma look_empty : lookup gP pEmpty = Some xEmpty. Proof. reflexivity. Qed.
Lemma look_prop : lookup gP pProp = Some xProp. Proof. reflexivity. Qed.
Lemma gP_is : rules_of gProp = gP. Proof. reflexivity. Qed.
Lemma roots_prop : rootsOf gProp = [(pProp, xProp)]. Proof. reflexivity. Qed.

Notation NS := SUGGEST_NOT_SKIP.
Notation SK := SUGGEST_SKIP.
Notation sureP := (sure gP).

(* ---------------- blanks ---------------- *)

Definition blankOf (n : list Z) (c : Z) : Prop := lookup gP n = Some (RChar (named n) c true) /\ isWS c = true.
Definition blankOut (n : list Z) (c f : Z) (t : list Z) : ores := ofTerm TChar (named n) true (tchar c f t).
Lemma flip_nb n : flip nb n = n.
Proof. destruct n as [? ? ? ? ? ? [] [] []]; reflexivity. Qed.
Lemma map_nb o : mapTree (flip nb) o = o.
Proof. destruct o; cbn; now rewrite ?flip_nb. Qed.
Lemma blank_ref n c f t : blankOf n c -> sureP (ref n) f t (blankOut n c f t).
Proof. intros [L _]. rewrite <- (map_nb (blankOut n c f t)). apply (sure_ref gP nb n _ f t _ L). apply sure_char. Qed.

(** Where the rune is first, if white space reaches it. *)
Definition place (c f : Z) (t : list Z) : option nat :=
  if f =? SK then find_idx c (ws_prefix t) else match t with x :: _ => if x =? c then Some 0%nat else None | [] => None end.
Definition reach (f : Z) (t : list Z) (o : option nat) : nat := if f =? SK then lead t else match o with Some _ => 1%nat | None => 0%nat end.
Definition blankNode (n : list Z) (c : Z) : node := build TChar (named n) [c] [] None true.
Lemma find_in c l : find_idx c l = None <-> ~ In c l.
Proof.
  induction l as [|y l IH]; cbn; [tauto|]. destruct (Z.eqb_spec y c); [split; [discriminate|intros H; destruct H; auto]|]. destruct (find_idx c l) as [j|]; cbn; split; intros H; try discriminate; try reflexivity.
  - destruct IH as [_ IH]. destruct H. right. destruct (in_dec Z.eq_dec c l) as [D|D]; [assumption|]. specialize (IH D). discriminate.
  - intros [X|X]; [contradiction|]. now apply IH in X.
Qed.
Lemma blank_out n c f t : mode f -> isWS c = true -> t <> [] ->
  blankOut n c f t = match place c f t with Some i => OMatch (blankNode n c) (S i) (reach f t (place c f t)) true | None => OFail (reach f t (place c f t)) true end.
Proof.
  intros MF W NE. unfold blankOut, tchar, place, reach. destruct t as [|x t]; [congruence|]. destruct MF as [-> | ->].
  - change (SK =? SUGGEST_SKIP) with true. change (SK =? SK) with true. cbv iota. rewrite W. destruct (ws_prefix (x :: t)) as [|y sp] eqn:SP.
    + cbn [nonempty andb length skipn headIs find_idx]. cbn [ws_prefix] in SP. destruct (isWS x) eqn:WX; [discriminate|]. destruct (Z.eqb_spec x c); [congruence|]. unfold lead. cbn [ws_prefix]. rewrite WX. reflexivity.
    + rewrite <- SP. cbn [nonempty andb]. destruct (ws_prefix (x :: t)) as [|y' sp'] eqn:SP'; [discriminate|]. rewrite <- SP'. cbn [nonempty andb]. destruct (find_idx c (ws_prefix (x :: t))) as [i|] eqn:FI.
      * destruct (nonempty (ws_prefix (x :: t))) eqn:NN; [|rewrite SP' in NN; discriminate]. cbn [ofTerm]. unfold blankNode. f_equal. rewrite skipn_length. apply find_idx_spec in FI as (_ & _ & L). lia.
      * destruct (nonempty (ws_prefix (x :: t))) eqn:NN; [|rewrite SP' in NN; discriminate]. reflexivity.
  - change (NS =? SUGGEST_SKIP) with false. change (NS =? SK) with false. cbv iota. cbn [headIs]. destruct (x =? c); reflexivity.
Qed.

Lemma place_nth c f t i : mode f -> place c f t = Some i -> nth_error t i = Some c /\ (i < lead t \/ isWS c = false)%nat.
Proof.
  intros MF. unfold place. destruct MF as [-> | ->].
  - change (SK =? SK) with true. cbv iota. intros H. apply find_idx_spec in H as (A & _ & L). unfold lead. split; [|left; exact L]. rewrite (ws_prefix_app t), nth_error_app1 by exact L. rewrite A, nth_error_app2; rewrite firstn_length_le by lia; [|lia]. now rewrite Nat.sub_diag.
  - change (NS =? SK) with false. cbv iota. destruct t as [|x t]; [discriminate|]. destruct (Z.eqb_spec x c) as [->|]; [|discriminate]. intros [= <-]. split; [reflexivity|]. unfold lead. cbn [ws_prefix]. destruct (isWS c); [left; cbn; lia|now right].
Qed.
Lemma farthest_le K os : forall m, (forall o, In o os -> (looked o <= K)%nat) -> (m <= K)%nat -> (farthest m os <= K)%nat.
Proof. induction os as [|o os IH]; intros m H L; [exact L|]. cbn [farthest fold_left]. apply IH; [intros o' I; apply H; now right|]. pose proof (H o (or_introl eq_refl)). lia. Qed.
Lemma farthest_ge os : forall m, (m <= farthest m os)%nat /\ forall o, In o os -> (looked o <= farthest m os)%nat.
Proof.
  induction os as [|o os IH]; intros m; [split; [cbn; lia|intros ? []]|]. cbn [farthest fold_left]. destruct (IH (Nat.max m (looked o))) as [A B]. fold (farthest (Nat.max m (looked o)) os) in *. split; [lia|].
  intros o' [<-|I]; [lia|now apply B].
Qed.
Lemma glued_all os : (forall o, In o os -> glued o = true) -> allGlued true os = true.
Proof. unfold allGlued. induction os as [|o os IH]; intros H; [reflexivity|]. cbn [fold_left]. rewrite (H o (or_introl eq_refl)). cbn [andb]. apply IH. intros o' I. apply H. now right. Qed.

Definition blanksOf (l : list (list Z * Z)) : Prop := Forall (fun x => blankOf (fst x) (snd x)) l /\ NoDup (List.map snd l) /\ l <> [].
Lemma blank_one l f t : blanksOf l -> mode f -> t <> [] ->
  (exists x i k, In x l /\ place (snd x) f t = Some i /\ sureP (RChoice nb [List.map ref (List.map fst l)]) f t (OMatch (tree TChoice nb [blankNode (fst x) (snd x)] true) (S i) k true) /\
     (S i <= k <= lead t)%nat /\ (f = SK -> k = lead t) /\ (f = NS -> k = S i)) \/
  ((forall x, In x l -> place (snd x) f t = None) /\ exists k, sureP (RChoice nb [List.map ref (List.map fst l)]) f t (OFail k true) /\ (k <= lead t)%nat /\ (f = SK -> k = lead t) /\ (f = NS -> k = 0%nat)).
Proof.
  intros (FB & ND & NE) MF NT. set (os := List.map (fun x => blankOut (fst x) (snd x) f t) l).
  assert (F : Forall2 (fun r o => sureP r f t o) (List.map ref (List.map fst l)) os).
  { unfold os. clear -FB. induction FB as [|x l B F IH]; [constructor|]. cbn [List.map]. constructor; [now apply blank_ref|exact IH]. }
  assert (OUT : forall x, In x l -> blankOut (fst x) (snd x) f t = match place (snd x) f t with Some i => OMatch (blankNode (fst x) (snd x)) (S i) (reach f t (place (snd x) f t)) true | None => OFail (reach f t (place (snd x) f t)) true end).
  { intros x I. rewrite Forall_forall in FB. destruct (FB x I) as [_ W]. now apply blank_out. }
  assert (LK : forall x, In x l -> looked (blankOut (fst x) (snd x) f t) = reach f t (place (snd x) f t)) by (intros x I; rewrite (OUT x I); destruct (place (snd x) f t); reflexivity).
  assert (RL : forall x, In x l -> (reach f t (place (snd x) f t) <= lead t)%nat).
  { intros x I. unfold reach. destruct MF as [-> | ->]; [reflexivity|]. change (NS =? SK) with false. cbv iota. destruct (place (snd x) NS t) as [i|] eqn:P; [|lia]. apply place_nth in P as [_ [P|P]]; [lia| |now right].
    rewrite Forall_forall in FB. destruct (FB x I) as [_ W]. congruence. }
  assert (FL : (farthest 0 os <= lead t)%nat).
  { apply farthest_le; [|lia]. intros o I. apply in_map_iff in I as (x & <- & I). rewrite (LK x I). now apply RL. }
  assert (FS : f = SK -> farthest 0 os = lead t).
  { intros ->. destruct l as [|x l]; [congruence|]. destruct (farthest_ge os 0) as [_ G]. specialize (G _ (or_introl eq_refl)). cbn beta in G. rewrite (LK x (or_introl eq_refl)) in G. unfold reach in G. change (SK =? SK) with true in G. cbv iota in G. lia. }
  assert (GL : allGlued true os = true).
  { apply glued_all. intros o I. apply in_map_iff in I as (x & <- & I). rewrite (OUT x I). destruct (place (snd x) f t); reflexivity. }
  assert (HI : forall n u, In (n, u) (hits os) -> exists x i, In x l /\ place (snd x) f t = Some i /\ n = blankNode (fst x) (snd x) /\ u = S i).
  { intros n u I. unfold hits in I. apply in_flat_map in I as (o & IO & I). apply in_map_iff in IO as (x & <- & IX). rewrite (OUT x IX) in I. destruct (place (snd x) f t) as [i|] eqn:P; [|destruct I]. destruct I as [[= <- <-]|[]]. exists x, i. auto. }
  destruct (hits os) as [|h hs] eqn:EH.
  - right. split.
    + intros x I. destruct (place (snd x) f t) as [i|] eqn:P; [|reflexivity]. exfalso. assert (X : In (blankNode (fst x) (snd x), S i) (hits os)).
      { unfold hits. apply in_flat_map. exists (blankOut (fst x) (snd x) f t). split; [apply in_map_iff; now exists x|]. rewrite (OUT x I), P. now left. }
      rewrite EH in X. destruct X.
    + exists (farthest 0 os). pose proof (sure_choice_none gP nb _ f t os F EH) as S1. rewrite GL in S1. split; [exact S1|]. split; [exact FL|]. split; [exact FS|].
      intros ->. apply Nat.le_0_r. apply farthest_le; [|lia]. intros o I. apply in_map_iff in I as (x & <- & I). rewrite (LK x I). unfold reach. change (NS =? SK) with false. cbv iota.
      destruct (place (snd x) NS t) as [i|] eqn:P; [|lia]. exfalso. assert (X : In (blankNode (fst x) (snd x), S i) (hits os)).
      { unfold hits. apply in_flat_map. exists (blankOut (fst x) (snd x) NS t). split; [apply in_map_iff; now exists x|]. rewrite (OUT x I), P. now left. }
      rewrite EH in X. destruct X.
  - left. assert (NDH : NoDup (List.map snd (hits os))).
    { clear -OUT ND MF. unfold os. induction l as [|x l IH]; [constructor|]. cbn [List.map] in ND. inversion ND as [|? ? N1 N2]; subst. specialize (IH N2 (fun y I => OUT y (or_intror I))).
      unfold hits in *. cbn [List.map flat_map]. rewrite (OUT x (or_introl eq_refl)). destruct (place (snd x) f t) as [i|] eqn:P; [|exact IH]. cbn [app List.map snd]. constructor; [|exact IH].
      intros I. apply in_map_iff in I as ([n u] & E & I). cbn in E. subst u. apply in_flat_map in I as (o & IO & I). apply in_map_iff in IO as (y & <- & IY). rewrite (OUT y (or_intror IY)) in I.
      destruct (place (snd y) f t) as [j|] eqn:P'; [|destruct I]. destruct I as [[= <- ->]|[]]. apply place_nth in P as [P _]; [|exact MF]. apply place_nth in P' as [P' _]; [|exact MF]. rewrite P in P'. injection P' as P'. apply N1. rewrite P'. now apply in_map. }
    destruct (pick_apart (hits os) NDH ltac:(rewrite EH; discriminate)) as (n & u & PK & IN). destruct (HI n u) as (x & i & IX & P & -> & ->); [rewrite <- EH; exact IN|].
    pose proof (sure_choice_one gP nb _ f t os _ _ F PK) as S1. rewrite GL in S1. exists x, i, (farthest 0 os). split; [exact IX|]. split; [exact P|]. split; [exact S1|].
    assert (LI : (S i <= farthest 0 os)%nat).
    { destruct (farthest_ge os 0) as [_ G]. specialize (G (blankOut (fst x) (snd x) f t)). rewrite (LK x IX), P in G. assert (I : In (blankOut (fst x) (snd x) f t) os) by (apply in_map_iff; now exists x). specialize (G I).
      unfold reach in G. destruct MF as [-> | ->].
      - change (SK =? SK) with true in G. cbv iota in G. apply place_nth in P as [_ [P|P]]; [lia| |now left]. rewrite Forall_forall in FB. destruct (FB x IX) as [_ W]. congruence.
      - change (NS =? SK) with false in G. cbv iota in G. unfold place in P. change (NS =? SK) with false in P. cbv iota in P. destruct t as [|y t]; [congruence|]. destruct (y =? snd x); [|discriminate]. injection P as <-. exact G. }
    split; [lia|]. split; [exact FS|]. intros ->. apply Nat.le_antisymm; [|exact LI]. apply farthest_le; [|lia]. intros o I. apply in_map_iff in I as (y & <- & IY). rewrite (LK y IY). unfold reach. change (NS =? SK) with false. cbv iota. destruct (place (snd y) NS t); lia.
Qed.

Lemma lead_skip t : forall p, (p <= lead t)%nat -> lead (skipn p t) = (lead t - p)%nat.
Proof.
  unfold lead. induction t as [|x t IH]; intros p L; [destruct p; reflexivity|]. destruct p as [|p]; [cbn [skipn]; lia|]. cbn [ws_prefix skipn] in *. destruct (isWS x); cbn [length] in *; [|lia]. rewrite IH by lia. lia.
Qed.
Lemma firstn_more (t : list Z) : forall i c, nth_error t i = Some c -> firstn (S i) t = firstn i t ++ [c].
Proof. induction t as [|x t IH]; intros [|i] c H; try discriminate; [now injection H as ->|]. cbn [firstn app]. cbn in H. f_equal. now apply IH. Qed.
Lemma nth_skip (t : list Z) : forall p i, nth_error (skipn p t) i = nth_error t (p + i).
Proof. induction t as [|x t IH]; intros [|p] i; try reflexivity; [now destruct i|]. cbn [skipn Nat.add nth_error]. apply IH. Qed.

Definition endsIn (l : list (list Z * Z)) (w : list Z) : Prop := w = [] \/ exists w' x, w = w' ++ [snd x] /\ In x l.
Lemma blanks_rep l f t : blanksOf l -> mode f -> exists ns u k, sureP (xBlanks (List.map fst l)) f t (OMatch (tree TRepetition vb ns true) u k true) /\ (u <= k <= lead t)%nat /\ endsIn l (firstn u t) /\
  (f = SK -> k = lead t /\ forall x, In x l -> ~ In (snd x) (ws_prefix (skipn u t))).
Proof.
  intros B MF. set (r := RChoice nb [List.map ref (List.map fst l)]).
  assert (G : forall d p m kids, (length t - p <= d)%nat -> (p <= lead t)%nat -> (m <= lead t)%nat -> (f = NS -> m = p) -> (f = SK -> m = lead t \/ (p = 0%nat /\ m = 0%nat)) -> endsIn l (firstn p t) ->
    exists ns u k, sureRep gP vb r f t p m true kids (OMatch (tree TRepetition vb ns true) u k true) /\ (u <= k <= lead t)%nat /\ endsIn l (firstn u t) /\
      (f = SK -> k = lead t /\ forall x, In x l -> ~ In (snd x) (ws_prefix (skipn u t)))).
  { assert (DONE : forall p m kids, skipn p t = [] -> (p <= lead t)%nat -> (m <= lead t)%nat -> (f = NS -> m = p) -> (f = SK -> m = lead t \/ (p = 0%nat /\ m = 0%nat)) -> endsIn l (firstn p t) ->
      exists ns u k, sureRep gP vb r f t p m true kids (OMatch (tree TRepetition vb ns true) u k true) /\ (u <= k <= lead t)%nat /\ endsIn l (firstn u t) /\
      (f = SK -> k = lead t /\ forall x, In x l -> ~ In (snd x) (ws_prefix (skipn u t)))).
    { intros p m kids Q LP LM HN HS EI. exists kids, p, m. split; [now apply rep_done|]. pose proof (lead_le t) as LL. assert (LT : (length t <= p)%nat) by (apply (f_equal (@length Z)) in Q; rewrite skipn_length in Q; cbn in Q; lia).
      assert (MS : f = SK -> m = lead t) by (intros E; destruct (HS E) as [X|[X Y]]; lia).
      split; [destruct MF as [E|E]; [specialize (MS E)|specialize (HN E)]; lia|]. split; [exact EI|]. intros E. split; [now apply MS|]. intros x _. rewrite Q. cbn. tauto. }
    induction d as [|d IH]; intros p m kids LD LP LM HN HS EI.
    - apply DONE; try assumption. apply length_zero_iff_nil. rewrite skipn_length. lia.
    - destruct (skipn p t) as [|c t'] eqn:Q; [now apply DONE|]. assert (NE : skipn p t <> []) by (rewrite Q; discriminate). pose proof (lead_skip t p LP) as LS.
      destruct (blank_one l f (skipn p t) B MF NE) as [(x & i & k & IX & P & S1 & L1 & K1 & K2)|(NO & k & S1 & L1 & K1 & K2)]; fold r in S1.
      + assert (LI : (S i <= lead t - p)%nat) by lia. apply place_nth in P as [P _]; [|exact MF]. rewrite nth_skip in P.
        destruct (IH (p + S i)%nat (Nat.max m (p + k)) (kids ++ [tree TChoice nb [blankNode (fst x) (snd x)] true])) as (ns & u & k' & S2 & A & E & C).
        * pose proof (nth_error_Some t (p + i)) as NS'. assert (p + i < length t)%nat by (apply NS'; congruence). lia.
        * lia.
        * lia.
        * intros E. specialize (HN E). specialize (K2 E). lia.
        * intros E. specialize (HS E). specialize (K1 E). left. lia.
        * right. exists (firstn (p + i) t), x. split; [|exact IX]. replace (p + S i)%nat with (S (p + i)) by lia. now apply firstn_more.
        * exists ns, u, k'. split; [|now split]. eapply rep_more; [exact NE|exact S1| |exact S2]. destruct MF as [M|M]; [specialize (K1 M)|specialize (HN M)]; lia.
      + exists kids, p, (Nat.max m (p + k)). split; [exact (rep_stop gP vb r f t p m true kids k true NE S1)|]. split; [lia|]. split; [exact EI|]. intros E. specialize (K1 E). specialize (HS E). split; [lia|].
        intros x IX I. specialize (NO x IX). unfold place in NO. rewrite E in NO. change (SK =? SK) with true in NO. cbv iota in NO. now apply find_in in NO. }
  destruct (G (length t) 0%nat 0%nat [] ltac:(lia) ltac:(lia) ltac:(lia) ltac:(auto) ltac:(auto) ltac:(now left)) as (ns & u & k & S1 & A & E & C).
  exists ns, u, k. split; [now apply sure_rep|]. auto.
Qed.
Definition lLead : list (list Z * Z) := [(pSpace, 32); (pTab, 9); (pNl, 10)].
Definition lTail : list (list Z * Z) := [(pSpace, 32); (pNl, 10); (pTab, 9)].
Lemma lead_blanks : blanksOf lLead.
Proof. split; [repeat constructor|]. split; [|discriminate]. cbn. repeat constructor; cbn; intuition lia. Qed.
Lemma tail_blanks : blanksOf lTail.
Proof. split; [repeat constructor|]. split; [|discriminate]. cbn. repeat constructor; cbn; intuition lia. Qed.

(* ---------------- the open rule: white space is skipped, something has to follow ---------------- *)

Definition openNode : node := build TString nb [] [] None false.
Lemma open_some f w here : f = NS \/ f = SK -> white w -> flush here -> w ++ here <> [] ->
  sureP (RString nb []) f (w ++ here) (OMatch openNode (length w) (length w) false).
Proof.
  intros MF W FL NE. pose proof (sure_string gP nb [] f (w ++ here)) as X. replace (skips f true) with true in X by (destruct MF as [-> | ->]; reflexivity).
  assert (PW : ws_prefix (w ++ here) = w).
  { rewrite ws_prefix_white_app by exact W. rewrite <- (app_nil_r w) at 2. f_equal. destruct here as [|c here]; [reflexivity|]. cbn [ws_prefix]. destruct (isWS c) eqn:E; [|reflexivity]. cbn in FL. destruct FL. now apply GrammarFacts.white_dec. }
  unfold tlit in X. destruct (w ++ here) as [|y z] eqn:Q; [congruence|]. rewrite <- Q in *. rewrite PW in X. cbn [ws_prefix length] in X. replace (length w <? 0)%nat with false in X by now destruct (length w).
  assert (TI : tail_is w [] = true) by (unfold tail_is; cbn [length]; rewrite Nat.sub_0_r, skipn_all; reflexivity). rewrite TI in X. cbn [negb skipn litmatch snd fst] in X. rewrite app_nil_r in X. cbn [ofTerm length] in X. rewrite Nat.sub_0_r in X. exact X.
Qed.
Lemma open_none f : sureP (RString nb []) f [] (OFail 0 false).
Proof. exact (sure_string gP nb [] f []). Qed.

(* ---------------- single runes, without skipping ---------------- *)

Lemma char_at b c u x l : sureP (RChar b c u) NOT_SKIP (x :: l) (if x =? c then OMatch (build TChar b [c] [] None true) 1 1 true else OFail 0 true).
Proof. pose proof (sure_char gP b c u NOT_SKIP (x :: l)) as X. unfold tchar in X. change (NOT_SKIP =? SUGGEST_SKIP) with false in X. cbv iota in X. cbn [headIs] in X. destruct (x =? c); exact X. Qed.
Lemma char_end b c u : sureP (RChar b c u) NOT_SKIP [] (OFail 0 true).
Proof. exact (sure_char gP b c u NOT_SKIP []). Qed.
Lemma nl_at x l : sureP (ref pNl) NOT_SKIP (x :: l) (if x =? 10 then OMatch (build TChar (named pNl) [10] [] None true) 1 1 true else OFail 0 true).
Proof. pose proof (sure_ref gP nb pNl _ NOT_SKIP (x :: l) _ look_nl (char_at (named pNl) 10 true x l)) as X. rewrite map_nb in X. exact X. Qed.
Lemma nl_end : sureP (ref pNl) NOT_SKIP [] (OFail 0 true).
Proof. exact (sure_ref gP nb pNl _ NOT_SKIP [] _ look_nl (char_end (named pNl) 10 true)). Qed.
Lemma string_at b c x l : sureP (RString b [c]) NOT_SKIP (x :: l) (if x =? c then OMatch (build TString b [c] [] None false) 1 1 false else OFail 1 false).
Proof.
  pose proof (sure_string gP b [c] NOT_SKIP (x :: l)) as X. change (skips NOT_SKIP true) with false in X. unfold tlit in X. cbn [length Nat.ltb Nat.leb] in X. change (tail_is [] []) with true in X. cbn [negb skipn litmatch] in X.
  destruct (Z.eqb_spec x c) as [->|N]; cbn [snd fst] in X; exact X.
Qed.
Lemma string_end b c : sureP (RString b [c]) NOT_SKIP [] (OFail 0 false).
Proof. exact (sure_string gP b [c] NOT_SKIP []). Qed.
Lemma eof_at b x l : sureP (REOF b) NOT_SKIP (x :: l) (OFail 0 true).
Proof. exact (sure_eof gP b NOT_SKIP (x :: l)). Qed.
Lemma eof_end b : exists n, sureP (REOF b) NOT_SKIP [] (OMatch n 0 0 true).
Proof. eexists. exact (sure_eof gP b NOT_SKIP []). Qed.

Ltac two A B := constructor; [exact A|constructor; [exact B|constructor]].
(** The end of a line. *)
Lemma eol_nl l : exists n st, sureP xEol NOT_SKIP (10 :: l) (OMatch (tree TGroup vb n st) 1 1 st).
Proof.
  pose proof (nl_at 10 l) as A. cbn [Z.eqb Pos.eqb] in A. pose proof (eof_at nb 10 l) as B. pose proof (sure_choice_one gP nb [ref pNl; REOF nb] NOT_SKIP (10 :: l) _ _ _ ltac:(two A B) (pick_one _ _)) as X.
  apply (sure_group gP vb) in X. eexists. eexists. exact X.
Qed.
Lemma eol_end : exists n st, sureP xEol NOT_SKIP [] (OMatch (tree TGroup vb n st) 0 0 st).
Proof.
  pose proof nl_end as A. destruct (eof_end nb) as (n & B). pose proof (sure_choice_one gP nb [ref pNl; REOF nb] NOT_SKIP [] _ _ _ ltac:(two A B) (pick_one _ _)) as X.
  apply (sure_group gP vb) in X. eexists. eexists. exact X.
Qed.
Lemma eol_not x l : x <> 10 -> sureP xEol NOT_SKIP (x :: l) (OFail 0 true).
Proof.
  intros N. pose proof (nl_at x l) as A. apply Z.eqb_neq in N. rewrite N in A. pose proof (eof_at nb x l) as B. pose proof (sure_choice_none gP nb [ref pNl; REOF nb] NOT_SKIP (x :: l) _ ltac:(two A B) eq_refl) as X.
  apply (sure_group gP vb) in X. exact X.
Qed.
(** A separator. *)
Lemma sep_at x l : separator x -> exists n st, sureP xSep NOT_SKIP (x :: l) (OMatch (tree TGroup vb n st) 1 1 st).
Proof.
  intros SX. pose proof (string_at nb 61 x l) as A. pose proof (string_at nb 58 x l) as B.
  destruct SX as [-> | ->]; cbn [Z.eqb Pos.eqb] in A, B.
  - pose proof (sure_choice_one gP nb [RString nb [61]; RString nb [58]] NOT_SKIP (61 :: l) _ _ _ ltac:(two A B) (pick_one _ _)) as X. apply (sure_group gP vb) in X. eexists. eexists. exact X.
  - pose proof (sure_choice_one gP nb [RString nb [61]; RString nb [58]] NOT_SKIP (58 :: l) _ _ _ ltac:(two A B) (pick_one _ _)) as X. apply (sure_group gP vb) in X. eexists. eexists. exact X.
Qed.
Lemma sep_not x l : ~ separator x -> sureP xSep NOT_SKIP (x :: l) (OFail 1 false).
Proof.
  intros NX. pose proof (string_at nb 61 x l) as A. pose proof (string_at nb 58 x l) as B.
  assert (N1 : x =? 61 = false) by (apply Z.eqb_neq; intros E; apply NX; now left). assert (N2 : x =? 58 = false) by (apply Z.eqb_neq; intros E; apply NX; now right). rewrite N1 in A. rewrite N2 in B.
  pose proof (sure_choice_none gP nb [RString nb [61]; RString nb [58]] NOT_SKIP (x :: l) _ ltac:(two A B) eq_refl) as X. apply (sure_group gP vb) in X. exact X.
Qed.
Lemma sep_end : sureP xSep NOT_SKIP [] (OFail 0 false).
Proof.
  pose proof (string_end nb 61) as A. pose proof (string_end nb 58) as B. pose proof (sure_choice_none gP nb [RString nb [61]; RString nb [58]] NOT_SKIP [] _ ltac:(two A B) eq_refl) as X. apply (sure_group gP vb) in X. exact X.
Qed.
Lemma nosep_at x l : separator x -> exists n st, sureP xNoSep NOT_SKIP (x :: l) (OMatch n 1 1 st).
Proof.
  intros SX. pose proof (char_at nb 61 false x l) as A. pose proof (char_at nb 58 false x l) as B.
  destruct SX as [-> | ->]; cbn [Z.eqb Pos.eqb] in A, B.
  - pose proof (sure_choice_one gP nb [RChar nb 61 false; RChar nb 58 false] NOT_SKIP (61 :: l) _ _ _ ltac:(two A B) (pick_one _ _)) as X. apply (sure_group gP nb) in X. eexists. eexists. exact X.
  - pose proof (sure_choice_one gP nb [RChar nb 61 false; RChar nb 58 false] NOT_SKIP (58 :: l) _ _ _ ltac:(two A B) (pick_one _ _)) as X. apply (sure_group gP nb) in X. eexists. eexists. exact X.
Qed.
Lemma nosep_not x l : ~ separator x -> sureP xNoSep NOT_SKIP (x :: l) (OFail 0 true).
Proof.
  intros NX. pose proof (char_at nb 61 false x l) as A. pose proof (char_at nb 58 false x l) as B.
  assert (N1 : x =? 61 = false) by (apply Z.eqb_neq; intros E; apply NX; now left). assert (N2 : x =? 58 = false) by (apply Z.eqb_neq; intros E; apply NX; now right). rewrite N1 in A. rewrite N2 in B.
  pose proof (sure_choice_none gP nb [RChar nb 61 false; RChar nb 58 false] NOT_SKIP (x :: l) _ ltac:(two A B) eq_refl) as X. apply (sure_group gP nb) in X. exact X.
Qed.
Lemma nosep_end : sureP xNoSep NOT_SKIP [] (OFail 0 true).
Proof.
  pose proof (char_end nb 61 false) as A. pose proof (char_end nb 58 false) as B. pose proof (sure_choice_none gP nb [RChar nb 61 false; RChar nb 58 false] NOT_SKIP [] _ ltac:(two A B) eq_refl) as X. apply (sure_group gP nb) in X. exact X.
Qed.

(* ---------------- the three blocks ---------------- *)

Definition shiftOut (p : nat) (o : ores) : ores := match o with OMatch n u k s => OMatch n (p + u) (p + k) s | OFail k s => OFail (p + k) s end.
Definition closing (nc : node) : Prop := exists n st, nc = tree TGroup vb n st.
Definition blockTree (s : list Z) (nc : node) : node := tree TBlock nb [openNode; contentNode s; nc] false.
Definition scans (cl : rule) (esc : option rule) (excl : list rule) (body : list Z) (o : ores) : Prop :=
  forall pre, sureScan gP nb cl esc excl pre openNode [] body (shiftOut (length pre) o).
Lemma one_excl x here o ml k : sureP x NOT_SKIP here o -> hits [o] = ml -> looked o = k -> exclAt gP [x] here ml k.
Proof. intros A <- <-. right. exists [o]. split; [constructor; [exact A|constructor]|]. split; [discriminate|]. split; [reflexivity|]. cbn. reflexivity. Qed.

Lemma empty_quiet x l : nameRune x -> exists ke kc st, plainAt gP None (x :: l) /\ exclAt gP [xNoSep] (x :: l) [] ke /\ sureP xEol NOT_SKIP (x :: l) (OFail kc st) /\ (ke <= 1)%nat /\ (kc <= 1)%nat.
Proof. intros [N1 N2]. exists 0%nat, 0%nat, true. split; [exact Logic.I|]. split; [now apply (one_excl xNoSep (x :: l) _ _ _ (nosep_not x l N2))|]. split; [now apply eol_not|]. lia. Qed.
Lemma esc_plain x l : x <> 92 -> plainAt gP (Some xEsc) (x :: l).
Proof. intros N. exists true. pose proof (char_at nb 92 false x l) as X. apply Z.eqb_neq in N. rewrite N in X. exact X. Qed.
Lemma esc_end : plainAt gP (Some xEsc) [].
Proof. exists true. apply char_end. Qed.
Lemma key_quiet x l : nameRune x -> x <> 92 -> exists ke kc st, plainAt gP (Some xEsc) (x :: l) /\ exclAt gP [ref pNl] (x :: l) [] ke /\ sureP xSep NOT_SKIP (x :: l) (OFail kc st) /\ (ke <= 1)%nat /\ (kc <= 1)%nat.
Proof.
  intros [N1 N2] N3. exists 0%nat, 1%nat, false. split; [now apply esc_plain|]. split; [|split; [now apply sep_not|lia]]. pose proof (nl_at x l) as X. apply Z.eqb_neq in N1. rewrite N1 in X. now apply (one_excl _ _ _ _ _ X).
Qed.
Lemma value_quiet x l : lineRune x -> x <> 92 -> exists ke kc st, plainAt gP (Some xEsc) (x :: l) /\ exclAt gP [] (x :: l) [] ke /\ sureP xEol NOT_SKIP (x :: l) (OFail kc st) /\ (ke <= 1)%nat /\ (kc <= 1)%nat.
Proof. intros N1 N3. exists 0%nat, 0%nat, true. split; [now apply esc_plain|]. split; [now left|]. split; [now apply eol_not|]. lia. Qed.
Lemma escape_in s t x : noEscape (s ++ t) -> In x s -> x <> 92.
Proof. intros N I. unfold noEscape in N. rewrite Forall_forall in N. apply N. apply in_or_app. now left. Qed.

Lemma empty_scan_end s : Forall nameRune s -> exists nc, closing nc /\ scans xEol None [xNoSep] s (OMatch (blockTree s nc) (length s) (length s) false).
Proof.
  intros F. destruct eol_end as (n & st & X). eexists. split; [now exists n, st|]. intros pre. rewrite <- (app_nil_r s) at 1. apply scan_over.
  - intros x l I. apply empty_quiet. rewrite Forall_forall in F. now apply F.
  - cbn [app shiftOut]. pose proof (scan_closed gP nb xEol None [xNoSep] pre openNode s [] _ _ _ _ _ Logic.I (one_excl xNoSep [] _ _ _ nosep_end eq_refl eq_refl) X ltac:(cbn; lia)) as Y. rewrite Nat.add_0_r in Y. exact Y.
Qed.
Lemma empty_scan_nl s l : Forall nameRune s -> exists nc, closing nc /\ scans xEol None [xNoSep] (s ++ 10 :: l) (OMatch (blockTree s nc) (length s + 1) (length s + 1) false).
Proof.
  intros F. destruct (eol_nl l) as (n & st & X). eexists. split; [now exists n, st|]. intros pre. apply scan_over.
  - intros x l' I. apply empty_quiet. rewrite Forall_forall in F. now apply F.
  - cbn [app shiftOut]. assert (N : ~ separator 10) by (unfold separator; lia). pose proof (scan_closed gP nb xEol None [xNoSep] pre openNode s (10 :: l) _ _ _ _ _ Logic.I (one_excl xNoSep (10 :: l) _ _ _ (nosep_not 10 l N) eq_refl eq_refl) X ltac:(cbn; lia)) as Y.
    rewrite <- !Nat.add_assoc in Y. exact Y.
Qed.
Lemma empty_scan_sep s c l : Forall nameRune s -> separator c -> scans xEol None [xNoSep] (s ++ c :: l) (OFail (length s + 1) false).
Proof.
  intros F SC. destruct (nosep_at c l SC) as (n & st & X). intros pre. apply scan_over.
  - intros x l' I. apply empty_quiet. rewrite Forall_forall in F. now apply F.
  - cbn [app shiftOut]. pose proof (scan_excluded gP nb xEol None [xNoSep] pre openNode s (c :: l) _ _ _ _ Logic.I (one_excl xNoSep (c :: l) _ _ _ X eq_refl eq_refl) (pick_one _ _)) as Y. cbn [looked] in Y. rewrite <- Nat.add_assoc in Y. exact Y.
Qed.
Lemma key_scan_end s : Forall nameRune s -> noEscape s -> scans xSep (Some xEsc) [ref pNl] s (OFail (length s) false).
Proof.
  intros F NE pre. rewrite <- (app_nil_r s) at 1. apply scan_over.
  - intros x l I. apply key_quiet; [rewrite Forall_forall in F; now apply F|]. unfold noEscape in NE. rewrite Forall_forall in NE. now apply NE.
  - cbn [app shiftOut]. exact (scan_ended gP nb xSep (Some xEsc) [ref pNl] pre openNode s _ _ _ esc_end (one_excl (ref pNl) [] _ _ _ nl_end eq_refl eq_refl) sep_end).
Qed.
Lemma key_scan_nl s l : Forall nameRune s -> noEscape (s ++ 10 :: l) -> scans xSep (Some xEsc) [ref pNl] (s ++ 10 :: l) (OFail (length s + 1) false).
Proof.
  intros F NE pre. pose proof (nl_at 10 l) as X. cbn [Z.eqb Pos.eqb] in X. apply scan_over.
  - intros x l' I. apply key_quiet; [rewrite Forall_forall in F; now apply F|]. now apply (escape_in s _ x NE).
  - cbn [app shiftOut]. pose proof (scan_excluded gP nb xSep (Some xEsc) [ref pNl] pre openNode s (10 :: l) _ _ _ _ (esc_plain 10 l ltac:(lia)) (one_excl (ref pNl) (10 :: l) _ _ _ X eq_refl eq_refl) (pick_one _ _)) as Y. cbn [looked] in Y. rewrite <- Nat.add_assoc in Y. exact Y.
Qed.
Lemma key_scan_sep s c l : Forall nameRune s -> separator c -> noEscape (s ++ c :: l) -> exists nc, closing nc /\ scans xSep (Some xEsc) [ref pNl] (s ++ c :: l) (OMatch (blockTree s nc) (length s + 1) (length s + 1) false).
Proof.
  intros F SC NE. destruct (sep_at c l SC) as (n & st & X). eexists. split; [now exists n, st|]. intros pre. apply scan_over.
  - intros x l' I. apply key_quiet; [rewrite Forall_forall in F; now apply F|]. now apply (escape_in s _ x NE).
  - cbn [app shiftOut]. pose proof (nl_at c l) as B. assert (N1 : c =? 10 = false) by (apply Z.eqb_neq; destruct SC; lia). assert (N2 : c <> 92) by (destruct SC; lia). rewrite N1 in B.
    pose proof (scan_closed gP nb xSep (Some xEsc) [ref pNl] pre openNode s (c :: l) _ _ _ _ _ (esc_plain c l N2) (one_excl (ref pNl) (c :: l) _ _ _ B eq_refl eq_refl) X ltac:(cbn; lia)) as Y. rewrite <- !Nat.add_assoc in Y. exact Y.
Qed.
Lemma value_scan_end s : Forall lineRune s -> noEscape s -> exists nc, closing nc /\ scans xEol (Some xEsc) [] s (OMatch (blockTree s nc) (length s) (length s) false).
Proof.
  intros F NE. destruct eol_end as (n & st & X). eexists. split; [now exists n, st|]. intros pre. rewrite <- (app_nil_r s) at 1. apply scan_over.
  - intros x l I. apply value_quiet; [rewrite Forall_forall in F; now apply F|]. unfold noEscape in NE. rewrite Forall_forall in NE. now apply NE.
  - cbn [app shiftOut]. pose proof (scan_closed gP nb xEol (Some xEsc) [] pre openNode s [] 0 _ _ _ _ esc_end ltac:(now left) X ltac:(lia)) as Y. rewrite Nat.add_0_r in Y. exact Y.
Qed.
Lemma value_scan_nl s l : Forall lineRune s -> noEscape (s ++ 10 :: l) -> exists nc, closing nc /\ scans xEol (Some xEsc) [] (s ++ 10 :: l) (OMatch (blockTree s nc) (length s + 1) (length s + 1) false).
Proof.
  intros F NE. destruct (eol_nl l) as (n & st & X). eexists. split; [now exists n, st|]. intros pre. apply scan_over.
  - intros x l' I. apply value_quiet; [rewrite Forall_forall in F; now apply F|]. now apply (escape_in s _ x NE).
  - cbn [app shiftOut]. pose proof (scan_closed gP nb xEol (Some xEsc) [] pre openNode s (10 :: l) 0 _ _ _ _ (esc_plain 10 l ltac:(lia)) ltac:(now left) X ltac:(lia)) as Y. rewrite <- !Nat.add_assoc in Y. exact Y.
Qed.
