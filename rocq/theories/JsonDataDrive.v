(** Eval at the data-only level on the JSON grammar: what is kept and what is lost (C89). *)
From Verif Require Import Base Stream Node Rule Grammar SpecStream SpecRule SpecEval SpecEv SpecDriver DriverFacts WfDec RepoSamples SpecJson EraseFacts JsonLex JsonLang JsonValue JsonTree JsonText JsonDriver SpecJsonData JsonData.

Lemma json_data lf fuel ords s r s' : legal (rootsOf gJson) ords -> runesOk (rest s) -> ~ In 92 (rest s) -> rest s <> [] -> evalTop lf fuel (rules_of gJson) ords s 2 = Ok (r, s') ->
  (exists vs a, SpellsAll vs (rest s) /\ r = RawOk a /\ List.map erase a = List.map dataOf vs) \/
  ((forall vs, ~ SpellsAll vs (rest s)) /\ exists d e, r = RawNoMatch d e).
Proof.
  intros HO R D NE E. unfold evalTop in E. destruct (evalRaw lf fuel (rules_of gJson) ords s) as [[r0 s0]| |] eqn:X; cbn [bind] in E; [|discriminate..]. apply (raw_out s ords R D NE HO) in X. injection E as <- _.
  destruct X as [(vs & a & SA & -> & EA)|(NO & d & e & ->)]; [left|right; eauto].
  exists vs, (simplify 2 a). split; [exact SA|]. split; [reflexivity|]. pose proof (all_spellable _ _ SA R) as FS. rewrite <- erase_simplify, EA. now apply simplify_values_2.
Qed.
Lemma json_data_value ords v t : legal (rootsOf gJson) ords -> Spells v t -> runesOk t ->
  exists N, forall lf fuel, (length t < lf)%nat -> (N <= fuel)%nat -> exists a s', evalTop lf fuel (rules_of gJson) ords (newStream t) 2 = Ok (RawOk a, s') /\ List.map erase a = [dataOf v].
Proof.
  intros HO S R. assert (NE : t <> []) by exact (spells_some v t S). pose proof (spells_noEsc _ _ S) as D. destruct (json_returns ords (newStream t) 2 HO R D NE) as (N & H). exists N. intros lf fuel L F.
  destruct (H lf fuel L F) as (r & s' & E). destruct (json_data lf fuel ords (newStream t) r s' HO R D NE E) as [(vs & a & SA & -> & EA)|(NO & _)].
  - exists a, s'. split; [exact E|]. rewrite EA. now rewrite (all_once vs t [v] R D SA (all_single _ _ S)).
  - exfalso. exact (NO _ (all_single _ _ S)).
Qed.

(* ---------------- what is lost ---------------- *)

Lemma flat_map_map (A B C : Type) (f : A -> bool) (g : A -> B) (h : B -> C) (k : A -> C) l : (forall x, In x l -> k x = h (g x)) ->
  flat_map (fun x => if f x then [] else [k x]) l = List.map h (flat_map (fun x => if f x then [] else [g x]) l).
Proof. induction l as [|x l IH]; intros H; [reflexivity|]. cbn [flat_map]. rewrite map_app, IH by (intros y Y; apply H; now right). rewrite (H x (or_introl eq_refl)). now destruct (f x). Qed.
Lemma body_trim v : bodyData v = wholeBody (trim v).
Proof.
  induction v as [m i fr|l|b| |l IH|l IH] using json_rect'; try reflexivity; (destruct l as [|v l]; [reflexivity|]); inversion IH as [|? ? H1 IH']; subst; cbn [bodyData trim wholeBody List.map]; rewrite H1; do 2 f_equal.
  - apply (flat_map_map _ _ _ dull trim (fun v => branch TChoice (rs "value") [wholeBody v])). intros x X. rewrite Forall_forall in IH'. now rewrite (IH' x X).
  - apply (flat_map_map _ _ _ dullMember (fun m => (fst m, trim (snd m))) (fun m => branch TConcat (rs "kv") [textTree (fst m); branch TChoice (rs "value") [wholeBody (snd m)]])). intros x X. cbn [fst snd]. rewrite Forall_forall in IH'. now rewrite (IH' x X).
Qed.
Lemma trim_spellable v : spellable v -> spellable (trim v).
Proof.
  induction v as [m i fr|l|b| |l IH|l IH] using json_rect'; intros S; try exact S; (destruct l as [|v l]; [exact S|]); inversion IH as [|? ? H1 IH']; subst; cbn [trim].
  - apply spellable_arr in S. apply spellable_arr. inversion S as [|? ? S1 S']; subst. constructor; [now apply H1|]. apply Forall_forall. intros y Y. apply in_flat_map in Y as (x & X & Y). destruct (dull x); [destruct Y|]. destruct Y as [<-|[]].
    rewrite Forall_forall in IH', S'. apply IH'; [exact X|now apply S'].
  - apply spellable_obj in S. apply spellable_obj. inversion S as [|? ? [K1 S1] S']; subst. constructor; [split; [exact K1|now apply H1]|]. apply Forall_forall. intros y Y. apply in_flat_map in Y as (x & X & Y). destruct (dullMember x); [destruct Y|]. destruct Y as [<-|[]].
    rewrite Forall_forall in IH', S'. destruct (S' x X) as [K SX]. cbn [fst snd]. split; [exact K|now apply IH'].
Qed.
Lemma whole_inj v : forall v', spellable v -> spellable v' -> wholeBody v = wholeBody v' -> v = v'.
Proof.
  assert (KIDS : forall ty n k ty' n' k', branch ty n k = branch ty' n' k' -> n = n' /\ k = k') by (intros ? ? ? ? ? ? [=]; auto).
  assert (TXT : forall l l', textTree l = textTree l' -> l = l') by (intros ? ? [=]; auto).
  induction v as [m i fr|l|b| |l IH|l IH] using json_rect'; intros [m' i' fr'|l'|b'| |l'|l'] S S' E; cbn [wholeBody] in E; unfold litTree in E; try discriminate; try reflexivity.
  - injection E as E. destruct S as [D _], S' as [D' _]. destruct (num_inj m i fr m' i' fr' D D' E) as (-> & -> & ->). reflexivity.
  - f_equal. apply TXT. apply KIDS in E as [_ E]. now apply cons_inj in E.
  - destruct b, b'; [reflexivity|discriminate..|reflexivity].
  - apply KIDS in E as [_ E]. f_equal. apply spellable_arr in S, S'.
    apply (map_inj (fun v => branch TChoice (rs "value") [wholeBody v]) spellable l); [|exact S|exact S'|exact E].
    eapply Forall_impl; [|exact IH]. intros x H y SX SY EQ. apply H; [exact SX|exact SY|]. apply KIDS in EQ as [_ EQ]. now apply cons_inj in EQ.
  - apply KIDS in E as [_ E]. f_equal. apply spellable_obj in S, S'.
    refine (map_inj _ (fun m => Forall (fun c => simple c /\ 0 <= c) (fst m) /\ spellable (snd m)) l _ l' S S' E).
    eapply Forall_impl; [|exact IH]. intros [k x] H [k' y] [_ SX] [_ SY] EQ. cbn [fst snd] in *. apply KIDS in EQ as [_ EQ]. apply cons_inj in EQ as [EK EQ]. apply cons_inj in EQ as [EV _]. apply KIDS in EV as [_ EV]. apply cons_inj in EV as [EV _].
    f_equal; [now apply TXT|now apply H].
Qed.
Theorem data_tells v v' : spellable v -> spellable v' -> (dataOf v = dataOf v' <-> trim v = trim v').
Proof.
  intros S S'. unfold dataOf. rewrite !body_trim. split; [|now intros ->]. intros E. apply whole_inj; [now apply trim_spellable..|]. unfold branch in E. injection E as E. exact E.
Qed.

(* ---------------- what is kept ---------------- *)

Lemma dull_atoms v : dull v = true -> atoms v = [].
Proof.
  induction v as [m i fr|l|b| |l IH|l IH] using json_rect'; cbn [dull atoms]; intros D; try discriminate D.
  - destruct l; [reflexivity|discriminate].
  - rewrite forallb_forall in D. rewrite Forall_forall in IH. induction l as [|v l IHl]; [reflexivity|]. cbn [flat_map]. rewrite (IH v (or_introl eq_refl)) by (apply D; now left). apply IHl; intros x X; [apply IH|apply D]; now right.
  - rewrite forallb_forall in D. rewrite Forall_forall in IH. induction l as [|v l IHl]; [reflexivity|]. cbn [flat_map]. pose proof (D v (or_introl eq_refl)) as DV. destruct (fst v); [|discriminate]. cbn [word app].
    rewrite (IH v (or_introl eq_refl) DV). apply IHl; intros x X; [apply IH|apply D]; now right.
Qed.
Lemma leaves_branch ty name k ks : leaves (branch ty name (k :: ks)) = flat_map leaves (k :: ks).
Proof. reflexivity. Qed.
Lemma later_atoms (A : Type) (f : A -> bool) (k : A -> node) (at_ : A -> list (list Z)) l : (forall x, In x l -> (f x = true -> at_ x = []) /\ leaves (k x) = at_ x) ->
  flat_map leaves (flat_map (fun x => if f x then [] else [k x]) l) = flat_map at_ l.
Proof.
  induction l as [|x l IH]; intros H; [reflexivity|]. cbn [flat_map]. rewrite flat_map_app, IH by (intros y Y; apply H; now right). destruct (H x (or_introl eq_refl)) as [Z0 L]. destruct (f x); [now rewrite Z0|]. cbn [flat_map]. now rewrite L, app_nil_r.
Qed.
Theorem data_atoms v : leaves (dataOf v) = atoms v.
Proof.
  unfold dataOf. rewrite leaves_branch. cbn [flat_map]. rewrite app_nil_r.
  induction v as [m i fr|l|b| |l IH|l IH] using json_rect'; cbn [bodyData atoms]; unfold litTree; try (rewrite leaves_branch; cbn [flat_map]; rewrite app_nil_r; reflexivity); try reflexivity;
    (destruct l as [|v l]; [reflexivity|]); inversion IH as [|? ? H1 IH']; subst; rewrite leaves_branch; cbn [flat_map]; rewrite leaves_branch; cbn [flat_map].
  - rewrite H1, app_nil_r. f_equal. apply later_atoms. intros x X. split; [apply dull_atoms|]. rewrite leaves_branch. cbn [flat_map]. rewrite app_nil_r. rewrite Forall_forall in IH'. now apply IH'.
  - rewrite leaves_branch. cbn [flat_map]. rewrite H1, !app_nil_r. change (leaves (textTree (fst v))) with (word (fst v)). f_equal.
    apply (later_atoms _ dullMember (fun m => branch TConcat (rs "kv") [textTree (fst m); branch TChoice (rs "value") [bodyData (snd m)]]) (fun m => word (fst m) ++ atoms (snd m))). intros x X. split.
    + unfold dullMember. destruct (fst x); [|discriminate]. intros D. cbn [word app]. now apply dull_atoms.
    + rewrite leaves_branch. cbn [flat_map]. rewrite leaves_branch. cbn [flat_map]. rewrite !app_nil_r. change (leaves (textTree (fst x))) with (word (fst x)). f_equal. rewrite Forall_forall in IH'. now apply IH'.
Qed.

(* ---------------- values that are kept as a whole ---------------- *)

Lemma full_bright v : full v = true -> dull v = false.
Proof.
  induction v as [m i fr|l|b| |l IH|l IH] using json_rect'; cbn [full dull]; try reflexivity; (destruct l as [|v l]; [discriminate|]); try reflexivity; inversion IH as [|? ? H1 IH']; subst; cbn [forallb]; intros F; apply andb_true_iff in F as [F _].
  - now rewrite (H1 F).
  - rewrite (H1 F). now destruct (fst v).
Qed.
Lemma keep_all (A : Type) (f : A -> bool) (g : A -> A) l : (forall x, In x l -> f x = false /\ g x = x) -> flat_map (fun x => if f x then [] else [g x]) l = l.
Proof. induction l as [|x l IH]; intros H; [reflexivity|]. cbn [flat_map]. destruct (H x (or_introl eq_refl)) as [-> ->]. rewrite IH by (intros y Y; apply H; now right). reflexivity. Qed.
Lemma full_trim v : full v = true -> trim v = v.
Proof.
  induction v as [m i fr|l|b| |l IH|l IH] using json_rect'; try reflexivity; (destruct l as [|v l]; [reflexivity|]); inversion IH as [|? ? H1 IH']; subst; cbn [full trim forallb]; intros F; apply andb_true_iff in F as [F F']; rewrite forallb_forall in F'; rewrite Forall_forall in IH'; rewrite (H1 F).
  - do 2 f_equal. apply keep_all. intros x X. split; [now apply full_bright, F'|now apply IH', F'].
  - destruct v as [k v]. cbn [fst snd]. do 2 f_equal. apply (keep_all _ dullMember (fun m => (fst m, trim (snd m)))). intros [k' x] X. cbn [fst snd]. pose proof (F' _ X) as FX. cbn [snd] in FX. split.
    + unfold dullMember. cbn [fst snd]. rewrite (full_bright _ FX). now destruct k'.
    + f_equal. exact (IH' _ X FX).
Qed.
Theorem full_data v : full v = true -> dataOf v = wholeOf v.
Proof. intros F. unfold dataOf, wholeOf. now rewrite body_trim, (full_trim v F). Qed.
Lemma json_whole ords v t : legal (rootsOf gJson) ords -> Spells v t -> runesOk t -> full v = true ->
  exists N, forall lf fuel, (length t < lf)%nat -> (N <= fuel)%nat -> exists a s', evalTop lf fuel (rules_of gJson) ords (newStream t) 2 = Ok (RawOk a, s') /\ List.map erase a = [wholeOf v].
Proof. intros HO S R F. rewrite <- (full_data v F). now apply json_data_value. Qed.
