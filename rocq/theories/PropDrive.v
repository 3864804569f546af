(** The shipped property grammar through the drivers: [EvalRule] on the root rule,
    [EvalRaw], and [Eval] with its simplified trees. *)
From Verif Require Import Base Stream StreamFacts CallFacts Node Rule Grammar SpecStream SpecRule TermFacts TermSpec SpecEval SpecEv EvFacts EvDet EvalFuel EvalSem
  SpecTerm WfDec LoopFacts SpecDriver DriverFacts LLMain NodeText SpecLL LLFacts LLDec LLKnown LangFacts EraseFacts JsonLex JsonSafe JsonLang JsonDriver JsonTree RepoSamples SpecArith SpecLines SpecProperty
  ArithLook ArithLines SureFacts PropRules PropLine.
From Verif Require ArithDrive ArithLang ArithRule PlaceFacts GrammarFacts.

Lemma gP_wf : wfRules gP. Proof. apply okRules_ok. vm_compute. reflexivity. Qed.
Lemma look_prop : lookup gP pProp = Some xProp. Proof. reflexivity. Qed.
Lemma prop_roots : wfRoots [(pProp, xProp)]. Proof. apply okRoots_ok. vm_compute. reflexivity. Qed.

Lemma prop_clear f t : mode f -> noEscape t -> clearCut gP xProp f t.
Proof. intros MF NE. destruct (prop_sure f t MF NE) as (o & H & _). exact (sure_clear _ _ _ _ _ H). Qed.
Lemma prop_out f t o : mode f -> noEscape t -> Ev gP xProp f t o -> propOut f t o.
Proof. intros MF NE E. destruct (prop_sure f t MF NE) as (o' & H & P). now rewrite (sure_one _ _ _ _ _ _ H E). Qed.
Lemma prop_total f t : mode f -> noEscape t -> exists o, Ev gP xProp f t o.
Proof. intros MF NE. destruct (prop_sure f t MF NE) as (o & [H _] & _). eauto. Qed.

(* ---------------- the trees, simplified ---------------- *)

Definition runesIn (e : entry) : Prop := match e with Alone k => runesOk k | Pair k _ v => runesOk k /\ runesOk v end.
Definition slimmed (n : node) : node := removeRedundant (removeVirtual (mergeNode n)).
Lemma not_eof s : runesOk s -> isEOFText s = false.
Proof. destruct s as [|c [|]]; try reflexivity. intros R. cbn [isEOFText]. apply Forall_inv in R. apply Z.eqb_neq. unfold EOFChar. lia. Qed.
Ltac passes := cbn [slimmed tree build named vb nb noBase b_name b_virtual b_nondata b_tokenized blockTree openNode contentNode
  mergeNode removeVirtual removeNonData removeRedundant promote1 promote2 splice mergeFold set_chars set_kids set_sticky n_type n_name n_chars n_kids n_pos n_sticky n_virtual n_nondata n_tokenized
  List.map flat_map app rtype_eqb nonempty negb andb text textFold hd last].
Lemma closing_virtual nc : closing nc -> n_virtual (mergeNode nc) = true.
Proof. intros (l & st & ->). destruct l; reflexivity. Qed.
Lemma leaf_slim name s n : leaf name s n -> runesOk s -> slimmed n = nd TConcat name s [].
Proof.
  intros (ns & nc & CN & ->) R. apply not_eof in R. apply closing_virtual in CN. unfold slimmed, blockTree, tree. destruct s as [|c s]; passes; rewrite CN; passes; rewrite ?R; reflexivity.
Qed.
Lemma splice_named l : Forall (fun c => n_name c <> []) l -> splice l = l.
Proof.
  unfold splice. induction 1 as [|c l N F IH]; [reflexivity|]. cbn [flat_map]. rewrite IH. destruct (n_name c) as [|x nm]; [now destruct N|]. cbn [nonempty negb andb]. now rewrite andb_false_r.
Qed.
(** A node over named nodes stays as it is. *)
Lemma slim_over ty nm ms ls : ms <> [] -> List.map removeRedundant ms = ls -> Forall (fun c => n_name c <> []) ls -> removeRedundant (nd ty nm [] ms) = nd ty nm [] ls.
Proof.
  intros NE E F. rewrite removeRedundant_eq. destruct ms as [|m ms]; [now destruct NE|]. change (n_kids (nd ty nm [] (m :: ms))) with (m :: ms). cbv match. rewrite E. change (set_kids (nd ty nm [] (m :: ms)) ls) with (nd ty nm [] ls).
  assert (P1 : promote1 (nd ty nm [] ls) = nd ty nm [] ls).
  { unfold promote1. cbn [nd n_kids]. destruct ls as [|a [|b ls]]; try reflexivity. apply Forall_inv in F. destruct (n_name a) as [|x na]; [now destruct F|reflexivity]. }
  cbv zeta. rewrite P1. change (n_kids (nd ty nm [] ls)) with ls. rewrite (splice_named ls F). change (set_kids (nd ty nm [] ls) ls) with (nd ty nm [] ls). unfold promote2. change (n_kids (nd ty nm [] ls)) with ls.
  destruct ls as [|a [|b ls]]; try reflexivity. apply Forall_inv in F. destruct (n_name a) as [|x na]; [now destruct F|reflexivity].
Qed.
(** A node over one without a name takes its children. *)
Lemma slim_pull ty nm m ty' ls : removeRedundant m = nd ty' [] [] ls -> Forall (fun c => n_name c <> []) ls -> removeRedundant (nd ty nm [] [m]) = nd ty nm [] ls.
Proof.
  intros E F. rewrite removeRedundant_eq. cbn [nd n_kids List.map]. rewrite E. cbv zeta. cbn [promote1 set_kids set_chars nonempty nd n_type n_kids n_name n_chars n_pos n_sticky n_virtual n_nondata n_tokenized]. rewrite (splice_named ls F). change (promote2 (nd ty nm [] ls) = nd ty nm [] ls). unfold promote2. change (n_kids (nd ty nm [] ls)) with ls.
  destruct ls as [|a [|b ls]]; try reflexivity. apply Forall_inv in F. destruct (n_name a) as [|x na]; [now destruct F|reflexivity].
Qed.
Lemma some_name ty nm k l : nm <> [] -> Forall (fun c => n_name c <> []) l -> Forall (fun c => n_name c <> []) (nd ty nm k [] :: l).
Proof. intros N F. constructor; [exact N|exact F]. Qed.
Lemma leaf_flags name s n : leaf name s n -> n_sticky n = false /\ n_virtual (mergeNode n) = false.
Proof. intros (ns & nc & _ & ->). split; reflexivity. Qed.
Lemma alone_pruned y ns : n_sticky y = false -> n_virtual (mergeNode y) = false ->
  removeVirtual (mergeNode (tree TConcat (named pProp) [tree TChoice nb [y] false; tree TRepetition vb ns true] false)) = nd TConcat pProp [] [nd TChoice [] [] [removeVirtual (mergeNode y)]].
Proof. intros SL VL. set (m := removeVirtual (mergeNode y)). unfold tree. passes. rewrite SL. passes. rewrite VL. reflexivity. Qed.
Lemma pair_pruned y z ns : n_sticky y = false -> n_virtual (mergeNode y) = false -> n_sticky z = false -> n_virtual (mergeNode z) = false ->
  removeVirtual (mergeNode (tree TConcat (named pProp) [tree TChoice nb [tree TGroup nb [tree TConcat nb [y; z] false] false] false; tree TRepetition vb ns true] false)) =
  nd TConcat pProp [] [nd TChoice [] [] [nd TGroup [] [] [nd TConcat [] [] [removeVirtual (mergeNode y); removeVirtual (mergeNode z)]]]].
Proof. intros SL VL SL' VL'. unfold tree. passes. rewrite SL, SL'. passes. rewrite VL, VL'. reflexivity. Qed.
Lemma entry_slim e n : entryNode e n -> runesIn e -> slimmed n = entryTree e.
Proof.
  intros (x & ns & TE & ->) R. destruct e as [k|k c v]; cbn [eitherTree runesIn] in *.
  - destruct TE as (y & LF & ->). pose proof (leaf_slim _ _ _ LF R) as LS. destruct (leaf_flags _ _ _ LF) as [SL VL]. unfold slimmed in *. rewrite (alone_pruned y ns SL VL).
    apply (slim_pull _ _ _ TChoice); [|apply some_name; [discriminate|constructor]]. apply slim_over; [discriminate|cbn [List.map]; now rewrite LS|apply some_name; [discriminate|constructor]].
  - destruct R as [R R']. destruct TE as (y & z & LF & LF' & ->). pose proof (leaf_slim _ _ _ LF R) as LS. pose proof (leaf_slim _ _ _ LF' R') as LS'. destruct (leaf_flags _ _ _ LF) as [SL VL]. destruct (leaf_flags _ _ _ LF') as [SL' VL']. unfold slimmed in *.
    rewrite (pair_pruned y z ns SL VL SL' VL'). assert (F : Forall (fun c => n_name c <> []) [nd TConcat (rs "key") k []; nd TConcat (rs "value") v []]) by (apply some_name; [discriminate|]; apply some_name; [discriminate|constructor]).
    apply (slim_pull _ _ _ TChoice); [|exact F]. apply (slim_pull _ _ _ TGroup); [|exact F]. apply (slim_pull _ _ _ TConcat); [|exact F]. apply slim_over; [discriminate| |exact F]. cbn [List.map]. now rewrite LS, LS'.
Qed.
(** Nothing is marked as no data. *)
Fixpoint allData (n : node) : bool := negb (n_nondata n) && forallb allData (n_kids n).
Lemma data_keep n : allData n = true -> removeNonData n = n.
Proof.
  induction n as [n IH] using node_ind'. intros D. destruct n as [ty nm ch ks po st vi no tk]. cbn [allData n_kids] in D. apply andb_true_iff in D as [_ D]. cbn [n_kids] in IH.
  assert (K : flat_map (fun c => if n_nondata c then [] else [removeNonData c]) ks = ks).
  { clear po st vi no tk ty nm ch. induction ks as [|k ks IK]; [reflexivity|]. inversion IH; subst. cbn [forallb] in D. apply andb_true_iff in D as [D1 D2]. cbn [flat_map]. assert (N : n_nondata k = false) by (destruct k as [q1 q2 q3 q4 q5 q6 q7 q8 q9]; cbn [allData n_nondata] in *; apply andb_true_iff in D1 as [D1 _]; now apply negb_true_iff in D1).
    rewrite N. cbn [app]. f_equal; auto. }
  transitivity (set_kids (Node ty nm ch ks po st vi no tk) (flat_map (fun c => if n_nondata c then [] else [removeNonData c]) ks)); [reflexivity|]. now rewrite K.
Qed.
Lemma leaf_data name s n : leaf name s n -> allData (removeVirtual (mergeNode n)) = true.
Proof. intros (ns & nc & CN & ->). apply closing_virtual in CN. unfold blockTree, tree. passes. rewrite CN. passes. reflexivity. Qed.
Lemma simplify_entries level es ns : level = 1 \/ level = 2 -> Forall2 entryNode es ns -> Forall runesIn es -> simplify level ns = List.map entryTree es.
Proof.
  intros LV F R. assert (M : astMerge ns = List.map mergeNode ns).
  { apply loose_kids. intros c IC. clear R. induction F as [|e n es ns EN F IH]; [destruct IC|]. destruct IC as [<-|IC]; [|now apply IH]. destruct EN as (x & l & _ & ->). reflexivity. }
  assert (V : forall e n, entryNode e n -> n_virtual (mergeNode n) = false /\ n_nondata (removeVirtual (mergeNode n)) = false /\ n_nondata (slimmed n) = n_nondata (slimmed n)) by (intros e n (x & l & _ & ->); repeat split; reflexivity).
  assert (A : astRemoveVirtual (astMerge ns) = List.map (fun n => removeVirtual (mergeNode n)) ns).
  { rewrite M. clear R M. induction F as [|e n es ns EN F IH]; [reflexivity|]. cbn [List.map astRemoveVirtual flat_map]. destruct (V _ _ EN) as [-> _]. cbn [app]. f_equal. exact IH. }
  assert (B : astRemoveRedundant (astRemoveVirtual (astMerge ns)) = List.map entryTree es).
  { rewrite A. unfold astRemoveRedundant. rewrite map_map. clear A M. induction F as [|e n es ns EN F IH]; [reflexivity|]. inversion R; subst. cbn [List.map]. destruct (V _ _ EN) as (_ & -> & _). f_equal; [|now apply IH]. now apply entry_slim. }
  unfold simplify. destruct LV as [-> | ->]; [exact B|]. change (2 =? -1) with false. change (2 =? 2) with true. cbv match.
  assert (N : astRemoveNonData (astRemoveVirtual (astMerge ns)) = astRemoveVirtual (astMerge ns)); [|now rewrite N].
  rewrite A. clear A B M R. unfold astRemoveNonData. induction F as [|e n es ns EN F IH]; [reflexivity|]. cbn [List.map flat_map]. destruct (V _ _ EN) as (_ & -> & _). cbn [app]. f_equal; [|exact IH].
  apply data_keep. destruct EN as (x & l & TE & ->). destruct e as [k|k c v]; cbn [eitherTree] in TE.
  - destruct TE as (y & LF & ->). pose proof (leaf_data _ _ _ LF) as D. destruct (leaf_flags _ _ _ LF) as [SL VL]. rewrite (alone_pruned y l SL VL). cbn [allData nd n_nondata n_kids forallb negb andb]. now rewrite D.
  - destruct TE as (y & z & LF & LF' & ->). pose proof (leaf_data _ _ _ LF) as D. destruct (leaf_flags _ _ _ LF) as [SL VL]. pose proof (leaf_data _ _ _ LF') as D'. destruct (leaf_flags _ _ _ LF') as [SL' VL'].
    rewrite (pair_pruned y z l SL VL SL' VL'). cbn [allData nd n_nondata n_kids forallb negb andb]. now rewrite D, D'.
Qed.

(* ---------------- EvalRule ---------------- *)

Lemma entry_runes e t r : Entry e t r -> runesOk t -> runesIn e.
Proof.
  unfold runesOk. intros [? ? ? ? ? (w & -> & _)|? ? ? ? ? ? ? ? (w & -> & _) _ _ (w' & -> & _)] R; cbn [runesIn]; unfold runesOk; apply Forall_app in R as [_ R]; apply Forall_app in R as [R1 R2]; [exact R1|]. inversion R2; subst. split; [exact R1|].
  match goal with H : Forall _ (w' ++ _) |- _ => apply Forall_app in H as [_ H]; now apply Forall_app in H end.
Qed.

Lemma prop_rule fuel sample res : runesOk sample -> noEscape sample -> evalRule fuel gProp pProp sample = Ok res ->
  (exists e r n, Entry e sample r /\ r_node res = Some n /\ bare (slimmed n) = entryTree e /\ (length (r_read res) - length (r_unused res) + length r = length sample)%nat) \/
  (noEntry sample /\ r_node res = None).
Proof.
  intros R D E. unfold evalRule in E. rewrite getRule_rules, gP_is, look_prop in E.
  destruct (eval fuel gP xProp (newStream sample) SK) as [[res' s']| |] eqn:EV; cbn in E; [|discriminate..]. injection E as ->.
  assert (W : wfRule xProp) by (now apply (gP_wf pProp)).
  destruct (refine_sound _ _ _ _ (newStream sample) _ _ gP_wf W R EV (proj1 (prop_clear SK sample (or_introl eq_refl) D fuel))) as (x & EX & SH & _). change (rest (newStream sample)) with sample in *.
  apply (prop_out _ _ _ (or_introl eq_refl) D) in EX. destruct x as [n u k st|k st]; cbn [shows propOut] in *.
  - left. destruct SH as (LE & RD & UN & _ & nd' & EN & ER). destruct EX as (_ & L & _ & _ & e & EE & NN). specialize (EE eq_refl). exists e, (skipn u sample), nd'. split; [exact EE|]. split; [exact EN|]. split.
    + unfold slimmed. rewrite <- ArithRule.bare_erase, <- erase_removeRedundant, <- erase_removeVirtual, <- erase_mergeNode, ER. change (bare (slimmed n) = entryTree e). rewrite (entry_slim e n NN (entry_runes _ _ _ EE R)). destruct e; reflexivity.
    + rewrite RD, UN, !skipn_length, !firstn_length. lia.
  - right. destruct SH as (_ & _ & _ & EN). split; [now apply EX|exact EN].
Qed.
Lemma prop_returns sample : runesOk sample -> noEscape sample -> exists N res, forall fuel, (N <= fuel)%nat -> evalRule fuel gProp pProp sample = Ok res.
Proof.
  intros R D. assert (W : wfRule xProp) by (now apply (gP_wf pProp)). destruct (prop_total SK sample (or_introl eq_refl) D) as (x & E).
  destruct (refine_complete gP xProp SK (newStream sample) x gP_wf W R E) as [(n & U)|(n & res & s' & X & _)].
  - exfalso. exact (proj1 (prop_clear SK sample (or_introl eq_refl) D n) U).
  - exists n, res. intros fuel LE. unfold evalRule. rewrite getRule_rules, gP_is, look_prop. pose proof (ple_ok _ _ _ (eval_mono gP n fuel xProp (newStream sample) SK LE) X) as ->. reflexivity.
Qed.

(* ---------------- EvalRaw and Eval ---------------- *)

Lemma rounds_soft t f t' : noEscape t -> Rounds gP [xProp] SK t f t' -> f = SK /\ noEscape t'.
Proof.
  intros D R. remember SK as f0 eqn:EF. revert D EF. induction R as [f t|f t outs n u st f' t' NE F SL (k & IN) LE R IH]; intros D ->; [auto|].
  inversion F as [|? x ? ? E F']; subst. inversion F'; subst. destruct IN as [->|[]]. apply (prop_out _ _ _ (or_introl eq_refl) D) in E. destruct E as (-> & _).
  apply IH; [now apply escape_skip|reflexivity].
Qed.
Lemma prop_again t : noEscape t -> looksAgain gP [xProp] t.
Proof.
  intros D f t' outs outs' n u k st x R F SL IN LT F' (n' & u' & k' & st' & IN') INx. destruct (rounds_soft _ _ _ D R) as [-> D'].
  inversion F as [|? y ? ? E F1]; subst. inversion F1; subst. destruct IN as [->|[]]. destruct INx as [<-|[]]. apply (prop_out _ _ _ (or_introl eq_refl) D') in E. destruct E as (-> & _ & LK & _).
  inversion F' as [|? y ? ? E' F1']; subst. inversion F1'; subst. destruct IN' as [->|[]]. pose proof (escape_skip u t' D') as D2. apply (prop_out _ _ _ (or_introl eq_refl) D2) in E'. destruct E' as (_ & _ & _ & LK' & _). eexists. split; [now left|]. cbn [looked]. lia.
Qed.

Lemma entry_soft e n : entryNode e n -> n_sticky n = false.
Proof. intros (x & ns & _ & ->). reflexivity. Qed.
Lemma none_empty : noEntry [].
Proof. intros e r H. apply entry_head in H as (t1 & H & _). revert H. apply not_started. intros [X|(w & c & X & _)]; [now apply X|destruct w; discriminate X]. Qed.
Lemma prop_rows : forall L t, (length t < L)%nat -> runesOk t -> noEscape t ->
  exists N es ns r, Entries es t r /\ Forall2 entryNode es ns /\ Forall runesIn es /\
    forall lf fuel nodes, (length t < lf)%nat -> (N <= fuel)%nat -> rawText lf fuel gP [xProp] SK t nodes = Ok (match r with [] => ArithDrive.said nodes ns | _ => VNoMatch end).
Proof.
  induction L as [|L IH]; intros t LT R D; [lia|]. destruct t as [|c0 t0].
  { exists 0%nat, [], [], []. split; [constructor; exact none_empty|]. split; [constructor|]. split; [constructor|]. intros [|lf] fuel nodes LL _; [lia|]. cbn [rawText]. unfold ArithDrive.said. rewrite app_nil_r.
    destruct nodes as [|n nodes]; [reflexivity|]. cbn [rev]. destruct (rev nodes); reflexivity. }
  set (t := c0 :: t0) in *. destruct (prop_total SK t (or_introl eq_refl) D) as (x & ER).
  destruct (ev_complete _ _ _ _ _ ER) as (N1 & HN).
  assert (SEM : forall fuel, (N1 <= fuel)%nat -> semAll fuel gP SK t [xProp] = SOk [asSem x]).
  { intros fuel LE. cbn [semAll]. destruct (prop_clear SK t (or_introl eq_refl) D fuel) as [U A]. destruct (HN fuel LE) as [X|(y & X & Y)]; [contradiction|]. rewrite X. cbn [sbind].
    destruct y as [? ? ? ?|? ?|k]; cbn [noAmb] in Y; subst x; [reflexivity|reflexivity|]. now apply A in X. }
  assert (STEP : forall lf fuel nodes, (N1 <= fuel)%nat -> rawText (S lf) fuel gP [xProp] SK t nodes =
    match pick (hitsOf [asSem x]) with PNone => Ok VNoMatch | POne n u => rawText lf fuel gP [xProp] (if n_sticky n then SUGGEST_NOT_SKIP else SK) (skipn u t) (n :: nodes) | _ => Ok VAmbiguity end).
  { intros lf fuel nodes LE. unfold t. cbn [rawText]. fold t. now rewrite (SEM fuel LE). }
  pose proof (prop_out _ _ _ (or_introl eq_refl) D ER) as PO. destruct x as [n u k s|k s]; cbn [propOut] in PO.
  - destruct PO as (-> & LU & _ & _ & e & EE & NN). specialize (EE eq_refl). assert (R' : runesOk (skipn u t)) by (unfold runesOk; now apply PlaceFacts.Forall_skipn).
    destruct (IH (skipn u t) ltac:(rewrite skipn_length; lia) R' (escape_skip u t D)) as (N2 & es & ns & r & PS & BS & RI & H2). exists (Nat.max N1 N2), (e :: es), (n :: ns), r.
    split; [now apply (et_more e t (skipn u t))|]. split; [now constructor|]. split; [constructor; [exact (entry_runes _ _ _ EE R)|exact RI]|]. intros [|lf] fuel nodes LL LE; [lia|]. rewrite STEP by lia. cbn [asSem hitsOf flat_map app]. rewrite pick_one, (entry_soft _ _ NN).
    rewrite H2 by (try rewrite skipn_length; lia). unfold ArithDrive.said. cbn [rev]. now rewrite <- app_assoc.
  - exists N1, [], [], t. split; [constructor; now apply PO|]. split; [constructor|]. split; [constructor|]. intros [|lf] fuel nodes LL LE; [lia|]. rewrite STEP by lia. reflexivity.
Qed.

Section Run.
Variables (s : stream) (ords : orders) (level : Z).
Hypothesis R : runesOk (rest s).
Hypothesis D : noEscape (rest s).
Hypothesis NE : rest s <> [].
Hypothesis HO : legal (rootsOf gProp) ords.
Hypothesis LV : level = 1 \/ level = 2.

Lemma raw_prop lf fuel : match rawText lf fuel gP [xProp] SK (rest s) [] with
  | OutOfFuel => evalRaw lf fuel gP ords s = OutOfFuel
  | Panic => False
  | Ok x => sameRes x (evalRaw lf fuel gP ords s)
  end.
Proof.
  apply (evalRaw_text gP [(pProp, xProp)] s gP_wf prop_roots R); [| | |exact HO|exact NE].
  - intros x f p [<-|[]] MF n. apply (prop_clear f (skipn p (rest s)) MF (escape_skip p _ D)).
  - left. cbn. lia.
  - now apply prop_again.
Qed.
Lemma prop_eval lf fuel r s' : evalTop lf fuel gP ords s level = Ok (r, s') ->
  exists es t, Entries es (rest s) t /\ ((t = [] /\ exists a, r = RawOk a /\ List.map bare a = List.map entryTree es) \/ (t <> [] /\ exists d e, r = RawNoMatch d e)).
Proof.
  intros EE. unfold evalTop in EE. destruct (evalRaw lf fuel gP ords s) as [[r0 s0]| |] eqn:E; cbn [bind] in EE; [|discriminate..]. injection EE as ER <-.
  pose proof (raw_prop lf fuel) as X. rewrite E in X. destruct (rawText lf fuel gP [xProp] SK (rest s) []) as [x| |] eqn:T; [|destruct X|discriminate]. cbn [sameRes] in X.
  destruct (prop_rows (S (length (rest s))) (rest s) ltac:(lia) R D) as (N & es & ns & t & PS & BS & RI & H). exists es, t. split; [exact PS|].
  pose proof (rawText_mono _ _ _ (Nat.max lf (S (length (rest s)))) _ (Nat.max fuel N) _ _ _ _ (Nat.le_max_l _ _) (Nat.le_max_l _ _) T) as M. rewrite H in M by lia. injection M as <-.
  destruct t as [|c t].
  - left. split; [reflexivity|]. unfold ArithDrive.said in X. cbn [rev app] in X. destruct ns as [|n ns].
    + exfalso. inversion BS; subst. apply NE. inversion PS. reflexivity.
    + destruct r0 as [a| | | |]; try discriminate. exists (simplify level a). split; [now symmetry|]. cbn [verdictOf] in X. injection X as X.
      rewrite (map_ext bare (fun m => bare (erase m))) by (intros m; symmetry; apply ArithRule.bare_erase). rewrite <- (map_map erase bare), <- erase_simplify. rewrite <- X, (simplify_entries level es _ LV BS RI), map_map. apply map_ext. intros [|]; reflexivity.
  - right. split; [discriminate|]. destruct r0; try discriminate. subst r. eauto.
Qed.
Lemma prop_eval_returns : exists N, forall lf fuel, (length (rest s) < lf)%nat -> (N <= fuel)%nat -> exists r s', evalTop lf fuel gP ords s level = Ok (r, s').
Proof.
  destruct (prop_rows (S (length (rest s))) (rest s) ltac:(lia) R D) as (N & ps & ns & t & _ & _ & _ & H). exists N. intros lf fuel L F. pose proof (raw_prop lf fuel) as X.
  rewrite (H lf fuel [] L F) in X. unfold evalTop. destruct (evalRaw lf fuel gP ords s) as [[r s']| |]; cbn in X |- *; try contradiction; eauto.
Qed.
End Run.

(* ---------------- entries as one would write them ---------------- *)

Lemma sep_flush c t : separator c -> flush (c :: t).
Proof. intros [-> | ->]; cbn; intros H; apply GrammarFacts.white_dec in H; discriminate H. Qed.
Lemma flush_app k t : flush k -> k <> [] -> flush (k ++ t).
Proof. destruct k as [|c k]; [congruence|]. intros H _. exact H. Qed.
Lemma written_flush e t : tidy e -> flush (written e ++ t).
Proof.
  destruct e as [k|k c v]; cbn [tidy written].
  - intros (F & N & _). rewrite <- app_assoc. now apply flush_app.
  - intros (F & _ & SC & _). destruct k as [|x k]; [cbn [app]; now apply sep_flush|]. rewrite <- app_assoc. apply flush_app; [exact F|discriminate].
Qed.
Lemma file_flush es : Forall tidy es -> flush (file es).
Proof. intros [|e l T F]; [exact Logic.I|]. cbn [file flat_map]. now apply written_flush. Qed.
Lemma flush_trail t : flush t -> Trail t t.
Proof.
  intros F. exists []. split; [reflexivity|]. split; [constructor|]. split; [now left|]. intros w' c t' -> W B. destruct w' as [|x w'].
  - cbn in F. apply F. destruct B as [-> |[-> | ->]]; apply GrammarFacts.white_dec; reflexivity.
  - cbn in F. apply F. now apply Forall_inv in W.
Qed.
Lemma start_here t : flush t -> t <> [] -> Start t t.
Proof. intros F N. exists []. split; [reflexivity|]. split; [constructor|]. split; [exact F|]. intros ->. congruence. Qed.
Lemma written_entry e t : tidy e -> flush t -> Entry e (written e ++ t) t.
Proof.
  intros T FT. pose proof (written_flush e t T) as FW. assert (NW : written e ++ t <> []) by (destruct e as [[|? ?]|[|? ?] ? ?]; discriminate). destruct e as [k|k c v]; cbn [tidy written] in *.
  - destruct T as (F & N & A). rewrite <- app_assoc in *. apply (en_alone _ k ([10] ++ t) t); [now apply start_here|exact A|constructor|now apply flush_trail].
  - destruct T as (F & A & SC & FV & NV & AV). rewrite <- app_assoc in *. cbn [app] in *. rewrite <- app_assoc in *. apply (en_pair _ k c (v ++ [10] ++ t) v ([10] ++ t) t); [now apply start_here|exact A|exact SC| |exact AV|constructor|now apply flush_trail].
    apply start_here; [now apply flush_app|destruct v; discriminate].
Qed.
Lemma file_entries es : Forall tidy es -> Entries es (file es) [].
Proof.
  induction 1 as [|e es T F IH]; [constructor; exact none_empty|]. cbn [file flat_map]. apply (et_more e _ (file es)); [|exact IH]. apply written_entry; [exact T|now apply file_flush].
Qed.
Lemma prop_file ords level es : legal (rootsOf gProp) ords -> level = 1 \/ level = 2 -> Forall tidy es -> es <> [] -> runesOk (file es) -> noEscape (file es) ->
  exists N, forall lf fuel, (length (file es) < lf)%nat -> (N <= fuel)%nat -> exists a s', evalTop lf fuel (rules_of gProp) ords (newStream (file es)) level = Ok (RawOk a, s') /\ List.map bare a = List.map entryTree es.
Proof.
  intros HO LV T NE R D. assert (NF : rest (newStream (file es)) <> []).
  { change (file es <> []). destruct es as [|e es]; [congruence|]. cbn [file flat_map]. destruct e as [[|? ?]|[|? ?] ? ?]; discriminate. }
  destruct (prop_eval_returns (newStream (file es)) ords level R D NF HO) as (N & H). exists N. intros lf fuel L F. destruct (H lf fuel L F) as (r & s' & E).
  destruct (prop_eval (newStream (file es)) ords level R D NF HO LV lf fuel r s' E) as (es' & z & PS & A). change (rest (newStream (file es))) with (file es) in *.
  destruct (entries_once _ _ _ (file_entries es T) _ _ PS) as [<- <-]. destruct A as [(_ & a & -> & BA)|[A _]]; [|congruence]. exists a, s'. rewrite gP_is. now split.
Qed.
