(** C74: rule names carry no meaning.  C75: marks do not influence matching. *)
From Verif Require Import Base Stream StreamFacts Node Rule Parse Grammar PropsDriver SpecRename RenameFacts.

(* ---------------- C74 ---------------- *)

(** Renaming the rules of a grammar renames the answers and changes nothing else: not
    what is matched, not the positions, not the errors, not the time needed. *)
Theorem C74_eval rho fuel g r s f : renaming rho ->
  eval fuel (imRules rho true g) (imRule rho true r) s f = onOk (fun p => (imRes rho true (fst p), snd p)) (eval fuel g r s f).
Proof. exact (fun H => eval_im rho true H g fuel r s f). Qed.
Print Assumptions C74_eval.
Theorem C74_rule rho fuel g name sample : renaming rho ->
  evalRule fuel (imGrammar rho true g) (rho name) sample = onOk (imRes rho true) (evalRule fuel g name sample).
Proof. exact (fun H => rule_im rho true H fuel g name sample). Qed.
Print Assumptions C74_rule.
Theorem C74_embed rho lf fuel g name sample : renaming rho ->
  evalEmbed lf fuel (imGrammar rho true g) (rho name) sample = option_map (onOk (imNode rho true)) (evalEmbed lf fuel g name sample).
Proof. exact (fun H => embed_im rho true H lf fuel g name sample). Qed.
Print Assumptions C74_embed.
(** Eval at every level; the maps visited in corresponding orders. *)
Theorem C74_top rho lf fuel g o o' s level : renaming rho -> sameOrders rho true o o' ->
  evalTop lf fuel (rules_of (imGrammar rho true g)) o' s level = onOk (fun p => (imRaw rho true (fst p), snd p)) (evalTop lf fuel (rules_of g) o s level).
Proof. intros H SO. rewrite rules_im. exact (evalTop_im rho H lf fuel (rules_of g) o o' s level SO). Qed.
Print Assumptions C74_top.
Theorem C74_stored rho g : sameOrders rho true (storedOrder g) (storedOrder (imGrammar rho true g)).
Proof. exact (stored_im rho true g). Qed.
Print Assumptions C74_stored.

(** Exchanging two names is a renaming. *)
Definition swap (a b n : list Z) : list Z := if runes_eqb n a then b else if runes_eqb n b then a else n.
Lemma swap_ok a b : ~ In a [[]; nameEOF; [95]] -> ~ In b [[]; nameEOF; [95]] -> renaming (swap a b).
Proof.
  intros A B.
  assert (K : forall n, In n [[]; nameEOF; [95]] -> swap a b n = n).
  { intros n I. unfold swap. destruct (runes_eqb n a) eqn:E; [apply runes_eqb_eq in E; subst; contradiction|].
    destruct (runes_eqb n b) eqn:F; [apply runes_eqb_eq in F; subst; contradiction|reflexivity]. }
  assert (I2 : forall n, swap a b (swap a b n) = n).
  { intros n. unfold swap. destruct (runes_eqb n a) eqn:E.
    - apply runes_eqb_eq in E. subst n. destruct (runes_eqb b a) eqn:F; [now apply runes_eqb_eq in F|]. now rewrite runes_eqb_refl.
    - destruct (runes_eqb n b) eqn:F; [apply runes_eqb_eq in F; subst; now rewrite runes_eqb_refl|]. now rewrite E, F. }
  constructor; try (apply K; cbn; auto). intros x y E. rewrite <- (I2 x), <- (I2 y). now rewrite E.
Qed.
Definition c74G : grammar := Eval vm_compute in grammarOf (rs "num = {'0'-'9'}<1>
sum = num { ""+"" num }").
Definition c74G' : grammar := Eval vm_compute in grammarOf (rs "sum = {'0'-'9'}<1>
num = sum { ""+"" sum }").
Example C74_example : imGrammar (swap (rs "num") (rs "sum")) true c74G = c74G' /\
  evalTop 9 20 (rules_of c74G') (storedOrder c74G') (newStream (rs "1 + 23")) 0 =
  onOk (fun p => (imRaw (swap (rs "num") (rs "sum")) true (fst p), snd p)) (evalTop 9 20 (rules_of c74G) (storedOrder c74G) (newStream (rs "1 + 23")) 0) /\
  match evalTop 9 20 (rules_of c74G') (storedOrder c74G') (newStream (rs "1 + 23")) 0 with Ok (RawOk [n], _) => List.map n_name (n :: n_kids n) | _ => [] end = [rs "num"; rs "sum"; []; rs "sum"].
Proof.
  assert (G : imGrammar (swap (rs "num") (rs "sum")) true c74G = c74G') by (vm_compute; reflexivity).
  split; [exact G|]. split; [|vm_compute; reflexivity]. rewrite <- G. apply C74_top; [|apply C74_stored].
  apply swap_ok; intros I; repeat (destruct I as [I|I]; [discriminate|]); exact I.
Qed.
(** It matters that different names stay different: with one name for two rules the
    first one would be taken for both. *)
Theorem C74_injective_refuted : ~ forall rho fuel g r s f, rho [] = [] -> rho nameEOF = nameEOF ->
  eval fuel (imRules rho true g) (imRule rho true r) s f = onOk (fun p => (imRes rho true (fst p), snd p)) (eval fuel g r s f).
Proof.
  intros H. specialize (H (fun n => match n with [] => [] | _ => if runes_eqb n nameEOF then n else [97] end) 9%nat
    [([98], RChar (mkBase [98] false false false) 49 false); ([99], RChar (mkBase [99] false false false) 50 false)] (RRef noBase [99]) (newStream [50]) 0 eq_refl eq_refl).
  revert H. vm_compute. discriminate.
Qed.
Print Assumptions C74_injective_refuted.

(* ---------------- C75 ---------------- *)

(** Two grammars that differ in marks only match the same, with trees and errors that
    differ in marks only. *)
Definition bareRules : rules_t -> rules_t := imRules idName false.
Definition bareRule : rule -> rule := imRule idName false.
Definition bareRes : result -> result := imRes idName false.
Lemma id_renaming : renaming idName.
Proof. constructor; auto. Qed.
Theorem C75_eval fuel g g' r r' s f : bareRules g = bareRules g' -> bareRule r = bareRule r' ->
  onOk (fun p => (bareRes (fst p), snd p)) (eval fuel g r s f) = onOk (fun p => (bareRes (fst p), snd p)) (eval fuel g' r' s f).
Proof.
  intros G R. transitivity (eval fuel (bareRules g) (bareRule r) s f); [symmetry; exact (eval_im idName false id_renaming g fuel r s f)|].
  rewrite G, R. exact (eval_im idName false id_renaming g' fuel r' s f).
Qed.
Print Assumptions C75_eval.
Definition bareGrammar : grammar -> grammar := imGrammar idName false.
Theorem C75_rule fuel g g' name sample : bareGrammar g = bareGrammar g' ->
  onOk bareRes (evalRule fuel g name sample) = onOk bareRes (evalRule fuel g' name sample).
Proof.
  intros G. transitivity (evalRule fuel (bareGrammar g) name sample); [symmetry; exact (rule_im idName false id_renaming fuel g name sample)|].
  rewrite G. exact (rule_im idName false id_renaming fuel g' name sample).
Qed.
Print Assumptions C75_rule.
Theorem C75_embed lf fuel g g' name sample : bareGrammar g = bareGrammar g' ->
  option_map (onOk (imNode idName false)) (evalEmbed lf fuel g name sample) = option_map (onOk (imNode idName false)) (evalEmbed lf fuel g' name sample).
Proof.
  intros G. transitivity (evalEmbed lf fuel (bareGrammar g) name sample); [symmetry; exact (embed_im idName false id_renaming lf fuel g name sample)|].
  rewrite G. exact (embed_im idName false id_renaming lf fuel g' name sample).
Qed.
Print Assumptions C75_embed.
(** EvalRaw; [o0] is the common order seen without marks. *)
Theorem C75_raw lf fuel g g' o o' o0 s : bareRules g = bareRules g' -> sameOrders idName false o o0 -> sameOrders idName false o' o0 ->
  onOk (fun p => (imRaw idName false (fst p), snd p)) (evalRaw lf fuel g o s) = onOk (fun p => (imRaw idName false (fst p), snd p)) (evalRaw lf fuel g' o' s).
Proof.
  intros G O O'. transitivity (evalRaw lf fuel (bareRules g) o0 s); [symmetry; exact (evalRaw_im idName false id_renaming lf fuel g o o0 s O)|].
  rewrite G. exact (evalRaw_im idName false id_renaming lf fuel g' o' o0 s O').
Qed.
Print Assumptions C75_raw.
Theorem C75_stored lf fuel g g' s : bareGrammar g = bareGrammar g' ->
  onOk (fun p => (imRaw idName false (fst p), snd p)) (evalRaw lf fuel (rules_of g) (storedOrder g) s) =
  onOk (fun p => (imRaw idName false (fst p), snd p)) (evalRaw lf fuel (rules_of g') (storedOrder g') s).
Proof.
  intros G. apply (C75_raw lf fuel _ _ _ _ (storedOrder (bareGrammar g))).
  - unfold bareRules. rewrite <- !rules_im. exact (f_equal rules_of G).
  - exact (stored_im idName false g).
  - rewrite G. exact (stored_im idName false g').
Qed.
Print Assumptions C75_stored.
Definition c75G' : grammar := Eval vm_compute in grammarOf (rs "num = {'0'-'9'}<1>
sum = #( num { ~""+"" #num } )").
Definition c75G2 : grammar := Eval vm_compute in grammarOf (rs "num = {'0'-'9'}<1>
sum = ( num { ""+"" num } )").
Example C75_example : bareGrammar c75G' = bareGrammar c75G2 /\
  match evalRule 20 c75G' (rs "sum") (rs "1 +2"), evalRule 20 c75G2 (rs "sum") (rs "1 +2") with Ok r, Ok r' => bareRes r = bareRes r' /\ r <> r' /\ r_read r = rs "1 +2" | _, _ => False end.
Proof. split; [vm_compute; reflexivity|]. vm_compute. split; [reflexivity|]. split; [discriminate|reflexivity]. Qed.
(** This is about matching.  After simplification marks do matter, as they should; but
    even at level 0, which removes nothing that is marked, a non-data mark on a root
    rule keeps its tree from being simplified (ast.go:75-77). *)
Theorem C75_level_refuted : ~ forall lf fuel g g' s, bareGrammar g = bareGrammar g' ->
  onOk (fun p => (imRaw idName false (fst p), snd p)) (evalTop lf fuel (rules_of g) (storedOrder g) s 0) =
  onOk (fun p => (imRaw idName false (fst p), snd p)) (evalTop lf fuel (rules_of g') (storedOrder g') s 0).
Proof. intros H. specialize (H 9%nat 20%nat c75G' c75G2 (newStream (rs "1 +2")) eq_refl). revert H. vm_compute. discriminate. Qed.
Print Assumptions C75_level_refuted.
