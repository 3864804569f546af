(** The tokens of the arithmetic grammar shipped with the repository
    (main/samples/arithmetic): what the textbook semantics says about them. *)
From Verif Require Import Base Stream StreamFacts CallFacts Node Rule Grammar SpecStream SpecRule TermFacts TermSpec SpecEval SpecEv EvDet SpecLL LLFacts LangFacts
  RepoTests RepoSamples JsonLex SpecArith.

(** arithmetic.xbnf:3-23, parsed. *)
Definition gA : rules_t := Eval vm_compute in rules_of gArith.
Definition aDec := Eval vm_compute in rs "digit_dec".
Definition aOct := Eval vm_compute in rs "digit_oct".
Definition aHex := Eval vm_compute in rs "digit_hex".
Definition aBin := Eval vm_compute in rs "digit_bin".
Definition aLow := Eval vm_compute in rs "letter_lowercase".
Definition aUp := Eval vm_compute in rs "letter_uppercase".
Definition aLetter := Eval vm_compute in rs "letter".
Definition aIntDec := Eval vm_compute in rs "integer_dec".
Definition aIntOct := Eval vm_compute in rs "integer_oct".
Definition aIntHex := Eval vm_compute in rs "integer_hex".
Definition aIntBin := Eval vm_compute in rs "integer_bin".
Definition aInteger := Eval vm_compute in rs "integer".
Definition aFloat := Eval vm_compute in rs "float".
Definition aLiteral := Eval vm_compute in rs "literal".
Definition aVar := Eval vm_compute in rs "variable".
Definition aFactor := Eval vm_compute in rs "factor".
Definition aFop := Eval vm_compute in rs "factor_operator".
Definition aTerm := Eval vm_compute in rs "term".
Definition aTop := Eval vm_compute in rs "term_operator".
Definition aExpr := Eval vm_compute in rs "expr".
Definition aExprs := Eval vm_compute in rs "exprs".

Definition range (b : rbase) (lo hi : Z) : rule := RRange b lo false hi false.
Definition many (r : rule) : rule := RRep nb r 0 0.
Definition xHex : rule := RChoice (named aHex) [[range nb 48 57; range nb 65 70; range nb 97 102]].
Definition xLetter : rule := RChoice (named aLetter) [[ref aLow; ref aUp]].
Definition xMinus : rule := ROption nb (RChar nb 45 false).
Definition xIntDec : rule := RConcat (named aIntDec) [xMinus; ref aDec; many (ref aDec)].
Definition xBased (name : list Z) (c : Z) (d : list Z) : rule := RConcat (named name) [RChars nb [48; c]; ref d; many (ref d)].
Definition xInteger : rule := RChoice (named aInteger) [[ref aIntDec; ref aIntOct; ref aIntHex; ref aIntBin]].
Definition xFloat : rule := RConcat (named aFloat) [xMinus; many (ref aDec); RChar nb 46 false; ref aDec; many (ref aDec)].
Definition xLiteral : rule := RChoice (named aLiteral) [[ref aInteger; ref aFloat]].
Definition xNameRune : rule := RChoice nb [[ref aLetter; ref aDec; RChar nb 95 false]].
Definition xVar : rule := RConcat (named aVar) [ref aLetter; many xNameRune].
Definition xParen : rule := RGroup nb (RConcat nb [RString nb [40]; ref aExpr; RString nb [41]]).
Definition xFactor : rule := RChoice (named aFactor) [[ref aLiteral; ref aVar; xParen]].
Definition xOp (name : list Z) (a b : Z) : rule := RGroup (named name) (RChoice nb [[RString nb [a]; RString nb [b]]]).
Definition xChain (name op arg : list Z) : rule := RConcat (named name) [ref arg; many (RConcat nb [ref op; ref arg])].
Definition xExprs : rule := RConcat (named aExprs) [ref aExpr;
  many (RConcat nb [RRep nb (RChoice nb [[RString nb [10]; RString nb [13]]]) 1 0; ref aExpr])].

Lemma look_dec : lookup gA aDec = Some (range (named aDec) 48 57). Proof. reflexivity. Qed.
Lemma look_oct : lookup gA aOct = Some (range (named aOct) 48 55). Proof. reflexivity. Qed.
Lemma look_bin : lookup gA aBin = Some (range (named aBin) 48 49). Proof. reflexivity. Qed.
Lemma look_low : lookup gA aLow = Some (range (named aLow) 97 122). Proof. reflexivity. Qed.
Lemma look_up : lookup gA aUp = Some (range (named aUp) 65 90). Proof. reflexivity. Qed.
Lemma look_hex : lookup gA aHex = Some xHex. Proof. reflexivity. Qed.
Lemma look_letter : lookup gA aLetter = Some xLetter. Proof. reflexivity. Qed.
Lemma look_intDec : lookup gA aIntDec = Some xIntDec. Proof. reflexivity. Qed.
Lemma look_intOct : lookup gA aIntOct = Some (xBased aIntOct 111 aOct). Proof. reflexivity. Qed.
Lemma look_intHex : lookup gA aIntHex = Some (xBased aIntHex 120 aHex). Proof. reflexivity. Qed.
Lemma look_intBin : lookup gA aIntBin = Some (xBased aIntBin 98 aBin). Proof. reflexivity. Qed.
Lemma look_int : lookup gA aInteger = Some xInteger. Proof. reflexivity. Qed.
Lemma look_flt : lookup gA aFloat = Some xFloat. Proof. reflexivity. Qed.
Lemma look_lit : lookup gA aLiteral = Some xLiteral. Proof. reflexivity. Qed.
Lemma look_var : lookup gA aVar = Some xVar. Proof. reflexivity. Qed.
Lemma look_factor : lookup gA aFactor = Some xFactor. Proof. reflexivity. Qed.
Lemma look_fop : lookup gA aFop = Some (xOp aFop 42 47). Proof. reflexivity. Qed.
Lemma look_top : lookup gA aTop = Some (xOp aTop 43 45). Proof. reflexivity. Qed.
Lemma look_term : lookup gA aTerm = Some (xChain aTerm aFop aFactor). Proof. reflexivity. Qed.
Lemma look_expr : lookup gA aExpr = Some (xChain aExpr aTop aTerm). Proof. reflexivity. Qed.
Lemma look_exprs : lookup gA aExprs = Some xExprs. Proof. reflexivity. Qed.
Definition gA_names : list (list Z) := Eval vm_compute in List.map fst gA.
Lemma gA_is : rules_of gArith = gA. Proof. reflexivity. Qed.
Lemma roots_arith : rootsOf gArith = [(aExprs, xExprs)]. Proof. reflexivity. Qed.

Notation NS := SUGGEST_NOT_SKIP.
Notation SK := SUGGEST_SKIP.

(* ---------------- rules for a single rune ---------------- *)

Definition oOut (p : Z -> bool) (dn : Z -> node) (l : list Z) : ores :=
  match l with d :: _ => if p d then OMatch (dn d) 1 1 true else OFail 0 true | [] => OFail 0 true end.
Definition one (r : rule) (p : Z -> bool) (dn : Z -> node) : Prop :=
  forall f t, plainSpace t -> Ev gA r f t (shift (sp f t) (oOut p dn (skipn (sp f t) t))).

Definition within (lo hi : Z) (c : Z) : bool := (lo <=? c) && (c <=? hi).
Definition runeNode (b : rbase) (c : Z) : node := build TChars b [c] [] None true.
Lemma one_range b lo hi : 32 < lo -> one (range b lo hi) (within lo hi) (runeNode b).
Proof.
  intros H f t P. eapply ev_eq'; [apply ev_range|]. unfold trange. destruct t as [|x t0]; [rewrite sp_nil; reflexivity|]. set (t := x :: t0) in *.
  set (w := if f =? SK then ws_prefix t else []).
  assert (W : sp f t = length w) by (unfold sp, w, lead; now destruct (f =? SK)).
  rewrite find_idxp_none.
  2:{ intros c C. apply andb_false_iff. left. apply Z.leb_gt. unfold plainSpace in P. rewrite Forall_forall in P.
      assert (c <= 32); [|lia]. unfold w in C. destruct (f =? SK); [|destruct C]. apply P.
      - rewrite (ws_prefix_app t). apply in_or_app. now left.
      - pose proof (ws_prefix_white t) as X. unfold white in X. rewrite Forall_forall in X. now apply X. }
  rewrite W. unfold oOut, within. destruct (skipn (length w) t) as [|c l]; [cbn; f_equal; lia|].
  destruct ((lo <=? c) && (c <=? hi)); cbn [tfail ofTerm shift]; [|f_equal; lia].
  rewrite app_length. cbn [length]. unfold runeNode. f_equal; lia.
Qed.
Lemma one_ref n r p dn : lookup gA n = Some r -> (forall d, flip nb (dn d) = dn d) -> one r p dn -> one (ref n) p dn.
Proof.
  intros L F H f t P. specialize (H f t P). unfold oOut in *. destruct (skipn (sp f t) t) as [|d l]; [eapply ev_ref_fail; eassumption|].
  destruct (p d); cbn [shift] in *; [|eapply ev_ref_fail; eassumption]. rewrite <- (F d). eapply ev_ref; eassumption.
Qed.
Lemma one_char b c : isWS c = false -> one (RChar b c false) (fun x => x =? c) (charNode b).
Proof.
  intros W f t P. eapply ev_eq'; [now apply char_ev|]. unfold chOut, oOut. destruct (skipn (sp f t) t) as [|d l]; [reflexivity|]. cbn [headIs].
  destruct (Z.eqb_spec d c) as [->|]; reflexivity.
Qed.

(** A choice between such rules that exclude each other. *)
Definition alt : Type := (rule * (Z -> bool) * (Z -> node))%type.
Definition ruleOf (x : alt) : rule := fst (fst x).
Definition isOne (x : alt) : Prop := one (ruleOf x) (snd (fst x)) (snd x).
Fixpoint which (alts : list alt) (d : Z) : option node :=
  match alts with [] => None | x :: alts' => if snd (fst x) d then Some (snd x d) else which alts' d end.
Definition exclusive (alts : list alt) : Prop := ForallOrdPairs (fun x y : alt => forall d, snd (fst x) d = true -> snd (fst y) d = false) alts.
Lemma alts_none f t l : plainSpace t -> skipn (sp f t) t = l -> forall alts m, Forall isOne alts ->
  (match l with d :: _ => which alts d = None | [] => True end) -> (sp f t <= m)%nat ->
  EvAlts gA (List.map ruleOf alts) f t m true [] m true.
Proof.
  intros P E. induction alts as [|x alts IH]; intros m H N LE; [apply ea_nil|]. inversion H as [|? ? H1 H2]; subst. cbn [List.map].
  specialize (H1 f t P). unfold oOut in H1.
  assert (F : Ev gA (ruleOf x) f t (OFail (sp f t + 0) true) /\ match skipn (sp f t) t with d :: _ => which alts d = None | [] => True end).
  { destruct (skipn (sp f t) t) as [|d l']; [now split|]. cbn [which] in N. destruct (snd (fst x) d); [discriminate|]. now split. }
  destruct F as [F1 F2]. eapply ea_fail; [exact F1|]. cbn [andb]. replace (Nat.max m (sp f t + 0)) with m by lia. now apply IH.
Qed.
Lemma alts_first f t l alts : plainSpace t -> skipn (sp f t) t = l -> Forall isOne alts ->
  (match l with d :: _ => which alts d = None | [] => True end) -> alts <> [] ->
  EvAlts gA (List.map ruleOf alts) f t 0 true [] (sp f t) true.
Proof.
  intros P E H N NE. destruct alts as [|x alts]; [congruence|]. inversion H as [|? ? H1 H2]; subst. cbn [List.map].
  specialize (H1 f t P). unfold oOut in H1.
  assert (F : Ev gA (ruleOf x) f t (OFail (sp f t + 0) true) /\ match skipn (sp f t) t with d :: _ => which alts d = None | [] => True end).
  { destruct (skipn (sp f t) t) as [|d l']; [now split|]. cbn [which] in N. destruct (snd (fst x) d); [discriminate|]. now split. }
  destruct F as [F1 F2]. eapply ea_fail; [exact F1|]. cbn [andb]. replace (Nat.max 0 (sp f t + 0)) with (sp f t) by lia. now apply (alts_none f t _ P eq_refl).
Qed.
Lemma which_none (x : alt) alts d : Forall (fun y : alt => forall e, snd (fst x) e = true -> snd (fst y) e = false) alts -> snd (fst x) d = true -> which alts d = None.
Proof. induction 1 as [|y alts H _ IH]; intros D; [reflexivity|]. cbn [which]. rewrite (H d D). now apply IH. Qed.
Lemma alts_hit f t d l n : plainSpace t -> skipn (sp f t) t = d :: l -> forall alts m, Forall isOne alts -> exclusive alts -> which alts d = Some n ->
  (m <= sp f t + 1)%nat -> EvAlts gA (List.map ruleOf alts) f t m true [(n, sp f t + 1)%nat] (sp f t + 1) true.
Proof.
  intros P E. induction alts as [|x alts IH]; intros m H X N LE; [discriminate|]. inversion H as [|? ? H1 H2]; subst. inversion X as [|? ? X1 X2]; subst. cbn [List.map].
  specialize (H1 f t P). unfold oOut in H1. rewrite E in H1. cbn [which] in N. destruct (snd (fst x) d) eqn:D; cbn [shift] in H1.
  - injection N as <-. eapply ea_match; [exact H1|]. cbn [andb]. replace (Nat.max m (sp f t + 1)) with (sp f t + 1)%nat by lia.
    apply (alts_none f t (d :: l) P E alts); [exact H2| |lia]. now apply (which_none x).
  - eapply ea_fail; [exact H1|]. cbn [andb]. apply IH; [assumption..|lia].
Qed.
Definition someOf (alts : list alt) (d : Z) : bool := match which alts d with Some _ => true | None => false end.
Definition choiceNode (b : rbase) (alts : list alt) (d : Z) : node := tree TChoice b [match which alts d with Some n => n | None => nd TEOF [] [] [] end] true.
Lemma one_choice b alts : Forall isOne alts -> exclusive alts -> alts <> [] ->
  one (RChoice b [List.map ruleOf alts]) (someOf alts) (choiceNode b alts).
Proof.
  intros H X NE f t P. apply ev_choice. unfold oOut, someOf, choiceNode.
  assert (F : (match skipn (sp f t) t with d :: _ => which alts d = None | [] => True end) ->
    EvChoice gA b [List.map ruleOf alts] f t 0 true (shift (sp f t) (OFail 0 true))).
  { intros N. cbn [shift]. rewrite Nat.add_0_r. eapply ec_next; [|apply ec_none]. now apply (alts_first f t _ alts P eq_refl). }
  destruct (skipn (sp f t) t) as [|d l] eqn:E; [now apply F|]. destruct (which alts d) as [n|] eqn:W; [|now apply F].
  cbn [shift]. pose proof (alts_hit f t d l n P E alts 0%nat H X W ltac:(lia)) as A. apply (ec_pick gA b _ [] f t 0 true _ _ _ n (sp f t + 1)%nat A).
  exists [], []. split; [reflexivity|constructor].
Qed.

Lemma flip_nb n : flip nb n = n. Proof. now destruct n as [? ? ? ? ? ? [] [] []]. Qed.
Definition isDec := within 48 57.
Definition decNode := runeNode (named aDec).
Lemma one_dec : one (ref aDec) isDec decNode.
Proof. apply (one_ref _ _ _ _ look_dec); [intros; apply flip_nb|]. apply one_range. lia. Qed.
Lemma one_oct : one (ref aOct) (within 48 55) (runeNode (named aOct)).
Proof. apply (one_ref _ _ _ _ look_oct); [intros; apply flip_nb|]. apply one_range. lia. Qed.
Lemma one_bin : one (ref aBin) (within 48 49) (runeNode (named aBin)).
Proof. apply (one_ref _ _ _ _ look_bin); [intros; apply flip_nb|]. apply one_range. lia. Qed.
Ltac exclude := repeat (constructor; [repeat (constructor; [cbn [fst snd]; unfold within; intros d D; rewrite ?andb_true_iff, ?Z.leb_le, ?Z.eqb_eq in D; rewrite ?andb_false_iff, ?Z.leb_gt, ?Z.eqb_neq; lia|]); constructor|]); constructor.
Definition hexAlts : list alt := [(range nb 48 57, within 48 57, runeNode nb); (range nb 65 70, within 65 70, runeNode nb); (range nb 97 102, within 97 102, runeNode nb)].
Definition isHex : Z -> bool := someOf hexAlts.
Definition hexNode : Z -> node := choiceNode (named aHex) hexAlts.
Lemma one_hex : one (ref aHex) isHex hexNode.
Proof.
  apply (one_ref _ _ _ _ look_hex); [intros; apply flip_nb|]. apply (one_choice (named aHex) hexAlts); [|unfold exclusive, hexAlts; exclude|discriminate].
  repeat (constructor; [apply one_range; lia|]). constructor.
Qed.
Definition letterAlts : list alt := [(ref aLow, within 97 122, runeNode (named aLow)); (ref aUp, within 65 90, runeNode (named aUp))].
Definition isLetter : Z -> bool := someOf letterAlts.
Definition letterNode : Z -> node := choiceNode (named aLetter) letterAlts.
Lemma one_letter : one (ref aLetter) isLetter letterNode.
Proof.
  apply (one_ref _ _ _ _ look_letter); [intros; apply flip_nb|]. apply (one_choice (named aLetter) letterAlts); [|unfold exclusive, letterAlts; exclude|discriminate].
  constructor; [apply (one_ref _ _ _ _ look_low); [intros; apply flip_nb|apply one_range; lia]|].
  constructor; [apply (one_ref _ _ _ _ look_up); [intros; apply flip_nb|apply one_range; lia]|]. constructor.
Qed.
Lemma isLetter_iff c : isLetter c = true <-> letter c.
Proof.
  unfold isLetter, someOf, letterAlts, letter. cbn [which fst snd]. unfold within. destruct (andb (97 <=? c) _) eqn:A; [|destruct (andb (65 <=? c) _) eqn:B].
  all: rewrite ?andb_true_iff, ?andb_false_iff, ?Z.leb_le, ?Z.leb_gt in *; intuition (discriminate || lia).
Qed.
Definition nameAlts : list alt := [(ref aLetter, isLetter, letterNode); (ref aDec, isDec, decNode); (RChar nb 95 false, fun x => x =? 95, charNode nb)].
Definition isName : Z -> bool := someOf nameAlts.
Definition nameNode : Z -> node := choiceNode nb nameAlts.
Lemma one_name : one xNameRune isName nameNode.
Proof.
  apply (one_choice nb nameAlts); [|unfold exclusive, nameAlts|discriminate].
  - constructor; [exact one_letter|]. constructor; [exact one_dec|]. constructor; [now apply one_char|]. constructor.
  - constructor; [|constructor; [|constructor; [|constructor]]].
    + constructor; [|constructor; [|constructor]]; cbn [fst snd]; intros d D; apply isLetter_iff in D; unfold letter in D; [unfold isDec, within|]; rewrite ?andb_false_iff, ?Z.leb_gt, ?Z.eqb_neq; lia.
    + constructor; [|constructor]. cbn [fst snd]. intros d D. unfold isDec, within in D. rewrite andb_true_iff, !Z.leb_le in D. apply Z.eqb_neq. lia.
    + constructor.
Qed.

(* ---------------- repeating them ---------------- *)

(** The runes a repetition takes and how far it gets; white space in front of each is
    skipped if that is the mode of the repetition. *)
Fixpoint loose (p : Z -> bool) (f : Z) (n : nat) (t : list Z) : list Z * nat :=
  match n with
  | O => ([], 0%nat)
  | S n' => match skipn (sp f t) t with
            | d :: l => if p d then (d :: fst (loose p f n' l), S (sp f t) + snd (loose p f n' l))%nat else ([], 0%nat)
            | [] => ([], 0%nat)
            end
  end.
Definition taken p f t := fst (loose p f (length t) t).
Definition gone p f t := snd (loose p f (length t) t).
Lemma loose_le p f n : forall t, (snd (loose p f n t) <= length t)%nat.
Proof.
  induction n as [|n IH]; intros t; cbn [loose snd]; [lia|]. destruct (skipn (sp f t) t) as [|d l] eqn:E; cbn [snd]; [lia|]. destruct (p d); cbn [snd]; [|lia].
  specialize (IH l). pose proof (skipn_length (sp f t) t) as X. rewrite E in X. cbn [length] in X. lia.
Qed.
Lemma loose_more p f n : forall t n', (length t <= n)%nat -> (length t <= n')%nat -> loose p f n t = loose p f n' t.
Proof.
  induction n as [|n IH]; intros t n' A B.
  - destruct t; [|cbn in A; lia]. destruct n'; [reflexivity|]. cbn [loose]. rewrite sp_nil. reflexivity.
  - destruct n' as [|n']; [destruct t; [|cbn in B; lia]; cbn [loose]; rewrite sp_nil; reflexivity|]. cbn [loose].
    pose proof (skipn_length (sp f t) t) as X. destruct (skipn (sp f t) t) as [|d l]; [reflexivity|]. cbn [length] in X.
    rewrite (IH l n'); [reflexivity|lia..].
Qed.
Lemma loose_step p f t d l : skipn (sp f t) t = d :: l -> p d = true -> taken p f t = d :: taken p f l /\ gone p f t = (S (sp f t) + gone p f l)%nat.
Proof.
  intros E D. unfold taken, gone. pose proof (skipn_length (sp f t) t) as X. rewrite E in X. cbn [length] in X.
  destruct (length t) as [|n] eqn:L; [lia|]. cbn [loose]. rewrite E, D. cbn [fst snd]. rewrite (loose_more p f n l (length l)) by lia. auto.
Qed.
Lemma loose_stop p f t : (match skipn (sp f t) t with d :: _ => p d = false | [] => True end) -> taken p f t = [] /\ gone p f t = 0%nat.
Proof.
  intros H. unfold taken, gone. destruct (length t); [now split|]. cbn [loose]. destruct (skipn (sp f t) t) as [|d l]; [now split|]. rewrite H. now split.
Qed.

Definition manyNode (dn : Z -> node) (ds : list Z) : node := tree TRepetition nb (List.map dn ds) true.
Lemma many_rep r p dn f t : one r p dn -> plainSpace t -> forall n q m kids, length (skipn q t) = n -> (q <= m)%nat ->
  let l := skipn q t in let e := (q + gone p f l)%nat in
  exists m', EvRep gA nb r 0 0 f t q m true kids (OMatch (tree TRepetition nb (kids ++ List.map dn (taken p f l)) true) e m' true) /\
    m' = Nat.max m (e + sp f (skipn e t)).
Proof.
  intros O P. induction n as [n IH] using lt_wf_ind. intros q m kids L LE l e. pose proof (plain_skipn q t P) as PL. fold l in PL, L. specialize (O f l PL).
  unfold oOut in O. destruct (match skipn (sp f l) l with d :: _ => p d | [] => false end) eqn:D.
  - destruct (skipn (sp f l) l) as [|d l'] eqn:E; [discriminate|]. rewrite D in O. cbn [shift] in O.
    destruct (loose_step p f l d l' E D) as [T G]. unfold e. rewrite T, G. cbn [List.map].
    assert (E' : skipn (q + (sp f l + 1)) t = l') by (rewrite <- skipn_plus; fold l; rewrite <- skipn_plus, E; reflexivity).
    pose proof (skipn_length (sp f l) l) as X. rewrite E in X. cbn [length] in X.
    destruct (IH (length l') ltac:(lia) (q + (sp f l + 1))%nat (Nat.max m (q + (sp f l + 1))) (kids ++ [dn d])) as (m' & R & M); [now rewrite E'|lia|].
    rewrite E' in R, M. exists m'. split.
    + eapply er_step; [fold l; destruct l; [rewrite skipn_nil in E; discriminate|discriminate]|fold l; exact O|lia|]. cbn [andb].
      rewrite <- app_assoc in R. replace (q + (S (sp f l) + gone p f l'))%nat with (q + (sp f l + 1) + gone p f l')%nat by lia. exact R.
    + rewrite M. replace (q + (S (sp f l) + gone p f l'))%nat with (q + (sp f l + 1) + gone p f l')%nat by lia. lia.
  - assert (ST : match skipn (sp f l) l with d :: _ => p d = false | [] => True end) by (destruct (skipn (sp f l) l); [exact I|exact D]).
    destruct (loose_stop p f l ST) as [T G]. unfold e. rewrite T, G. cbn [List.map]. rewrite app_nil_r, Nat.add_0_r. fold l. exists (Nat.max m (q + sp f l)). split; [|reflexivity].
    assert (F : Ev gA r f l (OFail (sp f l + 0) true)) by (destruct (skipn (sp f l) l) as [|d l']; [exact O|rewrite D in O; exact O]).
    destruct l as [|c l0] eqn:EL.
    + apply er_end; [exact EL|]. rewrite sp_nil. replace (Nat.max m (q + 0)) with m by lia. apply ee_ok. lia.
    + eapply er_stop; [fold l; rewrite EL; discriminate|fold l; rewrite EL; exact F|]. cbn [andb]. rewrite Nat.add_0_r. apply ee_ok. lia.
Qed.
Lemma many_ev r p dn f t : one r p dn -> plainSpace t ->
  Ev gA (many r) f t (OMatch (manyNode dn (taken p f t)) (gone p f t) (gone p f t + sp f (skipn (gone p f t) t)) true).
Proof.
  intros O P. destruct (many_rep r p dn f t O P (length t) 0 0 [] eq_refl ltac:(lia)) as (m & R & M). cbn [skipn Nat.add app] in R, M. apply ev_rep. rewrite M in R. exact R.
Qed.

(** Without skipping: the runes in front. *)
Fixpoint runP (p : Z -> bool) (l : list Z) : list Z := match l with c :: l' => if p c then c :: runP p l' else [] | [] => [] end.
Lemma tight p f t : (f =? SK) = false -> taken p f t = runP p t /\ gone p f t = length (runP p t).
Proof.
  intros F. induction t as [|c t IH]; [now split|]. assert (S0 : sp f (c :: t) = 0%nat) by (unfold sp; now rewrite F). cbn [runP]. destruct (p c) eqn:D.
  - destruct (loose_step p f (c :: t) c t) as [A B]; [rewrite S0; reflexivity|exact D|]. rewrite A, B, S0. destruct IH as [-> ->]. now split.
  - apply loose_stop. rewrite S0. exact D.
Qed.
Lemma many_tight r p dn t : one r p dn -> plainSpace t -> Ev gA (many r) NS t (OMatch (manyNode dn (runP p t)) (length (runP p t)) (length (runP p t)) true).
Proof.
  intros O P. pose proof (many_ev r p dn NS t O P) as H. destruct (tight p NS t eq_refl) as [A B]. rewrite A, B, sp_not, Nat.add_0_r in H. exact H.
Qed.
Lemma runP_split p l : l = runP p l ++ skipn (length (runP p l)) l.
Proof. induction l as [|c l IH]; [reflexivity|]. cbn [runP]. destruct (p c); [|reflexivity]. cbn [app length skipn]. now f_equal. Qed.
Lemma runP_stop p l : match skipn (length (runP p l)) l with d :: _ => p d = false | [] => True end.
Proof. induction l as [|c l IH]; [exact I|]. cbn [runP]. destruct (p c) eqn:E; [exact IH|exact E]. Qed.
Lemma runP_all p l : Forall (fun c => p c = true) (runP p l).
Proof. induction l as [|c l IH]; [constructor|]. cbn [runP]. destruct (p c) eqn:E; [now constructor|constructor]. Qed.
Lemma runP_len p l : (length (runP p l) <= length l)%nat.
Proof. rewrite (runP_split p l) at 2. rewrite app_length. lia. Qed.

(** One and then more. *)
Definition someRun (r : rule) : list rule := [r; many r].
Definition runNodes (dn : Z -> node) (ds : list Z) : list node := match ds with d :: ds' => [dn d; manyNode dn ds'] | [] => [] end.
Definition leads (dn : Z -> node) : Prop := forall f d, nextMode f (dn d) true = NS.
Definition runOut (p : Z -> bool) (dn : Z -> node) (b : rbase) (kids : list node) (l : list Z) : ores :=
  match runP p l with [] => OFail 0 true | ds => OMatch (tree TConcat b (kids ++ runNodes dn ds) true) (length ds) (length ds) true end.
Lemma some_seq r p dn b f t q m kids : one r p dn -> leads dn -> plainSpace t -> (q <= m <= q + sp f (skipn q t))%nat ->
  EvSeq gA b (someRun r) f t q m true kids (shift (q + sp f (skipn q t)) (runOut p dn b kids (skipn (sp f (skipn q t)) (skipn q t)))).
Proof.
  intros O LD P LE. pose proof (O f (skipn q t) (plain_skipn q t P)) as E. unfold someRun, runOut. set (l := skipn (sp f (skipn q t)) (skipn q t)) in *. set (s := (q + sp f (skipn q t))%nat).
  assert (F : Ev gA r f (skipn q t) (OFail (sp f (skipn q t) + 0) true) -> EvSeq gA b [r; many r] f t q m true kids (OFail (s + 0) true)).
  { intros X. eapply evseq_eq; [eapply es_fail; exact X|]. cbn [andb]. unfold s. f_equal; lia. }
  destruct l as [|d l'] eqn:L; cbn [oOut runP] in *; [now apply F|]. destruct (p d); cbn [shift] in E; [|now apply F]. clear F.
  assert (E' : skipn (q + (sp f (skipn q t) + 1)) t = l') by (rewrite <- skipn_plus, <- skipn_plus; unfold l in L; rewrite L; reflexivity).
  eapply es_step; [exact E|]. rewrite LD. cbn [andb]. eapply es_step.
  { rewrite E'. apply (many_tight r p dn); [exact O|]. rewrite <- E'. now apply plain_skipn. }
  cbn [andb]. eapply evseq_eq; [apply es_done|]. cbn [shift length runNodes]. rewrite <- app_assoc. cbn [app]. unfold s. f_equal; lia.
Qed.

Lemma leads_dec : leads decNode. Proof. intros f d. reflexivity. Qed.
Lemma leads_oct : leads (runeNode (named aOct)). Proof. intros f d. reflexivity. Qed.
Lemma leads_bin : leads (runeNode (named aBin)). Proof. intros f d. reflexivity. Qed.
Lemma leads_hex : leads hexNode. Proof. intros f d. reflexivity. Qed.
Lemma leads_letter : leads letterNode. Proof. intros f d. reflexivity. Qed.

(* ---------------- whole numbers ---------------- *)

Definition minusNode (m : bool) : node := tree TOption nb (if m then [charNode nb 45] else []) true.
Lemma minus_ev f t : Ev gA xMinus f t (if headIs 45 (skipn (sp f t) t) then OMatch (minusNode true) (sp f t + 1) (sp f t + 1) true else OMatch (minusNode false) 0 (sp f t) true).
Proof.
  pose proof (char_ev gA nb 45 false f t eq_refl) as C. unfold chOut in C. destruct (headIs 45 (skipn (sp f t) t)); cbn [shift] in C.
  - eapply ev_option. exact C.
  - rewrite Nat.add_0_r in C. eapply ev_option_none. exact C.
Qed.
Definition decOut (l : list Z) : ores :=
  if headIs 45 l then shift 1 (runOut isDec decNode (named aIntDec) [minusNode true] (tl l)) else runOut isDec decNode (named aIntDec) [minusNode false] l.
Lemma ref_any n r f t o : lookup gA n = Some r -> Ev gA r f t o -> Ev gA (ref n) f t o.
Proof. intros L E. destruct o as [x u k st|k st]; [rewrite <- (flip_nb x); eapply ev_ref; eassumption|eapply ev_ref_fail; eassumption]. Qed.
Lemma head_tail c t q : headIs c (skipn q t) = true -> skipn q t = c :: skipn (q + 1) t.
Proof. rewrite <- skipn_plus. destruct (skipn q t) as [|x l]; cbn; [discriminate|]. intros H. apply Z.eqb_eq in H. now subst. Qed.
Lemma intDec_ev f t : plainSpace t -> Ev gA (ref aIntDec) f t (shift (sp f t) (decOut (skipn (sp f t) t))).
Proof.
  intros P. apply (ref_any _ _ _ _ _ look_intDec). apply ev_concat. pose proof (minus_ev f t) as M. unfold decOut. destruct (headIs 45 (skipn (sp f t) t)) eqn:H.
  - pose proof (head_tail _ _ _ H) as E. rewrite E. cbn [tl]. eapply es_step; [exact M|]. change (nextMode f (minusNode true) true) with NS. cbn [andb app].
    eapply evseq_eq; [apply (some_seq (ref aDec) isDec decNode (named aIntDec)); [apply one_dec|apply leads_dec|exact P|rewrite sp_not; lia]|].
    rewrite sp_not. cbn [skipn]. rewrite shift_shift. f_equal. lia.
  - eapply es_step; [exact M|]. change (nextMode f (minusNode false) true) with f. cbn [andb app].
    eapply evseq_eq; [apply (some_seq (ref aDec) isDec decNode (named aIntDec)); [apply one_dec|apply leads_dec|exact P|cbn [skipn Nat.add]; lia]|]. reflexivity.
Qed.

(** Two runes in quotes. *)
Definition litNode (l : list Z) : node := build TChars nb l [] None true.
Lemma chars_ev g c w f t : isWS c = false -> Ev g (RChars nb (c :: w)) f t (shift (sp f t)
  (let m := litmatch (c :: w) (skipn (sp f t) t) in if snd m then OMatch (litNode (c :: w)) (length (c :: w)) (length (c :: w)) true else OFail (length (fst m)) true)).
Proof.
  intros W. eapply ev_eq'; [apply ev_chars|]. cbv zeta. unfold tlit. destruct t as [|x t]; [rewrite sp_nil; reflexivity|]. set (t' := x :: t) in *.
  assert (SF : skips f false = (f =? SK)) by (unfold skips; cbn [andb]; now rewrite orb_false_r). rewrite SF. unfold sp. destruct (f =? SK); cbv zeta iota.
  - change (ws_prefix (c :: w)) with (if isWS c then c :: ws_prefix w else []). rewrite W.
    cbn [length Nat.ltb Nat.leb]. rewrite tail_is_nil. cbn [negb]. change (skipn 0 (c :: w)) with (c :: w). fold (lead t').
    destruct (snd (litmatch (c :: w) (skipn (lead t') t'))) eqn:E; cbn [tfail ofTerm shift].
    + rewrite (litmatch_all _ _ E), app_length. unfold litNode, lead. f_equal; cbn [length]; lia.
    + rewrite app_length. reflexivity.
  - cbn [length Nat.ltb Nat.leb]. rewrite tail_is_nil. cbn [negb]. change (skipn 0 (c :: w)) with (c :: w). change (skipn 0 t') with t'. rewrite shift_0.
    destruct (snd (litmatch (c :: w) t')) eqn:E; cbn [tfail ofTerm shift app].
    + rewrite (litmatch_all _ _ E). unfold litNode. f_equal; cbn [length]; lia.
    + reflexivity.
Qed.
Definition basedOut (name : list Z) (c : Z) (p : Z -> bool) (dn : Z -> node) (l : list Z) : ores :=
  let m := litmatch [48; c] l in
  if snd m then shift 2 (runOut p dn (named name) [litNode [48; c]] (skipn 2 l)) else OFail (length (fst m)) true.
Lemma based_ev name c d p dn f t : lookup gA name = Some (xBased name c d) -> one (ref d) p dn -> leads dn -> plainSpace t ->
  Ev gA (ref name) f t (shift (sp f t) (basedOut name c p dn (skipn (sp f t) t))).
Proof.
  intros L O LD P. apply (ref_any _ _ _ _ _ L). apply ev_concat. pose proof (chars_ev gA 48 [c] f t eq_refl) as M. cbv zeta in M. unfold basedOut. cbv zeta.
  destruct (snd (litmatch [48; c] (skipn (sp f t) t))); cbn [shift] in M.
  - eapply es_step; [exact M|]. change (nextMode f (litNode [48; c]) true) with NS. cbn [andb app].
    eapply evseq_eq; [apply (some_seq (ref d) p dn (named name)); [exact O|exact LD|exact P|rewrite sp_not; cbn [length]; lia]|].
    rewrite sp_not, shift_shift. cbn [skipn length]. rewrite Nat.add_0_l, Nat.add_0_r, skipn_plus. reflexivity.
  - eapply evseq_eq; [eapply es_fail; exact M|]. reflexivity.
Qed.
Definition octOut := basedOut aIntOct 111 (within 48 55) (runeNode (named aOct)).
Definition hexOut := basedOut aIntHex 120 isHex hexNode.
Definition binOut := basedOut aIntBin 98 (within 48 49) (runeNode (named aBin)).
Lemma intOct_ev f t : plainSpace t -> Ev gA (ref aIntOct) f t (shift (sp f t) (octOut (skipn (sp f t) t))).
Proof. apply (based_ev _ _ aOct); [exact look_intOct|exact one_oct|exact leads_oct]. Qed.
Lemma intHex_ev f t : plainSpace t -> Ev gA (ref aIntHex) f t (shift (sp f t) (hexOut (skipn (sp f t) t))).
Proof. apply (based_ev _ _ aHex); [exact look_intHex|exact one_hex|exact leads_hex]. Qed.
Lemma intBin_ev f t : plainSpace t -> Ev gA (ref aIntBin) f t (shift (sp f t) (binOut (skipn (sp f t) t))).
Proof. apply (based_ev _ _ aBin); [exact look_intBin|exact one_bin|exact leads_bin]. Qed.

(* ---------------- numbers with a dot ---------------- *)

Definition dotOut (kids : list node) (l : list Z) : ores :=
  if headIs 46 l then shift 1 (runOut isDec decNode (named aFloat) (kids ++ [charNode nb 46]) (tl l)) else OFail 0 true.
Definition atLeast (m : nat) (x : ores) : ores := match x with OMatch n u k st => OMatch n u (Nat.max m k) st | OFail k st => OFail (Nat.max m k) st end.
Lemma dot_seq t q m kids : plainSpace t -> (q <= m)%nat -> (headIs 46 (skipn q t) = true -> m = q) ->
  EvSeq gA (named aFloat) [RChar nb 46 false; ref aDec; many (ref aDec)] NS t q m true kids (atLeast m (shift q (dotOut kids (skipn q t)))).
Proof.
  intros P LE HM. pose proof (char_ev gA nb 46 false NS (skipn q t) eq_refl) as C. rewrite sp_not, shift_0 in C. cbn [skipn] in C. unfold chOut in C. unfold dotOut.
  destruct (headIs 46 (skipn q t)) eqn:H.
  - specialize (HM eq_refl). subst m. rewrite (head_tail _ _ _ H) at 1. cbn [tl]. eapply es_step; [exact C|].
    change (nextMode NS (charNode nb 46) true) with NS. cbn [andb].
    eapply evseq_eq; [apply (some_seq (ref aDec) isDec decNode (named aFloat)); [apply one_dec|apply leads_dec|exact P|rewrite sp_not; lia]|].
    rewrite sp_not, shift_shift. cbn [skipn]. unfold runOut. destruct (runP isDec (skipn (q + 1) t)); cbn [shift atLeast]; f_equal; lia.
  - eapply evseq_eq; [eapply es_fail; exact C|]. cbn [andb shift atLeast]. reflexivity.
Qed.
Definition floatOut (f : Z) (t : list Z) : ores :=
  let l := skipn (sp f t) t in
  if headIs 45 l then let ds := runP isDec (tl l) in shift (sp f t + 1 + length ds) (dotOut [minusNode true; manyNode decNode ds] (skipn (length ds) (tl l)))
  else let q := gone isDec f t in
       atLeast (q + sp f (skipn q t)) (shift q (dotOut [minusNode false; manyNode decNode (taken isDec f t)] (skipn q t))).
Lemma flt_ev f t : plainSpace t -> Ev gA (ref aFloat) f t (floatOut f t).
Proof.
  intros P. apply (ref_any _ _ _ _ _ look_flt). apply ev_concat. pose proof (minus_ev f t) as M. unfold floatOut. cbv zeta. destruct (headIs 45 (skipn (sp f t) t)) eqn:H.
  - pose proof (head_tail _ _ _ H) as E. rewrite E. cbn [tl]. eapply es_step; [exact M|]. change (nextMode f (minusNode true) true) with NS. cbn [andb app].
    eapply es_step; [apply (many_tight (ref aDec) isDec decNode); [exact one_dec|now apply plain_skipn]|]. rewrite Nat.add_0_l, Nat.max_0_l. cbn [andb app].
    set (ds := runP isDec (skipn (sp f t + 1) t)). change (nextMode NS (manyNode decNode ds) true) with NS.
    eapply evseq_eq; [apply dot_seq; [exact P|lia|intros _; lia]|]. rewrite skipn_plus. unfold dotOut.
    destruct (headIs 46 _); [unfold runOut; destruct (runP isDec (tl (skipn (sp f t + 1 + length ds) t)))|]; cbn [shift atLeast]; f_equal; lia.
  - eapply es_step; [exact M|]. change (nextMode f (minusNode false) true) with f. cbn [andb app].
    eapply es_step; [apply (many_ev (ref aDec) isDec decNode); [exact one_dec|exact P]|]. rewrite !Nat.add_0_l. change (skipn 0 t) with t. cbn [andb app]. set (q := gone isDec f t). change (nextMode f (manyNode decNode (taken isDec f t)) true) with NS.
    assert (SP : (sp f t <= q + sp f (skipn q t))%nat).
    { unfold q. destruct (match skipn (sp f t) t with d :: _ => isDec d | [] => false end) eqn:D.
      - destruct (skipn (sp f t) t) as [|d l] eqn:E; [discriminate|]. destruct (loose_step isDec f t d l E D) as [_ ->]. lia.
      - destruct (loose_stop isDec f t) as [_ ->]; [destruct (skipn (sp f t) t); [exact I|exact D]|]. cbn [skipn]. lia. }
    replace (Nat.max (Nat.max 0 (sp f t)) (q + sp f (skipn q t))) with (q + sp f (skipn q t))%nat by lia.
    apply dot_seq; [exact P|lia|]. intros X. apply head_tail in X. rewrite X. assert (sp f (46 :: skipn (q + 1) t) = 0%nat); [|lia]. unfold sp. now destruct (f =? SK).
Qed.

(* ---------------- names ---------------- *)

Definition varOut (l : list Z) : ores :=
  match l with
  | c :: l' => if isLetter c then let ns := runP isName l' in OMatch (tree TConcat (named aVar) [letterNode c; manyNode nameNode ns] true) (S (length ns)) (S (length ns)) true else OFail 0 true
  | [] => OFail 0 true
  end.
Lemma var_ev f t : plainSpace t -> Ev gA (ref aVar) f t (shift (sp f t) (varOut (skipn (sp f t) t))).
Proof.
  intros P. apply (ref_any _ _ _ _ _ look_var). apply ev_concat. pose proof (one_letter f t P) as O. unfold oOut, varOut in *.
  destruct (skipn (sp f t) t) as [|c l] eqn:E; [exact (es_fail gA (named aVar) _ _ f t 0 0 true [] _ _ O)|].
  destruct (isLetter c); cbn [shift] in *; [|exact (es_fail gA (named aVar) _ _ f t 0 0 true [] _ _ O)].
  eapply es_step; [exact O|]. rewrite leads_letter. cbn [andb app]. assert (E' : skipn (sp f t + 1) t = l) by (rewrite <- skipn_plus, E; reflexivity).
  eapply es_step; [rewrite Nat.add_0_l, E'; apply (many_tight xNameRune isName nameNode); [exact one_name|rewrite <- E'; now apply plain_skipn]|].
  cbn [andb app]. eapply evseq_eq; [apply es_done|]. f_equal; lia.
Qed.
