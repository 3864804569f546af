(** C61, C62: the command line tool. *)
From Coq Require Import Permutation.
From Verif Require Import Base Stream Node Rule SpecStream SpecRule Parse Grammar Print SpecParse SpecNode NodeLean NodeExact SpecDriver DriverFacts SpecGrammar GrammarFacts GrammarText HistoryFacts Show SpecShow SpecSerial
  WfDec PropsNode PropsDriver Cli SpecCli CliFacts.

(* ---------------- C61 ---------------- *)

(** A run with a grammar file that can be read and rules that are accepted: the listing
    of the grammar, then an answer for every text and every file up to the first error.
    Files are treated like texts. *)
Theorem C61_run : forall lf fuel w a out txt g g1 e g2, a_help a = false -> (a_xbnf a <> [] \/ a_rules a <> []) ->
  w_file w (a_xbnf a) = Some txt -> runesOk txt -> newGrammarFromString txt = inl g -> added g (a_rules a) g1 -> validate g1 = (e, g2) ->
  Forall runesOk (a_rules a) -> Forall runesOk (a_texts a) -> (forall f t, In f (a_files a) -> w_file w f = Some t -> runesOk t) ->
  (forall k, legal (rootsOf g2) (w_orders w k)) ->
  cli lf fuel w a = Ok out ->
  exists listing outT outF b b',
    (exists t u, (Permutation (w_recs w (g_records g2)) (g_records g2) -> Permutation (w_recs2 w (g_records g2)) (g_records g2) ->
        exists marked, (forall n r, e = None -> getRule g2 n = Some r -> marked n = true <-> refs r = []) /\ isListing false g2 marked t) /\
      under (rs "    ") t u /\ listing = rs "Grammar:" ++ [10] ++ rs "    " ++ u) /\
    out = PAddingFile (a_xbnf a) :: List.map PAddingRule (a_rules a) ++ match e with Some x => [PError (CValidate x)] | None => [] end ++ PGrammar listing :: outT ++ outF /\
    answered lf fuel (rules_of g2) (a_types a) PText Some (w_orders w) 0 (a_texts a) outT b /\
    (if b then answered lf fuel (rules_of g2) (a_types a) PFile (w_file w) (w_orders w) (length (a_texts a)) (a_files a) outF b' else outF = []).
Proof. exact run_answers. Qed.
Print Assumptions C61_run.
(** The answers are determined by the evaluations. *)
Theorem C61_answers_unique : forall lf fuel g types announce content os k l out b, answered lf fuel g types announce content os k l out b ->
  forall out' b', answered lf fuel g types announce content os k l out' b' -> out' = out /\ b' = b.
Proof. exact answered_det. Qed.
Print Assumptions C61_answers_unique.
(** The trees shown are drawn completely and contain data only: no virtual, no non-data,
    no sticky node, nothing redundant. *)
Theorem C61_trees : forall txt g ds g1 e g2 lf fuel o t a, runesOk txt -> Forall runesOk ds -> newGrammarFromString txt = inl g -> added g ds g1 -> validate g1 = (e, g2) ->
  legal (rootsOf g2) o -> runesOk t -> treeFor lf fuel (rules_of g2) o t a ->
  Forall drawable a /\ forall m, inside m a -> n_virtual m = false /\ n_nondata m = false /\ n_sticky m = false /\ lean m.
Proof. exact run_trees. Qed.
Print Assumptions C61_trees.
(** They are not always what Eval returns at the level for data: reducing comes first and
    can take over the text of a virtual node. *)
Definition c61 : ast := Eval vm_compute in rawTree (rs "r = ""a"" (~""x"") ""b""") (rs "axb").
Theorem C61_data_level_refuted : ~ (forall a out, Forall proper a -> shownFor a out -> out = simplify 2 a).
Proof.
  intros H. assert (P : Forall proper c61) by (constructor; [apply properb_ok; reflexivity|constructor]).
  specialize (H c61 _ P (textTree_shown _ P)). apply (f_equal astText) in H. revert H. vm_compute. discriminate.
Qed.
Print Assumptions C61_data_level_refuted.
Theorem C61_data_level_partial : forall a, Forall proper a -> (forall m, inside m (astMerge a) -> n_virtual m = false /\ n_nondata m = false) ->
  shownFor a (simplify 2 a) /\ simplify 2 a = simplify 0 a.
Proof. exact shown_eval. Qed.
Print Assumptions C61_data_level_partial.
(** The other runs. *)
Theorem C61_refused : forall lf fuel w a,
  (a_help a = true -> cli lf fuel w a = Ok [PUsage]) /\
  (a_help a = false -> a_xbnf a = [] -> a_rules a = [] -> cli lf fuel w a = Ok [PNoRules; PUsage]) /\
  (a_help a = false -> a_xbnf a <> [] -> w_file w (a_xbnf a) = None -> cli lf fuel w a = Ok [PAddingFile (a_xbnf a); PError CRead]) /\
  (forall txt line e, a_help a = false -> a_xbnf a <> [] -> w_file w (a_xbnf a) = Some txt -> newGrammarFromString txt = inr (line, e) ->
     cli lf fuel w a = Ok [PAddingFile (a_xbnf a); PError (CGrammar line e)]) /\
  (forall txt g ds d ds' g1 e g2, a_help a = false -> w_file w (a_xbnf a) = Some txt -> newGrammarFromString txt = inl g ->
     a_rules a = ds ++ d :: ds' -> added g ds g1 -> addRule g1 d = (inr e, g2) ->
     cli lf fuel w a = Ok (PAddingFile (a_xbnf a) :: List.map PAddingRule (ds ++ [d]) ++ [PError (CRule e)])).
Proof. exact run_refused. Qed.
Print Assumptions C61_refused.

(** A run with a text, a file and a second text that does not match: two trees and an
    error, and the file after it is not looked at. *)
Definition c61Grammar : grammar := Eval vm_compute in grammarOf (rs "pair = digit ',' digit" ++ [10] ++ rs "digit = '0'-'9'").
Definition c61World : world := mkWorld (fun f => if runes_eqb f (rs "g") then Some (rs "pair = digit ',' digit" ++ [10] ++ rs "digit = '0'-'9'") else if runes_eqb f (rs "d") then Some (rs "3,4") else None)
  (fun l => l) (fun l => l) (fun _ => storedOrder c61Grammar).
Definition c61Args (ts fs : list (list Z)) : args := mkArgs false (rs "g") false [] ts fs.
Example C61_example : (forall k, legal (rootsOf c61Grammar) (w_orders c61World k)) /\
  match cli 9 50 c61World (c61Args [rs "1,2"] [rs "d"; rs "e"; rs "d"]) with
  | Ok [PAddingFile _; PGrammar _; PText t; PTree u; PFile f; PTree v; PFile f'; PError CRead] => t = rs "1,2" /\ f = rs "d" /\ f' = rs "e" /\ u <> v
  | _ => False
  end /\
  match cli 9 50 c61World (c61Args [rs "1,2"; rs "12"] [rs "d"]) with
  | Ok [PAddingFile _; PGrammar _; PText _; PTree _; PText _; PError (CEval _)] => True
  | _ => False
  end.
Proof. split; [intros k; apply storedOrder_legal|]. split; [vm_compute; repeat split; discriminate|vm_compute; exact I]. Qed.

(* ---------------- C62 ---------------- *)

(** The help says that -xbnf is optional.  Without it the tool tries to read a file
    without a name. *)
Theorem C62_rule_alone : forall lf fuel w a, a_help a = false -> a_xbnf a = [] -> a_rules a <> [] -> w_file w [] = None ->
  cli lf fuel w a = Ok [PAddingFile []; PError CRead].
Proof. exact run_rule_alone. Qed.
Print Assumptions C62_rule_alone.
Theorem C62_rule_alone_refuted : ~ (forall lf fuel w a d out, a_help a = false -> a_xbnf a = [] -> a_rules a = [d] -> w_file w [] = None ->
  (exists r, fst (addRule newGrammar d) = inl r) -> cli lf fuel w a = Ok out -> In (PAddingRule d) out).
Proof.
  intros H. pose (w := mkWorld (fun _ => None) (fun l => l) (fun l => l) (fun _ => storedOrder newGrammar)).
  pose (a := mkArgs false [] false [rs "r = 'x'"] [rs "x"] []).
  specialize (H 0%nat 0%nat w a (rs "r = 'x'") [PAddingFile []; PError CRead] eq_refl eq_refl eq_refl eq_refl).
  destruct H as [H|[H|[]]]; try discriminate; [|reflexivity]. eexists. vm_compute. reflexivity.
Qed.
Print Assumptions C62_rule_alone_refuted.
(** Rules given with -rule should count like further lines of the file.  They do, except
    that a rule that was a root of the file stays a root although it is referred to now. *)
Theorem C62_rules_as_lines : forall txt g ds g1 e g2, runesOk txt -> Forall runesOk ds -> Forall (fun d => ~ In 10 d) ds ->
  newGrammarFromString txt = inl g -> added g ds g1 -> validate g1 = (e, g2) ->
  match e with
  | Some x => newGrammarFromString (withLines txt ds) = inr (0, x)
  | None => exists g3, newGrammarFromString (withLines txt ds) = inl g3 /\
      g_records g2 = g_records g3 /\
      (forall n rec, In (n, rec) (g_roots g2) <-> In (n, rec) (g_roots g3) \/ (In (n, rec) (g_roots g) /\ referenced g2 n))
  end.
Proof. exact rules_as_lines_roots. Qed.
Print Assumptions C62_rules_as_lines.
Theorem C62_rules_as_lines_partial : forall txt g ds g1 g2, runesOk txt -> Forall runesOk ds -> Forall (fun d => ~ In 10 d) ds ->
  newGrammarFromString txt = inl g -> added g ds g1 -> validate g1 = (None, g2) -> (forall n, isRoot g n -> ~ referenced g2 n) ->
  exists g3, newGrammarFromString (withLines txt ds) = inl g3 /\ rules_of g2 = rules_of g3 /\ Permutation (rootsOf g2) (rootsOf g3).
Proof. exact rules_as_lines_same. Qed.
Print Assumptions C62_rules_as_lines_partial.
(** With [a = 'x'] in the file and [-rule 'b = a'], the text [x] is ambiguous; with both
    in the file it is not. *)
Definition c62World (txt : list Z) (o : orders) : world := mkWorld (fun f => if nonempty f then Some txt else None) (fun l => l) (fun l => l) (fun _ => o).
Definition c62File : list Z := rs "a = 'x'".
Definition c62Rule : list Z := rs "b = a".
Definition c62Two : grammar := Eval vm_compute in snd (validate (snd (addRule (grammarOf c62File) c62Rule))).
Example C62_example :
  match cli 9 9 (c62World c62File (storedOrder c62Two)) (mkArgs false (rs "f") false [c62Rule] [rs "x"] []) with
  | Ok out => match last out PUsage with PError (CEval (RawAmbiguity _ _)) => True | _ => False end
  | _ => False
  end /\
  match cli 9 9 (c62World (withLines c62File [c62Rule]) (storedOrder (grammarOf (withLines c62File [c62Rule])))) (mkArgs false (rs "f") false [] [rs "x"] []) with
  | Ok out => exists t, last out PUsage = PTree t
  | _ => False
  end.
Proof. split; [vm_compute; reflexivity|]. vm_compute. eexists. reflexivity. Qed.
Theorem C62_rules_as_lines_refuted : ~ (forall txt g ds g1 g2, runesOk txt -> Forall runesOk ds -> Forall (fun d => ~ In 10 d) ds ->
  newGrammarFromString txt = inl g -> added g ds g1 -> validate g1 = (None, g2) ->
  exists g3, newGrammarFromString (withLines txt ds) = inl g3 /\ rules_of g2 = rules_of g3 /\ Permutation (rootsOf g2) (rootsOf g3)).
Proof.
  intros H. assert (A : exists r g', addRule (grammarOf c62File) c62Rule = (inl r, g') /\ validate g' = (None, c62Two)) by (do 2 eexists; vm_compute; split; reflexivity).
  destruct A as (r & g' & A & V).
  destruct (H c62File (grammarOf c62File) [c62Rule] g' c62Two) as (g3 & E3 & _ & P).
  - apply okRunes_ok; vm_compute; reflexivity.
  - constructor; [apply okRunes_ok; vm_compute; reflexivity|constructor].
  - constructor; [cbn; lia|constructor].
  - vm_compute. reflexivity.
  - econstructor; [exact A|constructor].
  - exact V.
  - apply Permutation_length in P. revert P. assert (X : g3 = grammarOf (withLines c62File [c62Rule])) by (unfold grammarOf; now rewrite E3). subst g3. vm_compute. discriminate.
Qed.
Print Assumptions C62_rules_as_lines_refuted.
