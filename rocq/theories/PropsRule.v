(** C09-C13, C22, C23: evaluation of a rule. *)
From Verif Require Import Base Stream Node Rule Parse Grammar SpecStream SpecRule RuleFacts.

(** A grammar used in the examples:
    [list = "(" item {"," item} ")"], [item = 'a'-'z' | ~list]. *)
Definition exItem : rule :=
  RChoice (mkBase (rs "item") false false false)
    [[RRange noBase 97 false 122 false; RRef (mkBase [] true false false) (rs "list")]].
Definition exList : rule :=
  RConcat (mkBase (rs "list") false false false)
    [RString noBase (rs "("); RRef noBase (rs "item");
     RRep noBase (RConcat noBase [RString noBase (rs ","); RRef noBase (rs "item")]) 0 0;
     RString noBase (rs ")")].
Definition exG : rules_t := [(rs "list", exList); (rs "item", exItem)].

Example exIdent : forall n, In n [rs "list"; rs "item"] -> ident n.
Proof.
  intros n [<-|[<-|[]]]; (split; [discriminate|]); (split; [discriminate|]);
    repeat (apply Forall_cons; [vm_compute; intuition discriminate|]); apply Forall_nil.
Qed.
Example exItem_wf : wfRule exItem.
Proof.
  constructor; [cbn; lia|intros g [<-|[]]; discriminate|].
  intros g x [<-|[]] [<-|[<-|[]]]; constructor; try lia. apply exIdent. cbn. auto.
Qed.
Example exList_wf : wfRule exList.
Proof.
  assert (I : ident (rs "item")) by (apply exIdent; cbn; auto).
  assert (forall t, runesOk (rs t)) as R.
  { intros t. unfold rs, runesOk. apply Forall_forall. intros x Hx. apply in_map_iff in Hx as (a & <- & _). lia. }
  constructor; [cbn; lia|]. intros x [<-|[<-|[<-|[<-|[]]]]]; constructor; auto; try lia.
  constructor; [cbn; lia|]. intros x [<-|[<-|[]]]; constructor; auto.
Qed.
Example exG_wf : wfRules exG.
Proof.
  intros n r. unfold exG. cbn [lookup]. destruct (runes_eqb (rs "list") n); [intros [= <-]; apply exList_wf|].
  destruct (runes_eqb (rs "item") n); [intros [= <-]; apply exItem_wf|discriminate].
Qed.
Definition exText : list Z := rs "(a, (b))".
Example exText_ok : runesOk (rest (newStream exText)).
Proof. repeat constructor; discriminate. Qed.
(** The text is accepted: 8 runes read, none left over. *)
Example exRun :
  match eval 20 exG exList (newStream exText) SUGGEST_SKIP with
  | Ok (res, _) => r_read res = exText /\ r_unused res = [] /\ r_node res <> None
  | _ => False
  end.
Proof. vm_compute. split; [reflexivity|]. split; [reflexivity|discriminate]. Qed.

(* ---------------- C09 ---------------- *)

Theorem C09_char_terminal : forall fuel g b t u s f, 0 <= t -> runesOk (rest s) -> exists res s',
  eval (S fuel) g (RChar b t u) s f = Ok (res, s') /\ rest s = r_read res ++ rest s' /\
  match r_node res with
  | Some n => n_chars n = [t] /\ n_kids n = [] /\
      exists pre post, charAt (skips f false) t (rest s) pre post /\ r_read res = (pre ++ [t]) ++ r_unused res
  | None => r_unused res = r_read res /\ forall pre post, ~ charAt (skips f false) t (rest s) pre post
  end.
Proof. exact char_exact. Qed.
Print Assumptions C09_char_terminal.

Theorem C09_chars_terminal : forall fuel g b t s f, t <> [] -> runesOk (rest s) -> exists res s',
  eval (S fuel) g (RChars b t) s f = Ok (res, s') /\ rest s = r_read res ++ rest s' /\
  match r_node res with
  | Some n => n_chars n = t /\ n_kids n = [] /\ r_unused res = [] /\
      exists pre post, literalAt (skips f false) t (rest s) pre post /\ r_read res = pre ++ t
  | None => r_unused res = r_read res /\ forall pre post, ~ literalAt (skips f false) t (rest s) pre post
  end.
Proof. exact chars_exact. Qed.
Print Assumptions C09_chars_terminal.

Theorem C09_string_terminal : forall fuel g b t s f, t <> [] -> runesOk (rest s) -> exists res s',
  eval (S fuel) g (RString b t) s f = Ok (res, s') /\ rest s = r_read res ++ rest s' /\
  match r_node res with
  | Some n => n_chars n = t /\ n_kids n = [] /\ r_unused res = [] /\
      exists pre post, literalAt (skips f true) t (rest s) pre post /\ r_read res = pre ++ t
  | None => r_unused res = r_read res /\ forall pre post, ~ literalAt (skips f true) t (rest s) pre post
  end.
Proof. exact string_exact. Qed.
Print Assumptions C09_string_terminal.

(** A tab asked for behind two blanks: found, the blank after it is unused. *)
Example C09_example_char :
  let s := prepend (newStream (rs "x")) [32; 32; 9; 32] in
  charAt (skips SUGGEST_SKIP false) 9 (rest s) [32; 32] (32 :: rs "x") /\
  exists res s', eval 1 [] (RChar noBase 9 false) s SUGGEST_SKIP = Ok (res, s') /\
    r_read res = [32; 32; 9; 32] /\ r_unused res = [32].
Proof.
  split.
  - split; [reflexivity|]. split; [repeat constructor; cbn; tauto|]. split; [intros [H|[H|[]]]; discriminate|discriminate].
  - do 2 eexists. split; [vm_compute; reflexivity|]. auto.
Qed.
Example C09_example_string :
  literalAt (skips SUGGEST_NOT_SKIP true) (rs "ab") (rs "  abc") (rs "  ") (rs "c") /\
  exists res s', eval 1 [] (RString noBase (rs "ab")) (newStream (rs "  abc")) SUGGEST_NOT_SKIP = Ok (res, s') /\
    r_node res <> None.
Proof.
  split.
  - split; [reflexivity|]. split; [repeat constructor; cbn; tauto|]. split; [discriminate|].
    intros _ H. inversion H as [|x l Hx _]; subst. cbn in Hx. intuition discriminate.
  - do 2 eexists. split; [vm_compute; reflexivity|]. discriminate.
Qed.
Example C09_example_chars_fail :
  exists res s', eval 1 [] (RChars noBase (rs "ab")) (newStream (rs "  ac")) SUGGEST_SKIP = Ok (res, s') /\
    r_node res = None /\ r_read res = rs "  ac".
Proof. do 2 eexists. split; [vm_compute; reflexivity|]. auto. Qed.

(* ---------------- C10 ---------------- *)

(** A no-break space in front of a letter matches the digit range. *)
Theorem C10_range_stays_in_range_refuted :
  ~ forall fuel g b lo lu hi hu s f res s' n, 0 <= lo <= hi -> runesOk (rest s) ->
      eval fuel g (RRange b lo lu hi hu) s f = Ok (res, s') -> r_node res = Some n ->
      exists c, n_chars n = [c] /\ lo <= c <= hi.
Proof.
  intros H. edestruct (H 1%nat [] noBase 48 false 57 false (newStream [160; 65]) SUGGEST_SKIP) as (c & E & L);
    [lia| |vm_compute; reflexivity|reflexivity|].
  - repeat constructor; discriminate.
  - cbn in E. injection E as <-. lia.
Qed.
Print Assumptions C10_range_stays_in_range_refuted.

(** What is missing: only white space can be matched from outside the range, and
    only while leading white space is being skipped. *)
Theorem C10_range_partial : forall fuel g b lo lu hi hu s f res s' n, 0 <= lo -> runesOk (rest s) ->
  eval (S fuel) g (RRange b lo lu hi hu) s f = Ok (res, s') -> r_node res = Some n ->
  exists c, n_chars n = [c] /\ lo <= c /\ (c <= hi \/ (f = SUGGEST_SKIP /\ In c whiteSpaces)).
Proof. exact range_always. Qed.
Print Assumptions C10_range_partial.

(** When the text has no white rune as large as both bounds, a range is exact. *)
Theorem C10_range_exact_partial : forall fuel g b lo lu hi hu s f, 0 <= lo -> runesOk (rest s) ->
  (f = SUGGEST_SKIP -> forall c, In c (rest s) -> In c whiteSpaces -> c < lo \/ c < hi) -> exists res s',
  eval (S fuel) g (RRange b lo lu hi hu) s f = Ok (res, s') /\ rest s = r_read res ++ rest s' /\
  match r_node res with
  | Some n => exists c pre post, n_chars n = [c] /\ n_kids n = [] /\ lo <= c <= hi /\
      firstAt (f =? SUGGEST_SKIP) c (rest s) pre post /\ r_read res = pre ++ [c] /\ r_unused res = []
  | None => r_unused res = r_read res /\ forall c pre post, lo <= c <= hi -> ~ firstAt (f =? SUGGEST_SKIP) c (rest s) pre post
  end.
Proof. exact range_exact. Qed.
Print Assumptions C10_range_exact_partial.

Example C10_example : (forall c, In c (rs "  7x") -> In c whiteSpaces -> c < 48 \/ c < 57) /\
  exists res s', eval 1 [] (RRange noBase 48 false 57 false) (newStream (rs "  7x")) SUGGEST_SKIP = Ok (res, s') /\
    r_read res = rs "  7" /\ r_unused res = [].
Proof.
  split.
  - intros c H W. cbn in H, W. left. intuition (subst; try discriminate; lia).
  - do 2 eexists. split; [vm_compute; reflexivity|]. auto.
Qed.

(* ---------------- C11 ---------------- *)

(** For every rule that the definition parser can build (C38). *)
Theorem C11_eval_never_panics : forall g fuel r s f, wfRules g -> wfRule r -> runesOk (rest s) ->
  eval fuel g r s f <> Panic.
Proof. exact never_panics. Qed.
Print Assumptions C11_eval_never_panics.

(* ---------------- C12 ---------------- *)

Theorem C12_trees_are_derivations : forall g fuel r s f res s' n, wfRules g -> wfRule r -> runesOk (rest s) ->
  eval fuel g r s f = Ok (res, s') -> r_node res = Some n -> derives g r n.
Proof. exact trees_derive. Qed.
Print Assumptions C12_trees_are_derivations.

Theorem C12_node_or_error : forall g fuel r s f res s', wfRules g -> wfRule r -> runesOk (rest s) ->
  eval fuel g r s f = Ok (res, s') -> r_node res = None -> r_err res <> None.
Proof. exact node_or_error. Qed.
Print Assumptions C12_node_or_error.

(* ---------------- C13 ---------------- *)

Theorem C13_read_accounting : forall g fuel r s f res s', wfRules g -> wfRule r -> runesOk (rest s) ->
  eval fuel g r s f = Ok (res, s') ->
  (length (r_unused res) <= length (r_read res))%nat /\ runesOk (r_read res) /\ runesOk (r_unused res) /\
  (exists taken, rest s = taken ++ rest s' /\ cursor s' = cursor s + Z.of_nat (length taken)) /\
  cs_chars (sbase s') = cs_chars (sbase s) /\ depth s' = depth s.
Proof. exact accounting. Qed.
Print Assumptions C13_read_accounting.

(* ---------------- C22 ---------------- *)

Theorem C22_stickiness : forall g fuel r s f res s' n, wfRules g -> wfRule r -> runesOk (rest s) ->
  eval fuel g r s f = Ok (res, s') -> r_node res = Some n ->
  n_sticky n = r_sticky res /\
  (forall m, sub m n -> n_sticky m = true -> forall k, sub k m -> n_sticky k = true) /\
  (forall m, sub m n -> n_type m = TString \/ n_type m = TBlock -> n_sticky m = false).
Proof. exact stickiness. Qed.
Print Assumptions C22_stickiness.

(* ---------------- C23 ---------------- *)

Theorem C23_reference_toggles : forall g fuel b n s f, match lookup g n with
  | None => eval (S fuel) g (RRef b n) s f = Ok (mkRes None (Some (EUndefined b n)) 0 [] [] false, s)
  | Some r =>
    forall res s', eval fuel g r s f = Ok (res, s') ->
    exists res', eval (S fuel) g (RRef b n) s f = Ok (res', s') /\
      r_read res' = r_read res /\ r_unused res' = r_unused res /\ r_err res' = r_err res /\
      r_erridx res' = r_erridx res /\ r_sticky res' = r_sticky res /\
      match r_node res with
      | None => r_node res' = None
      | Some nd => exists nd', r_node res' = Some nd' /\
          n_type nd' = n_type nd /\ n_name nd' = n_name nd /\ n_chars nd' = n_chars nd /\ n_kids nd' = n_kids nd /\
          n_pos nd' = n_pos nd /\ n_sticky nd' = n_sticky nd /\
          n_virtual nd' = xorb (b_virtual b) (n_virtual nd) /\
          n_nondata nd' = xorb (b_nondata b) (n_nondata nd) /\
          n_tokenized nd' = xorb (b_tokenized b) (n_tokenized nd)
      end
  end.
Proof. exact toggles. Qed.
Print Assumptions C23_reference_toggles.

(** In the example grammar, [~list] inside [item] makes the list node virtual. *)
Example C23_example :
  match eval 20 exG (RRef (mkBase [] true false false) (rs "list")) (newStream exText) SUGGEST_SKIP with
  | Ok (res, _) => match r_node res with Some n => n_virtual n = true /\ n_name n = rs "list" | None => False end
  | _ => False
  end.
Proof. vm_compute. auto. Qed.
