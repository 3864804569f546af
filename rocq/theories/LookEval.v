(** [eval] takes no notice of what is behind the rune after the last one taken. *)
From Verif Require Import Base Stream Node Rule Grammar SpecStream StreamFacts LookFacts.

Lemma loco_ext {A} (p q : stream -> outcome (A * stream)) : (forall s, p s = q s) -> loco q -> loco p.
Proof.
  intros E H s a s1 F G. rewrite E in G. destruct (H s a s1 F G) as (P & Q & R). split; [exact P|]. split; [exact Q|].
  intros D s' L SM. rewrite E. exact (R D s' L SM).
Qed.
Lemma loco_pure {A} (h : stream -> A) : common h -> loco (fun s => Ok (h s, s)).
Proof. intros H. exact (loco_look h (fun a s => Ok (a, s)) H loco_ret). Qed.
Lemma loco_if {A} (c : stream -> bool) (p q : stream -> outcome (A * stream)) :
  common c -> loco p -> loco q -> loco (fun s => if c s then p s else q s).
Proof. intros H P Q. apply (loco_look c (fun b s => if b then p s else q s) H). intros []; assumption. Qed.
Lemma loco_then {A B} (go : stream -> A * stream) (k : A -> stream -> outcome (B * stream)) :
  loc go -> (forall a, loco (k a)) -> loco (fun s => let (a, s1) := go s in k a s1).
Proof.
  intros G K. apply (loco_ext _ (fun s => let* (a, s1) := Ok (go s) in k a s1)); [reflexivity|].
  apply (loco_bind (fun s => Ok (go s)) k); [exact (loc_loco go G)|exact K].
Qed.

Ltac common_tac := intros ?D ?s ?s' ?F ?L ?SM;
  repeat first [rewrite (cursor_sim _ _ _ SM) | rewrite (lookup_sim _ _ _ _ SM) | rewrite (common_peek _ _ _ F L SM)]; reflexivity.

Lemma loco_fail w p st r : loco (fun s => Ok (failT w p st r s)).
Proof. unfold failT. apply (loco_pure (fun s => mkRes None (Some (EMissing w p)) (cursor s) r r st)). common_tac. Qed.

Lemma common_eof : common (fun s => peek s =? EOFChar).
Proof. common_tac. Qed.

Lemma char_loco b t f : loco (fun s => Ok (evalChar b t s f)).
Proof.
  unfold evalChar.
  set (tail := fun (p0 : option position) (read : list Z) (s : stream) =>
    if negb (peek s =? t) then Ok (failT (WChar b t) (AtPos p0) true read s)
    else let (pos, s') := positionOf s in let (c, s'') := next s' in
      Ok (mkRes (Some (mkNode TChar b [c] [] pos true)) None 0 (read ++ [c]) [] true, s'')).
  assert (T : forall p0 read, loco (tail p0 read)).
  { intros p0 read. apply (loco_if (fun s => negb (peek s =? t))); [common_tac|apply loco_fail|].
    apply (loco_then positionOf); [exact position_loc|]. intros pos.
    apply (loco_then next); [exact next_loc|]. intros c. apply loco_ret. }
  apply (loco_ext _ (fun s => if peek s =? EOFChar then Ok (failT (WChar b t) AtEOF true [] s)
    else let (p0, s1) := positionOf s in
      if f =? SUGGEST_SKIP then
        let (sp, s2) := skipSpaces s1 in
        if isWS t && nonempty sp then
          match find_idx t sp with
          | Some i => Ok (mkRes (Some (mkNode TChar b [t] [] (positionLookup s2 (cursor s2 - Z.of_nat (length sp) + Z.of_nat i)) true)) None 0 sp (skipn (S i) sp) true, s2)
          | None => Ok (failT (WChar b t) (AtPos p0) true sp s2)
          end
        else tail p0 sp s2
      else tail p0 [] s1)).
  { intros s. unfold tail. destruct (peek s =? EOFChar); [reflexivity|]. destruct (positionOf s) as [p0 s1]. cbn [fst snd].
    destruct (f =? SUGGEST_SKIP).
    - destruct (skipSpaces s1) as [sp s2]. destruct (isWS t && nonempty sp).
      + destruct (find_idx t sp); reflexivity.
      + destruct (negb (peek s2 =? t)); [reflexivity|]. destruct (positionOf s2). destruct (next s0). reflexivity.
    - destruct (negb (peek s1 =? t)); [reflexivity|]. destruct (positionOf s1). destruct (next s0). reflexivity. }
  apply loco_if; [exact common_eof|apply loco_fail|]. apply (loco_then positionOf); [exact position_loc|]. intros p0.
  destruct (f =? SUGGEST_SKIP); [|apply T]. apply (loco_then skipSpaces); [exact skip_loc|]. intros sp.
  destruct (isWS t && nonempty sp); [|apply T]. destruct (find_idx t sp) as [i|]; [|apply loco_fail].
  apply (loco_pure (fun s2 => mkRes (Some (mkNode TChar b [t] [] (positionLookup s2 (cursor s2 - Z.of_nat (length sp) + Z.of_nat i)) true)) None 0 sp (skipn (S i) sp) true)).
  common_tac.
Qed.

Lemma chars_loco b t f : loco (fun s => Ok (evalChars b t s f)).
Proof.
  unfold evalChars.
  set (tail := fun (p0 : option position) (read toMatch : list Z) (start : Z) (s : stream) =>
    let (x, s') := (fst (match_l s toMatch), snd (match_l s toMatch)) in
    if snd x then
      Ok (mkRes (Some (mkNode TChars b t [] (positionLookup s' start) true)) None 0 (read ++ fst x) [] true, s')
    else Ok (failT (WChars b t) (AtPos p0) true (read ++ fst x) s')).
  assert (T : forall p0 read m st, loco (tail p0 read m st)).
  { intros p0 read m st.
    apply (loco_then (fun s => (fst (match_l s m), snd (match_l s m))) (fun x s' => if snd x then
      Ok (mkRes (Some (mkNode TChars b t [] (positionLookup s' st) true)) None 0 (read ++ fst x) [] true, s')
      else Ok (failT (WChars b t) (AtPos p0) true (read ++ fst x) s'))); [exact (match_loc m)|].
    intros [got []]; cbn [fst snd]; [|apply loco_fail].
    apply (loco_pure (fun s' => mkRes (Some (mkNode TChars b t [] (positionLookup s' st) true)) None 0 (read ++ got) [] true)).
    common_tac. }
  set (body := fun (p0 : option position) (start : Z) (s1 : stream) => if f =? SUGGEST_SKIP then
        let (sp, s2) := skipSpaces s1 in
        if (length sp <? length (leadingWS t))%nat then Ok (failT (WChars b t) (AtPos p0) true sp s2)
        else if negb (tail_is sp (leadingWS t)) then Ok (failT (WChars b t) (AtPos p0) true sp s2)
        else tail p0 sp (skipn (length (leadingWS t)) t) (start + Z.of_nat (length sp)) s2
      else tail p0 [] t start s1).
  apply (loco_ext _ (fun s => if peek s =? EOFChar then Ok (failT (WChars b t) AtEOF true [] s)
    else let (p0, s1) := positionOf s in body p0 (cursor s1) s1)).
  { intros s. unfold body, tail, matchRunes. destruct (peek s =? EOFChar); [reflexivity|]. destruct (positionOf s) as [p0 s1]. cbn [fst snd].
    destruct (f =? SUGGEST_SKIP).
    - destruct (skipSpaces s1) as [sp s2]. destruct (length sp <? _)%nat; [reflexivity|].
      destruct (negb (tail_is _ _)); [reflexivity|]. destruct (match_l s2 _) as [[got []] s3]; reflexivity.
    - destruct (match_l s1 _) as [[got []] s3]; reflexivity. }
  apply loco_if; [exact common_eof|apply loco_fail|]. apply (loco_then positionOf); [exact position_loc|]. intros p0.
  apply (loco_look cursor (body p0)); [exact common_cursor|]. intros st. unfold body.
  destruct (f =? SUGGEST_SKIP); [|apply T]. apply (loco_then skipSpaces); [exact skip_loc|]. intros sp.
  destruct (length sp <? _)%nat; [apply loco_fail|]. destruct (negb (tail_is _ _)); [apply loco_fail|apply T].
Qed.

Lemma string_loco b t f : loco (fun s => Ok (evalString b t s f)).
Proof.
  unfold evalString.
  set (tail := fun (p0 : option position) (read toMatch : list Z) (s : stream) =>
    let (x, s') := (fst (match_l s toMatch), snd (match_l s toMatch)) in
    if snd x then
      Ok (mkRes (Some (mkNode TString b t [] (positionLookup s' (cursor s' - Z.of_nat (length t))) false)) None 0 (read ++ fst x) [] false, s')
    else Ok (failT (WString b t) (AtPos p0) false (read ++ fst x) s')).
  assert (T : forall p0 read m, loco (tail p0 read m)).
  { intros p0 read m.
    apply (loco_then (fun s => (fst (match_l s m), snd (match_l s m))) (fun x s' => if snd x then
      Ok (mkRes (Some (mkNode TString b t [] (positionLookup s' (cursor s' - Z.of_nat (length t))) false)) None 0 (read ++ fst x) [] false, s')
      else Ok (failT (WString b t) (AtPos p0) false (read ++ fst x) s'))); [exact (match_loc m)|].
    intros [got []]; cbn [fst snd]; [|apply loco_fail].
    apply (loco_pure (fun s' => mkRes (Some (mkNode TString b t [] (positionLookup s' (cursor s' - Z.of_nat (length t))) false)) None 0 (read ++ got) [] false)).
    common_tac. }
  apply (loco_ext _ (fun s => if peek s =? EOFChar then Ok (failT (WString b t) AtEOF false [] s)
    else let (p0, s1) := positionOf s in
      if (f =? SUGGEST_SKIP) || (f =? SUGGEST_NOT_SKIP) then
        let (sp, s2) := skipSpaces s1 in
        if (length sp <? length (leadingWS t))%nat then Ok (failT (WString b t) (AtPos p0) false sp s2)
        else if negb (tail_is sp (leadingWS t)) then Ok (failT (WString b t) (AtPos p0) false sp s2)
        else tail p0 sp (skipn (length (leadingWS t)) t) s2
      else tail p0 [] t s1)).
  { intros s. unfold tail, matchRunes. destruct (peek s =? EOFChar); [reflexivity|]. destruct (positionOf s) as [p0 s1]. cbn [fst snd].
    destruct ((f =? SUGGEST_SKIP) || (f =? SUGGEST_NOT_SKIP)).
    - destruct (skipSpaces s1) as [sp s2]. destruct (length sp <? _)%nat; [reflexivity|].
      destruct (negb (tail_is _ _)); [reflexivity|]. destruct (match_l s2 _) as [[got []] s3]; reflexivity.
    - destruct (match_l s1 _) as [[got []] s3]; reflexivity. }
  apply loco_if; [exact common_eof|apply loco_fail|]. apply (loco_then positionOf); [exact position_loc|]. intros p0.
  destruct ((f =? SUGGEST_SKIP) || (f =? SUGGEST_NOT_SKIP)); [|apply T]. apply (loco_then skipSpaces); [exact skip_loc|]. intros sp.
  destruct (length sp <? _)%nat; [apply loco_fail|]. destruct (negb (tail_is _ _)); [apply loco_fail|apply T].
Qed.

Lemma range_loco b lo hi f : loco (fun s => Ok (evalRange b lo hi s f)).
Proof.
  unfold evalRange.
  set (tail := fun (pos : option position) (read : list Z) (s : stream) =>
    let (p0, s1) := positionOf s in
    if (lo <=? peek s1) && (peek s1 <=? hi) then
      let (c', s2) := next s1 in
      Ok (mkRes (Some (mkNode TChars b [c'] [] pos true)) None 0 (read ++ [c']) [] true, s2)
    else Ok (failT (WRange b lo hi) (AtPos p0) true read s1)).
  assert (T : forall pos read, loco (tail pos read)).
  { intros pos read. apply (loco_then positionOf); [exact position_loc|]. intros p0.
    apply (loco_if (fun s => (lo <=? peek s) && (peek s <=? hi))); [common_tac| |apply loco_fail].
    apply (loco_then next); [exact next_loc|]. intros c. apply loco_ret. }
  set (body := fun pos s => if f =? SUGGEST_SKIP then
        let (sp, s2) := skipSpaces s in
        match find_idxp (fun c => (lo <=? c) && (c >=? hi)) sp with
        | Some i => Ok (mkRes (Some (mkNode TChars b [nth i sp 0] [] pos true)) None 0 sp (skipn (S i) sp) true, s2)
        | None => tail pos sp s2
        end
      else tail pos [] s).
  apply (loco_ext _ (fun s => if peek s =? EOFChar then Ok (failT (WRange b lo hi) AtEOF true [] s)
    else body (positionLookup s (cursor s - 1)) s)).
  { intros s. unfold body, tail. destruct (peek s =? EOFChar); [reflexivity|]. destruct (f =? SUGGEST_SKIP).
    - destruct (skipSpaces s) as [sp s2]. destruct (find_idxp _ sp); [reflexivity|].
      destruct (positionOf s2) as [p0 s3]. cbn [fst snd]. destruct (_ && _); [|reflexivity]. destruct (next s3). reflexivity.
    - destruct (positionOf s) as [p0 s3]. cbn [fst snd]. destruct (_ && _); [|reflexivity]. destruct (next s3). reflexivity. }
  apply loco_if; [exact common_eof|apply loco_fail|].
  apply (loco_look (fun s => positionLookup s (cursor s - 1)) body); [common_tac|]. intros pos. unfold body.
  destruct (f =? SUGGEST_SKIP); [|apply T]. apply (loco_then skipSpaces); [exact skip_loc|]. intros sp.
  destruct (find_idxp _ sp); [apply loco_ret|apply T].
Qed.

Lemma eof_loco b f : loco (fun s => Ok (evalEOF b s f)).
Proof.
  unfold evalEOF.
  set (tail := fun (sp : list Z) (s1 : stream) => if peek s1 =? EOFChar then
    let (pos, s2) := positionOf s1 in
    Ok (mkRes (Some (Node TEOF nameEOF [EOFChar] [] pos true (b_virtual b) (b_nondata b) (b_tokenized b)))
       None 0 sp [] true, s2)
  else Ok (failT WEOF NoPlace true sp s1)).
  assert (T : forall sp, loco (tail sp)).
  { intros sp. apply loco_if; [exact common_eof| |apply loco_fail].
    apply (loco_then positionOf); [exact position_loc|]. intros pos. apply loco_ret. }
  apply (loco_ext _ (fun s => if f =? 1 then let (sp, s1) := skipSpaces s in tail sp s1 else tail [] s)).
  { intros s. unfold tail. destruct (f =? 1).
    - destruct (skipSpaces s) as [sp s1]. destruct (peek s1 =? EOFChar); [|reflexivity]. destruct (positionOf s1). reflexivity.
    - destruct (peek s =? EOFChar); [|reflexivity]. destruct (positionOf s). reflexivity. }
  destruct (f =? 1); [|apply T]. apply (loco_then skipSpaces); [exact skip_loc|exact T].
Qed.

(** A step that computes something without the stream. *)
Lemma loco_let {A B} (o : outcome B) (k : B -> stream -> outcome (A * stream)) :
  (forall x, loco (k x)) -> loco (fun s => let* x := o in k x s).
Proof. intros K. destruct o as [x| |]; cbn [bind]; [apply K|apply loco_panic|apply loco_out]. Qed.

Definition locr (rec : evalT) : Prop := forall r f, loco (fun s => rec r s f).

Lemma concat_loco rec b self d rules : locr rec -> forall f read unused sticky kids pos,
  loco (fun s => concatLoop rec b self d rules s f read unused sticky kids pos).
Proof.
  intros R. induction rules as [|r rules IH]; intros f read unused sticky kids pos; cbn [concatLoop].
  - apply (loco_unwrap d (fun s => Ok (_, s))). apply loco_ret.
  - apply (loco_prepend unused (fun s1 => let* (res, s2) := rec r s1 f in
      let* (read', unused') := account read unused res in
      match r_node res with
      | None => if descOk self then
        Ok (mkRes None (Some (EConcat self (r_err res))) (r_erridx res) read' read' (sticky && r_sticky res), unwrap d s2)
        else Panic
      | Some n => concatLoop rec b self d rules s2 (nextFlag f n (r_sticky res)) read' unused' (sticky && r_sticky res)
        (n :: kids) (orPos pos n)
      end)).
    apply (loco_bind (fun s => rec r s f)); [apply R|]. intros res.
    destruct (account read unused res) as [(read', unused')| |]; cbn [bind]; [|apply loco_panic|apply loco_out].
    destruct (r_node res) as [n|]; [apply IH|]. destruct (descOk self); [|apply loco_panic].
    apply (loco_unwrap d (fun s => Ok (_, s))). apply loco_ret.
Qed.

Lemma rep_done_loco d b self mn err (ei : stream -> Z) read unused sticky kids pos : common ei ->
  loco (fun s => let* res := repDone b self mn (cursor (unwrap d s)) err (ei (unwrap d s)) read unused sticky kids pos in Ok (res, unwrap d s)).
Proof.
  intros EI.
  apply (loco_unwrap d (fun s => let* res := repDone b self mn (cursor s) err (ei s) read unused sticky kids pos in Ok (res, s))).
  apply (loco_look cursor (fun c s => let* res := repDone b self mn c err (ei s) read unused sticky kids pos in Ok (res, s))); [exact common_cursor|].
  intros c. apply (loco_look ei (fun e s => let* res := repDone b self mn c err e read unused sticky kids pos in Ok (res, s))); [exact EI|].
  intros e. apply (loco_let _ (fun res s => Ok (res, s))). intros x. apply loco_ret.
Qed.

Lemma rep_loco rec fuel b self r mn mx d f : locr rec -> forall read unused sticky kids pos,
  loco (fun s => repLoop rec fuel b self r mn mx d s f read unused sticky kids pos).
Proof.
  intros R. induction fuel as [|fuel IH]; intros read unused sticky kids pos; cbn [repLoop]; [apply loco_out|].
  apply (loco_prepend unused (fun s1 =>
    if peek s1 =? EOFChar then
      let* res := repDone b self mn (cursor (unwrap d s1)) None 0 read unused sticky kids pos in
      Ok (res, unwrap d s1)
    else
      let* (res, s2) := rec r s1 f in
      let* (read', unused') := account read unused res in
      match r_node res with
      | None =>
        let* res' := repDone b self mn (cursor (unwrap d s2)) (r_err res) (cursor (unwrap d s2)) read' unused' (sticky && r_sticky res) kids pos in
        Ok (res', unwrap d s2)
      | Some n =>
        if (mx >? 0) && (Z.of_nat (length (n :: kids)) =? mx) then
          let* res' := repDone b self mn (cursor (unwrap d s2)) None 0 read' unused' (sticky && r_sticky res) (n :: kids) (orPos pos n) in
          Ok (res', unwrap d s2)
        else repLoop rec fuel b self r mn mx d s2 f read' unused' (sticky && r_sticky res) (n :: kids) (orPos pos n)
      end)).
  apply loco_if; [exact common_eof|apply (rep_done_loco d b self mn None (fun _ => 0)); common_tac|].
  apply (loco_bind (fun s => rec r s f)); [apply R|]. intros res.
  destruct (account read unused res) as [(read', unused')| |]; cbn [bind]; [|apply loco_panic|apply loco_out].
  destruct (r_node res) as [n|].
  - destruct (_ && _); [|apply IH]. apply (rep_done_loco d b self mn None (fun _ => 0)); common_tac.
  - apply (rep_done_loco d b self mn (r_err res) cursor). exact common_cursor.
Qed.

Definition altOut := (list result * list Z * bool * option eerr * Z)%type.
Lemma alt_loco rec d rules f : locr rec -> forall mr st me mi ms,
  loco (fun s => altLoop rec d rules s f mr st me mi ms : outcome (altOut * stream)).
Proof.
  intros R. induction rules as [|r rules IH]; intros mr st me mi ms; cbn [altLoop]; [apply (loco_ret (_ : altOut))|].
  apply (loco_prepend mr (fun s0 => let* (res, s1) := rec r s0 f in
    let s2 := unwrap d s1 in
    match r_node res with
    | Some _ => altLoop rec d rules s2 f (if (length mr <? length (r_read res))%nat then r_read res else mr) (st && r_sticky res) me mi (res :: ms)
    | None =>
      if r_erridx res >? mi
      then altLoop rec d rules s2 f (if (length mr <? length (r_read res))%nat then r_read res else mr) (st && r_sticky res) (r_err res) (r_erridx res) ms
      else altLoop rec d rules s2 f (if (length mr <? length (r_read res))%nat then r_read res else mr) (st && r_sticky res) me mi ms
    end : outcome (altOut * stream))).
  apply (loco_bind (fun s => rec r s f)); [apply R|]. intros res. cbv zeta.
  destruct (r_node res) as [n|]; [|destruct (r_erridx res >? mi)];
    match goal with |- loco (fun a => altLoop rec d rules (unwrap d a) f ?p ?q ?r ?t ?u) =>
      apply (loco_unwrap d (fun s2 => altLoop rec d rules s2 f p q r t u : outcome (altOut * stream))) end; apply IH.
Qed.

Lemma choice_loco rec b self d f gs : locr rec -> forall mr st me mi,
  loco (fun s => choiceLoop rec b self d gs s f mr st me mi).
Proof.
  intros R. induction gs as [|g gs IH]; intros mr st me mi; cbn [choiceLoop].
  - destruct (descOk self); [apply loco_ret|apply loco_panic].
  - apply (loco_bind (fun s => altLoop rec d g s f mr st me mi [] : outcome (altOut * stream))
      (fun a s' => let '(matched, maxRead', sticky', maxErr', maxIdx') := a in
        match select matched with
        | None => Ok (mkRes None (Some (EAmbiguity (b_name b) (tied matched))) 0 maxRead' [] false, s')
        | Some None => choiceLoop rec b self d gs s' f maxRead' sticky' maxErr' maxIdx'
        | Some (Some found) =>
          match r_node found with
          | None => Panic
          | Some n =>
            let* unused := slice_from maxRead' (countUsed found) in
            Ok (mkRes (Some (mkNode TChoice b [] [n] (n_pos n) sticky')) None 0 maxRead' unused sticky', s')
          end
        end)); [exact (alt_loco rec d g f R mr st me mi [])|].
    intros ((((ms & mr') & st') & me') & mi'). destruct (select ms) as [[found|]|].
    + destruct (r_node found) as [n|]; [|apply loco_panic].
      apply (loco_let _ (fun unused s' => Ok (_, s'))). intros u. apply loco_ret.
    + apply IH.
    + apply loco_ret.
Qed.

Lemma greedy_loco rec rules f : locr rec -> loco (fun s => mostGreedy rec rules s f).
Proof.
  intros R. unfold mostGreedy.
  apply (loco_look depth (fun d s => let* (matched, maxRead, _, _, _, s') := altLoop rec d rules s f [] true None 0 [] in
    match select matched with
    | None => Ok (mkRes None (Some (EGreedy (tied matched))) 0 [] [] false, s')
    | Some None => Ok (mkRes None None 0 maxRead maxRead false, s')
    | Some (Some found) =>
      let* unused := slice_from maxRead (countUsed found) in
      Ok (mkRes (r_node found) None 0 maxRead unused (r_sticky found), s')
    end)); [exact common_depth|].
  intros d.
  apply (loco_bind (fun s => altLoop rec d rules s f [] true None 0 [] : outcome (altOut * stream))
      (fun a s' => let '(matched, maxRead, _, _, _) := a in match select matched with
    | None => Ok (mkRes None (Some (EGreedy (tied matched))) 0 [] [] false, s')
    | Some None => Ok (mkRes None None 0 maxRead maxRead false, s')
    | Some (Some found) =>
      let* unused := slice_from maxRead (countUsed found) in
      Ok (mkRes (r_node found) None 0 maxRead unused (r_sticky found), s')
    end)); [exact (alt_loco rec d rules f R [] true None 0 [])|].
  intros ((((ms & mr') & st') & me') & mi'). destruct (select ms) as [[found|]|].
  - apply (loco_let _ (fun unused s' => Ok (_, s'))). intros u. apply loco_ret.
  - apply loco_ret.
  - apply loco_ret.
Qed.

Definition iterOut := ((list Z * list Z * list Z) + blockExit)%type.
Definition swap {A} (o : outcome (stream * A)) : outcome (A * stream) :=
  let* (s, a) := o in Ok (a, s).

Definition escOut := (bool * list Z * list Z * list Z)%type.
Definition escPart (rec : evalT) (esc : option rule) (used unused : list Z) (cs : stream) : outcome (escOut * stream) :=
  match esc with
  | None => Ok (false, [], used, unused, cs)
  | Some e =>
    let* (res, cs1) := rec e cs NOT_SKIP in
    match r_node res with
    | Some _ => let* u := charsUsed res in Ok (true, u, used ++ u, r_unused res, cs1)
    | None => Ok (false, [], used, r_read res, cs1)
    end
  end.
Definition exclPart (rec : evalT) (excl : list rule) (cs : stream) : outcome (option result * stream) :=
  match excl with
  | [] => Ok (None, cs)
  | _ => let* (res, cs1) := mostGreedy rec excl cs NOT_SKIP in Ok (Some res, cs1)
  end.
Definition closePart (rec : evalT) (cl : rule) (escaped : bool) (escChars used content : list Z) (cs : stream)
  : outcome (iterOut * stream) :=
  let* (res, cs) := rec cl cs NOT_SKIP in
  let unused := r_unused res in
  match r_node res with
  | Some _ =>
    let* u := charsUsed res in
    if escaped then Ok (inl (used ++ u, unused, content ++ u), cs)
    else Ok (inr (BClose res (used ++ content ++ u) unused content), cs)
  | None =>
    let content := content ++ escChars in
    let cs := prepend cs unused in
    if peek cs =? EOFChar then Ok (inr (BEOF (used ++ content) unused), cs)
    else let (c, cs) := next cs in Ok (inl (used, [], content ++ escChars ++ [c]), cs)
  end.
Definition iter' (rec : evalT) (cl : rule) (esc : option rule) (excl : list rule) (used unused content : list Z)
  (cs : stream) : outcome (iterOut * stream) :=
  let* (a, cs) := escPart rec esc used unused cs in
  let '(escaped, escChars, used, unused) := a in
  let cs := prepend cs unused in
  let* (exres, cs) := exclPart rec excl cs in
  let exfound := match exres with Some res => (match r_node res with Some _ => true | None => false end) | None => false end in
  let exr := match exres with Some res => res | None => mkRes None None 0 [] [] false end in
  if exfound then
    if escaped then
      let* u := charsUsed exr in Ok (inl (used ++ u, r_unused exr, content ++ u), cs)
    else Ok (inr (BExclude exr used content), cs)
  else
    let unused := match exres with Some res => r_read res | None => unused end in
    closePart rec cl escaped escChars used content (prepend cs unused).

Lemma iter_eq rec cl esc excl cs used unused content :
  swap (blockIter rec cl esc excl cs used unused content) = iter' rec cl esc excl used unused content cs.
Proof.
  unfold swap, blockIter, iter', escPart.
  assert (X : forall (a : bool) (b u n : list Z) (c : stream),
    (let* (s, r) :=
      let cs := prepend c n in
      let* (exres, cs) :=
        match excl with
        | [] => Ok (None, cs)
        | _ => let* (res, cs1) := mostGreedy rec excl cs NOT_SKIP in Ok (Some res, cs1)
        end in
      let exfound := match exres with Some res => (match r_node res with Some _ => true | None => false end) | None => false end in
      let exr := match exres with Some res => res | None => mkRes None None 0 [] [] false end in
      if exfound then
        if a then
          let* u0 := charsUsed exr in
          Ok (cs, inl (u ++ u0, r_unused exr, content ++ u0))
        else Ok (cs, inr (BExclude exr u content))
      else
        let unused := match exres with Some res => r_read res | None => n end in
        let cs := prepend cs unused in
        let* (res, cs) := rec cl cs NOT_SKIP in
        let unused := r_unused res in
        match r_node res with
        | Some _ =>
          let* u0 := charsUsed res in
          if a then Ok (cs, inl (u ++ u0, unused, content ++ u0))
          else Ok (cs, inr (BClose res (u ++ content ++ u0) unused content))
        | None =>
          let content := content ++ b in
          let cs := prepend cs unused in
          if peek cs =? EOFChar then Ok (cs, inr (BEOF (u ++ content) unused))
          else
            let '(c, cs) := next cs in
            Ok (cs, inl (u, [], content ++ b ++ [c]))
        end in Ok (r, s)) =
    let cs := prepend c n in
    let* (exres, cs) := exclPart rec excl cs in
    let exfound := match exres with Some res => (match r_node res with Some _ => true | None => false end) | None => false end in
    let exr := match exres with Some res => res | None => mkRes None None 0 [] [] false end in
    if exfound then
      if a then
        let* u0 := charsUsed exr in Ok (inl (u ++ u0, r_unused exr, content ++ u0), cs)
      else Ok (inr (BExclude exr u content), cs)
    else
      let unused := match exres with Some res => r_read res | None => n end in
      closePart rec cl a b u content (prepend cs unused)).
  { intros a b u n c. cbv zeta. unfold exclPart, closePart.
    destruct (match excl with [] => Ok (None, prepend c n) | _ => _ end) as [(exres, cs1)| |]; [|reflexivity..]. cbn [bind].
    destruct (match exres with Some res => _ | None => false end).
    - destruct a; [|reflexivity]. destruct (charsUsed _); reflexivity.
    - destruct (rec cl _ NOT_SKIP) as [(res, cs2)| |]; [|reflexivity..]. cbn [bind].
      destruct (r_node res).
      + destruct (charsUsed res); [|reflexivity..]. cbn [bind]. destruct a; reflexivity.
      + destruct (peek _ =? EOFChar); [reflexivity|]. destruct (next _). reflexivity. }
  destruct esc as [e|].
  - destruct (rec e cs NOT_SKIP) as [(res, cs1)| |]; [|reflexivity..]. cbn [bind].
    destruct (r_node res).
    + destruct (charsUsed res) as [u| |]; [|reflexivity..]. cbn [bind]. exact (X true u (used ++ u) (r_unused res) cs1).
    + cbn [bind]. exact (X false [] used (r_read res) cs1).
  - cbn [bind]. exact (X false [] used unused cs).
Qed.

Lemma close_loco rec cl a b u content : locr rec -> loco (closePart rec cl a b u content).
Proof.
  intros R. unfold closePart. apply (loco_bind (fun s => rec cl s NOT_SKIP)); [apply R|]. intros res.
  destruct (r_node res).
  - apply (loco_let _ (fun u0 cs => if a then Ok (inl (u ++ u0, r_unused res, content ++ u0), cs)
      else Ok (inr (BClose res (u ++ content ++ u0) (r_unused res) content), cs))). intros x. destruct a; apply loco_ret.
  - apply (loco_prepend (r_unused res) (fun cs => if peek cs =? EOFChar then Ok (inr (BEOF (u ++ content ++ b) (r_unused res)), cs)
      else let (c, cs) := next cs in Ok (inl (u, [], (content ++ b) ++ b ++ [c]), cs))).
    apply loco_if; [exact common_eof|apply loco_ret|]. apply (loco_then next); [exact next_loc|]. intros c. apply loco_ret.
Qed.

Lemma esc_loco rec esc used unused : locr rec -> loco (escPart rec esc used unused).
Proof.
  intros R. unfold escPart. destruct esc as [e|]; [|apply (loco_ret (_ : escOut))].
  apply (loco_bind (fun s => rec e s NOT_SKIP)); [apply R|]. intros res. destruct (r_node res); [|apply (loco_ret (_ : escOut))].
  apply (loco_let _ (fun u cs1 => Ok ((true, u, used ++ u, r_unused res) : escOut, cs1))). intros x. apply loco_ret.
Qed.
Lemma excl_loco rec excl : locr rec -> loco (exclPart rec excl).
Proof.
  intros R. unfold exclPart. destruct excl as [|x excl]; [apply loco_ret|].
  apply (loco_bind (fun s => mostGreedy rec (x :: excl) s NOT_SKIP)); [exact (greedy_loco rec (x :: excl) NOT_SKIP R)|].
  intros res. apply loco_ret.
Qed.

Lemma iter_loco rec cl esc excl used unused content : locr rec -> loco (iter' rec cl esc excl used unused content).
Proof.
  intros R. unfold iter'.
  refine (loco_bind (escPart rec esc used unused) (fun a cs => _) (esc_loco rec esc used unused R) _).
  intros (((a & b) & u) & n).
  refine (loco_prepend n (fun cs => let* (exres, cs) := exclPart rec excl cs in _) _).
  refine (loco_bind (exclPart rec excl) _ (excl_loco rec excl R) _). intros exres. cbv zeta.
  destruct (match exres with Some res => _ | None => false end).
  - destruct a; [|apply loco_ret].
    refine (loco_let _ (fun u0 cs => Ok (_, cs)) _). intros x. apply loco_ret.
  - refine (loco_prepend _ (fun cs => closePart rec cl a b u content cs) _). exact (close_loco rec cl a b u content R).
Qed.

Lemma block_loop_loco rec fuel cl esc excl : locr rec -> forall used unused content,
  loco (fun cs => swap (blockLoop rec fuel cl esc excl cs used unused content)).
Proof.
  intros R. induction fuel as [|fuel IH]; intros used unused content; cbn [blockLoop]; [apply loco_out|].
  apply (loco_ext _ (fun cs => let* (a, cs1) := iter' rec cl esc excl used unused content cs in
    match a with
    | inl (used', unused', content') => swap (blockLoop rec fuel cl esc excl cs1 used' unused' content')
    | inr e => Ok (e, cs1)
    end)).
  { intros s. rewrite <- iter_eq. unfold swap. destruct (blockIter rec cl esc excl s used unused content) as [(cs1, a)| |]; [|reflexivity..].
    cbn [bind]. destruct a as [((u & n) & c)|e]; reflexivity. }
  apply (loco_bind (iter' rec cl esc excl used unused content)); [exact (iter_loco rec cl esc excl used unused content R)|].
  intros [((u & n) & c)|e]; [apply IH|apply loco_ret].
Qed.

Lemma block_loco rec fuel b op v cl esc excl f : locr rec -> loco (fun s => evalBlock rec fuel b op v cl esc excl s f).
Proof.
  intros R. unfold evalBlock.
  set (fin := fun (on : node) (cpos : option position) (e : blockExit) (s' : stream) =>
    match e with
    | BExclude xr used content =>
      let* u := charsUsed xr in
      Ok (mkRes None (Some (EExclude u)) (cursor s') (used ++ content ++ r_read xr) (used ++ content ++ r_read xr) false, s')
    | BEOF used unused =>
      if descOk cl then Ok (mkRes None (Some (EBlockEOF cl)) (cursor s') (used ++ unused) (used ++ unused) false, s') else Panic
    | BClose cres used unused content =>
      let cnode := Node TChars [] content [] cpos true false false false in
      let kids := on :: cnode :: (if v then [] else match r_node cres with Some n => [n] | None => [] end) in
      Ok (mkRes (Some (mkNode TBlock b [] kids (n_pos on) false)) None 0 (used ++ unused)
            (if v then r_read cres else unused) false, s')
    end).
  assert (FIN : forall on cpos e, loco (fin on cpos e)).
  { intros on cpos [xr used content|used unused|cres used unused content]; unfold fin.
    - apply (loco_let (charsUsed xr) (fun u s' => Ok (mkRes None (Some (EExclude u)) (cursor s') (used ++ content ++ r_read xr) (used ++ content ++ r_read xr) false, s'))).
      intros u. apply (loco_pure (fun s' => mkRes None (Some (EExclude u)) (cursor s') (used ++ content ++ r_read xr) (used ++ content ++ r_read xr) false)). common_tac.
    - destruct (descOk cl); [|apply loco_panic].
      apply (loco_pure (fun s' => mkRes None (Some (EBlockEOF cl)) (cursor s') (used ++ unused) (used ++ unused) false)). common_tac.
    - apply loco_ret. }
  set (body := fun (d : nat) (s : stream) => let* (ores, s1) := rec op s f in
    match r_node ores with
    | None => Ok (mkRes None (r_err ores) (cursor s1) (r_read ores) (r_unused ores) false, s1)
    | Some on => let* used := charsUsed ores in
      (fun s1 => let (cpos, cs) := positionOf s1 in
        let* (e, cs') := swap (blockLoop rec fuel cl esc excl cs used (r_unused ores) []) in
        fin on cpos e (unwrap d cs')) (prepend s1 (r_unused ores))
    end).
  apply (loco_ext _ (fun s => body (depth s) s)).
  { intros s. unfold body. destruct (rec op s f) as [(ores, s1)| |]; [|reflexivity..]. cbn [bind].
    destruct (r_node ores) as [on|]; [|reflexivity]. destruct (charsUsed ores) as [used| |]; [|reflexivity..]. cbn [bind].
    destruct (positionOf (prepend s1 (r_unused ores))) as [cpos cs]. unfold swap.
    destruct (blockLoop rec fuel cl esc excl cs used (r_unused ores) []) as [(cs', e)| |]; [|reflexivity..]. cbn [bind].
    unfold fin. destruct e; reflexivity. }
  apply (loco_look depth body); [exact common_depth|]. intros d. unfold body.
  apply (loco_bind (fun s => rec op s f)); [apply R|]. intros ores. destruct (r_node ores) as [on|].
  - destruct (charsUsed ores) as [used| |]; cbn [bind]; [|apply loco_panic|apply loco_out].
    apply (loco_prepend (r_unused ores) (fun s1 => let (cpos, cs) := positionOf s1 in
        let* (e, cs') := swap (blockLoop rec fuel cl esc excl cs used (r_unused ores) []) in
        fin on cpos e (unwrap d cs'))).
    apply (loco_then positionOf); [exact position_loc|]. intros cpos.
    apply (loco_bind (fun cs => swap (blockLoop rec fuel cl esc excl cs used (r_unused ores) []))
      (fun e cs' => fin on cpos e (unwrap d cs'))).
    + exact (block_loop_loco rec fuel cl esc excl R used (r_unused ores) []).
    + intros e. apply (loco_unwrap d (fin on cpos e)). apply FIN.
  - apply (loco_pure (fun s1 => mkRes None (r_err ores) (cursor s1) (r_read ores) (r_unused ores) false)). common_tac.
Qed.

Lemma step_loco g rec fuel : locr rec -> locr (evalStep g rec fuel).
Proof.
  intros R r f. destruct r; cbn [evalStep].
  - apply char_loco.
  - apply chars_loco.
  - apply string_loco.
  - apply range_loco.
  - apply eof_loco.
  - destruct (lookup g ref) as [r'|]; [|apply loco_ret].
    apply (loco_bind (fun s => rec r' s f)); [apply R|]. intros res. apply loco_ret.
  - apply (loco_bind (fun s => rec r s f)); [apply R|]. intros res. destruct (r_node res); apply loco_ret.
  - apply (loco_bind (fun s => rec r s f)); [apply R|]. intros res. destruct (r_node res); apply loco_ret.
  - apply (loco_look depth (fun d s => repLoop rec fuel b (RRep b r rmin rmax) r rmin rmax d s f [] [] true [] None)); [exact common_depth|].
    intros d. exact (rep_loco rec fuel b _ r rmin rmax d f R [] [] true [] None).
  - apply (loco_look depth (fun d s => choiceLoop rec b (RChoice b groups) d groups s f [] true None 0)); [exact common_depth|].
    intros d. exact (choice_loco rec b _ d f groups R [] true None 0).
  - apply (loco_look depth (fun d s => concatLoop rec b (RConcat b rules) d rules s f [] [] true [] None)); [exact common_depth|].
    intros d. exact (concat_loco rec b _ d rules R f [] [] true [] None).
  - exact (block_loco rec fuel b _ _ _ _ _ f R).
Qed.

Theorem eval_loco fuel g : locr (eval fuel g).
Proof.
  induction fuel as [|fuel IH]; [intros r f; apply loco_out|]. intros r f. exact (step_loco g (eval fuel g) (S fuel) IH r f).
Qed.
