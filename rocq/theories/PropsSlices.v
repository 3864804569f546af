(** C84: sharing arrays between slices does not show. *)
From Verif Require Import Base Stream Node Rule Parse Grammar PropsDriver Slices SliceFacts SliceEval SliceDrive.

(** [append] in place is visible through another slice of the array: with room for two more, the
    second [append] to the same slice changes what the first one returned. *)
Definition c84Room : heap -> slice -> list Z -> nat := fun _ s l => (sl_len s + length l)%nat.
Example C84_sharing : exists s a b h1 h2 h3, add c84Room nilS [1; 2] [] = Ok (s, h1) /\ add c84Room s [3] h1 = Ok (a, h2) /\ add c84Room s [4] h2 = Ok (b, h3) /\
  cells h2 a = [1; 2; 3] /\ cells h3 a = [1; 2; 4] /\ cells h3 b = [1; 2; 4].
Proof. do 6 eexists. repeat split; vm_compute; reflexivity. Qed.

(** The evaluator on slices computes what the evaluator on lists does, whatever room [append] leaves,
    and never writes into an array that was there before: those of the caller, such as the text. *)
Theorem C84_eval : forall grow fuel g r s f h, within h s ->
  match hEval grow fuel g r s f h with
  | Ok (x, s', h') => eval fuel g r (streamIn h s) f = Ok (resultIn h' x, streamIn h' s') /\ exists more, h' = h ++ more
  | Panic => eval fuel g r (streamIn h s) f = Panic
  | OutOfFuel => eval fuel g r (streamIn h s) f = OutOfFuel
  end.
Proof. exact slices_eval. Qed.
Print Assumptions C84_eval.
Theorem C84_rule : forall grow fuel g name sample h,
  match hEvalRule grow fuel g name sample h with
  | Ok (x, h') => evalRule fuel g name sample = Ok (resultIn h' x) /\ exists more, h' = h ++ more
  | Panic => evalRule fuel g name sample = Panic
  | OutOfFuel => evalRule fuel g name sample = OutOfFuel
  end.
Proof. exact slices_rule. Qed.
Print Assumptions C84_rule.
Theorem C84_embed : forall grow lf fuel g name sample h,
  match hEvalEmbed grow lf fuel g name sample with
  | Some m => match m h with
    | Ok (x, h') => evalEmbed lf fuel g name sample = Some (Ok (nodeIn h' x)) /\ exists more, h' = h ++ more
    | Panic => evalEmbed lf fuel g name sample = Some Panic
    | OutOfFuel => evalEmbed lf fuel g name sample = Some OutOfFuel
    end
  | None => evalEmbed lf fuel g name sample = None
  end.
Proof. exact slices_embed. Qed.
Print Assumptions C84_embed.
Theorem C84_raw : forall grow lf fuel g o s h, within h s ->
  match hEvalRaw grow lf fuel g o s h with
  | Ok (x, s', h') => evalRaw lf fuel g (ordersOf o) (streamIn h s) = Ok (rawIn h' x, streamIn h' s') /\ exists more, h' = h ++ more
  | Panic => evalRaw lf fuel g (ordersOf o) (streamIn h s) = Panic
  | OutOfFuel => evalRaw lf fuel g (ordersOf o) (streamIn h s) = OutOfFuel
  end.
Proof. exact slices_raw. Qed.
Print Assumptions C84_raw.

(** A choice whose first alternative reads ahead, a repetition and a block: with room to append in
    place there are fewer arrays than without, and the same answer. *)
Definition c84G : grammar := Eval vm_compute in grammarOf (rs "s = ( ""ab"" 'x' ) | ( {'a'-'z'}<2> <""("" "")""> )").
Definition c84None : heap -> slice -> list Z -> nat := fun _ _ _ => 0%nat.
Definition c84Run (grow : heap -> slice -> list Z -> nat) : option (nat * result) :=
  match hEvalRule grow 40 c84G (rs "s") (rs "aba (some text) ..") [] with Ok (x, h) => Some (length h, resultIn h x) | _ => None end.
Example C84_example : match c84Run c84Room, c84Run c84None with
  | Some (a, x), Some (b, y) => (a < b)%nat /\ x = y /\ evalRule 40 c84G (rs "s") (rs "aba (some text) ..") = Ok x /\ exists n, r_node x = Some n /\ text n = rs "aba (some text)"
  | _, _ => False
  end.
Proof. vm_compute. split; [apply le_n_S; repeat (apply le_n || apply le_S)|]. split; [reflexivity|]. split; [reflexivity|]. eexists. split; reflexivity. Qed.
Example C84_within : forall t, exists s h, hNewStream c84Room t [] = Ok (s, h) /\ within h s /\ streamIn h s = newStream t.
Proof.
  intros t. destruct (hNewStream c84Room t []) as [[s h]| |] eqn:E; unfold hNewStream, add, pbind, ret in E; destruct t as [|c t]; cbn in E; try discriminate; injection E as <- <-; eexists; eexists; (split; [reflexivity|]).
  - split; [split; [constructor|left; reflexivity]|reflexivity].
  - split.
    + split; [constructor|]. right. cbn. rewrite app_length. lia.
    + unfold streamIn, newStream, newCstr, cells. cbn. rewrite firstn_app, Nat.sub_diag, firstn_all. cbn. now rewrite app_nil_r.
Qed.
