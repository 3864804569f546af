(** C85: merging and simplifying the tree, with slices. *)
From Verif Require Import Base Stream Node Rule Parse Grammar PropsDriver Slices SliceFacts SliceEval SliceDrive SliceAst SliceFresh SliceMerge PropsSlices.

(** MergeStickyNodes appends to the [Chars] of a node where they are.  If another node looks at the
    same array it changes: the first node has room for one more, the last one looks at that cell. *)
Definition c85Leaf (s : slice) (sticky : bool) : snode := SNode TChar [] s [] None sticky false false false.
Definition c85Shared : list snode := [c85Leaf (mkSl 0 0 1 2) true; c85Leaf (mkSl 1 0 1 1) true; c85Leaf (mkSl 0 1 1 1) false].
Example C85_sharing : exists ms h', hMergeNodes c84Room c85Shared [[1; 2]; [3]] = Ok (ms, h') /\
  List.map text (List.map (nodeIn h') ms) = [[1; 3]; [3]] /\ List.map text (mergeNodes (List.map (nodeIn [[1; 2]; [3]]) c85Shared)) = [[1; 3]; [2]].
Proof. do 2 eexists. split; [vm_compute; reflexivity|]. split; reflexivity. Qed.

(** But EvalRaw returns trees whose [Chars] each have an array of their own, got after the call. *)
Theorem C85_own : forall grow lf fuel g o s h x s' h', hEvalRaw grow lf fuel g o s h = Ok (HRawOk x, s', h') ->
  (forall c, In c (slicesOfAll x) -> sl_cap c = 0%nat /\ sl_len c = 0%nat \/ (sl_off c = 0 /\ length h <= sl_arr c < length h' /\ sl_len c <= sl_cap c <= length (array h' (sl_arr c)))%nat) /\
  (forall a b c d e, slicesOfAll x = a ++ b :: c ++ d :: e -> sl_cap b = 0%nat \/ sl_cap d = 0%nat \/ sl_arr b <> sl_arr d).
Proof. exact raw_own. Qed.
Print Assumptions C85_own.

(** On such trees the simplification is the one on lists, and changes arrays of these trees only. *)
Theorem C85_simplify : forall grow level l h, fresh 0 h (slicesOfAll l) -> exists ms h', hSimplify grow level l h = Ok (ms, h') /\
  List.map (nodeIn h') ms = simplify level (List.map (nodeIn h) l) /\ frame (slicesOfAll l) h h'.
Proof. exact simplify_views. Qed.
Print Assumptions C85_simplify.
(** Text makes the text of the node and changes no array. *)
Theorem C85_text : forall grow n h, Forall (solid h) (slicesOf n) ->
  exists t h', hText grow n h = Ok (t, h') /\ cells h' t = text (nodeIn h n) /\ forall a, (a < length h)%nat -> array h' a = array h a.
Proof. exact text_views. Qed.
Print Assumptions C85_text.
(** So Eval with its simplification, too, computes on slices what it computes on lists, and leaves
    the arrays of its caller alone. *)
Theorem C85_eval : forall grow lf fuel g o s level h, within h s ->
  match hEvalTop grow lf fuel g o s level h with
  | Ok (x, s', h') => evalTop lf fuel g (ordersOf o) (streamIn h s) level = Ok (rawIn h' x, streamIn h' s') /\ exists more, h' = h ++ more
  | Panic => evalTop lf fuel g (ordersOf o) (streamIn h s) level = Panic
  | OutOfFuel => evalTop lf fuel g (ordersOf o) (streamIn h s) level = OutOfFuel
  end.
Proof. exact slices_top. Qed.
Print Assumptions C85_eval.

(** Words of sticky letters with an absent option between: with room there are fewer arrays. *)
Definition c85G : grammar := Eval vm_compute in grammarOf (rs "s = {'a'-'z'}<1> ['-'] ""="" {'0'-'9'}<1>").
Definition c85O : horders := mkHO (fun _ => rootsOf c85G) (fun _ => [0%nat]) (fun l => l) (rootsOf c85G).
Definition c85Run (grow : heap -> slice -> list Z -> nat) : option (nat * list node) :=
  match (do s <- hNewStream grow (rs "abc = 12"); hEvalTop grow 9 40 (rules_of c85G) c85O s 0) [] with
  | Ok (HRawOk a, _, h) => Some (length h, List.map (nodeIn h) a) | _ => None end.
Example C85_example : match c85Run c84Room, c85Run c84None with
  | Some (a, x), Some (b, y) => (a < b)%nat /\ x = y /\ List.map text x = [rs "abc = 12"] /\ astCountNodes x = 4%nat
  | _, _ => False
  end.
Proof. vm_compute. split; [apply le_n_S; repeat (apply le_n || apply le_S)|]. repeat split. Qed.
