(** Facts about the outlines of rules. *)
From Verif Require Import Base Stream Node Rule SpecRule TermSpec Parse Grammar Print SpecParse Show SpecShow ShowFacts SpecSerial.

Definition pieces (m : list Z) (e : nat * rule) : list Z :=
  concat (repeat m (fst e)) ++ indent (concat (repeat m (fst e))) (intro m (snd e)).
Lemma parts_some d r : parts d r <> [].
Proof. destruct r; discriminate. Qed.
Lemma repeat_clear m d : ~ In 10 m -> ~ In 10 (concat (repeat m d)).
Proof. intros N. induction d as [|d IH]; cbn [repeat concat]; [intros []|]. rewrite in_app_iff. tauto. Qed.
Lemma pieces_deeper m d r : ~ In 10 m -> indent m (10 :: pieces m (d, r)) = 10 :: pieces m (S d, r).
Proof.
  intros N. unfold pieces. cbn [fst snd]. rewrite (indent_branch m (concat (repeat m d))) by now apply repeat_clear. cbn [repeat concat]. now rewrite <- app_assoc.
Qed.
Lemma parts_deeper d r : List.map (fun e => (S (fst e), snd e)) (parts d r) = parts (S d) r.
Proof.
  revert d. induction r using rule_ind'; intros d; cbn [parts List.map fst snd]; try reflexivity; f_equal; auto.
  - induction gs as [|grp gs IG]; [reflexivity|]. cbn [flat_map]. rewrite map_app. f_equal; [|apply IG; intros; eapply H; [right|]; eauto].
    assert (A : forall x, In x grp -> forall d, List.map (fun e => (S (fst e), snd e)) (parts d x) = parts (S d) x) by (intros; eapply H; [left; reflexivity|assumption]).
    clear IG H. induction grp as [|x grp IH]; [reflexivity|]. cbn [flat_map]. rewrite map_app. f_equal; [apply A; now left|apply IH; intros; apply A; now right].
  - assert (A : forall l', (forall x, In x l' -> In x l) -> List.map (fun e => (S (fst e), snd e)) (flat_map (parts (S d)) l') = flat_map (parts (S (S d))) l').
    { induction l' as [|x l' IH]; intros I; [reflexivity|]. cbn [flat_map]. rewrite map_app. f_equal; [apply H, I; now left|apply IH; intros; apply I; now right]. }
    destruct l as [|x [|y l]]; [reflexivity|reflexivity|]. now apply A.
Qed.
Lemma lines_deeper m r d : ~ In 10 m ->
  indent m (flat_map (fun x => 10 :: x) (List.map (pieces m) (parts d r))) = flat_map (fun x => 10 :: x) (List.map (pieces m) (parts (S d) r)).
Proof.
  intros N. rewrite <- parts_deeper, map_map. induction (parts d r) as [|[k x] l IH]; [reflexivity|]. cbn [List.map flat_map]. rewrite <- app_comm_cons, <- app_comm_cons.
  change (10 :: pieces m (k, x) ++ flat_map (fun x => 10 :: x) (List.map (pieces m) l)) with ((10 :: pieces m (k, x)) ++ flat_map (fun x => 10 :: x) (List.map (pieces m) l)).
  rewrite indent_app, IH, pieces_deeper by exact N. reflexivity.
Qed.
Lemma repSpec_clear mn mx : ~ In 10 (repSpec mn mx).
Proof.
  assert (D : forall f n, ~ In 10 (dec f n)).
  { induction f as [|f IH]; intros n; cbn [dec]; [intros []|]. rewrite in_app_iff. intros [I|[I|[]]]; [destruct (n <? 10); [exact I|exact (IH _ I)]|]. pose proof (Z.mod_pos_bound n 10). lia. }
  unfold repSpec, decimal. destruct (mn =? mx), (negb (mn =? 0)), (mx =? 0), (mn =? 1); cbn [app In]; rewrite ?in_app_iff; cbn [In]; rewrite ?in_app_iff; cbn [In]; unfold cLt, cGt;
    intuition (try discriminate; eauto; eapply D; eauto).
Qed.
Lemma outline_lines m r : ~ In 10 m -> 10 :: outlineOf m r = flat_map (fun x => 10 :: x) (List.map (pieces m) (parts 0 r)).
Proof.
  intros N.
  assert (A : forall l, (forall x, In x l -> 10 :: outlineOf m x = flat_map (fun x => 10 :: x) (List.map (pieces m) (parts 0 x))) ->
    indent m (flat_map (fun x => 10 :: outlineOf m x) l) = flat_map (fun x => 10 :: x) (List.map (pieces m) (flat_map (parts 1) l))).
  { induction l as [|x l IH]; intros H; [reflexivity|]. cbn [flat_map]. rewrite map_app, flat_map_app, <- IH by (intros; apply H; now right).
    rewrite <- lines_deeper, <- H by (try exact N; now left). change (10 :: outlineOf m x ++ flat_map (fun x0 => 10 :: outlineOf m x0) l) with ((10 :: outlineOf m x) ++ flat_map (fun x0 => 10 :: outlineOf m x0) l). now rewrite indent_app. }
  assert (A1 : forall x, 10 :: outlineOf m x = flat_map (fun x => 10 :: x) (List.map (pieces m) (parts 0 x)) ->
    indent m (10 :: outlineOf m x) = flat_map (fun x => 10 :: x) (List.map (pieces m) (parts 1 x))) by (intros x H; now rewrite <- lines_deeper, <- H).
  induction r using rule_ind'; cbn [outlineOf parts List.map flat_map]; unfold pieces at 1; cbn [fst snd repeat concat app intro]; rewrite indent_nil; rewrite ?app_nil_r; try reflexivity.
  - rewrite indent_app, (indent_clear m (rs "group:")) by (cbn; intuition lia). cbn [app]. do 7 f_equal. now apply A1.
  - rewrite indent_app, (indent_clear m (rs "option:")) by (cbn; intuition lia). cbn [app]. do 8 f_equal. now apply A1.
  - rewrite !indent_app, (indent_clear m (rs "repetition")), (indent_clear m (rs ":")), (indent_clear m (repSpec mn mx)) by (try apply repSpec_clear; cbn; intuition lia). rewrite <- !app_assoc.
    f_equal. f_equal. f_equal. f_equal. now apply A1.
  - rewrite indent_app, (indent_clear m (rs "choice:")) by (cbn; intuition lia). cbn [app]. do 8 f_equal.
    induction gs as [|grp gs IG]; [reflexivity|]. cbn [flat_map]. rewrite indent_app, map_app, flat_map_app. f_equal; [apply A; intros; eapply H; [now left|assumption]|apply IG; intros; eapply H; [right|]; eauto].
  - destruct l as [|x [|y l]]; [cbn [List.map flat_map]; now rewrite app_nil_r|cbn [List.map flat_map]; now rewrite app_nil_r|].
    rewrite indent_app, (indent_clear m (rs "concatenate:")) by (cbn; intuition lia). change (10 :: rs "concatenate:" ++ ?t) with ((10 :: rs "concatenate:") ++ t). cbn [app]. do 13 f_equal. now apply A.
Qed.
Lemma pieces_outlined m l : Forall2 (outlined m) l (List.map (pieces m) l).
Proof. induction l as [|[d r] l IH]; constructor; [|exact IH]. exists (indent (concat (repeat m d)) (intro m r)). split; [now apply indent_under|reflexivity]. Qed.
Lemma outline_is m r : ~ In 10 m -> isOutline m 0 r (outlineOf m r).
Proof.
  intros N. exists (List.map (pieces m) (parts 0 r)). split; [apply pieces_outlined|]. pose proof (outline_lines m r N) as H. rewrite <- stacked_flat in H; [|].
  - now injection H.
  - destruct r; discriminate.
Qed.
Lemma outline_below m r : ~ In 10 m -> isOutline m 1 r (m ++ indent m (outlineOf m r)).
Proof.
  intros N. exists (List.map (pieces m) (parts 1 r)). split; [apply pieces_outlined|]. pose proof (outline_lines m r N) as H. apply (f_equal (indent m)) in H.
  rewrite lines_deeper, <- stacked_flat in H by (try exact N; destruct r; discriminate). now injection H.
Qed.
