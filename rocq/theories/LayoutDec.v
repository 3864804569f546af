(** Deciding the conditions of [SpecLayout] in examples. *)
From Verif Require Import Base Stream Node Rule SpecRule SpecEv SpecDriver SpecLayout.

Section Dec.
Variables W E : list Z.
Definition inb (x : Z) (l : list Z) : bool := existsb (Z.eqb x) l.
Lemma inb_ok x l : inb x l = true <-> In x l.
Proof. unfold inb. rewrite existsb_exists. split; [intros (y & I & H); apply Z.eqb_eq in H; now subst|intros H; exists x; split; [exact H|apply Z.eqb_refl]]. Qed.
Lemma notin_ok x l : negb (inb x l) = true -> ~ In x l.
Proof. intros H I. apply inb_ok in I. now rewrite I in H. Qed.
Fixpoint okFree (r : rule) : bool :=
  match r with
  | RChar _ c _ => negb (inb c W)
  | RChars _ l | RString _ l => forallb (fun x => negb (inb x W)) l
  | RRange _ lo _ _ _ => forallb (fun x => x <? lo) W
  | REOF _ | RRef _ _ => true
  | RGroup _ x | ROption _ x | RRep _ x _ _ => okFree x
  | RChoice _ gs => forallb (forallb okFree) gs
  | RConcat _ l => forallb okFree l
  | RBlock _ o _ c e xs => okFree o && okFree c && match e with None => true | Some (RChar _ x _) => inb x E && negb (inb x W) | Some _ => false end && forallb okFree xs
  end.
Lemma okFree_ok : forall r, okFree r = true -> layoutFree W E r.
Proof.
  fix IH 1. intros [b c u|b l|b l|b lo lu hi hu|b|b n|b x|b x|b x mn mx|b gs|b l|b o v c e xs]; cbn [okFree]; intros H.
  - constructor. now apply notin_ok.
  - constructor. apply Forall_forall. intros x I. rewrite forallb_forall in H. now apply notin_ok, H.
  - constructor. apply Forall_forall. intros x I. rewrite forallb_forall in H. now apply notin_ok, H.
  - constructor. intros x I. rewrite forallb_forall in H. now apply Z.ltb_lt, H.
  - constructor.
  - constructor.
  - constructor. now apply IH.
  - constructor. now apply IH.
  - constructor. now apply IH.
  - constructor. revert gs H. fix IG 1. intros [|grp gs] H q x; [intros []|]. cbn [forallb] in H. apply andb_prop in H as (H1 & H2). intros [<-|I]; [|now apply (IG gs)].
    revert grp H1 x. fix IL 1. intros [|y grp] H1 x; [intros []|]. cbn [forallb] in H1. apply andb_prop in H1 as (H3 & H4). intros [<-|I]; [now apply IH|now apply (IL grp)].
  - constructor. revert l H. fix IL 1. intros [|y l] H x; [intros []|]. cbn [forallb] in H. apply andb_prop in H as (H3 & H4). intros [<-|I]; [now apply IH|now apply (IL l)].
  - apply andb_prop in H as (H & H4). apply andb_prop in H as (H & H3). apply andb_prop in H as (H1 & H2). constructor; [now apply IH|now apply IH| |].
    + destruct e as [[]|]; try discriminate; [|exact I]. apply andb_prop in H3 as (H3 & H5). split; [now apply inb_ok|now apply notin_ok].
    + revert xs H4. fix IL 1. intros [|y l] H x; [intros []|]. cbn [forallb] in H. apply andb_prop in H as (H5 & H6). intros [<-|I]; [now apply IH|now apply (IL l)].
Qed.
Definition okFreeRules (g : rules_t) : bool := forallb (fun x => okFree (snd x)) g.
Lemma okFreeRules_ok g : okFreeRules g = true -> layoutFreeRules W E g.
Proof.
  intros H n r. induction g as [|[k y] g IH]; cbn [lookup]; [discriminate|]. cbn in H. apply andb_prop in H as (H1 & H2). destruct (runes_eqb k n); [intros [= ->]; now apply okFree_ok|now apply IH].
Qed.
Definition okRun (w : list Z) : bool := match w with [] => false | _ => forallb (fun x => inb x W) w end.
Lemma okRun_ok w : okRun w = true -> run W w.
Proof. destruct w as [|x w]; [discriminate|]. intros H. split; [discriminate|]. apply Forall_forall. intros y I. unfold okRun in H. rewrite forallb_forall in H. now apply inb_ok, H. Qed.
Fixpoint okLayout (P : list piece) : bool :=
  match P with
  | [] => true
  | PRune x :: Q => okLayout Q && match Q with PRun _ _ :: _ => negb (isWS x) && negb (inb x E) | _ => true end
  | PRun w w' :: Q => okRun w && okRun w' && okLayout Q && match Q with PRun _ _ :: _ => false | PRune x :: _ => negb (isWS x) | [] => true end
  end.
Lemma okLayout_ok P : okLayout P = true -> okPieces W E P.
Proof.
  induction P as [|[x|w w'] P IH]; cbn [okLayout]; intros H; [constructor| |].
  - apply andb_prop in H as (H1 & H2). constructor; [now apply IH|]. destruct P as [|[y|v v'] P]; auto. apply andb_prop in H2 as (H2 & H3). split; [now destruct (isWS x)|now apply notin_ok].
  - apply andb_prop in H as (H & H4). apply andb_prop in H as (H & H3). apply andb_prop in H as (H1 & H2). constructor; [now apply okRun_ok|now apply okRun_ok|now apply IH|]. destruct P as [|[y|v v'] P]; auto; [now destruct (isWS y)|discriminate].
Qed.
End Dec.
