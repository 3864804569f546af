(** Where a block matches no exclude does. *)
From Verif Require Import Base Stream StreamFacts CallFacts Node Rule SpecStream SpecRule TermFacts EvalInv SpecEval SemFacts SpecEv EvFacts EvalSem.

Lemma alts_none g rules f t m st m' st' : EvAlts g rules f t m st [] m' st' ->
  forall x, In x rules -> exists k s, Ev g x f t (OFail k s).
Proof.
  revert m st. induction rules as [|r rules IH]; intros m st H x Hx; [destruct Hx|]. inversion H; subst.
  destruct Hx as [<-|Hx]; eauto.
Qed.

Definition excluded g (excl : list rule) (t : list Z) : Prop := exists x, In x excl /\ forall k s, ~ Ev g x NOT_SKIP t (OFail k s).
Definition fails g (r : rule) (t : list Z) : Prop := exists k s, Ev g r NOT_SKIP t (OFail k s).

Lemma scan_excl g fuel b on u0 v cl esc excl t : forall q p m n u k st,
  semScan (sem fuel g) q b on u0 v cl esc excl t p m = SOk (Match n u k st) ->
  exists pc nc uc kc sc, (p <= pc)%nat /\
    (forall i, (p <= i <= pc)%nat -> forall x, In x excl -> fails g x (skipn i t)) /\
    (forall i, (p <= i < pc)%nat -> fails g cl (skipn i t)) /\
    Ev g cl NOT_SKIP (skipn pc t) (OMatch nc uc kc sc) /\
    n_kids n = on :: contentNode (firstn (pc - u0) (skipn u0 t)) :: (if v then [] else [nc]).
Proof.
  induction q as [|q IH]; intros p m n u k st H; [discriminate|]. rewrite semScan_eq in H.
  destruct (semEsc (sem fuel g) esc excl t p m) as [m1| |]; try discriminate. cbn [sbind] in H.
  assert (XF : forall m2, semExcl (sem fuel g) excl t p m1 = SOk (false, m2) -> forall x, In x excl -> fails g x (skipn p t)).
  { intros m2 E x Hx. unfold semExcl in E. destruct excl as [|y excl]; [destruct Hx|].
    destruct (semAlts (sem fuel g) (y :: excl) (skipn p t) NOT_SKIP 0 true []) as [[[ml kk] ss]| |] eqn:EA; try discriminate. cbn [sbind] in E.
    assert (ml = []) as ->.
    { destruct (pick ml) eqn:EP; try discriminate; [now apply pick_none|]. destruct (m1 <=? p + kk)%nat; discriminate. }
    apply (alts_sound g) in EA as (ml' & E0 & A); [|intros; eapply sem_sound; eauto]. cbn in E0. subst ml'. unfold fails. eapply alts_none; eauto. }
  destruct (semExcl (sem fuel g) excl t p m1) as [[[|] m2]| |] eqn:EX; try discriminate. cbn [sbind] in H.
  specialize (XF m2 eq_refl).
  destruct (sem fuel g cl NOT_SKIP (skipn p t)) as [[nc uc kc sc|kc sc|kc]| |] eqn:EC; try discriminate; cbn [sbind] in H.
  - destruct (m2 <=? p + kc)%nat; [|discriminate]. injection H as <- _ _ _. exists p, nc, uc, kc, sc. split; [lia|].
    split; [intros i Hi; replace i with p by lia; exact XF|]. split; [intros; lia|]. split; [|reflexivity].
    exact (sem_sound _ _ _ _ _ _ EC).
  - destruct (skipn p t) eqn:ES; [discriminate|]. rewrite <- ES in *. destruct (IH _ _ _ _ _ _ H) as (pc & n1 & u1 & k1 & s1 & L & A & B & C & D).
    exists pc, n1, u1, k1, s1. split; [lia|]. split.
    + intros i Hi. destruct (Nat.eq_dec i p) as [->|NE]; [exact XF|apply A; lia].
    + split; [|auto]. intros i Hi. destruct (Nat.eq_dec i p) as [->|NE]; [|apply B; lia].
      exists kc, sc. exact (sem_sound _ _ _ _ _ _ EC).
Qed.

Theorem block_excludes g fuel b op v cl esc excl s f res s' n :
  wfRules g -> wfRule (RBlock b op v cl esc excl) -> runesOk (rest s) ->
  eval fuel g (RBlock b op v cl esc excl) s f = Ok (res, s') ->
  sem fuel g (RBlock b op v cl esc excl) f (rest s) <> SUnsafe -> r_node res = Some n ->
  exists no u k st pc nc uc kc sc, Ev g op f (rest s) (OMatch no u k st) /\ (u <= pc)%nat /\
    (forall i, (u <= i <= pc)%nat -> forall x, In x excl -> fails g x (skipn i (rest s))) /\
    (forall i, (u <= i < pc)%nat -> fails g cl (skipn i (rest s))) /\
    Ev g cl NOT_SKIP (skipn pc (rest s)) (OMatch nc uc kc sc) /\
    List.map erase (n_kids n) = no :: contentNode (firstn (pc - u) (skipn u (rest s))) :: (if v then [] else [nc]).
Proof.
  intros G W C E SU N. pose proof (sem_lock g fuel G _ f s _ W C eq_refl) as L. unfold lock in L.
  destruct (sem fuel g (RBlock b op v cl esc excl) f (rest s)) as [y| |] eqn:Y; [|tauto|congruence].
  destruct L as (res0 & s0 & E' & SA & M). rewrite E in E'. injection E' as <- <-.
  destruct fuel as [|fuel]; [discriminate|]. cbn [sem semStep] in Y. unfold semBlock in Y.
  destruct SA as (_ & _ & SA). destruct y as [tn tu tk ts|tk ts|tk]; [|exfalso..].
  2: { assert (r_node res = None) by tauto. congruence. }
  2: { assert (r_node res = None) by tauto. congruence. }
  destruct SA as (_ & _ & _ & nd & EN & EE). rewrite N in EN. injection EN as <-.
  destruct (sem fuel g op f (rest s)) as [[no u k st|k st|k]| |] eqn:EO; try discriminate. cbn [sbind] in Y.
  destruct (match esc with Some _ => true | None => (k =? u)%nat end); [|discriminate].
  destruct (scan_excl _ _ _ _ _ _ _ _ _ _ _ _ _ _ _ _ _ Y) as (pc & nc & uc & kc & sc & LP & A & B & D & F).
  exists no, u, k, st, pc, nc, uc, kc, sc. split; [exact (sem_sound _ _ _ _ _ _ EO)|]. repeat (split; [assumption|]).
  rewrite <- F, <- EE. now destruct n.
Qed.
