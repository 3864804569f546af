(** When the rounds of EvalRaw (grammar.go:325-403) never end, on plain texts. *)
From Verif Require Import Base Stream Node Rule Grammar SpecRule SpecEval SpecEv SpecDriver.

(** One round: the root rule with the strictly longest match takes its part. *)
Definition Round (g : rules_t) (roots : list rule) (f : Z) (t : list Z) (f' : Z) (t' : list Z) : Prop :=
  exists outs n u k st, t <> [] /\ Forall2 (fun r o => Ev g r f t o) roots outs /\
    strictlyLongest (flat_map (fun o => match o with OMatch n u _ _ => [(n, u)] | OFail _ _ => [] end) outs) n u /\
    In (OMatch n u k st) outs /\ (u <= length t)%nat /\
    f' = (if st then SUGGEST_NOT_SKIP else SUGGEST_SKIP) /\ t' = skipn u t.

(** The rounds on [t] come back to a text left over before, in the same mode. *)
Definition goesRound (g : rules_t) (roots : list rule) (t : list Z) : Prop :=
  exists f t' f1 t1, Rounds g roots SUGGEST_SKIP t f t' /\ Round g roots f t' f1 t1 /\ Rounds g roots f1 t1 f t'.

(** A root rule matches without using text somewhere in [t]. *)
Definition idles (g : rules_t) (roots : list rule) (t : list Z) : Prop :=
  exists f p r n k st, mode f /\ (p < length t)%nat /\ In r roots /\ Ev g r f (skipn p t) (OMatch n 0 k st).
