(** C95: the levels of simplification (ast.go:8-13, grammar.go:306-321) one after the other. *)
From Verif Require Import Base.

(** The second level asks for nothing that was not done on the first: -1 asks for nothing, all
    others for merging and for reducing, 1 and 2 also for dropping virtual nodes, 2 also for
    dropping non-data nodes. *)
Definition noMore (level' level : Z) : Prop :=
  level' = -1 \/ level <> -1 /\ (level' = level \/ level = 2 \/ level' <> 1 /\ level' <> 2).
