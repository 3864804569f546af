(** Vocabulary for the command line tool (C61, C62). *)
From Verif Require Import Base Stream Node Rule Parse Grammar Show Cli SpecRule SpecNode.

(** The tree that is shown for an evaluated one: simplified at the basic level, then
    without virtual and non-data nodes, then reduced once more. *)
Definition shownFor (a out : list node) : Prop :=
  exists b p, simplified 0 a b /\ pruned (dropsAt 2) b p /\ Forall2 reduced p out.
Definition treeFor (lf fuel : nat) (g : rules_t) (o : orders) (txt : list Z) (out : list node) : Prop :=
  exists a s, evalRaw lf fuel g o (newStream txt) = Ok (RawOk a, s) /\ shownFor a out.

(** The answers to the inputs [l], of which [content] gives the texts; [k] evaluations
    were made before.  [b] says whether all went well. *)
Inductive answered (lf fuel : nat) (g : rules_t) (types : bool) (announce : list Z -> printed) (content : list Z -> option (list Z)) (os : nat -> orders)
  : nat -> list (list Z) -> list printed -> bool -> Prop :=
| an_end k : answered lf fuel g types announce content os k [] [] true
| an_tree k x l txt a out b : content x = Some txt -> treeFor lf fuel g (os k) txt a ->
    answered lf fuel g types announce content os (S k) l out b ->
    answered lf fuel g types announce content os k (x :: l) (announce x :: PTree (astTree (mkConfig types false) [] a) :: out) b
| an_unread k x l : content x = None -> answered lf fuel g types announce content os k (x :: l) [announce x; PError CRead] false
| an_failed k x l txt r s : content x = Some txt -> evalRaw lf fuel g (os k) (newStream txt) = Ok (r, s) -> (forall a, r <> RawOk a) ->
    answered lf fuel g types announce content os k (x :: l) [announce x; PError (CEval r)] false.

(** The rules of [ds], added to [g] one after the other without an error. *)
Inductive added : grammar -> list (list Z) -> grammar -> Prop :=
| ad_nil g : added g [] g
| ad_cons g d r g' ds g'' : addRule g d = (inl r, g') -> added g' ds g'' -> added g (d :: ds) g''.
(** The definitions of [ds] as further lines of [txt]. *)
Definition withLines (txt : list Z) (ds : list (list Z)) : list Z := txt ++ concat (List.map (fun d => 10 :: d) ds).
