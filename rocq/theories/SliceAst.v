(** The passes over the tree (node.go, ast.go) with Go slices.  MergeStickyNodes appends to the
    [Chars] of a node, in place if there is room; Text returns the [Chars] of a leaf itself.

    The code changes nodes where they are; every node is in one place of one tree only, so the
    model makes new ones. *)
From Verif Require Import Base Stream Node Rule Grammar Slices.

Definition hSetChars (n : snode) (x : slice) : snode :=
  SNode (m_type n) (m_name n) x (m_kids n) (m_pos n) (m_sticky n) (m_virtual n) (m_nondata n) (m_tokenized n).
Definition hSetKids (n : snode) (x : list snode) : snode :=
  SNode (m_type n) (m_name n) (m_chars n) x (m_pos n) (m_sticky n) (m_virtual n) (m_nondata n) (m_tokenized n).
Definition hSetSticky (n : snode) (x : bool) : snode :=
  SNode (m_type n) (m_name n) (m_chars n) (m_kids n) (m_pos n) x (m_virtual n) (m_nondata n) (m_tokenized n).

(** node.go:77-90 and 186-199. *)
Fixpoint hRemoveVirtual (n : snode) : snode :=
  hSetKids n (flat_map (fun c => if m_virtual c then [] else [hRemoveVirtual c]) (m_kids n)).
Fixpoint hRemoveNonData (n : snode) : snode :=
  hSetKids n (flat_map (fun c => if m_nondata c then [] else [hRemoveNonData c]) (m_kids n)).
(** ast.go:42-55, 57-70. *)
Definition hAstVirtual (a : list snode) : list snode := flat_map (fun c => if m_virtual c then [] else [hRemoveVirtual c]) a.
Definition hAstNonData (a : list snode) : list snode := flat_map (fun c => if m_nondata c then [] else [hRemoveNonData c]) a.
(** node.go:214-226. *)
Definition hPromote1 (n : snode) : snode :=
  match m_kids n with
  | [only] =>
    if nonempty (m_name only) then n
    else if (0 <? sl_len (m_chars only))%nat then hSetKids (hSetChars n (m_chars only)) []
    else hSetKids n (m_kids only)
  | _ => n
  end.
(** node.go:245-249. *)
Definition hPromote2 (n : snode) : snode :=
  match m_kids n with
  | [only] =>
    if negb (nonempty (m_name only)) && negb (nonempty (m_kids only))
    then hSetKids (hSetChars n (m_chars only)) [] else n
  | _ => n
  end.

Section Alloc.
Variable grow : heap -> slice -> list Z -> nat.

(** node.go:323-338: the loop of [Text]. *)
Fixpoint hTextFold (block : bool) (acc : slice) (prevSticky : bool) (l : list (prog slice * bool)) : prog slice :=
  match l with
  | [] => ret acc
  | (p, st) :: l' =>
    do t <- p;
    do tc <- look (fun h => cells h t);
    do ac <- look (fun h => cells h acc);
    let sep := negb block && (nonempty ac && negb (isWS (last ac 0)))
               && (nonempty tc && negb (isWS (hd 0 tc))) && (negb prevSticky || negb st) in
    do acc1 <- add grow acc (if sep then [32] else []);
    do acc2 <- addS grow acc1 t;
    hTextFold block acc2 st l'
  end.
(** node.go:315-339. *)
Fixpoint hText (n : snode) : prog slice :=
  if (0 <? sl_len (m_chars n))%nat then
    do cs <- look (fun h => cells h (m_chars n));
    ret (if isEOFText cs then nilS else m_chars n)
  else hTextFold (rtype_eqb (m_type n) TBlock) nilS false (List.map (fun c => (hText c, m_sticky c)) (m_kids n)).

(** node.go:152-183: the loop of the function [MergeStickyNodes]; line 160 is the append. *)
Fixpoint hMergeFold (prev : option snode) (l : list (snode * prog snode)) : prog (list snode) :=
  match l with
  | [] => ret (match prev with None => [] | Some p => [hSetSticky p false] end)
  | (c, m) :: l' =>
    if m_sticky c then
      do t <- hText c;
      match prev with
      | Some p => do cs <- addS grow (m_chars p) t; hMergeFold (Some (hSetChars p cs)) l'
      | None => hMergeFold (Some (hSetKids (hSetChars c t) [])) l'
      end
    else
      do m' <- m;
      do rest <- hMergeFold None l';
      ret (match prev with None => [] | Some p => [hSetSticky p false] end ++ m' :: rest)
  end.
(** One after the other. *)
Fixpoint hAll {A} (l : list (prog A)) : prog (list A) :=
  match l with [] => ret [] | p :: l' => do x <- p; do xs <- hAll l'; ret (x :: xs) end.
(** node.go:94-128. *)
Fixpoint hMergeNode (n : snode) : prog snode :=
  match m_kids n with
  | [] => ret n
  | _ =>
    if rtype_eqb (m_type n) TBlock then
      do ks <- hAll (List.map hMergeNode (m_kids n));
      ret (hSetSticky (hSetKids n (List.map (fun c => hSetSticky c false) ks)) false)
    else
      do ks <- hMergeFold None (List.map (fun c => (c, hMergeNode c)) (m_kids n));
      ret (hSetKids n ks)
  end.
(** node.go:132-184, ast.go:83-91. *)
Definition hMergeNodes (l : list snode) : prog (list snode) := hMergeFold None (List.map (fun c => (c, hMergeNode c)) l).

(** node.go:228-243. *)
Fixpoint hSplice (l : list snode) : prog (list snode) :=
  match l with
  | [] => ret []
  | c :: l' =>
    do t <- hText c;
    do rest <- hSplice l';
    ret ((if (sl_len t =? 0)%nat && negb (nonempty (m_name c)) then []
          else if negb (nonempty (m_name c)) && nonempty (m_kids c) then m_kids c
          else [c]) ++ rest)
  end.
(** node.go:204-250. *)
Fixpoint hRemoveRedundant (n : snode) : prog snode :=
  match m_kids n with
  | [] => ret n
  | _ =>
    do ks <- hAll (List.map hRemoveRedundant (m_kids n));
    let n1 := hPromote1 (hSetKids n ks) in
    do ks1 <- hSplice (m_kids n1);
    ret (hPromote2 (hSetKids n1 ks1))
  end.
(** ast.go:72-82. *)
Definition hAstRedundant (a : list snode) : prog (list snode) :=
  hAll (List.map (fun c => if m_nondata c then ret c else hRemoveRedundant c) a).
(** grammar.go:306-321. *)
Definition hSimplify (level : Z) (a : list snode) : prog (list snode) :=
  if level =? -1 then ret a
  else
    do b <- hMergeNodes a;
    hAstRedundant (if level =? 2 then hAstNonData (hAstVirtual b) else if level =? 1 then hAstVirtual b else b).
(** grammar.go:301-322. *)
Definition hEvalTop (loopFuel fuel : nat) (g : rules_t) (o : horders) (s : sstream) (level : Z) : prog (hRawRes * sstream) :=
  do (r, s') <- hEvalRaw grow loopFuel fuel g o s;
  match r with
  | HRawOk a => do a' <- hSimplify level a; ret (HRawOk a', s')
  | _ => ret (r, s')
  end.
End Alloc.
