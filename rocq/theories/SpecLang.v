(** The language of a grammar, as books define it.

    [Gen g r t u]: the rule [r] can be read as the first [u] runes of the text [t].
    Nothing is said about which alternative is tried first, how often a repetition
    goes round or whether an option is taken: any way will do.  White space may
    precede every terminal.  (The rest of the text matters for the end of the text
    and for closes that are not used.) *)
From Verif Require Import Base Stream Node Rule SpecStream SpecRule SpecLL.

Definition startsWith (w t : list Z) : Prop := exists post, t = w ++ post.

Inductive Gen (g : rules_t) : rule -> list Z -> nat -> Prop :=
| ge_literal r w pre post : literal r w -> w <> [] -> white pre -> Gen g r (pre ++ w ++ post) (length pre + length w)
| ge_range b lo lu hi hu c pre post : lo <= c <= hi -> white pre -> Gen g (RRange b lo lu hi hu) (pre ++ c :: post) (S (length pre))
| ge_eof b pre : white pre -> Gen g (REOF b) pre (length pre)
| ge_ref b n r t u : lookup g n = Some r -> Gen g r t u -> Gen g (RRef b n) t u
| ge_group b r t u : Gen g r t u -> Gen g (RGroup b r) t u
| ge_option_none b r t : Gen g (ROption b r) t 0
| ge_option b r t u : Gen g r t u -> Gen g (ROption b r) t u
| ge_rep b r mn mx n t u : GenRep g r n t u -> mn <= Z.of_nat n -> (0 < mx -> Z.of_nat n <= mx) -> Gen g (RRep b r mn mx) t u
| ge_choice b gs grp r t u : In grp gs -> In r grp -> Gen g r t u -> Gen g (RChoice b gs) t u
| ge_concat b l t u : GenSeq g l t u -> Gen g (RConcat b l) t u
(** From the open to the first close. *)
| ge_block b o wo (v : bool) cl w pre body post : literal o wo -> wo <> [] -> white pre -> literal cl w -> w <> [] ->
    (forall i, (i < length body)%nat -> ~ startsWith w (skipn i (body ++ w ++ post))) ->
    Gen g (RBlock b o v cl None []) (pre ++ wo ++ body ++ w ++ post)
      (length pre + length wo + length body + (if v then 0 else length w))
(** [n] times *)
with GenRep (g : rules_t) : rule -> nat -> list Z -> nat -> Prop :=
| gr_done r t : GenRep g r 0 t 0
| gr_more r n t u u' : Gen g r t u -> GenRep g r n (skipn u t) u' -> GenRep g r (S n) t (u + u')
(** one after the other *)
with GenSeq (g : rules_t) : list rule -> list Z -> nat -> Prop :=
| gs_done t : GenSeq g [] t 0
| gs_more r l t u u' : Gen g r t u -> GenSeq g l (skipn u t) u' -> GenSeq g (r :: l) t (u + u').

(** The whole text is in the language of the rule. *)
Definition inLanguage (g : rules_t) (r : rule) (t : list Z) : Prop := Gen g r t (length t).

Definition noSpace (t : list Z) : Prop := Forall dark t.

(** The answer is a match of the whole sample. *)
Definition usesAll (res : result) (sample : list Z) : Prop :=
  r_node res <> None /\ r_read res = sample /\ r_unused res = [].
