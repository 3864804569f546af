(** Which errors a rule may answer with: every error names a part of the rule. *)
From Verif Require Import Base Stream Node Rule SpecRule.

Inductive blames (g : rules_t) : rule -> eerr -> Prop :=
| bl_char b c u p : blames g (RChar b c u) (EMissing (WChar b c) p)
| bl_chars b t p : blames g (RChars b t) (EMissing (WChars b t) p)
| bl_string b t p : blames g (RString b t) (EMissing (WString b t) p)
| bl_range b lo lu hi hu p : blames g (RRange b lo lu hi hu) (EMissing (WRange b lo hi) p)
| bl_eof b : blames g (REOF b) (EMissing WEOF NoPlace)
| bl_undefined b n : lookup g n = None -> blames g (RRef b n) (EUndefined b n)
| bl_ref b n r e : lookup g n = Some r -> blames g r e -> blames g (RRef b n) e
| bl_group b x e : blames g x e -> blames g (RGroup b x) e
| bl_rep b x mn mx e : 0 < mn -> blames g x e -> blames g (RRep b x mn mx) e
| bl_few b x mn mx n : Z.of_nat n < mn -> blames g (RRep b x mn mx) (ERepMin (RRep b x mn mx) n)
| bl_concat b l x e : In x l -> blames g x e -> blames g (RConcat b l) (EConcat (RConcat b l) (Some e))
| bl_choice b gs grp x e : In grp gs -> In x grp -> blames g x e -> blames g (RChoice b gs) (EChoice (RChoice b gs) (Some e))
  (* the cause is not kept *)
| bl_silent b gs : blames g (RChoice b gs) (EChoice (RChoice b gs) None)
  (* two alternatives of one group *)
| bl_tie b gs l1 x l2 y l3 n m : In (l1 ++ x :: l2 ++ y :: l3) gs -> derives g x n -> derives g y m ->
    blames g (RChoice b gs) (EAmbiguity (b_name b) [n; m])
| bl_open b o v c e xs er : blames g o er -> blames g (RBlock b o v c e xs) er
| bl_excluded b o v c e xs txt : xs <> [] -> blames g (RBlock b o v c e xs) (EExclude txt)
| bl_close b o v c e xs : blames g (RBlock b o v c e xs) (EBlockEOF c).

(** What is at the end of the chain of concatenations and choices; [None]: a choice
    that kept no cause. *)
Fixpoint cause (e : eerr) : option eerr :=
  match e with
  | EConcat _ (Some x) | EChoice _ (Some x) => cause x
  | EConcat _ None | EChoice _ None => None
  | _ => Some e
  end.
(** The concatenations and choices on the way to the end of the chain. *)
Fixpoint trail (e : eerr) : list rule :=
  match e with
  | EConcat r (Some x) | EChoice r (Some x) => r :: trail x
  | EConcat r None | EChoice r None => [r]
  | _ => []
  end.
