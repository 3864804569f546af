(** Arithmetic expressions, and what the grammar shipped with the repository
    (main/samples/arithmetic) makes of them; on its own, without the grammar. *)
From Verif Require Import Base Node SpecRule.

Inductive number :=
| NDec (minus : bool) (digits : list Z)
| NOct (digits : list Z)
| NHex (digits : list Z)
| NBin (digits : list Z)
| NFloat (minus : bool) (int frac : list Z).

(** A factor, a product of factors, a sum of products; the operators are runes. *)
Inductive factor :=
| FNum (n : number)
| FVar (name : list Z)
| FParen (e : (factor * list (Z * factor)) * list (Z * (factor * list (Z * factor)))).
Definition product : Type := factor * list (Z * factor).
Definition sum : Type := product * list (Z * product).

Definition decDigit (c : Z) : Prop := 48 <= c <= 57.
Definition octDigit (c : Z) : Prop := 48 <= c <= 55.
Definition binDigit (c : Z) : Prop := 48 <= c <= 49.
Definition hexDigit (c : Z) : Prop := 48 <= c <= 57 \/ 65 <= c <= 70 \/ 97 <= c <= 102.
Definition letter (c : Z) : Prop := 65 <= c <= 90 \/ 97 <= c <= 122.
Definition nameRune (c : Z) : Prop := letter c \/ decDigit c \/ c = 95.
Definition some (P : Z -> Prop) (l : list Z) : Prop := l <> [] /\ Forall P l.
Definition sign (minus : bool) : list Z := if minus then [45] else [].

(** Two ways to write a number with a dot.  The grammar means this one. *)
Definition meant (minus : bool) (int frac t : list Z) : Prop :=
  exists w, white w /\ t = w ++ sign minus ++ int ++ 46 :: frac.
(** The evaluator allows that one: without a sign, white space is skipped in front of
    every digit and is not skipped in front of the dot. *)
Inductive Spread : list Z -> list Z -> Prop :=
| sd_none : Spread [] []
| sd_more w d ds t : white w -> decDigit d -> Spread ds t -> Spread (d :: ds) (w ++ d :: t).
Definition found (minus : bool) (int frac t : list Z) : Prop :=
  if minus then meant true int frac t else exists l, Spread int l /\ t = l ++ 46 :: frac.
(** The texts that are both: a digit or a sign in front of the dot. *)
Definition usual (minus : bool) (int frac t : list Z) : Prop := meant minus int frac t /\ (minus = true \/ int <> []).

Section Texts.
Variable dotted : bool -> list Z -> list Z -> list Z -> Prop.

(** White space is allowed in front of every token. *)
Inductive Number : number -> list Z -> Prop :=
| nu_dec w m ds : white w -> some decDigit ds -> Number (NDec m ds) (w ++ sign m ++ ds)
| nu_oct w ds : white w -> some octDigit ds -> Number (NOct ds) (w ++ 48 :: 111 :: ds)
| nu_hex w ds : white w -> some hexDigit ds -> Number (NHex ds) (w ++ 48 :: 120 :: ds)
| nu_bin w ds : white w -> some binDigit ds -> Number (NBin ds) (w ++ 48 :: 98 :: ds)
| nu_float m ds es t : Forall decDigit ds -> some decDigit es -> dotted m ds es t -> Number (NFloat m ds es) t.

(** Things with operators between them. *)
Inductive Links {A} (op : Z -> Prop) (P : A -> list Z -> Prop) : list (Z * A) -> list Z -> Prop :=
| lk_none : Links op P [] []
| lk_more w o x t l t' : white w -> op o -> P x t -> Links op P l t' -> Links op P ((o, x) :: l) ((w ++ o :: t) ++ t').
Inductive Chain {A} (op : Z -> Prop) (P : A -> list Z -> Prop) : A * list (Z * A) -> list Z -> Prop :=
| ch_intro x t l t' : P x t -> Links op P l t' -> Chain op P (x, l) (t ++ t').

Definition plusMinus (o : Z) : Prop := o = 43 \/ o = 45.
Definition timesDivide (o : Z) : Prop := o = 42 \/ o = 47.

Inductive Factor : factor -> list Z -> Prop :=
| fa_num n t : Number n t -> Factor (FNum n) t
| fa_var w c l : white w -> letter c -> Forall nameRune l -> Factor (FVar (c :: l)) (w ++ c :: l)
| fa_paren w e t w' : white w -> Chain plusMinus (Chain timesDivide Factor) e t -> white w' ->
    Factor (FParen e) (w ++ 40 :: t ++ w' ++ [41]).
Definition Product : product -> list Z -> Prop := Chain timesDivide Factor.
Definition Sum : sum -> list Z -> Prop := Chain plusMinus Product.
End Texts.

(** The tree, without positions and stickiness. *)
Definition nd (ty : rtype) (name chars : list Z) (kids : list node) : node := Node ty name chars kids None false false false false.
Fixpoint bare (n : node) : node :=
  Node (n_type n) (n_name n) (n_chars n) (List.map bare (n_kids n)) None false (n_virtual n) (n_nondata n) (n_tokenized n).

Definition decTree (d : Z) : node := nd TChars (rs "digit_dec") [d] [].
Definition octTree (d : Z) : node := nd TChars (rs "digit_oct") [d] [].
Definition binTree (d : Z) : node := nd TChars (rs "digit_bin") [d] [].
Definition hexTree (d : Z) : node := nd TChoice (rs "digit_hex") [] [nd TChars [] [d] []].
Definition signTree (m : bool) : node := nd TOption [] [] (if m then [nd TChar [] [45] []] else []).
Definition runTree (one : Z -> node) (ds : list Z) : list node :=
  match ds with d :: ds' => [one d; nd TRepetition [] [] (List.map one ds')] | [] => [] end.
Definition based (name : list Z) (c : Z) (one : Z -> node) (ds : list Z) : node :=
  nd TChoice (rs "integer") [] [nd TConcat name [] (nd TChars [] [48; c] [] :: runTree one ds)].
Definition numTree (n : number) : node :=
  nd TChoice (rs "literal") []
    [match n with
     | NDec m ds => nd TChoice (rs "integer") [] [nd TConcat (rs "integer_dec") [] (signTree m :: runTree decTree ds)]
     | NOct ds => based (rs "integer_oct") 111 octTree ds
     | NHex ds => based (rs "integer_hex") 120 hexTree ds
     | NBin ds => based (rs "integer_bin") 98 binTree ds
     | NFloat m ds es => nd TConcat (rs "float") []
         (signTree m :: nd TRepetition [] [] (List.map decTree ds) :: nd TChar [] [46] [] :: runTree decTree es)
     end].
Definition isLower (c : Z) : bool := (97 <=? c) && (c <=? 122).
Definition letterTree (c : Z) : node :=
  nd TChoice (rs "letter") [] [nd TChars (if isLower c then rs "letter_lowercase" else rs "letter_uppercase") [c] []].
Definition nameTree (c : Z) : node :=
  nd TChoice [] [] [if c =? 95 then nd TChar [] [c] [] else if (48 <=? c) && (c <=? 57) then decTree c else letterTree c].
Definition varTree (name : list Z) : node :=
  nd TConcat (rs "variable") [] (match name with c :: l => [letterTree c; nd TRepetition [] [] (List.map nameTree l)] | [] => [] end).
Definition opTree (name : list Z) (o : Z) : node := nd TGroup name [] [nd TChoice [] [] [nd TString [] [o] []]].
Definition chainTree (name opName : list Z) (first : node) (l : list (Z * node)) : node :=
  nd TConcat name [] [first; nd TRepetition [] [] (List.map (fun x => nd TConcat [] [] [opTree opName (fst x); snd x]) l)].
Definition parenTree (n : node) : node := nd TGroup [] [] [nd TConcat [] [] [nd TString [] [40] []; n; nd TString [] [41] []]].
Fixpoint factorTree (x : factor) : node :=
  nd TChoice (rs "factor") []
    [match x with
     | FNum n => numTree n
     | FVar name => varTree name
     | FParen e => parenTree (chainTree (rs "expr") (rs "term_operator")
         (chainTree (rs "term") (rs "factor_operator") (factorTree (fst (fst e))) (List.map (fun y => (fst y, factorTree (snd y))) (snd (fst e))))
         (List.map (fun z => (fst z, chainTree (rs "term") (rs "factor_operator") (factorTree (fst (snd z)))
            (List.map (fun y => (fst y, factorTree (snd y))) (snd (snd z))))) (snd e)))
     end].
Definition productTree (p : product) : node :=
  chainTree (rs "term") (rs "factor_operator") (factorTree (fst p)) (List.map (fun y => (fst y, factorTree (snd y))) (snd p)).
Definition sumTree (e : sum) : node :=
  chainTree (rs "expr") (rs "term_operator") (productTree (fst e)) (List.map (fun z => (fst z, productTree (snd z))) (snd e)).
