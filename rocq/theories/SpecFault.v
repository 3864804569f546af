(** Where the errors of the evaluator say that something is missing (C65). *)
From Verif Require Import Base Stream Node Rule SpecStream SpecRule SpecPlace.

(** What was wanted is not at index [j] of [T].  A literal of white space only is
    left out: it may stand there and be refused (C14). *)
Definition refuses (T : list Z) (j : nat) (w : wanted) : Prop :=
  match w with
  | WChar _ c => ~ stands T j [c]
  | WChars _ cs | WString _ cs => ~ white cs -> ~ stands T j cs
  | WRange _ lo hi => forall c, lo <= c <= hi -> ~ stands T j [c]
  | WEOF => (j < length T)%nat
  end.

(** [located T a b e]: the error [e] is right about the part of [T] from [a] to [b]. *)
Inductive located (T : list Z) (a b : nat) : eerr -> Prop :=
| lo_eof w : b = length T -> located T a b (EMissing w AtEOF)
| lo_at w j p : (a <= j <= b)%nat -> refuses T j w -> ((j < length T)%nat -> trueAt T j p) -> (j = length T -> p = None) ->
    located T a b (EMissing w (AtPos p))
| lo_more j : (a <= j <= b)%nat -> refuses T j WEOF -> located T a b (EMissing WEOF NoPlace)
| lo_undefined r n : located T a b (EUndefined r n)
| lo_concat self e : located T a b e -> located T a b (EConcat self (Some e))
| lo_choice self e : located T a b e -> located T a b (EChoice self (Some e))
| lo_silent self : located T a b (EChoice self None)
| lo_tie n ns : located T a b (EAmbiguity n ns)
| lo_few self n : located T a b (ERepMin self n)
| lo_excluded j txt : (a <= j)%nat -> (j + length txt <= b)%nat -> stands T j txt -> located T a b (EExclude txt)
| lo_close c : b = length T -> located T a b (EBlockEOF c).
