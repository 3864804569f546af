(** Why a rule fails on a text: which part stopped it, where, and what it says (C69). *)
From Verif Require Import Base Stream Node Rule SpecRule SpecError SpecEval SpecEv.

(** [fails g r f t]: the rule does not match. *)
Definition fails (g : rules_t) (r : rule) (f : Z) (t : list Z) : Prop := exists k st, Ev g r f t (OFail k st).

(** The elements [l], asked first with [f], match one after the other; [p] runes are
    used and the next element is asked with [f']. *)
Inductive inTurn (g : rules_t) (f : Z) (t : list Z) : list rule -> nat -> Z -> Prop :=
| it_none : inTurn g f t [] 0 f
| it_next l p f' x n u k st : inTurn g f t l p f' -> Ev g x f' (skipn p t) (OMatch n u k st) ->
    inTurn g f t (l ++ [x]) (p + u) (nextMode f' n st).

(** Room for a further iteration ([mx <= 0]: no limit). *)
Definition room (mx : Z) (n : nat) : Prop := mx <= 0 \/ Z.of_nat n < mx.
(** [x] matches [n] times one after the other, each time with text left and room for
    one more; [p] runes are used. *)
Inductive again (g : rules_t) (x : rule) (mx f : Z) (t : list Z) : nat -> nat -> Prop :=
| ag_none : again g x mx f t 0 0
| ag_next p n nd u k st : again g x mx f t p n -> room mx n -> skipn p t <> [] -> Ev g x f (skipn p t) (OMatch nd u k st) ->
    again g x mx f t (p + u) (S n).

(** The first of the errors that reach furthest, if one reaches beyond index 0. *)
Inductive furthest : list (eerr * Z) -> option eerr -> Z -> Prop :=
| fu_none l : Forall (fun x => snd x <= 0) l -> furthest l None 0
| fu_some l1 e i l2 : 0 < i -> Forall (fun x => snd x < i) l1 -> Forall (fun x => snd x <= i) l2 ->
    furthest (l1 ++ (e, i) :: l2) (Some e) i.

(** The rule fails or uses fewer than [u] runes. *)
Definition shorter (g : rules_t) (f : Z) (t : list Z) (u : nat) (x : rule) : Prop :=
  exists o, Ev g x f t o /\ match o with OMatch _ v _ _ => (v < u)%nat | OFail _ _ => True end.

(** None of [l] matches exactly as much as the longest before it. *)
Definition noTie (g : rules_t) (f : Z) (t : list Z) (l : list rule) : Prop :=
  forall p z q n v k st, l = p ++ z :: q -> Ev g z f t (OMatch n v k st) -> Forall (shorter g f t (S v)) p -> Forall (shorter g f t v) p.

(** Nothing happens in a block at index [q]: no close, no escape, no exclude. *)
Definition quiet (g : rules_t) (cl : rule) (esc : option rule) (xs : list rule) (t : list Z) (q : nat) : Prop :=
  fails g cl NOT_SKIP (skipn q t) /\ (forall e, esc = Some e -> fails g e NOT_SKIP (skipn q t)) /\
  (forall x, In x xs -> fails g x NOT_SKIP (skipn q t)).

Definition isTerminal (r : rule) : Prop :=
  match r with RChar _ _ _ | RChars _ _ | RString _ _ | RRange _ _ _ _ _ | REOF _ => True | _ => False end.

(** [Why g r f t a e i]: on the text [t], which starts at index [a] of the whole text,
    rule [r] fails, the error [e] is right about the part that stopped it, and [i] is
    the index where that part stopped reading. *)
Inductive Why (g : rules_t) : rule -> Z -> list Z -> Z -> eerr -> Z -> Prop :=
| wh_terminal r f t a e k st : isTerminal r -> Ev g r f t (OFail k st) -> blames g r e -> Why g r f t a e (a + Z.of_nat k)
| wh_undefined b n f t a : lookup g n = None -> Why g (RRef b n) f t a (EUndefined b n) 0
| wh_ref b n r f t a e i : lookup g n = Some r -> Why g r f t a e i -> Why g (RRef b n) f t a e i
| wh_group b x f t a e i : Why g x f t a e i -> Why g (RGroup b x) f t a e i
  (* all elements before [x] match *)
| wh_concat b l x l' f t a p f' e i : inTurn g f t l p f' -> Why g x f' (skipn p t) (a + Z.of_nat p) e i ->
    Why g (RConcat b (l ++ x :: l')) f t a (EConcat (RConcat b (l ++ x :: l')) (Some e)) i
  (* all alternatives fail; the one that got furthest is named *)
| wh_choice b gs f t a l oe i : Whys g (concat gs) f t a l -> furthest l oe i ->
    Why g (RChoice b gs) f t a (EChoice (RChoice b gs) oe) i
  (* in the first group that matches, [y] is the first to match exactly as much as the longest before it, [x] *)
| wh_tie b gs l1 x l2 y l3 gs' f t a n m u k st k' st' : Forall (Forall (fun z => fails g z f t)) gs ->
    Forall (shorter g f t u) (l1 ++ l2) -> noTie g f t (l1 ++ x :: l2) -> Ev g x f t (OMatch (erase n) u k st) -> Ev g y f t (OMatch (erase m) u k' st') ->
    fails g (RChoice b (gs ++ (l1 ++ x :: l2 ++ y :: l3) :: gs')) f t ->
    Why g (RChoice b (gs ++ (l1 ++ x :: l2 ++ y :: l3) :: gs')) f t a (EAmbiguity (b_name b) [n; m]) 0
  (* too few iterations, since the next one fails *)
| wh_rep b x mn mx f t a p n e i k st : again g x mx f t p n -> Z.of_nat n < mn -> room mx n -> skipn p t <> [] ->
    Why g x f (skipn p t) (a + Z.of_nat p) e i ->
    Ev g (RRep b x mn mx) f t (OFail k st) -> Why g (RRep b x mn mx) f t a e (a + Z.of_nat k)
  (* too few iterations, since the text ends or no more are allowed *)
| wh_few b x mn mx f t a p n k st : again g x mx f t p n -> Z.of_nat n < mn -> skipn p t = [] \/ ~ room mx n ->
    Ev g (RRep b x mn mx) f t (OFail k st) -> Why g (RRep b x mn mx) f t a (ERepMin (RRep b x mn mx) n) (a + Z.of_nat k)
| wh_open b o v c esc xs f t a e i k st : Why g o f t a e i -> Ev g o f t (OFail k st) ->
    Why g (RBlock b o v c esc xs) f t a e (a + Z.of_nat k)
  (* the first thing that happens in the block is an exclude; no exclude matches more *)
| wh_excluded b o v c esc xs f t a on u ko so p x n w kx sx k st : Ev g o f t (OMatch on u ko so) -> (u <= p)%nat ->
    (forall q, (u <= q < p)%nat -> quiet g c esc xs t q) -> In x xs -> Ev g x NOT_SKIP (skipn p t) (OMatch n w kx sx) ->
    Forall (shorter g NOT_SKIP (skipn p t) (S w)) xs -> Ev g (RBlock b o v c esc xs) f t (OFail k st) ->
    Why g (RBlock b o v c esc xs) f t a (EExclude (firstn w (skipn p t))) (a + Z.of_nat k)
  (* nothing happens up to the end of the text *)
| wh_close b o v c esc xs f t a on u ko so : Ev g o f t (OMatch on u ko so) -> (u <= length t)%nat ->
    (forall q, (u <= q <= length t)%nat -> quiet g c esc xs t q) ->
    Why g (RBlock b o v c esc xs) f t a (EBlockEOF c) (a + Z.of_nat (length t))

with Whys (g : rules_t) : list rule -> Z -> list Z -> Z -> list (eerr * Z) -> Prop :=
| ws_nil f t a : Whys g [] f t a []
| ws_cons x rules f t a e i l : Why g x f t a e i -> Whys g rules f t a l -> Whys g (x :: rules) f t a ((e, i) :: l).


(** An error without the places and the positions in trees. *)
Fixpoint gist (e : eerr) : eerr :=
  match e with
  | EMissing w _ => EMissing w NoPlace
  | EConcat self (Some x) => EConcat self (Some (gist x))
  | EChoice self (Some x) => EChoice self (Some (gist x))
  | EAmbiguity n ns => EAmbiguity n (List.map erase ns)
  | EGreedy ns => EGreedy (List.map erase ns)
  | _ => e
  end.

(** [leads g r x]: evaluating [r] may ask [x]. *)
Inductive leads (g : rules_t) : rule -> rule -> Prop :=
| le_self r : leads g r r
| le_ref b n r x : lookup g n = Some r -> leads g r x -> leads g (RRef b n) x
| le_group b r x : leads g r x -> leads g (RGroup b r) x
| le_option b r x : leads g r x -> leads g (ROption b r) x
| le_rep b r mn mx x : leads g r x -> leads g (RRep b r mn mx) x
| le_concat b l r x : In r l -> leads g r x -> leads g (RConcat b l) x
| le_choice b gs grp r x : In grp gs -> In r grp -> leads g r x -> leads g (RChoice b gs) x
| le_open b o v c e xs x : leads g o x -> leads g (RBlock b o v c e xs) x
| le_close b o v c e xs x : leads g c x -> leads g (RBlock b o v c e xs) x
| le_escape b o v c e xs x : leads g e x -> leads g (RBlock b o v c (Some e) xs) x
| le_exclude b o v c e xs r x : In r xs -> leads g r x -> leads g (RBlock b o v c e xs) x.

(** The errors that carry index 0. *)
Definition unplaced (e : eerr) : Prop := match e with EUndefined _ _ | EAmbiguity _ _ => True | _ => False end.
