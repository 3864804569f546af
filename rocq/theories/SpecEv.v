(** The textbook semantics of the notation, as a relation on plain texts.

    [Ev g r f t o]: rule [r] of grammar [g], asked with leading-space mode [f], has
    outcome [o] on the text [t].  There are no streams, no unused text, no fuel.
    - A concatenation matches its elements one after the other, each on the text
      that follows what the elements before it used.
    - A repetition iterates while its body matches.
    - A choice takes the strictly longest match of the first group that has a
      match; a tie is a failure.
    - A block scans to the first close that is not escaped; an exclude rule that
      matches on the way makes it fail; in front of an exclude or a close the
      escape is dropped from the content.

    Positions [p] say where the next element starts, [m] how far the text has been
    looked at (this is what CharsRead must be). *)
From Verif Require Import Base Stream Node Rule SpecRule TermFacts SpecEval.

Inductive ores :=
| OMatch (tree : node) (used read : nat) (sticky : bool)
| OFail (read : nat) (sticky : bool).

Definition ofTerm (ty : rtype) (b : rbase) (sticky : bool) (x : tres) : ores :=
  match x with
  | (Some cs, rd, un) => OMatch (build ty b cs [] None sticky) (length rd - length un) (length rd) sticky
  | (None, rd, _) => OFail (length rd) sticky
  end.

Definition strictlyLongest (ml : list (node * nat)) (n : node) (u : nat) : Prop :=
  exists l1 l2, ml = l1 ++ (n, u) :: l2 /\ Forall (fun x => (snd x < u)%nat) (l1 ++ l2).

Definition contentNode (c : list Z) : node := Node TChars [] c [] None true false false false.

(** Enough iterations? *)
Inductive EvEnd : rbase -> Z -> nat -> nat -> bool -> list node -> ores -> Prop :=
| ee_few b mn p m st kids : Z.of_nat (length kids) < mn -> EvEnd b mn p m st kids (OFail m st)
| ee_ok b mn p m st kids : mn <= Z.of_nat (length kids) ->
    EvEnd b mn p m st kids (OMatch (tree TRepetition b kids st) p m st).

Inductive Ev (g : rules_t) : rule -> Z -> list Z -> ores -> Prop :=
| ev_char b c u f t : Ev g (RChar b c u) f t (ofTerm TChar b true (tchar c f t))
| ev_chars b l f t : Ev g (RChars b l) f t (ofTerm TChars b true (tlit (skips f false) l t))
| ev_string b l f t : Ev g (RString b l) f t (ofTerm TString b false (tlit (skips f true) l t))
| ev_range b lo lu hi hu f t : Ev g (RRange b lo lu hi hu) f t (ofTerm TChars b true (trange lo hi f t))
| ev_eof b f t : Ev g (REOF b) f t
    (ofTerm TEOF (mkBase nameEOF (b_virtual b) (b_nondata b) (b_tokenized b)) true (teof f t))
| ev_undef b n f t : lookup g n = None -> Ev g (RRef b n) f t (OFail 0 false)
| ev_ref b n r f t nd u k st : lookup g n = Some r -> Ev g r f t (OMatch nd u k st) ->
    Ev g (RRef b n) f t (OMatch (flip b nd) u k st)
| ev_ref_fail b n r f t k st : lookup g n = Some r -> Ev g r f t (OFail k st) -> Ev g (RRef b n) f t (OFail k st)
| ev_group b r f t nd u k st : Ev g r f t (OMatch nd u k st) ->
    Ev g (RGroup b r) f t (OMatch (tree TGroup b [nd] st) u k st)
| ev_group_fail b r f t k st : Ev g r f t (OFail k st) -> Ev g (RGroup b r) f t (OFail k st)
| ev_option b r f t nd u k st : Ev g r f t (OMatch nd u k st) ->
    Ev g (ROption b r) f t (OMatch (tree TOption b [nd] st) u k st)
| ev_option_none b r f t k st : Ev g r f t (OFail k st) -> Ev g (ROption b r) f t (OMatch (tree TOption b [] st) 0 k st)
| ev_concat b l f t o : EvSeq g b l f t 0 0 true [] o -> Ev g (RConcat b l) f t o
| ev_rep b r mn mx f t o : EvRep g b r mn mx f t 0 0 true [] o -> Ev g (RRep b r mn mx) f t o
| ev_choice b gs f t o : EvChoice g b gs f t 0 true o -> Ev g (RChoice b gs) f t o
| ev_block_fail b op v cl esc excl f t k st : Ev g op f t (OFail k st) ->
    Ev g (RBlock b op v cl esc excl) f t (OFail k false)
| ev_block b op v cl esc excl f t on u k st o : Ev g op f t (OMatch on u k st) ->
    EvScan g b on v cl esc excl t u k [] o -> Ev g (RBlock b op v cl esc excl) f t o

(** The elements from [p] on. *)
with EvSeq (g : rules_t) : rbase -> list rule -> Z -> list Z -> nat -> nat -> bool -> list node -> ores -> Prop :=
| es_done b f t p m st kids : EvSeq g b [] f t p m st kids (OMatch (tree TConcat b kids st) p m st)
| es_step b r rules f t p m st kids n u k s o : Ev g r f (skipn p t) (OMatch n u k s) ->
    EvSeq g b rules (nextMode f n s) t (p + u) (Nat.max m (p + k)) (st && s) (kids ++ [n]) o ->
    EvSeq g b (r :: rules) f t p m st kids o
| es_fail b r rules f t p m st kids k s : Ev g r f (skipn p t) (OFail k s) ->
    EvSeq g b (r :: rules) f t p m st kids (OFail (Nat.max m (p + k)) (st && s))

(** The iterations from [p] on; [kids] has those before. *)
with EvRep (g : rules_t) : rbase -> rule -> Z -> Z -> Z -> list Z -> nat -> nat -> bool -> list node -> ores -> Prop :=
| er_end b r mn mx f t p m st kids o : skipn p t = [] -> EvEnd b mn p m st kids o ->
    EvRep g b r mn mx f t p m st kids o
| er_stop b r mn mx f t p m st kids k s o : skipn p t <> [] -> Ev g r f (skipn p t) (OFail k s) ->
    EvEnd b mn p (Nat.max m (p + k)) (st && s) kids o ->
    EvRep g b r mn mx f t p m st kids o
| er_full b r mn mx f t p m st kids n u k s o : skipn p t <> [] -> Ev g r f (skipn p t) (OMatch n u k s) ->
    0 < mx -> Z.of_nat (length (kids ++ [n])) = mx ->
    EvEnd b mn (p + u) (Nat.max m (p + k)) (st && s) (kids ++ [n]) o ->
    EvRep g b r mn mx f t p m st kids o
| er_step b r mn mx f t p m st kids n u k s o : skipn p t <> [] -> Ev g r f (skipn p t) (OMatch n u k s) ->
    ~ (0 < mx /\ Z.of_nat (length (kids ++ [n])) = mx) ->
    EvRep g b r mn mx f t (p + u) (Nat.max m (p + k)) (st && s) (kids ++ [n]) o ->
    EvRep g b r mn mx f t p m st kids o

(** All alternatives of a group on the same text: the matches, how far was looked, stickiness. *)
with EvAlts (g : rules_t) : list rule -> Z -> list Z -> nat -> bool -> list (node * nat) -> nat -> bool -> Prop :=
| ea_nil f t m st : EvAlts g [] f t m st [] m st
| ea_match r rules f t m st n u k s ml m' st' : Ev g r f t (OMatch n u k s) ->
    EvAlts g rules f t (Nat.max m k) (st && s) ml m' st' ->
    EvAlts g (r :: rules) f t m st ((n, u) :: ml) m' st'
| ea_fail r rules f t m st k s ml m' st' : Ev g r f t (OFail k s) ->
    EvAlts g rules f t (Nat.max m k) (st && s) ml m' st' ->
    EvAlts g (r :: rules) f t m st ml m' st'

(** The groups in order. *)
with EvChoice (g : rules_t) : rbase -> list (list rule) -> Z -> list Z -> nat -> bool -> ores -> Prop :=
| ec_none b f t m st : EvChoice g b [] f t m st (OFail m st)
| ec_next b grp groups f t m st m' st' o : EvAlts g grp f t m st [] m' st' ->
    EvChoice g b groups f t m' st' o -> EvChoice g b (grp :: groups) f t m st o
| ec_pick b grp groups f t m st ml m' st' n u : EvAlts g grp f t m st ml m' st' -> strictlyLongest ml n u ->
    EvChoice g b (grp :: groups) f t m st (OMatch (tree TChoice b [n] st') u m' st')
| ec_tie b grp groups f t m st ml m' st' : EvAlts g grp f t m st ml m' st' -> ml <> [] ->
    (forall n u, ~ strictlyLongest ml n u) -> EvChoice g b (grp :: groups) f t m st (OFail m' false)

(** The excludes at [p]: the matches, how far the text has been looked at. *)
with EvExcl (g : rules_t) : list rule -> list Z -> nat -> nat -> list (node * nat) -> nat -> Prop :=
| ex_nil t p m : EvExcl g [] t p m [] m
| ex_alts x excl t p m ml k st : EvAlts g (x :: excl) NOT_SKIP (skipn p t) 0 true ml k st ->
    EvExcl g (x :: excl) t p m ml (Nat.max m (p + k))

(** No escape at [p]. *)
with EvPlain (g : rules_t) : option rule -> list Z -> nat -> nat -> nat -> Prop :=
| ep_none t p m : EvPlain g None t p m m
| ep_fail e t p m k st : Ev g e NOT_SKIP (skipn p t) (OFail k st) -> EvPlain g (Some e) t p m (Nat.max m (p + k))

(** The content from [p] on; [content] is what comes before. *)
with EvScan (g : rules_t) : rbase -> node -> bool -> rule -> option rule -> list rule -> list Z -> nat -> nat ->
  list Z -> ores -> Prop :=
| sc_exclude b on v cl esc excl t p m c m1 ml m2 : EvPlain g esc t p m m1 -> EvExcl g excl t p m1 ml m2 -> ml <> [] ->
    EvScan g b on v cl esc excl t p m c (OFail m2 false)
| sc_close b on v cl esc excl t p m c m1 m2 nc u k st : EvPlain g esc t p m m1 -> EvExcl g excl t p m1 [] m2 ->
    Ev g cl NOT_SKIP (skipn p t) (OMatch nc u k st) ->
    EvScan g b on v cl esc excl t p m c
      (OMatch (tree TBlock b (on :: contentNode c :: (if v then [] else [nc])) false)
         (if v then p else p + u) (Nat.max m2 (p + k)) false)
| sc_eof b on v cl esc excl t p m c m1 m2 k st : EvPlain g esc t p m m1 -> EvExcl g excl t p m1 [] m2 ->
    Ev g cl NOT_SKIP (skipn p t) (OFail k st) -> skipn p t = [] ->
    EvScan g b on v cl esc excl t p m c (OFail (length t) false)
| sc_next b on v cl esc excl t p m c m1 m2 k st x l o : EvPlain g esc t p m m1 -> EvExcl g excl t p m1 [] m2 ->
    Ev g cl NOT_SKIP (skipn p t) (OFail k st) -> skipn p t = x :: l ->
    EvScan g b on v cl esc excl t (S p) (Nat.max (Nat.max m2 (p + k)) (S p)) (c ++ [x]) o ->
    EvScan g b on v cl esc excl t p m c o
| sc_esc_exclude b on v cl e excl t p m c ne ue ke se ml m2 n u o :
    Ev g e NOT_SKIP (skipn p t) (OMatch ne ue ke se) ->
    EvExcl g excl t (p + ue) (Nat.max m (p + ke)) ml m2 -> strictlyLongest ml n u ->
    EvScan g b on v cl (Some e) excl t (p + ue + u) m2 (c ++ firstn u (skipn (p + ue) t)) o ->
    EvScan g b on v cl (Some e) excl t p m c o
| sc_esc_close b on v cl e excl t p m c ne ue ke se m2 nc u k st o :
    Ev g e NOT_SKIP (skipn p t) (OMatch ne ue ke se) ->
    EvExcl g excl t (p + ue) (Nat.max m (p + ke)) [] m2 ->
    Ev g cl NOT_SKIP (skipn (p + ue) t) (OMatch nc u k st) ->
    EvScan g b on v cl (Some e) excl t (p + ue + u) (Nat.max m2 (p + ue + k)) (c ++ firstn u (skipn (p + ue) t)) o ->
    EvScan g b on v cl (Some e) excl t p m c o
| sc_esc_other b on v cl e excl t p m c ne ue ke se m2 k st x l o :
    Ev g e NOT_SKIP (skipn p t) (OMatch ne ue ke se) ->
    EvExcl g excl t (p + ue) (Nat.max m (p + ke)) [] m2 ->
    Ev g cl NOT_SKIP (skipn (p + ue) t) (OFail k st) -> skipn (p + ue) t = x :: l ->
    EvScan g b on v cl (Some e) excl t (S (p + ue)) (Nat.max (Nat.max m2 (p + ue + k)) (S (p + ue)))
      (c ++ firstn ue (skipn p t) ++ [x]) o ->
    EvScan g b on v cl (Some e) excl t p m c o
| sc_esc_eof b on v cl e excl t p m c ne ue ke se m2 k st :
    Ev g e NOT_SKIP (skipn p t) (OMatch ne ue ke se) ->
    EvExcl g excl t (p + ue) (Nat.max m (p + ke)) [] m2 ->
    Ev g cl NOT_SKIP (skipn (p + ue) t) (OFail k st) -> skipn (p + ue) t = [] ->
    EvScan g b on v cl (Some e) excl t p m c (OFail (length t) false).

(** The answer of an evaluation on [t] says what [o] says: the tree up to
    positions, CharsRead, CharsUnused, Sticky. *)
Definition shows (t : list Z) (o : ores) (res : result) : Prop :=
  match o with
  | OMatch n u k st => (u <= k <= length t)%nat /\ r_read res = firstn k t /\ r_unused res = skipn u (firstn k t) /\
      r_sticky res = st /\ exists nd, r_node res = Some nd /\ erase nd = n
  | OFail k st => (k <= length t)%nat /\ r_read res = firstn k t /\ r_sticky res = st /\ r_node res = None
  end.
Definition looked (o : ores) : nat := match o with OMatch _ _ k _ => k | OFail k _ => k end.
