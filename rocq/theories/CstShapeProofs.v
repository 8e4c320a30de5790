(** The shape of the trees of sources without errors. *)
From Verif Require Import BaseProofs TokModel TokSpec TokProofs RetokProofs CstModel CstSpec CstProofs CstFmtModel.

(** ** Streams of tokens *)
Inductive stream : tstate -> list token -> Prop :=
| str_nil : forall st, stream st []
| str_eof : forall st e, tk_kind e = Eof -> stream st [e]
| str_cons : forall st t st' r, next_token st = (t, st') -> tk_kind t <> Eof -> hd_ok (ts_hd st) -> stream st' r -> stream st (t :: r).
Definition streams (ts : list token) : Prop := exists st, stream st ts.
Lemma streams_suffix : forall u ts, streams (u ++ ts) -> streams ts.
Proof.
  induction u as [|t u IH]; intros ts [st H]; [exists st; exact H|]. cbn in H. inversion H; subst.
  - destruct u, ts; try discriminate. exists st. constructor.
  - apply IH. exists st'. assumption.
Qed.
Lemma tokens_stream : forall f st ts e, hd_ok (ts_hd st) -> tokens_from f st = Some ts -> tk_kind e = Eof -> stream st (ts ++ [e]).
Proof.
  induction f as [|f IH]; intros st ts e HO H K; cbn in H; [discriminate|].
  destruct (next_token st) as [t st'] eqn:N. destruct (is_eof_kind (tk_kind t)) eqn:E.
  - injection H as <-. apply str_eof. exact K.
  - destruct (tokens_from f st') as [r|] eqn:T; [|discriminate]. injection H as <-. cbn. eapply str_cons; [exact N | | exact HO |].
    + intros Q. rewrite Q in E. discriminate.
    + apply IH; try assumption. eapply next_hd_ok; [exact HO | exact N].
Qed.

(** [t] is read as a token of kind [k] wherever it may stand. *)
Definition valid (k : tkind) (t : str) : Prop :=
  t <> [] /\ tok_shape k t /\ forall rest, follows k rest -> lexes t rest [(k, t)].
Definition plain_kind (k : tkind) : bool :=
  match k with Eof | TError | HeredocStart | HeredocContent | HeredocEnd => false | _ => true end.
Lemma kind_hd : forall st t st', next_token st = (t, st') -> ts_hd st <> None ->
  tk_kind t = HeredocContent \/ tk_kind t = HeredocEnd \/ tk_kind t = TError.
Proof.
  intros [rem pos hd] t st' H N. unfold next_token in H. cbn [ts_hd ts_rem ts_pos] in *. destruct hd as [hs|]; [|contradiction].
  unfold tok_heredoc_content in H. repeat match type of H with context [match ?q with _ => _ end] => destruct q end;
    unfold emit in H; injection H as <- <-; auto.
Qed.
Lemma kind_hd_none : forall st t st', next_token st = (t, st') ->
  tk_kind t <> HeredocContent -> tk_kind t <> HeredocEnd -> tk_kind t <> TError -> ts_hd st = None.
Proof.
  intros st t st' H N1 N2 N3. destruct (ts_hd st) eqn:E; [|reflexivity].
  destruct (kind_hd _ _ _ H) as [Q|[Q|Q]]; try contradiction. rewrite E. discriminate.
Qed.
Lemma stream_valid : forall t r, streams (t :: r) -> plain_kind (tk_kind t) = true -> valid (tk_kind t) (tk_text t).
Proof.
  intros t r [st H] K. inversion H; subst; [match goal with Q : tk_kind t = Eof |- _ => rewrite Q in K; discriminate end|].
  pose proof (next_token_good st ltac:(assumption)) as G. match goal with Q : next_token st = _ |- _ => rewrite Q in G; rename Q into N end.
  destruct G as (SH & _ & _ & _). cbn [fst] in SH.
  assert (HD : ts_hd st = None) by (eapply kind_hd_none; [exact N | intros Q; rewrite Q in K; discriminate ..]).
  split; [|split].
  - intros Q. rewrite Q in SH. apply tok_shape_nil in SH; [|assumption]. rewrite SH in K. discriminate.
  - exact SH.
  - intros rest F. eapply lexes_token; [exact HD | exact N | exact F].
Qed.
Definition nl_next (ts : list token) : Prop := peek_kind ts = Newline \/ peek_kind ts = Eof.
Lemma heredoc_then_newline : forall t r, streams (t :: r) -> tk_kind t = HeredocEnd -> nl_next r.
Proof.
  intros t r [st H] K. inversion H; subst; [congruence|].
  match goal with Q : next_token st = _ |- _ => rename Q into N end.
  destruct (heredoc_end_state _ _ _ N K ltac:(assumption)) as (hs & w & _ & _ & LE & HD & _).
  match goal with Q : stream st' r |- _ => inversion Q; subst end; unfold nl_next; cbn [peek_kind]; auto.
  left. match goal with Q : next_token st' = _ |- _ => rename Q into N2 end.
  destruct st' as [rem pos hd]. cbn in HD, LE. subst hd. destruct LE as [->|[(x & ->)|(x & ->)]].
  - cbn in N2. injection N2 as <- <-. contradiction.
  - cbn in N2. injection N2 as <- <-. reflexivity.
  - cbn in N2. injection N2 as <- <-. reflexivity.
Qed.

(** ** Shapes

    Each shape comes with the significant tokens under it and a flag: whether it ends with a heredoc. *)
Definition blank_leaf (n : cst) : Prop := exists t, n = Leaf (LTok Whitespace) t.
Definition payload_kind (k : tkind) : bool :=
  match k with LBrace | LParen | QuotedScalar | RawScalar | HeredocStart | At | Tag => true | _ => false end.
Definition payload_sym (t : str) (l : list sym) : Prop :=
  match l with
  | (k, c :: _) :: _ => payload_kind k = true /\
      forall rest, scan_tag (c :: rest) = ([], c :: rest) -> lexes t (c :: rest) [(Tag, t)]
  | _ => False
  end.
(** An element of a sequence: an entry with nothing but a key, or a leaf between elements. *)
Definition element (c : cst) : Prop := match c with Node _ cs => exists a, cs = [Node KEY [a]] | Leaf _ _ => True end.
Inductive atom : cst -> bool -> list sym -> Prop :=
| at_scalar : forall k t, k = BareScalar \/ k = QuotedScalar \/ k = RawScalar -> valid k t ->
    atom (Node SCALAR [Leaf (LTok k) t]) false [(k, t)]
| at_unit : atom (Node UNIT [Leaf (LTok At) [cAT]]) false [(At, [cAT])]
| at_heredoc : forall cs l t x, (forall rest, line_end rest -> lexes (flat_map node_text cs) rest l) -> sigs l = l ->
    l = (HeredocStart, t) :: x -> t <> [] -> (exists y, flat_map node_text cs = t ++ y) -> tok_shape HeredocStart t ->
    (exists cs' e, cs = cs' ++ [Leaf (LTok HeredocEnd) e]) -> cs = map (fun x => Leaf (LTok (fst x)) (snd x)) l ->
    atom (Node HEREDOC cs) true l
| at_tag : forall t s m, valid Tag t -> split_tag t = (cAT :: s, m) -> ats m -> atom (tag_node (cAT :: s) m []) false [(Tag, t)]
| at_tagp : forall t s m c h l, valid Tag t -> split_tag t = (cAT :: s, m) -> ats m -> atom c h l -> payload_sym t l ->
    atom (tag_node (cAT :: s) m [Node TAG_PAYLOAD [c]]) h ((Tag, t) :: l)
| at_object : forall cs l, items cs false l ->
    atom (Node OBJECT (Leaf (LTok LBrace) [cLB] :: cs ++ [Leaf (LTok RBrace) [cRB]])) false ((LBrace, [cLB]) :: l ++ [(RBrace, [cRB])])
| at_seq : forall cs l, items cs false l -> Forall element cs ->
    atom (Node SEQUENCE (Leaf (LTok LParen) [cLP] :: cs ++ [Leaf (LTok RParen) [cRP]])) false ((LParen, [cLP]) :: l ++ [(RParen, [cRP])])
with items : list cst -> bool -> list sym -> Prop :=
| it_nil : items [] false []
| it_gap : forall k t cs h l, k = Whitespace \/ k = Newline \/ k = Comma -> items cs h l -> items (Leaf (LTok k) t :: cs) h l
| it_comment : forall k t cs h l, k = LineComment \/ k = DocComment -> valid k t -> items cs h l ->
    items (Leaf (LTok k) t :: cs) h ((k, t) :: l)
| it_last : forall e h l, entry e h l -> items [e] h l
| it_entry : forall e h0 l0 cs h l, entry e h0 l0 -> (h0 = true -> exists t cs', cs = Leaf (LTok Newline) t :: cs') ->
    items cs h l -> items (e :: cs) h (l0 ++ l)
with entry : cst -> bool -> list sym -> Prop :=
| en_empty : entry (Node ENTRY []) false []
| en_attrs : forall cs h l, attrs cs h l -> entry (Node ENTRY [Node ATTRIBUTES cs]) h l
| en_key : forall a ws h l, atom a h l -> Forall blank_leaf ws -> entry (Node ENTRY (Node KEY [a] :: ws)) h l
| en_vals : forall a l ws vs h lv, atom a false l -> Forall blank_leaf ws -> vals vs h lv ->
    entry (Node ENTRY (Node KEY [a] :: ws ++ vs)) h (l ++ lv)
with vals : list cst -> bool -> list sym -> Prop :=
| va_last : forall v ws h l, value v h l -> Forall blank_leaf ws -> vals (Node VALUE [v] :: ws) h l
| va_more : forall v ws l vs h lv, value v false l -> Forall blank_leaf ws -> vals vs h lv ->
    vals (Node VALUE [v] :: ws ++ vs) h (l ++ lv)
with value : cst -> bool -> list sym -> Prop :=
| v_atom : forall a h l, atom a h l -> value a h l
| v_attrs : forall cs h l, attrs cs h l -> value (Node ATTRIBUTES cs) h l
with attrs : list cst -> bool -> list sym -> Prop :=
| as_last : forall x ws h l, attribute x h l -> Forall blank_leaf ws -> attrs (x :: ws) h l
| as_more : forall x ws l cs h l', attribute x false l -> Forall blank_leaf ws -> attrs cs h l' -> attrs (x :: ws ++ cs) h (l ++ l')
with attribute : cst -> bool -> list sym -> Prop :=
| ab_intro : forall t a h l, valid BareScalar t -> atom a h l ->
    attribute (Node ATTRIBUTE [Leaf (LTok BareScalar) t; Leaf (LTok Gt) [cGT]; a]) h ((BareScalar, t) :: (Gt, [cGT]) :: l).
Scheme atom_mut := Minimality for atom Sort Prop
  with items_mut := Minimality for items Sort Prop
  with entry_mut := Minimality for entry Sort Prop
  with vals_mut := Minimality for vals Sort Prop
  with value_mut := Minimality for value Sort Prop
  with attrs_mut := Minimality for attrs Sort Prop
  with attribute_mut := Minimality for attribute Sort Prop.
Combined Scheme shapes_mut from atom_mut, items_mut, entry_mut, vals_mut, value_mut, attrs_mut, attribute_mut.

(** ** Consumption *)
Definition eats (ts : list token) (l : list sym) (ts' : list token) : Prop :=
  exists u, ts = u ++ ts' /\ sigs (map kt u) = l.
Lemma eats_nil : forall ts, eats ts [] ts.
Proof. intros ts. exists []. split; reflexivity. Qed.
Lemma eats_app : forall a b c x y, eats a x b -> eats b y c -> eats a (x ++ y) c.
Proof.
  intros a b c x y (u & -> & <-) (v & -> & <-). exists (u ++ v). rewrite <- app_assoc, map_app, sigs_app. split; reflexivity.
Qed.
Lemma eats_streams : forall a x b, eats a x b -> streams a -> streams b.
Proof. intros a x b (u & -> & _) S. eapply streams_suffix. exact S. Qed.
Lemma eats_one : forall t r, sig_kind (tk_kind t) = true -> eats (t :: r) [kt t] r.
Proof. intros t r K. exists [t]. split; [reflexivity|]. cbn. rewrite K. reflexivity. Qed.
Lemma eats_gap : forall t r, sig_kind (tk_kind t) = false -> eats (t :: r) [] r.
Proof. intros t r K. exists [t]. split; [reflexivity|]. cbn. rewrite K. reflexivity. Qed.

Lemma skip_blank_shape : forall ts c ts', skip is_blank_kind ts = (c, ts') -> Forall blank_leaf c /\ eats ts [] ts'.
Proof.
  induction ts as [|t r IH]; intros c ts' H; cbn in H; [injection H as <- <-; split; [constructor | apply eats_nil]|].
  unfold is_blank_kind in H at 1. destruct (tkind_eqb (tk_kind t) Whitespace) eqn:E.
  - destruct (skip is_blank_kind r) as [c' r'] eqn:S. injection H as <- <-. destruct (IH _ _ eq_refl) as [A B].
    apply tkind_eqb_eq in E. split.
    + constructor; [exists (tk_text t); unfold leaf; rewrite E; reflexivity | exact A].
    + apply (eats_app _ r _ [] []); [apply eats_gap; rewrite E; reflexivity | exact B].
  - injection H as <- <-. split; [constructor | apply eats_nil].
Qed.
Lemma skip_nl_next : forall ts, nl_next ts -> skip is_blank_kind ts = ([], ts).
Proof. intros ts [H|H]; destruct ts as [|t r]; cbn in *; try rewrite H; reflexivity. Qed.
Lemma blank_items : forall ws cs h l, Forall blank_leaf ws -> items cs h l -> items (ws ++ cs) h l.
Proof.
  intros ws cs h l F H. induction F as [|w ws (t & ->) F IH]; [exact H|]. apply it_gap; [left; reflexivity | exact IH].
Qed.
(** Leaves between entries. *)
Lemma skip_items : forall p, (forall k, p k = true -> k = Whitespace \/ k = Newline \/ k = LineComment \/ k = DocComment) ->
  forall ts c ts', streams ts -> skip p ts = (c, ts') -> exists l, eats ts l ts' /\
    forall cs h l', items cs h l' -> items (c ++ cs) h (l ++ l').
Proof.
  intros p P. induction ts as [|t r IH]; intros c ts' S H; cbn in H.
  { injection H as <- <-. exists []. split; [apply eats_nil | intros; assumption]. }
  destruct (p (tk_kind t)) eqn:E.
  - destruct (skip p r) as [c' r'] eqn:SK. injection H as <- <-. apply P in E.
    destruct (IH _ _ (streams_suffix [t] _ S) eq_refl) as (l & EA & IT).
    destruct E as [E|[E|E]].
    1,2: exists l; split; [apply (eats_app _ r _ [] l); [apply eats_gap; rewrite E; reflexivity | exact EA] |];
      intros cs h l' H'; unfold leaf; rewrite E; cbn [app]; apply it_gap; [tauto | apply IT; exact H'].
    exists (kt t :: l). split; [apply (eats_app _ r _ [kt t] l); [apply eats_one; destruct E as [E|E]; rewrite E; reflexivity | exact EA]|].
    intros cs h l' H'. unfold leaf, kt. cbn [app]. apply it_comment; [exact E | | apply IT; exact H'].
    eapply stream_valid; [exact S | destruct E as [E|E]; rewrite E; reflexivity].
  - injection H as <- <-. exists []. split; [apply eats_nil | intros; assumption].
Qed.
Lemma docs_items : forall ts c ts', streams ts -> skip_docs ts = (c, ts') -> exists l, eats ts l ts' /\
    forall cs h l', items cs h l' -> items (c ++ cs) h (l ++ l').
Proof.
  intros ts c ts' S H. unfold skip_docs in H. destruct (tkind_eqb _ _).
  - eapply skip_items; [| exact S | exact H]. intros [] Q; try discriminate; tauto.
  - injection H as <- <-. exists []. split; [apply eats_nil | intros; assumption].
Qed.

Lemma skip_elements : forall p ts c ts', skip p ts = (c, ts') -> Forall element c.
Proof.
  intros p. induction ts as [|t r IH]; intros c ts' H; cbn in H; [injection H as <- <-; constructor|].
  destruct (p (tk_kind t)).
  - destruct (skip p r) as [c' r'] eqn:S. injection H as <- <-. constructor; [exact I | eapply IH; reflexivity].
  - injection H as <- <-. constructor.
Qed.

(** ** The parser builds these shapes *)
Lemma app_nil_both : forall (A : Type) (a b : list A), a ++ b = [] -> a = [] /\ b = [].
Proof. intros A a b H. apply app_eq_nil in H. exact H. Qed.
Lemma nl_end : forall closing ts, nl_next ts -> at_entry_end closing ts = true.
Proof. intros closing ts [H|H]; unfold at_entry_end; rewrite H; reflexivity. Qed.
Lemma peek_cons : forall ts k, peek_kind ts = k -> k <> Eof -> exists t r, ts = t :: r /\ tk_kind t = k.
Proof. intros [|t r] k H N; cbn in H; [congruence | exists t, r; split; [reflexivity | exact H]]. Qed.
Lemma bracket_text : forall t r k c, streams (t :: r) -> tk_kind t = k -> (k, c) = (LBrace, [cLB]) \/ (k, c) = (RBrace, [cRB])
  \/ (k, c) = (LParen, [cLP]) \/ (k, c) = (RParen, [cRP]) \/ (k, c) = (Gt, [cGT]) \/ (k, c) = (At, [cAT]) -> tk_text t = c.
Proof.
  intros t r k c S K H. assert (P : plain_kind (tk_kind t) = true).
  { rewrite K. repeat destruct H as [H|H]; injection H as -> _; reflexivity. }
  destruct (stream_valid _ _ S P) as (_ & SH & _). rewrite K in SH.
  repeat destruct H as [H|H]; injection H as -> ->; exact SH.
Qed.
Lemma closes_eof : forall closing ts, closes closing ts = true -> closing <> None ->
  exists k, closing = Some k /\ peek_kind ts = k.
Proof.
  intros [k|] ts H N; [|contradiction]. exists k. split; [reflexivity|]. cbn in H. apply tkind_eqb_eq in H. exact H.
Qed.

Definition at_parse (ts : list token) (c : list cst) (ts' : list token) : Prop :=
  exists a h l, c = [a] /\ atom a h l /\ eats ts l ts' /\ (h = true -> nl_next ts') /\
    exists t r l', ts = t :: r /\ l = kt t :: l'.

Lemma stream_cons : forall st t r, stream st (t :: r) -> tk_kind t <> Eof ->
  exists st', next_token st = (t, st') /\ hd_ok (ts_hd st) /\ stream st' r.
Proof. intros st t r H N. inversion H; subst; [contradiction|]. exists st'. splits; assumption. Qed.

Lemma heredoc_shape : forall ts c ts', streams ts -> peek_kind ts = HeredocStart -> parse_heredoc ts = (c, [], ts') ->
  at_parse ts c ts'.
Proof.
  intros ts c ts' S K H. destruct (peek_cons _ _ K ltac:(discriminate)) as (t1 & r1 & -> & K1).
  unfold parse_heredoc in H. cbn [bump] in H.
  destruct S as [st S]. destruct (stream_cons _ _ _ S ltac:(congruence)) as (st1 & N1 & HO & S1).
  assert (HD : ts_hd st = None) by (eapply kind_hd_none; [exact N1 | congruence ..]).
  assert (SH1 : tok_shape HeredocStart (tk_text t1)).
  { pose proof (next_token_good st HO) as G. rewrite N1 in G. destruct G as (G & _). cbn [fst] in G. rewrite K1 in G. exact G. }
  assert (NE1 : tk_text t1 <> []) by (intros Q; rewrite Q in SH1; apply tok_shape_nil in SH1; discriminate).
  destruct (tkind_eqb (peek_kind r1) HeredocContent) eqn:EC.
  - apply tkind_eqb_eq in EC. destruct (peek_cons _ _ EC ltac:(discriminate)) as (t2 & r2 & -> & K2). cbn [bump] in H.
    destruct (tkind_eqb (peek_kind r2) HeredocEnd) eqn:EE; [|discriminate].
    apply tkind_eqb_eq in EE. destruct (peek_cons _ _ EE ltac:(discriminate)) as (t3 & r3 & -> & K3). cbn [bump] in H. injection H as <- <-.
    destruct (stream_cons _ _ _ S1 ltac:(congruence)) as (st2 & N2 & _ & S2).
    destruct (stream_cons _ _ _ S2 ltac:(congruence)) as (st3 & N3 & _ & _).
    exists (Node HEREDOC [leaf t1; leaf t2; leaf t3]), true, [kt t1; kt t2; kt t3]. split; [reflexivity|]. split; [|split; [|split]].
    + apply at_heredoc with (t := tk_text t1) (x := [kt t2; kt t3]); try assumption.
      * intros rest LR. cbn [flat_map node_text leaf]. rewrite app_nil_r. eapply heredoc_lexes; eassumption.
      * unfold kt. cbn. rewrite K1, K2, K3. reflexivity.
      * unfold kt. rewrite K1. reflexivity.
      * cbn. eexists. reflexivity.
      * exists [leaf t1; leaf t2], (tk_text t3). unfold leaf. rewrite K3. reflexivity.
      * reflexivity.
    + exists [t1; t2; t3]. split; [reflexivity|]. cbn. rewrite K1, K2, K3. reflexivity.
    + intros _. eapply heredoc_then_newline; [eexists; exact S2 | exact K3].
    + exists t1, (t2 :: t3 :: r3), [kt t2; kt t3]. split; reflexivity.
  - cbn [app] in H.
    destruct (tkind_eqb (peek_kind r1) HeredocEnd) eqn:EE; [|discriminate].
    apply tkind_eqb_eq in EE. destruct (peek_cons _ _ EE ltac:(discriminate)) as (t3 & r3 & -> & K3). cbn [bump] in H. injection H as <- <-.
    destruct (stream_cons _ _ _ S1 ltac:(congruence)) as (st3 & N3 & _ & _).
    exists (Node HEREDOC [leaf t1; leaf t3]), true, [kt t1; kt t3]. split; [reflexivity|]. split; [|split; [|split]].
    + apply at_heredoc with (t := tk_text t1) (x := [kt t3]); try assumption.
      * intros rest LR. cbn [flat_map node_text leaf]. rewrite app_nil_r. eapply heredoc_lexes_empty; eassumption.
      * unfold kt. cbn. rewrite K1, K3. reflexivity.
      * unfold kt. rewrite K1. reflexivity.
      * cbn. eexists. reflexivity.
      * exists [leaf t1], (tk_text t3). unfold leaf. rewrite K3. reflexivity.
      * reflexivity.
    + exists [t1; t3]. split; [reflexivity|]. cbn. rewrite K1, K3. reflexivity.
    + intros _. eapply heredoc_then_newline; [eexists; exact S1 | exact K3].
    + exists t1, (t3 :: r3), [kt t3]. split; reflexivity.
Qed.

(** A tag followed by its payload. *)
Lemma tag_payload_sym : forall t t2 r l, streams (t :: t2 :: r) -> tk_kind t = Tag -> payload_kind (tk_kind t2) = true ->
  payload_sym (tk_text t) (kt t2 :: l).
Proof.
  intros t t2 r l [st S] K P. destruct (stream_cons _ _ _ S ltac:(congruence)) as (st1 & N1 & _ & S1).
  assert (NE : tk_kind t2 <> Eof) by (intros Q; rewrite Q in P; discriminate).
  destruct (stream_cons _ _ _ S1 NE) as (st2 & N2 & HO & _). pose proof (next_token_good st1 HO) as G. rewrite N2 in G. destruct G as (SH & _). cbn [fst] in SH.
  unfold payload_sym, kt. destruct (tk_text t2) as [|c t'] eqn:E.
  { apply tok_shape_nil in SH; [|assumption]. rewrite SH in P. discriminate. }
  split; [exact P|]. intros rest F p. exists (p + blen (tk_text t)).
  assert (HD : ts_hd st = None) by (eapply kind_hd_none; [exact N1 | congruence ..]).
  eapply steps_one; [|discriminate|].
  - eapply next_tag_local; [exact HD | exact N1 | exact K | exact F |]. rewrite (next_split _ _ _ N2), E. reflexivity.
  - apply steps_nil.
Qed.

Lemma parse_shape : forall n,
  (forall closing ts c ts', streams ts -> closing = None \/ closing = Some RBrace -> parse_entries n closing ts = Ok (c, [], ts') ->
     exists h l, items c h l /\ eats ts l ts' /\ (h = true -> peek_kind ts' = Eof) /\ (peek_kind ts = Eof -> c = [] /\ ts' = ts /\ h = false) /\
       (peek_kind ts' = Eof \/ closes closing ts' = true)) /\
  (forall closing ts c ts', streams ts -> closing = None \/ closing = Some RBrace -> parse_entry n closing ts = Ok (c, [], ts') ->
     exists e h l, c = [e] /\ entry e h l /\ eats ts l ts' /\ (h = true -> nl_next ts')) /\
  (forall closing count ts c ts', streams ts -> parse_values n closing count ts = Ok (c, [], ts') ->
     (c = [] /\ ts' = ts) \/ exists h l, vals c h l /\ eats ts l ts' /\ (h = true -> nl_next ts') /\ at_entry_end closing ts = false) /\
  (forall closing ts c ts', streams ts -> parse_attributes n closing ts = Ok (c, [], ts') ->
     (c = [] /\ ts' = ts /\ at_attribute ts = false) \/ exists h l, attrs c h l /\ eats ts l ts' /\ (h = true -> nl_next ts')) /\
  (forall ts c ts', streams ts -> at_attribute ts = true -> parse_attribute n ts = Ok (c, [], ts') ->
     exists x h l, c = [x] /\ attribute x h l /\ eats ts l ts' /\ (h = true -> nl_next ts')) /\
  (forall ts c ts', streams ts -> parse_atom n ts = Ok (c, [], ts') -> at_parse ts c ts') /\
  (forall ts c ts', streams ts -> parse_elements n ts = Ok (c, [], ts') ->
     exists l, items c false l /\ Forall element c /\ eats ts l ts' /\ peek_kind ts' = RParen /\
       (nl_next ts -> exists t cs, c = Leaf (LTok Newline) t :: cs)).
Proof.
  induction n as [|n IH]; [repeat split; intros; discriminate|].
  destruct IH as (IHes & IHe & IHv & IHas & IHa & IHt & IHl). splits.
  - (* entries *)
    intros closing ts c ts' S HC H. cbn [parse_entries] in H.
    destruct (skip is_trivia_kind ts) as [c1 ts1] eqn:S1. destruct (skip_docs ts1) as [c2 ts2] eqn:S2.
    destruct (skip_items is_trivia_kind ltac:(intros [] Q; try discriminate; tauto) _ _ _ S S1) as (l1 & E1 & I1).
    pose proof (eats_streams _ _ _ E1 S) as ST1.
    destruct (docs_items _ _ _ ST1 S2) as (l2 & E2 & I2). pose proof (eats_streams _ _ _ E2 ST1) as ST2.
    assert (EOF : peek_kind ts = Eof -> c1 = [] /\ c2 = [] /\ ts2 = ts).
    { intros Q. destruct ts as [|t r]; cbn in *.
      - injection S1 as <- <-. cbn in S2. injection S2 as <- <-. auto.
      - rewrite Q in S1. cbn in S1. injection S1 as <- <-. unfold skip_docs in S2. cbn in S2. rewrite Q in S2. cbn in S2. injection S2 as <- <-. auto. }
    destruct (tkind_eqb (peek_kind ts2) Eof || closes closing ts2) eqn:EC.
    + injection H as <- <-. exists false, (l1 ++ l2 ++ []). splits.
      * apply I1. rewrite <- (app_nil_r c2). apply I2. apply it_nil.
      * rewrite app_nil_r. eapply eats_app; [exact E1 | exact E2].
      * discriminate.
      * intros Q. destruct (EOF Q) as (-> & -> & ->). auto.
      * apply orb_true_iff in EC as [EC|EC]; [left; apply tkind_eqb_eq; exact EC | right; exact EC].
    + destruct (parse_entry n closing ts2) as [[[c3 e3] ts3]| |] eqn:PE; try discriminate. cbn [bind] in H.
      destruct (skip is_blank_kind ts3) as [c4 ts4] eqn:S4.
      destruct (match peek_kind ts4 with Comma | Newline => bump ts4 | _ => ([], ts4) end) as [c5 ts5] eqn:S5.
      destruct (parse_entries n closing ts5) as [[[c6 e6] ts6]| |] eqn:PR; try discriminate. cbn [bind] in H.
      injection H as <- HE <-. apply app_nil_both in HE as [-> ->].
      destruct (IHe _ _ _ _ ST2 HC PE) as (e & h0 & l0 & -> & EN & E3 & NL). pose proof (eats_streams _ _ _ E3 ST2) as ST3.
      destruct (skip_blank_shape _ _ _ S4) as [B4 E4]. pose proof (eats_streams _ _ _ E4 ST3) as ST4.
      assert (E5 : eats ts4 [] ts5 /\ (c5 = [] \/ exists k t, c5 = [Leaf (LTok k) t] /\ (k = Comma \/ k = Newline) /\ peek_kind ts4 = k)).
      { destruct (peek_kind ts4) eqn:K; try (injection S5 as <- <-; split; [apply eats_nil | left; reflexivity]).
        - destruct (peek_cons _ _ K ltac:(discriminate)) as (t & r & -> & KT). cbn in S5. injection S5 as <- <-. split.
          + apply eats_gap. rewrite KT. reflexivity.
          + right. exists Comma, (tk_text t). unfold leaf. rewrite KT. auto.
        - destruct (peek_cons _ _ K ltac:(discriminate)) as (t & r & -> & KT). cbn in S5. injection S5 as <- <-. split.
          + apply eats_gap. rewrite KT. reflexivity.
          + right. exists Newline, (tk_text t). unfold leaf. rewrite KT. auto. }
      destruct E5 as [E5 C5]. pose proof (eats_streams _ _ _ E5 ST4) as ST5.
      destruct (IHes _ _ _ _ ST5 HC PR) as (h & l & IT & E6 & HN & HEOF & HEND).
      assert (EAT : eats ts (l1 ++ l2 ++ l0 ++ l) ts6).
      { eapply eats_app; [exact E1|]. eapply eats_app; [exact E2|]. eapply eats_app; [exact E3|].
        apply (eats_app _ ts4 _ [] l); [exact E4|]. apply (eats_app _ ts5 _ [] l); [exact E5 | exact E6]. }
      assert (NEOF : peek_kind ts = Eof -> False).
      { intros Q. destruct (EOF Q) as (_ & _ & ->). rewrite Q in EC. discriminate. }
      destruct h0.
      * specialize (NL eq_refl). rewrite (skip_nl_next _ NL) in S4. injection S4 as <- <-.
        destruct NL as [NL|NL].
        -- rewrite NL in S5. destruct (peek_cons _ _ NL ltac:(discriminate)) as (t & r & -> & KT). cbn in S5. injection S5 as <- <-.
           exists h, (l1 ++ l2 ++ l0 ++ l). splits; try assumption.
           ++ cbn [app]. rewrite <- ?app_assoc. apply I1. apply I2. cbn [app]. apply it_entry with (h0 := true); [exact EN | |].
              ** intros _. unfold leaf. rewrite KT. eauto.
              ** unfold leaf. rewrite KT. apply it_gap; [tauto | exact IT].
           ++ intros Q. destruct (NEOF Q).
        -- rewrite NL in S5. injection S5 as <- <-. destruct (HEOF NL) as (-> & -> & ->).
           assert (l = []) as -> by (inversion IT; reflexivity).
           exists true, (l1 ++ l2 ++ l0). rewrite app_nil_r in EAT. splits; try assumption.
           ++ rewrite !app_nil_r. apply I1. apply I2. apply it_last. exact EN.
           ++ intros _. exact NL.
           ++ intros Q. destruct (NEOF Q).
      * exists h, (l1 ++ l2 ++ l0 ++ l). splits; try assumption.
        -- apply I1. apply I2. cbn [app]. apply it_entry with (h0 := false); [exact EN | discriminate |]. apply blank_items; [exact B4|].
           destruct C5 as [->|(k & t & -> & K & _)]; [exact IT|]. cbn [app]. apply it_gap; [tauto | exact IT].
        -- intros Q. destruct (NEOF Q).
  - (* entry *)
    intros closing ts c ts' S HC H. cbn [parse_entry] in H. destruct (at_attribute ts) eqn:AA.
    + destruct (parse_attributes n closing ts) as [[[c1 e1] ts1]| |] eqn:PA; try discriminate. cbn [bind] in H.
      injection H as <- -> <-. destruct (IHas _ _ _ _ S PA) as [(_ & _ & Q)|(h & l & A & E & NL)]; [congruence|].
      exists (Node ENTRY [Node ATTRIBUTES c1]), h, l. splits; try assumption; [reflexivity | apply en_attrs; exact A].
    + destruct (at_entry_end closing ts) eqn:AE.
      * cbn [bind] in H. destruct (skip is_blank_kind ts) as [cw ts2] eqn:SW.
        destruct (parse_values n closing 0 ts2) as [[[cv ev] ts3]| |] eqn:PV; try discriminate. cbn [bind] in H.
        injection H as <- -> <-.
        assert (cw = [] /\ ts2 = ts) as [-> ->].
        { destruct ts as [|t r]; cbn in SW; [injection SW as <- <-; auto|]. unfold is_blank_kind in SW. destruct (tkind_eqb (tk_kind t) Whitespace) eqn:Q.
          - apply tkind_eqb_eq in Q. unfold at_entry_end in AE. cbn in AE. rewrite Q in AE. destruct HC as [->| ->]; discriminate.
          - injection SW as <- <-. auto. }
        destruct (IHv _ _ _ _ _ S PV) as [[-> ->]|(h & l & _ & _ & _ & Q)]; [|congruence].
        exists (Node ENTRY []), false, []. splits; [reflexivity | apply en_empty | apply eats_nil | discriminate].
      * destruct (parse_atom n ts) as [[[ca ea] tsa]| |] eqn:PA; try discriminate. cbn [bind] in H.
        destruct (skip is_blank_kind tsa) as [cw ts2] eqn:SW.
        destruct (parse_values n closing 0 ts2) as [[[cv ev] ts3]| |] eqn:PV; try discriminate. cbn [bind] in H.
        injection H as <- HE <-. apply app_nil_both in HE as [-> ->].
        destruct (IHt _ _ _ S PA) as (a & h & l & -> & A & EA & NL & _). pose proof (eats_streams _ _ _ EA S) as STa.
        destruct (skip_blank_shape _ _ _ SW) as [BW EW]. pose proof (eats_streams _ _ _ EW STa) as ST2.
        destruct (IHv _ _ _ _ _ ST2 PV) as [[-> ->]|(h' & l' & V & EV & NV & Q)].
        -- exists (Node ENTRY (Node KEY [a] :: cw)), h, l. rewrite app_nil_r. splits; [reflexivity | apply en_key; assumption | |].
           ++ rewrite <- (app_nil_r l). eapply eats_app; eassumption.
           ++ intros Q. specialize (NL Q). rewrite (skip_nl_next _ NL) in SW. injection SW as <- <-. exact NL.
        -- destruct h.
           { exfalso. specialize (NL eq_refl). rewrite (skip_nl_next _ NL) in SW. injection SW as <- <-. rewrite (nl_end closing _ NL) in Q. discriminate. }
           exists (Node ENTRY (Node KEY [a] :: cw ++ cv)), h', (l ++ l'). splits; [reflexivity | apply en_vals; assumption | | exact NV].
           eapply eats_app; [exact EA|]. apply (eats_app _ ts2 _ [] l'); assumption.
  - (* values *)
    intros closing count ts c ts' S H. cbn [parse_values] in H. destruct (at_entry_end closing ts) eqn:AE.
    { injection H as <- <-. left. auto. }
    right.
    assert (STEP : forall v e ts1, (exists h l, value v h l /\ eats ts l ts1 /\ (h = true -> nl_next ts1)) ->
      (let (cw, ts2) := skip is_blank_kind ts1 in
       do (cv, ev, ts3) <- parse_values n closing (Datatypes.S count) ts2;
       Ok ([Node VALUE [v]] ++ cw ++ cv, e ++ ev, ts3)) = Ok (c, [], ts') ->
      exists h l, vals c h l /\ eats ts l ts' /\ (h = true -> nl_next ts')).
    { intros v e ts1 (h & l & V & EV & NL) P. destruct (skip is_blank_kind ts1) as [cw ts2] eqn:SW.
      destruct (parse_values n closing (Datatypes.S count) ts2) as [[[cv ev] ts3]| |] eqn:PV; try discriminate. cbn [bind] in P.
      injection P as <- HE <-. apply app_nil_both in HE as [-> ->]. pose proof (eats_streams _ _ _ EV S) as ST1.
      destruct (skip_blank_shape _ _ _ SW) as [BW EW]. pose proof (eats_streams _ _ _ EW ST1) as ST2.
      destruct (IHv _ _ _ _ _ ST2 PV) as [[-> ->]|(h' & l' & V' & EV' & NV & Q)].
      - exists h, l. rewrite app_nil_r. cbn [app]. splits; [apply va_last; assumption | |].
        + rewrite <- (app_nil_r l). eapply eats_app; eassumption.
        + intros Q. specialize (NL Q). rewrite (skip_nl_next _ NL) in SW. injection SW as <- <-. exact NL.
      - destruct h.
        { exfalso. specialize (NL eq_refl). rewrite (skip_nl_next _ NL) in SW. injection SW as <- <-. rewrite (nl_end closing _ NL) in Q. discriminate. }
        exists h', (l ++ l'). cbn [app]. splits; [apply va_more; assumption | | exact NV].
        eapply eats_app; [exact EV|]. apply (eats_app _ ts2 _ [] l'); assumption. }
    assert (G : exists h l, vals c h l /\ eats ts l ts' /\ (h = true -> nl_next ts')).
    { destruct (at_attribute ts) eqn:AA.
      - destruct (parse_attributes n closing ts) as [[[c1 e1] ts1]| |] eqn:PA; try discriminate. cbn [bind] in H.
        assert (e1 = []) as ->.
        { destruct (skip is_blank_kind ts1) as [cw ts2]. destruct (parse_values _ _ _ _) as [[[cv ev] ts3]| |]; try discriminate.
          injection H as _ HE _. apply app_nil_both in HE as [HE _]. exact HE. }
        destruct (IHas _ _ _ _ S PA) as [(_ & _ & Q)|(h & l & A & E & NL)]; [congruence|].
        apply (STEP (Node ATTRIBUTES c1) [] ts1); [|exact H]. exists h, l. splits; try assumption. apply v_attrs. exact A.
      - destruct (parse_atom n ts) as [[[c1 e1] ts1]| |] eqn:PA; try discriminate. cbn [bind] in H.
        match type of H with context [(if ?q then ?x else ?y) ++ e1] => set (e0 := if q then x else y) in H end.
        assert (e1 = [] /\ e0 = []) as [-> E0].
        { destruct (skip is_blank_kind ts1) as [cw ts2]. destruct (parse_values _ _ _ _) as [[[cv ev] ts3]| |]; try discriminate.
          injection H as _ HE _. apply app_nil_both in HE as [HE _]. apply app_nil_both in HE as [HE0 HE]. auto. }
        destruct (IHt _ _ _ S PA) as (a & h & l & -> & A & EA & NL & _).
        apply (STEP a (e0 ++ []) ts1); [|exact H]. exists h, l. splits; try assumption. apply v_atom. exact A. }
    destruct G as (h & l & G1 & G2 & G3). exists h, l. splits; try assumption; reflexivity.
  - (* attributes *)
    intros closing ts c ts' S H. cbn [parse_attributes] in H. destruct (at_attribute ts) eqn:AA.
    2: { injection H as <- <-. left. auto. }
    right. destruct (parse_attribute n ts) as [[[c1 e1] ts1]| |] eqn:PA; try discriminate. cbn [bind] in H.
    destruct (skip is_blank_kind ts1) as [cw ts2] eqn:SW. destruct (skip_blank_shape _ _ _ SW) as [BW EW].
    destruct (at_entry_end closing ts2) eqn:AE.
    + injection H as <- -> <-. destruct (IHa _ _ _ S AA PA) as (x & h & l & -> & A & E & NL).
      exists h, l. cbn [app]. splits; [apply as_last; assumption | |].
      * rewrite <- (app_nil_r l). eapply eats_app; eassumption.
      * intros Q. specialize (NL Q). rewrite (skip_nl_next _ NL) in SW. injection SW as <- <-. exact NL.
    + destruct (parse_attributes n closing ts2) as [[[c2 e2] ts3]| |] eqn:PR; try discriminate. cbn [bind] in H.
      injection H as <- HE <-. apply app_nil_both in HE as [-> ->].
      destruct (IHa _ _ _ S AA PA) as (x & h & l & -> & A & E & NL). pose proof (eats_streams _ _ _ E S) as ST1.
      pose proof (eats_streams _ _ _ EW ST1) as ST2.
      destruct (IHas _ _ _ _ ST2 PR) as [(-> & -> & Q)|(h' & l' & A' & E' & NL')].
      * exists h, l. rewrite app_nil_r. cbn [app]. splits; [apply as_last; assumption | |].
        -- rewrite <- (app_nil_r l). eapply eats_app; eassumption.
        -- intros Q'. specialize (NL Q'). rewrite (skip_nl_next _ NL) in SW. injection SW as <- <-. exact NL.
      * destruct h.
        { exfalso. specialize (NL eq_refl). rewrite (skip_nl_next _ NL) in SW. injection SW as <- <-. rewrite (nl_end closing _ NL) in AE. discriminate. }
        exists h', (l ++ l'). cbn [app]. splits; [apply as_more; assumption | | exact NL'].
        eapply eats_app; [exact E|]. apply (eats_app _ ts2 _ [] l'); assumption.
  - (* attribute *)
    intros ts c ts' S AA H. cbn [parse_attribute] in H. destruct ts as [|t r]; [discriminate|]. cbn [bump] in H.
    assert (KB : tk_kind t = BareScalar) by (cbn [at_attribute] in AA; apply andb_true_iff in AA as [AA _]; apply tkind_eqb_eq; exact AA).
    destruct (tkind_eqb (peek_kind r) Gt) eqn:G.
    2: { exfalso. match type of H with context [if ?q then [(current_pos r, SpaceAfterGt)] else []] => destruct q end;
         [destruct (skip is_blank_kind r) as [c3 ts3]|]; cbn [bind] in H;
         match type of H with context [parse_atom n ?x] => destruct (parse_atom n x) as [[[c4 e4] ts4]| |] end; discriminate. }
    apply tkind_eqb_eq in G. destruct (peek_cons _ _ G ltac:(discriminate)) as (g & r2 & -> & KG). cbn [bump] in H.
    destruct (match peek_kind r2 with Whitespace | Newline => true | _ => false end) eqn:SP.
    { exfalso. destruct (skip is_blank_kind r2) as [c3 ts3]. destruct (parse_atom n ts3) as [[[c4 e4] ts4]| |]; discriminate. }
    destruct (parse_atom n r2) as [[[c4 e4] ts4]| |] eqn:PA; try discriminate. cbn [bind app] in H. injection H as <- -> <-.
    assert (S2 : streams r2) by exact (streams_suffix [t; g] _ S).
    destruct (IHt _ _ _ S2 PA) as (a & h & l & -> & A & E & NL & _).
    pose proof (bracket_text g r2 Gt [cGT] (streams_suffix [t] _ S) KG ltac:(tauto)) as TG.
    exists (Node ATTRIBUTE [leaf t; leaf g; a]), h, ((BareScalar, tk_text t) :: (Gt, [cGT]) :: l). splits.
    + reflexivity.
    + unfold leaf. rewrite KB, KG, TG. apply ab_intro; [|exact A]. rewrite <- KB. eapply stream_valid; [exact S | rewrite KB; reflexivity].
    + apply (eats_app _ (g :: r2) _ [(BareScalar, tk_text t)] ((Gt, [cGT]) :: l)).
      * rewrite <- KB. apply eats_one. rewrite KB. reflexivity.
      * apply (eats_app _ r2 _ [(Gt, [cGT])] l); [|exact E]. rewrite <- KG, <- TG. apply eats_one. rewrite KG. reflexivity.
    + exact NL.
  - (* atom *)
    intros ts c ts' S H. cbn [parse_atom] in H.
    destruct (peek_kind ts) eqn:K; try (destruct (bump ts); discriminate).
    + (* object *)
      destruct (peek_cons _ _ K ltac:(discriminate)) as (t & r & -> & KT). cbn [bump] in H.
      pose proof (streams_suffix [t] _ S) as SR.
      destruct (parse_entries n (Some RBrace) r) as [[[c2 e2] ts2]| |] eqn:PE; try discriminate. cbn [bind] in H.
      destruct (skip is_trivia_kind ts2) as [c3 ts3] eqn:S3.
      destruct (tkind_eqb (peek_kind ts3) RBrace) eqn:KR.
      2: { injection H as _ HE _. apply app_nil_both in HE as [_ HE]. discriminate. }
      apply tkind_eqb_eq in KR. destruct (peek_cons _ _ KR ltac:(discriminate)) as (u & r3 & -> & KU). cbn [bump] in H. injection H as <- -> <-.
      destruct (IHes _ _ _ _ SR (or_intror eq_refl) PE) as (h & l & IT & E2 & HN & _ & HEND).
      assert (NE2 : peek_kind ts2 <> Eof).
      { intros Q. destruct ts2 as [|x y]; [cbn in S3; injection S3 as <- Q2; discriminate|]. cbn in Q, S3. rewrite Q in S3. cbn in S3. injection S3 as <- <- <-. congruence. }
      destruct HEND as [HEND|HEND]; [contradiction|]. cbn in HEND. apply tkind_eqb_eq in HEND.
      assert (c3 = [] /\ ts2 = u :: r3) as [-> ->].
      { destruct ts2 as [|x y]; cbn in HEND; [discriminate|]. cbn in S3. rewrite HEND in S3. cbn in S3. injection S3 as <- <- <-. auto. }
      destruct h; [destruct (NE2 (HN eq_refl))|].
      pose proof (eats_streams _ _ _ E2 SR) as SU.
      pose proof (bracket_text t r LBrace [cLB] S KT ltac:(tauto)) as TB.
      pose proof (bracket_text u r3 RBrace [cRB] SU KU ltac:(tauto)) as TR.
      exists (Node OBJECT (leaf t :: c2 ++ [leaf u])), false, ((LBrace, [cLB]) :: l ++ [(RBrace, [cRB])]). splits.
      * reflexivity.
      * unfold leaf. rewrite KT, KU, TB, TR. apply at_object. exact IT.
      * apply (eats_app _ r _ [(LBrace, [cLB])] (l ++ [(RBrace, [cRB])])).
        -- rewrite <- KT, <- TB. apply eats_one. rewrite KT. reflexivity.
        -- eapply eats_app; [exact E2|]. rewrite <- KU, <- TR. apply eats_one. rewrite KU. reflexivity.
      * discriminate.
      * exists t, r, (l ++ [(RBrace, [cRB])]). split; [reflexivity|]. unfold kt. rewrite KT, TB. reflexivity.
    + (* sequence *)
      destruct (peek_cons _ _ K ltac:(discriminate)) as (t & r & -> & KT). cbn [bump] in H.
      pose proof (streams_suffix [t] _ S) as SR.
      destruct (parse_elements n r) as [[[c2 e2] ts2]| |] eqn:PE; try discriminate. cbn [bind] in H.
      assert (e2 = []) as -> by (destruct (tkind_eqb (peek_kind ts2) RParen); [destruct (bump ts2)|]; injection H as _ HE _; exact HE).
      destruct (IHl _ _ _ SR PE) as (l & IT & EL & E2 & KR & _). rewrite KR in H. cbn [tkind_eqb] in H.
      destruct (peek_cons _ _ KR ltac:(discriminate)) as (u & r3 & -> & KU). cbn [bump] in H. injection H as <- <-.
      pose proof (eats_streams _ _ _ E2 SR) as SU.
      pose proof (bracket_text t r LParen [cLP] S KT ltac:(tauto)) as TB.
      pose proof (bracket_text u r3 RParen [cRP] SU KU ltac:(tauto)) as TR.
      exists (Node SEQUENCE (leaf t :: c2 ++ [leaf u])), false, ((LParen, [cLP]) :: l ++ [(RParen, [cRP])]). splits.
      * reflexivity.
      * unfold leaf. rewrite KT, KU, TB, TR. apply at_seq; assumption.
      * apply (eats_app _ r _ [(LParen, [cLP])] (l ++ [(RParen, [cRP])])).
        -- rewrite <- KT, <- TB. apply eats_one. rewrite KT. reflexivity.
        -- eapply eats_app; [exact E2|]. rewrite <- KU, <- TR. apply eats_one. rewrite KU. reflexivity.
      * discriminate.
      * exists t, r, (l ++ [(RParen, [cRP])]). split; [reflexivity|]. unfold kt. rewrite KT, TB. reflexivity.
    + (* unit *)
      destruct (peek_cons _ _ K ltac:(discriminate)) as (t & r & -> & KT). cbn [bump] in H. injection H as <- <-.
      pose proof (bracket_text t r At [cAT] S KT ltac:(tauto)) as TB.
      exists (Node UNIT [leaf t]), false, [(At, [cAT])]. splits.
      * reflexivity.
      * unfold leaf. rewrite KT, TB. apply at_unit.
      * rewrite <- KT, <- TB. apply eats_one. rewrite KT. reflexivity.
      * discriminate.
      * exists t, r, []. split; [reflexivity|]. unfold kt. rewrite KT, TB. reflexivity.
    + (* tag *)
      destruct (peek_cons _ _ K ltac:(discriminate)) as (t & r & -> & KT).
      pose proof (streams_suffix [t] _ S) as SR.
      assert (TO : tag_ok t).
      { destruct S as [st S]. destruct (stream_cons _ _ _ S ltac:(congruence)) as (st1 & N1 & _ & _). eapply next_token_tag. exact N1. }
      destruct (TO KT) as (s & m & SP & AM). rewrite SP in H.
      assert (V : valid Tag (tk_text t)) by (rewrite <- KT; eapply stream_valid; [exact S | rewrite KT; reflexivity]).
      assert (ET : eats (t :: r) [(Tag, tk_text t)] r) by (rewrite <- KT; apply eats_one; rewrite KT; reflexivity).
      destruct (payload_follows (sp_end (tk_span t)) r) eqn:PF.
      * destruct (parse_atom n r) as [[[c1 e1] ts1]| |] eqn:PA; try discriminate. cbn [bind] in H. injection H as <- -> <-.
        destruct (IHt _ _ _ SR PA) as (a & h & l & -> & A & EA & NL & (t2 & r2 & l' & -> & ->)).
        assert (PK : payload_kind (tk_kind t2) = true).
        { unfold payload_follows in PF. apply andb_true_iff in PF as [_ PF]. destruct (tk_kind t2); try discriminate; reflexivity. }
        exists (tag_node (cAT :: s) m [Node TAG_PAYLOAD [a]]), h, ((Tag, tk_text t) :: kt t2 :: l'). splits.
        -- reflexivity.
        -- apply at_tagp; try assumption. eapply tag_payload_sym; [exact S | exact KT | exact PK].
        -- eapply (eats_app _ _ _ [(Tag, tk_text t)]); [exact ET | exact EA].
        -- exact NL.
        -- exists t, (t2 :: r2), (kt t2 :: l'). split; [reflexivity|]. unfold kt at 2. rewrite KT. reflexivity.
      * injection H as <- <-. exists (tag_node (cAT :: s) m []), false, [(Tag, tk_text t)]. splits.
        -- reflexivity.
        -- apply at_tag; assumption.
        -- exact ET.
        -- discriminate.
        -- exists t, r, []. split; [reflexivity|]. unfold kt. rewrite KT. reflexivity.
    + destruct (peek_cons _ _ K ltac:(discriminate)) as (t & r & -> & KT); cbn [bump] in H; injection H as <- <-;
      exists (Node SCALAR [leaf t]), false, [kt t]; splits;
      [ reflexivity | unfold leaf, kt; apply at_scalar; [rewrite KT; tauto | eapply stream_valid; [exact S | rewrite KT; reflexivity]]
      | apply eats_one; rewrite KT; reflexivity | discriminate | exists t, r, []; split; reflexivity ].
    + destruct (peek_cons _ _ K ltac:(discriminate)) as (t & r & -> & KT); cbn [bump] in H; injection H as <- <-;
      exists (Node SCALAR [leaf t]), false, [kt t]; splits;
      [ reflexivity | unfold leaf, kt; apply at_scalar; [rewrite KT; tauto | eapply stream_valid; [exact S | rewrite KT; reflexivity]]
      | apply eats_one; rewrite KT; reflexivity | discriminate | exists t, r, []; split; reflexivity ].
    + destruct (peek_cons _ _ K ltac:(discriminate)) as (t & r & -> & KT); cbn [bump] in H; injection H as <- <-;
      exists (Node SCALAR [leaf t]), false, [kt t]; splits;
      [ reflexivity | unfold leaf, kt; apply at_scalar; [rewrite KT; tauto | eapply stream_valid; [exact S | rewrite KT; reflexivity]]
      | apply eats_one; rewrite KT; reflexivity | discriminate | exists t, r, []; split; reflexivity ].
    + destruct (parse_heredoc ts) as [[c1 e1] ts1] eqn:PH. injection H as -> -> ->. apply heredoc_shape; assumption.
  - (* elements *)
    intros ts c ts' S H. cbn [parse_elements] in H. destruct (skip is_trivia_kind ts) as [c1 ts1] eqn:S1.
    destruct (skip_items is_trivia_kind ltac:(intros [] Q; try discriminate; tauto) _ _ _ S S1) as (l1 & E1 & I1).
    pose proof (eats_streams _ _ _ E1 S) as ST1.
    assert (NLE : peek_kind ts = Eof -> False).
    { intros Q. destruct ts as [|t r]; cbn in Q, S1; [injection S1 as <- <-; discriminate|].
      rewrite Q in S1. cbn in S1. injection S1 as <- <-. cbn [peek_kind] in H. rewrite Q in H. discriminate. }
    assert (NLC : forall x, nl_next ts -> exists t cs, c1 ++ x = Leaf (LTok Newline) t :: cs).
    { intros x [Q|Q]; [|destruct (NLE Q)]. destruct ts as [|t r]; cbn in Q; [discriminate|]. cbn in S1. rewrite Q in S1. cbn in S1.
      destruct (skip is_trivia_kind r) as [c' r']. injection S1 as <- <-. unfold leaf. rewrite Q. cbn [app]. eauto. }
    assert (G : peek_kind ts1 = RParen /\ (c1, @nil cst_error, ts1) = (c, @nil cst_error, ts') \/
      (do (c2, e2, ts2) <- parse_atom n ts1;
      let (c3, ts3) := skip is_blank_kind ts2 in
      do (c4, e4, ts4) <- parse_elements n ts3;
      Ok (c1 ++ [Node ENTRY [Node KEY c2]] ++ c3 ++ c4, e2 ++ e4, ts4)) = Ok (c, [], ts')).
    { destruct (peek_kind ts1); try (right; exact H); [left; split; [reflexivity | injection H as <- <-; reflexivity] | discriminate]. }
    clear H. destruct G as [[KR H]|H].
    + injection H as <- <-. exists l1. splits.
      * rewrite <- (app_nil_r c1), <- (app_nil_r l1). apply I1. apply it_nil.
      * eapply skip_elements. exact S1.
      * exact E1.
      * exact KR.
      * intros Q. specialize (NLC [] Q). rewrite app_nil_r in NLC. exact NLC.
    + destruct (parse_atom n ts1) as [[[c2 e2] ts2]| |] eqn:PA; try discriminate. cbn [bind] in H.
      destruct (skip is_blank_kind ts2) as [c3 ts3] eqn:S3.
      destruct (parse_elements n ts3) as [[[c4 e4] ts4]| |] eqn:PE; try discriminate. cbn [bind] in H. injection H as <- HE <-.
      apply app_nil_both in HE as [-> ->].
      destruct (IHt _ _ _ ST1 PA) as (a & h & l & -> & A & EA & NL & _). pose proof (eats_streams _ _ _ EA ST1) as ST2.
      destruct (skip_blank_shape _ _ _ S3) as [B3 E3]. pose proof (eats_streams _ _ _ E3 ST2) as ST3.
      destruct (IHl _ _ _ ST3 PE) as (l4 & I4 & L4 & E4 & KR & NL4).
      exists (l1 ++ l ++ l4). splits.
      * apply I1. cbn [app]. apply it_entry with (h0 := h).
        -- apply en_key; [exact A | constructor].
        -- intros Q. specialize (NL Q). rewrite (skip_nl_next _ NL) in S3. injection S3 as <- <-. exact (NL4 NL).
        -- apply blank_items; assumption.
      * apply Forall_app. split; [eapply skip_elements; exact S1|]. constructor; [exists a; reflexivity|].
        apply Forall_app. split; [eapply skip_elements; exact S3 | exact L4].
      * eapply eats_app; [exact E1|]. eapply eats_app; [exact EA|]. apply (eats_app _ ts3 _ [] l4); assumption.
      * exact KR.
      * apply NLC.
Qed.

(** A source without errors: the tree of its document is made of items, and they hold its significant tokens. *)
Lemma cst_parse_shape : forall src n ts, cst_parse src = Ok (n, []) -> tokens src = Some ts ->
  exists cs h, n = Node DOCUMENT cs /\ items cs h (sigs (map kt ts)).
Proof.
  intros src n ts H T. unfold cst_parse, token_stream in H. rewrite T in H. cbn [option_map of_opt bind] in H.
  set (e := mktok Eof (mkspan (blen src) (blen src)) []) in H.
  destruct (parse_entries _ None (ts ++ [e])) as [[[c er] ts']| |] eqn:P; try discriminate. cbn [bind] in H. injection H as <- ->.
  assert (S : streams (ts ++ [e])).
  { unfold tokens in T. exists (tok_new src). eapply tokens_stream; [exact I | exact T | reflexivity]. }
  destruct (proj1 (parse_shape _) _ _ _ _ S (or_introl eq_refl) P) as (h & l & IT & (u & EU & <-) & _ & _ & HE).
  exists c, h. split; [reflexivity|].
  destruct HE as [HE|HE]; [|discriminate].
  assert (S' : streams ts') by (eapply streams_suffix; rewrite <- EU; exact S).
  destruct ts' as [|x r].
  - rewrite app_nil_r in EU. subst u. rewrite map_app, sigs_app, app_nil_r in IT. exact IT.
  - destruct S' as [st' S']. cbn in HE. inversion S'; subst; [|contradiction].
    apply app_inj_tail in EU as [-> _]. exact IT.
Qed.
