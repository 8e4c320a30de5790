(** The source formatter keeps the significant tokens. *)
From Coq Require Import String.
From Verif Require Import Base BaseProofs TokModel TokSpec TokProofs RetokProofs CstModel CstSpec CstProofs CstFmtModel CstShapeProofs CstFmtSpec.

(** ** Pieces of text *)
Definition piece (F : str -> Prop) (s : str) (l : list sym) : Prop :=
  forall rest l', F rest -> retok rest l' -> retok (s ++ rest) (l ++ l').
(** At the end of a line; before something that ends an atom. *)
Definition Fline (rest : str) : Prop := rest = [] \/ exists r, rest = cLF :: r.
Definition Fdelim (rest : str) : Prop :=
  rest = [] \/ exists c r, rest = c :: r /\ (c = cSP \/ c = cLF \/ c = cCOMMA \/ c = cRP \/ c = cRB).
Definition Fh (h : bool) : str -> Prop := if h then Fline else Fdelim.
Definition Fany (rest : str) : Prop := True.
Lemma line_delim : forall s, Fline s -> Fdelim s.
Proof. intros s [->|(r & ->)]; [left; reflexivity | right; eauto 8]. Qed.
Lemma fh_delim : forall h s, Fh h s -> Fdelim s.
Proof. intros [] s H; [apply line_delim|]; exact H. Qed.
Lemma line_fh : forall h s, Fline s -> Fh h s.
Proof. intros [] s H; [|apply line_delim]; exact H. Qed.
Lemma piece_weaken : forall (F G : str -> Prop) s l, (forall r, G r -> F r) -> piece F s l -> piece G s l.
Proof. intros F G s l I P rest l' H R. apply P; [apply I; exact H | exact R]. Qed.
Lemma piece_app : forall (F G : str -> Prop) a b x y, piece F a x -> piece G b y -> (forall r, G r -> F (b ++ r)) ->
  piece G (a ++ b) (x ++ y).
Proof.
  intros F G a b x y P Q I rest l' H R. rewrite <- !app_assoc. apply P; [apply I; exact H|]. apply Q; assumption.
Qed.
Lemma piece_nil : forall F, piece F [] [].
Proof. intros F rest l' _ R. exact R. Qed.
Lemma piece_blanks : forall F s, forallb is_blank s = true -> piece F s [].
Proof.
  intros F s. induction s as [|c s IH]; intros B rest l' H R; [exact R|]. cbn in B. apply andb_true_iff in B as [B1 B2].
  cbn [app]. apply retok_blank; [exact B1|]. exact (IH B2 rest l' H R).
Qed.
Lemma piece_lf : forall F, piece F [cLF] [].
Proof. intros F rest l' _ R. apply retok_newline. exact R. Qed.
Lemma piece_lexes : forall (F : str -> Prop) s l, (forall rest, F rest -> lexes s rest l) -> sigs l = l -> piece F s l.
Proof. intros F s l H E rest l' HF R. rewrite <- E. apply retok_lexes; [apply H; exact HF | exact R]. Qed.
Lemma delim_scan_tag : forall rest, Fdelim rest -> scan_tag rest = ([], rest) /\ opt_is is_hash_or_dq (peek rest) = false.
Proof.
  intros rest [->|(c & r & -> & H)]; [split; reflexivity|]. split.
  - repeat destruct H as [H|H]; subst c; reflexivity.
  - repeat destruct H as [H|H]; subst c; reflexivity.
Qed.
Lemma delim_follows : forall k rest, plain_kind k = true -> k <> Whitespace -> k <> LineComment -> k <> DocComment -> Fdelim rest -> follows k rest.
Proof.
  intros k rest K N1 N2 N3 H. pose proof (delim_scan_tag _ H) as ST.
  destruct k; try discriminate; try contradiction; try exact I; try exact ST;
    (destruct H as [->|(c & r & -> & H)]; [reflexivity|]); repeat destruct H as [H|H]; subst c; reflexivity.
Qed.
Lemma piece_valid : forall k t, valid k t -> plain_kind k = true -> sig_kind k = true -> k <> LineComment -> k <> DocComment ->
  piece Fdelim t [(k, t)].
Proof.
  intros k t (_ & _ & V) K S N1 N2. apply piece_lexes.
  - intros rest H. apply V. apply delim_follows; try assumption. intros ->. discriminate.
  - cbn. rewrite S. reflexivity.
Qed.
Lemma piece_comment : forall k t, valid k t -> k = LineComment \/ k = DocComment -> piece Fline t [(k, t)].
Proof.
  intros k t (_ & _ & V) K. apply piece_lexes.
  - intros rest H. apply V. destruct K as [-> | ->]; (destruct H as [->|(r & ->)]; reflexivity).
  - cbn. destruct K as [-> | ->]; reflexivity.
Qed.
Lemma piece_mark : forall k c, In (k, c) [(LBrace, cLB); (RBrace, cRB); (LParen, cLP); (RParen, cRP); (Gt, cGT)] -> piece Fany [c] [(k, [c])].
Proof.
  intros k c H. apply piece_lexes.
  - intros rest _ p. exists (p + blen [c]). cbn [In] in H.
    repeat destruct H as [H|H]; try contradiction; injection H as <- <-; (eapply steps_one; [reflexivity | discriminate | apply steps_nil]).
  - cbn [In] in H. repeat destruct H as [H|H]; try contradiction; injection H as <- <-; reflexivity.
Qed.
Lemma piece_at : piece Fdelim [cAT] [(At, [cAT])].
Proof.
  apply piece_lexes; [|reflexivity]. intros rest H p. exists (p + blen [cAT]).
  eapply steps_one; [|discriminate | apply steps_nil].
  destruct H as [->|(c & r & -> & H)]; [reflexivity|]. repeat destruct H as [H|H]; subst c; reflexivity.
Qed.

Section Fmt.
Variable indent : str.
Hypothesis BI : forallb is_blank indent = true.
Definition ind (b : bool) (lv : nat) : str := if b then List.concat (repeat indent lv) else [].
Lemma ind_blank : forall b lv, forallb is_blank (ind b lv) = true.
Proof.
  intros [] lv; [|reflexivity]. unfold ind. induction lv as [|lv IH]; [reflexivity|]. cbn [repeat List.concat].
  unfold char, str in *. rewrite forallb_app, BI, IH. reflexivity.
Qed.
Notation fmt := (format_node indent).

Lemma write_eq : forall t out lv b, t <> [] -> f_write indent t (mkf out lv b) = mkf (out ++ ind b lv ++ t) lv false.
Proof. intros t out lv b N. destruct t; [contradiction | reflexivity]. Qed.
Lemma write_app : forall a b st, b <> [] -> f_write indent a (f_write indent b st) = f_write indent (b ++ a) st.
Proof.
  intros a b [out lv s] N. destruct a as [|x a]; [rewrite app_nil_r; reflexivity|].
  rewrite write_eq by exact N. rewrite !write_eq; [| destruct b; discriminate | discriminate].
  cbn [ind app]. rewrite <- !app_assoc. reflexivity.
Qed.

(** Writing: whatever the state, the same text, after the indentation if the line is new. *)
Definition writes (F : str -> Prop) (l : list sym) (f : fstate -> fstate) (lv : nat) (s : str) : Prop :=
  s <> [] /\ piece F s l /\ forall out b, f (mkf out lv b) = mkf (out ++ ind b lv ++ s) lv false.
Definition W (F : str -> Prop) (l : list sym) (f : fstate -> fstate) : Prop := forall lv, exists s, writes F l f lv s.
(** The text begins with the first token. *)
Definition WA (F : str -> Prop) (l : list sym) (f : fstate -> fstate) : Prop :=
  forall lv, exists s, writes F l f lv s /\ exists k t x s', l = (k, t) :: x /\ s = t ++ s' /\ t <> [] /\ tok_shape k t.
Lemma WA_W : forall F l f, WA F l f -> W F l f.
Proof. intros F l f H lv. destruct (H lv) as (s & WS & _). exists s. exact WS. Qed.
Lemma W_weaken : forall (F G : str -> Prop) l f, (forall r, G r -> F r) -> W F l f -> W G l f.
Proof. intros F G l f I H lv. destruct (H lv) as (s & N & P & E). exists s. split; [exact N|]. split; [eapply piece_weaken; eassumption | exact E]. Qed.
Lemma W_ext : forall F l f g, (forall st, f st = g st) -> W F l f -> W F l g.
Proof. intros F l f g E H lv. destruct (H lv) as (s & N & P & Q). exists s. split; [exact N|]. split; [exact P|]. intros. rewrite <- E. apply Q. Qed.
Lemma WA_ext : forall F l f g, (forall st, f st = g st) -> WA F l f -> WA F l g.
Proof. intros F l f g E H lv. destruct (H lv) as (s & (N & P & Q) & X). exists s. split; [|exact X]. split; [exact N|]. split; [exact P|]. intros. rewrite <- E. apply Q. Qed.
Lemma W_write : forall F t l, t <> [] -> piece F t l -> W F l (f_write indent t).
Proof. intros F t l N P lv. exists t. split; [exact N|]. split; [exact P|]. intros. apply write_eq. exact N. Qed.
(** One thing after another; the second knows what it begins with. *)
Lemma W_then : forall (F G : str -> Prop) l l' f g, W F l f -> 
  (forall lv, exists s, writes G l' g lv s /\ forall r, G r -> F (s ++ r)) -> W G (l ++ l') (fun st => g (f st)).
Proof.
  intros F G l l' f g Hf Hg lv. destruct (Hf lv) as (s & N & P & E). destruct (Hg lv) as (s' & (N' & P' & E') & I).
  exists (s ++ s'). split; [destruct s; [contradiction | discriminate]|]. split; [eapply piece_app; eassumption|].
  intros out b. rewrite E, E'. cbn [ind app]. rewrite <- !app_assoc. reflexivity.
Qed.
Lemma W_any : forall G l l' f g, W Fany l f -> W G l' g -> W G (l ++ l') (fun st => g (f st)).
Proof.
  intros G l l' f g Hf Hg. apply W_then with (F := Fany); [exact Hf|]. intros lv. destruct (Hg lv) as (s & WS). exists s. split; [exact WS | intros; exact I].
Qed.

(** ** The rows of an object, a sequence or a document *)
Definition EW (f : cst -> fstate -> fstate) (e : cst) (h : bool) (l : list sym) : Prop :=
  (exists cs, e = Node ENTRY cs) /\ (element e -> h = true -> ends_heredoc e = true) /\
  ((l = [] /\ h = false /\ forall st, f e st = st) \/ W (Fh h) l (f e)).
Definition gap_kind (k : tkind) : Prop :=
  k = Whitespace \/ k = Newline \/ k = Comma \/ k = LBrace \/ k = RBrace \/ k = LParen \/ k = RParen.
Inductive rows (f : cst -> fstate -> fstate) : list cst -> bool -> list sym -> Prop :=
| rw_nil : rows f [] false []
| rw_gap : forall k t cs h l, gap_kind k -> rows f cs h l -> rows f (Leaf (LTok k) t :: cs) h l
| rw_comment : forall k t cs h l, k = LineComment \/ k = DocComment -> valid k t -> rows f cs h l -> rows f (Leaf (LTok k) t :: cs) h ((k, t) :: l)
| rw_last : forall e h l, EW f e h l -> rows f [e] h l
| rw_entry : forall e h0 l0 cs h l, EW f e h0 l0 -> (h0 = true -> exists t cs', cs = Leaf (LTok Newline) t :: cs') ->
    rows f cs h l -> rows f (e :: cs) h (l0 ++ l).
Lemma rows_close : forall f cs h l, rows f cs h l -> h = false -> forall k t, gap_kind k -> rows f (cs ++ [Leaf (LTok k) t]) false l.
Proof.
  intros f cs h l H. induction H; intros Q k0 t0 G; cbn [app].
  - apply rw_gap; [exact G | apply rw_nil].
  - apply rw_gap; [assumption | apply IHrows; assumption].
  - apply rw_comment; [assumption | assumption | apply IHrows; assumption].
  - subst h. rewrite <- (app_nil_r l). eapply rw_entry; [eassumption | discriminate |]. apply rw_gap; [exact G | apply rw_nil].
  - eapply rw_entry; [eassumption | | apply IHrows; assumption]. intros X. destruct (H0 X) as (t & cs' & ->). cbn. eauto.
Qed.
Lemma rows_empty : forall f cs h l, rows f cs h l -> existsb (is_node ENTRY) cs = false -> existsb is_comment cs = false -> l = [].
Proof.
  intros f cs h l H. induction H; intros E C; cbn in E, C.
  - reflexivity.
  - apply IHrows; [exact E|]. apply orb_false_iff in C as [_ C]. exact C.
  - destruct H as [-> | ->]; discriminate.
  - destruct H as ((cs & ->) & _). discriminate.
  - destruct H as ((cs' & ->) & _). discriminate.
Qed.

(** The state after a run of newlines. *)
Definition gapped (wrote : bool) (f : fstate -> fstate) : Prop := forall lv b, exists s b',
  (forall out, f (mkf out lv b) = mkf (out ++ s) lv b') /\ piece Fany s [] /\
  (wrote = true -> exists r, s = cLF :: r).
Lemma separate_gapped : forall wrote n, gapped wrote (separate wrote n).
Proof.
  intros [] n lv b; unfold separate.
  - destruct (2 <=? n).
    + exists [cLF; cLF], true. unfold f_newline. cbn [f_out f_level]. splits; [intros; rewrite <- app_assoc; reflexivity | | intros _; eauto].
      apply (piece_app Fany Fany [cLF] [cLF] [] []); [apply piece_lf | apply piece_lf | intros; exact I].
    + exists [cLF], true. splits; [reflexivity | apply piece_lf | intros _; eauto].
  - exists [], b. splits; [intros; rewrite app_nil_r; reflexivity | apply piece_nil | discriminate].
Qed.
Lemma newlines_gapped : forall (wrote c : bool), gapped wrote (fun st => if wrote then let st0 := f_newline st in if c then f_newline st0 else st0 else st).
Proof. intros wrote c. destruct c; [exact (separate_gapped wrote 2) | exact (separate_gapped wrote 0)]. Qed.

(** The text of a list of rows. *)
Definition printed (wrote : bool) (l : list sym) (f : fstate -> fstate) : Prop := forall lv b, exists s b',
  (forall out, f (mkf out lv b) = mkf (out ++ s) lv b') /\ piece Fline s l /\ (wrote = true -> Fline s).
Lemma printed_id : forall wrote, printed wrote [] (fun st => st).
Proof.
  intros wrote lv b. exists [], b. splits; [intros; rewrite app_nil_r; reflexivity | apply piece_nil | intros _; left; reflexivity].
Qed.
(** A row, then the other rows, which begin on a new line. *)
Lemma printed_row : forall wrote h l l' g f k, gapped wrote g -> (l = [] /\ h = false /\ (forall st, f st = st)) \/ W (Fh h) l f -> printed true l' k ->
  printed wrote (l ++ l') (fun st => k (f (g st))).
Proof.
  intros wrote h l l' g f k Hg Hf Hk lv b. destruct (Hg lv b) as (s1 & b1 & E1 & P1 & L1).
  assert (G : exists s2 b2, (forall out, f (mkf out lv b1) = mkf (out ++ s2) lv b2) /\ piece Fline s2 l).
  { destruct Hf as [(-> & _ & Hf)|Hf].
    - exists [], b1. split; [intros; rewrite Hf, app_nil_r; reflexivity | apply piece_nil].
    - destruct (Hf lv) as (s & N & P & E). exists (ind b1 lv ++ s), false. split; [intros; apply E|].
      apply (piece_app Fany Fline _ _ [] l); [apply piece_blanks, ind_blank | eapply piece_weaken; [apply line_fh | exact P] | intros; exact I]. }
  destruct G as (s2 & b2 & E2 & P2). destruct (Hk lv b2) as (s3 & b3 & E3 & P3 & L3). specialize (L3 eq_refl).
  exists (s1 ++ s2 ++ s3), b3. splits.
  - intros out. rewrite E1, E2, E3, <- !app_assoc. reflexivity.
  - apply (piece_app Fany Fline _ _ [] (l ++ l')); [exact P1 | | intros; exact I].
    eapply piece_app; [exact P2 | exact P3 |]. intros r [->|(r' & ->)].
    + rewrite app_nil_r. exact L3.
    + destruct L3 as [->|(x & ->)]; right; eexists; reflexivity.
  - intros Q. destruct (L1 Q) as (r & ->). right. eexists. reflexivity.
Qed.
Lemma printed_ext : forall wrote l f g, (forall st, f st = g st) -> printed wrote l f -> printed wrote l g.
Proof.
  intros wrote l f g E H lv b. destruct (H lv b) as (s & b' & E1 & R). exists s, b'. split; [|exact R]. intros. rewrite <- E. apply E1.
Qed.
Lemma comment_W : forall k t, valid k t -> k = LineComment \/ k = DocComment -> W (Fh true) [(k, t)] (f_write indent t).
Proof. intros k t V K. apply W_write; [apply V | apply piece_comment; assumption]. Qed.

Lemma lines_printed : forall f cs h l, rows f cs h l -> forall wrote n, printed wrote l (lines indent f wrote n cs).
Proof.
  intros f cs h l H. induction H; intros wrote n.
  - apply printed_id.
  - destruct H as [->|[->|[->|[->|[->|[-> | ->]]]]]]; cbn [lines]; apply IHrows.
  - apply printed_ext with (f := fun st => lines indent f true 0 cs (f_write indent t (separate wrote n st))).
    { intros st. destruct H as [-> | ->]; reflexivity. }
    apply (printed_row wrote true [(k, t)] l (separate wrote n) (f_write indent t)); [apply separate_gapped | right; apply comment_W; assumption | apply IHrows].
  - destruct H as ((cs & ->) & _ & H). cbn [lines]. rewrite <- (app_nil_r l).
    apply (printed_row wrote h l [] (separate wrote n) (f (Node ENTRY cs)) (fun st => st)); [apply separate_gapped | exact H | apply printed_id].
  - destruct H as ((cs' & ->) & _ & H). cbn [lines].
    apply (printed_row wrote h0 l0 l (separate wrote n) (f (Node ENTRY cs'))); [apply separate_gapped | exact H | apply IHrows].
Qed.
Lemma doc_lines_printed : forall f cs h l, rows f cs h l -> forall before wrote n prev jd,
  printed wrote l (doc_lines indent f before wrote n prev jd cs).
Proof.
  intros f cs h l H. induction H; intros before wrote n prev jd.
  - apply printed_id.
  - destruct H as [->|[->|[->|[->|[->|[-> | ->]]]]]]; cbn [doc_lines]; apply IHrows.
  - destruct H as [-> | ->]; cbn [doc_lines].
    + apply (printed_row wrote true [(LineComment, t)] l (separate wrote n) (f_write indent t)); [apply separate_gapped | right; apply comment_W; tauto | apply IHrows].
    + eapply (printed_row wrote true [(DocComment, t)] l _ (f_write indent t)); [apply newlines_gapped | right; apply comment_W; tauto | apply IHrows].
  - destruct H as ((cs & ->) & _ & H). cbn [doc_lines]. rewrite <- (app_nil_r l).
    eapply (printed_row wrote h l [] _ (f (Node ENTRY cs)) (fun st => st)); [apply newlines_gapped | exact H | apply printed_id].
  - destruct H as ((cs' & ->) & _ & H). cbn [doc_lines].
    eapply (printed_row wrote h0 l0 l _ (f (Node ENTRY cs'))); [apply newlines_gapped | exact H | apply IHrows].
Qed.

(** Rows on one line. *)
Inductive flat (f : cst -> fstate -> fstate) : list cst -> list sym -> Prop :=
| fl_nil : flat f [] []
| fl_gap : forall k t cs l, flat f cs l -> flat f (Leaf k t :: cs) l
| fl_entry : forall cs0 l0 cs l, (l0 = [] /\ forall st, f (Node ENTRY cs0) st = st) \/ W Fdelim l0 (f (Node ENTRY cs0)) -> flat f cs l ->
    flat f (Node ENTRY cs0 :: cs) (l0 ++ l).
Lemma rows_flat : forall f cs h l, rows f cs h l -> h = false -> existsb is_comment cs = false -> has_line_separator cs = false -> flat f cs l.
Proof.
  intros f cs h l H. unfold has_line_separator. induction H; intros Q C N; cbn [existsb] in C, N; try apply orb_false_iff in C as [C1 C2]; try apply orb_false_iff in N as [N1 N2].
  - apply fl_nil.
  - apply fl_gap. apply IHrows; assumption.
  - exfalso. destruct H as [-> | ->]; discriminate.
  - destruct H as ((cs & ->) & _ & H). subst h. rewrite <- (app_nil_r l). apply fl_entry; [|apply fl_nil]. destruct H as [(A & _ & B)|H]; auto.
  - destruct H as ((cs' & ->) & _ & H). destruct h0.
    { destruct (H0 eq_refl) as (t & x & ->). discriminate. }
    apply fl_entry; [destruct H as [(A & _ & B)|H]; auto | apply IHrows; assumption].
Qed.
Lemma rows_flat_calm : forall f cs h l, rows f cs h l -> existsb is_comment cs = false -> Forall element cs ->
  existsb ends_heredoc (filter (is_node ENTRY) cs) = false -> flat f cs l.
Proof.
  intros f cs h l H. induction H; intros C EL N; cbn [existsb] in C; try apply orb_false_iff in C as [C1 C2].
  - apply fl_nil.
  - inversion EL; subst. apply fl_gap. apply IHrows; assumption.
  - exfalso. destruct H as [-> | ->]; discriminate.
  - destruct H as ((cs & ->) & E & H). inversion EL; subst. cbn in N.
    assert (h = false) as -> by (destruct h; [|reflexivity]; rewrite (E ltac:(assumption) eq_refl) in N; discriminate).
    rewrite <- (app_nil_r l). apply fl_entry; [|apply fl_nil]. destruct H as [(A & _ & B)|H]; auto.
  - destruct H as ((cs' & ->) & E & H). inversion EL; subst. cbn [filter is_node nkind_eqb existsb] in N. apply orb_false_iff in N as [N1 N2].
    assert (h0 = false) as -> by (destruct h0; [|reflexivity]; rewrite (E ltac:(assumption) eq_refl) in N1; discriminate).
    apply fl_entry; [destruct H as [(A & _ & B)|H]; auto | apply IHrows; assumption].
Qed.
Definition sep_ok (sep : str) : Prop := sep <> [] /\ piece Fany sep [] /\ forall r, Fdelim (sep ++ r).
Lemma flat_none : forall f cs l, flat f cs l -> existsb (is_node ENTRY) cs = false -> l = [].
Proof. intros f cs l H. induction H; intros E; [reflexivity | apply IHflat; exact E | discriminate]. Qed.
Lemma between_none : forall f k sep cs st, existsb (is_node k) cs = false -> nodes_between indent f k sep cs st = st.
Proof.
  intros f k sep cs. induction cs as [|c cs IH]; intros st H; [reflexivity|]. cbn [existsb] in H. apply orb_false_iff in H as [H1 H2].
  cbn [nodes_between]. rewrite H1. apply IH. exact H2.
Qed.
Lemma flat_between : forall f sep cs l, sep_ok sep -> flat f cs l -> forall lv, exists s, piece Fdelim s l /\
  forall out, nodes_between indent f ENTRY sep cs (mkf out lv false) = mkf (out ++ s) lv false.
Proof.
  intros f sep cs l (NS & PS & DS) H lv. induction H; cbn [nodes_between].
  - exists []. split; [apply piece_nil | intros; rewrite app_nil_r; reflexivity].
  - cbn [is_node]. exact IHflat.
  - cbn [is_node nkind_eqb]. destruct IHflat as (s & P & E).
    assert (G : exists s0, piece Fdelim s0 l0 /\ forall out, f (Node ENTRY cs0) (mkf out lv false) = mkf (out ++ s0) lv false).
    { destruct H as [(-> & H)|H]; [exists []; split; [apply piece_nil | intros; rewrite H, app_nil_r; reflexivity]|].
      destruct (H lv) as (s0 & _ & P0 & E0). exists s0. split; [exact P0|]. intros. rewrite E0. reflexivity. }
    destruct G as (s0 & P0 & E0). destruct (existsb (is_node ENTRY) cs) eqn:X.
    + exists (s0 ++ sep ++ s). split.
      * eapply piece_app; [exact P0 | | intros r _; rewrite <- app_assoc; apply DS].
        apply (piece_app Fany Fdelim _ _ [] l); [exact PS | exact P | intros; exact I].
      * intros out. rewrite E0, write_eq, E by exact NS. cbn [ind app]. rewrite <- !app_assoc. reflexivity.
    + pose proof (flat_none _ _ _ H0 X) as ->. exists s0. rewrite app_nil_r. split; [exact P0|].
      intros out. rewrite E0. apply between_none. exact X.
Qed.

(** ** Nodes *)
Definition tag_loop : list cst -> fstate -> fstate :=
  fix go cs st :=
    match cs with
    | Leaf (LTok Tag) t :: r => go r (f_write indent t st)
    | c :: r => go r (match c with Node TAG_PAYLOAD _ => fmt c st | _ => st end)
    | [] => st
    end.
Lemma fmt_tag_node : forall m s c payload k, ats m -> (c = cAT \/ c <> cAT) ->
  (forall st, tag_loop payload st = k st) ->
  forall st, fmt (tag_node (c :: s) m payload) st = k (f_write indent (tag_text (c :: s) ++ List.concat (map (fun x => cSLASH :: cAT :: x) m)) st).
Proof.
  induction m as [|x m IH]; intros s c payload k A _ HP st.
  - cbn [map List.concat]. rewrite app_nil_r. cbn [tag_node]. change (fmt (Node TAG (Leaf (LTok Tag) (tag_text (c :: s)) :: payload)) st)
      with (tag_loop payload (f_write indent (tag_text (c :: s)) st)). apply HP.
  - apply Forall_cons_iff in A as [X A]. destruct x as [|c' x]; [contradiction|].
    assert (T : exists cs, tag_node (c' :: x) m payload = Node TAG cs) by (destruct m; eexists; reflexivity).
    assert (E : fmt (tag_node (c :: s) ((c' :: x) :: m) payload) st =
      fmt (tag_node (c' :: x) m payload) (f_write indent (lit "/") (f_write indent (tag_text (c :: s)) st))).
    { cbn [tag_node]. destruct T as (cs & T). fold tag_node. rewrite T. reflexivity. }
    etransitivity; [exact E|]. etransitivity; [apply (IH x c' payload k A ltac:(tauto) HP)|].
    assert (NT : tag_text (c :: s) <> []) by (unfold tag_text; destruct (c =? cAT)%N; discriminate).
    rewrite write_app by discriminate. rewrite (write_app _ (tag_text (c :: s))) by exact NT.
    assert (TX : tag_text (c' :: x) = cAT :: c' :: x) by (unfold tag_text; destruct (N.eqb_spec c' cAT); [contradiction | reflexivity]).
    rewrite TX. reflexivity.
Qed.
Lemma ends_heredoc_last : forall a b, b <> [] -> ends_heredoc (Node DOCUMENT (a ++ b)) = ends_heredoc (Node DOCUMENT b) \/ flat_map leaves b = [].
Proof.
  intros a b _. unfold ends_heredoc. cbn [leaves]. rewrite flat_map_app, rev_app_distr.
  destruct (rev (flat_map leaves b)) eqn:E; [right | left; reflexivity].
  apply (f_equal (@rev _)) in E. rewrite rev_involutive in E. exact E.
Qed.
Lemma ends_app : forall (x y : list leaf_of), match rev y with (LTok HeredocEnd, _) :: _ => true | _ => false end = true ->
  match rev (x ++ y) with (LTok HeredocEnd, _) :: _ => true | _ => false end = true.
Proof. intros x y H. rewrite rev_app_distr. destruct (rev y) as [|e r]; [discriminate | exact H]. Qed.
Definition a_node (a : cst) : Prop := exists k cs, a = Node k cs.
Definition Patom (a : cst) (h : bool) (l : list sym) : Prop := plain a = true ->
  WA (Fh h) l (fmt a) /\ (h = true -> ends_heredoc a = true) /\ a_node a.
Definition Pitems (cs : list cst) (h : bool) (l : list sym) : Prop := forallb plain cs = true ->
  rows fmt cs h l /\ (Forall element cs -> rows (seq_element fmt) cs h l).
Definition Pentry (e : cst) (h : bool) (l : list sym) : Prop := plain e = true ->
  EW fmt e h l /\ (element e -> EW (seq_element fmt) e h l).
Definition Pvals (vs : list cst) (h : bool) (l : list sym) : Prop :=
  1 <= List.length (filter (of_kind VALUE) vs) /\
  (forallb plain vs = true -> List.length (filter (of_kind VALUE) vs) <= 1 ->
   exists v ws, vs = Node VALUE [v] :: ws /\ W (Fh h) l (fmt v) /\ a_node v).
Definition Pvalue (v : cst) (h : bool) (l : list sym) : Prop := plain v = true -> W (Fh h) l (fmt v) /\ a_node v.
Definition Pattrs (cs : list cst) (h : bool) (l : list sym) : Prop := forallb plain cs = true ->
  W (Fh h) l (nodes_between indent fmt ATTRIBUTE (lit " ") cs) /\ existsb (is_node ATTRIBUTE) cs = true.
Definition Pattribute (x : cst) (h : bool) (l : list sym) : Prop := plain x = true -> W (Fh h) l (fmt x) /\ is_node ATTRIBUTE x = true.

Lemma blank_kind : forall k ws, Forall blank_leaf ws -> existsb (is_node k) ws = false.
Proof. intros k ws H. induction H as [|w ws (t & ->) H IH]; [reflexivity | exact IH]. Qed.
Lemma sep_space : sep_ok (lit " ").
Proof.
  split; [discriminate|]. split; [apply piece_blanks; reflexivity|]. intros r. right. eexists. eexists. split; [reflexivity | left; reflexivity].
Qed.
Lemma sep_comma : sep_ok (lit ", ").
Proof.
  split; [discriminate|]. split; [|intros r; right; eexists; eexists; split; [reflexivity | tauto]].
  intros rest l' _ R. apply retok_comma. apply retok_blank; [reflexivity | exact R].
Qed.
Lemma delim_close : forall c r, c = cRB \/ c = cRP -> Fdelim (c :: r).
Proof. intros c r H. right. exists c, r. split; [reflexivity | tauto]. Qed.
Lemma first_skip : forall f k ws cs st, Forall blank_leaf ws -> first_node f k (ws ++ cs) st = first_node f k cs st.
Proof. intros f k ws cs st H. induction H as [|w ws (t & ->) H IH]; [reflexivity | exact IH]. Qed.
Lemma first_single : forall f sep cs st, List.length (filter (is_node ENTRY) cs) = 1 -> first_node f ENTRY cs st = nodes_between indent f ENTRY sep cs st.
Proof.
  intros f sep cs. induction cs as [|c cs IH]; intros st H; [discriminate|]. cbn [first_node nodes_between filter] in *.
  destruct (is_node ENTRY c); [|apply IH; exact H]. cbn in H.
  assert (E : existsb (is_node ENTRY) cs = false).
  { destruct (existsb (is_node ENTRY) cs) eqn:X; [|reflexivity]. apply existsb_exists in X as (y & I & Y).
    assert (In y (filter (is_node ENTRY) cs)) by (apply filter_In; auto). destruct (filter (is_node ENTRY) cs); [contradiction | discriminate]. }
  rewrite E. symmetry. apply between_none. exact E.
Qed.

(** The two ways to write brackets. *)
Lemma bracket_multi : forall f cs h l o c ko kc, rows f cs h l -> piece Fany [o] [(ko, [o])] -> piece Fany [c] [(kc, [c])] -> tok_shape ko [o] ->
  WA Fdelim ((ko, [o]) :: l ++ [(kc, [c])])
    (fun st => f_write indent [c] (f_dedent (f_newline (lines indent f false 0 cs (f_indent (f_newline (f_write indent [o] st))))))).
Proof.
  intros f cs h l o c ko kc H PO PC SH lv. destruct (lines_printed _ _ _ _ H false 0 (S lv) true) as (s & b' & E & P & _).
  exists ([o] ++ [cLF] ++ s ++ [cLF] ++ ind true lv ++ [c]). split; [split; [discriminate | split]|].
  - change ((ko, [o]) :: l ++ [(kc, [c])]) with ([(ko, [o])] ++ [] ++ l ++ [] ++ [] ++ [(kc, [c])]).
    apply (piece_app Fany); [exact PO | | intros; exact I]. apply (piece_app Fany); [apply piece_lf | | intros; exact I].
    apply (piece_app Fline); [exact P | | intros r _; right; eexists; reflexivity].
    apply (piece_app Fany); [apply piece_lf | | intros; exact I].
    apply (piece_app Fany); [apply piece_blanks, ind_blank | eapply piece_weaken; [|exact PC]; intros; exact I | intros; exact I].
  - intros out b. rewrite write_eq by discriminate. unfold f_newline at 2, f_indent. cbn [f_out f_level f_start].
    rewrite E. unfold f_newline, f_dedent. cbn [f_out f_level f_start pred]. rewrite write_eq by discriminate. rewrite <- !app_assoc. reflexivity.
  - exists ko, [o], (l ++ [(kc, [c])]), ([cLF] ++ s ++ [cLF] ++ ind true lv ++ [c]). splits; [reflexivity | reflexivity | discriminate | exact SH].
Qed.
Lemma bracket_inline : forall f sep cs l o c ko kc, flat f cs l -> sep_ok sep -> c = cRB \/ c = cRP -> piece Fany [o] [(ko, [o])] -> piece Fany [c] [(kc, [c])] -> tok_shape ko [o] ->
  WA Fdelim ((ko, [o]) :: l ++ [(kc, [c])])
    (fun st => f_write indent [c] (nodes_between indent f ENTRY sep cs (f_write indent [o] st))).
Proof.
  intros f sep cs l o c ko kc H SO HC PO PC SH lv. destruct (flat_between _ _ _ _ SO H lv) as (s & P & E).
  exists ([o] ++ s ++ [c]). split; [split; [discriminate | split]|].
  - change ((ko, [o]) :: l ++ [(kc, [c])]) with ([(ko, [o])] ++ l ++ [(kc, [c])]).
    apply (piece_app Fany); [exact PO | | intros; exact I].
    apply (piece_app Fdelim); [exact P | eapply piece_weaken; [|exact PC]; intros; exact I | intros r _; apply delim_close; exact HC].
  - intros out b. rewrite write_eq by discriminate. rewrite E. rewrite write_eq by discriminate. cbn [ind app]. rewrite <- !app_assoc. reflexivity.
  - exists ko, [o], (l ++ [(kc, [c])]), (s ++ [c]). splits; [reflexivity | reflexivity | discriminate | exact SH].
Qed.

Lemma is_comment_leaf : forall cs, existsb comment_leaf cs = existsb is_comment cs.
Proof. induction cs as [|[[[]|]|] cs IH]; cbn; rewrite ?IH; reflexivity. Qed.
Lemma of_kind_entry : forall cs, filter (of_kind ENTRY) cs = filter (is_node ENTRY) cs.
Proof. induction cs as [|[|[]] cs IH]; cbn; rewrite ?IH; reflexivity. Qed.
Lemma of_kind_value : forall cs, filter (of_kind VALUE) cs = [] -> existsb (is_node VALUE) cs = false.
Proof. induction cs as [|[|[]] cs IH]; cbn; intros H; try (apply IH; exact H); try discriminate; reflexivity. Qed.
Lemma blank_elements : forall ws, Forall blank_leaf ws -> forallb plain ws = true /\ filter (of_kind VALUE) ws = [].
Proof. intros ws H. induction H as [|w ws (t & ->) H IH]; [split; reflexivity | exact IH]. Qed.
Lemma vals_nonempty : forall vs h l, vals vs h l -> exists v r, vs = Node VALUE [v] :: r.
Proof. intros vs h l H. inversion H; subst; eauto. Qed.

Lemma atom_tagp_case : forall t s m c h l, valid Tag t -> split_tag t = (cAT :: s, m) -> ats m -> Patom c h l -> payload_sym t l ->
  Patom (tag_node (cAT :: s) m [Node TAG_PAYLOAD [c]]) h ((Tag, t) :: l).
Proof.
  intros t s m c h l V SP A IH PS PL.
  assert (PC : plain c = true).
  { clear - PL. revert PL. generalize (cAT :: s). induction m as [|x m IHm]; intros s0 PL.
    - cbn in PL. rewrite !andb_true_r in PL. exact PL.
    - cbn [tag_node plain forallb plain_node] in PL. rewrite !andb_true_r in PL. cbn [andb] in PL. exact (IHm _ PL). }
  destruct (IH PC) as (WC & EC & (k & cs & ->)).
  assert (TX : t = tag_text (cAT :: s) ++ List.concat (map (fun x => cSLASH :: cAT :: x) m)).
  { rewrite (split_tag_text _ t _ _ (le_n _) SP). reflexivity. }
  split; [|split].
  - apply WA_ext with (f := fun st => fmt (Node k cs) (f_write indent t st)).
    { intros st. rewrite TX at 1. symmetry. apply fmt_tag_node; [exact A | tauto | reflexivity]. }
    intros lv. destruct (WC lv) as (s2 & (N2 & P2 & E2) & k2 & t2 & x2 & s2' & -> & -> & NT & SH).
    exists (t ++ t2 ++ s2'). split; [split; [|split]|].
    + destruct V as (V & _). destruct t; [contradiction | discriminate].
    + change ((Tag, t) :: (k2, t2) :: x2) with ([(Tag, t)] ++ (k2, t2) :: x2).
      intros rest l' HF R. rewrite <- (app_assoc t). rewrite <- (app_assoc [(Tag, t)]).
      change [(Tag, t)] with (sigs [(Tag, t)]). apply retok_lexes; [|apply P2; assumption].
      unfold payload_sym in PS. destruct t2 as [|c2 t2]; [contradiction|]. destruct PS as [PK PS]. cbn [app]. apply PS.
      destruct k2; try discriminate; cbn [tok_shape] in SH.
      * injection SH as -> ->. reflexivity.
      * injection SH as -> ->. reflexivity.
      * injection SH as -> ->. reflexivity.
      * destruct SH as (d & a & SH & _). injection SH as -> ->. reflexivity.
      * destruct SH as (a & SH). injection SH as -> ->. reflexivity.
      * destruct SH as (n & a & SH). injection SH as -> ->. destruct n; reflexivity.
      * destruct SH as (d & a & SH & _). injection SH as -> ->. reflexivity.
    + intros out b. rewrite write_eq by (destruct V as (V & _); exact V). rewrite E2. cbn [ind app]. rewrite <- !app_assoc. reflexivity.
    + exists Tag, t, ((k2, t2) :: x2), (t2 ++ s2'). destruct V as (V1 & V2 & _). splits; try assumption; reflexivity.
  - intros Q. specialize (EC Q). destruct (tag_node_leaves m s [Node TAG_PAYLOAD [Node k cs]] A) as (p & L & _). unfold ends_heredoc in *. rewrite L.
    apply ends_app. cbn [flat_map leaves]. rewrite !app_nil_r. exact EC.
  - destruct m; eexists; eexists; reflexivity.
Qed.

Lemma seq_case : forall cs l, Pitems cs false l -> Forall element cs ->
  Patom (Node SEQUENCE (Leaf (LTok LParen) [cLP] :: cs ++ [Leaf (LTok RParen) [cRP]])) false ((LParen, [cLP]) :: l ++ [(RParen, [cRP])]).
Proof.
  intros cs l IH EL PL. set (all := Leaf (LTok LParen) [cLP] :: cs ++ [Leaf (LTok RParen) [cRP]]) in *.
  cbn [plain] in PL. apply andb_true_iff in PL as [PL1 PL2]. unfold all in PL1. cbn [forallb plain] in PL1. rewrite forallb_app in PL1.
  cbn [andb forallb plain] in PL1. apply andb_true_iff in PL1 as [PL1 _].
  destruct (IH PL1) as [_ R0]. specialize (R0 EL).
  assert (R : rows (seq_element fmt) all false l).
  { unfold all. apply rw_gap; [unfold gap_kind; tauto|]. apply rows_close with (h := false); [exact R0 | reflexivity | unfold gap_kind; tauto]. }
  assert (EL' : Forall element all).
  { unfold all. constructor; [exact I|]. apply Forall_app. split; [exact EL | constructor; [exact I | constructor]]. }
  assert (PO : piece Fany [cLP] [(LParen, [cLP])]) by (apply piece_mark; cbn; tauto).
  assert (PC : piece Fany [cRP] [(RParen, [cRP])]) by (apply piece_mark; cbn; tauto).
  split; [|split; [discriminate | eexists; eexists; reflexivity]].
  cbn [Fh]. cbn [plain_node] in PL2. rewrite is_comment_leaf, of_kind_entry in PL2.
  destruct (negb (existsb (is_node ENTRY) all) && negb (existsb is_comment all)) eqn:EM.
  { apply andb_true_iff in EM as [E1 E2]. apply negb_true_iff in E1, E2.
    pose proof (rows_empty _ _ _ _ R E1 E2) as ->.
    apply WA_ext with (f := fun st => f_write indent [cRP] (nodes_between indent (seq_element fmt) ENTRY (lit " ") all (f_write indent [cLP] st))).
    - intros st. rewrite between_none by exact E1. cbn [format_node]. fold all. rewrite E1, E2. reflexivity.
    - apply (bracket_inline (seq_element fmt) (lit " ") all []); try assumption; [|apply sep_space | tauto | reflexivity].
      eapply rows_flat_calm; [exact R | exact E2 | exact EL' |].
      destruct (filter (is_node ENTRY) all) as [|e r] eqn:X; [reflexivity|]. exfalso.
      assert (I : In e (filter (is_node ENTRY) all)) by (rewrite X; left; reflexivity). apply filter_In in I as [I1 I2].
      assert (existsb (is_node ENTRY) all = true) by (apply existsb_exists; exists e; auto). congruence. }
  set (single := negb (existsb is_comment all) && (List.length (filter (is_node ENTRY) all) =? 1)).
  assert (SF : single = true -> flat (seq_element fmt) all l /\ List.length (filter (is_node ENTRY) all) = 1).
  { intros Q. unfold single in Q. apply andb_true_iff in Q as [Q1 Q2]. apply negb_true_iff in Q1. apply Nat.eqb_eq in Q2.
    rewrite Q1 in PL2. cbn [orb] in PL2. split; [|exact Q2].
    eapply rows_flat_calm; [exact R | exact Q1 | exact EL' |].
    destruct (filter (is_node ENTRY) all) as [|e [|e' r]] eqn:X; [discriminate | | discriminate].
    apply negb_true_iff in PL2. cbn. rewrite PL2. reflexivity. }
  destruct (single && existsb is_tag_with_block_payload (filter (is_node ENTRY) all)) eqn:ST.
  { assert (single = true) as Q by (apply andb_true_iff in ST as [Q _]; exact Q). destruct (SF Q) as [FL LN].
    apply WA_ext with (f := fun st => f_write indent [cRP] (nodes_between indent (seq_element fmt) ENTRY (lit " ") all (f_write indent [cLP] st))).
    - intros st. rewrite <- (first_single (seq_element fmt) (lit " ")) by exact LN. cbn [format_node]. fold all. fold single. rewrite EM, ST. reflexivity.
    - apply bracket_inline; try assumption; [apply sep_space | tauto | reflexivity]. }
  destruct (negb (single && negb (existsb contains_block (filter (is_node ENTRY) all))) && negb false &&
    (has_line_separator all || existsb is_comment all || negb (existsb (is_node ENTRY) all))) eqn:ML.
  - eapply WA_ext; [|eapply bracket_multi; try eassumption; reflexivity].
    intros st. cbn [format_node]. fold all. fold single. rewrite EM, ST, ML. reflexivity.
  - apply WA_ext with (f := fun st => f_write indent [cRP] (nodes_between indent (seq_element fmt) ENTRY (lit " ") all (f_write indent [cLP] st))).
    + intros st. cbn [format_node]. fold all. fold single. rewrite EM, ST, ML. reflexivity.
    + apply bracket_inline; try assumption; [|apply sep_space | tauto | reflexivity].
      destruct (single && negb (existsb contains_block (filter (is_node ENTRY) all))) eqn:CO.
      * apply SF. apply andb_true_iff in CO as [Q _]. exact Q.
      * cbn [negb andb] in ML. apply orb_false_iff in ML as [ML _]. apply orb_false_iff in ML as [ML1 ML2].
        eapply rows_flat; try eassumption. reflexivity.
Qed.
Lemma object_case : forall cs l, Pitems cs false l ->
  Patom (Node OBJECT (Leaf (LTok LBrace) [cLB] :: cs ++ [Leaf (LTok RBrace) [cRB]])) false ((LBrace, [cLB]) :: l ++ [(RBrace, [cRB])]).
Proof.
  intros cs l IH PL. set (all := Leaf (LTok LBrace) [cLB] :: cs ++ [Leaf (LTok RBrace) [cRB]]) in *.
  cbn [plain] in PL. apply andb_true_iff in PL as [PL1 _]. unfold all in PL1. cbn [forallb plain] in PL1. rewrite forallb_app in PL1.
  cbn [andb forallb plain] in PL1. apply andb_true_iff in PL1 as [PL1 _].
  destruct (IH PL1) as [R0 _].
  assert (R : rows fmt all false l).
  { unfold all. apply rw_gap; [unfold gap_kind; tauto|]. apply rows_close with (h := false); [exact R0 | reflexivity | unfold gap_kind; tauto]. }
  assert (PO : piece Fany [cLB] [(LBrace, [cLB])]) by (apply piece_mark; cbn; tauto).
  assert (PC : piece Fany [cRB] [(RBrace, [cRB])]) by (apply piece_mark; cbn; tauto).
  split; [|split; [discriminate | eexists; eexists; reflexivity]]. cbn [Fh].
  destruct (negb (existsb (is_node ENTRY) all) && negb (existsb is_comment all)) eqn:EM.
  { apply andb_true_iff in EM as [E1 E2]. apply negb_true_iff in E1, E2.
    pose proof (rows_empty _ _ _ _ R E1 E2) as ->.
    apply WA_ext with (f := fun st => f_write indent [cRB] (nodes_between indent fmt ENTRY (lit " ") [] (f_write indent [cLB] st))).
    - intros st. cbn [format_node nodes_between]. fold all. rewrite E1, E2. reflexivity.
    - apply (bracket_inline fmt (lit " ") [] []); try assumption; [apply fl_nil | apply sep_space | tauto | reflexivity]. }
  destruct (has_line_separator all || existsb is_comment all || existsb (fun e => is_node ENTRY e && contains_block e) all || negb (existsb (is_node ENTRY) all)) eqn:ML.
  - eapply WA_ext; [|eapply bracket_multi; try eassumption; reflexivity].
    intros st. cbn [format_node]. fold all. rewrite EM, ML. reflexivity.
  - apply WA_ext with (f := fun st => f_write indent [cRB] (nodes_between indent fmt ENTRY (lit ", ") all (f_write indent [cLB] st))).
    + intros st. cbn [format_node]. fold all. rewrite EM, ML. reflexivity.
    + apply bracket_inline; try assumption; [|apply sep_comma | tauto | reflexivity].
      apply orb_false_iff in ML as [ML _]. apply orb_false_iff in ML as [ML _]. apply orb_false_iff in ML as [ML1 ML2].
      eapply rows_flat; try eassumption. reflexivity.
Qed.

Lemma shapes_written : (forall a h l, atom a h l -> Patom a h l) /\ (forall cs h l, items cs h l -> Pitems cs h l) /\
  (forall e h l, entry e h l -> Pentry e h l) /\ (forall vs h l, vals vs h l -> Pvals vs h l) /\
  (forall v h l, value v h l -> Pvalue v h l) /\ (forall cs h l, attrs cs h l -> Pattrs cs h l) /\
  (forall x h l, attribute x h l -> Pattribute x h l).
Proof.
  apply shapes_mut.
  - (* scalar *)
    intros k t K V _. split; [|split; [discriminate | eexists; eexists; reflexivity]].
    intros lv. exists t. split; [split; [apply V | split]|].
    + apply piece_valid; [exact V | destruct K as [->|[-> | ->]]; reflexivity .. | destruct K as [->|[-> | ->]]; discriminate | destruct K as [->|[-> | ->]]; discriminate].
    + intros out b. rewrite <- write_eq by apply V. destruct K as [->|[-> | ->]]; reflexivity.
    + exists k, t, [], []. rewrite app_nil_r. destruct V as (V1 & V2 & _). splits; try assumption; reflexivity.
  - (* unit *)
    intros _. split; [|split; [discriminate | eexists; eexists; reflexivity]].
    intros lv. exists [cAT]. split; [split; [discriminate | split]|].
    + apply piece_at.
    + intros out b. rewrite <- write_eq by discriminate. reflexivity.
    + exists At, [cAT], [], []. splits; [reflexivity | reflexivity | discriminate | reflexivity].
  - (* heredoc *)
    intros cs l t x L SL -> NT (y & Y) SH (cs' & e & CE) FL _. split; [|split].
    + intros lv. exists (flat_map node_text cs). split; [split; [|split]|].
      * rewrite Y. destruct t; [contradiction | discriminate].
      * apply piece_lexes; [|exact SL]. intros rest [->|(r & ->)]; apply L; [left; reflexivity | right; left; eauto].
      * intros out b. rewrite <- write_eq by (rewrite Y; destruct t; [contradiction | discriminate]). reflexivity.
      * exists HeredocStart, t, x, y. splits; try assumption; reflexivity.
    + intros _. subst cs. unfold ends_heredoc. cbn [leaves]. rewrite flat_map_app. apply ends_app. reflexivity.
    + eexists; eexists; reflexivity.
  - (* tag *)
    intros t s m V SP A _.
    assert (TX : t = tag_text (cAT :: s) ++ List.concat (map (fun x => cSLASH :: cAT :: x) m)).
    { rewrite (split_tag_text _ t _ _ (le_n _) SP). reflexivity. }
    split; [|split; [discriminate | destruct m; eexists; eexists; reflexivity]].
    apply WA_ext with (f := f_write indent t).
    { intros st. rewrite TX at 1. symmetry. apply (fmt_tag_node m s cAT [] (fun st => st)); [exact A | tauto | reflexivity]. }
    intros lv. exists t. split; [split; [apply V | split]|].
    + apply piece_valid; [exact V | reflexivity | reflexivity | discriminate | discriminate].
    + intros out b. apply write_eq. apply V.
    + exists Tag, t, [], []. rewrite app_nil_r. destruct V as (V1 & V2 & _). splits; try assumption; reflexivity.
  - intros. apply atom_tagp_case; assumption.
  - intros. apply object_case. assumption.
  - intros. apply seq_case; assumption.
  - (* items *)
    intros _. split; [apply rw_nil | intros _; apply rw_nil].
  - intros k t cs h l K _ IH PL. destruct (IH PL) as [R1 R2]. split; [|intros EL; inversion EL; subst].
    + apply rw_gap; [unfold gap_kind; tauto | exact R1].
    + apply rw_gap; [unfold gap_kind; tauto | apply R2; assumption].
  - intros k t cs h l K V _ IH PL. destruct (IH PL) as [R1 R2]. split; [|intros EL; inversion EL; subst].
    + apply rw_comment; assumption.
    + apply rw_comment; [assumption | assumption | apply R2; assumption].
  - intros e h l _ IH PL. cbn in PL. rewrite andb_true_r in PL. destruct (IH PL) as [R1 R2]. split; [|intros EL; inversion EL; subst].
    + apply rw_last. exact R1.
    + apply rw_last. apply R2. assumption.
  - intros e h0 l0 cs h l _ IH1 NL _ IH2 PL. cbn [forallb] in PL. apply andb_true_iff in PL as [PL1 PL2].
    destruct (IH1 PL1) as [A1 A2]. destruct (IH2 PL2) as [R1 R2]. split; [|intros EL; inversion EL; subst].
    + eapply rw_entry; eassumption.
    + eapply rw_entry; [apply A2; assumption | exact NL | apply R2; assumption].
  - (* entries *)
    intros _. split; [|intros _].
    + split; [eexists; reflexivity|]. split; [discriminate|]. left. splits; reflexivity.
    + split; [eexists; reflexivity|]. split; [discriminate|]. left. splits; reflexivity.
  - intros cs h l _ _ PL. cbn in PL. rewrite andb_false_r in PL. discriminate.
  - intros a ws h l _ IH FW PL. cbn [plain forallb] in PL. apply andb_true_iff in PL as [PL _]. apply andb_true_iff in PL as [PL _].
    cbn [plain_node] in PL. rewrite !andb_true_r in PL. destruct (IH PL) as (WC & EH & (k & cs & ->)).
    assert (EE : element (Node ENTRY (Node KEY [Node k cs] :: ws)) -> h = true -> ends_heredoc (Node ENTRY (Node KEY [Node k cs] :: ws)) = true).
    { intros (a & X) Q. injection X as _ ->. specialize (EH Q). unfold ends_heredoc in *. cbn [leaves flat_map]. rewrite !app_nil_r. exact EH. }
    split; [|intros EL].
    + split; [eexists; reflexivity|]. split; [exact EE|]. right. apply WA_W in WC. eapply W_ext; [|exact WC].
      intros st. cbn [format_node existsb is_node nkind_eqb first_node orb]. rewrite (blank_kind VALUE ws FW).
      rewrite <- (app_nil_r ws), first_skip by exact FW. reflexivity.
    + split; [eexists; reflexivity|]. split; [exact EE|]. right. apply WA_W in WC. eapply W_ext; [|exact WC].
      intros st. reflexivity.
  - intros a l ws vs h lv _ IHa FW V IHv PL. cbn [plain forallb] in PL. apply andb_true_iff in PL as [PL PN]. apply andb_true_iff in PL as [PA PL].
    cbn [plain_node] in PA. rewrite !andb_true_r in PA. destruct (IHa PA) as (WC & EH & (k & cs & ->)).
    rewrite forallb_app in PL. apply andb_true_iff in PL as [_ PV].
    cbn [plain_node existsb of_kind filter] in PN. apply andb_true_iff in PN as [_ PN]. rewrite filter_app in PN. destruct (blank_elements _ FW) as [_ FB]. rewrite FB in PN.
    cbn [app] in PN. apply Nat.leb_le in PN.
    destruct IHv as [_ IHv]. destruct (IHv PV PN) as (v & ws' & -> & WV & (kv & csv & ->)).
    split.
    + split; [eexists; reflexivity|]. split.
      * intros (a & X). injection X as _ X. destruct ws; discriminate.
      * right. eapply W_ext with (f := fun st => fmt (Node kv csv) (f_write indent (lit " ") (fmt (Node k cs) st))).
        { intros st. cbn [format_node existsb is_node nkind_eqb first_node orb]. rewrite existsb_app. cbn [existsb is_node nkind_eqb orb]. rewrite orb_true_r.
          rewrite first_skip by exact FW. reflexivity. }
        intros lv0. destruct (WC lv0) as (s1 & (N1 & P1 & E1) & _). destruct (WV lv0) as (s2 & N2 & P2 & E2).
        exists (s1 ++ [cSP] ++ s2). split; [destruct s1; [contradiction | discriminate]|]. split.
        -- apply (piece_app Fdelim); [exact P1 | | intros r _; apply sep_space].
           apply (piece_app Fany _ _ _ [] lv); [apply piece_blanks; reflexivity | exact P2 | intros; exact I].
        -- intros out b. rewrite E1, write_eq, E2 by discriminate. cbn [ind app]. rewrite <- !app_assoc. reflexivity.
    + intros (a & X). injection X as _ X. destruct ws; discriminate.
  - (* values *)
    intros v ws h l _ IH FW. destruct (blank_elements _ FW) as [_ FB]. split; [cbn; lia|].
    intros PL _. cbn [forallb plain plain_node] in PL. rewrite !andb_true_r in PL. apply andb_true_iff in PL as [PL _].
    destruct (IH PL) as [WV NV]. exists v, ws. splits; [reflexivity | exact WV | exact NV].
  - intros v ws l vs h lv _ _ FW V _. destruct (vals_nonempty _ _ _ V) as (v' & r & ->). split; [cbn; lia|].
    intros _ PN. cbn [filter of_kind] in PN. rewrite filter_app in PN. destruct (blank_elements _ FW) as [_ FB]. rewrite FB in PN. cbn in PN. lia.
  - intros a h l _ IH PL. destruct (IH PL) as (A & _ & B). split; [apply WA_W; exact A | exact B].
  - intros cs h l _ IH PL. cbn [plain plain_node] in PL. rewrite andb_true_r in PL. destruct (IH PL) as [A _]. split; [exact A | eexists; eexists; reflexivity].
  - (* attributes *)
    intros x ws h l _ IH FW PL. cbn [forallb] in PL. apply andb_true_iff in PL as [PL _]. destruct (IH PL) as [WX KX].
    split; [|cbn [existsb]; rewrite KX; reflexivity]. eapply W_ext; [|exact WX].
    intros st. cbn [nodes_between]. rewrite KX, (blank_kind _ _ FW). symmetry. apply between_none. apply blank_kind. exact FW.
  - intros x ws l cs h l' _ IHx FW _ IHc PL. cbn [forallb] in PL. rewrite forallb_app in PL. apply andb_true_iff in PL as [PL1 PL]. apply andb_true_iff in PL as [_ PL2].
    destruct (IHx PL1) as [WX KX]. destruct (IHc PL2) as [WC EC]. split; [|cbn [existsb]; rewrite KX; reflexivity].
    eapply W_ext with (f := fun st => nodes_between indent fmt ATTRIBUTE (lit " ") cs (f_write indent (lit " ") (fmt x st))).
    { intros st. cbn [nodes_between]. rewrite KX, existsb_app, EC, orb_true_r.
      generalize (f_write indent (lit " ") (fmt x st)). clear - FW. intros st. induction FW as [|w ws (t & ->) FW IH]; [reflexivity | exact IH]. }
    intros lv0. destruct (WX lv0) as (s1 & N1 & P1 & E1). destruct (WC lv0) as (s2 & N2 & P2 & E2).
    exists (s1 ++ [cSP] ++ s2). split; [destruct s1; [contradiction | discriminate]|]. split.
    + apply (piece_app Fdelim); [exact P1 | | intros r _; apply sep_space].
      apply (piece_app Fany _ _ _ [] l'); [apply piece_blanks; reflexivity | exact P2 | intros; exact I].
    + intros out b. rewrite E1, write_eq, E2 by discriminate. cbn [ind app]. rewrite <- !app_assoc. reflexivity.
  - (* attribute *)
    intros t a h l V _ IH PL. cbn [plain forallb plain_node] in PL. rewrite !andb_true_r in PL. cbn [andb] in PL.
    destruct (IH PL) as (WC & _ & (k & cs & ->)). split; [|reflexivity].
    eapply W_ext with (f := fun st => fmt (Node k cs) (f_write indent [cGT] (f_write indent t st))); [reflexivity|].
    intros lv. destruct (WC lv) as (s2 & (N2 & P2 & E2) & _). exists (t ++ [cGT] ++ s2).
    split; [destruct V as (V & _); destruct t; [contradiction | discriminate]|]. split.
    + change ((BareScalar, t) :: (Gt, [cGT]) :: l) with ([(BareScalar, t)] ++ [(Gt, [cGT])] ++ l).
      apply (piece_app (fun r => exists r', r = cGT :: r')).
      * apply piece_lexes; [|reflexivity]. intros rest (r' & ->). apply V. reflexivity.
      * apply (piece_app Fany); [apply piece_mark; cbn; tauto | exact P2 | intros; exact I].
      * intros r _. eexists. reflexivity.
    + intros out b. rewrite !write_eq by (try discriminate; apply V). rewrite E2. cbn [ind app]. rewrite <- !app_assoc. reflexivity.
Qed.

Lemma format_retok : forall cs h l, items cs h l -> plain (Node DOCUMENT cs) = true -> retok (format_cst indent (Node DOCUMENT cs)) l.
Proof.
  intros cs h l H PL. cbn [plain plain_node] in PL. rewrite andb_true_r in PL.
  destruct (proj1 (proj2 shapes_written) _ _ _ H PL) as [R _].
  destruct (doc_lines_printed _ _ _ _ R [] false 0 None false 0 true) as (s & b & E & P & _).
  unfold format_cst, f_finish. cbn [format_node]. unfold f_new. rewrite E. cbn [f_out app].
  assert (P1 : retok s l) by (rewrite <- (app_nil_r s), <- (app_nil_r l); apply P; [left; reflexivity | apply retok_nil]).
  assert (P2 : retok (s ++ [cLF]) l).
  { rewrite <- (app_nil_r l). apply P; [right; eexists; reflexivity | apply retok_newline, retok_nil]. }
  destruct s as [|c s]; [exact P1|]. destruct (last (c :: s) 0%N =? cLF)%N; [exact P1 | exact P2].
Qed.
End Fmt.

Lemma sigs_meaning : forall ts, sigs (map kt ts) = meaning ts.
Proof.
  unfold sigs, meaning. induction ts as [|t ts IH]; [reflexivity|]. cbn [map filter]. rewrite IH.
  change (fst (kt t)) with (tk_kind t).
  assert (E : sig_kind (tk_kind t) = significant t) by (unfold significant; destruct (tk_kind t); reflexivity).
  rewrite E. destruct (significant t); reflexivity.
Qed.
