(** The tree parser follows the derivations of the grammar. *)
From Verif Require Import Base BaseProofs TokModel TokSpec TokProofs LexModel LexSpec LexProofs ParseModel ParseSpec PathSpec TreeModel TreeSpec GrammarSpec GrammarProofs.
From Verif Require Import RelexProofs AgreeLex AgreeSpec.
From Verif Require Import CstModel CstSpec CstProofs HiProofs AgreeProofs.
Local Open Scope nat_scope.

Definition attr_head (l : list lexeme) : Prop := match l with LxAttrKey _ _ _ :: _ => True | _ => False end.
Definition starts (l : list lexeme) : Prop := match l with x :: _ => starter x | [] => False end.
Definition mid (p : lexeme) : Prop := ~ line_start (Some p).
Definition stopping (cl : option tkind) (r : list lexeme) : Prop :=
  match r with
  | [] | (LxNewline _ | LxComma _ | LxComment _ _) :: _ => True
  | LxObjEnd _ :: _ => cl = Some RBrace
  | _ => False
  end.

(** ** From lexemes to tokens *)
Definition sym_kind (l : lexeme) : option tkind :=
  match l with
  | LxObjStart _ => Some LBrace | LxObjEnd _ => Some RBrace | LxSeqStart _ => Some LParen | LxSeqEnd _ => Some RParen
  | LxComma _ => Some Comma | LxNewline _ => Some Newline | LxUnit _ => Some At | LxComment _ _ => Some LineComment | LxDoc _ _ => Some DocComment
  | _ => None
  end.
Lemma Lx_shape t ts l : Lx (t :: ts) l -> tok_shape (tk_kind t) (tk_text t).
Proof. intros (_ & H & _). now inversion H. Qed.
Lemma Lx_sym ts l ls k : Lx ts (l :: ls) -> nonblank ts -> sym_kind l = Some k ->
  exists t r, ts = t :: r /\ tk_kind t = k /\ tok_shape k (tk_text t) /\ Lx r ls /\ lx_span l = tk_span t /\ forall sp u, l = LxDoc sp u -> tk_text t = u.
Proof.
  intros H N K. destruct (Lx_inv _ _ _ H N) as (g & r & -> & G & Hr). destruct G as [t l r E|ss v sk r S|t name hp r Kt T HP NB|t g' asp r Kt Kg NI]; try discriminate K.
  exists t, r. assert (tk_kind t = k) as Hk by (destruct (tk_kind t); try discriminate E; injection E as <-; cbn in K; congruence).
  split; [reflexivity|]. split; [exact Hk|]. split; [rewrite <- Hk; now apply (Lx_shape t r (l :: ls))|]. split; [exact Hr|].
  split; [destruct (tk_kind t); try discriminate E; injection E as <-; reflexivity|]. intros sp u ->. destruct (tk_kind t); try discriminate E. now injection E.
Qed.
Lemma peek_head ts : peek_kind ts = tk_kind (AgreeLex.head ts).
Proof. destruct ts; reflexivity. Qed.
Lemma Lx_attr ts asp ksp key ls : Lx ts (LxAttrKey asp ksp key :: ls) -> nonblank ts ->
  exists t g r, ts = t :: g :: r /\ tk_kind t = BareScalar /\ tk_text t = key /\ tk_kind g = Gt /\ tk_text g = [cGT] /\ Lx r ls /\ ~ In (peek_kind r) [Newline; Eof; Whitespace].
Proof.
  intros H N. destruct (Lx_inv _ _ _ H N) as (g & r & -> & G & Hr). inversion G as [t l' r' E| | |t g' asp' r' Kt Kg NI]; subst.
  - exfalso. destruct (tk_kind t); discriminate E.
  - exists t, g', r. rewrite peek_head. splits; auto. destruct H as (_ & Hs & _). inversion_clear Hs as [|? ? _ Hs']. inversion_clear Hs' as [|? ? S _]. now rewrite Kg in S.
Qed.
Lemma Lx_scalar ts sp v k ls : Lx ts (LxScalar sp v k :: ls) -> nonblank ts -> exists ss r, ts = ss ++ r /\ scalar_tokens ss v k /\ Lx r ls /\ sp = span_of ss.
Proof.
  intros H N. destruct (Lx_inv _ _ _ H N) as (g & r & -> & G & Hr). inversion G as [t l' r' E|ss v' k' r' S| |]; subst.
  - exfalso. destruct (tk_kind t); discriminate E.
  - eauto 6.
Qed.
Lemma Lx_tag ts sp name hp ls : Lx ts (LxTag sp name hp :: ls) -> nonblank ts -> exists t r, ts = t :: r /\ tk_kind t = Tag /\ tk_text t = cAT :: name /\ tk_span t = sp /\ Lx r ls /\
  hp = contains_sub [cSLASH; cAT] name || ((sp_start (tk_span (AgreeLex.head r)) =? sp_end (tk_span t)) && valid_payload (tk_kind (AgreeLex.head r))) /\
  ~ (sp_start (tk_span (AgreeLex.head r)) = sp_end (tk_span t) /\ tk_kind (AgreeLex.head r) = BareScalar).
Proof.
  intros H N. destruct (Lx_inv _ _ _ H N) as (g & r & -> & G & Hr). inversion G as [t l' r' E| |t name' hp' r' Kt T HP NB|]; subst.
  - exfalso. destruct (tk_kind t); discriminate E.
  - exists t, r. splits; auto.
Qed.

(** The kind of the first token. *)
Definition first_kinds (l : lexeme) : list tkind :=
  match l with
  | LxScalar _ _ Bare | LxAttrKey _ _ _ => [BareScalar] | LxScalar _ _ Quoted => [QuotedScalar] | LxScalar _ _ Raw => [RawScalar] | LxScalar _ _ Heredoc => [HeredocStart]
  | LxTag _ _ _ => [Tag] | _ => match sym_kind l with Some k => [k] | None => [] end
  end.
Lemma first_kind ts l ls : Lx ts (l :: ls) -> nonblank ts -> In (peek_kind ts) (first_kinds l).
Proof.
  intros H N. destruct (Lx_inv _ _ _ H N) as (g & r & -> & G & Hr). destruct G as [t l r E|ss v sk r S|t name hp r Kt T HP NB|t g' asp r Kt Kg NI].
  - cbn [app peek_kind]. destruct (tk_kind t); try discriminate E; injection E as <-; now left.
  - destruct S as [t K|t a v K _ _|t n v K _|s e K _|s b e ind d v K _ _ _ _ _ _ _]; cbn [app peek_kind]; rewrite K; now left.
  - cbn. rewrite Kt. now left.
  - cbn. rewrite Kt. now left.
Qed.
Lemma stop_end cl ts r : stopping cl r -> Lx ts r -> nonblank ts -> at_entry_end cl ts = true.
Proof.
  intros S H N. destruct r as [|l r]; [destruct (Lx_end _ H N) as (e & -> & K); unfold at_entry_end; cbn; now rewrite K|].
  apply first_kind in H; [|exact N]. unfold at_entry_end. destruct l; try contradiction S; cbn in H; (destruct H as [<-|[]]); try reflexivity. cbn in S. now rewrite S.
Qed.
Definition start_kind (k : tkind) : Prop := In k [BareScalar; QuotedScalar; RawScalar; HeredocStart; Tag; At; LBrace; LParen].
Lemma start_first ts l : starts l -> Lx ts l -> nonblank ts -> start_kind (peek_kind ts).
Proof.
  intros S H N. destruct l as [|l r]; [contradiction|]. apply first_kind in H; [|exact N]. destruct l; try contradiction S; cbn in H; try (destruct k); cbn in H; (destruct H as [<-|[]]); unfold start_kind; cbn; tauto.
Qed.
Lemma start_more cl ts : okc cl -> start_kind (peek_kind ts) -> at_entry_end cl ts = false.
Proof. intros Hc S. unfold at_entry_end. destruct (peek_kind ts) eqn:K; cbn in S; repeat (destruct S as [S|S]; [discriminate S|]); try contradiction S; destruct Hc as [-> | ->]; reflexivity. Qed.
Lemma attr_not ts l : starts l -> ~ attr_head l -> Lx ts l -> nonblank ts -> at_attribute ts = false.
Proof.
  intros S A H N. destruct l as [|l r]; [contradiction|]. destruct ts as [|t ts]; [reflexivity|]. unfold at_attribute. assert (F := first_kind _ _ _ H N). cbn [peek_kind] in F.
  destruct l; try contradiction S; try (now destruct A); try (destruct k); cbn in F; (destruct F as [F|[]]); rewrite <- F; try reflexivity.
  destruct (Lx_scalar _ _ _ _ _ H N) as (ss & q & E & Ss & Hq & _). inversion Ss; subst. cbn in E. injection E as -> ->. rewrite (Lx_no_gt _ _ Hq). reflexivity.
Qed.
Lemma runs_ext p q c te : (forall f, p f = q f) -> runs p c te -> runs q c te.
Proof. intros E [f0 H]. exists f0. intros f Hf. rewrite <- E. auto. Qed.

(** ** Attributes *)
Definition attr_tail (cl : option tkind) (ts : list token) (f : nat) : res parsed :=
  let (cw, ts2) := skip is_blank_kind ts in
  if at_entry_end cl ts2 then Ok (cw, [], ts2)
  else do (c2, e2, ts3) <- parse_attributes f cl ts2; Ok (cw ++ c2, e2, ts3).
Lemma attributes_step cl t g r0 c ts1 cs te : tk_kind t = BareScalar -> tk_kind g = Gt -> tk_text g = [cGT] -> ~ In (peek_kind r0) [Newline; Eof; Whitespace] ->
  runs (fun f => parse_atom f r0) [c] ts1 -> runs (attr_tail cl ts1) cs te ->
  runs (fun f => parse_attributes f cl (t :: g :: r0)) (Node ATTRIBUTE [tok BareScalar (tk_text t); tok Gt [cGT]; c] :: cs) te.
Proof.
  intros Kt Kg Tg NI [f1 H1] [f2 H2]. exists (2 + f1 + f2). intros f Hf. destruct f as [|[|f]]; try lia. remember (S f) as f'. cbn [parse_attributes]. unfold at_attribute. rewrite Kt. cbn [map concat]. rewrite Tg. cbn [app gt_ahead is_blank tkind_eqb andb].
  replace (is_blank cGT) with false by reflexivity. replace (cGT =? cGT)%N with true by reflexivity. subst f'. cbn [parse_attribute bump peek_kind]. rewrite Kg. cbn [tkind_eqb].
  assert (match peek_kind r0 with Whitespace | Newline => true | _ => false end = false) as -> by (destruct (peek_kind r0); try reflexivity; destruct NI; cbn; tauto).
  rewrite H1 by lia. cbn [bind app]. specialize (H2 (S f) ltac:(lia)). unfold attr_tail in H2. destruct (skip is_blank_kind ts1) as [cw ts2]. unfold leaf. rewrite Kt, Kg, Tg. destruct (at_entry_end cl ts2).
  - injection H2 as -> <-. reflexivity.
  - destruct (parse_attributes (S f) cl ts2) as [[[c2 e2] ts3]| |]; try discriminate H2. cbn [bind] in *. injection H2 as <- -> <-. reflexivity.
Qed.

(** ** Entries *)
Lemma blank_fwd cl ws ts c te : blanks ws -> runs (entries cl ts) c te -> runs (entries cl (ws ++ ts)) (map leaf ws ++ c) te.
Proof. intros Hw H. induction Hw as [|t ws K _ IH]; [exact H|]. cbn [app map]. apply trivia_fwd; [now rewrite K|exact IH]. Qed.
Lemma blanks_triv ws : blanks ws -> Forall is_triv (map leaf ws).
Proof. induction 1 as [|t ws K _ IH]; cbn; constructor; auto. apply triv_leaf. now rewrite K. Qed.
Definition goes (cl : option tkind) (root : bool) (ts : list token) (Q : list token -> Prop) (docs : list str) (G : list (dval * dval) -> Prop) (es : list dentry) : Prop :=
  exists kvs c te, G kvs /\ runs (entries cl ts) c te /\ Q te /\ shows_entries root docs c kvs es.
Lemma goes_blanks cl root ws ts Q docs G es : blanks ws -> goes cl root ts Q docs G es -> goes cl root (ws ++ ts) Q docs G es.
Proof. intros Hw (kvs & c & te & g & R & q & S). exists kvs, (map leaf ws ++ c), te. split; [exact g|]. split; [now apply blank_fwd|]. split; [exact q|]. apply triv_app; auto. now apply blanks_triv. Qed.

Lemma entry_runs cl ts c0 te0 b rest c te : okc cl -> start_kind (peek_kind ts) -> runs (fun f => parse_entry f cl ts) [c0] te0 -> nonblank te0 ->
  (match peek_kind te0 with Comma | Newline => bump te0 | _ => ([], te0) end) = (b, rest) -> runs (entries cl rest) c te -> runs (entries cl ts) (c0 :: b ++ c) te.
Proof.
  intros Hc S [f1 H1] N B [f2 H2]. exists (1 + f1 + f2). intros f Hf. destruct f as [|f]; try lia. unfold entries in *. cbn [parse_entries].
  assert (skip is_trivia_kind ts = ([], ts)) as ->.
  { destruct ts as [|t ts]; [reflexivity|]. cbn [skip]. cbn [peek_kind] in S. destruct (is_trivia_kind (tk_kind t)) eqn:K; [|reflexivity]. exfalso. destruct (tk_kind t); try discriminate K; cbn in S; repeat (destruct S as [S|S]; [discriminate S|]); exact S. }
  assert (skip_docs ts = ([], ts)) as ->.
  { unfold skip_docs. destruct (tkind_eqb (peek_kind ts) DocComment) eqn:K; [|reflexivity]. exfalso. apply tkind_eqb_eq in K. rewrite K in S. cbn in S; repeat (destruct S as [S|S]; [discriminate S|]); exact S. }
  assert (tkind_eqb (peek_kind ts) Eof || closes cl ts = false) as ->.
  { apply orb_false_iff. split; [|apply closes_not; [exact Hc|]]; destruct (peek_kind ts); try reflexivity; try discriminate; cbn in S; repeat (destruct S as [S|S]; [discriminate S|]); exfalso; exact S. }
  rewrite H1 by lia. cbn [bind]. rewrite <- (app_nil_l te0), skip_blanks by (auto; constructor). cbn [map app]. rewrite B. rewrite H2 by lia. reflexivity.
Qed.

Lemma entry_case cl root seqs p r0 tr0 r ts c0 te0 Q G es : okc cl -> start_kind (peek_kind ts) -> gstop r0 tr0 r -> calm seqs (Some p) r0 -> mid p -> stopping cl r0 ->
  runs (fun f => parse_entry f cl ts) [c0] te0 -> Lx te0 r0 -> nonblank te0 ->
  (forall prev' ts', calm seqs prev' r -> Lx ts' r -> goes cl root ts' Q [] G es) ->
  docs_in tr0 = [] /\ exists kvs c te, G kvs /\ runs (entries cl ts) (c0 :: c) te /\ Q te /\ shows_entries root [] c kvs es.
Proof.
  intros Hc S Gs C M St R HL N IH. destruct Gs as [|sp r|sp r|sp r|sp r|sp t r|sp t u r D]; (split; [try reflexivity|]).
  - destruct (Lx_end _ HL N) as (e & -> & K). destruct (IH None [e] I HL) as (kvs & c & te & g & R2 & q & Sh). exists kvs, c, te. splits; auto.
    apply (entry_runs _ _ _ _ [] [e] c te Hc S R N); [cbn; now rewrite K|exact R2].
  - destruct (Lx_sym _ _ _ _ HL N eq_refl) as (t & te1 & -> & K & _ & H1 & _). destruct (IH _ _ C HL) as (kvs & c & te & g & R2 & q & Sh).
    apply trivia_bwd in R2 as (c' & -> & R2); [|now rewrite K]. exists kvs, (leaf t :: c'), te. splits; auto.
    apply (entry_runs _ _ _ _ [leaf t] te1 c' te Hc S R N); [cbn; now rewrite K|exact R2].
  - destruct (Lx_sym _ _ _ _ HL N eq_refl) as (t & te1 & -> & K & _ & H1 & _). destruct (IH _ _ C HL) as (kvs & c & te & g & R2 & q & Sh).
    apply comma_bwd in R2 as (c' & -> & R2); [|exact Hc|exact K]. exists kvs, (leaf t :: c'), te. splits; auto; [|now apply empty_inv in Sh].
    apply (entry_runs _ _ _ _ [leaf t] te1 c' te Hc S R N); [cbn; now rewrite K|exact R2].
  - assert (F := first_kind _ _ _ HL N). destruct F as [F|[]]. destruct (IH _ _ C HL) as (kvs & c & te & g & R2 & q & Sh). exists kvs, c, te. splits; auto.
    apply (entry_runs _ _ _ _ [] te0 c te Hc S R N); [now rewrite <- F|exact R2].
  - contradiction St.
  - destruct (Lx_sym _ _ _ _ HL N eq_refl) as (t' & te1 & -> & K & _ & H1 & _). destruct C as [_ C]. destruct (IH _ _ C H1) as (kvs & c & te & g & R2 & q & Sh).
    exists kvs, (leaf t' :: c), te. splits; auto; [|apply se_skip; [left; apply triv_leaf; now rewrite K|exact Sh]].
    apply (entry_runs _ _ _ _ [] (t' :: te1) (leaf t' :: c) te Hc S R N); [cbn; now rewrite K|]. apply trivia_fwd; [now rewrite K|exact R2].
  - destruct C as [[_ C] _]. now destruct M.
  - destruct C as [[_ C] _]. now destruct M.
Qed.

(** ** Tags and what follows them *)
Lemma lexed_start ts ls : lexed ts ls -> forall p e l r, tiles p ts e -> ls = l :: r -> (forall a b c, l <> LxAttrKey a b c) -> p <= sp_start (lx_span l) /\ (nonblank ts -> sp_start (lx_span l) = p).
Proof.
  induction 1 as [e He|t ts ls K H IH|g l0 ts ls G H IH]; intros p e0 l r T E NA; [discriminate E| |].
  - destruct T as (S0 & S1 & T). destruct (IH _ _ _ _ T E NA) as [L _]. split; [lia|]. intros N. now destruct N.
  - injection E as -> ->. assert (sp_start (lx_span l) = p) as ->; [|auto]. destruct G as [t l ts' E|ss v sk ts' S|t name hp ts' Kt Tx HP NB|t g' asp ts' Kt Kg NI].
    + cbn [app] in T. destruct T as (S0 & _). destruct (tk_kind t); try discriminate E; injection E as <-; exact S0.
    + destruct S; destruct T as (S0 & _); exact S0.
    + destruct T as (S0 & _). exact S0.
    + exfalso. eapply NA. reflexivity.
Qed.
Lemma lexed_ne ls : ~ lexed [] ls.
Proof. intros H. remember [] as ts eqn:E. destruct H as [e He|t ts ls K H|g l ts ls G H]; try discriminate E. destruct (group_head _ _ _ G) as (? & ? & -> & _). discriminate E. Qed.
Lemma Lx_tiles t ts l ls : Lx (t :: ts) (l :: ls) -> exists e, tiles (sp_end (tk_span t)) ts e.
Proof. intros (_ & _ & p & e & T). destruct T as (_ & _ & T). eauto. Qed.
Lemma payload_not_attr l r : payload_start (l :: r) -> forall a b c, l <> LxAttrKey a b c.
Proof. intros H a b c ->. exact H. Qed.
(** The parser of trees and the grammar see the same payloads. *)
Lemma payload_seen t ts name hp ns r seqs : tag_chain name ns -> tk_kind t = Tag -> Lx ts r -> (exists e, tiles (sp_end (tk_span t)) ts e) ->
  hp = contains_sub [cSLASH; cAT] name || ((sp_start (tk_span (AgreeLex.head ts)) =? sp_end (tk_span t)) && valid_payload (tk_kind (AgreeLex.head ts))) ->
  ~ (sp_start (tk_span (AgreeLex.head ts)) = sp_end (tk_span t) /\ tk_kind (AgreeLex.head ts) = BareScalar) ->
  calm seqs (Some (LxTag (tk_span t) name hp)) r ->
  (has_payload (tk_span t) ns hp r -> payload_follows (sp_end (tk_span t)) ts = true /\ nonblank ts /\ ~ attr_head r) /\
  (~ has_payload (tk_span t) ns hp r -> payload_follows (sp_end (tk_span t)) ts = false).
Proof.
  intros (Nns & Hns & Ename) Kt HL [e T] Hhp NB C.
  assert (HP : payload_follows (sp_end (tk_span t)) ts = (sp_start (tk_span (AgreeLex.head ts)) =? sp_end (tk_span t)) && match tk_kind (AgreeLex.head ts) with LBrace | LParen | QuotedScalar | RawScalar | HeredocStart | At | Tag => true | _ => false end).
  { destruct ts; [cbn; now rewrite andb_false_r|reflexivity]. }
  assert (PK : payload_follows (sp_end (tk_span t)) ts = true -> nonblank ts /\ payload_start r /\ next_at (sp_end (tk_span t)) r /\ (exists sp v r', tk_kind (AgreeLex.head ts) = HeredocStart -> r = LxScalar sp v Heredoc :: r')).
  { rewrite HP. intros H. apply andb_prop in H as [H1 H2]. apply Nat.eqb_eq in H1. assert (nonblank ts) as N by (unfold nonblank; rewrite peek_head; intros Q; rewrite Q in H2; discriminate).
    destruct r as [|l r]; [destruct (Lx_end _ HL N) as (z & -> & K); cbn in H2; rewrite K in H2; discriminate|]. assert (F := first_kind _ _ _ HL N). rewrite peek_head in F.
    assert (PS : payload_start (l :: r)) by (destruct l; try (destruct k); cbn in F; (destruct F as [F|[]] || contradiction F); rewrite <- F in H2; try discriminate H2; exact I).
    split; [exact N|]. split; [exact PS|]. split; [exists l, r; split; [reflexivity|]; destruct HL as (HL & _); now apply (lexed_start _ _ HL _ _ _ _ T eq_refl (payload_not_attr _ _ PS))|].
    destruct l; try contradiction PS; try (exists (tk_span t), [], []; intros Q; rewrite Q in F; cbn in F; destruct F as [F|[]]; discriminate F).
    match goal with |- context [LxScalar ?a ?b _ :: r] => exists a, b, r end. intros Q. rewrite Q in F. destruct k; cbn in F; destruct F as [F|[]]; try discriminate F; reflexivity. }
  split.
  - intros P. assert (payload_follows (sp_end (tk_span t)) ts = true) as PF.
    { rewrite HP. destruct ns as [|n [|m ns]]; [now destruct Nns| |].
      - cbn in P, Ename. subst name. assert (contains_sub [cSLASH; cAT] n = false) as NC by (apply name_no_chain; now inversion Hns). rewrite NC, P in Hhp. cbn [orb] in Hhp. symmetry in Hhp. apply andb_prop in Hhp as [-> Hv].
        destruct (tk_kind (AgreeLex.head ts)); try discriminate Hv; reflexivity.
      - cbn [has_payload] in P. destruct P as [(l & r' & -> & Q) PS]. destruct HL as (HL & Hs & HT).
        assert (N : nonblank ts).
        { unfold nonblank. destruct ts as [|u ts]; [discriminate|]. cbn. intros K. inversion HL as [|? ? ? K' HL'|g ? ? ? G ? EQ]; subst.
          - destruct T as (S0 & S1 & T). destruct (lexed_start _ _ HL' _ _ _ _ T eq_refl (payload_not_attr _ _ PS)) as [L _]. inversion_clear Hs as [|? ? Sh _]. rewrite K in Sh. destruct Sh as [Ne _].
            destruct (tk_text u) as [|c w]; [now destruct Ne|]. change (c :: w) with ([c] ++ w) in S1. rewrite blen_app in S1. cbn in S1. pose proof (clen_pos c). lia.
          - destruct (group_head _ _ _ G) as (u' & g' & -> & NI). cbn in EQ. injection EQ as -> _. apply NI. rewrite K. now left. }
        assert (FK := first_kind _ _ _ (conj HL (conj Hs HT)) N). rewrite peek_head in FK.
        destruct (lexed_start _ _ HL _ _ _ _ T eq_refl (payload_not_attr _ _ PS)) as [_ L]. specialize (L N).
        assert (SH : sp_start (tk_span (AgreeLex.head ts)) = sp_end (tk_span t)) by (destruct ts as [|u ts]; [now apply lexed_ne in HL|]; destruct T as (S0 & _); exact S0).
        rewrite SH, Nat.eqb_refl. cbn [andb]. destruct l; try contradiction PS; try (destruct k); cbn in FK; (destruct FK as [FK|[]]); rewrite <- FK; try reflexivity. exfalso. apply NB. now split. }
    split; [exact PF|]. destruct (PK PF) as (N & PS & _). split; [exact N|]. intros A. destruct r as [|[] r]; try contradiction A. exact PS.
  - intros P. apply not_true_iff_false. intros PF. destruct (PK PF) as (N & PS & NA & sp & v & r' & HD). apply P. destruct ns as [|n [|m ns]]; [now destruct Nns| |split; assumption].
    cbn. rewrite HP in PF. apply andb_prop in PF as [PF1 PF2]. rewrite Hhp. apply orb_true_iff. right. rewrite PF1. cbn [andb]. destruct (tk_kind (AgreeLex.head ts)) eqn:K; try discriminate PF2; try reflexivity.
    exfalso. specialize (HD eq_refl). subst r. destruct C as [C _]. cbn in C. destruct NA as (l & r & E & Q). injection E as <- <-. cbn in Q. symmetry in Q. revert Q. eapply C. f_equal. f_equal.
    rewrite Hhp. cbn in Ename. subst name. rewrite name_no_chain by now inversion Hns. now rewrite andb_false_r.
Qed.

(** ** The simulation *)
Definition Pval (l : list lexeme) (d : dval) (tr : list event) (r : list lexeme) : Prop :=
  forall seqs prev ts, calm seqs prev l -> Lx ts l -> nonblank ts ->
  starts l /\ docs_in tr = [] /\ (exists p, calm seqs (Some p) r /\ mid p) /\
  (~ attr_head l -> exists c te, runs (fun f => parse_atom f ts) [c] te /\ Lx te r /\ shows c d) /\
  (attr_head l -> forall cl, okc cl -> stopping cl r ->
     exists cs te, runs (fun f => parse_attributes f cl ts) cs te /\ Lx te r /\ nonblank te /\ shows_value (Node ATTRIBUTES cs) d).
Definition closed (k : tkind) (x : str) (p : lexeme) (seqs : list bool) (r : list lexeme) (te : list token) : Prop :=
  calm seqs (Some p) r /\ exists t te', te = t :: te' /\ tk_kind t = k /\ tk_text t = x /\ Lx te' r.
Definition Pitems (l : list lexeme) (ds : list dval) (tr : list event) (e : span) (r : list lexeme) : Prop :=
  forall seqs prev ts, calm (true :: seqs) prev l -> Lx ts l ->
  docs_in tr = [] /\ exists cs te, runs (fun f => parse_elements f ts) cs te /\ closed RParen [cRP] (LxSeqEnd e) seqs r te /\ shows_items cs ds.
Definition Pents (docs : list (span * str)) (l : list lexeme) (ks : list keyval) (es : list dentry) (tr : list event) (e : span) (r : list lexeme) : Prop :=
  forall seqs prev ts, calm (false :: seqs) prev l -> Lx ts l ->
  docs_in tr = [] /\ goes (Some RBrace) false ts (closed RBrace [cRB] (LxObjEnd e) seqs r) (map snd docs) (fun kvs => map (fun kv => key_id (fst kv)) kvs = ks) es.
Definition Pline (l : list lexeme) (k v : dval) (tr : list event) (r : list lexeme) : Prop :=
  forall seqs prev ts, calm seqs prev l -> Lx ts l -> nonblank ts -> ~ attr_head l ->
  starts l /\ exists r0 tr0 tr1 p, tr = tr1 ++ tr0 /\ docs_in tr1 = [] /\ gstop r0 tr0 r /\ calm seqs (Some p) r0 /\ mid p /\
  forall cl, okc cl -> stopping cl r0 -> exists c te, runs (fun f => parse_entry f cl ts) [c] te /\ Lx te r0 /\ nonblank te /\ shows_line c k v.
Definition Pattrs (r1 : list lexeme) (attrs : list (str * span * dval)) (tr : list event) (r : list lexeme) : Prop :=
  forall seqs p ts, calm seqs (Some p) r1 -> mid p -> Lx ts r1 ->
  docs_in tr = [] /\ (exists p', calm seqs (Some p') r /\ mid p') /\
  forall cl, okc cl -> stopping cl r -> exists cs te, runs (attr_tail cl ts) cs te /\ Lx te r /\ nonblank te /\ shows_attrs cs (map attr_entry attrs).

Lemma docs_in_app a b : docs_in (a ++ b) = docs_in a ++ docs_in b.
Proof. apply flat_map_app. Qed.
Lemma gents_head docs l ks es tr e r : gents docs l ks es tr e r -> match l with [] | LxSeqEnd _ :: _ => False | _ => True end.
Proof.
  intros H. inversion H; subst; auto; match goal with
  | X : is_sep _ \/ is_remark _ |- _ => destruct l0; try exact I; cbn in X; tauto
  | X : gline _ _ _ _ _ |- _ => inversion X; subst; match goal with Y : gval l _ _ _ |- _ => inversion Y; exact I end
  end.
Qed.
Lemma gval_starts l d tr r : gval l d tr r -> starts l.
Proof. intros H. inversion H; exact I. Qed.
Lemma gline_not_attr l k v tr r tag pl kd : gline l k v tr r -> key_is k tag pl kd -> ~ attr_head l.
Proof. intros H K A. inversion H; subst; match goal with Y : gval l _ _ _ |- _ => inversion Y; subst; try contradiction A; inversion K end. Qed.
Lemma doc_block_are docs : docs_are false (map snd docs) (doc_block docs).
Proof. destruct docs as [|[s u] docs]; reflexivity. Qed.
Lemma shows_scalar_tokens ss v k r : scalar_tokens ss v k -> exists c, runs (fun f => parse_atom f (ss ++ r)) [c] r /\ shows_scalar c v k.
Proof.
  intros [t K|t a v' K T D|t n v' K Hn T|s e Ks Ke|s b e ind d v' Ks Kb Ke T Hi Hd Hc Hv].
  - exists (Node SCALAR [leaf t]). split; [exists 1; intros [|f] Hf; [lia|]; cbn; now rewrite K|]. unfold leaf. rewrite K. apply ss_bare.
  - exists (Node SCALAR [leaf t]). split; [exists 1; intros [|f] Hf; [lia|]; cbn; now rewrite K|]. unfold leaf. rewrite K, T. now apply ss_quoted.
  - exists (Node SCALAR [leaf t]). split; [exists 1; intros [|f] Hf; [lia|]; cbn; now rewrite K|]. unfold leaf. rewrite K, T. now apply ss_raw.
  - exists (Node HEREDOC [leaf s; leaf e]). split; [exists 1; intros [|f] Hf; [lia|]; cbn; rewrite Ks; unfold parse_heredoc; cbn; rewrite Ke; cbn; now rewrite Ke|]. unfold leaf. rewrite Ks, Ke. apply ss_empty.
  - exists (Node HEREDOC [leaf s; leaf b; leaf e]). split; [exists 1; intros [|f] Hf; [lia|]; cbn; rewrite Ks; unfold parse_heredoc; cbn; rewrite Kb; cbn; now rewrite Ke|]. unfold leaf. rewrite Ks, Kb, Ke, T. now apply (ss_heredoc _ _ ind d).
Qed.
Lemma value_at_end cl ts n : at_entry_end cl ts = true -> runs (fun f => parse_values f cl n ts) [] ts.
Proof. intros H. exists 1. intros [|f] Hf; [lia|]. cbn. now rewrite H. Qed.

Lemma sim_gval_scalar sp t k r : Pval (LxScalar sp t k :: r) (DScalar sp t k) [] r.
Proof.
  intros seqs prev ts [_ C] HL N. split; [exact I|]. split; [reflexivity|]. split; [eexists; split; [exact C|intros []]|]. split; [|intros []].
  intros _. destruct (Lx_scalar _ _ _ _ _ HL N) as (ss & q & -> & S & Hq & ->). destruct (shows_scalar_tokens _ _ _ q S) as (c & R & Sh). exists c, q. splits; auto. now apply sh_scalar.
Qed.
Lemma sim_unit sp r : Pval (LxUnit sp :: r) (DUnit sp) [] r.
Proof.
  intros seqs prev ts [_ C] HL N. split; [exact I|]. split; [reflexivity|]. split; [eexists; split; [exact C|intros []]|]. split; [|intros []].
  intros _. destruct (Lx_sym _ _ _ _ HL N eq_refl) as (t & q & -> & K & S & Hq & _). cbn in S. exists (Node UNIT [leaf t]), q. splits; auto; [exists 1; intros [|f] Hf; [lia|]; cbn; now rewrite K|]. unfold leaf. rewrite K, S. apply sh_unit.
Qed.
Lemma sim_tag sp text hp ns d r : tag_chain text ns -> ~ has_payload sp ns hp r -> stacked (sp_start sp) ns None = Some d -> Pval (LxTag sp text hp :: r) d [] r.
Proof.
  intros TC NP St seqs prev ts [_ C] HL N. split; [exact I|]. split; [reflexivity|]. split; [eexists; split; [exact C|intros []]|]. split; [|intros []].
  intros _. destruct (Lx_tag _ _ _ _ _ HL N) as (t & q & -> & K & T & <- & Hq & Hhp & NB). destruct (payload_seen _ _ _ _ _ _ _ TC K Hq (Lx_tiles _ _ _ _ HL) Hhp NB C) as [_ PF]. specialize (PF NP).
  destruct TC as (Nn & Hns & ->). destruct ns as [|n ns]; [now destruct Nn|]. exists (tag_node (cAT :: n) ns []), q. splits; auto.
  - exists 1. intros [|f] Hf; [lia|]. cbn [parse_atom peek_kind]. rewrite K, T, split_tag_join by exact Hns. rewrite PF. reflexivity.
  - inversion_clear Hns as [|? ? Hn Hs]. apply (shows_stacked ns Hs (cAT :: n) n _ None _ [] Hn eq_refl St). now left.
Qed.
Lemma sim_tag_payload sp text hp ns p d r tr r' : tag_chain text ns -> has_payload sp ns hp r -> Pval r p tr r' -> stacked (sp_start sp) ns (Some p) = Some d -> Pval (LxTag sp text hp :: r) d tr r'.
Proof.
  intros TC NP IH St seqs prev ts [_ C] HL N. cbn [nesting] in C. destruct (Lx_tag _ _ _ _ _ HL N) as (t & q & -> & K & T & <- & Hq & Hhp & NB). destruct (payload_seen _ _ _ _ _ _ _ TC K Hq (Lx_tiles _ _ _ _ HL) Hhp NB C) as [PF _].
  destruct (PF NP) as (PF' & N' & NA). destruct (IH _ _ _ C Hq N') as (_ & Dt & Cp & R & _). split; [exact I|]. split; [exact Dt|]. split; [exact Cp|]. split; [|intros []]. intros _.
  destruct (R NA) as (c & te & [f0 R'] & Ht & Sh). destruct TC as (Nn & Hns & ->). destruct ns as [|n ns]; [now destruct Nn|]. exists (tag_node (cAT :: n) ns [Node TAG_PAYLOAD [c]]), te. splits; auto.
  - exists (S f0). intros [|f] Hf; [lia|]. cbn [parse_atom peek_kind]. rewrite K, T, split_tag_join by exact Hns. rewrite PF', R' by lia. reflexivity.
  - inversion_clear Hns as [|? ? Hn Hs]. apply (shows_stacked ns Hs (cAT :: n) n _ (Some p) _ _ Hn eq_refl St). right. eauto.
Qed.
Lemma sim_seq sp r items tr e r' : Pitems r items tr e r' -> Pval (LxSeqStart sp :: r) (DSeq (cover sp e) items (cover sp e)) tr r'.
Proof.
  intros IH seqs prev ts [_ C] HL N. cbn [nesting] in C. destruct (Lx_sym _ _ _ _ HL N eq_refl) as (t & q & -> & K & S & Hq & _). cbn in S. destruct (IH _ _ _ C Hq) as (Dt & cs & te & [f0 R] & (C' & t' & te' & -> & K' & S' & H') & Sh).
  split; [exact I|]. split; [exact Dt|]. split; [eexists; split; [exact C'|intros []]|]. split; [|intros []]. intros _. exists (Node SEQUENCE (leaf t :: cs ++ [leaf t'])), te'. splits; auto.
  - exists (Datatypes.S f0). intros [|f] Hf; [lia|]. cbn [parse_atom peek_kind]. rewrite K. cbn [bump]. rewrite R by lia. cbn [bind peek_kind]. rewrite K'. reflexivity.
  - unfold leaf. rewrite K, S, K', S'. now apply sh_seq.
Qed.
Lemma sim_obj sp r ks es tr e r' : Pents [] r ks es tr e r' -> NoDup ks -> Pval (LxObjStart sp :: r) (DObj (cover sp e) es (cover sp e)) tr r'.
Proof.
  intros IH ND seqs prev ts [_ C] HL N. cbn [nesting] in C. destruct (Lx_sym _ _ _ _ HL N eq_refl) as (t & q & -> & K & S & Hq & _). cbn in S. destruct (IH _ _ _ C Hq) as (Dt & kvs & cs & te & Hk & [f0 R] & (C' & t' & te' & -> & K' & S' & H') & Sh).
  split; [exact I|]. split; [exact Dt|]. split; [eexists; split; [exact C'|intros []]|]. split; [|intros []]. intros _. exists (Node OBJECT (leaf t :: cs ++ [leaf t'])), te'. splits; auto.
  - exists (Datatypes.S f0). intros [|f] Hf; [lia|]. cbn [parse_atom peek_kind]. rewrite K. cbn [bump]. unfold entries in R. rewrite R by lia. cbn [bind skip]. rewrite K'. cbn [is_trivia_kind peek_kind]. rewrite K'. reflexivity.
  - unfold leaf. rewrite K, S, K', S'. apply (sh_obj _ kvs); [exact Sh|]. now rewrite Hk.
Qed.
Lemma attr_value_calm seqs asp ksp key r : calm seqs (Some (LxAttrKey asp ksp key)) r -> ~ attr_head r.
Proof. intros C A. destruct r as [|[] r]; try contradiction A. destruct C as [[_ C] _]. eapply C. reflexivity. Qed.
Lemma sim_attr_core asp ksp key r v tr r1 attrs tr' r' : Pval r v tr r1 -> Pattrs r1 attrs tr' r' ->
  forall seqs prev ts, calm seqs prev (LxAttrKey asp ksp key :: r) -> Lx ts (LxAttrKey asp ksp key :: r) -> nonblank ts ->
  docs_in (tr ++ tr') = [] /\ (exists p', calm seqs (Some p') r' /\ mid p') /\ forall cl, okc cl -> stopping cl r' ->
  exists cs te, runs (fun f => parse_attributes f cl ts) cs te /\ Lx te r' /\ nonblank te /\ shows_attrs cs (map attr_entry ((key, ksp, v) :: attrs)).
Proof.
  intros IHv IHa seqs prev ts [_ C] HL N. cbn [nesting] in C. destruct (Lx_attr _ _ _ _ _ HL N) as (t & g & q & -> & Kt & Tt & Kg & Tg & Hq & NI).
  assert (N' : nonblank q) by (intros Q; apply NI; rewrite Q; cbn; tauto). destruct (IHv _ _ _ C Hq N') as (_ & Dt & (p & C' & M) & R & _). destruct (R (attr_value_calm _ _ _ _ _ C)) as (c & te & R' & Ht & Sh).
  destruct (IHa _ _ _ C' M Ht) as (Dt' & Cp & Q). split; [rewrite docs_in_app, Dt, Dt'; reflexivity|]. split; [exact Cp|]. intros cl Hc Hst. destruct (Q cl Hc Hst) as (cs & te' & R2 & H2 & N2 & Sh2).
  eexists; exists te'. split; [apply (attributes_step cl t g q c te cs te'); assumption|]. splits; auto. cbn [map attr_entry]. rewrite Tt. now apply sa_more.
Qed.
Lemma sim_attrs asp ksp key r v tr r1 attrs tr' r' : Pval r v tr r1 -> Pattrs r1 attrs tr' r' ->
  Pval (LxAttrKey asp ksp key :: r) (DObj (attr_end ksp ((key, ksp, v) :: attrs)) (map attr_entry ((key, ksp, v) :: attrs)) (attr_end ksp ((key, ksp, v) :: attrs))) (tr ++ tr') r'.
Proof.
  intros IHv IHa seqs prev ts C HL N. destruct (sim_attr_core _ _ _ _ _ _ _ _ _ _ IHv IHa _ _ _ C HL N) as (Dt & Cp & R). split; [exact I|]. split; [exact Dt|]. split; [exact Cp|]. split; [intros A; now destruct A|].
  intros _ cl Hc Hst. destruct (R cl Hc Hst) as (cs & te & R' & H' & N' & Sh). exists cs, te. splits; auto. apply sv_attrs; [exact Sh|discriminate].
Qed.
Lemma sim_ga_end r : (forall asp ksp key r', r <> LxAttrKey asp ksp key :: r') -> Pattrs r [] [] r.
Proof.
  intros NA seqs p ts C M HL. split; [reflexivity|]. split; [eauto|]. intros cl Hc Hst. destruct (Lx_split _ _ HL) as (ws & ts' & -> & Hw & N & H'). exists (map leaf ws), ts'. splits; auto.
  - exists 0. intros f _. unfold attr_tail. rewrite skip_blanks by assumption. rewrite (stop_end _ _ _ Hst H' N). reflexivity.
  - cbn [map]. apply blanks_gap in Hw. induction Hw; constructor; auto.
Qed.
Lemma sim_ga_more asp ksp key r v tr r1 attrs tr' r' : Pval r v tr r1 -> Pattrs r1 attrs tr' r' -> Pattrs (LxAttrKey asp ksp key :: r) ((key, ksp, v) :: attrs) (tr ++ tr') r'.
Proof.
  intros IHv IHa seqs p ts C M HL. destruct (Lx_split _ _ HL) as (ws & ts' & -> & Hw & N & H'). destruct (sim_attr_core _ _ _ _ _ _ _ _ _ _ IHv IHa _ _ _ C H' N) as (Dt & Cp & R). split; [exact Dt|]. split; [exact Cp|]. intros cl Hc Hst.
  destruct (R cl Hc Hst) as (cs & te & [f0 R'] & H2 & N2 & Sh). exists (map leaf ws ++ cs), te. splits; auto.
  - exists f0. intros f Hf. unfold attr_tail. rewrite skip_blanks by assumption. rewrite start_more; [|exact Hc|eapply start_first; [|exact H'|exact N]; exact I]. rewrite R' by lia. reflexivity.
  - apply blanks_gap in Hw. induction Hw; cbn [app]; [exact Sh|]. apply sa_gap; auto.
Qed.

Lemma elements_trivia f t ts : is_trivia_kind (tk_kind t) = true ->
  parse_elements f (t :: ts) = match parse_elements f ts with Ok (c, e, te) => Ok (leaf t :: c, e, te) | Panic => Panic | OutOfFuel => OutOfFuel end.
Proof.
  intros K. destruct f as [|f]; [reflexivity|]. cbn [parse_elements]. cbn [skip]. rewrite K. destruct (skip is_trivia_kind ts) as [c1 ts1].
  destruct (peek_kind ts1); try reflexivity; (destruct (parse_atom f ts1) as [[[c2 e2] ts2]| |]; try reflexivity; cbn [bind]; destruct (skip is_blank_kind ts2) as [c3 ts3]; destruct (parse_elements f ts3) as [[[c4 e4] ts4]| |]; reflexivity).
Qed.
Lemma elements_fwd t ts c te : is_trivia_kind (tk_kind t) = true -> runs (fun f => parse_elements f ts) c te -> runs (fun f => parse_elements f (t :: ts)) (leaf t :: c) te.
Proof. intros K [f0 H]. exists f0. intros f Hf. rewrite elements_trivia, (H f Hf) by exact K. reflexivity. Qed.
Lemma elements_blanks ws ts c te : blanks ws -> runs (fun f => parse_elements f ts) c te -> runs (fun f => parse_elements f (ws ++ ts)) (map leaf ws ++ c) te.
Proof. intros Hw H. induction Hw as [|t ws K _ IH]; [exact H|]. cbn [app map]. apply elements_fwd; [now rewrite K|exact IH]. Qed.
Lemma items_triv w cs ds : Forall is_triv w -> shows_items cs ds -> shows_items (w ++ cs) ds.
Proof. induction 1; intros S; cbn; [exact S|]. apply si_skip; auto. Qed.

Lemma sim_gi_end sp r : Pitems (LxSeqEnd sp :: r) [] [] sp r.
Proof.
  intros seqs prev ts [_ C] HL. cbn [nesting tl] in C. split; [reflexivity|]. destruct (Lx_split _ _ HL) as (ws & ts' & -> & Hw & N & H'). destruct (Lx_sym _ _ _ _ H' N eq_refl) as (t & q & -> & K & S & Hq & _). cbn in S.
  exists (map leaf ws ++ []), (t :: q). split; [apply elements_blanks; [exact Hw|]; exists 1; intros [|f] Hf; [lia|]; cbn [parse_elements skip]; rewrite K; cbn [is_trivia_kind peek_kind]; rewrite K; reflexivity|].
  split; [split; [exact C|]; eauto 6|]. apply items_triv; [now apply blanks_triv|constructor].
Qed.
Lemma sim_gi_remark l r ds tr e r' : is_remark l -> Pitems r ds tr e r' -> Pitems (l :: r) ds tr e r'.
Proof.
  intros Hl IH seqs prev ts [_ C] HL. destruct (Lx_split _ _ HL) as (ws & ts' & -> & Hw & N & H').
  assert (exists k, sym_kind l = Some k /\ is_trivia_kind k = true) as (k & Hk & Tk) by (destruct l; try contradiction Hl; eexists; split; reflexivity).
  assert (nesting (true :: seqs) l = true :: seqs) as Hn by (destruct l; try contradiction Hl; reflexivity). rewrite Hn in C.
  destruct (Lx_sym _ _ _ _ H' N Hk) as (t & q & -> & K & S & Hq & _). destruct (IH _ _ _ C Hq) as (Dt & cs & te & R & Cl & Sh). split; [exact Dt|]. exists (map leaf ws ++ leaf t :: cs), te.
  split; [apply elements_blanks; [exact Hw|]; apply elements_fwd; [now rewrite K|exact R]|]. split; [exact Cl|]. apply items_triv; [now apply blanks_triv|]. apply si_skip; [apply triv_leaf; now rewrite K|exact Sh].
Qed.
Lemma sim_gi_item l d tr r ds tr' e r' : gval l d tr r -> Pval l d tr r -> Pitems r ds tr' e r' -> Pitems l (d :: ds) (tr ++ tr') e r'.
Proof.
  intros G IHv IHi seqs prev ts C HL. destruct (Lx_split _ _ HL) as (ws & ts' & -> & Hw & N & H'). destruct (IHv _ _ _ C H' N) as (St & Dt & (p & C' & M) & R & _).
  assert (NA : ~ attr_head l) by (intros A; destruct l as [|[] l]; try contradiction A; destruct C as [[C _] _]; discriminate C). destruct (R NA) as (c & te & [f1 R1] & H1 & Sh).
  destruct (Lx_split _ _ H1) as (ws2 & te2 & -> & Hw2 & N2 & H2). destruct (IHi _ _ _ C' H2) as (Dt' & cs & te' & [f2 R2] & Cl & Sh2). split; [rewrite docs_in_app, Dt, Dt'; reflexivity|].
  exists (map leaf ws ++ Node ENTRY [Node KEY [c]] :: map leaf ws2 ++ cs), te'. split; [apply elements_blanks; [exact Hw|]|].
  - exists (1 + f1 + f2). intros [|f] Hf; [lia|]. cbn [parse_elements].
    assert (SK := start_first _ _ St H' N). assert (skip is_trivia_kind ts' = ([], ts')) as ->.
    { destruct ts' as [|t ts']; [reflexivity|]. cbn [skip]. cbn [peek_kind] in SK. destruct (is_trivia_kind (tk_kind t)) eqn:K; [|reflexivity]. exfalso. destruct (tk_kind t); try discriminate K; cbn in SK; repeat (destruct SK as [SK|SK]; [discriminate SK|]); exact SK. }
    rewrite R1 by lia. cbn [bind]. rewrite skip_blanks by assumption. rewrite R2 by lia. cbn [bind app].
    destruct (peek_kind ts') eqn:K; try reflexivity; exfalso; cbn in SK; repeat (destruct SK as [SK|SK]; [discriminate SK|]); exact SK.
  - split; [exact Cl|]. apply items_triv; [now apply blanks_triv|]. apply si_item; [exact Sh|]. apply items_triv; [now apply blanks_triv|exact Sh2].
Qed.

Lemma gl_sep_goes cl root l r seqs prev Q docs G es : okc cl -> is_sep l \/ is_remark l -> calm seqs prev (l :: r) -> (forall prev' ts', calm seqs prev' r -> Lx ts' r -> goes cl root ts' Q docs G es) ->
  forall ts, Lx ts (l :: r) -> goes cl root ts Q docs G es.
Proof.
  intros Hc Hl [_ C] IH ts HL. destruct (Lx_split _ _ HL) as (ws & ts' & -> & Hw & N & H'). apply goes_blanks; [exact Hw|].
  assert (nesting seqs l = seqs) as Hn by (destruct l; try reflexivity; cbn in Hl; tauto). rewrite Hn in C.
  assert (exists k, sym_kind l = Some k /\ (is_trivia_kind k = true \/ k = Comma)) as (k & Hk & Tk) by (destruct l; try (cbn in Hl; tauto); eexists; split; try reflexivity; cbn; tauto).
  destruct (Lx_sym _ _ _ _ H' N Hk) as (t & q & -> & K & S & Hq & _). destruct (IH _ _ C Hq) as (kvs & c & te & g & R & q' & Sh). destruct Tk as [Tk|Tk].
  - exists kvs, (leaf t :: c), te. split; [exact g|]. split; [apply trivia_fwd; [now rewrite K|exact R]|]. split; [exact q'|]. apply se_skip; [left; apply triv_leaf; now rewrite K|exact Sh].
  - rewrite Tk in *. cbn in S. exists kvs, (Node ENTRY [] :: leaf t :: c), te. split; [exact g|]. split; [now apply comma_fwd|]. split; [exact q'|]. apply se_skip; [tauto|]. apply se_skip; [right; left; unfold leaf; now rewrite K, S|exact Sh].
Qed.
Lemma doc_goes cl root sp x u r seqs prev Q docs G es : okc cl -> doc_text x u -> calm seqs prev (LxDoc sp x :: r) -> (forall prev' ts', calm seqs prev' r -> Lx ts' r -> goes cl root ts' Q (docs ++ [u]) G es) ->
  forall ts, Lx ts (LxDoc sp x :: r) -> goes cl root ts Q docs G es.
Proof.
  intros Hc Hd [_ C] IH ts HL. cbn [nesting] in C. destruct (Lx_split _ _ HL) as (ws & ts' & -> & Hw & N & H'). apply goes_blanks; [exact Hw|].
  destruct (Lx_sym _ _ _ _ H' N eq_refl) as (t & q & -> & K & S & Hq & _ & T). specialize (T _ _ eq_refl). subst x. destruct (IH _ _ C Hq) as (kvs & c & te & g & R & q' & Sh).
  destruct (doc_fwd _ _ _ _ _ Hc K R) as (c' & R' & E). exists kvs, c', te. split; [exact g|]. split; [exact R'|]. split; [exact q'|]. eapply doc_shows; eauto.
Qed.
Lemma entry_goes cl root l k v tr r seqs prev Q G es : okc cl -> Pline l k v tr r -> ~ attr_head l -> calm seqs prev l ->
  (forall r0 tr0, gstop r0 tr0 r -> stopping cl r0 \/ exists sp t, r0 = LxDoc sp t :: r) ->
  (forall prev' ts', calm seqs prev' r -> Lx ts' r -> goes cl root ts' Q [] G es) ->
  forall ts, Lx ts l -> docs_in tr = [] /\ forall us ds x, docs_are root us ds -> entry_of root k v ds x -> goes cl root ts Q us (fun l => exists kvs, l = (k, v) :: kvs /\ G kvs) (x :: es).
Proof.
  intros Hc IHl NA C Hst IH ts HL. destruct (Lx_split _ _ HL) as (ws & ts' & -> & Hw & N & H'). destruct (IHl _ _ _ C H' N NA) as (St & r0 & tr0 & tr1 & p & -> & Dt & Gs & C' & M & R).
  destruct (Hst _ _ Gs) as [S|(sp & t & ->)]; [|destruct C' as [[_ C'] _]; now destruct M]. destruct (R cl Hc S) as (c0 & te0 & R0 & H0 & N0 & Sh).
  destruct (entry_case cl root seqs p r0 tr0 r ts' c0 te0 Q G es Hc (start_first _ _ St H' N) Gs C' M S R0 H0 N0 IH) as (Dt0 & kvs & c & te & g & R1 & q & Sh1). split; [rewrite docs_in_app, Dt, Dt0; reflexivity|]. intros us ds x Hd He. apply goes_blanks; [exact Hw|].
  exists ((k, v) :: kvs), (c0 :: c), te. split; [eauto|]. split; [exact R1|]. split; [exact q|]. eapply se_entry; eauto.
Qed.

Lemma sim_ge_end sp r : Pents [] (LxObjEnd sp :: r) [] [] [] sp r.
Proof.
  intros seqs prev ts [_ C] HL. cbn [nesting tl] in C. split; [reflexivity|]. destruct (Lx_split _ _ HL) as (ws & ts' & -> & Hw & N & H'). apply goes_blanks; [exact Hw|]. destruct (Lx_sym _ _ _ _ H' N eq_refl) as (t & q & -> & K & S & Hq & _). cbn in S.
  exists [], [], (t :: q). split; [reflexivity|]. split; [|split; [split; [exact C|]; eauto 6|constructor]]. exists 1. intros [|f] Hf; [lia|]. unfold entries. cbn [parse_entries skip]. rewrite K. cbn [is_trivia_kind]. unfold skip_docs. cbn [peek_kind]. rewrite K. cbn [tkind_eqb orb peek_kind]. unfold closes. cbn [peek_kind]. rewrite K. reflexivity.
Qed.
Lemma sim_ge_sep docs l r ks es tr e r' : is_sep l \/ is_remark l -> Pents docs r ks es tr e r' -> Pents docs (l :: r) ks es tr e r'.
Proof.
  intros Hl IH seqs prev ts C HL. split.
  - destruct (Lx_split _ _ HL) as (ws & ts' & -> & Hw & N & H'). destruct (Lx_inv _ _ _ H' N) as (g & q & _ & _ & Hq). assert (nesting (false :: seqs) l = false :: seqs) as Hn by (destruct l; try reflexivity; cbn in Hl; tauto).
    destruct C as [_ C]. rewrite Hn in C. apply (IH _ _ _ C Hq).
  - revert ts HL. eapply gl_sep_goes; eauto; [now right|]. intros prev' ts' C' H'. now apply (IH _ _ _ C' H').
Qed.
Lemma sim_ge_doc docs sp t u r ks es tr e r' : doc_text t u -> Pents (docs ++ [(sp, u)]) r ks es tr e r' -> Pents docs (LxDoc sp t :: r) ks es tr e r'.
Proof.
  intros Hd IH seqs prev ts C HL. split.
  - destruct (Lx_split _ _ HL) as (ws & ts' & -> & Hw & N & H'). destruct (Lx_inv _ _ _ H' N) as (g & q & _ & _ & Hq). destruct C as [_ C]. apply (IH _ _ _ C Hq).
  - revert ts HL. eapply doc_goes; eauto; [now right|]. intros prev' ts' C' H'. destruct (IH _ _ _ C' H') as [_ G]. now rewrite map_app in G.
Qed.
Lemma sim_ge_entry docs l k v tag pl kd tr r ks es tr' e r' : gline l k v tr r -> Pline l k v tr r -> key_is k tag pl kd -> gents [] r ks es tr' e r' -> Pents [] r ks es tr' e r' ->
  Pents docs l (key_id k :: ks) (DEnt (doc_block docs) (dspan k) (dspan k) tag pl kd v (dspan v) :: es) (tr ++ tr') e r'.
Proof.
  intros G IHl K Ge IH seqs prev ts C HL. assert (NA := gline_not_attr _ _ _ _ _ _ _ _ G K).
  destruct (entry_goes (Some RBrace) false l k v tr r (false :: seqs) prev (fun te => docs_in tr' = [] /\ closed RBrace [cRB] (LxObjEnd e) seqs r' te) (fun kvs => map (fun kv => key_id (fst kv)) kvs = ks) es) with (ts := ts) as [Dt G']; auto.
  - now right.
  - intros r0 tr0 S. apply gents_head in Ge. destruct S; cbn; eauto; contradiction Ge.
  - intros prev' ts' C' H'. destruct (IH _ _ _ C' H') as [Dt (kvs & c & te & Ek & R & q & Sh)]. exists kvs, c, te. auto.
  - destruct (G' (map snd docs) (doc_block docs) (DEnt (doc_block docs) (dspan k) (dspan k) tag pl kd v (dspan v)) (doc_block_are docs) ltac:(cbn; auto)) as (kvs & c & te & (kvs' & -> & Ek) & R & [Dt' q] & Sh).
    split; [rewrite docs_in_app, Dt, Dt'; reflexivity|]. exists ((k, v) :: kvs'), c, te. cbn [map fst]. rewrite Ek. auto.
Qed.

Lemma sim_gl_key l k tr r tr' r' : Pval l k tr r -> gstop r tr' r' -> Pline l k (DUnit (dspan k)) (tr ++ tr') r'.
Proof.
  intros IH G seqs prev ts C HL N NA. destruct (IH _ _ _ C HL N) as (St & Dt & (p & C' & M) & R & _). split; [exact St|]. exists r, tr', tr, p. splits; auto. intros cl Hc Hst.
  destruct (R NA) as (c & te & [f1 R1] & H1 & Sh). destruct (Lx_split _ _ H1) as (ws & te2 & -> & Hw & N2 & H2). destruct (value_at_end cl te2 0 (stop_end _ _ _ Hst H2 N2)) as [f2 R2].
  exists (Node ENTRY (Node KEY [c] :: map leaf ws)), te2. splits; auto.
  - exists (1 + f1 + f2). intros [|f] Hf; [lia|]. cbn [parse_entry]. rewrite (attr_not _ _ St NA HL N). rewrite start_more; [|exact Hc|now apply (start_first _ _ St HL N)]. rewrite R1 by lia. cbn [bind]. rewrite skip_blanks by assumption. rewrite R2 by lia. cbn [bind app]. now rewrite app_nil_r.
  - apply sl_key; [exact Sh|now apply blanks_gap].
Qed.
Lemma sim_gl_pair l k tr r v tr1 r1 tr2 r2 : Pval l k tr r -> Pval r v tr1 r1 -> gstop r1 tr2 r2 -> Pline l k v (tr ++ tr1 ++ tr2) r2.
Proof.
  intros IHk IHv G seqs prev ts C HL N NA. destruct (IHk _ _ _ C HL N) as (St & Dt & (p & C' & M) & R & _). split; [exact St|]. destruct (R NA) as (c & te & [f1 R1] & H1 & Sh).
  destruct (Lx_split _ _ H1) as (ws & te2 & -> & Hw & N2 & H2). destruct (IHv _ _ _ C' H2 N2) as (St2 & Dt2 & (p2 & C2 & M2) & Rv & Ra). exists r1, tr2, (tr ++ tr1), p2. splits; auto; [now rewrite app_assoc|rewrite docs_in_app, Dt, Dt2; reflexivity|]. intros cl Hc Hst.
  assert (exists cv ws' te4, runs (fun f => parse_values f cl 0 te2) (Node VALUE [cv] :: ws') te4 /\ Lx te4 r1 /\ nonblank te4 /\ shows_value cv v /\ Forall is_gap ws') as (cv & ws' & te4 & [f3 R3] & H4 & N4 & Sv & Hw').
  { assert (A : attr_head r \/ ~ attr_head r) by (destruct r as [|[] r]; cbn; tauto). destruct A as [A|A].
    - destruct (Ra A cl Hc Hst) as (cs & te4 & [f3 R3] & H4 & N4 & Sv). destruct (value_at_end cl te4 1 (stop_end _ _ _ Hst H4 N4)) as [f4 R4]. exists (Node ATTRIBUTES cs), [], te4. splits; auto.
      exists (1 + f3 + f4). intros [|f] Hf; [lia|]. cbn [parse_values]. rewrite start_more; [|exact Hc|now apply (start_first _ _ St2 H2 N2)].
      assert (at_attribute te2 = true) as ->. { destruct r as [|[] r]; try contradiction A. destruct (Lx_attr _ _ _ _ _ H2 N2) as (t & g & q & -> & Kt & _ & Kg & Tg & _). unfold at_attribute. rewrite Kt. cbn [map concat]. rewrite Tg. reflexivity. }
      rewrite R3 by lia. cbn [bind]. rewrite <- (app_nil_l te4), skip_blanks by (auto; constructor). cbn [app]. rewrite R4 by lia. reflexivity.
    - destruct (Rv A) as (cv & te3 & [f3 R3] & H3 & Sv). destruct (Lx_split _ _ H3) as (ws' & te4 & -> & Hw' & N4 & H4). destruct (value_at_end cl te4 1 (stop_end _ _ _ Hst H4 N4)) as [f4 R4]. exists cv, (map leaf ws'), te4. splits; auto; [|now apply sv_atom|now apply blanks_gap].
      exists (1 + f3 + f4). intros [|f] Hf; [lia|]. cbn [parse_values]. rewrite start_more; [|exact Hc|now apply (start_first _ _ St2 H2 N2)]. rewrite (attr_not _ _ St2 A H2 N2).
      replace (match cl with Some RBrace => true | _ => false end && (0 <? 0) && at_atom_start te2) with false by (change (0 <? 0) with false; now rewrite andb_false_r).
      rewrite R3 by lia. cbn [bind]. rewrite skip_blanks by assumption. rewrite R4 by lia. cbn [bind app]. now rewrite app_nil_r. }
  exists (Node ENTRY (Node KEY [c] :: map leaf ws ++ Node VALUE [cv] :: ws')), te4. splits; auto.
  - exists (1 + f1 + f3). intros [|f] Hf; [lia|]. cbn [parse_entry]. rewrite (attr_not _ _ St NA HL N). rewrite start_more; [|exact Hc|now apply (start_first _ _ St HL N)]. rewrite R1 by lia. cbn [bind]. rewrite skip_blanks by assumption. rewrite R3 by lia. reflexivity.
  - apply sl_pair; auto. now apply blanks_gap.
Qed.

Theorem simulation :
  (forall l d tr r, gval l d tr r -> Pval l d tr r) /\ (forall l ds tr e r, gitems l ds tr e r -> Pitems l ds tr e r) /\
  (forall docs l ks es tr e r, gents docs l ks es tr e r -> Pents docs l ks es tr e r) /\ (forall l k v tr r, gline l k v tr r -> Pline l k v tr r) /\
  (forall r1 attrs tr r, gattrs r1 attrs tr r -> Pattrs r1 attrs tr r).
Proof.
  apply g_all; intros.
  - apply sim_gval_scalar.
  - apply sim_unit.
  - eapply sim_tag; eauto.
  - eapply sim_tag_payload; eauto.
  - now apply sim_seq.
  - eapply sim_obj; eauto.
  - now apply (sim_attrs _ _ _ _ _ _ r1).
  - apply sim_gi_end.
  - now apply sim_gi_remark.
  - intros seqs prev ts [[C _] _] HL. discriminate C.
  - eapply sim_gi_item; eauto.
  - apply sim_ge_end.
  - now apply sim_ge_sep.
  - eapply sim_ge_doc; eauto.
  - eapply sim_ge_entry; eauto.
  - eapply sim_gl_key; eauto.
  - eapply sim_gl_pair; eauto.
  - now apply sim_ga_end.
  - now apply (sim_ga_more _ _ _ _ _ _ r1).
Qed.

(** ** Documents *)
Lemma root_not_attr l k v tr r ds p e : gline l k v tr r -> root_entry k v ds p e -> ~ attr_head l.
Proof.
  intros G E. destruct E as [k v docs tag pl kd _ _ K|sp t segs v docs e _ _ _ _]; [now apply (gline_not_attr _ _ _ _ _ _ _ _ G K)|].
  eapply gline_not_attr; [exact G|apply key_text].
Qed.
Lemma gline_starts l k v tr r : gline l k v tr r -> starts l.
Proof. intros H. inversion H; subst; eapply gval_starts; eauto. Qed.
Lemma groot_head o docs l es evs h : groot o docs l es evs h -> match l with (LxSeqEnd _ | LxObjEnd _) :: _ => False | _ => True end.
Proof. intros H. inversion H; subst; auto; try (match goal with X : is_sep _ |- _ => destruct l0; try exact I; contradiction X end). match goal with X : gline _ _ _ _ _ |- _ => apply gline_starts in X; destruct l as [|[] l]; try exact I; contradiction X end. Qed.
Lemma gbody_head docs l ks es evs e r : gbody docs l ks es evs e r -> match l with [] | LxSeqEnd _ :: _ => False | _ => True end.
Proof. intros H. inversion H; subst; auto; try (match goal with X : is_sep _ |- _ => destruct l0; try exact I; contradiction X end). match goal with X : gline _ _ _ _ _ |- _ => apply gline_starts in X; destruct l as [|[] l]; try exact I; contradiction X end. Qed.
Lemma docs_more us ds sp u : docs_are true us ds -> docs_are true (us ++ [u]) (ds ++ [(sp, [u])]).
Proof. unfold docs_are. intros H. rewrite !map_app, H. reflexivity. Qed.
Definition at_eof (te : list token) : Prop := exists e, te = [e] /\ tk_kind e = Eof.

Lemma sim_root o docs l es evs h : groot o docs l es evs h -> forall us prev ts, docs_are true us docs -> calm [] prev l -> Lx ts l -> goes None true ts at_eof us (fun kvs => Forall2 assigns kvs h) es.
Proof.
  assert (Hc : okc None) by now left.
  induction 1 as [o|o docs l r es evs h Hl G IH|o docs sp t r es evs h G IH|o docs sp t u r es evs h Hd G IH|o docs l k v tr r p e es evs h NB Hl RE G IH]; intros us prev ts Hu C HL.
  - destruct us; [|discriminate Hu]. destruct (Lx_split _ _ HL) as (ws & ts' & -> & Hw & N & H'). apply goes_blanks; [exact Hw|]. destruct (Lx_end _ H' N) as (z & -> & K). exists [], [], [z].
    split; [constructor|]. split; [|split; [exists z; auto|constructor]]. exists 1. intros [|f] Hf; [lia|]. unfold entries. cbn [parse_entries skip]. rewrite K. cbn [is_trivia_kind]. unfold skip_docs. cbn [peek_kind]. rewrite K. cbn [tkind_eqb orb peek_kind]. rewrite K. reflexivity.
  - revert ts HL. eapply gl_sep_goes; eauto.
  - revert ts HL. eapply gl_sep_goes; eauto. right. exact I.
  - revert ts HL. eapply doc_goes; eauto. intros prev' ts' C' H'. apply (IH (us ++ [u]) prev' ts' (docs_more _ _ _ _ Hu) C' H').
  - assert (NA := root_not_attr _ _ _ _ _ _ _ _ Hl RE). destruct simulation as (_ & _ & _ & SL & _). destruct (entry_goes None true l k v tr r [] prev at_eof (fun kvs => Forall2 assigns kvs h) es Hc (SL _ _ _ _ _ Hl) NA C) with (ts := ts) as [Dt GG]; auto.
    + intros r0 tr0 S. apply groot_head in G. destruct S; cbn; eauto; contradiction G.
    + intros prev' ts' C' H'. now apply (IH [] prev' ts').
    + rewrite Dt, app_nil_r in RE. destruct (GG us docs e Hu (ex_intro _ p RE)) as (kvs & c & te & (kvs' & -> & F) & X). exists ((k, v) :: kvs'), c, te. split; [|exact X]. constructor; [|exact F]. exists docs, e. auto.
Qed.
Lemma sim_body docs l ks es evs e r : gbody docs l ks es evs e r -> forall us prev ts, docs_are true us docs -> calm [false] prev l -> Lx ts l -> goes (Some RBrace) true ts (closed RBrace [cRB] (LxObjEnd e) [] r) us (fun kvs => braced_keys kvs ks) es.
Proof.
  assert (Hc : okc (Some RBrace)) by now right.
  induction 1 as [sp r|docs l r ks es evs e r' Hl G IH|docs sp t r ks es evs e r' G IH|docs sp t u r ks es evs e r' Hd G IH|docs l k v tr r p x ks ks' es evs e r' Hl RE G IH Hks]; intros us prev ts Hu C HL.
  - destruct us; [|discriminate Hu]. destruct C as [_ C]. destruct (Lx_split _ _ HL) as (ws & ts' & -> & Hw & N & H'). apply goes_blanks; [exact Hw|]. destruct (Lx_sym _ _ _ _ H' N eq_refl) as (t & q & -> & K & S & Hq & _). cbn in S.
    exists [], [], (t :: q). split; [constructor|]. split; [|split; [split; [exact C|]; eauto 6|constructor]]. exists 1. intros [|f] Hf; [lia|]. unfold entries. cbn [parse_entries skip]. rewrite K. cbn [is_trivia_kind]. unfold skip_docs. cbn [peek_kind]. rewrite K. cbn [tkind_eqb orb peek_kind]. unfold closes. cbn [peek_kind]. rewrite K. reflexivity.
  - revert ts HL. eapply gl_sep_goes; eauto.
  - revert ts HL. eapply gl_sep_goes; eauto. right. exact I.
  - revert ts HL. eapply doc_goes; eauto. intros prev' ts' C' H'. apply (IH (us ++ [u]) prev' ts' (docs_more _ _ _ _ Hu) C' H').
  - assert (NA := root_not_attr _ _ _ _ _ _ _ _ Hl RE). destruct simulation as (_ & _ & _ & SL & _). destruct (entry_goes (Some RBrace) true l k v tr r [false] prev (closed RBrace [cRB] (LxObjEnd e) [] r') (fun kvs => braced_keys kvs ks) es Hc (SL _ _ _ _ _ Hl) NA C) with (ts := ts) as [Dt GG]; auto.
    + intros r0 tr0 S. apply gbody_head in G. destruct S; cbn; eauto; contradiction G.
    + intros prev' ts' C' H'. now apply (IH [] prev' ts').
    + rewrite Dt, app_nil_r in RE. destruct (GG us docs x Hu (ex_intro _ p RE)) as (kvs & c & te & (kvs' & -> & F) & X). exists ((k, v) :: kvs'), c, te. split; [|exact X]. destruct Hks as [[D ->]|[D ->]]; now constructor.
Qed.
Lemma sim_lead ls lead l2 : glead ls lead l2 -> forall prev ts, calm [] prev ls -> Lx ts ls ->
  exists pre ts2 prev2, Lx ts2 l2 /\ nonblank ts2 /\ calm [] prev2 l2 /\ Forall (fun c => is_triv c \/ c = tok Comma [cCOMMA] \/ c = Node ENTRY []) pre /\
    forall c te, runs (entries None ts2) c te -> runs (entries None ts) (pre ++ c) te.
Proof.
  assert (B : forall ws, blanks ws -> Forall (fun c => is_triv c \/ c = tok Comma [cCOMMA] \/ c = Node ENTRY []) (map leaf ws)) by (intros ws Hw; eapply Forall_impl; [|apply (blanks_triv _ Hw)]; cbn; tauto).
  induction 1 as [l|l r evs r' Hl G IH|sp t r evs r' G IH]; intros prev ts C HL; destruct (Lx_split _ _ HL) as (ws & ts' & -> & Hw & N & H').
  - exists (map leaf ws), ts', prev. splits; auto. intros c te R. now apply blank_fwd.
  - assert (nesting [] l = []) as Hn by (destruct l; try reflexivity; contradiction Hl). destruct C as [_ C]. rewrite Hn in C. destruct l; try contradiction Hl.
    + destruct (Lx_sym _ _ _ _ H' N eq_refl) as (t & q & -> & K & S & Hq & _). cbn in S. destruct (IH _ _ C Hq) as (pre & ts2 & prev2 & A1 & A2 & A3 & A4 & A5). exists (map leaf ws ++ Node ENTRY [] :: leaf t :: pre), ts2, prev2. splits; auto.
      * apply Forall_app. split; [auto|]. constructor; [tauto|]. constructor; [|auto]. right. left. unfold leaf. now rewrite K, S.
      * intros c te R. rewrite <- app_assoc. apply blank_fwd; [exact Hw|]. cbn [app]. apply comma_fwd; auto. now left.
    + destruct (Lx_sym _ _ _ _ H' N eq_refl) as (t & q & -> & K & S & Hq & _). destruct (IH _ _ C Hq) as (pre & ts2 & prev2 & A1 & A2 & A3 & A4 & A5). exists (map leaf ws ++ leaf t :: pre), ts2, prev2. splits; auto.
      * apply Forall_app. split; [auto|]. constructor; [|auto]. left. apply triv_leaf. now rewrite K.
      * intros c te R. rewrite <- app_assoc. apply blank_fwd; [exact Hw|]. cbn [app]. apply trivia_fwd; [now rewrite K|auto].
  - destruct C as [_ C]. destruct (Lx_sym _ _ _ _ H' N eq_refl) as (t' & q & -> & K & S & Hq & _). destruct (IH _ _ C Hq) as (pre & ts2 & prev2 & A1 & A2 & A3 & A4 & A5). exists (map leaf ws ++ leaf t' :: pre), ts2, prev2. splits; auto.
    + apply Forall_app. split; [auto|]. constructor; [|auto]. left. apply triv_leaf. now rewrite K.
    + intros c te R. rewrite <- app_assoc. apply blank_fwd; [exact Hw|]. cbn [app]. apply trivia_fwd; [now rewrite K|auto].
Qed.
Lemma sim_remarks r : Forall is_remark r -> forall ts, Lx ts r -> exists c te, runs (entries None ts) c te /\ at_eof te /\ Forall is_triv c.
Proof.
  induction 1 as [|l r Hl _ IH]; intros ts HL; destruct (Lx_split _ _ HL) as (ws & ts' & -> & Hw & N & H').
  - destruct (Lx_end _ H' N) as (z & -> & K). exists (map leaf ws ++ []), [z]. split; [|split; [exists z; auto|rewrite app_nil_r; now apply blanks_triv]]. apply blank_fwd; [exact Hw|].
    exists 1. intros [|f] Hf; [lia|]. unfold entries. cbn [parse_entries skip]. rewrite K. cbn [is_trivia_kind]. unfold skip_docs. cbn [peek_kind]. rewrite K. cbn [tkind_eqb orb peek_kind]. rewrite K. reflexivity.
  - assert (exists k, sym_kind l = Some k /\ is_trivia_kind k = true) as (k & Hk & Tk) by (destruct l; try contradiction Hl; eexists; split; reflexivity).
    destruct (Lx_sym _ _ _ _ H' N Hk) as (t & q & -> & K & S & Hq & _). destruct (IH _ Hq) as (c & te & R & E & T). exists (map leaf ws ++ leaf t :: c), te. split; [apply blank_fwd; [exact Hw|]; apply trivia_fwd; [now rewrite K|exact R]|]. split; [exact E|].
    apply Forall_app. split; [now apply blanks_triv|]. constructor; [apply triv_leaf; now rewrite K|exact T].
Qed.
Theorem sim_doc n ls es evs : gdoc n ls es evs -> calm [] None ls -> forall ts, Lx ts ls -> exists c te, runs (entries None ts) c te /\ shows_doc (Node DOCUMENT c) es.
Proof.
  intros [ls' es' evs' h G PF|ls' lead sp r ks es' evs' e r' GL GB ND Hr] C ts HL.
  - destruct (sim_root _ _ _ _ _ _ G [] None ts eq_refl C HL) as (kvs & c & te & F & R & _ & S). exists c, te. split; [exact R|now apply (sd_plain _ kvs _ h)].
  - destruct (sim_lead _ _ _ GL None ts C HL) as (pre & ts2 & prev2 & H2 & N2 & [_ C2] & Hp & Rp). cbn [nesting] in C2.
    destruct (Lx_sym _ _ _ _ H2 N2 eq_refl) as (t & q & -> & K & S & Hq & _). cbn in S. destruct (sim_body _ _ _ _ _ _ _ GB [] _ q eq_refl C2 Hq) as (kvs & cs & te & BK & [f1 R1] & (C' & t' & te' & -> & K' & S' & H') & Sh). unfold entries in R1.
    destruct (Lx_split _ _ H') as (ws & te2 & -> & Hw & N3 & H3).
    assert (E3 : at_entry_end None te2 = true) by (apply (stop_end None te2 r'); auto; destruct r' as [|[] r']; try exact I; inversion Hr as [|? ? X]; contradiction X).
    destruct (value_at_end None te2 0 E3) as [f3 R3]. destruct (sim_remarks _ Hr _ H3) as (c4 & te4 & R4 & _ & T4).
    assert (RE : runs (fun f => parse_entry f None (t :: q)) [Node ENTRY (Node KEY [Node OBJECT (tok LBrace [cLB] :: cs ++ [tok RBrace [cRB]])] :: map leaf ws)] te2).
    { exists (2 + f1 + f3). intros [|[|f]] Hf; [lia|lia|]. remember (Datatypes.S f) as f' eqn:Ef. cbn [parse_entry]. unfold at_attribute, at_entry_end. cbn [peek_kind]. rewrite K. cbn [tkind_eqb andb]. subst f'. cbn [parse_atom peek_kind]. rewrite K. cbn [bump]. rewrite R1 by lia.
      cbn [bind skip]. rewrite K'. cbn [is_trivia_kind peek_kind]. rewrite K'. cbn [tkind_eqb bump bind]. rewrite skip_blanks by assumption. rewrite R3 by lia. cbn [bind app]. rewrite app_nil_r. unfold leaf. rewrite K, S, K', S'. reflexivity. }
    assert (SK : start_kind (peek_kind (t :: q))) by (cbn; rewrite K; unfold start_kind; cbn; tauto).
    assert (exists post te5, runs (entries None (t :: q)) (Node ENTRY (Node KEY [Node OBJECT (tok LBrace [cLB] :: cs ++ [tok RBrace [cRB]])] :: map leaf ws) :: post) te5 /\ Forall is_triv post) as (post & te5 & R5 & T5).
    { destruct (tkind_dec (peek_kind te2) Newline) as [K2|K2].
      - destruct te2 as [|t2 te2]; [discriminate K2|]. cbn in K2. apply trivia_bwd in R4 as (c' & -> & R4); [|now rewrite K2]. exists (leaf t2 :: c'), te4. split; [|exact T4].
        apply (entry_runs None (t :: q) _ (t2 :: te2) [leaf t2] te2 c' te4); auto; [now left|]. cbn. now rewrite K2.
      - exists c4, te4. split; [|exact T4]. apply (entry_runs None (t :: q) _ te2 [] te2 c4 te4); auto; [now left|]. destruct (peek_kind te2) eqn:K3; try reflexivity; [|now destruct K2].
        exfalso. destruct r' as [|l r']; [destruct (Lx_end _ H3 N3) as (z & -> & Kz); cbn in K3; congruence|]. apply first_kind in H3; [|exact N3]. rewrite K3 in H3. inversion Hr as [|? ? X]. destruct l; try contradiction X; cbn in H3; destruct H3 as [H3|[]]; discriminate H3. }
    exists (pre ++ Node ENTRY (Node KEY [Node OBJECT (tok LBrace [cLB] :: cs ++ [tok RBrace [cRB]])] :: map leaf ws) :: post), te5. split; [now apply Rp|]. apply (sd_braces _ _ _ _ kvs ks); auto. now apply blanks_gap.
Qed.

(** ** Fuel *)
Lemma bind_ok (A B : Type) (x x' : res A) (g g' : A -> res B) y : (forall a, x = Ok a -> x' = Ok a) -> (forall a z, g a = Ok z -> g' a = Ok z) -> bind x g = Ok y -> bind x' g' = Ok y.
Proof. intros Hx Hg H. destruct x as [a| |]; try discriminate H. rewrite (Hx a eq_refl). cbn [bind] in *. auto. Qed.
Lemma parse_mono n :
  (forall cl ts x, parse_entries n cl ts = Ok x -> parse_entries (S n) cl ts = Ok x) /\
  (forall cl ts x, parse_entry n cl ts = Ok x -> parse_entry (S n) cl ts = Ok x) /\
  (forall cl k ts x, parse_values n cl k ts = Ok x -> parse_values (S n) cl k ts = Ok x) /\
  (forall cl ts x, parse_attributes n cl ts = Ok x -> parse_attributes (S n) cl ts = Ok x) /\
  (forall ts x, parse_attribute n ts = Ok x -> parse_attribute (S n) ts = Ok x) /\
  (forall ts x, parse_atom n ts = Ok x -> parse_atom (S n) ts = Ok x) /\
  (forall ts x, parse_elements n ts = Ok x -> parse_elements (S n) ts = Ok x).
Proof.
  induction n as [|n (I1 & I2 & I3 & I4 & I5 & I6 & I7)]; [splits; intros; discriminate|]. remember (S n) as m eqn:Em. splits; intros.
  - rewrite Em in H. cbn [parse_entries] in H |- *. destruct (skip is_trivia_kind ts) as [c1 ts1]. destruct (skip_docs ts1) as [c2 ts2]. destruct (_ || _); [exact H|].
    revert H. apply bind_ok; [apply I2|]. intros [[c3 e3] ts3] z. destruct (skip is_blank_kind ts3) as [c4 ts4]. destruct (match peek_kind ts4 with Comma | Newline => bump ts4 | _ => ([], ts4) end) as [c5 ts5]. apply bind_ok; [apply I1|]. intros [[? ?] ?] ?. auto.
  - rewrite Em in H. cbn [parse_entry] in H |- *. destruct (at_attribute ts); [revert H; apply bind_ok; [apply I4|]; intros [[? ?] ?] ?; auto|].
    revert H. apply bind_ok.
    + intros a. destruct (at_entry_end cl ts); [auto|]. apply bind_ok; [apply I6|]. intros [[? ?] ?] ?. auto.
    + intros [[ck ek] ts1] z. destruct (skip is_blank_kind ts1) as [cw ts2]. apply bind_ok; [apply I3|]. intros [[? ?] ?] ?. auto.
  - rewrite Em in H. cbn [parse_values] in H |- *. destruct (at_entry_end cl ts); [exact H|]. revert H. apply bind_ok.
    + intros a. destruct (at_attribute ts); [apply bind_ok; [apply I4|]; intros [[? ?] ?] ?; auto|]. apply bind_ok; [apply I6|]. intros [[? ?] ?] ?. auto.
    + intros [[ck ek] ts1] z. destruct (skip is_blank_kind ts1) as [cw ts2]. apply bind_ok; [apply I3|]. intros [[? ?] ?] ?. auto.
  - rewrite Em in H. cbn [parse_attributes] in H |- *. destruct (at_attribute ts); [|exact H]. revert H. apply bind_ok; [apply I5|].
    intros [[ck ek] ts1] z. destruct (skip is_blank_kind ts1) as [cw ts2]. destruct (at_entry_end cl ts2); [auto|]. apply bind_ok; [apply I4|]. intros [[? ?] ?] ?. auto.
  - rewrite Em in H. cbn [parse_attribute] in H |- *. destruct (bump ts) as [c1 ts1]. destruct (if tkind_eqb (peek_kind ts1) Gt then bump ts1 else ([], ts1)) as [c2 ts2].
    destruct (match peek_kind ts2 with Whitespace | Newline => true | _ => false end); [destruct (skip is_blank_kind ts2) as [c3 ts3]|]; (revert H; apply bind_ok; [apply I6|]; intros [[? ?] ?] ?; auto).
  - rewrite Em in H. cbn [parse_atom] in H |- *. destruct (peek_kind ts); try exact H.
    + destruct (bump ts) as [c1 ts1]. revert H. apply bind_ok; [apply I1|]. intros [[? ?] ?] ?. auto.
    + destruct (bump ts) as [c1 ts1]. revert H. apply bind_ok; [apply I7|]. intros [[? ?] ?] ?. auto.
    + destruct ts as [|t ts]; [exact H|]. destruct (split_tag (tk_text t)) as [s mm]. destruct (payload_follows (sp_end (tk_span t)) ts); [|exact H]. revert H. apply bind_ok; [apply I6|]. intros [[? ?] ?] ?. auto.
  - rewrite Em in H. cbn [parse_elements] in H |- *. destruct (skip is_trivia_kind ts) as [c1 ts1].
    destruct (peek_kind ts1); try exact H; (revert H; apply bind_ok; [apply I6|]; intros [[c2 e2] ts2] z; destruct (skip is_blank_kind ts2) as [c3 ts3]; apply bind_ok; [apply I7|]; intros [[? ?] ?] ?; auto).
Qed.
Lemma entries_mono n m cl ts x : n <= m -> parse_entries n cl ts = Ok x -> parse_entries m cl ts = Ok x.
Proof. induction 1 as [|m _ IH]; [auto|]. intros H. apply parse_mono. auto. Qed.

(** ** Documents contain no errors of the lexer *)
Lemma gstop_ne r tr r' : gstop r tr r' -> no_lex_error r' -> no_lex_error r.
Proof. intros G NE. destruct G; auto; now constructor. Qed.
Lemma g_ne :
  (forall l d tr r, gval l d tr r -> no_lex_error r -> no_lex_error l) /\ (forall l ds tr e r, gitems l ds tr e r -> no_lex_error r -> no_lex_error l) /\
  (forall docs l ks es tr e r, gents docs l ks es tr e r -> no_lex_error r -> no_lex_error l) /\ (forall l k v tr r, gline l k v tr r -> no_lex_error r -> no_lex_error l) /\
  (forall r1 attrs tr r, gattrs r1 attrs tr r -> no_lex_error r -> no_lex_error r1).
Proof.
  unfold no_lex_error. apply g_all; intros; eauto; try (constructor; [reflexivity|auto]).
  - constructor; [destruct l; (reflexivity || contradiction H)|auto].
  - constructor; [destruct l; (reflexivity || (cbn in H; tauto))|auto].
  - apply H0. eapply gstop_ne; eauto.
  - apply H0, H3. eapply gstop_ne; eauto.
Qed.
Lemma groot_ne o docs l es evs h : groot o docs l es evs h -> no_lex_error l.
Proof. unfold no_lex_error. induction 1; auto; try (constructor; [reflexivity|auto]). - constructor; [destruct l; (reflexivity || contradiction H)|auto]. - destruct g_ne as (_ & _ & _ & GL & _). eapply GL; eauto. Qed.
Lemma gbody_ne docs l ks es evs e r : gbody docs l ks es evs e r -> no_lex_error r -> no_lex_error l.
Proof. unfold no_lex_error. induction 1; intros; auto; try (constructor; [reflexivity|auto]). - constructor; [destruct l; (reflexivity || contradiction H)|auto]. - destruct g_ne as (_ & _ & _ & GL & _). apply (GL _ _ _ _ _ H). apply IHgbody. assumption. Qed.
Lemma glead_ne ls lead r : glead ls lead r -> no_lex_error r -> no_lex_error ls.
Proof. unfold no_lex_error. induction 1; intros; auto. constructor; [destruct l; (reflexivity || contradiction H)|auto]. Qed.
Lemma gdoc_ne n ls es evs : gdoc n ls es evs -> no_lex_error ls.
Proof.
  intros [ls' es' evs' h G _|ls' lead sp r ks es' evs' e r' GL GB _ Hr]; [eapply groot_ne; eauto|]. eapply glead_ne; [exact GL|]. constructor; [reflexivity|]. eapply gbody_ne; [exact GB|].
  unfold no_lex_error. eapply Forall_impl; [|exact Hr]. intros l Hl. destruct l; (reflexivity || contradiction Hl).
Qed.

(** ** The tree of an accepted document *)
Theorem agree_doc src ls es evs : ~ has_hash_run 256 src -> lexemes src = Ok ls -> gdoc (blen src) ls es evs -> calm [] None ls ->
  exists t, cst_parse src = Ok (t, []) /\ shows_doc t es.
Proof.
  intros Hh El G C. destruct (cst_parse_covers src) as (ts & t & errs & Et & Ep & _). set (e := mktok Eof (mkspan (blen src) (blen src)) []).
  assert (HL : Lx (ts ++ [e]) ls).
  { split; [|split].
    - apply (source_lexed src ts ls e); auto. now apply (gdoc_ne _ _ _ _ G).
    - apply Forall_app. split; [eapply tokens_shape; eauto|]. constructor; [reflexivity|constructor].
    - destruct (tokens_from_tiles _ _ _ Et (or_introl eq_refl)) as [_ T]. cbn in T. exists 0, (blen src). clear -T. revert T. generalize 0. induction ts as [|u ts IH]; intros p T; cbn in *.
      + subst p. auto.
      + destruct T as (T0 & T1 & T). auto. }
  destruct (sim_doc _ _ _ _ G C _ HL) as (c & te & [f0 R] & S). exists (Node DOCUMENT c). split; [|exact S].
  unfold cst_parse, token_stream in *. rewrite Et in *. cbn [option_map of_opt bind] in *. fold e in Ep |- *. destruct (parse_entries (8 * length (ts ++ [e]) + 8) None (ts ++ [e])) as [[[c' e'] te']| |] eqn:Er; try discriminate Ep.
  apply (entries_mono _ (f0 + (8 * length (ts ++ [e]) + 8))) in Er; [|lia]. unfold entries in R. rewrite R in Er by lia. injection Er as <- <- <-. reflexivity.
Qed.
