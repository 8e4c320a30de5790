(** Rows of formatted text and what they read as. *)
From Coq Require Import String.
From Verif Require Import Base BaseProofs TokModel TokSpec TokProofs LexModel LexSpec LexProofs LexRunProofs RetokProofs RelexProofs.
From Verif Require Import ParseModel ParseSpec PathSpec TreeSpec GrammarSpec CstModel CstSpec CstProofs CstFmtModel CstShapeProofs CstFmtSpec CstFmtProofs AgreeSpec AgreeUnique FmtLexProofs.
Local Open Scope nat_scope.

(** ** What may follow *)
Definition stops (ls : list lexeme) : Prop :=
  match ls with [] | (LxNewline _ | LxComma _ | LxObjEnd _ | LxSeqEnd _) :: _ => True | _ => False end.
Definition away (p : nat) (ls : list lexeme) : Prop := stops ls \/ match ls with l :: _ => p < sp_start (lx_span l) | [] => True end.
Definition no_attr (ls : list lexeme) : Prop := forall a k t r, ls <> LxAttrKey a k t :: r.
Definition nl_first (ls : list lexeme) : Prop := ls = [] \/ exists sp r, ls = LxNewline sp :: r.
Lemma nl_stops ls : nl_first ls -> stops ls.
Proof. intros [->|(sp & r & ->)]; exact I. Qed.
Lemma stops_no_attr ls : stops ls -> no_attr ls.
Proof. intros H a k t r ->. exact H. Qed.
Lemma stops_gstop ls : stops ls -> gstop ls [] ls.
Proof. destruct ls as [|[] ls]; intros H; try destruct H; constructor. Qed.
Lemma away_not_at p ls : away p ls -> payload_start ls -> ~ next_at p ls.
Proof.
  intros [H|H] HP (l & r & -> & E).
  - destruct l; (contradiction H || contradiction HP).
  - lia.
Qed.
Lemma away_bare p t ls : away p ls -> ~ bare_at p t ls.
Proof. intros H (sp & r & -> & E). apply (away_not_at _ _ H I). eexists _, _. split; [reflexivity|exact E]. Qed.
Lemma away_glued sp t k ls : away (sp_end sp) ls -> ~ glued (DScalar sp t k) ls.
Proof.
  intros H G. destruct k; try contradiction. destruct ls as [|l ls]; [contradiction|]. destruct H as [H|H]; destruct l; try contradiction; cbn in G, H; lia.
Qed.
Lemma lexd_pos p q s ls : lexd p s ls -> p = q -> lexd q s ls.
Proof. intros H <-. exact H. Qed.
Lemma starts_away p q s ls : lexd q s ls -> p < q -> away p ls.
Proof. intros H L. apply lexd_starts in H. right. destruct H as [|l r H _]; [exact I|lia]. Qed.
Lemma fdelim_soft rest : Fdelim rest -> soft rest.
Proof. intros [->|(c & r & -> & H)]; cbn; [exact I|]. intuition. Qed.
Lemma blanks_of s : forallb is_blank s = true -> blanks s.
Proof. intros H c Hc. rewrite forallb_forall in H. now apply is_blank_iff, H. Qed.

(** ** Acts: what rows stand for *)
Inductive act := AComment (t : str) | ADoc (t : str) | ALine (k v : dval) | AItem (d : dval) | ABraces (acts : list act).
(** The lexemes before [lt] are those of the acts, up to places; [q]: with commas between. *)
Inductive follow : bool -> list lexeme -> list act -> list lexeme -> Prop :=
| fo_end q lt : follow q lt [] lt
| fo_newline q lt sp acts ls : follow q lt acts ls -> follow q lt acts (LxNewline sp :: ls)
| fo_comma lt sp acts ls : follow true lt acts ls -> follow true lt acts (LxComma sp :: ls)
| fo_comment q lt sp t acts ls : follow q lt acts ls -> follow q lt (AComment t :: acts) (LxComment sp t :: ls)
| fo_doc q lt sp t acts ls : follow q lt acts ls -> follow q lt (ADoc t :: acts) (LxDoc sp t :: ls)
| fo_line q lt k v k' v' ls l1 acts : gline ls k' v' [] l1 -> same k k' -> same v v' -> follow q lt acts l1 -> follow q lt (ALine k v :: acts) ls
| fo_item q lt d d' ls l1 acts : gval ls d' [] l1 -> same d d' -> follow q lt acts l1 -> follow q lt (AItem d :: acts) ls
| fo_braces q lt sp inner r e l1 acts : follow true (LxObjEnd e :: l1) inner r -> follow q lt acts l1 ->
    follow q lt (ABraces inner :: acts) (LxObjStart sp :: r).
Definition carries (q : bool) (acts : list act) (ls0 ls : list lexeme) : Prop := forall lt acts', follow q lt acts' ls -> follow q lt (acts ++ acts') ls0.
Lemma carries_nil q ls : carries q [] ls ls.
Proof. intros lt a H. exact H. Qed.
Lemma carries_app q a b x y z : carries q a x y -> carries q b y z -> carries q (a ++ b) x z.
Proof. intros H1 H2 lt a' H. rewrite <- app_assoc. apply H1, H2, H. Qed.
Lemma carries_follow q a x y : carries q a x y -> follow q y a x.
Proof. intros H. rewrite <- (app_nil_r a). apply H, fo_end. Qed.

Lemma blen_lf n : blen (repeat cLF n) = n.
Proof. induction n as [|n IH]; [reflexivity|]. cbn [repeat]. change (blen (cLF :: repeat cLF n)) with (1 + blen (repeat cLF n)). now rewrite IH. Qed.
Lemma lexd_lf p rest ls : lexd (p + 1) rest ls -> lexd p (cLF :: rest) (LxNewline (mkspan p (S p)) :: ls).
Proof. intros H. apply (lexd_sym cLF); [cbn; tauto|]. eapply lexd_pos; [exact H|lia]. Qed.
Lemma newlines_read q n : forall p rest ls, lexd (p + n) rest ls -> exists ls0, lexd p (repeat cLF n ++ rest) ls0 /\ (0 < n -> nl_first ls0) /\ carries q [] ls0 ls.
Proof.
  induction n as [|n IH]; intros p rest ls H.
  - exists ls. splits; [eapply lexd_pos; [exact H|lia]|lia|apply carries_nil].
  - destruct (IH (p + 1) rest ls) as (ls0 & L & _ & C); [eapply lexd_pos; [exact H|lia]|]. cbn [repeat app]. eexists. splits; [apply lexd_lf, L|right; eauto|].
    intros lt a F. apply fo_newline, C, F.
Qed.

Section Fmt.
Variable indent : str.
Hypothesis BI : forallb is_blank indent = true.
Notation ind := (CstFmtProofs.ind indent).
(** [q]: between commas; [m]: each row is a line of its own. *)
Section Rows.
Variables q m : bool.
Definition readr (acts : list act) (h : bool) (s : str) : Prop := forall p rest ls,
  lexd (p + blen s) rest ls -> Fh h rest -> away (p + blen s) ls -> (m = true -> stops ls) ->
  exists ls0, lexd p (s ++ rest) ls0 /\ carries q acts ls0 ls.
Definition prints (f : fstate -> fstate) (lv : nat) (s : str) : Prop :=
  s <> [] /\ forall out b, f (mkf out lv b) = mkf (out ++ ind b lv ++ s) lv false.
Definition WR (acts : list act) (h : bool) (f : fstate -> fstate) : Prop := forall lv, exists s, prints f lv s /\ readr acts h s.
Definition row_of (acts : list act) (h : bool) (f : fstate -> fstate) : Prop := acts = [] /\ h = false /\ (forall st, f st = st) \/ WR acts h f.
Definition ER (f : cst -> fstate -> fstate) (e : cst) (h : bool) (acts : list act) : Prop :=
  (exists cs, e = Node ENTRY cs) /\ (element e -> h = true -> ends_heredoc e = true) /\ row_of acts h (f e).
Definition comment_act (k : tkind) (t : str) : act := match k with DocComment => ADoc t | _ => AComment t end.
Inductive acted (f : cst -> fstate -> fstate) : list cst -> bool -> list act -> Prop :=
| ac_nil : acted f [] false []
| ac_gap k t cs h l : gap_kind k -> acted f cs h l -> acted f (Leaf (LTok k) t :: cs) h l
| ac_comment k t cs h l : k = LineComment \/ k = DocComment -> valid k t -> acted f cs h l -> acted f (Leaf (LTok k) t :: cs) h (comment_act k t :: l)
| ac_last e h l : ER f e h l -> acted f [e] h l
| ac_entry e h0 l0 cs h l : ER f e h0 l0 -> (h0 = true -> exists t cs', cs = Leaf (LTok Newline) t :: cs') ->
    acted f cs h l -> acted f (e :: cs) h (l0 ++ l).
Lemma acted_close f cs h l : acted f cs h l -> h = false -> forall k t, gap_kind k -> acted f (cs ++ [Leaf (LTok k) t]) false l.
Proof.
  intros H. induction H; intros Q k0 t0 G; cbn [app].
  - apply ac_gap; [exact G | apply ac_nil].
  - apply ac_gap; [assumption | apply IHacted; assumption].
  - apply ac_comment; [assumption | assumption | apply IHacted; assumption].
  - subst h. rewrite <- (app_nil_r l). eapply ac_entry; [eassumption | discriminate |]. apply ac_gap; [exact G | apply ac_nil].
  - eapply ac_entry; [eassumption | | apply IHacted; assumption]. intros X. destruct (H0 X) as (t & cs' & ->). cbn. eauto.
Qed.
Lemma acted_empty f cs h l : acted f cs h l -> existsb (is_node ENTRY) cs = false -> existsb is_comment cs = false -> l = [].
Proof.
  intros H. induction H; intros E C; cbn in E, C.
  - reflexivity.
  - apply IHacted; [exact E|]. apply orb_false_iff in C as [_ C]. exact C.
  - destruct H as [-> | ->]; discriminate.
  - destruct H as ((cs & ->) & _). discriminate.
  - destruct H as ((cs' & ->) & _). discriminate.
Qed.

(** ** Rows on lines of their own *)
Definition gapr (wrote : bool) (g : fstate -> fstate) : Prop := forall lv b, exists n b',
  (forall out, g (mkf out lv b) = mkf (out ++ repeat cLF n) lv b') /\ (wrote = true -> 0 < n).
Lemma separate_gapr wrote n : gapr wrote (separate wrote n).
Proof.
  intros lv b. unfold separate. destruct wrote.
  - destruct (2 <=? n).
    + exists 2, true. split; [|lia]. intros out. unfold f_newline. cbn [f_out f_level repeat]. now rewrite <- app_assoc.
    + exists 1, true. split; [reflexivity|lia].
  - exists 0, b. split; [|discriminate]. intros out. cbn. now rewrite app_nil_r.
Qed.
Lemma newlines_gapr (wrote c : bool) : gapr wrote (fun st => if wrote then let st0 := f_newline st in if c then f_newline st0 else st0 else st).
Proof. destruct c; [exact (separate_gapr wrote 2) | exact (separate_gapr wrote 0)]. Qed.

Definition shown (wrote : bool) (acts : list act) (f : fstate -> fstate) : Prop := forall lv b, exists s b',
  (forall out, f (mkf out lv b) = mkf (out ++ s) lv b') /\ forall p rest ls, lexd (p + blen s) rest ls -> Fline rest -> nl_first ls ->
  exists ls0, lexd p (s ++ rest) ls0 /\ (wrote = true -> Fline (s ++ rest) /\ nl_first ls0) /\ carries q acts ls0 ls.
Lemma shown_id wrote : shown wrote [] (fun st => st).
Proof.
  intros lv b. exists [], b. split; [intros; now rewrite app_nil_r|]. intros p rest ls L F N. exists ls. splits; [|auto|apply carries_nil].
  eapply lexd_pos; [exact L|cbn; lia].
Qed.
Lemma shown_row wrote h l l' g f k : gapr wrote g -> row_of l h f -> shown true l' k -> shown wrote (l ++ l') (fun st => k (f (g st))).
Proof.
  intros Hg Hf Hk lv b. destruct (Hg lv b) as (n & b1 & E1 & N1).
  assert (G : exists s2 b2, (forall out, f (mkf out lv b1) = mkf (out ++ s2) lv b2) /\
    forall p rest ls, lexd (p + blen s2) rest ls -> Fline rest -> nl_first ls -> exists ls0, lexd p (s2 ++ rest) ls0 /\ carries q l ls0 ls).
  { destruct Hf as [(-> & _ & Hf)|Hf].
    - exists [], b1. split; [intros; now rewrite Hf, app_nil_r|]. intros p rest ls L _ _. exists ls. split; [eapply lexd_pos; [exact L|cbn; lia]|apply carries_nil].
    - destruct (Hf lv) as (s & (_ & E) & R). exists (ind b1 lv ++ s), false. split; [intros; apply E|]. intros p rest ls L F N.
      destruct (R (p + blen (ind b1 lv)) rest ls) as (ls0 & L0 & C0).
      + eapply lexd_pos; [exact L|rewrite blen_app; lia].
      + apply line_fh, F.
      + left. apply nl_stops, N.
      + intros _. apply nl_stops, N.
      + exists ls0. split; [|exact C0]. rewrite <- app_assoc. apply lexd_blanks; [apply blanks_of, ind_blank, BI|exact L0]. }
  destruct G as (s2 & b2 & E2 & R2). destruct (Hk lv b2) as (s3 & b3 & E3 & R3). exists (repeat cLF n ++ s2 ++ s3), b3. split; [intros out; now rewrite E1, E2, E3, <- !app_assoc|].
  intros p rest ls L F N. rewrite !blen_app, blen_lf in L.
  destruct (R3 (p + n + blen s2) rest ls) as (ls3 & L3 & N3 & C3); [eapply lexd_pos; [exact L|lia]|exact F|exact N|]. destruct (N3 eq_refl) as [F3 N3'].
  destruct (R2 (p + n) (s3 ++ rest) ls3 L3 F3 N3') as (ls2 & L2 & C2). destruct (newlines_read q n p _ _ L2) as (ls1 & L1 & NL & C1).
  exists ls1. rewrite <- !app_assoc. splits; [exact L1| |exact (carries_app _ _ _ _ _ _ C1 (carries_app _ _ _ _ _ _ C2 C3))].
  intros W. specialize (N1 W). split; [|now apply NL]. destruct n as [|n]; [lia|]. right. eexists. reflexivity.
Qed.
Lemma shown_ext wrote l f g : (forall st, f st = g st) -> shown wrote l f -> shown wrote l g.
Proof. intros E H lv b. destruct (H lv b) as (s & b' & E1 & R). exists s, b'. split; [|exact R]. intros. now rewrite <- E. Qed.
Lemma comment_row k t : valid k t -> k = LineComment \/ k = DocComment -> row_of [comment_act k t] true (f_write indent t).
Proof.
  intros V K. right. intros lv. exists t. split; [split; [apply V|intros; apply write_eq, V]|]. intros p rest ls L F A _.
  assert (FO : follows k rest) by (destruct K as [-> | ->]; destruct F as [->|(r & ->)]; reflexivity).
  destruct V as (NE & _ & V). specialize (V _ FO).
  destruct K as [-> | ->].
  - eexists. split; [apply lexd_comment; eassumption|]. intros lt a X. apply fo_comment, X.
  - eexists. split; [apply lexd_docline; eassumption|]. intros lt a X. apply fo_doc, X.
Qed.
Lemma lines_shown f cs h l : acted f cs h l -> forall wrote n, shown wrote l (lines indent f wrote n cs).
Proof.
  intros H. induction H; intros wrote n.
  - apply shown_id.
  - destruct H as [->|[->|[->|[->|[->|[-> | ->]]]]]]; cbn [lines]; apply IHacted.
  - apply shown_ext with (f := fun st => lines indent f true 0 cs (f_write indent t (separate wrote n st))).
    { intros st. destruct H as [-> | ->]; reflexivity. }
    apply (shown_row wrote true [comment_act k t] l (separate wrote n) (f_write indent t)); [apply separate_gapr | apply comment_row; assumption | apply IHacted].
  - destruct H as ((cs & ->) & _ & H). cbn [lines]. rewrite <- (app_nil_r l).
    apply (shown_row wrote h l [] (separate wrote n) (f (Node ENTRY cs)) (fun st => st)); [apply separate_gapr | exact H | apply shown_id].
  - destruct H as ((cs' & ->) & _ & H). cbn [lines].
    apply (shown_row wrote h0 l0 l (separate wrote n) (f (Node ENTRY cs'))); [apply separate_gapr | exact H | apply IHacted].
Qed.
Lemma doc_lines_shown f cs h l : acted f cs h l -> forall before wrote n prev jd, shown wrote l (doc_lines indent f before wrote n prev jd cs).
Proof.
  intros H. induction H; intros before wrote n prev jd.
  - apply shown_id.
  - destruct H as [->|[->|[->|[->|[->|[-> | ->]]]]]]; cbn [doc_lines]; apply IHacted.
  - destruct H as [-> | ->]; cbn [doc_lines].
    + apply (shown_row wrote true [AComment t] l (separate wrote n) (f_write indent t)); [apply separate_gapr | apply (comment_row LineComment); tauto | apply IHacted].
    + eapply (shown_row wrote true [ADoc t] l _ (f_write indent t)); [apply newlines_gapr | apply (comment_row DocComment); tauto | apply IHacted].
  - destruct H as ((cs & ->) & _ & H). cbn [doc_lines]. rewrite <- (app_nil_r l).
    eapply (shown_row wrote h l [] _ (f (Node ENTRY cs)) (fun st => st)); [apply newlines_gapr | exact H | apply shown_id].
  - destruct H as ((cs' & ->) & _ & H). cbn [doc_lines].
    eapply (shown_row wrote h0 l0 l _ (f (Node ENTRY cs'))); [apply newlines_gapr | exact H | apply IHacted].
Qed.

(** ** Rows on one line *)
Inductive inrow (f : cst -> fstate -> fstate) : list cst -> list act -> Prop :=
| ir_nil : inrow f [] []
| ir_gap k t cs l : inrow f cs l -> inrow f (Leaf k t :: cs) l
| ir_entry cs0 l0 cs l : row_of l0 false (f (Node ENTRY cs0)) -> inrow f cs l -> inrow f (Node ENTRY cs0 :: cs) (l0 ++ l).
Lemma acted_inrow f cs h l : acted f cs h l -> h = false -> existsb is_comment cs = false -> has_line_separator cs = false -> inrow f cs l.
Proof.
  intros H. unfold has_line_separator. induction H; intros Q C N; cbn [existsb] in C, N; try apply orb_false_iff in C as [C1 C2]; try apply orb_false_iff in N as [N1 N2].
  - apply ir_nil.
  - apply ir_gap. apply IHacted; assumption.
  - exfalso. destruct H as [-> | ->]; discriminate.
  - destruct H as ((cs & ->) & _ & H). subst h. rewrite <- (app_nil_r l). apply ir_entry; [exact H|apply ir_nil].
  - destruct H as ((cs' & ->) & _ & H). destruct h0.
    { destruct (H0 eq_refl) as (t & x & ->). discriminate. }
    apply ir_entry; [exact H | apply IHacted; assumption].
Qed.
Lemma acted_inrow_calm f cs h l : acted f cs h l -> existsb is_comment cs = false -> Forall element cs ->
  existsb ends_heredoc (filter (is_node ENTRY) cs) = false -> inrow f cs l.
Proof.
  intros H. induction H; intros C EL N; cbn [existsb] in C; try apply orb_false_iff in C as [C1 C2].
  - apply ir_nil.
  - inversion EL; subst. apply ir_gap. apply IHacted; assumption.
  - exfalso. destruct H as [-> | ->]; discriminate.
  - destruct H as ((cs & ->) & E & H). inversion EL; subst. cbn in N.
    assert (h = false) as -> by (destruct h; [|reflexivity]; rewrite (E ltac:(assumption) eq_refl) in N; discriminate).
    rewrite <- (app_nil_r l). apply ir_entry; [exact H|apply ir_nil].
  - destruct H as ((cs' & ->) & E & H). inversion EL; subst. cbn [filter is_node nkind_eqb existsb] in N. apply orb_false_iff in N as [N1 N2].
    assert (h0 = false) as -> by (destruct h0; [|reflexivity]; rewrite (E ltac:(assumption) eq_refl) in N1; discriminate).
    apply ir_entry; [exact H | apply IHacted; assumption].
Qed.
Definition sepr (sep : str) : Prop := sep = lit ", " /\ q = true \/ sep = lit " " /\ m = false.
Lemma inrow_none f cs l : inrow f cs l -> existsb (is_node ENTRY) cs = false -> l = [].
Proof. intros H. induction H; intros E; [reflexivity | apply IHinrow; exact E | discriminate]. Qed.
Lemma inrow_between f sep cs l : sepr sep -> inrow f cs l -> forall lv, exists s,
  (forall out, nodes_between indent f ENTRY sep cs (mkf out lv false) = mkf (out ++ s) lv false) /\ readr l false s.
Proof.
  intros SO H lv. assert (N0 : readr [] false []).
  { intros p rest ls L _ _ _. exists ls. split; [eapply lexd_pos; [exact L|cbn; lia]|apply carries_nil]. }
  induction H; cbn [nodes_between].
  - exists []. split; [intros; now rewrite app_nil_r|exact N0].
  - cbn [is_node]. exact IHinrow.
  - cbn [is_node nkind_eqb]. destruct IHinrow as (s & E & R).
    assert (G : exists s0, (forall out, f (Node ENTRY cs0) (mkf out lv false) = mkf (out ++ s0) lv false) /\ readr l0 false s0).
    { destruct H as [(-> & _ & H)|H]; [exists []; split; [intros; now rewrite H, app_nil_r|exact N0]|].
      destruct (H lv) as (s0 & (_ & E0) & R0). exists s0. split; [|exact R0]. intros. rewrite E0. reflexivity. }
    destruct G as (s0 & E0 & R0). destruct (existsb (is_node ENTRY) cs) eqn:X.
    + exists (s0 ++ sep ++ s). split.
      * intros out. rewrite E0, write_eq, E by (destruct SO as [[-> _]|[-> _]]; discriminate). cbn [CstFmtProofs.ind app]. now rewrite <- !app_assoc.
      * intros p rest ls L F A ST. rewrite !blen_app in L, A. destruct (R (p + blen s0 + blen sep) rest ls) as (ls1 & L1 & C1).
        { eapply lexd_pos; [exact L|lia]. } { exact F. } { now rewrite <- !Nat.add_assoc. } { exact ST. }
        rewrite <- !app_assoc. destruct SO as [[-> Q]|[-> M]].
        -- assert (Lc : lexd (p + blen s0) (lit ", " ++ s ++ rest) (LxComma (mkspan (p + blen s0) (S (p + blen s0))) :: ls1)).
           { apply (lexd_sym cCOMMA); [cbn; tauto|]. apply (lexd_blanks [cSP]); [apply blanks_of; reflexivity|]. eapply lexd_pos; [exact L1|cbn; lia]. }
           destruct (R0 p _ _ Lc) as (ls0 & L0 & C0).
           { right. eexists _, _. split; [reflexivity|tauto]. } { left. exact I. } { intros _. exact I. }
           exists ls0. split; [exact L0|]. intros lt a X'. rewrite <- app_assoc. apply C0. rewrite Q in *. apply fo_comma, C1, X'.
        -- assert (Lc : lexd (p + blen s0) (lit " " ++ s ++ rest) ls1).
           { apply (lexd_blanks [cSP]); [apply blanks_of; reflexivity|]. eapply lexd_pos; [exact L1|cbn; lia]. }
           destruct (R0 p _ _ Lc) as (ls0 & L0 & C0).
           { right. eexists _, _. split; [reflexivity|tauto]. } { eapply starts_away; [exact L1|cbn; lia]. } { rewrite M. discriminate. }
           exists ls0. split; [exact L0|]. eapply carries_app; eassumption.
    + pose proof (inrow_none _ _ _ H0 X) as ->. exists s0. rewrite app_nil_r. split; [|exact R0].
      intros out. rewrite E0. apply between_none. exact X.
Qed.

(** ** Brackets *)
Definition bracketed (o c : char) (acts : list act) (s : str) : Prop := forall p rest ls, lexd (p + blen s) rest ls ->
  exists e r, lexd p (s ++ rest) (sym_lexeme o (mkspan p (S p)) :: r) /\ follow q (sym_lexeme c e :: ls) acts r.
Definition pair_of (o c : char) : Prop := o = cLB /\ c = cRB \/ o = cLP /\ c = cRP.
Lemma bracket_lines f cs h l o c : pair_of o c -> acted f cs h l -> forall lv, exists s',
  prints (fun st => f_write indent [c] (f_dedent (f_newline (lines indent f false 0 cs (f_indent (f_newline (f_write indent [o] st))))))) lv (o :: s') /\
  bracketed o c l (o :: s').
Proof.
  intros OC H lv. destruct (lines_shown _ _ _ _ H false 0 (S lv) true) as (s & b' & E & R).
  exists ([cLF] ++ s ++ [cLF] ++ ind true lv ++ [c]). split; [split; [discriminate|]|].
  - intros out b. rewrite write_eq by discriminate. unfold f_newline at 2, f_indent. cbn [f_out f_level f_start].
    rewrite E. unfold f_newline, f_dedent. cbn [f_out f_level f_start pred]. rewrite write_eq by discriminate. rewrite <- !app_assoc. reflexivity.
  - intros p rest ls L. assert (Bo : blen [o] = 1 /\ blen [c] = 1 /\ In o [cLB; cRB; cLP; cRP; cCOMMA; cLF] /\ In c [cLB; cRB; cLP; cRP; cCOMMA; cLF]) by (destruct OC as [[-> ->]|[-> ->]]; splits; try reflexivity; cbn; tauto).
    destruct Bo as (Bo & Bc & Io & Ic). change (o :: [cLF] ++ s ++ [cLF] ++ ind true lv ++ [c]) with ([o] ++ [cLF] ++ s ++ [cLF] ++ ind true lv ++ [c]) in L |- *.
    rewrite !blen_app in L. rewrite Bo, Bc in L. change (blen [cLF]) with 1 in L.
    set (pc := p + 2 + blen s + 1 + blen (ind true lv)).
    assert (L1 : lexd pc (c :: rest) (sym_lexeme c (mkspan pc (S pc)) :: ls)) by (apply lexd_sym; [exact Ic|]; eapply lexd_pos; [exact L|unfold pc; lia]).
    assert (L2 : lexd (p + 2 + blen s) (cLF :: ind true lv ++ c :: rest) (LxNewline (mkspan (p + 2 + blen s) (S (p + 2 + blen s))) :: sym_lexeme c (mkspan pc (S pc)) :: ls)).
    { apply lexd_lf. apply lexd_blanks; [apply blanks_of, ind_blank, BI|]. eapply lexd_pos; [exact L1|unfold pc; lia]. }
    destruct (R (p + 2) _ _ L2) as (ls0 & L0 & _ & C0); [right; eauto|right; eauto|].
    exists (mkspan pc (S pc)), (LxNewline (mkspan (S p) (S (S p))) :: ls0). split.
    + rewrite <- !app_assoc. cbn [app]. apply lexd_sym; [exact Io|]. apply lexd_lf. eapply lexd_pos; [exact L0|lia].
    + apply fo_newline. rewrite <- (app_nil_r l). apply C0. apply fo_newline, fo_end.
Qed.
Lemma bracket_row f sep cs l o c : pair_of o c -> inrow f cs l -> sepr sep -> forall lv, exists s',
  prints (fun st => f_write indent [c] (nodes_between indent f ENTRY sep cs (f_write indent [o] st))) lv (o :: s') /\ bracketed o c l (o :: s').
Proof.
  intros OC H SO lv. destruct (inrow_between _ _ _ _ SO H lv) as (s & E & R). exists (s ++ [c]). split; [split; [discriminate|]|].
  - intros out b. rewrite write_eq by discriminate. rewrite E. rewrite write_eq by discriminate. cbn [CstFmtProofs.ind app]. rewrite <- !app_assoc. reflexivity.
  - intros p rest ls L. assert (Bo : blen [o] = 1 /\ blen [c] = 1 /\ In o [cLB; cRB; cLP; cRP; cCOMMA; cLF] /\ In c [cLB; cRB; cLP; cRP; cCOMMA; cLF]) by (destruct OC as [[-> ->]|[-> ->]]; splits; try reflexivity; cbn; tauto).
    destruct Bo as (Bo & Bc & Io & Ic). change (o :: s ++ [c]) with ([o] ++ s ++ [c]) in L |- *. rewrite !blen_app, Bo, Bc in L.
    set (pc := S p + blen s). assert (L1 : lexd pc (c :: rest) (sym_lexeme c (mkspan pc (S pc)) :: ls)) by (apply lexd_sym; [exact Ic|]; eapply lexd_pos; [exact L|unfold pc; lia]).
    destruct (R (S p) _ _ L1) as (ls0 & L0 & C0).
    { cbn [Fh]. apply delim_close. destruct OC as [[_ ->]|[_ ->]]; tauto. } { left. destruct OC as [[_ ->]|[_ ->]]; exact I. } { intros _. destruct OC as [[_ ->]|[_ ->]]; exact I. }
    exists (mkspan pc (S pc)), ls0. split; [|now apply carries_follow]. rewrite <- !app_assoc. cbn [app]. apply lexd_sym; [exact Io|exact L0].
Qed.
End Rows.
End Fmt.
