(** Proofs about the lexer of the Python implementation. *)
From Verif Require Import Base BaseProofs PyModel PySpec.
Ltac splits := repeat match goal with |- _ /\ _ => split end.

Ltac eqs :=
  repeat match goal with
  | H : N.eqb _ _ = true |- _ => apply N.eqb_eq in H
  | H : N.eqb _ _ = false |- _ => apply N.eqb_neq in H
  | H : _ || _ = false |- _ => apply orb_false_iff in H; destruct H
  | H : _ && _ = true |- _ => apply andb_true_iff in H; destruct H
  end; subst.

(** ** Gaps *)
Definition is_nil (q : str) : bool := match q with [] => true | _ => false end.

Lemma py_blank_iff c : py_blank c = true <-> blank c \/ c = cCR.
Proof. unfold py_blank, blank. rewrite !orb_true_iff, !N.eqb_eq. tauto. Qed.

Lemma skip_spec : forall s ws nl q,
  (skip false s = (ws, nl, q) -> exists g, s = g ++ q /\ gap (is_nil q) g /\ (ws = true <-> g <> []) /\ (nl = true <-> In cLF g)
     /\ (q = [] \/ begins q))
  /\ (skip true s = (ws, nl, q) -> exists body g, s = body ++ g ++ q /\ no_lf body /\ (nl = true <-> In cLF g) /\ (q = [] \/ begins q) /\
        ((g = [] /\ q = []) \/ exists g', g = cLF :: g' /\ gap (is_nil q) g)).
Proof.
  induction s as [|c r IH]; intros ws nl q; split; cbn [skip].
  - intros [= <- <- <-]. exists []. repeat split; try discriminate; try tauto; try congruence; try constructor; try contradiction; auto.
  - intros [= <- <- <-]. exists [], []. repeat split; try discriminate; auto; intros [].
  - destruct (c =? cLF)%N eqn:E1; [|destruct (py_blank c) eqn:E2; [|destruct ((c =? cSLASH)%N && starts_with [cSLASH] r) eqn:E3]]; eqs.
    + destruct (skip false r) as [[w n] q'] eqn:S. intros [= <- <- <-]. destruct (proj1 (IH _ _ _) eq_refl) as (g & -> & G & _ & _ & B).
      exists (cLF :: g). repeat split; try discriminate; auto; [constructor; auto | intros _; now left].
    + destruct (skip false r) as [[w n] q'] eqn:S. intros [= <- <- <-]. destruct (proj1 (IH _ _ _) eq_refl) as (g & -> & G & _ & N & B).
      exists (c :: g). repeat split; try discriminate; auto.
      * constructor; auto. apply py_blank_iff in E2. tauto.
      * intros X. right. tauto.
      * intros [->|X]; [congruence|tauto].
    + destruct (skip true r) as [[w n] q'] eqn:S. intros [= <- <- <-]. destruct (proj2 (IH _ _ _) eq_refl) as (body & g & Er & L & N & B & C).
      apply starts_with_iff in H0 as (r' & ->).
      destruct body as [|d body]; [cbn in Er|cbn in Er; injection Er as <- Er].
      { destruct C as [[-> ->]|(g' & -> & G)]; cbn in Er; discriminate. }
      rewrite Er. destruct C as [[-> ->]|(g' & -> & G)].
      * exists (cSLASH :: cSLASH :: body). repeat split; try discriminate; auto.
                -- apply gap_last; [reflexivity|]. intros X. apply L. now right.
        -- intros X. apply N in X. destruct X.
        -- intros [X|[X|X]]; try discriminate. destruct L. now right.
      * exists (cSLASH :: cSLASH :: body ++ cLF :: g'). repeat split; try discriminate; auto.
        -- cbn. now rewrite <- !app_assoc.
        -- apply gap_comment; auto. intros X. apply L. now right.
        -- intros _. right. right. apply in_or_app. right. now left.
        -- intros _. apply N. now left.
    + intros [= <- <- <-]. exists []. repeat split; try discriminate; try tauto; try congruence; try contradiction; [constructor|]. right. exists c, r. repeat split; auto.
      * intros B. apply Bool.not_true_iff_false in E2. apply E2, py_blank_iff. now left.
      * intros ->. discriminate E2.
      * intros [-> [q ->]]. cbn in E3. discriminate.
  - destruct (c =? cLF)%N eqn:E1; eqs.
    + destruct (skip false r) as [[w n] q'] eqn:S. intros [= <- <- <-]. destruct (proj1 (IH _ _ _) eq_refl) as (g & -> & G & _ & _ & B).
      exists [], (cLF :: g). repeat split; auto; [intros [] | intros _; now left |]. right. exists g. split; [reflexivity|constructor; auto].
    + intros S. destruct (proj2 (IH _ _ _) S) as (body & g & -> & L & N & B & C). exists (c :: body), g. repeat split; auto; try apply N.
      intros [->|X]; [congruence | now apply L].
Qed.

(** ** Raw strings *)
Lemma raw_body_spec close : close <> [] -> forall s acc,
  match raw_body close acc s with
  | Some (t, q) => exists m, t = acc ++ m /\ s = m ++ close ++ q /\ forall a b, s = a ++ close ++ b -> length m <= length a
  | None => forall a b, s <> a ++ close ++ b
  end.
Proof.
  intros Hc. induction s as [|c r IH]; intros acc; cbn [raw_body].
  - intros [|] b; cbn; [|discriminate]. destruct close; [congruence|discriminate].
  - destruct (starts_with close (c :: r)) eqn:E.
    + apply starts_with_iff in E as (q & E). exists []. rewrite app_nil_r. repeat split; [|cbn; lia].
      rewrite E. cbn. now rewrite skipn_app, skipn_all, Nat.sub_diag.
    + pose proof (proj1 (starts_with_false _ _) E) as F. specialize (IH (acc ++ [c])). destruct (raw_body close (acc ++ [c]) r) as [[t q]|].
      * destruct IH as (m & -> & -> & M). exists (c :: m). rewrite <- app_assoc. repeat split.
        intros [|x a] b X; [exfalso; apply (F b); exact X|]. cbn in X. injection X as <- X. cbn. apply M in X. lia.
      * intros [|x a] b X; [apply (F b); exact X|]. cbn in X. injection X as <- X. now apply IH in X.
Qed.

(** ** Heredocs *)
Lemma lstrip_spec s : exists b, s = b ++ lstrip s /\ Forall blank b /\ ends_at (fun c => ~ blank c) (lstrip s).
Proof.
  induction s as [|c s (b & E & B & X)]; cbn [lstrip]; [exists []; repeat split; [constructor|now left]|].
  destruct ((c =? cSP)%N || (c =? cTAB)%N) eqn:H.
  - exists (c :: b). rewrite <- app_comm_cons, <- E. repeat split; auto. constructor; auto.
    apply orb_true_iff in H. rewrite !N.eqb_eq in H. exact H.
  - exists []. repeat split; [constructor|]. right. exists c, s. split; [reflexivity|]. eqs. intros [|]; congruence.
Qed.
Lemma lstrip_app b s : Forall blank b -> ends_at (fun c => ~ blank c) s -> lstrip (b ++ s) = s.
Proof.
  intros B X. induction B as [|c b H _ IH]; cbn.
  - destruct X as [->|(c & r & -> & X)]; [reflexivity|]. cbn. destruct (c =? cSP)%N eqn:E1; [|destruct (c =? cTAB)%N eqn:E2]; eqs; auto;
      exfalso; apply X; [left|right]; reflexivity.
  - destruct H as [-> | ->]; exact IH.
Qed.

Lemma dedent_line n : forall l k, no_lf l -> exists l', dedents_line k l l' /\
  forall rest, ends_at (eq cLF) rest -> dedent n k (l ++ rest) = l' ++ dedent n 0 rest.
Proof.
  assert (Z : forall rest k, ends_at (eq cLF) rest -> dedent n k rest = dedent n 0 rest).
  { intros rest k [->|(c & r & -> & <-)]; reflexivity. }
  induction l as [|c l IH]; intros k L.
  - exists []. split; [|intros rest R; cbn; auto]. exists []. repeat split; [constructor|cbn; lia|]. right. now left.
  - assert (Lc : (c =? cLF)%N = false) by (apply N.eqb_neq; intros ->; apply L; now left).
    assert (L' : no_lf l) by (intros X; apply L; now right).
    destruct k as [|k].
    + destruct (IH 0 L') as (l' & (b & E & B & Bl & _) & D). destruct b; [|cbn in Bl; lia]. cbn in E. subst l'.
      exists (c :: l). split; [exists []; repeat split; [constructor|cbn; lia|now left]|].
      intros rest R. cbn. rewrite Lc. now rewrite D.
    + cbn [app dedent]. rewrite Lc. destruct ((c =? cSP)%N || (c =? cTAB)%N) eqn:Eb.
      * destruct (IH k L') as (l' & (b & E & B & Bl & M) & D). exists l'. split; [|exact D]. exists (c :: b). rewrite E. cbn.
        repeat split; [constructor; auto|lia|destruct M; auto].
        apply orb_true_iff in Eb. rewrite !N.eqb_eq in Eb. exact Eb.
      * destruct (IH 0 L') as (l' & (b & E & B & Bl & _) & D). destruct b; [|cbn in Bl; lia]. cbn in E. subst l'.
        exists (c :: l). split.
        -- exists []. repeat split; [constructor|cbn; lia|]. right. right. exists c, l. split; [reflexivity|]. eqs. intros [|]; congruence.
        -- intros rest R. cbn. now rewrite D.
Qed.

Lemma split_lf (s : str) : exists l r, s = l ++ r /\ no_lf l /\ ends_at (eq cLF) r.
Proof.
  induction s as [|c s (l & r & -> & L & R)]; [exists [], []; repeat split; [intros []|now left]|].
  destruct (N.eq_dec c cLF) as [->|N].
  - exists [], (cLF :: l ++ r). repeat split; [intros []|right; eauto].
  - exists (c :: l), r. repeat split; auto. intros [X|X]; [congruence|now apply L].
Qed.

Lemma dedent_spec n : forall s, dedents n s (dedent n n s).
Proof.
  intros s. remember (length s) as m eqn:Em. revert s Em. induction m as [m IH] using lt_wf_ind. intros s ->.
  destruct (split_lf s) as (l & r & -> & L & R). destruct (dedent_line n l n L) as (l' & D & E). rewrite (E r R).
  destruct R as [->|(c & r' & -> & <-)].
  - cbn. rewrite !app_nil_r. now constructor.
  - cbn [dedent]. rewrite N.eqb_refl. apply ded_line; auto. apply (IH (length r')); [|reflexivity]. rewrite app_length. cbn. lia.
Qed.

Lemma no_lf_split a b a' b' : no_lf a -> no_lf a' -> a ++ cLF :: b = a' ++ cLF :: b' -> a = a' /\ b = b'.
Proof.
  revert a'. induction a as [|x a IH]; intros [|y a'] L L' E; cbn in E.
  - now injection E.
  - injection E as E _. destruct L'. now left.
  - injection E as E _. destruct L. now left.
  - injection E as <- E. apply IH in E as [-> ->]; auto; intros X; [apply L|apply L']; now right.
Qed.

Lemma line_of_app l text line : full_lines text -> no_lf line -> line_of l (text ++ line ++ [cLF]) -> line_of l text \/ l = line.
Proof.
  intros F N (a & b & E & L & A).
  assert (S : forall (x y u v : str), x ++ y = u ++ v -> (exists z, x = u ++ z /\ v = z ++ y) \/ (exists z, u = x ++ z /\ y = z ++ v)).
  { induction x as [|c x IH]; intros y u v H; [right; exists u; auto|]. destruct u as [|d u]; [left; exists (c :: x); auto|].
    cbn in H. injection H as <- H. destruct (IH _ _ _ H) as [(z & -> & ->)|(z & -> & ->)]; [left|right]; exists z; auto. }
  destruct (S _ _ _ _ E) as [(z & -> & Ez)|(z & -> & Ez)].
  - destruct (list_eq_dec N.eq_dec z []) as [->|Nz].
    { right. cbn in Ez. symmetry in Ez. apply no_lf_split in Ez as [-> _]; auto. }
    assert (Z : exists z', z = z' ++ [cLF]).
    { destruct F as [F|(t & F)]; [destruct a; [now subst|discriminate]|].
      destruct (exists_last Nz) as (z' & x & ->). exists z'. rewrite app_assoc in F. apply app_inj_tail in F as [_ ->]. reflexivity. }
    left. destruct (S _ _ _ _ Ez) as [(y & El & _)|(y & -> & Ey)].
    { exfalso. destruct Z as (z' & ->). apply L. rewrite El. rewrite !in_app_iff. left. right. now left. }
    destruct y as [|c y].
    { exfalso. destruct Z as (z' & Z). apply L. rewrite app_nil_r in Z. rewrite Z. apply in_or_app. right. now left. }
    cbn in Ey. injection Ey as <- _. exists a, y. auto.
  - destruct A as [A|(a' & A)].
    { destruct z; [|destruct text; discriminate]. rewrite app_nil_r in A. right. cbn in Ez. now apply no_lf_split in Ez as [<- _]. }
    destruct (list_eq_dec N.eq_dec z []) as [->|Nz]; [right; cbn in Ez; now apply no_lf_split in Ez as [<- _]|].
    exfalso. destruct (exists_last Nz) as (z' & x & ->). rewrite app_assoc in A. apply app_inj_tail in A as [_ ->].
    rewrite <- app_assoc in Ez. cbn in Ez.
    assert (Y : z' = [] \/ exists u v, z' = u ++ v /\ no_lf u) by (right; exists [], z'; split; [reflexivity|intros []]).
    clear Y. destruct (split_lf z') as (u & v & -> & U & [->|(c & v' & -> & <-)]).
    + rewrite app_nil_r in Ez. apply no_lf_split in Ez as [_ Ez]; auto. destruct l; discriminate.
    + rewrite <- app_assoc in Ez. cbn in Ez. apply no_lf_split in Ez as [_ Ez]; auto. destruct v'; discriminate.
Qed.

Section heredoc.
Variable bare : str.
Hypothesis bare_first : exists c r, bare = c :: r /\ ~ blank c.

Lemma bare_ends : ends_at (fun c => ~ blank c) bare.
Proof. right. exact bare_first. Qed.

Lemma closes_spec text line : match closes bare text line with
  | Some t => exists ind, line = ind ++ bare /\ Forall blank ind /\ (ind = [] /\ t = text \/ ind <> [] /\ dedents (length ind) text t)
  | None => ~ closing bare line
  end.
Proof.
  unfold closes. destruct (str_eqb line bare) eqn:E1.
  - apply str_eqb_eq in E1 as ->. exists []. repeat split; [constructor|now left].
  - apply str_eqb_neq in E1. destruct (str_eqb (lstrip line) bare) eqn:E2.
    + apply str_eqb_eq in E2. destruct (lstrip_spec line) as (b & E & B & _). rewrite E2 in E. exists b. repeat split; auto. right.
      split; [intros ->; now apply E1|]. rewrite E2. replace (length line - length bare) with (length b) by (rewrite E, app_length; lia).
      apply dedent_spec.
    + apply str_eqb_neq in E2. intros (b & B & ->). apply E2. apply lstrip_app; auto. apply bare_ends.
Qed.

Lemma heredoc_body_spec : forall s text line, full_lines text -> no_lf line -> (forall l, line_of l text -> ~ closing bare l) ->
  match heredoc_body bare text line s with
  | Some (t, q) => exists body ind, text ++ line ++ s = body ++ ind ++ bare ++ q /\ full_lines body /\ Forall blank ind /\
      (forall l, line_of l body -> ~ closing bare l) /\ (ind = [] /\ t = body \/ ind <> [] /\ dedents (length ind) body t) /\ ends_at (eq cLF) q
  | None => forall l, line_of l (text ++ line ++ s ++ [cLF]) -> ~ closing bare l
  end.
Proof.
  assert (F2 : forall text line : str, full_lines (text ++ line ++ [cLF])) by (intros; right; rewrite app_assoc; eauto).
  induction s as [|c r IH]; intros text line F N C; cbn [heredoc_body].
  - pose proof (closes_spec text line) as K. cbn [app] in *. destruct line as [|x line].
    { intros l X Y. apply line_of_app in X as [X| ->]; auto; [now apply C in X|]. destruct Y as (b & _ & Y).
      destruct bare_first as (c & r & -> & _). destruct b; discriminate. }
    destruct (closes bare text (x :: line)) as [t|].
    + destruct K as (ind & E & B & K). exists text, ind. rewrite E, !app_nil_r. repeat match goal with |- _ /\ _ => split end; auto. now left.
    + intros l X. apply line_of_app in X as [X| ->]; auto.
  - destruct (c =? cLF)%N eqn:E; eqs.
    + pose proof (closes_spec text line) as K. destruct (closes bare text line) as [t|].
      * destruct K as (ind & -> & B & K). exists text, ind. rewrite <- !app_assoc. repeat match goal with |- _ /\ _ => split end; auto. right. eauto.
      * specialize (IH (text ++ line ++ [cLF]) []). cbn [app] in IH.
        assert (C' : forall l, line_of l (text ++ line ++ [cLF]) -> ~ closing bare l).
        { intros l X. apply line_of_app in X as [X| ->]; auto. }
        specialize (IH (F2 _ _) (fun x => x) C'). rewrite <- !app_assoc in IH. exact IH.
    + specialize (IH text (line ++ [c]) F). rewrite <- !app_assoc in IH. apply IH; auto. unfold no_lf. rewrite in_app_iff.
      intros [X|[X|[]]]; [now apply N|congruence].
Qed.
End heredoc.

(** ** Characters *)
Lemma forallb_Forall (P : char -> Prop) (p : char -> bool) s : (forall c, p c = true -> P c) -> forallb p s = true -> Forall P s.
Proof. intros H F. apply Forall_forall. intros x I. apply H. rewrite forallb_forall in F. auto. Qed.
Lemma stop_ends (P : char -> Prop) (p : char -> bool) (s : str) : (forall c, p c = false -> P c) ->
  match s with [] => True | c :: _ => p c = false end -> ends_at P s.
Proof. intros H. destruct s; [now left|]. right. eauto. Qed.

Lemma special_iff c : py_special c = true <-> delimits c.
Proof. unfold py_special, delimits, blank. rewrite !orb_true_iff, !N.eqb_eq. tauto. Qed.
Lemma tag_start_iff c : tag_start c = true <-> letter c \/ c = cUS.
Proof. unfold tag_start, is_alpha, is_upper, is_lower, in_range, letter. rewrite !orb_true_iff, N.eqb_eq. lia. Qed.
Lemma tag_char_iff c : tag_char c = true <-> name_char c.
Proof. unfold tag_char, is_alnum, is_alpha, is_upper, is_lower, is_digit, in_range, name_char, letter. rewrite !orb_true_iff, !N.eqb_eq. lia. Qed.
Lemma single_some c k : single c = Some k -> punctuation k c.
Proof.
  unfold single. repeat match goal with |- context [if ?b then _ else _] => destruct b eqn:?; [intros [= <-]; now apply N.eqb_eq|] end. discriminate.
Qed.
Lemma single_none c : single c = None -> c <> cLB /\ c <> cRB /\ c <> cLP /\ c <> cRP /\ c <> cCOMMA /\ c <> cGT.
Proof.
  unfold single. repeat match goal with |- context [if ?b then _ else _] => destruct b eqn:?; [discriminate|] end. intros _. eqs. splits; auto.
Qed.

Lemma at_app total p s : total = p ++ s -> at_ total s = blen p.
Proof. intros ->. unfold at_. rewrite blen_app. lia. Qed.

(** ** Quoted strings *)
Section lexer.
Variable isupper : char -> bool.
Variable int16 : str -> option Z.
Notation code := (code int16).
Notation decodes := (decodes int16).
Notation chr16 := (chr16 int16).

Lemma chr16_spec hex : match chr16 hex with Some c => code hex c | None => forall c, ~ code hex c end.
Proof.
  unfold PyModel.chr16. destruct (int16 hex) as [z|] eqn:E.
  - destruct ((0 <=? z) && (z <? 1114112))%Z eqn:B.
    + exists z. splits; auto; try lia.
    + intros c (z' & E' & R & _). rewrite E in E'. injection E' as <-. lia.
  - intros c (z & E' & _). congruence.
Qed.

Definition pre (m : qmode) : str :=
  match m with
  | QText => [] | QEsc _ => [cBSL] | QU => [cBSL; cu] | QBrace hex => cBSL :: cu :: cLB :: hex | QFour _ hex => cBSL :: cu :: hex
  end.
Definition mode_ok (m : qmode) : Prop :=
  match m with
  | QBrace hex => ~ In cRB hex
  | QFour n hex => exists c r, hex = c :: r /\ c <> cLB /\ 0 < n /\ length r + n = 3
  | _ => True
  end.
Variable total : str.
Notation at_ := (at_ total).
Lemma at_le s : at_ s <= blen total. Proof. unfold PyModel.at_. lia. Qed.
Lemma at_cons c s : at_ (c :: s) <= at_ s. Proof. unfold PyModel.at_. cbn. lia. Qed.
Lemma at_tl s : at_ s <= at_ (tl s). Proof. destruct s; cbn; [lia|apply at_cons]. Qed.

Definition qgood (start : nat) (acc s : str) (r : pyres (str * str)) : Prop :=
  match r with
  | POk (t, q) => exists body u, s = body ++ cDQ :: q /\ decodes body u /\ t = acc ++ u
  | PError b e => start <= b <= e /\ exists body u rest own y, s = body ++ rest /\ decodes body u /\ stuck rest own y /\ b = (if own then at_ rest else start) /\ e = at_ y
  | PCrash => exists body u h hex r, s = body ++ cBSL :: cu :: h ++ r /\ decodes body u /\
      (hex_form h hex \/ r = [] /\ (forall x y q, hex_form x y -> h <> x ++ q) /\ (h = hex \/ h = cLB :: hex)) /\ (forall c, ~ code hex c)
  end.

(** An escape in front *)
Lemma qgood_step start p c acc s r : (forall body u, decodes body u -> decodes (p ++ body) (c :: u)) ->
  qgood start (acc ++ [c]) s r -> qgood start acc (p ++ s) r.
Proof.
  intros P. destruct r as [[t q]|b e|]; cbn.
  - intros (body & u & -> & D & ->). exists (p ++ body), (c :: u). rewrite <- !app_assoc. splits; auto.
  - intros (H & body & u & rest & own & y & -> & D & B). splits; try tauto. exists (p ++ body), (c :: u), rest, own, y. rewrite <- !app_assoc. splits; auto; tauto.
  - intros (body & u & h & hex & r & -> & D & H). exists (p ++ body), (c :: u), h, hex, r. rewrite <- !app_assoc. splits; auto; apply H.
Qed.

(** No complete number behind [\u] *)
Lemma open_brace hex : ~ In cRB hex -> forall x y q, hex_form x y -> cLB :: hex <> x ++ q.
Proof.
  intros N x y q H E. destruct H as [h _ | a b c d A]; cbn in E.
  - injection E as ->. apply N. rewrite !in_app_iff. left. right. now left.
  - injection E as <- _. now apply A.
Qed.
Lemma short_hex hex : length hex < 4 -> (forall r, hex <> cLB :: r) -> forall x y q, hex_form x y -> hex <> x ++ q.
Proof.
  intros L N x y q H E. destruct H as [h _ | a b c d A]; cbn in E; subst hex.
  - eapply N. reflexivity.
  - cbn in L. lia.
Qed.

Lemma quoted_end start m acc h : start <= at_ [] -> pre m = cBSL :: cu :: h -> (forall x y q, hex_form x y -> h <> x ++ q) ->
  forall hex, (h = hex \/ h = cLB :: hex) ->
  qgood start acc (pre m ++ []) (match chr16 hex with Some _ => PError start (at_ []) | None => PCrash end).
Proof.
  intros S -> N hex H. rewrite app_nil_r. pose proof (chr16_spec hex) as C. destruct (chr16 hex) as [c|]; cbn.
  - splits; auto. exists [], [], (cBSL :: cu :: h), false, []. splits; auto; [constructor|]. now apply st_code.
  - exists [], [], h, hex, []. rewrite app_nil_r. splits; auto. constructor.
Qed.

Lemma quoted_spec start : forall s m acc, mode_ok m -> start <= at_ s -> (match m with QEsc b => start <= b <= at_ s /\ b = at_ (cBSL :: s) | _ => True end) ->
  qgood start acc (pre m ++ s) (quoted int16 total start m acc s).
Proof.
  induction s as [|c r IH]; intros m acc M S B; cbn [quoted].
  - destruct m as [|b| |hex|n hex]; cbn [mode_ok] in M.
    + cbn. splits; auto. exists [], [], [], false, []. splits; auto; constructor.
    + destruct B as [B ->]. cbn. splits; try lia. exists [], [], [cBSL], true, []. splits; auto; constructor.
    + apply quoted_end with (h := []); auto. apply short_hex; [cbn; lia|discriminate].
    + apply quoted_end with (h := cLB :: hex); auto. now apply open_brace.
    + destruct M as (x & hr & -> & X & M0 & M1). apply quoted_end with (h := x :: hr); auto. apply short_hex; [cbn; lia|]. intros ? [= -> _]. auto.
  - pose proof (at_cons c r) as A. assert (S' : start <= at_ r) by lia.
    assert (St : forall p d, (forall body u, decodes body u -> decodes (p ++ body) (d :: u)) ->
                 qgood start acc (p ++ r) (quoted int16 total start QText (acc ++ [d]) r)).
    { intros p d P. apply qgood_step with d; auto. apply (IH QText); cbn; auto. }
    destruct m as [|b| |hex|n hex]; cbn [mode_ok] in M; cbn [pre app].
    + destruct (c =? cDQ)%N eqn:E1; [|destruct (c =? cBSL)%N eqn:E2; [|destruct (c =? cLF)%N eqn:E3; [|destruct (c =? cCR)%N eqn:E4]]]; eqs.
      * cbn. exists [], []. splits; auto; [constructor|]. now rewrite app_nil_r.
      * apply (IH (QEsc (at_ (cBSL :: r)))); cbn; auto.
      * cbn. splits; auto. exists [], [], (cLF :: r), false, r. splits; auto; constructor.
      * cbn. splits; auto.
        { destruct (starts_with [cLF] r); auto. pose proof (at_tl r). lia. }
        destruct (starts_with [cLF] r) eqn:E5.
        { apply starts_with_iff in E5 as (q & ->). exists [], [], (cCR :: cLF :: q), false, q. splits; auto; constructor. }
        exists [], [], (cCR :: r), false, r. splits; auto; [constructor|]. apply st_cr. intros q ->. discriminate E5.
      * apply (St [c] c). intros. now constructor.
    + assert (Sim : forall e d, simple_escape e d ->
                qgood start acc (cBSL :: e :: r) (quoted int16 total start QText (acc ++ [d]) r)).
      { intros e d H. apply (St [cBSL; e] d). intros. now apply dec_simple. }
      destruct (c =? cn)%N eqn:E1; [eqs; apply Sim; unfold simple_escape; auto|].
      destruct (c =? cr)%N eqn:E2; [eqs; apply Sim; unfold simple_escape; auto|].
      destruct (c =? ct)%N eqn:E3; [eqs; apply Sim; unfold simple_escape; auto|].
      destruct (c =? cBSL)%N eqn:E4; [eqs; apply Sim; unfold simple_escape; auto 6|].
      destruct (c =? cDQ)%N eqn:E5; [eqs; apply Sim; unfold simple_escape; auto 6|].
      destruct (c =? cu)%N eqn:E6; [eqs; apply (IH QU); cbn; auto|]. eqs.
      destruct B as [B ->]. cbn. splits; try lia. exists [], [], (cBSL :: c :: r), true, r. splits; auto; [constructor|]. apply st_escape; auto.
      unfold simple_escape. intros d H. intuition congruence.
    + destruct (c =? cLB)%N eqn:E1; eqs.
      * apply (IH (QBrace [])); cbn; auto.
      * apply (IH (QFour 3 [c])); cbn; auto. exists c, []. splits; auto; lia.
    + destruct (c =? cRB)%N eqn:E1; eqs.
      * pose proof (chr16_spec hex) as C. assert (HF : hex_form (cLB :: hex ++ [cRB]) hex) by now constructor. destruct (chr16 hex) as [d|].
        -- replace (cBSL :: cu :: cLB :: hex ++ cRB :: r) with ((cBSL :: cu :: (cLB :: hex ++ [cRB])) ++ r)
             by (cbn; now rewrite <- app_assoc).
           apply St. intros body u D. exact (dec_code _ _ _ _ _ _ HF C D).
        -- cbn. exists [], [], (cLB :: hex ++ [cRB]), hex, r. splits; auto; [cbn; now rewrite <- app_assoc|constructor].
      * specialize (IH (QBrace (hex ++ [c])) acc). cbn [pre app] in IH. rewrite <- app_assoc in IH. apply IH; auto. cbn. rewrite in_app_iff.
        intros [|[|[]]]; [now apply M|congruence].
    + destruct M as (x & hr & -> & X & M0 & M1). destruct n as [|[|n']]; [lia| |].
      * destruct hr as [|x2 [|x3 [|? hr]]]; cbn in M1; try lia.
        pose proof (chr16_spec ([x; x2; x3] ++ [c])) as C. cbn [app] in C |- *.
        assert (HF : hex_form [x; x2; x3; c] [x; x2; x3; c]) by now constructor. destruct (chr16 [x; x2; x3; c]) as [d|].
        -- apply (St [cBSL; cu; x; x2; x3; c] d). intros body u D. apply (dec_code _ [x; x2; x3; c] [x; x2; x3; c] d); auto.
        -- cbn. exists [], [], [x; x2; x3; c], [x; x2; x3; c], r. splits; auto. constructor.
      * specialize (IH (QFour (Datatypes.S n') ((x :: hr) ++ [c])) acc). cbn [pre app] in IH. rewrite <- app_assoc in IH. cbn [app] in *. apply IH; auto.
        exists x, (hr ++ [c]). rewrite app_length. cbn. splits; auto; try lia.
Qed.

(** ** One token *)
Hypothesis upper_letters : forall c, isupper c = true -> (65 <= c)%N.

Notation written := (written isupper int16).
Notation next_token := (next_token isupper int16 total).
Notation fault := (fault isupper int16).

Definition step_good (p s0 : str) (x : pyres (pytok * str)) : Prop :=
  match x with
  | POk (t, r) =>
      (reads_end total p t /\ r = [])
      \/ exists g lex k u ws nl, s0 = g ++ lex ++ r /\ t = mkpytok k u (blen (p ++ g)) (blen (p ++ g ++ lex)) ws nl /\ k <> KEof /\ lex <> [] /\
           gap false g /\ begins (lex ++ r) /\ written k u lex r /\ (ws = true <-> g <> []) /\ (nl = true <-> In cLF g)
  | PError b e => exists g rest x y, s0 = g ++ rest /\ gap false g /\ begins rest /\ fault rest x y /\ b + blen x = blen total /\ e + blen y = blen total /\ blen (p ++ g) <= b <= e
  | PCrash => exists g rest, s0 = g ++ rest /\ gap false g /\ begins rest /\ crashes int16 rest
  end.

Lemma next_token_spec p s0 : total = p ++ s0 -> step_good p s0 (next_token s0).
Proof.
  intros T. unfold PyModel.next_token. destruct (skip false s0) as [[ws nl] s] eqn:Sk.
  destruct (proj1 (skip_spec s0 ws nl s) Sk) as (g & -> & G & Ws & Nl & B). clear Sk.
  destruct s as [|c r].
  { left. split; [|reflexivity]. exists g. cbn. rewrite app_nil_r in T. splits; auto; unfold PyModel.at_; cbn; lia. }
  destruct B as [B|B]; [discriminate|]. cbn [is_nil] in G.
  assert (As : at_ (c :: r) = blen (p ++ g)) by (apply at_app; now rewrite T, app_assoc).
  assert (Tok : forall k t lex q, c :: r = lex ++ q -> k <> KEof -> lex <> [] -> written k t lex q ->
            step_good p (g ++ c :: r) (POk (mkpytok k t (at_ (c :: r)) (at_ q) ws nl, q))).
  { intros k t lex q E K L W. right. exists g, lex, k, t, ws, nl. rewrite <- E. splits; auto; try tauto. f_equal; auto.
    apply at_app. rewrite T, E. now rewrite <- !app_assoc. }
  assert (Ar : at_ (c :: r) <= at_ r) by apply at_cons.
  assert (Err : forall x y, fault (c :: r) x y -> at_ (c :: r) <= at_ x <= at_ y -> blen x <= blen (c :: r) -> blen y <= blen (c :: r) -> step_good p (g ++ c :: r) (PError (at_ x) (at_ y))).
  { intros x y F H1 H2 H3. exists g, (c :: r), x, y. assert (blen total = blen p + blen g + blen (c :: r)) by (rewrite T, !blen_app; lia).
    splits; auto; try lia; unfold PyModel.at_; lia. }
  destruct (single c) as [k|] eqn:Es.
  { apply single_some in Es. apply Tok with (lex := [c]); auto; try discriminate; [intros ->; exact Es | now constructor]. }
  apply single_none in Es.
  destruct (c =? cAT)%N eqn:E1; eqs.
  { destruct (opt_is tag_start (peek r)) eqn:Et.
    - destruct (span_while tag_char r) as [name q] eqn:Sp. pose proof (span_while_app _ _ _ _ Sp) as ->.
      pose proof (span_while_all _ _ _ _ Sp) as All. pose proof (span_while_stop _ _ _ _ Sp) as Stop.
      destruct name as [|x name].
      { exfalso. destruct q as [|y q]; [discriminate|]. cbn in Et. apply tag_start_iff in Et.
        apply Bool.not_true_iff_false in Stop. apply Stop, tag_char_iff. unfold name_char. tauto. }
      apply Tok with (lex := cAT :: x :: name); auto; try discriminate. cbn in Et. apply tag_start_iff in Et. constructor; auto.
      + cbn in All. apply andb_true_iff in All as [_ All]. eapply forallb_Forall; [|exact All]. intros y. apply tag_char_iff.
      + eapply stop_ends; [|exact Stop]. intros y Y Z. apply tag_char_iff in Z. congruence.
    - apply Tok with (lex := [cAT]); auto; try discriminate. apply wr_at. destruct r as [|y r]; [now left|]. right. exists y, r. split; [reflexivity|].
      cbn in Et. apply Bool.not_true_iff_false in Et. rewrite tag_start_iff in Et. tauto. }
  destruct (c =? cDQ)%N eqn:E2; eqs.
  { pose proof (quoted_spec (at_ (cDQ :: r)) r QText [] I Ar I) as Q. cbn [pre app] in Q.
    destruct (quoted int16 total (at_ (cDQ :: r)) QText [] r) as [[t q]|b e|]; cbn in Q.
    - destruct Q as (body & u & -> & D & ->). apply Tok with (lex := cDQ :: body ++ [cDQ]); try discriminate.
      + cbn. now rewrite <- app_assoc.
      + now constructor.
    - destruct Q as (H1 & body & u & rest & own & y & -> & D & Bd & -> & ->). pose proof (fl_quoted isupper int16 body u rest own y D Bd) as Fq.
      assert (Ly : blen y <= blen rest) by (clear - Bd; destruct Bd; cbn; lia).
      replace (if own then at_ rest else at_ (cDQ :: body ++ rest)) with (at_ (if own then rest else cDQ :: body ++ rest)) in * by now destruct own.
      apply Err; auto; [|cbn; rewrite blen_app; lia]. destruct own; cbn; rewrite ?blen_app; lia.
    - destruct Q as (body & u & h & hex & q & -> & D & H & N). exists g, (cDQ :: body ++ cBSL :: cu :: h ++ q). splits; auto. econstructor; eauto. }
  destruct ((c =? cr)%N && opt_is (fun d => (d =? cDQ) || (d =? cHASH))%N (peek r)) eqn:E3; eqs.
  { destruct (span_while (N.eqb cHASH) r) as [hs q] eqn:Sp. pose proof (span_while_app _ _ _ _ Sp) as ->.
    pose proof (span_while_all _ _ _ _ Sp) as All. pose proof (span_while_stop _ _ _ _ Sp) as Stop.
    assert (Hh : Forall (eq cHASH) hs) by (eapply forallb_Forall; [|exact All]; intros y; apply N.eqb_eq).
    assert (Hq : ends_at (fun c => c <> cHASH) q) by (eapply stop_ends; [|exact Stop]; intros y Y; apply N.eqb_neq in Y; congruence).
    assert (Hd : hs <> [] \/ exists q', q = cDQ :: q').
    { destruct hs; [|left; discriminate]. right. destruct q as [|y q]; [discriminate|]. cbn in H0. destruct Hq as [Hq|(z & ? & [= <- <-] & Hq)]; [discriminate|].
      apply orb_true_iff in H0 as [H0|H0]; eqs; [eauto|congruence]. }
    pose proof (raw_body_spec (cDQ :: hs) ltac:(discriminate) (tl q) []) as R.
    destruct (raw_body (cDQ :: hs) [] (tl q)) as [[t q']|].
    - destruct R as (m & -> & E & M). destruct q as [|x q]; [cbn in E; destruct m; discriminate|]. cbn in E. subst q.
      destruct Hq as [Hq|(z & ? & [= <- <-] & Hq)]; [discriminate|]. cbn [app].
      apply Tok with (lex := cr :: hs ++ x :: m ++ cDQ :: hs); try discriminate; [cbn; rewrite <- !app_assoc; cbn; now rewrite <- !app_assoc|].
      apply wr_raw; auto. intros ->. destruct Hd as [Hd|(? & [= -> _])]; [congruence|reflexivity].
    - apply Err; auto; [now apply fl_raw|split; [auto|]|cbn; lia]. unfold PyModel.at_. cbn. lia. }
  destruct ((c =? cLT)%N && starts_with [cLT] r) eqn:E4; eqs.
  { apply starts_with_iff in H0 as (r2 & ->). cbn [app tl]. destruct (opt_is isupper (peek r2)) eqn:Eu.
    - destruct (span_while (not_char cLF) r2) as [d q] eqn:Sp. pose proof (span_while_app _ _ _ _ Sp) as ->.
      pose proof (span_while_all _ _ _ _ Sp) as All. pose proof (span_while_stop _ _ _ _ Sp) as Stop.
      assert (Dn : no_lf d).
      { intros X. rewrite forallb_forall in All. apply All in X. discriminate. }
      destruct d as [|x d].
      { exfalso. destruct q as [|y q]; [discriminate|]. cbn in Eu. apply upper_letters in Eu. unfold not_char in Stop.
        apply negb_false_iff in Stop. eqs. lia. }
      cbn in Eu. assert (Dl : delimiter isupper (x :: d)) by (split; eauto).
      destruct (span_while (not_char cCOMMA) (x :: d)) as [bare rest] eqn:Sb. pose proof (span_while_app _ _ _ _ Sb) as Eb.
      pose proof (span_while_all _ _ _ _ Sb) as Allb. pose proof (span_while_stop _ _ _ _ Sb) as Stopb.
      pose proof (upper_letters _ Eu) as Lx.
      assert (Bf : exists y z, bare = y :: z /\ ~ blank y).
      { destruct bare as [|y z].
        - exfalso. cbn in Eb. subst rest. unfold not_char in Stopb. apply negb_false_iff in Stopb. eqs. lia.
        - cbn in Eb. injection Eb as <- _. exists x, z. split; [reflexivity|]. intros [|]; lia. }
      assert (Bn : bare_name (x :: d) bare).
      { split; [intros X; rewrite forallb_forall in Allb; apply Allb in X; discriminate|]. rewrite Eb. destruct rest as [|y rest].
        - left. now rewrite app_nil_r.
        - right. unfold not_char in Stopb. apply negb_false_iff in Stopb. eqs. eauto. }
      assert (Q : q = [] \/ exists q', q = cLF :: q').
      { destruct q as [|y q]; [now left|right]. unfold not_char in Stop. apply negb_false_iff in Stop. eqs. eauto. }
      clear Sp Sb Eb Stopb Stop All Allb.
      assert (Aq : at_ (cLT :: cLT :: (x :: d) ++ q) <= at_ (tl q)).
      { unfold PyModel.at_. destruct q; cbn; rewrite ?blen_app; cbn; lia. }
      destruct Q as [->|(q' & ->)].
      + apply Err; [rewrite app_nil_r; now apply fl_heredoc_end|split; [exact Aq|reflexivity]|cbn; lia|cbn; lia].
      + cbn [tl]. pose proof (heredoc_body_spec bare Bf q' [] [] (or_introl eq_refl) (fun x => x)) as Hb.
        destruct (heredoc_body bare [] [] q') as [[t q]|]; cbn [app] in Hb.
        * destruct Hb as (body & ind & -> & F & I & C & D & Eq).
          { intros l (a & b & E & _). destruct a; [destruct l|]; discriminate. }
          apply Tok with (lex := cLT :: cLT :: (x :: d) ++ cLF :: body ++ ind ++ bare); try discriminate.
          { cbn [app]. repeat first [rewrite <- app_assoc | progress cbn [app]]. reflexivity. }
          apply wr_heredoc; auto.
        * apply Err; auto; [apply fl_heredoc with bare; auto|split; [exact Aq|]|cbn; rewrite ?blen_app; cbn; lia|cbn; lia].
          -- apply Hb. intros l (a & b & E & _). destruct a; [destruct l|]; discriminate.
          -- unfold PyModel.at_. cbn. lia.
    - apply Err; [|split; [reflexivity|]|apply Nat.le_refl|cbn; lia].
      + apply fl_lt. destruct r2 as [|y r2]; [now left|]. right. eauto.
      + unfold PyModel.at_. cbn. lia. }
  destruct (span_while (fun d => negb (py_special d)) (c :: r)) as [t q] eqn:Sp. pose proof (span_while_app _ _ _ _ Sp) as E.
  pose proof (span_while_all _ _ _ _ Sp) as All. pose proof (span_while_stop _ _ _ _ Sp) as Stop.
  destruct B as (c' & r' & [= <- <-] & B1 & B2 & B3 & B4).
  assert (Ht : t <> []).
  { intros ->. cbn in E. subst q. apply negb_false_iff in Stop. apply special_iff in Stop. unfold delimits in Stop. tauto. }
  destruct t as [|c' t]; [congruence|]. cbn in E. injection E as <- ->.
  apply Tok with (lex := c :: t); auto; try discriminate. constructor; auto.
  - eapply forallb_Forall; [|exact All]. intros y Y Z. apply special_iff in Z. cbn beta in Y. apply negb_true_iff in Y. congruence.
  - eapply stop_ends; [|exact Stop]. intros y Y. apply negb_false_iff in Y. now apply special_iff.
  - intros x [= -> _]. congruence.
  - intros x [= -> ->]. cbn in E3. discriminate.
  - intros x [= -> ->]. cbn in E4. discriminate.
  - intros [= -> ->] x ->. cbn in E3. discriminate.
Qed.
End lexer.

(** ** The whole source *)
Section run.
Variable isupper : char -> bool.
Variable int16 : str -> option Z.
Hypothesis upper_letters : forall c, isupper c = true -> (65 <= c)%N.

Notation lexes := (lexes isupper int16).
Lemma lex_from_spec src : forall fuel p s, src = p ++ s -> length s < fuel ->
  exists x, lex_from isupper int16 src fuel s = Ok x /\ lexes src p x.
Proof.
  induction fuel as [|f IH]; intros p s T L; [lia|]. cbn [lex_from].
  pose proof (next_token_spec isupper int16 src upper_letters p s T) as N.
  destruct (next_token isupper int16 src s) as [[t r]|b e|]; cbn in N.
  - destruct N as [[N ->]|(g & lex & k & u & ws & nl & -> & -> & K & Lx & G & B & W & Ws & Nl)].
    + pose proof N as (g & _ & _ & Hk & _). rewrite Hk. eexists. split; [reflexivity|]. exists [], t, p. splits; auto. constructor.
    + assert (T' : src = (p ++ g ++ lex) ++ r) by (now rewrite <- !app_assoc).
      assert (L' : length r < f) by (rewrite !app_length in L; destruct lex; [congruence|]; cbn in L; lia).
      destruct (IH _ _ T' L') as (x & E & X). cbn [pt_kind].
      assert (Rd : forall toks q, reads isupper int16 src (p ++ g ++ lex) toks q ->
                reads isupper int16 src p (mkpytok k u (blen (p ++ g)) (blen (p ++ g ++ lex)) ws nl :: toks) q) by (intros; econstructor; eauto).
      exists (match x with POk l => POk (mkpytok k u (blen (p ++ g)) (blen (p ++ g ++ lex)) ws nl :: l) | _ => x end). rewrite E. split.
      * destruct k; try congruence; destruct x; reflexivity.
      * destruct x as [l|b e|]; cbn in X |- *.
        -- destruct X as (toks & e & q & -> & R & E'). exists (mkpytok k u (blen (p ++ g)) (blen (p ++ g ++ lex)) ws nl :: toks), e, q. splits; auto.
        -- destruct X as (toks & q & g' & rest & x & y & R & X). eexists _, q, g', rest, x, y. split; [apply Rd; exact R|exact X].
        -- destruct X as (toks & q & g' & rest & R & X). eexists _, q, g', rest. split; [apply Rd; exact R|exact X].
  - destruct N as (g & rest & x & y & -> & N). eexists. split; [reflexivity|]. exists [], p, g, rest, x, y. split; [constructor|]. split; [exact T|exact N].
  - destruct N as (g & rest & -> & N). eexists. split; [reflexivity|]. exists [], p, g, rest. split; [constructor|]. split; [exact T|exact N].
Qed.
End run.
