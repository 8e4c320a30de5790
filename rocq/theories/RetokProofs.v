(** Tokens keep their kind and text when what follows them is replaced by something they do not touch. *)
From Verif Require Import BaseProofs TokModel TokSpec TokProofs.

Lemma tag_start_char : forall e, is_tag_start e = true -> is_tag_char e = true.
Proof.
  intros e H. unfold is_tag_char, is_tag_start, is_alnum in *.
  destruct (is_alpha e), (e =? cUS)%N; cbn in *; try discriminate; rewrite ?orb_true_r; reflexivity.
Qed.
Lemma scan_tag_local : forall n a b b', length a <= n -> scan_tag (a ++ b) = (a, b) -> scan_tag b' = ([], b') ->
  opt_is is_hash_or_dq (peek b') = false \/ peek b = peek b' -> scan_tag (a ++ b') = (a, b').
Proof.
  induction n as [|n IH]; intros a b b' L H H' HR; destruct a as [|c r]; cbn in L; try lia; try exact H'.
  cbn [app scan_tag] in *.
  destruct ((c =? cr)%N && opt_is is_hash_or_dq (peek (r ++ b))) eqn:E1; [discriminate|].
  assert (E1' : (c =? cr)%N && opt_is is_hash_or_dq (peek (r ++ b')) = false).
  { destruct (N.eqb_spec c cr) as [->|]; [|reflexivity]. destruct r as [|d r]; [|exact E1]. cbn [app andb] in *.
    destruct HR as [HR|HR]; [exact HR | rewrite <- HR; exact E1]. }
  rewrite E1'. destruct (is_tag_char c) eqn:E2.
  { destruct (scan_tag (r ++ b)) as [x y] eqn:S. injection H as -> ->.
    rewrite (IH r b b'); [reflexivity | lia | exact S | exact H' | exact HR]. }
  destruct (c =? cSLASH)%N eqn:E3; [|discriminate].
  destruct r as [|d [|e r2]]; cbn [app] in *; try discriminate.
  - destruct b as [|x [|y b]]; try discriminate.
    match type of H with context [if ?q then _ else _] => destruct q end; [destruct (scan_tag b)|]; discriminate H.
  - destruct b as [|x b]; [discriminate|].
    match type of H with context [if ?q then _ else _] => destruct q end; [destruct (scan_tag b)|]; discriminate H.
  - destruct ((d =? cAT)%N && is_tag_start e) eqn:E4; [|discriminate].
    destruct (scan_tag (r2 ++ b)) as [x y] eqn:S. injection H as -> ->. cbn in L.
    rewrite (IH r2 b b'); [reflexivity | lia | exact S | exact H' | exact HR].
Qed.
Lemma scan_quoted_local : forall n a b b', length a <= n -> scan_quoted (a ++ b) = (a, b, true) -> scan_quoted (a ++ b') = (a, b', true).
Proof.
  induction n as [|n IH]; intros a b b' L H; destruct a as [|c r]; cbn in L; try lia.
  1,2: exfalso; apply scan_quoted_closed in H as (x & E); destruct x; discriminate.
  cbn [app scan_quoted] in *. destruct (c =? cDQ)%N.
  { injection H as H1 H2. subst r. reflexivity. }
  destruct (c =? cBSL)%N.
  - destruct r as [|d r]; cbn [app] in *.
    + destruct b as [|x b]; [discriminate|]. destruct (scan_quoted b) as [[? ?] ?]. discriminate.
    + destruct (scan_quoted (r ++ b)) as [[x y] k] eqn:S. injection H as -> -> ->. cbn in L.
      rewrite (IH r b b' ltac:(lia) S). reflexivity.
  - destruct (scan_quoted (r ++ b)) as [[x y] k] eqn:S. injection H as -> -> ->.
    rewrite (IH r b b' ltac:(lia) S). reflexivity.
Qed.
Lemma strip_hashes_local : forall h x b b', In cDQ x -> strip_prefix (repeat cHASH h) (x ++ b) = None ->
  strip_prefix (repeat cHASH h) (x ++ b') = None.
Proof.
  induction h as [|h IH]; intros x b b' I H; [discriminate|]. destruct x as [|c x]; [contradiction|].
  cbn [repeat app strip_prefix] in *. destruct (N.eqb_spec cHASH c); [|reflexivity].
  destruct I as [I|I]; [subst; discriminate|]. apply IH with (b := b); assumption.
Qed.
Lemma scan_raw_local : forall h a b b', scan_raw h (a ++ b) = (a, b, true) -> scan_raw h (a ++ b') = (a, b', true).
Proof.
  intros h. induction a as [|c r IH]; intros b b' H.
  { exfalso. apply scan_raw_closed in H as (x & E). destruct x; discriminate. }
  cbn [app scan_raw] in *.
  assert (C : forall k x y, scan_raw h (r ++ b) = (x, y, k) -> (c :: x, y, k) = (c :: r, b, true) ->
    In cDQ r /\ scan_raw h (r ++ b') = (r, b', true)).
  { intros k x y S E. injection E as -> -> ->. split; [|apply IH with (b := b); exact S].
    apply scan_raw_closed in S as (z & ->). apply in_or_app. right. left. reflexivity. }
  destruct (c =? cDQ)%N.
  - destruct (strip_prefix (repeat cHASH h) (r ++ b)) as [r'|] eqn:S.
    + apply strip_prefix_some in S. injection H as E E'. subst r r'. rewrite strip_prefix_app. reflexivity.
    + destruct (scan_raw h (r ++ b)) as [[x y] k] eqn:SR. destruct (C _ _ _ eq_refl H) as [I S'].
      rewrite (strip_hashes_local h r b b' I S), S'. reflexivity.
  - destruct (scan_raw h (r ++ b)) as [[x y] k] eqn:SR. destruct (C _ _ _ eq_refl H) as [I S']. rewrite S'. reflexivity.
Qed.

(** What may follow a token so that it stays the same. *)
Definition follows (k : tkind) (rest : str) : Prop :=
  match k with
  | At => opt_is is_tag_start (peek rest) = false
  | Tag => scan_tag rest = ([], rest) /\ opt_is is_hash_or_dq (peek rest) = false
  | BareScalar => opt_is (fun c => is_bare_char c || (c =? cDQ)%N) (peek rest) = false
  | LineComment | DocComment => opt_is not_eol (peek rest) = false
  | Whitespace => opt_is is_blank (peek rest) = false
  | Eof | TError | HeredocStart | HeredocContent | HeredocEnd => False
  | _ => True
  end.
Lemma span_while_local : forall p a b b', span_while p (a ++ b) = (a, b) -> opt_is p (peek b') = false ->
  span_while p (a ++ b') = (a, b').
Proof.
  intros p a b b' H Q. apply span_while_intro; [eapply span_while_all; exact H|]. destruct b'; [exact I | exact Q].
Qed.
Lemma span_while_inv : forall p s a b, span_while p s = (a, b) -> s = a ++ b /\ span_while p (a ++ b) = (a, b).
Proof. intros p s a b H. pose proof (span_while_app _ _ _ _ H) as E. split; [exact E | rewrite <- E; exact H]. Qed.

Theorem next_local : forall st t st' rest p, ts_hd st = None -> next_token st = (t, st') ->
  follows (tk_kind t) rest ->
  next_token (mkts (tk_text t ++ rest) p None) = emit (tk_kind t) (tk_text t) rest p None.
Proof.
  intros [rem pos hd] t st' rest p HD H F. cbn in HD. subst hd. unfold next_token in H. cbn [ts_hd ts_rem ts_pos] in H.
  destruct rem as [|c r]; [injection H as <- <-; destruct F|].
  repeat match type of H with (if (c =? ?x)%N then _ else _) = _ =>
    let E := fresh "E" in destruct (N.eqb_spec c x) as [E|E]; [subst c; try (injection H as <- <-; reflexivity) |] end.
  - (* @ *)
    unfold tok_at_or_tag in H. cbn [next_token ts_hd ts_rem ts_pos].
    assert (A : forall d a b, is_tag_start d = true -> scan_tag (a ++ b) = (a, b) -> follows Tag rest ->
      next_token (mkts ((cAT :: d :: a) ++ rest) p None) = emit Tag (cAT :: d :: a) rest p None).
    { intros d a b D S [F1 F2]. cbn [app next_token ts_hd ts_rem ts_pos N.eqb Pos.eqb]. unfold tok_at_or_tag. rewrite D.
      rewrite (scan_tag_local (length a) a b rest (le_n _) S F1 (or_introl F2)). reflexivity. }
    destruct r as [|d r].
    + injection H as <- <-. cbn [tk_kind tk_text] in *. cbn [app next_token ts_hd ts_rem ts_pos N.eqb Pos.eqb].
      unfold tok_at_or_tag. destruct rest as [|x rest]; [reflexivity|]. cbn in F. rewrite F. reflexivity.
    + destruct (is_tag_start d) eqn:D.
      * destruct (scan_tag r) as [a b] eqn:S. injection H as <- <-. cbn [tk_kind tk_text] in *.
        pose proof (scan_tag_app _ _ _ S) as ->. apply A with (b := b); assumption.
      * injection H as <- <-. cbn [tk_kind tk_text] in *. cbn [app next_token ts_hd ts_rem ts_pos N.eqb Pos.eqb].
        unfold tok_at_or_tag. destruct rest as [|x rest]; [reflexivity|]. cbn in F. rewrite F. reflexivity.
  - (* quote *)
    unfold tok_quoted in H. destruct (scan_quoted r) as [[a b] k] eqn:S. destruct k; injection H as <- <-; [|destruct F].
    cbn [tk_kind tk_text] in *. cbn [app next_token ts_hd ts_rem ts_pos N.eqb Pos.eqb]. unfold tok_quoted.
    pose proof (scan_quoted_app _ _ _ _ S) as ->. rewrite (scan_quoted_local _ a b rest (le_n _) S). reflexivity.
  - (* slash *)
    destruct (starts_with [cSLASH; cSLASH] r) eqn:E8.
    { apply starts_with_iff in E8 as (r0 & ->). cbn in H. destruct (span_while not_eol r0) as [a b] eqn:S.
      injection H as <- <-. cbn [tk_kind tk_text] in *. destruct (span_while_inv _ _ _ _ S) as [-> S'].
      cbn. rewrite (span_while_local _ a b rest S' F). reflexivity. }
    destruct (starts_with [cSLASH] r) eqn:E9.
    { apply starts_with_iff in E9 as (r0 & ->). cbn in H. cbn in E8. destruct (span_while not_eol r0) as [a b] eqn:S.
      injection H as <- <-. cbn [tk_kind tk_text] in *. destruct (span_while_inv _ _ _ _ S) as [-> S'].
      cbn [app next_token ts_hd ts_rem ts_pos N.eqb Pos.eqb].
      assert (Q : starts_with [cSLASH; cSLASH] (cSLASH :: a ++ rest) = false).
      { apply starts_with_false. intros x EE. injection EE as EE. destruct a as [|e a].
        - cbn in EE. subst rest. cbn in F. discriminate.
        - injection EE as EE _. subst e. discriminate E8. }
      rewrite Q. change (starts_with [cSLASH] (cSLASH :: a ++ rest)) with true. cbv iota.
      change (cSLASH :: cSLASH :: a ++ rest) with ((cSLASH :: cSLASH :: a) ++ rest).
      rewrite (span_while_local _ (cSLASH :: cSLASH :: a) b rest); [reflexivity | | exact F].
      cbn. rewrite S'. reflexivity. }
    destruct (span_while is_bare_char (cSLASH :: r)) as [a b] eqn:S. injection H as <- <-. cbn [tk_kind tk_text] in *.
    destruct (span_while_inv _ _ _ _ S) as [E' S'].
    destruct a as [|x a]; [cbn in S; destruct (span_while is_bare_char r); discriminate|].
    injection E' as <- ->.
    assert (F1 : opt_is is_bare_char (peek rest) = false).
    { cbn in F. destruct rest as [|e rest]; [reflexivity|]. cbn in *. apply orb_false_iff in F as [F _]. exact F. }
    cbn [app next_token ts_hd ts_rem ts_pos N.eqb Pos.eqb].
    assert (Q1 : starts_with [cSLASH] (a ++ rest) = false).
    { apply starts_with_false. intros y E'. destruct a as [|e a].
      - cbn in E'. subst rest. discriminate F1.
      - injection E' as -> _. discriminate E9. }
    assert (Q2 : starts_with [cSLASH; cSLASH] (a ++ rest) = false).
    { apply starts_with_false. intros y E'. apply (proj1 (starts_with_false _ _) Q1 (cSLASH :: y)). exact E'. }
    rewrite Q1, Q2. change (cSLASH :: a ++ rest) with ((cSLASH :: a) ++ rest).
    rewrite (span_while_local _ (cSLASH :: a) b rest S' F1). reflexivity.
  - (* the rest *)
    destruct ((c =? cLT)%N && starts_with [cLT] r) eqn:EL.
    { destruct r as [|d r]; [injection H as <- <-; destruct F|]. destruct (opt_is is_upper (peek r)); [|injection H as <- <-; destruct F].
      unfold tok_heredoc_start in H. destruct (span_while is_delim_char r) as [dl r1]. destruct (16 <? _); [injection H as <- <-; destruct F|].
      destruct (scan_lang r1) as [lg r2], (scan_eol r2) as [nl r3]. injection H as <- <-. destruct F. }
    assert (NX : forall a, (c =? cLT)%N && starts_with [cLT] (a ++ rest) = false ->
      (c =? cr)%N && opt_is is_hash_or_dq (peek (a ++ rest)) = false ->
      next_token (mkts (c :: a ++ rest) p None) =
      if is_blank c then let (x, y) := span_while is_blank (c :: a ++ rest) in emit Whitespace x y p None
      else if (c =? cLF)%N then emit Newline [c] (a ++ rest) p None
      else if (c =? cCR)%N && opt_is (N.eqb cLF) (peek (a ++ rest)) then
        emit Newline (c :: firstn 1 (a ++ rest)) (skipn 1 (a ++ rest)) p None
      else if is_bare_start c then
        let (x, y) := span_while is_bare_char (c :: a ++ rest) in emit BareScalar x y p None
      else emit TError [c] (a ++ rest) p None).
    { intros a Q1 Q2. cbn [next_token ts_hd ts_rem ts_pos].
      repeat match goal with |- (if (c =? ?x)%N then _ else _) = _ => destruct (N.eqb_spec c x); [contradiction|] end.
      rewrite Q1, Q2. reflexivity. }
    destruct ((c =? cr)%N && opt_is is_hash_or_dq (peek r)) eqn:ER.
    { unfold tok_raw in H. destruct (span_while (N.eqb cHASH) r) as [hs r1] eqn:S.
      destruct r1 as [|q r2]; [injection H as <- <-; destruct F|]. destruct (N.eqb_spec q cDQ) as [->|]; [|injection H as <- <-; destruct F].
      destruct (scan_raw (Nat.min 255 (length hs)) r2) as [[a b] k] eqn:SR. destruct k; injection H as <- <-; [|destruct F].
      cbn [tk_kind tk_text] in *. pose proof (scan_raw_app _ _ _ _ _ SR) as ->.
      apply andb_true_iff in ER as [ER1 ER2]. apply N.eqb_eq in ER1. subst c.
      assert (X : forall z, ((cr :: hs ++ cDQ :: a) ++ z) = cr :: hs ++ cDQ :: (a ++ z)).
      { intros z. cbn. rewrite <- app_assoc. reflexivity. }
      rewrite X. cbn [next_token ts_hd ts_rem ts_pos N.eqb Pos.eqb andb].
      assert (Q : opt_is is_hash_or_dq (peek (hs ++ cDQ :: (a ++ rest))) = true).
      { destruct hs as [|h hs]; [reflexivity|]. apply span_while_all in S. cbn [forallb] in S. apply andb_true_iff in S as [S _].
        apply N.eqb_eq in S. subst h. reflexivity. }
      rewrite Q. unfold tok_raw. destruct (span_while_inv _ _ _ _ S) as [_ S'].
      rewrite (span_while_local _ hs _ (cDQ :: (a ++ rest)) S' eq_refl). cbn [N.eqb Pos.eqb].
      rewrite (scan_raw_local _ _ _ rest SR). reflexivity. }
    destruct (is_blank c) eqn:EB.
    { cbn [span_while] in H. rewrite EB in H. destruct (span_while is_blank r) as [a b] eqn:S. injection H as <- <-.
      cbn [tk_kind tk_text] in *. destruct (span_while_inv _ _ _ _ S) as [-> S'].
      assert (c <> cLT /\ c <> cr) as [N1 N2] by (split; intros ->; discriminate).
      cbn [app]. rewrite NX; [| destruct (N.eqb_spec c cLT); [contradiction | reflexivity] | destruct (N.eqb_spec c cr); [contradiction | reflexivity] ].
      cbn [span_while]. rewrite EB. rewrite (span_while_local _ a b rest S' F). reflexivity. }
    destruct (N.eqb_spec c cLF) as [->|NLF]; [injection H as <- <-; reflexivity|].
    destruct ((c =? cCR)%N && opt_is (N.eqb cLF) (peek r)) eqn:EC.
    { apply andb_true_iff in EC as [EC1 EC2]. apply N.eqb_eq in EC1. subst c. apply opt_is_peek_eqb in EC2 as (r' & ->).
      cbn in H. injection H as <- <-. reflexivity. }
    destruct (is_bare_start c) eqn:ES; [|injection H as <- <-; destruct F].
    destruct (span_while is_bare_char (c :: r)) as [a0 b] eqn:S. injection H as <- <-. cbn [tk_kind tk_text] in *.
    destruct (span_while_inv _ _ _ _ S) as [E' S']. 
    assert (BC : is_bare_char c = true).
    { unfold is_bare_start, is_bare_char in *. apply andb_true_iff in ES as [ES1 ES2]. apply andb_true_iff. split; [|exact ES2].
      apply negb_true_iff in ES1. apply negb_true_iff. repeat (apply orb_false_iff in ES1 as [ES1 ?]).
      repeat (apply orb_false_iff; split); assumption. }
    destruct a0 as [|x a]; [cbn in S; rewrite BC in S; destruct (span_while is_bare_char r); discriminate|].
    injection E' as <- ->.
    assert (F0 : opt_is is_bare_char (peek rest) = false /\ opt_is (N.eqb cDQ) (peek rest) = false).
    { cbn [follows] in F. destruct rest as [|e rest]; [split; reflexivity|]. cbn [opt_is peek nth_error] in *. apply orb_false_iff in F as [F F'].
      split; [exact F|]. rewrite N.eqb_sym. exact F'. }
    destruct F0 as [F1 F2].
    assert (Q1 : (c =? cLT)%N && starts_with [cLT] (a ++ rest) = false).
    { destruct (N.eqb_spec c cLT) as [->|]; [|reflexivity]. cbn [andb] in *. apply starts_with_false. intros y E'. destruct a as [|e a].
      - cbn in E'. subst rest. discriminate F1.
      - injection E' as -> _. discriminate EL. }
    assert (Q2 : (c =? cr)%N && opt_is is_hash_or_dq (peek (a ++ rest)) = false).
    { destruct (N.eqb_spec c cr) as [->|]; [|reflexivity]. cbn [andb] in *. destruct a as [|e a]; [|exact ER].
      cbn [app]. destruct rest as [|e rest]; [reflexivity|]. cbn [opt_is peek nth_error] in *. unfold is_hash_or_dq. apply orb_false_iff. split.
      - destruct (N.eqb_spec e cHASH) as [->|]; [discriminate F1 | reflexivity].
      - rewrite N.eqb_sym. exact F2. }
    assert (Q3 : (c =? cCR)%N && opt_is (N.eqb cLF) (peek (a ++ rest)) = false).
    { destruct (N.eqb_spec c cCR) as [->|]; [discriminate ES | reflexivity]. }
    cbn [app]. rewrite (NX a Q1 Q2). rewrite Q3.
    change (c :: a ++ rest) with ((c :: a) ++ rest). rewrite (span_while_local _ (c :: a) b rest S' F1). reflexivity.
Qed.

(** A tag before its payload: the payload keeps its first character. *)
Lemma next_tag_local : forall st t st' rest p, ts_hd st = None -> next_token st = (t, st') -> tk_kind t = Tag ->
  scan_tag rest = ([], rest) -> peek (ts_rem st') = peek rest ->
  next_token (mkts (tk_text t ++ rest) p None) = emit Tag (tk_text t) rest p None.
Proof.
  intros [rem pos hd] t st' rest p HD H K F P. cbn in HD. subst hd. unfold next_token in H. cbn [ts_hd ts_rem ts_pos] in H.
  destruct rem as [|c r]; [injection H as <- <-; discriminate|].
  destruct (N.eqb_spec c cAT) as [->|NA].
  - cbn [N.eqb Pos.eqb] in H. unfold tok_at_or_tag in H. destruct r as [|d r]; [injection H as <- <-; discriminate|].
    destruct (is_tag_start d) eqn:D; [|injection H as <- <-; discriminate].
    destruct (scan_tag r) as [a b] eqn:S. injection H as <- <-. cbn [tk_kind tk_text ts_rem] in *.
    pose proof (scan_tag_app _ _ _ S) as ->. cbn [app next_token ts_hd ts_rem ts_pos N.eqb Pos.eqb]. unfold tok_at_or_tag. rewrite D.
    rewrite (scan_tag_local (length a) a b rest (le_n _) S F (or_intror P)). reflexivity.
  - exfalso. unfold tok_quoted, tok_raw, tok_heredoc_start in H.
    repeat match type of H with context [match ?q with _ => _ end] => destruct q end; unfold emit in H; injection H as <- <-; discriminate.
Qed.

(** ** Heredocs *)
Definition line_end (s : str) : Prop :=
  s = [] \/ (exists r, s = cLF :: r) \/ (exists r, s = cCR :: cLF :: r).


Lemma delim_char_facts : forall c, is_delim_char c = true -> is_blank c = false /\ c <> cLF /\ c <> cCR.
Proof.
  intros c H. splits.
  - destruct (is_blank c) eqn:E; [|reflexivity]. unfold is_blank in E. apply orb_prop in E as [E|E]; apply N.eqb_eq in E; subst; discriminate.
  - intros ->. discriminate.
  - intros ->. discriminate.
Qed.
(** Splitting a text that ends with the delimiter after a blank prefix. *)
Lemma span_blank_delim : forall w d r, d <> [] -> forallb is_delim_char d = true ->
  exists i w', span_while is_blank (w ++ d ++ r) = (i, w' ++ d ++ r) /\ w = i ++ w'.
Proof.
  intros w d r ND D. induction w as [|c w IH]; cbn [app].
  - exists [], []. split; [|reflexivity]. destruct d as [|c d]; [contradiction|]. cbn [app span_while].
    cbn [forallb] in D. apply andb_true_iff in D as [D _]. apply delim_char_facts in D as [-> _]. reflexivity.
  - cbn [span_while]. destruct (is_blank c).
    + destruct IH as (i & w' & -> & ->). exists (c :: i), w'. split; reflexivity.
    + exists [], (c :: w). split; reflexivity.
Qed.
Lemma strip_prefix_local : forall d y r r', length d <= length y ->
  match strip_prefix d (y ++ r) with
  | Some z => exists y', y = d ++ y' /\ z = y' ++ r /\ strip_prefix d (y ++ r') = Some (y' ++ r')
  | None => strip_prefix d (y ++ r') = None
  end.
Proof.
  induction d as [|c d IH]; intros y r r' L; cbn [strip_prefix].
  - exists y. splits; reflexivity.
  - destruct y as [|e y]; cbn in L; [lia|]. cbn [app]. destruct (N.eqb_spec c e) as [->|]; [|reflexivity].
    specialize (IH y r r' ltac:(lia)). destruct (strip_prefix d (y ++ r)); [|exact IH].
    destruct IH as (y' & -> & -> & E). exists y'. splits; [reflexivity | reflexivity | exact E].
Qed.
Lemma find_delim_local : forall d w r r', d <> [] -> forallb is_delim_char d = true -> line_end r -> line_end r' ->
  find_delim d (w ++ d ++ r) = find_delim d (w ++ d ++ r').
Proof.
  intros d w r r' ND D LR LR'.
  assert (G : forall q, line_end q -> exists i w', w = i ++ w' /\ span_while is_blank (w ++ d ++ q) = (i, w' ++ d ++ q)).
  { intros q _. destruct (span_blank_delim w d q ND D) as (i & w' & S & E). exists i, w'. split; assumption. }
  destruct (span_blank_delim w d r ND D) as (i & w' & S & E).
  destruct (span_blank_delim w d r' ND D) as (j & v' & S' & E').
  assert (i = j /\ w' = v') as [<- <-].
  { pose proof (span_while_all _ _ _ _ S) as A. pose proof (span_while_all _ _ _ _ S') as A'.
    pose proof (span_while_stop _ _ _ _ S) as T. pose proof (span_while_stop _ _ _ _ S') as T'.
    rewrite E in E'. clear - A A' T T' E' ND D. revert j A' E'. induction i as [|c i IH]; intros j A' E'.
    - destruct j as [|e j]; [split; [reflexivity | exact E']|]. cbn in E'. subst w'. cbn in T. cbn in A'. rewrite T in A'. discriminate.
    - destruct j as [|e j].
      + cbn in E'. subst v'. cbn in T', A. rewrite T' in A. discriminate.
      + injection E' as -> E'. cbn in A, A'. apply andb_true_iff in A as [_ A]. apply andb_true_iff in A' as [_ A'].
        destruct (IH A j A' E') as [-> ->]. split; reflexivity. }
  unfold find_delim. rewrite S, S'. rewrite !app_assoc.
  assert (LL : length d <= length (w' ++ d)) by (rewrite app_length; apply Nat.le_add_l).
  pose proof (strip_prefix_local d (w' ++ d) r r' LL) as L. unfold char, str in *.
  destruct (strip_prefix d ((w' ++ d) ++ r)) as [z|]; [|rewrite L; reflexivity].
  destruct L as (y & Y & -> & ->).
  assert (Q : match y ++ r with [] => true | c :: s => ((c =? cLF) || (c =? cCR) && opt_is (N.eqb cLF) (peek s))%N end
    = match y ++ r' with [] => true | c :: s => ((c =? cLF) || (c =? cCR) && opt_is (N.eqb cLF) (peek s))%N end).
  { destruct y as [|c y]; cbn [app].
    - destruct LR as [->|[(x & ->)|(x & ->)]], LR' as [->|[(x' & ->)|(x' & ->)]]; reflexivity.
    - destruct y as [|e y]; [|reflexivity]. cbn [app].
      assert (C : is_delim_char c = true).
      { rewrite forallb_forall in D. apply D. assert (last (w' ++ d) 0%N = last (d ++ [c]) 0%N) as Q by (rewrite Y; reflexivity).
        rewrite last_last in Q. subst c. clear - ND. rewrite (app_removelast_last 0%N ND) at 1. rewrite app_assoc, last_last.
        rewrite (app_removelast_last 0%N ND) at 2. apply in_or_app. right. left. reflexivity. }
      apply delim_char_facts in C as (_ & C1 & C2). destruct (N.eqb_spec c cLF); [contradiction|].
      destruct (N.eqb_spec c cCR); [contradiction | reflexivity]. }
  rewrite Q. reflexivity.
Qed.
Lemma scan_heredoc_local : forall d w r r', d <> [] -> forallb is_delim_char d = true -> line_end r -> line_end r' ->
  forall n a i, length a <= n -> scan_heredoc d (a ++ w ++ d ++ r) = (a, w ++ d ++ r, Some i) -> a <> [] ->
  scan_heredoc d (a ++ w ++ d ++ r') = (a, w ++ d ++ r', Some i).
Proof.
  intros d w r r' ND D LR LR'. 
  assert (FD : forall x, find_delim d (x ++ w ++ d ++ r') = find_delim d (x ++ w ++ d ++ r)).
  { intros x. rewrite !(app_assoc x w). apply find_delim_local; assumption. }
  induction n as [|n IH]; intros a i L H NE; destruct a as [|c a]; cbn in L; try contradiction; try lia.
  (* the scan of the rest cannot find the delimiter at once: it looks at line ends only *)
  assert (EMP : forall k, scan_heredoc d (w ++ d ++ r) = ([], w ++ d ++ r, k) -> False).
  { intros k S. apply scan_heredoc_nil in S. apply app_eq_nil in S as [_ S]. apply app_eq_nil in S as [S _]. contradiction. }
  cbn [app scan_heredoc] in *. destruct (c =? cLF)%N.
  - rewrite FD. destruct (find_delim d (a ++ w ++ d ++ r)) as [j|] eqn:E.
    + injection H as H1 H2 H3. subst a j. reflexivity.
    + destruct (scan_heredoc d (a ++ w ++ d ++ r)) as [[z1 z2] k] eqn:S. injection H as -> -> ->.
      destruct a as [|e a]; [exfalso; eapply EMP; exact S|].
      rewrite (IH (e :: a) i); [reflexivity | lia | exact S | discriminate].
  - destruct a as [|e a]; cbn [app] in *.
    + (* [c] alone before the delimiter *)
      exfalso. destruct (w ++ d ++ r) as [|x y] eqn:X.
      { apply app_eq_nil in X as [_ X]. apply app_eq_nil in X as [X _]. contradiction. }
      match type of H with context [if ?q then _ else _] => destruct q end.
      * destruct (find_delim d y); [discriminate|]. destruct (scan_heredoc d y) as [[? ?] ?]. discriminate.
      * destruct (scan_heredoc d (x :: y)) as [[z1 z2] k] eqn:S. injection H as -> -> ->. exact (EMP _ eq_refl).
    + match type of H with context [if ?q then _ else _] => destruct q end.
      * rewrite FD. destruct (find_delim d (a ++ w ++ d ++ r)) as [j|] eqn:E.
        -- injection H as H1 H2 H3. subst a j. reflexivity.
        -- destruct (scan_heredoc d (a ++ w ++ d ++ r)) as [[z1 z2] k] eqn:S. injection H as -> -> ->.
           destruct a as [|x a]; [exfalso; eapply EMP; exact S|]. cbn in L.
           rewrite (IH (x :: a) i); [reflexivity | cbn; lia | exact S | discriminate].
      * destruct (scan_heredoc d (e :: a ++ w ++ d ++ r)) as [[z1 z2] k] eqn:S. injection H as -> -> ->.
        assert (Q : scan_heredoc d (e :: a ++ w ++ d ++ r') = (e :: a, w ++ d ++ r', Some i))
          by (apply (IH (e :: a) i); [lia | exact S | discriminate]).
        rewrite Q. reflexivity.
Qed.
Lemma scan_lang_local : forall s a b b', scan_lang s = (a, b) -> peek b = peek b' -> b' <> [] -> scan_lang (a ++ b') = (a, b').
Proof.
  intros s a b b' H P NE. destruct b' as [|x b']; [contradiction|]. destruct b as [|x' b]; [discriminate|]. injection P as ->.
  destruct s as [|c r]; [discriminate|]. cbn [scan_lang] in H.
  destruct (N.eqb_spec c cCOMMA) as [->|N].
  - destruct r as [|d r]; [discriminate|]. destruct (is_lower d) eqn:E.
    + destruct (span_while is_lang_char (d :: r)) as [u v] eqn:S. injection H as <- H2. subst v.
      assert (LC : is_lang_char d = true) by (unfold is_lang_char; rewrite E; reflexivity).
      destruct u as [|d' u]; [cbn in S; rewrite LC in S; destruct (span_while is_lang_char r); discriminate|].
      pose proof (span_while_app _ _ _ _ S) as E'. injection E' as <- ->.
      pose proof (span_while_all _ _ _ _ S) as A. pose proof (span_while_stop _ _ _ _ S) as T.
      cbn [app scan_lang N.eqb Pos.eqb]. rewrite E.
      change (d :: u ++ x :: b') with ((d :: u) ++ x :: b'). rewrite span_while_intro; [reflexivity | exact A | exact T].
    + injection H as <- -> ->. cbn [app scan_lang N.eqb Pos.eqb]. rewrite E. reflexivity.
  - injection H as <- -> ->. cbn [app scan_lang]. destruct (N.eqb_spec x cCOMMA); [contradiction | reflexivity].
Qed.
Lemma scan_eol_local : forall s a b b', scan_eol s = (a, b) -> peek b = peek b' -> b' <> [] -> scan_eol (a ++ b') = (a, b').
Proof.
  intros s a b b' H P NE. destruct b' as [|x b']; [contradiction|]. destruct b as [|x' b]; [discriminate|]. injection P as ->.
  unfold scan_eol in *. destruct s as [|c r]; [discriminate|].
  destruct (N.eqb_spec c cCR) as [->|N].
  - destruct r as [|d r]; [discriminate|]. destruct (N.eqb_spec d cLF) as [->|N]; inversion H; subst; clear H; cbn [app N.eqb Pos.eqb].
    + reflexivity.
    + destruct (N.eqb_spec x cLF); [contradiction | reflexivity].
  - destruct (N.eqb_spec c cLF) as [->|N']; inversion H; subst; clear H; cbn [app N.eqb Pos.eqb].
    + reflexivity.
    + destruct (N.eqb_spec x cCR); [contradiction|]. destruct (N.eqb_spec x cLF); [contradiction | reflexivity].
Qed.
Lemma lang_peek : forall s a b, scan_lang s = (a, b) -> s = a ++ b.
Proof.
  intros s a b H. destruct s as [|c r]; cbn in H; [injection H as <- <-; reflexivity|].
  destruct (c =? cCOMMA)%N; [|injection H as <- <-; reflexivity].
  destruct r as [|d r]; [injection H as <- <-; reflexivity|]. destruct (is_lower d); [|injection H as <- <-; reflexivity].
  destruct (span_while is_lang_char (d :: r)) as [u v] eqn:S. injection H as <- <-. apply span_while_app in S. rewrite S. reflexivity.
Qed.
Lemma eol_peek : forall s a b, scan_eol s = (a, b) -> s = a ++ b.
Proof.
  intros s a b H. unfold scan_eol in H. destruct s as [|c r]; [injection H as <- <-; reflexivity|].
  destruct (c =? cCR)%N.
  - destruct r as [|d r]; [|destruct (d =? cLF)%N]; injection H as <- <-; reflexivity.
  - destruct (c =? cLF)%N; injection H as <- <-; reflexivity.
Qed.
Lemma peek_app_local : forall a (b b' : str), peek b = peek b' -> peek (a ++ b) = peek (a ++ b').
Proof. intros [|c a] b b' H; [exact H | reflexivity]. Qed.
Lemma opt_is_head : forall p (b : str), opt_is p (peek b) = false <-> match b with [] => True | c :: _ => p c = false end.
Proof. intros p [|c b]; cbn; tauto. Qed.

Ltac no_kind H := unfold tok_at_or_tag, tok_quoted, tok_raw in H;
  repeat match type of H with context [match ?q with _ => _ end] => destruct q end; unfold emit in H; injection H as <- <-; discriminate.
Lemma heredoc_start_local : forall st t st' b', ts_hd st = None -> next_token st = (t, st') -> tk_kind t = HeredocStart ->
  peek (ts_rem st') = peek b' -> b' <> [] ->
  exists d, ts_hd st' = Some (mkhs d None) /\ d <> [] /\ forallb is_delim_char d = true /\ ts_rem st = tk_text t ++ ts_rem st' /\
  forall p, next_token (mkts (tk_text t ++ b') p None) = emit HeredocStart (tk_text t) b' p (Some (mkhs d None)).
Proof.
  intros [rem pos hd] t st' b' HD H K P NE. cbn in HD. subst hd. unfold next_token in H. cbn [ts_hd ts_rem ts_pos] in H.
  destruct rem as [|c r]; [injection H as <- <-; discriminate|].
  repeat match type of H with (if (c =? ?x)%N then _ else _) = _ =>
    let E := fresh "E" in destruct (N.eqb_spec c x) as [E|E]; [try (injection H as <- <-; discriminate) |] end.
  - no_kind H.
  - no_kind H.
  - no_kind H.
  - destruct ((c =? cLT)%N && starts_with [cLT] r) eqn:EL; [|no_kind H].
    apply andb_true_iff in EL as [EC EL]. apply N.eqb_eq in EC. subst c. apply starts_with_iff in EL as (r' & ->). cbn [app] in H.
    destruct (opt_is is_upper (peek r')) eqn:EU; [|injection H as <- <-; discriminate].
    unfold tok_heredoc_start in H. destruct (span_while is_delim_char r') as [dl r1] eqn:S1.
    destruct (16 <? length dl) eqn:E16; [injection H as <- <-; discriminate|].
    destruct (scan_lang r1) as [lg r2] eqn:S2, (scan_eol r2) as [nl r3] eqn:S3. injection H as <- <-.
    cbn [tk_text tk_kind ts_rem ts_hd] in *.
    pose proof (span_while_app _ _ _ _ S1) as E1'. pose proof (lang_peek _ _ _ S2) as E2'. pose proof (eol_peek _ _ _ S3) as E3'.
    assert (ND : dl <> []).
    { destruct r' as [|u r']; [discriminate|]. cbn in EU. cbn [span_while] in S1.
      assert (DU : is_delim_char u = true) by (unfold is_delim_char; rewrite EU; reflexivity). rewrite DU in S1.
      destruct (span_while is_delim_char r'). injection S1 as <- _. discriminate. }
    exists dl. split; [reflexivity|]. split; [exact ND|]. split; [eapply span_while_all; exact S1|]. split.
    { cbn. rewrite E1', E2', E3', <- !app_assoc. reflexivity. }
    intros p. cbn [app]. rewrite <- !app_assoc. cbn [next_token ts_hd ts_rem ts_pos N.eqb Pos.eqb].
    change (starts_with [cLT] (cLT :: dl ++ lg ++ nl ++ b')) with true. cbn [andb].
    assert (EU' : opt_is is_upper (peek (dl ++ lg ++ nl ++ b')) = true).
    { destruct dl as [|u dl]; [contradiction|]. rewrite E1' in EU. exact EU. }
    rewrite EU'. unfold tok_heredoc_start.
    assert (P3 : peek (nl ++ r3) = peek (nl ++ b')) by (apply peek_app_local; exact P).
    assert (P2 : peek (lg ++ r2) = peek (lg ++ nl ++ b')) by (apply peek_app_local; rewrite E3'; exact P3).
    assert (NE2 : nl ++ b' <> []) by (destruct nl; [exact NE | discriminate]).
    rewrite span_while_intro.
    + rewrite E16. rewrite (scan_lang_local _ _ _ (nl ++ b') S2).
      * rewrite (scan_eol_local _ _ _ b' S3 P NE). reflexivity.
      * rewrite E3'. exact P3.
      * exact NE2.
    + eapply span_while_all. exact S1.
    + apply opt_is_head. rewrite <- P2, <- E2'. apply opt_is_head. eapply span_while_stop. exact S1.
Qed.

(** The end of a heredoc is followed by the end of the line. *)
Lemma heredoc_end_state : forall st t st', next_token st = (t, st') -> tk_kind t = HeredocEnd ->
  hd_ok (ts_hd st) ->
  exists hs w, ts_hd st = Some hs /\ tk_text t = w ++ hs_delim hs /\ line_end (ts_rem st') /\ ts_hd st' = None /\
    ts_rem st = tk_text t ++ ts_rem st' /\ find_delim (hs_delim hs) (ts_rem st) = Some (length w).
Proof.
  intros [rem pos hd] t st' H K HO. unfold next_token in H. cbn [ts_hd ts_rem ts_pos] in *.
  destruct hd as [hs|].
  - unfold tok_heredoc_content in H. exists hs.
    assert (G : forall i s, find_delim (hs_delim hs) s = Some i -> exists w, firstn (i + length (hs_delim hs)) s = w ++ hs_delim hs /\
        line_end (skipn (i + length (hs_delim hs)) s) /\ s = firstn (i + length (hs_delim hs)) s ++ skipn (i + length (hs_delim hs)) s /\ length w = i).
    { intros i s F. apply find_delim_some in F as (ind & rest & E & L & B & LE). exists ind.
      assert (Q1 : firstn (i + length (hs_delim hs)) s = ind ++ hs_delim hs).
      { rewrite E, app_assoc, <- L, <- app_length, firstn_app, Nat.sub_diag, firstn_all. cbn. apply app_nil_r. }
      assert (Q2 : skipn (i + length (hs_delim hs)) s = rest).
      { rewrite E, app_assoc, <- L, <- app_length, skipn_app, Nat.sub_diag, skipn_all. reflexivity. }
      rewrite Q1, Q2. splits; try reflexivity; try assumption. rewrite E, <- app_assoc. reflexivity. }
    destruct (find_delim (hs_delim hs) rem) as [i|] eqn:F.
    + injection H as <- <-. cbn [tk_text ts_rem ts_hd tk_kind] in *. destruct (G _ _ F) as (w & Q1 & Q2 & Q3 & Q4). exists w.
      splits; try reflexivity; try assumption. rewrite Q4. reflexivity.
    + destruct (scan_heredoc (hs_delim hs) rem) as [[a b] [i|]] eqn:S.
      * destruct a as [|x a]; [|injection H as <- <-; discriminate].
        pose proof (scan_heredoc_app _ _ _ _ _ S) as E. cbn in E. subst b. apply scan_heredoc_found in S. congruence.
      * injection H as <- <-. discriminate.
  - exfalso. unfold tok_heredoc_start in H. no_kind H.
Qed.

(** ** Runs of the tokenizer *)
Definition sym : Type := tkind * str.
Definition kt (t : token) : sym := (tk_kind t, tk_text t).
Inductive steps : tstate -> list sym -> tstate -> Prop :=
| steps_nil : forall st, steps st [] st
| steps_cons : forall st t st1 l st2, next_token st = (t, st1) -> tk_kind t <> Eof -> steps st1 l st2 ->
    steps st (kt t :: l) st2.
(** [s], followed by [rest], is read as the tokens [l]. *)
Definition lexes (s rest : str) (l : list sym) : Prop :=
  forall p, exists p', steps (mkts (s ++ rest) p None) l (mkts rest p' None).

Lemma lexes_token : forall st t st' rest, ts_hd st = None -> next_token st = (t, st') -> follows (tk_kind t) rest ->
  lexes (tk_text t) rest [kt t].
Proof.
  intros st t st' rest HD H F p. pose proof (next_local _ _ _ rest p HD H F) as N.
  exists (p + blen (tk_text t)). unfold emit in N.
  change [kt t] with [kt (mktok (tk_kind t) (mkspan p (p + blen (tk_text t))) (tk_text t))].
  eapply steps_cons; [exact N | cbn; intros E; rewrite E in F; exact F | apply steps_nil].
Qed.
Lemma next_split : forall st t st', next_token st = (t, st') -> ts_rem st = tk_text t ++ ts_rem st'.
Proof. intros st t st' H. apply next_token_step in H as [H _]. exact H. Qed.
Lemma next_hd_ok : forall st t st', hd_ok (ts_hd st) -> next_token st = (t, st') -> hd_ok (ts_hd st').
Proof. intros st t st' HO H. pose proof (next_token_good st HO) as G. rewrite H in G. destruct G as (_ & G & _). exact G. Qed.

Lemma end_step : forall d i w rest p, find_delim d (w ++ d ++ rest) = Some (length w) ->
  next_token (mkts ((w ++ d) ++ rest) p (Some (mkhs d i))) = emit HeredocEnd (w ++ d) rest p None.
Proof.
  intros d i w rest p F. cbn [next_token ts_hd ts_rem ts_pos]. unfold tok_heredoc_content. cbn [hs_delim].
  rewrite <- app_assoc, F. rewrite app_assoc, <- app_length.
  rewrite firstn_app, skipn_app, Nat.sub_diag, firstn_all, skipn_all. cbn [firstn skipn app]. rewrite app_nil_r. reflexivity.
Qed.
Lemma steps_one : forall st k s r p hd l st2, next_token st = emit k s r p hd -> k <> Eof ->
  steps (mkts r (p + blen s) hd) l st2 -> steps st ((k, s) :: l) st2.
Proof.
  intros st k s r p hd l st2 N K S. change (k, s) with (kt (mktok k (mkspan p (p + blen s)) s)).
  eapply steps_cons; [exact N | exact K | exact S].
Qed.

(** A heredoc: its start, its content if there is any, and its end. *)
Lemma heredoc_lexes_empty : forall st t1 st1 t3 st3 rest, ts_hd st = None ->
  next_token st = (t1, st1) -> tk_kind t1 = HeredocStart ->
  next_token st1 = (t3, st3) -> tk_kind t3 = HeredocEnd -> line_end rest ->
  lexes (tk_text t1 ++ tk_text t3) rest [kt t1; kt t3].
Proof.
  intros st t1 st1 t3 st3 rest HD N1 K1 N3 K3 LR p.
  assert (HO1 : hd_ok (ts_hd st1)) by (eapply next_hd_ok; [rewrite HD; exact I | exact N1]).
  destruct (heredoc_end_state _ _ _ N3 K3 HO1) as (hs & w & H1 & T3 & LE & _ & R & F).
  assert (NE : tk_text t3 ++ rest <> []).
  { rewrite H1 in HO1. destruct HO1 as (ND & _). rewrite T3. destruct w; [|discriminate]. cbn. destruct (hs_delim hs); [contradiction | discriminate]. }
  destruct (heredoc_start_local _ _ _ (tk_text t3 ++ rest) HD N1 K1) as (d & H1' & ND & D & _ & S1).
  { rewrite R. assert (NT : tk_text t3 <> []) by (rewrite H1 in HO1; destruct HO1 as (ND & _); rewrite T3; destruct w; [exact ND | discriminate]).
    destruct (tk_text t3); [contradiction | reflexivity]. }
  { exact NE. }
  rewrite H1 in H1'. injection H1' as ->. cbn [hs_delim] in *.
  assert (F' : find_delim d (w ++ d ++ rest) = Some (length w)).
  { rewrite <- F. rewrite R, T3, <- app_assoc. symmetry. apply find_delim_local; assumption. }
  eexists. unfold kt. rewrite K1, K3. rewrite <- app_assoc.
  eapply steps_one; [apply S1 | discriminate|].
  rewrite T3. eapply steps_one; [apply end_step; exact F' | discriminate|]. apply steps_nil.
Qed.
Lemma content_state : forall st t st', next_token st = (t, st') -> tk_kind t = HeredocContent ->
  exists hs i, ts_hd st = Some hs /\ ts_hd st' = Some (mkhs (hs_delim hs) (Some i)) /\ tk_text t <> [] /\
    find_delim (hs_delim hs) (ts_rem st) = None /\ scan_heredoc (hs_delim hs) (ts_rem st) = (tk_text t, ts_rem st', Some i).
Proof.
  intros [rem pos hd] t st' H K. unfold next_token in H. cbn [ts_hd ts_rem ts_pos] in *. destruct hd as [hs|].
  - unfold tok_heredoc_content in H. destruct (find_delim (hs_delim hs) rem) as [i|] eqn:F; [injection H as <- <-; discriminate|].
    destruct (scan_heredoc (hs_delim hs) rem) as [[a b] [i|]] eqn:S; [|injection H as <- <-; discriminate].
    destruct a as [|x a]; [injection H as <- <-; discriminate|]. injection H as <- <-. exists hs, i.
    cbn [tk_text ts_rem ts_hd]. splits; try reflexivity; try assumption. discriminate.
  - exfalso. unfold tok_heredoc_start in H. no_kind H.
Qed.
Lemma heredoc_lexes : forall st t1 st1 t2 st2 t3 st3 rest, ts_hd st = None ->
  next_token st = (t1, st1) -> tk_kind t1 = HeredocStart ->
  next_token st1 = (t2, st2) -> tk_kind t2 = HeredocContent ->
  next_token st2 = (t3, st3) -> tk_kind t3 = HeredocEnd -> line_end rest ->
  lexes (tk_text t1 ++ tk_text t2 ++ tk_text t3) rest [kt t1; kt t2; kt t3].
Proof.
  intros st t1 st1 t2 st2 t3 st3 rest HD N1 K1 N2 K2 N3 K3 LR p.
  assert (HO1 : hd_ok (ts_hd st1)) by (eapply next_hd_ok; [rewrite HD; exact I | exact N1]).
  assert (HO2 : hd_ok (ts_hd st2)) by (eapply next_hd_ok; [exact HO1 | exact N2]).
  destruct (content_state _ _ _ N2 K2) as (hs & i & H1 & H2 & NT2 & F2 & S2).
  destruct (heredoc_end_state _ _ _ N3 K3 HO2) as (hs' & w & H2' & T3 & LE & _ & R & F).
  rewrite H2 in H2'. injection H2' as <-. cbn [hs_delim] in *.
  destruct (heredoc_start_local _ _ _ (tk_text t2 ++ tk_text t3 ++ rest) HD N1 K1) as (d & H1' & ND & D & _ & S1).
  { rewrite (next_split _ _ _ N2). destruct (tk_text t2); [contradiction | reflexivity]. }
  { destruct (tk_text t2); [contradiction | discriminate]. }
  rewrite H1 in H1'. injection H1' as ->. cbn [hs_delim] in *.
  assert (F' : find_delim d (w ++ d ++ rest) = Some (length w)).
  { rewrite <- F. rewrite R, T3, <- app_assoc. symmetry. apply find_delim_local; assumption. }
  assert (R1 : ts_rem st1 = tk_text t2 ++ w ++ d ++ ts_rem st3).
  { rewrite (next_split _ _ _ N2), R, T3, <- app_assoc. reflexivity. }
  assert (R2 : ts_rem st2 = w ++ d ++ ts_rem st3) by (rewrite R, T3, <- app_assoc; reflexivity).
  rewrite R1 in S2, F2. rewrite R2 in S2.
  eexists. unfold kt. rewrite K1, K2, K3. rewrite <- !app_assoc.
  eapply steps_one; [apply S1 | discriminate|].
  eapply steps_one with (hd := Some (mkhs d (Some i))); [|discriminate|].
  - cbn [next_token ts_hd ts_rem ts_pos]. unfold tok_heredoc_content. cbn [hs_delim]. rewrite T3, <- app_assoc.
    assert (F2' : find_delim d (tk_text t2 ++ w ++ d ++ rest) = None).
    { rewrite <- F2, !(app_assoc (tk_text t2) w). apply find_delim_local; assumption. }
    rewrite F2'.
    pose proof (scan_heredoc_local d w (ts_rem st3) rest ND D LE LR _ _ _ (le_n _) S2 NT2) as SH.
    unfold char, str in *. rewrite SH.
    destruct (tk_text t2); [contradiction | reflexivity].
  - rewrite T3. eapply steps_one; [rewrite app_assoc; apply end_step; exact F' | discriminate|]. apply steps_nil.
Qed.

(** ** Significant tokens *)
Definition sig_kind (k : tkind) : bool := match k with Whitespace | Newline | Comma | Eof => false | _ => true end.
Definition sigs (l : list sym) : list sym := filter (fun x => sig_kind (fst x)) l.
(** [s] consists of the significant tokens [l], whatever the gaps. *)
Definition retok (s : str) (l : list sym) : Prop :=
  forall p, exists f ts, tokens_from f (mkts s p None) = Some ts /\ sigs (map kt ts) = l.

Lemma sigs_app : forall a b, sigs (a ++ b) = sigs a ++ sigs b.
Proof. intros. apply filter_app. Qed.
Lemma steps_tokens : forall st l st', steps st l st' -> forall f ts, tokens_from f st' = Some ts ->
  exists f' ts', tokens_from f' st = Some ts' /\ map kt ts' = l ++ map kt ts.
Proof.
  intros st l st' H. induction H as [st|st t st1 l st2 N K S IH]; intros f ts T.
  - exists f, ts. split; [exact T | reflexivity].
  - destruct (IH _ _ T) as (f' & ts' & T' & M). exists (Datatypes.S f'), (t :: ts'). cbn [tokens_from]. rewrite N.
    assert (E : is_eof_kind (tk_kind t) = false) by (destruct (tk_kind t); try reflexivity; contradiction).
    rewrite E, T'. split; [reflexivity|]. cbn. rewrite M. reflexivity.
Qed.
Lemma retok_nil : retok [] [].
Proof. intros p. exists 1, []. split; reflexivity. Qed.
Lemma retok_lexes : forall s rest l l', lexes s rest l -> retok rest l' -> retok (s ++ rest) (sigs l ++ l').
Proof.
  intros s rest l l' H R p. destruct (H p) as (p' & S). destruct (R p') as (f & ts & T & E).
  destruct (steps_tokens _ _ _ S _ _ T) as (f' & ts' & T' & M). exists f', ts'. split; [exact T'|].
  rewrite M, sigs_app, E. reflexivity.
Qed.
Lemma retok_blank : forall c rest l, is_blank c = true -> retok rest l -> retok (c :: rest) l.
Proof.
  intros c rest l B R p.
  assert (NX : forall r q, next_token (mkts (c :: r) q None) = let (a, b) := span_while is_blank (c :: r) in emit Whitespace a b q None).
  { intros r q. unfold is_blank in B. apply orb_prop in B as [B|B]; apply N.eqb_eq in B; subst c; reflexivity. }
  destruct (span_while is_blank rest) as [a b] eqn:S.
  assert (N1 : next_token (mkts (c :: rest) p None) = emit Whitespace (c :: a) b p None).
  { rewrite NX. cbn [span_while]. rewrite B, S. reflexivity. }
  assert (exists f ts, tokens_from f (mkts b (p + blen (c :: a)) None) = Some ts /\ sigs (map kt ts) = l) as (f & ts & T & E).
  { destruct a as [|e a].
    - pose proof (span_while_app _ _ _ _ S) as ->. apply R.
    - (* the blanks of [rest] *)
      pose proof (span_while_app _ _ _ _ S) as ER. pose proof (span_while_all _ _ _ _ S) as A. cbn in A. apply andb_true_iff in A as [A _].
      destruct (R (p + blen (c :: e :: a) - blen (e :: a))) as (f & ts & T & E).
      destruct f as [|f]; [discriminate|]. cbn [tokens_from] in T.
      assert (N2 : next_token (mkts rest (p + blen (c :: e :: a) - blen (e :: a)) None) =
        emit Whitespace (e :: a) b (p + blen (c :: e :: a) - blen (e :: a)) None).
      { rewrite ER. rewrite ER in S. unfold is_blank in A.
        apply orb_prop in A as [A|A]; apply N.eqb_eq in A; subst e; cbn [app next_token ts_hd ts_rem ts_pos N.eqb Pos.eqb andb];
          unfold is_blank at 1; cbn [N.eqb Pos.eqb orb]; cbn [app] in S; rewrite S; reflexivity. }
      rewrite N2 in T. cbn [emit tk_kind is_eof_kind] in T.
      destruct (tokens_from f (mkts b (p + blen (c :: e :: a) - blen (e :: a) + blen (e :: a)) None)) as [ts'|] eqn:T'; [|discriminate].
      injection T as <-. exists f, ts'. split; [|exact E].
      replace (p + blen (c :: e :: a)) with (p + blen (c :: e :: a) - blen (e :: a) + blen (e :: a)); [exact T'|].
      cbn [blen]. lia. }
  exists (Datatypes.S f). eexists. cbn [tokens_from]. rewrite N1. cbn [emit tk_kind is_eof_kind]. rewrite T. split; [reflexivity | exact E].
Qed.
Lemma retok_newline : forall rest l, retok rest l -> retok (cLF :: rest) l.
Proof.
  intros rest l R p. destruct (R (p + blen [cLF])) as (f & ts & T & E). exists (Datatypes.S f). eexists. cbn [tokens_from].
  change (next_token (mkts (cLF :: rest) p None)) with (emit Newline [cLF] rest p None). cbn [emit tk_kind is_eof_kind]. rewrite T.
  split; [reflexivity | exact E].
Qed.
Lemma retok_comma : forall rest l, retok rest l -> retok (cCOMMA :: rest) l.
Proof.
  intros rest l R p. destruct (R (p + blen [cCOMMA])) as (f & ts & T & E). exists (Datatypes.S f). eexists. cbn [tokens_from].
  change (next_token (mkts (cCOMMA :: rest) p None)) with (emit Comma [cCOMMA] rest p None). cbn [emit tk_kind is_eof_kind]. rewrite T.
  split; [reflexivity | exact E].
Qed.
Lemma retok_tokens : forall s l, retok s l -> exists ts, tokens s = Some ts /\ sigs (map kt ts) = l.
Proof.
  intros s l R. destruct (R 0) as (f & ts & T & E). exists ts. split; [|exact E]. eapply tokens_any_fuel. exact T.
Qed.
