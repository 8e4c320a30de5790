(** The texts that facet-styx's serializer writes, and how they are read. *)
From Coq Require Import String.
From Verif Require Import Base BaseProofs TokModel TokProofs LexModel LexSpec FmtModel FmtSpec EscapeProofs LexProofs LexRunProofs RetokProofs RelexProofs AgreeLex FmtLexProofs FmtRowProofs.
From Verif Require Import ParseModel ParseSpec TreeModel TreeSpec PathSpec ScalarProofs PropFmt GrammarSpec GrammarProofs GrammarRunProofs WriteSpec RoundProofs WriteProofs.
From Verif Require Import FacetModel FacetSpec FacetSerModel FacetSerSpec.
Notation length := List.length.

(** ** Layouts *)
Section Layout.
Variable o : opts.

Definition boxed := fix boxed (d : data) : bool := match d with VSeq _ | VStruct _ => true | VVariant _ x => boxed x | _ => false end.

(** What a payload text looks like. *)
Definition pay (n : str) (d : data) (t : str) : Prop :=
  match d with
  | VSeq _ | VStruct _ => True
  | VText s => t = scalar_text o true s /\ forall m, n <> m ++ [cr]
  | VBytes _ => forall m, n <> m ++ [cr]
  | _ => False
  end.
Definition key_shown (tag name : option str) : str :=
  match key_raw tag name, name with Some k, _ => k | None, Some n => FmtModel.key_text n | None, None => [] end.

Inductive lay : data -> str -> Prop :=
| l_unit : lay VUnit [cAT]
| l_word t : number_text t -> lay (VWord t) t
| l_text q s : line_feeds s < o_heredoc o -> no_gt_word s -> lay (VText s) (scalar_text o q s)
| l_bytes b : Forall (fun x => (x < 256)%N) b -> lay (VBytes b) (cDQ :: flat_map hex_byte b ++ [cDQ])
| l_seq l u : lays true l u -> lay (VSeq l) (cLP :: u ++ [cRP])
| l_struct l u : layf true l u -> NoDup (map field_ident l) -> lay (VStruct l) (cLB :: u ++ [cRB])
| l_tag n d t : tag_name n -> layc n d t -> lay (VVariant n d) (cAT :: n ++ t)
(** After the tag [n]. *)
with layc : str -> data -> str -> Prop :=
| lc_unit n : layc n VUnit []
| lc_pay n d t : pay n d t -> lay d t -> layc n d t
| lc_chain n m d t : tag_name m -> layc m d t -> layc n (VVariant m d) (cSLASH :: cAT :: m ++ t)
(** Elements: at the start and after a bracket the next one may follow directly. *)
with lays : bool -> list data -> str -> Prop :=
| ly_nil g : lays g [] []
| ly_glue d r t u : lay d t -> lays (boxed d) r u -> lays true (d :: r) (t ++ u)
| ly_space g d r t u : lay d t -> lays (boxed d) r u -> lays g (d :: r) (cSP :: t ++ u)
with layf : bool -> list datafield -> str -> Prop :=
| lf_nil f : layf f [] []
| lf_cons f tag name d r t u : key_sound false tag name -> lay d t -> layf false r u ->
    layf f (VField tag name [] d :: r) ((if f then [] else [cCOMMA; cSP]) ++ key_shown tag name ++ cSP :: t ++ u).

Scheme lay_mind := Induction for lay Sort Prop
  with layc_mind := Induction for layc Sort Prop
  with lays_mind := Induction for lays Sort Prop
  with layf_mind := Induction for layf Sort Prop.
Combined Scheme lay_all from lay_mind, layc_mind, lays_mind, layf_mind.

(** ** Tags *)
Lemma scan_tag_name' n rest : forallb is_tag_char n = true -> scan_tag rest = ([], rest) -> (forall m x, n = m ++ [cr] -> rest <> cDQ :: x /\ rest <> cHASH :: x) -> scan_tag (n ++ rest) = (n, rest).
Proof.
  intros Hn Hr Hq. induction n as [|c n IH]; [exact Hr|]. cbn [app forallb] in *. apply andb_prop in Hn as [Hc Hn]. cbn [scan_tag]. rewrite Hc.
  replace ((c =? cr)%N && opt_is is_hash_or_dq (peek (n ++ rest))) with false.
  - rewrite IH; auto. intros m x ->. apply (Hq (c :: m)). reflexivity.
  - symmetry. apply andb_false_iff. destruct (N.eqb_spec c cr) as [->|]; [right|now left]. destruct n as [|d n].
    + cbn [app]. destruct rest as [|d r]; [reflexivity|]. cbn. destruct (Hq [] r eq_refl) as [H1 H2]. unfold is_hash_or_dq.
      apply orb_false_iff. split; apply N.eqb_neq; intros ->; congruence.
    + cbn in Hn. apply andb_prop in Hn as [Hd _]. cbn. now apply tag_char_not_raw.
Qed.

Definition segs (ns : list str) : str := flat_map (fun m => cSLASH :: cAT :: m) ns.
Lemma segs_join n ns : n ++ segs ns = join [cSLASH; cAT] (n :: ns).
Proof. revert n. induction ns as [|m ns IH]; intros n; [apply app_nil_r|]. cbn [segs flat_map]. fold (segs ns). cbn [join]. f_equal. cbn [app]. f_equal. f_equal. apply IH. Qed.

Lemma last_shift {A} (l : list A) : forall x d, last (x :: l) d = last l x.
Proof. induction l as [|y l IH]; intros x d; [reflexivity|]. rewrite (IH y x), <- (IH y d). reflexivity. Qed.

Lemma scan_chain ns : forall n rest, forallb is_tag_char n = true -> Forall tag_name ns -> scan_tag rest = ([], rest) ->
  (forall x, (rest <> cDQ :: x /\ rest <> cHASH :: x) \/ forall m, last ns n <> m ++ [cr]) -> scan_tag (n ++ segs ns ++ rest) = (n ++ segs ns, rest).
Proof.
  induction ns as [|m ns IH]; intros n rest Hn Hf Hr Hq.
  - cbn [segs flat_map app]. rewrite app_nil_r. apply scan_tag_name'; auto. intros k x E. destruct (Hq x) as [H|H]; [exact H|]. now destruct (H k).
  - inversion Hf as [|? ? (c & r & -> & Hc & Hcr) Hf']; subst. specialize (IH r rest Hcr Hf' Hr).
    assert (scan_tag (r ++ segs ns ++ rest) = (r ++ segs ns, rest)) as E.
    { apply IH. intros x. destruct (Hq x) as [H|H]; [now left|right]. intros k. destruct ns as [|m' ns].
      - intros Ek. cbn in Ek. subst r. apply (H (c :: k)). reflexivity.
      - intros Ek. apply (H k). rewrite last_shift in *. rewrite last_shift. exact Ek. }
    clear IH Hq Hr Hf Hf'. cbn [segs flat_map app]. fold (segs ns). rewrite <- app_assoc. induction n as [|x n IHn].
    + cbn [app]. change (scan_tag (cSLASH :: cAT :: c :: r ++ segs ns ++ rest)) with (if is_tag_start c then let (a, b) := scan_tag (r ++ segs ns ++ rest) in (cSLASH :: cAT :: c :: a, b) else ([], cSLASH :: cAT :: c :: r ++ segs ns ++ rest)).
      rewrite Hc, E. reflexivity.
    + cbn [forallb] in Hn. apply andb_prop in Hn as [Hx Hn]. specialize (IHn Hn). cbn [app scan_tag]. rewrite Hx, IHn.
      replace ((x =? cr)%N && opt_is is_hash_or_dq (peek (n ++ cSLASH :: cAT :: c :: r ++ segs ns ++ rest))) with false; [reflexivity|].
      symmetry. apply andb_false_iff. right. destruct n as [|y n]; [reflexivity|]. cbn in Hn. apply andb_prop in Hn as [Hy _]. cbn. now apply tag_char_not_raw.
Qed.

Lemma lexes_next k t rest : k <> Eof -> (forall p, next_token (mkts (t ++ rest) p None) = emit k t rest p None) -> lexes t rest [(k, t)].
Proof. intros K H p. specialize (H p). unfold emit in H. eexists. change (k, t) with (kt (mktok k (mkspan p (p + blen t)) t)). eapply steps_cons; [exact H|exact K|apply steps_nil]. Qed.

Lemma lexes_chain n ns rest : tag_name n -> Forall tag_name ns -> scan_tag rest = ([], rest) ->
  (forall x, (rest <> cDQ :: x /\ rest <> cHASH :: x) \/ forall m, last ns n <> m ++ [cr]) -> lexes (cAT :: n ++ segs ns) rest [(Tag, cAT :: n ++ segs ns)].
Proof.
  intros (c & r & -> & Hc & Hcr) Hf Hr Hq. apply lexes_next; [discriminate|]. intros p. cbn [app next_token ts_hd ts_rem ts_pos N.eqb Pos.eqb tok_at_or_tag]. rewrite Hc, <- app_assoc, scan_chain; auto.
  intros x. destruct (Hq x) as [H|H]; [now left|right]. intros k. destruct ns; [intros E; cbn in E; subst r; apply (H (c :: k)); reflexivity|]. intros E. apply (H k). rewrite last_shift in *. exact E.
Qed.

(** ** Reading *)
Definition softa (p : nat) (rest : str) (ls : list lexeme) : Prop := lexd p rest ls /\ soft rest /\ away p ls.
Definition follow (d : data) (p : nat) (rest : str) (ls : list lexeme) : Prop := if boxed d then lexd p rest ls else softa p rest ls.
Definition rd (d : data) (t : str) : Prop := forall p rest ls', follow d (p + blen t) rest ls' ->
  exists ls dv, lexd p (t ++ rest) ls /\ gval ls dv [] ls' /\ content_of dv = said d /\ next_at p ls /\ payload_start ls.
Definition rdc (n : str) (d : data) (t : str) : Prop := exists ns d0 t0, d = fold_right VVariant d0 ns /\ t = segs ns ++ t0 /\ Forall tag_name ns /\
  ((d0 = VUnit /\ t0 = []) \/ (pay (last ns n) d0 t0 /\ lay d0 t0 /\ rd d0 t0)).
Definition rds (g : bool) (l : list data) (u : str) : Prop := forall p rest ls', lexd (S (p + blen u)) rest ls' ->
  exists ls ds e, lexd p (u ++ cRP :: rest) ls /\ (g = false -> softa p (u ++ cRP :: rest) ls) /\ gitems ls ds [] e ls' /\ map content_of ds = map said l.
Definition rdf (f : bool) (l : list datafield) (u : str) : Prop := forall p rest ls', lexd (S (p + blen u)) rest ls' ->
  exists ls ks ds e, lexd p (u ++ cRB :: rest) ls /\ (f = false -> softa p (u ++ cRB :: rest) ls /\ gstop ls [] ls) /\ gents [] ls ks ds [] e ls' /\
    map field_of ds = map said_field l /\ ks = map field_ident l.

Lemma softa_space p r ls : lexd (S p) r ls -> softa p (cSP :: r) ls /\ Forall (fun l => S p <= sp_start (lx_span l)) ls.
Proof.
  intros H. destruct (softly_space p r ls H) as [(H1 & H2 & _) Hs]. split; [|exact Hs]. split; [exact H1|]. split; [exact H2|]. right. destruct ls as [|l ls]; [exact I|]. inversion Hs; subst. lia.
Qed.
Lemma softa_sym c p r ls : In c [cRB; cRP; cCOMMA; cLF] -> lexd (S p) r ls -> softa p (c :: r) (sym_lexeme c (mkspan p (S p)) :: ls).
Proof.
  intros Hc H. destruct (softly_sym c p r ls Hc H) as (H1 & H2 & _). split; [exact H1|]. split; [exact H2|]. left. cbn in Hc. decompose [or] Hc; subst; try contradiction; exact I.
Qed.
Lemma softa_follow d p rest ls : softa p rest ls -> follow d p rest ls.
Proof. intros H. unfold follow. destruct (boxed d); [apply H|exact H]. Qed.

Lemma number_bare t : number_text t -> can_be_bare t = true /\ ~ In cGT t.
Proof.
  intros [Hn Hf]. rewrite Forall_forall in Hf. assert (Hc : forall c, In c t -> bare_special c = false /\ c <> cGT /\ c <> cSLASH /\ c <> cHASH /\ c <> cLT).
  { intros c Hi. specialize (Hf c Hi). unfold number_char in Hf. splits; [|lia..]. apply not_true_iff_false. intros H. unfold bare_special, is_ws, in_range in H.
    rewrite ?orb_true_iff, ?andb_true_iff, ?N.leb_le, ?N.eqb_eq in H. lia. }
  split.
  - unfold can_be_bare. destruct t as [|c t]; [congruence|]. apply andb_true_intro. split.
    + apply negb_true_iff, orb_false_iff. split; [apply orb_false_iff; split|].
      * apply not_true_iff_false. intros E. apply starts_with_iff in E as [x E]. injection E as -> _. destruct (Hc cSLASH (or_introl eq_refl)) as (_ & _ & H & _). congruence.
      * apply not_true_iff_false. intros E. apply starts_with_iff in E as [x E]. injection E as -> ->. destruct (Hc cHASH (or_intror (or_introl eq_refl))) as (_ & _ & _ & H & _). congruence.
      * apply not_true_iff_false. intros E. apply starts_with_iff in E as [x E]. injection E as -> _. destruct (Hc cLT (or_introl eq_refl)) as (_ & _ & _ & _ & H). congruence.
    + apply negb_true_iff, not_true_iff_false. intros E. apply existsb_exists in E as (x & Hi & E). destruct (Hc x Hi) as [H _]. congruence.
  - intros Hi. destruct (Hc _ Hi) as (_ & H & _). congruence.
Qed.

Lemma soft_scan rest : soft rest -> scan_tag rest = ([], rest) /\ forall x, rest <> cDQ :: x /\ rest <> cHASH :: x.
Proof. destruct rest as [|c r]; cbn [soft]; [intros _; split; [reflexivity|split; discriminate]|]. intros H. cbn in H. decompose [or] H; subst; try contradiction; (split; [reflexivity|split; discriminate]). Qed.

Lemma plain_safe u : Forall (fun c => c <> 34 /\ c <> 92)%N u -> quote_safe u /\ decodes u u.
Proof. induction 1 as [|c u [H1 H2] _ [IH1 IH2]]; split; constructor; auto. Qed.
Lemma hex_plain b : (b < 256)%N -> hex_byte b = byte_text b /\ Forall (fun c => c <> 34 /\ c <> 92)%N (hex_byte b).
Proof.
  intros H. assert (forall x, (x < 16)%N -> hex_of x = digit x /\ (hex_of x <> 34 /\ hex_of x <> 92)%N) as D.
  { intros x Hx. assert (x = 0 \/ x = 1 \/ x = 2 \/ x = 3 \/ x = 4 \/ x = 5 \/ x = 6 \/ x = 7 \/ x = 8 \/ x = 9 \/ x = 10 \/ x = 11 \/ x = 12 \/ x = 13 \/ x = 14 \/ x = 15)%N as E by lia.
    decompose [or] E; subst; (split; [reflexivity|split; discriminate]). }
  destruct (D (b / 16)%N) as [E1 K1]; [apply N.div_lt_upper_bound; lia|]. destruct (D (b mod 16)%N) as [E2 K2]; [apply N.mod_lt; lia|]. split; [unfold hex_byte, byte_text; now rewrite E1, E2|]. repeat constructor; tauto.
Qed.
Lemma hex_text b : Forall (fun x => (x < 256)%N) b -> flat_map hex_byte b = flat_map byte_text b /\ Forall (fun c => c <> 34 /\ c <> 92)%N (flat_map hex_byte b).
Proof. induction 1 as [|x b H _ [IH1 IH2]]; [split; constructor|]. destruct (hex_plain x H) as [E F]. cbn [flat_map]. split; [now rewrite E, IH1|]. now apply Forall_app. Qed.

Definition payload_kind (k : tkind) : Prop := match k with QuotedScalar | RawScalar | LBrace | LParen => True | _ => False end.
Lemma quoted_or_raw s : line_feeds s < o_heredoc o -> scalar_text o true s = FmtModel.quoted_text s \/
  exists h, h <= 255 /\ ~ occurs (cDQ :: repeat cHASH h) s /\ scalar_text o true s = cr :: repeat cHASH h ++ cDQ :: s ++ cDQ :: repeat cHASH h.
Proof.
  intros H1. unfold scalar_text. cbn [negb andb]. rewrite count_newlines_occ. replace (o_heredoc o <=? newlines s) with false by (symmetry; apply Nat.leb_gt; exact H1).
  destruct ((3 <? count_escapes s) && negb (contains_sub [cDQ; cHASH] s)) eqn:E; [right|now left].
  apply andb_prop in E as [_ E]. apply negb_true_iff in E. destruct (raw_hashes_spec (S (length s)) 0 s) as (_ & R2 & R3); [lia|]. unfold FmtModel.raw_text. set (h := raw_hashes (S (length s)) 0 s) in *.
  exists h. splits; [|exact R2|reflexivity]. destruct (Nat.le_gt_cases h 255); [assumption|exfalso]. revert E. apply not_false_iff_true, contains_sub_iff. apply (R3 1). lia.
Qed.
Lemma pay_token n d t rest : pay n d t -> lay d t -> scan_tag (t ++ rest) = ([], t ++ rest) /\
  (forall p, payload_kind (tk_kind (fst (next_token (mkts (t ++ rest) p None))))) /\ (forall x, (t ++ rest <> cDQ :: x /\ t ++ rest <> cHASH :: x) \/ forall m, n <> m ++ [cr]).
Proof.
  intros Hp Hl. destruct Hl as [|t H|q s H1 H2|b Hb|l u Hu|l u Hu Hn|m d t Hm Hc]; cbn [pay] in Hp; try contradiction.
  - destruct Hp as [-> Hp]. destruct (quoted_or_raw s H1) as [->|(h & Hh & Ho & ->)].
    + splits; [reflexivity| |right; exact Hp]. intros p. unfold FmtModel.quoted_text. rewrite next_quoted; [exact I|apply escape_safe].
    + splits; [|intros p; rewrite next_raw; [exact I|exact Hh|exact Ho]|right; exact Hp]. destruct h; reflexivity.
  - splits; [reflexivity| |right; exact Hp]. intros p. rewrite next_quoted; [exact I|]. apply plain_safe, hex_text, Hb.
  - splits; [reflexivity|intros p; exact I|left; split; discriminate].
  - splits; [reflexivity|intros p; exact I|left; split; discriminate].
Qed.

Lemma stacked_said ns : forall start p d0, match p with Some q => content_of q | None => CUnit end = said d0 -> ns <> [] ->
  exists d, stacked start ns p = Some d /\ content_of d = said (fold_right VVariant d0 ns).
Proof.
  induction ns as [|n ns IH]; intros start p d0 H Hn; [congruence|]. cbn [stacked fold_right said]. destruct ns as [|m ns].
  - eexists. split; [reflexivity|]. cbn. now rewrite H.
  - destruct (IH (start + blen n + 2) p d0 H) as (d & E & Ed); [discriminate|]. rewrite E. eexists. split; [reflexivity|]. cbn [content_of]. now rewrite Ed.
Qed.
Lemma boxed_chain ns d : boxed (fold_right VVariant d ns) = boxed d.
Proof. induction ns; [reflexivity|exact IHns]. Qed.
Lemma name_no_chain n : tag_name n -> contains_sub [cSLASH; cAT] n = false.
Proof.
  intros (c & r & -> & Hc & Hr). apply not_true_iff_false. intros H. apply contains_sub_iff in H as (a & b & E). assert (forallb is_tag_char (c :: r) = true) as F by (cbn; now rewrite tag_start_char, Hr).
  rewrite forallb_forall in F. assert (is_tag_char cSLASH = true) as K; [|discriminate]. apply F. rewrite E, in_app_iff. right. now left.
Qed.

Lemma rd_scalar d s t : boxed d = false -> said d = CText s -> scalar_as s t -> rd d t.
Proof.
  intros Hb Hd Hs p rest ls'. unfold follow. rewrite Hb. intros (Hl & Hr & _). destruct (scalar_lexd s t p rest ls' Hs Hr Hl) as [k H]. eexists _, _. splits; [exact H|apply gv_scalar|now rewrite Hd| |exact I].
  eexists _, _. split; reflexivity.
Qed.

Lemma rd_tag n d t : tag_name n -> rdc n d t -> rd (VVariant n d) (cAT :: n ++ t).
Proof.
  intros Hn (ns & d0 & t0 & -> & -> & Hf & Hd) p rest ls' H. set (name := n ++ segs ns). assert (tag_chain name (n :: ns)) as Hc by (split; [discriminate|split; [now constructor|apply segs_join]]).
  assert (forall r, (cAT :: n ++ segs ns ++ t0) ++ r = (cAT :: name) ++ t0 ++ r) as Et by (intros r; unfold name; cbn [app]; now rewrite <- !app_assoc).
  rewrite Et. replace (p + blen (cAT :: n ++ segs ns ++ t0)) with (p + blen (cAT :: name) + blen t0) in H by (rewrite <- (app_nil_r (cAT :: n ++ _)), Et, app_nil_r, (blen_app (cAT :: name)); lia).
  unfold follow in H. cbn [boxed] in H. change ((fix boxed (d : data) : bool := match d with VSeq _ | VStruct _ => true | VVariant _ x => boxed x | _ => false end) (fold_right VVariant d0 ns)) with (boxed (fold_right VVariant d0 ns)) in H. rewrite boxed_chain in H.
  destruct Hd as [[-> ->]|(Hp & Hl & Hr)].
  - cbn [boxed app blen] in *. rewrite Nat.add_0_r in H. destruct H as (H1 & H2 & H3). destruct (soft_scan rest H2) as [S1 S2].
    destruct (stacked_said (n :: ns) p None VUnit eq_refl) as (dv & E & Ed); [discriminate|].
    eexists _, dv. splits.
    + apply (lexd_chain p name rest ls' (contains_sub [cSLASH; cAT] name)); [apply lexes_chain; auto| |exact H1]. intros q. pose proof (soft_token rest q H2) as K. destruct (tk_kind _); try contradiction; (split; [discriminate|now rewrite orb_false_r]).
    + apply (gv_tag _ _ _ (n :: ns)); [exact Hc| |intros x; apply away_bare; exact H3|exact E]. destruct ns as [|m ns]; cbn [has_payload].
      * unfold name. cbn [segs flat_map]. rewrite app_nil_r, name_no_chain by assumption. discriminate.
      * intros [K1 K2]. exact (away_not_at _ _ H3 K2 K1).
    + exact Ed.
    + eexists _, _. split; reflexivity.
    + exact I.
  - destruct (Hr (p + blen (cAT :: name)) rest ls') as (ls & dv & R1 & R2 & R3 & R4 & R5); [exact H|]. destruct (pay_token _ _ _ rest Hp Hl) as (P1 & P2 & P3).
    destruct (stacked_said (n :: ns) p (Some dv) d0 R3) as (dv' & E & Ed); [discriminate|].
    eexists _, dv'. splits.
    + apply (lexd_chain p name (t0 ++ rest) ls true); [apply lexes_chain; auto| |exact R1]. intros q. specialize (P2 q). destruct (tk_kind _); try contradiction; (split; [discriminate|cbn; now rewrite orb_true_r]).
    + apply (gv_tag_payload _ _ _ (n :: ns) dv); [exact Hc| |exact R2|exact E]. destruct ns as [|m ns]; cbn [has_payload]; auto.
    + exact Ed.
    + eexists _, _. split; reflexivity.
    + exact I.
Qed.

Definition key_says (f : datafield) (k : dval) (tag pl : option str) (kd : skind) : Prop :=
  match f with VField t n _ _ => key_is k tag pl kd /\ tag = said_tag t n /\ pl = n /\ key_id k = field_ident f end.
Lemma rd_key root tag name p rest ls' : key_sound root tag name -> softa (p + blen (key_shown tag name)) rest ls' ->
  exists ls k pl kd, lexd p (key_shown tag name ++ rest) ls /\ gval ls k [] ls' /\ key_is k (said_tag tag name) pl kd /\ pl = name /\ (forall d, key_id k = field_ident (VField tag name [] d)) /\
    sp_end (dspan k) <= p + blen (key_shown tag name) /\ no_open_brace ls /\
    (root = true -> ~ dotted_key k /\ (forall sp t, k <> DScalar sp t Heredoc) /\ said_tag tag name <> Some (lit "schema")).
Proof.
  intros Hk (Hl & Hs & Ha). destruct Hk as [n Hg Hd| | |t Ht Hsc|t n Ht Hsc Hr Hn]; unfold key_shown in *; cbn [key_raw said_tag field_ident] in *.
  - destruct (key_reads n Hg) as (kd & Hh & Hb & Hne & Hrd). eexists _, _, _, _. splits; [apply lexd_scalar; eauto|apply gv_scalar|apply GrammarSpec.key_text|reflexivity|reflexivity|cbn; lia|intros ? ? [=]|].
    intros Hroot. splits; [|intros ? ? [=]; congruence|discriminate]. intros (sp & t' & [= <- <- ->] & Hi). eapply Hd; eauto.
  - change (blen [cAT]) with 1 in *. rewrite Nat.add_1_r in *. eexists _, _, _, _. splits; [apply lexd_unit; [exact Hs|exact Hl]|apply gv_unit; intros x; apply away_bare; exact Ha|apply key_unit|reflexivity|reflexivity|cbn; lia|intros ? ? [=]|].
    intros _. splits; [intros (? & ? & [=] & _)|intros ? ? [=]|discriminate].
  - change (blen [cAT]) with 1 in *. rewrite Nat.add_1_r in *. eexists _, _, _, _. splits; [apply lexd_unit; [exact Hs|exact Hl]|apply gv_unit; intros x; apply away_bare; exact Ha|apply key_unit|reflexivity|reflexivity|cbn; lia|intros ? ? [=]|].
    intros _. splits; [intros (? & ? & [=] & _)|intros ? ? [=]|discriminate].
  - assert (said_tag (Some t) None = Some t) as E by (destruct Ht as (c & r & -> & _); reflexivity). cbn [said_tag] in *. rewrite E.
    change (blen (cAT :: t)) with (1 + blen t) in *. rewrite Nat.add_assoc in *. eexists _, _, _, _. splits.
    + apply lexd_tag with (hp := false); [exact Ht|exact Hs|exact Hl].
    + eapply (gv_tag _ _ _ [t]); [now apply name_chain|cbn; discriminate| |cbn [stacked]; reflexivity]. intros t0. apply away_bare. exact Ha.
    + apply key_tag.
    + reflexivity.
    + intros d. cbn. destruct t; [discriminate|reflexivity].
    + cbn; lia.
    + intros ? ? [=].
    + intros Hroot. splits; [intros (? & ? & [=] & _)|intros ? ? [=]|]. intros [= ->]. now apply (Hsc Hroot).
  - assert (Forall (fun c => c <> 34 /\ c <> 92)%N n) as Hp by (eapply Forall_impl; [|exact Hn]; cbn; tauto). destruct (plain_safe n Hp) as [Q1 Q2].
    assert (said_tag (Some t) (Some n) = Some t) as E by (destruct t; reflexivity). cbn [said_tag] in *. rewrite E.
    set (q := cDQ :: n ++ [cDQ]) in *. change (blen (cAT :: t ++ q)) with (1 + blen (t ++ q)) in *. rewrite blen_app in *. cbn [app]. rewrite <- app_assoc. eexists _, _, _, _. splits.
    + apply lexd_tag with (hp := true); [exact Ht| |].
      * right. eexists n, rest. splits; [exact Q1|reflexivity|assumption].
      * apply lexd_scalar; [discriminate|apply reads_quoted; [exact Q1|exact Q2]|]. fold q. replace (p + 1 + blen t + blen q) with (p + (1 + (blen t + blen q))) by lia. exact Hl.
    + eapply (gv_tag_payload _ _ _ [t]); [now apply name_chain|reflexivity|apply gv_scalar|cbn [stacked]; reflexivity].
    + apply key_tag_text. eauto.
    + reflexivity.
    + reflexivity.
    + cbn. lia.
    + intros ? ? [=].
    + intros Hroot. splits; [intros (? & ? & [=] & _)|intros ? ? [=]|]. intros [= ->]. now apply (Hsc Hroot).
Qed.

Lemma softa_stop_follow d p rest ls : (boxed d = false -> softa p rest ls) -> lexd p rest ls -> follow d p rest ls.
Proof. unfold follow. destruct (boxed d); auto. Qed.

Lemma layout_rd : (forall d t, lay d t -> rd d t) /\ (forall n d t, layc n d t -> rdc n d t) /\ (forall g l u, lays g l u -> rds g l u) /\ (forall f l u, layf f l u -> rdf f l u).
Proof.
  apply lay_all.
  - intros p rest ls' (H1 & H2 & H3). change (blen [cAT]) with 1 in *. rewrite Nat.add_1_r in *. eexists _, _. splits; [apply lexd_unit; [exact H2|exact H1]|apply gv_unit; intros x; apply away_bare; exact H3|reflexivity| |exact I]. eexists _, _. split; reflexivity.
  - intros t H. destruct (number_bare t H) as [B1 B2]. apply (rd_scalar _ t); [reflexivity|reflexivity|]. split; [apply H|]. intros rest Hr. exists Bare. apply C11_lexed_partial; auto; [now apply soft_scalar_ends|]. intros _ x. now apply soft_no_quote.
  - intros q s H1 H2. apply (rd_scalar _ s); [reflexivity|reflexivity|now apply scalar_text_as].
  - intros b Hb. destruct (hex_text b Hb) as [E F]. destruct (plain_safe _ F) as [Q1 Q2]. apply (rd_scalar _ (flat_map byte_text b)); [reflexivity|reflexivity|]. split; [discriminate|]. intros rest Hr. exists Quoted. rewrite <- E. now apply reads_quoted.
  - intros l u _ IH p rest ls' Hl. cbn [follow boxed] in Hl. change (blen (cLP :: u ++ [cRP])) with (1 + blen (u ++ [cRP])) in Hl. rewrite blen_app in Hl. change (blen [cRP]) with 1 in Hl.
    destruct (IH (S p) rest ls') as (ls & ds & e & H1 & _ & H2 & H3); [now replace (S (S p + blen u)) with (p + (1 + (blen u + 1))) by lia|]. cbn [app]. rewrite <- app_assoc. cbn [app].
    eexists _, _. splits; [apply (lexd_sym cLP); [cbn; tauto|exact H1]|eapply gv_seq; exact H2|cbn [content_of said]; now rewrite H3| |exact I]. eexists _, _. split; reflexivity.
  - intros l u _ IH Hnd p rest ls' Hl. cbn [follow boxed] in Hl. change (blen (cLB :: u ++ [cRB])) with (1 + blen (u ++ [cRB])) in Hl. rewrite blen_app in Hl. change (blen [cRB]) with 1 in Hl.
    destruct (IH (S p) rest ls') as (ls & ks & ds & e & H1 & _ & H2 & H3 & H4); [now replace (S (S p + blen u)) with (p + (1 + (blen u + 1))) by lia|]. cbn [app]. rewrite <- app_assoc. cbn [app].
    eexists _, _. splits; [apply (lexd_sym cLB); [cbn; tauto|exact H1]|eapply gv_obj; [exact H2|now subst ks]|cbn [content_of said]; now rewrite H3| |exact I]. eexists _, _. split; reflexivity.
  - intros n d t Hn _ IH. now apply rd_tag.
  - intros n. exists [], VUnit, []. splits; auto.
  - intros n d t Hp Hl IH. exists [], d, t. splits; auto.
  - intros n m d t Hm _ (ns & d0 & t0 & -> & -> & Hf & Hd). exists (m :: ns), d0, t0. splits; [reflexivity|cbn [segs flat_map app]; now rewrite <- app_assoc|now constructor|]. rewrite last_shift. exact Hd.
  - intros g p rest ls' Hl. cbn in Hl. rewrite Nat.add_0_r in Hl. pose proof (softa_sym cRP p rest ls' ltac:(cbn; tauto) Hl) as H. eexists _, [], _. splits; [apply H|intros _; apply H|apply gi_end|reflexivity].
  - intros d r t u _ IHv _ IHu p rest ls' Hl. rewrite blen_app in Hl. destruct (IHu (p + blen t) rest ls') as (ls1 & ds & e & H1 & H1s & H2 & H3); [now rewrite <- Nat.add_assoc|].
    destruct (IHv p (u ++ cRP :: rest) ls1) as (ls & dv & H4 & H5 & H6 & _); [now apply softa_stop_follow|].
    rewrite <- app_assoc. exists ls, (dv :: ds), e. splits; [exact H4|discriminate| |cbn; now rewrite H3, H6]. apply (gi_item ls dv [] ls1 ds [] e ls'); assumption.
  - intros g d r t u _ IHv _ IHu p rest ls' Hl. change (blen (cSP :: t ++ u)) with (1 + blen (t ++ u)) in Hl. rewrite blen_app in Hl.
    destruct (IHu (S p + blen t) rest ls') as (ls1 & ds & e & H1 & H1s & H2 & H3); [now replace (S (S p + blen t + blen u)) with (S (p + (1 + (blen t + blen u)))) by lia|].
    destruct (IHv (S p) (u ++ cRP :: rest) ls1) as (ls & dv & H4 & H5 & H6 & _); [now apply softa_stop_follow|].
    cbn [app]. rewrite <- app_assoc. destruct (softa_space p (t ++ u ++ cRP :: rest) ls H4) as [H7 _]. exists ls, (dv :: ds), e. splits; [apply H7|intros _; apply H7| |cbn; now rewrite H3, H6].
    apply (gi_item ls dv [] ls1 ds [] e ls'); assumption.
  - intros f p rest ls' Hl. cbn in Hl. rewrite Nat.add_0_r in Hl. pose proof (softa_sym cRB p rest ls' ltac:(cbn; tauto) Hl) as H. eexists _, [], [], _. splits; [apply H|intros _; split; [apply H|apply gs_brace]|apply ge_end|reflexivity|reflexivity].
  - intros f tag name d r t u Hk _ IHv _ IHu p rest ls' Hl. set (g := if f then [] else [cCOMMA; cSP]) in *. set (kt := key_shown tag name) in *. repeat (rewrite blen_app in Hl || change (blen (cSP :: t ++ u)) with (1 + blen (t ++ u)) in Hl).
    destruct (IHu (p + blen g + blen kt + 1 + blen t) rest ls') as (ls1 & ks & ds & e & _ & H1 & H2 & H3 & H4); [now replace (S (p + blen g + blen kt + 1 + blen t + blen u)) with (S (p + (blen g + (blen kt + (1 + (blen t + blen u)))))) by lia|].
    destruct (H1 eq_refl) as [H1s H1g]. destruct (IHv (p + blen g + blen kt + 1) (u ++ cRB :: rest) ls1) as (ls2 & dv & H5 & H6 & H7 & _); [now apply softa_follow|].
    rewrite Nat.add_1_r in H5. destruct (softa_space _ _ _ H5) as [H8 H9]. destruct (rd_key _ _ _ _ _ _ Hk H8) as (ls3 & dk & pl & kd & K1 & K2 & K3 & -> & K5 & K6 & _).
    assert (gents [] ls3 (key_id dk :: ks) (DEnt [] (dspan dk) (dspan dk) (said_tag tag name) name kd dv (dspan dv) :: ds) [] e ls') as G.
    { apply (ge_entry [] ls3 dk dv _ _ kd [] ls1 ks ds [] e ls'); [|exact K3|exact H2]. apply (gl_pair ls3 dk [] ls2 dv [] ls1 [] ls1); [exact K2|eapply not_glued; [exact K6|exact H9]|exact H6|exact H1g]. }
    rewrite <- !app_assoc. cbn [app]. rewrite <- app_assoc. unfold g in *. destruct f.
    + cbn [app]. rewrite Nat.add_0_r in K1. eexists ls3, _, _, e. splits; [exact K1|discriminate|exact G| |]; cbn [map field_of said_field flat_map]; [now rewrite H7, H3|now rewrite (K5 d), H4].
    + cbn [app]. change (blen [cCOMMA; cSP]) with 2 in K1. replace (p + 2) with (S (S p)) in K1 by lia. destruct (softa_space _ _ _ K1) as [[L0 _] _]. pose proof (softa_sym cCOMMA p _ _ ltac:(cbn; tauto) L0) as L.
      eexists _, _, _, e. splits; [apply L|intros _; split; [apply L|apply gs_comma]|apply ge_sep; [left; exact I|exact G]| |]; cbn [map field_of said_field flat_map]; [now rewrite H7, H3|now rewrite (K5 d), H4].
Qed.

(** ** The root *)
Inductive layr : bool -> list datafield -> str -> Prop :=
| lr_nil f : layr f [] (if f then [] else [cLF])
| lr_cons f tag name docs d r t u : key_sound true tag name -> Forall (fun x => ~ In cLF x /\ ~ In cCR x) docs ->
    lay d t \/ (exists s, d = VText s /\ line_as s t) -> layr false r u ->
    layr f (VField tag name docs d :: r) ((if f then [] else [cLF; cLF]) ++ flat_map doc_line_text docs ++ key_shown tag name ++ cSP :: t ++ u).

Lemma root_rd f l u : layr f l u -> forall p, exists ls ds, lexd p u ls /\ (f = false -> softa p u ls /\ gstop ls [] ls /\ exists r, u = cLF :: r) /\
  map field_of ds = map said_field l /\ Forall (fun e => schema_entry e = false) ds /\
  exists h, map as_path h = map (fun e => [field_name e]) l /\ forall opened, exists evs, groot opened [] ls ds evs h.
Proof.
  induction 1 as [f|f tag name docs d r t u Hk Hd Hv _ IH]; intros p.
  - destruct f.
    + exists [], []. splits; [apply RelexProofs.ld_end; intros c []|discriminate|reflexivity|constructor|]. exists []. split; [reflexivity|]. intros opened. eexists. apply gr_end.
    + pose proof (softa_sym cLF p [] [] ltac:(cbn; tauto) ltac:(apply RelexProofs.ld_end; intros c [])) as H. eexists _, []. splits; [apply H|intros _; splits; [apply H|apply gs_newline|eauto]|reflexivity|constructor|].
      exists []. split; [reflexivity|]. intros opened. eexists. apply gr_sep; [exact I|apply gr_end].
  - set (p1 := p + blen (if f then [] else [cLF; cLF])). set (dt := flat_map doc_line_text docs) in *. set (kt := key_shown tag name) in *.
    destruct (IH (p1 + blen dt + blen kt + 1 + blen t)) as (ls1 & ds & _ & H1 & H2 & HS & h & H3 & H4). destruct (H1 eq_refl) as (H1s & H1g & ur & Eu).
    assert (exists ls2 dv, lexd (p1 + blen dt + blen kt + 1) (t ++ u) ls2 /\ gval ls2 dv [] ls1 /\ content_of dv = said d) as (ls2 & dv & H5 & H6 & H7).
    { destruct Hv as [Hv|(s & -> & Ht & Hr)].
      - destruct (proj1 layout_rd _ _ Hv (p1 + blen dt + blen kt + 1) u ls1) as (ls2 & dv & R1 & R2 & R3 & _); [now apply softa_follow|]. eauto.
      - destruct (Hr u) as [kd' Hr']; [right; left; eauto|]. eexists _, _. split; [apply lexd_scalar; [exact Ht|exact Hr'|apply H1s]|]. split; [apply gv_scalar|reflexivity]. }
    rewrite Nat.add_1_r in H5. destruct (softa_space _ _ _ H5) as [H8 H9]. destruct (rd_key _ _ _ _ _ _ Hk H8) as (ls3 & dk & pl & kd & K1 & K2 & K3 & -> & K5 & K6 & K7 & K8). fold kt in K1.
    destruct (K8 eq_refl) as (K8a & K8b & K8c). destruct (docs_lead docs Hd p1 (kt ++ cSP :: t ++ u) ls3 K1) as (ls4 & new & D1 & D2 & D3). fold dt in D1.
    set (e0 := DEnt new (dspan dk) (dspan dk) (said_tag tag name) name kd dv (dspan dv)).
    assert (flat_map snd new = docs) as Ed.
    { clear - D2. revert docs D2. induction new as [|[sp x] new IH]; intros [|y docs] D2; try discriminate; [reflexivity|]. cbn in *. injection D2 as -> D2. cbn. f_equal. now apply IH. }
    assert (map field_of (e0 :: ds) = map said_field (VField tag name docs d :: r)) as Ee by (unfold e0; cbn [map field_of said_field]; rewrite H7, H2; f_equal; f_equal; exact Ed).
    assert (Forall (fun e => schema_entry e = false) (e0 :: ds)) as Hsch.
    { constructor; [|exact HS]. unfold e0. cbn [schema_entry]. destruct (said_tag tag name) as [x|]; [|reflexivity]. apply str_eqb_false. intros ->. now apply K8c. }
    assert (exists h', map as_path h' = map (fun e => [field_name e]) (VField tag name docs d :: r) /\ forall opened, exists evs, groot opened [] ls4 (e0 :: ds) evs h') as (h' & Hh & Hg).
    { eexists ((_, dspan dk, value_shape dv) :: h). split; [cbn [map as_path fst]; rewrite H3; f_equal; instantiate (1 := [field_name (VField tag name docs d)]); reflexivity|]. intros opened. apply D3. intros op. destruct (H4 true) as [evs Hv']. eexists.
      eapply (gr_entry op new ls3 dk dv [] ls1); [exact K7|apply (gl_pair ls3 dk [] ls2 dv [] ls1 [] ls1); [exact K2|eapply not_glued; [exact K6|exact H9]|exact H6|exact H1g]| |exact Hv'].
      cbn [docs_in flat_map]. rewrite app_nil_r. cbn [field_name]. apply re_plain; assumption. }
    destruct f; cbn [app] in *.
    + subst p1. cbn in D1. rewrite Nat.add_0_r in D1. exists ls4, (e0 :: ds). splits; [exact D1|discriminate|exact Ee|exact Hsch|]. exists h'. auto.
    + replace p1 with (S (S p)) in D1 by (subst p1; change (blen [cLF; cLF]) with 2; lia). pose proof (lexd_sym cLF (S p) _ _ ltac:(cbn; tauto) D1) as D. pose proof (softa_sym cLF p _ _ ltac:(cbn; tauto) D) as D'.
      eexists _, (e0 :: ds). splits; [apply D'|intros _; splits; [exact D'|apply gs_newline|eauto]|exact Ee|exact Hsch|]. exists h'. split; [exact Hh|]. intros opened. destruct (Hg opened) as [evs Hv']. eexists.
      apply gr_sep; [exact I|]. apply gr_sep; [exact I|]. exact Hv'.
Qed.

Lemma root_doc l u : layr true l u -> neighbours_differ (map field_name l) ->
  exists ls ds evs, lexd 0 u ls /\ gdoc (blen u) ls ds evs /\ map field_of ds = map said_field l /\ Forall (fun e => schema_entry e = false) ds.
Proof.
  intros Hw Hn. destruct (root_rd _ _ _ Hw 0) as (ls & ds & Hl & _ & He & HS & h & Hh & Hg). destruct (Hg false) as [evs Hv].
  eexists ls, ds, _. splits; [exact Hl| |exact He|exact HS]. apply (gdoc_plain _ _ _ _ h Hv). apply PathProofs.accepted_fine; [now apply (root_paths _ _ _ _ _ _ Hv)|].
  apply (names_accepted _ _ (eq_trans Hh (eq_sym (map_map _ (fun n => [n]) _))) Hn). now left.
Qed.
End Layout.
