(** Reading the tokens of written values. *)
From Coq Require Import String ZArith Lia.
From Verif Require Import Base BaseProofs TokModel TreeModel FmtModel SchemaModel CliSpec SchemaSpec SchemaProofs WriteSpec SerdeModel SerdeSpec SerdeText SerdeTokens.
Local Open Scope nat_scope.

(** ** Skipping *)

Definition balanced (o c : token -> bool) (ts : toks) : Prop := forall d r, skip_to o c (S d) (ts ++ r) = skip_to o c (S d) r.

Lemma bal_nil o c : balanced o c [].
Proof. intros d r. reflexivity. Qed.
Lemma bal_app o c a b : balanced o c a -> balanced o c b -> balanced o c (a ++ b).
Proof. intros Ha Hb d r. rewrite <- app_assoc. now rewrite Ha, Hb. Qed.
Lemma bal_one o c t : o t = false -> c t = false -> balanced o c [t].
Proof. intros H1 H2 d r. cbn [app skip_to]. now rewrite H1, H2. Qed.
Lemma bal_cons o c t ts : o t = false -> c t = false -> balanced o c ts -> balanced o c (t :: ts).
Proof. intros H1 H2. apply (bal_app o c [t]). now apply bal_one. Qed.
Lemma bal_wrap o c x ts z : o x = true -> c x = false -> o z = false -> c z = true -> balanced o c ts -> balanced o c (x :: ts ++ [z]).
Proof. intros H1 H2 H3 H4 H d r. cbn [app skip_to]. rewrite H1, <- app_assoc, H. cbn [app skip_to]. now rewrite H3, H4. Qed.

Definition pair_of (o c : token -> bool) : Prop := (o = is_kind LBrace /\ c = is_kind RBrace) \/ (o = is_kind LParen /\ c = is_kind RParen).

Ltac kinds := unfold is_kind; repeat match goal with H : tk_kind _ = _ |- _ => rewrite H end; try reflexivity; try discriminate.

Lemma bal_flat o c t : pair_of o c -> match tk_kind t with LBrace | RBrace | LParen | RParen => False | _ => True end -> balanced o c [t].
Proof. intros H Ht. apply bal_one; destruct H as [[-> ->]|[-> ->]]; unfold is_kind; destruct (tk_kind t); try reflexivity; contradiction. Qed.

Lemma bal_bracket o c x ts z k k' : pair_of o c -> (k, k') = (LBrace, RBrace) \/ (k, k') = (LParen, RParen) -> tk_kind x = k -> tk_kind z = k' -> balanced o c ts -> balanced o c (x :: ts ++ [z]).
Proof.
  intros H Hk Hx Hz Hb. destruct Hk as [Hk|Hk]; injection Hk as -> ->; destruct H as [[-> ->]|[-> ->]];
    first [ now (apply bal_wrap; [kinds|kinds|kinds|kinds|]) | apply (bal_app _ _ [x]); [now (apply bal_one; kinds)|apply bal_app; [assumption|now (apply bal_one; kinds)]] ].
Qed.

Lemma says_kind s t : says s t -> match tk_kind t with BareScalar | QuotedScalar | RawScalar | Gt => True | _ => False end.
Proof. intros [[-> _]|[[-> _]|[[-> _]|[[-> _] _]]]]; exact I. Qed.
Lemma names_kind s t : names s t -> match tk_kind t with BareScalar | QuotedScalar => True | _ => False end.
Proof. unfold names. destruct (can_be_bare s); intros [-> _]; exact I. Qed.

Lemma spelt_balanced o c : pair_of o c -> (forall v ts, spelt v ts -> balanced o c ts) /\ (forall l ts, spelt_all l ts -> balanced o c ts) /\
  (forall root first l ts, spelt_fields root first l ts -> balanced o c ts).
Proof.
  intros Hp. apply spelt_ind3; intros; try apply bal_nil; try (apply bal_flat; [exact Hp|]); try (match goal with H : tok_is _ _ _ |- _ => destruct H as [-> _]; exact I end).
  - apply says_kind in s. revert s. destruct (tk_kind t); tauto.
  - apply says_kind in s0. revert s0. destruct (tk_kind t); tauto.
  - assumption.
  - apply (bal_bracket o c _ _ _ LParen RParen); auto.
  - apply (bal_bracket o c _ _ _ LBrace RBrace); auto.
  - apply (bal_bracket o c _ _ _ LBrace RBrace); auto.
  - now apply bal_app.
  - apply bal_app; [|apply (bal_app _ _ [k]); [|now apply bal_app]].
    + unfold opening in o0. destruct (root || first); [subst; apply bal_nil|]. destruct o0 as (x & -> & Hx). apply bal_flat; [exact Hp|]. now rewrite Hx.
    + apply bal_flat; [exact Hp|]. apply names_kind in n0. revert n0. destruct (tk_kind k); tauto.
Qed.

(** How a value begins. *)
Lemma spelt_head v vt : spelt v vt -> exists t r, vt = t :: r /\
  match tk_kind t with BareScalar | QuotedScalar | RawScalar | Gt | LParen | LBrace => writes_unit v = false | At => writes_unit v = true | _ => False end.
Proof.
  induction 1; try (do 2 eexists; split; [reflexivity|]); try (match goal with H : tok_is _ _ _ |- _ => destruct H as [-> _]; auto end).
  - apply says_kind in H. revert H. destruct (tk_kind t); try contradiction; auto.
  - apply says_kind in H. revert H. destruct (tk_kind t); try contradiction; auto.
  - destruct IHspelt as (t & r & -> & Ht). exists t, r. split; [reflexivity|]. exact Ht.
  - now rewrite H.
  - now rewrite H.
  - now rewrite H.
Qed.

Lemma skip_spelt v vt ts : spelt v vt -> (writes_unit v = true -> match ts with t :: _ => is_kind BareScalar t = false | [] => True end) -> skip_value (vt ++ ts) = ts.
Proof.
  intros H. induction H; intros Hu; cbn [app].
  - destruct H as [Hk _]. cbn [skip_value]. kinds.
  - destruct H as [Hk _]. cbn [skip_value]. kinds.
  - apply says_kind in H. revert H. cbn [skip_value]. unfold is_kind. destruct (tk_kind t); try contradiction; auto.
  - apply says_kind in H. revert H. cbn [skip_value]. unfold is_kind. destruct (tk_kind t); try contradiction; auto.
  - destruct H as [Hk _]. cbn [skip_value]. kinds.
  - destruct H0 as [Hk _]. cbn [skip_value]. replace (is_kind LBrace t) with false by (symmetry; kinds). replace (is_kind LParen t) with false by (symmetry; kinds). replace (is_kind At t) with true by (symmetry; kinds).
    destruct ts as [|n ts]; [reflexivity|]. specialize (Hu H). now rewrite Hu.
  - apply IHspelt. congruence.
  - cbn [skip_value]. replace (is_kind LBrace o) with false by (symmetry; kinds). replace (is_kind LParen o) with true by (symmetry; kinds).
    destruct (spelt_balanced (is_kind LParen) (is_kind RParen)) as (_ & B & _); [now right|]. rewrite <- app_assoc. rewrite (B _ _ H1). cbn [app skip_to].
    replace (is_kind LParen c) with false by (symmetry; kinds). replace (is_kind RParen c) with true by (symmetry; kinds). now destruct ts.
  - cbn [skip_value]. replace (is_kind LBrace o) with true by (symmetry; kinds).
    destruct (spelt_balanced (is_kind LBrace) (is_kind RBrace)) as (_ & _ & B); [now left|]. rewrite <- app_assoc. rewrite (B _ _ _ _ H1). cbn [app skip_to].
    replace (is_kind LBrace c) with false by (symmetry; kinds). replace (is_kind RBrace c) with true by (symmetry; kinds). now destruct ts.
  - cbn [skip_value]. replace (is_kind LBrace o) with true by (symmetry; kinds).
    destruct (spelt_balanced (is_kind LBrace) (is_kind RBrace)) as (_ & _ & B); [now left|]. rewrite <- app_assoc. rewrite (B _ _ _ _ H1). cbn [app skip_to].
    replace (is_kind LBrace c) with false by (symmetry; kinds). replace (is_kind RBrace c) with true by (symmetry; kinds). now destruct ts.
Qed.

(** ** Scalars *)

Lemma parse_i64_show z : (- 2 ^ 63 <= z < 2 ^ 63)%Z -> parse_i64 (show_z z) = Some z.
Proof. intros H. apply parse_signed_spec. split; [apply show_z_integer; lia|exact H]. Qed.

Lemma parse_u64_show z : (0 <= z < 2 ^ 64)%Z -> SerdeModel.parse_u64 (show_z z) = Some z.
Proof.
  intros H. destruct (show_z_integer z) as [_ D]; [lia|]. destruct D as (D1 & D2 & D3); [lia|]. unfold SerdeModel.parse_u64.
  destruct (show_z z) as [|c r] eqn:E; [congruence|]. assert (c <> 43%N) as Hc.
  { inversion D2 as [|? ? Hd _]; subst. intros ->. discriminate. }
  replace (c =? 43)%N with false by (symmetry; now apply N.eqb_neq).
  assert (dec_all 0 (c :: r) = Some (Z.to_N z)) as -> by (apply dec_all_spec; split; [exact D2|symmetry; exact D3]).
  replace (Z.to_N z <? 2 ^ 64)%N with true by (symmetry; apply N.ltb_lt; lia). f_equal. lia.
Qed.

Lemma int_ok b z : machine b -> int_range b z -> (- 2 ^ 63 <= z < 2 ^ 63)%Z /\ in_int b z = true.
Proof.
  intros Hb H. split; [|apply andb_true_intro; unfold int_range in H; split; [apply Z.leb_le|apply Z.ltb_lt]; lia].
  unfold int_range in H. unfold machine in Hb. cbn in Hb. decompose [or] Hb; subst; cbn in H; try contradiction; lia.
Qed.
Lemma uint_ok b z : machine b -> uint_range b z -> (0 <= z < 2 ^ 64)%Z /\ in_uint b z = true.
Proof.
  intros Hb H. split; [|apply andb_true_intro; unfold uint_range in H; split; [apply Z.leb_le|apply Z.ltb_lt]; lia].
  unfold uint_range in H. unfold machine in Hb. cbn in Hb. decompose [or] Hb; subst; cbn in H; try contradiction; lia.
Qed.

Lemma says_str s t : says s t -> str_of t = DOk s.
Proof.
  unfold str_of. intros [[-> <-]|[[-> <-]|[[-> H]|[[-> <-] _]]]]; auto.
Qed.
Lemma says_char c t : says [c] t -> tk_kind t <> RawScalar -> char_of t = Some c.
Proof.
  unfold char_of. intros [[-> E]|[[-> E]|[[-> H]|[[-> E] _]]]] Hr; try congruence; rewrite E; reflexivity.
Qed.
Lemma names_says s t : names s t -> says s t /\ tk_kind t <> RawScalar.
Proof.
  unfold names, says. destruct (can_be_bare s); intros H; (split; [auto|]); destruct H as [-> _]; discriminate.
Qed.
Lemma names_bare s t : names s t -> can_be_bare s = true -> tok_is BareScalar s t.
Proof. unfold names. now intros H E; rewrite E in H. Qed.
Lemma names_ident s t : names s t -> ident_of t = DOk s.
Proof. unfold names, ident_of. destruct (can_be_bare s); intros [-> E]; now rewrite E. Qed.

Lemma hex_digit_of x : (x < 16)%N -> hex_digit (hex_of x) = Some x /\ hex_of x <> 43%N.
Proof.
  intros H. assert (In x [0;1;2;3;4;5;6;7;8;9;10;11;12;13;14;15]%N) as Hi.
  { assert (x = 0 \/ x = 1 \/ x = 2 \/ x = 3 \/ x = 4 \/ x = 5 \/ x = 6 \/ x = 7 \/ x = 8 \/ x = 9 \/ x = 10 \/ x = 11 \/ x = 12 \/ x = 13 \/ x = 14 \/ x = 15)%N as D by lia. cbn. intuition. }
  cbn in Hi. decompose [or] Hi; subst; try contradiction; split; try reflexivity; discriminate.
Qed.
Lemma bytes_of_hex l : Forall (fun b => (b < 256)%N) l -> bytes_of (flat_map hex_byte l) = Some l.
Proof.
  induction 1 as [|b l Hb _ IH]; [reflexivity|]. cbn [flat_map hex_byte app bytes_of]. rewrite IH. unfold byte_of.
  destruct (hex_digit_of (b / 16)) as [E1 H1]; [apply N.div_lt_upper_bound; lia|]. destruct (hex_digit_of (b mod 16)) as [E2 H2]; [apply N.mod_lt; lia|].
  replace (hex_of (b / 16) =? 43)%N with false by (symmetry; now apply N.eqb_neq). rewrite E1, E2. f_equal. f_equal. pose proof (N.div_mod b 16). lia.
Qed.
Lemma removelast_snoc {A} (a : list A) x : removelast (a ++ [x]) = a.
Proof. rewrite removelast_app by discriminate. cbn. apply app_nil_r. Qed.
Lemma de_bytes_text l t : Forall (fun b => (b < 256)%N) l -> tok_is QuotedScalar (bytes_text l) t -> de_bytes t = DOk l.
Proof.
  intros Hl [Hk Ht]. unfold de_bytes. rewrite Hk, Ht. unfold bytes_text. cbn [List.length].
  replace (2 <=? S (List.length (flat_map hex_byte l ++ [cDQ]))) with true by (symmetry; apply Nat.leb_le; rewrite app_length; cbn; lia).
  cbn [skipn]. rewrite removelast_snoc. now rewrite bytes_of_hex.
Qed.

(** ** Keys *)

Lemma key_eqb_eq a b : key_eqb a b = true -> a = b.
Proof.
  revert b. induction a; intros [| | | | | | | | | | | | | |] H; try discriminate; cbn in H.
  - apply Bool.eqb_prop in H. congruence.
  - apply Z.eqb_eq in H. congruence.
  - apply N.eqb_eq in H. congruence.
  - apply str_eqb_eq in H. congruence.
  - f_equal. auto.
  - apply str_eqb_eq in H. congruence.
Qed.
Lemma insert_new k v l : ~ In k (map fst l) -> map_insert k v l = l ++ [(k, v)].
Proof.
  induction l as [|[k' v'] l IH]; intros H; [reflexivity|]. cbn [map_insert app]. destruct (key_eqb k k') eqn:E.
  - apply key_eqb_eq in E. subst. destruct H. now left.
  - rewrite IH; [reflexivity|]. intros Hi. apply H. now right.
Qed.

Lemma str_eqb_refl' s : str_eqb s s = true.
Proof. now apply str_eqb_eq. Qed.

Lemma lookup_in {A} n (a : A) l : NoDup (map fst l) -> In (n, a) l -> lookup n l = Some a.
Proof.
  induction l as [|[m b] l IH]; intros Hn Hi; [destruct Hi|]. cbn [map fst lookup] in *. inversion Hn; subst. destruct (str_eqb n m) eqn:E.
  - apply str_eqb_eq in E. subst m. destruct Hi as [[= ->]|Hi]; [reflexivity|]. match goal with H : ~ In _ _ |- _ => destruct H end. now apply (in_map fst) in Hi.
  - destruct Hi as [[= -> ->]|Hi]; [rewrite str_eqb_refl' in E; discriminate|]. now apply IH.
Qed.
Lemma lookup_out {A} n (l : list (str * A)) : ~ In n (map fst l) -> lookup n l = None.
Proof.
  induction l as [|[m b] l IH]; intros H; [reflexivity|]. cbn [map fst lookup] in *. destruct (str_eqb n m) eqn:E.
  - apply str_eqb_eq in E. subst m. destruct H. now left.
  - apply IH. intros Hi. apply H. now right.
Qed.

Section Reading.
Variable env : nat -> ty.

Definition reads_as (t : ty) (ts : toks) (u : val) (rest : toks) : Prop := exists n, forall fuel, n <= fuel -> de env fuel t ts = DOk (u, rest).

Lemma key_text_of t k s : key_for env t k s -> key_str k = s.
Proof. unfold key_str. induction 1; cbn [ser_key]; auto; try (subst; reflexivity). Qed.

Lemma key_head s k ts : names s k -> is_kind At (fst (next_tok (k :: ts))) = false.
Proof. intros H. apply names_kind in H. revert H. unfold is_kind. cbn. destruct (tk_kind k); tauto. Qed.

Lemma read_key t k s tok ts : key_for env t k s -> names s tok -> reads_as t (tok :: ts) k ts.
Proof.
  unfold reads_as. induction 1 as [b|b z s Hm Hr ->|b z s Hm Hr ->|c Hv|s|vs n Hl Hd Hb|t k s Hk IH|t k s Hk IH|n k s Hk IH]; intros Hn.
  - exists 1. intros [|f] Hf; [lia|]. cbn [de next_tok]. apply names_bare in Hn as [_ ->]; [|destruct b; reflexivity]. destruct b; reflexivity.
  - exists 1. intros [|f] Hf; [lia|]. cbn [de next_tok]. destruct (int_ok _ _ Hm Hr) as [H1 H2].
    apply names_bare in Hn as [_ ->]; [|apply show_z_bare; lia]. now rewrite parse_i64_show, H2.
  - exists 1. intros [|f] Hf; [lia|]. cbn [de next_tok]. destruct (uint_ok _ _ Hm Hr) as [H1 H2].
    apply names_bare in Hn as [_ ->]; [|apply show_z_bare; lia]. now rewrite parse_u64_show, H2.
  - exists 1. intros [|f] Hf; [lia|]. cbn [de next_tok]. apply names_says in Hn as [H1 H2]. now rewrite (says_char _ _ H1 H2).
  - exists 1. intros [|f] Hf; [lia|]. cbn [de next_tok]. apply names_says in Hn as [H1 H2]. now rewrite (says_str _ _ H1).
  - exists 2. intros [|[|f]] Hf; try lia. cbn [de next_tok de_variant]. apply names_bare in Hn as [Hk Ht]; [|exact Hb].
    replace (is_kind At tok) with false by (symmetry; kinds). replace (is_kind BareScalar tok) with true by (symmetry; kinds). cbn [de_variant]. now rewrite Ht, (lookup_in _ _ _ Hd Hl).
  - destruct (IH Hn) as (n & Hf). exists (S n). intros [|f] Hle; [lia|]. cbn [de]. pose proof (key_head s tok ts Hn) as Ha. cbn [next_tok fst] in Ha |- *. rewrite Ha.
    rewrite Hf by lia. reflexivity.
  - destruct (IH Hn) as (n & Hf). exists (S n). intros [|f] Hle; [lia|]. cbn [de next_tok]. apply Hf. lia.
  - destruct (IH Hn) as (m & Hf). exists (S m). intros [|f] Hle; [lia|]. cbn [de next_tok]. apply Hf. lia.
Qed.

(** The tokens behind the entries of an object. *)
Inductive closing : bool -> toks -> toks -> Prop :=
| cl_brace c ts : tk_kind c = RBrace -> closing false (c :: ts) ts
| cl_end : closing true [] [].

Lemma next_key_close root tail ts : closing root tail ts -> next_key tail = DOk (ts, false).
Proof. intros [c ts' H|]; [|reflexivity]. cbn [next_key]. replace (is_kind Comma c) with false by (symmetry; kinds). replace (is_kind RBrace c) with true by (symmetry; kinds). reflexivity. Qed.

Lemma next_key_open root first pre s k ts : opening root first pre -> names s k -> next_key (pre ++ k :: ts) = DOk (k :: ts, true).
Proof.
  intros Ho Hn. apply names_kind in Hn. assert (is_kind Comma k = false /\ is_kind RBrace k = false /\ is_kind BareScalar k || is_kind QuotedScalar k = true) as (H1 & H2 & H3).
  { revert Hn. unfold is_kind. destruct (tk_kind k); tauto. }
  unfold opening in Ho. destruct (root || first).
  - subst. cbn [app next_key]. now rewrite H1, H2, H3.
  - destruct Ho as (c & -> & Hc). cbn [app next_key]. replace (is_kind Comma c) with true by (symmetry; kinds). now rewrite H2, H3.
Qed.

Lemma unglued_tail t ts : unglued (t :: ts) -> unglued ts.
Proof. destruct ts; [intros _; exact I|]. intros [_ H]. exact H. Qed.
Lemma unglued_app a b : unglued (a ++ b) -> unglued b.
Proof. induction a as [|t a IH]; [auto|]. intros H. apply IH. now apply unglued_tail in H. Qed.

(** ** Values *)

Lemma evolve_names fs l acc : evolve_fields env fs l acc -> incl (map fst acc) (map fst l) /\ (NoDup (map fst l) -> NoDup (map fst acc)).
Proof.
  induction 1 as [fs|fs n t v u l acc Hi He Hl [IH1 IH2]|fs n v l acc Hi Hl [IH1 IH2]]; cbn [map fst].
  - split; [apply incl_refl|auto].
  - split; [intros x [->|Hx]; [now left|right; auto]|]. intros H. inversion H; subst. constructor; auto.
  - split; [intros x Hx; right; auto|]. intros H. inversion H; subst. auto.
Qed.

Lemma collect_ok fs acc u : NoDup (map fst acc) ->
  Forall2 (fun (f : str * ty) x => fst x = fst f /\ (In x acc \/ ~ In (fst f) (map fst acc) /\ (exists t, snd f = TOption t) /\ snd x = DNone)) fs u -> collect fs acc = Some u.
Proof.
  intros Hn. induction 1 as [|[n t] [m x] fs u (E & H) _ IH]; [reflexivity|]. cbn [fst snd] in *. subst m. cbn [collect]. rewrite IH.
  destruct H as [H|(H1 & (t' & ->) & ->)]; [now rewrite (lookup_in _ _ _ Hn H)|now rewrite (lookup_out _ _ H1)].
Qed.

Definition tail_ok (root : bool) (fs : list (str * ty)) (l : list (str * val)) : Prop :=
  root = true -> forall a n v b, l = a ++ (n, v) :: b -> ~ In n (map fst fs) -> writes_unit v = true -> b = [].
Lemma tail_ok_cons root fs p l : tail_ok root fs (p :: l) -> tail_ok root fs l.
Proof. intros H Hr a n v b ->. exact (H Hr (p :: a) n v b eq_refl). Qed.

Definition value_ok (t : ty) (v u : val) : Prop := forall vt ts, spelt v vt -> unglued (vt ++ ts) -> reads_as t (vt ++ ts) u ts.
Definition all_ok (t : ty) (l m : list val) : Prop := forall vt c ts, spelt_all l vt -> tk_kind c = RParen -> unglued (vt ++ c :: ts) ->
  exists n, forall fuel, n <= fuel -> de_items env fuel t (vt ++ c :: ts) = DOk (m, ts).
Definition pair_list_ok (kt wt : ty) (l m : list (val * val)) : Prop := forall root first acc vt tail ts,
  spelt_fields root first (map (fun p => (key_str (fst p), snd p)) l) vt -> closing root tail ts -> unglued (vt ++ tail) -> NoDup (map fst acc ++ map fst l) ->
  exists n, forall fuel, n <= fuel -> de_pairs env fuel kt wt acc (vt ++ tail) = DOk (acc ++ m, ts).
Definition field_list_ok (fs : list (str * ty)) (l acc : list (str * val)) : Prop := forall root first acc0 vt tail ts,
  spelt_fields root first l vt -> closing root tail ts -> unglued (vt ++ tail) -> NoDup (map fst fs) -> NoDup (map fst acc0 ++ map fst l) -> tail_ok root fs l ->
  exists n, forall fuel, n <= fuel -> de_fields env fuel fs acc0 (vt ++ tail) = dbind (of_some (collect fs (rev acc ++ acc0))) (fun l => DOk (l, ts)).

Lemma not_unit_head v vt ts : spelt v vt -> writes_unit v = false -> is_kind At (fst (next_tok (vt ++ ts))) = false.
Proof.
  intros H Hu. destruct (spelt_head _ _ H) as (t & r & -> & Ht). cbn [app next_tok fst]. unfold is_kind. rewrite Hu in Ht. revert Ht. destruct (tk_kind t); try tauto; discriminate.
Qed.

Lemma option_some t v u ts rest : is_kind At (fst (next_tok ts)) = false -> reads_as t ts u rest -> v = DSome u -> reads_as (TOption t) ts v rest.
Proof.
  intros Ha (n & Hf) ->. exists (S n). intros [|f] Hle; [lia|]. cbn [de]. destruct (next_tok ts) as [tk r]. cbn [fst] in Ha. rewrite Ha. rewrite Hf by lia. reflexivity.
Qed.

(** Behind an unknown field. *)
Lemma after_unknown root fs n v l us tail ts : tail_ok root fs ((n, v) :: l) -> ~ In n (map fst fs) -> spelt_fields root false l us -> closing root tail ts ->
  writes_unit v = true -> match us ++ tail with t :: _ => is_kind BareScalar t = false | [] => True end.
Proof.
  intros Ht Hn Hs Hc Hu. inversion Hs as [r f|r f n' v' l' pre k ts' us' Ho Hk Hv Hl]; subst.
  - cbn [app]. destruct Hc as [c ts' Hc|]; [kinds|exact I].
  - destruct root.
    + specialize (Ht eq_refl [] n v _ eq_refl Hn Hu). discriminate.
    + unfold opening in Ho. cbn [orb] in Ho. destruct Ho as (c & -> & Hk'). cbn [app]. kinds.
Qed.

Lemma evolves_read : (forall t v u, evolves env t v u -> value_ok t v u) /\ (forall t l m, evolve_all env t l m -> all_ok t l m) /\
  (forall kt wt l m, evolve_pairs env kt wt l m -> pair_list_ok kt wt l m) /\ (forall fs l acc, evolve_fields env fs l acc -> field_list_ok fs l acc).
Proof.
  apply evolves_ind4.
  - intros b vt ts H _. inversion H; subst; [|discriminate]. exists 1. intros [|f] Hf; [lia|]. cbn [app de next_tok].
    match goal with H : tok_is _ _ _ |- _ => destruct H as [_ ->] end. destruct b; reflexivity.
  - intros b z Hm Hr vt ts H _. inversion H; subst; [|discriminate]. exists 1. intros [|f] Hf; [lia|]. cbn [app de next_tok].
    match goal with H : tok_is _ _ _ |- _ => destruct H as [_ ->] end. destruct (int_ok _ _ Hm Hr) as [H1 H2]. now rewrite parse_i64_show, H2.
  - intros b z Hm Hr vt ts H _. inversion H; subst; [|discriminate]. exists 1. intros [|f] Hf; [lia|]. cbn [app de next_tok].
    match goal with H : tok_is _ _ _ |- _ => destruct H as [_ ->] end. destruct (uint_ok _ _ Hm Hr) as [H1 H2]. now rewrite parse_u64_show, H2.
  - intros c vt ts H _. inversion H; subst; [|discriminate]. exists 1. intros [|f] Hf; [lia|]. cbn [app de next_tok].
    erewrite says_char by eassumption. reflexivity.
  - intros s vt ts H _. inversion H; subst; [|discriminate]. exists 1. intros [|f] Hf; [lia|]. cbn [app de next_tok].
    erewrite says_str by eassumption. reflexivity.
  - intros l Hl vt ts H _. inversion H; subst; [|discriminate]. exists 1. intros [|f] Hf; [lia|]. cbn [app de next_tok].
    erewrite de_bytes_text by eassumption. reflexivity.
  - intros v Hu vt ts H _. destruct (spelt_unit _ _ H Hu) as (t & -> & [Hk _]). exists 1. intros [|f] Hf; [lia|]. cbn [app de next_tok].
    replace (is_kind At t) with true by (symmetry; kinds). reflexivity.
  - intros t v Hu vt ts H Hg. destruct (spelt_unit _ _ H Hu) as (tk & -> & [Hk _]). exists 1. intros [|f] Hf; [lia|]. cbn [app de next_tok].
    replace (is_kind At tk) with true by (symmetry; kinds). destruct ts as [|n ts]; [reflexivity|]. destruct Hg as [Hg _].
    destruct (is_kind BareScalar n) eqn:Eb; [|reflexivity]. assert (tk_kind n = BareScalar) as En by (unfold is_kind in Eb; destruct (tk_kind n); discriminate || reflexivity).
    specialize (Hg Hk En). replace (sp_start (tk_span n) =? sp_end (tk_span tk)) with false by (symmetry; now apply Nat.eqb_neq). reflexivity.
  - intros t v u Hu _ IH vt ts H Hg. eapply option_some; [now apply (not_unit_head v)|apply IH; assumption|reflexivity].
  - intros t v u Hu _ IH vt ts H Hg. inversion H; subst; [cbn in *; congruence|]. now apply IH.
  - intros t v u _ IH vt ts H Hg. destruct (IH _ _ H Hg) as (n & Hf). exists (S n). intros [|f] Hle; [lia|]. cbn [de]. destruct (next_tok (vt ++ ts)). apply Hf. lia.
  - intros t l m _ IH vt ts H Hg. inversion H; subst; [discriminate|]. cbn [app] in Hg |- *. rewrite <- app_assoc in *. cbn [app] in *.
    destruct (IH ts0 c ts) as (n & Hf); [assumption|assumption|now apply unglued_tail in Hg|].
    exists (S n). intros [|f] Hle; [lia|]. cbn [de next_tok]. replace (is_kind LParen o) with true by (symmetry; kinds). rewrite Hf by lia. reflexivity.
  - intros kt wt l m _ IH Hnd vt ts H Hg. inversion H; subst; [discriminate|]. cbn [app] in Hg |- *. rewrite <- app_assoc in *. cbn [app] in *.
    destruct (IH false true [] ts0 (c :: ts) ts) as (n & Hf); [assumption|now constructor|now apply unglued_tail in Hg|exact Hnd|].
    exists (S n). intros [|f] Hle; [lia|]. cbn [de next_tok]. replace (is_kind LBrace o) with true by (symmetry; kinds). rewrite Hf by lia. reflexivity.
  - intros fs l acc u He IH Hl Hfs Hu vt ts H Hg. inversion H; subst; [discriminate|]. cbn [app] in Hg |- *. rewrite <- app_assoc in *. cbn [app] in *.
    destruct (IH false true [] ts0 (c :: ts) ts) as (n & Hf); [assumption|now constructor|now apply unglued_tail in Hg|exact Hfs|exact Hl|discriminate|].
    exists (S n). intros [|f] Hle; [lia|]. cbn [de next_tok]. replace (is_kind LBrace o) with true by (symmetry; kinds). rewrite Hf by lia.
    rewrite app_nil_r, (collect_ok fs (rev acc) u); [reflexivity| |].
    + rewrite map_rev. apply NoDup_rev. now apply (evolve_names fs l acc).
    + clear - Hu. induction Hu as [|x y fs u Hxy _ IH]; constructor; [|exact IH]. rewrite map_rev, <- !in_rev. exact Hxy.
  - intros n v u _ IH vt ts H Hg. destruct (IH _ _ H Hg) as (m & Hf). exists (S m). intros [|f] Hle; [lia|]. cbn [de]. destruct (next_tok (vt ++ ts)). apply Hf. lia.
  - intros t vt c ts H Hc _. inversion H; subst. exists 1. intros [|f] Hf; [lia|]. cbn [app de_items skip_comma]. rewrite Hc. replace (is_kind RParen c) with true by (symmetry; kinds). reflexivity.
  - intros t v u l m _ IHv _ IHl vt c ts H Hc Hg. inversion H as [|? ? vt1 us Hs Hr]; subst. rewrite <- app_assoc in *. destruct (IHv _ _ Hs Hg) as (n1 & F1).
    destruct (IHl _ _ _ Hr Hc (unglued_app _ _ Hg)) as (n2 & F2). destruct (spelt_head _ _ Hs) as (tk & r & -> & Hk).
    exists (S (n1 + n2)). intros [|f] Hle; [lia|]. cbn [app de_items skip_comma]. replace (match tk_kind tk with Comma => _ | _ => _ end) with (tk :: r ++ us ++ c :: ts) by (revert Hk; destruct (tk_kind tk); tauto).
    replace (is_kind RParen tk) with false by (symmetry; unfold is_kind; revert Hk; destruct (tk_kind tk); tauto).
    cbn [app] in F1. rewrite F1 by lia. cbn [dbind]. rewrite F2 by lia. reflexivity.
  - intros kt wt root first acc vt tail ts H Hc Hg Hn. inversion H; subst. exists 1. intros [|f] Hf; [lia|]. cbn [app de_pairs]. rewrite (next_key_close _ _ _ Hc). cbn [dbind]. now rewrite app_nil_r.
  - intros kt wt k s v u l m Hk _ IHv _ IHl root first acc vt tail ts H Hc Hg Hn. cbn [map fst snd] in H, Hn. inversion H as [|? ? ? ? ? pre tk vt1 us Ho Ht Hs Hr]; subst.
    rewrite (key_text_of _ _ _ Hk) in Ht. rewrite <- app_assoc in *. cbn [app] in *. rewrite <- app_assoc in *.
    destruct (read_key _ _ _ tk (vt1 ++ us ++ tail) Hk Ht) as (n1 & F1). pose proof (unglued_tail _ _ (unglued_app _ _ Hg)) as Hg1. destruct (IHv _ _ Hs Hg1) as (n2 & F2).
    destruct (IHl root false (acc ++ [(k, u)]) us tail ts Hr Hc (unglued_app _ _ Hg1)) as (n3 & F3); [rewrite map_app, <- app_assoc; exact Hn|].
    exists (S (n1 + n2 + n3)). intros [|f] Hle; [lia|]. cbn [de_pairs]. rewrite (next_key_open _ _ _ _ _ _ Ho Ht). cbn [dbind]. rewrite F1 by lia. cbn [dbind]. rewrite F2 by lia. cbn [dbind].
    rewrite insert_new, F3 by lia || (apply NoDup_remove_2 in Hn; intros Hi; apply Hn, in_or_app; now left). now rewrite <- app_assoc.
  - intros fs root first acc vt tail ts H Hc Hg Hfs Hn Ht. inversion H; subst. exists 1. intros [|f] Hf; [lia|]. cbn [app de_fields]. rewrite (next_key_close _ _ _ Hc). reflexivity.
  - intros fs n t v u l acc Hi _ IHv _ IHl root first acc0 vt tail ts H Hc Hg Hfs Hn Ht. cbn [map fst] in Hn. inversion H as [|? ? ? ? ? pre tk vt1 us Ho Hk Hs Hr]; subst.
    rewrite <- app_assoc in *. cbn [app] in *. rewrite <- app_assoc in *. pose proof (unglued_tail _ _ (unglued_app _ _ Hg)) as Hg1. destruct (IHv _ _ Hs Hg1) as (n2 & F2).
    destruct (IHl root false ((n, u) :: acc0) us tail ts Hr Hc (unglued_app _ _ Hg1) Hfs) as (n3 & F3).
    { cbn [map fst app]. apply (Permutation.Permutation_NoDup (l := map fst acc0 ++ n :: map fst l)); [apply Permutation.Permutation_sym, Permutation.Permutation_middle|exact Hn]. }
    { now apply tail_ok_cons in Ht. }
    exists (S (n2 + n3)). intros [|f] Hle; [lia|]. cbn [de_fields]. rewrite (next_key_open _ _ _ _ _ _ Ho Hk). cbn [dbind next_tok]. rewrite (names_ident _ _ Hk). cbn [dbind].
    rewrite (lookup_in _ _ _ Hfs Hi), (lookup_out n acc0) by (apply NoDup_remove_2 in Hn; intros Hx; apply Hn, in_or_app; now left).
    rewrite F2 by lia. cbn [dbind]. rewrite F3 by lia. cbn [rev]. now rewrite <- app_assoc.
  - intros fs n v l acc Hi _ IHl root first acc0 vt tail ts H Hc Hg Hfs Hn Ht. cbn [map fst] in Hn. inversion H as [|? ? ? ? ? pre tk vt1 us Ho Hk Hs Hr]; subst.
    rewrite <- app_assoc in *. cbn [app] in *. rewrite <- app_assoc in *. pose proof (unglued_tail _ _ (unglued_app _ _ Hg)) as Hg1.
    destruct (IHl root false acc0 us tail ts Hr Hc (unglued_app _ _ Hg1) Hfs) as (n3 & F3); [now apply NoDup_remove_1 in Hn|now apply tail_ok_cons in Ht|].
    exists (S n3). intros [|f] Hle; [lia|]. cbn [de_fields]. rewrite (next_key_open _ _ _ _ _ _ Ho Hk). cbn [dbind next_tok]. rewrite (names_ident _ _ Hk). cbn [dbind].
    rewrite (lookup_out n fs Hi), (skip_spelt _ _ _ Hs); [apply F3; lia|]. intros Hu. eapply after_unknown; eauto.
Qed.

(** ** At the root *)

Lemma spelt_not_struct_root v ts : (forall l, v <> DStruct l) -> (forall l, v <> DMap l) -> (forall w, v <> DSome w) -> spelt_root v ts -> spelt v ts.
Proof. intros H1 H2 H3 H. destruct H; [assumption|now destruct (H3 v)|now destruct (H2 l)|now destruct (H1 l)]. Qed.

Lemma root_head v ts : spelt_root v ts -> writes_unit v = false -> is_kind At (fst (next_tok ts)) = false.
Proof.
  intros H. induction H as [v ts H|v ts Hu H IH|l ts H|l ts H]; intros Hv.
  - rewrite <- (app_nil_r ts). now apply (not_unit_head v).
  - now apply IH.
  - inversion H as [|? ? ? ? ? pre tk vt1 us Ho Hk Hs Hr]; subst; [reflexivity|]. cbn in Ho. subst pre. apply (key_head n). exact Hk.
  - inversion H as [|? ? ? ? ? pre tk vt1 us Ho Hk Hs Hr]; subst; [reflexivity|]. cbn in Ho. subst pre. apply (key_head n). exact Hk.
Qed.

Lemma root_unit v ts : spelt_root v ts -> writes_unit v = true -> spelt v ts.
Proof. intros H. destruct H; intros Hv; try discriminate; try assumption. cbn in Hv. congruence. Qed.

Lemma brace_head s k ts : names s k -> is_kind LBrace (fst (next_tok (k :: ts))) = false.
Proof. intros H. apply names_kind in H. revert H. unfold is_kind. cbn. destruct (tk_kind k); tauto. Qed.
Lemma fields_head l ts : spelt_fields true true l ts -> is_kind LBrace (fst (next_tok ts)) = false.
Proof. intros H. inversion H as [|? ? ? ? ? pre tk vt1 us Ho Hk Hs Hr]; subst; [reflexivity|]. cbn in Ho. subst pre. now apply (brace_head n). Qed.

Lemma evolves_root t v u : evolves env t v u -> forall ts, root_safe env t v -> spelt_root v ts -> unglued ts -> exists rest, reads_as t ts u rest.
Proof.
  destruct evolves_read as (RV & RA & RP & RF).
  assert (Hval : forall t v u ts, evolves env t v u -> spelt v ts -> unglued ts -> exists rest, reads_as t ts u rest).
  { intros t0 v0 u0 ts He Hs Hg. exists []. rewrite <- (app_nil_r ts). apply (RV _ _ _ He); [exact Hs|now rewrite app_nil_r]. }
  induction 1; intros ts Hsafe Hs Hg.
  1,2,3,4,5,6: eapply Hval; [constructor; eassumption|apply spelt_not_struct_root; [discriminate|discriminate|discriminate|exact Hs]|exact Hg].
  - eapply Hval; [eapply ev_unit; eassumption|now apply root_unit|exact Hg].
  - eapply Hval; [eapply ev_none; eassumption|now apply root_unit|exact Hg].
  - destruct (IHevolves ts) as (rest & Hr); auto. { intros fs l Hf. apply Hsafe. now constructor. }
    exists rest. eapply option_some; [now apply (root_head v)|exact Hr|reflexivity].
  - inversion Hs as [? ? Hx|? ? Hx Hy|? ? Hx|? ? Hx]; subst.
    + eapply Hval; [apply ev_strip; eassumption|exact Hx|exact Hg].
    + now apply IHevolves.
  - destruct (IHevolves ts) as (rest & n & Hr); auto. { intros fs l Hf. apply Hsafe. now constructor. }
    exists rest, (S n). intros [|f] Hle; [lia|]. cbn [de]. destruct (next_tok ts). apply Hr. lia.
  - eapply Hval; [apply ev_seq; eassumption|apply spelt_not_struct_root; [discriminate|discriminate|discriminate|exact Hs]|exact Hg].
  - inversion Hs as [? ? Hx|? ? Hx Hy|? ? Hx|? ? Hx]; subst.
    + eapply Hval; [apply ev_map; eassumption|exact Hx|exact Hg].
    + match goal with He : evolve_pairs _ _ _ _ _ |- _ => destruct (RP _ _ _ _ He true true [] ts [] []) as (n & Hf) end; [exact Hx|constructor|now rewrite app_nil_r|assumption|].
      exists [], (S n). intros [|f] Hle; [lia|]. cbn [de]. pose proof (fields_head _ _ Hx) as Hb. destruct (next_tok ts). cbn [fst] in Hb. rewrite Hb. rewrite app_nil_r in Hf. rewrite Hf by lia. reflexivity.
  - inversion Hs as [? ? Hx|? ? Hx Hy|? ? Hx|? ? Hx]; subst.
    + eapply Hval; [eapply ev_struct; eassumption|exact Hx|exact Hg].
    + match goal with He : evolve_fields _ _ _ _ |- _ => destruct (RF _ _ _ He true true [] ts [] []) as (n & Hf); [exact Hx|constructor|now rewrite app_nil_r|assumption|assumption| |]; pose proof (evolve_names _ _ _ He) as [_ Hd] end.
      { intros _. apply (Hsafe fs l); [constructor|reflexivity]. }
      exists [], (S n). intros [|f] Hle; [lia|]. cbn [de]. pose proof (fields_head _ _ Hx) as Hb. destruct (next_tok ts). cbn [fst] in Hb. rewrite Hb. rewrite !app_nil_r in Hf. rewrite Hf by lia.
      rewrite (collect_ok fs (rev acc) u); [reflexivity| |].
      * rewrite map_rev. apply NoDup_rev. auto.
      * match goal with H : Forall2 _ fs u |- _ => clear - H; induction H as [|x y fs u Hxy _ IH]; constructor; [|exact IH] end. rewrite map_rev, <- !in_rev. exact Hxy.
  - destruct (IHevolves ts) as (rest & m & Hr); auto. { intros fs l Hf. apply Hsafe. now constructor. }
    exists rest, (S m). intros [|f] Hle; [lia|]. cbn [de]. destruct (next_tok ts). apply Hr. lia.
Qed.

(** A tuple at the root: its end is not looked at. *)
Lemma tuple_read ts l m : evolve_tuple env ts l m -> forall vt rest, spelt_all l vt -> unglued (vt ++ rest) -> exists n, forall fuel, n <= fuel -> de_tuple env fuel ts (vt ++ rest) = DOk (m, rest).
Proof.
  destruct evolves_read as (RV & _). induction 1 as [|t v u ts l m Hv Ht IH]; intros vt rest H Hg.
  - inversion H; subst. exists 1. intros [|f] Hf; [lia|]. reflexivity.
  - inversion H as [|? ? vt1 us Hs Hr]; subst. rewrite <- app_assoc in *. destruct (RV _ _ _ Hv _ _ Hs Hg) as (n1 & F1). destruct (IH _ _ Hr (unglued_app _ _ Hg)) as (n2 & F2).
    destruct (spelt_head _ _ Hs) as (tk & r & -> & Hk).
    exists (S (n1 + n2)). intros [|f] Hle; [lia|]. cbn [app de_tuple skip_comma]. replace (match tk_kind tk with Comma => _ | _ => _ end) with (tk :: r ++ us ++ rest) by (revert Hk; destruct (tk_kind tk); tauto).
    replace (is_kind RParen tk) with false by (symmetry; unfold is_kind; revert Hk; destruct (tk_kind tk); tauto).
    cbn [app] in F1. rewrite F1 by lia. cbn [dbind]. rewrite F2 by lia. reflexivity.
Qed.

Lemma tuple_root ts l m vt : evolve_tuple env ts l m -> spelt_root (DSeq l) vt -> unglued vt -> exists rest, reads_as (TTuple ts) vt (DSeq m) rest.
Proof.
  intros He Hs Hg. apply spelt_not_struct_root in Hs; try discriminate. inversion Hs as [| | | | | | |? o c ? Ho Hc Ha| |]; subst; [discriminate|].
  destruct (tuple_read _ _ _ He _ [c] Ha) as (n & Hf); [now apply unglued_tail in Hg|]. exists [c], (S n). intros [|f] Hle; [lia|]. cbn [de next_tok].
  replace (is_kind LParen o) with true by (symmetry; kinds). rewrite Hf by lia. reflexivity.
Qed.

(** ** The round trip *)

Lemma fit_names fs l : fit_fields env fs l -> map fst l = map fst fs.
Proof. induction 1; cbn; congruence. Qed.
Lemma evolve_more fs l acc : evolve_fields env fs l acc -> forall f, ~ In (fst f) (map fst l) -> evolve_fields env (f :: fs) l acc.
Proof.
  induction 1; intros f Hf; cbn [map fst] in Hf.
  - constructor.
  - apply ef_known with (t := t); [now right|assumption|]. apply IHevolve_fields. intros Hi. apply Hf. now right.
  - apply ef_unknown; [|apply IHevolve_fields; intros Hi; apply Hf; now right]. cbn [map fst]. intros [E|Hi]; [apply Hf; now left|contradiction].
Qed.

Lemma fits_evolve : (forall t v, fits env t v -> evolves env t v v) /\ (forall t l, fit_all env t l -> evolve_all env t l l) /\
  (forall kt wt l, fit_pairs env kt wt l -> evolve_pairs env kt wt l l) /\ (forall fs l, fit_fields env fs l -> NoDup (map fst fs) -> evolve_fields env fs l l).
Proof.
  apply fits_ind4; intros; try (econstructor; eauto; fail).
  - apply ev_some; [assumption|]. now apply ev_strip.
  - match goal with H : fit_fields _ _ _ |- _ => pose proof (fit_names _ _ H) as E; rename H into Hf end. apply (ev_struct env fs l l); auto; [now rewrite E|].
    clear - Hf. assert (G : forall big, incl l big -> Forall2 (fun (f : str * ty) x => fst x = fst f /\ (In x big \/ ~ In (fst f) (map fst big) /\ (exists t, snd f = TOption t) /\ snd x = DNone)) fs l).
    { induction Hf; intros big Hb; constructor; [split; [reflexivity|left; apply Hb; now left]|]. apply IHHf. intros x Hx. apply Hb. now right. }
    apply G, incl_refl.
  - match goal with H : NoDup _ |- _ => inversion H; subst end. match goal with H : fit_fields _ _ _ |- _ => pose proof (fit_names _ _ H) as E end.
    apply ef_known with (t := t); [now left|assumption|]. apply evolve_more; [auto|]. cbn. now rewrite E.
Qed.

Lemma fits_unwrap t v fs l : fits env t v -> struct_of env t fs -> unwrap v = DStruct l -> map fst l = map fst fs.
Proof.
  intros H. revert l. induction H; intros m Hs Hu; inversion Hs; subst; cbn in Hu; try discriminate; eauto.
  injection Hu as <-. now apply fit_names.
Qed.
Lemma fits_root t v : fits env t v -> root_safe env t v.
Proof.
  intros H fs l Hs Hu a n x b -> Hn. apply (fits_unwrap _ _ _ _ H Hs) in Hu. destruct Hn. rewrite <- Hu, map_app. apply in_or_app. right. now left.
Qed.

Lemma key_typed t k s : key_for env t k s -> has_type env t k.
Proof. induction 1; econstructor; eauto. Qed.

Lemma fits_typed : (forall t v, fits env t v -> has_type env t v) /\ (forall t l, fit_all env t l -> have_type env t l) /\
  (forall kt wt l, fit_pairs env kt wt l -> pairs_type env kt wt l) /\ (forall fs l, fit_fields env fs l -> fields_type env fs l).
Proof. apply fits_ind4; intros; econstructor; eauto. eapply key_typed; eassumption. Qed.
End Reading.
