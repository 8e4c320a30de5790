(** Proofs about the extraction of embedded schemas. *)
From Coq Require Import String Sorted.
From Verif Require Import Base BaseProofs EmbedModel EmbedSpec LinkProofs.
Local Open Scope nat_scope.

(** ** UTF-8 *)
Lemma strip_prefix_iff : forall p s r, strip_prefix p s = Some r <-> s = p ++ r.
Proof.
  induction p as [|x p IH]; intros s r; cbn.
  - split; [intros [=]; auto | intros ->; auto].
  - destruct s as [|y s]; [split; intros [=]|].
    destruct (N.eqb_spec x y) as [->|Hn].
    + rewrite IH. split; [intros ->; auto | intros [=]; auto].
    + split; [intros [=] | intros [=]; congruence].
Qed.

Lemma utf8_head_char : forall c r, (c < 1114112)%N -> utf8_head (utf8_char c ++ r) = Some c.
Proof.
  intros c r Hc. unfold utf8_char.
  destruct (N.ltb_spec c 128).
  { cbn. destruct (N.ltb_spec c 128); [auto|lia]. }
  destruct (N.ltb_spec c 2048).
  { cbn [app utf8_head].
    assert (192 + c / 64 < 224)%N by (zify; Z.to_euclidean_division_equations; lia).
    destruct (N.ltb_spec (192 + c / 64) 128); [lia|].
    destruct (N.ltb_spec (192 + c / 64) 224); [|lia].
    f_equal. zify; Z.to_euclidean_division_equations; lia. }
  destruct (N.ltb_spec c 65536).
  { cbn [app utf8_head].
    assert (224 + c / 4096 < 240)%N by (zify; Z.to_euclidean_division_equations; lia).
    destruct (N.ltb_spec (224 + c / 4096) 128); [lia|].
    destruct (N.ltb_spec (224 + c / 4096) 224); [lia|].
    destruct (N.ltb_spec (224 + c / 4096) 240); [|lia].
    f_equal. zify; Z.to_euclidean_division_equations; lia. }
  cbn [app utf8_head].
  destruct (N.ltb_spec (240 + c / 262144) 128); [lia|].
  destruct (N.ltb_spec (240 + c / 262144) 224); [lia|].
  destruct (N.ltb_spec (240 + c / 262144) 240); [lia|].
  f_equal. zify; Z.to_euclidean_division_equations; lia.
Qed.

Lemma utf8_char_len : forall c, List.length (utf8_char c) = clen c.
Proof.
  intros c. unfold utf8_char, clen.
  destruct (c <? 128)%N; [auto|]. destruct (c <? 2048)%N; [auto|]. destruct (c <? 65536)%N; auto.
Qed.

Lemma utf8_len : forall s, List.length (utf8 s) = blen s.
Proof.
  induction s as [|c s IH]; cbn; [auto|]. rewrite app_length, utf8_char_len. fold (utf8 s). lia.
Qed.

Lemma clen_ge1 : forall c, 1 <= clen c.
Proof.
  intros c. unfold clen.
  destruct (c <? 128)%N; [lia|]. destruct (c <? 2048)%N; [lia|]. destruct (c <? 65536)%N; lia.
Qed.

Lemma from_utf8_ok : forall s f, Forall (fun c => valid_char c = true) s ->
  List.length (utf8 s) <= f -> from_utf8_fuel f (utf8 s) = Some s.
Proof.
  induction s as [|c s IH]; intros f Hv Hf; [destruct f; auto|].
  apply Forall_cons_iff in Hv as [Hc Hv].
  cbn [utf8 flat_map] in *. fold (utf8 s) in *. rewrite app_length, utf8_char_len in Hf.
  pose proof (clen_ge1 c). destruct f as [|f]; [lia|].
  assert (Hne : exists x y, utf8_char c ++ utf8 s = x :: y).
  { destruct (utf8_char c ++ utf8 s) eqn:E; eauto.
    assert (H1 := f_equal (@List.length N) E). rewrite app_length, utf8_char_len in H1. cbn in H1. lia. }
  destruct Hne as (x & y & E). cbn [from_utf8_fuel]. rewrite E at 1. cbn match. 
  rewrite utf8_head_char.
  - rewrite Hc. assert (Hs : strip_prefix (utf8_char c) (utf8_char c ++ utf8 s) = Some (utf8 s))
      by (apply strip_prefix_iff; auto).
    rewrite Hs, IH; auto. lia.
  - unfold valid_char in Hc. unfold char in *. lia.
Qed.

Lemma from_utf8_inv : forall f b s, from_utf8_fuel f b = Some s ->
  b = utf8 s /\ Forall (fun c => valid_char c = true) s.
Proof.
  induction f as [|f IH]; intros b s H.
  - destruct b; cbn in H; [|discriminate]. injection H as <-. auto.
  - destruct b as [|x b]; [injection H as <-; auto|].
    cbn [from_utf8_fuel] in H.
    destruct (utf8_head (x :: b)) as [c|]; [|discriminate].
    destruct (valid_char c) eqn:Hc; [|discriminate].
    destruct (strip_prefix (utf8_char c) (x :: b)) as [r|] eqn:E; [|discriminate].
    apply strip_prefix_iff in E.
    destruct (from_utf8_fuel f r) as [t|] eqn:Er; [|discriminate]. injection H as <-.
    apply IH in Er as [-> Hv]. rewrite E. split; [reflexivity|auto].
Qed.

Lemma from_utf8_iff : forall b s,
  from_utf8 b = Some s <-> b = utf8 s /\ Forall (fun c => valid_char c = true) s.
Proof.
  intros b s. unfold from_utf8. split; [apply from_utf8_inv|].
  intros [-> Hv]. apply from_utf8_ok; auto.
Qed.

(** ** Slices *)
Lemma at_index_app : forall a x r, at_index (a ++ x :: r) (List.length a) = Ok x.
Proof.
  intros. unfold at_index. rewrite nth_error_app2, Nat.sub_diag by lia. auto.
Qed.

Lemma sub_bytes_app : forall a b c,
  sub_bytes (a ++ b ++ c) (List.length a) (List.length a + List.length b) = Ok b.
Proof.
  intros. unfold sub_bytes.
  destruct (Nat.leb_spec (List.length a) (List.length a + List.length b)); [|lia].
  rewrite !app_length.
  destruct (Nat.leb_spec (List.length a + List.length b) (List.length a + (List.length b + List.length c))); [|lia].
  cbn [andb]. f_equal. rewrite skipn_app, skipn_all, Nat.sub_diag. cbn.
  replace (List.length a + List.length b - List.length a) with (List.length b) by lia.
  rewrite firstn_app, firstn_all, Nat.sub_diag. cbn. apply app_nil_r.
Qed.

(** Cutting a list at a position. *)
Lemma cut_at : forall {A} (l : list A) n, n <= List.length l ->
  exists a b, l = a ++ b /\ List.length a = n.
Proof.
  intros A l n H. exists (firstn n l), (skipn n l).
  rewrite firstn_skipn, firstn_length. split; [auto|lia].
Qed.

Lemma app_same : forall {A} (a a' b b' : list A), List.length a = List.length a' ->
  a ++ b = a' ++ b' -> a = a' /\ b = b'.
Proof.
  intros A. induction a as [|x a IH]; intros [|y a'] b b' Hl E; try discriminate; auto.
  injection Hl as Hl. injection E as -> E. destruct (IH a' b b' Hl E) as [-> ->]. auto.
Qed.

Lemma len4 : forall {A} (l : list A), List.length l = 4 -> exists a b c d, l = [a; b; c; d].
Proof.
  intros A l H. destruct l as [|a [|b [|c [|d [|e l]]]]]; try discriminate. eauto.
Qed.
Lemma len2 : forall {A} (l : list A), List.length l = 2 -> exists a b, l = [a; b].
Proof. intros A l H. destruct l as [|a [|b [|c l]]]; try discriminate. eauto. Qed.

Lemma str_eqb_iff : forall a b, str_eqb a b = true <-> a = b.
Proof.
  induction a as [|x a IH]; intros [|y b]; cbn; split; try discriminate; auto.
  - rewrite andb_true_iff, N.eqb_eq, IH. intros [-> ->]; auto.
  - intros [=]; subst. rewrite N.eqb_refl. cbn. apply IH. auto.
Qed.

Section WithCodec.
Variable hash : bytes -> bytes.
Variable decompress : bytes -> option bytes.
Notation record_of := (record_of hash decompress).
Notation read_record := (read_record hash decompress).
Notation read_records := (read_records hash decompress).

(** The fixed part of a record. *)
Lemma read_record_eq : forall a dl cl h z c,
  List.length dl = 4 -> List.length cl = 4 -> List.length h = 32 ->
  le_value cl = N.of_nat (List.length z) ->
  read_record (a ++ (dl ++ cl ++ h ++ z) ++ c) (List.length a) =
  match decompress z with
  | None => Ok (inr DecompressFailed)
  | Some d =>
      if negb (N.of_nat (List.length d) =? le_value dl)%N then Ok (inr DecompressFailed)
      else if negb (str_eqb (hash d) h) then Ok (inr HashMismatch)
      else match from_utf8 d with
           | Some s => Ok (inl (s, List.length a + (40 + List.length z)))
           | None => Ok (inr InvalidUtf8)
           end
  end.
Proof.
  intros a dl cl h z c Hdl Hcl Hh Hz. unfold EmbedModel.read_record.
  set (data := a ++ (dl ++ cl ++ h ++ z) ++ c).
  assert (Hlen : List.length data = List.length a + (40 + List.length z) + List.length c).
  { unfold data. rewrite !app_length. lia. }
  destruct (Nat.ltb_spec (List.length data) (List.length a + 40)); [lia|].
  destruct (len4 dl Hdl) as (d0 & d1 & d2 & d3 & ->).
  destruct (len4 cl Hcl) as (c0 & c1 & c2 & c3 & ->).
  assert (I : forall k x, nth_error ([d0; d1; d2; d3] ++ [c0; c1; c2; c3]) k = Some x ->
              at_index data (List.length a + k) = Ok x).
  { intros k x Hk. unfold at_index, data. rewrite nth_error_app2 by lia.
    replace (List.length a + k - List.length a) with k by lia.
    assert (k < 8). { apply nth_error_Some_lt in Hk || (assert (nth_error ([d0; d1; d2; d3] ++ [c0; c1; c2; c3]) k <> None) as Hn by congruence; apply nth_error_Some in Hn; exact Hn). }
    rewrite <- !app_assoc. rewrite app_assoc. rewrite nth_error_app1 by (cbn; lia). rewrite Hk. auto. }
  cbv zeta.
  rewrite (Nat.add_0_r (List.length a) : _ = _) in I || idtac.
  assert (I0 := I 0 d0 eq_refl). rewrite Nat.add_0_r in I0. rewrite I0. cbn [bind].
  rewrite (I 1 d1 eq_refl), (I 2 d2 eq_refl), (I 3 d3 eq_refl). cbn [bind].
  rewrite (I 4 c0 eq_refl). cbn [bind]. rewrite <- !Nat.add_assoc. cbn [Nat.add].
  rewrite (I 5 c1 eq_refl), (I 6 c2 eq_refl), (I 7 c3 eq_refl). cbn [bind].
  assert (Eh : sub_bytes data (List.length a + 8) (List.length a + 40) = Ok h).
  { replace data with ((a ++ [d0; d1; d2; d3] ++ [c0; c1; c2; c3]) ++ h ++ (z ++ c))
      by (unfold data; rewrite <- !app_assoc; auto).
    replace (List.length a + 8) with (List.length (a ++ [d0; d1; d2; d3] ++ [c0; c1; c2; c3]))
      by (rewrite !app_length; cbn; lia).
    replace (List.length a + 40) with (List.length (a ++ [d0; d1; d2; d3] ++ [c0; c1; c2; c3]) + List.length h)
      by (rewrite !app_length; cbn; lia).
    apply sub_bytes_app. }
  rewrite Eh. cbn [bind].
  assert (Ec : from_le32 c0 c1 c2 c3 = N.of_nat (List.length z)).
  { rewrite <- Hz. unfold from_le32. cbn [le_value]. lia. }
  assert (Ed : from_le32 d0 d1 d2 d3 = le_value [d0; d1; d2; d3]).
  { unfold from_le32. cbn [le_value]. lia. }
  rewrite Ec, Ed. clear Ec Ed.
  destruct (N.ltb_spec (N.of_nat (List.length data)) (N.of_nat (List.length a + 40) + N.of_nat (List.length z))); [lia|].
  rewrite Nat2N.id.
  assert (Ez : sub_bytes data (List.length a + 40) (List.length a + (40 + List.length z)) = Ok z).
  { replace data with ((a ++ [d0; d1; d2; d3] ++ [c0; c1; c2; c3] ++ h) ++ z ++ c)
      by (unfold data; rewrite <- !app_assoc; auto).
    replace (List.length a + 40) with (List.length (a ++ [d0; d1; d2; d3] ++ [c0; c1; c2; c3] ++ h))
      by (rewrite !app_length; cbn [List.length]; lia).
    replace (List.length a + (40 + List.length z)) with
      (List.length (a ++ [d0; d1; d2; d3] ++ [c0; c1; c2; c3] ++ h) + List.length z)
      by (rewrite !app_length; cbn [List.length]; lia).
    apply sub_bytes_app. }
  match goal with |- context [bind (sub_bytes data ?x ?y)] =>
    replace (sub_bytes data x y) with (Ok z) by (rewrite <- Ez; f_equal; lia) end.
  cbn [bind]. destruct (decompress z) as [d|]; [|auto].
  destruct (negb _); [auto|]. destruct (negb _); [auto|]. destruct (from_utf8 d); [|auto].
  do 3 f_equal. lia.
Qed.

(** Either the data is too short for a record or it splits into the parts. *)
Lemma record_shape : forall data p,
  (read_record data p = Ok (inr Truncated) /\
   ~ exists s, part_at (record_of s) data p) \/
  exists a dl cl h z c, data = a ++ (dl ++ cl ++ h ++ z) ++ c /\ List.length a = p /\
    List.length dl = 4 /\ List.length cl = 4 /\ List.length h = 32 /\
    le_value cl = N.of_nat (List.length z).
Proof.
  intros data p.
  destruct (Nat.lt_ge_cases (List.length data) (p + 40)) as [Hs|Hs].
  { left. split.
    - unfold EmbedModel.read_record. destruct (Nat.ltb_spec (List.length data) (p + 40)); [auto|lia].
    - intros (s & a & b & c & -> & <- & Hb). destruct Hb. rewrite !app_length in Hs. lia. }
  destruct (cut_at data p) as (a & r & -> & Ha); [lia|]. rewrite app_length in Hs.
  destruct (cut_at r 4) as (dl & r1 & -> & Hdl); [lia|]. rewrite app_length in Hs.
  destruct (cut_at r1 4) as (cl & r2 & -> & Hcl); [lia|]. rewrite app_length in Hs.
  destruct (cut_at r2 32) as (h & r3 & -> & Hh); [lia|]. rewrite app_length in Hs.
  destruct (N.le_gt_cases (le_value cl) (N.of_nat (List.length r3))) as [Hle|Hgt].
  - right. destruct (cut_at r3 (N.to_nat (le_value cl))) as (z & c & -> & Hz); [lia|].
    exists a, dl, cl, h, z, c. rewrite <- !app_assoc. splits; auto. lia.
  - left. split.
    + (* the second bound check *)
      unfold EmbedModel.read_record. rewrite !app_length.
      destruct (len4 dl Hdl) as (d0 & d1 & d2 & d3 & ->).
      destruct (len4 cl Hcl) as (c0 & c1 & c2 & c3 & ->).
      destruct (Nat.ltb_spec (List.length a + (List.length [d0; d1; d2; d3] + (List.length [c0; c1; c2; c3] + (List.length h + List.length r3)))) (p + 40)); [cbn in *; lia|].
      subst p. set (data := a ++ [d0; d1; d2; d3] ++ [c0; c1; c2; c3] ++ h ++ r3).
      assert (I : forall k x, nth_error ([d0; d1; d2; d3] ++ [c0; c1; c2; c3]) k = Some x ->
              at_index data (List.length a + k) = Ok x).
      { intros k x Hk. unfold at_index, data. rewrite nth_error_app2 by lia.
        replace (List.length a + k - List.length a) with k by lia.
        assert (Hn : nth_error ([d0; d1; d2; d3] ++ [c0; c1; c2; c3]) k <> None) by congruence.
        apply nth_error_Some in Hn.
        rewrite app_assoc. rewrite nth_error_app1 by exact Hn. rewrite Hk. auto. }
      cbv zeta.
      assert (I0 := I 0 d0 eq_refl). rewrite Nat.add_0_r in I0. rewrite I0. cbn [bind].
      rewrite (I 1 d1 eq_refl), (I 2 d2 eq_refl), (I 3 d3 eq_refl). cbn [bind].
      rewrite (I 4 c0 eq_refl). cbn [bind]. rewrite <- !Nat.add_assoc. cbn [Nat.add].
      rewrite (I 5 c1 eq_refl), (I 6 c2 eq_refl), (I 7 c3 eq_refl). cbn [bind].
      assert (Eh : sub_bytes data (List.length a + 8) (List.length a + 40) = Ok h).
      { replace data with ((a ++ [d0; d1; d2; d3] ++ [c0; c1; c2; c3]) ++ h ++ r3)
          by (unfold data; rewrite <- !app_assoc; auto).
        replace (List.length a + 8) with (List.length (a ++ [d0; d1; d2; d3] ++ [c0; c1; c2; c3]))
          by (rewrite !app_length; cbn; lia).
        replace (List.length a + 40) with (List.length (a ++ [d0; d1; d2; d3] ++ [c0; c1; c2; c3]) + List.length h)
          by (rewrite !app_length; cbn; lia).
        apply sub_bytes_app. }
      rewrite Eh. cbn [bind].
      assert (Ec : from_le32 c0 c1 c2 c3 = le_value [c0; c1; c2; c3]).
      { unfold from_le32. cbn [le_value]. lia. }
      rewrite Ec.
      match goal with |- context [(?x <? ?y)%N] => destruct (N.ltb_spec x y) as [|Hx]; [auto|exfalso] end.
      cbn [List.length] in Hx. lia.
    + intros (s & a' & b & c & E & Ha' & Hb). destruct Hb as [dl' cl' h' z' H1 H2 H3 H4 _ _ _ _].
      assert (a' = a /\ dl' = dl /\ cl' = cl /\ h' ++ z' ++ c = h ++ r3) as (-> & -> & -> & Er).
      { rewrite <- !app_assoc in E. apply app_same in E as [<- E]; [|congruence].
        apply app_same in E as [<- E]; [|congruence].
        apply app_same in E as [<- E]; [|congruence]. auto. }
      apply (f_equal (@List.length N)) in Er. rewrite !app_length in Er. lia.
Qed.

(** Reading a record succeeds exactly on an intact record, never panics, and ends after it. *)
Lemma read_record_spec : forall data p,
  (exists r, read_record data p = Ok r) /\
  forall s q, read_record data p = Ok (inl (s, q)) <->
    part_at (fun e => record_of s e /\ q = p + List.length e) data p.
Proof.
  intros data p. destruct (record_shape data p) as [[E Hno]|(a & dl & cl & h & z & c & -> & <- & H1 & H2 & H3 & H4)].
  - split; [eauto|]. intros s q. rewrite E. split; [intros [=]|].
    intros (a & e & c & E1 & E2 & He & _). exfalso. apply Hno. exists s, a, e, c. auto.
  - rewrite read_record_eq by auto. split.
    { destruct (decompress z) as [d|]; [|eauto].
      destruct (negb _); [eauto|]. destruct (negb _); [eauto|]. destruct (from_utf8 d); eauto. }
    intros s q. split.
    + destruct (decompress z) as [d|] eqn:Ez; [|intros [=]].
      destruct (N.eqb_spec (N.of_nat (List.length d)) (le_value dl)) as [Hd|]; cbn [negb]; [|intros [=]].
      destruct (str_eqb (hash d) h) eqn:Eh; cbn [negb]; [|intros [=]]. apply str_eqb_iff in Eh.
      destruct (from_utf8 d) as [t|] eqn:Et; [|intros [=]]. intros [= <- <-].
      apply from_utf8_iff in Et as [-> Hv].
      exists a, (dl ++ cl ++ h ++ z), c. splits; auto; [|rewrite !app_length; lia].
      constructor; auto.
    + intros (a' & e & c' & E & Ha & He & ->).
      destruct He as [dl' cl' h' z' G1 G2 G3 G4 G5 G6 G7 G8].
      assert (a' = a /\ dl' = dl /\ cl' = cl /\ h' = h /\ z' = z) as (-> & -> & -> & -> & ->).
      { rewrite <- !app_assoc in E. apply app_same in E as [<- E]; [|congruence].
        apply app_same in E as [<- E]; [|congruence].
        apply app_same in E as [<- E]; [|congruence].
        apply app_same in E as [<- E]; [|congruence].
        apply app_same in E as [<- E]; [|lia]. auto. }
      rewrite G5, G6, N.eqb_refl. cbn [negb].
      assert (Eh : str_eqb (hash (utf8 s)) h = true) by (apply str_eqb_iff; auto).
      rewrite Eh. cbn [negb].
      assert (Eu : from_utf8 (utf8 s) = Some s) by (apply from_utf8_iff; auto).
      rewrite Eu. rewrite !app_length. do 3 f_equal. lia.
Qed.

Lemma try_v2_spec : forall data p,
  (exists r, try_extract_v2_at hash decompress data p = Ok r) /\
  forall s, try_extract_v2_at hash decompress data p = Ok (inl s) <->
    part_at (record_of s) data (p + 16).
Proof.
  intros data p. unfold try_extract_v2_at. change (List.length magic_v2) with 16.
  destruct (read_record_spec data (p + 16)) as [[r Er] Hr]. rewrite Er. cbn [bind].
  destruct r as [[t q]|e].
  - split; [eauto|]. intros s. split.
    + intros [= ->]. apply Hr in Er. destruct Er as (a & b & c & ? & ? & ? & ?). exists a, b, c; auto.
    + intros (a & b & c & H1 & H2 & H3).
      assert (E : read_record data (p + 16) = Ok (inl (s, p + 16 + List.length b)))
        by (apply Hr; exists a, b, c; auto).
      rewrite Er in E. injection E as -> _. auto.
  - split; [eauto|]. intros s. split; [intros [=]|].
    intros (a & b & c & H1 & H2 & H3).
    assert (E : read_record data (p + 16) = Ok (inl (s, p + 16 + List.length b)))
      by (apply Hr; exists a, b, c; auto).
    congruence.
Qed.

Lemma read_records_spec : forall n data p,
  (exists r, read_records n data p = Ok r) /\
  forall ss, read_records n data p = Ok (inl ss) <->
    List.length ss = n /\ p <= List.length data /\
    part_at (fun e => exists es, e = List.concat es /\ Forall2 record_of ss es) data p \/
    n = 0 /\ ss = [].
Proof.
  induction n as [|n IH]; intros data p; cbn [EmbedModel.read_records].
  - split; [eauto|]. intros ss. split; [intros [= <-]; auto|].
    intros [(H & _)|[_ ->]]; [destruct ss; [auto|discriminate]|auto].
  - destruct (read_record_spec data p) as [[r Er] Hr]. rewrite Er. cbn [bind].
    assert (Hone : forall s ss, part_at (fun e => exists es, e = List.concat es /\ Forall2 record_of (s :: ss) es) data p ->
      exists q, read_record data p = Ok (inl (s, q)) /\ q <= List.length data /\
        part_at (fun e => exists es, e = List.concat es /\ Forall2 record_of ss es) data q).
    { intros s ss (a & b & c & -> & <- & es & -> & Hes).
      inversion Hes as [|? e ? es' He Hes']; subst.
      exists (List.length a + List.length e). splits.
      - apply Hr. exists a, e, (List.concat es' ++ c). cbn. rewrite <- !app_assoc. auto.
      - cbn. rewrite !app_length. lia.
      - exists (a ++ e), (List.concat es'), c. cbn. rewrite <- !app_assoc, app_length. splits; eauto. }
    destruct r as [[t q]|e].
    + destruct (IH data q) as [[l El] Hl]. rewrite El. cbn [bind].
      split; [destruct l; eauto|]. intros ss. split.
      * destruct l as [ts|]; [|intros [=]]. intros [= <-]. left.
        assert (Hrec := proj1 (Hr t q) Er). destruct Hrec as (a & b & c & -> & <- & Hb & ->).
        apply Hl in El as [(Hn & Hq & a' & e' & c' & E & Ha & es & -> & Hes)|[-> ->]].
        -- cbn. splits; [congruence|rewrite app_length; lia|].
           assert (a' = a ++ b /\ List.concat es ++ c' = c) as [-> <-].
           { rewrite app_assoc in E. apply app_same in E as [<- E]; [auto|].
             rewrite app_length. congruence. }
           exists a, (b ++ List.concat es), c'. rewrite <- !app_assoc. splits; auto.
           exists (b :: es). split; auto.
        -- cbn. splits; [auto|rewrite app_length; lia|].
           exists a, b, c. splits; auto. exists [b]. cbn. rewrite app_nil_r. auto.
      * intros [(Hn & Hp & Hpart)|[? _]]; [|discriminate].
        destruct ss as [|s ss]; [discriminate|]. injection Hn as Hn.
        apply Hone in Hpart as (q' & E & Hq' & Hpart). rewrite Er in E. injection E as <- <-.
        assert (E : read_records n data q = Ok (inl ss)) by (apply Hl; auto).
        rewrite El in E. injection E as ->. auto.
    + split; [eauto|]. intros ss. split; [intros [=]|].
      intros [(Hn & Hp & Hpart)|[? _]]; [|discriminate].
      destruct ss as [|s ss]; [discriminate|]. apply Hone in Hpart as (q & E & _). congruence.
Qed.

Lemma try_v1_spec : forall data p,
  (exists r, try_extract_v1_at hash decompress data p = Ok r) /\
  forall ss, try_extract_v1_at hash decompress data p = Ok (inl ss) <->
    part_at (fun b => exists n es, b = n ++ List.concat es /\ List.length n = 2 /\
      le_value n = N.of_nat (List.length ss) /\ Forall2 record_of ss es) data (p + 16).
Proof.
  intros data p. unfold try_extract_v1_at. change (List.length magic_v1) with 16. cbv zeta.
  destruct (Nat.ltb_spec (List.length data) (p + 16 + 2)) as [Hs|Hs].
  { split; [eauto|]. intros ss. split; [intros [=]|].
    intros (a & b & c & -> & Ha & n & es & -> & Hn & _). rewrite !app_length in Hs. lia. }
  destruct (cut_at data (p + 16)) as (a & r & -> & Ha); [lia|]. rewrite app_length in Hs.
  destruct (cut_at r 2) as (n & c & -> & Hn); [lia|].
  destruct (len2 n Hn) as (b0 & b1 & ->).
  assert (I0 : at_index (a ++ [b0; b1] ++ c) (p + 16) = Ok b0).
  { rewrite <- Ha. apply at_index_app. }
  assert (I1 : at_index (a ++ [b0; b1] ++ c) (p + 16 + 1) = Ok b1).
  { replace (a ++ [b0; b1] ++ c) with ((a ++ [b0]) ++ b1 :: c) by (rewrite <- app_assoc; auto).
    replace (p + 16 + 1) with (List.length (a ++ [b0])) by (rewrite app_length; cbn; lia).
    apply at_index_app. }
  rewrite I0, I1. cbn [bind].
  destruct (read_records_spec (N.to_nat (from_le16 b0 b1)) (a ++ [b0; b1] ++ c) (p + 16 + 2)) as [Ht Hr].
  split; [exact Ht|]. intros ss. rewrite Hr.
  assert (Ev : from_le16 b0 b1 = le_value [b0; b1]).
  { unfold from_le16. cbn [le_value]. lia. }
  split.
  - intros [(Hl & _ & a' & e & c' & E & Ha' & es & -> & Hes)|[Hz ->]].
    + assert (Hc : c = List.concat es ++ c').
      { rewrite app_assoc in E. apply app_same in E as [_ E]; [auto|].
        rewrite app_length. cbn [List.length]. lia. }
      exists a, ([b0; b1] ++ List.concat es), c'. subst c. rewrite <- !app_assoc. splits; auto.
      exists [b0; b1], es. splits; auto. rewrite <- Ev. unfold char, str in *. lia.
    + exists a, [b0; b1], c. splits; auto. exists [b0; b1], []. splits; auto. rewrite <- Ev. cbn. lia.
  - intros (a' & b & c' & E & Ha' & n & es & -> & Hn' & Hlv & Hes).
    apply app_same in E as [<- E]; [|congruence]. rewrite <- app_assoc in E.
    apply app_same in E as [<- E]; [|congruence].
    subst c. left. rewrite <- Ev in Hlv. splits.
    + unfold char, str in *. lia.
    + rewrite !app_length. cbn [List.length]. lia.
    + exists (a ++ [b0; b1]), (List.concat es), c'. rewrite <- !app_assoc, app_length.
      splits; [auto|cbn [List.length]; lia|eauto].
Qed.
End WithCodec.

(** ** Scanning for the magic bytes *)
Lemma skipn_skipn : forall {A} n m (l : list A), skipn n (skipn m l) = skipn (n + m) l.
Proof.
  intros A n m l. revert n. induction m as [|m IH] in l |- *; intros n.
  - rewrite Nat.add_0_r. auto.
  - rewrite Nat.add_succ_r. destruct l as [|x l]; cbn [skipn]; [apply skipn_nil|apply IH].
Qed.

Definition occurs_at (magic data : bytes) (p : nat) : Prop :=
  exists a c, data = a ++ magic ++ c /\ List.length a = p.

Lemma occurs_skipn : forall magic data p, p <= List.length data ->
  occurs_at magic data p <-> exists c, skipn p data = magic ++ c.
Proof.
  intros magic data p Hp. split.
  - intros (a & c & -> & <-). exists c. rewrite skipn_app, skipn_all, Nat.sub_diag. auto.
  - intros [c E]. exists (firstn p data), c. rewrite <- E, firstn_skipn, firstn_length. split; [auto|lia].
Qed.

Lemma find_window_spec : forall magic d k,
  match find_window magic d k with
  | Some q => exists i, q = k + i /\ (exists c, skipn i d = magic ++ c) /\ i <= List.length d /\
      forall j, j < i -> ~ exists c, skipn j d = magic ++ c
  | None => forall j, j <= List.length d -> ~ exists c, skipn j d = magic ++ c
  end.
Proof.
  intros magic d. induction d as [|x d IH]; intros k; cbn [find_window]; unfold starts_with.
  - destruct (strip_prefix magic []) eqn:E.
    + apply strip_prefix_iff in E. exists 0. splits; [lia|cbn; eauto|cbn;lia|lia].
    + intros j Hj [c Hc]. cbn in Hj. assert (j = 0) as -> by lia. cbn in Hc.
      assert (strip_prefix magic [] = Some c) by (apply strip_prefix_iff; auto). congruence.
  - destruct (strip_prefix magic (x :: d)) eqn:E.
    + apply strip_prefix_iff in E. exists 0. splits; [lia|cbn; eauto|cbn;lia|lia].
    + assert (H0 : ~ exists c, x :: d = magic ++ c).
      { intros [c Hc]. assert (strip_prefix magic (x :: d) = Some c) by (apply strip_prefix_iff; auto). congruence. }
      specialize (IH (S k)). destruct (find_window magic d (S k)) as [q|].
      * destruct IH as (i & -> & Hi & Hle & Hj). exists (S i). splits; [lia|auto|cbn;lia|].
        intros [|j] Hlt; [auto|]. cbn. apply Hj. lia.
      * intros [|j] Hlt; [auto|]. cbn in *. apply IH. lia.
Qed.

Lemma find_magic_spec : forall magic data start, magic <> [] ->
  match find_magic_from data start magic with
  | Some q => start <= q /\ occurs_at magic data q /\ q < List.length data /\
      forall j, start <= j -> j < q -> ~ occurs_at magic data j
  | None => forall j, start <= j -> ~ occurs_at magic data j
  end.
Proof.
  intros magic data start Hm.
  assert (Hlt : forall j, occurs_at magic data j -> j < List.length data).
  { intros j (a & c & -> & <-). rewrite !app_length. destruct magic; [congruence|cbn; lia]. }
  unfold find_magic_from.
  destruct (Nat.leb_spec (List.length data) start).
  { intros j Hj Ho. apply Hlt in Ho. lia. }
  pose proof (find_window_spec magic (skipn start data) start) as H1.
  assert (Hsk : forall i, skipn i (skipn start data) = skipn (start + i) data).
  { intros i. rewrite skipn_skipn. f_equal. lia. }
  assert (Hl : List.length (skipn start data) = List.length data - start) by apply skipn_length.
  destruct (find_window magic (skipn start data) start) as [q|].
  - destruct H1 as (i & -> & Hi & Hle & Hj). rewrite Hsk in Hi.
    assert (Ho : occurs_at magic data (start + i)) by (apply occurs_skipn; [lia|auto]).
    splits; [lia|auto|apply Hlt; auto|].
    intros j Hs Hq Hoj. apply (Hj (j - start)); [lia|]. rewrite Hsk.
    replace (start + (j - start)) with j by lia.
    apply occurs_skipn; [|auto]. apply Hlt in Hoj. lia.
  - intros j Hs Hoj. pose proof (Hlt j Hoj).
    apply (H1 (j - start)); [lia|]. rewrite Hsk. replace (start + (j - start)) with j by lia.
    apply occurs_skipn; [lia|auto].
Qed.

(** The magic bytes do not overlap themselves. *)
Definition no_overlap (magic : bytes) : Prop :=
  forall k, 0 < k < List.length magic ->
    skipn k magic <> firstn (List.length magic - k) magic.

Lemma no_overlap_gap : forall magic data p q, no_overlap magic ->
  occurs_at magic data p -> occurs_at magic data q -> p < q -> p + List.length magic <= q.
Proof.
  intros magic data p q Hno Hp Hq Hlt.
  destruct (Nat.le_gt_cases (p + List.length magic) q) as [|Hgt]; [auto|exfalso].
  assert (Hlp : p <= List.length data).
  { destruct Hp as (a & c & -> & <-). rewrite app_length. lia. }
  assert (Hlq : q <= List.length data).
  { destruct Hq as (a & c & -> & <-). rewrite app_length. lia. }
  apply occurs_skipn in Hp as [c Hc]; [|auto]. apply occurs_skipn in Hq as [c' Hc']; [|auto].
  replace q with (p + (q - p)) in Hc' by lia.
  assert (E : skipn (q - p) (skipn p data) = magic ++ c').
  { rewrite skipn_skipn. rewrite <- Hc'. f_equal. lia. }
  rewrite Hc, skipn_app in E.
  replace (q - p - List.length magic) with 0 in E by lia. cbn [skipn] in E.
  apply (Hno (q - p)); [lia|].
  apply (f_equal (firstn (List.length magic - (q - p)))) in E.
  rewrite firstn_app, skipn_length, Nat.sub_diag in E. cbn [firstn] in E. rewrite app_nil_r in E.
  rewrite firstn_all2 in E by (rewrite skipn_length; lia).
  rewrite E, firstn_app. replace (_ - _ - List.length magic) with 0 by lia.
  cbn [firstn]. rewrite app_nil_r. auto.
Qed.

Lemma no_overlap_dec : forall magic,
  forallb (fun k => negb (str_eqb (skipn k magic) (firstn (List.length magic - k) magic)))
          (seq 1 (List.length magic - 1)) = true -> no_overlap magic.
Proof.
  intros magic H k Hk E. rewrite forallb_forall in H.
  assert (Hin : In k (seq 1 (List.length magic - 1))) by (apply in_seq; lia).
  apply H in Hin. assert (Ht := proj2 (str_eqb_iff _ _) E). rewrite Ht in Hin. discriminate.
Qed.
Lemma no_overlap_v2 : no_overlap magic_v2.
Proof. apply no_overlap_dec. vm_compute. auto. Qed.
Lemma no_overlap_v1 : no_overlap magic_v1.
Proof. apply no_overlap_dec. vm_compute. auto. Qed.

Lemma scan_spec : forall {A} (magic : bytes) (try : nat -> res (A + extract_err)) data,
  magic <> [] -> no_overlap magic -> (forall p, exists r, try p = Ok r) ->
  forall fuel start, List.length data < fuel + start -> 0 < fuel ->
  exists l : list (nat * A),
    scan magic try data fuel start = Ok (map snd l) /\
    StronglySorted lt (map fst l) /\
    forall p x, In (p, x) l <-> start <= p /\ occurs_at magic data p /\ try p = Ok (inl x).
Proof.
  intros A magic try data Hm Hno Ht. induction fuel as [|f IH]; intros start Hf Hpos; [lia|].
  cbn [scan]. pose proof (find_magic_spec magic data start Hm) as Hfind.
  destruct (find_magic_from data start magic) as [q|].
  - destruct Hfind as (Hq & Ho & Hlt & Hbefore).
    destruct (Ht q) as [r Er]. rewrite Er. cbn [bind]. destruct r as [a|e].
    + assert (Hml : 0 < List.length magic) by (destruct magic; [congruence|cbn; lia]).
      destruct (IH (q + List.length magic)) as (l & El & Hs & Hl); [lia|lia|].
      rewrite El. cbn [bind]. exists ((q, a) :: l). splits; [auto| |].
      * cbn. constructor; [auto|]. apply Forall_forall. intros p Hp.
        apply in_map_iff in Hp as ([p' x] & <- & Hin). apply Hl in Hin. cbn. lia.
      * intros p x. split.
        -- intros [[= <- <-]|Hin]; [auto|]. apply Hl in Hin as (? & ? & ?). splits; auto. lia.
        -- intros (Hs' & Hop & Hx). destruct (Nat.lt_trichotomy p q) as [Hpq|[->|Hpq]].
           ++ exfalso. apply (Hbefore p); auto.
           ++ left. congruence.
           ++ right. apply Hl. splits; auto. eapply no_overlap_gap; eauto.
    + destruct (IH (q + 1)) as (l & El & Hs & Hl); [lia|lia|].
      exists l. splits; [auto|auto|]. intros p x. rewrite Hl. split.
      * intros (? & ? & ?). splits; auto. lia.
      * intros (Hs' & Hop & Hx). splits; auto.
        destruct (Nat.lt_trichotomy p q) as [Hpq|[->|Hpq]]; [|congruence|lia].
        exfalso. apply (Hbefore p); auto.
  - exists []. splits; [auto|constructor|]. intros p x. split; [intros []|].
    intros (Hs & Ho & _). apply (Hfind p Hs). auto.
Qed.

Section Results.
Variable hash : bytes -> bytes.
Variable decompress : bytes -> option bytes.

(** Magic bytes followed by [P]. *)
Lemma magic_then : forall (P : bytes -> Prop) magic data p,
  occurs_at magic data p /\ part_at P data (p + List.length magic) <->
  part_at (fun b => exists e, b = magic ++ e /\ P e) data p.
Proof.
  intros P magic data p. split.
  - intros [(a & c & E & Ha) (a' & b & c' & E' & Ha' & Hb)].
    exists a, (magic ++ b), c'. splits; [|auto|eauto].
    rewrite E in E'. assert (Hc : c = b ++ c').
    { rewrite app_assoc in E'. apply app_same in E' as [_ E']; [auto|].
      rewrite app_length. lia. }
    rewrite E, Hc, <- app_assoc. auto.
  - intros (a & b & c & -> & <- & e & -> & He). split.
    + exists a, (e ++ c). rewrite <- app_assoc. auto.
    + exists (a ++ magic), e, c. rewrite <- !app_assoc, app_length. auto.
Qed.

(** What extraction returns: everything that is there, in order, first the blobs of the current
    format, then those of the old. *)
Lemma extract_schemas_spec : forall data, exists l2 l1,
  lists_all (blob_v2 hash decompress) data l2 /\
  lists_all (blob_v1 hash decompress) data l1 /\
  extract_schemas hash decompress data =
    Ok (match map snd l2 ++ List.concat (map snd l1) with
        | [] => inr NotFound
        | ss => inl ss
        end).
Proof.
  intros data. unfold extract_schemas.
  pose proof (scan_spec magic_v2 (try_extract_v2_at hash decompress data) data
    ltac:(discriminate) no_overlap_v2 (fun p => proj1 (try_v2_spec hash decompress data p))
    (S (List.length data)) 0 ltac:(lia) ltac:(lia)) as (l2 & E2 & S2 & H2).
  pose proof (scan_spec magic_v1 (try_extract_v1_at hash decompress data) data
    ltac:(discriminate) no_overlap_v1 (fun p => proj1 (try_v1_spec hash decompress data p))
    (S (List.length data)) 0 ltac:(lia) ltac:(lia)) as (l1 & E1 & S1 & H1).
  exists l2, l1. rewrite E2, E1. cbn [bind]. splits.
  - split; [auto|]. intros p s. rewrite H2.
    rewrite (proj2 (try_v2_spec hash decompress data p) s).
    change 16 with (List.length magic_v2).
    unfold blob_v2. rewrite <- (magic_then (record_of hash decompress s) magic_v2 data p).
    split; [intros (_ & ? & ?); auto|intros [? ?]; splits; auto; lia].
  - split; [auto|]. intros p ss. rewrite H1.
    rewrite (proj2 (try_v1_spec hash decompress data p) ss).
    change 16 with (List.length magic_v1).
    assert (M := magic_then (fun b => exists n es, b = n ++ List.concat es /\ List.length n = 2 /\
      le_value n = N.of_nat (List.length ss) /\ Forall2 (record_of hash decompress) ss es) magic_v1 data p).
    split.
    + intros (_ & Ho & Hp). destruct (proj1 M (conj Ho Hp)) as (a & b & c & E & Ha & e & -> & n & es & -> & ?).
      exists a, (magic_v1 ++ n ++ List.concat es), c. splits; auto. exists n, es. auto.
    + intros (a & b & c & E & Ha & n & es & -> & ?). 
      assert (Hp := proj2 M). destruct Hp as [Ho Hp].
      { exists a, (magic_v1 ++ n ++ List.concat es), c. splits; auto. eauto 6. }
      splits; auto; lia.
  - destruct (map snd l2 ++ List.concat (map snd l1)); auto.
Qed.

Lemma le32_value : forall n, (n < 4294967296)%N -> le_value (le32 n) = n.
Proof.
  intros n Hn. unfold le32. cbn [le_value].
  zify; Z.to_euclidean_division_equations; lia.
Qed.

Lemma build_is_blob : forall compress s,
  (forall b, List.length (hash b) = 32) ->
  decompress (compress (utf8 s)) = Some (utf8 s) ->
  Forall (fun c => valid_char c = true) s ->
  (N.of_nat (blen s) < 4294967296)%N ->
  (N.of_nat (List.length (compress (utf8 s))) < 4294967296)%N ->
  blob_v2 hash decompress s (build_embedded_blob hash compress s).
Proof.
  intros compress s Hh Hd Hv Hs Hc. unfold build_embedded_blob, blob_v2. eexists. split; [reflexivity|].
  constructor; auto; rewrite ?le32_value; rewrite ?utf8_len; auto.
Qed.

Lemma le_value_lt : forall b, Forall (fun x => x < 256)%N b ->
  (le_value b < 256 ^ N.of_nat (List.length b))%N.
Proof.
  induction b as [|x b IH]; intros H; [cbn; lia|].
  apply Forall_cons_iff in H as [Hx H]. cbn [le_value List.length].
  rewrite Nat2N.inj_succ, N.pow_succ_r by lia. specialize (IH H). lia.
Qed.

Lemma record_short : forall s e, Forall (fun x => x < 256)%N e -> record_of hash decompress s e ->
  (N.of_nat (blen s) < 4294967296)%N.
Proof.
  intros s e Hb He. destruct He as [dl cl h z H1 H2 H3 H4 H5 H6 H7 H8].
  apply Forall_app in Hb as [Hb _]. apply le_value_lt in Hb. rewrite H1 in Hb.
  rewrite utf8_len in H6. rewrite <- H6. exact Hb.
Qed.
Lemma part_bytes : forall (P : bytes -> Prop) data p, Forall (fun x => x < 256)%N data ->
  part_at P data p -> exists b, P b /\ Forall (fun x => x < 256)%N b.
Proof.
  intros P data p Hd (a & b & c & -> & _ & Hb). exists b. split; [auto|].
  apply Forall_app in Hd as [_ Hd]. apply Forall_app in Hd. tauto.
Qed.

Lemma result_in : forall data ss s,
  extract_schemas hash decompress data = Ok (inl ss) ->
  In s ss <-> (exists p, part_at (blob_v2 hash decompress s) data p) \/
              (exists p ts, part_at (blob_v1 hash decompress ts) data p /\ In s ts).
Proof.
  intros data ss s H. destruct (extract_schemas_spec data) as (l2 & l1 & [_ H2] & [_ H1] & E).
  rewrite H in E. assert (Ess : ss = map snd l2 ++ List.concat (map snd l1)).
  { destruct (map snd l2 ++ List.concat (map snd l1)); [discriminate|]. injection E as ->. auto. }
  rewrite Ess, in_app_iff, in_map_iff, in_concat. clear H E Ess. split.
  - intros [([p x] & <- & Hin)|(ts & Hin & Hs)].
    + left. exists p. apply H2. auto.
    + right. apply in_map_iff in Hin as ([p x] & <- & Hin). exists p, x. split; [apply H1; auto|auto].
  - intros [[p Hp]|(p & ts & Hp & Hs)].
    + left. apply H2 in Hp. exists (p, s). auto.
    + right. apply H1 in Hp. exists ts. split; [|auto]. apply in_map_iff. exists (p, ts). auto.
Qed.

Lemma extract_nonempty : forall data s,
  (exists p, part_at (blob_v2 hash decompress s) data p) ->
  exists ss, extract_schemas hash decompress data = Ok (inl ss) /\ In s ss.
Proof.
  intros data s [p Hp]. destruct (extract_schemas_spec data) as (l2 & l1 & [_ H2] & _ & E).
  apply H2 in Hp. assert (Hin : In s (map snd l2 ++ List.concat (map snd l1))).
  { apply in_app_iff. left. apply in_map_iff. exists (p, s). auto. }
  destruct (map snd l2 ++ List.concat (map snd l1)) as [|x l]; [destruct Hin|]. eauto.
Qed.

Lemma result_short : forall data ss s, Forall (fun x => x < 256)%N data ->
  extract_schemas hash decompress data = Ok (inl ss) -> In s ss ->
  (N.of_nat (blen s) < 4294967296)%N.
Proof.
  intros data ss s Hd H Hin. apply (result_in data ss s H) in Hin as [[p Hp]|(p & ts & Hp & Hs)].
  - apply part_bytes in Hp as (b & (e & -> & He) & Hb); [|auto].
    apply Forall_app in Hb as [_ Hb]. eapply record_short; eauto.
  - apply part_bytes in Hp as (b & (n & es & -> & _ & _ & Hes) & Hb); [|auto].
    apply Forall_app in Hb as [_ Hb]. apply Forall_app in Hb as [_ Hb].
    clear H. induction Hes as [|t e ts es He Hes IH]; [destruct Hs|].
    cbn in Hb. apply Forall_app in Hb as [Hb1 Hb2]. destruct Hs as [->|Hs]; [|auto].
    exact (record_short s e Hb1 He).
Qed.

(** The section lookup, when no recorded range wraps around. *)
Lemma find_section_ok : forall hs data,
  Forall (fun h => (snd (fst h) + snd h < 18446744073709551616)%N) hs ->
  exists o, find_section hs data = Ok o /\
    forall sec, o = Some sec -> exists a c, data = a ++ sec ++ c.
Proof.
  induction hs as [|[[named start] size] hs IH]; intros data H; cbn [find_section].
  { eexists. split; [reflexivity|]. intros sec [=]. }
  apply Forall_cons_iff in H as [H0 H]. cbn [fst snd] in H0.
  unfold add_usize. rewrite N.mod_small by auto.
  destruct named; cbn [andb]; [|apply IH; auto].
  destruct (N.leb_spec (start + size) (N.of_nat (List.length data))) as [Hle|_]; [|apply IH; auto].
  destruct (N.leb_spec start (start + size)); [|lia].
  destruct (cut_at data (N.to_nat start)) as (a & r & -> & Ha); [lia|]. rewrite app_length in Hle.
  destruct (cut_at r (N.to_nat size)) as (b & c & -> & Hb); [lia|].
  replace (N.to_nat start) with (List.length a).
  replace (N.to_nat (start + size)) with (List.length a + List.length b) by lia.
  rewrite sub_bytes_app. cbn [bind]. eexists. split; [reflexivity|].
  intros sec [= <-]. eauto.
Qed.

Lemma part_wider : forall (P : bytes -> Prop) a data c,
  (exists p, part_at P data p) -> exists p, part_at P (a ++ data ++ c) p.
Proof.
  intros P a data c (p & x & b & y & -> & <- & Hb).
  exists (List.length (a ++ x)), (a ++ x), b, (y ++ c). rewrite <- !app_assoc. auto.
Qed.
End Results.
