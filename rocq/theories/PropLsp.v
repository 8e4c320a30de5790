(** Properties C29, C30, C31, C33, C38, C44 and C45: the language server. *)
From Coq Require Import String Permutation Sorted.
From Verif Require Import Base BaseProofs LspModel LspSpec LspProofs.
Local Open Scope nat_scope.

(** ** C29: positions and offsets are inverse *)

(** The position of a character boundary is its place in the text. *)
Theorem C29_place : forall a b, place_of a (offset_to_position (a ++ b) (blen a)).
Proof. intros a b. rewrite offset_walk. apply walk_place. Qed.
Print Assumptions C29_place.

(** There and back. *)
Theorem C29_inverse : forall a b,
  position_to_offset (a ++ b) (offset_to_position (a ++ b) (blen a)) = blen a.
Proof. exact round_trip. Qed.
Print Assumptions C29_inverse.

(** Every position: column [c] of line [n] is the offset of that character of the line, and of
    the line's end if the line is shorter; lines past the last are the end of the text. *)
Theorem C29_clamp : forall content pos,
  (forall p t r, line_at content (p_line pos) p t r ->
     position_to_offset content pos = blen p + blen (firstn (p_char pos) t)) /\
  (p_line pos <= lines_before content -> exists p t r, line_at content (p_line pos) p t r) /\
  (lines_before content < p_line pos -> position_to_offset content pos = blen content).
Proof.
  intros content pos. splits.
  - intros p t r H. eapply position_to_offset_line; eauto.
  - apply line_at_ex.
  - apply position_past.
Qed.
Print Assumptions C29_clamp.

(** Back and there, for positions on a line. *)
Theorem C29_inverse_position : forall content n p t r c,
  line_at content n p t r -> c <= List.length t ->
  offset_to_position content (position_to_offset content (mkpos n c)) = mkpos n c.
Proof.
  intros content n p t r c Hl Hc.
  rewrite (position_to_offset_line _ _ _ _ _ (mkpos n c) Hl eq_refl). cbn [p_char].
  destruct Hl as (-> & Hn & Hp & Ht & Hr).
  rewrite <- (firstn_skipn c t) at 1. rewrite <- app_assoc, app_assoc, <- blen_app, offset_walk.
  destruct (walk_place (p ++ firstn c t)) as [Hline (u & Hu & Hchar)].
  destruct (walk (p ++ firstn c t) 0 0) as [l k]. cbn [p_line p_char] in *.
  assert (Hf : ~ In cLF (firstn c t)).
  { intros H. apply Ht. rewrite <- (firstn_skipn c t). apply in_app_iff. auto. }
  assert (u = firstn c t) as ->.
  { eapply last_line_unique; [exact Hu|]. split; [auto|].
    destruct Hp as [->|[p' ->]]; [auto|]. right. exists p'. rewrite <- app_assoc. auto. }
  rewrite firstn_length in Hchar. rewrite lines_before_app, (no_lf_lines (firstn c t)) in Hline by auto.
  f_equal; lia.
Qed.
Print Assumptions C29_inverse_position.

(** Monotone in both directions; different boundaries have different positions. *)
Theorem C29_offset_monotone : forall a b c,
  let content := a ++ b ++ c in
  pos_le (offset_to_position content (blen a)) (offset_to_position content (blen a + blen b)) /\
  (b <> [] -> offset_to_position content (blen a) <> offset_to_position content (blen a + blen b)).
Proof. exact offset_mono. Qed.
Print Assumptions C29_offset_monotone.

Theorem C29_position_monotone : forall content p q, pos_le p q ->
  position_to_offset content p <= position_to_offset content q.
Proof. exact position_mono. Qed.
Print Assumptions C29_position_monotone.

Example C29_example :
  let content := lit "a" ++ [233; 10; 128512]%N ++ lit "b" in
  offset_to_position content 8 = mkpos 1 1 /\
  position_to_offset content (mkpos 1 1) = 8 /\
  position_to_offset content (mkpos 0 7) = 3 /\
  position_to_offset content (mkpos 5 0) = 9.
Proof. vm_compute. auto. Qed.

(** ** C30: columns are UTF-16 columns *)

(** Columns count characters: an emoji counts once, not twice. *)
Theorem C30_refuted : exists a b t,
  last_line a t /\ p_char (offset_to_position (a ++ b) (blen a)) <> utf16_len t.
Proof.
  exists [128512%N], (lit "x"), [128512%N]. split.
  - split; [intros [H|[]]; discriminate H|auto].
  - vm_compute. discriminate.
Qed.
Print Assumptions C30_refuted.

(** The column is right exactly when the line so far has no character beyond the basic plane. *)
Theorem C30_exact_partial : forall a b t, last_line a t ->
  p_char (offset_to_position (a ++ b) (blen a)) = utf16_len t <->
  Forall (fun c => c < 65536)%N t.
Proof.
  intros a b t Ht. destruct (C29_place a b) as [_ (u & Hu & ->)].
  rewrite (last_line_unique _ _ _ Hu Ht). split.
  - clear. intros E. assert (G : forall s, List.length s <= utf16_len s).
    { induction s as [|c s IH]; cbn; [auto|]. destruct (c <? 65536)%N; lia. }
    induction t as [|c t IH]; [constructor|]. cbn [List.length utf16_len] in E. specialize (G t).
    destruct (N.ltb_spec c 65536); [|lia]. constructor; [auto|]. apply IH. lia.
  - intros H. rewrite utf16_bmp; auto.
Qed.
Print Assumptions C30_exact_partial.

Example C30_example :
  let a := lit "k " ++ [10; 233; 8364]%N in
  last_line a [233; 8364]%N /\ Forall (fun c => c < 65536)%N [233; 8364]%N /\
  p_char (offset_to_position (a ++ lit "x") (blen a)) = 2.
Proof.
  cbv zeta. splits.
  - split; [intros [H|[H|[]]]; discriminate H|]. right. exists (lit "k "). reflexivity.
  - repeat constructor.
  - vm_compute. reflexivity.
Qed.

(** ** C45: lengths of semantic tokens are UTF-16 lengths *)

(** They are byte lengths. *)
Theorem C45_refuted : exists a t b, 
  r_len (raw_token_at (a ++ t ++ b) (blen a) (blen a + blen t) 0 0) <> utf16_len t.
Proof. exists (lit "k "), [233%N], []. vm_compute. discriminate. Qed.
Print Assumptions C45_refuted.

Theorem C45_exact_partial : forall a t b ty mods,
  r_len (raw_token_at (a ++ t ++ b) (blen a) (blen a + blen t) ty mods) = utf16_len t <->
  Forall (fun c => c < 128)%N t.
Proof.
  intros a t b ty mods. unfold raw_token_at. cbv zeta. cbn [r_len].
  replace (blen a + blen t - blen a) with (blen t) by lia. clear a b.
  assert (G : forall s, utf16_len s <= blen s).
  { induction s as [|c s IH]; cbn; [auto|]. unfold clen.
    destruct (N.ltb_spec c 65536), (N.ltb_spec c 128), (N.ltb_spec c 2048); lia. }
  induction t as [|c t IH]; [cbn; split; auto|]. cbn [blen utf16_len]. specialize (G t).
  rewrite Forall_cons_iff, <- IH. unfold clen.
  destruct (N.ltb_spec c 65536), (N.ltb_spec c 128), (N.ltb_spec c 2048); split; intros; try lia.
Qed.
Print Assumptions C45_exact_partial.

Example C45_example :
  r_len (raw_token_at (lit "name value") 5 10 1 0) = utf16_len (lit "value") /\
  raw_token_at (lit "name value") 5 10 1 0 = mkraw 0 5 5 1 0.
Proof. vm_compute. auto. Qed.

(** ** C31: semantic token deltas decode to the tokens *)

Theorem C31_sorted : forall l, StronglySorted tok_le l ->
  exists e, encode_tokens l = Ok e /\ decode_tokens e = l.
Proof.
  intros l H. apply encode_decode; [auto|]. apply Forall_forall. intros t _. unfold tok_le. cbn. lia.
Qed.
Print Assumptions C31_sorted.

(** What is sent for any collected tokens decodes to these tokens in order. *)
Theorem C31_sent : forall raw, exists e, finish_tokens raw = Ok e /\
  Permutation raw (decode_tokens e) /\ StronglySorted tok_le (decode_tokens e).
Proof.
  intros raw. destruct (C31_sorted (sort_raw raw) (sort_raw_sorted raw)) as (e & E & D).
  exists e. rewrite D. splits; [exact E|apply sort_raw_perm|apply sort_raw_sorted].
Qed.
Print Assumptions C31_sent.

Example C31_example :
  let raw := [mkraw 1 4 2 1 0; mkraw 0 3 1 6 0; mkraw 1 0 3 6 0] in
  match finish_tokens raw with
  | Ok e => e = [mksem 0 3 1 6 0; mksem 1 0 3 6 0; mksem 0 4 2 1 0] /\
            decode_tokens e = [mkraw 0 3 1 6 0; mkraw 1 0 3 6 0; mkraw 1 4 2 1 0]
  | _ => False
  end.
Proof. vm_compute. auto. Qed.

(** ** C33: suggestions use the true edit distance *)

Theorem C33_validator : forall a b, exists n, levenshtein a b = Ok n /\ edit_distance a b n.
Proof. intros a b. exists (lev a b). split; [apply levenshtein_lev|apply lev_distance]. Qed.
Print Assumptions C33_validator.

Theorem C33_server : forall a b, exists n, lsp_levenshtein a b = Ok n /\ edit_distance a b n.
Proof. intros a b. exists (lev a b). split; [apply lsp_levenshtein_lev|apply lev_distance]. Qed.
Print Assumptions C33_server.

(** It is a metric. *)
Theorem C33_zero : forall a b, levenshtein a b = Ok 0 <-> a = b.
Proof.
  intros a b. destruct (C33_validator a b) as (n & E & H1 & H2). rewrite E. split.
  - intros [= ->]. inversion H1; auto.
  - intros ->. specialize (H2 0 (edits_none b)). f_equal. lia.
Qed.
Print Assumptions C33_zero.

Theorem C33_symmetric : forall a b, levenshtein a b = levenshtein b a.
Proof.
  intros a b. destruct (C33_validator a b) as (n & -> & H1 & H2), (C33_validator b a) as (m & -> & H3 & H4).
  apply edits_sym in H1, H3. apply H4 in H1. apply H2 in H3. f_equal. lia.
Qed.
Print Assumptions C33_symmetric.

Theorem C33_triangle : forall a b c, exists x y z,
  levenshtein a b = Ok x /\ levenshtein b c = Ok y /\ levenshtein a c = Ok z /\ z <= x + y.
Proof.
  intros a b c.
  destruct (C33_validator a b) as (x & E1 & H1 & _), (C33_validator b c) as (y & E2 & H2 & _),
    (C33_validator a c) as (z & E3 & _ & H3).
  exists x, y, z. splits; auto. apply H3. eapply edits_app; eauto.
Qed.
Print Assumptions C33_triangle.

(** The suggestion is the first of the closest of the names that are close enough, whatever
    lower-casing does; there is none exactly when no name is close enough. *)
Theorem C33_suggestion : forall lower unknown valid, exists o,
  suggest_similar lower unknown valid = Ok o /\
  match o with
  | Some v => exists d before after,
      valid = before ++ v :: after /\ close_enough lower unknown v d /\
      (forall w e, In w before -> close_enough lower unknown w e -> d < e) /\
      (forall w e, In w after -> close_enough lower unknown w e -> d <= e)
  | None => forall w e, In w valid -> ~ close_enough lower unknown w e
  end.
Proof.
  intros lower unknown valid. unfold suggest_similar.
  destruct (close_ones_ok lower unknown valid) as (l & -> & Hl). cbn [bind].
  set (f := fun v => let d := lev (lower unknown) (lower v) in
                 if (d <=? 2) && (d <? Nat.max (blen unknown) 1) then [(v, d)] else []) in *.
  assert (Hf : forall w e, close_enough lower unknown w e -> f w = [(w, e)]).
  { intros w e (H1 & H2 & H3). unfold f. cbv zeta.
    rewrite (edit_distance_unique _ _ _ _ (lev_distance (lower unknown) (lower w)) H1).
    destruct (Nat.leb_spec e 2); [|lia]. destruct (Nat.ltb_spec e (Nat.max (blen unknown) 1)); [|lia]. auto. }
  assert (Hg : forall w x d, In (x, d) (f w) -> x = w /\ f w = [(w, d)] /\ close_enough lower unknown w d).
  { intros w x d. unfold f. cbv zeta.
    destruct (Nat.leb_spec (lev (lower unknown) (lower w)) 2) as [H1|H1];
    destruct (Nat.ltb_spec (lev (lower unknown) (lower w)) (Nat.max (blen unknown) 1)) as [H2|H2];
      cbn [andb]; intros [[= <- <-]|[]] || intros [].
    splits; auto. split; [apply lev_distance|lia]. }
  assert (Hcut : forall valid l1 x d l2, flat_map f valid = l1 ++ (x, d) :: l2 ->
    exists before after, valid = before ++ x :: after /\ flat_map f before = l1 /\ flat_map f after = l2 /\
      close_enough lower unknown x d).
  { clear valid l Hl. induction valid as [|v valid IH]; intros l1 x d l2 E; [destruct l1; discriminate|].
    cbn [flat_map] in E.
    destruct (f v) as [|[v' d'] [|? ?]] eqn:Ev.
    - cbn [app] in E. destruct (IH _ _ _ _ E) as (b & a & -> & H1 & H2 & H3).
      exists (v :: b), a. cbn [flat_map app]. rewrite Ev. splits; auto.
    - destruct (Hg v v' d') as (-> & _ & Hc); [rewrite Ev; left; auto|].
      cbn [app] in E. destruct l1 as [|y l1]; cbn [app] in E.
      + injection E as -> -> E. exists [], valid. splits; auto.
      + injection E as Ey E. destruct (IH _ _ _ _ E) as (b & a & -> & H1 & H2 & H3).
        exists (v :: b), a. cbn [flat_map app]. rewrite Ev. cbn [app]. splits; congruence.
    - exfalso. destruct (Hg v v' d') as (-> & E' & _); [rewrite Ev; left; auto|]. congruence. }
  assert (Hin : forall ws w e, In w ws -> close_enough lower unknown w e -> In (w, e) (flat_map f ws)).
  { intros ws w e Hw Hc. apply in_flat_map. exists w. split; [auto|]. rewrite (Hf _ _ Hc). left. auto. }
  destruct l as [|best l].
  - exists None. split; [auto|]. intros w e Hw Hc. specialize (Hin _ _ _ Hw Hc). rewrite <- Hl in Hin. destruct Hin.
  - eexists. split; [reflexivity|]. cbv beta iota.
    destruct (min_by_key_spec l best) as (l1 & l2 & E & H1 & H2).
    rewrite Hl in E. destruct (min_by_key best l) as [v d]. cbn [fst snd] in *.
    destruct (Hcut _ _ _ _ _ E) as (b & a & -> & Eb & Ea & Hc).
    exists d, b, a. splits; auto.
    + intros w e Hw He. specialize (Hin _ _ _ Hw He). rewrite Eb in Hin.
      rewrite Forall_forall in H1. apply (H1 (w, e) Hin).
    + intros w e Hw He. specialize (Hin _ _ _ Hw He). rewrite Ea in Hin.
      rewrite Forall_forall in H2. apply (H2 (w, e) Hin).
Qed.
Print Assumptions C33_suggestion.

Example C33_example :
  levenshtein (lit "kitten") (lit "sitting") = Ok 3 /\
  lsp_levenshtein (lit "port") (lit "prot") = Ok 2 /\
  suggest_similar (fun s => s) (lit "prot") [lit "host"; lit "port"; lit "pr"; lit "pro"]
    = Ok (Some (lit "pro")) /\
  suggest_similar (fun s => s) (lit "x") [lit "host"] = Ok None.
Proof. vm_compute. auto. Qed.

(** ** C38: the word at the cursor *)

(** After a space that is not one byte long, such as U+00A0, the lookup cuts the character. *)
Theorem C38_refuted : exists content pos, get_word_range_at_position content pos = Panic.
Proof. exists (lit "a" ++ [160]%N ++ lit "b"), (mkpos 0 3). vm_compute. reflexivity. Qed.
Print Assumptions C38_refuted.

(** The lookup in full: every text and position fall under this description, and the lookup panics
    exactly when the character that ends the previous word is not one byte long; otherwise the
    word is what stands between that character and the cursor. *)
Theorem C38_exact_partial : forall content pos, exists u w b,
  content = u ++ w ++ b /\ position_to_offset content pos = blen (u ++ w) /\
  forallb (fun c => negb (word_break c)) w = true /\
  (u = [] \/ exists u' z, u = u' ++ [z] /\ word_break z = true) /\
  get_word_range_at_position content pos =
    if existsb (fun c => 1 <? clen c) (firstn 1 (rev u)) then Panic
    else Ok (match w with
             | [] => None
             | _ => Some (w, (offset_to_position content (blen u), pos))
             end).
Proof.
  intros content pos. destruct (boundary_ex content pos) as (a & b & Hc & Ha).
  destruct (break_split a) as (u & w & -> & Hw & Hu).
  rewrite <- app_assoc in Hc. exists u, w, b. splits; auto. eapply word_at_eq; eauto.
Qed.
Print Assumptions C38_exact_partial.

Example C38_example :
  get_word_range_at_position (lit "a {bc d") (mkpos 0 5)
    = Ok (Some (lit "bc", (mkpos 0 3, mkpos 0 5))).
Proof. vm_compute. reflexivity. Qed.

(** ** C44: the conversions offered to extensions agree with the server's *)

(** Offsets to positions counts bytes, so it disagrees, and converting back gives another offset. *)
Theorem C44_columns_refuted : exists a b p,
  host_offset_to_position (a ++ b) (blen a) = Ok (Some p) /\
  p <> offset_to_position (a ++ b) (blen a) /\
  host_position_to_offset (a ++ b) p <> Ok (Some (blen a)).
Proof.
  exists [233%N], (lit "bc"), (mkpos 0 2). splits; [vm_compute; reflexivity| |];
    vm_compute; discriminate.
Qed.
Print Assumptions C44_columns_refuted.

(** An offset inside a character is a panic. *)
Theorem C44_boundary_refuted : exists content offset,
  offset <= blen content /\ host_offset_to_position content offset = Panic.
Proof. exists [233%N], 1. vm_compute. auto. Qed.
Print Assumptions C44_boundary_refuted.

(** The empty last line has no offset. *)
Theorem C44_last_line_refuted : exists content,
  host_position_to_offset content (mkpos 1 0) = Ok None /\
  offset_to_position content (blen content) = mkpos 1 0.
Proof. exists (lit "a" ++ [cLF]). vm_compute. auto. Qed.
Print Assumptions C44_last_line_refuted.

(** Offsets to positions agrees exactly when the line so far is ASCII. *)
Theorem C44_offset_partial : forall a b t, last_line a t -> exists p,
  host_offset_to_position (a ++ b) (blen a) = Ok (Some p) /\
  (p = offset_to_position (a ++ b) (blen a) <-> Forall (fun c => c < 128)%N t).
Proof.
  intros a b t Ht. rewrite (host_offset_eq a b t Ht). eexists. split; [reflexivity|].
  destruct (C29_place a b) as [Hl (u & Hu & Hc)]. rewrite (last_line_unique _ _ _ Hu Ht) in Hc.
  destruct (offset_to_position (a ++ b) (blen a)) as [l c]. cbn [p_line p_char] in *. subst l c.
  split.
  - intros [= E]. clear -E. revert E. induction t as [|c t IH]; [constructor|].
    cbn [blen List.length]. intros E. pose proof (blen_ge t). pose proof (clen_pos c).
    assert (clen c = 1) as Hc by lia. constructor; [|apply IH; lia].
    unfold clen in Hc. destruct (N.ltb_spec c 128), (N.ltb_spec c 2048), (N.ltb_spec c 65536); lia.
  - intros H. rewrite ascii_blen by auto. auto.
Qed.
Print Assumptions C44_offset_partial.

(** Positions to offsets agrees on every line but an empty last one; past the last line there is
    no answer. *)
Theorem C44_position_partial : forall content pos,
  (forall p t r, line_at content (p_line pos) p t r -> t ++ r <> [] ->
     host_position_to_offset content pos = Ok (Some (position_to_offset content pos))) /\
  (lines_before content < p_line pos -> host_position_to_offset content pos = Ok None).
Proof.
  intros content pos. split.
  - intros p t r H Hne. rewrite (host_position_eq _ _ _ _ _ _ H eq_refl).
    destruct (t ++ r); [congruence|auto].
  - intros H. apply host_loop_past. auto.
Qed.
Print Assumptions C44_position_partial.

Example C44_example :
  let content := lit "ab" ++ [cLF] ++ lit "cd" in
  host_offset_to_position content 4 = Ok (Some (mkpos 1 1)) /\
  offset_to_position content 4 = mkpos 1 1 /\
  host_position_to_offset content (mkpos 1 1) = Ok (Some 4).
Proof. vm_compute. auto. Qed.
