(** The text that the serializer writes for plain values. *)
From Coq Require Import String.
From Verif Require Import Base BaseProofs TokModel TreeModel FmtModel WriteSpec WriteProofs SerdeModel SerdeSpec.
Local Open Scope nat_scope.

Fixpoint glue (sep : str) (first : bool) (l : list str) : str :=
  match l with [] => [] | t :: r => (if first then [] else sep) ++ t ++ glue sep false r end.

Definition key_str (k : val) : str := match ser_key k with Some s => s | None => [] end.
Definition field_sep (root : bool) : str := if root then [cLF; cLF] else [cCOMMA; cSP].
Definition wrap (root : bool) (l : list str) : str :=
  if root then glue (field_sep true) true l ++ (match l with [] => [] | _ => [cLF] end)
  else cLB :: glue (field_sep false) true l ++ [cRB].

Fixpoint vtext (o : opts) (root : bool) (v : val) : str :=
  match v with
  | DBool b => show_bool b
  | DInt z => show_z z
  | DChar c => FmtModel.scalar_text o false [c]
  | DStr s => FmtModel.scalar_text o false s
  | DBytes l => bytes_text l
  | DUnit | DNone => [cAT]
  | DSome v => vtext o root v
  | DSeq l => cLP :: glue [cSP] true (map (vtext o false) l) ++ [cRP]
  | DMap l => wrap root (map (fun p => key_text (key_str (fst p)) ++ cSP :: vtext o false (snd p)) l)
  | DStruct l => wrap root (map (fun p => key_text (fst p) ++ cSP :: vtext o false (snd p)) l)
  | _ => []
  end.

Definition ready (h : nat) (w : writer) : Prop := flat w /\ w_skip w = false /\ w_quote w = false /\ o_heredoc (w_opts w) = h.

Definition ser_ok (h : nat) (v : val) : Prop := forall w root, ready h w -> (root = true -> w_stack w = []) ->
  exists w', ser v (w, root) = Some (w', false) /\ w_out w' = w_out w ++ gap w ++ vtext (w_opts w) root v /\
    w_stack w' = seq_not_first (w_stack w) /\ w_opts w' = w_opts w /\ w_skip w' = false /\ w_quote w' = false.

Fixpoint ser_items (l : list val) (s : sstate) : option sstate :=
  match l with [] => Some s | v :: r => match ser v s with Some s1 => ser_items r s1 | None => None end end.
Fixpoint ser_fields (l : list (str * val)) (s : sstate) : option sstate :=
  match l with
  | [] => Some s
  | (k, v) :: r => match ser v (field_key k (fst s), snd s) with Some s1 => ser_fields r s1 | None => None end
  end.
Fixpoint ser_pairs (l : list (val * val)) (s : sstate) : option sstate :=
  match l with
  | [] => Some s
  | (k, v) :: r =>
    match ser_key k with
    | Some t => match ser v (field_key t (fst s), snd s) with Some s1 => ser_pairs r s1 | None => None end
    | None => None
    end
  end.
Definition ending (f : writer -> writer) (o : option sstate) : option sstate := match o with Some (w, b) => Some (f w, b) | None => None end.

Lemma ser_seq l s : ser (DSeq l) s = ending end_seq (ser_items l (begin_seq (fst s), false)).
Proof. reflexivity. Qed.
Lemma ser_map l s : ser (DMap l) s = ending end_struct (ser_pairs l (begin_struct (snd s) false (fst s), false)).
Proof. reflexivity. Qed.
Lemma ser_struct l s : ser (DStruct l) s = ending end_struct (ser_fields l (begin_struct (snd s) false (fst s), false)).
Proof. reflexivity. Qed.

Definition items_ok (h : nat) (l : list val) : Prop := forall w first r, ready h w -> w_stack w = CSeq first true :: r ->
  exists w' first', ser_items l (w, false) = Some (w', false) /\ w_out w' = w_out w ++ glue [cSP] first (map (vtext (w_opts w) false) l) /\
    w_stack w' = CSeq first' true :: r /\ w_opts w' = w_opts w /\ w_skip w' = false /\ w_quote w' = false.

Definition fields_ok (h : nat) (l : list (str * val)) : Prop := forall w first root commas brace r, ready h w ->
  w_stack w = CStruct first root false (negb root) commas brace :: r -> (root = true -> r = []) ->
  exists w' commas', ser_fields l (w, false) = Some (w', false) /\
    w_out w' = w_out w ++ glue (field_sep root) first (map (fun p => key_text (fst p) ++ cSP :: vtext (w_opts w) false (snd p)) l) /\
    w_stack w' = CStruct (match l with [] => first | _ => false end) root false (negb root) commas' brace :: r /\
    w_opts w' = w_opts w /\ w_skip w' = false /\ w_quote w' = false.

Definition pairs_ok (h : nat) (l : list (val * val)) : Prop := forall w first root commas brace r, ready h w ->
  w_stack w = CStruct first root false (negb root) commas brace :: r -> (root = true -> r = []) ->
  exists w' commas', ser_pairs l (w, false) = Some (w', false) /\
    w_out w' = w_out w ++ glue (field_sep root) first (map (fun p => key_text (key_str (fst p)) ++ cSP :: vtext (w_opts w) false (snd p)) l) /\
    w_stack w' = CStruct (match l with [] => first | _ => false end) root false (negb root) commas' brace :: r /\
    w_opts w' = w_opts w /\ w_skip w' = false /\ w_quote w' = false.

Lemma field_key_text k w first root commas brace r : w_stack w = CStruct first root false (negb root) commas brace :: r -> (root = true -> r = []) ->
  exists commas', field_key k w = mkw (w_out w ++ (if first then [] else field_sep root) ++ key_text k ++ [cSP])
    (CStruct false root false (negb root) commas' brace :: r) (w_opts w) (w_skip w) (w_quote w).
Proof.
  intros Hs Hr. unfold field_key, field_key_raw. rewrite Hs. destruct root; cbn [negb andb orb field_sep].
  - specialize (Hr eq_refl). subst r. rewrite andb_false_r. destruct first; cbn [negb].
    + exists commas. rewrite Hs. unfold put, set_stack. cbn. reflexivity.
    + exists commas. unfold newline_indent, indent_text, indent_depth, put, set_stack. cbn. rewrite Hs. cbn. f_equal. now rewrite <- !app_assoc.
  - destruct first; cbn [negb].
    + exists commas. rewrite Hs. unfold put, set_stack. cbn. reflexivity.
    + eexists. unfold put, set_stack. cbn. f_equal. now rewrite <- !app_assoc.
Qed.

Lemma before_ready w : flat w -> w_skip w = false -> before_value w = mkw (w_out w ++ gap w) (seq_not_first (w_stack w)) (w_opts w) false (w_quote w).
Proof. intros H _. now apply before_value_eq. Qed.

Lemma ser_all h : (forall v, plain h v -> ser_ok h v) /\ (forall l, plain_all h l -> items_ok h l) /\
  (forall l, plain_pairs h l -> pairs_ok h l) /\ (forall l, plain_fields h l -> fields_ok h l).
Proof.
  assert (Hleaf : forall v f, (forall s, ser v s = unrooted f s) ->
    (forall w root, ready h w -> f w = mkw (w_out w ++ gap w ++ vtext (w_opts w) root v) (seq_not_first (w_stack w)) (w_opts w) false false) -> ser_ok h v).
  { intros v f Hv Hf w root Hw _. rewrite Hv. unfold unrooted. cbn [fst]. rewrite (Hf _ root Hw). eexists. splits; reflexivity. }
  assert (Hplain : forall v t, (forall s, ser v s = unrooted (write_plain t) s) -> (forall o root, vtext o root v = t) -> ser_ok h v).
  { intros v t Hv Ht. apply (Hleaf _ _ Hv). intros w root (H1 & H2 & H3 & H4). unfold write_plain. rewrite before_ready by assumption. unfold put. cbn. rewrite Ht, H3, <- app_assoc. reflexivity. }
  assert (Hstr : forall v t, (forall s, ser v s = unrooted (write_string t) s) -> (forall o root, vtext o root v = FmtModel.scalar_text o false t) -> ser_ok h v).
  { intros v t Hv Ht. apply (Hleaf _ _ Hv). intros w root (H1 & H2 & H3 & H4). unfold write_string. rewrite before_ready by assumption. unfold put, set_flags. cbn. rewrite Ht, H3, <- app_assoc. reflexivity. }
  apply plain_ind4.
  - intros b. now apply Hplain with (t := show_bool b).
  - intros z _. now apply Hplain with (t := show_z z).
  - intros c _. now apply Hstr with (t := [c]).
  - intros s _ _. now apply Hstr with (t := s).
  - intros l _. now apply Hplain with (t := bytes_text l).
  - now apply Hplain with (t := [cAT]).
  - now apply Hplain with (t := [cAT]).
  - intros v _ IH w root Hw Hr. destruct (IH w root Hw Hr) as (w' & E & H). exists w'. split; [exact E|exact H].
  - intros l _ IH w root Hw Hr. pose proof Hw as (H1 & H2 & H3 & H4). rewrite ser_seq. cbn [fst]. unfold begin_seq. rewrite before_ready by assumption.
    edestruct (IH (push_ctx (CSeq true true) (put [cLP] (mkw (w_out w ++ gap w) (seq_not_first (w_stack w)) (w_opts w) false (w_quote w)))))
      as (w' & first' & E & Ho & Hst & Hop & Hsk & Hq); [|reflexivity|].
    { unfold ready, push_ctx, put, set_stack, flat. cbn. auto. }
    unfold sstate in E |- *. rewrite E. cbn [ending]. unfold end_seq. rewrite Hst. rewrite !andb_false_r. cbn [negb andb].
    eexists. split; [reflexivity|]. unfold put, set_stack. cbn. rewrite Ho, Hop, Hsk, Hq. cbn. splits; try reflexivity.
    rewrite <- !app_assoc. reflexivity.
  - intros l _ IH w root Hw Hr. pose proof Hw as (H1 & H2 & H3 & H4). rewrite ser_map. cbn [fst snd]. unfold begin_struct. rewrite before_ready by assumption.
    destruct root.
    + specialize (Hr eq_refl).
      edestruct (IH (push_ctx (CStruct true true false false [] None) (mkw (w_out w ++ gap w) (seq_not_first (w_stack w)) (w_opts w) false (w_quote w))) true true)
        as (w' & commas' & E & Ho & Hst & Hop & Hsk & Hq); [| |intros _|].
      { unfold ready, push_ctx, put, set_stack, flat. cbn. auto. }
      { unfold push_ctx, set_stack. cbn. rewrite Hr. reflexivity. }
      { reflexivity. }
      unfold sstate in E |- *. rewrite E. cbn [ending]. unfold end_struct. rewrite Hst. eexists. split; [reflexivity|].
      destruct l as [|p l]; cbn; rewrite Ho, Hop, Hsk, Hq, Hr; cbn; splits; try reflexivity; rewrite <- !app_assoc; reflexivity.
    + edestruct (IH (push_ctx (CStruct true false false true [] (Some (List.length (w_out (put [cLB] (mkw (w_out w ++ gap w) (seq_not_first (w_stack w)) (w_opts w) false (w_quote w)))))))
          (put [cLB] (mkw (w_out w ++ gap w) (seq_not_first (w_stack w)) (w_opts w) false (w_quote w)))) true false)
        as (w' & commas' & E & Ho & Hst & Hop & Hsk & Hq); [|reflexivity|discriminate|].
      { unfold ready, push_ctx, put, set_stack, flat. cbn. auto. }
      unfold sstate in E |- *. rewrite E. cbn [ending]. unfold end_struct. rewrite Hst. eexists. split; [reflexivity|].
      cbn [negb orb andb]. rewrite andb_false_r. unfold put, set_stack. cbn. rewrite Ho, Hop, Hsk, Hq; cbn; splits; try reflexivity; rewrite <- !app_assoc; reflexivity.
  - intros l _ IH w root Hw Hr. pose proof Hw as (H1 & H2 & H3 & H4). rewrite ser_struct. cbn [fst snd]. unfold begin_struct. rewrite before_ready by assumption.
    destruct root.
    + specialize (Hr eq_refl).
      edestruct (IH (push_ctx (CStruct true true false false [] None) (mkw (w_out w ++ gap w) (seq_not_first (w_stack w)) (w_opts w) false (w_quote w))) true true)
        as (w' & commas' & E & Ho & Hst & Hop & Hsk & Hq); [| |intros _|].
      { unfold ready, push_ctx, put, set_stack, flat. cbn. auto. }
      { unfold push_ctx, set_stack. cbn. rewrite Hr. reflexivity. }
      { reflexivity. }
      unfold sstate in E |- *. rewrite E. cbn [ending]. unfold end_struct. rewrite Hst. eexists. split; [reflexivity|].
      destruct l as [|p l]; cbn; rewrite Ho, Hop, Hsk, Hq, Hr; cbn; splits; try reflexivity; rewrite <- !app_assoc; reflexivity.
    + edestruct (IH (push_ctx (CStruct true false false true [] (Some (List.length (w_out (put [cLB] (mkw (w_out w ++ gap w) (seq_not_first (w_stack w)) (w_opts w) false (w_quote w)))))))
          (put [cLB] (mkw (w_out w ++ gap w) (seq_not_first (w_stack w)) (w_opts w) false (w_quote w)))) true false)
        as (w' & commas' & E & Ho & Hst & Hop & Hsk & Hq); [|reflexivity|discriminate|].
      { unfold ready, push_ctx, put, set_stack, flat. cbn. auto. }
      unfold sstate in E |- *. rewrite E. cbn [ending]. unfold end_struct. rewrite Hst. eexists. split; [reflexivity|].
      cbn [negb orb andb]. rewrite andb_false_r. unfold put, set_stack. cbn. rewrite Ho, Hop, Hsk, Hq; cbn; splits; try reflexivity; rewrite <- !app_assoc; reflexivity.
  - intros w first r Hw Hs. exists w, first. pose proof Hw as (H1 & H2 & H3 & H4). cbn. rewrite app_nil_r. splits; auto.
  - intros v l _ IHv _ IHl w first r Hw Hs. cbn [ser_items]. pose proof Hw as (H1 & H2 & H3 & H4).
    destruct (IHv w false Hw) as (w1 & E1 & Ho1 & Hst1 & Hop1 & Hsk1 & Hq1); [discriminate|]. rewrite E1.
    edestruct (IHl w1 false r) as (w2 & first2 & E2 & Ho2 & Hst2 & Hop2 & Hsk2 & Hq2).
    { unfold ready, flat. rewrite Hst1, Hs, Hop1. cbn. auto. } { now rewrite Hst1, Hs. }
    exists w2, first2. splits; auto; [|congruence]. rewrite Ho2, Ho1, Hop1. cbn [map glue]. unfold gap. rewrite Hs, H2. destruct first; rewrite <- !app_assoc; reflexivity.
  - intros w first root commas brace r Hw Hs Hr. exists w, commas. pose proof Hw as (H1 & H2 & H3 & H4). cbn. rewrite app_nil_r. splits; auto.
  - intros k s v l Hk _ _ IHv _ IHl w first root commas brace r Hw Hs Hr. pose proof Hw as (H1 & H2 & H3 & H4). cbn [ser_pairs fst snd]. rewrite Hk.
    destruct (field_key_text s w first root commas brace r Hs Hr) as (c1 & Ek). rewrite Ek.
    edestruct (IHv (mkw (w_out w ++ (if first then [] else field_sep root) ++ key_text s ++ [cSP]) (CStruct false root false (negb root) c1 brace :: r) (w_opts w) (w_skip w) (w_quote w)) false)
      as (w1 & E1 & Ho1 & Hst1 & Hop1 & Hsk1 & Hq1); [|discriminate|]. { unfold ready, flat. cbn. auto. }
    unfold sstate in E1 |- *. rewrite E1.
    edestruct (IHl w1 false root c1 brace r) as (w2 & c2 & E2 & Ho2 & Hst2 & Hop2 & Hsk2 & Hq2); auto.
    { unfold ready, flat. rewrite Hst1, Hop1. cbn. auto. }
    exists w2, c2. cbn in Hop1. splits; auto; try congruence; [|now destruct l; rewrite Hst2].
    rewrite Ho2, Ho1. cbn [map glue w_out w_opts fst snd]. unfold gap, key_str. rewrite Hk. cbn. rewrite H2, Hop1. cbn. rewrite <- !app_assoc. reflexivity.
  - intros w first root commas brace r Hw Hs Hr. exists w, commas. pose proof Hw as (H1 & H2 & H3 & H4). cbn. rewrite app_nil_r. splits; auto.
  - intros s v l _ _ IHv _ IHl w first root commas brace r Hw Hs Hr. pose proof Hw as (H1 & H2 & H3 & H4). cbn [ser_fields fst snd].
    destruct (field_key_text s w first root commas brace r Hs Hr) as (c1 & Ek). rewrite Ek.
    edestruct (IHv (mkw (w_out w ++ (if first then [] else field_sep root) ++ key_text s ++ [cSP]) (CStruct false root false (negb root) c1 brace :: r) (w_opts w) (w_skip w) (w_quote w)) false)
      as (w1 & E1 & Ho1 & Hst1 & Hop1 & Hsk1 & Hq1); [|discriminate|]. { unfold ready, flat. cbn. auto. }
    unfold sstate in E1 |- *. rewrite E1.
    edestruct (IHl w1 false root c1 brace r) as (w2 & c2 & E2 & Ho2 & Hst2 & Hop2 & Hsk2 & Hq2); auto.
    { unfold ready, flat. rewrite Hst1, Hop1. cbn. auto. }
    exists w2, c2. cbn in Hop1. splits; auto; try congruence; [|now destruct l; rewrite Hst2].
    rewrite Ho2, Ho1. cbn [map glue w_out w_opts fst snd]. unfold gap. cbn. rewrite H2, Hop1. cbn. rewrite <- !app_assoc. reflexivity.
Qed.
