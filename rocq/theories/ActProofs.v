(** Proofs about the edits of the language server. *)
From Coq Require Import String.
From Verif Require Import Base BaseProofs TokModel LexModel LexSpec ParseModel ParseSpec TreeModel TreeSpec FmtModel CstModel CstFmtModel WarnModel SchemaModel LspModel LspSpec LspProofs
  EditModel HoverModel ActModel ActSpec.
Local Open Scope nat_scope.

(** ** Positions of the editor *)

Lemma utf16_app a b : utf16_len (a ++ b) = utf16_len a + utf16_len b.
Proof. induction a as [|c a IH]; [reflexivity|]. cbn [app utf16_len]. rewrite IH. lia. Qed.
Lemma column_unique t k a a' : before_column t k a -> before_column t k a' -> a = a'.
Proof.
  intros (b & E & L & N) (b' & E' & L' & N'). revert a' b' t k E E' L L' N N'. induction a as [|x a IH]; intros [|y a'] b' t k E E' L L' N N'; [reflexivity| | |].
  - exfalso. rewrite E in E'. cbn in E'. specialize (N y (a' ++ b') E'). cbn [app utf16_len] in *. lia.
  - exfalso. rewrite E' in E. cbn in E. specialize (N' x (a ++ b) E). cbn [app utf16_len] in *. lia.
  - rewrite E in E'. cbn in E'. injection E' as <- E'. f_equal. cbn [utf16_len] in *. set (w := if (x <? 65536)%N then 1 else 2) in *.
    apply (IH a' b' (a ++ b) (k - w)); auto; try lia; intros c r Hb; [specialize (N c r Hb)|specialize (N' c r Hb)]; cbn [app utf16_len] in *; fold w in N || fold w in N'; lia.
Qed.
Lemma front_line t r t' r' : one_line t -> one_line t' -> (r = [] \/ exists c x, r = c :: x /\ (c = cLF \/ c = cCR)) -> (r' = [] \/ exists c x, r' = c :: x /\ (c = cLF \/ c = cCR)) ->
  t ++ r = t' ++ r' -> t = t' /\ r = r'.
Proof.
  revert t'. induction t as [|c t IH]; intros [|c' t'] [H1 H2] [H1' H2'] Hr Hr' E; cbn in E.
  - auto.
  - exfalso. destruct Hr as [->|(c & x & -> & Hc)]; [discriminate|]. injection E as -> E. destruct Hc as [-> | ->]; [apply H1'|apply H2']; now left.
  - exfalso. destruct Hr' as [->|(c' & x & -> & Hc)]; [discriminate|]. injection E as -> E. destruct Hc as [-> | ->]; [apply H1|apply H2]; now left.
  - injection E as <- E. destruct (IH t') as [-> ->]; auto; split; intros Hi; [apply H1|apply H2|apply H1'|apply H2']; now right.
Qed.
Lemma end_starts e r : line_end e r -> exists c x, e ++ r = c :: x /\ (c = cLF \/ c = cCR).
Proof. intros [->|[->|[-> _]]]; cbn; eauto. Qed.
Lemma end_unique e r e' r' : line_end e r -> line_end e' r' -> e ++ r = e' ++ r' -> e = e' /\ r = r'.
Proof.
  intros [->|[->|[-> H]]] [->|[->|[-> H']]] E; cbn in E; try discriminate E; injection E as E; subst; auto; exfalso; [now apply (H' r)|now apply (H r')].
Qed.
Lemma front_rest r : (r = [] \/ exists e r', r = e ++ r' /\ line_end e r') -> r = [] \/ exists c x, r = c :: x /\ (c = cLF \/ c = cCR).
Proof. intros [->|(e & r' & -> & H)]; [now left|right; now apply end_starts]. Qed.
Lemma front_unique s n k a : in_front s n k a -> forall a', in_front s n k a' -> a = a'.
Proof.
  induction 1 as [t r k a Ht Hr Hc|t e r n k a Ht He Hi IH|t n k Ht]; intros a' H'; inversion H' as [t1 r1 k1 a1 Ht1 Hr1 Hc1 E|t1 e1 r1 n1 k1 a1 Ht1 He1 Hi1 E|t1 n1 k1 Ht1 E]; subst.
  - destruct (front_line t1 r1 t r) as [-> ->]; auto using front_rest. eapply column_unique; eauto.
  - destruct (front_line t1 (e1 ++ r1) t (e ++ r)) as [-> E']; auto using end_starts. destruct (end_unique _ _ _ _ He1 He E') as [-> ->]. f_equal. f_equal. now apply IH.
  - exfalso. destruct (end_starts e r He) as (c & x & E & Hc). rewrite E in Ht1. destruct Ht1 as [H1 H2]. destruct Hc as [-> | ->]; [apply H1|apply H2]; apply in_or_app; right; now left.
  - exfalso. destruct (end_starts e1 r1 He1) as (c & x & E & Hc). rewrite E in Ht. destruct Ht as [H1 H2]. destruct Hc as [-> | ->]; [apply H1|apply H2]; apply in_or_app; right; now left.
  - reflexivity.
Qed.
Lemma applied_unique s e new new' : applied s e new -> applied s e new' -> new = new'.
Proof.
  intros (a & m & b & E & H1 & H2 & ->) (a' & m' & b' & E' & H1' & H2' & ->). pose proof (front_unique _ _ _ _ H1 _ H1') as <-. pose proof (front_unique _ _ _ _ H2 _ H2') as E2.
  apply app_inv_head in E2 as <-. rewrite E in E'. apply app_inv_head in E'. apply app_inv_head in E' as ->. reflexivity.
Qed.

(** ** Lines *)

Lemma no_lone_tail a r : no_lone_cr (a ++ r) -> no_lone_cr r.
Proof. intros H x y ->. apply (H (a ++ x) y). now rewrite app_assoc. Qed.
Lemma no_lone_line t : no_lone_cr t -> ~ In cLF t -> one_line t.
Proof. intros H N. split; [exact N|]. intros Hc. apply in_split in Hc as (a & r & ->). destruct (H a r eq_refl) as (r' & ->). apply N. apply in_or_app. right. right. now left. Qed.
(** The first line and its end. *)
Lemma in_split_first c (s : str) : In c s -> exists a r, s = a ++ c :: r /\ ~ In c a.
Proof.
  induction s as [|x s IH]; intros H; [destruct H|]. destruct (N.eq_dec x c) as [->|Hx]; [exists [], s; split; [reflexivity|intros []]|].
  destruct H as [->|H]; [contradiction|]. destruct (IH H) as (a & r & -> & N). exists (x :: a), r. split; [reflexivity|]. intros [->|Hi]; [now apply Hx|now apply N].
Qed.
Lemma first_line s : no_lone_cr s -> In cLF s -> exists t e r, s = t ++ e ++ r /\ one_line t /\ (e = [cLF] \/ e = [cCR; cLF]).
Proof.
  intros H Hi. apply in_split_first in Hi as (t0 & r & -> & N).
  assert (forall x y, t0 = x ++ cCR :: y -> y = []) as L.
  { intros x y ->. destruct (H x (y ++ cLF :: r)) as (z & E); [now rewrite <- app_assoc|]. destruct y as [|c y]; [reflexivity|]. injection E as -> _. exfalso. apply N. apply in_or_app. right. right. now left. }
  destruct (in_dec N.eq_dec cCR t0) as [Hc|Hc].
  - apply in_split in Hc as (x & y & ->). pose proof (L x y eq_refl) as Ey. subst y. exists x, [cCR; cLF], r. split; [now rewrite <- app_assoc|]. split; [|now right]. split; intros Hx; [apply N; apply in_or_app; now left|].
    apply in_split in Hx as (u & v & ->). specialize (L u (v ++ [cCR])). rewrite <- app_assoc in L. cbn [app] in L. specialize (L eq_refl). destruct v; discriminate.
  - exists t0, [cLF], r. split; [reflexivity|]. split; [now split|now left].
Qed.

(** What [str::lines] gives. *)
Lemma split_first t r : ~ In cLF t -> split_on cLF (t ++ cLF :: r) = t :: split_on cLF r.
Proof.
  induction t as [|c t IH]; intros N; cbn [app split_on]; [now rewrite N.eqb_refl|].
  destruct (N.eqb_spec c cLF) as [->|Hc]; [exfalso; apply N; now left|]. rewrite IH; [reflexivity|]. intros H. apply N. now right.
Qed.
Lemma split_none t : ~ In cLF t -> split_on cLF t = [t].
Proof.
  induction t as [|c t IH]; intros N; cbn [split_on]; [reflexivity|].
  destruct (N.eqb_spec c cLF) as [->|Hc]; [exfalso; apply N; now left|]. rewrite IH; [reflexivity|]. intros H. apply N. now right.
Qed.
Lemma split_some s : split_on cLF s <> [].
Proof. destruct s as [|c s]; cbn [split_on]; [discriminate|]. destruct (c =? cLF)%N; [discriminate|]. destruct (split_on cLF s); discriminate. Qed.
Lemma lines_none t : ~ In cLF t -> str_lines t = match t with [] => [] | _ => [t] end.
Proof. intros N. unfold str_lines. rewrite split_none by exact N. cbn. destruct t; reflexivity. Qed.
Lemma lines_first t r : ~ In cLF t -> str_lines (t ++ cLF :: r) = chomp_cr t :: str_lines r.
Proof.
  intros N. unfold str_lines. rewrite split_first by exact N. cbn [rev]. pose proof (split_some r) as S. destruct (rev (split_on cLF r)) as [|l m] eqn:E.
  { exfalso. apply S. rewrite <- (rev_involutive (split_on cLF r)), E. reflexivity. }
  cbn [app]. destruct l as [|c l]; rewrite rev_app_distr; cbn [rev app map]; reflexivity.
Qed.
Lemma chomp_plain t : ~ In cCR t -> chomp_cr t = t.
Proof.
  intros N. unfold chomp_cr. destruct (rev t) as [|c m] eqn:E; [reflexivity|]. destruct (N.eqb_spec c cCR) as [->|Hc]; [|reflexivity].
  exfalso. apply N. rewrite in_rev, E. now left.
Qed.
Lemma chomp_end t : chomp_cr (t ++ [cCR]) = t.
Proof. unfold chomp_cr. rewrite rev_app_distr. cbn [rev app]. rewrite N.eqb_refl. apply rev_involutive. Qed.
Lemma lines_line t e r : one_line t -> e = [cLF] \/ e = [cCR; cLF] -> str_lines (t ++ e ++ r) = t :: str_lines r.
Proof.
  intros [N1 N2] [-> | ->].
  - cbn [app]. rewrite lines_first by exact N1. now rewrite chomp_plain.
  - replace (t ++ [cCR; cLF] ++ r) with ((t ++ [cCR]) ++ cLF :: r) by (now rewrite <- app_assoc). rewrite lines_first; [now rewrite chomp_end|].
    intros H. apply in_app_or in H as [H|[H|[]]]; [contradiction|discriminate].
Qed.
Lemma lines_some s : s <> [] -> str_lines s <> [].
Proof.
  intros H. destruct (in_dec N.eq_dec cLF s) as [Hi|Hi].
  - apply in_split_first in Hi as (t & r & -> & N). rewrite lines_first by exact N. discriminate.
  - rewrite lines_none by exact Hi. now destruct s.
Qed.
Lemma line_end_of e r : e = [cLF] \/ e = [cCR; cLF] -> line_end e r.
Proof. intros [-> | ->]; [now left|right; now left]. Qed.
Lemma utf16_le t : utf16_len t <= blen t.
Proof. induction t as [|c t IH]; cbn [utf16_len blen]; [lia|]. unfold clen. destruct (N.ltb_spec c 65536), (N.ltb_spec c 128), (N.ltb_spec c 2048); lia. Qed.
Lemma column_all t k : utf16_len t <= k -> before_column t k t.
Proof. intros H. exists []. rewrite app_nil_r. splits; auto. discriminate. Qed.

(** The end of the range of the formatting edit: the end of the text, in front of a line break there. *)
Lemma last_place s : no_lone_cr s -> exists a tl, s = a ++ tl /\ final_break s tl /\
  in_front s (length (str_lines s) - 1) (match rev (str_lines s) with l :: _ => blen l | [] => 0 end) a.
Proof.
  remember (length s) as n eqn:En. assert (length s <= n) as L by lia. clear En. revert s L. induction n as [|n IH]; intros s L H.
  - destruct s; [|cbn in L; lia]. exists [], []. splits; [reflexivity|left; split; [reflexivity|intros [|? ?]; discriminate]|]. cbn.
    apply (if_here [] [] 0 []); [split; intros []|now left|apply column_all; cbn; lia].
  - destruct (in_dec N.eq_dec cLF s) as [Hi|Hi].
    + destruct (first_line s H Hi) as (t & e & r & -> & Ht & He). rewrite lines_line by auto. destruct r as [|c r].
      * rewrite app_nil_r in *. exists t, e. splits; [reflexivity| |].
        -- destruct He as [-> | ->]; [right; right|right; left]; split; eauto. exists t. split; [reflexivity|]. intros y ->. apply (proj2 Ht), in_or_app. right. now left.
        -- cbn. apply (if_here t e); [exact Ht|right; exists e, []; rewrite app_nil_r; split; [reflexivity|now apply line_end_of]|]. apply column_all, utf16_le.
      * destruct (IH (c :: r)) as (a & tl & E & F & P).
        { rewrite !app_length in L. destruct He as [-> | ->]; cbn in *; lia. }
        { apply (no_lone_tail (t ++ e)). now rewrite <- app_assoc. }
        assert (str_lines (c :: r) <> []) as Sn by (apply lines_some; discriminate).
        exists (t ++ e ++ a), tl. splits.
        -- rewrite E, <- !app_assoc. reflexivity.
        -- destruct F as [[-> F]|[[-> (x & F)]|[-> (x & F & G)]]].
           ++ left. split; [reflexivity|]. intros x Hx. rewrite app_nil_r in E. destruct (exists_last (l := c :: r)) as (z & w & Ez); [discriminate|]. rewrite Ez in Hx, F.
              rewrite !app_assoc in Hx. apply app_inj_tail in Hx as [_ ->]. now apply (F z).
           ++ right. left. split; [reflexivity|]. exists (t ++ e ++ x). rewrite F, <- !app_assoc. reflexivity.
           ++ right. right. split; [reflexivity|]. exists (t ++ e ++ x). rewrite F, <- !app_assoc. split; [reflexivity|]. intros y Hy. destruct x as [|d x] using rev_ind.
              ** rewrite app_nil_r in Hy. destruct He as [-> | ->]; [apply app_inj_tail in Hy as [_ Hy]; discriminate|]. change [cCR; cLF] with ([cCR] ++ [cLF]) in Hy. rewrite app_assoc in Hy. apply app_inj_tail in Hy as [_ Hy]. discriminate.
              ** rewrite !app_assoc in Hy. apply app_inj_tail in Hy as [_ ->]. now apply (G x).
        -- cbn [length rev]. destruct (str_lines (c :: r)) as [|l ls] eqn:El; [contradiction|]. replace (S (length (l :: ls)) - 1) with (S (length (l :: ls) - 1)) by (cbn; lia).
           destruct (rev (l :: ls)) as [|w ws] eqn:Ew; [apply (f_equal (@length _)) in Ew; rewrite rev_length in Ew; discriminate|]. cbn [app].
           apply if_next; [exact Ht|now apply line_end_of|exact P].
    + rewrite lines_none by exact Hi. exists s, []. rewrite app_nil_r. splits; [reflexivity|left; split; [reflexivity|]|].
      * intros x ->. apply Hi, in_or_app. right. now left.
      * rewrite <- (app_nil_r s) at 1. destruct s as [|c s]; [apply (if_here [] [] 0 []); [split; intros []|now left|apply column_all; cbn; lia]|].
        cbn [length Nat.sub rev app]. apply (if_here (c :: s) []); [now apply no_lone_line|now left|apply column_all, utf16_le].
Qed.

(** ** Places of prefixes *)

Lemma prefix_line a b t e r : one_line a -> e <> [] -> (forall c x, e = c :: x -> c = cLF \/ c = cCR) -> a ++ b = t ++ e ++ r -> exists b0, t = a ++ b0 /\ b = b0 ++ e ++ r.
Proof.
  intros Ha He Hc. revert t. induction a as [|x a IH]; intros t E; [exists t; auto|].
  assert (one_line a) as Ha' by (split; intros H; [apply (proj1 Ha)|apply (proj2 Ha)]; now right).
  destruct t as [|y t].
  - exfalso. destruct e as [|c e]; [contradiction|]. injection E as -> E. destruct (Hc c e eq_refl) as [-> | ->]; [apply (proj1 Ha)|apply (proj2 Ha)]; now left.
  - injection E as <- E. destruct (IH Ha' t E) as (b0 & -> & ->). now exists b0.
Qed.
Lemma last_line_tail x r t : last_line (x ++ cLF :: r) t -> last_line r t.
Proof.
  intros H. destruct (last_line_ex r) as (w & Hw). replace t with w; [exact Hw|]. eapply last_line_unique; [|exact H]. destruct Hw as [N [->|(p & ->)]]; split; auto; right.
  - eauto.
  - exists (x ++ cLF :: p). now rewrite <- app_assoc.
Qed.
Lemma no_line_feed a t : ~ In cLF a -> last_line a t -> t = a.
Proof. intros N H. eapply last_line_unique; [exact H|]. split; [exact N|now left]. Qed.
Lemma column_prefix a b : before_column (a ++ b) (utf16_len a) a.
Proof. exists b. splits; [reflexivity|lia|]. intros c r _. rewrite utf16_app. cbn. destruct (c <? 65536)%N; lia. Qed.
Lemma front_of_prefix a b t k : no_lone_cr (a ++ b) -> last_line a t -> ~ In cCR t -> k = utf16_len t -> in_front (a ++ b) (lines_before a) k a.
Proof.
  intros H L C ->. remember (length a) as n eqn:En. assert (length a <= n) as Ln by lia. clear En. revert a t H L C Ln. induction n as [n IH] using lt_wf_ind. intros a t H L C Ln.
  destruct (in_dec N.eq_dec cLF a) as [Hi|Hi].
  - assert (no_lone_cr a) as Ha.
    { intros x y E. destruct (H x (y ++ b)) as (z & Ez); [now rewrite E, <- app_assoc|]. destruct y as [|c y]; [|injection Ez as -> _; eauto].
      exfalso. destruct L as [N [->|(p & Ep)]].
      - apply C. rewrite E. apply in_or_app. right. now left.
      - destruct t as [|c t _] using rev_ind; [rewrite E in Ep; apply app_inj_tail in Ep as [_ Ep]; discriminate|].
        rewrite E in Ep. change (x ++ [cCR] = p ++ (cLF :: t) ++ [c]) in Ep. rewrite app_assoc in Ep. apply app_inj_tail in Ep as [_ <-]. apply C, in_or_app. right. now left. }
    destruct (first_line a Ha Hi) as (u & e & r & -> & Hu & He). rewrite <- !app_assoc.
    replace (lines_before (u ++ e ++ r)) with (S (lines_before r)).
    2:{ unfold lines_before. rewrite !count_occ_app. rewrite (proj1 (count_occ_not_In N.eq_dec u cLF) (proj1 Hu)). destruct He as [-> | ->]; reflexivity. }
    apply if_next; [exact Hu|now apply line_end_of|]. apply (IH (length r)) with (t := t); auto.
    + rewrite !app_length in Ln. destruct He as [-> | ->]; cbn in Ln; lia.
    + apply (no_lone_tail (u ++ e)). now rewrite <- !app_assoc in *.
    + destruct He as [-> | ->]; [apply (last_line_tail u); exact L|]. apply (last_line_tail (u ++ [cCR])). now rewrite <- app_assoc.
  - rewrite (no_line_feed a t Hi L) in *. replace (lines_before a) with 0 by (symmetry; now apply count_occ_not_In).
    destruct (in_dec N.eq_dec cLF (a ++ b)) as [Hb|Hb].
    + destruct (first_line _ H Hb) as (u & e & r & E & Hu & He). destruct (prefix_line a b u e r) as (b0 & -> & ->); auto.
      { now split. } { destruct He as [-> | ->]; discriminate. } { destruct He as [-> | ->]; intros c x [= <- _]; auto. }
      rewrite app_assoc. apply if_here; [exact Hu|right; exists e, r; split; [reflexivity|now apply line_end_of]|apply column_prefix].
    + rewrite <- (app_nil_r (a ++ b)). apply if_here; [now apply no_lone_line|now left|apply column_prefix].
Qed.
Lemma bmp_width t : bmp t -> utf16_len t = length t.
Proof. apply utf16_bmp. Qed.
(** The start of a line. *)
Lemma line_start_front s n p t r : no_lone_cr s -> line_at s n p t r -> in_front s n 0 p.
Proof.
  intros H (-> & <- & Hp & Ht & Hr). apply (front_of_prefix p (t ++ r) []); auto.
  split; [intros []|]. destruct Hp as [->|(p' & ->)]; [now left|right; now exists p'].
Qed.
