(** C95: what the Python parser returns for any source. *)
From Coq Require Import String.
From Verif Require Import Base BaseProofs TokModel LexModel ParseModel ParseSpec PropParse TreeModel TreeSpec FmtModel WriteSpec LexRunProofs PropWrite PropPyRound PyModel PySpec PyProofs PyParseModel PyParseProofs PyNeatSpec PyNeatProofs PropPy.
Notation length := List.length.

(** Whatever the source: in the tree that the Python parser returns no object has a name twice, no key is a heredoc, a sequence or an object, no bare
    scalar stands behind a tag, and in the document a name is repeated for objects only. Attributes, whose names may be repeated, come
    only from sources with [>]. *)
Theorem C95_python_neat : forall isupper int16, (forall c, isupper c = true -> (65 <= c)%N) ->
  forall src fuel l, py_parse isupper int16 fuel src = VOk l -> neat_document (In cGT src) l.
Proof. intros isupper int16 U src fuel l. now apply parse_neat. Qed.
Print Assumptions C95_python_neat.

(** Hence without [>] the names of every object in the tree are different. *)
Inductive inside : pyval -> pyval -> Prop :=
| in_self v : inside v v
| in_item v w t l : In w l -> inside v w -> inside v (PV t (PPSeq l))
| in_entry v k w t l : In (k, w) l -> inside v w -> inside v (PV t (PPObj l)).
Corollary C95_names_distinct : forall isupper int16, (forall c, isupper c = true -> (65 <= c)%N) ->
  forall src fuel l, ~ In cGT src -> py_parse isupper int16 fuel src = VOk l ->
  forall k v t es, In (k, v) l -> inside (PV t (PPObj es)) v -> NoDup (names es).
Proof.
  intros isupper int16 U src fuel l G E k v t es Hv Hi. destruct (C95_python_neat _ _ U _ _ _ E) as [N _]. destruct (N _ _ Hv) as (_ & _ & Nv). clear N Hv E.
  remember (PV t (PPObj es)) as o eqn:Eo. induction Hi as [v|v w t' l' Hw _ IH|v k' w t' l' Hw _ IH].
  - subst v. inversion Nv; subst; [assumption|contradiction].
  - apply IH; auto. inversion Nv; subst. auto.
  - apply IH; auto. inversion Nv as [| | |? ? He _|? A]; subst; [|contradiction]. now apply He in Hw.
Qed.

Definition c95_source : str := lit "a.b 1
a.c {x @t""q"", y (1 {k v})}
@note <<E
text
E
""a.b c"" @".
Example C95_example : ~ In cGT c95_source /\ exists l, py_parse is_upper int16_ascii 60 c95_source = VOk l /\ names l = [lit "a"; lit "a"; lit "@note"; lit "a.b c"] /\
  exists k v es, In (k, v) l /\ inside (PV None (PPObj es)) v /\ names es = [lit "x"; lit "y"].
Proof.
  split; [intros H; apply (in_split cGT) in H; destruct H as (a & b & H); repeat (destruct a as [|? a]; [discriminate H|]; injection H as _ H); destruct a; discriminate H|].
  eexists. split; [vm_compute; reflexivity|]. split; [reflexivity|].
  do 3 eexists. split; [right; left; reflexivity|]. split; [|shelve]. eapply in_entry; [left; reflexivity|]. apply in_self.
  Unshelve. reflexivity.
Qed.
(** Names twice, at the root and in an object, and a name that is a value and an object, are refused. *)
Example C95_refused : Forall (fun s => py_parse is_upper int16_ascii 60 s = VErr)
  [lit "a 1
a 2"; lit "k {a 1, a 2}"; lit "k {a 1, ""a"" 2}"; lit "a 1
a.b 2"; lit "a.b 1
a 2"; lit "a.b 1
c 1
a.d 2"; lit "(1) 2"; lit "a @t\x"].
Proof. repeat constructor. Qed.
(** A document in braces is one entry with a unit as key. *)
Theorem C95_braces : forall isupper int16 rest fuel l, py_parse isupper int16 fuel (cLB :: rest) = VOk l -> exists es, l = [(PV None PPNone, PV None (PPObj es))].
Proof.
  intros isupper int16 rest fuel l E. unfold py_parse in E. destruct (fetch isupper int16 (cLB :: rest) (cLB :: rest)) as [[t r]| | |] eqn:F; try discriminate E.
  assert (pt_kind t = KLBrace) as K by (cbn in F; injection F as <- _; reflexivity).
  set (st := mkpst t None r) in *. assert (Sk : forall f x, skip_commas isupper int16 (cLB :: rest) f st = VOk x -> x = (tt, st)).
  { intros [|f] x; cbn [skip_commas]; [discriminate|]. unfold pbind, check. cbn [st_cur st]. rewrite K. intros [= <-]. reflexivity. }
  unfold parse_doc, pbind at 1 in E. destruct (skip_commas isupper int16 (cLB :: rest) fuel st) as [x| | |] eqn:Es; try discriminate E. rewrite (Sk _ _ Es) in E.
  unfold pbind at 1, check at 1 in E. cbn [st_cur st] in E. rewrite K in E. cbn [existsb kind_eqb orb] in E.
  unfold pbind in E. destruct (parse_object _ _ _ _ _) as [[es st1]| | |]; try discriminate E. destruct (skip_commas _ _ _ _ st1) as [[[] st2]| | |]; try discriminate E.
  unfold check in E. destruct (existsb _ _).
  - injection E as <-. now exists es.
  - destruct (skip_all _ _ _ _ _) as [[]| | |]; discriminate E.
Qed.
Example C95_braces_example : py_parse is_upper int16_ascii 60 (lit "{a 1}, ") = VOk [(py_unit, PV None (PPObj [(bare_key (lit "a"), bare_key (lit "1"))]))].
Proof. reflexivity. Qed.

(** With [>] a name can be there twice: attributes are not checked. *)
Theorem C95_attributes_refuted : exists src l k v t es, py_parse is_upper int16_ascii 60 src = VOk l /\ In (k, v) l /\ inside (PV t (PPObj es)) v /\ ~ NoDup (names es).
Proof.
  exists (lit "a x>1 x>2"). do 5 eexists. split; [vm_compute; reflexivity|]. split; [left; reflexivity|]. split; [apply in_self|].
  cbn. intros N. inversion N as [|? ? H]. apply H. now left.
Qed.

(** Python does not ask for anything between two entries: what Rust refuses as too many atoms on a line is two entries (parser.py 160-163, 578-585). *)
Theorem C95_line_refuted : exists src e l, tree src (inr e) /\ py_parse is_upper int16_ascii 60 src = VOk l /\ names l = [lit "a"; lit "b"].
Proof. exists (lit "a 1 b 2"). do 2 eexists. split; [eexists; split; [apply run_parses; vm_compute; reflexivity|vm_compute; reflexivity]|]. split; [vm_compute; reflexivity|]. reflexivity. Qed.
