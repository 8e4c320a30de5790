(** Property C55: the editor's warnings. *)
From Coq Require Import String.
From Verif Require Import Base BaseProofs TokModel CstModel CstFmtModel FmtModel HiModel ParseModel ParseSpec ParseProofs PropParse WarnModel WarnSpec WarnProofs.
Local Open Scope nat_scope.

(** ** C55: the warnings are where they belong

    For every tree: a key is marked as a duplicate if and only if an earlier entry of the same document or object has a
    key of the same text (as the tree's accessors give it), and the range is the key's; an object is marked as having
    both kinds of separators if and only if it has a comma and a line end of its own, and the range is the object's. *)
Theorem C55_duplicates_partial : forall t from to s, In (WDuplicate from to s) (validate t) <-> repeated t from to s.
Proof. exact repeated_local. Qed.
Print Assumptions C55_duplicates_partial.
Theorem C55_mixed : forall t from to, In (WMixed from to) (validate t) <-> mixed t from to.
Proof. exact mixed_local. Qed.
Print Assumptions C55_mixed.

Definition warn_sample : str := lit "a 1
o {x 1, y 2
x {""a"" 1
a 2}}
""a"" 3
".
Example C55_example : exists t, cst_parse warn_sample = Ok (t, []) /\
  validate t = [WDuplicate 31 34 (lit "a"); WMixed 6 30; WDuplicate 16 17 (lit "x"); WDuplicate 25 26 (lit "a")].
Proof. eexists. split; vm_compute; reflexivity. Qed.
(** Both sides of the equivalences hold of it. *)
Example C55_holds : exists t, cst_parse warn_sample = Ok (t, []) /\ repeated t 25 26 (lit "a") /\ mixed t 6 30.
Proof.
  eexists. split; [vm_compute; reflexivity|]. split; [apply repeated_local|apply mixed_local]; vm_compute; auto.
Qed.

(** ** What is missing: the warnings do not follow the parser's errors

    A key is a duplicate for the parser by its decoded text; the accessors decode quoted scalars otherwise, do not
    decode raw scalars, and have no text for tags, units and empty keys. *)
Definition duplicate_error (evs : list event) : Prop := exists e o, In e evs /\ ev_kind e = EvError (EDuplicateKey o).
Definition not_warned (src : str) : Prop :=
  exists evs t, parses src evs /\ duplicate_error evs /\ cst_parse src = Ok (t, []) /\ forall f g s, ~ In (WDuplicate f g s) (validate t).
Definition warned (src : str) : Prop :=
  exists evs t f g s, parses src evs /\ ~ (exists e k, In e evs /\ ev_kind e = EvError k) /\ cst_parse src = Ok (t, []) /\ In (WDuplicate f g s) (validate t).

Lemma duplicate_error_found evs : existsb (fun e => match ev_kind e with EvError (EDuplicateKey _) => true | _ => false end) evs = true -> duplicate_error evs.
Proof.
  rewrite existsb_exists. intros (e & Hi & H). destruct (ev_kind e) as [| | | | | | | | | | | | | | |k] eqn:E; try discriminate. destruct k as [| | | | |o| | | | | | | | |] eqn:Ek; try discriminate. now exists e, o.
Qed.
Ltac not_warned := eexists; eexists; split; [apply run_parses; vm_compute; reflexivity|]; split;
  [apply duplicate_error_found; vm_compute; reflexivity|split; [vm_compute; reflexivity|intros f g s H; vm_compute in H; tauto]].
Theorem C55_missed_refuted :
  not_warned (lit "{""\u{61}"" 1, a 2}") /\ not_warned (lit "{a 1, r""a"" 2}") /\ not_warned (lit "{@t 1, @t 2}") /\
  not_warned (lit "{@ 1, @ 2}") /\ not_warned (lit "{"""" 1, """" 2}").
Proof.
  splits; not_warned.
Qed.
Print Assumptions C55_missed_refuted.

(** A raw key counts with its quotes, so it clashes with a different key that the parser accepts beside it. *)
Theorem C55_false_alarm_refuted : warned (lit "{r""a"" 1, ""r\""a\"""" 2}").
Proof.
  do 5 eexists. split; [apply run_parses; vm_compute; reflexivity|]. split.
  - intros (e & k & Hi & He). cbn [In] in Hi. repeat (destruct Hi as [Hi|Hi]; [subst e; discriminate He|]). exact Hi.
  - split; [vm_compute; reflexivity|]. vm_compute. left. reflexivity.
Qed.
Print Assumptions C55_false_alarm_refuted.
