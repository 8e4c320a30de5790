(** C09: dotted paths. *)
From Coq Require Import String.
From Verif Require Import Base BaseProofs TokModel LexModel LexSpec ParseModel ParseSpec PathSpec PathProofs PropParse.

(** The full statement is false at the root level: the root itself has no record of closed children, so a
    root key can be returned to, and the same path assigned again, after any sibling. *)
Theorem C09_siblings_refuted : exists evs, parses (lit "a.b 1
c 2
a.b 3") evs /\ no_errors evs.
Proof. eexists. split; [apply run_parses; vm_compute; reflexivity|]. no_errors. Qed.
Print Assumptions C09_siblings_refuted.

(** A terminal value can be given to a path that already has children. *)
Theorem C09_overwrite_refuted : exists evs, parses (lit "a.b 1
a 2") evs /\ no_errors evs.
Proof. eexists. split; [apply run_parses; vm_compute; reflexivity|]. no_errors. Qed.
Print Assumptions C09_overwrite_refuted.

(** Whatever happened before, accepted or not, every error is justified: the reported terminal path, reopened
    path or first occurrence really is among the earlier entries. *)
Theorem C09_errors_justified_partial : forall h a e, Forall (fun a => as_path a <> []) (h ++ [a]) ->
  answer h a = Some e -> error_ok h (as_path a) e.
Proof. exact answer_sound. Qed.
Print Assumptions C09_errors_justified_partial.

(** As long as the root key does not change and all entries were accepted, the next entry is accepted exactly
    if it does not repeat the last path, does not nest into a terminal one and does not reopen one
    that was left. Missing: the root level itself (see the refutations), histories with errors. *)
Theorem C09_exact_partial : forall r h0 h1 a, Forall (fun a => as_path a <> []) h0 ->
  current_root r h0 (h1 ++ [a]) -> all_accepted h0 h1 ->
  (answer (h0 ++ h1) a = None <->
   (forall h b, h1 = h ++ [b] -> as_path b <> as_path a) /\
   (forall t, ~ nests h1 (as_path a) t) /\ (forall c, c <> [] -> ~ reopens h1 (as_path a) c)).
Proof. exact answer_exact. Qed.
Print Assumptions C09_exact_partial.

(** Whole documents: all root entries are accepted exactly if none of them repeats the path before it, nests into a
    terminal value or reopens a path, each within the run of entries with the same root key. *)
Theorem C09_histories_partial : forall h, Forall (fun a => as_path a <> []) h ->
  (Forall (fun e => e = None) (snd (path_run [] h)) <-> paths_fine h).
Proof. exact accepted_fine. Qed.
Print Assumptions C09_histories_partial.

Definition en (p : list string) (i : nat) (k : pvkind) : assign := (map lit p, mkspan i (i + 1), k).
Definition C09_h0 := [en ["x"; "y"] 0 PVTerminal; en ["x"] 1 PVObject; en ["x"; "y"] 2 PVTerminal]%string.
Definition C09_h1 := [en ["a"; "b"; "c"] 10 PVTerminal; en ["a"; "b"; "d"] 11 PVObject; en ["a"; "e"] 12 PVTerminal]%string.

Example C09_example : current_root (lit "a") C09_h0 (C09_h1 ++ [en ["a"; "f"] 13 PVTerminal]%string) /\ all_accepted C09_h0 C09_h1 /\
  map (answer (C09_h0 ++ C09_h1)) [en ["a"; "f"] 13 PVTerminal; en ["a"; "b"; "z"] 13 PVTerminal; en ["a"; "e"; "z"] 13 PVTerminal; en ["a"; "e"] 13 PVTerminal]%string =
    [None; Some (PEReopened [lit "a"; lit "b"]); Some (PENest [lit "a"; lit "e"]); Some (PEDuplicate (mkspan 12 13))].
Proof.
  split; [|split; [|vm_compute; reflexivity]].
  - split; [|repeat constructor]. intros h b E. change C09_h0 with (firstn 2 C09_h0 ++ [en ["x"; "y"] 2 PVTerminal]%string) in E.
    apply app_inj_tail in E. destruct E as [_ <-]. vm_compute. discriminate.
  - intros h2 b h3 E. destruct h2 as [|x [|y [|z [|w l]]]]; try discriminate; injection E as; subst; try (vm_compute; reflexivity).
Qed.
Example C09_histories_example : let h := C09_h1 ++ [en ["b"; "c"] 13 PVTerminal; en ["a"; "b"] 14 PVTerminal]%string in
  paths_fine h /\ ~ paths_fine (h ++ [en ["a"; "b"; "c"] 15 PVTerminal]%string).
Proof.
  cbn zeta. split; [apply C09_histories_partial; [repeat constructor; discriminate|vm_compute; repeat constructor]|]. intros H.
  apply C09_histories_partial in H; [|repeat constructor; discriminate].
  vm_compute in H. repeat (apply Forall_cons_iff in H as [?E H]). discriminate.
Qed.
