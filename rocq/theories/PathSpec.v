(** Specification vocabulary for dotted paths at the document root (C09). *)
From Verif Require Import Base TokModel LexModel ParseModel.

(** One root entry: its path, its place, and whether its value is an object or terminal. *)
Definition assign := (list str * span * pvkind)%type.
Definition as_path (a : assign) : list str := fst (fst a).
Definition as_span (a : assign) : span := snd (fst a).
Definition as_kind (a : assign) : pvkind := snd a.

Definition prefix (c p : list str) : Prop := exists r, p = c ++ r.

(** [p] assigns below an earlier terminal value at path [t]. *)
Definition nests (h : list assign) (p t : list str) : Prop :=
  (exists q, In q h /\ as_path q = t /\ as_kind q = PVTerminal) /\ exists r, r <> [] /\ p = t ++ r.

(** [p] returns to [c], which an earlier entry had opened and a later entry had left. *)
Definition reopens (h : list assign) (p c : list str) : Prop :=
  prefix c p /\ exists h1 q1 h2 q2 h3, h = h1 ++ q1 :: h2 ++ q2 :: h3 /\ prefix c (as_path q1) /\ ~ prefix c (as_path q2).

(** Checking entries one after the other. *)
Fixpoint path_run (segs : list pseg) (h : list assign) : list pseg * list (option patherr) :=
  match h with
  | [] => (segs, [])
  | (p, sp, k) :: r =>
    let (s1, e) := check_and_update segs p sp k in
    let (s2, es) := path_run s1 r in (s2, e :: es)
  end.

(** The answer for one more entry after the history [h]. *)
Definition answer (h : list assign) (a : assign) : option patherr :=
  snd (check_and_update (fst (path_run [] h)) (as_path a) (as_span a) (as_kind a)).

(** Every entry of [h1] was accepted when it was checked after [h0] and its predecessors. *)
Definition all_accepted (h0 h1 : list assign) : Prop :=
  forall h2 b h3, h1 = h2 ++ b :: h3 -> answer (h0 ++ h2) b = None.

Definition root_key (a : assign) : option str := hd_error (as_path a).

(** [h1] are the entries of the current root key [r]; what came before ended in another root key. *)
Definition current_root (r : str) (h0 h1 : list assign) : Prop :=
  (forall h b, h0 = h ++ [b] -> root_key b <> Some r) /\ Forall (fun b => root_key b = Some r) h1.

(** What each error claims about the entries [h] before the entry with path [p]. *)
Definition error_ok (h : list assign) (p : list str) (e : patherr) : Prop :=
  match e with
  | PEDuplicate o => exists q, In q h /\ prefix p (as_path q) /\ o = as_span q
  | PENest t => nests h p t
  | PEReopened c => 2 <= length c /\ reopens h p c
  end.

(** Without reference to the code: after the entries [h1] of the same root key, [a] does not repeat the last path, does
    not nest into a terminal value and does not reopen a path that was left. *)
Definition fine_after (h1 : list assign) (a : assign) : Prop :=
  (forall h b, h1 = h ++ [b] -> as_path b <> as_path a) /\
  (forall t, ~ nests h1 (as_path a) t) /\ (forall c, c <> [] -> ~ reopens h1 (as_path a) c).
(** So do all entries; [h1] are those that share the root key with [a] and stand directly before it. *)
Definition paths_fine (h : list assign) : Prop := forall h0 h1 a h2 r, h = h0 ++ h1 ++ a :: h2 -> current_root r h0 (h1 ++ [a]) -> fine_after h1 a.
