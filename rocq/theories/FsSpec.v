(** Specifications for the file-writing code. *)
From Coq Require Import String.
From Verif Require Import Base FsModel.
Local Open Scope nat_scope.

(** A history of calls of the cache: what was asked for and how each call ended. *)
Section History.
Variable content_hash : str -> N.

Inductive history : fs cpath -> list (str * str * ending (option cpath)) -> Prop :=
| history_none : history (fun _ => None) []
| history_call : forall d h name content d' e,
    history d h ->
    runs cpath_eqb d (cache_embedded_schema content_hash name content) d' e ->
    history d' (h ++ [(name, content, e)]).

(** Calls that were neither killed nor cut short. *)
Definition finished (e : ending (option cpath)) : Prop := exists p, e = Done (Some p).
End History.

(** Components of a path text and the directory chain it leads to, read lexically. *)
Fixpoint components (s : str) (cur : str) : list str :=
  match s with
  | [] => [rev cur]
  | c :: r => if (c =? cSLASH)%N then rev cur :: components r [] else components r (c :: cur)
  end.
Fixpoint resolve (l : list str) (at_ : list str) : list str :=
  match l with
  | [] => at_
  | x :: r =>
      if str_eqb x [] || str_eqb x (lit ".") then resolve r at_
      else if str_eqb x (lit "..") then resolve r (tl at_)
      else resolve r (x :: at_)
  end.
(** The chain of directories, outermost first. *)
Definition leads_to (s : str) : list str := rev (resolve (components s []) []).

(** [s] leads to something strictly below [dir]. *)
Definition inside (dir s : str) : Prop :=
  exists rest, leads_to s = leads_to dir ++ rest /\ rest <> [].
