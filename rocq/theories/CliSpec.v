(** Specifications for the command line tool's helpers. *)
From Coq Require Import String.
From Verif Require Import TreeModel.
Local Open Scope nat_scope.

(** ** Versions *)

(** The number a string of digits denotes. *)
Definition digits_value (s : str) : N := fold_left (fun n c => (10 * n + (c - 48))%N) s 0%N.
Definition decimal (s : str) (n : N) : Prop := s <> [] /\ Forall (fun c => is_digit c = true) s /\ digits_value s = n.
(** No needless zero in front. *)
Definition canonical (s : str) : Prop := match s with c :: _ :: _ => c <> 48%N | _ => True end.

Definition version := (N * N * N)%type.
Definition version_text (v : version) (s : str) : Prop :=
  let '(a, b, c) := v in
  exists x y z, s = x ++ [cDOT] ++ y ++ [cDOT] ++ z /\ decimal x a /\ decimal y b /\ decimal z c.
Definition version_canonical (v : version) (s : str) : Prop :=
  let '(a, b, c) := v in
  exists x y z, s = x ++ [cDOT] ++ y ++ [cDOT] ++ z /\ (decimal x a /\ canonical x) /\
    (decimal y b /\ canonical y) /\ (decimal z c /\ canonical z).

(** Precedence of versions. *)
Definition version_lt (v w : version) : Prop :=
  let '(a, b, c) := v in let '(a', b', c') := w in
  (a < a')%N \/ a = a' /\ ((b < b')%N \/ b = b' /\ (c < c')%N).

(** May an upgrade from [v] to [w] happen without being asked for (caret requirement)? *)
Definition caret_compatible (v w : version) : Prop :=
  let '(a, b, c) := v in let '(a', b', c') := w in
  ((a, b, c) = (a', b', c') \/ version_lt v w) /\
  a = a' /\ (a = 0 -> b = b' /\ (b = 0 -> c = c'))%N.

(** ** JSON *)

(** The identity of a key that the export can show: a text or the unit. *)
Definition key_id (k : value) : option (option str) :=
  match k with
  | Val None (PScalar t _ _) _ => Some (Some t)
  | Val None PNone _ => Some None
  | _ => None
  end.
Fixpoint entry_for (k : option str) (es : list entry) : option value :=
  match es with
  | [] => None
  | Ent k' v _ :: r =>
      match key_id k', k with
      | Some None, None => Some v
      | Some (Some t), Some t' => if str_eqb t t' then Some v else entry_for k r
      | _, _ => entry_for k r
      end
  end.

(** Trees that say the same: spans, scalar kinds, doc comments and the order of entries aside. *)
Inductive same : value -> value -> Prop :=
| same_value : forall t p s t' p' s',
    option_map fst t = option_map fst t' -> same_payload p p' -> same (Val t p s) (Val t' p' s')
with same_payload : payload -> payload -> Prop :=
| same_none : same_payload PNone PNone
| same_scalar : forall t k s k' s', same_payload (PScalar t k s) (PScalar t k' s')
| same_seq : forall l s l' s', same_list l l' -> same_payload (PSeq l s) (PSeq l' s')
| same_obj : forall es s es' s',
    (forall k v, entry_for k es = Some v -> exists v', entry_for k es' = Some v' /\ same v v') ->
    (forall k v', entry_for k es' = Some v' -> exists v, entry_for k es = Some v /\ same v v') ->
    same_payload (PObj es s) (PObj es' s')
with same_list : list value -> list value -> Prop :=
| same_nil : same_list [] []
| same_cons : forall v v' l l', same v v' -> same_list l l' -> same_list (v :: l) (v' :: l').

(** Trees without the keys the export confuses: every key of an object is the unit or an untagged
    text other than [@] and [$tag], and no key occurs twice. *)
Inductive plain : value -> Prop :=
| plain_value : forall t p s, plain_payload p -> plain (Val t p s)
with plain_payload : payload -> Prop :=
| plain_none : plain_payload PNone
| plain_scalar : forall t k s, plain_payload (PScalar t k s)
| plain_seq : forall l s, plain_list l -> plain_payload (PSeq l s)
| plain_obj : forall es s, plain_entries es -> plain_payload (PObj es s)
with plain_list : list value -> Prop :=
| plain_nil : plain_list []
| plain_cons : forall v l, plain v -> plain_list l -> plain_list (v :: l)
with plain_entries : list entry -> Prop :=
| plain_no_entry : plain_entries []
| plain_entry : forall k v d es id,
    key_id k = Some id -> id <> Some [cAT] -> id <> Some (lit "$tag") ->
    (forall k' v' d', In (Ent k' v' d') es -> key_id k' <> Some id) ->
    plain v -> plain_entries es -> plain_entries (Ent k v d :: es).
