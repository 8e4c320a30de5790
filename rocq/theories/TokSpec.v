(** Specification vocabulary for token streams; independent of the tokenizer's scans. *)
From Verif Require Import Base TokModel.

(** Tokens tile the byte range [p, e): each starts where the previous one ended and is as long
    as the UTF-8 encoding of its text. *)
Fixpoint tiles (p : nat) (ts : list token) (e : nat) : Prop :=
  match ts with
  | [] => p = e
  | t :: r => sp_start (tk_span t) = p /\ sp_end (tk_span t) = p + blen (tk_text t)
              /\ tiles (sp_end (tk_span t)) r e
  end.

Definition texts (ts : list token) : str := concat (map tk_text ts).

(** The state after [n] calls of [next_token]. *)
Fixpoint after_calls (n : nat) (st : tstate) : tstate :=
  match n with O => st | S m => after_calls m (snd (next_token st)) end.
