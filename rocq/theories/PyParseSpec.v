(** Specification of the parser of the Python implementation. *)
From Verif Require Import Base PyModel.

(** How many more braces are opened than closed *)
Definition brace (t : pytok) : Z := match pt_kind t with KLBrace => 1 | KRBrace => -1 | _ => 0 end.
Fixpoint balance (l : list pytok) : Z := match l with [] => 0 | t :: r => brace t + balance r end.

(** The tokens at the front of the source, as the lexer makes them, and what is left *)
Inductive lexed (isupper : char -> bool) (int16 : str -> option Z) (src : str) : list pytok -> str -> Prop :=
| lexed_nil : lexed isupper int16 src [] src
| lexed_snoc l s t r : lexed isupper int16 src l s -> next_token isupper int16 src s = POk (t, r) -> pt_kind t <> KEof ->
    lexed isupper int16 src (l ++ [t]) r.
