(** Specifications for the language server functions. *)
From Verif Require Import Base LspModel.

(** ** Text positions *)

(** Number of line feeds. *)
Definition lines_before (s : str) : nat := count_occ N.eq_dec s cLF.

(** [t] is the last line of [s]: what follows its last line feed. *)
Definition last_line (s t : str) : Prop :=
  ~ In cLF t /\ (s = t \/ exists p, s = p ++ cLF :: t).

(** [p] is the place in [content] after the prefix [a]: its line is the number of line feeds
    before, its column the number of characters since. *)
Definition place_of (a : str) (p : position) : Prop :=
  p_line p = lines_before a /\ exists t, last_line a t /\ p_char p = length t.

(** Order of positions. *)
Definition pos_le (p q : position) : Prop :=
  p_line p < p_line q \/ p_line p = p_line q /\ p_char p <= p_char q.

(** [t] is line number [n] of [content] and [p] is what precedes it; [r] is what follows, starting
    with the line feed if there is one. *)
Definition line_at (content : str) (n : nat) (p t r : str) : Prop :=
  content = p ++ t ++ r /\ lines_before p = n /\
  (p = [] \/ exists p', p = p' ++ [cLF]) /\ ~ In cLF t /\ (r = [] \/ exists r', r = cLF :: r').

(** UTF-16 code units of a text. *)
Fixpoint utf16_len (s : str) : nat :=
  match s with [] => 0 | c :: r => (if (c <? 65536)%N then 1 else 2) + utf16_len r end.

(** ** Edit distance *)

(** One insertion, deletion or substitution. *)
Inductive one_edit : str -> str -> Prop :=
| edit_ins : forall p x s, one_edit (p ++ s) (p ++ x :: s)
| edit_del : forall p x s, one_edit (p ++ x :: s) (p ++ s)
| edit_sub : forall p x y s, one_edit (p ++ x :: s) (p ++ y :: s).

(** [n] edits in a row. *)
Inductive edits : nat -> str -> str -> Prop :=
| edits_none : forall s, edits 0 s s
| edits_more : forall n a b c, one_edit a b -> edits n b c -> edits (S n) a c.

(** [n] edits suffice and fewer do not. *)
Definition edit_distance (a b : str) (n : nat) : Prop :=
  edits n a b /\ forall m, edits m a b -> n <= m.

(** [v] is a candidate at distance [d] for the misspelt [unknown], up to lower-casing. *)
Definition close_enough (lower : str -> str) (unknown v : str) (d : nat) : Prop :=
  edit_distance (lower unknown) (lower v) d /\ d <= 2 /\ d < Nat.max (blen unknown) 1.

(** ** Token encoding *)

(** How a client decodes the tokens (LSP specification, textDocument/semanticTokens). *)
Fixpoint decode_from (line start : nat) (l : list semantic_token) : list raw_token :=
  match l with
  | [] => []
  | t :: r =>
      let line' := line + s_dline t in
      let start' := if s_dline t =? 0 then start + s_dstart t else s_dstart t in
      mkraw line' start' (s_len t) (s_type t) (s_mods t) :: decode_from line' start' r
  end.
Definition decode_tokens := decode_from 0 0.

(** Order of tokens in the text. *)
Definition tok_le (a b : raw_token) : Prop :=
  r_line a < r_line b \/ r_line a = r_line b /\ r_start a <= r_start b.
