(** Specification for C80-C84: what an editor does with the answers of the language server (LSP specification, "Text Documents"). *)
From Coq Require Import String.
From Verif Require Import Base TreeModel TreeSpec SchemaModel LspModel LspSpec EditModel HoverModel ActModel.

(** Lines end with a line feed, a carriage return or both. *)
Definition line_end (e r : str) : Prop := e = [cLF] \/ e = [cCR; cLF] \/ e = [cCR] /\ forall x, r <> cLF :: x.
Definition one_line (t : str) : Prop := ~ In cLF t /\ ~ In cCR t.
(** [a] is what stands in front of column [k] of the line [t]: columns count UTF-16 units, and a column behind the end of the line is the end. *)
Definition before_column (t : str) (k : nat) (a : str) : Prop :=
  exists b, t = a ++ b /\ utf16_len a <= k /\ forall c r, b = c :: r -> k < utf16_len (a ++ [c]).
(** [a] is what stands in front of column [k] of line [n]. *)
Inductive in_front : str -> nat -> nat -> str -> Prop :=
| if_here t r k a : one_line t -> (r = [] \/ exists e r', r = e ++ r' /\ line_end e r') -> before_column t k a -> in_front (t ++ r) 0 k a
| if_next t e r n k a : one_line t -> line_end e r -> in_front r n k a -> in_front (t ++ e ++ r) (S n) k (t ++ e ++ a)
| if_past t n k : one_line t -> in_front t (S n) k t.
Definition position_in (content : str) (p : position) (a : str) : Prop := in_front content (p_line p) (p_char p) a.

(** The text after an edit. *)
Definition applied (content : str) (e : edit) (new : str) : Prop :=
  exists a m b, content = a ++ m ++ b /\ position_in content (e_from e) a /\ position_in content (e_to e) (a ++ m) /\ new = a ++ e_text e ++ b.

(** Every carriage return is followed by a line feed. *)
Definition no_lone_cr (s : str) : Prop := forall a r, s = a ++ cCR :: r -> exists r', r = cLF :: r'.

(** The line break at the end of a text, if there is one. *)
Definition final_break (s tl : str) : Prop :=
  (tl = [] /\ forall x, s <> x ++ [cLF]) \/ (tl = [cCR; cLF] /\ exists x, s = x ++ tl) \/ (tl = [cLF] /\ exists x, s = x ++ tl /\ forall y, x <> y ++ [cCR]).

(** One unit of indentation, as the editor asks for it: so many spaces, or a tab. *)
Definition unit_of (spaces : bool) (size : nat) (u : str) : Prop := if spaces then List.length u = size /\ Forall (eq cSP) u else u = [9%N].

(** A line that is indented by exactly [ind]. *)
Definition indented (line ind : str) : Prop := exists rest, line = ind ++ rest /\ forall c r, rest = c :: r -> c <> cSP /\ c <> 9%N.

(** Plain characters: one UTF-16 unit each. *)
Definition bmp (t : str) : Prop := Forall (fun c => (c < 65536)%N) t.

(** Requests other than the command that allows an extension. *)
Inductive reached_quietly : server -> Prop :=
| rq_start : reached_quietly (mksv [] [])
| rq_step s r s' : reached_quietly s -> r <> RAllow -> step_of r s s' -> reached_quietly s'.

(** A key of the document's root, with its place. *)
Definition root_key (v : value) (name : str) (sp : span) : Prop :=
  exists es e, as_object v = Some es /\ In e es /\ as_str (e_key e) = Some name /\ v_span (e_key e) = Some sp.
(** A schema document: its root has the keys [schema] and [meta]. *)
Definition schema_document (v : value) : Prop :=
  exists es a b, as_object v = Some es /\ In a es /\ as_str (e_key a) = Some (lit "schema") /\ In b es /\ as_str (e_key b) = Some (lit "meta").
(** [l] is the place of [sp] in [text]. *)
Definition located (text : str) (sp : span) (l : position * position) : Prop :=
  forall a m b, text = a ++ m ++ b -> blen a = sp_start sp -> blen (a ++ m) = sp_end sp -> place_of a (fst l) /\ place_of (a ++ m) (snd l).
