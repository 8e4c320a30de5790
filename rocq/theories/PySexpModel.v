(** Model of the S-expressions printed by the Python implementation: implementations/styx-py/styx/compliance.py 22-94.

    The trees of types.py are written as trees of the Rust implementation: both have tags, payloads, entries and spans at the same
    places; the span (-1, -1) is [None]. *)
From Coq Require Import String.
From Verif Require Import Base TokModel LexModel TreeModel SexpModel.

(** ["\n".join] *)
Fixpoint join_lines (l : list str) : str := match l with [] => [] | [a] => a | a :: r => a ++ cLF :: join_lines r end.
(** compliance.py 35, 60, 84 *)
Definition prefix (n : nat) : str := pad n [].
(** [[{span.start}, {span.end}]] *)
Definition py_span (s : option span) : str := span_text s [].

(** compliance.py 33-56, format_value *)
Fixpoint py_format_value (v : value) (n : nat) {struct v} : str :=
  match v with
  | Val None PNone sp => lit "(unit " ++ py_span sp ++ lit ")"
  | Val (Some (name, _)) PNone sp => lit "(tag " ++ py_span sp ++ lit " " ++ [cDQ] ++ name ++ [cDQ] ++ lit ")"
  | Val (Some (name, _)) p sp => lit "(tag " ++ py_span sp ++ lit " " ++ [cDQ] ++ name ++ [cDQ; cLF] ++ prefix n ++ lit "  " ++ py_format_payload p (S n) ++ lit ")"
  | Val None p _ => py_format_payload p n
  end
(** compliance.py 58-80, format_payload *)
with py_format_payload (p : payload) (n : nat) {struct p} : str :=
  match p with
  | PScalar s k sp => lit "(scalar " ++ py_span sp ++ lit " " ++ kind_text k ++ lit " " ++ [cDQ] ++ escape_string s ++ [cDQ] ++ lit ")"
  | PSeq [] sp => lit "(sequence " ++ py_span sp ++ lit ")"
  | PSeq items sp => lit "(sequence " ++ py_span sp ++ [cLF] ++ join_lines (map (fun i => prefix n ++ lit "  " ++ py_format_value i (S n)) items) ++ lit ")"
  | PObj [] sp => lit "(object " ++ py_span sp ++ lit ")"
  | PObj es sp => lit "(object " ++ py_span sp ++ [cLF] ++ join_lines (map (fun e => py_format_entry e (S n)) es) ++ [cLF] ++ prefix n ++ lit ")"
  | PNone => lit "(unknown)"
  end
(** compliance.py 82-87, format_entry *)
with py_format_entry (e : entry) (n : nat) {struct e} : str :=
  match e with
  | Ent k v _ => prefix n ++ lit "(entry" ++ [cLF] ++ prefix n ++ lit "  " ++ py_format_value k (S n) ++ [cLF] ++ prefix n ++ lit "  " ++ py_format_value v (S n) ++ lit ")"
  end.
(** compliance.py 89-94, format_document *)
Definition py_format_document (es : list entry) : str :=
  match es with
  | [] => lit "(document [-1, -1]" ++ [cLF] ++ lit ")"
  | _ => lit "(document [-1, -1]" ++ [cLF] ++ join_lines (map (fun e => py_format_entry e 1) es) ++ [cLF] ++ lit ")"
  end.
