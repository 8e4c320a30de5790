(** Model of the S-expressions printed by the JavaScript implementation: implementations/styx-js/src/sexp.ts 1-131.

    The trees of types.ts are written as trees of the Rust implementation, the span (-1, -1) as [None], as in PySexpModel.v. Texts are lists of
    code points ([for (const ch of s)] goes through code points). *)
From Coq Require Import String.
From Verif Require Import Base TokModel LexModel TreeModel SexpModel PySexpModel.

(** [toString(16).padStart(4, "0")] *)
Definition js_hex4 (c : char) : str := let h := hex_text (N.to_hex_uint c) [] in repeat 48%N (4 - List.length h) ++ h.
(** sexp.ts 3-31, jsonEscape *)
Definition js_char (c : char) : str :=
  if (c =? cDQ)%N then [cBSL; cDQ]
  else if (c =? cBSL)%N then [cBSL; cBSL]
  else if (c =? cLF)%N then [cBSL; cn]
  else if (c =? cCR)%N then [cBSL; cr]
  else if (c =? cTAB)%N then [cBSL; ct]
  else if (c <? 32)%N then cBSL :: cu :: js_hex4 c
  else [c].
Definition json_escape (s : str) : str := flat_map js_char s.

Section sexp.
(** [\s] of JavaScript *)
Variable js_space : char -> bool.
(** [/\n\s*\)$/]: what follows the line end *)
Fixpoint closes (s : str) : bool :=
  match s with
  | [] => false
  | [c] => (c =? cRP)%N
  | c :: r => js_space c && closes r
  end.
(** [.replace(/\n\s*\)$/, ")")], sexp.ts 113: the first match *)
Fixpoint replace_close (s : str) : str :=
  match s with
  | [] => []
  | c :: r => if (c =? cLF)%N && closes r then [cRP] else c :: replace_close r
  end.

(** sexp.ts 62-88, valueToSexp *)
Fixpoint js_value (v : value) (n : nat) {struct v} : str :=
  match v with
  | Val None PNone sp => prefix n ++ lit "(unit " ++ py_span sp ++ lit ")"
  | Val (Some (name, _)) PNone sp => prefix n ++ lit "(tag " ++ py_span sp ++ lit " " ++ [cDQ] ++ json_escape name ++ [cDQ] ++ lit ")"
  | Val (Some (name, _)) p sp => prefix n ++ lit "(tag " ++ py_span sp ++ lit " " ++ [cDQ] ++ json_escape name ++ [cDQ; cLF] ++ js_payload p (S n) ++ lit ")"
  | Val None p _ => js_payload p n
  end
(** sexp.ts 90-131, payloadToSexp; [pad.slice(2)] is one level less *)
with js_payload (p : payload) (n : nat) {struct p} : str :=
  match p with
  | PScalar s k sp => prefix n ++ lit "(scalar " ++ py_span sp ++ lit " " ++ kind_text k ++ lit " " ++ [cDQ] ++ json_escape s ++ [cDQ] ++ lit ")"
  | PSeq [] sp => prefix n ++ lit "(sequence " ++ py_span sp ++ lit ")"
  | PSeq items sp =>
    replace_close (join_lines ((prefix n ++ lit "(sequence " ++ py_span sp) :: map (fun i => js_value i (S n)) items ++ [prefix (pred n) ++ lit ")"]))
  | PObj [] sp => prefix n ++ lit "(object " ++ py_span sp ++ lit ")"
  | PObj es sp => join_lines ((prefix n ++ lit "(object " ++ py_span sp) :: map (fun e => js_entry e (S n)) es ++ [prefix n ++ lit ")"])
  | PNone => []
  end
(** sexp.ts 53-60, entryToSexp *)
with js_entry (e : entry) (n : nat) {struct e} : str :=
  match e with Ent k v _ => join_lines [prefix n ++ lit "(entry"; js_value k (S n); js_value v (S n) ++ lit ")"] end.
(** sexp.ts 41-51, documentToSexp *)
Definition js_document (es : list entry) : str := join_lines (lit "(document [-1, -1]" :: map (fun e => js_entry e 1) es ++ [lit ")"]).
End sexp.

(** implementations/styx-swift/Sources/Styx/Sexp.swift 75-89, escapeString *)
Definition swift_escape (s : str) : str :=
  flat_map (fun c => if (c =? cBSL)%N then [cBSL; cBSL] else if (c =? cDQ)%N then [cBSL; cDQ] else if (c =? cLF)%N then [cBSL; cn]
                     else if (c =? cCR)%N then [cBSL; cr] else if (c =? cTAB)%N then [cBSL; ct] else [c]) s.
