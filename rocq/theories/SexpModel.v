(** Model of the S-expressions printed by [styx tree --format sexp] (crates/styx-cli/src/main.rs 1208-1353), the format in which the
    implementations are compared. [print!] appends: every function gets what is printed afterwards as its last argument. *)
From Coq Require Import String.
From Coq Require Decimal Hexadecimal.
From Verif Require Import Base TokModel LexModel TreeModel.

(** [{}] of a [usize] *)
Fixpoint uint_text (d : Decimal.uint) (rest : str) : str :=
  match d with
  | Decimal.Nil => rest
  | Decimal.D0 r => 48%N :: uint_text r rest | Decimal.D1 r => 49%N :: uint_text r rest | Decimal.D2 r => 50%N :: uint_text r rest
  | Decimal.D3 r => 51%N :: uint_text r rest | Decimal.D4 r => 52%N :: uint_text r rest | Decimal.D5 r => 53%N :: uint_text r rest
  | Decimal.D6 r => 54%N :: uint_text r rest | Decimal.D7 r => 55%N :: uint_text r rest | Decimal.D8 r => 56%N :: uint_text r rest
  | Decimal.D9 r => 57%N :: uint_text r rest
  end.
Definition number (n : nat) : str -> str := uint_text (Nat.to_uint n).
(** Hexadecimal digits in lower case, as in [\u{7f}] *)
Fixpoint hex_text (d : Hexadecimal.uint) (rest : str) : str :=
  match d with
  | Hexadecimal.Nil => rest
  | Hexadecimal.D0 r => 48%N :: hex_text r rest | Hexadecimal.D1 r => 49%N :: hex_text r rest | Hexadecimal.D2 r => 50%N :: hex_text r rest
  | Hexadecimal.D3 r => 51%N :: hex_text r rest | Hexadecimal.D4 r => 52%N :: hex_text r rest | Hexadecimal.D5 r => 53%N :: hex_text r rest
  | Hexadecimal.D6 r => 54%N :: hex_text r rest | Hexadecimal.D7 r => 55%N :: hex_text r rest | Hexadecimal.D8 r => 56%N :: hex_text r rest
  | Hexadecimal.D9 r => 57%N :: hex_text r rest | Hexadecimal.Da r => 97%N :: hex_text r rest | Hexadecimal.Db r => 98%N :: hex_text r rest
  | Hexadecimal.Dc r => 99%N :: hex_text r rest | Hexadecimal.Dd r => 100%N :: hex_text r rest | Hexadecimal.De r => 101%N :: hex_text r rest
  | Hexadecimal.Df r => 102%N :: hex_text r rest
  end.

Section sexp.
(** Which characters [{:?}] writes as numbers: a table of Rust's library *)
Variable unprintable : char -> bool.

(** [{:?}] of a string (Rust's library) *)
Definition debug_char (c : char) (rest : str) : str :=
  if (c =? 0)%N then cBSL :: 48%N :: rest
  else if (c =? cTAB)%N then cBSL :: ct :: rest
  else if (c =? cCR)%N then cBSL :: cr :: rest
  else if (c =? cLF)%N then cBSL :: cn :: rest
  else if (c =? cDQ)%N then cBSL :: cDQ :: rest
  else if (c =? cBSL)%N then cBSL :: cBSL :: rest
  else if unprintable c then cBSL :: cu :: cLB :: hex_text (N.to_hex_uint c) (cRB :: rest)
  else c :: rest.
Definition debug (s : str) (rest : str) : str := cDQ :: fold_right debug_char (cDQ :: rest) s.

(** main.rs 1213, 1231, 1241, 1301: two blanks for each level *)
Fixpoint pad (n : nat) (rest : str) : str := match n with O => rest | S m => cSP :: cSP :: pad m rest end.
(** main.rs 1216-1219, 1242-1245, 1304-1307, 1317-1320, 1336-1339 *)
Definition span_text (s : option span) (rest : str) : str :=
  match s with
  | Some s => lit "[" ++ number (sp_start s) (lit ", " ++ number (sp_end s) (lit "]" ++ rest))
  | None => lit "[-1, -1]" ++ rest
  end.
(** main.rs 1262-1267, 1308-1313 *)
Definition kind_text (k : skind) : str := match k with Bare => lit "bare" | Quoted => lit "quoted" | Raw => lit "raw" | Heredoc => lit "heredoc" end.

(** main.rs 1240-1298, print_sexp_value *)
Fixpoint print_sexp_value (v : value) (n : nat) (rest : str) {struct v} : str :=
  match v with
  | Val tag p sp =>
    pad n (match tag with
    | Some (name, _) =>
      lit "(tag " ++ span_text sp (lit " " ++ debug name
        (match p with PNone => lit ")" ++ rest | _ => cLF :: print_sexp_payload p (S n) (lit ")" ++ rest) end))
    | None =>
      match p with
      | PNone => lit "(unit " ++ span_text sp (lit ")" ++ rest)
      | PScalar s k _ => lit "(scalar " ++ span_text sp (lit " " ++ kind_text k ++ lit " " ++ debug s (lit ")" ++ rest))
      | PSeq items _ =>
        lit "(sequence " ++ span_text sp
          (match items with
           | [] => lit ")" ++ rest
           | _ => cLF :: (fix go (l : list value) : str :=
               match l with
               | [] => lit ")" ++ rest
               | i :: r => print_sexp_value i (S n) (match r with [] => go r | _ => cLF :: go r end)
               end) items
           end)
      | PObj es _ =>
        lit "(object " ++ span_text sp
          (match es with
           | [] => lit ")" ++ rest
           | _ => cLF :: (fix go (l : list entry) : str := match l with [] => pad n (lit ")" ++ rest) | e :: r => print_sexp_entry e (S n) (go r) end) es
           end)
      end
    end)
  end
(** main.rs 1300-1353, print_sexp_payload *)
with print_sexp_payload (p : payload) (n : nat) (rest : str) {struct p} : str :=
  match p with
  | PNone => rest
  | PScalar s k sp => pad n (lit "(scalar " ++ span_text sp (lit " " ++ kind_text k ++ lit " " ++ debug s (lit ")" ++ rest)))
  | PSeq items sp =>
    pad n (lit "(sequence " ++ span_text sp
      (match items with
       | [] => lit ")" ++ rest
       | _ => cLF :: (fix go (l : list value) : str :=
           match l with
           | [] => lit ")" ++ rest
           | i :: r => print_sexp_value i (S n) (match r with [] => go r | _ => cLF :: go r end)
           end) items
       end))
  | PObj es sp =>
    pad n (lit "(object " ++ span_text sp
      (match es with
       | [] => lit ")" ++ rest
       | _ => cLF :: (fix go (l : list entry) : str := match l with [] => pad n (lit ")" ++ rest) | e :: r => print_sexp_entry e (S n) (go r) end) es
       end))
  end
(** main.rs 1230-1238, print_sexp_entry *)
with print_sexp_entry (e : entry) (n : nat) (rest : str) {struct e} : str :=
  match e with
  | Ent k v _ => pad n (lit "(entry" ++ cLF :: print_sexp_value k (S n) (cLF :: print_sexp_value v (S n) (lit ")" ++ cLF :: rest)))
  end.

(** main.rs 1212-1228, print_sexp; [indent] is 0 (555) *)
Definition print_sexp (v : value) (rest : str) : str :=
  match v_payload v with
  | PObj es _ => lit "(document " ++ span_text (v_span v) (cLF :: fold_right (fun e r => print_sexp_entry e 1 r) (lit ")" ++ rest) es)
  | _ => print_sexp_value v 0 rest
  end.
(** main.rs 551-557, the whole output for a source that is parsed *)
Definition tree_output (filename : str) (v : value) : str := lit "; file: " ++ filename ++ cLF :: print_sexp v [cLF].
End sexp.

(** implementations/styx-py/styx/compliance.py 22-30: how Python writes the texts of the same format; [str.replace] of one character *)
Definition replace_char (c : char) (t : str) (s : str) : str := flat_map (fun x => if (x =? c)%N then t else [x]) s.
Definition escape_string (s : str) : str :=
  replace_char cTAB [cBSL; ct] (replace_char cCR [cBSL; cr] (replace_char cLF [cBSL; cn] (replace_char cDQ [cBSL; cDQ] (replace_char cBSL [cBSL; cBSL] s)))).
