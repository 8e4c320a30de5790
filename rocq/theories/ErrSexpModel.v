(** Model of the lines that the implementations print for errors: crates/styx-cli/src/main.rs 558-565 with crates/styx-tree/src/builder.rs 28-30,
    implementations/styx-py/styx/compliance.py 96-99 (implementations/styx-go/cmd/styx-compliance/main.go 169-172 is the same),
    implementations/styx-js/src/sexp.ts 133-137, implementations/styx-swift/Sources/Styx/Sexp.swift 91-97.

    Only [BuildError::Parse] is modelled; its kind is the text that it is displayed as. The line with the name of the file is left out. *)
From Coq Require Import String.
From Verif Require Import Base TokModel LexModel TreeModel SexpModel PySexpModel JsSexpModel.

(** builder.rs 28-30; sexp.ts 134 *)
Definition error_message (sp : span) (message : str) : str :=
  lit "parse error at " ++ number (sp_start sp) (lit "-" ++ number (sp_end sp) (lit ": " ++ message)).
(** main.rs 558-565 *)
Definition rust_error (unprintable : char -> bool) (sp : span) (message : str) : str :=
  lit "(error " ++ span_text (Some sp) (lit " " ++ debug unprintable (error_message sp message) (lit ")")).
(** [message.replace("\\", "\\\\")], compliance.py 98 *)
Definition double_backslashes (s : str) : str := flat_map (fun c => if (c =? cBSL)%N then [cBSL; cBSL] else [c]) s.
(** compliance.py 96-99, format_error *)
Definition py_error (sp : span) (message : str) : str :=
  lit "(error " ++ span_text (Some sp) (lit " " ++ [cDQ] ++ lit "parse error at " ++ number (sp_start sp) (lit "-" ++ number (sp_end sp) (lit ": " ++ double_backslashes message ++ [cDQ] ++ lit ")"))).
(** sexp.ts 133-137, errorToSexp *)
Definition js_error (sp : span) (message : str) : str :=
  lit "(error " ++ span_text (Some sp) (lit " " ++ [cDQ] ++ json_escape (error_message sp message) ++ [cDQ] ++ lit ")").
(** Sexp.swift 91-97 *)
Definition swift_error (sp : span) (message : str) : str :=
  lit "(error " ++ span_text (Some sp) (lit " " ++ [cDQ] ++ lit "parse error at " ++ number (sp_start sp) (lit "-" ++ number (sp_end sp) (lit ": " ++ swift_escape message ++ [cDQ] ++ lit ")"))).
