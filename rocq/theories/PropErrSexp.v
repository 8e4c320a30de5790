(** C98: the lines printed for errors. *)
From Coq Require Import String.
From Verif Require Import Base BaseProofs TokModel LexModel TreeModel SexpModel SexpSpec PySexpModel PySexpSpec PropSexp JsSexpModel JsSexpSpec ErrSexpModel ErrSexpProofs.

(** For the same span and the same message, Python (and Go, which has the same function) prints the line of Rust exactly if nothing in the
    message is escaped by Rust, apart from backslashes. *)
Theorem C98_python : forall unprintable, (forall c, (32 <= c < 127)%N -> unprintable c = false) -> forall sp message,
  rust_error unprintable sp message = py_error sp message <-> Forall (fun c => c = cBSL \/ needs_no_escape unprintable c) message.
Proof. exact py_errors. Qed.
Print Assumptions C98_python.
(** JavaScript does so exactly if it writes the characters of the message as Rust does, *)
Theorem C98_javascript : forall unprintable, (forall c, (32 <= c < 127)%N -> unprintable c = false) -> forall sp message,
  rust_error unprintable sp message = js_error sp message <-> Forall (written_alike_js unprintable) message.
Proof. exact js_errors. Qed.
Print Assumptions C98_javascript.
(** and Swift exactly if there is nothing in the message that Rust writes as a number. *)
Theorem C98_swift : forall unprintable, (forall c, (32 <= c < 127)%N -> unprintable c = false) -> forall sp message,
  rust_error unprintable sp message = swift_error sp message <-> Forall (written_alike unprintable) message.
Proof. exact swift_errors. Qed.
Print Assumptions C98_swift.
Lemma low_ascii c : (32 <= c < 127)%N -> low c = false.
Proof. intros R. unfold low. rewrite (proj2 (N.ltb_ge c 32)) by lia. rewrite (proj2 (N.eqb_neq c 127)) by lia. reflexivity. Qed.
Example C98_example : (forall c, (32 <= c < 127)%N -> low c = false) /\
  rust_error low (mkspan 3 15) (lit "invalid escape sequence: \q") = py_error (mkspan 3 15) (lit "invalid escape sequence: \q") /\
  rust_error low (mkspan 3 15) (lit "invalid escape sequence: \q") = lit "(error [3, 15] ""parse error at 3-15: invalid escape sequence: \\q"")".
Proof. split; [exact low_ascii|]. split; reflexivity. Qed.

(** The message of an escape sequence ends with the character behind the backslash (lexer.py 222-226). If that is a line end, Python prints
    two lines. *)
Theorem C98_line_end_refuted : exists sp message, In cLF (py_error sp message) /\ ~ In cLF (rust_error low sp message) /\
  rust_error low sp message = js_error sp message /\ rust_error low sp message = swift_error sp message /\ rust_error low sp message <> py_error sp message.
Proof.
  exists (mkspan 2 4), (lit "invalid escape sequence: \" ++ [cLF]). split; [vm_compute; tauto|]. split; [|split; [reflexivity|split; [reflexivity|discriminate]]].
  vm_compute. intros H. repeat destruct H as [H|H]; discriminate H || exact H.
Qed.
