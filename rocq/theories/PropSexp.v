(** C94: the S-expressions in which implementations are compared show everything but doc comments and some spans. *)
From Coq Require Import String.
From Verif Require Import Base BaseProofs TokModel LexModel TreeModel SexpModel SexpSpec SexpProofs.

(** Two trees give the same output exactly if everything that is shown of them is the same. *)
Theorem C94_sexp_faithful : forall unprintable filename v w,
  tree_output unprintable filename v = tree_output unprintable filename w <-> shown_root v = shown_root w.
Proof.
  intros u name v w. unfold tree_output. split.
  - intros E. do 2 apply app_inv_head in E. injection E as E. now apply root_cut in E.
  - intros E. do 3 f_equal. now apply root_cut.
Qed.
(** Where the S-expression of a tree ends can be seen from the S-expression: none is the beginning of another one. *)
Theorem C94_sexp_delimited : forall unprintable v w r r',
  print_sexp unprintable v r = print_sexp unprintable w r' -> shown_root v = shown_root w /\ r = r'.
Proof. intros u v w r r'. apply root_cut. Qed.

(** An example with every kind of node; the text is the one that is printed. *)
Definition low (c : char) : bool := (c <? 32)%N || (c =? 127)%N.
Definition at_ (a b : nat) : option span := Some (mkspan a b).
Definition c94_tree : value :=
  Val None (PObj
    [ Ent (Val None (PScalar (lit "k") Bare (at_ 0 1)) (at_ 0 1))
          (Val (Some (lit "t", at_ 2 4)) (PSeq [Val None (PScalar [97; 34; 92; 10; 127; 0]%N Quoted (at_ 5 20)) (at_ 5 20); Val None PNone (at_ 21 22)] (at_ 4 23)) (at_ 2 23)) None;
      Ent (Val None PNone (at_ 24 25)) (Val None (PObj [Ent (Val None (PScalar (lit "x") Raw None) None) (Val None (PSeq [] None) None) None] (at_ 26 40)) (at_ 26 40)) (Some (lit "doc"));
      Ent (Val None (PScalar (lit "e") Heredoc None) None) (Val (Some (lit "u", None)) PNone None) None ] (at_ 0 100)) (at_ 0 100).
Definition lines (l : list str) : str := List.concat (map (fun x => x ++ [cLF]) l).
Definition dq (s : str) : str := cDQ :: s ++ [cDQ].
Example C94_example :
  tree_output low (lit "f") c94_tree = lines
   [ lit "; file: f";
     lit "(document [0, 100]";
     lit "  (entry";
     lit "    (scalar [0, 1] bare " ++ dq (lit "k") ++ lit ")";
     lit "    (tag [2, 23] " ++ dq (lit "t");
     lit "      (sequence [4, 23]";
     lit "        (scalar [5, 20] quoted " ++ dq (97 :: lit "\" ++ [cDQ] ++ lit "\\\n\u{7f}\0")%N ++ lit ")";
     lit "        (unit [21, 22]))))";
     lit "  (entry";
     lit "    (unit [24, 25])";
     lit "    (object [26, 40]";
     lit "      (entry";
     lit "        (scalar [-1, -1] raw " ++ dq (lit "x") ++ lit ")";
     lit "        (sequence [-1, -1]))";
     lit "    ))";
     lit "  (entry";
     lit "    (scalar [-1, -1] heredoc " ++ dq (lit "e") ++ lit ")";
     lit "    (tag [-1, -1] " ++ dq (lit "u") ++ lit "))";
     lit ")" ].
Proof. reflexivity. Qed.

(** The output does not show everything: the tag of a root that is an object is left out, and so are doc comments. *)
Theorem C94_root_tag_refuted : exists v w, (forall u name, tree_output u name v = tree_output u name w) /\ v_tag v <> v_tag w.
Proof.
  exists (Val (Some (lit "t", None)) (PObj [] None) None), (Val None (PObj [] None) None). split; [reflexivity|discriminate].
Qed.

(** Rust and Python write a text in the same way exactly if it consists of characters that both write alike ... *)
Theorem C94_python_texts : forall unprintable s, debug unprintable s [] = cDQ :: escape_string s ++ [cDQ] <-> Forall (written_alike unprintable) s.
Proof. exact texts_alike. Qed.
Example C94_python_example : Forall (written_alike low) (lit "a\" ++ [cDQ; cTAB; cLF; 233%N]) /\ escape_string (lit "a\" ++ [cDQ; cTAB; cLF; 233%N]) = lit "a\\\" ++ [cDQ] ++ lit "\t\n" ++ [233%N].
Proof. split; [|reflexivity]. apply C94_python_texts. reflexivity. Qed.
(** ... so equal trees with other texts count as different where the outputs are compared. *)
Theorem C94_python_refuted : exists s, debug low s [] <> cDQ :: escape_string s ++ [cDQ].
Proof. exists [127%N]. discriminate. Qed.
