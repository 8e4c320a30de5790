(** Specification vocabulary for highlighting: which leaves of the tree are coloured or reported, and how. *)
From Coq Require Import String.
From Verif Require Import Base TokModel CstModel CstSpec LspModel LspSpec.

(** The colours a leaf may get: comments grey, doc comments green, scalars orange or (as keys) blue, heredoc texts
    orange, tags cyan or (as keys) blue, [@] cyan, [>] and heredoc delimiters red; the others none. *)
Definition esc (s : string) : str := 27%N :: lit s.
Definition end_colour : str := esc "[0m".
Definition colours (k : lkind) : list str :=
  match k with
  | LTok LineComment => [esc "[38;5;243m"]
  | LTok DocComment => [esc "[38;5;71m"]
  | LTok (BareScalar | QuotedScalar | RawScalar) => [esc "[38;5;214m"; esc "[38;5;75m"]
  | LTok HeredocContent => [esc "[38;5;214m"]
  | LTok Tag => [esc "[38;5;80m"; esc "[38;5;75m"]
  | LTok At => [esc "[38;5;80m"]
  | LTok (Gt | HeredocStart | HeredocEnd) => [esc "[38;5;203m"]
  | _ => []
  end.
(** The coloured text of some leaves: each as it is, or whole between a colour and the end of colours. *)
Inductive painted : list leaf_of -> str -> Prop :=
| pt_nil : painted [] []
| pt_plain : forall k t ls o, painted ls o -> painted ((k, t) :: ls) (t ++ o)
| pt_colour : forall k t c ls o, In c (colours k) -> painted ls o ->
    painted ((k, t) :: ls) (c ++ t ++ end_colour ++ o).

(** Removing escape sequences: from each escape character to the next [m]. *)
Fixpoint strip_escapes (inside : bool) (s : str) : str :=
  match s with
  | [] => []
  | c :: r =>
    if inside then strip_escapes (negb (c =? 109)%N) r
    else if (c =? 27)%N then strip_escapes true r
    else c :: strip_escapes false r
  end.

(** The token types and modifiers of the legend that a leaf may get:
    0 comment, 1 string, 4 type, 6 property, 7 operator; modifier 1 documentation. *)
Definition fits (k : lkind) (ty mods : nat) : Prop :=
  match k with
  | LTok LineComment => ty = 0 /\ mods = 0
  | LTok DocComment => ty = 0 /\ mods = 1
  | LTok (BareScalar | QuotedScalar | RawScalar) => (ty = 1 \/ ty = 6) /\ mods = 0
  | LTok Tag => (ty = 4 \/ ty = 6) /\ mods = 0
  | LTok At => ty = 4 /\ mods = 0
  | LTok (Gt | HeredocStart | HeredocEnd) => ty = 7 /\ mods = 0
  | _ => False
  end.
(** The tokens reported for some leaves that stand after the text [a]: for each leaf none or one, at the line and
    column of the leaf and with its length in bytes. *)
Inductive reported : str -> list leaf_of -> list raw_token -> Prop :=
| rp_nil : forall a, reported a [] []
| rp_skip : forall a k t ls rs, reported (a ++ t) ls rs -> reported a ((k, t) :: ls) rs
| rp_token : forall a k t ls r rs, place_of a (mkpos (r_line r) (r_start r)) -> r_len r = blen t ->
    fits k (r_type r) (r_mods r) -> reported (a ++ t) ls rs -> reported a ((k, t) :: ls) (r :: rs).

(** The same for the coloured text and the reported tokens together: each leaf is coloured and reported alike or neither,
    except that heredoc texts are coloured only. *)
Definition colour_of (ty mods : nat) : option str :=
  match ty, mods with
  | 0, 0 => Some (esc "[38;5;243m") | 0, 1 => Some (esc "[38;5;71m") | 1, 0 => Some (esc "[38;5;214m")
  | 4, 0 => Some (esc "[38;5;80m") | 6, 0 => Some (esc "[38;5;75m") | 7, 0 => Some (esc "[38;5;203m")
  | _, _ => None
  end.
Inductive agree : str -> list leaf_of -> str -> list raw_token -> Prop :=
| ag_nil : forall a, agree a [] [] []
| ag_plain : forall a k t ls o rs, agree (a ++ t) ls o rs -> agree a ((k, t) :: ls) (t ++ o) rs
| ag_both : forall a k t c r ls o rs, place_of a (mkpos (r_line r) (r_start r)) -> r_len r = blen t ->
    colour_of (r_type r) (r_mods r) = Some c -> agree (a ++ t) ls o rs ->
    agree a ((k, t) :: ls) (c ++ t ++ end_colour ++ o) (r :: rs)
| ag_content : forall a t ls o rs, agree (a ++ t) ls o rs ->
    agree a ((LTok HeredocContent, t) :: ls) (esc "[38;5;214m" ++ t ++ end_colour ++ o) rs.

(** Trees whose keys both walks treat alike: without attributes and unit keys, and with only scalars, units, sequences
    and tags as payloads of tags in sequences. [s]: inside a sequence. *)
Definition simple_payload (n : cst) : bool :=
  match n with Leaf _ _ | Node (SCALAR | HEREDOC | UNIT | SEQUENCE | TAG) _ => true | _ => false end.
Fixpoint alike (s : bool) (n : cst) : bool :=
  match n with
  | Leaf _ _ => true
  | Node k cs =>
    match k with
    | ATTRIBUTE => false
    | KEY =>
        forallb (fun c =>
          match c with Leaf _ _ | Node UNIT _ => false | Node OBJECT _ => alike false c | Node _ _ => alike s c end) cs
    | TAG_PAYLOAD => forallb (fun c => (negb s || simple_payload c) && alike s c) cs
    | SEQUENCE => forallb (alike true) cs
    | _ => forallb (alike s) cs
    end
  end.
