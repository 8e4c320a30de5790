(** Basic vocabulary shared by all model files: characters, strings, UTF-8 byte lengths,
    byte slices, and the result type used for code that can panic. *)
From Coq Require Export List Arith NArith ZArith Lia Bool.
From Coq Require Export ZifyBool ZifyNat ZifyN.
From Coq Require Import String Ascii.
Export ListNotations.
Open Scope nat_scope.

(** A Rust [char] is its code point, a [str] the list of its characters. *)
Definition char := N.
Definition str := list N.

(** ASCII literals for models and examples. *)
Definition lit (s : string) : str := List.map N_of_ascii (list_ascii_of_string s).

(** Character constants, as notations so that [lia] sees the numbers. *)
Notation cTAB := 9%N.      Notation cLF := 10%N.      Notation cCR := 13%N.
Notation cSP := 32%N.      Notation cDQ := 34%N.      Notation cHASH := 35%N.
Notation cLP := 40%N.      Notation cRP := 41%N.      Notation cCOMMA := 44%N.
Notation cDASH := 45%N.    Notation cDOT := 46%N.     Notation cSLASH := 47%N.
Notation cLT := 60%N.      Notation cEQ := 61%N.      Notation cGT := 62%N.
Notation cAT := 64%N.      Notation cBSL := 92%N.     Notation cUS := 95%N.
Notation cn := 110%N.      Notation cr := 114%N.      Notation ct := 116%N.
Notation cu := 117%N.      Notation cLB := 123%N.     Notation cRB := 125%N.

(** [char::is_ascii_*] of the Rust standard library. *)
Definition in_range (a b c : N) : bool := ((a <=? c) && (c <=? b))%N.
Definition is_upper (c : char) : bool := in_range 65 90 c.
Definition is_lower (c : char) : bool := in_range 97 122 c.
Definition is_digit (c : char) : bool := in_range 48 57 c.
Definition is_alpha (c : char) : bool := is_upper c || is_lower c.
Definition is_alnum (c : char) : bool := is_alpha c || is_digit c.
Definition is_hex (c : char) : bool := is_digit c || in_range 65 70 c || in_range 97 102 c.

(** [char::is_whitespace] (Unicode White_Space). *)
Definition is_ws (c : char) : bool :=
  (in_range 9 13 c || (c =? 32) || (c =? 133) || (c =? 160) || (c =? 5760)
   || in_range 8192 8202 c || (c =? 8232) || (c =? 8233) || (c =? 8239)
   || (c =? 8287) || (c =? 12288))%N.

(** [char::len_utf8]. *)
Definition clen (c : char) : nat :=
  if (c <? 128)%N then 1 else if (c <? 2048)%N then 2 else if (c <? 65536)%N then 3 else 4.

(** [str::len]: length in bytes. *)
Fixpoint blen (s : str) : nat :=
  match s with [] => 0 | c :: r => clen c + blen r end.

(** A Unicode scalar value, i.e. a possible Rust [char]. *)
Definition valid_char (c : char) : bool :=
  ((c <? 55296) || ((57344 <=? c) && (c <? 1114112)))%N.

(** [&s[n..]] and [&s[..n]] with byte offset [n]; [None] is the panic
    (out of range or not on a character boundary). *)
Fixpoint drop_bytes (n : nat) (s : str) : option str :=
  match n with
  | O => Some s
  | _ => match s with
         | [] => None
         | c :: r => if clen c <=? n then drop_bytes (n - clen c) r else None
         end
  end.

Fixpoint take_bytes (n : nat) (s : str) : option str :=
  match n with
  | O => Some []
  | _ => match s with
         | [] => None
         | c :: r => if clen c <=? n
                     then option_map (cons c) (take_bytes (n - clen c) r) else None
         end
  end.

(** [&s[a..b]]; [None] is the panic. *)
Definition slice (s : str) (a b : nat) : option str :=
  if a <=? b then
    match drop_bytes a s with
    | Some r => take_bytes (b - a) r
    | None => None
    end
  else None.

(** Longest prefix satisfying [p], and what follows it. *)
Fixpoint span_while (p : char -> bool) (s : str) : str * str :=
  match s with
  | [] => ([], [])
  | c :: r => if p c then let (a, b) := span_while p r in (c :: a, b) else ([], s)
  end.

(** Equality of strings. *)
Fixpoint str_eqb (a b : str) : bool :=
  match a, b with
  | [], [] => true
  | x :: a', y :: b' => N.eqb x y && str_eqb a' b'
  | _, _ => false
  end.

(** [str::strip_prefix]. *)
Fixpoint strip_prefix (p s : str) : option str :=
  match p with
  | [] => Some s
  | x :: p' => match s with
               | y :: s' => if N.eqb x y then strip_prefix p' s' else None
               | [] => None
               end
  end.

Definition starts_with (p s : str) : bool :=
  match strip_prefix p s with Some _ => true | None => false end.

(** [s.chars().nth(n)] as used for peeking. *)
Definition peek (s : str) : option char := nth_error s 0.

Definition opt_is (p : char -> bool) (o : option char) : bool :=
  match o with Some c => p c | None => false end.

(** Result of code that may panic or (in the model only) run out of fuel. *)
Inductive res (A : Type) : Type :=
| Ok (a : A)
| Panic
| OutOfFuel.
Arguments Ok {A} a.
Arguments Panic {A}.
Arguments OutOfFuel {A}.

Definition bind {A B} (x : res A) (f : A -> res B) : res B :=
  match x with Ok a => f a | Panic => Panic | OutOfFuel => OutOfFuel end.
Definition of_opt {A} (o : option A) : res A :=
  match o with Some a => Ok a | None => Panic end.
Notation "'do' x <- e1 ; e2" := (bind e1 (fun x => e2))
  (at level 200, x pattern, e1 at level 100, e2 at level 200, right associativity).

(** Byte spans, [styx_tokenizer::Span] (span.rs 6-11). *)
Record span := mkspan { sp_start : nat; sp_end : nat }.
