(** C01, C02: the tokenizer. *)
From Coq Require Import String.
From Verif Require Import Base TokModel TokSpec TokProofs.

(** C01. For every source the token stream exists, its texts concatenate to the source, the spans
    tile the byte range of the source, and slicing the source with a span gives the token text. *)
Theorem C01_tokens_lossless : forall src, exists ts,
  tokens src = Some ts /\ texts ts = src /\ tiles 0 ts (blen src) /\
  Forall (fun t => slice src (sp_start (tk_span t)) (sp_end (tk_span t)) = Some (tk_text t)) ts.
Proof. exact tokenize_lossless. Qed.
Print Assumptions C01_tokens_lossless.

Example C01_example : exists ts,
  tokens (lit "a >{r#""x""# <<E,rs
 b
 E
@t/@u" ++ [8364]%N) = Some ts /\ length ts = 12.
Proof. eexists. split; vm_compute; reflexivity. Qed.

(** The stream does not depend on the fuel. *)
Theorem C01_any_fuel : forall fuel src ts,
  tokens_from fuel (tok_new src) = Some ts -> tokens src = Some ts.
Proof. exact tokens_any_fuel. Qed.
Print Assumptions C01_any_fuel.

(** C02, full statement: every token other than Eof has non-empty text. It is false: a heredoc
    opened at the very end of the input is followed by an empty error token. *)
Theorem C02_nonempty_tokens_refuted : exists src ts t,
  tokens src = Some ts /\ In t ts /\ tk_kind t <> Eof /\ tk_text t = [].
Proof.
  exists (lit "<<EOF"), [mktok HeredocStart (mkspan 0 5) (lit "<<EOF"); mktok TError (mkspan 5 5) []],
    (mktok TError (mkspan 5 5) []).
  split; [vm_compute; reflexivity|]. split; [now right; left|]. easy.
Qed.
Print Assumptions C02_nonempty_tokens_refuted.

(** What holds instead: the stream ends after at most one token per character plus one; a token with
    empty text is that one error token, it is the last token and stands at the end of the source. *)
Theorem C02_progress_partial : forall src, exists ts, tokens src = Some ts /\ length ts <= length src + 1 /\
  forall pre t post, ts = pre ++ t :: post -> tk_kind t <> Eof /\ (tk_text t = [] ->
     tk_kind t = TError /\ post = [] /\ sp_start (tk_span t) = blen src).
Proof. exact tokens_progress. Qed.
Print Assumptions C02_progress_partial.

(** Once Eof was returned, every later call leaves the tokenizer where it is (and so returns Eof again). *)
Theorem C02_eof_stable : forall src n,
  tk_kind (fst (next_token (after_calls n (tok_new src)))) = Eof ->
  forall m, n <= m -> after_calls m (tok_new src) = after_calls n (tok_new src).
Proof. exact eof_stable. Qed.
Print Assumptions C02_eof_stable.

Example C02_eof_example : tk_kind (fst (next_token (after_calls 3 (tok_new (lit "a b"))))) = Eof.
Proof. vm_compute. reflexivity. Qed.
