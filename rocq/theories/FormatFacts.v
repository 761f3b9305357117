(** Proofs about the format functions and the plain adaptor. *)
From Verif Require Import Base Style Fmt SString Plain Ansi Html Format SpecText TextFacts
  AnsiFacts HtmlFacts StringFacts.

Lemma plain_play h w :
  play (plain_write_str string_sink) h w = (mk_plain (pl_inner w ++ text_of h), Returned Ok).
Proof.
  revert w; induction h as [|[s st] h IH]; intros w; cbn [play].
  - unfold text_of; cbn. rewrite app_nil_r. destruct w; reflexivity.
  - unfold plain_write_str at 1, string_sink at 1. rewrite IH. cbn [pl_inner].
    unfold text_of; cbn [map concat fst]. now rewrite <- app_assoc.
Qed.

Lemma plain_infallible : infallible (plain_write_str string_sink).
Proof. intros w s st; reflexivity. Qed.

Lemma plain_format_spec args :
  plain_format args =
  match ok_outcome (args formatter_new) with
  | Returned Ok => Value (chars (produces (args formatter_new)))
  | Returned Err => Crash Panic
  | Crashed c => Crash c
  end.
Proof.
  unfold plain_format, Write_plain, Write_default; cbn [w_write_fmt].
  rewrite default_write_fmt_run, run_infallible by apply plain_infallible.
  rewrite plain_play. unfold produces. rewrite chars_denote.
  destruct (ok_outcome (args formatter_new)) as [[|]|c]; reflexivity.
Qed.

Lemma ansi_format_spec args :
  ansi_format args =
  match ok_outcome (args formatter_new) with
  | Returned Ok =>
      let t := produces (args formatter_new) in
      Value (ansi_render style_default t ++ esc (last_style style_default t) style_default)
  | Returned Err => Crash Panic
  | Crashed c => Crash c
  end.
Proof.
  unfold ansi_format, Write_ansi, Write_default; cbn [w_write_fmt].
  rewrite default_write_fmt_run, run_infallible by apply ansi_infallible.
  rewrite ansi_play. cbn [fst ansi_new an_inner an_current].
  destruct (ok_outcome (args formatter_new)) as [[|]|c]; try reflexivity.
  rewrite ansi_finish_string. reflexivity.
Qed.

Lemma html_format_spec args :
  html_format args =
  match ok_outcome (args formatter_new) with
  | Returned Ok => Value (SpecHtml.reference (runs (produces (args formatter_new))))
  | Returned Err => Crash Panic
  | Crashed c => Crash c
  end.
Proof.
  unfold html_format, Write_html, Write_default; cbn [w_write_fmt].
  rewrite default_write_fmt_run, run_infallible by apply html_infallible.
  rewrite html_play. cbn [fst html_new ht_inner ht_current].
  destruct (ok_outcome (args formatter_new)) as [[|]|c]; try reflexivity.
  rewrite html_finish_string. cbn [ht_inner ht_current]. rewrite <- html_reference. reflexivity.
Qed.

Lemma stylish_format_spec args :
  stylish_format args =
  match ok_outcome (args formatter_new) with
  | Returned Ok => Value (ss_of_runs (push_all [] (ok_events (args formatter_new))))
  | Returned Err => Crash Panic
  | Crashed c => Crash c
  end.
Proof.
  unfold stylish_format, Write_sstring, Write_default; cbn [w_write_fmt].
  rewrite default_write_fmt_run, run_infallible by apply sstring_infallible.
  rewrite ss_built.
  destruct (ok_outcome (args formatter_new)) as [[|]|c]; reflexivity.
Qed.
