(** Property theorems C07 and C08: arguments formatted through a std trait. *)
From Verif Require Import Base Style Fmt SpecStd StdCompat SpecText TextFacts StdFacts.

(** C07: the std implementation is called once, with exactly the placeholder's flags, width and
    precision (and debug-hex flag for Debug), fill a space, and what is done is what the
    implementation does with these, its writes going to the formatter. *)
Theorem C07_flags_forwarded (val : std_display) (f : formatter) :
  let a := fm_format f in
  Display_StdFmtOther val f
  = through_proxy f (val (mk_sflags 32%N (fa_align a) (fa_sign a) (fa_alternate a) (fa_zero a)
                            (fa_width a) (fa_precision a) None)) /\
  Display_StdFmtDebug val f
  = through_proxy f (val (mk_sflags 32%N (fa_align a) (fa_sign a) (fa_alternate a) (fa_zero a)
                            (fa_width a) (fa_precision a) (fa_debug_hex a))).
Proof. split; [apply display_other|apply display_debug]. Qed.
Print Assumptions C07_flags_forwarded.

(** C07: exactly one of the generated match arms applies to any flags. *)
Theorem C07_one_arm (a : formatter_args) :
  length (filter (fun x => a_pat x a) (expand arms_other)) = 1 /\
  length (filter (fun x => a_pat x a) (expand arms_debug)) = 1.
Proof. split; [apply one_arm_other|apply one_arm_debug]. Qed.
Print Assumptions C07_one_arm.

(** C07: the number of arms, 192 and 576. *)
Example C07_arms : length (expand arms_other) = 192 /\ length (expand arms_debug) = 576.
Proof. split; vm_compute; reflexivity. Qed.
Example C07_nonvacuous :
  select (expand arms_debug)
    (mk_fargs (Some ACenter) (Some SPlus) true true (Some 8%N) (Some 3%N) (Some HexUpper))
  = Some (lit "{:^+#0width$.precision$X?}", [(lit "width", 8%N); (lit "precision", 3%N)]).
Proof. vm_compute. reflexivity. Qed.

(** C08: on any writer, formatting through a std trait is running the std implementation, each
    of its writes carrying the formatter's style, results handed back unchanged. *)
Theorem C08_std_simulation {W} (ws : write_fn W) (val : std_display) (f : formatter) (w : W) :
  let one_style := fun w s => ws w s (fm_style f) in
  run ws (Display_StdFmtOther val f) w
  = std_run one_style (val (std_flags_of (fm_format f) None)) w /\
  run ws (Display_StdFmtDebug val f) w
  = std_run one_style (val (std_flags_of (fm_format f) (fa_debug_hex (fm_format f)))) w.
Proof.
  cbn zeta. rewrite display_other, display_debug. split; apply through_proxy_run.
Qed.
Print Assumptions C08_std_simulation.

(** C08: when writes succeed, the styled text is std's text in the one style. *)
Theorem C08_std_text (val : std_display) (f : formatter) :
  let p := val (std_flags_of (fm_format f) None) in
  let q := val (std_flags_of (fm_format f) (fa_debug_hex (fm_format f))) in
  produces (Display_StdFmtOther val f) = paint (fm_style f) (concat (std_events p)) /\
  ok_outcome (Display_StdFmtOther val f) = std_outcome p /\
  produces (Display_StdFmtDebug val f) = paint (fm_style f) (concat (std_events q)) /\
  ok_outcome (Display_StdFmtDebug val f) = std_outcome q.
Proof.
  cbn zeta. rewrite display_other, display_debug.
  repeat split; try apply through_proxy_produces; apply through_proxy_events.
Qed.
Print Assumptions C08_std_text.

Example C08_nonvacuous :
  (* an implementation that pads to the requested width *)
  let val : std_display := fun fl =>
    SEmit (match sf_width fl with Some w => repeat 32%N (N.to_nat w - 1) | None => [] end)
      (fun r => match r with Ok => SEmit (lit "7") SRet | Err => SRet Err end) in
  let red := mk_style Red ColorDefault Normal in
  produces (Display_StdFmtOther val
              (mk_formatter red (mk_fargs None None false false (Some 3%N) None None)))
  = [(32%N, red); (32%N, red); (55%N, red)].
Proof. vm_compute. reflexivity. Qed.
