(** Proofs about core/src/std_compat.rs. *)
From Verif Require Import Base Style Fmt SpecStd StdCompat SpecText TextFacts.

(** The kind and flags that reach the std implementation. *)
Definition dispatch (arms : list arm) (a : formatter_args) : option (std_kind * std_flags) :=
  match select arms a with
  | Some (literal, env) => std_write_call literal env
  | None => None
  end.

Lemma dispatch_other a : dispatch (expand arms_other) a = Some (KDisplay, std_flags_of a None).
Proof.
  destruct a as [al sg alt zero w p hex].
  destruct al as [[| |]|], sg as [[|]|], alt, zero, w, p; vm_compute; reflexivity.
Qed.

Lemma dispatch_debug a :
  dispatch (expand arms_debug) a = Some (KDebug, std_flags_of a (fa_debug_hex a)).
Proof.
  destruct a as [al sg alt zero w p hex].
  destruct al as [[| |]|], sg as [[|]|], alt, zero, w, p, hex as [[|]|]; vm_compute; reflexivity.
Qed.

Lemma std_write_dispatch arms f val k fl :
  dispatch arms (fm_format f) = Some (k, fl) -> std_write arms f val = through_proxy f (val fl).
Proof.
  unfold dispatch, std_write. destruct (select arms (fm_format f)) as [[l env]|]; [|discriminate].
  intros ->. reflexivity.
Qed.

Lemma display_other val f :
  Display_StdFmtOther val f = through_proxy f (val (std_flags_of (fm_format f) None)).
Proof. eapply std_write_dispatch, dispatch_other. Qed.

Lemma display_debug val f :
  Display_StdFmtDebug val f
  = through_proxy f (val (std_flags_of (fm_format f) (fa_debug_hex (fm_format f)))).
Proof. eapply std_write_dispatch, dispatch_debug. Qed.

Lemma through_proxy_run {W} (ws : write_fn W) f p w :
  run ws (through_proxy f p) w = std_run (fun w s => ws w s (fm_style f)) p w.
Proof.
  revert w; induction p as [r|c|s k IH]; intros w; cbn [through_proxy std_run]; [reflexivity..|].
  cbn. destruct (ws w s (fm_style f)) as [w' [[|]|c]]; cbn; auto.
Qed.

Lemma through_proxy_events f p :
  ok_events (through_proxy f p) = map (fun s => (s, fm_style f)) (std_events p) /\
  ok_outcome (through_proxy f p) = std_outcome p.
Proof.
  induction p as [r|c|s k IH]; cbn; auto. destruct (IH Ok) as [-> ->]. auto.
Qed.

Lemma through_proxy_produces f p :
  produces (through_proxy f p) = paint (fm_style f) (concat (std_events p)).
Proof.
  unfold produces. rewrite (proj1 (through_proxy_events f p)).
  induction (std_events p) as [|s l IH]; cbn [map denote concat]; [reflexivity|].
  now rewrite IH, paint_app.
Qed.

Lemma through_proxy_propagates f p : std_propagates p -> propagates (through_proxy f p).
Proof.
  induction p as [r|c|s k IH]; cbn; auto. intros [Hk H]. split; [now rewrite Hk|auto].
Qed.

(** Exactly one arm matches, so the order of the arms does not matter. *)
Lemma one_arm_other a : length (filter (fun x => a_pat x a) (expand arms_other)) = 1.
Proof.
  destruct a as [al sg alt zero w p hex].
  destruct al as [[| |]|], sg as [[|]|], alt, zero, w, p; vm_compute; reflexivity.
Qed.
Lemma one_arm_debug a : length (filter (fun x => a_pat x a) (expand arms_debug)) = 1.
Proof.
  destruct a as [al sg alt zero w p hex].
  destruct al as [[| |]|], sg as [[|]|], alt, zero, w, p, hex as [[|]|]; vm_compute; reflexivity.
Qed.
