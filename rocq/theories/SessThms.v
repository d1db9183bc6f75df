(** Theorems C73, C74: scan sessions. *)
From Coq Require Import ZArith List Bool.
From Verif Require Import Bytes Outcome CodecModel CodecSpec MvccModel MvccSpec SessModel SessSpec SessEnd SessDemo.
Import ListNotations.
Open Scope Z_scope.

(** ** C73 *)

(** Whatever requests, writes, cleanings and clock changes happen in between, the
    pages answered in a session are, one after the other, the beginning of what one
    scan of the range at the moment of the begin would have returned; once the client
    is told the end, they are all of it. *)
Theorem C73_pages_are_the_scan g t0 st0 acts s : 0 < c_count g < 2 ^ 63 -> store_ok st0 -> Forall action_ok acts ->
  run g (init t0 st0) acts = Some s ->
  forall t p b st page, In (t, EBegin p b st page) (s_log s) -> begun_once (b_id b) (s_log s) ->
  exists vs l rest, represents st vs /\ snapshot_of vs (b_ts b) t (b_start b) (b_end b) l /\
    map (reported (b_key_only b)) l = delivered (b_id b) (s_log s) ++ rest /\
    (told_the_end (b_id b) (s_log s) -> rest = []).
Proof. exact (session_pages g t0 st0 acts s). Qed.
Print Assumptions C73_pages_are_the_scan.

(** Pages respect the limits, and end early only because of them. *)
Theorem C73_page_limits g t0 st0 acts s : 0 < c_count g < 2 ^ 63 -> store_ok st0 -> Forall action_ok acts ->
  run g (init t0 st0) acts = Some s ->
  (forall t p b st page, In (t, EBegin p b st page) (s_log s) ->
     if 0 <? b_max b then page_fits (page_limit (b_max b) (c_count g)) (c_bytes g) page else page = []) /\
  (forall t p id max page more, In (t, EPage p id max page more) (s_log s) ->
     page_fits (page_limit max (c_count g)) (c_bytes g) page /\
     (more = true -> page_full (page_limit max (c_count g)) (c_bytes g) page)).
Proof. exact (page_limits g t0 st0 acts s). Qed.
Print Assumptions C73_page_limits.

(** No request stops the process. *)
Theorem C73_no_stop g t0 st0 acts s : 0 < c_count g < 2 ^ 63 -> store_ok st0 -> Forall action_ok acts ->
  run g (init t0 st0) acts = Some s -> s_dead s = false.
Proof. exact (never_dead g t0 st0 acts s). Qed.
Print Assumptions C73_no_stop.

(** A session of three pages: everything is deleted after the first one, the scan
    goes on as if it had not been; the fifth key, deleted before, is not reported. *)
Example C73_example : store_ok st1 /\ Forall action_ok script /\
  option_map s_log (run g0 (init 1000 st1) script) = Some
    [(1000, EBegin 0 b0 st1 [([97], [97; 10])]);
     (1050, EPage 0 7 2 [([98], [98; 12]); ([100], [100; 10])] true);
     (1100, EPage 0 7 2 [([101], [101; 10])] false)].
Proof. split; [exact st1_ok|]. split; [exact script_ok|]. vm_compute. reflexivity. Qed.

(** Without [begun_once] the claim is false: with ids chosen by the clients, a session
    that has timed out can be continued in the session of somebody else, with keys
    outside the range that was asked for, and no error. *)
Theorem C73_reused_id_refuted : exists g st0 acts s t p b st page t' p' max page' more kv,
  0 < c_count g < 2 ^ 63 /\ store_ok st0 /\ Forall action_ok acts /\ run g (init 1000 st0) acts = Some s /\
  In (t, EBegin p b st page) (s_log s) /\ In (t', EPage p' (b_id b) max page' more) (s_log s) /\
  In kv page' /\ ~ in_range (b_start b, b_end b) (fst kv).
Proof.
  assert (E := script_two_answers). destruct (run g0 (init 1000 st1) script_two) as [s|] eqn:R; [|discriminate].
  apply Some_inj in E. cbn beta in E.
  exists g0, st1, script_two, s, 1000, 0%nat, b1, st1, [([97], [97; 10])], 1200, 1%nat, 2,
    [([100], [100; 10]); ([101], [101; 10])], true, ([100], [100; 10]).
  split; [split; reflexivity|]. split; [exact st1_ok|]. split; [exact script_two_ok|]. split; [exact R|].
  rewrite E. split; [left; reflexivity|]. split; [right; right; left; reflexivity|]. split; [left; reflexivity|].
  exact b1_excludes.
Qed.
Print Assumptions C73_reused_id_refuted.

(** A negative page size evades the server's limit. *)
Theorem C73_negative_size_refuted : exists g st0 acts s t p id max page more,
  0 < c_count g < 2 ^ 63 /\ store_ok st0 /\ Forall action_ok acts /\ run g (init 1000 st0) acts = Some s /\
  In (t, EPage p id max page more) (s_log s) /\ c_count g < Z.of_nat (length page).
Proof.
  assert (E := script_neg_answers). destruct (run g1 (init 1000 st1) script_neg) as [s|] eqn:R; [|discriminate].
  apply Some_inj in E. cbn beta in E.
  exists g1, st1, script_neg, s, 1000, 0%nat, 7, (-1), [([98], [98; 12]); ([100], [100; 10]); ([101], [101; 10])], false.
  split; [split; reflexivity|]. split; [exact st1_ok|]. split; [exact script_neg_ok|]. split; [exact R|].
  rewrite E. split; [right; left; reflexivity|reflexivity].
Qed.
Print Assumptions C73_negative_size_refuted.

(** ** C74 *)

(** A session used within the timeout is kept: the next continue succeeds. *)
Theorem C74_used_session_continues g t0 st0 acts s : 0 < c_count g < 2 ^ 63 -> store_ok st0 -> Forall action_ok acts ->
  clock_forward t0 acts -> run g (init t0 st0) acts = Some s ->
  forall t p b st page max, In (t, EBegin p b st page) (s_log s) -> begun_once (b_id b) (s_log s) ->
  ~ failed (b_id b) (s_log s) -> ~ released (b_id b) (s_log s) ->
  used_within (c_timeout g) (uses (b_id b) (s_log s)) (s_now s) ->
  max <> 0 -> int64 max ->
  exists s' pg more,
    run g s [Arrive (RContinue (b_id b) max); Go (length (s_reqs s)) false; Go (length (s_reqs s)) false] = Some s' /\
    s_log s' = s_log s ++ [(s_now s, EPage p (b_id b) max pg more)].
Proof. exact (session_survives g t0 st0 acts s). Qed.
Print Assumptions C74_used_session_continues.

Example C74_example : clock_forward 1000 script /\ exists s, run g0 (init 1000 st1) script = Some s /\
  begun_once 7 (s_log s) /\ used_within (c_timeout g0) (uses 7 (s_log s)) (s_now s) /\
  uses 7 (s_log s) = [1000; 1050; 1100].
Proof.
  split; [exact script_clock|]. assert (E := script_answers).
  destruct (run g0 (init 1000 st1) script) as [s|] eqn:R; [|discriminate]. apply Some_inj in E. cbn beta in E.
  exists s. split; [reflexivity|]. rewrite E.
  assert (N : s_now s = 1100) by (assert (X : option_map s_now (run g0 (init 1000 st1) script) = Some 1100) by (vm_compute; reflexivity); rewrite R in X; apply Some_inj in X; exact X).
  rewrite N. split; [apply le_n|]. split; [|reflexivity].
  vm_compute. repeat split.
Qed.

(** A cleaning leaves only sessions that were used within the timeout. *)
Theorem C74_cleaning_keeps_recent g t0 st0 acts s s' : 0 < c_count g < 2 ^ 63 -> store_ok st0 -> Forall action_ok acts ->
  run g (init t0 st0) acts = Some s -> quiet s -> step g s (Clean []) = Some s' ->
  forall id p, find_scan id (s_alive s') = Some p ->
  (exists t e, In (t, e) (s_log s) /\ of_session id e /\ s_now s - t < c_timeout g) /\
  (forall t b st page, In (t, EBegin p b st page) (s_log s) -> b_no_auto b = false ->
     forall t', ~ In (t', EReleased p id) (s_log s)).
Proof. exact (cleaning_keeps_recent g t0 st0 acts s s'). Qed.
Print Assumptions C74_cleaning_keeps_recent.

(** A released session is gone after the next cleaning, unless the client asked for
    it to be kept. *)
Theorem C74_released_is_removed g t0 st0 acts s s' : 0 < c_count g < 2 ^ 63 -> store_ok st0 -> Forall action_ok acts ->
  run g (init t0 st0) acts = Some s -> quiet s -> step g s (Clean []) = Some s' ->
  forall t p b st page, In (t, EBegin p b st page) (s_log s) -> begun_once (b_id b) (s_log s) ->
  b_no_auto b = false -> released (b_id b) (s_log s) -> find_scan (b_id b) (s_alive s') = None.
Proof. exact (released_removed g t0 st0 acts s s'). Qed.
Print Assumptions C74_released_is_removed.

Example C74_release_example : exists s s', run g0 (init 1000 st1) script_rel = Some s /\ quiet s /\ released 7 (s_log s) /\
  find_scan 7 (s_alive s) = Some 0%nat /\
  step g0 s (Clean []) = Some s' /\ find_scan 7 (s_alive s') = None.
Proof. exact script_rel_answers. Qed.

(** With ids chosen by the clients, a session just begun can be taken away by a late
    request of an earlier session with the same id. *)
Theorem C74_stale_request_refuted : exists g st0 acts s t p b st page,
  0 < c_count g < 2 ^ 63 /\ store_ok st0 /\ Forall action_ok acts /\ run g (init 1000 st0) acts = Some s /\
  In (t, EBegin p b st page) (s_log s) /\ s_now s = t /\ ~ released (b_id b) (s_log s) /\
  (exists l, s_log s = l ++ [(t, EFailed (b_id b)); (t, EFailed (b_id b))]) /\
  find_scan (b_id b) (s_alive s) = None.
Proof.
  assert (E := script_stale_answers).
  assert (X : option_map s_now (run g0 (init 1000 st1) script_stale) = Some 1200) by (vm_compute; reflexivity).
  assert (Y : option_map (fun s => find_scan 7 (s_alive s)) (run g0 (init 1000 st1) script_stale) = Some None) by (vm_compute; reflexivity).
  destruct (run g0 (init 1000 st1) script_stale) as [s|] eqn:R; [|discriminate].
  apply Some_inj in E. cbn beta in E. apply Some_inj in X. apply Some_inj in Y.
  exists g0, st1, script_stale, s, 1200, 1%nat, b2, st1, [].
  split; [split; reflexivity|]. split; [exact st1_ok|]. split; [exact script_stale_ok|]. split; [exact R|].
  rewrite E. split; [right; left; reflexivity|]. split; [exact X|].
  split; [intros (t & p & [H|[H|[H|[H|[]]]]]); discriminate|].
  split; [eexists [_; _]; reflexivity|exact Y].
Qed.
Print Assumptions C74_stale_request_refuted.
