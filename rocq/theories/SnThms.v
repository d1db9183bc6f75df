(** C105-C108: raft snapshots — the stream, the installed data, the neighbours, splits. *)
From Coq Require Import ZArith List Bool Arith Lia.
From Verif Require Import Bytes SnModel SnSpec SnProofs1 SnProofs2 SnProofs3 SnProofs4.
Import ListNotations.
Open Scope nat_scope.

(** C105.  A column family streamed to a follower.  Whatever answers are lost and asked for
    again and whatever requests of earlier attempts arrive in between — all requests asking
    for the same positive number of bytes — the follower has at every moment a beginning of
    the leader's pairs from the region's start on, and at the end exactly them. *)
Theorem C105_stream_exact : forall lo cf sz ls,
  0 < sz -> increasing cf -> Forall fits cf -> Forall (asks sz) ls ->
  match snd (xrun ls (open_fresh (seek lo cf), Copying 0 [])) with
  | Copied got => got = pairs_from lo cf
  | Copying _ got => exists rest, pairs_from lo cf = got ++ rest
  | CopyFailed => True
  end.
Proof. exact transfer_exact. Qed.
Print Assumptions C105_stream_exact.

(** And it gets there: with no requests of earlier attempts and no pause of many minutes, one
    answer more than there are pairs is enough, however many answers were lost. *)
Theorem C105_stream_ends : forall lo cf sz ls,
  0 < sz -> increasing cf -> Forall fits cf -> Forall (asks sz) ls ->
  forallb own ls = true -> forallb in_time ls = true ->
  length (pairs_from lo cf) < length (filter is_reply ls) ->
  snd (xrun ls (open_fresh (seek lo cf), Copying 0 [])) = Copied (pairs_from lo cf).
Proof. exact transfer_ends. Qed.
Print Assumptions C105_stream_ends.

Example C105_example :
  increasing xcf /\ Forall fits xcf /\ Forall (asks 20) xls /\
  snd (xrun xls (open_fresh (seek [2%Z] xcf), Copying 0 [])) = Copied (pairs_from [2%Z] xcf) /\
  length (pairs_from [2%Z] xcf) = 3.
Proof.
  split; [apply xcf_ok|]. split; [apply xcf_ok|]. split; [exact xls_ok|].
  split; [exact xls_result | reflexivity].
Qed.

(** Not when the file is opened again while the first opening's position is kept: the answer
    to the first request is empty and the copy ends with nothing. *)
Theorem C105_reopened_refuted :
  exists all sz r,
    all <> [] /\ r = fst (xrun [XReply sz false] (open_fresh all, Copying 0 [])) /\
    snd (xstep (XReply sz false) (open_again r, Copying 0 [])) = Copied [].
Proof. exact reopened_empty. Qed.
Print Assumptions C105_reopened_refuted.

(** Nor when a lost answer is asked for again with a larger count: the short answer is taken
    for the end. *)
Theorem C105_other_count_refuted :
  exists cf got,
    increasing cf /\ Forall fits cf /\
    snd (xrun [XLost 1 false; XReply 1000 false] (open_fresh cf, Copying 0 [])) = Copied got /\
    got <> cf.
Proof. exact other_size_short. Qed.
Print Assumptions C105_other_count_refuted.

(** C106 (partial).  A replica that has applied the whole log — from its own log or through
    snapshots, of any leader positions, with any stops and starts at moments when the
    installed snapshot's files are all still there or the recorded position has reached it —
    has the region the log says and, in its range, exactly the data the log says. *)
Theorem C106_caught_up_holds_log_partial : forall ncf g0 log d ls s,
  proper_log g0 log -> empty_inside ncf g0 d ->
  gentle ncf log (fresh g0 d) ls s -> Forall (proper_install ncf g0 log) ls ->
  caught_up log s ->
  r_region s = region_after g0 log (length log) /\
  forall c k, c < ncf -> inside (r_region s) k ->
    r_db s c k = data_after g0 log (length log) c k.
Proof. intros ncf g0 log d ls s PL. exact (caught_up_holds ncf g0 log PL d ls s). Qed.
Print Assumptions C106_caught_up_holds_log_partial.

Example C106_example :
  proper_log rg log5 /\ empty_inside 2 rg nodata /\
  exists s, gentle 2 log5 (fresh rg nodata) kind s /\ caught_up log5 s /\
    Forall (proper_install 2 rg log5) kind /\
    r_db s 0 kB = Some v2 /\ r_db s 0 kC = None /\ r_db s 1 kC = Some v2 /\ r_db s 0 kM = Some v1.
Proof. split; [exact log5_ok|]. split; [apply nodata_ok | exact kind_ok]. Qed.

(** Missing: stops at other moments.  A replica that was brought up by a snapshot and is
    restarted before its recorded position has passed the leader's loses the region's data
    and still counts as caught up. *)
Theorem C106_restart_refuted :
  exists g0 log d ls s c k,
    proper_log g0 log /\ empty_inside 1 g0 d /\ Forall (proper_install 1 g0 log) ls /\
    run 1 log ls (fresh g0 d) = Some s /\ caught_up log s /\
    c < 1 /\ inside (r_region s) k /\
    r_db s c k = None /\ data_after g0 log (length log) c k = Some v1.
Proof. exact restart_loses. Qed.
Print Assumptions C106_restart_refuted.

(** The same when the snapshot's index is the leader's position and the process stops between
    the removal of the files and the recording of the position. *)
Theorem C106_stop_before_record_refuted :
  exists g0 log d ls s c k,
    proper_log g0 log /\ empty_inside 1 g0 d /\ Forall (proper_install 1 g0 log) ls /\
    Forall (fun l => match l with LInstall j m _ => j = m_index m | _ => True end) ls /\
    run 1 log ls (fresh g0 d) = Some s /\ caught_up log s /\
    c < 1 /\ inside (r_region s) k /\
    r_db s c k = None /\ data_after g0 log (length log) c k = Some v1.
Proof. exact stop_before_record_loses. Qed.
Print Assumptions C106_stop_before_record_refuted.

(** C107 (partial).  Everything a region's replica does — applying, saving, installing,
    loading, with any stops and starts — leaves a key alone from the moment on when it is
    outside the region's range: always for keys before the range; for keys after it, if the
    leaders' stores held nothing beyond the region when they made the snapshots. *)
Theorem C107_others_untouched_partial : forall ncf g0 log d ls1 ls2 s1 s2 c k,
  proper_log g0 log ->
  run ncf log ls1 (fresh g0 d) = Some s1 -> run ncf log ls2 s1 = Some s2 ->
  Forall (proper_install ncf g0 log) (ls1 ++ ls2) ->
  (bleb (g_lo g0) k = false \/ Forall (nothing_beyond ncf) (ls1 ++ ls2)) ->
  ~ inside (r_region s1) k ->
  r_db s2 c k = r_db s1 c k.
Proof.
  intros ncf g0 log d ls1 ls2 s1 s2 c k PL. exact (others_untouched ncf g0 log PL d ls1 ls2 s1 s2 c k).
Qed.
Print Assumptions C107_others_untouched_partial.

Example C107_example :
  proper_log rg log2 /\
  exists s, run 1 log2 within (fresh rg newer) = Some s /\
    Forall (proper_install 1 rg log2) within /\ Forall (nothing_beyond 1) within /\
    ~ inside rg kZ /\ r_db s 0 kZ = Some v2 /\ r_db s 0 kB = Some v1.
Proof. split; [exact log2_ok | exact within_ok]. Qed.

(** Missing: leaders whose store holds later regions.  Their keys come along and overwrite
    what the follower's store has for them. *)
Theorem C107_neighbour_refuted :
  exists g0 log d ls s c k,
    proper_log g0 log /\ empty_inside 1 g0 d /\ Forall (proper_install 1 g0 log) ls /\
    gentle 1 log (fresh g0 d) ls s /\ ~ inside g0 k /\
    r_db (fresh g0 d) c k = Some v2 /\ r_db s c k = Some v1.
Proof. exact neighbour_hit. Qed.
Print Assumptions C107_neighbour_refuted.

(** C108 (partial).  A caught-up replica that never loaded a snapshot of a newer version than
    its region's has opened the child of every split of the log, once and in order. *)
Theorem C108_splits_opened_partial : forall ncf g0 log d ls s,
  proper_log g0 log ->
  no_skip ncf log (fresh g0 d) ls s -> Forall (proper_install ncf g0 log) ls ->
  caught_up log s ->
  r_opened s = snd (after g0 log (length log)).
Proof. intros ncf g0 log d ls s PL. exact (splits_opened ncf g0 log PL d ls s). Qed.
Print Assumptions C108_splits_opened_partial.

Example C108_example :
  proper_log rg logS /\
  exists s, no_skip 1 logS (fresh rg nodata)
                    (install rg logS 1 1 :: loads ++ [LApply; LApply; LCrash; LStart; LApply; LApply]) s /\
    caught_up logS s /\ r_opened s = [1] /\
    Forall (proper_install 1 rg logS)
           (install rg logS 1 1 :: loads ++ [LApply; LApply; LCrash; LStart; LApply; LApply]).
Proof. split; [exact logS_ok | exact split_applied]. Qed.

(** Missing: snapshots that carry the replica past a split.  Its child is not opened then, nor
    ever after, whatever is appended to the log and whatever happens. *)
Theorem C108_passed_over_refuted :
  exists g0 log d ls s v,
    proper_log g0 log /\ empty_inside 1 g0 d /\ Forall (proper_install 1 g0 log) ls /\
    gentle 1 log (fresh g0 d) ls s /\ caught_up log s /\
    In v (snd (after g0 log (length log))) /\
    forall log' ls' s', run 1 log' ls' s = Some s' -> ~ In v (r_opened s').
Proof. exact split_passed_over. Qed.
Print Assumptions C108_passed_over_refuted.
