(** Automatic splits and merges: what a user may rely on. *)
From Coq Require Import ZArith List Bool Lia Sorted.
From Verif Require Import Bytes SMap Outcome CodecModel CodecSpec ScModel ScSpec ScProofs1 ScProofs2 ScProofs3 ScProofs4.
Import ListNotations.
Open Scope Z_scope.

(* ------------------------------------------------------------------------------------ *)
(** * C94: what a split check does *)

(** A check of a region whose column families hold the versions [data]: it does not end the
    process; the metrics become the number of versions and of bytes in the range of the region; a
    split is requested only if the range holds as much as the policy asks, the region did not
    change during the scan and nothing forbids a split, and only at a user key of the region. *)
Theorem C94_split_check : forall tb p cfs data n,
  Forall2 holds cfs data -> bytes_ok (fst (n_range0 n)) -> bytes_ok (snd (n_range0 n)) ->
  let es := inside (n_range0 n) data in
  exists f, split_check tb p cfs n = Ok f /\
    f_count f = (if 0 <? num (versions es) then Some (num (versions es)) else None) /\
    f_size f = (if 0 <? bytes_in es then Some (bytes_in es) else None) /\
    forall k, f_split f = Some k ->
      (exists e, In e es /\ key_of e = k) /\ k <> [] /\ in_range (n_range1 n) k /\ n_version1 n = n_version0 n /\
      grown p es /\ n_disabled n = false /\ n_temp_disabled n = false /\ n_normal n = true /\ n_leader n = true /\
      (n_mono n = true -> n_lite n = true) /\ n_busy n = false.
Proof. exact C94_core. Qed.
Print Assumptions C94_split_check.

(** *** Examples: two column families, user keys 2, 3, 5, 7 in the region [1, 9) *)
Definition v3 : bytes := [10; 11; 12].
Definition dataA : list stored := [([2], 10, v3); ([3], 12, v3); ([5], 11, v3); ([7], 11, v3)].
Definition dataB : list stored := [([3], 14, v3); ([5], 16, v3)].
Definition tb0 : list hentry -> nat := fun _ => O.
Definition env0 (r : bytes * bytes) : env := mkEnv 1 r 1 r false false true true false true false.
Definition r0 : bytes * bytes := ([1], [9]).

Example demo_holds : Forall2 holds [store dataA; store dataB] [dataA; dataB].
Proof. constructor; [|constructor; [|constructor]]; (apply holds_check; vm_compute; reflexivity). Qed.

Example C94_nonvacuous :
  split_check tb0 (PHalf 100 45) [store dataA; store dataB] (env0 r0) = Ok (mkEff (Some 6) (Some 120) (Some [7])) /\
  split_check tb0 (PSize 100 50) [store dataA; store dataB] (env0 r0) = Ok (mkEff (Some 6) (Some 120) (Some [3])) /\
  split_check tb0 (PKeys 5 3) [store dataA; store dataB] (env0 r0) = Ok (mkEff (Some 6) (Some 120) (Some [3])) /\
  split_check tb0 (PHalf 121 45) [store dataA; store dataB] (env0 r0) = Ok (mkEff (Some 6) (Some 120) None) /\
  split_check tb0 (PHalf 50 45) [store dataA; store dataB] (env0 ([3], [6])) = Ok (mkEff (Some 4) (Some 80) (Some [5])).
Proof. repeat split; vm_compute; reflexivity. Qed.

(* ------------------------------------------------------------------------------------ *)
(** * C95: regions that have grown are split *)

(** HALF: no user key takes a chunk, the region holds a chunk and has reached the threshold, and
    nothing forbids a split: a split is requested at a key the coordinator accepts, and each part
    gets about a quarter of the bytes at least. *)
Theorem C95_half_partial : forall tb thr chunk u cfs data n,
  Forall2 holds cfs data -> bytes_ok (fst (n_range0 n)) -> bytes_ok (snd (n_range0 n)) -> ready n ->
  let es := inside (n_range0 n) data in
  keys_small u es -> u < chunk -> thr <= bytes_in es -> chunk <= bytes_in es ->
  exists f k, split_check tb (PHalf thr chunk) cfs n = Ok f /\ f_split f = Some k /\ watershed_ok (n_range0 n) k = true /\
    bytes_in es <= 4 * (bytes_in (below k es) + u) /\ bytes_in es <= 4 * bytes_in (from k es) + 5 * chunk.
Proof. exact C95_half_core. Qed.
Print Assumptions C95_half_partial.

(** SIZE: the same when a user key is smaller than the position of the split key and the position
    is a key before the threshold; the left part ends at the position. *)
Theorem C95_size_partial : forall tb ss pos u cfs data n,
  Forall2 holds cfs data -> bytes_ok (fst (n_range0 n)) -> bytes_ok (snd (n_range0 n)) -> ready n ->
  let es := inside (n_range0 n) data in
  keys_small u es -> u < pos -> pos + u <= ss -> ss <= bytes_in es ->
  exists f k, split_check tb (PSize ss pos) cfs n = Ok f /\ f_split f = Some k /\ watershed_ok (n_range0 n) k = true /\
    pos - u <= bytes_in (below k es) < pos.
Proof. exact C95_size_core. Qed.
Print Assumptions C95_size_partial.

(** KEYS: the same for numbers of versions. *)
Theorem C95_keys_partial : forall tb number pos v cfs data n,
  Forall2 holds cfs data -> bytes_ok (fst (n_range0 n)) -> bytes_ok (snd (n_range0 n)) -> ready n ->
  let es := inside (n_range0 n) data in
  few_versions v es -> v < pos -> pos < number -> number <= num (versions es) ->
  exists f k, split_check tb (PKeys number pos) cfs n = Ok f /\ f_split f = Some k /\ watershed_ok (n_range0 n) k = true /\
    pos - v <= num (versions (below k es)) < pos.
Proof. exact C95_keys_core. Qed.
Print Assumptions C95_keys_partial.

Example C95_nonvacuous : ready (env0 r0) /\ bytes_in (inside r0 [dataA; dataB]) = 120 /\
  keys_small 40 (inside r0 [dataA; dataB]) /\ few_versions 2 (inside r0 [dataA; dataB]) /\
  num (versions (inside r0 [dataA; dataB])) = 6 /\
  bytes_in (below [7] (inside r0 [dataA; dataB])) = 100 /\ bytes_in (from [7] (inside r0 [dataA; dataB])) = 20.
Proof.
  split; [unfold ready; cbn; repeat (split; auto)|]. split; [vm_compute; reflexivity|].
  split; [apply keys_small_check; [lia|vm_compute; reflexivity]|]. split; [apply few_versions_check; [lia|vm_compute; reflexivity]|].
  repeat split; vm_compute; reflexivity.
Qed.

(** Without the proviso on user keys: a user key with many versions at the start of its region is
    asked for as the split key under every policy, although one key cannot be divided; the
    coordinator refuses the request, and the next check asks again. *)
Definition hot : list stored := [([2], 16, v3); ([2], 15, v3); ([2], 14, v3); ([2], 13, v3); ([2], 12, v3); ([2], 11, v3); ([7], 11, v3)].
Theorem C95_hot_key_refuted : exists cfs data r,
  Forall2 holds cfs data /\ ready (env0 r) /\ num (user_keys (inside r data)) = 2 /\
  forall p, In p [PHalf 100 45; PSize 100 50; PKeys 5 3] ->
    grown p (inside r data) /\ exists f k, split_check tb0 p cfs (env0 r) = Ok f /\ f_split f = Some k /\ watershed_ok r k = false.
Proof.
  exists [store hot], [hot], ([2], [9]). split; [constructor; [apply holds_check; vm_compute; reflexivity|constructor]|].
  split; [unfold ready; cbn; repeat (split; auto)|]. split; [vm_compute; reflexivity|].
  intros p [<-|[<-|[<-|[]]]]; (split; [vm_compute; congruence|]); eexists; exists [2]; (split; [vm_compute; reflexivity|]); (split; vm_compute; reflexivity).
Qed.
Print Assumptions C95_hot_key_refuted.

(** And in a region that starts earlier the left part gets nothing. *)
Theorem C95_empty_half_refuted : exists cfs data r f k,
  Forall2 holds cfs data /\ ready (env0 r) /\ split_check tb0 (PHalf 100 45) cfs (env0 r) = Ok f /\ f_split f = Some k /\
  watershed_ok r k = true /\ below k (inside r data) = [] /\ num (user_keys (inside r data)) = 2.
Proof.
  exists [store hot], [hot], r0. eexists. exists [2]. split; [constructor; [apply holds_check; vm_compute; reflexivity|constructor]|].
  split; [unfold ready; cbn; repeat (split; auto)|]. split; [vm_compute; reflexivity|]. split; [vm_compute; reflexivity|].
  split; [vm_compute; reflexivity|]. split; vm_compute; reflexivity.
Qed.
Print Assumptions C95_empty_half_refuted.

(** SIZE without the proviso on the threshold: the version that takes the region past the position
    takes it past the threshold too and is the last one: no split, although the region has grown. *)
Definition big : list stored := [([2], 10, v3); ([3], 12, repeat 1 200)].
Theorem C95_size_threshold_refuted : exists cfs data r f,
  Forall2 holds cfs data /\ ready (env0 r) /\ grown (PSize 100 50) (inside r data) /\
  split_check tb0 (PSize 100 50) cfs (env0 r) = Ok f /\ f_split f = None.
Proof.
  exists [store big], [big], r0. eexists. split; [constructor; [apply holds_check; vm_compute; reflexivity|constructor]|].
  split; [unfold ready; cbn; repeat (split; auto)|]. split; [vm_compute; congruence|]. split; vm_compute; reflexivity.
Qed.
Print Assumptions C95_size_threshold_refuted.

(** In a vector region the iterator also passes over the entries that speed up scalar filters; one
    of their keys may become the split key, and the entries of one vector are divided: the vector
    itself stays on the left, its speed-up entry goes to the right. *)
Definition vkey (id : Z) : bytes := match package_key3 114 1 id with Ok k => k | _ => [] end.
Definition skey (id : Z) : bytes := match package_key4 114 1 id [115] with Ok k => k | _ => [] end.
Definition vectors : list stored := map (fun id => (vkey id, 10, v3)) [3; 4; 5; 6].
Definition speedups : list stored := map (fun id => (skey id, 10, repeat 1 20)) [3; 4; 5; 6].
Theorem C95_divided_vector_refuted : exists cfs data r f k e,
  Forall2 holds cfs data /\ ready (env0 r) /\ split_check tb0 (PHalf 300 90) cfs (env0 r) = Ok f /\ f_split f = Some k /\
  watershed_ok r k = true /\ In e (inside r data) /\ blt (key_of e) k /\
  unpackage_vector_id (key_of e) = Ok 5 /\ unpackage_vector_id k = Ok 5.
Proof.
  exists [store vectors; store speedups], [vectors; speedups], (vkey 1, vkey 9). eexists. exists (skey 5), (vkey 5, 10, v3).
  split; [constructor; [apply holds_check; vm_compute; reflexivity|constructor; [apply holds_check; vm_compute; reflexivity|constructor]]|].
  split; [unfold ready; cbn; repeat (split; auto)|]. split; [vm_compute; reflexivity|]. split; [vm_compute; reflexivity|]. split; [vm_compute; reflexivity|].
  split; [vm_compute; right; right; left; reflexivity|]. split; [vm_compute; reflexivity|]. split; vm_compute; reflexivity.
Qed.
Print Assumptions C95_divided_vector_refuted.

(* ------------------------------------------------------------------------------------ *)
(** * C96, C97: checks under way *)

(** However checks are started, recorded and ended: a region is never checked twice at a time. *)
Theorem C96_one_check : forall es d, drun no_checks es = Some d -> NoDup (d_tasks d).
Proof. exact C96_core. Qed.
Print Assumptions C96_one_check.

Example C96_nonvacuous :
  drun no_checks [DStart 1; DAdd; DStart 2; DEnd 1; DAdd; DStart 1; DAdd] = Some (mkDesk [1; 2] [1; 2] None) /\
  drun no_checks [DStart 1; DAdd; DStart 1] = None.
Proof. split; vm_compute; reflexivity. Qed.

(** If no check ends before its region has been recorded, a region that is not being checked can
    be checked. *)
Theorem C97_again_partial : forall es d r,
  drun no_checks es = Some d -> orderly no_checks es -> d_adding d = None -> ~ In r (d_tasks d) ->
  exists d', dstep d (DStart r) = Some d'.
Proof. exact C97_core. Qed.
Print Assumptions C97_again_partial.

Example C97_nonvacuous : exists d, drun no_checks [DStart 1; DAdd; DStart 2; DEnd 1; DAdd] = Some d /\
  orderly no_checks [DStart 1; DAdd; DStart 2; DEnd 1; DAdd] /\ d_adding d = None /\ ~ In 1 (d_tasks d).
Proof.
  exists (mkDesk [2] [2] None). split; [vm_compute; reflexivity|]. split; [vm_compute; repeat split; congruence|]. split; auto. intros [H|[]]. discriminate.
Qed.

(** A check that ends first leaves its region recorded for ever: it is never checked again. *)
Theorem C97_again_refuted : forall r, exists d,
  drun no_checks [DStart r; DEnd r; DAdd] = Some d /\ d_tasks d = [] /\ d_adding d = None /\
  forall es d', drun d es = Some d' -> ~ In r (d_tasks d') /\ dstep d' (DStart r) = None.
Proof. exact C97_stuck_core. Qed.
Print Assumptions C97_again_refuted.

(* ------------------------------------------------------------------------------------ *)
(** * C98: which regions are merged *)

(** A pair taken for a merge consists of neighbours in the list of regions that may be merged; the
    first of them was not being merged already. *)
Theorem C98_mergeable : forall l busy seqn ck rs a b, In (a, b) (pre_merge_check l busy seqn ck rs) ->
  mergeable l seqn a b /\ busy = false /\ ~ In (g_id a) ck /\ exists pre post, rs = pre ++ a :: b :: post.
Proof. exact C98_core. Qed.
Print Assumptions C98_mergeable.

(** No region is taken twice. *)
Theorem C98_disjoint : forall l busy seqn ck rs, NoDup (map g_id rs) -> NoDup (taken (pre_merge_check l busy seqn ck rs)).
Proof. exact C98_disjoint_core. Qed.
Print Assumptions C98_disjoint.

(** The request is sent only if the regions as they are by then still fit. *)
Theorem C98_checked_again : forall busy a b, merge_check busy a b = true <->
  busy = false /\ g_normal a = true /\ g_normal b = true /\ g_disabled a = false /\ g_disabled b = false /\ g_leader a = true /\
  g_engine a = g_engine b /\ g_raw a = g_raw b /\ g_part a = g_part b /\ length (g_peers a) = length (g_peers b) /\
  (forall x, In x (g_peers a) -> In x (g_peers b)).
Proof. exact C98_again_core. Qed.
Print Assumptions C98_checked_again.

Definition reg (id : Z) (a b : bytes) (size : Z) : mregion :=
  mkMR id a b 1 0 0 [1; 2; 3] true false true false (Some (size, 10)) true (0, 0).
Definition lim0 : limits := mkLim 100 100 200 200.
Definition A1 := reg 1 [1] [2] 10.
Definition A2 := reg 2 [2] [3] 20.
Definition A3 := reg 3 [3] [4] 30.
Definition A4 := reg 4 [4] [5] 40.
Definition A5 := reg 5 [6] [7] 40.
Example C98_nonvacuous :
  pre_merge_check lim0 false true [] [A1; A2; A3; A4; A5] = [(A1, A2); (A3, A4)] /\
  pre_merge_check lim0 false true [1] [A1; A2; A3; A4; A5] = [(A2, A3)] /\
  pre_merge_check lim0 false false [] [A5; A4; A3; A2; A1] = [(A4, A3)] /\ merge_check false A1 A2 = true.
Proof. repeat split; vm_compute; reflexivity. Qed.

(* ------------------------------------------------------------------------------------ *)
(** * C99: regions that have shrunk are merged *)

(** A pair that may be merged, with a further region after it in the list: its first region is
    taken for a merge, with one neighbour or the other. *)
Theorem C99_progress_partial : forall l seqn ck pre a b post, post <> [] -> mergeable l seqn a b -> ~ In (g_id a) ck ->
  NoDup (map g_id (pre ++ a :: b :: post)) -> In (g_id a) (taken (pre_merge_check l false seqn ck (pre ++ a :: b :: post))).
Proof. exact C99_core. Qed.
Print Assumptions C99_progress_partial.

Example C99_nonvacuous : mergeable lim0 true A2 A3 /\ NoDup (map g_id ([A1] ++ A2 :: A3 :: [A5])) /\
  pre_merge_check lim0 false true [] [A1; A2; A3; A5] = [(A1, A2)].
Proof.
  split; [apply (proj1 (pre_merge_iff lim0 false true [] A2 A3)); vm_compute; reflexivity|]. split; [|vm_compute; reflexivity].
  cbn. repeat (constructor; [cbn; intuition discriminate|]). constructor.
Qed.

(** The last two regions of the list are never taken together; with two regions there is never a
    merge. *)
Theorem C99_last_pair_refuted :
  (forall l busy seqn ck rs a b, NoDup (map g_id (rs ++ [a; b])) -> ~ In (a, b) (pre_merge_check l busy seqn ck (rs ++ [a; b]))) /\
  (exists l a b, mergeable l true a b /\ forall ck, pre_merge_check l false true ck [a; b] = []).
Proof.
  split; [exact C99_last_core|]. exists lim0, A1, A2. split; [|reflexivity]. apply (proj1 (pre_merge_iff lim0 false true [] A1 A2)); vm_compute; reflexivity.
Qed.
Print Assumptions C99_last_pair_refuted.
