(** Theorems about the text index of a document region (C155-C159). *)
Require Import ZArith List Bool Sorted Permutation.
From Verif Require Import DiModel DiSpec DiProofs DiProofs2 DiDemo.
Import ListNotations.
Open Scope nat_scope.

(** C155, in part: whatever writes, builds, loads, rounds, switches and stops there were, every document that
    exists is found with its content, if no switch fell inside the application of an entry or came exactly
    one entry behind. *)
Theorem C155_existing_documents_are_found_partial : forall c log es id v, 1 <= cgap c ->
  whenever ESwitch idle c log start es -> whenever ESwitch not_one_behind c log start es ->
  at_rest (run c log start es) ->
  stored (firstn (applied (run c log start es)) log) id = Some v ->
  In (id, v) (found (run c log start es)).
Proof. exact nothing_lost. Qed.
Print Assumptions C155_existing_documents_are_found_partial.

Example C155_case :
  whenever ESwitch idle cf lg start es1 /\ whenever ESwitch not_one_behind cf lg start es1 /\
  at_rest (run cf lg start es1) /\ applied (run cf lg start es1) = 15 /\
  stored lg 5 = Some 51%Z /\ In (5, 51)%Z (found (run cf lg start es1)).
Proof.
  split; [| split]; [vm_compute; repeat (split; [first [discriminate | reflexivity] |]); auto
                    | vm_compute; repeat (split; [first [discriminate | intros _ o E; injection E as <-; discriminate] |]); auto |].
  vm_compute. repeat split; auto 12.
Qed.

(** C155 without the first proviso: an entry whose handler ran before the switch and whose position was
    stored after it is lost. *)
Theorem C155_a_switch_inside_an_entry_loses_it_refuted :
  exists c log es id v, 1 <= cgap c /\
    whenever ESwitch not_one_behind c log start es /\ at_rest (run c log start es) /\
    stored (firstn (applied (run c log start es)) log) id = Some v /\
    ~ In id (map fst (found (run c log start es))).
Proof.
  exists cf, lg, es4, 1%Z, 10%Z. split; [vm_compute; repeat constructor |].
  split; [vm_compute; repeat (split; [first [discriminate | intros _ o E; injection E as <-; discriminate] |]); auto |].
  vm_compute. repeat split; auto.
Qed.
Print Assumptions C155_a_switch_inside_an_entry_loses_it_refuted.

(** C155 without the second proviso: a single entry between the scan and the switch is lost. *)
Theorem C155_a_switch_one_entry_behind_loses_it_refuted :
  exists c log es id v, 1 <= cgap c /\
    whenever ESwitch idle c log start es /\ at_rest (run c log start es) /\
    stored (firstn (applied (run c log start es)) log) id = Some v /\
    ~ In id (map fst (found (run c log start es))).
Proof.
  exists cf, lg, es3, 1%Z, 10%Z. split; [vm_compute; repeat constructor |].
  split; [vm_compute; repeat (split; [first [discriminate | reflexivity] |]); auto |].
  vm_compute. repeat split; auto.
Qed.
Print Assumptions C155_a_switch_one_entry_behind_loses_it_refuted.

(** C156, in part: a document that was deleted or never written is not found, if moreover no build read the
    store after a deletion. *)
Theorem C156_deleted_documents_are_not_found_partial : forall c log es id, 1 <= cgap c ->
  whenever ESwitch idle c log start es -> whenever ESwitch not_one_behind c log start es ->
  whenever EScan (none_deleted log) c log start es -> at_rest (run c log start es) ->
  stored (firstn (applied (run c log start es)) log) id = None ->
  ~ In id (map fst (found (run c log start es))).
Proof. exact deleted_gone. Qed.
Print Assumptions C156_deleted_documents_are_not_found_partial.

Example C156_case :
  whenever ESwitch idle cf lg start es2 /\ whenever ESwitch not_one_behind cf lg start es2 /\
  whenever EScan (none_deleted lg) cf lg start es2 /\
  at_rest (run cf lg start es2) /\ applied (run cf lg start es2) = 15 /\
  stored lg 4 = None /\ In (2, 21)%Z (found (run cf lg start es2)).
Proof.
  split; [| split; [| split]];
    [vm_compute; repeat (split; [first [discriminate | reflexivity] |]); auto
    | vm_compute; repeat (split; [first [discriminate | intros _ o E; injection E as <-; discriminate] |]); auto
    | vm_compute; repeat (split; [first [discriminate | intros _ d []] |]); auto |].
  vm_compute. repeat split; auto 12.
Qed.

(** C156 without that proviso: a rebuild brings deleted documents back. *)
Theorem C156_a_rebuild_brings_deleted_documents_back_refuted :
  exists c log es id, 1 <= cgap c /\
    whenever ESwitch idle c log start es /\ whenever ESwitch not_one_behind c log start es /\
    at_rest (run c log start es) /\
    stored (firstn (applied (run c log start es)) log) id = None /\
    In id (map fst (found (run c log start es))).
Proof.
  exists cf, lg, es5, 3%Z. split; [vm_compute; repeat constructor |].
  split; [vm_compute; repeat (split; [first [discriminate | reflexivity] |]); auto |].
  split; [vm_compute; repeat (split; [first [discriminate | intros _ o E; injection E as <-; discriminate] |]); auto |].
  vm_compute. repeat split; auto 12.
Qed.
Print Assumptions C156_a_rebuild_brings_deleted_documents_back_refuted.

(** C157, in part: while only writes happen, each document is found once and with its last content, and
    nothing else is found. *)
Theorem C157_each_document_is_found_once_partial : forall c log es w, careful log -> only_writes es ->
  ready w = true -> busy w = false -> wapply w <= applied w -> own w <> None ->
  exact (found w) (firstn (applied w) log) -> busy (run c log w es) = false ->
  exact (found (run c log w es)) (firstn (applied (run c log w es)) log).
Proof. exact exact_run. Qed.
Print Assumptions C157_each_document_is_found_once_partial.

Example C157_case :
  let w := run cf lg start fresh in
  careful lg /\ only_writes (writes 14) /\ ready w = true /\ busy w = false /\ wapply w <= applied w /\
  own w <> None /\ exact (found w) (firstn (applied w) lg) /\
  found (run cf lg w (writes 14)) = [(1, 10); (2, 21); (7, 70); (5, 51); (8, 80)]%Z.
Proof.
  cbv zeta. split; [exact lg_careful |]. split; [exact writes_only |].
  split; [reflexivity |]. split; [reflexivity |]. split; [vm_compute; auto |].
  split; [discriminate |]. split; [intros id; reflexivity |]. vm_compute. reflexivity.
Qed.

(** C157 for a rebuild: the contents a document had before are found as well. *)
Theorem C157_a_rebuild_keeps_old_contents_refuted :
  exists c log es id v v', careful log /\ 1 <= cgap c /\
    whenever ESwitch idle c log start es /\ whenever ESwitch not_one_behind c log start es /\
    at_rest (run c log start es) /\
    stored (firstn (applied (run c log start es)) log) id = Some v /\ v <> v' /\
    In (id, v') (found (run c log start es)).
Proof.
  exists cf, lg, es5, 2%Z, 21%Z, 20%Z. split; [exact lg_careful |]. split; [vm_compute; repeat constructor |].
  split; [vm_compute; repeat (split; [first [discriminate | reflexivity] |]); auto |].
  split; [vm_compute; repeat (split; [first [discriminate | intros _ o E; injection E as <-; discriminate] |]); auto |].
  vm_compute. repeat split; auto 12. discriminate.
Qed.
Print Assumptions C157_a_rebuild_keeps_old_contents_refuted.

(** C157 for a restart: entries after the saved position are added a second time. *)
Theorem C157_a_restart_adds_documents_twice_refuted :
  exists c log es id v, careful log /\ 1 <= cgap c /\
    whenever ESwitch idle c log start es /\ whenever ESwitch not_one_behind c log start es /\
    whenever EScan (none_deleted log) c log start es /\
    at_rest (run c log start es) /\
    stored (firstn (applied (run c log start es)) log) id = Some v /\
    filter (fun d : doc => Z.eqb (fst d) id) (found (run c log start es)) = [(id, v); (id, v)].
Proof.
  exists cf, lg, es6, 8%Z, 80%Z. split; [exact lg_careful |]. split; [vm_compute; repeat constructor |].
  split; [vm_compute; repeat (split; [first [discriminate | reflexivity] |]); auto |].
  split; [vm_compute; repeat (split; [first [discriminate | intros _ o E; injection E as <-; discriminate] |]); auto |].
  split; [vm_compute; repeat (split; [first [discriminate | intros _ d []] |]); auto |].
  vm_compute. repeat split; auto.
Qed.
Print Assumptions C157_a_restart_adds_documents_twice_refuted.

(** C158: a replay in batches, of whatever size, leaves what the entries leave one by one. *)
Theorem C158_batches_do_not_matter : forall b r cs, replay_list b r cs = one_by_one r cs.
Proof. exact batches_same. Qed.
Print Assumptions C158_batches_do_not_matter.

Example C158_case :
  replay_list 3 [] lg = [(1, 10); (2, 20); (2, 21); (5, 50); (7, 70); (5, 51); (8, 80)]%Z /\
  replay_list 100 [(9, 90)]%Z lg = one_by_one [(9, 90)]%Z lg.
Proof. split; vm_compute; reflexivity. Qed.

(** C159, in part: a search that two indexes answer gives the best [n] of all their hits, best first; and
    without a limit, if the number asked for is 0, every document of the two once. *)
Theorem C159_the_best_of_both_partial : forall n h1 h2 r, 1 <= n -> best_first h1 -> best_first h2 ->
  search2 n false h1 h2 = Some r -> best_of n (h1 ++ h2) r.
Proof. exact limited_best. Qed.
Print Assumptions C159_the_best_of_both_partial.

Theorem C159_without_a_limit_every_document_partial : forall h1 h2 r,
  search2 0 true h1 h2 = Some r -> each_once (h1 ++ h2) r.
Proof. exact unlimited_once. Qed.
Print Assumptions C159_without_a_limit_every_document_partial.

Example C159_case :
  best_first [(1, 9); (4, 5); (2, 1)]%Z /\ best_first [(7, 8); (8, 5)]%Z /\
  search2 3 false [(1, 9); (4, 5); (2, 1)]%Z [(7, 8); (8, 5)]%Z = Some [(1, 9); (7, 8); (8, 5)]%Z /\
  search2 0 true [(4, 9); (1, 5)]%Z [(4, 8); (3, 5)]%Z = Some [(1, 5); (3, 5); (4, 9)]%Z.
Proof.
  split; [repeat constructor; discriminate |]. split; [repeat constructor; discriminate |].
  split; reflexivity.
Qed.

(** C159 for an unlimited search that names a number: the answers are cut off at this number. *)
Theorem C159_an_unlimited_search_is_cut_off_refuted :
  exists n h1 h2 r x, best_first h1 /\ best_first h2 /\ NoDup (map fst (h1 ++ h2)) /\
    search2 n true h1 h2 = Some r /\ In x (h1 ++ h2) /\ ~ In (fst x) (map fst r).
Proof.
  exists 1, [(1, 9); (2, 8)]%Z, [(3, 7)]%Z, [(1, 9)]%Z, (3, 7)%Z.
  split; [repeat constructor; discriminate |]. split; [repeat constructor |].
  split; [repeat (apply NoDup_cons; [cbn; intuition discriminate |]); apply NoDup_nil |].
  split; [reflexivity |]. cbn. intuition discriminate.
Qed.
Print Assumptions C159_an_unlimited_search_is_cut_off_refuted.
