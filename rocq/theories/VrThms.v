(** C75-C78: the vector store below the index. *)
From Coq Require Import ZArith List Bool Sorted Lia.
From Verif Require Import Bytes SMap Outcome CodecModel CodecSpec MvccModel MvccSpec RawModel VqModel VqSpec VrModel VrSpec VrProofs6 VrDemo.
Import ListNotations.
Open Scope Z_scope.

(** * C75: reads by id *)

(** Accepted writes go through. *)
Theorem C75_writes_succeed W g lo hi h : wire_ok W -> schema_ok (g_schema g) -> (exists p a, serves g p a lo hi) ->
  Forall (op_ok W (g_schema g)) h -> exists c, apply_ops W g h = Ok c /\ region_state W g lo hi h c.
Proof. exact (writes_ok W g lo hi h). Qed.
Print Assumptions C75_writes_succeed.

(** VectorBatchQuery: for every id what is stored, with the parts asked for, or nothing. *)
Theorem C75_batch_query W g lo hi h c ts now w ids : region_state W g lo hi h c -> Forall (fun i => 0 <= i < 2 ^ 63) ids ->
  exists os, batch_query W g c ts now w ids = Ok os /\ Forall2 (answers h ts now w) ids os.
Proof. intro RS. exact (st_query W g lo hi h c RS ts now w ids). Qed.
Print Assumptions C75_batch_query.

(** VectorScanQuery: the first [limit] of exactly the stored ids in range that pass the filter, in order. *)
Theorem C75_scan_query W g lo hi h c now max_count q w : region_state W g lo hi h c ->
  1 <= q_start q < 2 ^ 63 -> 1 <= q_limit q <= max_count ->
  (forall flt, q_filter q = Some flt -> all_typed flt /\ typed_history h) ->
  exists ids os, scan_order (q_back q) ids /\ (forall i, In i ids <-> in_scan h lo hi now q i) /\
    scan_query W g c now max_count q w = Ok (SVectors os) /\
    Forall2 (fun i o => exists v, stored h (q_ts q) now i v /\ o = Some (shown w i v))
            (firstn (Z.to_nat (q_limit q)) ids) os.
Proof. intro RS. exact (st_scan W g lo hi h c RS now max_count q w). Qed.
Print Assumptions C75_scan_query.

(** VectorCount: the number of the stored ids of the region. *)
Theorem C75_count W g lo hi h c ts now : region_state W g lo hi h c -> exists ids, NoDup ids /\
  (forall i, In i ids <-> lo <= i < hi /\ exists v, stored h ts now i v) /\
  vector_count g c ts now = Ok (ROk (Z.of_nat (length ids))).
Proof. intro RS. exact (st_count W g lo hi h c RS ts now). Qed.
Print Assumptions C75_count.

(** VectorGetBorderId: the least or the greatest stored id, 0 if there is none. *)
Theorem C75_border_id W g lo hi h c ts now get_min : region_state W g lo hi h c ->
  exists x, border_id g c ts now get_min = Ok (ROk x) /\
  ((x = 0 /\ forall i v, lo <= i < hi -> ~ stored h ts now i v) \/
   (lo <= x < hi /\ (exists v, stored h ts now x v) /\
    forall i v, lo <= i < hi -> stored h ts now i v -> if get_min : bool then x <= i else i <= x)).
Proof. intro RS. exact (st_border W g lo hi h c RS ts now get_min). Qed.
Print Assumptions C75_border_id.

(** A concrete region: four added, one changed, one deleted, one that expires. *)
Example C75_example : region_state W0 g0 0 (2 ^ 63 - 1) h0 c0 /\
  scan_query W0 g0 c0 50 100 (mkQ 2 0 false 10 (Some blue_filter) 0) (mkW true false true []) =
    Ok (SVectors [Some (mkO 2 (Some [25; 0]) None (Some [1; 2])); Some (mkO 4 (Some [40; 0]) None (Some [1; 4]));
                  Some (mkO 5 (Some [50; 0]) None (Some [1; 5]))]) /\
  scan_query W0 g0 c0 50 100 (mkQ 4 2 true 2 None 15) (mkW true false false []) =
    Ok (SVectors [Some (mkO 4 (Some [40; 0]) None None); Some (mkO 3 (Some [30; 0]) None None)]) /\
  batch_query W0 g0 c0 0 50 (mkW false true false [size]) [2; 3; 9] =
    Ok [Some (mkO 2 None (Some [(size, num 25)]) None); None; None] /\
  vector_count g0 c0 0 50 = Ok (ROk 4) /\ vector_count g0 c0 0 101 = Ok (ROk 3) /\ vector_count g0 c0 15 50 = Ok (ROk 4) /\
  border_id g0 c0 0 50 true = Ok (ROk 1) /\ border_id g0 c0 0 50 false = Ok (ROk 5) /\ border_id g0 c0 0 101 false = Ok (ROk 4).
Proof. split; [exact state0|]. vm_compute. repeat split. Qed.
Print Assumptions C75_example.

(** A vector with an expiry time but without table data is accepted; asking for its table data
    brings the server down. *)
Theorem C75_ttl_refuted : exists W g lo hi h c, wire_ok W /\ schema_ok (g_schema g) /\ (exists p a, serves g p a lo hi) /\
  (forall ts ttl vs v, In (OAdd ts ttl vs) h -> In v vs -> lo < v_id v < hi /\ valid_scalars (g_schema g) (v_scalar v) = true) /\
  apply_ops W g h = Ok c /\ exists w, batch_query W g c 0 50 w [1] = Crash.
Proof.
  exists W0, g0, 0, (2 ^ 63 - 1), h2, (match apply_ops W0 g0 h2 with Ok c => c | Crash => cfs0 end).
  split; [exact W0_ok|]. split; [exact schema0|]. split; [exists 119, 5; exact serves0|]. split.
  - intros ts ttl vs v [E|[]] I. inversion E; subst. destruct I as [<-|[]]. vm_compute. auto.
  - split; [vm_compute; reflexivity|]. exists (mkW true true true []). vm_compute. reflexivity.
Qed.
Print Assumptions C75_ttl_refuted.

(** A scan from a negative id passes the checks of the service and brings the server down. *)
Theorem C75_negative_start_refuted : exists W g lo hi h c q, region_state W g lo hi h c /\ q_start q < 0 /\
  scan_query W g c 50 100 q (mkW true true true []) = Crash.
Proof.
  exists W0, g0, 0, (2 ^ 63 - 1), h0, c0, (mkQ (-1) 0 false 10 None 0). split; [exact state0|]. split; [reflexivity|].
  vm_compute. reflexivity.
Qed.
Print Assumptions C75_negative_start_refuted.

(** * C76: brute-force search *)

(** Without a filter. *)
Theorem C76_search W g lo hi h c dist flat batch_count now k qs : region_state W g lo hi h c -> flat_ok dist flat ->
  exists rs, search_post W flat batch_count g c now k [] qs = Ok (Some rs) /\
    search_answers h lo hi now dist (fun _ _ => True) k qs rs.
Proof. intro RS. exact (st_plain W g lo hi h c RS dist flat batch_count now k qs). Qed.
Print Assumptions C76_search.

(** Among given ids, or all but given ids. *)
Theorem C76_search_by_ids W g lo hi h c dist flat batch_count now k negation sorted ids qs :
  region_state W g lo hi h c -> flat_ok dist flat -> (sorted = true -> StronglySorted Z.le ids) ->
  exists rs, search_by_ids W flat batch_count g c now k negation sorted ids qs = Ok rs /\
    search_answers h lo hi now dist (fun i _ => if negation : bool then ~ In i ids else In i ids) k qs rs.
Proof. intro RS. exact (st_ids W g lo hi h c RS dist flat batch_count now k negation sorted ids qs). Qed.
Print Assumptions C76_search_by_ids.

Example C76_example : region_state W0 g0 0 (2 ^ 63 - 1) h0 c0 /\ flat_ok dist0 (flat0 dist0) /\
  search_post W0 (flat0 dist0) 2 g0 c0 50 2 [] [[22; 0]; [41; 0]] = Ok (Some [[(2, 3); (1, 12)]; [(4, 1); (5, 9)]]) /\
  search_by_ids W0 (flat0 dist0) 2 g0 c0 50 2 false false [5; 3; 1] [[22; 0]] = Ok [[(1, 12); (5, 28)]] /\
  search_by_ids W0 (flat0 dist0) 3 g0 c0 50 2 true false [5; 3; 1] [[22; 0]] = Ok [[(2, 3); (4, 18)]].
Proof. split; [exact state0|]. split; [exact (flat0_ok dist0)|]. vm_compute. repeat split. Qed.
Print Assumptions C76_example.

(** The promise "these ids are sorted" is not checked: with unsorted ids given as sorted, a stored
    id that was asked for is not found. *)
Theorem C76_unsorted_refuted : exists W g lo hi h c dist flat, region_state W g lo hi h c /\ flat_ok dist flat /\
  exists ids i v q, lo <= i < hi /\ stored h 0 0 i v /\ In i ids /\ search_by_ids W flat 2 g c 0 1 false true ids [q] = Ok [[]].
Proof.
  exists W0, g0, 0, (2 ^ 63 - 1), h1, c1, dist0, (flat0 dist0). split; [exact state1|]. split; [exact (flat0_ok dist0)|].
  exists [30; 40; 12], 12, (vec0 12 120 red), [0; 0]. split; [lia|]. split; [exact h1_stored|]. split; [right; right; left; reflexivity|].
  vm_compute. reflexivity.
Qed.
Print Assumptions C76_unsorted_refuted.

(** * C77: selection by attributes before a search *)

(** The ids selected are exactly those of the stored vectors that match. *)
Theorem C77_selected W g lo hi h c now flt : region_state W g lo hi h c ->
  flt <> [] -> (forall x y, In (x, y) flt -> x <> []) -> all_typed flt -> typed_history h ->
  exists ids, pre_filter_ids W g c now flt = Ok (Some ids) /\ NoDup ids /\
    forall i, In i ids <-> lo <= i < hi /\ exists v, stored h 0 now i v /\ matches flt (v_scalar v).
Proof. intro RS. exact (st_select W g lo hi h c RS now flt). Qed.
Print Assumptions C77_selected.

(** The search among them answers with the nearest matching vectors. *)
Theorem C77_search W g lo hi h c dist flat batch_count now k flt qs : region_state W g lo hi h c -> flat_ok dist flat ->
  flt <> [] -> (forall x y, In (x, y) flt -> x <> []) -> all_typed flt -> typed_history h ->
  exists rs, search_pre W flat batch_count g c now k flt qs = Ok (Some rs) /\
    search_answers h lo hi now dist (fun _ v => matches flt (v_scalar v)) k qs rs.
Proof. intro RS. exact (st_pre W g lo hi h c RS dist flat batch_count now k flt qs). Qed.
Print Assumptions C77_search.

(** The speed-up column gives the same answer as the full attributes. *)
Theorem C77_speed_up W g lo hi h c now flt : region_state W g lo hi h c -> flt <> [] ->
  (forall k x, In (k, x) flt -> exists f, In f (g_schema g) /\ f_speed f = true /\ f_key f = k) ->
  pre_ids_speed W g c now flt = pre_ids_scalar W g c now flt.
Proof. intro RS. exact (st_speed W g lo hi h c RS now flt). Qed.
Print Assumptions C77_speed_up.

Example C77_example : region_state W0 g0 0 (2 ^ 63 - 1) h0 c0 /\ all_typed blue_filter /\ typed_history h0 /\
  pre_ids_speed W0 g0 c0 50 blue_filter = Ok [2; 4; 5] /\ pre_ids_scalar W0 g0 c0 50 blue_filter = Ok [2; 4; 5] /\
  pre_filter_ids W0 g0 c0 50 [(size, num 25); (color, lit blue)] = Ok (Some [2]) /\
  pre_filter_ids W0 g0 c0 101 blue_filter = Ok (Some [2; 4]) /\
  search_pre W0 (flat0 dist0) 2 g0 c0 50 2 blue_filter [[0; 0]] = Ok (Some [[(2, 25); (4, 40)]]).
Proof. split; [exact state0|]. split; [exact blue_typed|]. split; [exact h0_typed|]. vm_compute. repeat split. Qed.
Print Assumptions C77_example.

(** An attribute of type DATETIME never matches, not even itself. *)
Theorem C77_datetime_refuted : exists W g lo hi h c flt i v, region_state W g lo hi h c /\ lo <= i < hi /\
  stored h 0 0 i v /\ matches flt (v_scalar v) /\ pre_filter_ids W g c 0 flt = Ok (Some []).
Proof.
  exists W0, dg, 0, (2 ^ 63 - 1), h3, (match apply_ops W0 dg h3 with Ok c => c | Crash => cfs0 end), [(size, stamp)], 1,
    (mkV 1 [10; 0] [(size, stamp)] []).
  split; [|split; [lia|split; [|split; [|vm_compute; reflexivity]]]].
  - split; [exact W0_ok|]. split; [split; [constructor|intros f []]|]. split; [exists 119, 5; exact serves0|].
    split; [|vm_compute; reflexivity]. constructor; [|constructor]. split; [unfold ts_ok; lia|]. split; [lia|].
    constructor; [|constructor]. split; [cbn [v_id]; lia|]. split; [reflexivity|]. intros N. exfalso. apply N. reflexivity.
  - exists 10, 0. split; [vm_compute; discriminate|]. split; [exists [], []; split; [reflexivity|intros y []]|].
    split; [left; reflexivity|]. intros t' x (b & a & E & _) _. cbn in E. destruct b as [|e b]; [inversion E; lia|].
    destruct b; discriminate.
  - intros k x [E|[]]. inversion E; subst. reflexivity.
Qed.
Print Assumptions C77_datetime_refuted.

(** * C78: selection by attributes after a search *)

(** What is returned is stored, matches, is in order and without repetition; it is the nearest [k]
    matching vectors if [k] are returned or the region holds at most [10 * k] vectors.  Missing: the
    nearest [k] in every case, see below. *)
Theorem C78_post_partial W g lo hi h c dist flat batch_count now k flt qs : region_state W g lo hi h c -> flat_ok dist flat ->
  (1 <= k)%nat -> flt <> [] -> all_typed flt -> typed_history h ->
  exists rs, search_post W flat batch_count g c now k flt qs = Ok (Some rs) /\ post_answers h lo hi now dist flt k qs rs.
Proof. intro RS. exact (st_post W g lo hi h c RS dist flat batch_count now k flt qs). Qed.
Print Assumptions C78_post_partial.

Example C78_example : region_state W0 g0 0 (2 ^ 63 - 1) h0 c0 /\ flat_ok dist0 (flat0 dist0) /\ all_typed blue_filter /\ typed_history h0 /\
  search_post W0 (flat0 dist0) 2 g0 c0 50 2 blue_filter [[12; 0]; [60; 0]] = Ok (Some [[(2, 13); (4, 28)]; [(5, 10); (4, 20)]]).
Proof.
  split; [exact state0|]. split; [exact (flat0_ok dist0)|]. split; [exact blue_typed|]. split; [exact h0_typed|].
  vm_compute. reflexivity.
Qed.
Print Assumptions C78_example.

(** With more vectors a matching one may be missed: asked for the nearest red vector, the search
    answers that there is none. *)
Theorem C78_post_refuted : exists W g lo hi h c dist flat flt i v q, region_state W g lo hi h c /\ flat_ok dist flat /\
  all_typed flt /\ typed_history h /\ lo <= i < hi /\ stored h 0 0 i v /\ matches flt (v_scalar v) /\
  search_post W flat 2 g c 0 1 flt [q] = Ok (Some [[]]) /\
  search_pre W flat 2 g c 0 1 flt [q] = Ok (Some [[(i, dist q (v_data v))]]).
Proof.
  exists W0, g0, 0, (2 ^ 63 - 1), h1, c1, dist0, (flat0 dist0), red_filter, 12, (vec0 12 120 red), [0; 0].
  split; [exact state1|]. split; [exact (flat0_ok dist0)|]. split; [exact red_typed|]. split; [exact h1_typed|].
  split; [lia|]. split; [exact h1_stored|]. split.
  - intros k x [E|[]]. inversion E; subst. reflexivity.
  - vm_compute. split; reflexivity.
Qed.
Print Assumptions C78_post_refuted.
