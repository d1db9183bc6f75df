(** Pushed-down computation: what a user may rely on. *)
From Coq Require Import ZArith List Bool Sorted Lia.
From Verif Require Import Bytes SMap Outcome SessModel TxnModel TxnSpec TxnReadModel TxnReadSpec TxnDemo TxnThms TxnReadThms.
From Verif Require Import CpModel CpSpec CpProofs1 CpProofs2 CpProofs3 CpProofs4 CpProofs5.
Import ListNotations.
Open Scope Z_scope.

(* ------------------------------------------------------------------------------------ *)
(** * C89: groups and aggregates *)

(** A well-formed request for groups over rows that decode: the pages of the session are the
    result rows in order; there is one row for each group that a kept record belongs to, in the
    order of the encoded group keys; it carries the group-by columns and the aggregates of exactly
    the records of the group.  Provisos: no partial integer sum leaves its type; group keys and
    result rows can be encoded. *)
Theorem C89_groups : forall L q rows recs ko lims,
  grouping_request q -> encodes L -> rows_decode L q rows recs ->
  keys_encode L q (kept L q recs) -> sums_fit q (kept L q recs) ->
  exists outs ps, session1 L q ko lims rows = Ok (Pages ps) /\
    grouped L q (kept L q recs) outs /\ delivers lims (map (shown_row ko) outs) ps.
Proof. exact C89_core. Qed.
Print Assumptions C89_groups.

(** *** Examples: rows carry a group byte and possibly a value; sum, count, count of all rows and
    extremes by group, leaving out values of 9 *)
Definition flat (c : cell) : bytes :=
  match c with
  | CInt (Some x) | CLong (Some x) => [x]
  | _ => [255]
  end.
Definition L0 : lib := mkLib
  (fun k v => match v with [g] => Some [CInt (Some g); CLong None] | [g; x] => Some [CInt (Some g); CLong (Some x)] | _ => None end)
  (fun rec => match rec with [_; CLong (Some x)] => Some (negb (x =? 9)) | _ => Some true end)
  (fun cs => match cs with [CInt (Some g)] => Some [g] | _ => None end)
  (fun k => match k with [g] => Some [CInt (Some g)] | _ => None end)
  (fun rec => Enc [] (flat_map flat rec))
  Z.add Z.ltb 0.
Definition q0 : request := mkReq [(TyInt, 0); (TyLong, 1)] [] true [0]
  [(OSum, 1); (OCount, 1); (OCount, -1); (OMax, 1); (OMin, 1)] [TyInt; TyLong; TyLong; TyLong; TyLong; TyLong].
Definition rows0 : list row := [([1], [7; 5]); ([2], [3; 4]); ([3], [7]); ([4], [7; 9]); ([5], [7; 2]); ([6], [1])].
Definition recs0 : list (list cell) :=
  [[CInt (Some 7); CLong (Some 5)]; [CInt (Some 3); CLong (Some 4)]; [CInt (Some 7); CLong None];
   [CInt (Some 7); CLong (Some 9)]; [CInt (Some 7); CLong (Some 2)]; [CInt (Some 1); CLong None]].

Lemma schema0 : schema_ok q0.
Proof.
  split; [|split].
  - repeat constructor; simpl; intuition congruence.
  - cbn. intros t ix [E|[E|[]]]; inversion E; subst; split; reflexivity || discriminate.
  - intros ix [].
Qed.
Lemma col0 : column_type q0 0 TyInt. Proof. exists 0. split; [reflexivity|left; reflexivity]. Qed.
Lemma col1 : column_type q0 1 TyLong. Proof. exists 1. split; [reflexivity|right; left; reflexivity]. Qed.
Lemma request0 : grouping_request q0.
Proof.
  split; [exact schema0|]. split; [discriminate|]. split; [discriminate|].
  exists [TyInt], [TyLong; TyLong; TyLong; TyLong; TyLong]. split; [reflexivity|]. split.
  - constructor; [exact col0|constructor].
  - constructor; [split; [exact col1|discriminate]|]. constructor; [split; [reflexivity|right; exists TyLong; exact col1]|].
    constructor; [split; [reflexivity|left; reflexivity]|]. constructor; [exact col1|]. constructor; [exact col1|constructor].
Qed.
Lemma decode0 : rows_decode L0 q0 rows0 recs0.
Proof.
  split; [repeat constructor|]. split.
  - assert (T : forall a b, record_typed q0 [CInt a; CLong b]).
    { intros a b. split; [reflexivity|]. intros i c. unfold nthz. destruct (i <? 0) eqn:EI; [discriminate|]. apply Z.ltb_ge in EI.
      intros N. destruct (Z.eq_dec i 0) as [->|]; [inversion N; exact col0|].
      destruct (Z.eq_dec i 1) as [->|]; [inversion N; exact col1|].
      assert (X : nth_error [CInt a; CLong b] (Z.to_nat i) = None) by (apply nth_error_None; simpl; lia). congruence. }
    repeat constructor; apply T.
  - intros _. repeat constructor; discriminate.
Qed.
Example C89_nonvacuous :
  grouping_request q0 /\ encodes L0 /\ rows_decode L0 q0 rows0 recs0 /\ keys_encode L0 q0 (kept L0 q0 recs0) /\
  sums_fit q0 (kept L0 q0 recs0) /\
  session1 L0 q0 false [(2, 100); (2, 100); (2, 100)] rows0 =
    Ok (Pages [[([], [1; 255; 0; 1; 255; 255]); ([], [3; 4; 1; 1; 4; 4])]; [([], [7; 7; 2; 3; 5; 2])]; []]).
Proof.
  split; [exact request0|]. split; [intros rec; eexists; eexists; reflexivity|]. split; [exact decode0|]. split; [|split].
  - intros _ rec I. cbn in I. destruct I as [<-|[<-|[<-|[<-|[<-|[]]]]]]; eexists; split; reflexivity.
  - apply (small_sums_fit q0 _ 10); [reflexivity|lia|]. intros rec i I. cbn in I.
    destruct I as [<-|[<-|[<-|[<-|[<-|[]]]]]]; destruct i as [|[|i]]; cbn; repeat constructor; try lia;
      destruct i; cbn; constructor.
  - vm_compute. reflexivity.
Qed.

(** Nothing at all is returned for a grouping over no rows, not even a count of zero. *)
Theorem C89_empty_no_row : forall L q ko lims, grouping_request q -> encodes L -> sums_fit q [] ->
  exists ps, session1 L q ko lims [] = Ok (Pages ps) /\ concat ps = [].
Proof. exact C89_empty_core. Qed.
Print Assumptions C89_empty_no_row.
Example C89_empty_nonvacuous : session1 L0 q0 false [(2, 100); (2, 100)] [] = Ok (Pages [[]; []]).
Proof. vm_compute. reflexivity. Qed.

(** A request that groups by, or computes on, a column the selection does not have is refused. *)
Theorem C89_missing_column : forall L q ko lims rows, schema_ok q -> names_missing_column q ->
  session1 L q ko lims rows = Ok Refused.
Proof. exact C89_missing_core. Qed.
Print Assumptions C89_missing_column.

Example C89_missing_nonvacuous :
  let q := mkReq (q_schema q0) (q_select q0) (q_filter q0) (q_group q0) [(OMax, -1)] (q_result q0) in
  names_missing_column q /\ session1 L0 q false [(2, 100)] rows0 = Ok Refused.
Proof.
  split; [|vm_compute; reflexivity]. right. exists OMax, (-1). split; [left; reflexivity|]. split; [|split; [discriminate|intros [H _]; discriminate]].
  intros [H _]. revert H. vm_compute. congruence.
Qed.

(* ------------------------------------------------------------------------------------ *)
(** * C90: a request never brings the store down *)

(** Full statement: for every request and all rows the session is refused, fails or answers.
    Missing: requests whose schema or selection names columns that do not exist, group-by columns
    without aggregates, sums of integer columns, libraries that return too few columns. *)
Theorem C90_never_crashes_partial : forall L q ko lims rows,
  schema_ok q -> (q_ops q = [] -> q_group q = []) -> no_integer_sum q -> decoders_ok L q ->
  session1 L q ko lims rows <> Crash.
Proof. exact C90_core. Qed.
Print Assumptions C90_never_crashes_partial.

Definition q1 : request := mkReq [(TyInt, 0); (TyLong, 1)] [] true [0]
  [(OCount, 1); (OMax, 1)] [TyInt; TyLong; TyLong].
Example C90_nonvacuous :
  schema_ok q1 /\ (q_ops q1 = [] -> q_group q1 = []) /\ no_integer_sum q1 /\ decoders_ok L0 q1 /\
  session1 L0 q1 false [(9, 100)] rows0 = Ok (Pages [[([], [1; 0; 255]); ([], [3; 1; 4]); ([], [7; 2; 5])]]) /\
  session1 L0 q1 false [(9, 100)] (rows0 ++ [([9], [])]) = Ok Failed.
Proof.
  split; [exact schema0|]. split; [discriminate|]. split.
  - intros op i t [E|[E|[]]] O; inversion E; subst; destruct O; discriminate.
  - split; [|split; vm_compute; reflexivity]. split.
    + intros k v rec E. cbn in E. destruct v as [|g [|x [|? ?]]]; inversion E; reflexivity.
    + intros k cs E. cbn in E. destruct k as [|g [|? ?]]; inversion E; reflexivity.
Qed.

(** SELECT DISTINCT: group-by columns without an aggregate *)
Theorem C90_distinct_refuted : exists L q rows, schema_ok q /\ q_group q = [0] /\ q_ops q = [] /\
  rows_decode L q rows [[CInt (Some 7); CLong (Some 5)]] /\ session1 L q false [(10, 100)] rows = Crash.
Proof.
  exists L0, (mkReq [(TyInt, 0); (TyLong, 1)] [] true [0] [] [TyInt]), [([1], [7; 5])].
  split; [exact schema0|]. split; [reflexivity|]. split; [reflexivity|]. split; [|vm_compute; reflexivity].
  split; [repeat constructor|]. split; [|intros _; repeat constructor; discriminate].
  assert (X := proj1 (proj2 decode0)). inversion X. constructor; [assumption|constructor].
Qed.
Print Assumptions C90_distinct_refuted.

(** a sum of integers beyond the type *)
Theorem C90_sum_refuted : exists L q rows recs, grouping_request q /\ rows_decode L q rows recs /\
  session1 L q false [(10, 100)] rows = Crash.
Proof.
  exists (mkLib (fun k v => Some [CInt (Some 7); CLong (Some (2 ^ 62))]) (fun _ => Some true) (l_enc_key L0) (l_dec_key L0)
    (l_encode L0) Z.add Z.ltb 0), q0, [([1], []); ([2], [])],
    [[CInt (Some 7); CLong (Some (2 ^ 62))]; [CInt (Some 7); CLong (Some (2 ^ 62))]].
  split; [exact request0|]. split; [|vm_compute; reflexivity].
  split; [repeat constructor|]. split; [|intros _; repeat constructor; discriminate].
  assert (X := proj1 (proj2 decode0)). inversion X as [|? ? Y]; subst.
  assert (T : record_typed q0 [CInt (Some 7); CLong (Some (2 ^ 62))]).
  { destruct Y as [Y1 Y2]. split; [reflexivity|]. intros i c N. unfold nthz in *. destruct (i <? 0) eqn:EI; [discriminate|].
    destruct (Z.to_nat i) as [|[|n]] eqn:EN.
    - inversion N. specialize (Y2 i (CInt (Some 7))). rewrite EI, EN in Y2. exact (Y2 eq_refl).
    - inversion N. specialize (Y2 i (CLong (Some 5))). rewrite EI, EN in Y2. exact (Y2 eq_refl).
    - cbn in N. destruct n; discriminate. }
  constructor; [exact T|]. constructor; [exact T|constructor].
Qed.
Print Assumptions C90_sum_refuted.

(** a column that does not exist, selected or in the schema *)
Theorem C90_columns_refuted :
  session1 L0 (mkReq [(TyInt, 0); (TyLong, 1)] [2] false [] [] []) false [(10, 100)] rows0 = Crash /\
  session1 L0 (mkReq [(TyInt, 0); (TyLong, 2)] [] false [] [] []) false [(10, 100)] rows0 = Crash.
Proof. split; vm_compute; reflexivity. Qed.
Print Assumptions C90_columns_refuted.

(** the count of the second generation, when its row cannot be encoded *)
Theorem C90_count_refuted : exists (R : runner unit) rows, pages2 R true false [(10, 100)] rows tt = Crash.
Proof. exists (mkRunner unit tt (fun s kv => Some (s, Some kv)) (fun s => Some (s, [])) (fun _ => EncRet)), []. vm_compute. reflexivity. Qed.
Print Assumptions C90_count_refuted.

(* ------------------------------------------------------------------------------------ *)
(** * C91: filters and projections over a scan session *)

(** First generation, no groups: the pages are the encodings of the kept records in order. *)
Theorem C91_selection : forall L q rows recs ko lims,
  selection_request q -> encodes L -> rows_decode L q rows recs ->
  exists outs ps, session1 L q ko lims rows = Ok (Pages ps) /\
    Forall2 (fun rec kv => l_encode L rec = Enc (fst kv) (snd kv)) (kept L q recs) outs /\
    delivers lims (map (shown_row ko) outs) ps.
Proof. exact C91_select_core. Qed.
Print Assumptions C91_selection.

Definition q2 : request := mkReq [(TyInt, 0); (TyLong, 1)] [] true [] [] [].
Example C91_selection_nonvacuous : selection_request q2 /\ encodes L0 /\ rows_decode L0 q2 rows0 recs0 /\
  session1 L0 q2 false [(2, 100); (9, 5); (2, 100)] rows0 =
    Ok (Pages [[([], [7; 5]); ([], [3; 4])]; [([], [7; 255]); ([], [7; 2]); ([], [1; 255])]; []]).
Proof.
  split; [split; [exact schema0|split; reflexivity]|]. split; [intros rec; eexists; eexists; reflexivity|].
  split; [exact decode0|]. vm_compute. reflexivity.
Qed.

(** Second generation: the pages are the results of the rows read, in order; a page says there is
    no more exactly when all rows are read; after more pages than rows one has said so. *)
Theorem C91_stream : forall S (R : runner S) f ko lims rows s, streaming R f ->
  exists ps n, pages2 R false ko lims rows s = Ok (Some ps) /\ (n <= length rows)%nat /\
    concat (map fst ps) = map (shown_row ko) (results f (firstn n rows)) /\
    Forall2 (fun l p => Z.of_nat (length (fst p)) <= Z.max 1 (fst l)) lims ps /\
    ((exists p, In (p, false) ps) -> n = length rows) /\
    ((length rows < length lims)%nat -> exists p, In (p, false) ps).
Proof. exact C91_stream_core. Qed.
Print Assumptions C91_stream.

Definition R0 : runner unit := mkRunner unit tt
  (fun s kv => Some (s, if bltb [3] (snd kv) then Some kv else None)) (fun s => Some (s, [])) (fun n => Enc [] [n]).
Definition f0 (kv : row) : option row := if bltb [3] (snd kv) then Some kv else None.
Example C91_stream_nonvacuous : streaming R0 f0 /\
  pages2 R0 false false [(3, 100); (3, 100); (3, 100)] rows0 tt =
    Ok (Some [([([1], [7; 5]); ([2], [3; 4]); ([3], [7])], true); ([([4], [7; 9]); ([5], [7; 2])], true); ([], false)]).
Proof. split; [split; reflexivity|]. vm_compute. reflexivity. Qed.

(** A row whose result cannot be encoded is left out without an error. *)
Theorem C91_encoder_refuted : exists L q rows recs, selection_request q /\ rows_decode L q rows recs /\
  length rows = 1%nat /\ session1 L q false [(10, 100); (10, 100)] rows = Ok (Pages [[]; []]).
Proof.
  exists (mkLib (l_decode L0) (l_keep L0) (l_enc_key L0) (l_dec_key L0) (fun _ => EncRet) Z.add Z.ltb 0), q2,
    [([1], [7; 5])], [[CInt (Some 7); CLong (Some 5)]].
  split; [split; [exact schema0|split; reflexivity]|]. split; [|split; [reflexivity|vm_compute; reflexivity]].
  split; [repeat constructor|]. split; [|intros _; repeat constructor; discriminate].
  assert (X := proj1 (proj2 decode0)). inversion X. constructor; [assumption|constructor].
Qed.
Print Assumptions C91_encoder_refuted.

(* ------------------------------------------------------------------------------------ *)
(** * C92: transactional scans with a coprocessor *)

(** Filters and projections: over a region reached by any history, the pages are the results of
    the rows of the snapshot, in order, up to the first lock in the way. *)
Theorem C92_pages : forall S (R : runner S) f c P g i ts rs ko a b limit full ps, streaming R f ->
  plan_ok P -> reachable c P g -> a <> [] -> (forall p, In p ps -> same_values (rg_store g) (snd p)) ->
  exists pages kvs oc n, cop_pages R (rg_store g) i ts rs ko a b limit full ps = Ok pages /\
    match oc with None => full_scan (rg_store g) i ts rs a b kvs | Some l => stopped_scan (rg_store g) i ts rs a b kvs l end /\
    concat (map pg_kvs pages) = map (shown_row ko) (results f (firstn n kvs)) /\
    (forall p, In p pages -> pg_err p = false /\
       (pg_more p = false \/ pg_conf p <> None -> concat (map pg_kvs pages) = map (shown_row ko) (results f kvs) /\ pg_conf p = oc)) /\
    ((length kvs <= length ps)%nat -> exists p, In p pages /\ (pg_more p = false \/ pg_conf p <> None)).
Proof. exact @C92_pages_core. Qed.
Print Assumptions C92_pages.

(** Aggregates: unless a lock is in the way the first page has the aggregates of the whole
    snapshot, and says that there is no more. *)
Theorem C92_aggregate : forall S (R : runner S) upd fin c P g i ts rs ko a b limit full, blocking R upd fin ->
  plan_ok P -> reachable c P g -> a <> [] -> 0 < limit -> full O = false ->
  exists p x, cop_first R false (rg_store g) i ts rs ko limit full a b = Ok (p, x) /\ pg_err p = false /\
    match pg_conf p with
    | None => exists kvs, full_scan (rg_store g) i ts rs a b kvs /\ pg_kvs p = fin (fold_left upd kvs (r_start R)) /\ pg_more p = false
    | Some l => exists kvs, stopped_scan (rg_store g) i ts rs a b kvs l
    end.
Proof. exact @C92_aggregate_core. Qed.
Print Assumptions C92_aggregate.

(** Counts: when no lock is in the way the first page has the number of rows of the snapshot. *)
Theorem C92_count : forall S (R : runner S) c P g i ts rs ko a b limit full kvs k v,
  plan_ok P -> reachable c P g -> a <> [] -> full_scan (rg_store g) i ts rs a b kvs ->
  r_count R (Z.of_nat (length kvs)) = Enc k v ->
  exists p x, cop_first R true (rg_store g) i ts rs ko limit full a b = Ok (p, x) /\ pg_err p = false /\ pg_conf p = None /\
    pg_kvs p = [(k, v)] /\ pg_more p = false.
Proof. exact @C92_count_core. Qed.
Print Assumptions C92_count.

(** the number of rows and the sum of their first bytes *)
Definition RA : runner Z := mkRunner Z 0
  (fun s kv => Some (s + match snd kv with x :: _ => x | [] => 0 end, None)) (fun s => Some (0, [([], [s])])) (fun n => Enc [] [n]).
Definition updA (s : Z) (kv : row) : Z := s + match snd kv with x :: _ => x | [] => 0 end.
Definition finA (s : Z) : list row := [([], [s])].
Definition never : nat -> bool := fun _ => false.
Definition dsR := datas (rg_store gR).
Example C92_nonvacuous :
  plan_ok PR /\ reachable default_cfg PR gR /\ streaming R0 f0 /\ blocking RA updA finA /\ same_values (rg_store gR) dsR /\
  (exists pages, cop_pages R0 (rg_store gR) SI 20 [] false kA [122] 1 never [(1, never, dsR); (1, never, dsR); (1, never, dsR)] = Ok pages /\
     length (concat (map pg_kvs pages)) = 1%nat /\ existsb (fun p => negb (pg_more p)) pages = true) /\
  (exists p x, cop_first RA false (rg_store gR) SI 30 [] false 10 never kA [122] = Ok (p, x) /\ pg_conf p = None /\ pg_more p = false /\ length (pg_kvs p) = 1%nat) /\
  (exists p x, cop_first RA true (rg_store gR) SI 30 [] false 10 never kA [122] = Ok (p, x) /\ pg_conf p = None /\ pg_more p = false /\ length (pg_kvs p) = 1%nat).
Proof.
  split; [exact plan_R|]. split; [exact reach_R|]. split; [split; reflexivity|]. split; [split; [reflexivity|intros s; exists 0; reflexivity]|].
  split; [intros k v w _ _ _; reflexivity|].
  split; [eexists; split; [vm_compute; reflexivity|split; vm_compute; reflexivity]|].
  split; eexists; eexists; (split; [vm_compute; reflexivity|split; [|split]; vm_compute; reflexivity]).
Qed.

(* ------------------------------------------------------------------------------------ *)
(** * C93: complete aggregates, once *)

(** Full statement: a client that reads pages until has_more is false and meets no lock gets each
    aggregate (count) over all rows exactly once.  Proved: one page that holds all rows. *)
Theorem C93_one_page_partial : forall S (R : runner S) upd fin ko mc mb rows, blocking R upd fin ->
  Z.of_nat (length rows) < mc -> size_of rows < mb ->
  pages2 R false ko [(mc, mb)] rows (r_start R) = Ok (Some [(fin (fold_left upd rows (r_start R)), false)]).
Proof. exact @C93_one_page_core. Qed.
Print Assumptions C93_one_page_partial.

Theorem C93_count_partial : forall S (R : runner S) ko mc mb rows k v, r_count R (Z.of_nat (length rows)) = Enc k v ->
  pages2 R true ko [(mc, mb)] rows (r_start R) = Ok (Some [([(k, v)], false)]).
Proof. exact @C93_count_core. Qed.
Print Assumptions C93_count_partial.

Example C93_nonvacuous : blocking RA updA finA /\
  pages2 RA false false [(10, 100)] rows0 0 = Ok (Some [([([], [32])], false)]) /\
  pages2 RA true false [(10, 100)] rows0 0 = Ok (Some [([([], [6])], false)]).
Proof. split; [split; [reflexivity|intros s; exists 0; reflexivity]|]. split; vm_compute; reflexivity. Qed.

(** Rows that do not fit one page: every page has an aggregate of its own. *)
Theorem C93_per_page_refuted : exists (R : runner Z) upd fin rows ps, blocking R upd fin /\
  pages2 R false false [(3, 100); (3, 100); (3, 100)] rows (r_start R) = Ok (Some ps) /\
  map snd ps = [true; true; false] /\ (length (concat (map fst ps)) > length (fin (fold_left upd rows (r_start R))))%nat /\
  ~ In (fin (fold_left upd rows (r_start R))) (map fst ps).
Proof.
  exists RA, updA, finA, rows0. eexists. split; [split; [reflexivity|intros s; exists 0; reflexivity]|].
  split; [vm_compute; reflexivity|]. split; [reflexivity|]. split; [vm_compute; auto 10|]. vm_compute. intuition discriminate.
Qed.
Print Assumptions C93_per_page_refuted.

(** The page after a count counts again, and finds nothing. *)
Theorem C93_count_again_refuted : exists (R : runner Z) rows,
  pages2 R true false [(10, 100); (10, 100)] rows 0 = Ok (Some [([([], [6])], false); ([([], [0])], false)]).
Proof. exists RA, rows0. vm_compute. reflexivity. Qed.
Print Assumptions C93_count_again_refuted.

(** A lock met after the first row: aggregates of some rows are returned with the lock, and
    has_more is false, so a client that resolves the lock cannot go on. *)
Theorem C93_lock_refuted : exists (R : runner Z) upd fin c P g p x, blocking R upd fin /\ plan_ok P /\ reachable c P g /\
  cop_first R false (rg_store g) SI 60 [] false 10 never kA [122] = Ok (p, x) /\
  pg_conf p <> None /\ pg_more p = false /\ pg_kvs p <> [].
Proof.
  exists RA, updA, finA, default_cfg, PR, gR. eexists. eexists. split; [split; [reflexivity|intros s; exists 0; reflexivity]|].
  split; [exact plan_R|]. split; [exact reach_R|]. split; [vm_compute; reflexivity|]. split; [discriminate|split; [reflexivity|discriminate]].
Qed.
Print Assumptions C93_lock_refuted.
