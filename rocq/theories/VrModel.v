(** Model of the vector store below the index: what VectorAdd / VectorDelete write, and the
    reads that go to the store itself: VectorScanQuery, VectorBatchQuery, VectorCount,
    VectorGetBorderId, the selection of vectors by their attributes, brute-force search and
    the attribute filter after a search.
    Sources: src/handler/raft_apply_handler.cc (VectorAddHandler, VectorDeleteHandler),
    src/vector/vector_reader.cc, src/vector/vector_index.h (SortFilterFunctor),
    src/vector/vector_index_utils.cc (attribute schema), src/common/helper.cc:1580-1619.
    Simplifications: a request reads one state of the store and one clock value; protobuf
    serialization is a parameter [wire]; attribute filters are the equality filters (the
    expression coprocessor is in a submodule that is not part of the repository); attributes
    are association lists, the first binding of a key counts; floating point attribute values
    are integers (no NaN, one zero); distances are integers. *)
From Coq Require Import ZArith List Bool.
From Verif Require Import Bytes SMap Outcome CodecModel MvccModel RawModel VqModel.
Import ListNotations.
Open Scope Z_scope.

(** ** attributes *)

(** pb::common::ScalarFieldType *)
Inductive ftype := TNone | TBool | TInt8 | TInt16 | TInt32 | TInt64 | TFloat | TDouble | TString | TBytes | TDatetime.
Definition ftype_eqb (a b : ftype) : bool :=
  match a, b with
  | TNone, TNone | TBool, TBool | TInt8, TInt8 | TInt16, TInt16 | TInt32, TInt32 | TInt64, TInt64
  | TFloat, TFloat | TDouble, TDouble | TString, TString | TBytes, TBytes | TDatetime, TDatetime => true
  | _, _ => false
  end.

(** pb::common::ScalarField, a oneof *)
Inductive field := FNone | FBool (b : bool) | FInt (z : Z) | FLong (z : Z) | FFloat (z : Z) | FDouble (z : Z)
                 | FString (s : bytes) | FBytes (s : bytes).

(** the generated accessors: the default value when another member of the oneof is set *)
Definition bool_data (f : field) : bool := match f with FBool b => b | _ => false end.
Definition int_data (f : field) : Z := match f with FInt z => z | _ => 0 end.
Definition long_data (f : field) : Z := match f with FLong z => z | _ => 0 end.
Definition float_data (f : field) : Z := match f with FFloat z => z | _ => 0 end.
Definition double_data (f : field) : Z := match f with FDouble z => z | _ => 0 end.
Definition string_data (f : field) : bytes := match f with FString s => s | _ => [] end.
Definition bytes_data (f : field) : bytes := match f with FBytes s => s | _ => [] end.

(** pb::common::ScalarValue *)
Record sval := mkS { s_type : ftype; s_fields : list field }.
(** pb::common::VectorScalardata *)
Definition scalars : Type := list (bytes * sval).

Fixpoint lookup (k : bytes) (m : scalars) : option sval :=
  match m with
  | [] => None
  | (k', v) :: r => if beqb k k' then Some v else lookup k r
  end.

(** the macro CASE, helper.cc:1585-1597 *)
Fixpoint same_fields {A} (get : field -> A) (eqb : A -> A -> bool) (x y : list field) : bool :=
  match x, y with
  | [], [] => true
  | a :: x', b :: y' => eqb (get a) (get b) && same_fields get eqb x' y'
  | _, _ => false
  end.

(** Helper::IsEqualVectorScalarValue, helper.cc:1580-1619 *)
Definition is_equal (x y : sval) : bool :=
  if negb (ftype_eqb (s_type x) (s_type y)) then false
  else match s_type x with
       | TBool => same_fields bool_data Bool.eqb (s_fields x) (s_fields y)
       | TInt8 | TInt16 | TInt32 => same_fields int_data Z.eqb (s_fields x) (s_fields y)
       | TInt64 => same_fields long_data Z.eqb (s_fields x) (s_fields y)
       | TFloat => same_fields float_data Z.eqb (s_fields x) (s_fields y)
       | TDouble => same_fields double_data Z.eqb (s_fields x) (s_fields y)
       | TString => same_fields string_data beqb (s_fields x) (s_fields y)
       | TBytes => same_fields bytes_data beqb (s_fields x) (s_fields y)
       | TNone | TDatetime => false
       end.

(** VectorReader::ScalarCompareCore, vector_reader.cc:1189-1203; the loop of
    CompareVectorScalarData, 388-402, is the same *)
Definition compare_core (flt m : scalars) : bool :=
  forallb (fun kv => match lookup (fst kv) m with
                     | None => false
                     | Some y => is_equal (snd kv) y
                     end) flt.

(** ** vectors, and how they are serialized *)

(** pb::common::VectorWithId *)
Record vec := mkV { v_id : Z; v_data : list Z; v_scalar : scalars; v_table : bytes }.

(** SerializeAsString / ParseFromString of pb::common::Vector, VectorScalardata,
    VectorTableData and ScalarValue *)
Record wire := {
  ser_vec : list Z -> bytes;   par_vec : bytes -> option (list Z);
  ser_map : scalars -> bytes;  par_map : bytes -> option scalars;
  ser_tab : bytes -> bytes;    par_tab : bytes -> option bytes;
  ser_val : sval -> bytes;     par_val : bytes -> option sval }.

(** CHECK(x.ParseFromString(..)) *)
Definition parsed {A} (o : option A) : outcome A := match o with Some a => Ok a | None => Crash end.

(** pb::common::ScalarSchemaItem *)
Record schema_item := mkF { f_key : bytes; f_type : ftype; f_speed : bool }.
Definition schema : Type := list schema_item.

(** region: plain range (region->Range(false)) and partition *)
Record region := mkG { g_start : bytes; g_end : bytes; g_part : Z; g_schema : schema }.

(** Helper::GetKeyPrefix(range), helper.cc: the first byte of the start key *)
Definition key_prefix (g : region) : outcome Z :=
  match g_start g with [] => Crash | b :: _ => Ok b end.

(** the four column families of a vector region *)
Record cfs := mkC { cf_data : store; cf_scalar : store; cf_table : store; cf_speed : store }.
Definition cfs0 : cfs := mkC [] [] [] [].

(** ** writes *)

(** mvcc::Codec::PackageValue as VectorAddHandler calls it, raft_apply_handler.cc:1160-1164 *)
Definition vflag_of (ttl : Z) : value_flag := if ttl =? 0 then kPut else kPutTTL.
Definition add_item (k : bytes) (ttl : Z) (value : bytes) : item := mkI k (vflag_of ttl) ttl value.
Definition del_item (k : bytes) : item := mkI k kDelete 0 [].

(** VectorIndexUtils::ValidateVectorScalarData, vector_index_utils.cc:1296-1323, called for every
    vector by index_service.cc:519, 1329 and 2963 *)
Definition valid_scalars (s : schema) (m : scalars) : bool :=
  forallb (fun f =>
    match lookup (f_key f) m with
    | None => negb (f_speed f)
    | Some v => ftype_eqb (f_type f) (s_type v)
    end) s.

(** VectorIndexUtils::SplitVectorScalarData, vector_index_utils.cc:1325-1339 *)
Fixpoint split_scalars (s : schema) (m : scalars) : list (bytes * sval) :=
  match s with
  | [] => []
  | f :: r =>
      if f_speed f then
        match lookup (f_key f) m with
        | Some v => (f_key f, v) :: split_scalars r m
        | None => split_scalars r m
        end
      else split_scalars r m
  end.

(** VectorAddHandler::Handle, raft_apply_handler.cc:1150-1262: the items for one vector *)
Definition add_vec (W : wire) (g : region) (ts ttl : Z) (c : cfs) (v : vec) : outcome cfs :=
  olet p := key_prefix g in
  olet k := package_key3 p (g_part g) (v_id v) in
  olet ss := omap_list (fun kv => olet k' := package_key4 p (g_part g) (v_id v) (fst kv) in
                                  Ok (add_item k' ttl (ser_val W (snd kv))))
                       (split_scalars (g_schema g) (v_scalar v)) in
  Ok (mkC (put_item ts (cf_data c) (add_item k ttl (ser_vec W (v_data v))))
          (put_item ts (cf_scalar c) (add_item k ttl (ser_map W (v_scalar v))))
          (put_item ts (cf_table c) (add_item k ttl (ser_tab W (v_table v))))
          (fold_left (put_item ts) ss (cf_speed c))).

(** VectorDeleteHandler::Handle, raft_apply_handler.cc:1414-1449: the items for one id *)
Definition del_vec (g : region) (ts : Z) (c : cfs) (id : Z) : outcome cfs :=
  olet p := key_prefix g in
  olet k := package_key3 p (g_part g) id in
  olet ss := omap_list (fun f => olet k' := package_key4 p (g_part g) id (f_key f) in Ok (del_item k'))
                       (filter f_speed (g_schema g)) in
  Ok (mkC (put_item ts (cf_data c) (del_item k))
          (put_item ts (cf_scalar c) (del_item k))
          (put_item ts (cf_table c) (del_item k))
          (fold_left (put_item ts) ss (cf_speed c))).

Fixpoint ofold {S A} (f : S -> A -> outcome S) (s : S) (l : list A) : outcome S :=
  match l with [] => Ok s | a :: r => olet s' := f s a in ofold f s' r end.

(** the log of the region: VECTOR_ADD and VECTOR_DELETE entries *)
Inductive op := OAdd (ts ttl : Z) (vs : list vec) | ODel (ts : Z) (ids : list Z).
Definition apply_op (W : wire) (g : region) (c : cfs) (o : op) : outcome cfs :=
  match o with
  | OAdd ts ttl vs => ofold (add_vec W g ts ttl) c vs
  | ODel ts ids => ofold (del_vec g ts) c ids
  end.
Definition apply_ops (W : wire) (g : region) (h : list op) : outcome cfs := ofold (apply_op W g) cfs0 h.

(** ** the iterator, one entry at a time *)

(** "for (iter->Seek(..); iter->Valid(); iter->Next())" with a body that may stop *)
Fixpoint visit {S} (body : S -> entry -> outcome (S * bool)) (s : S)
  (fuel : nat) (ts now : Z) (prev : bytes) (l : list entry) : outcome S :=
  match fuel with
  | O => Crash
  | Datatypes.S fuel' =>
      olet (prev', l') := next_visible ts now prev l in
      match l' with
      | [] => Ok s
      | e :: _ =>
          olet (s', go) := body s e in
          if go : bool then visit body s' fuel' ts now prev' l' else Ok s'
      end
  end.

(** "for (iter->SeekForPrev(..); iter->Valid(); iter->Prev())" *)
Fixpoint visit_back {S} (body : S -> entry -> outcome (S * bool)) (s : S)
  (fuel : nat) (ts now : Z) (l : list entry) : outcome S :=
  match fuel with
  | O => Crash
  | Datatypes.S fuel' =>
      olet (cur, l') := prev_visible ts now None l in
      match cur with
      | None => Ok s
      | Some e =>
          olet (s', go) := body s e in
          if go : bool then visit_back body s' fuel' ts now l' else Ok s'
      end
  end.

(** NewIterator(cf, ts, {upper_bound}); Seek(target) *)
Definition walk {S} (body : S -> entry -> outcome (S * bool)) (s : S) (st : store) (ts now : Z)
  (target upper : bytes) : outcome S :=
  let l := raw_seek upper target st in visit body s (Datatypes.S (length l)) (read_ts ts) now [] l.
(** NewIterator(cf, ts, {lower_bound}); SeekForPrev(target) *)
Definition walk_back {S} (body : S -> entry -> outcome (S * bool)) (s : S) (st : store) (ts now : Z)
  (lower target : bytes) : outcome S :=
  let l := raw_seek_for_prev lower target st in visit_back body s (Datatypes.S (length l)) (read_ts ts) now l.

(** VectorCodec::DecodeVectorIdFromEncodeKeyWithTs, vector/codec.cc:169-178 *)
Definition decode_id_ts (e : bytes) : outcome Z :=
  if negb (enc_ts_len_ok (length e)) then Crash
  else olet t := vector_truncate_ts e in
       olet p := decode_or_abort t in unpackage_vector_id p.
(** VectorCodec::DecodeScalarKeyFromEncodeKeyWithTs, vector/codec.cc:190-198 *)
Definition decode_scalar_ts (e : bytes) : outcome bytes :=
  if (length e <? 35)%nat then Crash
  else olet t := vector_truncate_ts e in
       olet p := decode_or_abort t in unpackage_scalar p.

(** CHECK(vector_id > 0) after decoding, e.g. vector_reader.cc:751-752 *)
Definition checked_id (e : bytes) : outcome Z :=
  olet id := decode_id_ts e in if 0 <? id then Ok id else Crash.

(** ** queries by id *)

Definition plain_of (g : region) (id : Z) : outcome bytes :=
  olet p := key_prefix g in package_key3 p (g_part g) id.

(** what a query returns for one id: [None] is the empty VectorWithId *)
Record out := mkO { o_id : Z; o_data : option (list Z); o_scalar : option scalars; o_table : option bytes }.

(** VectorReader::QueryVectorWithId, vector_reader.cc:80-101 *)
Definition query_vec (W : wire) (g : region) (c : cfs) (ts now id : Z) (with_data : bool) : outcome (option out) :=
  olet k := plain_of g id in
  olet r := kv_get (cf_data c) ts now k in
  match r with
  | ROk value =>
      if with_data then olet d := parsed (par_vec W value) in Ok (Some (mkO id (Some d) None None))
      else Ok (Some (mkO id None None None))
  | _ => Ok None
  end.

(** VectorReader::QueryVectorScalarData, vector_reader.cc:307-335 *)
Definition selected (keys : list bytes) (m : scalars) : scalars :=
  match keys with
  | [] => m
  | _ => filter (fun kv => existsb (beqb (fst kv)) keys) m
  end.
Definition query_scalar (W : wire) (g : region) (c : cfs) (ts now : Z) (keys : list bytes) (o : out) : outcome out :=
  olet k := plain_of g (o_id o) in
  olet r := kv_get (cf_scalar c) ts now k in
  match r with
  | ROk value => olet m := parsed (par_map W value) in
                 Ok (mkO (o_id o) (o_data o) (Some (selected keys m)) (o_table o))
  | _ => Ok o
  end.

(** VectorReader::QueryVectorTableData, vector_reader.cc:271-288 *)
Definition query_table (W : wire) (g : region) (c : cfs) (ts now : Z) (o : out) : outcome out :=
  olet k := plain_of g (o_id o) in
  olet r := kv_get (cf_table c) ts now k in
  match r with
  | ROk value => olet d := parsed (par_tab W value) in Ok (mkO (o_id o) (o_data o) (o_scalar o) (Some d))
  | _ => Ok o
  end.

(** what the request asks for *)
Record want := mkW { w_data : bool; w_scalar : bool; w_table : bool; w_keys : list bytes }.

Definition on_found (f : out -> outcome out) (o : option out) : outcome (option out) :=
  match o with None => Ok None | Some x => omap Some (f x) end.

(** VectorReader::VectorBatchQuery, vector_reader.cc:468-513: one pass per column family *)
Definition batch_query (W : wire) (g : region) (c : cfs) (ts now : Z) (w : want) (ids : list Z)
  : outcome (list (option out)) :=
  olet os := omap_list (fun id => query_vec W g c ts now id (w_data w)) ids in
  olet os := if w_scalar w then omap_list (on_found (query_scalar W g c ts now (w_keys w))) os else Ok os in
  if w_table w then omap_list (on_found (query_table W g c ts now)) os else Ok os.

(** ** VectorScanQuery *)

(** VectorReader::CompareVectorScalarData, vector_reader.cc:369-403 *)
Definition compare_scalar (W : wire) (g : region) (c : cfs) (ts now id : Z) (flt : scalars) : outcome (read_result bool) :=
  olet k := plain_of g id in
  olet r := kv_get (cf_scalar c) ts now k in
  match r with
  | ROk value => olet m := parsed (par_map W value) in Ok (ROk (compare_core flt m))
  | RNotFound => Ok RNotFound
  | RKeyEmpty => Ok RKeyEmpty
  end.

(** VectorScanQueryRequest; [q_filter] is [None] when use_scalar_filter is not set *)
Record scanq := mkQ { q_start : Z; q_end : Z; q_back : bool; q_limit : Z; q_filter : option scalars; q_ts : Z }.

(** the body of the two loops, vector_reader.cc:747-775 and 795-823; the state is the ids found
    so far, newest first, or the error *)
Definition scan_body (W : wire) (g : region) (c : cfs) (now : Z) (q : scanq)
  (s : read_result (list Z)) (e : entry) : outcome (read_result (list Z) * bool) :=
  match s with
  | ROk acc =>
      olet id := checked_id (fst e) in
      if negb (q_end q =? 0) && (if q_back q then id <? q_end q else q_end q <? id) then Ok (s, false)
      else
        olet keep := match q_filter q with
                     | None => Ok (ROk true)
                     | Some flt => compare_scalar W g c (q_ts q) now id flt
                     end in
        match keep with
        | ROk true =>
            let acc' := id :: acc in
            Ok (ROk acc', negb (q_limit q <=? Z.of_nat (length acc')))
        | ROk false => Ok (s, true)
        | RNotFound => Ok (RNotFound, false)
        | RKeyEmpty => Ok (RKeyEmpty, false)
        end
  | _ => Ok (s, false)
  end.

(** VectorReader::ScanVectorId, vector_reader.cc:728-828 *)
Definition scan_ids (W : wire) (g : region) (c : cfs) (now : Z) (q : scanq) : outcome (read_result (list Z)) :=
  olet k := plain_of g (q_start q) in
  let seek := encode_bytes k in
  let '(lo, hi) := encode_range (g_start g, g_end g) in
  olet r :=
    if negb (q_back q) then
      let seek := if bltb seek lo then lo else seek in
      if bleb hi seek then Ok (ROk [])
      else walk (scan_body W g c now q) (ROk []) (cf_data c) (q_ts q) now seek hi
    else
      let seek := prefix_next seek in
      let seek := if bltb hi seek then hi else seek in
      if bltb seek lo then Ok (ROk [])
      else walk_back (scan_body W g c now q) (ROk []) (cf_data c) (q_ts q) now lo seek in
  match r with ROk acc => Ok (ROk (rev acc)) | _ => Ok r end.

(** ValidateVectorScanQueryRequest, index_service.cc:805-842 (the part about the arguments), and
    VectorReader::VectorScanQuery, vector_reader.cc:527-590 *)
Inductive scan_answer := SRefused | SFailed | SVectors (l : list (option out)).
Definition scan_query (W : wire) (g : region) (c : cfs) (now max_count : Z) (q : scanq) (w : want) : outcome scan_answer :=
  if (q_start q =? 0) || (q_limit q =? 0) || (max_count <? q_limit q) then Ok SRefused
  else
    olet r := scan_ids W g c now q in
    match r with
    | ROk ids => omap SVectors (batch_query W g c (q_ts q) now w ids)
    | _ => Ok SFailed
    end.

(** ** count and border ids *)

(** VectorReader::VectorCount, vector_reader.cc:640-642 *)
Definition vector_count (g : region) (c : cfs) (ts now : Z) : outcome (read_result Z) :=
  kv_count (cf_data c) ts now (g_start g) (g_end g).

(** VectorReader::GetBorderId, vector_reader.cc:677-700 *)
Definition border_id (g : region) (c : cfs) (ts now : Z) (get_min : bool) : outcome (read_result Z) :=
  olet r := if get_min then kv_min_key (cf_data c) ts now (g_start g) (g_end g) []
            else kv_max_key (cf_data c) ts now (g_start g) (g_end g) [] in
  match r with
  | ROk k => if is_empty k then Ok (ROk 0) else omap ROk (unpackage_vector_id k)
  | RNotFound => Ok RNotFound
  | RKeyEmpty => Ok RKeyEmpty
  end.

(** ** selecting vectors by attributes *)

(** InternalVectorSearchForScalarPreFilterWithScalarCF, vector_reader.cc:1205-1243 *)
Definition pre_body (W : wire) (flt : scalars) (acc : list Z) (e : entry) : outcome (list Z * bool) :=
  olet value := unpackage_value (snd e) in
  olet m := parsed (par_map W value) in
  if compare_core flt m then olet id := checked_id (fst e) in Ok (id :: acc, true)
  else Ok (acc, true).
Definition pre_ids_scalar (W : wire) (g : region) (c : cfs) (now : Z) (flt : scalars) : outcome (list Z) :=
  let '(lo, hi) := encode_range (g_start g, g_end g) in
  omap (@rev Z) (walk (pre_body W flt) [] (cf_scalar c) 0 now lo hi).

(** InternalVectorSearchForScalarPreFilterWithScalarKeySpeedUpCF, vector_reader.cc:1257-1321;
    the state is last_vector_id ([None] for the minimum), internal_vector_scalar and vector_ids *)
Definition speed_state : Type := option Z * scalars * list Z.
Definition flush (flt : scalars) (s : speed_state) : list Z :=
  let '(last, m, acc) := s in
  match last with
  | None => acc
  | Some id => if compare_core flt m then id :: acc else acc
  end.
Definition speed_body (W : wire) (flt : scalars) (keys : list bytes) (s : speed_state) (e : entry)
  : outcome (speed_state * bool) :=
  olet id := checked_id (fst e) in
  let '(last, m, acc) := s in
  let differs := match last with Some l => negb (l =? id) | None => false end in
  let '(m, acc) := if differs then ([], flush flt s) else (m, acc) in
  olet sk := decode_scalar_ts (fst e) in
  if is_empty sk then Crash
  else
    olet m := if existsb (beqb sk) keys then
                olet value := unpackage_value (snd e) in
                olet v := parsed (par_val W value) in
                Ok (match lookup sk m with Some _ => m | None => (sk, v) :: m end)
              else Ok m in
    Ok ((Some id, m, acc), true).
Definition pre_ids_speed (W : wire) (g : region) (c : cfs) (now : Z) (flt : scalars) : outcome (list Z) :=
  let '(lo, hi) := encode_range (g_start g, g_end g) in
  olet s := walk (speed_body W flt (map fst flt)) (None, [], []) (cf_speed c) 0 now lo hi in
  Ok (rev (flush flt s)).

(** VectorIndexUtils::IsNeedToScanKeySpeedUpCF, vector_index_utils.cc:1397-1445; [None] is the error *)
Fixpoint need_speed_loop (s : schema) (flt : scalars) : option bool :=
  match flt with
  | [] => Some true
  | (k, _) :: r =>
      if is_empty k then None
      else if existsb (fun f => f_speed f && beqb k (f_key f)) s then need_speed_loop s r
      else Some false
  end.
Definition need_speed (s : schema) (flt : scalars) : option bool :=
  if negb (existsb f_speed s) then Some false
  else match flt with [] => Some false | _ => need_speed_loop s flt end.

(** the ids DoVectorSearchForScalarPreFilter searches in, vector_reader.cc:880-963; [None]: refused *)
Definition pre_filter_ids (W : wire) (g : region) (c : cfs) (now : Z) (flt : scalars) : outcome (option (list Z)) :=
  match flt with
  | [] => Ok None
  | _ =>
      match need_speed (g_schema g) flt with
      | None => Ok None
      | Some true => omap Some (pre_ids_speed W g c now flt)
      | Some false => omap Some (pre_ids_scalar W g c now flt)
      end
  end.

(** ** the id filter *)

(** SortFilterFunctor::IsExist, vector_index.h:128-141; [fuel] bounds the halvings *)
Fixpoint is_exist (fuel : nat) (ids : list Z) (id first last : Z) : bool :=
  match fuel with
  | O => false
  | S fuel' =>
      if last <? first then false
      else
        let mid := (first + last) / 2 in
        let x := nth (Z.to_nat mid) ids 0 in
        if id =? x then true
        else if id <? x then is_exist fuel' ids id first (mid - 1)
        else is_exist fuel' ids id (mid + 1) last
  end.
Definition check_id (negation : bool) (ids : list Z) (id : Z) : bool :=
  let e := is_exist (S (length ids)) ids id 0 (Z.of_nat (length ids) - 1) in
  if negation then negb e else e.

(** std::sort *)
Fixpoint insert_id (x : Z) (l : list Z) : list Z :=
  match l with
  | [] => [x]
  | y :: r => if x <=? y then x :: l else y :: insert_id x r
  end.
Definition sort_ids (l : list Z) : list Z := fold_right insert_id [] l.

(** VectorReader::SetVectorIndexIdsFilter, vector_reader.cc:1772-1779 *)
Definition ids_filter (negation sorted : bool) (ids : list Z) : Z -> bool :=
  check_id negation (if sorted then ids else sort_ids ids).

(** ** brute-force search *)

(** DistanceResult's operator<, vector_reader.cc:1853-1860 *)
Definition dlt (a b : hit) : bool :=
  if snd a =? snd b then fst a <? fst b else snd a <? snd b.

(** std::priority_queue<DistanceResult>: the elements, greatest first *)
Definition pq : Type := list hit.
Fixpoint pq_push (h : hit) (q : pq) : pq :=
  match q with
  | [] => [h]
  | x :: r => if dlt h x then x :: pq_push h r else h :: q
  end.

(** vector_reader.cc:1951-1961; top() of an empty queue is undefined *)
Definition offer (topk : nat) (q : pq) (h : hit) : outcome pq :=
  if (length q <? topk)%nat then Ok (pq_push h q)
  else match q with
       | [] => Crash
       | t :: r => if snd h <? snd t then Ok (pq_push h r) else Ok q
       end.

(** the flat index over one batch: the answers to one query vector.  [flat batch q f k] *)
Definition flat_search : Type := list (Z * list Z) -> list Z -> (Z -> bool) -> nat -> list hit.

(** search one batch for every query vector, vector_reader.cc:1927-1962 and 1971-2007 *)
Fixpoint merge_batch (flat : flat_search) (topk : nat) (keep : Z -> bool) (batch : list (Z * list Z))
  (qs : list (list Z)) (tops : list pq) : outcome (list pq) :=
  match qs, tops with
  | [], _ => Ok []
  | _, [] => Crash
  | q :: qs', t :: ts' =>
      olet t' := ofold (offer topk) t (flat batch q keep topk) in
      omap (cons t') (merge_batch flat topk keep batch qs' ts')
  end.

(** the scan, vector_reader.cc:1912-1966: state = pending batch (newest first) and the queues *)
Definition brute_body (W : wire) (flat : flat_search) (batch_count : Z) (topk : nat) (keep : Z -> bool)
  (qs : list (list Z)) (s : list (Z * list Z) * list pq) (e : entry)
  : outcome ((list (Z * list Z) * list pq) * bool) :=
  olet id := checked_id (fst e) in
  olet value := unpackage_value (snd e) in
  olet d := parsed (par_vec W value) in
  let batch := (id, d) :: fst s in
  if Z.of_nat (length batch) =? batch_count then
    olet tops := merge_batch flat topk keep (rev batch) qs (snd s) in Ok (([], tops), true)
  else Ok ((batch, snd s), true).

(** VectorReader::BruteForceSearch, vector_reader.cc:1873-2048 (index ready, dimension positive);
    the vectors are read at the newest timestamp *)
Definition brute_force (W : wire) (flat : flat_search) (batch_count : Z) (g : region) (c : cfs) (now : Z)
  (topk : nat) (keep : Z -> bool) (qs : list (list Z)) : outcome (list (list hit)) :=
  let '(lo, hi) := encode_range (g_start g, g_end g) in
  olet (_, l) := next_visible (read_ts 0) now [] (raw_seek hi lo (cf_data c)) in
  match l with
  | [] => Ok []
  | _ =>
      olet s := walk (brute_body W flat batch_count topk keep qs) ([], map (fun _ => []) qs) (cf_data c) 0 now lo hi in
      olet tops := match fst s with
                   | [] => Ok (snd s)
                   | b => merge_batch flat topk keep (rev b) qs (snd s)
                   end in
      Ok (map (@rev hit) tops)
  end.

(** ** searches with a filter, use_brute_force set (SearchAndRangeSearchWrapper, 1781-1840) *)

(** DoVectorSearchForVectorIdPreFilter, vector_reader.cc:830-851 *)
Definition search_by_ids (W : wire) (flat : flat_search) (batch_count : Z) (g : region) (c : cfs) (now : Z)
  (topk : nat) (negation sorted : bool) (ids : list Z) (qs : list (list Z)) : outcome (list (list hit)) :=
  brute_force W flat batch_count g c now topk (ids_filter negation sorted ids) qs.

(** DoVectorSearchForScalarPreFilter, vector_reader.cc:853-978; [None]: refused *)
Definition search_pre (W : wire) (flat : flat_search) (batch_count : Z) (g : region) (c : cfs) (now : Z)
  (topk : nat) (flt : scalars) (qs : list (list Z)) : outcome (option (list (list hit))) :=
  olet r := pre_filter_ids W g c now flt in
  match r with
  | None => Ok None
  | Some ids => omap Some (brute_force W flat batch_count g c now topk (ids_filter false false ids) qs)
  end.

(** the loop over the candidates of one query, vector_reader.cc:187-208; [None]: the error *)
Fixpoint post_loop (W : wire) (g : region) (c : cfs) (ts now : Z) (topk : nat) (flt : scalars)
  (hs : list hit) (acc : list hit) : outcome (option (list hit)) :=
  match hs with
  | [] => Ok (Some (rev acc))
  | h :: r =>
      olet x := compare_scalar W g c ts now (fst h) flt in
      match x with
      | ROk true =>
          let acc' := h :: acc in
          if (topk <=? length acc')%nat then Ok (Some (rev acc')) else post_loop W g c ts now topk flt r acc'
      | ROk false => post_loop W g c ts now topk flt r acc
      | _ => Ok None
      end
  end.
Fixpoint post_all (W : wire) (g : region) (c : cfs) (ts now : Z) (topk : nat) (flt : scalars)
  (rs : list (list hit)) : outcome (option (list (list hit))) :=
  match rs with
  | [] => Ok (Some [])
  | hs :: r =>
      olet x := post_loop W g c ts now topk flt hs [] in
      match x with
      | None => Ok None
      | Some a => omap (option_map (cons a)) (post_all W g c ts now topk flt r)
      end
  end.

(** SearchVector with the filter after the search, vector_reader.cc:118-124 and 176-209; a search
    carries no timestamp (engine.h:133; index_service.cc sets it for queries and scans only) *)
Definition search_post (W : wire) (flat : flat_search) (batch_count : Z) (g : region) (c : cfs) (now : Z)
  (topk : nat) (flt : scalars) (qs : list (list Z)) : outcome (option (list (list hit))) :=
  match flt with
  | [] => omap Some (brute_force W flat batch_count g c now topk (fun _ => true) qs)
  | _ => olet rs := brute_force W flat batch_count g c now (topk * 10)%nat (fun _ => true) qs in
         post_all W g c 0 now topk flt rs
  end.
