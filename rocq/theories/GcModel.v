(** Model of garbage collection of the multi-version key-value data.
    Source: src/engine/txn_engine_helper.cc.  Garbage collection of transactional data is
    [gc_txn] in TxnModel. *)
From Coq Require Import ZArith List Bool.
From Verif Require Import Bytes Outcome CodecModel MvccModel.
Import ListNotations.
Open Scope Z_scope.

(** The loop of TxnEngineHelper::DoGcCoreNonTxn, txn_engine_helper.cc:5209-5306: the stored keys
    each visited version adds to kv_deletes_default.  [sp] is the safe point, [now] is
    start_time_ms (5117), [cur] is last_default_key, [gt] is
    is_exist_default_key_if_ts_gt_safe_point_ts and [first] is
    is_first_put_key_if_ts_le_safe_point_ts.  A key that does not decode and an unknown value flag
    are DINGO_LOG(FATAL), i.e. [Crash].  Simplification: the scalar, table and speed-up column
    families of a vector region receive the same keys as the data column family (5180-5205) and
    are not modelled separately; the partition check of a vector region (5225-5238) is left out. *)
Fixpoint gc_kv_scan (sp now : Z) (l : store) (cur : bytes) (gt first : bool)
  : outcome (list (list bytes)) :=
  match l with
  | [] => Ok []
  | e :: rest =>
      olet d := decode_key (fst e) in
      match d with
      | None => Crash
      | Some (k, t) =>
          let gt := if beqb cur k then gt else sp <? t in
          let first := if beqb cur k then first else negb (sp <? t) in
          if sp <? t then omap (cons []) (gc_kv_scan sp now rest k gt first)
          else
            olet f := get_value_flag (snd e) in
            let hit := negb gt && first in
            match f with
            | kPut =>
                if hit then omap (cons []) (gc_kv_scan sp now rest k true false)
                else omap (cons [fst e]) (gc_kv_scan sp now rest k gt first)
            | kPutTTL =>
                if hit then
                  olet ttl := get_value_ttl (snd e) in
                  if now <=? ttl then omap (cons []) (gc_kv_scan sp now rest k true false)
                  else omap (cons [fst e]) (gc_kv_scan sp now rest k true false)
                else omap (cons [fst e]) (gc_kv_scan sp now rest k gt first)
            | kDelete =>
                omap (cons [fst e])
                     (gc_kv_scan sp now rest k (if hit then true else gt) (if hit then false else first))
            end
      end
  end.

(** txn_engine_helper.cc:5308-5345 and 5366-5380: a batch is proposed when enough deletes have
    gathered, and once more at the end.  [per] is the number of deletes one version counts for
    (1 in a store region; the other column families of a vector region count too). *)
Fixpoint gc_kv_flush (limit per : Z) (items : list (list bytes)) (acc : list bytes) : list (list bytes) :=
  match items with
  | [] => match acc with [] => [] | _ => [acc] end
  | [] :: rest => gc_kv_flush limit per rest acc
  | it :: rest =>
      if limit <=? per * Z.of_nat (length (acc ++ it)) then (acc ++ it) :: gc_kv_flush limit per rest []
      else gc_kv_flush limit per rest (acc ++ it)
  end.

(** TxnEngineHelper::DoGcCoreNonTxn, txn_engine_helper.cc:5104-5405: the batches of stored keys
    proposed for deletion, for the snapshot taken at the start.  gc_stop (5317-5325, 5352-5358)
    and failed proposals (DoFinalWorkForNonTxnGc, 5826-5888, whose result is ignored) mean that
    only some of these batches take effect.  Simplification: the region covers the whole store. *)
Definition gc_kv (limit per sp now : Z) (st : store) : outcome (list (list bytes)) :=
  omap (fun items => gc_kv_flush limit per items []) (gc_kv_scan sp now st [] false true).

(** one proposed batch applied: RaftEngineWriteForNonTxnStoreAndDocumentGc,
    txn_engine_helper.cc:5619-5656, proposes real deletes of the stored keys, applied by
    TxnHandler::HandleMultiCfPutAndDeleteRequest, handler/raft_apply_handler_txn.cc:40-254 *)
Definition kv_delete (st : store) (keys : list bytes) : store :=
  filter (fun e => negb (existsb (beqb (fst e)) keys)) st.
Definition kv_deletes (st : store) (batches : list (list bytes)) : store :=
  fold_left kv_delete batches st.
