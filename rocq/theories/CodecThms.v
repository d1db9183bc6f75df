(** Property theorems C01-C04 and C38 (see properties.jsonl). *)
From Coq Require Import ZArith List Lia.
From Verif Require Import Bytes Outcome CodecModel CodecSpec CodecProofs CodecProofs2.
Import ListNotations.
Open Scope Z_scope.

(** ** C01 *)

(** Every key and timestamp encode, in the memory-comparable format followed by the
    complemented timestamp, and decode to themselves. *)
Theorem C01_key_roundtrip : forall k ts, bytes_ok k -> ts_ok ts ->
  exists e, encode_key k ts = Ok e /\ bytes_ok e /\ decode_key e = Ok (Some (k, ts)) /\
            truncate_ts e = Ok (memcomparable k) /\ truncate_key e = Ok ts /\
            e = memcomparable k ++ be 8 (2 ^ 64 - 1 - ts).
Proof. exact roundtrip_key. Qed.
Print Assumptions C01_key_roundtrip.

Theorem C01_bytes_roundtrip : forall k,
  encode_bytes k = memcomparable k /\ decode_bytes (encode_bytes k) = Ok (Some k).
Proof. exact (fun k => conj (encode_bytes_memcomparable k) (decode_encode_bytes k)). Qed.
Print Assumptions C01_bytes_roundtrip.

(** Exactly which byte strings the decoder accepts, and with which result. *)
Theorem C01_decode_exact : forall e k, bytes_ok e ->
  (decode_bytes e = Ok (Some k) <->
   (length e mod 9 = 0)%nat /\ last e 0 <> 255 /\ decodable e k).
Proof. exact decode_bytes_iff. Qed.
Print Assumptions C01_decode_exact.

(** Finding: a string that is no encoder output is decoded to a key. *)
Theorem C01_decode_rejects_garbage_refuted :
  exists e k, bytes_ok e /\ decode_bytes e = Ok (Some k) /\ forall k', encode_bytes k' <> e.
Proof.
  exists (encode_bytes [97] ++ encode_bytes [98]), [97]. split; [|split].
  - repeat constructor; vm_compute; intuition congruence.
  - vm_compute. reflexivity.
  - intros k' E. pose proof (decode_encode_bytes k') as D. rewrite E in D.
    replace (decode_bytes (encode_bytes [97] ++ encode_bytes [98])) with (Ok (Some [97])) in D by (vm_compute; reflexivity).
    apply Ok_inj in D. assert (k' = [97]) by congruence. subst. vm_compute in E. discriminate.
Qed.
Print Assumptions C01_decode_rejects_garbage_refuted.

Example C01_example :
  (olet e := encode_key [0; 255; 1; 2; 3; 4; 5; 6; 7] 1000 in decode_key e) =
  Ok (Some ([0; 255; 1; 2; 3; 4; 5; 6; 7], 1000)).
Proof. vm_compute. reflexivity. Qed.

(** ** C02 *)

Theorem C02_order : forall k1 t1 k2 t2 e1 e2,
  bytes_ok k1 -> bytes_ok k2 -> ts_ok t1 -> ts_ok t2 ->
  encode_key k1 t1 = Ok e1 -> encode_key k2 t2 = Ok e2 ->
  bcmp e1 e2 = version_order k1 t1 k2 t2.
Proof. exact encode_key_order. Qed.
Print Assumptions C02_order.

Theorem C02_injective : forall k1 t1 k2 t2 e,
  bytes_ok k1 -> bytes_ok k2 -> ts_ok t1 -> ts_ok t2 ->
  encode_key k1 t1 = Ok e -> encode_key k2 t2 = Ok e -> k1 = k2 /\ t1 = t2.
Proof. exact encode_key_inj. Qed.
Print Assumptions C02_injective.

(** The range a point read scans contains exactly the versions of the key. *)
Theorem C02_key_versions_range : forall k k' ts e,
  bytes_ok k -> bytes_ok k' -> ts_ok ts -> encode_key k' ts = Ok e ->
  (in_range (encode_bytes k, prefix_next (encode_bytes k)) e <-> k' = k).
Proof. exact key_range_versions. Qed.
Print Assumptions C02_key_versions_range.

(** An encoded user range contains exactly the versions of the keys of the user range. *)
Theorem C02_user_range : forall a b k ts e,
  bytes_ok a -> bytes_ok b -> bytes_ok k -> ts_ok ts -> encode_key k ts = Ok e ->
  (in_range (encode_range (a, b)) e <-> in_range (a, b) k).
Proof. exact user_range_versions. Qed.
Print Assumptions C02_user_range.

Theorem C02_range_roundtrip : forall a b, decode_range (encode_range (a, b)) = Ok (a, b).
Proof. exact decode_range_encode. Qed.
Print Assumptions C02_range_roundtrip.

Example C02_example :
  (olet e1 := encode_key [97; 0] 5 in olet e2 := encode_key [97] 7 in Ok (bcmp e1 e2)) = Ok Gt /\
  version_order [97; 0] 5 [97] 7 = Gt.
Proof. split; vm_compute; reflexivity. Qed.

(** ** C03 *)

Theorem C03_value_roundtrip : forall f ttl v, - 2 ^ 63 <= ttl < 2 ^ 63 ->
  unpackage_value3 (package_value f ttl v) =
    Ok (f, match f with kPutTTL => ttl | _ => 0 end, match f with kDelete => [] | _ => v end) /\
  unpackage_value (package_value f ttl v) = Ok (match f with kDelete => [] | _ => v end) /\
  get_value_flag (package_value f ttl v) = Ok f.
Proof. exact unpackage_package. Qed.
Print Assumptions C03_value_roundtrip.

(** The accessor used by reads returns the expiry time of every non-empty TTL value and
    stops the process on an empty one. *)
Theorem C03_ttl : forall ttl v, - 2 ^ 63 <= ttl < 2 ^ 63 ->
  get_value_ttl (package_value kPutTTL ttl v) = if (0 <? length v)%nat then Ok ttl else Crash.
Proof. exact get_value_ttl_package. Qed.
Print Assumptions C03_ttl.

(** Finding: storing an empty value with a TTL makes the reader stop. *)
Theorem C03_empty_ttl_value_refuted : exists ttl v, 0 <= ttl < 2 ^ 63 /\
  get_value_ttl (package_value kPutTTL ttl v) = Crash.
Proof. exists 1000, []. split; [lia|]. vm_compute. reflexivity. Qed.
Print Assumptions C03_empty_ttl_value_refuted.

Example C03_example : unpackage_value3 (package_value kPutTTL 123456 [1; 2; 0]) = Ok (kPutTTL, 123456, [1; 2; 0]).
Proof. vm_compute. reflexivity. Qed.

(** ** C04 *)

Theorem C04_roundtrip : forall p a v, comp_ok p a v ->
  exists e, encode_vector_key3 p a v = Ok e /\ decode_partition e = Ok a /\ decode_vector_id e = Ok v /\
            decode_from_key3 e = Ok (a, v).
Proof. exact vector_roundtrip. Qed.
Print Assumptions C04_roundtrip.

Theorem C04_roundtrip_scalar : forall p a v s, comp_ok p a v -> s <> [] ->
  exists e, encode_vector_key4 p a v s = Ok e /\ decode_partition e = Ok a /\ decode_vector_id e = Ok v /\
            decode_scalar e = Ok s /\ decode_from_key4 e = Ok (a, v, s).
Proof. exact vector_roundtrip_scalar. Qed.
Print Assumptions C04_roundtrip_scalar.

Theorem C04_roundtrip_ts : forall p a v ts, comp_ok p a v -> ts_ok ts ->
  exists e, encode_vector_key3_ts p a v ts = Ok e /\ decode_from_key3_ts e = Ok (a, v) /\
            vector_truncate_key e = Ok ts /\ omap Some (vector_truncate_ts e) = omap Some (encode_vector_key3 p a v).
Proof. exact vector_roundtrip_ts. Qed.
Print Assumptions C04_roundtrip_ts.

Theorem C04_roundtrip_scalar_ts : forall p a v s ts, comp_ok p a v -> s <> [] -> ts_ok ts ->
  exists e, encode_vector_key4_ts p a v s ts = Ok e /\ decode_from_key4_ts e = Ok (a, v, s) /\
            vector_truncate_key e = Ok ts.
Proof. exact vector_roundtrip_scalar_ts. Qed.
Print Assumptions C04_roundtrip_scalar_ts.

(** Stored keys are ordered by (prefix, partition, id, scalar), newest version first. *)
Theorem C04_order : forall p1 a1 v1 s1 t1 p2 a2 v2 s2 t2 e1 e2,
  comp_ok p1 a1 v1 -> comp_ok p2 a2 v2 -> bytes_ok s1 -> bytes_ok s2 -> ts_ok t1 -> ts_ok t2 ->
  vector_stored_key p1 a1 v1 s1 t1 = Ok e1 -> vector_stored_key p2 a2 v2 s2 t2 = Ok e2 ->
  bcmp e1 e2 = match vector_order p1 a1 v1 s1 p2 a2 v2 s2 with Eq => Z.compare t2 t1 | c => c end.
Proof. exact vector_stored_order. Qed.
Print Assumptions C04_order.

(** A region range translates to an id range: a stored key of the partition is in the
    region iff its id is in the decoded id range. The region ends either at an id of the
    same partition or at the start of a later one; the id 2^63-1 is excluded. *)
Theorem C04_range_ids : forall p a lo hi_a hi v s ts ks ke e,
  bound_ok p a lo -> bound_ok p hi_a hi ->
  (hi_a = a /\ 0 < match hi with Some h => h | None => 0 end \/
   a < hi_a /\ match hi with Some h => h | None => 0 end = 0) ->
  comp_ok p a v -> v < 2 ^ 63 - 1 -> bytes_ok s -> ts_ok ts ->
  vector_bound p a lo = Ok ks -> vector_bound p hi_a hi = Ok ke -> vector_stored_key p a v s ts = Ok e ->
  exists l h, decode_range_to_vector_id (ks, ke) = Ok (l, h) /\ (in_range (ks, ke) e <-> l <= v < h).
Proof. exact vector_range_ids. Qed.
Print Assumptions C04_range_ids.

(** Finding: the id 2^63-1 belongs to the key range but not to the decoded id range. *)
Theorem C04_range_max_id_refuted : exists p a v ks ke e,
  comp_ok p a v /\ vector_bound p a None = Ok ks /\ vector_bound p (a + 1) None = Ok ke /\
  vector_stored_key p a v [] 5 = Ok e /\ in_range (ks, ke) e /\
  exists l h, decode_range_to_vector_id (ks, ke) = Ok (l, h) /\ ~ (l <= v < h).
Proof.
  exists 114, 7, (2 ^ 63 - 1).
  exists (encode_bytes (114 :: write_long 7)), (encode_bytes (114 :: write_long 8)).
  exists (encode_bytes (plain4 114 7 (2 ^ 63 - 1) []) ++ write_long (Z.lnot 5)).
  split; [unfold comp_ok; lia|]. split; [vm_compute; reflexivity|]. split; [vm_compute; reflexivity|].
  split; [vm_compute; reflexivity|].
  split; [split; vm_compute; congruence|]. exists 0, (2 ^ 63 - 1). split; [vm_compute; reflexivity|]. lia.
Qed.
Print Assumptions C04_range_max_id_refuted.

(** Finding: the document codec reads the timestamp of no stored key shorter than 88
    bytes: it stops the process (document/codec.cc:271 checks for 88, not 8). *)
Theorem C04_document_ts_refuted : exists p a v ts e,
  comp_ok p a v /\ ts_ok ts /\ encode_vector_key3_ts p a v ts = Ok e /\
  vector_truncate_key e = Ok ts /\ document_truncate_key e = Crash.
Proof.
  exists 114, 7, 9, 5, (encode_bytes (plain4 114 7 9 []) ++ write_long (Z.lnot 5)).
  split; [unfold comp_ok; lia|]. split; [unfold ts_ok; lia|].
  split; [vm_compute; reflexivity|]. split; vm_compute; reflexivity.
Qed.
Print Assumptions C04_document_ts_refuted.

Example C04_example :
  (olet ks := vector_bound 114 7 (Some 10) in olet ke := vector_bound 114 7 (Some 20) in
   olet e := vector_stored_key 114 7 15 [1; 2] 99 in
   olet ids := decode_range_to_vector_id (ks, ke) in Ok (ids, bleb ks e, bltb e ke)) = Ok ((10, 20), true, true).
Proof. vm_compute. reflexivity. Qed.

(** ** C38 *)

(** What the inclusive/exclusive options mean: an exclusive start also drops the keys
    having the start as a prefix, an inclusive end also takes the keys having the end as
    a prefix. *)
Theorem C38_transform : forall ws we s e k, bytes_ok s -> bytes_ok e ->
  (ws = false -> s <> [] /\ last s 0 <> 255) -> (we = true -> e <> [] /\ last e 0 <> 255) ->
  (in_range (transform_range ws we (s, e)) k <->
   (ble s k /\ (ws = false -> ~ is_prefix s k)) /\ (blt k e \/ (we = true /\ is_prefix e k))).
Proof. exact transform_range_spec. Qed.
Print Assumptions C38_transform.

(** For every string, PrefixNext is above all strings having it as a prefix, and the
    least string of the same length above it (unless all bytes are 0xff). *)
Theorem C38_prefix_next : forall l, bytes_ok l -> prefix_next l <> l ->
  (forall r, blt (l ++ r) (prefix_next l)) /\
  (forall x, bytes_ok x -> length x = length l -> blt l x -> ble (prefix_next l) x).
Proof. exact (fun l H N => conj (fun r => prefix_next_gt l r H N)
  (fun x Hx L LT => prefix_next_least l x H Hx N L LT)). Qed.
Print Assumptions C38_prefix_next.

(** Finding: with an exclusive start, keys greater than the start are dropped. *)
Theorem C38_exclusive_start_refuted : exists s e k, bytes_ok s /\ bytes_ok e /\
  blt s k /\ blt k e /\ ~ in_range (transform_range false false (s, e)) k.
Proof.
  exists [97], [99], [97; 98]. repeat split; try (repeat constructor; vm_compute; congruence).
  intros [H _]. vm_compute in H. congruence.
Qed.
Print Assumptions C38_exclusive_start_refuted.

(** Finding: with an inclusive end, keys greater than the end without that prefix are
    included when the end's last byte is 0xff. *)
Theorem C38_inclusive_end_refuted : exists s e k, bytes_ok s /\ bytes_ok e /\
  blt e k /\ ~ is_prefix e k /\ in_range (transform_range true true (s, e)) k.
Proof.
  exists [97], [97; 255], [98]. repeat split; try (repeat constructor; vm_compute; congruence).
  intros [r H]. discriminate.
Qed.
Print Assumptions C38_inclusive_end_refuted.

Theorem C38_intersect : forall r1 r2 k, in_range (intersect_range r1 r2) k <-> in_range r1 k /\ in_range r2 k.
Proof. exact intersect_spec. Qed.
Print Assumptions C38_intersect.

Theorem C38_contain : forall r1 r2, blt (fst r2) (snd r2) ->
  (is_contain_range r1 r2 = true <-> forall k, in_range r2 k -> in_range r1 k).
Proof. exact contain_spec. Qed.
Print Assumptions C38_contain.

Theorem C38_conflict : forall r1 r2, blt (fst r1) (snd r1) -> blt (fst r2) (snd r2) ->
  (is_conflict_range r1 r2 = true <-> exists k, in_range r1 k /\ in_range r2 k).
Proof. exact conflict_spec. Qed.
Print Assumptions C38_conflict.

Theorem C38_invalid : forall r, invalid_range r = true <-> forall k, ~ in_range r k.
Proof. exact invalid_spec. Qed.
Print Assumptions C38_invalid.

Example C38_example : in_range (transform_range false true ([97], [98])) [98; 1; 2] /\
  ~ in_range (transform_range false true ([97], [98])) [97; 1].
Proof. split; [split; vm_compute; congruence|]. intros [H _]. vm_compute in H. congruence. Qed.
