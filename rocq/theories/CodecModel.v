(** Model of the byte codecs.
    Sources: src/common/serial_helper.cc, src/mvcc/codec.cc, src/common/helper.cc,
    src/vector/codec.cc, src/document/codec.cc.
    Simplifications (all of them): the host is little endian (the IsLE() branch of
    serial_helper.cc; the other branch is dead on x86/arm64 hosts); string lengths
    fit in [int], so the [int] loop counters of codec.cc do not overflow; the
    overloads on std::string and std::string_view share one definition. *)
From Coq Require Import ZArith List Bool.
From Verif Require Import Bytes Outcome.
Import ListNotations.
Open Scope Z_scope.

(** two's complement of 64 bits *)
Definition two64 : Z := 2 ^ 64.
Definition two63 : Z := 2 ^ 63.
(** static_cast<int64_t>(uint64_t) *)
Definition to_s64 (x : Z) : Z := if x <? two63 then x else x - two64.
(** static_cast<uint64_t>(int64_t) *)
Definition to_u64 (x : Z) : Z := x mod two64.

(** ** src/common/serial_helper.cc *)

(** SerialHelper::WriteLong, serial_helper.cc:30-52 *)
Definition write_long (value : Z) : bytes := be 8 (to_u64 value).

(** SerialHelper::ReadLong, serial_helper.cc:54-75; CHECK(size >= 8) *)
Definition read_long (value : bytes) : outcome Z :=
  if (length value <? 8)%nat then Crash else Ok (to_s64 (unbe (firstn 8 value))).

(** SerialHelper::WriteLongWithNegation, serial_helper.cc:77-101; CHECK(value >= 0) *)
Definition write_long_neg (value : Z) : outcome bytes :=
  if value <? 0 then Crash else Ok (be 8 (to_u64 (Z.lnot value))).

(** SerialHelper::ReadLongWithNegation, serial_helper.cc:103 *)
Definition read_long_neg (value : bytes) : outcome Z := omap Z.lnot (read_long value).

(** SerialHelper::WriteLongComparable, serial_helper.cc:105-130: the top byte is xored with 0x80 *)
Definition write_long_cmp (value : Z) : bytes :=
  match be 8 (to_u64 value) with
  | b :: r => Z.lxor b 128 :: r
  | [] => []
  end.

(** SerialHelper::ReadLongComparable, serial_helper.cc:132-167 *)
Definition read_long_cmp (value : bytes) : outcome Z :=
  if (length value <? 8)%nat then Crash else
  match firstn 8 value with
  | b :: r => Ok (to_s64 (unbe (Z.lxor b 128 :: r)))
  | [] => Crash
  end.

(** ** src/mvcc/codec.cc *)

Definition kGroupSize : nat := 8.     (* codec.cc:35 *)
Definition kPadGroupSize : nat := 9.  (* codec.cc:36 *)
Definition kMarker : Z := 255.        (* codec.cc:37 *)
Definition kValidEncodeKeyMinLength : nat := 17. (* codec.cc:40 *)

(** Codec::EncodeBytes, codec.cc:53-74: the copy loop, [i] is the loop index;
    the empty-list case is the padding after the loop (codec.cc:69-73). *)
Fixpoint encode_loop (i : nat) (plain_key : bytes) : bytes :=
  match plain_key with
  | [] =>
      let padding_num := (kGroupSize - i mod kGroupSize)%nat in
      repeat 0 padding_num ++ [kMarker - Z.of_nat padding_num]
  | b :: r =>
      if ((i + 1) mod kGroupSize =? 0)%nat
      then b :: kMarker :: encode_loop (S i) r
      else b :: encode_loop (S i) r
  end.
Definition encode_bytes (plain_key : bytes) : bytes := encode_loop 0 plain_key.

(** std::string_view::back(); undefined on the empty string *)
Definition back (l : bytes) : outcome Z :=
  match rev l with [] => Crash | b :: _ => Ok b end.

(** the padding check of DecodeBytes, codec.cc:98-103: [n] further bytes must be
    zero; [at] throws beyond the end. [Ok true]: all zero. *)
Fixpoint check_zeros (n : nat) (l : bytes) : outcome bool :=
  match n with
  | O => Ok true
  | S n' => match l with
            | [] => Crash
            | b :: r => if b =? 0 then check_zeros n' r else Ok false
            end
  end.

(** the group loop of DecodeBytes, codec.cc:89-107; [l] is the input from index i on.
    [fuel] only bounds the recursion: every iteration that continues consumes 9 bytes. *)
Fixpoint decode_loop (fuel : nat) (l output : bytes) : outcome (option bytes) :=
  match fuel with
  | O => Ok (Some output)
  | S fuel' =>
      match l with
      | [] => Ok (Some output)
      | _ =>
          match nth_error l 8 with
          | None => Crash
          | Some marker =>
              let pad_count := kMarker - marker in
              let keep := Z.to_nat (8 - pad_count) in
              if pad_count =? 0
              then decode_loop fuel' (skipn 9 l) (output ++ firstn 8 l)
              else olet z := check_zeros (Z.to_nat pad_count) (skipn keep l) in
                   Ok (if z then Some (output ++ firstn keep l) else None)
          end
      end
  end.

(** Codec::DecodeBytes, codec.cc:80-110. [None] is "return false". *)
Definition decode_bytes (encode_key : bytes) : outcome (option bytes) :=
  if negb ((length encode_key mod kPadGroupSize =? 0)%nat) then Ok None
  else olet b := back encode_key in
       if b =? kMarker then Ok None
       else decode_loop (length encode_key) encode_key [].

(** Codec::EncodeKey, codec.cc:112-130 *)
Definition encode_key (key : bytes) (ts : Z) : outcome bytes :=
  omap (fun t => encode_bytes key ++ t) (write_long_neg ts).

(** Codec::DecodeKey, codec.cc:136-156 *)
Definition decode_key (k : bytes) : outcome (option (bytes * Z)) :=
  if (length k <? kValidEncodeKeyMinLength)%nat then Ok None
  else olet d := decode_bytes (firstn (length k - 8) k) in
       match d with
       | None => Ok None
       | Some plain => omap (fun ts => Some (plain, ts)) (read_long_neg (skipn (length k - 8) k))
       end.

(** Codec::TruncateTsForKey, codec.cc:168-180 *)
Definition truncate_ts (k : bytes) : outcome bytes :=
  if (length k <? kValidEncodeKeyMinLength)%nat then Crash else Ok (firstn (length k - 8) k).

(** Codec::TruncateKeyForTs, codec.cc:182-198 *)
Definition truncate_key (k : bytes) : outcome Z :=
  if (length k <? kValidEncodeKeyMinLength)%nat then Crash
  else read_long_neg (skipn (length k - 8) k).

(** enum class ValueFlag, codec.h:29 *)
Inductive value_flag := kPut | kPutTTL | kDelete.
Definition flag_byte (f : value_flag) : Z :=
  match f with kPut => 0 | kPutTTL => 1 | kDelete => 2 end.

(** Codec::PackageValue(flag, ttl, value, output), codec.cc:254-283, and the in-place
    overload, codec.cc:230-252 (same result) *)
Definition package_value (flag : value_flag) (ttl : Z) (value : bytes) : bytes :=
  match flag with
  | kPut => value ++ [flag_byte kPut]
  | kPutTTL => value ++ write_long ttl ++ [flag_byte kPutTTL]
  | kDelete => [flag_byte kDelete]
  end.

(** Codec::GetValueFlag, codec.cc:351-367 *)
Definition get_value_flag (pkg : bytes) : outcome value_flag :=
  olet b := back pkg in
  if b =? 0 then Ok kPut else if b =? 1 then Ok kPutTTL else if b =? 2 then Ok kDelete else Crash.

(** Codec::UnPackageValue, codec.cc:307-324 (and UnPackageValueInPlace, codec.cc:285-301):
    for kPutTTL [size - 9] underflows on short inputs (Crash) *)
Definition unpackage_value (pkg : bytes) : outcome bytes :=
  olet f := get_value_flag pkg in
  match f with
  | kPut => Ok (firstn (length pkg - 1) pkg)
  | kPutTTL => if (length pkg <? 9)%nat then Crash else Ok (firstn (length pkg - 9) pkg)
  | kDelete => Ok []
  end.

(** Codec::UnPackageValue(pkg, flag, ttl), codec.cc:326-349 *)
Definition unpackage_value3 (pkg : bytes) : outcome (value_flag * Z * bytes) :=
  olet f := get_value_flag pkg in
  match f with
  | kPut => Ok (kPut, 0, firstn (length pkg - 1) pkg)
  | kPutTTL =>
      if (length pkg <? 9)%nat then Crash
      else olet ttl := read_long (skipn (length pkg - 9) pkg) in
           Ok (kPutTTL, ttl, firstn (length pkg - 9) pkg)
  | kDelete => Ok (kDelete, 0, [])
  end.

(** Codec::GetValueTTL(string_view), codec.cc:379-387; CHECK(size > 9) *)
Definition get_value_ttl (pkg : bytes) : outcome Z :=
  if (length pkg <=? 9)%nat then Crash
  else olet b := back pkg in
       if b =? 1 then read_long (skipn (length pkg - 9) pkg) else Crash.

(** Codec::EncodeRange, codec.cc:488-500 *)
Definition encode_range (r : bytes * bytes) : bytes * bytes :=
  (encode_bytes (fst r), encode_bytes (snd r)).

(** Codec::DecodeRange, codec.cc:502-516; CHECK on decode failure *)
Definition decode_range (r : bytes * bytes) : outcome (bytes * bytes) :=
  olet s := decode_bytes (fst r) in
  match s with
  | None => Crash
  | Some s' => olet e := decode_bytes (snd r) in
               match e with None => Crash | Some e' => Ok (s', e') end
  end.

(** ** src/common/helper.cc range helpers *)

(** the loop of Helper::PrefixNext, helper.cc:415-428, from the last byte backwards;
    returns the new bytes and the remaining carry *)
Fixpoint prefix_next_loop (l : bytes) : bytes * Z :=
  match l with
  | [] => ([], 1)
  | b :: r =>
      let '(r', carry) := prefix_next_loop r in
      if (b =? 255) && (carry =? 1) then (0 :: r', carry)
      else ((b + carry) mod 256 :: r', 0)
  end.

(** Helper::PrefixNext, helper.cc:415-443 *)
Definition prefix_next (input : bytes) : bytes :=
  let '(ret, carry) := prefix_next_loop input in
  if carry =? 0 then ret else input.

(** Helper::TransformRangeWithOptions, helper.cc:446-456 *)
Definition transform_range (with_start with_end : bool) (r : bytes * bytes) : bytes * bytes :=
  (if with_start then fst r else prefix_next (fst r),
   if with_end then prefix_next (snd r) else snd r).

(** Helper::IntersectRange, helper.cc:459-466 *)
Definition intersect_range (r1 r2 : bytes * bytes) : bytes * bytes :=
  (if bleb (fst r1) (fst r2) then fst r2 else fst r1,
   if bleb (snd r1) (snd r2) then snd r1 else snd r2).

(** Helper::IsContainRange, helper.cc:472-474 *)
Definition is_contain_range (r1 r2 : bytes * bytes) : bool :=
  bleb (fst r1) (fst r2) && bleb (snd r2) (snd r1).

(** Helper::IsConflictRange, helper.cc:476-479 *)
Definition is_conflict_range (r1 r2 : bytes * bytes) : bool :=
  negb (bleb (snd r2) (fst r1) || bleb (snd r1) (fst r2)).

(** Helper::InvalidRange, helper.cc:481 *)
Definition invalid_range (r : bytes * bytes) : bool := bleb (snd r) (fst r).

(** ** src/vector/codec.cc (src/document/codec.cc has the same layout, lines 34-84) *)

Definition kVectorKeyMinLenWithPrefix : nat := 9.   (* common/constant.h:67 *)
Definition kVectorKeyMaxLenWithPrefix : nat := 17.  (* common/constant.h:68 *)

(** VectorCodec::PackageVectorKey(prefix, partition), vector/codec.cc:30-41;
    DocumentCodec::PackageDocumentKey, document/codec.cc:35-46 *)
Definition package_key2 (prefix partition_id : Z) : outcome bytes :=
  if (prefix =? 0) || (partition_id <=? 0) then Crash
  else Ok (prefix :: write_long partition_id).

(** PackageVectorKey(prefix, partition, vector_id), vector/codec.cc:43-56;
    document/codec.cc:48-61 *)
Definition package_key3 (prefix partition_id vector_id : Z) : outcome bytes :=
  if (prefix =? 0) || (partition_id <=? 0) || (vector_id <? 0) then Crash
  else Ok (prefix :: write_long partition_id ++ write_long_cmp vector_id).

(** PackageVectorKey(prefix, partition, vector_id, scalar_key), vector/codec.cc:58-74;
    document/codec.cc:63-79 *)
Definition package_key4 (prefix partition_id vector_id : Z) (scalar_key : bytes) : outcome bytes :=
  if (prefix =? 0) || (partition_id <=? 0) || (vector_id <? 0) ||
     match scalar_key with [] => true | _ => false end then Crash
  else Ok (prefix :: write_long partition_id ++ write_long_cmp vector_id ++ scalar_key).

(** UnPackagePartitionId, vector/codec.cc:76-81; document/codec.cc:81-86 *)
Definition unpackage_partition (plain : bytes) : outcome Z :=
  if (length plain <? kVectorKeyMinLenWithPrefix)%nat then Crash
  else read_long (firstn 9 (skipn 1 plain)).

(** UnPackageVectorId, vector/codec.cc:83-95; document/codec.cc:88-100 *)
Definition unpackage_vector_id (plain : bytes) : outcome Z :=
  if (kVectorKeyMaxLenWithPrefix <=? length plain)%nat
  then read_long_cmp (firstn 17 (skipn 9 plain))
  else if (length plain =? kVectorKeyMinLenWithPrefix)%nat then Ok 0
  else Crash.

(** UnPackageScalarKey, vector/codec.cc:97-102; document/codec.cc:102-107 *)
Definition unpackage_scalar (plain : bytes) : outcome bytes :=
  if (length plain <=? kVectorKeyMaxLenWithPrefix)%nat then Crash
  else Ok (skipn kVectorKeyMaxLenWithPrefix plain).

(** EncodeVectorKey overloads, vector/codec.cc:104-136; document/codec.cc:109-142 *)
Definition encode_vector_key2 (prefix part : Z) : outcome bytes :=
  omap encode_bytes (package_key2 prefix part).
Definition encode_vector_key3 (prefix part id : Z) : outcome bytes :=
  omap encode_bytes (package_key3 prefix part id).
Definition encode_vector_key3_ts (prefix part id ts : Z) : outcome bytes :=
  olet k := package_key3 prefix part id in encode_key k ts.
Definition encode_vector_key4 (prefix part id : Z) (scalar : bytes) : outcome bytes :=
  omap encode_bytes (package_key4 prefix part id scalar).
Definition encode_vector_key4_ts (prefix part id : Z) (scalar : bytes) (ts : Z) : outcome bytes :=
  olet k := package_key4 prefix part id scalar in encode_key k ts.

(** the CHECK on encoded lengths, vector/codec.cc:139,160,205 etc. *)
Definition enc_len_ok (n : nat) : bool := (n =? 18)%nat || (27 <=? n)%nat.
Definition enc_ts_len_ok (n : nat) : bool := (n =? 26)%nat || (35 <=? n)%nat.

(** decode helper shared by the Decode... functions: DecodeBytes and CHECK(ret) *)
Definition decode_or_abort (e : bytes) : outcome bytes :=
  olet d := decode_bytes e in match d with Some p => Ok p | None => Crash end.

(** VectorCodec::TruncateTsForKey, vector/codec.cc:246-256; CHECK(size >= 25) *)
Definition vector_truncate_ts (k : bytes) : outcome bytes :=
  if (length k <? 25)%nat then Crash else Ok (firstn (length k - 8) k).

(** VectorCodec::TruncateKeyForTs, vector/codec.cc:258-272; CHECK(size >= 8) *)
Definition vector_truncate_key (k : bytes) : outcome Z :=
  if (length k <? 8)%nat then Crash else read_long_neg (skipn (length k - 8) k).

(** DocumentCodec::TruncateKeyForTs(string_view), document/codec.cc:270-276; CHECK(size >= 88) *)
Definition document_truncate_key (k : bytes) : outcome Z :=
  if (length k <? 88)%nat then Crash else read_long_neg (skipn (length k - 8) k).

(** DecodePartitionIdFromEncodeKey, vector/codec.cc:138-146; document/codec.cc:144-152 *)
Definition decode_partition (e : bytes) : outcome Z :=
  if negb (enc_len_ok (length e)) then Crash
  else olet p := decode_or_abort e in unpackage_partition p.

(** DecodeVectorIdFromEncodeKey, vector/codec.cc:159-167; document/codec.cc:165-173 *)
Definition decode_vector_id (e : bytes) : outcome Z :=
  if negb (enc_len_ok (length e)) then Crash
  else olet p := decode_or_abort e in unpackage_vector_id p.

(** DecodeScalarKeyFromEncodeKey, vector/codec.cc:180-188 *)
Definition decode_scalar (e : bytes) : outcome bytes :=
  if (length e <? 27)%nat then Crash
  else olet p := decode_or_abort e in unpackage_scalar p.

(** DecodeFromEncodeKey, vector/codec.cc:199-208 and 210-220 *)
Definition decode_from_key3 (e : bytes) : outcome (Z * Z) :=
  if negb (enc_len_ok (length e)) then Crash
  else olet p := decode_or_abort e in
       olet part := unpackage_partition p in
       olet id := unpackage_vector_id p in Ok (part, id).
Definition decode_from_key4 (e : bytes) : outcome (Z * Z * bytes) :=
  if negb (enc_len_ok (length e)) then Crash
  else olet p := decode_or_abort e in
       olet part := unpackage_partition p in
       olet id := unpackage_vector_id p in
       olet s := unpackage_scalar p in Ok (part, id, s).

(** DecodeFromEncodeKeyWithTs, vector/codec.cc:222-232 and 234-245 *)
Definition decode_from_key3_ts (e : bytes) : outcome (Z * Z) :=
  if negb (enc_ts_len_ok (length e)) then Crash
  else olet t := vector_truncate_ts e in
       olet p := decode_or_abort t in
       olet part := unpackage_partition p in
       olet id := unpackage_vector_id p in Ok (part, id).
Definition decode_from_key4_ts (e : bytes) : outcome (Z * Z * bytes) :=
  if negb (enc_ts_len_ok (length e)) then Crash
  else olet t := vector_truncate_ts e in
       olet p := decode_or_abort t in
       olet part := unpackage_partition p in
       olet id := unpackage_vector_id p in
       olet s := unpackage_scalar p in Ok (part, id, s).

(** VectorCodec::DecodeRangeToVectorId(is_encode = true), vector/codec.cc:293-302;
    document/codec.cc:299-308 *)
Definition decode_range_to_vector_id (r : bytes * bytes) : outcome (Z * Z) :=
  olet b := decode_vector_id (fst r) in
  olet e := decode_vector_id (snd r) in
  if e =? 0 then
    olet pe := decode_partition (snd r) in
    olet ps := decode_partition (fst r) in
    if ps <? pe then Ok (b, two63 - 1) else Ok (b, e)
  else Ok (b, e).

(** Keys of a vector region as written by the vector handlers: [s = []] stands for the
    overload without scalar key (vector/codec.cc:113-118 and 129-136). *)
Definition vector_stored_key (p a v : Z) (s : bytes) (ts : Z) : outcome bytes :=
  match s with
  | [] => encode_vector_key3_ts p a v ts
  | _ => encode_vector_key4_ts p a v s ts
  end.

(** Bounds of a vector region: (prefix, partition) or (prefix, partition, id)
    (vector/codec.cc:104-111). *)
Definition vector_bound (p a : Z) (id : option Z) : outcome bytes :=
  match id with None => encode_vector_key2 p a | Some v => encode_vector_key3 p a v end.
