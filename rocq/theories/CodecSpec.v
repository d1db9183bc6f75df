(** Specification of the codecs, independent of the encoders. *)
From Coq Require Import ZArith List Bool.
From Verif Require Import Bytes.
Import ListNotations.
Open Scope Z_scope.

(** Valid version timestamps: non-negative int64. *)
Definition ts_ok (ts : Z) : Prop := 0 <= ts < 2 ^ 63.

(** The memory-comparable format of byte strings: every complete 8-byte group is
    followed by 0xff; the remaining 0..7 bytes are padded with zeros to 8 bytes and
    followed by 0xff minus the number of padding bytes. *)
Fixpoint full_groups (n : nat) (l : bytes) : bytes :=
  match n with
  | O => []
  | S n' => firstn 8 l ++ [255] ++ full_groups n' (skipn 8 l)
  end.

Definition last_group (t : bytes) : bytes :=
  t ++ repeat 0 (8 - length t) ++ [247 + Z.of_nat (length t)].
Definition memcomparable (k : bytes) : bytes :=
  full_groups (length k / 8) k ++ last_group (skipn (8 * (length k / 8)) k).

(** What DecodeBytes accepts as an encoding of [k], besides the length and last-byte
    tests: the format above followed by anything, or complete groups followed by 255
    zero bytes followed by anything. *)
Definition decodable (e k : bytes) : Prop :=
  (exists rest, e = memcomparable k ++ rest) \/
  (exists rest, (length k mod 8 = 0)%nat /\ e = full_groups (length k / 8) k ++ repeat 0 255 ++ rest).

(** The order users expect of stored versions: by user key byte-wise, then newest first. *)
Definition version_order (k1 : bytes) (t1 : Z) (k2 : bytes) (t2 : Z) : comparison :=
  match bcmp k1 k2 with
  | Eq => Z.compare t2 t1
  | c => c
  end.

(** Membership in a half-open byte range. *)
Definition ble (a b : bytes) : Prop := bcmp a b <> Gt.
Definition blt (a b : bytes) : Prop := bcmp a b = Lt.
Definition in_range (r : bytes * bytes) (k : bytes) : Prop :=
  ble (fst r) k /\ blt k (snd r).

Definition is_prefix (p k : bytes) : Prop := exists r, k = p ++ r.

(** Lexicographic order on (prefix, partition, vector id, scalar key) *)
Definition vector_order (p1 a1 v1 : Z) (s1 : bytes) (p2 a2 v2 : Z) (s2 : bytes) : comparison :=
  match Z.compare p1 p2 with
  | Eq => match Z.compare a1 a2 with
          | Eq => match Z.compare v1 v2 with
                  | Eq => bcmp s1 s2
                  | c => c
                  end
          | c => c
          end
  | c => c
  end.

(** Legal components of vector/document keys. *)
Definition comp_ok (p a v : Z) : Prop := 1 <= p < 256 /\ 1 <= a < 2 ^ 63 /\ 0 <= v < 2 ^ 63.

(** A region bound (prefix, partition[, id]) with legal components. *)
Definition bound_ok (p a : Z) (id : option Z) : Prop :=
  comp_ok p a (match id with Some v => v | None => 0 end).

