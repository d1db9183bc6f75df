(** Specification of multi-version reads over abstract versions. *)
From Coq Require Import ZArith List Bool Sorted.
From Verif Require Import Bytes Outcome CodecModel CodecSpec.
Import ListNotations.
Open Scope Z_scope.

(** One version of a key: a put, a put with an expiry time, or a delete. *)
Record version := { vkey : bytes; vts : Z; vflag : value_flag; vttl : Z; vval : bytes }.

Definition version_ok (v : version) : Prop :=
  bytes_ok (vkey v) /\ ts_ok (vts v) /\ 0 <= vttl v < 2 ^ 63 /\
  (vflag v = kPutTTL -> vval v <> []).   (* see C03_empty_ttl_value_refuted *)

(** A column family content holding exactly the versions [vs]. *)
Definition represents (st : list (bytes * bytes)) (vs : list version) : Prop :=
  StronglySorted (fun a b => bcmp (fst a) (fst b) = Lt) st /\
  Forall version_ok vs /\
  Forall2 (fun e v => encode_key (vkey v) (vts v) = Ok (fst e) /\
                      snd e = package_value (vflag v) (vttl v) (vval v)) st vs.

(** [v] is the newest version of [k] at or below [ts]. *)
Definition newest (vs : list version) (k : bytes) (ts : Z) (v : version) : Prop :=
  In v vs /\ vkey v = k /\ vts v <= ts /\
  forall v', In v' vs -> vkey v' = k -> vts v' <= ts -> vts v' <= vts v.

Definition live (now : Z) (v : version) : Prop :=
  match vflag v with
  | kPut => True
  | kPutTTL => now <= vttl v
  | kDelete => False
  end.

(** A read timestamp of 0 or less means "latest". *)
Definition effective_ts (ts : Z) : Z := if 0 <? ts then ts else 2 ^ 63 - 1.

(** The version a reader at [ts] sees for [k]. *)
Definition visible (vs : list version) (k : bytes) (ts now : Z) (v : version) : Prop :=
  newest vs k (effective_ts ts) v /\ live now v.

(** what a scan reports for a version *)
Definition kv_of (v : version) : bytes * Z * bytes := (vkey v, vts v, vval v).

(** folding a callback that can stop the traversal *)
Fixpoint fold_stop {S : Type} (f : S -> bytes -> bytes -> S * bool) (s : S) (l : list version) : S :=
  match l with
  | [] => s
  | v :: r => let '(s', go) := f s (vkey v) (vval v) in if go then fold_stop f s' r else s'
  end.

Definition increasing (l : list version) : Prop :=
  StronglySorted (fun x y => bcmp (vkey x) (vkey y) = Lt) l.

(** [l] lists exactly the versions a reader at [ts] sees in [a, b), in key order. *)
Definition snapshot_of (vs : list version) (ts now : Z) (a b : bytes) (l : list version) : Prop :=
  increasing l /\
  forall v, In v l <-> in_range (a, b) (vkey v) /\ visible vs (vkey v) ts now v.
