(** What automatic splits and merges have to do. *)
From Coq Require Import ZArith List Bool Sorted.
From Verif Require Import Bytes Outcome CodecModel CodecSpec ScModel.
Import ListNotations.
Open Scope Z_scope.

(* ------------------------------------------------------------------------------------ *)
(** * The data of a region *)

(** a stored version: user key, version, value *)
Definition stored : Type := bytes * Z * bytes.
Definition key_of (e : stored) : bytes := fst (fst e).

(** the column family [c] holds exactly the versions [d], in the order of their encoded keys *)
Definition holds (c : cf) (d : list stored) : Prop :=
  Forall2 (fun kv e => bytes_ok (key_of e) /\ ts_ok (snd (fst e)) /\
                       encode_key (key_of e) (snd (fst e)) = Ok (fst kv) /\ snd kv = snd e) c d /\
  StronglySorted (fun a b => blt (fst a) (fst b)) c.

(** the versions of all column families in a range of user keys *)
Definition in_rangeb (r : bytes * bytes) (k : bytes) : bool :=
  match bcmp (fst r) k with Gt => false | _ => match bcmp k (snd r) with Lt => true | _ => false end end.
Definition inside (r : bytes * bytes) (data : list (list stored)) : list stored :=
  filter (fun e => in_rangeb r (key_of e)) (concat data).

(** the bytes a version takes: memory-comparable key, eight bytes of version, value *)
Definition size_of (e : stored) : Z :=
  Z.of_nat (length (memcomparable (key_of e))) + 8 + Z.of_nat (length (snd e)).
Definition bytes_in (l : list stored) : Z := fold_right (fun e n => size_of e + n) 0 l.

Definition version_dec (a b : bytes * Z) : {a = b} + {a <> b}.
Proof. repeat decide equality. Defined.
(** the different versions, and the different user keys *)
Definition versions (l : list stored) : list (bytes * Z) := nodup version_dec (map fst l).
Definition user_keys (l : list stored) : list bytes := nodup bytes_eq_dec (map key_of l).
Definition num {A} (l : list A) : Z := Z.of_nat (length l).

(** the versions below, at, and from a user key *)
Definition below (k : bytes) (l : list stored) : list stored :=
  filter (fun e => match bcmp (key_of e) k with Lt => true | _ => false end) l.
Definition at_key (k : bytes) (l : list stored) : list stored :=
  filter (fun e => match bcmp (key_of e) k with Eq => true | _ => false end) l.
Definition from (k : bytes) (l : list stored) : list stored :=
  filter (fun e => match bcmp (key_of e) k with Lt => false | _ => true end) l.

(* ------------------------------------------------------------------------------------ *)
(** * Splits *)

(** the region has grown to what the policy asks for *)
Definition grown (p : policy) (es : list stored) : Prop :=
  match p with
  | PHalf thr _ => thr <= bytes_in es
  | PSize s _ => s <= bytes_in es
  | PKeys n _ => n <= num (versions es)
  end.

(** nothing forbids a split, and the region did not change during the scan *)
Definition ready (n : env) : Prop :=
  n_version1 n = n_version0 n /\ n_range1 n = n_range0 n /\ n_disabled n = false /\ n_temp_disabled n = false /\
  n_normal n = true /\ n_leader n = true /\ (n_mono n = true -> n_lite n = true) /\ n_busy n = false.

(** no user key has more than [u] bytes (more than [v] versions) *)
Definition keys_small (u : Z) (es : list stored) : Prop := forall k, bytes_in (at_key k es) <= u.
Definition few_versions (v : Z) (es : list stored) : Prop := forall k, num (versions (at_key k es)) <= v.

(* ------------------------------------------------------------------------------------ *)
(** * Checks under way *)

(** no check ends before its region has been recorded *)
Fixpoint orderly (d : desk) (es : list dev) : Prop :=
  match es with
  | [] => True
  | e :: r => match e with DEnd x => d_adding d <> Some x | _ => True end /\
              match dstep d e with Some d' => orderly d' r | None => True end
  end.

(* ------------------------------------------------------------------------------------ *)
(** * Merges *)

(** two regions that may be merged: neighbours, of one partition, one engine, the same stores, both
    open to changes, not split lately, and small together; [ascending]: [b] follows [a] *)
Definition mergeable (l : limits) (ascending : bool) (a b : mregion) : Prop :=
  (if ascending then g_stop a = g_start b else g_start a = g_stop b) /\ g_part a = g_part b /\ g_engine a = g_engine b /\ g_raw a = g_raw b /\
  length (g_peers a) = length (g_peers b) /\ (forall x, In x (g_peers a) -> In x (g_peers b)) /\
  g_normal a = true /\ g_normal b = true /\ g_disabled a = false /\ g_disabled b = false /\ g_leader a = true /\
  g_recent_split a = false /\ g_recent_split b = false /\
  exists ma mb, g_metrics a = Some ma /\ g_metrics b = Some mb /\
    fst ma <= l_size l /\ snd ma <= l_keys l /\   (* by the metrics; then by metrics or scan: *)
    let x := if g_fresh a then ma else g_scan a in
    let y := if g_fresh b then mb else g_scan b in
    fst x <= l_size l /\ snd x <= l_keys l /\ fst x + fst y <= l_sum_size l /\ snd x + snd y <= l_sum_keys l.

(** the regions taken for a merge *)
Definition taken (ps : list (mregion * mregion)) : list Z :=
  concat (map (fun ab => [g_id (fst ab); g_id (snd ab)]) ps).
