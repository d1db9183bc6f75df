(** Vocabulary for the backup and restore properties. *)
From Coq Require Import ZArith List Bool.
From Verif Require Import Bytes SMap Outcome TxnModel TxnSpec TxnReadModel TxnReadSpec BrModel.
Import ListNotations.
Open Scope Z_scope.

(** * Regions that are backed up and restored *)

(** [v] is the newest stored version at or below [tso] of a key of a plain region *)
Definition newest_plain (m : plain) (tso : Z) (k : bytes) (t : Z) (v : bytes) : Prop :=
  get vcmp m (k, t) = Some v /\ t <= tso /\
  forall t' v', get vcmp m (k, t') = Some v' -> ~ t < t' <= tso.

(** nothing is stored about the keys of [a, b) *)
Definition blank (r : store) (a b : bytes) : Prop :=
  forall k, in_range a b k -> lock_at r k = None /\ forall t, write_at r k t = None /\ data_at r k t = None.

(** the writes a restore sends *)
Definition writes_of (sz : wop -> Z) (max_size max_count : Z) (fw : smap (bytes * Z) wrec) (fd : smap (bytes * Z) bytes) : list batch :=
  cut sz max_size max_count (entries fw fd) [] 0 0.

(** one attempt after the other, each with its own outcomes of the raft writes *)
Definition attempts (bs : list batch) (envs : list (nat -> wres)) (r : store) : store :=
  fold_left (fun x env => fst (read_and_restore true bs env x)) envs r.

(** every raft write was accepted *)
Definition all_accepted (bs : list batch) (env : nat -> wres) : Prop :=
  forall n, (n < length bs)%nat -> env n = WDone.

(** the region holds the records and values of the files, and otherwise what it held before *)
Definition holds_files (fw : smap (bytes * Z) wrec) (fd : smap (bytes * Z) bytes) (r x : store) : Prop :=
  (forall k, lock_at x k = lock_at r k) /\
  (forall k t, write_at x k t = match get vcmp fw (k, t) with Some w => Some w | None => write_at r k t end) /\
  (forall k t, data_at x k t = match get vcmp fd (k, t) with Some v => Some v | None => data_at r k t end).

(** * Files *)
(** files are given as (name, column family, content); [intact]: the disk still holds that content *)
Definition intact (d : disk) (f : bytes * bytes * bytes) : Prop := d (fst (fst f)) = File (snd f).
Definition metas_of (sum : bytes -> bytes) (files : list (bytes * bytes * bytes)) : list meta :=
  map (fun f => describe sum (fst (fst f)) (snd (fst f)) (snd f)) files.

(** * Transactions and snapshots *)
Inductive bhist (ok : bk -> bev -> Prop) : bk -> list bev -> bk -> Prop :=
| bh_nil s : bhist ok s [] s
| bh_cons s e s1 es s2 : ok s e -> bstep s e = Some s1 -> bhist ok s1 es s2 -> bhist ok s (e :: es) s2.
Definition any_time (s : bk) (e : bev) : Prop := True.
(** a region's snapshot is taken when no lock of a transaction started by the backup's timestamp
    is left in it; this is what the check of the resolve-lock safe point stands for *)
Definition locks_resolved (reg : bytes -> nat) (s : bk) (e : bev) : Prop :=
  match e with
  | BSnap r => forall tso k l, b_tso s = Some tso -> reg k = r -> lock_at (b_store s) k = Some l -> tso < l_ts l
  | _ => True
  end.
(** the backup at [tso] of the snapshot [g] holds the write of [k] by the transaction that
    committed at [c], or a later one *)
Definition has_write (g : store) (tso : Z) (k : bytes) (c : Z) : Prop :=
  exists t w, newest g SI tso k t w /\ c <= t.

(** * The tool *)
Definition no_request_failed (es : list lev) : Prop := forall t, ~ In (LAnswer t false) es.

(** * Registration *)
(** in [e], the tool named [n] does not unregister and does not move its time of contact back, and
    others register only while [n]'s lease, which started at [a] and lasts for [to], runs *)
Definition within_lease (n a to : Z) (e : dev) : Prop :=
  match e with
  | DUnreg k => k <> n
  | DReg k a2 _ now => (k = n -> a <= a2) /\ (k <> n -> now <= a + to)
  end.

(** * Garbage collection *)
Inductive shist (ok : site -> sev -> Prop) : site -> list sev -> site -> Prop :=
| sh_nil s : shist ok s [] s
| sh_cons s e s1 es s2 : ok s e -> sstep s e = Some s1 -> shist ok s1 es s2 -> shist ok s (e :: es) s2.
Definition any_order (s : site) (e : sev) : Prop := True.
(** a tool looks at the state of garbage collection only when no other tool is at work *)
Definition one_by_one (s : site) (e : sev) : Prop :=
  match e with
  | SLook p => forall q c, q <> p -> nth_error (s_tools s) q = Some c -> c = QNew \/ c = QOver
  | _ => True
  end.
Definition init_site (stopped : bool) (n : nat) : site := mkSite stopped None (repeat QNew n).
