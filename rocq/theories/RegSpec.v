(** * What applying a region's log must do

    Stated over nodes (see RegModel) but not over its handlers: which region
    answers for a key, what the data is, and what a sequence of events at one
    store may be. *)
From Coq Require Import ZArith List Bool.
From Verif Require Import Bytes RegModel.
Import ListNotations.
Local Open Scope Z_scope.

(** ** Keys and ranges *)

Definition le (a k : bytes) : Prop := bcmp a k <> Gt.
Definition lt (a k : bytes) : Prop := bcmp a k = Lt.

(** The half-open key range [a, b). *)
Definition inside (a b k : bytes) : Prop := le a k /\ lt k b.

(** A region answers for keys while it is normal, splitting, or merging (its
    keys are not anyone else's before the merge is committed). *)
Definition alive (s : rstate) : Prop := s = SNormal \/ s = SSplitting \/ s = SMerging.

(** Region [id] of node [n] answers for key [k]. *)
Definition owns (n : node) (id : Z) (k : bytes) : Prop :=
  exists r, nd_regs n id = Some r /\ alive (r_state r) /\ inside (r_start r) (r_end r) k.

(** No key has two owners. *)
Definition exclusive (n : node) : Prop :=
  forall k i j, owns n i k -> owns n j k -> i = j.

Definition covered (n : node) (k : bytes) : Prop := exists id, owns n id k.

Definition same_data (n n' : node) : Prop := forall cf k, nd_db n' cf k = nd_db n cf k.

(** The regions are the same but for the last change job. *)
Definition same_regions (n n' : node) : Prop :=
  forall id, match nd_regs n id, nd_regs n' id with
             | Some r, Some r' =>
                 r_state r' = r_state r /\ r_conf r' = r_conf r /\ r_ver r' = r_ver r /\
                 r_start r' = r_start r /\ r_end r' = r_end r
             | None, None => True
             | _, _ => False
             end.

(** ** Entries *)

Definition is_data (q : req) : Prop := exists d, q = QData d.
Definition data_entry (e : entry) : Prop := Forall is_data (e_reqs e).

(** A raft command holds data requests, or one request that changes regions
    (raft_store_engine.cc and region_controller.cc propose no others). *)
Definition well_formed (e : entry) : Prop :=
  data_entry e \/ exists q, e_reqs e = [q].

(** The write [w] may change key [k] only if it is in [P]. *)
Definition touches (w : wop) (cf : Z) (k : bytes) : Prop :=
  match w with
  | WPut c x _ => c = cf /\ x = k
  | WDel c x => c = cf /\ x = k
  | WDelR c a b => c = cf /\ inside a b k
  end.

(** Keys a data request names. *)
Definition names (d : dreq) (k : bytes) : Prop :=
  match d with
  | DPut _ kvs => exists v, In (k, v) kvs
  | DDelete _ keys => In k keys
  | DDelRange _ ranges => exists a b, In (a, b) ranges /\ inside a b k
  | DMulti puts dels => (exists cf v, In (cf, k, v) puts) \/ (exists cf, In (cf, k) dels)
  | DTxnDelRange a b => inside a b k
  end.

(** ** Events at one store *)

Inductive event :=
| VApply (ctx : bool) (id : Z) (e : entry)             (* an entry is applied *)
| VCrash (ctx : bool) (id : Z) (e : entry) (k : nat)   (* the process dies after k effects of it, restarts *)
| VCreate (id conf ver : Z) (a b : bytes).             (* a standby region is created for a split *)

(** What one event makes of the node; [None]: it cannot happen now. *)
Definition step (n : node) (v : event) : option node :=
  match v with
  | VApply ctx id e => apply ctx id e n
  | VCrash ctx id e k =>
      match on_apply ctx id e n with
      | ADone es _ => Some (crash_at n es k)
      | AAbort es => Some (crash_at n es k)
      | AWait => Some (restart n)
      end
  | VCreate id conf ver a b =>
      match nd_regs n id with
      | None => Some (performs n [ESaved id 0; EMem id 0; EMeta id (mkR SStandby conf ver a b 0)])
      | Some _ => None
      end
  end.

Fixpoint run (n : node) (vs : list event) : option node :=
  match vs with
  | [] => Some n
  | v :: rest => match step n v with Some n' => run n' rest | None => None end
  end.

(** A CommitMerge that fits the node: the source is alive with the range the
    request carries, is not the target, and the two ranges are non-empty and
    adjacent; the target is alive.  ValidateMergeRegion checks this before the
    merge starts (region_controller.cc:695-760) and the epochs in the commands
    pin the ranges from then on. *)
Definition merge_fits (n : node) (id : Z) (c : commit_req) : Prop :=
  cm_source c <> id /\
  exists s t, nd_regs n (cm_source c) = Some s /\ nd_regs n id = Some t /\
    alive (r_state s) /\ alive (r_state t) /\
    r_start s = cm_start c /\ r_end s = cm_end c /\
    lt (r_start s) (r_end s) /\ lt (r_start t) (r_end t) /\
    (r_end s = r_start t \/ r_end t = r_start s).

(** No crash, regions whose creation has finished, and every CommitMerge fits. *)
Fixpoint calm (n : node) (vs : list event) : Prop :=
  match vs with
  | [] => True
  | v :: rest =>
      match v with
      | VApply _ id e =>
          well_formed e /\ (forall c, e_reqs e = [QCommit c] -> merge_fits n id c) /\
          (forall r, nd_regs n id = Some r -> r_state r <> SNew)
      | VCrash _ _ _ _ => False
      | VCreate _ _ _ _ _ => True
      end /\
      match step n v with Some n' => calm n' rest | None => True end
  end.

(** ** Logs *)

(** Entries of one region applied in order. *)
Fixpoint apply_log (ctx : entry -> bool) (id : Z) (es : list entry) (n : node) : option node :=
  match es with
  | [] => Some n
  | e :: rest =>
      match apply (ctx e) id e n with
      | Some n' => apply_log ctx id rest n'
      | None => None
      end
  end.

(** Raft indexes grow along a log. *)
Fixpoint increasing (lo : Z) (es : list entry) : Prop :=
  match es with
  | [] => True
  | e :: rest => lo < e_index e /\ increasing (e_index e) rest
  end.

(** A command that does not need the proposer's context. *)
Definition plain (d : dreq) : Prop := forall a b, d <> DTxnDelRange a b.

Definition plain_data (e : entry) : Prop :=
  Forall (fun q => exists d, q = QData d /\ plain d) (e_reqs e).

(** The node after applying part of a log: the first [j] entries whole and
    [k] effects of the next, then a crash and a restart. *)
Definition crashed (id : Z) (es : list entry) (n : node) (j k : nat) : option node :=
  match apply_log (fun _ => false) id (firstn j es) n with
  | None => None
  | Some n' =>
      match nth_error es j with
      | None => Some (restart n')
      | Some e =>
          match on_apply false id e n' with
          | ADone ef _ => Some (crash_at n' ef k)
          | _ => None
          end
      end
  end.

(** Several crashes: every time, the log is applied again from its start
    (entries up to the saved index are skipped) up to the next crash. *)
Fixpoint crashes (id : Z) (es : list entry) (n : node) (ps : list (nat * nat)) : option node :=
  match ps with
  | [] => Some n
  | (j, k) :: rest =>
      match crashed id es n j k with
      | Some n' => crashes id es n' rest
      | None => None
      end
  end.

(** ** Merges *)

(** The entries a CommitMerge carries, as entries of the source's log. *)
Definition entry_of (d : dentry) : entry :=
  mkE (de_index d) (de_conf d) (de_ver d) (map QData (de_reqs d)).

(** A source region that takes the entry: it is up, and the entry carries its
    epoch. *)
Definition takes (r : region) (d : dentry) : Prop :=
  refused_state (r_state r) = false /\ r_state r <> SStandby /\
  de_conf d = r_conf r /\ de_ver d = r_ver r /\ Forall plain (de_reqs d).

(** ** Several regions on one store *)

(** The entries of region [j] among the events, in order. *)
Fixpoint log_of (j : Z) (vs : list event) : list entry :=
  match vs with
  | [] => []
  | VApply _ id e :: rest => if id =? j then e :: log_of j rest else log_of j rest
  | _ :: rest => log_of j rest
  end.

(** A data entry whose keys lie in the range of its region. *)
Definition in_range (n : node) (v : event) : Prop :=
  match v with
  | VApply _ id e =>
      plain_data e /\
      exists r, nd_regs n id = Some r /\ r_state r <> SNew /\
        forall d x, In (QData d) (e_reqs e) -> names d x -> inside (r_start r) (r_end r) x
  | _ => False
  end.
