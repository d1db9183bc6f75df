(** What is claimed about the vector index, and under which circumstances. *)
Require Import ZArith List Bool Permutation Sorted.
Require Import Verif.VecModel.
Import ListNotations.
Open Scope Z_scope.

(** ** The index finds exactly the stored vectors *)

(** The region [n] exists and its index answers requests. *)
Definition serving (s : state) (n : nat) (r : region) : Prop :=
  nth_error (s_regs s) n = Some r /\ r_alive r = true /\ w_ready r = true.

(** A search in region [n] can return the vector [v] under the id [i] exactly
    when [i] belongs to the region and [v] is what is stored under it. *)
Definition finds_exactly (s : state) (n : nat) (r : region) (i : Z) : Prop :=
  forall v, searchable s n i v = Some true <->
            (r_lo r <= i < r_hi r /\ stored (s_data s) i = Some v).

(** No entry of the region's log that is still to be applied writes [i]. *)
Definition no_write_to_come (r : region) (i : Z) : Prop :=
  forall j e, (r_applied r <= j)%nat -> nth_error (r_log r) j = Some e ->
              ~ In i (op_ids (e_op e)).

(** ** Circumstances *)

Definition is_write (e : entry) : Prop :=
  match e_op e with OAdd _ | ODel _ => True | _ => False end.

Definition is_change (e : entry) : Prop :=
  match e_op e with OSplit _ | OMerge _ => True | _ => False end.

(** Between two deletions no id is added twice. *)
Definition added_once (es : list entry) : Prop :=
  forall pre mid post,
    es = pre ++ mid ++ post ->
    (forall e, In e mid -> match e_op e with ODel _ => False | _ => True end) ->
    NoDup (flat_map (fun e => match e_op e with OAdd l => map fst l | _ => [] end) mid).

(** The entries with log ids [a+1 .. b] (positions [a] to [b-1]). *)
Definition span (log : list entry) (a b : nat) : list entry := skipn a (firstn b log).

(** What a catch-up round is to read: written under the region's present epoch,
    and no id added twice. *)
Definition easy_window (r : region) (a b : nat) : Prop :=
  (forall e, In e (span (r_log r) a b) -> e_epoch e = r_epoch r) /\
  added_once (span (r_log r) a b).

(** No build or load is running, and the index in use, if any, is the region's
    own and was made for its present range. *)
Definition settled (s : state) (r : region) : Prop :=
  r_bpc r = BIdle /\ w_share r = None /\ w_sib r = None /\
  (w_ready r = true ->
   exists p, w_own r = Some p /\
             o_lo (geto (s_heap s) p) = r_lo r /\ o_hi (geto (s_heap s) p) = r_hi r).

(** The circumstances of one action.
    - a request does not name an id twice, and its timestamp is larger than
      every earlier one;
    - a split or merge is applied while the regions concerned are settled, and
      the source of a merge has an index if the target has one;
    - an HNSW index with a sibling is only given additions for both of them;
    - catch-up rounds read easy windows;
    - when the index is switched no index write is under way, and every log
      entry applied by then and not replayed is no vector write;
    - a restart does not fall back behind what the saved ApplyLogId says, nor
      behind a split or merge. *)
Definition calm_step (g : cfg) (s : state) (a : action) : Prop :=
  match a with
  | Propose n o ts =>
      (match o with OAdd l => NoDup (map fst l) | _ => True end) /\
      (forall m r j e, nth_error (s_regs s) m = Some r ->
                       nth_error (r_log r) j = Some e -> e_ts e < ts)
  | ApplyData n =>
      forall r e, nth_error (s_regs s) n = Some r ->
                  nth_error (r_log r) (r_applied r) = Some e ->
                  e_epoch e = r_epoch r ->
        match e_op e with
        | OSplit _ => settled s r
        | OMerge m => settled s r /\
            forall src, nth_error (s_regs s) m = Some src ->
                        settled s src /\ (w_ready r = true -> w_ready src = true)
        | _ => True
        end
  | ApplyWrite n _ =>
      forall r e p q l, nth_error (s_regs s) n = Some r ->
        nth_error (r_log r) (r_applied r) = Some e ->
        r_apc r = AWrite p (Some q) -> e_op e = OAdd l -> c_hnsw g = true ->
        keep_pairs (geto (s_heap s) q) l <> [] /\ keep_pairs (geto (s_heap s) p) l <> []
  | CatchUp n _ =>
      forall r p, nth_error (s_regs s) n = Some r -> r_bpc r = BCatch p ->
        easy_window r (o_apply (geto (s_heap s) p)) (r_applied r - 1)
  | LastRound n _ =>
      forall r p, nth_error (s_regs s) n = Some r -> r_bpc r = BLast p ->
        easy_window r (o_apply (geto (s_heap s) p)) (r_applied r - 1)
  | SwitchIndex n true =>
      forall r p en, nth_error (s_regs s) n = Some r -> r_bpc r = BSwitch p en ->
        (r_apc r = AIdle \/ r_apc r = AWait) /\
        forall j e, (o_apply (geto (s_heap s) p) <= j)%nat -> (en - 1 <= j < r_applied r)%nat ->
                    nth_error (r_log r) j = Some e -> ~ is_write e
  | Crashed bs =>
      forall n r, nth_error (s_regs s) n = Some r ->
        (w_meta r <= Nat.min (nth n bs O) (r_applied r))%nat /\
        forall j e i v, (nth n bs O <= j)%nat -> nth_error (r_log r) j = Some e ->
          e_epoch e <> r_epoch r -> ~ In (i, e_ts e, v) (s_data s)
  | _ => True
  end.

(** A run all of whose steps are calm. *)
Inductive calm_run (g : cfg) : state -> list action -> state -> Prop :=
| calm_nil : forall s, calm_run g s [] s
| calm_cons : forall s a s1 acts s2,
    calm_step g s a -> step g s a = Some s1 -> calm_run g s1 acts s2 ->
    calm_run g s (a :: acts) s2.

(** The thread pool runs every batch of a call once, in any order. *)
Definition any_order (g : cfg) : Prop :=
  forall seed l, Permutation (c_order g seed l) l.

Definition is_restart (a : action) : Prop :=
  match a with Crashed _ => True | _ => False end.

(** ** Runs with one slip *)

(** Nothing of the region is under way and its whole log is applied. *)
Definition at_rest (r : region) : Prop :=
  r_apc r = AIdle /\ r_bpc r = BIdle /\ r_applied r = length (r_log r).

(** A run from the empty store in which every step but [a] is calm. *)
Definition one_slip (g : cfg) (pre : list action) (a : action) (post : list action)
  (s1 s : state) : Prop :=
  exists s2, calm_run g (init 0 100) pre s1 /\ step g s1 a = Some s2 /\ calm_run g s2 post s.

(** In the end the index of region [n] serves, nothing is under way, and yet it
    does not find exactly what is stored. *)
Definition index_wrong (s : state) (n : nat) : Prop :=
  exists r i, serving s n r /\ at_rest r /\ ~ finds_exactly s n r i.
