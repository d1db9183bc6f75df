(** * What a plan of the balance schedulers should be

    The words used by the theorems of [BalThms]; none of them looks at how the
    schedulers work. *)

From Coq Require Import ZArith QArith List Bool.
From Verif Require Import BalModel.
Import ListNotations.
Local Open Scope Z_scope.

(** A region map has one region for each id, and a region at most one peer on
    a store; a store map has one store for each id. *)
Definition map_ok (rs : list region) : Prop :=
  NoDup (map g_id rs) /\ forall g, In g rs -> NoDup (map p_store (g_peers g)).

Definition stores_ok (ss : list store) : Prop := NoDup (map s_id ss).

Definition replica_on (g : region) (s : Z) : Prop := exists p, In p (g_peers g) /\ p_store p = s.

(** According to the region map, store [s] leads / follows region [r]. *)
Definition leads (rs : list region) (s r : Z) : Prop :=
  exists g, In g rs /\ g_id g = r /\ g_leader g = s /\ replica_on g s.

Definition follows (rs : list region) (s r : Z) : Prop :=
  exists g, In g rs /\ g_id g = r /\ g_leader g <> 0 /\ g_leader g <> s /\ replica_on g s.

(** In a view, store [s] has a replica / a voting replica of region [r]. *)
Definition hosts_in (v : view) (s r : Z) : Prop :=
  exists ps p, v_cur v r = Some ps /\ In p ps /\ p_store p = s.

Definition votes_in (v : view) (s r : Z) : Prop :=
  exists ps p, v_cur v r = Some ps /\ In p ps /\ p_store p = s /\ p_voter p = true.

Definition store_up (ss : list store) (s : Z) : Prop :=
  s <> 0 /\ exists st, In st ss /\ s_id st = s /\ s_normal st = true.

Definition healthy (m : rmetrics) : Prop :=
  rm_normal m = true /\ rm_raft_ok m = true /\ rm_replica_ok m = true /\
  rm_online m = true /\ rm_unstable m = false /\ rm_pending m <= 10.

Definition healthy_in (v : view) (r : Z) : Prop := exists m, v_region v r = Some m /\ healthy m.

(** The store reports, the region reports, and if the region has a vector index
    the store has more free memory than the index takes. *)
Definition fits_in (v : view) (s r : Z) : Prop :=
  exists sm m, v_store v s = Some sm /\ v_region v r = Some m /\
    (rm_vector m = true -> 0 < rm_mem m < sm_free_mem sm).

(** The reported health of the regions does not change. *)
Definition steady (views : nat -> view) : Prop :=
  forall i j r, v_region (views i) r = v_region (views j) r.

(** ** Loads *)

(** How many regions a store leads. *)
Definition led (rs : list region) (s : Z) : nat :=
  length (filter (fun g => (g_leader g =? s) && existsb (fun p => p_store p =? s) (g_peers g)) rs).

(** How many it leads once the transfers [ts] are done. *)
Definition load (rs : list region) (ts : list task) (s : Z) : Z :=
  Z.of_nat (led rs s) + Z.of_nat (length (filter (fun t => t_dst t =? s) ts))
  - Z.of_nat (length (filter (fun t => t_src t =? s) ts)).

(** The weight that an operator gave a store; 1 if there is none. *)
Definition weight_of (ss : list store) (s : Z) : Z :=
  match find (fun st => s_id st =? s) ss with
  | Some st => if 0 <? s_weight st then s_weight st else 1
  | None => 1
  end.

(** [a / wa <= b / wb] for positive weights. *)
Definition no_more (a wa b wb : Z) : Prop := a * wb <= b * wa.

(** The stores the leader scheduler looks at. *)
Definition candidate (rs : list region) (ss : list store) (s : Z) : Prop :=
  store_up ss s /\ exists g, In g rs /\ g_leader g <> 0 /\ replica_on g s.

(** ** Moves of replicas *)

(** [new] is [old] with store [a] replaced by store [b]. *)
Definition replaces (old new : list Z) (a b : Z) : Prop :=
  In a old /\ ~ In b old /\ NoDup new /\ length new = length old /\
  forall s, In s new <-> s = b \/ (In s old /\ s <> a).

Definition finite (c : rcfg) (v : view) (ss : list store) : Prop :=
  0 < c_region_size c /\
  forall s m, In s ss -> v_store v (s_id s) = Some m -> 0 < sm_total_cap m.

(** ** Launching *)

Definition running (st : lstate) (i : nat) : Prop := l_pc st i = LRunning.

(** No call tests the flag while another is between its test and its setting
    of the flag. *)
Definition one_at_a_time (l : list (nat * lstep)) : Prop :=
  forall pre i post st, l = pre ++ (i, LTest) :: post -> launches l_init pre = Some st ->
    forall j, l_pc st j <> LTested.

(** ** Hours *)

(** A number below 100 as an operator writes it. *)
Definition dec (n : Z) : list Z := if n <? 10 then [48 + n] else [48 + n / 10; 48 + n mod 10].

(** "a,b;c,d;..." *)
Definition window (w : Z * Z) : list Z := dec (fst w) ++ 44 :: dec (snd w).

Fixpoint render (ws : list (Z * Z)) : list Z :=
  match ws with
  | [] => []
  | [w] => window w
  | w :: r => window w ++ 59 :: render r
  end.

(** Hour [h] of the day lies in a window that may go over midnight. *)
Definition within (w : Z * Z) (h : Z) : Prop :=
  if fst w <=? snd w then fst w <= h <= snd w else fst w <= h \/ h <= snd w.

(** ** Reports about regions *)

(** The stores and regions agree: a store that reports at all reports each
    region it has a replica of, region reports name each store once, and they
    name the stores that the region map names. *)
Definition truthful (rs : list region) (v : view) : Prop :=
  forall r m, v_region v r = Some m ->
    NoDup (rm_peers m) /\
    (forall s, follows rs s r -> In s (rm_peers m)) /\
    (forall s sm, In s (rm_peers m) -> v_store v s = Some sm -> In r (sm_regions sm)).

(** The capacity that a store reports as used, and its count of regions, made a
    number by the configured ratio; only for stores that report a capacity. *)
Definition fullness (c : rcfg) (m : smetrics) : Q :=
  let cap := inject_Z (sm_total_cap m) in
  (c_ratio c * (inject_Z (Z.of_nat (length (sm_regions m))) / (cap / inject_Z (c_region_size c)) * 100)
  + (1 - c_ratio c) * (inject_Z (sm_total_cap m - sm_free_cap m) / cap * 100))%Q.

(** Only the random choices differ between the rounds. *)
Definition constant (views : nat -> view) : Prop :=
  forall i j r, v_region (views i) r = v_region (views j) r /\
                v_cur (views i) r = v_cur (views j) r /\
                v_store (views i) r = v_store (views j) r.

(** Leadership of [r] can go from [s] to [d] without making [d] the fuller one. *)
Definition can_take (rs : list region) (ss : list store) (v : view) (s d r : Z) : Prop :=
  candidate rs ss d /\ d <> s /\ votes_in v d r /\ fits_in v d r /\
  no_more (Z.of_nat (led rs d) + 1) (weight_of ss d) (Z.of_nat (led rs s) - 1) (weight_of ss s).
