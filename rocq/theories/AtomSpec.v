(** Many regions and the clients that use them (C18).

    The server side is [TxnModel]: every region of the world is a region of that model and serves
    the requests of src/engine/txn_engine_helper.cc.  The clients are not part of the repository;
    what is written here is the protocol they have to follow, as rules about which request may be
    sent when, so that any number of clients and resolvers, acting in any order and crashing at
    any point, is a history of this world.  Nothing here looks inside a handler. *)
From Coq Require Import ZArith List Bool.
From Verif Require Import Bytes SMap Outcome TxnModel TxnSpec.
Import ListNotations.
Open Scope Z_scope.

(** what an answer about the primary key of a transaction can say for good *)
Inductive verdict := VCommitted (ct : Z) | VRolledBack.

Record world := mkWorld {
  w_reg : nat -> region;              (* the regions *)
  w_known : list (Z * verdict);       (* (start, verdict): somebody has received this answer *)
  w_sent : list Z;                    (* commit attempts on their way to the server *)
  w_open : list Z;                    (* commit attempts served, and not answered by a refusal
                                         that reached the client *)
  w_quit : list Z }.                  (* transactions their client has given up *)

Definition init_world : world := mkWorld (fun _ => init_region) [] [] [] [].

Inductive wevent :=
| WSend (st : Z)                              (* the client of st sends a commit attempt *)
| WQuit (st : Z)                              (* the client of st decides to roll it back *)
| WReq (i : nat) (r : req) (n : nat) (heard : bool)
    (* region i serves r; n of its write batches become durable (fewer than all of them is a crash);
       heard: the answer reaches the sender *)
| WOther (i : nat) (e : event).               (* reads, restarts, garbage collection of region i *)

Section World.
Variable c : cfg.
Variable P : plan.
(** the region and the key of the primary of each transaction *)
Variable prim : Z -> nat * bytes.

(** a commit attempt: a commit that names the primary key, or a one-phase prewrite *)
Definition attempt (i : nat) (r : req) : option Z :=
  match r with
  | RCommit st _ keys =>
      if Nat.eqb i (fst (prim st)) && existsb (beqb (snd (prim st))) keys then Some st else None
  | RPrewrite p => if pw_try1 p then Some (pw_start p) else None
  | _ => None
  end.

(** the answer to a commit attempt says that nothing was committed *)
Definition refused (r : req) (a : resp) : bool :=
  match r with
  | RPrewrite _ => r_1pc a =? 0
  | _ => match r_err a, r_res a, r_exist a with None, [], [] => false | _, _, _ => true end
  end.

(** what an answer tells about the primary *)
Definition learned (i : nat) (r : req) (a : resp) : list (Z * verdict) :=
  match r with
  | RCommit st ct _ =>
      match attempt i r with
      | Some _ => if refused r a then [] else [(st, VCommitted ct)]
      | None => []
      end
  | RCheckStatus _ lock_ts _ _ _ _ =>
      match r_err a with
      | Some _ => []
      | None =>
          if 0 <? r_commit a
          then match r_res a with [] => [(lock_ts, VCommitted (r_commit a))] | _ => [] end
          else match r_action a with
               | ATTLExpireRollback | ALockNotExistRollback =>
                   if r_commit a =? 0 then [(lock_ts, VRolledBack)] else []
               | _ => []
               end
      end
  | _ => []
  end.

Fixpoint remove1 (x : Z) (l : list Z) : list Z :=
  match l with [] => [] | y :: r => if x =? y then r else y :: remove1 x r end.

Definition set_reg (w : world) (i : nat) (g : region) : world :=
  mkWorld (fun j => if Nat.eqb j i then g else w_reg w j) (w_known w) (w_sent w) (w_open w) (w_quit w).

(** how the world moves *)
Definition wstep (w : world) (e : wevent) : outcome world :=
  match e with
  | WSend st => Ok (mkWorld (w_reg w) (w_known w) (st :: w_sent w) (w_open w) (w_quit w))
  | WQuit st => Ok (mkWorld (w_reg w) (w_known w) (w_sent w) (w_open w) (st :: w_quit w))
  | WReq i r n heard =>
      obind (serve c (w_reg w i) r) (fun x =>
      obind (step c (w_reg w i) (EReq r n)) (fun g =>
      let w1 := set_reg w i g in
      let known := if heard then learned i r (fst x) ++ w_known w else w_known w in
      match attempt i r with
      | Some st =>
          Ok (mkWorld (w_reg w1) known (remove1 st (w_sent w))
                (if heard && refused r (fst x) then w_open w else st :: w_open w) (w_quit w))
      | None => Ok (mkWorld (w_reg w1) known (w_sent w) (w_open w) (w_quit w))
      end))
  | WOther i e => obind (step c (w_reg w i) e) (fun g => Ok (set_reg w i g))
  end.

(** the rules of the protocol for one request *)
Definition rule (w : world) (i : nat) (r : req) : Prop :=
  match r with
  | RPrewrite p =>
      pw_primary p = snd (prim (pw_start p)) /\
      (* one-phase commit: sent to the region of the primary, and the primary is among its keys *)
      (pw_try1 p = true ->
         In (pw_start p) (w_sent w) /\ i = fst (prim (pw_start p)) /\
         exists m, In m (pw_muts p) /\ m_key m = snd (prim (pw_start p)) /\ m_op m <> OpCheckNotExists)
  | RCommit st ct keys =>
      (* the primary first; another key only when somebody has heard that the primary is committed *)
      match attempt i r with
      | Some _ => In st (w_sent w)
      | None => In (st, VCommitted ct) (w_known w)
      end
  | RBatchRollback st _ =>
      (* the client has given up, or somebody has heard that the primary is rolled back *)
      In st (w_quit w) \/ In (st, VRolledBack) (w_known w)
  | RPessLock p => pl_primary p = snd (prim (pl_start p))
  | RPessRollback _ _ _ | RHeartBeat _ _ _ => True
  | RCheckStatus k lock_ts _ _ _ _ => prim lock_ts = (i, k)       (* asked of the primary *)
  | RCheckSecondary _ _ => False                                  (* asynchronous commit only *)
  | RResolve st ct keys txns =>
      (* according to the verdict on the primary *)
      forall st' ct', In (st', ct') (match keys with [] => txns | _ => [(st, ct)] end) ->
        if 0 <? ct' then In (st', VCommitted ct') (w_known w) else In (st', VRolledBack) (w_known w)
  end.

(** the protocol: what a client or a resolver may do in this world *)
Definition protocol (w : world) (e : wevent) : Prop :=
  match e with
  | WSend st => ~ In st (w_quit w)
  | WQuit st => ~ In st (w_sent w) /\ ~ In st (w_open w)
  | WReq i r n heard =>
      allowed c P (w_reg w i) (EReq r n) /\
      (heard = true -> forall a bs, serve c (w_reg w i) r = Ok (a, bs) -> (length bs <= n)%nat) /\
      rule w i r
  | WOther i e => match e with EReq _ _ => False | _ => allowed c P (w_reg w i) e end
  end.

(** garbage collection has not passed a transaction that is still worked on *)
Definition gc_waits (w : world) (e : wevent) : Prop :=
  match e with
  | WReq _ r _ _ => forall st, In st (txns_of r) -> rg_safe (w_reg w (fst (prim st))) < st
  | _ => True
  end.

Definition obeys (w : world) (e : wevent) : Prop := protocol w e /\ gc_waits w e.

(** histories every step of which is permitted *)
Inductive wrun_with (ok : world -> wevent -> Prop) : world -> list wevent -> world -> Prop :=
| wrun_nil w : wrun_with ok w [] w
| wrun_cons w e w1 es w2 :
    ok w e -> wstep w e = Ok w1 -> wrun_with ok w1 es w2 -> wrun_with ok w (e :: es) w2.
Definition wrun := wrun_with obeys.

End World.

(** somewhere in the world, transaction st is committed at ct / rolled back *)
Definition committed_in (w : world) (i : nat) (k : bytes) (st ct : Z) : Prop :=
  committed (rg_store (w_reg w i)) k st ct.
Definition rolled_back_in (w : world) (i : nat) (k : bytes) (st : Z) : Prop :=
  rolled_back (rg_store (w_reg w i)) k st.
