(** Asynchronous commit over many regions (C65).

    A transaction that commits asynchronously is decided the moment all its keys are prewritten:
    nobody writes a record that says so, it follows from the locks, and its commit timestamp is the
    largest min_commit_ts among them.  The server side is [TxnModel]; the clients and the resolvers
    are rules about which request may be sent when, as in [AtomSpec].  What they go by is what they
    have been told: the lists of the world hold the contents of answers that were received, and
    never look into a region.  Nothing here looks inside a handler. *)
From Coq Require Import ZArith List Bool.
From Verif Require Import Bytes SMap Outcome TxnModel TxnSpec AtomSpec.
Import ListNotations.
Open Scope Z_scope.

(** a key in a region *)
Definition part : Type := nat * bytes.

Record yworld := mkY {
  y_reg : nat -> region;
  y_known : list (Z * verdict);        (* (start, verdict): somebody has received this answer *)
  y_try : list (Z * part);             (* keys whose prewrite was served, and not answered by a
                                          refusal that reached the client *)
  y_done : list (Z * part);            (* keys whose prewrite was answered with success *)
  y_ev : list (Z * part * Z);          (* a lock of this transaction on this key, marked for
                                          asynchronous commit, and a min_commit_ts of it *)
  y_sync : list Z;                     (* transactions known to have a lock that is not marked *)
  y_quit : list Z }.                   (* transactions their client has given up *)

Definition init_yworld : yworld := mkY (fun _ => init_region) [] [] [] [] [] [].

Inductive yevent :=
| YQuit (st : Z)                              (* the client of st decides to roll it back *)
| YReq (i : nat) (r : req) (n : nat) (heard : bool)
    (* region i serves r; n of its write batches become durable; heard: the answer arrives *)
| YOther (i : nat) (e : event).               (* reads, restarts, garbage collection of region i *)

(** the keys a prewrite writes *)
Definition written (p : prewrite_req) : list bytes :=
  map m_key (filter (fun m => negb (op_eqb (m_op m) OpCheckNotExists)) (pw_muts p)).

(** the answer is a success *)
Definition good (a : resp) : bool :=
  match r_err a, r_res a, r_exist a with None, [], [] => true | _, _, _ => false end.

Definition inZ (x : Z) (l : list Z) : bool := existsb (Z.eqb x) l.
Definition tried (w : yworld) (st : Z) (i : nat) (k : bytes) : bool :=
  existsb (fun x => (fst x =? st) && Nat.eqb (fst (snd x)) i && beqb (snd (snd x)) k) (y_try w).
(** none of the keys of the request was prewritten before, as far as its client can tell *)
Definition fresh (w : yworld) (i : nat) (p : prewrite_req) : bool :=
  forallb (fun m => negb (tried w (pw_start p) i (m_key m))) (pw_muts p).

Section World.
Variable c : cfg.
Variable P : plan.
(** the primary and the other keys of each transaction *)
Variable prim : Z -> part.
Variable secs : Z -> list part.
Definition parts (st : Z) : list part := prim st :: secs st.

(** what an answer tells about the fate of a transaction *)
Definition ylearned (i : nat) (r : req) (a : resp) : list (Z * verdict) :=
  match r with
  | RCommit st ct keys =>
      if Nat.eqb i (fst (prim st)) && existsb (beqb (snd (prim st))) keys && good a
      then [(st, VCommitted ct)] else []
  | RCheckStatus _ lock_ts _ _ _ _ =>
      match r_err a with
      | Some _ => []
      | None =>
          if 0 <? r_commit a
          then match r_res a with [] => [(lock_ts, VCommitted (r_commit a))] | _ => [] end
          else match r_action a with
               | ATTLExpireRollback | ALockNotExistRollback =>
                   if r_commit a =? 0 then [(lock_ts, VRolledBack)] else []
               | _ => []
               end
      end
  | RCheckSecondary st keys =>
      match r_err a, r_res a with
      | None, [] =>
          if 0 <? r_commit a then [(st, VCommitted (r_commit a))]
          else if Nat.ltb (length (r_locks a)) (length keys) then [(st, VRolledBack)] else []
      | None, [TNotFound _ _] => [(st, VRolledBack)]
      | _, _ => []
      end
  | _ => []
  end.

(** locks marked for asynchronous commit an answer tells of *)
Definition evidence (w : yworld) (i : nat) (r : req) (a : resp) : list (Z * part * Z) :=
  match r with
  | RPrewrite p =>
      (* the client that has fallen back to two phases does not use the min_commit_ts it gets *)
      if good a && (0 <? r_minc a) && negb (inZ (pw_start p) (y_sync w))
      then map (fun k => (pw_start p, (i, k), r_minc a)) (written p) else []
  | RCheckSecondary st _ =>
      match r_err a with
      | None => map (fun l => (st, (i, l_key l), l_minc l)) (filter l_async (r_locks a))
      | Some _ => []
      end
  | RCheckStatus k lock_ts _ _ _ _ =>
      match r_err a, r_res a with
      | None, [TLocked l] => if l_async l then [(lock_ts, (i, k), l_minc l)] else []
      | _, _ => []
      end
  | _ => []
  end.

(** transactions an answer shows to have a lock that is not marked.  A prewrite that succeeds
    without a min_commit_ts says so only when it is not a repetition. *)
Definition sync_signs (w : yworld) (i : nat) (r : req) (a : resp) : list Z :=
  match r with
  | RPrewrite p =>
      if good a && (r_minc a <=? 0) && negb (is_nil (written p)) && fresh w i p then [pw_start p] else []
  | RCheckSecondary st _ =>
      match r_err a with
      | None => if existsb (fun l => negb (l_async l)) (r_locks a) then [st] else []
      | Some _ => []
      end
  | _ => []
  end.

Definition set_yreg (w : yworld) (i : nat) (g : region) : yworld :=
  mkY (fun j => if Nat.eqb j i then g else y_reg w j) (y_known w) (y_try w) (y_done w) (y_ev w) (y_sync w) (y_quit w).

Definition prewrites (i : nat) (r : req) : list (Z * part) :=
  match r with RPrewrite p => map (fun k => (pw_start p, (i, k))) (written p) | _ => [] end.

(** how the world moves *)
Definition ystep (w : yworld) (e : yevent) : outcome yworld :=
  match e with
  | YQuit st => Ok (mkY (y_reg w) (y_known w) (y_try w) (y_done w) (y_ev w) (y_sync w) (st :: y_quit w))
  | YReq i r n heard =>
      obind (serve c (y_reg w i) r) (fun x =>
      obind (step c (y_reg w i) (EReq r n)) (fun g =>
      let a := fst x in
      Ok (mkY (fun j => if Nat.eqb j i then g else y_reg w j)
            (if heard then ylearned i r a ++ y_known w else y_known w)
            (if heard && negb (good a) then y_try w else prewrites i r ++ y_try w)
            (if heard && good a then prewrites i r ++ y_done w else y_done w)
            (if heard then evidence w i r a ++ y_ev w else y_ev w)
            (if heard then sync_signs w i r a ++ y_sync w else y_sync w)
            (y_quit w))))
  | YOther i e => obind (step c (y_reg w i) e) (fun g => Ok (set_yreg w i g))
  end.

(** every key of the transaction is known to be locked for asynchronous commit: it is committed, at
    the largest min_commit_ts *)
Definition concluded (w : yworld) (st ct : Z) : Prop :=
  exists ms, Forall2 (fun q m => In (st, q, m) (y_ev w)) (parts st) ms /\ ct = fold_right Z.max 0 ms.
Definition says (w : yworld) (st : Z) (v : verdict) : Prop :=
  In (st, v) (y_known w) \/ exists ct, v = VCommitted ct /\ concluded w st ct.
(** two-phase commit may begin: the transaction is known not to be asynchronous, and every key is
    prewritten *)
Definition ready (w : yworld) (st : Z) : Prop :=
  In st (y_sync w) /\ forall q, In q (parts st) -> In (st, q) (y_done w).

(** the rules of the protocol for one request *)
Definition yrule (w : yworld) (i : nat) (r : req) : Prop :=
  match r with
  | RPrewrite p =>
      let st := pw_start p in
      pw_primary p = snd (prim st) /\ (pw_secs p = map snd (secs st) \/ pw_secs p = []) /\
      pw_try1 p = false /\ NoDup (map m_key (pw_muts p)) /\
      (forall k, In k (written p) -> In (i, k) (parts st)) /\ ~ In st (y_quit w)
  | RCommit st ct keys =>
      says w st (VCommitted ct) \/
      (ready w st /\ i = fst (prim st) /\ In (snd (prim st)) keys)
  | RBatchRollback st _ => In st (y_quit w) \/ In (st, VRolledBack) (y_known w)
  | RPessLock p => pl_primary p = snd (prim (pl_start p)) /\ forall q, ~ In (pl_start p, q) (y_try w)
  | RPessRollback _ _ _ | RHeartBeat _ _ _ => True
  | RCheckStatus k lock_ts _ _ force_sync _ =>
      prim lock_ts = (i, k) /\ (force_sync = true -> In lock_ts (y_sync w))
  | RCheckSecondary st keys => forall k, In k keys -> In (i, k) (parts st)
  | RResolve st ct keys txns =>
      forall st' ct', In (st', ct') (match keys with [] => txns | _ => [(st, ct)] end) ->
        if 0 <? ct' then says w st' (VCommitted ct') else In (st', VRolledBack) (y_known w)
  end.

Definition yprotocol (w : yworld) (e : yevent) : Prop :=
  match e with
  | YQuit st => exists q, In q (parts st) /\ ~ In (st, q) (y_try w)
  | YReq i r n heard =>
      allowed c P (y_reg w i) (EReq r n) /\
      (heard = true -> forall a bs, serve c (y_reg w i) r = Ok (a, bs) -> (length bs <= n)%nat) /\
      yrule w i r
  | YOther i e => match e with EReq _ _ => False | _ => allowed c P (y_reg w i) e end
  end.

(** garbage collection has not passed a transaction that is still worked on *)
Definition ygc_waits (w : yworld) (e : yevent) : Prop :=
  match e with
  | YReq _ r _ _ => forall st q, In st (txns_of r) -> In q (parts st) -> rg_safe (y_reg w (fst q)) < st
  | _ => True
  end.

Definition yobeys (w : yworld) (e : yevent) : Prop := yprotocol w e /\ ygc_waits w e.

Inductive yrun_with (ok : yworld -> yevent -> Prop) : yworld -> list yevent -> yworld -> Prop :=
| yrun_nil w : yrun_with ok w [] w
| yrun_cons w e w1 es w2 :
    ok w e -> ystep w e = Ok w1 -> yrun_with ok w1 es w2 -> yrun_with ok w (e :: es) w2.
Definition yrun := yrun_with yobeys.

End World.

Definition ycommitted (w : yworld) (i : nat) (k : bytes) (st ct : Z) : Prop :=
  committed (rg_store (y_reg w i)) k st ct.
Definition yrolled_back (w : yworld) (i : nat) (k : bytes) (st : Z) : Prop :=
  rolled_back (rg_store (y_reg w i)) k st.

(** everything that was answered, and heard, in a history that starts in [w] *)
Fixpoint heard_answers (c : cfg) (prim : Z -> part) (w : yworld) (es : list yevent) : list (req * resp) :=
  match es with
  | [] => []
  | e :: rest =>
      match e with
      | YReq i r _ true => match serve c (y_reg w i) r with Ok (a, _) => [(r, a)] | _ => [] end
      | _ => []
      end ++
      match ystep c prim w e with Ok w' => heard_answers c prim w' rest | _ => [] end
  end.
