(** Concrete runs of the raw API. *)
From Coq Require Import ZArith List Bool Lia.
From Verif Require Import Bytes SMap Outcome CodecModel CodecSpec MvccModel RawModel RawSpec RawSearch.
Import ListNotations.
Open Scope Z_scope.

(** ** deciding [calm] on concrete runs *)
Definition bokb (b : bytes) : bool := forallb (fun x => (0 <=? x) && (x <? 256)) b.
Lemma bokb_ok b : bokb b = true -> bytes_ok b.
Proof.
  intros H. apply Forall_forall. intros x X. unfold bokb in H. rewrite forallb_forall in H. specialize (H x X).
  apply andb_true_iff in H. destruct H as [A B]. apply Z.leb_le in A. apply Z.ltb_lt in B. unfold byte_ok. lia.
Qed.
Definition kvs_okb (t0 ttl : Z) (kvs : list (bytes * bytes)) : bool :=
  forallb (fun kv => bokb (fst kv)) kvs && (0 <=? t0 + ttl) && (t0 + ttl <? 2 ^ 63) && ((ttl =? 0) || (0 <? t0 + ttl)).
Lemma kvs_okb_ok t0 ttl kvs : kvs_okb t0 ttl kvs = true -> kvs_ok t0 ttl kvs.
Proof.
  unfold kvs_okb. rewrite !andb_true_iff. intros [[[A B] C] D]. rewrite forallb_forall in A.
  split; [apply Forall_forall; intros kv I; apply bokb_ok; auto|].
  apply Z.leb_le in B. apply Z.ltb_lt in C. split; [lia|]. intros N. apply orb_true_iff in D. destruct D as [D|D].
  - apply Z.eqb_eq in D. lia.
  - apply Z.ltb_lt in D. auto.
Qed.
Definition ne_vals (ttl : Z) (kvs : list (bytes * bytes)) : bool := (ttl =? 0) || forallb (fun kv => negb (is_empty (snd kv))) kvs.
Lemma ne_vals_ok ttl kvs : ne_vals ttl kvs = true -> ttl <> 0 -> Forall (fun kv : bytes * bytes => snd kv <> []) kvs.
Proof.
  unfold ne_vals. intros H N. apply orb_true_iff in H. destruct H as [H|H]; [apply Z.eqb_eq in H; lia|].
  apply Forall_forall. intros kv I E. rewrite forallb_forall in H. specialize (H kv I). rewrite E in H. discriminate.
Qed.
Definition req_okb (t0 : Z) (q : req) : bool :=
  match q with
  | RGet keys | RDelete keys => forallb bokb keys
  | RPut kvs ttl | RPutIfAbsent kvs ttl _ => kvs_okb t0 ttl kvs && ne_vals ttl kvs
  | RCas kvs _ ttl _ => kvs_okb t0 ttl kvs
  | RDeleteRange r => bokb (fst r) && bokb (snd r)
  end.
Lemma req_okb_ok t0 q : req_okb t0 q = true -> req_ok t0 q.
Proof.
  destruct q; cbn [req_okb req_ok]; rewrite ?andb_true_iff.
  1,4: intros H; apply Forall_forall; intros x X; apply bokb_ok; rewrite forallb_forall in H; auto.
  1,2: intros [A B]; split; [apply kvs_okb_ok; auto|apply ne_vals_ok; auto].
  - intros [A B]. split; apply bokb_ok; auto.
  - apply kvs_okb_ok.
Qed.

Definition coversb (c : cmd) (k : bytes) : bool :=
  match c with CDelRange r => bleb (fst r) k && bltb k (snd r) | CWrite _ _ => false end.
Lemma coversb_ok c k : negb (coversb c k) = true -> ~ covers c k.
Proof. destruct c; cbn; auto. intros H E. rewrite E in H. discriminate. Qed.

Definition calmb (s : rst) (l : label) : bool :=
  match l with
  | LStart id n q ts => Nat.eqb n (r_leader s) && match leader_peer s with Some p => p_ready p | None => true end &&
      req_okb (r_now s) q && forallb (fun c => forallb (fun k => negb (coversb c k)) (latch_keys q)) (unapplied s)
  | LRead id | LReply id => match find_op s id with Some o => o_term o =? r_term s | None => true end
  | LWrite id => match find_op s id with
      | Some o => (o_term o =? r_term s) && match o_req o with
          | RDeleteRange r => forallb (fun o' => negb (o_term o' =? r_term s) ||
              forallb (fun k => negb (coversb (CDelRange (intersect_range (r_range s) r)) k)) (latch_keys (o_req o'))) (r_ops s)
          | _ => true end
      | None => true end
  | LReady n => match nth_error (r_peers s) n with
      | Some p => forallb (fun x => match snd x with CWrite ts _ => ts <=? p_maxts p | _ => true end) (firstn (p_applied p) (r_log s))
      | None => true end
  | LTick t =>
      forallb (fun x => match snd x with
        | CWrite _ items => forallb (fun i => match i_flag i with kPutTTL => negb ((r_now s <=? i_ttl i) && (i_ttl i <? t)) | _ => true end) items
        | _ => true end) (r_log s) ||
      (match unapplied s with [] => true | _ => false end &&
       forallb (fun o => negb (o_term o =? r_term s) || match latch_keys (o_req o) with [] => true | _ => false end) (r_ops s))
  | _ => true
  end.
Lemma calmb_ok s l : calmb s l = true -> calm s l.
Proof.
  destruct l as [id n q ts|id|id|id|n|n m|n keep|n|n|t]; cbn [calmb calm]; auto.
  - rewrite !andb_true_iff. intros [[[A B] C] D]. apply Nat.eqb_eq in A. split; auto.
    split; [intros p E; rewrite E in B; auto|]. split; [apply req_okb_ok; auto|].
    intros c k I K. apply coversb_ok. rewrite forallb_forall in D. specialize (D c I). rewrite forallb_forall in D. auto.
  - intros H o E. rewrite E in H. apply Z.eqb_eq in H. auto.
  - intros H o E. rewrite E in H. apply Z.eqb_eq in H. auto.
  - intros H o E. rewrite E in H. apply andb_true_iff in H. destruct H as [A B]. apply Z.eqb_eq in A. split; auto.
    intros r o' k Q I T K. rewrite Q in B. rewrite forallb_forall in B. specialize (B o' I). rewrite T, Z.eqb_refl in B. cbn [negb orb] in B.
    rewrite forallb_forall in B. apply coversb_ok. apply B; auto.
  - intros H p id ts items E I. rewrite E in H. rewrite forallb_forall in H. specialize (H _ I). cbn in H. apply Z.leb_le. auto.
  - intros H. apply orb_true_iff in H. destruct H as [H|H].
    + left. intros (id & ts & items & i & A & B & C & D). rewrite forallb_forall in H. specialize (H _ A). cbn in H.
      rewrite forallb_forall in H. specialize (H i B). rewrite C in H. apply negb_true_iff in H. apply andb_false_iff in H.
      destruct H as [H|H]; [apply Z.leb_gt in H|apply Z.ltb_ge in H]; lia.
    + right. apply andb_true_iff in H. destruct H as [A B]. split; [destruct (unapplied s); auto; discriminate|].
      intros o O T. rewrite forallb_forall in B. specialize (B o O). rewrite T, Z.eqb_refl in B. cbn in B.
      destruct (latch_keys (o_req o)); auto. discriminate.
Qed.
Fixpoint calm_runb (s : rst) (ls : list label) : bool :=
  match ls with
  | [] => true
  | l :: r => calmb s l && match step s l with Next s' => calm_runb s' r | _ => true end
  end.
Lemma calm_runb_ok ls : forall s, calm_runb s ls = true -> calm_run s ls.
Proof.
  induction ls as [|l r IH]; intros s H; cbn in *; auto. apply andb_true_iff in H. destruct H as [A B].
  split; [apply calmb_ok; auto|]. destruct (step s l); auto.
Qed.

(** the history of a run *)
Definition hist_of (r : result) : option (list event) := match r with Next s => Some (r_hist s) | _ => None end.

(** ** runs *)
Definition d_rg : bytes * bytes := ([1], [9]).
Definition d_k : bytes := [5].
Definition d_k2 : bytes := [6].
Definition d_init : rst := init d_rg 1 100.

(** two competing put-if-absent, a compare-and-set, an expiry, a leader change in between *)
Definition d_calm : list label :=
  [LStart 1 0 (RPutIfAbsent [(d_k, [7])] 0 true) 10; LRead 1; LWrite 1;
   LStart 2 0 (RPut [(d_k2, [3])] 20) 11; LWrite 2; LApply 0; LApply 0;
   LStart 3 0 (RPutIfAbsent [(d_k, [8])] 0 true) 12; LRead 3; LReply 3;
   LApply 1; LApply 1; LLeader 1 2; LReady 1;
   LStart 4 1 (RGet [d_k2]) 0; LRead 4; LReply 4; LTick 121;
   LStart 5 1 (RGet [d_k2]) 0; LRead 5; LReply 5;
   LStart 6 1 (RCas [(d_k, [9])] [[7]] 0 true) 13; LRead 6; LWrite 6; LApply 1;
   LStart 7 1 (RDeleteRange ([1], [9])) 0; LWrite 7; LApply 1;
   LStart 8 1 (RGet [d_k; d_k2]) 0; LRead 8; LRead 8; LReply 8].

(** a put with a lifetime, read twice before it ends *)
Definition d_ttl : list label :=
  [LStart 2 0 (RPut [(d_k, [3])] 20) 11; LWrite 2; LApply 0; LTick 119;
   LStart 4 0 (RGet [d_k]) 0; LRead 4; LReply 4; LTick 121;
   LStart 5 0 (RGet [d_k]) 0; LRead 5; LReply 5].

(** two keys written together, read one after the other *)
Definition d_torn : list label :=
  [LStart 1 0 (RPut [(d_k, [7]); (d_k2, [7])] 0) 10;
   LStart 2 0 (RGet [d_k; d_k2]) 0; LRead 2; LWrite 1; LApply 0; LRead 2; LReply 2].

(** each run breaks one requirement of [calm] *)
(** a range delete between the read and the write of a compare-and-set *)
Definition d_range : list label :=
  [LStart 1 0 (RPut [(d_k, [7])] 0) 10; LWrite 1; LApply 0;
   LStart 2 0 (RCas [(d_k, [8])] [[7]] 0 true) 11; LRead 2;
   LStart 3 0 (RDeleteRange ([1], [9])) 0; LWrite 3; LApply 0;
   LStart 4 0 (RGet [d_k]) 0; LRead 4; LReply 4;
   LWrite 2; LApply 0;
   LStart 5 0 (RGet [d_k]) 0; LRead 5; LReply 5].
(** an expiry between the read and the write of a compare-and-set *)
Definition d_expire : list label :=
  [LStart 1 0 (RPut [(d_k, [7])] 10) 10; LWrite 1; LApply 0;
   LStart 2 0 (RCas [(d_k, [8])] [[7]] 0 true) 11; LRead 2; LTick 120;
   LStart 4 0 (RGet [d_k]) 0; LRead 4; LReply 4; LWrite 2; LApply 0].
(** a conditional write on a peer that does not lead (it answers from old data) *)
Definition d_follower : list label :=
  [LStart 1 0 (RPut [(d_k, [7])] 0) 10; LWrite 1; LApply 0;
   LStart 2 1 (RCas [(d_k, [8])] [[7]] 0 true) 11; LRead 2; LReply 2].
(** a conditional write on a new leader that has not applied its log *)
Definition d_behind : list label :=
  [LStart 1 0 (RPut [(d_k, [7])] 0) 10; LWrite 1; LApply 0; LLeader 1 1;
   LStart 2 1 (RPutIfAbsent [(d_k, [8])] 0 true) 11; LRead 2; LWrite 2; LApply 1; LApply 1].
(** leadership lost and regained between read and write *)
Definition d_regain : list label :=
  [LStart 1 0 (RPutIfAbsent [(d_k, [7])] 0 true) 10; LRead 1; LLeader 1 0; LReady 1;
   LStart 2 1 (RPutIfAbsent [(d_k, [8])] 0 true) 11; LRead 2; LWrite 2; LApply 1;
   LLeader 0 1; LApply 0; LReady 0; LWrite 1; LApply 0].
(** a put on a new leader before on_leader_start gets a smaller timestamp *)
Definition d_early : list label :=
  [LStart 1 0 (RPut [(d_k, [7])] 0) 10; LWrite 1; LApply 0; LApply 1;
   LLeader 1 1; LStart 2 1 (RPut [(d_k, [8])] 0) 5; LWrite 2; LApply 1; LReady 1;
   LStart 3 1 (RGet [d_k]) 0; LRead 3; LReply 3].
(** a read on a deposed leader *)
Definition d_stale : list label :=
  [LStart 1 0 (RPut [(d_k, [7])] 0) 10; LWrite 1; LApply 0; LApply 1; LLeader 1 1; LReady 1;
   LStart 2 1 (RPut [(d_k, [8])] 0) 11; LWrite 2; LApply 1;
   LStart 3 0 (RGet [d_k]) 0; LRead 3; LReply 3].
(** a new leader that got its data by a snapshot *)
Definition d_snapshot : list label :=
  [LStart 1 0 (RPut [(d_k, [7])] 0) 10; LWrite 1; LApply 0; LInstall 1 1; LLeader 1 1; LReady 1;
   LStart 2 1 (RPut [(d_k, [8])] 0) 5; LWrite 2; LApply 1;
   LStart 3 1 (RGet [d_k]) 0; LRead 3; LReply 3].
(** an empty value with a time-to-live *)
Definition d_empty : list label :=
  [LStart 1 0 (RPut [(d_k, [])] 10) 10; LWrite 1; LApply 0; LStart 2 0 (RGet [d_k]) 0; LRead 2].

(** no sequential explanation *)
Definition unexplained (ls : list label) : Prop :=
  exists s, run d_init ls = Next s /\ ~ linearizable d_rg 100 (r_hist s).
Lemma unexplained_by ls : match run d_init ls with
    Next s => explore 40 d_rg (inv_ids (r_hist s)) (lin0 100) (r_hist s) = false | _ => False end -> unexplained ls.
Proof.
  unfold unexplained. destruct (run d_init ls) as [s| |]; try tauto. intros E. exists s. split; auto.
  eapply not_linearizable; eauto.
Qed.
