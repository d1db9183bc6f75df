(** Proofs about leases: each request keeps the invariant, and what it does. *)
From Coq Require Import ZArith List Lia Bool Sorted.
From Verif Require Import Bytes SMap KvModel KvSpec KvProofs KvProofs2 KvProofs3 KvProofs4 KvProofs5 KvProofs6.
From Verif Require Import LogProofs2 LeaseModel LeaseSpec LeaseProofs LeaseProofs2.
Import ListNotations.
Open Scope Z_scope.

Lemma applied n e m : LInv n ->
  apply_head (propose (set_l2k n m) e) = mkN (apply_entry (n_kv n) (n_index n + 1) e) (n_index n + 1) m true [].
Proof. intros H. unfold apply_head, propose, set_l2k. cbn [n_queue n_kv n_index n_l2k n_inited]. rewrite (li_queue n H), (li_inited n H). auto. Qed.

Lemma idle n : LInv n -> apply_head n = n.
Proof. intros H. unfold apply_head. rewrite (li_queue n H). auto. Qed.

Lemma set_same n : set_l2k n (n_l2k n) = n.
Proof. destruct n; auto. Qed.

(** ** Revoke *)

Lemma serve_revoke n id : LInv n ->
  (lget (k_leases (n_kv n)) id = None /\ serve n (SRevoke id) = n) \/
  exists os ds m, revoke_all (n_kv n) (n_l2k n) [id] = (os, ds, m) /\
    serve n (SRevoke id) = mkN (apply_entry (n_kv n) (n_index n + 1) (mkInc os ds)) (n_index n + 1) m true [].
Proof.
  intros H. unfold serve, lsteps. cbn [events_of fold_left lstep]. unfold lease_revoke. cbn [revoke_all].
  destruct (revoke_one (n_kv n) (n_l2k n) id) as [[[o ds] m]|] eqn:E.
  - right. exists [o], (ds ++ []), m. split; auto. rewrite app_nil_r. apply applied. auto.
  - left. split; [|apply idle; auto]. unfold revoke_one in E. destruct (kget (n_l2k n) id) as [[l ks]|] eqn:Ek.
    + destruct (lget (k_leases (n_kv n)) id); [discriminate|auto].
    + apply kget_none; auto.
Qed.

Lemma revoke_effect n id : LInv n ->
  LInv (serve n (SRevoke id)) /\ (LExact n -> LExact (serve n (SRevoke id))) /\
  (forall id', lget (k_leases (n_kv (serve n (SRevoke id)))) id' = if id' =? id then None else lget (k_leases (n_kv n)) id') /\
  (forall k kv, look (n_kv (serve n (SRevoke id))) k = Some kv -> look (n_kv n) k = Some kv) /\
  (forall k kv, look (n_kv n) k = Some kv -> o_lease kv = id -> lget (k_leases (n_kv n)) id <> None -> look (n_kv (serve n (SRevoke id))) k = None) /\
  (LExact n -> forall k kv, look (n_kv n) k = Some kv -> o_lease kv <> id -> look (n_kv (serve n (SRevoke id))) k = Some kv).
Proof.
  intros H. destruct (serve_revoke n id H) as [[E ->]|(os & ds & m & E & ->)].
  - split; [auto|]. split; [auto|]. split.
    { intros id'. destruct (Z.eqb_spec id' id); congruence. }
    split; [auto|]. split; [|auto]. intros. contradiction.
  - destruct (revoke_step n [id] os ds m H E) as (A & B & C & D & F & G).
    split; [auto|]. split; [auto|]. split.
    { intros id'. rewrite C. unfold zin. simpl. rewrite orb_false_r. auto. }
    split; [auto|]. split.
    + intros k kv E1 E2 E3. eapply F; eauto; [left; auto|]. intros E4. rewrite <- E2, E4, (li_zero n H) in E3. auto.
    + intros X k kv E1 N. apply G; auto. intros [Hn|[]]; auto.
Qed.

(** ** The background task *)

Lemma in_expired n now id : LInv n ->
  In id (expired_ids (n_l2k n) now) <-> overdue (n_kv n) now id = true.
Proof.
  intros H. unfold expired_ids, overdue, lease_at. rewrite in_map_iff. split.
  - intros ([id' [l ks]] & E & Hin). simpl in E. subst id'. apply filter_In in Hin. destruct Hin as [Hin E]. simpl in E.
    apply (In_get _ zcmp_ok) in Hin; [|apply H]. fold kget in Hin. rewrite (kget_lget n id l ks H Hin). auto.
  - destruct (lget (k_leases (n_kv n)) id) as [l|] eqn:E; [|discriminate]. intros Ho.
    destruct (lget_kget n id l H E) as (ks & Ek). exists (id, (l, ks)). split; auto. apply filter_In. split; auto.
    eapply get_In; [exact zcmp_ok|exact Ek].
Qed.

Lemma serve_task n now : LInv n ->
  exists os ds m, revoke_all (n_kv n) (n_l2k n) (expired_ids (n_l2k n) now) = (os, ds, m) /\
    (((forall id, overdue (n_kv n) now id = false) /\ serve n (STask now) = n) \/
     serve n (STask now) = mkN (apply_entry (n_kv n) (n_index n + 1) (mkInc os ds)) (n_index n + 1) m true []).
Proof.
  intros H. unfold serve, lsteps. cbn [events_of fold_left lstep]. unfold lease_task. rewrite (li_inited n H). simpl negb. cbv iota.
  destruct (revoke_all (n_kv n) (n_l2k n) (expired_ids (n_l2k n) now)) as [[os ds] m] eqn:E.
  exists os, ds, m. split; auto. destruct os as [|o os].
  - left. assert (X : expired_ids (n_l2k n) now = []).
    { destruct (expired_ids (n_l2k n) now) as [|id ids] eqn:Ex; auto. exfalso.
      assert (Hi : In id (expired_ids (n_l2k n) now)) by (rewrite Ex; left; auto).
      apply in_expired in Hi; auto. unfold overdue, lease_at in Hi. destruct (lget (k_leases (n_kv n)) id) as [l|] eqn:El; [|discriminate].
      destruct (lget_kget n id l H El) as (ks & Ek). cbn [revoke_all] in E. unfold revoke_one in E. rewrite Ek, El in E.
      destruct (revoke_all _ _ _) as [[a b] c]. discriminate. }
    rewrite X in E. simpl in E. injection E as <- <-. split; [|apply set_same].
    intros id. destruct (overdue (n_kv n) now id) eqn:Eo; auto. apply in_expired in Eo; auto. rewrite X in Eo. destruct Eo.
  - right. unfold propose, set_l2k. cbn [n_queue n_kv n_index n_l2k n_inited]. rewrite (li_queue n H). simpl length. simpl drain.
    unfold apply_head. cbn [n_queue n_kv n_index n_l2k n_inited app]. rewrite (li_inited n H). auto.
Qed.

Lemma task_effect n now : LInv n ->
  LInv (serve n (STask now)) /\ (LExact n -> LExact (serve n (STask now))) /\
  (forall id, lget (k_leases (n_kv (serve n (STask now)))) id = if overdue (n_kv n) now id then None else lget (k_leases (n_kv n)) id) /\
  (forall k kv, look (n_kv (serve n (STask now))) k = Some kv -> look (n_kv n) k = Some kv) /\
  (forall k kv, look (n_kv n) k = Some kv -> overdue (n_kv n) now (o_lease kv) = true -> look (n_kv (serve n (STask now))) k = None) /\
  (LExact n -> forall k kv, look (n_kv n) k = Some kv -> overdue (n_kv n) now (o_lease kv) = false -> look (n_kv (serve n (STask now))) k = Some kv).
Proof.
  intros H. destruct (serve_task n now H) as (os & ds & m & E & [[O ->]| ->]).
  - split; [auto|]. split; [auto|]. split; [intros id; rewrite O; auto|]. split; [auto|]. split; [|auto].
    intros k kv _ E1. rewrite O in E1. discriminate.
  - destruct (revoke_step n _ os ds m H E) as (A & B & C & D & F & G).
    split; [auto|]. split; [auto|]. split.
    { intros id. rewrite C. replace (zin id (expired_ids (n_l2k n) now)) with (overdue (n_kv n) now id); auto.
      apply eq_true_iff_eq. rewrite zin_in, in_expired; auto. tauto. }
    split; [auto|]. split.
    + intros k kv E1 E2. eapply F; eauto; [apply in_expired; auto|]. intros E4.
      unfold overdue, lease_at in E2. rewrite E4, (li_zero n H) in E2. discriminate.
    + intros X k kv E1 N. apply G; auto. rewrite in_expired; auto. rewrite N. discriminate.
Qed.

(** ** Grant and renew *)

Lemma lease_entry n id l m : LInv n -> id <> 0 ->
  sorted Z.compare m -> (forall x, kget m x = if x =? id then Some (l, match kget (n_l2k n) id with Some (_, ks) => ks | None => [] end) else kget (n_l2k n) x) ->
  let n' := mkN (apply_entry (n_kv n) (n_index n + 1) (mkInc [LPut id l] [])) (n_index n + 1) m true [] in
  LInv n' /\ (LExact n -> LExact n') /\
  (forall x, lget (k_leases (n_kv n')) x = if x =? id then Some l else lget (k_leases (n_kv n)) x) /\
  (forall k, look (n_kv n') k = look (n_kv n) k).
Proof.
  intros H N Sm Km n'. pose proof (li_good n H) as G.
  assert (Lk : forall k, look (n_kv n') k = look (n_kv n) k) by (intros k; apply leases_look; auto).
  assert (Lg : forall x, lget (k_leases (n_kv n')) x = if x =? id then Some l else lget (k_leases (n_kv n)) x).
  { intros x. unfold n'. cbn [n_kv]. rewrite (entry_leases _ _ _ G). cbn [in_leases fold_left lop_do]. apply lget_lput. }
  split; [|split; [|split; auto]].
  - constructor; cbn [n_index n_queue n_inited n_l2k]; auto.
    + exact (entry_good _ _ _ G).
    + intros x. unfold n'. cbn [n_l2k]. fold n'. rewrite Lg, Km. destruct (x =? id); auto. apply (li_leases n H).
    + intros k kv E1 E2. rewrite Lk in E1. destruct (li_keys n H k kv E1 E2) as (l1 & ks & E3 & Hin).
      unfold n'. cbn [n_l2k]. rewrite Km. destruct (Z.eqb_spec (o_lease kv) id) as [<-|Ne]; [|eauto].
      rewrite E3. eauto.
    + rewrite Lk. apply H.
    + rewrite Lg. destruct (Z.eqb_spec 0 id); [congruence|apply H].
  - intros X x l1 ks k E1 Hin. unfold n' in E1. cbn [n_l2k] in E1. rewrite Km in E1. rewrite Lk.
    destruct (Z.eqb_spec x id) as [->|Ne]; [|eapply X; eauto].
    injection E1 as <- <-. destruct (kget (n_l2k n) id) as [[l2 ks2]|] eqn:E2; [|contradiction]. eapply X; eauto.
Qed.

Lemma grant_effect n id ttl now : LInv n ->
  LInv (serve n (SGrant id ttl now)) /\ (LExact n -> LExact (serve n (SGrant id ttl now))) /\
  (forall k, look (n_kv (serve n (SGrant id ttl now))) k = look (n_kv n) k) /\
  (forall x, x <> id -> lget (k_leases (n_kv (serve n (SGrant id ttl now)))) x = lget (k_leases (n_kv n)) x) /\
  (forall l, lget (k_leases (n_kv n)) id = Some l -> lget (k_leases (n_kv (serve n (SGrant id ttl now)))) id = Some l) /\
  (Z.of_nat (length (k_leases (n_kv n))) <= kMaxLeases -> id <> 0 -> lget (k_leases (n_kv n)) id = None ->
   lget (k_leases (n_kv (serve n (SGrant id ttl now)))) id = Some (mkL (clamp_ttl ttl) now)).
Proof.
  intros H. unfold serve, lsteps. cbn [events_of fold_left lstep]. unfold lease_grant.
  destruct (Z.ltb_spec kMaxLeases (Z.of_nat (length (k_leases (n_kv n))))) as [Hc|Hc].
  { rewrite idle by auto. repeat (split; [auto|]). intros; lia. }
  rewrite (li_inited n H). simpl negb. cbv iota.
  destruct (Z.eqb_spec id 0) as [->|N]; [rewrite idle by auto; repeat (split; [auto|]); congruence|].
  destruct (lget (k_leases (n_kv n)) id) as [l|] eqn:El; [rewrite idle by auto; repeat (split; [auto|]); congruence|].
  pose proof El as Ek. rewrite <- (kget_none n id H) in Ek. rewrite Ek. rewrite applied by auto.
  assert (Km : forall x, kget (kput (n_l2k n) id (mkL (clamp_ttl ttl) now, [])) x =
     if x =? id then Some (mkL (clamp_ttl ttl) now, match kget (n_l2k n) id with Some (_, ks) => ks | None => [] end) else kget (n_l2k n) x).
  { intros x. rewrite kget_kput, Ek. auto. }
  destruct (lease_entry n id (mkL (clamp_ttl ttl) now) _ H N (sorted_put _ zcmp_ok _ _ _ (li_sorted n H)) Km) as (A & B & C & D).
  split; [exact A|]. split; [exact B|]. split; [exact D|]. split; [|split].
  - intros x Nx. rewrite C. apply Z.eqb_neq in Nx. rewrite Nx. auto.
  - discriminate.
  - intros _ _ _. rewrite C, Z.eqb_refl. auto.
Qed.

Lemma renew_effect n id now : LInv n ->
  LInv (serve n (SRenew id now)) /\ (LExact n -> LExact (serve n (SRenew id now))) /\
  (forall k, look (n_kv (serve n (SRenew id now))) k = look (n_kv n) k) /\
  (forall x, lget (k_leases (n_kv (serve n (SRenew id now)))) x =
     if x =? id then match lget (k_leases (n_kv n)) id with Some l => Some (mkL (l_ttl l) now) | None => None end
     else lget (k_leases (n_kv n)) x).
Proof.
  intros H. unfold serve, lsteps. cbn [events_of fold_left lstep]. unfold lease_renew. rewrite (li_inited n H). simpl negb. cbv iota.
  destruct (kget (n_l2k n) id) as [[l ks]|] eqn:Ek.
  - rewrite (kget_lget n id l ks H Ek). rewrite applied by auto.
    assert (N : id <> 0). { intros ->. pose proof (kget_lget n 0 l ks H Ek) as E. rewrite (li_zero n H) in E. discriminate. }
    assert (Km : forall x, kget (kput (n_l2k n) id (mkL (l_ttl l) now, ks)) x =
       if x =? id then Some (mkL (l_ttl l) now, match kget (n_l2k n) id with Some (_, ks) => ks | None => [] end) else kget (n_l2k n) x).
    { intros x. rewrite kget_kput, Ek. auto. }
    destruct (lease_entry n id (mkL (l_ttl l) now) _ H N (sorted_put _ zcmp_ok _ _ _ (li_sorted n H)) Km) as (A & B & C & D).
    split; [exact A|]. split; [exact B|]. split; [exact D|]. exact C.
  - rewrite idle by auto. split; [auto|]. split; [auto|]. split; [auto|].
    intros x. apply (kget_none n id H) in Ek. rewrite Ek. destruct (Z.eqb_spec x id); congruence.
Qed.
