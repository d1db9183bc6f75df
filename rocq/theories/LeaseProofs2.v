(** Proofs about leases: the invariant of serial histories and its preservation. *)
From Coq Require Import ZArith List Lia Bool Sorted.
From Verif Require Import Bytes SMap KvModel KvSpec KvProofs KvProofs2 KvProofs3 KvProofs4 KvProofs5 KvProofs6.
From Verif Require Import LogProofs2 LeaseModel LeaseSpec LeaseProofs.
Import ListNotations.
Open Scope Z_scope.

Definition zin (z : Z) (l : list Z) : bool := existsb (Z.eqb z) l.
Definition kin (k : bytes) (l : list bytes) : bool := existsb (beqb k) l.

Lemma zin_in z l : zin z l = true <-> In z l.
Proof.
  unfold zin. rewrite existsb_exists. split.
  - intros (x & H & E). apply Z.eqb_eq in E. subst. auto.
  - intros H. exists z. split; auto. apply Z.eqb_refl.
Qed.
Lemma kin_in k l : kin k l = true <-> In k l.
Proof.
  unfold kin. rewrite existsb_exists. split.
  - intros (x & H & E). apply beqb_true in E. subst. auto.
  - intros H. exists k. split; auto. apply beqb_true. auto.
Qed.
Lemma kin_not k l : kin k l = false <-> ~ In k l.
Proof. rewrite <- kin_in. destruct (kin k l); split; congruence. Qed.
Lemma zin_not z l : zin z l = false <-> ~ In z l.
Proof. rewrite <- zin_in. destruct (zin z l); split; congruence. Qed.

(** ** What entries do *)

Lemma spec_lops_data ls : forall a k, st_data (fold_left spec_lop ls a) k = st_data a k.
Proof. induction ls as [|o ls IH]; intros a k; auto. simpl. rewrite IH. destruct o; auto. Qed.

Lemma dels_look n s ls ks k : Good n s ->
  look (apply_entry s (n + 1) (mkInc ls (map ODel ks))) k = if kin k ks then None else look s k.
Proof.
  intros H. rewrite (entry_look _ _ _ _ H). unfold spec_entry. cbn [in_leases in_ops st_data]. rewrite spec_dels, spec_lops_data. auto.
Qed.

Lemma leases_look n s ls k : Good n s -> look (apply_entry s (n + 1) (mkInc ls [])) k = look s k.
Proof. intros H. exact (dels_look n s ls [] k H). Qed.

Lemma compact_look n s keys c k : Good n s -> look (apply_entry s (n + 1) (compact_incr keys c)) k = look s k.
Proof.
  intros H. rewrite (entry_look _ _ _ _ H). unfold spec_entry, compact_incr. cbn [in_leases in_ops st_data fold_left].
  assert (E : forall a, fold_left (spec_op (st_rev (abs s) + 1)) (map (fun k => OCompact k c) keys) a = a).
  { induction keys as [|x keys IH]; intros a; auto. simpl. auto. }
  rewrite E. auto.
Qed.

(** ** Revocations *)

Definition live_keys (s : kvst) (ks : list bytes) : list bytes :=
  flat_map (fun k => match look s k with Some _ => [k] | None => [] end) ks.

Lemma in_live s ks k : In k (live_keys s ks) <-> In k ks /\ look s k <> None.
Proof.
  unfold live_keys. rewrite in_flat_map. split.
  - intros (x & H & Hk). destruct (look s x) eqn:E; [|contradiction]. destruct Hk as [->|[]]. split; auto. congruence.
  - intros [H E]. exists k. split; auto. destruct (look s k); [left; auto|congruence].
Qed.

Lemma revoke_dels s ks : RInv s ->
  flat_map (fun k => map (fun kv => ODel (o_key kv)) (delete_keys s k [])) ks = map ODel (live_keys s ks).
Proof.
  intros H. induction ks as [|k ks IH]; auto. cbn [flat_map]. unfold live_keys. cbn [flat_map]. rewrite map_app. f_equal; [|exact IH].
  pose proof (delete_keys_one s k H) as E. apply (f_equal (map ODel)) in E. rewrite map_map in E. rewrite E. destruct (look s k); auto.
Qed.

Lemma revoke_all_spec s ids : RInv s -> forall m os ds m', sorted Z.compare m -> revoke_all s m ids = (os, ds, m') ->
  exists ids0 ks, os = map LDel ids0 /\ ds = map ODel ks /\ sorted Z.compare m' /\
    (forall id, In id ids0 <-> In id ids /\ kget m id <> None /\ lget (k_leases s) id <> None) /\
    (forall id, kget m' id = if zin id ids0 then None else kget m id) /\
    (forall k, In k ks <-> exists id l ks', In id ids0 /\ kget m id = Some (l, ks') /\ In k ks' /\ look s k <> None).
Proof.
  intros HR. induction ids as [|id ids IH]; intros m os ds m' Hs E.
  - simpl in E. injection E as <- <- <-. exists [], []. simpl. repeat split; auto; try tauto.
    intros (id & _ & _ & [] & _).
  - cbn [revoke_all] in E. unfold revoke_one in E.
    assert (Skip : (kget m id = None \/ lget (k_leases s) id = None) -> revoke_all s m ids = (os, ds, m') ->
      exists ids0 ks, os = map LDel ids0 /\ ds = map ODel ks /\ sorted Z.compare m' /\
        (forall id', In id' ids0 <-> In id' (id :: ids) /\ kget m id' <> None /\ lget (k_leases s) id' <> None) /\
        (forall id', kget m' id' = if zin id' ids0 then None else kget m id') /\
        (forall k, In k ks <-> exists id' l ks', In id' ids0 /\ kget m id' = Some (l, ks') /\ In k ks' /\ look s k <> None)).
    { intros Hn E'. destruct (IH m os ds m' Hs E') as (ids0 & ks & A & B & C & D & F & G).
      exists ids0, ks. repeat (split; [assumption|]). split; [|split; assumption].
      intros id'. rewrite D. simpl. split; [tauto|]. intros [[<-|Hi] [H1 H2]]; [destruct Hn; contradiction|auto]. }
    destruct (kget m id) as [[l ks1]|] eqn:Ek; [|apply Skip; auto].
    destruct (lget (k_leases s) id) as [l0|] eqn:El; [|apply Skip; auto]. clear Skip.
    destruct (revoke_all s (kdel m id) ids) as [[os1 ds1] m1] eqn:Er. injection E as <- <- <-.
    assert (Hs' : sorted Z.compare (kdel m id)) by (apply sorted_del; auto).
    destruct (IH _ _ _ _ Hs' Er) as (ids0 & ks & A & B & C & D & F & G).
    exists (id :: ids0), (live_keys s ks1 ++ ks). subst os1 ds1. split; [auto|]. split.
    { rewrite map_app. f_equal. apply revoke_dels. auto. }
    split; [auto|]. split; [|split].
    + intros id'. simpl. rewrite D, kget_kdel by auto. destruct (Z.eqb_spec id' id) as [->|N].
      * split; [intros _|auto]. split; [auto|]. split; congruence.
      * split; [intros [E'|H]; [congruence|tauto]|]. intros [[E'|H] H2]; [congruence|auto].
    + intros id'. rewrite F, kget_kdel by auto. unfold zin. cbn [existsb]. destruct (Z.eqb_spec id' id) as [->|N]; simpl; auto.
      destruct (existsb _ _); auto.
    + intros k. rewrite in_app_iff, in_live, G. split.
      * intros [[H1 H2]|(id' & l' & ks' & H1 & H2 & H3)].
        -- exists id, l, ks1. simpl. auto.
        -- rewrite kget_kdel in H2 by auto. destruct (id' =? id); [discriminate|]. exists id', l', ks'. simpl. auto.
      * intros (id' & l' & ks' & H1 & H2 & H3 & H4). destruct (Z.eqb_spec id' id) as [->|N].
        -- left. rewrite Ek in H2. injection H2 as <- <-. auto.
        -- right. exists id', l', ks'. destruct H1 as [H1|H1]; [congruence|]. rewrite kget_kdel by auto.
           replace (id' =? id) with false by (symmetry; apply Z.eqb_neq; auto). auto.
Qed.

Lemma ldels_get ids : forall m id, sorted Z.compare m ->
  lget (fold_left lop_do (map LDel ids) m) id = if zin id ids then None else lget m id.
Proof.
  induction ids as [|i ids IH]; intros m id H; auto. cbn [map fold_left lop_do].
  rewrite IH by (apply sorted_del; auto). rewrite lget_ldel by auto. unfold zin. cbn [existsb].
  destruct (id =? i); simpl; destruct (existsb _ _); auto.
Qed.

(** ** The invariant *)

Record LInv (n : lnode) : Prop := mkLInv {
  li_good : Good (n_index n) (n_kv n);
  li_queue : n_queue n = [];
  li_inited : n_inited n = true;
  li_sorted : sorted Z.compare (n_l2k n);
  li_leases : forall id, option_map fst (kget (n_l2k n) id) = lget (k_leases (n_kv n)) id;
  li_keys : forall k kv, look (n_kv n) k = Some kv -> o_lease kv <> 0 ->
    exists l ks, kget (n_l2k n) (o_lease kv) = Some (l, ks) /\ In k ks;
  li_empty : look (n_kv n) [] = None;
  li_zero : lget (k_leases (n_kv n)) 0 = None }.

Definition LExact (n : lnode) : Prop :=
  forall id l ks k, kget (n_l2k n) id = Some (l, ks) -> In k ks -> exists kv, look (n_kv n) k = Some kv /\ o_lease kv = id.

Lemma linv0 : LInv ln0.
Proof.
  constructor; simpl; auto.
  - exact good0.
  - constructor.
  - discriminate.
Qed.
Lemma lexact0 : LExact ln0.
Proof. intros id l ks k H. discriminate. Qed.

Lemma lget_kget n id l : LInv n -> lget (k_leases (n_kv n)) id = Some l -> exists ks, kget (n_l2k n) id = Some (l, ks).
Proof.
  intros H E. pose proof (li_leases n H id) as L. rewrite E in L. destruct (kget (n_l2k n) id) as [[l' ks]|]; [|discriminate].
  simpl in L. injection L as ->. eauto.
Qed.
Lemma kget_lget n id l ks : LInv n -> kget (n_l2k n) id = Some (l, ks) -> lget (k_leases (n_kv n)) id = Some l.
Proof. intros H E. pose proof (li_leases n H id) as L. rewrite E in L. simpl in L. auto. Qed.
Lemma kget_none n id : LInv n -> kget (n_l2k n) id = None <-> lget (k_leases (n_kv n)) id = None.
Proof.
  intros H. pose proof (li_leases n H id) as L. destruct (kget (n_l2k n) id) as [[l ks]|]; simpl in L; rewrite <- L; split; congruence.
Qed.

(** revoking the leases [ids] *)
Lemma revoke_step n ids os ds m : LInv n -> revoke_all (n_kv n) (n_l2k n) ids = (os, ds, m) ->
  let n' := mkN (apply_entry (n_kv n) (n_index n + 1) (mkInc os ds)) (n_index n + 1) m true [] in
  LInv n' /\ (LExact n -> LExact n') /\
  (forall id, lget (k_leases (n_kv n')) id = if zin id ids then None else lget (k_leases (n_kv n)) id) /\
  (forall k kv, look (n_kv n') k = Some kv -> look (n_kv n) k = Some kv) /\
  (forall k kv, look (n_kv n) k = Some kv -> In (o_lease kv) ids -> o_lease kv <> 0 -> look (n_kv n') k = None) /\
  (LExact n -> forall k kv, look (n_kv n) k = Some kv -> ~ In (o_lease kv) ids -> look (n_kv n') k = Some kv).
Proof.
  intros H E n'. pose proof (li_good n H) as G.
  destruct (revoke_all_spec _ _ (good_rinv _ _ G) _ _ _ _ (li_sorted n H) E) as (ids0 & ks & -> & -> & Sm & I0 & Km & Ks).
  assert (Lk : forall k, look (n_kv n') k = if kin k ks then None else look (n_kv n) k).
  { intros k. apply dels_look. exact G. }
  assert (Lg : forall id, lget (k_leases (n_kv n')) id = if zin id ids0 then None else lget (k_leases (n_kv n)) id).
  { intros id. unfold n'. cbn [n_kv]. rewrite (entry_leases _ _ _ G). cbn [in_leases]. apply ldels_get. eapply good_lsorted; eauto. }
  assert (I1 : forall id, lget (k_leases (n_kv n)) id <> None -> (In id ids0 <-> In id ids)).
  { intros id Hn. rewrite I0. split; [tauto|]. intros Hi. split; auto. split; auto. rewrite kget_none; auto. }
  split; [|split; [|split; [|split; [|split]]]].
  - constructor; cbn [n_index n_queue n_inited n_l2k]; auto.
    + exact (entry_good _ _ _ G).
    + intros id. rewrite Lg, Km. destruct (zin id ids0); auto. apply (li_leases n H).
    + intros k kv E1 N. rewrite Lk in E1. destruct (kin k ks) eqn:Ek; [discriminate|].
      destruct (li_keys n H k kv E1 N) as (l & kL & El & Hin). exists l, kL. split; auto. rewrite Km.
      destruct (zin (o_lease kv) ids0) eqn:Ez; auto. exfalso. apply kin_not in Ek. apply Ek. apply Ks.
      exists (o_lease kv), l, kL. apply zin_in in Ez. repeat split; auto. congruence.
    + rewrite Lk, (li_empty n H). destruct (kin [] ks); auto.
    + rewrite Lg, (li_zero n H). destruct (zin 0 ids0); auto.
  - intros X id l kL k E1 Hin. cbn [n_l2k] in E1. unfold n' in E1. cbn [n_l2k] in E1. rewrite Km in E1. destruct (zin id ids0) eqn:Ez; [discriminate|].
    destruct (X id l kL k E1 Hin) as (kv & E2 & E3). exists kv. split; auto. rewrite Lk.
    destruct (kin k ks) eqn:Ek; auto. exfalso. apply kin_in in Ek. apply Ks in Ek. destruct Ek as (id2 & l2 & k2 & H1 & H2 & H3 & _).
    destruct (X id2 l2 k2 k H2 H3) as (kv' & E4 & E5). rewrite E2 in E4. injection E4 as <-. subst id2 id. apply zin_not in Ez. auto.
  - intros id. rewrite Lg. destruct (lget (k_leases (n_kv n)) id) eqn:El.
    + replace (zin id ids) with (zin id ids0); auto. apply eq_true_iff_eq. rewrite !zin_in. apply I1. congruence.
    + destruct (zin id ids0), (zin id ids); auto.
  - intros k kv E1. rewrite Lk in E1. destruct (kin k ks); [discriminate|auto].
  - intros k kv E1 Hi N. rewrite Lk. destruct (li_keys n H k kv E1 N) as (l & kL & El & Hin).
    replace (kin k ks) with true; auto. symmetry. apply kin_in. apply Ks. exists (o_lease kv), l, kL. repeat split; auto; [|congruence].
    apply I1; auto. erewrite kget_lget; eauto. discriminate.
  - intros X k kv E1 Hi. rewrite Lk. destruct (kin k ks) eqn:Ek; auto. exfalso. apply kin_in in Ek. apply Ks in Ek.
    destruct Ek as (id2 & l2 & k2 & H1 & H2 & H3 & _). destruct (X id2 l2 k2 k H2 H3) as (kv' & E4 & E5).
    rewrite E1 in E4. injection E4 as <-. subst id2. apply I0 in H1. tauto.
Qed.
