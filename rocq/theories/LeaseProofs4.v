(** Proofs about leases: puts, deletes, the rebuilt table; all serial histories. *)
From Coq Require Import ZArith List Lia Bool Sorted.
From Verif Require Import Bytes SMap KvModel KvSpec KvProofs KvProofs2 KvProofs3 KvProofs4 KvProofs5 KvProofs6.
From Verif Require Import LogProofs2 LeaseModel LeaseSpec LeaseProofs LeaseProofs2 LeaseProofs3.
Import ListNotations.
Open Scope Z_scope.

(** ** Put *)

(** the entry a put leaves *)
Definition new_entry (s : kvst) (key value : bytes) (grant : Z) : kvo :=
  match look s key with
  | Some o => mkO key value (o_create o) (k_rev s + 1) (o_ver o + 1) grant
  | None => mkO key value (k_rev s + 1) (k_rev s + 1) 1 grant
  end.

Lemma put_check_key s value iv : put_check s [] value iv <> None.
Proof. unfold put_check. destruct (_ <? _); discriminate. Qed.

Lemma put_look n s key value grant iv il k : Good n s ->
  (il = true -> exists o, look s key = Some o /\ o_lease o = grant) ->
  (0 < grant -> lget (k_leases s) grant <> None) ->
  look (apply_entry s (n + 1) (put_incr key value grant iv il)) k =
    if beqb k key then Some (new_entry s key (if iv then [] else value) grant) else look s k.
Proof.
  intros G Hil Hl. rewrite (entry_look _ _ _ _ G). unfold spec_entry, put_incr. cbn [in_leases in_ops st_data fold_left spec_op].
  unfold spec_put. cbn [st_data st_leases st_rev abs].
  assert (El : (if il then match look s key with Some o => o_lease o | None => 0 end else grant) = grant).
  { destruct il; auto. destruct (Hil eq_refl) as (o & -> & E). auto. }
  rewrite El.
  assert (Eh : (0 <? grant) && negb (has_lease s grant) = false).
  { destruct (Z.ltb_spec 0 grant) as [P|]; auto. simpl. unfold has_lease. specialize (Hl P). destruct (lget _ _); auto. congruence. }
  rewrite Eh. cbn [st_data]. unfold set_key, new_entry. destruct (beqb k key); auto.
Qed.

Lemma put_leases n s key value grant iv il : Good n s ->
  k_leases (apply_entry s (n + 1) (put_incr key value grant iv il)) = k_leases s.
Proof. intros G. rewrite (entry_leases _ _ _ G). auto. Qed.

(** the lease under which a put is accepted *)
Lemma put_lease_look s key lid il g : RInv s -> put_lease s key lid il = inl g ->
  match look s key with Some o => o_lease o = g /\ (il = false -> g = lid) | None => il = false /\ g = lid end.
Proof.
  intros H. unfold put_lease. rewrite current_of by auto. destruct (look s key) as [o|].
  - destruct il.
    + intros E. injection E as <-. split; auto. discriminate.
    + destruct (Z.eqb_spec (o_lease o) lid) as [E|]; [|discriminate]. intros E'. injection E' as <-. auto.
  - destruct il; [discriminate|]. intros E. injection E as <-. auto.
Qed.

Lemma put_effect n key value lid iv il now : LInv n ->
  let n' := serve n (SPut key value lid iv il now) in
  LInv n' /\ (LExact n -> LExact n') /\ (forall x, lget (k_leases (n_kv n')) x = lget (k_leases (n_kv n)) x) /\
  (n' = n \/ exists g, put_check (n_kv n) key value iv = None /\ put_lease (n_kv n) key lid il = inl g /\
     (il = false -> g <> 0 -> lease_ok n g now = true) /\ (g <> 0 -> lget (k_leases (n_kv n)) g <> None) /\
     forall k, look (n_kv n') k = if beqb k key then Some (new_entry (n_kv n) key (if iv then [] else value) g) else look (n_kv n) k).
Proof.
  intros H n'. unfold n', serve, lsteps. cbn [events_of fold_left lstep]. unfold kv_put.
  assert (Idle : LInv (apply_head n) /\ (LExact n -> LExact (apply_head n)) /\
     (forall x, lget (k_leases (n_kv (apply_head n))) x = lget (k_leases (n_kv n)) x) /\ (apply_head n = n \/
      exists g, put_check (n_kv n) key value iv = None /\ put_lease (n_kv n) key lid il = inl g /\
     (il = false -> g <> 0 -> lease_ok n g now = true) /\ (g <> 0 -> lget (k_leases (n_kv n)) g <> None) /\
     forall k, look (n_kv (apply_head n)) k = if beqb k key then Some (new_entry (n_kv n) key (if iv then [] else value) g) else look (n_kv n) k)).
  { rewrite idle by auto. auto. }
  destruct (put_check (n_kv n) key value iv) eqn:Ec; [exact Idle|].
  destruct (negb il && negb (lid =? 0) && negb (lease_ok n lid now)) eqn:Eq; [exact Idle|].
  destruct (put_lease (n_kv n) key lid il) as [g|] eqn:Ep; [|exact Idle].
  pose proof (li_good n H) as G. pose proof (good_rinv _ _ G) as R.
  pose proof (put_lease_look _ _ _ _ _ R Ep) as Hp.
  assert (Hil : il = true -> exists o, look (n_kv n) key = Some o /\ o_lease o = g).
  { intros ->. destruct (look (n_kv n) key) as [o|]; [exists o; tauto|]. destruct Hp; discriminate. }
  assert (Hq : il = false -> g <> 0 -> lease_ok n g now = true).
  { intros -> Hg. assert (g = lid) as -> by (destruct (look (n_kv n) key); tauto). simpl in Eq.
    replace (lid =? 0) with false in Eq by (symmetry; apply Z.eqb_neq; auto). simpl in Eq. apply negb_false_iff in Eq. auto. }
  assert (Nk : key <> []). { intros ->. exact (put_check_key _ _ _ Ec). }
  destruct (Z.eqb_spec g 0) as [->|Ng].
  - replace (propose n (put_incr key value 0 iv il)) with (propose (set_l2k n (n_l2k n)) (put_incr key value 0 iv il)) by (rewrite set_same; auto).
    rewrite !applied by auto. cbn [n_kv].
    set (s' := apply_entry (n_kv n) (n_index n + 1) (put_incr key value 0 iv il)).
    assert (Lk : forall k, look s' k = if beqb k key then Some (new_entry (n_kv n) key (if iv then [] else value) 0) else look (n_kv n) k).
    { intros k. apply put_look; auto. intros; lia. }
    assert (Lg : k_leases s' = k_leases (n_kv n)) by (apply put_leases; auto).
    split; [|split; [|split]].
    + constructor; cbn [n_kv n_index n_queue n_inited n_l2k]; auto.
      * exact (entry_good _ _ _ G).
      * apply H.
      * intros id. rewrite Lg. apply H.
      * intros k kv E1 E2. rewrite Lk in E1. destruct (beqb k key); [|apply (li_keys n H); auto].
        injection E1 as <-. exfalso. apply E2. unfold new_entry. destruct (look (n_kv n) key); auto.
      * rewrite Lk. destruct (beqb [] key) eqn:E; [|apply H]. apply beqb_true in E. congruence.
      * rewrite Lg. apply H.
    + intros X id l ks k E1 Hin. cbn [n_l2k n_kv] in *. destruct (X id l ks k E1 Hin) as (kv & E2 & E3). rewrite Lk.
      destruct (beqb k key) eqn:E; [|eauto]. apply beqb_true in E. subst k. exfalso. rewrite E2 in Hp. destruct Hp as [Hp _].
      pose proof (kget_lget n id l ks H E1) as E4. rewrite <- E3, Hp, (li_zero n H) in E4. discriminate.
    + intros x. rewrite Lg. auto.
    + right. exists 0. repeat split; auto.
  - destruct (kget (n_l2k n) g) as [[l ks]|] eqn:Ek; [|exact Idle]. clear Idle. rewrite applied by auto. cbn [n_kv].
    set (s' := apply_entry (n_kv n) (n_index n + 1) (put_incr key value g iv il)).
    assert (Hl : lget (k_leases (n_kv n)) g = Some l) by (eapply kget_lget; eauto).
    assert (Lk : forall k, look s' k = if beqb k key then Some (new_entry (n_kv n) key (if iv then [] else value) g) else look (n_kv n) k).
    { intros k. apply put_look; auto. intros _. congruence. }
    assert (Lg : k_leases s' = k_leases (n_kv n)) by (apply put_leases; auto).
    split; [|split; [|split]].
    + constructor; cbn [n_kv n_index n_queue n_inited n_l2k]; auto.
      * exact (entry_good _ _ _ G).
      * apply (sorted_put _ zcmp_ok). apply H.
      * intros id. rewrite Lg, kget_kput. destruct (Z.eqb_spec id g) as [->|]; [simpl; auto|apply H].
      * intros k kv E1 E2. rewrite Lk in E1. rewrite kget_kput. destruct (beqb k key) eqn:Eb.
        -- apply beqb_true in Eb. subst k. injection E1 as <-.
           replace (o_lease (new_entry (n_kv n) key (if iv then [] else value) g)) with g by (unfold new_entry; destruct (look (n_kv n) key); auto).
           rewrite Z.eqb_refl. exists l, (kadd key ks). split; auto. apply in_kadd. auto.
        -- destruct (li_keys n H k kv E1 E2) as (l1 & k1 & E3 & Hin). destruct (Z.eqb_spec (o_lease kv) g) as [E|]; [|eauto].
           rewrite E, Ek in E3. injection E3 as <- <-. exists l, (kadd key ks). split; auto. apply in_kadd. auto.
      * rewrite Lk. destruct (beqb [] key) eqn:E; [|apply H]. apply beqb_true in E. congruence.
      * rewrite Lg. apply H.
    + intros X id l1 k1 k E1 Hin. cbn [n_l2k n_kv] in *. rewrite kget_kput in E1. rewrite Lk. destruct (Z.eqb_spec id g) as [->|Nid].
      * injection E1 as <- <-. destruct (beqb k key) eqn:Eb.
        -- eexists. split; [reflexivity|]. unfold new_entry; destruct (look (n_kv n) key); auto.
        -- apply in_kadd in Hin. destruct Hin as [->|Hin]; [|eapply X; eauto].
           exfalso. assert (B : beqb key key = true) by (apply beqb_true; auto). congruence.
      * destruct (X id l1 k1 k E1 Hin) as (kv & E2 & E3). destruct (beqb k key) eqn:E; [|eauto].
        apply beqb_true in E. subst k. exfalso. rewrite E2 in Hp. destruct Hp as [Hp _]. congruence.
    + intros x. rewrite Lg. auto.
    + right. exists g. repeat split; auto. intros _. congruence.
Qed.

(** ** Delete *)

Lemma delete_incr_keys s key range_end :
  delete_incr s key range_end = mkInc [] (map ODel (map o_key (delete_keys s key range_end))).
Proof. unfold delete_incr. rewrite map_map. auto. Qed.

Lemma delete_effect n key range_end : LInv n ->
  let n' := serve n (SDelete key range_end) in
  LInv n' /\ (apart (n_kv n) key range_end -> LExact n -> LExact n') /\
  (forall x, lget (k_leases (n_kv n')) x = lget (k_leases (n_kv n)) x) /\
  (forall k kv, look (n_kv n') k = Some kv -> look (n_kv n) k = Some kv).
Proof.
  intros H n'. unfold n', serve, lsteps. cbn [events_of fold_left lstep]. unfold kv_delete.
  destruct key as [|b key']; [rewrite idle by auto; auto|].
  set (key := b :: key'). rewrite applied by auto. cbn [n_kv].
  pose proof (li_good n H) as G. pose proof (good_rinv _ _ G) as R.
  rewrite delete_incr_keys. set (kvs := delete_keys (n_kv n) key range_end).
  set (s' := apply_entry (n_kv n) (n_index n + 1) (mkInc [] (map ODel (map o_key kvs)))).
  assert (Lk : forall k, look s' k = if kin k (map o_key kvs) then None else look (n_kv n) k) by (intros k; apply dels_look; auto).
  assert (Lg : k_leases s' = k_leases (n_kv n)) by (unfold s'; rewrite (entry_leases _ _ _ G); auto).
  split; [|split; [|split]].
  - constructor; cbn [n_kv n_index n_queue n_inited n_l2k]; auto.
    + exact (entry_good _ _ _ G).
    + apply remove_keys_sorted, H.
    + intros id. rewrite Lg, remove_keys_get, <- (li_leases n H id). destruct (kget (n_l2k n) id) as [[l ks]|]; auto.
    + intros k kv E1 E2. rewrite Lk in E1. destruct (kin k (map o_key kvs)) eqn:Ek; [discriminate|].
      destruct (li_keys n H k kv E1 E2) as (l & ks & E3 & Hin). rewrite remove_keys_get, E3. eexists _, _. split; [reflexivity|].
      apply filter_In. split; auto. apply negb_true_iff. destruct (named (lease_keys kvs) (o_lease kv) k) eqn:En; auto.
      exfalso. apply named_in in En. apply lease_keys_in in En. destruct En as (_ & kv' & H1 & _ & H2).
      apply kin_not in Ek. apply Ek. apply in_map_iff. eauto.
    + rewrite Lk, (li_empty n H). destruct (kin _ _); auto.
    + rewrite Lg. apply H.
  - intros Ap X id l ks k E1 Hin. cbn [n_l2k n_kv] in *. rewrite remove_keys_get in E1.
    destruct (kget (n_l2k n) id) as [[l0 ks0]|] eqn:E0; [|discriminate]. injection E1 as <- <-. apply filter_In in Hin. destruct Hin as [Hin En].
    apply negb_true_iff in En. destruct (X id l0 ks0 k E0 Hin) as (kv & E2 & E3). rewrite Lk.
    destruct (kin k (map o_key kvs)) eqn:Ek; [|eauto]. exfalso. apply kin_in, in_map_iff in Ek. destruct Ek as (kv' & E4 & Hkv).
    destruct (delete_keys_live _ _ _ _ R Hkv) as (kv0 & E5 & E6). rewrite E4, E2 in E5. injection E5 as <-.
    assert (Nz : o_lease kv' <> 0).
    { intros Ez. pose proof (kget_lget n id l0 ks0 H E0) as E7. rewrite <- E3, E6, Ez, (li_zero n H) in E7. discriminate. }
    assert (Hn : named (lease_keys kvs) id k = true).
    { apply named_in. rewrite <- E3, E6, <- E4. apply lease_keys_all; auto. }
    congruence.
  - intros x. rewrite Lg. auto.
  - intros k kv E1. rewrite Lk in E1. destruct (kin _ _); [discriminate|auto].
Qed.

(** ** Compaction *)

Lemma compact_effect n keys c : LInv n ->
  let n' := serve n (SCompact keys c) in
  LInv n' /\ (LExact n -> LExact n') /\ (forall x, lget (k_leases (n_kv n')) x = lget (k_leases (n_kv n)) x) /\
  (forall k, look (n_kv n') k = look (n_kv n) k).
Proof.
  intros H n'. unfold n', serve, lsteps. cbn [events_of fold_left lstep].
  replace (propose n (compact_incr keys c)) with (propose (set_l2k n (n_l2k n)) (compact_incr keys c)) by (rewrite set_same; auto).
  rewrite applied by auto. cbn [n_kv]. pose proof (li_good n H) as G.
  assert (Lk : forall k, look (apply_entry (n_kv n) (n_index n + 1) (compact_incr keys c)) k = look (n_kv n) k) by (intros k; apply compact_look; auto).
  assert (Lg : k_leases (apply_entry (n_kv n) (n_index n + 1) (compact_incr keys c)) = k_leases (n_kv n)) by (rewrite (entry_leases _ _ _ G); auto).
  split; [|split; [|split]]; auto.
  - constructor; cbn [n_kv n_index n_queue n_inited n_l2k]; auto.
    + exact (entry_good _ _ _ G).
    + apply H.
    + intros id. rewrite Lg. apply H.
    + intros k kv. rewrite Lk. apply H.
    + rewrite Lk. apply H.
    + rewrite Lg. apply H.
  - intros X id l ks k E1 Hin. cbn [n_l2k n_kv] in *. rewrite Lk. eapply X; eauto.
  - intros x. rewrite Lg. auto.
Qed.

(** ** A change of leader *)

Lemma wf_created revs hi k i : wf_idx revs hi k i -> created_idx i = live_idx i.
Proof.
  intros [(gs & g & E & _ & Hg) _ _ _]. unfold created_idx, live_idx. rewrite E, last_gen_app.
  destruct (g_create g); auto. destruct Hg as (rs & v & -> & _). destruct rs; auto.
Qed.

Lemma build_fold s l : forall m id,
  (kget (fold_left (build_key s) l m) id = None <-> kget m id = None) /\
  forall x ks, kget m id = Some (x, ks) -> exists ks', kget (fold_left (build_key s) l m) id = Some (x, ks') /\
    forall k, In k ks' <-> In k ks \/ exists p v, In p l /\ created_idx (snd p) = true /\ k_revs s (i_mod (snd p)) = Some v /\
      v_lease v <> 0 /\ v_lease v = id /\ v_key v = k.
Proof.
  induction l as [|p l IH]; intros m id.
  - simpl. split; [tauto|]. intros x ks E. exists ks. split; auto. intros k. split; auto. intros [H|(p & v & [] & _)]; auto.
  - cbn [fold_left].
    assert (Same : build_key s m p = m -> (forall v, created_idx (snd p) = true -> k_revs s (i_mod (snd p)) = Some v -> v_lease v <> 0 -> kget m (v_lease v) = None) ->
      (kget (fold_left (build_key s) l (build_key s m p)) id = None <-> kget m id = None) /\
      forall x ks, kget m id = Some (x, ks) -> exists ks', kget (fold_left (build_key s) l (build_key s m p)) id = Some (x, ks') /\
        forall k, In k ks' <-> In k ks \/ exists p0 v, In p0 (p :: l) /\ created_idx (snd p0) = true /\ k_revs s (i_mod (snd p0)) = Some v /\
          v_lease v <> 0 /\ v_lease v = id /\ v_key v = k).
    { intros -> Hn. destruct (IH m id) as [I1 I2]. split; auto. intros x ks E. destruct (I2 x ks E) as (ks' & A & B). exists ks'. split; auto.
      intros k. rewrite B. split.
      - intros [H1|(p0 & v & H1 & H2)]; auto. right. exists p0, v. simpl. auto 10.
      - intros [H1|(p0 & v & [<-|H1] & H2 & H3 & H4 & H5 & H6)]; auto.
        + specialize (Hn v H2 H3 H4). congruence.
        + right. exists p0, v. auto 10. }
    unfold build_key at 2 4. unfold build_key in Same at 1 3 5. destruct (created_idx (snd p)) eqn:Ec; [|apply Same; auto; discriminate].
    destruct (k_revs s (i_mod (snd p))) as [v|] eqn:Ev; [|apply Same; auto; discriminate].
    destruct (Z.eqb_spec (v_lease v) 0) as [E0|E0]; [apply Same; auto; congruence|].
    destruct (kget m (v_lease v)) as [[xl kl]|] eqn:Ek; [|apply Same; auto; congruence]. clear Same.
    destruct (IH (kput m (v_lease v) (xl, kadd (v_key v) kl)) id) as [I1 I2]. rewrite kget_kput in I1, I2. split.
    + rewrite I1. destruct (Z.eqb_spec id (v_lease v)) as [->|]; [rewrite Ek; split; discriminate|tauto].
    + intros x ks E. destruct (Z.eqb_spec id (v_lease v)) as [->|N].
      * rewrite Ek in E. injection E as <- <-. destruct (I2 _ _ eq_refl) as (ks' & A & B). exists ks'. split; auto.
        intros k. rewrite B, in_kadd. split.
        -- intros [[->|H1]|(p0 & v0 & H1 & H2)]; auto; right.
           ++ exists p, v. simpl. auto 10.
           ++ exists p0, v0. simpl. auto 10.
        -- intros [H1|(p0 & v0 & [<-|H1] & H2 & H3 & H4 & H5 & H6)]; auto.
           ++ left. left. congruence.
           ++ right. exists p0, v0. auto 10.
      * destruct (I2 _ _ E) as (ks' & A & B). exists ks'. split; auto. intros k. rewrite B. split.
        -- intros [H1|(p0 & v0 & H1 & H2)]; auto. right. exists p0, v0. simpl. auto 10.
        -- intros [H1|(p0 & v0 & [<-|H1] & H2 & H3 & H4 & H5 & H6)]; auto.
           ++ congruence.
           ++ right. exists p0, v0. auto 10.
Qed.

Lemma build_sorted s l : forall m, sorted Z.compare m -> sorted Z.compare (fold_left (build_key s) l m).
Proof.
  induction l as [|p l IH]; intros m H; auto. cbn [fold_left]. apply IH. unfold build_key.
  destruct (created_idx _); auto. destruct (k_revs _ _); auto. destruct (_ =? 0); auto. destruct (kget _ _) as [[x ks]|]; auto.
  apply (sorted_put _ zcmp_ok). auto.
Qed.

Lemma base_get (m : list (Z * lease)) id : kget (map (fun p => (fst p, (snd p, []))) m) id = option_map (fun l => (l, [])) (lget m id).
Proof.
  unfold kget, lget. induction m as [|[i l] m IH]; auto. simpl. destruct (id ?= i); auto.
Qed.
Lemma base_sorted (m : list (Z * lease)) : sorted Z.compare m -> sorted Z.compare (map (fun p => (fst p, (snd p, @nil bytes))) m).
Proof.
  induction m as [|[i l] m IH]; intros H; [constructor|]. apply sorted_cons in H. destruct H as [H F]. simpl. apply sorted_cons. split; auto.
  apply Forall_map. eapply Forall_impl; [|exact F]. intros [a b]. unfold klt. auto.
Qed.

Lemma build_keys n s id l : Good n s -> lget (k_leases s) id = Some l ->
  exists ks, kget (build_map s) id = Some (l, ks) /\ forall k, In k ks <-> exists kv, look s k = Some kv /\ o_lease kv = id /\ id <> 0.
Proof.
  intros G E. destruct G as [[hi [[Hs Hi _ _] _]] _ _ _ _].
  destruct (build_fold s (k_index s) (map (fun p => (fst p, (snd p, []))) (k_leases s)) id) as [_ B].
  rewrite base_get, E in B. destruct (B l [] eq_refl) as (ks & A & K). exists ks. split; [exact A|]. intros k. rewrite K. split.
  - intros [[]|(p & v & Hp & Hc & Hv & N & El & Ekey)]. destruct p as [k0 i]. simpl in *.
    apply (In_get _ bcmp_ok) in Hp; auto. fold iget in Hp. pose proof (Hi k0 i Hp) as W.
    rewrite (wf_created _ _ _ _ W) in Hc. destruct (wf_live _ _ _ _ W Hc) as (_ & _ & _ & _ & v' & _ & _ & _ & _ & Ev & Kv & _).
    rewrite Hv in Ev. injection Ev as <-. exists (to_kvo false v). split; [|split; [exact El|congruence]].
    unfold look. rewrite <- Ekey, Kv, Hp, Hc, Hv. auto.
  - intros (kv & Ek & El & N). right. unfold look in Ek. destruct (iget (k_index s) k) as [i|] eqn:Ei; [|discriminate].
    destruct (live_idx i) eqn:L; [|discriminate]. pose proof (Hi k i Ei) as W.
    destruct (wf_live _ _ _ _ W L) as (_ & _ & _ & _ & v & _ & _ & _ & _ & Ev & Kv & _). rewrite Ev in Ek. simpl in Ek. injection Ek as <-.
    exists (k, i), v. simpl in *. split; [apply (get_In _ bcmp_ok _ _ _ Ei)|]. rewrite (wf_created _ _ _ _ W). repeat split; auto. congruence.
Qed.

Lemma build_none s id : lget (k_leases s) id = None -> kget (build_map s) id = None.
Proof.
  intros E. destruct (build_fold s (k_index s) (map (fun p => (fst p, (snd p, []))) (k_leases s)) id) as [B _].
  apply B. rewrite base_get, E. auto.
Qed.

(** a live key's lease exists *)
Definition attached_ok (n : lnode) : Prop :=
  forall k kv, look (n_kv n) k = Some kv -> o_lease kv <> 0 -> lget (k_leases (n_kv n)) (o_lease kv) <> None.

Lemma linv_attached n : LInv n -> attached_ok n.
Proof.
  intros H k kv E N. destruct (li_keys n H k kv E N) as (l & ks & Ek & _). rewrite (kget_lget n _ l ks H Ek). discriminate.
Qed.

Lemma elect_effect n : LInv n ->
  LInv (serve n SElect) /\ LExact (serve n SElect) /\ n_kv (serve n SElect) = n_kv n.
Proof.
  intros H. unfold serve, lsteps. cbn [events_of fold_left lstep]. rewrite (li_queue n H). simpl drain.
  cbn [n_kv n_index n_queue]. rewrite (li_queue n H). pose proof (li_good n H) as G. split; [|split; auto].
  - constructor; cbn [n_kv n_index n_queue n_inited n_l2k]; auto.
    + apply build_sorted, base_sorted. eapply good_lsorted; eauto.
    + intros id. destruct (lget (k_leases (n_kv n)) id) as [l|] eqn:E.
      * destruct (build_keys _ _ id l G E) as (ks & -> & _). auto.
      * rewrite build_none; auto.
    + intros k kv E1 E2. pose proof (linv_attached n H k kv E1 E2) as E3.
      destruct (lget (k_leases (n_kv n)) (o_lease kv)) as [l|] eqn:E; [|congruence].
      destruct (build_keys _ _ _ l G E) as (ks & Ek & K). exists l, ks. split; auto. apply K. eauto.
    + apply H.
    + apply H.
  - intros id l ks k E1 Hin. cbn [n_l2k n_kv] in *. destruct (lget (k_leases (n_kv n)) id) as [l'|] eqn:E.
    + destruct (build_keys _ _ id l' G E) as (ks' & Ek & K). rewrite Ek in E1. injection E1 as <- <-. apply K in Hin.
      destruct Hin as (kv & A & B & _). eauto.
    + rewrite build_none in E1; [discriminate|auto].
Qed.

(** ** Histories *)

Lemma serve_inv n r : LInv n -> LInv (serve n r).
Proof.
  intros H. destruct r.
  - apply grant_effect; auto.
  - apply renew_effect; auto.
  - apply revoke_effect; auto.
  - apply put_effect; auto.
  - apply delete_effect; auto.
  - apply compact_effect; auto.
  - apply task_effect; auto.
  - apply elect_effect; auto.
Qed.

Lemma serve_exact n r : LInv n -> LExact n ->
  match r with SDelete key range_end => apart (n_kv n) key range_end | _ => True end -> LExact (serve n r).
Proof.
  intros H X T. destruct r.
  - apply grant_effect; auto.
  - apply renew_effect; auto.
  - apply revoke_effect; auto.
  - apply put_effect; auto.
  - apply delete_effect; auto.
  - apply compact_effect; auto.
  - apply task_effect; auto.
  - apply elect_effect; auto.
Qed.

Lemma serves_inv_from h : forall n, LInv n -> LInv (fold_left serve h n).
Proof. induction h as [|r h IH]; intros n H; auto. simpl. apply IH, serve_inv, H. Qed.

Lemma serves_exact_from h : forall n, LInv n -> LExact n -> tidy_from n h -> LExact (fold_left serve h n).
Proof.
  induction h as [|r h IH]; intros n H X T; auto. simpl in *. destruct T as [T1 T2]. apply IH; auto using serve_inv, serve_exact.
Qed.

Lemma serves_inv h : LInv (serves h).
Proof. apply serves_inv_from, linv0. Qed.
Lemma serves_exact h : tidy h -> LExact (serves h).
Proof. apply serves_exact_from; [exact linv0|exact lexact0]. Qed.
Lemma serves_snoc h r : serves (h ++ [r]) = serve (serves h) r.
Proof. unfold serves. rewrite fold_left_app. auto. Qed.

Lemma inv_entry n k : LInv n -> entry_of (n_kv n) k = look (n_kv n) k.
Proof. intros H. apply entry_of_look; [eapply good_rinv; apply H|apply H]. Qed.
