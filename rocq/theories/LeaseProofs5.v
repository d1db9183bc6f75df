(** Proofs about leases: the statements of LeaseThms.v. *)
From Coq Require Import ZArith List Lia Bool Sorted.
From Verif Require Import Bytes SMap KvModel KvSpec KvProofs KvProofs2 KvProofs3 KvProofs4 KvProofs5 KvProofs6.
From Verif Require Import LogProofs2 LeaseModel LeaseSpec LeaseProofs LeaseProofs2 LeaseProofs3 LeaseProofs4.
Import ListNotations.
Open Scope Z_scope.

Lemma entry_state h k : entry_of (state h) k = look (n_kv (serves h)) k.
Proof. apply inv_entry, serves_inv. Qed.

Lemma state_snoc h r : state (h ++ [r]) = n_kv (serve (serves h) r).
Proof. unfold state. rewrite serves_snoc. auto. Qed.

Lemma entry_snoc h r k : entry_of (state (h ++ [r])) k = look (n_kv (serve (serves h) r)) k.
Proof. rewrite entry_state, serves_snoc. auto. Qed.

Lemma attached_thm h k kv : entry_of (state h) k = Some kv -> o_lease kv <> 0 -> lease_at (state h) (o_lease kv) <> None.
Proof. rewrite entry_state. apply linv_attached, serves_inv. Qed.

Lemma revoke_thm h id : tidy h -> lease_at (state h) id <> None ->
  (forall x, lease_at (state (h ++ [SRevoke id])) x = if x =? id then None else lease_at (state h) x) /\
  (forall k, entry_of (state (h ++ [SRevoke id])) k =
     match entry_of (state h) k with Some kv => if o_lease kv =? id then None else Some kv | None => None end).
Proof.
  intros T E. destruct (revoke_effect (serves h) id (serves_inv h)) as (_ & _ & A & B & C & D).
  split; [intros x; unfold lease_at; rewrite state_snoc; apply A|].
  intros k. rewrite entry_snoc, entry_state. destruct (look (n_kv (serves h)) k) as [kv|] eqn:E1.
  - destruct (Z.eqb_spec (o_lease kv) id) as [E2|N]; [eapply C; eauto|]. apply D; auto. apply serves_exact; auto.
  - destruct (look (n_kv (serve (serves h) (SRevoke id))) k) as [kv|] eqn:E2; auto. apply B in E2. congruence.
Qed.

Lemma expiry_thm h now : tidy h ->
  (forall x, lease_at (state (h ++ [STask now])) x = if overdue (state h) now x then None else lease_at (state h) x) /\
  (forall k, entry_of (state (h ++ [STask now])) k =
     match entry_of (state h) k with Some kv => if overdue (state h) now (o_lease kv) then None else Some kv | None => None end).
Proof.
  intros T. destruct (task_effect (serves h) now (serves_inv h)) as (_ & _ & A & B & C & D).
  split; [intros x; unfold lease_at; rewrite state_snoc; apply A|].
  intros k. rewrite entry_snoc, entry_state. destruct (look (n_kv (serves h)) k) as [kv|] eqn:E1.
  - unfold state. destruct (overdue (n_kv (serves h)) now (o_lease kv)) eqn:E2; [eapply C; eauto|]. apply D; auto. apply serves_exact; auto.
  - destruct (look (n_kv (serve (serves h) (STask now))) k) as [kv|] eqn:E2; auto. apply B in E2. congruence.
Qed.

(** without [tidy]: at least the attached keys go *)
Lemma complete_thm h r k kv : entry_of (state (h ++ [r])) k = Some kv ->
  match r with
  | SRevoke id => lease_at (state h) id <> None -> o_lease kv <> id
  | STask now => overdue (state h) now (o_lease kv) = false
  | _ => True
  end.
Proof.
  intros E. rewrite entry_snoc in E. destruct r; auto.
  - intros El E2. destruct (revoke_effect (serves h) id (serves_inv h)) as (_ & _ & _ & B & C & _).
    rewrite (C k kv (B _ _ E) E2 El) in E. discriminate.
  - destruct (task_effect (serves h) now (serves_inv h)) as (_ & _ & _ & B & C & _).
    unfold state. destruct (overdue (n_kv (serves h)) now (o_lease kv)) eqn:Eo; auto. rewrite (C k kv (B _ _ E) Eo) in E. discriminate.
Qed.

Lemma renew_thm h id now :
  (forall x, lease_at (state (h ++ [SRenew id now])) x =
     if x =? id then match lease_at (state h) id with Some l => Some (mkL (l_ttl l) now) | None => None end else lease_at (state h) x) /\
  (forall k, entry_of (state (h ++ [SRenew id now])) k = entry_of (state h) k).
Proof.
  destruct (renew_effect (serves h) id now (serves_inv h)) as (_ & _ & B & A).
  split; [intros x; unfold lease_at; rewrite state_snoc; apply A|]. intros k. rewrite entry_snoc, entry_state. apply B.
Qed.

Lemma grant_thm h id ttl now : id <> 0 ->
  Z.of_nat (length (k_leases (state h))) <= 50000 -> lease_at (state h) id = None ->
  (forall x, lease_at (state (h ++ [SGrant id ttl now])) x =
     if x =? id then Some (mkL (Z.max 3 (Z.min 300 ttl)) now) else lease_at (state h) x) /\
  (forall k, entry_of (state (h ++ [SGrant id ttl now])) k = entry_of (state h) k).
Proof.
  intros N Hc E. destruct (grant_effect (serves h) id ttl now (serves_inv h)) as (_ & _ & B & A & _ & C).
  split.
  - intros x. unfold lease_at. rewrite state_snoc. destruct (Z.eqb_spec x id) as [->|Nx]; [|apply A; auto].
    rewrite C; auto. f_equal. f_equal. unfold clamp_ttl, kMaxTtl, kMinTtl.
    destruct (Z.ltb_spec 300 ttl); [lia|]. destruct (Z.ltb_spec ttl 3); lia.
  - intros k. rewrite entry_snoc, entry_state. apply B.
Qed.

(** what can change the lease of a key or remove it *)
Lemma put_thm h key value lid now : lid <> 0 ->
  let s := state h in let s' := state (h ++ [SPut key value lid false false now]) in
  (forall x, lease_at s' x = lease_at s x) /\
  (forall k, k <> key -> entry_of s' k = entry_of s k) /\
  ((exists l, lease_at s lid = Some l /\ now < l_ttl l + l_renew l) ->
   put_check s key value false = None ->
   (forall kv, entry_of s key = Some kv -> o_lease kv = lid) ->
   exists kv, entry_of s' key = Some kv /\ o_value kv = value /\ o_lease kv = lid /\ o_mod kv = k_rev s + 1) /\
  ((forall l, lease_at s lid = Some l -> l_ttl l + l_renew l <= now) \/
   (exists kv, entry_of s key = Some kv /\ o_lease kv <> lid) ->
   entry_of s' key = entry_of s key).
Proof.
  intros N s s'. pose proof (serves_inv h) as H. unfold s, s'.
  destruct (put_effect (serves h) key value lid false false now H) as (_ & _ & A & B). rewrite <- serves_snoc in *.
  split; [exact A|]. split; [|split].
  - intros k Nk. rewrite !entry_state. destruct B as [->|(g & _ & _ & _ & _ & B)]; auto. rewrite B.
    destruct (beqb k key) eqn:E; auto. apply beqb_true in E. congruence.
  - intros (l & El & Hn) Hc Hk.
    assert (E : serve (serves h) (SPut key value lid false false now) =
       mkN (apply_entry (n_kv (serves h)) (n_index (serves h) + 1) (put_incr key value lid false false)) (n_index (serves h) + 1)
           (match kget (n_l2k (serves h)) lid with Some (l, ks) => kput (n_l2k (serves h)) lid (l, kadd key ks) | None => [] end) true []).
    { unfold serve, lsteps. cbn [events_of fold_left lstep]. unfold kv_put. unfold state in Hc. rewrite Hc.
      unfold lease_at in El. destruct (lget_kget _ _ _ H El) as (ks & Ek).
      replace (negb false && negb (lid =? 0) && negb (lease_ok (serves h) lid now)) with false.
      2:{ symmetry. apply andb_false_iff. right. apply negb_false_iff. unfold lease_ok. rewrite (li_inited _ H), Ek. simpl.
          apply negb_true_iff, Z.leb_gt. lia. }
      unfold put_lease. rewrite current_of by (eapply good_rinv; apply H).
      assert (Hl : match look (n_kv (serves h)) key with Some kv => o_lease kv = lid | None => True end).
      { destruct (look (n_kv (serves h)) key) as [kv|] eqn:E; auto. apply Hk. rewrite entry_state. auto. }
      replace (match look (n_kv (serves h)) key with Some kv => if o_lease kv =? lid then inl lid else inr EInval | None => inl lid end)
        with (inl lid : Z + kv_error).
      2:{ destruct (look (n_kv (serves h)) key) as [kv|]; auto. rewrite Hl, Z.eqb_refl. auto. }
      replace (lid =? 0) with false by (symmetry; apply Z.eqb_neq; auto). rewrite Ek. apply applied. auto. }
    rewrite entry_state, serves_snoc, E. cbn [n_kv]. rewrite put_look.
    + assert (Eb : beqb key key = true) by (apply beqb_true; auto). rewrite Eb. eexists. split; [reflexivity|].
      unfold new_entry. destruct (look _ _); repeat split; auto.
    + apply H.
    + discriminate.
    + intros _. unfold lease_at, state in El. congruence.
  - intros Hr. rewrite !entry_state. destruct B as [->|(g & _ & Ep & Hq & Hg & B)]; auto. exfalso.
    assert (R : RInv (n_kv (serves h))) by (eapply good_rinv; apply H).
    pose proof (put_lease_look _ _ _ _ _ R Ep) as Hp. assert (g = lid) as ->.
    { destruct (look (n_kv (serves h)) key); destruct Hp; auto. }
    destruct Hr as [Hr|(kv & E1 & E2)].
    + specialize (Hq eq_refl N). unfold lease_ok in Hq. apply andb_true_iff in Hq. destruct Hq as [_ Hq].
      destruct (kget (n_l2k (serves h)) lid) as [[l ks]|] eqn:Ek; [|discriminate].
      apply negb_true_iff, Z.leb_gt in Hq. specialize (Hr l (kget_lget _ _ _ _ H Ek)). lia.
    + rewrite entry_state in E1. rewrite E1 in Hp. tauto.
Qed.
