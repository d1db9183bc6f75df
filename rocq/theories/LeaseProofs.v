(** Proofs about leases: one entry seen from the outside, key sets, the rebuilt table. *)
From Coq Require Import ZArith List Lia Bool Sorted.
From Verif Require Import Bytes SMap KvModel KvSpec KvProofs KvProofs2 KvProofs3 KvProofs4 KvProofs5 KvProofs6.
From Verif Require Import LogProofs2 LeaseModel LeaseSpec.
Import ListNotations.
Open Scope Z_scope.

(** ** One entry *)

Lemma good_rinv n s : Good n s -> RInv s.
Proof. intros [[hi [H _]] _ _ _ _]. eapply inv_rinv; eauto. Qed.
Lemma good_lsorted n s : Good n s -> sorted Z.compare (k_leases s).
Proof. intros [[hi [[_ _ _ H] _]] _ _ _ _]. auto. Qed.

Lemma entry_good n s e : Good n s -> Good (n + 1) (apply_entry s (n + 1) e).
Proof. intros H. apply (entry_step n s _ e H (seq_refl _)). Qed.

Lemma entry_look n s e k : Good n s -> look (apply_entry s (n + 1) e) k = st_data (spec_entry (abs s) e) k.
Proof. intros H. destruct (entry_step n s _ e H (seq_refl _)) as (_ & (A & _) & _). apply A. Qed.

Definition lop_do (m : list (Z * lease)) (o : lop) : list (Z * lease) :=
  match o with LPut id l => lput m id l | LDel id => ldel m id end.

Lemma lops_leases ls : forall s, k_leases (performs s (map lop_eff ls)) = fold_left lop_do ls (k_leases s).
Proof.
  induction ls as [|o ls IH]; intros s; auto.
  change (performs s (map lop_eff (o :: ls))) with (performs (perform s (lop_eff o)) (map lop_eff ls)).
  rewrite IH. destruct o; auto.
Qed.

Lemma entry_leases n s e : Good n s -> k_leases (apply_entry s (n + 1) e) = fold_left lop_do (in_leases e) (k_leases s).
Proof.
  intros [[hi [H Hhi]] Hpos Hsrev Hap Hsap]. unfold apply_entry, entry_effs.
  rewrite Hap. replace (n + 1 <=? n) with false by (symmetry; apply Z.leb_gt; lia).
  assert (Da : deq (abs s) (abs s)) by (split; auto).
  destruct (lops_step (in_leases e) s hi _ H Da) as (L1 & L2 & L3 & L4 & L5 & L6 & L7 & L8).
  rewrite <- lops_leases.
  set (s1 := performs s (map lop_eff (in_leases e))) in *.
  destruct (ops_effs s1 (in_ops e) None 1) as [es main] eqn:E.
  assert (G : rlt hi (main_of s1 None, 1)) by (unfold rlt, main_of; simpl; lia).
  assert (G' : 0 < main_of s1 None) by (unfold main_of; lia).
  assert (G'' : forall m, None = Some m -> k_rev s1 = m) by discriminate.
  assert (G3' : fst hi <= k_rev s1) by lia.
  destruct (ops_step (in_ops e) s1 None 1 hi _ es main L1 G G' G'' G3' L2 E) as (_ & _ & G3 & _).
  rewrite !performs_app. fold s1. exact G3.
Qed.

Lemma entry_of_look s k : RInv s -> look s [] = None -> entry_of s k = look s k.
Proof.
  intros H E. unfold entry_of, do_range. destruct k as [|b k]; [auto|]. change (0 <=? 0) with true. cbv iota.
  rewrite range_one; [|auto|unfold kInt64Max; lia]. destruct (look s (b :: k)); auto.
Qed.

Lemma current_of s key : RInv s -> current s key = look s key.
Proof. intros H. unfold current. rewrite range_one; auto; [|lia]. destruct (look s key); auto. Qed.

(** ** Key sets *)

Lemma kget_kput m id v x : kget (kput m id v) x = if x =? id then Some v else kget m x.
Proof.
  unfold kget, kput. rewrite (get_put _ zcmp_ok). destruct (cmp_dec Z.compare zcmp_ok id x) as [->|N].
  - rewrite Z.eqb_refl. auto.
  - destruct (Z.eqb_spec x id); congruence.
Qed.
Lemma kget_kdel m id x : sorted Z.compare m -> kget (kdel m id) x = if x =? id then None else kget m x.
Proof.
  intros Hs. unfold kget, kdel. rewrite (get_del _ zcmp_ok) by auto. destruct (cmp_dec Z.compare zcmp_ok id x) as [->|N].
  - rewrite Z.eqb_refl. auto.
  - destruct (Z.eqb_spec x id); congruence.
Qed.

Lemma in_kadd k x ks : In x (kadd k ks) <-> x = k \/ In x ks.
Proof.
  unfold kadd. destruct (existsb (beqb k) ks) eqn:E.
  - apply existsb_exists in E. destruct E as (y & Hy & E). apply beqb_true in E. subst y. split; auto. intros [->|H]; auto.
  - rewrite in_app_iff. simpl. split; [intros [H|[H|[]]]; auto | intros [H|H]; auto].
Qed.

Lemma in_krem k x ks : In x (krem k ks) <-> x <> k /\ In x ks.
Proof.
  unfold krem. rewrite filter_In. split.
  - intros [H E]. split; auto. intros ->. assert (B : beqb k k = true) by (apply beqb_true; auto). rewrite B in E. discriminate.
  - intros [N H]. split; auto. destruct (beqb k x) eqn:E; auto. apply beqb_true in E. congruence.
Qed.

(** ** Deletions *)

Definition named (l : list (Z * bytes)) (id : Z) (k : bytes) : bool := existsb (fun p => (fst p =? id) && beqb (snd p) k) l.

Lemma named_in l id k : named l id k = true <-> In (id, k) l.
Proof.
  unfold named. rewrite existsb_exists. split.
  - intros ([a b] & H & E). simpl in E. apply andb_true_iff in E. destruct E as [E1 E2]. apply Z.eqb_eq in E1. apply beqb_true in E2. subst. auto.
  - intros H. exists (id, k). simpl. split; auto. rewrite Z.eqb_refl. simpl. apply beqb_true. auto.
Qed.

Lemma remove_keys_get l : forall m id,
  kget (remove_keys m l) id =
  match kget m id with None => None | Some (x, ks) => Some (x, filter (fun k => negb (named l id k)) ks) end.
Proof.
  induction l as [|[a b] l IH]; intros m id.
  - simpl. destruct (kget m id) as [[x ks]|]; auto. f_equal. f_equal. induction ks; simpl; auto. f_equal. auto.
  - change (remove_keys m ((a, b) :: l)) with
      (remove_keys (match kget m a with None => m | Some (x, ks) => kput m a (x, krem b ks) end) l).
    rewrite IH. unfold named at 2. cbn [existsb fst snd]. fold (named l id).
    destruct (kget m a) as [[xa ka]|] eqn:Ea.
    + rewrite kget_kput. destruct (Z.eqb_spec id a) as [->|N].
      * rewrite Ea. f_equal. f_equal. rewrite Z.eqb_refl. unfold krem.
        clear. induction ka as [|k ka IH]; auto. simpl. destruct (beqb b k); simpl; auto.
        fold (named l a k). destruct (named l a k); simpl; [auto|f_equal; auto].
      * destruct (kget m id) as [[x ks]|]; auto. f_equal. f_equal.
        apply filter_ext. intros k. replace (a =? id) with false by (symmetry; apply Z.eqb_neq; congruence). auto.
    + destruct (Z.eqb_spec a id) as [->|N].
      * rewrite Ea. auto.
      * destruct (kget m id) as [[x ks]|]; auto.
Qed.

Lemma remove_keys_sorted l : forall m, sorted Z.compare m -> sorted Z.compare (remove_keys m l).
Proof.
  induction l as [|[a b] l IH]; intros m H; auto.
  change (remove_keys m ((a, b) :: l)) with
    (remove_keys (match kget m a with None => m | Some (x, ks) => kput m a (x, krem b ks) end) l).
  apply IH. destruct (kget m a) as [[x ks]|]; auto. apply (sorted_put _ zcmp_ok). auto.
Qed.

Definition assign (m : list (Z * bytes)) (kv : kvo) : list (Z * bytes) :=
  if o_lease kv =? 0 then m else put Z.compare m (o_lease kv) (o_key kv).

Lemma assign_sorted m kv : sorted Z.compare m -> sorted Z.compare (assign m kv).
Proof. intros H. unfold assign. destruct (o_lease kv =? 0); auto. apply (sorted_put _ zcmp_ok); auto. Qed.

Lemma fold_assign kvs : forall m, sorted Z.compare m ->
  sorted Z.compare (fold_left assign kvs m) /\
  forall p, In p (fold_left assign kvs m) -> In p m \/ exists kv, In kv kvs /\ fst p = o_lease kv /\ snd p = o_key kv /\ fst p <> 0.
Proof.
  induction kvs as [|kv kvs IH]; intros m H; [simpl; auto|]. cbn [fold_left].
  destruct (IH _ (assign_sorted m kv H)) as [S I]. split; auto. intros p Hp.
  destruct (I p Hp) as [H1|(kv' & H1 & H2)].
  - unfold assign in H1. destruct (Z.eqb_spec (o_lease kv) 0) as [E|N]; [auto|].
    apply (In_put _ zcmp_ok) in H1; auto. destruct H1 as [->|[H1 _]]; auto.
    right. exists kv. simpl. auto.
  - right. exists kv'. simpl. tauto.
Qed.

Lemma lease_keys_in kvs id k : In (id, k) (lease_keys kvs) -> id <> 0 /\ exists kv, In kv kvs /\ o_lease kv = id /\ o_key kv = k.
Proof.
  intros H. destruct (fold_assign kvs [] (sorted_nil _)) as [_ I]. destruct (I _ H) as [[]|(kv & A & B & C & D)].
  simpl in *. split; auto. exists kv. auto.
Qed.

Lemma fold_assign_keep kvs : forall m kv, sorted Z.compare m -> o_lease kv <> 0 ->
  In kv kvs -> NoDup (filter (fun l => negb (l =? 0)) (map o_lease kvs)) -> In (o_lease kv, o_key kv) (fold_left assign kvs m).
Proof.
  assert (Keep : forall kvs m id k, sorted Z.compare m -> ~ In id (map o_lease kvs) -> In (id, k) m -> In (id, k) (fold_left assign kvs m)).
  { clear. induction kvs as [|kv kvs IH]; intros m id k S N H; auto. cbn [fold_left]. simpl in N.
    apply IH; auto using assign_sorted. unfold assign. destruct (o_lease kv =? 0); auto.
    apply (In_put _ zcmp_ok); auto. right. simpl. split; auto. }
  induction kvs as [|kv0 kvs IH]; intros m kv S N H ND; [contradiction|]. cbn [fold_left].
  destruct H as [->|H].
  - apply Keep; auto using assign_sorted.
    + simpl in ND. replace (o_lease kv =? 0) with false in ND by (symmetry; apply Z.eqb_neq; auto). simpl in ND.
      inversion ND as [|? ? Hn _]; subst. intros Hin. apply Hn. apply filter_In. split; auto.
      apply negb_true_iff, Z.eqb_neq; auto.
    + unfold assign. replace (o_lease kv =? 0) with false by (symmetry; apply Z.eqb_neq; auto).
      apply (In_put _ zcmp_ok); auto.
  - apply IH; auto using assign_sorted. simpl in ND. destruct (negb (o_lease kv0 =? 0)); auto. inversion ND; auto.
Qed.

Lemma lease_keys_all kvs kv : o_lease kv <> 0 -> In kv kvs -> NoDup (filter (fun l => negb (l =? 0)) (map o_lease kvs)) ->
  In (o_lease kv, o_key kv) (lease_keys kvs).
Proof. intros. unfold lease_keys. apply fold_assign_keep; auto. apply sorted_nil. Qed.

Lemma range_some s key range_end limit ko co : RInv s -> 0 < limit ->
  exists l lim, listing (look s) (fun k => range_test key range_end k = true) l /\ lim <> 0%nat /\
    kv_range s key range_end limit ko co =
      (if co then mkR [] 0 (ro_more (kv_range s key range_end limit ko co))
       else mkR (map (without_value ko) (firstn lim l)) (Z.of_nat (length (firstn lim l))) (ro_more (kv_range s key range_end limit ko co))).
Proof.
  intros H Hl. destruct (kv_range_answer s key range_end limit ko co H) as (l & L & E); [lia|].
  exists l, (Z.to_nat (if limit =? 0 then kInt64Max else limit)). split; [auto|]. split.
  - destruct (Z.eqb_spec limit 0); lia.
  - rewrite E. unfold answer_of. destruct co; auto.
Qed.

Lemma max_pos : 0 < kInt64Max.
Proof. reflexivity. Qed.

Lemma in_firstn {A} (l : list A) : forall n x, In x (firstn n l) -> In x l.
Proof. induction l as [|a l IH]; intros [|n] x; simpl; try tauto. intros [->|H]; auto. right. eapply IH; eauto. Qed.

(** the keys a delete request finds are live *)
Lemma delete_keys_live s key range_end kv : RInv s -> In kv (delete_keys s key range_end) ->
  exists kv0, look s (o_key kv) = Some kv0 /\ o_lease kv0 = o_lease kv.
Proof.
  intros H Hin. unfold delete_keys in Hin.
  destruct (range_some s key range_end kInt64Max true false H max_pos) as (l & lim & [_ L] & _ & E).
  rewrite E in Hin. cbn [ro_kvs] in Hin. apply in_map_iff in Hin. destruct Hin as (kv0 & <- & Hin).
  apply in_firstn in Hin.
  apply L in Hin. destruct Hin as [Hin _]. exists kv0. split; [exact Hin|reflexivity].
Qed.

Lemma delete_keys_one s key : RInv s ->
  map o_key (delete_keys s key []) = match look s key with Some _ => [key] | None => [] end.
Proof.
  intros H. unfold delete_keys.
  destruct (range_some s key [] kInt64Max true false H max_pos) as (l & lim & [Sl Il] & Hlim & E).
  assert (Len : l = match look s key with Some kv => [kv] | None => [] end).
  { eapply listing_unique with (d := look s) (P := fun k => range_test key [] k = true); [split; auto|]. split.
    - destruct (look s key); repeat constructor.
    - intros kv. split.
      + destruct (look s key) as [kv0|] eqn:E'; [|contradiction]. intros [<-|[]]. rewrite (look_key s H _ _ E'). split; auto.
        unfold range_test. apply beqb_true; auto.
      + intros [E' Hp]. unfold range_test in Hp. apply beqb_true in Hp. rewrite <- Hp, E'. left; auto. }
  rewrite E, Len. cbn [ro_kvs]. destruct (look s key) as [kv|] eqn:Ek.
  - destruct lim as [|lim]; [contradiction|].
    cbn [firstn]. rewrite firstn_nil. simpl. f_equal. exact (look_key s H _ _ Ek).
  - rewrite firstn_nil. auto.
Qed.
