(** Proofs about log entries and range reads of the versioned key-value store. *)
From Coq Require Import ZArith List Lia Bool Sorted.
From Verif Require Import Bytes SMap KvModel KvSpec KvProofs KvProofs2.
From Verif Require Import LogProofs2.
Import ListNotations.
Open Scope Z_scope.

(** ** One operation *)

Lemma op_step hi s r o : Inv hi s -> rlt hi r -> 0 < fst r -> takes_revision o = true ->
  Inv r (performs s (op_effs s r o)) /\
  forall k, look (performs s (op_effs s r o)) k = st_data (spec_op (fst r) (abs s) o) k.
Proof.
  intros H Hl Hp T. destruct o as [key il lid iv value|key|key c]; [| |discriminate]; simpl.
  - apply (put_step hi); auto.
  - apply (delete_step hi); auto.
Qed.

Lemma spec_op_rest m s o : st_leases (spec_op m s o) = st_leases s /\ st_rev (spec_op m s o) = st_rev s.
Proof. destruct o; simpl; auto. unfold spec_put. destruct (_ && _); auto. Qed.

(** two stores that agree on data and leases *)
Definition deq (a b : store) : Prop :=
  (forall k, st_data a k = st_data b k) /\ (forall l, st_leases a l = st_leases b l).

Lemma spec_op_deq m o a b : deq a b -> deq (spec_op m a o) (spec_op m b o).
Proof.
  intros (H1 & H2). destruct o as [key il lid iv value|key|key c]; simpl.
  - unfold spec_put. rewrite (H1 key). set (l := if il then _ else _). rewrite (H2 l).
    destruct ((0 <? l) && negb (st_leases b l)); [split; auto|].
    split; auto. intros k. simpl. unfold set_key. destruct (beqb k key); auto.
  - split; auto. intros k. simpl. unfold set_key. destruct (beqb k key); auto.
  - split; auto.
Qed.

Lemma perform_main hi s m : Inv hi s -> Inv hi (perform s (EMain m)) /\ (forall k, look (perform s (EMain m)) k = look s k).
Proof. intros [A B C D]. split; [constructor; auto|auto]. Qed.

(** the counter taken by the first put or delete *)
Definition main_of (s : kvst) (main : option Z) : Z := match main with Some m => m | None => k_rev s + 1 end.

Lemma ops_step ops : forall s main sub hi a es main',
  Inv hi s -> rlt hi (main_of s main, sub) -> 0 < main_of s main ->
  (forall m, main = Some m -> k_rev s = m) -> fst hi <= k_rev s ->
  deq (abs s) a -> ops_effs s ops main sub = (es, main') ->
  (exists hi', Inv hi' (performs s es) /\ fst hi' <= k_rev (performs s es)) /\
  deq (abs (performs s es)) (fold_left (spec_op (main_of s main)) ops a) /\
  k_leases (performs s es) = k_leases s /\ k_applied (performs s es) = k_applied s /\
  k_srev (performs s es) = k_srev s /\ k_sapplied (performs s es) = k_sapplied s /\
  main' = (if existsb takes_revision ops then Some (main_of s main) else main) /\
  k_rev (performs s es) = (match main' with Some m => m | None => k_rev s end).
Proof.
  induction ops as [|o ops IH]; intros s main sub hi a es main' H Hlt Hpos Hm Hhi Ha E.
  - simpl in E. injection E as <- <-. simpl. split; [exists hi; auto|].
    repeat split; auto; try apply Ha. destruct main as [m|]; auto.
  - cbn [ops_effs] in E. destruct (takes_revision o) eqn:T.
    + cbv zeta in E.
      change (match main with Some m => m | None => k_rev s + 1 end) with (main_of s main) in E.
      set (m := main_of s main) in *.
      set (pre := match main with Some _ => [] | None => [EMain m] end) in *.
      destruct (ops_effs (performs s (pre ++ op_effs s (m, sub) o)) ops (Some m) (sub + 1)) as [es' mm] eqn:E'.
      injection E as <- <-. rewrite !performs_app.
      (* the counter *)
      assert (P : Inv hi (performs s pre) /\ (forall k, look (performs s pre) k = look s k) /\
                  k_rev (performs s pre) = m /\ k_leases (performs s pre) = k_leases s /\
                  k_applied (performs s pre) = k_applied s /\ k_srev (performs s pre) = k_srev s /\
                  k_sapplied (performs s pre) = k_sapplied s /\ k_index (performs s pre) = k_index s /\
                  k_revs (performs s pre) = k_revs s).
      { unfold pre. destruct main as [m0|].
        - simpl. split; [auto|split; [auto|split; [|repeat split; auto]]]. apply Hm; auto.
        - simpl. destruct (perform_main hi s m H). split; [auto|split; [auto|split; [auto|repeat split; auto]]]. }
      destruct P as (P1 & P2 & P3 & P4 & P5 & P6 & P7 & P8 & P9).
      assert (Eo : op_effs s (m, sub) o = op_effs (performs s pre) (m, sub) o).
      { destruct o; simpl; unfold put_effs, put_record, delete_effs, compact_effs; rewrite ?P4, ?P8, ?P9; auto. }
      rewrite Eo in *.
      set (s1 := performs s pre) in *.
      destruct (op_step hi s1 (m, sub) o P1 Hlt Hpos T) as [I1 L1].
      pose proof (performs_rest _ s1 (op_effs_table s1 (m, sub) o)) as (R1 & R2 & R3 & R4 & R5).
      set (s2 := performs s1 (op_effs s1 (m, sub) o)) in *.
      assert (Es2 : performs s (pre ++ op_effs s1 (m, sub) o) = s2) by (unfold s2, s1; apply performs_app).
      rewrite Es2 in E'.
      assert (K2 : k_rev s2 = m) by congruence.
      assert (D2 : deq (abs s2) (spec_op m a o)).
      { split.
        - intros k. simpl. rewrite L1. apply spec_op_deq. split; [|simpl].
          + simpl. intros k0. rewrite P2. apply Ha.
          + intros l. unfold has_lease. rewrite P4. apply Ha.
        - intros l. destruct (spec_op_rest m a o) as [-> _]. simpl. unfold has_lease. rewrite R1, P4. apply Ha. }
      assert (G := IH s2 (Some m) (sub + 1) (m, sub) (spec_op m a o) es' mm I1).
      destruct G as (G1 & G2 & G3 & G4 & G5 & G6 & G7 & G8); auto.
      * unfold rlt, main_of. simpl. lia.
      * intros m0 E0. congruence.
      * simpl. lia.
      * split; [exact G1|]. split; [exact G2|]. simpl existsb. rewrite T. simpl.
        unfold main_of in G7. assert (Em : mm = Some m) by (rewrite G7; destruct (existsb _ _); auto).
        rewrite Em in *. repeat split; try congruence.
    + cbv zeta in E.
      destruct (ops_effs (performs s (op_effs s (0, 0) o)) ops main sub) as [es' mm] eqn:E'.
      injection E as <- <-. rewrite !performs_app.
      pose proof (performs_rest _ s (op_effs_table s (0, 0) o)) as (R1 & R2 & R3 & R4 & R5).
      destruct o as [? ? ? ? ?|?|key c]; try discriminate. simpl op_effs in *.
      destruct (compact_step hi s key c H) as (I1 & L1 & _).
      set (s2 := performs s (compact_effs s key c)) in *.
      assert (Em : main_of s2 main = main_of s main) by (unfold main_of; rewrite R2; auto).
      assert (G := IH s2 main sub hi a es' mm I1).
      rewrite Em, R2 in G. destruct G as (G1 & G2 & G3 & G4 & G5 & G6 & G7 & G8); auto.
      * split.
        -- intros k. simpl. rewrite L1. apply Ha.
        -- intros l. simpl. unfold has_lease. rewrite R1. apply Ha.
      * split; [exact G1|]. split; [exact G2|]. simpl. repeat split; congruence.
Qed.

(** ** Leases of an entry *)

Lemma lget_lput m id l x : lget (lput m id l) x = if x =? id then Some l else lget m x.
Proof.
  unfold lget, lput. rewrite (get_put _ zcmp_ok). destruct (cmp_dec Z.compare zcmp_ok id x) as [->|N].
  - rewrite Z.eqb_refl. auto.
  - destruct (Z.eqb_spec x id); congruence.
Qed.
Lemma lget_ldel m id x : sorted Z.compare m -> lget (ldel m id) x = if x =? id then None else lget m x.
Proof.
  intros Hs. unfold lget, ldel. rewrite (get_del _ zcmp_ok) by auto. destruct (cmp_dec Z.compare zcmp_ok id x) as [->|N].
  - rewrite Z.eqb_refl. auto.
  - destruct (Z.eqb_spec x id); congruence.
Qed.

Lemma lops_step ls : forall s hi a, Inv hi s -> deq (abs s) a ->
  Inv hi (performs s (map lop_eff ls)) /\ deq (abs (performs s (map lop_eff ls))) (fold_left spec_lop ls a) /\
  k_index (performs s (map lop_eff ls)) = k_index s /\ k_revs (performs s (map lop_eff ls)) = k_revs s /\
  k_rev (performs s (map lop_eff ls)) = k_rev s /\ k_applied (performs s (map lop_eff ls)) = k_applied s /\
  k_srev (performs s (map lop_eff ls)) = k_srev s /\ k_sapplied (performs s (map lop_eff ls)) = k_sapplied s.
Proof.
  induction ls as [|o ls IH]; intros s hi a H Ha; [simpl; split; [exact H|]; split; [exact Ha|]; auto 10|].
  change (performs s (map lop_eff (o :: ls))) with (performs (perform s (lop_eff o)) (map lop_eff ls)).
  destruct H as [A B C D].
  assert (I1 : Inv hi (perform s (lop_eff o))).
  { destruct o; simpl; constructor; simpl; auto.
    - apply (sorted_put _ zcmp_ok); auto.
    - apply sorted_del; auto. }
  assert (D1 : deq (abs (perform s (lop_eff o))) (spec_lop a o)).
  { destruct Ha as [H1 H2]. destruct o; (split; [intros k; simpl; rewrite <- H1; reflexivity|]); intros l0; simpl; unfold has_lease, set_lease; simpl;
      rewrite ?lget_lput, ?(lget_ldel _ _ _ D); destruct (l0 =? id); auto; apply H2. }
  destruct (IH (perform s (lop_eff o)) hi (spec_lop a o) I1 D1) as (G1 & G2 & G3 & G4 & G5 & G6 & G7 & G8).
  split; [auto|split; [exact G2|]]. destruct o; repeat split; auto.
Qed.

Lemma spec_lops_rev ls : forall a, st_rev (fold_left spec_lop ls a) = st_rev a.
Proof. induction ls as [|o ls IH]; intros a; auto. simpl. rewrite IH. destruct o; auto. Qed.

Lemma fold_deq_seq m ops : forall a b, deq a b -> deq (fold_left (spec_op m) ops a) (fold_left (spec_op m) ops b).
Proof. induction ops as [|o ops IH]; intros a b H; auto. simpl. apply IH. apply spec_op_deq. auto. Qed.
Lemma fold_lop_deq ls : forall a b, deq a b -> deq (fold_left spec_lop ls a) (fold_left spec_lop ls b).
Proof.
  induction ls as [|o ls IH]; intros a b H; auto. simpl. apply IH. destruct H as [H1 H2].
  destruct o; (split; [auto|]); intros l0; simpl; unfold set_lease; destruct (l0 =? id); auto.
Qed.
Lemma deq_trans a b c : deq a b -> deq b c -> deq a c.
Proof. intros [H1 H2] [H3 H4]. split; intros; congruence. Qed.
Lemma deq_sym a b : deq a b -> deq b a.
Proof. intros [H1 H2]. split; intros; auto. Qed.

(** ** One log entry *)

(** a state between two entries *)
Record Good (n : Z) (s : kvst) : Prop := mkGood {
  good_inv : exists hi, Inv hi s /\ fst hi <= k_rev s;
  good_pos : 0 <= k_rev s;
  good_srev : k_srev s = k_rev s;
  good_applied : k_applied s = n;
  good_sapplied : k_sapplied s = n }.

Lemma entry_step n s a e : Good n s -> seq (abs s) a ->
  Good (n + 1) (apply_entry s (n + 1) e) /\ seq (abs (apply_entry s (n + 1) e)) (spec_entry a e) /\
  answer_rev s e = (if writes e then Some (k_rev s + 1) else None).
Proof.
  intros [[hi [H Hhi]] Hpos Hsrev Hap Hsap] Ha. unfold apply_entry, entry_effs, answer_rev.
  rewrite Hap. replace (n + 1 <=? n) with false by (symmetry; apply Z.leb_gt; lia).
  assert (Da : deq (abs s) a) by (destruct Ha as (A & B & _); split; auto).
  destruct (lops_step (in_leases e) s hi a H Da) as (L1 & L2 & L3 & L4 & L5 & L6 & L7 & L8).
  set (s1 := performs s (map lop_eff (in_leases e))) in *.
  destruct (ops_effs s1 (in_ops e) None 1) as [es main] eqn:E.
  assert (G : rlt hi (main_of s1 None, 1)) by (unfold rlt, main_of; simpl; lia).
  assert (G' : 0 < main_of s1 None) by (unfold main_of; lia).
  assert (G'' : forall m, None = Some m -> k_rev s1 = m) by discriminate.
  assert (G3' : fst hi <= k_rev s1) by lia.
  destruct (ops_step (in_ops e) s1 None 1 hi _ es main L1 G G' G'' G3' L2 E)
    as ((hi' & G1 & G1') & G2 & G3 & G4 & G5 & G6 & G7 & G8).
  clear G G' G'' G3'.
  rewrite !performs_app. fold s1. set (s2 := performs s1 es) in *.
  change (performs s2 [EFinal (n + 1) main]) with (perform s2 (EFinal (n + 1) main)).
  unfold main_of in *. rewrite L5 in *.
  assert (K : k_rev s2 = if writes e then k_rev s + 1 else k_rev s).
  { rewrite G8, G7. unfold writes. destruct (existsb takes_revision (in_ops e)); auto. }
  assert (Ra : st_rev a = k_rev s) by (symmetry; apply Ha).
  split; [|split].
  - constructor; simpl.
    + exists hi'. split; [|auto]. destruct G1 as [A B C D]. constructor; auto.
    + rewrite K. destruct (writes e); lia.
    + rewrite G8. destruct main; auto. congruence.
    + auto.
    + auto.
  - unfold spec_entry. rewrite Ra. destruct G2 as [G2a G2b]. split; [|split]; simpl.
    + intros k. apply G2a.
    + intros l. apply G2b.
    + apply K.
  - simpl. rewrite G7. auto.
Qed.

Lemma good0 : Good 0 kv0.
Proof.
  constructor; simpl; try lia. exists (0, 0). split; [|simpl; lia].
  constructor; simpl; try discriminate; constructor.
Qed.

Lemma abs0 : seq (abs kv0) (mkSt (fun _ => None) (fun _ => false) 10000).
Proof. repeat split. Qed.

Lemma log_step es : forall n s a, Good n s -> seq (abs s) a ->
  Good (n + Z.of_nat (length es)) (apply_log s n es) /\ seq (abs (apply_log s n es)) (fold_left spec_entry es a).
Proof.
  induction es as [|e es IH]; intros n s a H Ha.
  - simpl. rewrite Z.add_0_r. auto.
  - destruct (entry_step n s a e H Ha) as (G & A & _).
    cbn [apply_log fold_left]. replace (n + Z.of_nat (length (e :: es))) with (n + 1 + Z.of_nat (length es)) by (simpl length; lia).
    apply IH; auto.
Qed.

Lemma after_good log : Good (Z.of_nat (length log)) (after log).
Proof. apply (log_step log 0 kv0 _ good0 abs0). Qed.

Lemma after_abs log : seq (abs (after log)) (spec_log log).
Proof. apply (log_step log 0 kv0 _ good0 abs0). Qed.

Lemma after_look log k : look (after log) k = st_data (spec_log log) k.
Proof. apply after_abs. Qed.

Lemma apply_log_app a : forall s n b, apply_log s n (a ++ b) = apply_log (apply_log s n a) (n + Z.of_nat (length a)) b.
Proof.
  induction a as [|e a IH]; intros s n b; simpl app.
  - simpl. rewrite Z.add_0_r. auto.
  - cbn [apply_log]. rewrite IH. f_equal. simpl length. lia.
Qed.

(** ** Ranges *)

(** all a read relies on *)
Record RInv (s : kvst) : Prop := mkRInv {
  ri_sorted : sorted bcmp (k_index s);
  ri_live : forall k i, iget (k_index s) k = Some i -> live_idx i = true ->
    exists v, k_revs s (i_mod i) = Some v /\ v_key v = k }.

Lemma inv_rinv hi s : Inv hi s -> RInv s.
Proof.
  intros [Hs Hi _ _]. constructor; auto. intros k i G L.
  destruct (wf_live _ _ _ _ (Hi k i G) L) as (_ & _ & _ & _ & v & _ & _ & _ & _ & Ev & Kv & _). eauto.
Qed.

Definition live_entries (m : list (bytes * idx)) (P : bytes -> bool) : list (bytes * idx) :=
  filter (fun p => P (fst p) && live_idx (snd p)) m.

(** the loop over an all-live list whose records exist *)
Lemma range_loop_live revs limit ko l : forall n,
  Forall (fun p => live_idx (snd p) = true /\ revs (i_mod (snd p)) <> None) l -> n <= limit ->
  exists kvs, Forall2 (fun p kv => option_map (to_kvo false) (revs (i_mod (snd p))) = Some kv) l kvs /\
    range_loop revs limit ko false l n =
      (map (without_value ko) (firstn (Z.to_nat (limit - n)) kvs), limit - n <? Z.of_nat (length l)).
Proof.
  induction l as [|[k i] l IH]; intros n F Hn.
  - exists []. split; [constructor|]. simpl. rewrite firstn_nil. f_equal. symmetry. apply Z.ltb_ge. lia.
  - inversion F as [|x y [L R] F' E1]; subst. simpl in L, R. cbn [range_loop]. rewrite L.
    destruct (revs (i_mod i)) as [v|] eqn:Ev; [|contradiction].
    destruct (Z.ltb_spec limit (n + 1)) as [Lt|Ge].
    + replace (limit - n) with 0 by lia.
      assert (Ex : exists kvs, Forall2 (fun p kv => option_map (to_kvo false) (revs (i_mod (snd p))) = Some kv) l kvs).
      { clear - F'. induction F' as [|p l [_ Hp] F' IH]; [exists []; constructor|]. destruct IH as [kvs IH].
        destruct (revs (i_mod (snd p))) as [v|] eqn:E; [|contradiction]. exists (to_kvo false v :: kvs). constructor; auto. rewrite E. auto. }
      destruct Ex as [kvs Hk]. exists (to_kvo false v :: kvs). split; [constructor; auto; simpl; rewrite Ev; auto|].
      simpl firstn. simpl map. reflexivity.
    + destruct (IH (n + 1) F' Ge) as (kvs & Hk & E). rewrite E.
      exists (to_kvo false v :: kvs). split; [constructor; auto; simpl; rewrite Ev; auto|].
      replace (Z.to_nat (limit - n)) with (Datatypes.S (Z.to_nat (limit - (n + 1)))) by lia.
      simpl firstn. simpl map. f_equal.
      * f_equal. unfold to_kvo, without_value. destruct ko; auto.
      * simpl length. destruct (Z.ltb_spec (limit - (n + 1)) (Z.of_nat (length l))), (Z.ltb_spec (limit - n) (Z.of_nat (Datatypes.S (length l)))); auto; lia.
Qed.

Lemma listing_of s (P : bytes -> bool) kvs : RInv s ->
  Forall2 (fun p kv => option_map (to_kvo false) (k_revs s (i_mod (snd p))) = Some kv) (live_entries (k_index s) P) kvs ->
  listing (look s) (fun k => P k = true) kvs.
Proof.
  intros [Hs Hi] F.
  assert (Key : forall p kv, In p (live_entries (k_index s) P) ->
     option_map (to_kvo false) (k_revs s (i_mod (snd p))) = Some kv -> o_key kv = fst p /\ look s (fst p) = Some kv).
  { intros [k i] kv Hin E. apply filter_In in Hin. destruct Hin as [Hin HP]. simpl in *.
    apply andb_true_iff in HP. destruct HP as [_ L].
    assert (G : iget (k_index s) k = Some i) by (apply (In_get _ bcmp_ok); auto).
    destruct (Hi k i G L) as (v & Ev & Kv).
    rewrite Ev in E. simpl in E. split.
    - injection E as <-. auto.
    - unfold look. rewrite G, L, Ev. auto. }
  split.
  - assert (S0 : StronglySorted (klt bcmp) (live_entries (k_index s) P)).
    { eapply sub_sorted; [apply sub_filter|exact Hs]. }
    assert (Key' : forall p kv, In p (live_entries (k_index s) P) ->
     option_map (to_kvo false) (k_revs s (i_mod (snd p))) = Some kv -> o_key kv = fst p) by (intros; eapply Key; eauto).
    clear Key. induction F as [|p kv l kvs' Hp F IH]; [constructor|].
    inversion S0; subst. constructor.
    + apply IH; auto. intros; apply Key'; auto. right; auto.
    + clear IH. rewrite (Key' p kv (or_introl eq_refl) Hp).
      assert (Key2 : forall p0 kv0, In p0 l -> option_map (to_kvo false) (k_revs s (i_mod (snd p0))) = Some kv0 -> o_key kv0 = fst p0).
      { intros. apply Key'; auto. right; auto. }
      clear Key' S0 H1. induction F as [|q kq l kvs' Hq F IH]; [constructor|]. inversion H2; subst. constructor.
      * rewrite (Key2 q kq (or_introl eq_refl) Hq). auto.
      * apply IH; auto. intros; apply Key2; auto. right; auto.
  - intros kv. split.
    + intros Hin. assert (exists p, In p (live_entries (k_index s) P) /\ option_map (to_kvo false) (k_revs s (i_mod (snd p))) = Some kv).
      { clear Key. induction F as [|p k0 l kvs' Hp F IH]; [contradiction|]. destruct Hin as [<-|Hin].
        - exists p. split; [left; auto|auto].
        - destruct (IH Hin) as (q & Hq & Eq). exists q. split; [right; auto|auto]. }
      destruct H as (p & Hp & Ep). destruct (Key p kv Hp Ep) as [Ek El]. rewrite Ek. split; auto.
      apply filter_In in Hp. destruct Hp as [_ HP]. apply andb_true_iff in HP. apply HP.
    + intros [El HP]. unfold look in El. destruct (iget (k_index s) (o_key kv)) as [i|] eqn:G; [|discriminate].
      destruct (live_idx i) eqn:L; [|discriminate].
      assert (Hin : In (o_key kv, i) (live_entries (k_index s) P)).
      { apply filter_In. split; [apply (get_In _ bcmp_ok); auto|]. simpl. rewrite HP, L. auto. }
      clear Key. induction F as [|p k0 l kvs' Hp F IH]; [contradiction|]. destruct Hin as [->|Hin].
      * simpl in Hp. left. congruence.
      * right. auto.
Qed.

Lemma live_records s P : RInv s ->
  Forall (fun p => live_idx (snd p) = true /\ k_revs s (i_mod (snd p)) <> None) (live_entries (k_index s) P).
Proof.
  intros [Hs Hi]. apply Forall_forall. intros [k i] Hin. apply filter_In in Hin. destruct Hin as [Hin HP].
  simpl in *. apply andb_true_iff in HP. destruct HP as [_ L].
  assert (G : iget (k_index s) k = Some i) by (apply (In_get _ bcmp_ok); auto).
  destruct (Hi k i G L) as (v & Ev & _). split; auto. congruence.
Qed.

Lemma filter_ext_in' {A} (f g : A -> bool) l : (forall x, In x l -> f x = g x) -> filter f l = filter g l.
Proof. apply filter_ext_in. Qed.

(** the list KvRange walks, without the keys it will skip *)
Definition walked (s : kvst) (key range_end : bytes) : list (bytes * idx) :=
  match range_end with
  | [] => match iget (k_index s) key with Some i => [(key, i)] | None => [] end
  | _ => range_index (k_index s) key range_end
  end.

Lemma range_loop_skip revs limit ko co l : forall n,
  range_loop revs limit ko co l n = range_loop revs limit ko co (filter (fun p => live_idx (snd p)) l) n.
Proof.
  induction l as [|[k i] l IH]; intros n; auto. cbn [range_loop filter snd]. destruct (live_idx i) eqn:L; auto.
  cbn [range_loop]. rewrite L. destruct (limit <? n + 1); auto. destruct co; auto.
  destruct (revs (i_mod i)); rewrite IH; auto.
Qed.

Definition range_test (key range_end k : bytes) : bool :=
  match range_end with
  | [] => beqb k key
  | _ => bleb key k && bltb k (range_upper range_end)
  end.

Lemma walked_live s key range_end : sorted bcmp (k_index s) ->
  filter (fun p => live_idx (snd p)) (walked s key range_end) = live_entries (k_index s) (range_test key range_end).
Proof.
  intros Hs. unfold walked, live_entries, range_test. destruct range_end as [|b re].
  - assert (E : filter (fun p : bytes * idx => beqb (fst p) key && live_idx (snd p)) (k_index s) =
                filter (fun p => live_idx (snd p)) (filter (fun p => beqb (fst p) key) (k_index s))).
    { induction (k_index s) as [|p m IH]; auto. simpl. inversion Hs; subst.
      destruct (beqb (fst p) key); simpl; [|apply IH; auto]. destruct (live_idx (snd p)); simpl; rewrite IH; auto. }
    rewrite E. f_equal. clear E. unfold iget.
    assert (Q : forall m, sorted bcmp m -> filter (fun p : bytes * idx => beqb (fst p) key) m =
                match get bcmp m key with Some i => [(key, i)] | None => [] end).
    { clear. induction m as [|[k i] m IH]; intros Hs; auto. inversion Hs; subst. simpl.
      destruct (beqb k key) eqn:E.
      - apply beqb_true in E. subst. rewrite bcmp_refl. f_equal. rewrite IH by auto.
        assert (N : get bcmp m key = None). { apply get_lt_None. exact H2. } rewrite N. auto.
      - apply beqb_false in E. rewrite IH by auto. destruct (bcmp key k) eqn:C; auto.
        + apply bcmp_eq in C. congruence.
        + assert (N : get bcmp m key = None).
          { apply get_lt_None. eapply Forall_impl; [|exact H2]. intros a Ha. unfold klt in Ha. simpl in Ha. eapply bcmp_trans; eauto. }
          rewrite N. auto. }
    rewrite Q; auto.
  - unfold range_index. clear Hs. induction (k_index s) as [|p m IH]; auto. simpl.
    destruct (bleb key (fst p) && bltb (fst p) (range_upper (b :: re))); simpl; [|apply IH].
    destruct (live_idx (snd p)) eqn:L; simpl; [rewrite L, IH; auto|apply IH].
Qed.

Lemma F2_length {A B} (R : A -> B -> Prop) l l' : Forall2 R l l' -> length l = length l'.
Proof. induction 1; simpl; auto. Qed.

Lemma kv_range_spec s key range_end limit ko : RInv s -> 0 <= limit ->
  exists l, listing (look s) (fun k => range_test key range_end k = true) l /\
    let lim := if limit =? 0 then kInt64Max else limit in
    kv_range s key range_end limit ko false =
      mkR (map (without_value ko) (firstn (Z.to_nat lim) l))
          (Z.of_nat (length (firstn (Z.to_nat lim) l))) (lim <? Z.of_nat (length l)).
Proof.
  intros H Hl. unfold kv_range. cbv zeta. fold (walked s key range_end).
  set (lim := if limit =? 0 then kInt64Max else limit).
  assert (Hlim : 0 <= lim). { unfold lim. destruct (limit =? 0); [unfold kInt64Max; lia|lia]. }
  rewrite range_loop_skip, walked_live by apply H.
  destruct (range_loop_live (k_revs s) lim ko _ 0 (live_records s (range_test key range_end) H) Hlim) as (kvs & F & E).
  rewrite Z.sub_0_r in E. rewrite E. exists kvs. split; [eapply listing_of; eauto|].
  rewrite map_length. rewrite (F2_length _ _ _ F). reflexivity.
Qed.
