(** Proofs about the versioned key-value store: reads after a log, revisions, compaction. *)
From Coq Require Import ZArith List Lia Bool Sorted.
From Verif Require Import Bytes SMap KvModel KvSpec KvProofs KvProofs2 KvProofs3.
From Verif Require Import LogProofs2.
Import ListNotations.
Open Scope Z_scope.

(** ** Listings are unique *)

Lemma listing_unique d P l : forall l', listing d P l -> listing d P l' -> l = l'.
Proof.
  intros l' [S1 I1] [S2 I2].
  assert (I : forall x, In x l <-> In x l') by (intros x; rewrite I1, I2; tauto).
  clear I1 I2. revert l' S2 I. induction S1 as [|a l S1 IH F1]; intros l' S2 I.
  - destruct l' as [|b l']; auto. exfalso. apply (I b). left; auto.
  - destruct S2 as [|b l' S2 F2]; [exfalso; apply (I a); left; auto|].
    rewrite Forall_forall in F1, F2.
    assert (E : a = b).
    { assert (Ha : In a (b :: l')) by (apply I; left; auto). assert (Hb : In b (a :: l)) by (apply I; left; auto).
      destruct Ha as [Ha|Ha]; auto. destruct Hb as [Hb|Hb]; auto.
      specialize (F2 a Ha). specialize (F1 b Hb). rewrite bcmp_opp, F2 in F1. discriminate. }
    subst b. f_equal. apply IH; auto. intros x. split; intros Hx.
    + assert (H : In x (a :: l')) by (apply I; right; auto). destruct H as [<-|H]; auto.
      specialize (F1 a Hx). rewrite bcmp_refl in F1. discriminate.
    + assert (H : In x (a :: l)) by (apply I; right; auto). destruct H as [<-|H]; auto.
      specialize (F2 a Hx). rewrite bcmp_refl in F2. discriminate.
Qed.

Lemma listing_ext d d' (P P' : bytes -> Prop) l : (forall k, d k = d' k) -> (forall k kv, d k = Some kv -> (P k <-> P' k)) ->
  listing d P l -> listing d' P' l.
Proof.
  intros Hd HP [H1 H2]. split; auto. intros kv. rewrite H2, <- Hd. split; intros [E Hp]; split; auto; apply (HP _ _ E); auto.
Qed.

(** ** count_only *)

Lemma range_loop_count revs limit ko l : forall n,
  Forall (fun p => live_idx (snd p) = true) l -> n <= limit ->
  range_loop revs limit ko true l n = ([], limit - n <? Z.of_nat (length l)).
Proof.
  induction l as [|[k i] l IH]; intros n F Hn.
  - simpl. f_equal. symmetry. apply Z.ltb_ge. lia.
  - inversion F as [|x y L F' E1]; subst. simpl in L. cbn [range_loop]. rewrite L.
    destruct (Z.ltb_spec limit (n + 1)) as [Lt|Ge].
    + f_equal. symmetry. apply Z.ltb_lt. simpl length. lia.
    + rewrite IH by auto. f_equal. simpl length.
      destruct (Z.ltb_spec (limit - (n + 1)) (Z.of_nat (length l))), (Z.ltb_spec (limit - n) (Z.of_nat (Datatypes.S (length l)))); auto; lia.
Qed.

Lemma kv_range_answer s key range_end limit ko co : RInv s -> 0 <= limit ->
  exists l, listing (look s) (fun k => range_test key range_end k = true) l /\
    kv_range s key range_end limit ko co = answer_of l (if limit =? 0 then kInt64Max else limit) ko co.
Proof.
  intros H Hl. destruct co; [|apply kv_range_spec; auto].
  unfold kv_range. cbv zeta. fold (walked s key range_end).
  set (lim := if limit =? 0 then kInt64Max else limit).
  assert (Hlim : 0 <= lim). { unfold lim. destruct (limit =? 0); [unfold kInt64Max; lia|lia]. }
  rewrite range_loop_skip, walked_live by apply H.
  pose proof (live_records s (range_test key range_end) H) as LR.
  destruct (range_loop_live (k_revs s) lim ko _ 0 LR Hlim) as (kvs & F & _).
  rewrite range_loop_count; auto.
  2:{ eapply Forall_impl; [|exact LR]. simpl. tauto. }
  exists kvs. split; [eapply listing_of; eauto|]. rewrite Z.sub_0_r, (F2_length _ _ _ F). reflexivity.
Qed.

Lemma limit_pos limit : 0 < limit_of limit /\ (if limit_of limit =? 0 then kInt64Max else limit_of limit) = limit_of limit.
Proof.
  assert (0 < limit_of limit) by (unfold limit_of, kInt64Max; destruct (Z.leb_spec limit 0); lia).
  split; auto. destruct (Z.eqb_spec (limit_of limit) 0); lia.
Qed.

Lemma do_range_answer s key range_end limit ko co : RInv s -> key <> [] ->
  exists l, listing (look s) (fun k => range_test key range_end k = true) l /\
    do_range s key range_end limit ko co = Some (answer_of l (limit_of limit) ko co).
Proof.
  intros H Hk. destruct key as [|b key]; [contradiction|]. unfold do_range. fold (limit_of limit).
  destruct (limit_pos limit) as [L E].
  destruct (kv_range_answer s (b :: key) range_end (limit_of limit) ko co H) as (l & Hl & Ek); [lia|].
  exists l. split; auto. rewrite Ek, E. auto.
Qed.

(** two good states with the same entries answer every read alike *)
Lemma do_range_same s1 s2 key range_end limit ko co : RInv s1 -> RInv s2 -> (forall k, look s1 k = look s2 k) ->
  do_range s1 key range_end limit ko co = do_range s2 key range_end limit ko co.
Proof.
  intros H1 H2 E. destruct key as [|b key]; [auto|].
  destruct (do_range_answer s1 (b :: key) range_end limit ko co H1) as (l1 & L1 & ->); [discriminate|].
  destruct (do_range_answer s2 (b :: key) range_end limit ko co H2) as (l2 & L2 & ->); [discriminate|].
  replace l2 with l1; auto. eapply listing_unique; [eapply listing_ext; [| |exact L1]|exact L2]; auto. intros; tauto.
Qed.

Lemma after_inv log : exists hi, Inv hi (after log).
Proof. destruct (good_inv _ _ (after_good log)) as (hi & H & _). eauto. Qed.

(** ** Ranges of a client *)

Lemma below_top n : forall k, bytes_ok k -> (length k <= n)%nat -> k <> repeat 255 n -> bcmp k (repeat 255 n) = Lt.
Proof.
  induction n as [|n IH]; intros k Hk Hl Hn.
  - destruct k; [contradiction|simpl in Hl; lia].
  - destruct k as [|b k]; auto. simpl repeat. inversion Hk as [|x y Hb Hk']; subst. unfold byte_ok in Hb.
    cbn [bcmp]. destruct (Z.compare_spec b 255) as [->|Lt|Gt]; auto; [|lia].
    apply IH; auto; [simpl in Hl; lia|]. intros ->. apply Hn. reflexivity.
Qed.

Lemma range_test_in key range_end k :
  (range_end = [0] -> legal_key k /\ k <> top_key) ->
  (range_test key range_end k = true <-> in_range key range_end k).
Proof.
  intros H. unfold range_test, in_range, range_upper. destruct range_end as [|b re].
  - apply beqb_true.
  - destruct (beqb (b :: re) [0]) eqn:E.
    + apply beqb_true in E. destruct (H E) as [(_ & Hok & Hlen) Hne].
      unfold bltb. unfold top_key in Hne. rewrite (below_top kMaxKey k Hok Hlen Hne).
      rewrite andb_true_iff. tauto.
    + rewrite andb_true_iff. tauto.
Qed.

(** only keys that were put are there *)
Lemma spec_op_put m (P : bytes -> Prop) o s : (forall k, st_data s k <> None -> P k) ->
  (forall key il lid iv v, o = OPut key il lid iv v -> P key) -> forall k, st_data (spec_op m s o) k <> None -> P k.
Proof.
  intros H Ho k. destruct o as [key il lid iv value|key|key c]; simpl; auto.
  - unfold spec_put. destruct (_ && _); auto. simpl. unfold set_key. destruct (beqb k key) eqn:E; auto.
    apply beqb_true in E. subst. intros _. eapply Ho; eauto.
  - unfold set_key. destruct (beqb k key); auto; congruence.
Qed.

Lemma spec_ops_put m (P : bytes -> Prop) ops : forall s, (forall k, st_data s k <> None -> P k) ->
  (forall key il lid iv v, In (OPut key il lid iv v) ops -> P key) ->
  forall k, st_data (fold_left (spec_op m) ops s) k <> None -> P k.
Proof.
  induction ops as [|o ops IH]; intros s H Ho; auto. simpl. apply IH.
  - apply spec_op_put; auto. intros; subst. eapply Ho. left; eauto.
  - intros. eapply Ho. right; eauto.
Qed.

Lemma spec_lops_data ls : forall a, st_data (fold_left spec_lop ls a) = st_data a.
Proof. induction ls as [|o ls IH]; intros a; auto. simpl. rewrite IH. destruct o; auto. Qed.

Lemma spec_entry_put (P : bytes -> Prop) e s : (forall k, st_data s k <> None -> P k) -> put_keys P e ->
  forall k, st_data (spec_entry s e) k <> None -> P k.
Proof.
  intros H Hp k. unfold spec_entry. simpl. apply spec_ops_put; auto. rewrite spec_lops_data. auto.
Qed.

Lemma spec_log_put (P : bytes -> Prop) log : Forall (put_keys P) log -> forall k, st_data (spec_log log) k <> None -> P k.
Proof.
  intros F. unfold spec_log. set (s0 := mkSt _ _ _).
  assert (H0 : forall k, st_data s0 k <> None -> P k) by (simpl; congruence). clearbody s0. revert s0 H0.
  induction F as [|e log He F IH]; intros s H; auto. simpl. apply IH. apply spec_entry_put; auto.
Qed.

Lemma range_after log key range_end limit ko co :
  key <> [] -> (range_end = [0] -> Forall (put_keys (fun k => legal_key k /\ k <> top_key)) log) ->
  exists l, listing (st_data (spec_log log)) (in_range key range_end) l /\
    do_range (after log) key range_end limit ko co = Some (answer_of l (limit_of limit) ko co).
Proof.
  intros Hk Hput. destruct (after_inv log) as [hi Hi].
  destruct (do_range_answer _ key range_end limit ko co (inv_rinv _ _ Hi) Hk) as (l & Hl & E). exists l. split; auto.
  eapply listing_ext; [| |exact Hl].
  - apply after_look.
  - intros k kv Ek. apply range_test_in. intros Er. apply (spec_log_put _ _ (Hput Er)). rewrite <- after_look, Ek. discriminate.
Qed.

(** ** Revisions *)

Lemma answers_step es : forall n s a, Good n s -> seq (abs s) a ->
  Forall (fun m => k_rev s < m) (answers s n es) /\ StronglySorted Z.lt (answers s n es) /\
  Forall (fun m => m <= k_rev (apply_log s n es)) (answers s n es) /\ k_rev s <= k_rev (apply_log s n es).
Proof.
  induction es as [|e es IH]; intros n s a G A.
  - simpl. repeat constructor. lia.
  - destruct (entry_step n s a e G A) as (G1 & A1 & E1). cbn [answers apply_log].
    destruct (IH (n + 1) _ _ G1 A1) as (I1 & I2 & I3 & I4).
    assert (R1 : k_rev (apply_entry s (n + 1) e) = if writes e then k_rev s + 1 else k_rev s).
    { destruct A1 as (_ & _ & R). simpl in R. rewrite R. destruct A as (_ & _ & Ra). simpl in Ra. rewrite Ra. auto. }
    rewrite E1. destruct (writes e).
    + assert (I1' : Forall (fun m => k_rev s < m) (answers (apply_entry s (n + 1) e) (n + 1) es)).
      { eapply Forall_impl; [|exact I1]. simpl. intros; lia. }
      simpl app. split; [|split; [|split]].
      * constructor; auto. lia.
      * constructor; auto. rewrite R1 in I1. auto.
      * constructor; auto. lia.
      * lia.
    + simpl app. rewrite R1 in I1. repeat split; auto. lia.
Qed.

Lemma answers_sorted log : StronglySorted Z.lt (answers kv0 0 log) /\
  Forall (fun m => 10000 < m <= k_rev (after log)) (answers kv0 0 log).
Proof.
  destruct (answers_step log 0 kv0 _ good0 abs0) as (H1 & H2 & H3 & _). split; auto.
  rewrite Forall_forall in *. intros m Hm. specialize (H1 m Hm). specialize (H3 m Hm). simpl in H1. split; auto.
Qed.

Lemma answers_app a : forall s n b, answers s n (a ++ b) = answers s n a ++ answers (apply_log s n a) (n + Z.of_nat (length a)) b.
Proof.
  induction a as [|e a IH]; intros s n b; simpl app.
  - simpl. rewrite Z.add_0_r. auto.
  - cbn [answers apply_log]. rewrite IH, app_assoc. f_equal. f_equal. simpl length. lia.
Qed.

(** every entry visible carries the revision answered to one of the writes, and none is newer
    than the counter *)
Lemma spec_op_revs (Q : Z -> Prop) m o s :
  (forall k kv, st_data s k = Some kv -> o_key kv = k /\ Q (o_mod kv) /\ o_create kv <= o_mod kv <= m /\ 1 <= o_ver kv) ->
  (takes_revision o = true -> Q m) ->
  forall k kv, st_data (spec_op m s o) k = Some kv -> o_key kv = k /\ Q (o_mod kv) /\ o_create kv <= o_mod kv <= m /\ 1 <= o_ver kv.
Proof.
  intros H Hm k kv. destruct o as [key il lid iv value|key|key c]; simpl; auto.
  - unfold spec_put. destruct (_ && _); auto. simpl. unfold set_key. destruct (beqb k key) eqn:E; auto.
    apply beqb_true in E. subst. intros Ek. injection Ek as <-. destruct (st_data s key) as [o|] eqn:Eo; simpl.
    + destruct (H _ _ Eo) as (_ & _ & Hc & Hv). repeat split; auto; lia.
    + repeat split; auto; lia.
  - unfold set_key. destruct (beqb k key); auto. discriminate.
Qed.

Lemma spec_ops_revs (Q : Z -> Prop) m ops : forall s,
  (forall k kv, st_data s k = Some kv -> o_key kv = k /\ Q (o_mod kv) /\ o_create kv <= o_mod kv <= m /\ 1 <= o_ver kv) ->
  (existsb takes_revision ops = true -> Q m) ->
  forall k kv, st_data (fold_left (spec_op m) ops s) k = Some kv ->
    o_key kv = k /\ Q (o_mod kv) /\ o_create kv <= o_mod kv <= m /\ 1 <= o_ver kv.
Proof.
  induction ops as [|o ops IH]; intros s H Hm; auto. simpl in *. apply IH.
  - apply spec_op_revs; auto. intros T. apply Hm. rewrite T. auto.
  - intros E. apply Hm. rewrite E, orb_true_r. auto.
Qed.

Lemma no_takes m ops : forall s, existsb takes_revision ops = false -> fold_left (spec_op m) ops s = s.
Proof.
  induction ops as [|o ops IH]; intros s H; auto. simpl in *. apply orb_false_iff in H. destruct H as [H1 H2].
  destruct o; try discriminate. simpl. auto.
Qed.

Lemma visible_revs log : forall k kv, st_data (spec_log log) k = Some kv ->
  o_key kv = k /\ In (o_mod kv) (answers kv0 0 log) /\ o_create kv <= o_mod kv <= k_rev (after log) /\ 1 <= o_ver kv.
Proof.
  induction log as [|e log IH] using rev_ind; [discriminate|]. intros k kv.
  unfold spec_log. rewrite fold_left_app. fold (spec_log log). simpl fold_left.
  pose proof (after_good log) as G. pose proof (after_abs log) as A.
  destruct (entry_step _ _ _ e G A) as (G1 & A1 & E1).
  rewrite answers_app. unfold after at 1. rewrite apply_log_app. cbn [apply_log answers]. fold (after log). rewrite Z.add_0_l.
  rewrite E1.
  assert (R : st_rev (spec_log log) = k_rev (after log)) by (symmetry; apply A).
  assert (R1 : k_rev (apply_entry (after log) (Z.of_nat (length log) + 1) e) = if writes e then k_rev (after log) + 1 else k_rev (after log)).
  { destruct A1 as (_ & _ & R1). simpl in R1. rewrite R1, R. auto. }
  rewrite R1. unfold spec_entry. simpl. rewrite R.
  intros Ek. rewrite app_nil_r.
  assert (Q : o_key kv = k /\ In (o_mod kv) (answers kv0 0 log ++ (if writes e then [k_rev (after log) + 1] else [])) /\
              o_create kv <= o_mod kv <= k_rev (after log) + 1 /\ 1 <= o_ver kv).
  { eapply (spec_ops_revs (fun m => In m (answers kv0 0 log ++ (if writes e then [k_rev (after log) + 1] else [])))); [| |exact Ek].
    - rewrite spec_lops_data. intros k0 kv0' E0. destruct (IH k0 kv0' E0) as (I1 & I2 & I3 & I4). repeat split; auto; try lia.
      apply in_app_iff; auto.
    - unfold writes. intros ->. apply in_app_iff. right. left. auto. }
  destruct (writes e) eqn:W.
  - destruct Q as (Q1 & Q2 & Q3 & Q4). auto.
  - unfold writes in W. rewrite no_takes in Ek by auto. rewrite spec_lops_data in Ek.
    destruct (IH _ _ Ek) as (I1 & I2 & I3 & I4). simpl. rewrite app_nil_r. auto.
Qed.

(** ** Compaction *)

Lemma spec_ops_drop m ops : forall s, fold_left (spec_op m) (filter (fun o => negb (is_compact o)) ops) s = fold_left (spec_op m) ops s.
Proof. induction ops as [|o ops IH]; intros s; auto. destruct o; simpl; auto. Qed.

Lemma writes_drop e : writes (drop_compact e) = writes e.
Proof. unfold writes, drop_compact. simpl. induction (in_ops e) as [|o ops IH]; auto. destruct o; simpl; auto. Qed.

Lemma spec_entry_drop e s : spec_entry s (drop_compact e) = spec_entry s e.
Proof. unfold spec_entry. rewrite writes_drop. unfold drop_compact. simpl. rewrite spec_ops_drop. auto. Qed.

Lemma spec_log_drop log : spec_log (map drop_compact log) = spec_log log.
Proof.
  unfold spec_log. generalize (mkSt (fun _ => None) (fun _ => false) 10000).
  induction log as [|e log IH]; intros s; auto. simpl. rewrite spec_entry_drop. auto.
Qed.

Lemma compaction_invisible log key range_end limit ko co :
  do_range (after log) key range_end limit ko co = do_range (after (map drop_compact log)) key range_end limit ko co.
Proof.
  destruct (after_inv log) as [h1 H1]. destruct (after_inv (map drop_compact log)) as [h2 H2].
  apply do_range_same; [eapply inv_rinv; eauto|eapply inv_rinv; eauto|]. intros k. rewrite !after_look, spec_log_drop. auto.
Qed.

Lemma answers_drop log : answers kv0 0 (map drop_compact log) = answers kv0 0 log.
Proof.
  assert (G : forall es n s s' a, Good n s -> Good n s' -> seq (abs s) a -> seq (abs s') a ->
     answers s' n (map drop_compact es) = answers s n es).
  { induction es as [|e es IH]; intros n s s' a G G' A A'; auto. cbn [answers map].
    destruct (entry_step n s a e G A) as (G1 & A1 & E1).
    destruct (entry_step n s' a (drop_compact e) G' A') as (G2 & A2 & E2).
    rewrite E1, E2, writes_drop. rewrite spec_entry_drop in A2. f_equal.
    - destruct A as (_ & _ & R), A' as (_ & _ & R'). simpl in R, R'. rewrite R, R'. auto.
    - eapply IH; eauto. }
  apply (G log 0 kv0 kv0 _ good0 good0 abs0 abs0).
Qed.

Lemma compact_other s key c k : sorted bcmp (k_index s) -> k <> key ->
  iget (k_index (performs s (compact_effs s key c))) k = iget (k_index s) k.
Proof.
  intros Hs N. destruct (iget (k_index s) key) as [i|] eqn:E; unfold compact_effs; rewrite E; [|auto].
  destruct (i_gens i) as [|g gs]; [auto|]. destruct (compact_gens c (g :: gs)) as [gs' out].
  assert (D : forall x, k_index (performs x (map EDelRev out)) = k_index x) by (intros; rewrite performs_drop; auto).
  destruct gs' as [|g' gs'].
  - change (performs s (EDelIdx key :: map EDelRev out)) with (performs (perform s (EDelIdx key)) (map EDelRev out)). rewrite D. simpl.
    apply iget_idel_other; auto.
  - change (performs s (EIdx key (mkI (i_mod i) (g' :: gs')) :: map EDelRev out)) with
      (performs (perform s (EIdx key (mkI (i_mod i) (g' :: gs')))) (map EDelRev out)). rewrite D. simpl.
    apply iget_iput_other; auto.
Qed.

(** compactions of several keys in one entry *)
Fixpoint compact_all (s : kvst) (keys : list bytes) (c : Z) : kvst :=
  match keys with [] => s | k :: r => compact_all (performs s (compact_effs s k c)) r c end.

Lemma compact_ops keys c : forall s main sub,
  performs s (fst (ops_effs s (map (fun k => OCompact k c) keys) main sub)) = compact_all s keys c /\
  snd (ops_effs s (map (fun k => OCompact k c) keys) main sub) = main.
Proof.
  induction keys as [|k keys IH]; intros s main sub; [auto|]. cbn [map ops_effs takes_revision]. cbv zeta.
  cbn [op_effs]. destruct (IH (performs s (compact_effs s k c)) main sub) as [I1 I2].
  destruct (ops_effs _ _ main sub) as [es m] eqn:E. simpl in I1, I2. simpl. rewrite performs_app, I1. auto.
Qed.

Lemma compact_all_step keys c : forall hi s, Inv hi s ->
  let s' := compact_all s keys c in
  Inv hi s' /\ (forall k, look s' k = look s k) /\
  (forall r, c <= fst r -> k_revs s' r = k_revs s r) /\
  (forall r, k_revs s' r <> None -> k_revs s' r = k_revs s r) /\
  (forall r v, k_revs s r = Some v -> ~ In (v_key v) keys -> k_revs s' r = Some v) /\
  (forall k, ~ In k keys -> iget (k_index s') k = iget (k_index s) k) /\
  (forall k r, In r (listed s k) -> In r (listed s' k) \/ fst r < c /\ k_revs s' r = None) /\
  (forall k, In k keys -> look s k = None -> (forall r, In r (listed s k) -> fst r < c) -> iget (k_index s') k = None) /\
  (forall k, iget (k_index s) k = None -> iget (k_index s') k = None) /\
  k_leases s' = k_leases s /\ k_rev s' = k_rev s.
Proof.
  induction keys as [|key keys IH]; intros hi s H; cbn [compact_all]; cbv zeta.
  { split; [exact H|]. repeat split; auto. contradiction. }
  destruct (compact_step hi s key c H) as (H1 & L1 & N1 & O1 & Li1 & Al1 & De1).
  pose proof (fun k N => compact_other s key c k (inv_sorted _ _ H) N) as Oth.
  pose proof (performs_rest _ s (op_effs_table s (0, 0) (OCompact key c))) as (R1 & R2 & _). simpl op_effs in R1, R2.
  set (s1 := performs s (compact_effs s key c)) in *.
  assert (Nn : forall k, iget (k_index s) k = None -> iget (k_index s1) k = None).
  { intros k E. destruct (bytes_eq_dec k key) as [->|N]; [|rewrite Oth; auto].
    unfold s1, compact_effs. rewrite E. auto. }
  destruct (IH hi s1 H1) as (I1 & I2 & I3 & I4 & I5 & I6 & I7 & I8 & I9 & I10 & I11).
  set (s2 := compact_all s1 keys c) in *.
  split; [exact I1|]. split; [intros; rewrite I2; auto|]. split; [intros; rewrite I3; auto|].
  split. { intros r N. assert (k_revs s1 r <> None) by (rewrite <- I4; auto). rewrite I4; auto. }
  split. { intros r v E N. apply I5; [|simpl in N; tauto]. apply O1; auto. intros <-. apply N. left; auto. }
  split. { intros k N. rewrite I6 by (simpl in N; tauto). apply Oth. intros ->. apply N. left; auto. }
  split.
  { intros k r Hin. destruct (bytes_eq_dec k key) as [->|N].
    - destruct (Li1 r Hin) as [Hl|[Hc Hn]]; [apply I7; auto|]. right. split; auto.
      destruct (k_revs s2 r) eqn:E; auto. assert (k_revs s2 r <> None) by congruence. rewrite I4 in E by auto. congruence.
    - apply I7. unfold listed in *. rewrite Oth by auto. auto. }
  split.
  { intros k Hin Hd Hall. destruct (bytes_eq_dec k key) as [->|N].
    - apply I9. apply De1; auto.
    - apply I8; [destruct Hin; [congruence|auto]|rewrite L1; auto|]. unfold listed in *. rewrite Oth by auto. auto. }
  split; [auto|]. split; congruence.
Qed.

Lemma compact_request log keys c :
  let s := after log in
  let s' := after (log ++ [compact_incr keys c]) in
  (forall key range_end limit ko co, do_range s' key range_end limit ko co = do_range s key range_end limit ko co) /\
  k_rev s' = k_rev s /\
  (forall r, c <= fst r -> k_revs s' r = k_revs s r) /\
  (forall r, k_revs s' r <> None -> k_revs s' r = k_revs s r) /\
  (forall r v, k_revs s r = Some v -> ~ In (v_key v) keys -> k_revs s' r = Some v) /\
  (forall k r, In r (listed s k) -> In r (listed s' k) \/ fst r < c /\ k_revs s' r = None) /\
  (forall k, In k keys -> st_data (spec_log log) k = None -> (forall r, In r (listed s k) -> fst r < c) ->
     iget (k_index s') k = None).
Proof.
  cbv zeta. pose proof (after_good log) as G. destruct (good_inv _ _ G) as (hi & H & _).
  assert (E : exists x, after (log ++ [compact_incr keys c]) = perform (compact_all (after log) keys c) (EFinal x None)).
  { unfold after at 1. rewrite apply_log_app. fold (after log). cbn [apply_log]. rewrite Z.add_0_l.
    unfold apply_entry, entry_effs. rewrite (good_applied _ _ G).
    replace (Z.of_nat (length log) + 1 <=? Z.of_nat (length log)) with false by (symmetry; apply Z.leb_gt; lia).
    cbn [compact_incr in_leases in_ops map]. change (performs (after log) []) with (after log).
    destruct (compact_ops keys c (after log) None 1) as [C1 C2].
    destruct (ops_effs _ _ None 1) as [es m]. simpl in C1, C2. subst m. eexists.
    simpl app. rewrite performs_app, C1. reflexivity. }
  destruct E as [x E]. destruct (compact_all_step keys c hi (after log) H) as (I1 & I2 & I3 & I4 & I5 & I6 & I7 & I8 & I9 & I10 & I11).
  split.
  { intros key range_end limit ko co. destruct (after_inv (log ++ [compact_incr keys c])) as [h2 H2].
    apply do_range_same; [eapply inv_rinv; eauto|eapply inv_rinv; eauto|]. intros k. rewrite E. change (look (compact_all (after log) keys c) k = look (after log) k). auto. }
  rewrite E. split; [exact I11|]. split; [exact I3|]. split; [exact I4|]. split; [exact I5|]. split; [exact I7|].
  intros k Hin Hd. apply I8; auto. rewrite after_look. auto.
Qed.
