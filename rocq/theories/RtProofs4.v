(** Proofs: heartbeats bring the coordinator up to date, creates do not overlap, and histories of
    splits and merges are worlds as required. *)
From Coq Require Import ZArith List Bool Lia Sorted Permutation.
From Verif Require Import Bytes SMap Outcome LogProofs2 RtModel RtSpec RtProofs1 RtProofs2 RtProofs3.
Import ListNotations.
Open Scope Z_scope.

(** ** versions in the region map do not decrease *)

Lemma nth_pend_apply s n s' : step s (OApply n) = Ok s' -> forall l, nth_error (s_pend s) n = Some l ->
  s' = mkS (fst (apply_incs (s_map s) (s_idx s) l)) (snd (apply_incs (s_map s) (s_idx s) l)) (remove_nth n (s_pend s)).
Proof.
  intros H l E. cbn [step] in H. rewrite E in H. rewrite (surjective_pairing (apply_incs _ _ _)) in H. congruence.
Qed.

Lemma put_regions_last i : forall rs (m : rmap) c, zget (fold_left put_region rs m) i = Some c ->
  zget m i = Some c \/ In c rs /\ r_id c = i.
Proof.
  induction rs as [|r rs IH]; simpl; intros m c H; auto.
  destruct (IH _ _ H) as [K|[K E]]; [|auto]. unfold put_region in K.
  destruct (Z.eq_dec (r_id r) i) as [E|E].
  - rewrite E, get_put_same in K by apply zcmp_ok. injection K as ->. auto.
  - rewrite get_put_other in K by (auto; apply zcmp_ok). auto.
Qed.
Lemma apply_map_weak rm xm l i c : sorted Z.compare rm -> zget (fst (apply_incs rm xm l)) i = Some c ->
  zget rm i = Some c \/ In c (flat_map (taken rm) l) /\ r_id c = i.
Proof.
  intros Hs. unfold apply_incs. cbn [fst]. rewrite collect_puts.
  destruct (fold_del_get Z.compare zcmp_ok (w_dels (collect rm xm l)) (fold_left put_region (flat_map (taken rm) l) rm) i) as [A B];
    [apply put_regions_sorted; auto|].
  destruct (in_dec Z.eq_dec i (w_dels (collect rm xm l))) as [D|D]; [rewrite A by auto; congruence|].
  rewrite B by auto. apply put_regions_last.
Qed.
Lemma accepts_version rm r old : zget rm (r_id r) = Some old -> accepts rm r = true -> r_version old <= r_version r.
Proof.
  intros E. unfold accepts. rewrite E. rewrite andb_true_iff, !negb_true_iff, Z.ltb_ge. tauto.
Qed.

(** one step: the version of a region the map keeps does not decrease, unless the region is created
    once more *)
Lemma step_version s o s' i r r' : sorted Z.compare (s_map s) ->
  step s o = Ok s' -> zget (s_map s) i = Some r -> zget (s_map s') i = Some r' ->
  (forall n l q, o = OApply n -> nth_error (s_pend s) n = Some l -> In (ICreate q) l -> r_id q <> i) ->
  r_version r <= r_version r'.
Proof.
  intros Hs St G G' Hc. destruct o; cbn [step] in St.
  - injection St as <-. simpl in G'. assert (r = r') by congruence. subst; lia.
  - destruct (create_regions (s_map s) (s_idx s) l) as [[e|is]|]; simpl in St; try congruence; injection St as <-; simpl in G';
      assert (r = r') by congruence; subst; lia.
  - destruct (create_child (s_map s) (s_idx s) parent id) as [[e|is]|]; simpl in St; try congruence; injection St as <-; simpl in G';
      assert (r = r') by congruence; subst; lia.
  - injection St as <-. simpl in G'. assert (r = r') by congruence. subst; lia.
  - destruct (nth_error (s_pend s) n) as [l|] eqn:E.
    2:{ injection St as <-. assert (r = r') by congruence. subst; lia. }
    rewrite (surjective_pairing (apply_incs _ _ _)) in St. injection St as <-. cbn [s_map] in G'.
    apply apply_map_weak in G'; auto. destruct G' as [G'|[G' Ei]].
    + assert (r = r') by congruence. subst; lia.
    + apply taken_in in G'. destruct G' as [G'|[G' Ac]]; [exfalso; eapply Hc; eauto|].
      eapply accepts_version; eauto. rewrite Ei. auto.
  - injection St as <-. simpl in G'. assert (r = r') by congruence. subst; lia.
  - injection St as <-. simpl in G'. assert (r = r') by congruence. subst; lia.
Qed.
Lemma run_sorted : forall ops s s', sorted Z.compare (s_map s) -> sorted bcmp (s_idx s) -> run s ops = Ok s' -> sorted Z.compare (s_map s').
Proof.
  induction ops as [|o ops IH]; intros s s' A B H; simpl in H.
  - injection H as <-; auto.
  - destruct (step s o) as [s1|] eqn:E; [|congruence]. revert H. apply IH.
    + destruct o; cbn [step] in E; try (injection E as <-; auto; fail).
      * destruct (create_regions _ _ _) as [[e|is]|]; simpl in E; try congruence; injection E as <-; auto.
      * destruct (create_child _ _ _ _) as [[e|is]|]; simpl in E; try congruence; injection E as <-; auto.
      * destruct (nth_error (s_pend s) n); [|injection E as <-; auto]. rewrite (surjective_pairing (apply_incs _ _ _)) in E.
        injection E as <-. apply apply_sorted; auto.
    + destruct o; cbn [step] in E; try (injection E as <-; auto; fail).
      * destruct (create_regions _ _ _) as [[e|is]|]; simpl in E; try congruence; injection E as <-; auto.
      * destruct (create_child _ _ _ _) as [[e|is]|]; simpl in E; try congruence; injection E as <-; auto.
      * destruct (nth_error (s_pend s) n); [|injection E as <-; auto]. rewrite (surjective_pairing (apply_incs _ _ _)) in E.
        injection E as <-. apply apply_sorted; auto.
      * injection E as <-. apply build_index_keyed.
Qed.

(** ** catching up *)

Lemma right_same W T r c : world_ok W -> right_at W T r -> r_id c = r_id r -> honest W T c -> r_version r <= r_version c -> right_at W T c.
Proof.
  intros (_ & _ & M) Hr Ei (n & N1 & N2) V. unfold right_at in *. rewrite Ei in *.
  destruct (M n T _ _ _ N1 N2 Hr) as [M1 M2]. simpl in M1, M2.
  rewrite Hr. f_equal. symmetry. apply M2. lia.
Qed.
Lemma honest_version W T r c : world_ok W -> right_at W T r -> r_id c = r_id r -> honest W T c ->
  r_version c <= r_version r /\ (r_version c = r_version r -> r_start c = r_start r).
Proof.
  intros (_ & _ & M) Hr Ei (n & N1 & N2). unfold right_at in *. rewrite Ei in *.
  destruct (M n T _ _ _ N1 N2 Hr) as [M1 M2]. simpl in M1, M2. split; auto. intros E. specialize (M2 E). congruence.
Qed.

(** a report of what a region is like at time [T] is noted unless the coordinator knows already *)
Lemma report_noted W T s b p r : world_ok W -> inv W T s -> In p (b_reports b) ->
  (b_partial b = true -> b_epoch b = true /\ length (b_reports b) = 2%nat) ->
  right_at W T (mkR (p_id p) SNew (p_def p)) -> zget (s_map s) (p_id p) = Some r ->
  right_at W T r \/ exists st, In (IUpdate (mkR (p_id p) st (p_def p))) (beat_incs (s_map s) b).
Proof.
  intros HW HI Hp Hb Hr G. destruct (i_rec _ _ _ HI _ _ G) as [Ei Hh].
  destruct (honest_version W T _ r HW Hr Ei Hh) as [V _]. simpl in V.
  destruct (Z_lt_le_dec (r_version r) (d_version (p_def p))) as [L|L].
  2:{ left. eapply right_same; eauto. }
  right.
  assert (Hbi : beat_incs (s_map s) b = flat_map (beat_region (s_map s) b) (b_reports b)).
  { unfold beat_incs. destruct (b_partial b) eqn:E1; auto. destruct (Hb eq_refl) as [E2 E3]. rewrite E2, E3. reflexivity. }
  rewrite Hbi.
  assert (Hnew : exists st, beat_region (s_map s) b p = [IUpdate (mkR (r_id r) st (p_def p))]).
  { unfold beat_region. rewrite G. unfold r_version in L. rewrite (proj2 (Z.ltb_lt _ _) L), orb_true_r.
    rewrite andb_false_r. cbn [andb orb].
    replace (b_partial b && negb (b_epoch b)) with false
      by (destruct (b_partial b) eqn:E; auto; destruct (Hb eq_refl) as [-> _]; auto).
    cbn [negb andb orb]. eauto. }
  destruct Hnew as (st & Hn). exists st. apply in_flat_map. exists p. split; auto. rewrite Hn, Ei. left; auto.
Qed.

(** an increment that says so is accepted *)
Lemma update_accepted W T s n l r s' : world_ok W -> inv W T s -> calm W T s (OApply n) ->
  nth_error (s_pend s) n = Some l -> In (IUpdate r) l -> right_at W T r -> step s (OApply n) = Ok s' ->
  forall c, zget (s_map s') (r_id r) = Some c -> right_at W T c.
Proof.
  intros HW HI Hc Hn Hin Hr St c G. rewrite (nth_pend_apply _ _ _ St _ Hn) in G. cbn [s_map] in G.
  destruct (ap_pend W T s n l HI Hn) as (N & Hon & _).
  apply (ap_map W T s n l HI Hn) in G. destruct G as [[G E]|(G & _ & Nt)].
  - apply taken_in in G. assert (Q : exists i, In i l /\ inc_id i = r_id r /\ (i = ICreate c \/ i = IUpdate c)).
    { destruct G as [G|[G _]]; eexists; split; try exact G; auto. }
    destruct Q as (i & Q1 & Q2 & Q3). rewrite (inc_unique l i (IUpdate r) N Q1 Hin Q2) in Q3.
    destruct Q3 as [Q3|Q3]; congruence.
  - destruct (i_rec _ _ _ HI _ _ G) as [Ei Hh]. destruct (honest_version W T r c HW Hr Ei Hh) as [V1 V2].
    destruct (accepts (s_map s) r) eqn:A.
    + exfalso. apply (Nt r); auto. apply taken_in. auto.
    + exfalso. unfold accepts in A. rewrite G in A. apply andb_false_iff in A.
      destruct A as [A|A]; apply negb_false_iff in A; [apply Z.ltb_lt in A; lia|].
      apply andb_prop in A. destruct A as [A1 A2]. apply negb_true_iff, beqb_false in A1. apply Z.eqb_eq in A2.
      apply A1. symmetry. apply V2. auto.
Qed.

(** what is known of a region at time [T] stays known *)
Lemma step_stays W T s o s' i c c' : world_ok W -> inv W T s -> calm W T s o -> step s o = Ok s' ->
  zget (s_map s) i = Some c -> right_at W T c -> zget (s_map s') i = Some c' -> right_at W T c'.
Proof.
  intros HW HI Hc St G Hr G'.
  pose proof (step_inv _ _ _ _ _ HW HI Hc St) as HI'. destruct (i_rec _ _ _ HI _ _ G) as [Ei _].
  destruct (i_rec _ _ _ HI' _ _ G') as [Ei' Hh']. eapply right_same; eauto; [congruence|].
  eapply step_version; eauto. apply (i_map _ _ _ HI).
  intros n l q -> Hn Hq E. destruct (Hc l Hn) as (_ & _ & F & _). specialize (F q Hq). congruence.
Qed.

(** no drop, no delete *)
Definition never_dropped (i : Z) (s : state) : Prop := forall l, In l (s_pend s) -> ~ In (IDelete i) l.
Lemma step_kept W T s o s' i : inv W T s -> calm W T s o -> step s o = Ok s' -> o <> ODrop i -> never_dropped i s ->
  never_dropped i s' /\ (forall c, zget (s_map s) i = Some c -> exists c', zget (s_map s') i = Some c').
Proof.
  intros HI Hc St No Nd.
  assert (Hp : forall l, ~ In (IDelete i) l -> s' = propose s l -> never_dropped i s' /\ (forall c, zget (s_map s) i = Some c -> exists c', zget (s_map s') i = Some c')).
  { intros l Hl ->. split; [|simpl; eauto]. intros k Hk. simpl in Hk. apply in_app_or in Hk.
    destruct Hk as [Hk|[<-|[]]]; auto. }
  assert (Hs : s' = s -> never_dropped i s' /\ (forall c, zget (s_map s) i = Some c -> exists c', zget (s_map s') i = Some c')).
  { intros ->. eauto. }
  destruct o; cbn [step] in St.
  - injection St as <-. apply (Hp (beat_incs (s_map s) b)); auto. intros C.
    pose proof (beat_pend W T s b HI Hc) as _. unfold beat_incs in C. destruct (_ && _); [exact C|].
    apply in_flat_map in C. destruct C as (p & P1 & P2).
    destruct (beat_region_form W T s b p _ HI P2) as (_ & r' & st & d & Q & _). congruence.
  - destruct (create_regions _ _ _) as [[e|is]|] eqn:E; simpl in St; try congruence; injection St as <-; auto.
    apply (Hp is); auto. rewrite (create_form _ _ _ _ E). intros C. apply in_map_iff in C. destruct C as (n & Q & _). congruence.
  - unfold create_child in St. destruct (zget (s_map s) parent); [|simpl in St; injection St as <-; auto].
    destruct (create_regions _ _ _) as [[e|is]|] eqn:E; cbn [proposed] in St; try congruence; injection St as <-; auto.
    apply (Hp is); auto. rewrite (create_form _ _ _ _ E). intros C. apply in_map_iff in C. destruct C as (n & Q & _). congruence.
  - injection St as <-. apply (Hp (drop_region (s_map s) id)); auto. unfold drop_region.
    destruct (zget (s_map s) id); simpl; auto. destruct (deleted_state _); simpl; auto.
    intros [Q|[]]. injection Q as ->. congruence.
  - destruct (nth_error (s_pend s) n) as [l|] eqn:E; [|injection St as <-; auto].
    rewrite (surjective_pairing (apply_incs _ _ _)) in St. injection St as <-. split.
    + intros k Hk. apply Nd. eapply remove_nth_in; eauto.
    + intros c G. cbn [s_map].
      destruct (find (fun r => r_id r =? i) (flat_map (taken (s_map s)) l)) as [r|] eqn:F.
      * apply find_some in F. destruct F as [F1 F2]. apply Z.eqb_eq in F2. exists r.
        apply (ap_map W T s n l HI E). auto.
      * exists c. apply (ap_map W T s n l HI E). right. split; auto. split.
        -- apply Nd. eapply nth_error_In; eauto.
        -- intros r Hr. apply Z.eqb_neq. apply (find_none _ _ F). auto.
  - injection St as <-. split; [|simpl; eauto]. intros k Hk. apply Nd. eapply remove_nth_in; eauto.
  - injection St as <-. split; [exact Nd|simpl; eauto].
Qed.
Lemma run_kept W T i : world_ok W -> forall ops s s', inv W T s -> calm_run W T s ops -> run s ops = Ok s' ->
  ~ In (ODrop i) ops -> never_dropped i s ->
  never_dropped i s' /\ inv W T s' /\
  (forall c, zget (s_map s) i = Some c -> exists c', zget (s_map s') i = Some c' /\ (right_at W T c -> right_at W T c')).
Proof.
  intros HW. induction ops as [|o ops IH]; intros s s' HI Hc Hr No Nd; simpl in Hr.
  - injection Hr as <-. eauto.
  - destruct Hc as [C1 C2]. destruct (step s o) as [s1|] eqn:E; [|congruence].
    assert (No1 : o <> ODrop i) by (intros ->; apply No; left; auto).
    destruct (step_kept W T s o s1 i HI C1 E No1 Nd) as [K1 K2].
    pose proof (step_inv _ _ _ _ _ HW HI C1 E) as HI1.
    destruct (IH s1 s' HI1 (C2 _ eq_refl) Hr) as (L1 & L2 & L3); auto.
    { intros C. apply No. right; auto. }
    split; auto. split; auto. intros c G. destruct (K2 c G) as (c1 & G1). destruct (L3 c1 G1) as (c2 & G2 & R2).
    exists c2. split; auto. intros R. apply R2.
    exact (step_stays W T s o s1 i c c1 HW HI C1 E G R G1).
Qed.
Lemma run_app : forall a b s, run s (a ++ b) = match run s a with Ok s' => run s' b | Crash => Crash end.
Proof. induction a as [|o a IH]; intros b s; simpl; auto. destruct (step s o); auto. Qed.
Lemma calm_run_app W T : forall a b s, calm_run W T s (a ++ b) <->
  calm_run W T s a /\ forall s', run s a = Ok s' -> calm_run W T s' b.
Proof.
  induction a as [|o a IH]; intros b s; simpl.
  - split; [intros H; split; auto; intros s' [= <-]; auto|]. intros [_ H]. apply H; auto.
  - split.
    + intros [A B]. split; [split; auto|].
      * intros s1 E. apply (IH b s1). auto.
      * intros s' R. destruct (step s o) as [s1|] eqn:E; [|congruence]. apply (IH b s1); auto.
    + intros [[A B] C]. split; auto. intros s1 E. apply IH. split; auto. intros s' R. apply C. rewrite E. auto.
Qed.

Lemma catches_up W T i p b ops1 ops2 k ops3 s1 s2 s3 :
  world_ok W -> calm_run W T init (ops1 ++ OBeat b :: ops2 ++ OApply k :: ops3) ->
  run init ops1 = Ok s1 -> run init (ops1 ++ OBeat b :: ops2) = Ok s2 ->
  run init (ops1 ++ OBeat b :: ops2 ++ OApply k :: ops3) = Ok s3 ->
  ~ In (ODrop i) (ops1 ++ OBeat b :: ops2 ++ OApply k :: ops3) ->
  (exists r, zget (s_map s1) i = Some r) ->
  In p (b_reports b) -> p_id p = i -> right_at W T (mkR i SNew (p_def p)) ->
  (b_partial b = true -> b_epoch b = true /\ length (b_reports b) = 2%nat) ->
  nth_error (s_pend s2) k = Some (beat_incs (s_map s1) b) ->
  exists r, zget (s_map s3) i = Some r /\ right_at W T r.
Proof.
  intros HW Hc R1 R2 R3 No [r G] Hp Ei Hr Hb Hn. subst i.
  apply calm_run_app in Hc. destruct Hc as [C1 Hc]. specialize (Hc s1 R1). destruct Hc as [Cb Hc].
  rewrite run_app, R1 in R2, R3. cbn [run] in R2, R3.
  destruct (step s1 (OBeat b)) as [s1b|] eqn:Eb; [|congruence]. specialize (Hc s1b eq_refl).
  apply calm_run_app in Hc. destruct Hc as [C2 Hc]. specialize (Hc s2 R2). destruct Hc as [Ck Hc].
  rewrite run_app, R2 in R3. cbn [run] in R3.
  destruct (step s2 (OApply k)) as [s2b|] eqn:Ek; [|congruence]. specialize (Hc s2b eq_refl).
  assert (No1 : ~ In (ODrop (p_id p)) ops1) by (intros C; apply No; apply in_or_app; auto).
  assert (No2 : ~ In (ODrop (p_id p)) ops2).
  { intros C; apply No; apply in_or_app; right; right; apply in_or_app; auto. }
  assert (No3 : ~ In (ODrop (p_id p)) ops3).
  { intros C; apply No; apply in_or_app; right; right; apply in_or_app; right; right; auto. }
  destruct (run_kept W T (p_id p) HW ops1 init s1 (init_inv W T) C1 R1 No1) as (N1 & I1 & _); [intros l []|].
  assert (Bn : OBeat b <> ODrop (p_id p)) by congruence. assert (An : OApply k <> ODrop (p_id p)) by congruence.
  destruct (step_kept W T _ _ _ (p_id p) I1 Cb Eb Bn N1) as [N1b K1b].
  pose proof (step_inv _ _ _ _ _ HW I1 Cb Eb) as I1b.
  destruct (run_kept W T (p_id p) HW ops2 s1b s2 I1b C2 R2 No2 N1b) as (N2 & I2 & K2).
  destruct (step_kept W T _ _ _ (p_id p) I2 Ck Ek An N2) as [N2b K2b].
  pose proof (step_inv _ _ _ _ _ HW I2 Ck Ek) as I2b.
  destruct (run_kept W T (p_id p) HW ops3 s2b s3 I2b Hc R3 No3 N2b) as (N3 & I3 & K3).
  destruct (K1b r G) as (r1 & G1). destruct (K2 r1 G1) as (r2 & G2 & S2). destruct (K2b r2 G2) as (r2b & G2b).
  destruct (K3 r2b G2b) as (r3 & G3 & S3). exists r3. split; auto. apply S3.
  destruct (report_noted W T s1 b p r HW I1 Hp Hb Hr G) as [Q|(st & Q)].
  - eapply step_stays; [exact HW|exact I2|exact Ck|exact Ek|exact G2| |exact G2b]. apply S2.
    eapply step_stays; [exact HW|exact I1|exact Cb|exact Eb|exact G|exact Q|exact G1].
  - assert (Hr' : right_at W T (mkR (p_id p) st (p_def p))) by exact Hr.
    exact (update_accepted W T s2 k _ _ s2b HW I2 Ck Hn Q Hr' Ek r2b G2b).
Qed.

(** ** creating regions *)

Lemma prefix_below n : Z.of_nat (length n) <? 8 = false -> hd 0 n < 255 -> blt n max_start_key.
Proof.
  intros L H. destruct n as [|x n]; [discriminate|]. simpl in H. unfold blt, max_start_key. simpl.
  destruct (Z.compare_spec x 255); try lia. auto.
Qed.
Lemma legal_prefix_cases b : legal_prefix b = true -> b < 255 \/ b = 255.
Proof.
  unfold legal_prefix. rewrite !orb_true_iff, !Z.eqb_eq. lia.
Qed.

Lemma check_range_accepts W T s n : world_ok W -> inv W T s -> caught_up W T s ->
  check_range (s_idx s) (n_start n) (n_end n) = Ok None ->
  forall r k, zget (s_map s) (r_id r) = Some r -> ~ (holds r k /\ holds (new_region n) k).
Proof.
  intros HW HI Hu Hc r k G [A B]. unfold check_range in Hc.
  destruct (_ || _) eqn:E0; [congruence|]. apply orb_false_iff in E0. destruct E0 as [L1 L2].
  destruct (negb (hd 0 (n_start n) =? hd 0 (n_end n)) && negb (beqb (n_start n) max_start_key)) eqn:E1; [congruence|].
  destruct ((hd 0 (n_start n) =? 255) && negb (beqb (n_start n) max_start_key)) eqn:E2; [congruence|].
  destruct (i_rec _ _ _ HI _ _ G) as [_ Hh]. destruct (honest_place W T r HW Hh) as (_ & Pe & _).
  unfold holds, r_start, r_end in B. simpl in B.
  destruct (beqb (n_start n) max_start_key) eqn:E3.
  - apply beqb_true in E3. rewrite E3 in B. destruct A as [_ A2], B as [B1 _]. apply (blt_irrefl k).
    eapply blt_trans; [exact A2|]. eapply blt_le_trans; eauto.
  - cbn [negb] in *. rewrite andb_true_r in E1, E2. apply negb_false_iff, Z.eqb_eq in E1. apply Z.eqb_neq in E2.
    destruct (scan_regions (s_idx s) (n_start n) (n_end n) 0) as [rs|] eqn:Es; [|congruence].
    rewrite andb_true_r in Hc. destruct rs as [|r0 rs]; [|congruence].
    destruct (legal_prefix (hd 0 (n_start n))) eqn:E4; [|congruence]. apply legal_prefix_cases in E4.
    assert (Hend : blt (n_end n) max_start_key) by (apply prefix_below; auto; rewrite <- E1; lia).
    destruct (scan_exact (s_idx s) _ (n_start n) (n_end n) 0 (caught_exact _ _ _ HW HI Hu) (blt_ble _ _ Hend)) as (rs & Es' & Ha).
    rewrite Es in Es'. injection Es' as <-. destruct Ha as (all & _ & Ha & Hl). simpl in Hl. subst all.
    apply (Ha r). split; auto. exists k. split; auto.
    assert (Hne : n_end n <> []) by (intros E; rewrite E in L2; discriminate).
    apply asks_iff; auto. unfold upper_of.
    assert (beqb (n_end n) [0] = false) as ->.
    { apply beqb_false. intros E. rewrite E in L2. discriminate. }
    destruct (n_end n); [congruence|]. exact B.
Qed.
Lemma check_range_refuses W T s n : world_ok W -> inv W T s -> caught_up W T s ->
  check_range (s_idx s) (n_start n) (n_end n) = Ok (Some EOverlap) -> ble (n_end n) max_start_key ->
  exists r k, zget (s_map s) (r_id r) = Some r /\ holds r k /\ holds (new_region n) k.
Proof.
  intros HW HI Hu Hc He. unfold check_range in Hc.
  destruct (_ || _) eqn:E0; [congruence|]. apply orb_false_iff in E0. destruct E0 as [L1 L2].
  destruct (negb (hd 0 (n_start n) =? hd 0 (n_end n)) && negb (beqb (n_start n) max_start_key)) eqn:E1; [congruence|].
  destruct ((hd 0 (n_start n) =? 255) && negb (beqb (n_start n) max_start_key)) eqn:E2; [congruence|].
  destruct (scan_regions (s_idx s) (n_start n) (n_end n) 0) as [rs|] eqn:Es; [|congruence].
  destruct rs as [|r0 rs]; [cbn [andb] in Hc; destruct (legal_prefix _); congruence|].
  destruct (scan_exact (s_idx s) _ (n_start n) (n_end n) 0 (caught_exact _ _ _ HW HI Hu) He) as (rs' & Es' & Ha).
  rewrite Es in Es'. injection Es' as <-. destruct Ha as (all & _ & Ha & Hl). simpl in Hl. subst all.
  destruct (proj1 (Ha r0) (or_introl eq_refl)) as (A & k & B & C). exists r0, k. split; auto. split; auto.
  assert (Hne : n_end n <> []) by (intros E; rewrite E in L2; discriminate).
  apply asks_iff in B; auto. unfold upper_of in B.
  assert (beqb (n_end n) [0] = false) as Hb.
  { apply beqb_false. intros E. rewrite E in L2. discriminate. }
  rewrite Hb in B. unfold holds, r_start, r_end. simpl. destruct (n_end n); [congruence|]. exact B.
Qed.

Lemma create_alone W T ops s n s1 s2 : world_ok W -> calm_run W T init ops -> run init ops = Ok s -> caught_up W T s ->
  step s (OCreate [n]) = Ok s1 -> step s1 (OApply (length (s_pend s))) = Ok s2 ->
  forall r q k, zget (s_map s2) (r_id r) = Some r -> zget (s_map s2) (r_id q) = Some q -> r_id r <> r_id q -> ~ (holds r k /\ holds q k).
Proof.
  intros HW Hc Hr Hu St1 St2.
  assert (HI : inv W T s) by (eapply run_inv; eauto; apply init_inv).
  assert (Hd : forall r q k, zget (s_map s) (r_id r) = Some r -> zget (s_map s) (r_id q) = Some q -> r_id r <> r_id q -> ~ (holds r k /\ holds q k)).
  { intros r q k A B N [C D]. destruct Hu as [U _]. destruct (U _ _ A) as [_ R]. destruct (U _ _ B) as [_ Q].
    destruct HW as (_ & Dj & _). apply (Dj T _ _ _ _ k R Q N). unfold holds in *. simpl. tauto. }
  cbn [step create_regions] in St1.
  destruct (check_range (s_idx s) (n_start n) (n_end n)) as [[e|]|] eqn:Ec; simpl in St1; [| |congruence].
  - injection St1 as <-. cbn [step] in St2. rewrite (proj2 (nth_error_None _ _)) in St2 by lia. injection St2 as <-. exact Hd.
  - destruct (zget (s_map s) (n_id n)) as [x|] eqn:Ex; simpl in St1.
    + injection St1 as <-. cbn [step] in St2. rewrite (proj2 (nth_error_None _ _)) in St2 by lia. injection St2 as <-. exact Hd.
    + injection St1 as <-. cbn [step propose s_pend s_map s_idx] in St2.
      rewrite nth_error_app2, Nat.sub_diag in St2 by lia. cbn [nth_error] in St2.
      rewrite (surjective_pairing (apply_incs _ _ _)) in St2. injection St2 as <-. cbn [s_map].
      assert (HG : forall r, zget (fst (apply_incs (s_map s) (s_idx s) [ICreate (new_region n)])) (r_id r) = Some r ->
                   r = new_region n \/ zget (s_map s) (r_id r) = Some r).
      { intros r Hg. apply apply_map_weak in Hg; [|apply (i_map _ _ _ HI)]. destruct Hg as [Hg|[Hg _]]; auto.
        simpl in Hg. destruct Hg as [<-|[]]. auto. }
      pose proof (check_range_accepts W T s n HW HI Hu Ec) as Ha.
      intros r q k A B N [C D]. destruct (HG _ A) as [->|A']; destruct (HG _ B) as [->|B'].
      * congruence.
      * exact (Ha q k B' (conj D C)).
      * exact (Ha r k A' (conj C D)).
      * exact (Hd r q k A' B' N (conj C D)).
Qed.

(** ** worlds made by changes *)

Definition fits (c : cluster) : Prop :=
  (forall i p, snd c i = Some p -> In i (fst c) /\ 0 < i /\ (inhabited p \/ vacant p)) /\
  (forall i j p q k, snd c i = Some p -> snd c j = Some q -> ble (pl_start p) k -> blt k (pl_end p) ->
     ble (pl_start q) k -> blt k (pl_end q) -> i = j).
Definition follows (c d : cluster) : Prop :=
  incl (fst c) (fst d) /\
  forall i, In i (fst c) ->
    match snd c i, snd d i with
    | None, Some _ => False
    | Some p, Some q => pl_version p <= pl_version q /\ (pl_version p = pl_version q -> p = q)
    | _, None => True
    end.

Lemma follows_refl c : follows c c.
Proof. split; [apply incl_refl|]. intros i _. destruct (snd c i); auto. split; [lia|auto]. Qed.
Lemma follows_trans c d e : follows c d -> follows d e -> follows c e.
Proof.
  intros [A1 A2] [B1 B2]. split; [eapply incl_tran; eauto|]. intros i Hi. specialize (A2 i Hi). specialize (B2 i (A1 i Hi)).
  destruct (snd c i) as [p|], (snd d i) as [m|], (snd e i) as [q|]; auto; try tauto.
  destruct A2 as [A2 A3], B2 as [B2 B3]. split; [lia|]. intros E. assert (pl_version p = pl_version m) by lia.
  rewrite A3 by auto. apply B3. lia.
Qed.

Lemma set_same f i p : set f i p i = p.
Proof. unfold set. rewrite Z.eqb_refl. auto. Qed.
Lemma set_other f i p j : j <> i -> set f i p j = f j.
Proof. intros H. unfold set. rewrite (proj2 (Z.eqb_neq _ _) H). auto. Qed.
Lemma set_cases f i p j q : set f i p j = Some q -> (j = i /\ p = Some q) \/ (j <> i /\ f j = Some q).
Proof. unfold set. destruct (j =? i) eqn:E; [apply Z.eqb_eq in E|apply Z.eqb_neq in E]; auto. Qed.

(** a merge: the source is left vacant and the target takes exactly the keys of both *)
Lemma merge_ok used (f : Z -> option place) i j vi vj a1 b1 a2 b2 a c b' :
  f i = Some (mkPl vi a1 b1) -> f j = Some (mkPl vj a2 b2) -> i <> j -> blt a c -> blt c max_start_key -> blt b' max_start_key ->
  (forall y, ble a y -> blt y c -> (ble a1 y /\ blt y b1) \/ (ble a2 y /\ blt y b2)) ->
  fits (used, f) ->
  fits (used, set (set f i (Some (mkPl (vi + 1) max_start_key b'))) j (Some (mkPl (Z.max vi vj + 1) a c))) /\
  follows (used, f) (used, set (set f i (Some (mkPl (vi + 1) max_start_key b'))) j (Some (mkPl (Z.max vi vj + 1) a c))).
Proof.
  intros Hi Hj N Hac Hc Hb Hu [F1 F2]. cbn [fst snd] in *. split; [split|]; cbn [fst snd].
  - intros x q Hq. apply set_cases in Hq. destruct Hq as [[-> Hq]|[Nx Hq]].
    + injection Hq as <-. destruct (F1 _ _ Hj) as (A & B & _). split; auto. split; auto. left. split; auto.
    + apply set_cases in Hq. destruct Hq as [[-> Hq]|[Ny Hq]]; auto.
      injection Hq as <-. destruct (F1 _ _ Hi) as (A & B & _). split; auto. split; auto. right. split; auto.
  - assert (HH : forall x q y, set (set f i (Some (mkPl (vi + 1) max_start_key b'))) j (Some (mkPl (Z.max vi vj + 1) a c)) x = Some q ->
      ble (pl_start q) y -> blt y (pl_end q) ->
      (x = j /\ ((ble a1 y /\ blt y b1) \/ (ble a2 y /\ blt y b2))) \/ (x <> i /\ x <> j /\ f x = Some q)).
    { intros x q y Hq A B. apply set_cases in Hq. destruct Hq as [[-> Hq]|[Nx Hq]].
      - injection Hq as <-. simpl in *. auto.
      - apply set_cases in Hq. destruct Hq as [[-> Hq]|[Ny Hq]]; auto. injection Hq as <-. simpl in *. exfalso.
        apply (blt_irrefl y). eapply blt_le_trans; [eapply blt_trans; [exact B|exact Hb]|exact A]. }
    intros x1 x2 q1 q2 y Q1 Q2 A1 A2 B1 B2.
    destruct (HH _ _ _ Q1 A1 A2) as [(-> & U)|(U1 & U2 & U3)]; destruct (HH _ _ _ Q2 B1 B2) as [(-> & V)|(V1 & V2 & V3)]; auto.
    + exfalso. destruct U as [[U1 U2]|[U1 U2]]; [apply V1; exact (F2 _ _ _ _ y V3 Hi B1 B2 U1 U2)|apply V2; exact (F2 _ _ _ _ y V3 Hj B1 B2 U1 U2)].
    + exfalso. destruct V as [[V1 V2]|[V1 V2]]; [apply U1; exact (F2 _ _ _ _ y U3 Hi A1 A2 V1 V2)|apply U2; exact (F2 _ _ _ _ y U3 Hj A1 A2 V1 V2)].
    + exact (F2 _ _ _ _ y U3 V3 A1 A2 B1 B2).
  - split; cbn [fst snd]; [apply incl_refl|]. intros x Hx. unfold set.
    destruct (x =? j) eqn:E1; [apply Z.eqb_eq in E1; subst x; rewrite Hj; simpl; split; [lia|intros; lia]|].
    destruct (x =? i) eqn:E2; [apply Z.eqb_eq in E2; subst x; rewrite Hi; simpl; split; [lia|intros; lia]|].
    destruct (f x); auto. split; [lia|auto].
Qed.
Lemma key_side (y b : bytes) : blt y b \/ ble b y.
Proof. destruct (bltb y b) eqn:E; [left; apply bltb_iff; auto|right; apply nlt_ble]. intros C. apply bltb_iff in C. congruence. Qed.

Lemma change_ok c x d : changes c x d -> fits c -> fits d /\ follows c d.
Proof.
  intros H. destruct H as
    [used f i s e Pi Nu Hse He Hd | used f i e Pi Nu He | used f p ch k v s e vc ec Hp Hch Hne H1 H2 H3
    | used f i v s e Hi | used f i j vi vj a b c Hi Hj H1 H2 H3 | used f i j vi vj a b c Hi Hj H1 H2 H3 | used f i ];
    intros [F1 F2]; cbn [fst snd] in *.
  - (* new *) split; [split|]; cbn [fst snd].
    + intros j q Hq. apply set_cases in Hq. destruct Hq as [[-> Hq]|[N Hq]].
      * injection Hq as <-. split; [left; auto|]. split; auto. left. split; auto.
      * destruct (F1 _ _ Hq) as (A & B). split; auto. right; auto.
    + intros j1 j2 q1 q2 k Q1 Q2 A1 A2 B1 B2. apply set_cases in Q1. apply set_cases in Q2.
      destruct Q1 as [[-> Q1]|[N1 Q1]]; destruct Q2 as [[-> Q2]|[N2 Q2]]; auto.
      * injection Q1 as <-. exfalso. apply (Hd j2 q2 k Q2). auto.
      * injection Q2 as <-. exfalso. apply (Hd j1 q1 k Q1). auto.
      * eapply F2; eauto.
    + split; cbn [fst snd]; [apply incl_tl, incl_refl|]. intros j Hj. rewrite set_other by (intros ->; tauto).
      destruct (f j); auto. split; [lia|auto].
  - (* child *) split; [split|]; cbn [fst snd].
    + intros j q Hq. apply set_cases in Hq. destruct Hq as [[-> Hq]|[N Hq]].
      * injection Hq as <-. split; [left; auto|]. split; auto. right. split; auto.
      * destruct (F1 _ _ Hq) as (A & B). split; auto. right; auto.
    + assert (Hno : forall k, ~ (ble max_start_key k /\ blt k e)).
      { intros k [A B]. apply (blt_irrefl k). eapply blt_le_trans; [eapply blt_trans; [exact B|exact He]|auto]. }
      intros j1 j2 q1 q2 k Q1 Q2 A1 A2 B1 B2. apply set_cases in Q1. apply set_cases in Q2.
      destruct Q1 as [[-> Q1]|[N1 Q1]]; destruct Q2 as [[-> Q2]|[N2 Q2]]; auto.
      * injection Q1 as <-. exfalso. apply (Hno k); auto.
      * injection Q2 as <-. exfalso. apply (Hno k); auto.
      * eapply F2; eauto.
    + split; cbn [fst snd]; [apply incl_tl, incl_refl|]. intros j Hj. rewrite set_other by (intros ->; tauto).
      destruct (f j); auto. split; [lia|auto].
  - (* split *) split; [split|]; cbn [fst snd].
    + intros j q Hq. apply set_cases in Hq. destruct Hq as [[-> Hq]|[N Hq]].
      * injection Hq as <-. destruct (F1 _ _ Hch) as (A & B & _). split; auto. split; auto. left. split; simpl; auto.
        eapply blt_trans; eauto.
      * apply set_cases in Hq. destruct Hq as [[-> Hq]|[N' Hq]].
        -- injection Hq as <-. destruct (F1 _ _ Hp) as (A & B & _). split; auto. split; auto. left. split; simpl; auto.
        -- auto.
    + (* a key of the new parent or of the child was a key of the old parent *)
      assert (HH : forall j q y, set (set f p (Some (mkPl (v + 1) k e))) ch (Some (mkPl (vc + 1) s k)) j = Some q ->
        ble (pl_start q) y -> blt y (pl_end q) ->
        (j = p /\ ble k y /\ blt y e) \/ (j = ch /\ ble s y /\ blt y k) \/ (j <> p /\ j <> ch /\ f j = Some q)).
      { intros j q y Hq A B. apply set_cases in Hq. destruct Hq as [[-> Hq]|[N Hq]].
        - injection Hq as <-. simpl in *. auto.
        - apply set_cases in Hq. destruct Hq as [[-> Hq]|[N' Hq]]; auto. injection Hq as <-. simpl in *. auto. }
      intros j1 j2 q1 q2 y Q1 Q2 A1 A2 B1 B2.
      destruct (HH _ _ _ Q1 A1 A2) as [(-> & U1 & U2)|[(-> & U1 & U2)|(U1 & U2 & U3)]];
        destruct (HH _ _ _ Q2 B1 B2) as [(-> & V1 & V2)|[(-> & V1 & V2)|(V1 & V2 & V3)]]; auto;
        try (eapply (F2 j1 j2 q1 q2 y); eauto; fail); exfalso.
      * exact (blt_nle _ _ V2 U1).
      * apply V1. eapply (F2 j2 p); eauto; simpl; auto. apply blt_ble. eapply blt_le_trans; eauto.
      * exact (blt_nle _ _ U2 V1).
      * apply V1. eapply (F2 j2 p); eauto; simpl; auto. eapply blt_trans; eauto.
      * apply U1. eapply (F2 j1 p); eauto; simpl; auto. apply blt_ble. eapply blt_le_trans; eauto.
      * apply U1. eapply (F2 j1 p); eauto; simpl; auto. eapply blt_trans; eauto.
    + split; cbn [fst snd]; [apply incl_refl|]. intros j Hj. unfold set.
      destruct (j =? ch) eqn:E1; [apply Z.eqb_eq in E1; subst j; rewrite Hch; simpl; split; [lia|intros; lia]|].
      destruct (j =? p) eqn:E2; [apply Z.eqb_eq in E2; subst j; rewrite Hp; simpl; split; [lia|intros; lia]|].
      destruct (f j); auto. split; [lia|auto].
  - (* prepare *) split; [split|]; cbn [fst snd].
    + intros j q Hq. apply set_cases in Hq. destruct Hq as [[-> Hq]|[N Hq]]; auto.
      injection Hq as <-. destruct (F1 _ _ Hi) as (A & B & C). split; auto.
    + assert (HH : forall j q, set f i (Some (mkPl (v + 1) s e)) j = Some q ->
        exists q', f j = Some q' /\ pl_start q' = pl_start q /\ pl_end q' = pl_end q).
      { intros j q Hq. apply set_cases in Hq. destruct Hq as [[-> Hq]|[N Hq]]; eauto. injection Hq as <-. eauto. }
      intros j1 j2 q1 q2 y Q1 Q2 A1 A2 B1 B2. destruct (HH _ _ Q1) as (q1' & R1 & S1 & T1). destruct (HH _ _ Q2) as (q2' & R2 & S2 & T2).
      eapply (F2 j1 j2 q1' q2' y); eauto; congruence.
    + split; cbn [fst snd]; [apply incl_refl|]. intros j Hj. unfold set.
      destruct (j =? i) eqn:E1; [apply Z.eqb_eq in E1; subst j; rewrite Hi; simpl; split; [lia|intros; lia]|].
      destruct (f j); auto. split; [lia|auto].
  - (* merge, source below *)
    apply (merge_ok used f i j vi vj a b b c); auto.
    + intros ->. assert (a = b) by congruence. subst. eapply blt_irrefl; eauto.
    + eapply blt_trans; eauto.
    + eapply blt_trans; eauto.
    + intros y A B. destruct (key_side y b) as [Q|Q]; auto.
    + split; auto.
  - (* merge, source above *)
    apply (merge_ok used f i j vi vj b c a b); auto.
    + intros ->. assert (a = b) by congruence. subst. eapply blt_irrefl; eauto.
    + eapply blt_trans; eauto.
    + intros y A B. destruct (key_side y b) as [Q|Q]; auto.
    + split; auto.
  - (* gone *) split; [split|]; cbn [fst snd].
    + intros j q Hq. apply set_cases in Hq. destruct Hq as [[-> Hq]|[N Hq]]; [congruence|auto].
    + intros j1 j2 q1 q2 y Q1 Q2. apply set_cases in Q1. apply set_cases in Q2.
      destruct Q1 as [[-> Q1]|[N1 Q1]]; [congruence|]. destruct Q2 as [[-> Q2]|[N2 Q2]]; [congruence|]. eapply F2; eauto.
    + split; cbn [fst snd]; [apply incl_refl|]. intros j Hj. unfold set.
      destruct (j =? i) eqn:E1; [destruct (f j); auto|]. destruct (f j); auto. split; [lia|auto].
Qed.

Lemma made_ok W : made_by_changes W -> world_ok W.
Proof.
  intros (C & C0 & Cs & CW).
  assert (HF : forall t, fits (C t)).
  { induction t as [|t IH].
    - rewrite C0. split; simpl; intros; congruence.
    - destruct (Cs t) as [->|[x Hx]]; auto. apply (change_ok _ _ _ Hx IH). }
  assert (HS : forall t d, follows (C t) (C (t + d)%nat)).
  { intros t. induction d as [|d IH].
    - rewrite Nat.add_0_r. apply follows_refl.
    - rewrite Nat.add_succ_r. destruct (Cs (t + d)%nat) as [->|[x Hx]]; auto.
      eapply follows_trans; [exact IH|]. apply (change_ok _ _ _ Hx (HF _)). }
  split; [|split].
  - intros t i p H. rewrite CW in H. destruct (HF t) as [F1 _]. destruct (F1 _ _ H) as (_ & A & B). auto.
  - intros t i j p q k Hp Hq N (A & B & D & E). rewrite CW in Hp, Hq. destruct (HF t) as [_ F2]. apply N. eapply F2; eauto.
  - intros t u i p q L Hp Hq. rewrite CW in Hp, Hq. pose proof (HS t (u - t)%nat) as [_ S2].
    replace (t + (u - t))%nat with u in S2 by lia. destruct (HF t) as [F1 _]. destruct (F1 _ _ Hp) as (A & _).
    specialize (S2 i A). rewrite Hp, Hq in S2. exact S2.
Qed.

(** ** the index built anew *)

Lemma rebuilt_inv W T rm order : world_ok W -> sorted Z.compare rm ->
  (forall i c, zget rm i = Some c -> r_id c = i /\ right_at W T c) -> Permutation order (map fst rm) ->
  inv W T (mkS rm (build_index rm order) []).
Proof.
  intros HW A C Hp.
  assert (Hin : forall k x, bget (build_index rm order) k = Some x -> exists i, zget rm i = Some x /\ r_start x = k).
  { intros k x H. destruct (proj1 (build_get rm order [] k) x H) as [Q|Q]; auto. simpl in Q. congruence. }
  assert (Hho : forall i c, zget rm i = Some c -> honest W T c) by (intros i c H; exists T; split; [lia|apply (C i c H)]).
  constructor; cbn [s_map s_idx s_pend]; auto.
  - apply build_index_keyed.
  - intros i c H. split; [apply (C i c H)|eauto].
  - intros k x H. destruct (Hin k x H) as (i & Q & _). eauto.
  - intros k x H _. destruct (Hin k x H) as (i & Q & _). destruct (C i x Q) as [-> _]. auto.
  - intros i c H P. left.
    destruct (proj2 (build_get rm order [] (r_start c))) as (x & Hx).
    { left. exists i, c. split; auto. eapply Permutation_in; [apply Permutation_sym; exact Hp|].
      apply get_In in H; [|apply zcmp_ok]. apply (in_map fst) in H. exact H. }
    change (bget (build_index rm order) (r_start c) = Some x) in Hx. rewrite Hx. f_equal.
    destruct (Hin _ _ Hx) as (j & Q & Es). destruct (C _ _ H) as [Ei Hh]. destruct (C _ _ Q) as [Ej Hj].
    destruct (Z.eq_dec (r_id x) (r_id c)) as [E|E].
    + rewrite <- Ei, <- E, Ej in H. congruence.
    + exfalso. destruct HW as (HW1 & Dj & _). destruct (HW1 _ _ _ Hj) as (_ & [P2|P2]).
      * apply (Dj T _ _ _ _ (r_start c) Hj Hh E). simpl. rewrite Es. split; [apply ble_refl|]. split; [|split; [apply ble_refl|auto]].
        rewrite <- Es. apply P2.
      * destruct (HW1 _ _ _ Hh) as (_ & [P3|P3]).
        -- destruct P2 as [P2 _], P3 as [P3 P3']. simpl in *. apply (blt_irrefl (r_start c)). rewrite <- Es at 2. rewrite P2.
           eapply blt_trans; eauto.
        -- destruct P3 as [P3 P3']. simpl in *. apply (blt_irrefl (r_start c)). eapply blt_trans; [exact P|]. rewrite P3. auto.
  - intros l [].
Qed.

Lemma rebuilt_exact W T ops s order s' start end_ limit : world_ok W -> run init ops = Ok s -> caught_up W T s ->
  Permutation order (map fst (s_map s)) -> step s (OIndex order) = Ok s' -> ble end_ max_start_key -> exists rs,
  scan_regions (s_idx s') start end_ limit = Ok rs /\
  answer (fun r => zget (s_map s') (r_id r) = Some r) start end_ limit rs.
Proof.
  intros HW Hr Hu Hp St He. injection St as <-. cbn [s_idx s_map].
  assert (Hs : sorted Z.compare (s_map s)) by (eapply run_sorted; [| |exact Hr]; simpl; constructor).
  pose proof (rebuilt_inv W T (s_map s) order HW Hs (proj1 Hu) Hp) as HI.
  eapply scan_exact; auto. apply (caught_exact W T _ HW HI). exact Hu.
Qed.

Lemma runs_ok ops : exists s, run init ops = Ok s /\ keyed (s_idx s).
Proof. apply run_ok. apply init_keyed. Qed.

Lemma scan_loop_length start up point limit : forall l n rs, 0 <= n -> scan_loop start up point limit n l = Ok rs ->
  (point = true -> (length rs <= 1)%nat) /\ (0 < limit -> n < limit -> n + Z.of_nat (length rs) <= limit).
Proof.
  induction l as [|r l IH]; intros n rs Hn H; simpl in H.
  - injection H as <-. simpl. split; intros; lia.
  - destruct point.
    + destruct (_ && _).
      * injection H as <-. simpl. split; intros; lia.
      * apply (IH n rs Hn H).
    + split; [congruence|]. intros Hl Hnl. destruct (negb _); [congruence|].
      destruct ((0 <? limit) && (limit <=? n + 1)) eqn:E.
      * injection H as <-. simpl. lia.
      * destruct (scan_loop start up false limit (n + 1) l) as [rs'|] eqn:Er; [|congruence]. injection H as <-.
        destruct (IH (n + 1) rs' ltac:(lia) Er) as [_ K].
        apply andb_false_iff in E. rewrite Z.ltb_ge, Z.leb_gt in E. cbn [length]. lia.
Qed.
Lemma lookup_sound ops start end_ limit : exists s rs, run init ops = Ok s /\ scan_regions (s_idx s) start end_ limit = Ok rs /\
  by_start rs /\ (0 < limit -> Z.of_nat (length rs) <= limit) /\ (end_ = [] -> (length rs <= 1)%nat) /\
  forall r, In r rs -> In (r_start r, r) (s_idx s) /\ reaches start end_ r.
Proof.
  destruct (runs_ok ops) as (s & Hr & Hk). exists s.
  destruct (scan_never_crashes (s_idx s) start end_ limit (keyed_in _ Hk) (proj1 Hk)) as (rs & Es & Hb & Hi).
  exists rs. split; auto. split; auto. split; auto.
  pose proof Es as El. unfold scan_regions in El. pose proof (scan_loop_length _ _ _ _ _ 0 rs ltac:(lia) El) as [L1 L2].
  split; [intros; lia|]. split; [intros ->; auto|].
  intros r Hin. destruct (Hi r Hin) as (A & B & C). split; auto. split; auto.
  destruct end_ as [|z e].
  - rewrite scan_loop_point in El. injection El as El.
    assert (Hf : In r (filter (fun r => bleb (r_start r) start && bltb start (r_end r))
      (find_interval (s_idx s) start (upper_of start []) (fun r => (0 <? r_id r) && bltb start (r_end r))))).
    { destruct (filter _ _); [subst rs; destruct Hin|]. subst rs. destruct Hin as [<-|[]]. left; auto. }
    apply filter_In in Hf. destruct Hf as [_ Hf]. apply andb_prop in Hf. apply bleb_iff. tauto.
  - unfold upper_of in B. destruct (beqb (z :: e) [0]) eqn:E.
    + apply beqb_true in E. injection E as -> ->. auto.
    + destruct z; auto. destruct e; auto. apply beqb_false in E. congruence.
Qed.

Lemma create_refused W T ops s n : world_ok W -> calm_run W T init ops -> run init ops = Ok s -> caught_up W T s ->
  ble (n_end n) max_start_key ->
  create_regions (s_map s) (s_idx s) [n] = Ok (inl EOverlap) ->
  exists r k, zget (s_map s) (r_id r) = Some r /\ holds r k /\ holds (new_region n) k.
Proof.
  intros HW Hc Hr Hu He Ec. assert (HI : inv W T s) by (eapply run_inv; eauto; apply init_inv).
  cbn [create_regions] in Ec. destruct (check_range (s_idx s) (n_start n) (n_end n)) as [[e|]|] eqn:E; [| |congruence].
  - injection Ec as ->. eapply check_range_refuses; eauto.
  - destruct (zget (s_map s) (n_id n)); congruence.
Qed.
