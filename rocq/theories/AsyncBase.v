(** What a prewrite leaves in its locks about asynchronous commit. *)
From Coq Require Import ZArith List Lia Bool.
From Verif Require Import Bytes SMap Outcome TxnModel TxnSpec TxnBase TxnMoves TxnHandlers TxnHandlers2 TxnHandlers3 TxnInv
  TxnRun TxnProofs TxnProofs2 TxnProofs3 TxnProofs4 TxnProofs5 TxnProofs6 TxnProofs7.
Import ListNotations.
Open Scope Z_scope.

Section Loop.
Variables (c : cfg) (s : store) (mx : Z) (p : prewrite_req).
Hypothesis H : store_ok s.
Hypothesis SP : 0 < pw_start p.
Hypothesis ND : NoDup (map m_key (pw_muts p)).
Hypothesis NA : forall m l0, In m (pw_muts p) -> lock_at s (m_key m) = Some l0 -> l_type l0 = OpLock -> l_async l0 = false.

Record lacc (done : list mutation) (a : pw_acc) : Prop := {
  la_1pc : a_1pc a = [];
  la_try : a_try1 a = false;
  la_in : forall k l, In (k, l) (a_locks a) -> exists m, In m done /\ m_key m = k /\ m_op m <> OpCheckNotExists;
  la_nd : NoDup (map fst (a_locks a));
  la_flag : forall k l, In (k, l) (a_locks a) -> l_async l = true ->
     pw_secs p <> [] /\ (k = pw_primary p -> l_secs l = pw_secs p);
  la_async : a_async a = true -> pw_secs p <> [] /\
     (forall m, In m done -> m_op m <> OpCheckNotExists -> In (m_key m) (map fst (a_locks a))) /\
     (forall k l, In (k, l) (a_locks a) -> l_async l = true /\ l_minc l <= a_final a /\ pw_start p < l_minc l) /\
     (a_locks a = [] -> a_final a <= pw_start p + 1) /\
     (a_locks a <> [] -> exists k l, In (k, l) (a_locks a) /\ l_minc l = a_final a) /\
     (done = [] \/ pw_start p < a_final a);
  la_sync : a_async a = false -> pw_secs p = [] \/ (exists m, In m done /\ prewritten s (m_key m) (pw_start p)) \/
     exists k l, In (k, l) (a_locks a) /\ l_async l = false }.

Lemma lacc_more done m a : lacc done a -> a_async a = false -> lacc (done ++ [m]) a.
Proof.
  intros [A1 A2 A3 A4 A5 A6 A7] E. constructor; auto.
  - intros k l Q. destruct (A3 k l Q) as (m0 & Q1 & Q2). exists m0. rewrite in_app_iff. auto.
  - congruence.
  - intros _. destruct (A7 E) as [Q|[(m0 & Q1 & Q2)|Q]]; auto. right; left. exists m0. rewrite in_app_iff. auto.
Qed.
Lemma lacc_eq done a b : a_1pc b = a_1pc a -> a_try1 b = a_try1 a -> a_locks b = a_locks a -> a_async b = a_async a ->
  a_final b = a_final a -> lacc done a -> lacc done b.
Proof.
  intros E1 E2 E3 E4 E5 [A1 A2 A3 A4 A5 A6 A7].
  constructor; rewrite ?E1, ?E2, ?E3, ?E4, ?E5; auto.
Qed.

(** one more lock *)
Lemma lacc_push done m fut np ty short extra v a :
  lacc done a -> ~ In (m_key m) (map m_key done) -> m_op m <> OpCheckNotExists ->
  l_async (get_lock s (m_key m)) = false ->
  lacc (done ++ [m]) (push_lock mx p fut np (gen_lock p (get_lock s (m_key m)) (m_key m) ty short extra (a_async a)) v a).
Proof.
  intros A NI NC PA. set (l := gen_lock _ _ _ _ _ _ _).
  assert (LA : l_async l = a_async a) by (unfold l, gen_lock; cbn [l_async]; rewrite PA; destruct (a_async a); reflexivity).
  assert (LS : a_async a = true -> m_key m = pw_primary p -> l_secs l = pw_secs p).
  { intros Q E. unfold l, gen_lock; cbn [l_secs]. rewrite Q, E. cbn [andb].
    replace (beqb (pw_primary p) (pw_primary p)) with true; auto. symmetry. apply beqb_true. reflexivity. }
  assert (LK : l_key l = m_key m) by reflexivity.
  destruct A as [A1 A2 A3 A4 A5 A6 A7].
  assert (F : ~ In (m_key m) (map fst (a_locks a))).
  { intros Q. apply in_map_iff in Q. destruct Q as ((k & l') & Q1 & Q2). simpl in Q1. subst k.
    destruct (A3 _ _ Q2) as (m0 & Q3 & Q4 & _). apply NI. rewrite <- Q4. apply in_map; auto. }
  assert (ND' : forall l', NoDup (map fst (a_locks a ++ [(m_key m, l')]))).
  { intros l'. rewrite map_app. simpl.
    clear - A4 F. induction (map fst (a_locks a)) as [|x xs IH]; simpl; [constructor; [intros []|constructor]|].
    inversion A4; subst. constructor; [rewrite in_app_iff; simpl; intros [Q|[Q|[]]]; [tauto|subst; apply F; left; auto]|].
    apply IH; auto. intros Q; apply F; right; auto. }
  assert (IN' : forall l' k l0, In (k, l0) (a_locks a ++ [(m_key m, l')]) ->
            exists m0, In m0 (done ++ [m]) /\ m_key m0 = k /\ m_op m0 <> OpCheckNotExists).
  { intros l' k l0. rewrite in_app_iff. intros [Q|[Q|[]]].
    - destruct (A3 _ _ Q) as (m0 & Q1 & Q2). exists m0. rewrite in_app_iff. auto.
    - inversion Q; subst. exists m. rewrite in_app_iff. simpl. auto. }
  unfold push_lock. rewrite LK, A2. cbn [orb]. destruct (a_async a) eqn:AS.
  - destruct (A6 eq_refl) as (S1 & S2 & S3 & S4 & S5 & S6).
    set (f := gen_final_min_commit _ _ _ _ _). destruct (f =? 0) eqn:Ef.
    + constructor; cbn [a_res a_exist a_data a_locks a_1pc a_try1 a_async a_final]; auto.
      * apply IN'.
      * intros k l0. rewrite in_app_iff. intros [Q|[Q|[]]]; [apply A5; auto|]. inversion Q; subst. discriminate.
      * discriminate.
      * intros _. right; right. exists (m_key m), (without_async l). rewrite in_app_iff. simpl. auto.
    + apply Z.eqb_neq in Ef. assert (G := gen_final_gt mx (l_minc l) (pw_start p) fut (pw_maxc p) Ef). fold f in G.
      assert (FP : 0 <? f = true) by (apply Z.ltb_lt; lia). rewrite FP.
      set (l' := with_minc l f). set (fin := if a_final a <? f then f else a_final a).
      assert (FI : a_final a <= fin /\ f <= fin /\ (fin = f \/ fin = a_final a)).
      { unfold fin. destruct (Z.ltb_spec (a_final a) f); lia. }
      constructor; cbn [a_res a_exist a_data a_locks a_1pc a_try1 a_async a_final]; auto.
      * apply IN'.
      * intros k l0. rewrite in_app_iff. intros [Q|[Q|[]]]; [apply A5; auto|]. inversion Q; subst. intros _.
        split; [auto|]. intros E. unfold l'. cbn [l_secs with_minc]. auto.
      * intros _. split; [auto|split; [|split; [|split; [|split]]]].
        -- intros m0. rewrite in_app_iff, map_app, in_app_iff. intros [Q|[<-|[]]] N0; [left; auto|right; simpl; auto].
        -- intros k l0. rewrite in_app_iff. intros [Q|[Q|[]]].
           ++ destruct (S3 _ _ Q) as (Q1 & Q2 & Q3). split; [auto|split; [lia|auto]].
           ++ inversion Q; subst. unfold l'. cbn [l_async l_minc with_minc]. split; [auto|split; [lia|auto]].
        -- intros Q. apply app_eq_nil in Q. destruct Q; discriminate.
        -- intros _. destruct FI as (F1 & F2 & [F3|F3]).
           ++ exists (m_key m), l'. rewrite in_app_iff. simpl. split; [auto|]. unfold l'. cbn [l_minc with_minc]. lia.
           ++ destruct (a_locks a) as [|x xs] eqn:EL.
              ** exists (m_key m), l'. simpl. split; [auto|]. unfold l'. cbn [l_minc with_minc]. specialize (S4 eq_refl). lia.
              ** destruct S5 as (k & l0 & Q1 & Q2); [discriminate|]. exists k, l0. rewrite in_app_iff. split; [auto|lia].
        -- right. lia.
      * discriminate.
  - constructor; cbn [a_res a_exist a_data a_locks a_1pc a_try1 a_async a_final]; auto.
    + apply IN'.
    + intros k l0. rewrite in_app_iff. intros [Q|[Q|[]]]; [apply A5; auto|]. inversion Q; subst. congruence.
    + discriminate.
    + intros _. right; right. exists (m_key m), l. rewrite in_app_iff. simpl. auto.
Qed.

Lemma gen_prewrite_lacc done m w fut extra np a a' :
  lacc done a -> ~ In (m_key m) (map m_key done) -> l_async (get_lock s (m_key m)) = false ->
  gen_prewrite c mx p m (get_lock s (m_key m)) w fut extra np a = inr a' -> lacc (done ++ [m]) a'.
Proof.
  intros A NI PA. unfold gen_prewrite.
  set (big := max_short_value c <? _).
  assert (PUT : m_op m <> OpCheckNotExists -> (if beqb (m_value m) [] then inl EVALUE_EMPTY else
      let a1 := if big then add_data a (m_key m) (m_value m) else a in
      inr (push_lock mx p fut np (gen_lock p (get_lock s (m_key m)) (m_key m) OpPut (if big then None else Some (m_value m)) extra (a_async a))
             (m_value m) a1)) = inr a' -> lacc (done ++ [m]) a').
  { intros NC. destruct (beqb (m_value m) []); [discriminate|]. cbv zeta. intros X; inversion X; subst a'; clear X.
    destruct big.
    - change (a_async a) with (a_async (add_data a (m_key m) (m_value m))).
      apply lacc_push; auto. apply lacc_eq with (a := a); auto.
    - apply lacc_push; auto. }
  destruct (m_op m) eqn:EO; try discriminate.
  - intros X. apply PUT; auto. discriminate.
  - intros X; inversion X; subst a'. apply lacc_push; auto. congruence.
  - destruct (op_eqb w OpPut); [|intros X; apply PUT; auto; discriminate].
    intros X; inversion X; subst a'. apply lacc_push; auto. congruence.
  - intros X; inversion X; subst a'; clear X.
    assert (A0 := A). destruct A as [A1 A2 A3 A4 A5 A6 A7]. rewrite A2. cbn [orb].
    destruct (a_async a) eqn:AS.
    + destruct (A6 eq_refl) as (S1 & S2 & S3 & S4 & S5 & S6).
      set (fin := if a_final a <? pw_start p + 1 then pw_start p + 1 else a_final a).
      assert (FI : a_final a <= fin /\ pw_start p < fin /\ (a_final a <= pw_start p + 1 -> fin = pw_start p + 1) /\ (pw_start p < a_final a -> fin = a_final a)).
      { unfold fin. destruct (Z.ltb_spec (a_final a) (pw_start p + 1)); lia. }
      constructor; cbn [set_final a_res a_exist a_data a_locks a_1pc a_try1 a_async a_final]; auto.
      * intros k l Q. destruct (A3 k l Q) as (m0 & Q1 & Q2). exists m0. rewrite in_app_iff. auto.
      * intros _. split; [auto|split; [|split; [|split; [|split]]]].
        -- intros m0. rewrite in_app_iff. intros [Q|[<-|[]]] N0; [auto|congruence].
        -- intros k l Q. destruct (S3 _ _ Q) as (Q1 & Q2 & Q3). split; [auto|split; [lia|auto]].
        -- intros Q. specialize (S4 Q). lia.
        -- intros Q. destruct (S5 Q) as (k & l & Q1 & Q2). exists k, l. split; auto.
           destruct (S3 _ _ Q1) as (_ & _ & Q3). lia.
        -- right. lia.
      * congruence.
    + apply lacc_eq with (a := set_final a 0); auto. apply lacc_more; auto.
      destruct A0. constructor; cbn [set_final a_res a_exist a_data a_locks a_1pc a_try1 a_async a_final]; auto. congruence.
Qed.

Lemma no_fast_lacc done m a : lacc done a -> prewritten s (m_key m) (pw_start p) -> lacc (done ++ [m]) (no_fast_path a).
Proof.
  intros A Q. destruct A as [A1 A2 A3 A4 A5 A6 A7].
  constructor; cbn [no_fast_path a_res a_exist a_data a_locks a_1pc a_try1 a_async a_final]; auto.
  - intros k l Y. destruct (A3 k l Y) as (m0 & Q1 & Q2). exists m0. rewrite in_app_iff. auto.
  - discriminate.
  - intros _. right; left. exists m. rewrite in_app_iff. simpl. auto.
Qed.

Lemma loop_lacc : forall ms done i a o, 0 <= i -> (forall m, In m ms -> In m (pw_muts p)) ->
  NoDup (map m_key (done ++ ms)) -> ~ noted o ->
  lacc done a -> prewrite_loop c s mx p i ms a = Ok (PwEnd o) -> lacc (done ++ ms) o.
Proof.
  induction ms as [|m ms IH]; intros done i a o Pi IM N NN A X; assert (X0 := X); cbn [prewrite_loop] in X.
  - apply Ok_inj in X. inversion X; subst. rewrite app_nil_r. auto.
  - assert (DONE := prewrite_loop_done c s mx p H SP).
    assert (NI : ~ In (m_key m) (map m_key done)).
    { intros Q. rewrite map_app in N. simpl in N. apply NoDup_remove_2 in N. apply N. rewrite in_app_iff. auto. }
    replace (done ++ m :: ms) with ((done ++ [m]) ++ ms) in * by (rewrite <- app_assoc; reflexivity).
    assert (IM' : forall m0, In m0 ms -> In m0 (pw_muts p)) by (intros; apply IM; simpl; auto).
    set (np := nth (Z.to_nat i) (pw_checks p) 0 =? 1) in *.
    destruct (prewrite_check_lock s (pw_start p) (m_key m) (get_lock s (m_key m)) np (zassoc i (pw_futs p)))
      as [rep| |ct] eqn:LK.
    + destruct (get_rollback_ok s (pw_start p) (m_key m) H) as (b & B & Bi). rewrite B in X. cbn [obind] in X.
      destruct b; [apply Ok_inj in X; inversion X; subst; exfalso; apply NN, noted_res|].
      set (w := get_write_info s 0 kMaxVer 0 (m_key m) false true true) in *.
      destruct ((pw_start p <=? found_ts w) && negb np).
      { destruct (check_committed s (pw_start p) (m_key m)); apply Ok_inj in X; inversion X; subst. exfalso; apply NN, noted_res. }
      destruct (op_eqb (m_op m) OpPutIfAbsent && op_eqb (found_op w) OpPut).
      { apply Ok_inj in X; inversion X; subst. exfalso; apply NN, noted_exist. }
      destruct (op_eqb (m_op m) OpCheckNotExists && np); [apply Ok_inj in X; discriminate|].
      set (a1 := if op_eqb (m_op m) OpCheckNotExists && op_eqb (found_op w) OpPut then add_exist a (m_key m) else a) in *.
      assert (A1 : lacc done a1) by (unfold a1; destruct (_ && _); auto; apply lacc_eq with (a := a); auto).
      assert (K : (rep = true /\ prewritten s (m_key m) (pw_start p)) \/ (rep = false /\ l_async (get_lock s (m_key m)) = false)).
      { unfold prewrite_check_lock in LK.
        destruct (get_lock_spec s (m_key m) H) as [(l & G1 & G2 & G3 & G4)|(G1 & G2)]; rewrite G2 in *.
        - rewrite G3 in LK.
          assert (W : l_type l <> OpLock -> l_ts l = pw_start p -> prewritten s (m_key m) (pw_start p)).
          { intros T1 T2. exists l. split; [auto|split; [auto|]]. destruct G4 as (_ & _ & _ & [|[|]] & _); auto. congruence. }
          destruct np; simpl in LK.
          + destruct (l_ts l =? pw_start p) eqn:E1; [|destruct (check_committed _ _ _); discriminate].
            apply Z.eqb_eq in E1. destruct (op_eqb (l_type l) OpLock) eqn:E2; simpl in LK.
            * right. apply op_eqb_eq in E2. assert (Q := NA m l (IM m (or_introl eq_refl)) G1 E2).
              split; auto. destruct (zassoc i (pw_futs p)); [destruct (_ =? _)|]; congruence.
            * left. inversion LK; subst. split; auto. apply W; auto. apply op_eqb_neq in E2. auto.
          + destruct (op_eqb (l_type l) OpLock) eqn:E2; [destruct (check_committed _ _ _); discriminate|].
            destruct (l_ts l =? pw_start p) eqn:E1; [|destruct (check_committed _ _ _); discriminate].
            apply Z.eqb_eq in E1. left. inversion LK; subst. split; auto. apply W; auto. apply op_eqb_neq in E2. auto.
        - right. destruct np; simpl in LK; inversion LK; auto. }
      destruct K as [(-> & K)|(-> & K)].
      { eapply (IH _ (i + 1)); [lia|auto|auto|auto| |exact X]. apply no_fast_lacc; auto. }
      destruct (gen_prewrite c mx p m (get_lock s (m_key m)) (found_op w)
                (match zassoc i (pw_futs p) with Some f => f | None => 0 end)
                (match zassoc i (pw_extra p) with Some e => e | None => [] end) np a1) as [e|a2] eqn:G; [apply Ok_inj in X; discriminate|].
      eapply (IH _ (i + 1)); [lia|auto|auto|auto| |exact X]. eapply gen_prewrite_lacc; eauto.
    + exfalso. destruct (DONE _ _ _ _ X NN) as (B1 & _). apply B1, noted_res.
    + apply Ok_inj in X. discriminate.
Qed.

End Loop.

(** the effect of a successful prewrite without one-phase commit *)
Lemma prewrite_async c s mx p a bs : store_ok s -> handle c s mx (RPrewrite p) = Ok (a, bs) -> succeeded a ->
  pw_try1 p = false -> NoDup (map m_key (pw_muts p)) ->
  (forall m l0, In m (pw_muts p) -> lock_at s (m_key m) = Some l0 -> l_type l0 = OpLock -> l_async l0 = false) ->
  0 < pw_start p /\
  ((bs = [] /\ exists m ct, In m (pw_muts p) /\ committed s (m_key m) (pw_start p) ct /\ (r_minc a = ct \/ r_minc a = 0)) \/
   exists ls : list (bytes * lock),
     let s' := apply_batches s bs in
     (forall k l, In (k, l) ls -> lock_at s' k = Some l /\ prewrite_ok s p k /\
        (exists m, In m (pw_muts p) /\ m_key m = k /\ m_op m <> OpCheckNotExists) /\
        l_ts l = pw_start p /\ is_write (l_type l) /\
        (l_async l = true -> pw_secs p <> [] /\ (k = pw_primary p -> l_secs l = pw_secs p))) /\
     (forall k, ~ In k (map fst ls) -> lock_at s' k = lock_at s k) /\
     (forall m, In m (pw_muts p) -> m_op m <> OpCheckNotExists -> In (m_key m) (map fst ls) \/ prewritten s (m_key m) (pw_start p)) /\
     (0 < r_minc a -> (forall m, In m (pw_muts p) -> m_op m <> OpCheckNotExists -> In (m_key m) (map fst ls)) /\
        (forall k l, In (k, l) ls -> l_async l = true /\ l_minc l <= r_minc a) /\
        (ls <> [] -> exists k l, In (k, l) ls /\ l_minc l = r_minc a)) /\
     (r_minc a <= 0 -> pw_muts p = [] \/ pw_secs p = [] \/ (exists m, In m (pw_muts p) /\ prewritten s (m_key m) (pw_start p)) \/
        exists k l, In (k, l) ls /\ l_async l = false)).
Proof.
  intros H X SU T0 ND NA. destruct (handle_some _ _ _ _ _ _ X (proj1 SU)) as [V E].
  destruct (prewrite_cases _ _ _ _ _ _ H X SU) as (P & CASES). split; auto.
  unfold handle in X. rewrite V, E in X. unfold prewrite in X.
  destruct (_ <? _) in X; [ok_reply X; destruct SU; discriminate|]. destruct (_ && _) in X; [ok_reply X; destruct SU; discriminate|].
  set (a0 := mkAcc _ _ _ _ _ _ _ _) in *.
  destruct (prewrite_loop c s mx p 0 (pw_muts p) a0) as [o|] eqn:L; cbn [obind] in X; [|discriminate].
  destruct o as [ac|ct ac|e].
  - assert (S : acc_ok s p ac).
    { assert (PP : pw_primary p <> []).
      { simpl in V. destruct (_ || _) eqn:V1 in V; [discriminate|]. rewrite !orb_false_iff in V1.
        destruct V1 as ((((_ & V1) & V2) & _) & _). apply beqb_false in V1. auto. }
      apply (prewrite_loop_spec c s mx p H P PP (pw_muts p) 0 a0 (PwEnd ac)); auto; [lia|].
      unfold a0. constructor; simpl; try tauto. }
    destruct (is_nil (a_res ac)) eqn:E1; cbn [negb] in X.
    2:{ ok_reply X. destruct SU as (_ & Q & _). simpl in Q. rewrite Q in E1. discriminate. }
    destruct (is_nil (a_exist ac)) eqn:E2; cbn [negb] in X.
    2:{ ok_reply X. destruct SU as (_ & _ & Q). simpl in Q. rewrite Q in E2. discriminate. }
    apply is_nil_iff in E1, E2. right. clear CASES.
    assert (NN : ~ noted ac) by (intros [Q|Q]; congruence).
    assert (A : lacc s p ([] ++ pw_muts p) ac).
    { eapply loop_lacc with (i := 0) (a := a0); eauto; [lia|].
      unfold a0. rewrite T0. constructor; cbn [a_res a_exist a_data a_locks a_1pc a_try1 a_async a_final]; auto.
      - intros k l [].
      - constructor.
      - intros k l [].
      - intros Q. split; [destruct (pw_secs p); [discriminate|discriminate]|].
        split; [intros m []|split; [intros k l []|split; [lia|split; [congruence|auto]]]].
      - intros Q. left. destruct (pw_secs p); [auto|discriminate]. }
    simpl app in A. destruct A as [A1 A2 A3 A4 A5 A6 A7].
    rewrite A2 in X. ok_reply X. cbn [r_minc].
    assert (EB : forall bs0, bs0 = do_prewrite (pw_start p) (a_data ac) (a_locks ac) (a_1pc ac) ->
       (forall k l, In (k, l) (a_locks ac) -> lock_at (apply_batches s bs0) k = Some l) /\
       (forall k, ~ In k (map fst (a_locks ac)) -> lock_at (apply_batches s bs0) k = lock_at s k)).
    { intros bs0 ->. unfold do_prewrite. rewrite A1. cbn [map]. rewrite app_nil_r.
      set (b := map _ (a_data ac) ++ map _ (a_locks ac)).
      assert (G : (forall k l, In (k, l) (a_locks ac) -> lock_at (apply_batch s b) k = Some l) /\
                  (forall k, ~ In k (map fst (a_locks ac)) -> lock_at (apply_batch s b) k = lock_at s k)).
      { split.
        - intros k l IN. destruct (batch_lock b s k H) as [(l' & Q & G)|[(Q & G)|(Q1 & Q2 & G)]].
          + apply in_prewrite_batch in Q. destruct Q as [(? & ? & _ & Q)|(k' & l'' & Y & Q)]; [discriminate|].
            inversion Q; subst k' l''. rewrite G. f_equal.
            clear - A4 Y IN. induction (a_locks ac) as [|[k0 l0] xs IH]; [destruct IN|].
            simpl in A4. inversion A4; subst. destruct IN as [IN|IN], Y as [Y|Y].
            * congruence.
            * inversion IN; subst. exfalso. apply H1. apply in_map_iff. exists (k, l'). auto.
            * inversion Y; subst. exfalso. apply H1. apply in_map_iff. exists (k, l). auto.
            * auto.
          + apply in_prewrite_batch in Q. destruct Q as [(? & ? & _ & Q)|(? & ? & _ & Q)]; discriminate.
          + exfalso. apply (Q1 l). apply in_prewrite_batch. right; eauto.
        - intros k N. destruct (batch_lock b s k H) as [(l' & Q & G)|[(Q & G)|(Q1 & Q2 & G)]]; auto;
            apply in_prewrite_batch in Q; destruct Q as [(? & ? & _ & Q)|(k' & l'' & Y & Q)]; try discriminate.
          inversion Q; subst. exfalso. apply N. apply in_map_iff. exists (k', l''). auto. }
      destruct b; exact G. }
    exists (a_locks ac). cbv zeta. destruct (EB _ eq_refl) as (EB1 & EB2). split; [|split; [auto|split; [|split]]].
    + intros k l Q. destruct (ao_locks _ _ _ S _ _ Q) as (Q1 & Q2 & Q3 & Q4 & Q5 & Q6).
      split; [auto|split; [auto|split; [apply (A3 k l); auto|split; [auto|split; [auto|apply A5; auto]]]]].
    + intros m IN NC. destruct (prewrite_loop_done _ _ _ _ H P _ _ _ _ L NN) as (_ & _ & D).
      destruct (D m IN NC) as [|[(l & Q)|(v & l & b & Q)]]; auto.
      * left. apply in_map_iff. exists (m_key m, l). auto.
      * rewrite A1 in Q. destruct Q.
    + intros Q. destruct (a_async ac) eqn:AS; [|lia].
      destruct (A6 eq_refl) as (S1 & S2 & S3 & S4 & S5 & S6). split; [auto|split; [|auto]].
      intros k l Y. destruct (S3 _ _ Y). split; [auto|tauto].
    + intros Q. destruct (a_async ac) eqn:AS.
      * destruct (A6 eq_refl) as (S1 & S2 & S3 & S4 & S5 & [S6|S6]); [auto|lia].
      * destruct (A7 eq_refl) as [|[|]]; auto.
  - left. ok_reply X. split; auto.
    assert (C : exists m, In m (pw_muts p) /\ committed s (m_key m) (pw_start p) ct).
    { clear -H L P. revert L. generalize a0. generalize 0 at 1. induction (pw_muts p) as [|m ms IH]; intros i a1; cbn [prewrite_loop].
      - intros X. apply Ok_inj in X. discriminate.
      - assert (CC : forall ct, check_committed s (pw_start p) (m_key m) = Some ct -> exists m0, In m0 (m :: ms) /\ committed s (m_key m0) (pw_start p) ct).
        { intros ct0 E. apply check_committed_some in E; auto. exists m. simpl. split; [auto|apply E]. }
        assert (CONT : forall i a1, prewrite_loop c s mx p i ms a1 = Ok (PwCommitted ct ac) -> exists m0, In m0 (m :: ms) /\ committed s (m_key m0) (pw_start p) ct).
        { intros i' a1' Q. destruct (IH _ _ Q) as (m0 & A & B). exists m0. simpl; auto. }
        destruct (prewrite_check_lock _ _ _ _ _ _) as [rep| |ct'] eqn:PL; [|apply CONT|].
        + destruct (get_rollback _ _ _) as [[|]|]; cbn [obind]; [intros X; apply Ok_inj in X; discriminate| |discriminate].
          destruct (_ && _).
          { destruct (check_committed _ _ _) eqn:Q; intros X; apply Ok_inj in X; inversion X; subst. apply CC; auto. }
          destruct (_ && _); [intros X; apply Ok_inj in X; discriminate|].
          destruct (_ && _); [intros X; apply Ok_inj in X; discriminate|].
          destruct rep; [apply CONT|].
          destruct (gen_prewrite _ _ _ _ _ _ _ _ _ _) as [e|a2] eqn:G; [intros X; apply Ok_inj in X; discriminate|apply CONT].
        + intros X. apply Ok_inj in X. inversion X; subst. apply CC.
          eapply check_lock_committed; exact PL. }
    destruct C as (m & A & B). exists m, ct. split; [auto|split; [auto|]]. cbn [r_minc]. destruct (a_async ac); auto.
  - ok_reply X. destruct SU; discriminate.
Qed.

Lemma prewrite_no_1pc c s mx p a bs : store_ok s -> handle c s mx (RPrewrite p) = Ok (a, bs) -> succeeded a ->
  pw_try1 p = false -> bs <> [] -> r_1pc a = 0.
Proof.
  intros H X SU T N.
  destruct (prewrite_cases _ _ _ _ _ _ H X SU) as (P & [(-> & C)|(ac & A & NN & L & [(T1 & R & ->)|(T1 & R & ->)])]); [congruence| |auto].
  assert (Y := prewrite_loop_try _ _ _ _ _ _ _ _ L T). congruence.
Qed.

(** * The check of secondary locks *)
Lemma secondary_loop_spec s st : store_ok s -> 0 < st -> forall keys acc a bs, secondary_loop s st keys acc = Ok (a, bs) ->
  (forall l, In l acc -> lock_at s (l_key l) = Some l /\ l_ts l = st /\ is_write (l_type l)) ->
  (forall l, In l (r_locks a) -> lock_at s (l_key l) = Some l /\ l_ts l = st /\ is_write (l_type l)) /\
  ((exists k l, In k keys /\ r_res a = [TLocked l] /\ bs = []) \/
   (exists k, In k keys /\ ~ holds s k st /\ ~ rolled_back s k st /\ (forall ct, ct <= kMaxVer -> ~ committed s k st ct) /\
      r_res a = [TNotFound st k] /\ bs = mark_rollback st k) \/
   (exists k, In k keys /\ r_res a = [] /\ r_commit a = 0 /\ rolled_back s k st /\ bs = []) \/
   (exists k, In k keys /\ r_res a = [] /\ 0 < r_commit a /\ committed s k st (r_commit a) /\ bs = []) \/
   (r_res a = [] /\ r_commit a = 0 /\ bs = [] /\ length (r_locks a) = (length acc + length keys)%nat)).
Proof.
  intros H P. induction keys as [|k keys IH]; intros acc a bs X A; cbn [secondary_loop] in X.
  - ok_reply X. cbn [sec_resp r_locks r_res r_commit]. split; auto. right; right; right; right.
    split; [auto|split; [auto|split; [auto|simpl; lia]]].
  - destruct (l_ts (get_lock s k) =? st) eqn:E.
    + apply Z.eqb_eq in E.
      destruct (get_lock_spec s k H) as [(l & G1 & G2 & G3 & G4)|(G1 & G2)]; rewrite G2 in *.
      2:{ cbn [l_ts no_lock] in E. lia. }
      destruct (writable_type (l_type l)) eqn:WT; cbn [negb] in X.
      * assert (LK : l_key l = k) by (destruct G4 as (Q & _); auto).
        destruct (IH _ _ _ X) as (I1 & I2).
        { intros l0. rewrite in_app_iff. intros [Q|[<-|[]]]; auto. rewrite LK. split; [auto|split; [auto|]].
          apply (writable_iff k l); auto. }
        split; auto. rewrite app_length in I2. cbn [length] in *.
        destruct I2 as [(k0 & l0 & Q1 & Q2)|[(k0 & Q1 & Q2)|[(k0 & Q1 & Q2)|[(k0 & Q1 & Q2)|(Q1 & Q2 & Q3 & Q4)]]]].
        -- left. exists k0, l0. simpl; auto.
        -- right; left. exists k0. simpl; auto.
        -- right; right; left. exists k0. simpl; auto.
        -- right; right; right; left. exists k0. simpl; auto.
        -- right; right; right; right. split; [auto|split; [auto|split; [auto|lia]]].
      * ok_reply X. cbn [sec_resp r_locks r_res r_commit]. split; auto. left. exists k; eexists. split; [simpl; auto|split; reflexivity].
    + assert (NH : ~ holds s k st).
      { apply Z.eqb_neq in E. intros (l & L1 & L2). apply E.
        destruct (get_lock_spec s k H) as [(l0 & G1 & G2 & G3 & G4)|(G1 & G2)]; rewrite G2; congruence. }
      destruct (get_rollback_ok s st k H) as (b & B & RB). rewrite B in X. cbn [obind] in X. destruct b.
      { ok_reply X. cbn [sec_resp r_locks r_res r_commit]. split; auto. right; right; left. exists k.
        split; [simpl; auto|split; [auto|split; [auto|split; [apply RB; auto|auto]]]]. }
      assert (NR : ~ rolled_back s k st) by (intros Q; apply RB in Q; discriminate).
      destruct (get_write_info s st kMaxVer st k false true true) as [[t w]|] eqn:G; cbn [found_ts] in X.
      * apply gwi_some in G; auto. destruct G as (G1 & (G2 & G3 & G4) & _).
        destruct (t =? 0) eqn:E0; [apply Z.eqb_eq in E0; lia|]. ok_reply X.
        cbn [sec_resp r_locks r_res r_commit]. split; auto. right; right; right; left. exists k.
        split; [simpl; auto|split; [auto|split; [lia|split; [|auto]]]]. exists w.
        split; [auto|split; [lia|]]. destruct G4 as [[_ G4]|[[G4 _]|[G4 _]]]; congruence.
      * cbn [Z.eqb] in X. ok_reply X. cbn [sec_resp r_locks r_res r_commit]. split; auto. right; left. exists k.
        split; [simpl; auto|split; [auto|split; [auto|split; [|auto]]]].
        intros ct L (w & W1 & W2 & W3). apply (gwi_none _ _ _ _ _ _ _ _ G _ _ W1).
        destruct (ok_write _ H _ _ _ W1) as (_ & [[Q _]|[Q1 Q2]]); [congruence|].
        split; [lia|split; [auto|]]. destruct Q1; auto.
Qed.

Lemma handle_secondary c s mx st keys a bs : store_ok s -> handle c s mx (RCheckSecondary st keys) = Ok (a, bs) ->
  (r_err a <> None /\ bs = []) \/
  (0 < st /\ r_err a = None /\
   (forall l, In l (r_locks a) -> lock_at s (l_key l) = Some l /\ l_ts l = st /\ is_write (l_type l)) /\
   ((exists k l, In k keys /\ r_res a = [TLocked l] /\ bs = []) \/
    (exists k, In k keys /\ ~ holds s k st /\ ~ rolled_back s k st /\ (forall ct, ct <= kMaxVer -> ~ committed s k st ct) /\
       r_res a = [TNotFound st k] /\ bs = mark_rollback st k) \/
    (exists k, In k keys /\ r_res a = [] /\ r_commit a = 0 /\ rolled_back s k st /\ bs = []) \/
    (exists k, In k keys /\ r_res a = [] /\ 0 < r_commit a /\ committed s k st (r_commit a) /\ bs = []) \/
    (r_res a = [] /\ r_commit a = 0 /\ bs = [] /\ length (r_locks a) = length keys))).
Proof.
  intros H X. unfold handle in X. destruct (validate _) eqn:V; [ok_reply X; left; split; [discriminate|auto]|].
  destruct (existsb _ _) eqn:NEG; [discriminate|].
  assert (P : 0 < st).
  { simpl in V. destruct (_ || _) eqn:Q in V; [discriminate|]. rewrite !orb_false_iff, !Z.eqb_neq in Q.
    simpl in NEG. rewrite orb_false_r, Z.ltb_ge in NEG. lia. }
  unfold check_secondary in X. destruct (_ <? _) in X; [ok_reply X; left; split; [discriminate|auto]|].
  right. split; auto.
  assert (ER : r_err a = None).
  { clear -X. revert X. generalize (@nil lock). induction keys as [|k keys IH]; intros acc; cbn [secondary_loop].
    - intros X. ok_reply X. auto.
    - destruct (_ =? _); [destruct (negb _); [intros X; ok_reply X; auto|apply IH]|].
      destruct (get_rollback _ _ _) as [[|]|]; cbn [obind]; [intros X; ok_reply X; auto| |discriminate].
      destruct (_ =? 0); intros X; ok_reply X; auto. }
  split; auto. destruct (secondary_loop_spec s st H P _ _ _ _ X) as (A & B); [intros l []|]. split; auto.
Qed.

Lemma check_status_locked s k lk cl cu fs rm a bs l : store_ok s -> 0 < lk ->
  check_status s k lk cl cu fs rm = Ok (a, bs) -> r_res a = [TLocked l] ->
  lock_at s k = Some l /\ l_ts l = lk.
Proof.
  intros H P X R. unfold check_status in X.
  destruct (l_ts (get_lock s k) =? lk) eqn:E.
  - apply Z.eqb_eq in E.
    destruct (get_lock_spec s k H) as [(l0 & G1 & G2 & G3 & G4)|(G1 & G2)]; rewrite G2 in *.
    2:{ cbn [l_ts no_lock] in E. lia. }
    assert (Q : l0 = l -> lock_at s k = Some l /\ l_ts l = lk) by (intros ->; auto).
    destruct (negb (beqb _ _)); [ok_reply X; discriminate|].
    destruct (_ && _); [ok_reply X; inversion R; auto|].
    destruct (_ && _); [ok_reply X; inversion R; auto|].
    destruct (_ <=? _); [destruct (_ <? _)|]; ok_reply X; cbn [status_resp r_res] in R;
      destruct (op_eqb _ _); inversion R; auto.
  - destruct (get_rollback _ _ _) as [[|]|]; cbn [obind] in X; [ok_reply X; discriminate| |discriminate].
    destruct (_ =? 0) in X; [destruct rm|]; ok_reply X; discriminate.
Qed.
