(** Proofs of the transaction theorems, part 6: prewrite sent again. *)
From Coq Require Import ZArith List Lia Bool.
From Verif Require Import Bytes SMap Outcome TxnModel TxnSpec TxnBase TxnMoves TxnHandlers TxnHandlers2 TxnHandlers3 TxnInv TxnRun TxnProofs TxnProofs2 TxnProofs3 TxnProofs4 TxnProofs5.
Import ListNotations.
Open Scope Z_scope.

(** * At any later time, for a transaction that does not use the pessimistic check *)
Definition quiet (a : pw_acc) : Prop := a_locks a = [] /\ a_1pc a = [] /\ a_data a = [].

Lemma noted_dec a : noted a \/ ~ noted a.
Proof. unfold noted. destruct (a_res a), (a_exist a); intuition congruence. Qed.

Lemma commit_after s k st ct : store_ok s -> committed s k st ct -> st < ct.
Proof.
  intros H (w & A & B & C). destruct (ok_write _ H _ _ _ A) as (_ & [[Q _]|[_ Q]]); [congruence|lia].
Qed.

Lemma prewrite_loop_quiet c s mx p : store_ok s -> 0 < pw_start p -> (forall i, ~ pess_checked p i) ->
  (forall k ct, committed s k (pw_start p) ct -> ct <= kMaxVer) -> forall ms i a a',
  (forall m, In m ms -> m_op m <> OpCheckNotExists -> settled s (m_key m) (pw_start p)) ->
  quiet a -> prewrite_loop c s mx p i ms a = Ok (PwEnd a') -> quiet a'.
Proof.
  intros H SP NP MX. induction ms as [|m ms IH]; intros i a a' ST QA X; cbn [prewrite_loop] in X.
  - apply Ok_inj in X. inversion X; subst; auto.
  - assert (ST' : forall m, In m ms -> m_op m <> OpCheckNotExists -> settled s (m_key m) (pw_start p)) by (intros; apply ST; simpl; auto).
    set (k := m_key m) in *. set (st := pw_start p) in *.
    assert (NPi : (nth (Z.to_nat i) (pw_checks p) 0 =? 1) = false) by (apply Z.eqb_neq; apply (NP (Z.to_nat i))).
    rewrite NPi in X.
    destruct (prewrite_check_lock s st k (get_lock s k) false (zassoc i (pw_futs p))) as [rep| |ct] eqn:PL;
      [|exact (IH _ _ _ ST' (QA : quiet (add_res a _)) X)|apply Ok_inj in X; discriminate].
    destruct (get_rollback_ok s st k H) as (b & Q & RB). rewrite Q in X. cbn [obind] in X.
    destruct b; [apply Ok_inj in X; inversion X; subst; auto|].
    rewrite andb_true_r in X.
    destruct (Z.leb_spec st (found_ts (get_write_info s 0 kMaxVer 0 k false true true))) as [F|F].
    { destruct (check_committed s st k) as [ct|] eqn:E; apply Ok_inj in X; inversion X; subst. auto. }
    destruct (_ && _); [apply Ok_inj in X; inversion X; subst; auto|].
    rewrite andb_false_r in X.
    destruct rep.
    { refine (IH _ _ _ ST' _ X). destruct (_ && _); exact QA. }
    destruct (op_eqb (m_op m) OpCheckNotExists) eqn:O.
    + destruct (gen_prewrite _ _ _ _ _ _ _ _ _ _) as [e|a2] eqn:G; [apply Ok_inj in X; discriminate|].
      refine (IH _ _ _ ST' _ X). apply op_eqb_eq in O. unfold gen_prewrite in G. rewrite O in G. inversion G; subst.
      clear X G. match goal with |- quiet (if ?b then _ else _) => destruct b end;
        match goal with |- quiet (set_final (if ?b then _ else _) _) => destruct b end; exact QA.
    + exfalso. apply op_eqb_neq in O. destruct (ST m (or_introl eq_refl) O) as [(l & L1 & L2 & L3)|[(ct & C)|R]].
      * destruct (get_lock_spec s k H) as [(l' & L1' & L2' & L3' & L4')|(L1' & _)]; [|fold k in L1; congruence].
        fold k in L1. unfold prewrite_check_lock in PL. rewrite L2' in PL. clear L2'.
        assert (l' = l) by congruence. subst l'.
        cbn [negb] in PL. rewrite L3' in PL. assert (E : op_eqb (l_type l) OpLock = false) by (apply op_eqb_neq; destruct L3; congruence).
        rewrite E in PL. fold st in L2. rewrite L2, Z.eqb_refl in PL. discriminate.
      * assert (MC := MX _ _ C). assert (CA := commit_after _ _ _ _ H C). destruct C as (w & C1 & C2 & C3).
        assert (Y := found_ts_le s 0 0 k ct w H ltac:(lia) C1 C3 ltac:(lia) (or_introl (Z.le_refl 0))). lia.
      * apply RB in R. discriminate.
Qed.

Lemma prewrite_loop_committed c s mx p : store_ok s -> 0 < pw_start p -> (forall i, ~ pess_checked p i) ->
  (forall k ct, committed s k (pw_start p) ct -> ct <= kMaxVer) -> forall ms i a a',
  (exists m ct, In m ms /\ committed s (m_key m) (pw_start p) ct) ->
  prewrite_loop c s mx p i ms a = Ok (PwEnd a') -> noted a'.
Proof.
  intros H SP NP MX. induction ms as [|m ms IH]; intros i a a' (m0 & ct0 & IN & C0) X; [destruct IN|].
  destruct (noted_dec a') as [N|N]; auto. exfalso.
  assert (X0 := X). assert (DONE := prewrite_loop_done c s mx p H SP). cbn [prewrite_loop] in X.
  assert (NPi : (nth (Z.to_nat i) (pw_checks p) 0 =? 1) = false) by (apply Z.eqb_neq; apply (NP (Z.to_nat i))).
  rewrite NPi in X.
  destruct (prewrite_check_lock _ _ _ _ _ _) as [rep| |ct] eqn:PL; [| |apply Ok_inj in X; discriminate].
  2:{ destruct (DONE _ _ _ _ X N) as (B1 & _). apply B1, noted_res. }
  destruct (get_rollback_ok s (pw_start p) (m_key m) H) as (b & Q & RB). rewrite Q in X. cbn [obind] in X.
  destruct b; [apply Ok_inj in X; inversion X; subst; apply N, noted_res|].
  rewrite andb_true_r in X.
  destruct (Z.leb_spec (pw_start p) (found_ts (get_write_info s 0 kMaxVer 0 (m_key m) false true true))) as [F|F].
  { destruct (check_committed _ _ _); apply Ok_inj in X; inversion X; subst. apply N, noted_res. }
  assert (IN' : In m0 ms).
  { destruct IN as [->|]; auto. exfalso.
    assert (MC := MX _ _ C0). assert (CA := commit_after _ _ _ _ H C0). destruct C0 as (w & C1 & C2 & C3).
    assert (Y := found_ts_le s 0 0 (m_key m0) ct0 w H ltac:(lia) C1 C3 ltac:(lia) (or_introl (Z.le_refl 0))). lia. }
  destruct (_ && _); [apply Ok_inj in X; inversion X; subst; apply N, noted_exist|].
  rewrite andb_false_r in X.
  destruct rep; [apply N; eapply IH; eauto|].
  destruct (gen_prewrite _ _ _ _ _ _ _ _ _ _) as [e|a2] eqn:G; [apply Ok_inj in X; discriminate|].
  apply N; eapply IH; eauto.
Qed.

(** C11 for prewrite: nothing is written when the request arrives again, however late *)
Lemma prewrite_quiet c s mx p a bs : store_ok s -> (forall i, ~ pess_checked p i) ->
  (forall k ct, committed s k (pw_start p) ct -> ct <= kMaxVer) ->
  (forall m, In m (pw_muts p) -> m_op m <> OpCheckNotExists -> settled s (m_key m) (pw_start p)) \/
  (exists k ct, In k (keys_of (RPrewrite p)) /\ committed s k (pw_start p) ct) ->
  handle c s mx (RPrewrite p) = Ok (a, bs) -> bs = [].
Proof.
  intros H NP MX ST X. unfold handle in X. destruct (validate (RPrewrite p)) eqn:V; [ok_reply X; auto|].
  destruct (existsb _ _) eqn:NEG; [discriminate|].
  assert (SP : 0 < pw_start p).
  { apply validate_prewrite in V. simpl in NEG. rewrite orb_false_r, Z.ltb_ge in NEG. lia. }
  unfold prewrite in X. destruct (_ <? _); [ok_reply X; auto|].
  destruct (_ && _); [ok_reply X; auto|].
  destruct (prewrite_loop _ _ _ _ _ _ _) as [o|] eqn:L; cbn [obind] in X; [|discriminate].
  destruct o as [a'|ct a'|e]; [|ok_reply X; auto|ok_reply X; auto].
  assert (G : noted a' \/ quiet a').
  { destruct ST as [ST|(k & ct & IN & C)].
    - right. eapply prewrite_loop_quiet; eauto. repeat split.
    - left. simpl in IN. apply in_map_iff in IN. destruct IN as (m & <- & IN). eapply prewrite_loop_committed; eauto. }
  destruct G as [[N|N]|(Q1 & Q2 & Q3)].
  - destruct (is_nil (a_res a')) eqn:E1; simpl in X; [apply is_nil_iff in E1; contradiction|]. ok_reply X; auto.
  - destruct (is_nil (a_res a')) eqn:E1; simpl in X; [|ok_reply X; auto].
    destruct (is_nil (a_exist a')) eqn:E2; simpl in X; [apply is_nil_iff in E2; contradiction|]. ok_reply X; auto.
  - rewrite Q1, Q2, Q3 in X.
    destruct (negb (is_nil (a_res a'))); [ok_reply X; auto|]. destruct (negb (is_nil (a_exist a'))); [ok_reply X; auto|].
    destruct (a_try1 a'); ok_reply X; auto.
Qed.

Lemma prewrite_retry c P g1 g1' es g2 p a bs n a2 bs2 :
  plan_ok P -> reachable c P g1 -> (forall i, ~ pess_checked p i) ->
  serve c g1 (RPrewrite p) = Ok (a, bs) -> succeeded a -> (length bs <= n)%nat ->
  allowed c P g1 (EReq (RPrewrite p) n) -> step c g1 (EReq (RPrewrite p) n) = Ok g1' ->
  run c P g1' es g2 -> (forall q n, In (EReq (RPessLock q) n) es -> pl_start q <> pw_start p) ->
  rg_safe g2 < pw_start p ->
  serve c g2 (RPrewrite p) = Ok (a2, bs2) -> bs2 = [].
Proof.
  intros HP RE NP S SU N AL ST RN NL SF S2.
  assert (RN1 : run c P g1 [EReq (RPrewrite p) n] g1') by (econstructor; eauto; constructor).
  assert (RE1 : reachable c P g1') by (eapply reachable_run; eauto).
  assert (I1 := reachable_inv _ _ _ HP RE). assert (I1' := reachable_inv _ _ _ HP RE1).
  assert (RE2 := reachable_run _ _ _ _ _ RE1 RN). assert (I2 := reachable_inv _ _ _ HP RE2).
  assert (ST1 : rg_store g1' = apply_batches (rg_store g1) bs).
  { cbn [step] in ST. rewrite S in ST. cbn [obind snd] in ST. apply Ok_inj in ST. subst g1'. cbn [rg_store with_store].
    rewrite firstn_all2; auto. }
  unfold serve in S, S2.
  assert (MX : forall k ct, committed (rg_store g2) k (pw_start p) ct -> ct <= kMaxVer).
  { intros k ct C. assert (Q := committed_for _ _ _ _ _ (gi_k _ _ _ _ I2 k) C). destruct HP as (_ & HP & _). apply HP in Q. lia. }
  eapply prewrite_quiet; eauto; [apply I2|].
  destruct (prewrite_effect _ _ _ _ _ _ (gi_ok _ _ _ _ I1) S SU) as [(k & ct & IN & C)|[E|E]].
  - right. exists k, ct. split; auto.
    assert (CA := commit_after _ _ _ _ (gi_ok _ _ _ _ I1) C).
    refine (proj1 (commit_stays c P g1 (EReq (RPrewrite p) n :: es) g2 k _ ct HP RE _ C _)); [econstructor; eauto|lia].
  - left. intros m IN NC. eapply run_settled; eauto. left. rewrite ST1. auto.
  - left. intros m IN NC. eapply run_settled; eauto. right; left. exists (r_1pc a). rewrite ST1. apply E; auto.
Qed.

(** * Immediately after an acknowledged two-phase prewrite *)
Lemma check_lock_go s s' st k prev np f r : prewrite_check_lock s st k prev np f = LkGo r ->
  prewrite_check_lock s' st k prev np f = LkGo r.
Proof.
  unfold prewrite_check_lock. cbv zeta.
  destruct (check_committed s st k), (check_committed s' st k);
    repeat match goal with |- (if ?b then _ else _) = _ -> _ => destruct b | |- match ?z with Some _ => _ | None => _ end = _ -> _ => destruct z end;
    congruence.
Qed.

Lemma check_lock_own s st k np f l : store_ok s -> lock_at s k = Some l -> l_ts l = st -> l_type l = OpPut \/ l_type l = OpDelete ->
  prewrite_check_lock s st k (get_lock s k) np f = LkGo true.
Proof.
  intros H L T W. destruct (get_lock_spec s k H) as [(l' & L1 & L2 & L3 & L4)|(L1 & _)]; [|congruence].
  unfold prewrite_check_lock. rewrite L2. clear L2. assert (l' = l) by congruence. subst l'.
  assert (E : op_eqb (l_type l) OpLock = false) by (apply op_eqb_neq; destruct W; congruence).
  rewrite E, L3, T, Z.eqb_refl. destruct np; auto.
Qed.

Lemma check_lock_free s st k np f : lock_at s k = None -> prewrite_check_lock s st k (get_lock s k) np f = LkGo false.
Proof.
  intros L. unfold get_lock. change (get bcmp (locks s) k) with (lock_at s k). rewrite L.
  unfold prewrite_check_lock. change (has_lock no_lock) with false. destruct np; auto.
Qed.

Lemma prewrite_loop_again c s s' mx mx' p : store_ok s -> store_ok s' -> writes s' = writes s -> 0 < pw_start p -> forall ms i a a',
  (forall m, In m ms -> prewritten s' (m_key m) (pw_start p) \/ (m_op m = OpCheckNotExists /\ lock_at s' (m_key m) = None)) ->
  prewrite_loop c s mx p i ms a = Ok (PwEnd a') -> ~ noted a' -> forall a2, ~ noted a2 -> quiet a2 ->
  exists a2', prewrite_loop c s' mx' p i ms a2 = Ok (PwEnd a2') /\ ~ noted a2' /\ quiet a2' /\ (a_try1 a2 = false -> a_try1 a2' = false) /\
    ((exists m, In m ms /\ m_op m <> OpCheckNotExists) -> a_try1 a2' = false).
Proof.
  intros H H' EW SP. induction ms as [|m ms IH]; intros i a a' LK X N a2 N2 Q2.
  - exists a2. split; [auto|split; [auto|split; [auto|split; [auto|]]]]. intros (m & [] & _).
  - assert (LK' : forall m, In m ms -> prewritten s' (m_key m) (pw_start p) \/ (m_op m = OpCheckNotExists /\ lock_at s' (m_key m) = None))
      by (intros; apply LK; simpl; auto).
    assert (DONE := prewrite_loop_done c s mx p H SP ms).
    cbn [prewrite_loop] in X. cbn [prewrite_loop].
    destruct (prewrite_check_lock s _ _ _ _ _) as [rep| |ct] eqn:PL; [| |apply Ok_inj in X; discriminate].
    2:{ destruct (DONE _ _ _ X N) as (B1 & _). exfalso. apply B1, noted_res. }
    assert (ER : get_rollback s' (pw_start p) (m_key m) = get_rollback s (pw_start p) (m_key m)) by (unfold get_rollback; rewrite EW; auto).
    assert (EG : get_write_info s' 0 kMaxVer 0 (m_key m) false true true = get_write_info s 0 kMaxVer 0 (m_key m) false true true)
      by (unfold get_write_info; rewrite EW; auto).
    destruct (get_rollback_ok s (pw_start p) (m_key m) H) as (b & Q & RB). rewrite ER, EG, Q. rewrite Q in X. cbn [obind] in X. cbn [obind].
    assert (GO : exists rep', prewrite_check_lock s' (pw_start p) (m_key m) (get_lock s' (m_key m))
        (nth (Z.to_nat i) (pw_checks p) 0 =? 1) (zassoc i (pw_futs p)) = LkGo rep' /\ (rep' = true \/ m_op m = OpCheckNotExists)).
    { destruct (LK m (or_introl eq_refl)) as [(l & L1 & L2 & L3)|(O & L)].
      - exists true. split; auto. eapply check_lock_own; eauto.
      - exists false. split; auto. apply check_lock_free; auto. }
    destruct GO as (rep' & -> & REP).
    destruct b; [apply Ok_inj in X; inversion X; subst; exfalso; apply N, noted_res|].
    destruct ((pw_start p <=? _) && _).
    { destruct (check_committed _ _ _); apply Ok_inj in X; inversion X; subst; exfalso; apply N, noted_res. }
    destruct (op_eqb (m_op m) OpPutIfAbsent && _); [apply Ok_inj in X; inversion X; subst; exfalso; apply N, noted_exist|].
    destruct (op_eqb (m_op m) OpCheckNotExists && (nth _ _ _ =? 1)); [apply Ok_inj in X; discriminate|].
    destruct (op_eqb (m_op m) OpCheckNotExists && _).
    { exfalso. destruct rep.
      - destruct (DONE _ _ _ X N) as (B1 & _). apply B1. change (noted (add_exist a (m_key m))). apply noted_exist.
      - destruct (gen_prewrite _ _ _ _ _ _ _ _ _ _) as [e|a3] eqn:G; [apply Ok_inj in X; discriminate|].
        destruct (gen_prewrite_res _ _ _ _ _ _ _ _ _ _ _ G) as [G1 G2]. destruct (DONE _ _ _ X N) as (B1 & _).
        apply B1. unfold noted. rewrite G1, G2. apply noted_exist. }
    assert (NX : exists i1 ax, prewrite_loop c s mx p i1 ms ax = Ok (PwEnd a') /\ i1 = i + 1).
    { destruct rep; [eauto|]. destruct (gen_prewrite _ _ _ _ _ _ _ _ _ _) as [e|a3] eqn:G; [apply Ok_inj in X; discriminate|eauto]. }
    clear X. destruct NX as (i1 & ax & X & ->).
    destruct rep'.
    + destruct (IH _ _ _ LK' X N (no_fast_path a2) N2 Q2) as (a2' & Y1 & Y2 & Y3 & Y4 & Y5).
      exists a2'. split; [auto|split; [auto|split; [auto|split; [|]]]]; intros _; apply Y4; reflexivity.
    + destruct REP as [|O]; [discriminate|]. unfold gen_prewrite. rewrite O.
      match goal with |- context [prewrite_loop c s' mx' p (i + 1) ms ?ay] => set (y := ay) end.
      assert (Ny : ~ noted y) by (unfold y; destruct (_ || _); exact N2).
      assert (Qy : quiet y) by (unfold y; destruct (_ || _); exact Q2).
      destruct (IH _ _ _ LK' X N y Ny Qy) as (a2' & Y1 & Y2 & Y3 & Y4 & Y5).
      exists a2'. split; [auto|split; [auto|split; [auto|split]]].
      * intros T. apply Y4. unfold y. destruct (_ || _); exact T.
      * intros (m' & [<-|IN] & NC); [congruence|]. apply Y5; eauto.
Qed.

Lemma quiet_answer a p : quiet a -> ~ noted a -> 
  (let minc := if a_async a then a_final a else 0 in
   let r := mkResp None (a_res a) (a_exist a) minc 0 0 0 ANone [] [] in
   if negb (is_nil (a_res a)) then reply r
   else if negb (is_nil (a_exist a)) then reply r
   else if a_try1 a then
     Ok (mkResp None [] [] minc (a_final a) 0 0 ANone [] [], one_pc (pw_start p) (a_final a) (a_1pc a) (a_data a))
   else Ok (r, do_prewrite (pw_start p) (a_data a) (a_locks a) (a_1pc a))) =
  Ok (mkResp None [] [] (if a_async a then a_final a else 0) (if a_try1 a then a_final a else 0) 0 0 ANone [] [], []).
Proof.
  intros (Q1 & Q2 & Q3) N. cbv zeta. rewrite Q1, Q2, Q3.
  assert (E : a_res a = [] /\ a_exist a = []).
  { unfold noted in N. destruct (a_res a), (a_exist a); auto; exfalso; apply N; (left; discriminate) || (right; discriminate). }
  destruct E as [-> ->]. simpl. destruct (a_try1 a); auto.
Qed.

Lemma do_prewrite_writes s st d ls e : writes (apply_batches s (do_prewrite st d ls e)) = writes s.
Proof.
  unfold do_prewrite. set (all := ls ++ _).
  assert (W : forall b s, (forall o, In o b -> (exists k t v, o = PutData k t v) \/ exists k l, o = PutLock k l) ->
     writes (apply_batch s b) = writes s).
  { induction b as [|o b IH]; intros s0 A; simpl; auto. rewrite IH by (intros; apply A; simpl; auto).
    destruct (A o (or_introl eq_refl)) as [(k & t & v & ->)|(k & l & ->)]; auto. }
  set (b := map _ d ++ map _ all).
  assert (A : forall o, In o b -> (exists k t v, o = PutData k t v) \/ exists k l, o = PutLock k l).
  { intros o. unfold b. rewrite in_app_iff, !in_map_iff. intros [([k v] & <- & _)|([k l] & <- & _)]; simpl; eauto. }
  assert (G := W b s A). destruct b; auto.
Qed.

Lemma pushed_dec a k : pushed a k \/ ~ pushed a k.
Proof.
  destruct (in_dec bytes_eq_dec k (map fst (a_locks a))) as [I|I].
  { left. left. apply in_map_iff in I. destruct I as ([k' l] & E & I). simpl in E; subst. eauto. }
  destruct (in_dec bytes_eq_dec k (map (fun e : bytes * bytes * lock * bool => fst (fst (fst e))) (a_1pc a))) as [J|J].
  { left. right. apply in_map_iff in J. destruct J as ([[[k' v] l] b] & E & J). simpl in E; subst. eauto. }
  right. intros [(l & Q)|(v & l & b & Q)].
  - apply I. apply in_map_iff. exists (k, l); auto.
  - apply J. apply in_map_iff. exists (k, v, l, b); auto.
Qed.

(** a CheckNotExists that passed found no lock, or the transaction's own *)
Lemma prewrite_loop_cne c s mx p : store_ok s -> 0 < pw_start p -> forall ms i a a',
  prewrite_loop c s mx p i ms a = Ok (PwEnd a') -> ~ noted a' ->
  forall m, In m ms -> m_op m = OpCheckNotExists -> lock_at s (m_key m) = None \/ prewritten s (m_key m) (pw_start p).
Proof.
  intros H SP. induction ms as [|m ms IH]; intros i a a' X N m0 IN O; [destruct IN|].
  assert (DONE := prewrite_loop_done c s mx p H SP ms). cbn [prewrite_loop] in X.
  destruct (prewrite_check_lock s _ _ _ _ _) as [rep| |ct] eqn:PL; [| |apply Ok_inj in X; discriminate].
  2:{ destruct (DONE _ _ _ X N) as (B1 & _). exfalso. apply B1, noted_res. }
  destruct (get_rollback_ok s (pw_start p) (m_key m) H) as (b & Q & RB). rewrite Q in X. cbn [obind] in X.
  destruct b; [apply Ok_inj in X; inversion X; subst; exfalso; apply N, noted_res|].
  destruct ((pw_start p <=? _) && _).
  { destruct (check_committed _ _ _); apply Ok_inj in X; inversion X; subst; exfalso; apply N, noted_res. }
  destruct (op_eqb (m_op m) OpPutIfAbsent && _); [apply Ok_inj in X; inversion X; subst; exfalso; apply N, noted_exist|].
  destruct (op_eqb (m_op m) OpCheckNotExists && (nth _ _ _ =? 1)) eqn:NP; [apply Ok_inj in X; discriminate|].
  assert (NX : exists i1 ax, prewrite_loop c s mx p i1 ms ax = Ok (PwEnd a')).
  { destruct rep; [eauto|]. destruct (gen_prewrite _ _ _ _ _ _ _ _ _ _) as [e|a3] eqn:G; [apply Ok_inj in X; discriminate|eauto]. }
  destruct IN as [<-|IN]; [|destruct NX as (i1 & ax & NX); eapply IH; eauto].
  apply op_eqb_eq in O. rewrite O in NP. cbn [andb] in NP. rewrite NP in PL.
  destruct (get_lock_spec s (m_key m) H) as [(l & L1 & L2 & L3 & L4)|(L1 & L2)]; [right|left; auto].
  unfold prewrite_check_lock in PL. rewrite L2 in PL. clear L2. rewrite L3 in PL. cbn [negb] in PL.
  destruct (op_eqb (l_type l) OpLock) eqn:E; [destruct (check_committed _ _ _); discriminate|].
  destruct (l_ts l =? pw_start p) eqn:E1; [|destruct (check_committed _ _ _); discriminate].
  apply Z.eqb_eq in E1. apply op_eqb_neq in E. destruct L4 as (_ & _ & _ & T & _). exists l. unfold is_write in T. tauto.
Qed.

Lemma two_phase_twice c s mx p a bs : store_ok s -> handle c s mx (RPrewrite p) = Ok (a, bs) -> succeeded a -> r_1pc a = 0 ->
  exists a2, handle c (apply_batches s bs) mx (RPrewrite p) = Ok (a2, []) /\ succeeded a2.
Proof.
  intros H X SU R1. assert (X0 := X).
  destruct (prewrite_cases _ _ _ _ _ _ H X SU) as (P & [(-> & C)|(ac & A & N & L & [(T & R & EB)|(T & R & EB)])]).
  - exists a. split; auto.
  - (* one-phase with final 0: nothing was written *)
    assert (bs = []).
    { destruct A as [A1 A2 A3 A4 A5]. assert (E1 := A4 T). assert (E2 : a_1pc ac = []).
      { destruct (a_1pc ac) eqn:E; auto. exfalso. assert (Q : pw_start p < a_final ac) by (apply A5; auto; discriminate). lia. }
      assert (E3 : a_data ac = []).
      { destruct (a_data ac) as [|[k v] d] eqn:E; auto. destruct (A3 k v) as (_ & [(l & Q)|(v' & l & b & Q)]).
        - simpl; auto.
        - rewrite E1 in Q; destruct Q.
        - rewrite E2 in Q; destruct Q. }
      subst bs. rewrite E2, E3. auto. }
    exists a. rewrite H0 in *. auto.
  - set (s' := apply_batches s bs).
    assert (H' : store_ok s').
    { unfold s'. assert (M := handle_moves _ _ _ _ _ _ H X0). apply moves_wop_ok in M. rewrite EB in *.
      unfold do_prewrite in *. set (b := map _ (a_data ac) ++ map _ _) in *. destruct b as [|o b']; [exact H|].
      inversion M; subst. apply apply_batch_ok; auto. }
    assert (EW : writes s' = writes s) by (unfold s'; rewrite EB; apply do_prewrite_writes).
    destruct (prewrite_loop_done _ _ _ _ H P _ _ _ _ L N) as (_ & _ & D).
    assert (LK : forall m, In m (pw_muts p) -> prewritten s' (m_key m) (pw_start p) \/ (m_op m = OpCheckNotExists /\ lock_at s' (m_key m) = None)).
    { intros m IN. assert (DP := do_prewrite_effect s p ac (m_key m) H A). rewrite <- EB in DP. fold s' in DP.
      destruct (op_eqb (m_op m) OpCheckNotExists) eqn:O.
      - apply op_eqb_eq in O.
        destruct (pushed_dec ac (m_key m)) as [PU|NPU]; [left; apply DP; auto|].
        assert (EL : lock_at s' (m_key m) = lock_at s (m_key m)).
        { unfold s'. rewrite EB. unfold do_prewrite. set (all := a_locks ac ++ _). set (b := map _ (a_data ac) ++ map _ all).
          assert (G : lock_at (apply_batch s b) (m_key m) = lock_at s (m_key m)).
          { destruct (batch_lock b s (m_key m) H) as [(l & Q & G)|[(Q & G)|(Q1 & Q2 & G)]]; auto; exfalso;
              apply in_prewrite_batch in Q; destruct Q as [(? & ? & _ & Q)|(k' & l' & XI & Q)]; try discriminate.
            inversion Q; subst k' l'. apply NPU. unfold all in XI. rewrite in_app_iff, in_map_iff in XI.
            destruct XI as [XI|([[[k' v] l'] bb] & Y & XI)]; [left; eauto|right]. inversion Y; subst. eauto. }
          destruct b; exact G. }
        rewrite EL. destruct (lock_at s (m_key m)) as [l|] eqn:EL0; [left|right; auto].
        destruct (prewrite_loop_cne _ _ _ _ H P _ _ _ _ L N m IN O) as [Q|Q]; [congruence|].
        destruct Q as (l' & Q). exists l'. rewrite EL. exact (conj (eq_trans (eq_sym EL0) (proj1 Q)) (proj2 Q)).
      - apply op_eqb_neq in O. left. apply DP. destruct (D m IN O); auto. }
    set (a0 := mkAcc [] [] [] [] [] (pw_try1 p) (negb (is_nil (pw_secs p))) 0) in *.
    destruct (prewrite_loop_again c s s' mx mx p H H' EW P _ _ _ _ LK L N a0) as (a2' & Y1 & Y2 & Y3 & _).
    { intros [Q|Q]; simpl in Q; congruence. }
    { repeat split. }
    unfold handle. unfold handle in X0. destruct (validate _); [ok_reply X0; destruct SU; discriminate|].
    destruct (existsb _ _); [discriminate|]. unfold prewrite in *.
    destruct (_ <? _); [ok_reply X0; destruct SU; discriminate|]. destruct (_ && _); [ok_reply X0; destruct SU; discriminate|].
    fold a0. rewrite Y1. cbn [obind]. rewrite quiet_answer by auto.
    eexists. split; [reflexivity|]. repeat split; auto.
Qed.

(** * Immediately after an acknowledged one-phase prewrite *)
Lemma gwi_ext s s' k min max st rb dl pt : store_ok s -> store_ok s' -> (forall t, write_at s' k t = write_at s k t) ->
  get_write_info s' min max st k rb dl pt = get_write_info s min max st k rb dl pt.
Proof.
  intros H H' E.
  destruct (get_write_info s' _ _ _ _ _ _ _) as [[t' w']|] eqn:G'; destruct (get_write_info s _ _ _ _ _ _ _) as [[t w]|] eqn:G; auto.
  - apply gwi_some in G; auto. apply gwi_some in G'; auto. destruct G as (A & B & C), G' as (A' & B' & C').
    rewrite E in A'. assert (t' <= t) by (eapply C; eauto). rewrite <- E in A. assert (t <= t') by (eapply C'; eauto).
    assert (t = t') by lia. subst t'. rewrite E in A. congruence.
  - exfalso. apply gwi_some in G'; auto. destruct G' as (A & B & _). rewrite E in A. exact (gwi_none _ _ _ _ _ _ _ _ G _ _ A B).
  - exfalso. apply gwi_some in G; auto. destruct G as (A & B & _). rewrite <- E in A. exact (gwi_none _ _ _ _ _ _ _ _ G' _ _ A B).
Qed.

Lemma prewrite_loop_1pc_again c s s' mx p F : store_ok s -> store_ok s' -> 0 < pw_start p -> (forall i, ~ pess_checked p i) ->
  (forall k ct, committed s k (pw_start p) ct -> ct <= kMaxVer) ->
  pw_start p < F <= kMaxVer -> forall (pu : bytes -> Prop), (forall k, pu k \/ ~ pu k) ->
  (forall k, pu k -> committed s' k (pw_start p) F /\ lock_at s' k = None /\ commits_before s k (pw_start p) /\
     forall t, t <> F -> write_at s' k t = write_at s k t) ->
  (forall k, ~ pu k -> lock_at s' k = lock_at s k /\ forall t, write_at s' k t = write_at s k t) ->
  forall ms i a a', (forall m, In m ms -> m_op m <> OpCheckNotExists -> pu (m_key m)) ->
  prewrite_loop c s mx p i ms a = Ok (PwEnd a') -> ~ noted a' -> a_try1 a' = true ->
  ((forall m, In m ms -> ~ pu (m_key m)) /\ prewrite_loop c s' mx p i ms a = Ok (PwEnd a')) \/
  exists a2, prewrite_loop c s' mx p i ms a = Ok (PwCommitted F a2) /\ ~ noted a2 /\ a_try1 a2 = true.
Proof.
  intros H H' SP NP MX FB pu PD PY PN. induction ms as [|m ms IH]; intros i a a' PM X N T.
  - left. split; [intros m []|auto].
  - assert (PM' : forall m, In m ms -> m_op m <> OpCheckNotExists -> pu (m_key m)) by (intros; apply PM; simpl; auto).
    assert (DONE := prewrite_loop_done c s mx p H SP ms).
    assert (NPi : (nth (Z.to_nat i) (pw_checks p) 0 =? 1) = false) by (apply Z.eqb_neq; apply (NP (Z.to_nat i))).
    assert (X0 := X). cbn [prewrite_loop] in X. cbn [prewrite_loop]. rewrite NPi in *.
    destruct (prewrite_check_lock s _ _ _ _ _) as [rep| |ct] eqn:PL; [| |apply Ok_inj in X; discriminate].
    2:{ destruct (DONE _ _ _ X N) as (B1 & _). exfalso. apply B1, noted_res. }
    destruct (get_rollback_ok s (pw_start p) (m_key m) H) as (b & Q & RB). rewrite Q in X. cbn [obind] in X.
    destruct b; [apply Ok_inj in X; inversion X; subst; exfalso; apply N, noted_res|].
    rewrite andb_true_r in X. 
    destruct (Z.leb_spec (pw_start p) (found_ts (get_write_info s 0 kMaxVer 0 (m_key m) false true true))) as [FD|FD].
    { destruct (check_committed _ _ _); apply Ok_inj in X; inversion X; subst; exfalso; apply N, noted_res. }
    destruct (PD (m_key m)) as [PU|PU].
    + right. destruct (PY _ PU) as (C & L & CB & W).
      rewrite check_lock_free by auto.
      destruct (get_rollback_ok s' (pw_start p) (m_key m) H') as (b' & Q' & RB').
      assert (NR : ~ rolled_back s' (m_key m) (pw_start p)).
      { intros (w & R1 & R2). rewrite W in R1 by lia. assert (rolled_back s (m_key m) (pw_start p)) by (exists w; auto).
        apply RB in H0. discriminate. }
      assert (b' = false) by (destruct b'; auto; exfalso; apply NR, RB'; auto). subst b'. rewrite Q'. cbn [obind].
      assert (FD' : F <= found_ts (get_write_info s' 0 kMaxVer 0 (m_key m) false true true)).
      { destruct C as (w & C1 & C2 & C3). exact (found_ts_le s' 0 0 (m_key m) F w H' ltac:(lia) C1 C3 ltac:(lia) (or_introl (Z.le_refl 0))). }
      destruct (Z.leb_spec (pw_start p) (found_ts (get_write_info s' 0 kMaxVer 0 (m_key m) false true true))) as [_|Y]; [|lia].
      cbn [negb andb].
      destruct (check_committed s' (pw_start p) (m_key m)) as [ct|] eqn:CC.
      * apply check_committed_some in CC; auto. destruct CC as [(w & C1 & C2 & C3) CL].
        assert (ct = F).
        { destruct (Z.eq_dec ct F) as [|NE]; auto. exfalso. rewrite W in C1 by auto. 
          destruct (Z_le_gt_dec ct kMaxVer) as [LE|GT].
          - assert (QQ := found_ts_le s 0 0 (m_key m) ct w H ltac:(lia) C1 C3 ltac:(lia) (or_introl (Z.le_refl 0))). lia.
          - assert (QQ : ct <= kMaxVer) by (apply (MX (m_key m)); exists w; auto). lia. }
        subst ct. exists a. split; auto. split.
        -- destruct rep; [apply prewrite_loop_done with (2 := SP) in X0; auto; tauto|]. apply prewrite_loop_done with (2 := SP) in X0; auto; tauto.
        -- destruct (a_try1 a) eqn:TA; auto. apply prewrite_loop_try in X0; auto. congruence.
      * exfalso. apply NR. eapply check_committed_none; eauto. lia.
    + destruct (PN _ PU) as (L & W).
      assert (O : op_eqb (m_op m) OpCheckNotExists = true).
      { destruct (op_eqb (m_op m) OpCheckNotExists) eqn:O; auto. apply op_eqb_neq in O. exfalso. apply PU, PM; simpl; auto. }
      assert (EL : get_lock s' (m_key m) = get_lock s (m_key m)).
      { unfold get_lock. change (get bcmp (locks s') (m_key m)) with (lock_at s' (m_key m)).
        change (get bcmp (locks s) (m_key m)) with (lock_at s (m_key m)). rewrite L; auto. }
      rewrite EL, (check_lock_go _ _ _ _ _ _ _ _ PL).
      assert (ER : get_rollback s' (pw_start p) (m_key m) = get_rollback s (pw_start p) (m_key m)).
      { unfold get_rollback. change (get vcmp (writes s') (m_key m, pw_start p)) with (write_at s' (m_key m) (pw_start p)).
        rewrite W. auto. }
      rewrite ER, Q. cbn [obind]. rewrite (gwi_ext s s') by auto.
      destruct (Z.leb_spec (pw_start p) (found_ts (get_write_info s 0 kMaxVer 0 (m_key m) false true true))) as [|_]; [lia|].
      cbn [andb]. apply op_eqb_eq in O. rewrite O in *. cbn [op_eqb andb] in *.
      destruct rep.
      * exfalso. apply prewrite_loop_try in X; [congruence|reflexivity].
      * destruct (gen_prewrite _ _ _ _ _ _ _ _ _ _) as [e|a3] eqn:G; [apply Ok_inj in X; discriminate|].
        destruct (IH _ _ _ PM' X N T) as [[B1 B2]|B]; [left|right; auto]. split; auto.
        intros m' [<-|IN]; auto.
Qed.

Lemma one_phase_twice c s mx p a bs : store_ok s -> (forall i, ~ pess_checked p i) ->
  (forall k ct, committed s k (pw_start p) ct -> ct <= kMaxVer) ->
  handle c s mx (RPrewrite p) = Ok (a, bs) -> succeeded a -> 0 < r_1pc a <= kMaxVer ->
  exists a2, handle c (apply_batches s bs) mx (RPrewrite p) = Ok (a2, []) /\ succeeded a2 /\ r_1pc a2 = r_1pc a.
Proof.
  intros H NP MX X SU R1. assert (X0 := X).
  destruct (prewrite_cases _ _ _ _ _ _ H X SU) as (P & [(-> & C)|(ac & A & N & L & [(T & R & EB)|(T & R & EB)])]); [|  |lia].
  { exists a. auto. }
  assert (NIL : a_1pc ac = [] -> bs = []).
  { intros E2. destruct A as [A1 A2 A3 A4 A5]. assert (E1 := A4 T).
    assert (E3 : a_data ac = []).
    { destruct (a_data ac) as [|[k v] d] eqn:E; auto. destruct (A3 k v) as (_ & [(l & Q)|(v' & l & b & Q)]).
      - simpl; auto.
      - rewrite E1 in Q; destruct Q.
      - rewrite E2 in Q; destruct Q. }
    subst bs. rewrite E2, E3. auto. }
  destruct (a_1pc ac) as [|e0 es0] eqn:E1.
  { rewrite NIL in * by auto. exists a. auto. }
  assert (FB : pw_start p < a_final ac) by (apply A; auto; rewrite E1; discriminate).
  rewrite <- E1 in EB. clear NIL.
  set (s' := apply_batches s bs).
  assert (H' : store_ok s').
  { unfold s'. assert (M := handle_moves _ _ _ _ _ _ H X0). assert (LB := handle_one _ _ _ _ _ _ X0).
    apply moves_wop_ok in M. destruct bs as [|b [|b2 bs']]; [exact H| |].
    - inversion M; subst. apply apply_batch_ok; auto.
    - exfalso. assert (Q : ~ is_resolve (RPrewrite p)) by (intros (? & ? & ? & ? & Q); discriminate). apply LB in Q. simpl in Q. lia. }
  set (a0 := mkAcc [] [] [] [] [] (pw_try1 p) (negb (is_nil (pw_secs p))) 0) in *.
  assert (LOOP : ((forall m, In m (pw_muts p) -> ~ pushed ac (m_key m)) /\ prewrite_loop c s' mx p 0 (pw_muts p) a0 = Ok (PwEnd ac)) \/
    exists a2, prewrite_loop c s' mx p 0 (pw_muts p) a0 = Ok (PwCommitted (a_final ac) a2) /\ ~ noted a2 /\ a_try1 a2 = true).
  { apply (prewrite_loop_1pc_again c s s' mx p (a_final ac) H H' P NP MX ltac:(lia) (pushed ac)); auto using pushed_dec.
    - intros k PU. destruct (one_pc_effect s p ac k H P A T PU) as (C1 & C2 & C3). rewrite <- EB in C1, C2, C3.
      split; [exact C1|split; [exact C2|split; [|exact C3]]].
      assert (PO : prewrite_ok s p k).
      { destruct PU as [(l & Q)|(v & l & b & Q)].
        - apply (ao_locks _ _ _ A) in Q. apply Q.
        - apply (ao_1pc _ _ _ A) in Q. apply Q. }
      destruct PO as (_ & i & m & _ & _ & [(_ & _ & Q)|(Q & _)]); auto. exfalso; eapply NP; eauto.
    - intros k PU. unfold s'. rewrite EB. apply one_pc_other; auto.
    - intros m IN NC. exact (prewrite_loop_done1 c s mx p H P _ _ _ _ L N T m IN NC). }
  unfold handle. unfold handle in X0. destruct (validate _); [ok_reply X0; destruct SU; discriminate|].
  destruct (existsb _ _); [discriminate|]. unfold prewrite in *.
  destruct (_ <? _); [ok_reply X0; destruct SU; discriminate|]. destruct (_ && _); [ok_reply X0; destruct SU; discriminate|].
  fold a0. destruct LOOP as [[B _]|(a2 & Y1 & Y2 & Y3)].
  - exfalso. destruct e0 as [[[k v] l] b].
    assert (PU : pushed ac k) by (right; exists v, l, b; rewrite E1; simpl; auto).
    assert (PO : prewrite_ok s p k) by (apply (ao_1pc _ _ _ A k v l b); rewrite E1; simpl; auto).
    destruct PO as (_ & i & m & Q1 & Q2 & _). apply nth_error_In in Q1. apply (B m Q1). rewrite Q2. auto.
  - rewrite Y1. cbn [obind]. rewrite Y3.
    assert (EN : a_res a2 = [] /\ a_exist a2 = []).
    { unfold noted in Y2. destruct (a_res a2), (a_exist a2); auto; exfalso; apply Y2; (left; discriminate) || (right; discriminate). }
    destruct EN as [-> ->]. eexists. split; [reflexivity|]. split; [repeat split|]. cbn [r_1pc]. congruence.
Qed.
