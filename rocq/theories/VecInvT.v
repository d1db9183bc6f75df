(** Every calm step keeps the invariant, continued. *)
Require Import ZArith List Bool Permutation Lia.
Require Import Verif.VecModel Verif.VecSpec Verif.VecProofs Verif.VecInvL Verif.VecInvW Verif.VecInvS.
Import ListNotations.
Open Scope Z_scope.

Lemma alive_bld d h r p : WR d h r -> bobj (r_bpc r) = Some p -> r_alive r = true.
Proof.
  intros W B. destruct (r_alive r) eqn:E; [reflexivity|]. destruct (W_dead _ _ _ W E) as [_ X].
  rewrite X in B. discriminate.
Qed.

Lemma WR_heap d h h' r :
  functional d -> (length h <= length h')%nat ->
  (forall x, (x < length h)%nat -> geto h' x = geto h x) -> WR d h r -> WR d h' r.
Proof.
  intros F LN E W. apply (WR_frame d h); try assumption.
  - intros p P. rewrite E by exact P. auto.
  - intros p i P _. rewrite E by exact P. reflexivity.
  - intros p B. rewrite E; [auto|]. apply (W_bld_ptr _ _ _ W). exact B.
  - intros; reflexivity.
Qed.

(** ** After the index write *)
Lemma Inv_mark g s n r s' :
  Inv s -> reg_at s n r -> step_reg g s (ApplyMark n) n r = Some s' -> Inv s'.
Proof.
  intros I A ST. simpl in ST. destruct (r_apc r) eqn:PC; try discriminate. injection ST as <-.
  pose proof (I_reg s I n r A) as W.
  assert (DN : done r = S (r_applied r)) by (unfold done; rewrite PC; reflexivity).
  apply (Inv_simple s n r); try assumption.
  - apply (LInv_apc s n r); [apply (I_log s I)|exact A|]. constructor; try reflexivity. simpl. rewrite PC. split; discriminate.
  - assert (AL : r_alive r = true).
    { destruct (r_alive r) eqn:E; [reflexivity|]. destruct (W_dead _ _ _ W E). congruence. }
    destruct W. rewrite DN in *. constructor; simpl; try assumption; try discriminate.
    + intros p B. destruct (W_priv p B) as [H1 [H2 [H3 _]]]. repeat (split; [assumption|]). intros; discriminate.
    + unfold done. simpl. destruct W_le. split; lia.
    + exact Logic.I.
    + intro X. congruence.
  - simpl. auto.
Qed.

Lemma Inv_done g s n r s' :
  Inv s -> reg_at s n r -> step_reg g s (ApplyDone n) n r = Some s' -> Inv s'.
Proof.
  intros I A ST. simpl in ST. destruct (r_apc r) eqn:PC; try discriminate. injection ST as <-.
  pose proof (I_reg s I n r A) as W.
  assert (DN : done r = S (r_applied r)) by (unfold done; rewrite PC; reflexivity).
  apply (Inv_simple s n r); try assumption.
  - apply (LInv_done s n r); [apply (I_log s I)|exact A|exact PC].
  - assert (AL : r_alive r = true).
    { destruct (r_alive r) eqn:E; [reflexivity|]. destruct (W_dead _ _ _ W E). congruence. }
    destruct W. rewrite DN in *. constructor; simpl; try assumption; try discriminate.
    + intros p B. destruct (W_priv p B) as [H1 [H2 [H3 _]]]. repeat (split; [assumption|]). intros; discriminate.
    + intros p _ B. destruct (W_bld p AL B) as [H1 [H2 [H3 [H4 [H5 [H6 H7]]]]]].
      repeat (split; [assumption|]). intros en X. destruct (H7 en X). split; [lia|assumption].
    + exact Logic.I.
    + intro X. congruence.
  - simpl. auto.
Qed.

(** ** Builder *)
Lemma WR_bpc d h r b :
  (r_alive r = true) ->
  (forall p, bobj b = Some p -> bobj (r_bpc r) = Some p) ->
  (forall p, bobj b = Some p -> b <> BScan p -> r_bpc r <> BScan p) ->
  (forall p, b = BScan p -> r_bpc r = BScan p) ->
  (forall p en, b = BSwitch p en -> r_bpc r = BSwitch p en) ->
  WR d h r -> WR d h (set_bpc b r).
Proof.
  intros AL B1 B2 B3 B4 W. destruct W. constructor; simpl; try assumption.
  - intros p E. apply W_bld_ptr. apply B1. exact E.
  - intros p E. apply W_priv. apply B1. exact E.
  - intros p _ E. destruct (W_bld p AL (B1 p E)) as [H1 [H2 [H3 [H4 [H5 [H6 H7]]]]]].
    repeat (split; [assumption|]). split; [|split].
    + intros NB. apply H5. apply B2; assumption.
    + intros SB. apply H6. apply B3. exact SB.
    + intros en X. apply H7. apply B4. exact X.
  - intro X. congruence.
Qed.

Lemma WR_switch d h r b : WR d h r -> WR d h (set_switch b r).
Proof. intro W. destruct W. constructor; assumption. Qed.

Lemma sub_heap_app h o :
  sub_heap h -> (forall i, o_has o i <> None -> in_obj o i) -> sub_heap (h ++ [o]).
Proof.
  intros S O p i H. destruct (Nat.lt_trichotomy p (length h)) as [P|[->|P]].
  - rewrite geto_app_old in * by exact P. apply S. exact H.
  - rewrite geto_app_new in *. apply O. exact H.
  - exfalso. unfold geto in H. rewrite nth_overflow in H; [|rewrite app_length; simpl; lia]. apply H. reflexivity.
Qed.

Lemma lview_bpc b r : lview r (set_bpc b r).
Proof. constructor; reflexivity. Qed.

Lemma Inv_start g s n r k force s' :
  Inv s -> reg_at s n r -> step_reg g s (BuildStart n k force) n r = Some s' -> Inv s'.
Proof.
  intros I A ST. simpl in ST. destruct (r_bpc r) eqn:PB; try discriminate.
  destruct (r_alive r && may_build r force && (k <=? r_applied r)%nat) eqn:C; [|discriminate].
  apply andb_true_iff in C. destruct C as [C K]. apply andb_true_iff in C. destruct C as [AL _].
  apply Nat.leb_le in K. injection ST as <-.
  set (o := {| o_has := cempty; o_lo := r_lo r; o_hi := r_hi r; o_epoch := r_epoch r; o_apply := k |}).
  pose proof (I_log s I) as L. pose proof (data_functional s L) as F.
  assert (FR : forall r0, WR (s_data s) (s_heap s) r0 -> WR (s_data s) (s_heap s ++ [o]) r0).
  { intros r0 W0. apply (WR_heap _ (s_heap s)); try assumption.
    - rewrite app_length. lia.
    - intros x X. apply geto_app_old. exact X. }
  pose proof (I_reg s I n r A) as W0. pose proof (FR r W0) as W.
  eapply (Inv_on_reg s _ n r); try eassumption.
  - apply (LInv_apc_h s n r); [exact L|exact A|apply lview_bpc].
  - reflexivity.
  - simpl. pose proof (geto_app_new (s_heap s) o) as GN.
    assert (LN : length (s_heap s ++ [o]) = S (length (s_heap s))) by (rewrite app_length; simpl; lia).
    destruct W. constructor; simpl; try assumption.
    + intros p E. injection E as <-. lia.
    + intros p E. injection E as <-.
      split; [intro X; apply (VecInvW.W_own_ptr _ _ _ W0) in X; lia|].
      split; [intro X; apply (VecInvW.W_share_ptr _ _ _ W0) in X; lia|].
      split; [intro X; apply (VecInvW.W_sib_ptr _ _ _ W0) in X; lia|].
      intros a b X. destruct (VecInvW.W_awr_ptr _ _ _ W0 a b X) as [X1 X2].
      split; [lia|]. intros ->. specialize (X2 _ eq_refl). lia.
    + intros p _ E. injection E as <-. rewrite GN. simpl.
      split; [reflexivity|]. split; [reflexivity|]. split; [reflexivity|]. split; [|split; [|split]].
      * unfold done. simpl. destruct (r_apc r); lia.
      * intro X. congruence.
      * intros _ i. reflexivity.
      * intros en X. discriminate.
    + intro X. congruence.
  - simpl. intros m r0 _ _ X. apply FR. exact X.
  - apply sub_heap_app; [apply (I_sub s I)|]. intros i X. exfalso. apply X. reflexivity.
  - simpl. intros p E. injection E as <-. right. lia.
Qed.

Lemma Inv_load g s n r s' :
  Inv s -> reg_at s n r -> step_reg g s (LoadIndex n) n r = Some s' -> Inv s'.
Proof.
  intros I A ST. simpl in ST. destruct (r_bpc r) eqn:PB; try discriminate.
  destruct (w_snap r) as [sn|] eqn:SN; [|discriminate].
  destruct (r_alive r && (n_epoch sn =? r_epoch r)) eqn:C; [|discriminate].
  apply andb_true_iff in C. destruct C as [AL EQ]. apply Z.eqb_eq in EQ. injection ST as <-.
  set (o := {| o_has := n_has sn; o_lo := n_lo sn; o_hi := n_hi sn; o_epoch := n_epoch sn; o_apply := n_id sn |}).
  pose proof (I_log s I) as L. pose proof (data_functional s L) as F.
  assert (FR : forall r0, WR (s_data s) (s_heap s) r0 -> WR (s_data s) (s_heap s ++ [o]) r0).
  { intros r0 W0. apply (WR_heap _ (s_heap s)); try assumption.
    - rewrite app_length. lia.
    - intros x X. apply geto_app_old. exact X. }
  pose proof (I_reg s I n r A) as W0. pose proof (FR r W0) as W.
  destruct (W_snap _ _ _ W0 sn SN) as [S1 S2]. destruct (S2 AL) as [S3 [S4 S5]]. destruct (S5 EQ) as [S6 [S7 S8]].
  eapply (Inv_on_reg s _ n r); try eassumption.
  - apply (LInv_apc_h s n r); [exact L|exact A|apply lview_bpc].
  - reflexivity.
  - simpl. pose proof (geto_app_new (s_heap s) o) as GN.
    assert (LN : length (s_heap s ++ [o]) = S (length (s_heap s))) by (rewrite app_length; simpl; lia).
    pose proof (W_le _ _ _ W0) as LE.
    destruct W. constructor; simpl; try assumption.
    + intros p E. injection E as <-. lia.
    + intros p E. injection E as <-.
      split; [intro X; apply (VecInvW.W_own_ptr _ _ _ W0) in X; lia|].
      split; [intro X; apply (VecInvW.W_share_ptr _ _ _ W0) in X; lia|].
      split; [intro X; apply (VecInvW.W_sib_ptr _ _ _ W0) in X; lia|].
      intros a b X. destruct (VecInvW.W_awr_ptr _ _ _ W0 a b X) as [X1 X2].
      split; [lia|]. intros ->. specialize (X2 _ eq_refl). lia.
    + intros p _ E. injection E as <-. rewrite GN. simpl.
      split; [exact S6|]. split; [exact S7|]. split; [exact EQ|]. split; [|split; [|split]].
      * change (done (set_bpc (BCatch (length (s_heap s))) r)) with (done r). lia.
      * intros _ i IR. apply S8. exact IR.
      * intro X. discriminate.
      * intros en X. discriminate.
    + intro X. congruence.
  - simpl. intros m r0 _ _ X. apply FR. exact X.
  - apply sub_heap_app; [apply (I_sub s I)|]. intros i X. apply S1. exact X.
  - simpl. intros p E. injection E as <-. right. lia.
Qed.

(** The builder changes its object: same range and epoch, contents outside the
    region's range unchanged. *)
Lemma Inv_builder s n r p f b :
  Inv s -> reg_at s n r -> bobj (r_bpc r) = Some p -> bobj b = Some p ->
  let o := geto (s_heap s) p in
  let o' := f o in
  o_lo o' = o_lo o -> o_hi o' = o_hi o -> o_epoch o' = o_epoch o ->
  (o_apply o' <= done r)%nat ->
  (forall i, ~ in_region r i -> o_has o' i = o_has o i) ->
  b <> BScan p ->
  (forall i, in_region r i -> agree (r_log r) (o_apply o') (o_has o') (s_data s) i) ->
  (forall en, b = BSwitch p en -> (en <= r_applied r)%nat /\
       forall j e, (o_apply o' <= j)%nat -> (j < en - 1)%nat ->
         nth_error (r_log r) j = Some e -> ~ is_write e) ->
  Inv (on_reg n (set_bpc b) (with_heap (upd (s_heap s) p f) s)).
Proof.
  intros I A B BB o o' LO HI EP AP OUT NB AG SW.
  pose proof (I_reg s I n r A) as W. pose proof (I_log s I) as L.
  pose proof (data_functional s L) as F.
  pose proof (alive_bld _ _ _ _ W B) as AL.
  pose proof (W_bld_ptr _ _ _ W p B) as PP.
  set (h := s_heap s) in *. set (h' := upd h p f).
  assert (GP : geto h' p = o').
  { unfold h'. rewrite geto_upd by exact PP. destruct (Nat.eq_dec p p); [reflexivity|congruence]. }
  assert (GX : forall x, x <> p -> geto h' x = geto h x) by (intros x X; apply geto_upd_other; congruence).
  assert (LN : length h' = length h) by apply upd_length.
  assert (RN : forall x, o_lo (geto h' x) = o_lo (geto h x) /\ o_hi (geto h' x) = o_hi (geto h x) /\
     o_epoch (geto h' x) = o_epoch (geto h x)).
  { intro x. destruct (Nat.eq_dec x p) as [->|X]; [rewrite GP; auto|rewrite GX by exact X; auto]. }
  assert (RG : o_lo o = r_lo r /\ o_hi o = r_hi r /\ o_epoch o = r_epoch r).
  { destruct (W_bld _ _ _ W p AL B) as [H1 [H2 [H3 _]]]. auto. }
  destruct RG as [G1 [G2 G3]].
  eapply (Inv_on_reg s _ n r); try eassumption.
  - apply (LInv_apc_h s n r); [exact L|exact A|apply lview_bpc].
  - reflexivity.
  - simpl. fold h h'. destruct (W_priv _ _ _ W p B) as [P1 [P2 [P3 P4]]].
    assert (CP : cur_index r <> Some p) by (unfold cur_index; destruct (w_share r); congruence).
    assert (PT : forall x, ptr_ok h x -> ptr_ok h' x) by (intros x Y z Z; rewrite LN; apply Y; exact Z).
    destruct W. constructor; simpl; try (apply PT; assumption); try assumption.
    + intros x X. rewrite LN. rewrite BB in X. injection X as <-. exact PP.
    + intros x y X. destruct (W_awr_ptr x y X) as [X1 X2]. split; [lia|apply PT; exact X2].
    + intros x X. rewrite BB in X. injection X as <-. auto.
    + intros x X. destruct (W_own x X) as [H1 [H2 H3]]. split; [exact H1|]. split; [exact H2|].
      destruct (RN x) as [-> [-> ->]]. exact H3.
    + intros _ RD. destruct (W_rdy AL RD) as [x [C H]]. exists x. split; [exact C|].
      change (done (set_bpc b r)) with (done r).
      destruct (Nat.eq_dec x p) as [->|N]; [congruence|]. rewrite (GX x N).
      destruct (w_sib r) as [q|]; [|exact H]. rewrite (GX q) by congruence. exact H.
    + intros q _ X. destruct (RN q) as [-> [-> _]]. apply W_sib; assumption.
    + intros x y _ X. destruct (RN x) as [-> [-> _]]. apply W_awr; assumption.
    + intros x _ X. rewrite BB in X. injection X as <-. rewrite GP.
      rewrite LO, HI, EP. repeat (split; [assumption|]). split; [|split].
      * intros _. exact AG.
      * intro X. congruence.
      * exact SW.
    + intro X. congruence.
  - simpl. fold h h'. intros m r0 NM A0 W0. destruct (r_alive r0) eqn:AL0.
    + apply (WR_frame (s_data s) h); try assumption.
      * lia.
      * intros x _. apply RN.
      * intros x i _ IR. destruct (Nat.eq_dec x p) as [->|N]; [|rewrite GX by exact N; reflexivity].
        rewrite GP. apply OUT. pose proof (L_dis s L _ _ _ _ A A0 NM AL AL0). unfold in_region in *. lia.
      * intros x X. destruct (Nat.eq_dec x p) as [->|N]; [|rewrite GX by exact N; auto].
        exfalso. exact (I_dis s I n r m r0 p A A0 NM B X).
      * intros i t v _. reflexivity.
    + assert (PT : forall x, ptr_ok h x -> ptr_ok h' x) by (intros x Y z Z; rewrite LN; apply Y; exact Z).
      destruct W0. destruct (W_dead AL0) as [D1 D2].
      constructor; try assumption; try (apply PT; assumption); try (intros; congruence).
      intros p0 E. destruct (W_own p0 E) as [H1 [H2 _]]. split; [exact H1|]. split; [exact H2|]. intros; congruence.
  - simpl. fold h h'. intros x i Y. destruct (RN x) as [R1 [R2 _]]. unfold in_obj. rewrite R1, R2.
    destruct (Nat.eq_dec x p) as [->|N]; [|rewrite GX in Y by exact N; apply (I_sub s I); exact Y].
    rewrite GP in Y.
    destruct (Z_le_gt_dec (r_lo r) i) as [Z1|Z1]; [destruct (Z_lt_le_dec i (r_hi r)) as [Z2|Z2]|].
    + fold o. lia.
    + rewrite OUT in Y by (unfold in_region; lia). apply (I_sub s I p i). exact Y.
    + rewrite OUT in Y by (unfold in_region; lia). apply (I_sub s I p i). exact Y.
  - simpl. intros x X. left. congruence.
Qed.

Lemma Inv_scan g s n r seed s' :
  any_order g -> Inv s -> reg_at s n r -> step_reg g s (BuildScan n seed) n r = Some s' -> Inv s'.
Proof.
  intros AO I A ST. simpl in ST. destruct (r_bpc r) as [|p| | | | |] eqn:PB; try discriminate. injection ST as <-.
  pose proof (I_reg s I n r A) as W.
  assert (B : bobj (r_bpc r) = Some p) by (rewrite PB; reflexivity).
  pose proof (alive_bld _ _ _ _ W B) as AL.
  destruct (W_bld _ _ _ W p AL B) as [H1 [H2 [H3 [H4 [_ [H6 _]]]]]].
  apply (Inv_builder s n r p); try assumption; try reflexivity; cbn [set_has o_has o_apply o_lo o_hi o_epoch].
  - intros i NI. rewrite build_has by exact AO.
    destruct (in_rng _ _ i) eqn:R.
    + exfalso. apply NI. apply in_rng_spec in R. unfold in_region. lia.
    + symmetry. apply H6. exact PB.
  - discriminate.
  - intros i IR _. rewrite build_has by exact AO. replace (in_rng _ _ i) with true; [reflexivity|].
    symmetry. apply in_rng_spec. unfold in_region in IR. lia.
  - discriminate.
Qed.

Lemma upd_id {A} (l : list A) n f : (forall x, nth_error l n = Some x -> f x = x) -> upd l n f = l.
Proof.
  revert n. induction l as [|x l IH]; intros [|n] H; simpl; try reflexivity.
  - rewrite (H x eq_refl). reflexivity.
  - rewrite IH; [reflexivity|]. exact H.
Qed.

Lemma set_bpc_id b r : r_bpc r = b -> set_bpc b r = r.
Proof. intros <-. destruct r; reflexivity. Qed.

Lemma Inv_catch g s n r seed s' :
  any_order g -> Inv s -> reg_at s n r -> calm_step g s (CatchUp n seed) ->
  step_reg g s (CatchUp n seed) n r = Some s' -> Inv s'.
Proof.
  intros AO I A CS ST. unfold step_reg in ST. destruct (r_bpc r) as [| |p| | | |] eqn:PB; try discriminate.
  pose proof (I_reg s I n r A) as W. pose proof (I_log s I) as L.
  assert (B : bobj (r_bpc r) = Some p) by (rewrite PB; reflexivity).
  pose proof (alive_bld _ _ _ _ W B) as AL.
  destruct (W_bld _ _ _ W p AL B) as [H1 [H2 [H3 [H4 [H5 [_ _]]]]]].
  assert (DN : (r_applied r <= done r <= S (r_applied r))%nat) by (unfold done; destruct (r_apc r); lia).
  cbv zeta in ST. destruct (S (o_apply (geto (s_heap s) p)) + c_gap g <=? r_applied r)%nat.
  - injection ST as <-.
    set (f := fun o => replay_wal g seed (r_log r) o (S (o_apply (geto (s_heap s) p))) (r_applied r)).
    assert (EQ : with_heap (upd (s_heap s) p f) s = on_reg n (set_bpc (BCatch p)) (with_heap (upd (s_heap s) p f) s)).
    { unfold on_reg, with_regs, with_heap. simpl. rewrite (upd_id (s_regs s)); [reflexivity|].
      intros r0 X. apply set_bpc_id. unfold reg_at in A. congruence. }
    rewrite EQ.
    pose proof (CS r p A PB) as EW.
    destruct (replay_agree g s n r seed (geto (s_heap s) p) (r_applied r)) as [K1 [K2 [K3 [K4 [K5 [K6 K7]]]]]]; try assumption; try reflexivity.
    { lia. }
    { apply H5. rewrite PB. discriminate. }
    apply (Inv_builder s n r p); try assumption; try discriminate; try reflexivity; unfold f.
    lia.
  - injection ST as <-. apply (Inv_simple s n r); try assumption.
    + apply (LInv_apc s n r); [exact L|exact A|apply lview_bpc].
    + apply WR_bpc; try assumption; try (intros; discriminate).
      * intros x X. rewrite PB. exact X.
      * intros x X _. rewrite PB. discriminate.
    + simpl. intros x X. left. congruence.
Qed.

Lemma Inv_last g s n r seed s' :
  any_order g -> Inv s -> reg_at s n r -> calm_step g s (LastRound n seed) ->
  step_reg g s (LastRound n seed) n r = Some s' -> Inv s'.
Proof.
  intros AO I A CS ST. simpl in ST. destruct (r_bpc r) as [| | | |p| |] eqn:PB; try discriminate.
  pose proof (I_reg s I n r A) as W. pose proof (I_log s I) as L.
  assert (B : bobj (r_bpc r) = Some p) by (rewrite PB; reflexivity).
  pose proof (alive_bld _ _ _ _ W B) as AL.
  destruct (W_bld _ _ _ W p AL B) as [H1 [H2 [H3 [H4 [H5 [_ _]]]]]].
  assert (DN : (r_applied r <= done r <= S (r_applied r))%nat) by (unfold done; destruct (r_apc r); lia).
  injection ST as <-.
  pose proof (CS r p A PB) as EW.
  destruct (replay_agree g s n r seed (geto (s_heap s) p) (r_applied r)) as [K1 [K2 [K3 [K4 [K5 [K6 K7]]]]]]; try assumption; try reflexivity.
  { lia. }
  { apply H5. rewrite PB. discriminate. }
  apply (Inv_builder s n r p); try assumption; try discriminate; try reflexivity.
  - lia.
  - intros en X. injection X as <-. split; [lia|exact K7].
Qed.

Lemma Inv_lock g s n r s' :
  Inv s -> reg_at s n r -> step_reg g s (LockSwitch n) n r = Some s' -> Inv s'.
Proof.
  intros I A ST. simpl in ST. destruct (r_bpc r) as [| | |p| | |] eqn:PB; try discriminate. injection ST as <-.
  pose proof (I_reg s I n r A) as W.
  assert (B : bobj (r_bpc r) = Some p) by (rewrite PB; reflexivity).
  pose proof (alive_bld _ _ _ _ W B) as AL.
  apply (Inv_simple s n r); try assumption.
  - apply (LInv_apc s n r); [apply (I_log s I)|exact A|]. constructor; reflexivity.
  - apply WR_bpc; try (intros; discriminate); simpl.
    + exact AL.
    + intros x X. rewrite PB. exact X.
    + intros x X _. rewrite PB. discriminate.
    + apply WR_switch. exact W.
  - simpl. intros x X. left. congruence.
Qed.

Lemma Inv_unlock g s n r s' :
  Inv s -> reg_at s n r -> step_reg g s (UnlockSwitch n) n r = Some s' -> Inv s'.
Proof.
  intros I A ST. simpl in ST. destruct (r_bpc r) as [| | | | | |] eqn:PB; try discriminate. injection ST as <-.
  pose proof (I_reg s I n r A) as W.
  assert (AL : r_alive r = true).
  { destruct (r_alive r) eqn:E; [reflexivity|]. destruct (W_dead _ _ _ W E). congruence. }
  apply (Inv_simple s n r); try assumption.
  - apply (LInv_apc s n r); [apply (I_log s I)|exact A|]. constructor; reflexivity.
  - apply WR_bpc; try (intros; discriminate); [exact AL|].
    apply WR_switch. exact W.
  - simpl. discriminate.
Qed.

Lemma set_orange_id o : set_orange (o_lo o) (o_hi o) (o_epoch o) o = o.
Proof. destruct o; reflexivity. Qed.

Lemma Inv_switch g s n r hold s' :
  Inv s -> reg_at s n r -> calm_step g s (SwitchIndex n hold) ->
  step_reg g s (SwitchIndex n hold) n r = Some s' -> Inv s'.
Proof.
  intros I A CS ST. simpl in ST. destruct (r_bpc r) as [| | | | |p en|] eqn:PB; try discriminate.
  pose proof (I_reg s I n r A) as W. pose proof (I_log s I) as L.
  assert (B : bobj (r_bpc r) = Some p) by (rewrite PB; reflexivity).
  pose proof (alive_bld _ _ _ _ W B) as AL.
  pose proof (W_bld_ptr _ _ _ W p B) as PP.
  destruct (W_bld _ _ _ W p AL B) as [H1 [H2 [H3 [H4 [H5 [_ H7]]]]]].
  assert (HE : upd (s_heap s) p (set_orange (r_lo r) (r_hi r) (r_epoch r)) = s_heap s).
  { apply upd_id. intros o X. unfold geto in *. rewrite (nth_error_nth _ _ _ X) in *.
    rewrite <- H1, <- H2, <- H3. apply set_orange_id. }
  rewrite HE in ST.
  assert (SE : with_heap (s_heap s) s = s) by (destruct s; reflexivity). rewrite SE in ST.
  destruct hold.
  - injection ST as <-.
    destruct (CS r p en A PB) as [PC NW].
    assert (DN : done r = r_applied r) by (unfold done; destruct PC as [-> | ->]; reflexivity).
    rewrite DN in H4.
    apply (Inv_simple s n r); try assumption.
    + apply (LInv_apc s n r); [exact L|exact A|]. constructor; reflexivity.
    + destruct (H7 en PB) as [K1 K2].
      assert (AG : forall i, in_region r i -> agree (r_log r) (r_applied r) (o_has (geto (s_heap s) p)) (s_data s) i).
      { intros i IR P. apply H5; [rewrite PB; discriminate|exact IR|].
        intros j e v J N X. destruct (Nat.lt_ge_cases j (r_applied r)) as [Q|Q]; [|exact (P j e v Q N X)].
        revert X. eapply rec_not_write; [exact L|split; eassumption|].
        destruct (Nat.lt_ge_cases j (en - 1)) as [Q1|Q1]; [eapply K2; eassumption|].
        eapply NW; [exact J|lia|exact N]. }
      assert (SB : match w_sib r with
              | Some q => if (r_lo r <=? o_lo (geto (s_heap s) (match w_sib r with Some q => q | None => p end)))
                   && (o_hi (geto (s_heap s) (match w_sib r with Some q => q | None => p end)) <=? r_hi r) then None else Some q
              | None => None end = None).
      { destruct (w_sib r) as [q|] eqn:S; [|reflexivity].
        destruct (W_sib _ _ _ W q AL S) as [S1 S2]. apply Z.leb_le in S1, S2. rewrite S1, S2. reflexivity. }
      destruct W. rewrite DN in *. constructor; simpl; try assumption; try discriminate.
      * intros x X. injection X as <-. exact PP.
      * rewrite SB. discriminate.
      * intros x X. injection X as <-. split; [reflexivity|]. split; [reflexivity|]. intros _. split; [lia|auto].
      * unfold done. simpl. destruct W_le as [L1 L2].
        assert (DD : (match r_apc r with AMark | ADone => S (r_applied r) | _ => r_applied r end) = r_applied r)
          by (destruct PC as [-> | ->]; reflexivity).
        rewrite DD. destruct (Nat.ltb_spec (w_apply r) (o_apply (geto (s_heap s) p))); split; lia.
      * intros _ _. exists p. split; [reflexivity|]. rewrite SB. split; [lia|]. split; [lia|].
        unfold done. simpl. destruct PC as [-> | ->]; exact AG.
      * intros q _ X. rewrite SB in X. discriminate.
      * intros x y _ X. destruct PC; congruence.
      * intros n0 E. destruct (W_snap n0 E) as [X1 X2]. split; [exact X1|]. intros _.
        destruct (X2 AL) as [X3 [X4 X5]]. split; [|split; assumption].
        destruct W_le as [L1 L2]. destruct (Nat.ltb_spec (w_apply r) (o_apply (geto (s_heap s) p))); lia.
      * intro X. congruence.
    + simpl. discriminate.
  - injection ST as <-. apply (Inv_simple s n r); try assumption.
    + apply (LInv_apc s n r); [exact L|exact A|apply lview_bpc].
    + apply WR_bpc; try (intros; discriminate); [exact AL|exact W].
    + simpl. discriminate.
Qed.

Lemma Inv_save g s n r s' :
  Inv s -> reg_at s n r -> step_reg g s (SaveIndex n) n r = Some s' -> Inv s'.
Proof.
  intros I A ST. simpl in ST. destruct (r_bpc r) as [| | | | | |] eqn:PB; try discriminate.
  destruct (w_own r) as [p|] eqn:OW; [|discriminate].
  destruct (match w_snap r with Some n => (n_id n <? w_apply r)%nat | None => true end); [|discriminate].
  injection ST as <-.
  pose proof (I_reg s I n r A) as W.
  destruct (W_own _ _ _ W p OW) as [O1 [O2 O3]].
  apply (Inv_simple s n r); try assumption.
  - apply (LInv_apc s n r); [apply (I_log s I)|exact A|]. constructor; reflexivity.
  - pose proof (I_sub s I p) as SB.
    destruct W. constructor; simpl; try assumption.
    + split; [lia|apply W_le].
    + intros sn X. injection X as <-. simpl. split; [exact SB|]. intro AL.
      destruct (O3 AL) as [O4 O5]. split; [lia|]. split; [exact O4|]. intro EQ.
      destruct (O5 EQ) as [O6 O7]. split; [exact O6|]. split; [exact O7|].
      intros i IR. apply (agree_mono _ (done r)); [apply W_le|].
      destruct (W_rdy AL O1) as [p0 [C H]]. unfold cur_index in C. rewrite O2, OW in C. injection C as <-.
      destruct (w_sib r) as [q|].
      * exfalso. destruct H as [H1 [H2 [H3 [H4 [H5 [H6 [H7 _]]]]]]]. lia.
      * apply H. exact IR.
  - simpl. auto.
Qed.

Lemma Inv_clear g s n r s' :
  Inv s -> reg_at s n r -> step_reg g s (ClearIndex n) n r = Some s' -> Inv s'.
Proof.
  intros I A ST. simpl in ST. injection ST as <-.
  pose proof (I_reg s I n r A) as W.
  apply (Inv_simple s n r); try assumption.
  - apply (LInv_apc s n r); [apply (I_log s I)|exact A|]. constructor; reflexivity.
  - destruct W. constructor; simpl; try assumption; try (intros ? X; discriminate X); try (intros; discriminate).
    + intros p B. destruct (W_priv p B) as [_ [_ [_ H]]]. repeat (split; [discriminate|]). exact H.
    + intros p q AL X. destruct (W_awr p q AL X) as [H1 [_ H2]]. split; [exact H1|]. split; [intros; discriminate|exact H2].
  - simpl. auto.
Qed.

(** ** Split, merge, restart *)
Lemma Inv_split s n r e mid :
  Inv s -> reg_at s n r -> r_alive r = true -> r_apc r = AIdle ->
  nth_error (r_log r) (r_applied r) = Some e -> e_epoch e = r_epoch r -> e_op e = OSplit mid ->
  r_lo r < mid < r_hi r -> settled s r ->
  Inv (with_regs (upd (s_regs s) n (shrink mid) ++ [child_region (r_lo r) mid (w_own r)]) s).
Proof.
  intros I A AL PC NE EP O M [BI [SH [SI RDY]]].
  pose proof (I_reg s I n r A) as W. pose proof (I_log s I) as L.
  assert (CH : is_change e) by (unfold is_change; rewrite O; exact Logic.I).
  pose proof (no_recs_from_change s n r e L A AL NE EP CH) as NR.
  set (ch := child_region (r_lo r) mid (w_own r)).
  set (s' := with_regs (upd (s_regs s) n (shrink mid) ++ [ch]) s).
  assert (DN : done r = r_applied r) by (unfold done; rewrite PC; reflexivity).
  assert (EX : forall i c, agree (r_log r) (r_applied r) c (s_data s) i -> c i = stored (s_data s) i).
  { intros i c G. apply G. intros j e0 v J N. apply (NR j e0 i v J N). }
  assert (OWN : forall p, w_own r = Some p -> o_lo (geto (s_heap s) p) = r_lo r /\ o_hi (geto (s_heap s) p) = r_hi r /\
      forall i, in_region r i -> o_has (geto (s_heap s) p) i = stored (s_data s) i).
  { intros p OW. destruct (W_own _ _ _ W p OW) as [O1 [O2 _]]. destruct (RDY O1) as [p0 [X1 [X2 X3]]].
    assert (p0 = p) by congruence. subst p0. split; [exact X2|]. split; [exact X3|].
    intros i IR. destruct (W_rdy _ _ _ W AL O1) as [p1 [C H]]. unfold cur_index in C. rewrite SH, OW in C. injection C as <-.
    rewrite SI in H. destruct H as [_ [_ H]]. apply EX. rewrite DN in H. apply H. exact IR. }
  assert (RB : forall m r', reg_at s' m r' ->
    (exists r0, reg_at s m r0 /\ ((n = m /\ r0 = r /\ r' = shrink mid r) \/ (n <> m /\ r' = r0)))
    \/ (m = length (s_regs s) /\ r' = ch)).
  { intros m r' X. unfold reg_at, s' in X. simpl in X. destruct (nth_snoc _ _ _ _ X) as [X'|[-> ->]].
    - left. destruct (upd_at _ _ _ _ _ X') as [r0 [A' [[-> ->]|[N ->]]]]; exists r0; (split; [exact A'|]).
      + left. assert (r0 = r) by (unfold reg_at in *; congruence). subst. auto.
      + right. auto.
    - right. split; [apply upd_length|reflexivity]. }
  constructor.
  - apply (LInv_split s n r e mid); try assumption.
  - intros m r' X. destruct (RB _ _ X) as [[r0 [X0 [[-> [-> ->]]|[N ->]]]]|[-> ->]].
    + simpl. destruct W. rewrite DN in *. constructor; simpl; try assumption; try discriminate; try (intros; congruence).
      * intros p B. rewrite BI in B. discriminate.
      * intros p OW. destruct (W_own p OW) as [H1 [H2 H3]]. split; [exact H1|]. split; [exact H2|].
        intros _. destruct (H3 AL) as [H4 _]. split; lia.
      * unfold done. simpl. destruct W_le. split; lia.
      * intros _ RD. destruct (RDY RD) as [p [OW [X2 X3]]]. exists p.
        split; [unfold cur_index; simpl; rewrite SH; exact OW|]. rewrite SI.
        split; [lia|]. split; [lia|]. intros i IR _. destruct (OWN p OW) as [_ [_ H]]. apply H.
        unfold in_region in *. simpl in IR. lia.
      * intros p _ B. rewrite BI in B. discriminate.
      * intros n0 E. destruct (W_snap n0 E) as [X1 X2]. split; [exact X1|]. intros _.
        destruct (X2 AL) as [X3 [X4 _]]. split; [exact X3|]. split; [lia|]. intro. lia.
      * exact Logic.I.
    + apply (I_reg s I _ _ X0).
    + unfold ch, child_region. constructor; simpl; try (intros ? X1; discriminate X1); try discriminate; try (intros; discriminate).
      * intros p X1. apply (W_own_ptr _ _ _ W). exact X1.
      * split; lia.
      * intros _ RD. destruct (w_own r) as [p|] eqn:OW; [|discriminate]. exists p. split; [reflexivity|].
        destruct (OWN p eq_refl) as [O1 [O2 O3]]. split; [lia|]. split; [lia|].
        intros i IR _. apply O3. unfold in_region in *. simpl in IR. lia.
      * exact Logic.I.
  - apply (I_sub s I).
  - intros n1 r1 n2 r2 p X1 X2 N B1 B2.
    destruct (RB _ _ X1) as [[x [Y1 [[E1 [-> ->]]|[N1 ->]]]]|[-> ->]]; try discriminate;
    destruct (RB _ _ X2) as [[y [Y2 [[E2 [-> ->]]|[N2 ->]]]]|[-> ->]]; try discriminate; simpl in *;
      try congruence; try (rewrite BI in B1; discriminate B1); try (rewrite BI in B2; discriminate B2).
    eapply (I_dis s I n1 x n2 y); eassumption.
Qed.

Lemma Inv_merge s n r e m src :
  Inv s -> reg_at s n r -> r_alive r = true -> r_apc r = AIdle ->
  nth_error (r_log r) (r_applied r) = Some e -> e_epoch e = r_epoch r -> e_op e = OMerge m ->
  m <> n -> reg_at s m src -> r_alive src = true -> r_applied src = length (r_log src) ->
  r_apc src = AIdle -> (r_hi src = r_lo r \/ r_hi r = r_lo src) ->
  settled s r -> settled s src -> (w_ready r = true -> w_ready src = true) ->
  Inv (with_regs (upd (upd (s_regs s) m retire) n
         (grow (Z.min (r_lo r) (r_lo src)) (Z.max (r_hi r) (r_hi src))
               (Z.max (r_epoch r) (r_epoch src) + 1) (w_own src))) s).
Proof.
  intros I A AL PC NE EP O MN B BL AP PCS ADJ [BI [SH [SI RDY]]] [BI2 [SH2 [SI2 RDY2]]] BOTH.
  pose proof (I_reg s I n r A) as W. pose proof (I_reg s I m src B) as WS. pose proof (I_log s I) as L.
  assert (CH : is_change e) by (unfold is_change; rewrite O; exact Logic.I).
  pose proof (no_recs_from_change s n r e L A AL NE EP CH) as NR.
  set (f := grow (Z.min (r_lo r) (r_lo src)) (Z.max (r_hi r) (r_hi src))
               (Z.max (r_epoch r) (r_epoch src) + 1) (w_own src)).
  set (s' := with_regs (upd (upd (s_regs s) m retire) n f) s).
  assert (DN : done r = r_applied r) by (unfold done; rewrite PC; reflexivity).
  assert (DNS : done src = r_applied src) by (unfold done; rewrite PCS; reflexivity).
  pose proof (L_rng s L _ _ A AL) as RG. pose proof (L_rng s L _ _ B BL) as RGS.
  assert (OWN : forall p, w_own r = Some p -> o_lo (geto (s_heap s) p) = r_lo r /\ o_hi (geto (s_heap s) p) = r_hi r /\
      forall i, in_region r i -> o_has (geto (s_heap s) p) i = stored (s_data s) i).
  { intros p OW. destruct (W_own _ _ _ W p OW) as [O1 [O2 _]]. destruct (RDY O1) as [p0 [X1 [X2 X3]]].
    assert (p0 = p) by congruence. subst p0. split; [exact X2|]. split; [exact X3|].
    intros i IR. destruct (W_rdy _ _ _ W AL O1) as [p1 [C H]]. unfold cur_index in C. rewrite SH, OW in C. injection C as <-.
    rewrite SI in H. destruct H as [_ [_ H]]. rewrite DN in H. apply (H i IR). intros j e0 v J N. apply (NR j e0 i v J N). }
  assert (OWS : forall p, w_own src = Some p -> o_lo (geto (s_heap s) p) = r_lo src /\ o_hi (geto (s_heap s) p) = r_hi src /\
      forall i, in_region src i -> o_has (geto (s_heap s) p) i = stored (s_data s) i).
  { intros p OW. destruct (W_own _ _ _ WS p OW) as [O1 [O2 _]]. destruct (RDY2 O1) as [p0 [X1 [X2 X3]]].
    assert (p0 = p) by congruence. subst p0. split; [exact X2|]. split; [exact X3|].
    intros i IR. destruct (W_rdy _ _ _ WS BL O1) as [p1 [C H]]. unfold cur_index in C. rewrite SH2, OW in C. injection C as <-.
    rewrite SI2 in H. destruct H as [_ [_ H]]. rewrite DNS, AP in H. apply (H i IR). intros j e0 v J N.
    apply nth_lt in N. lia. }
  assert (RB : forall k r', reg_at s' k r' ->
    exists r0, reg_at s k r0 /\ ((n = k /\ r0 = r /\ r' = f r) \/ (n <> k /\ m = k /\ r0 = src /\ r' = retire src)
                               \/ (n <> k /\ m <> k /\ r' = r0))).
  { intros k r' X. unfold reg_at, s' in X. simpl in X.
    destruct (upd_at _ _ _ _ _ X) as [r1 [A' [[-> ->]|[N ->]]]].
    - destruct (upd_at _ _ _ _ _ A') as [r2 [A2 [[X1 ->]|[N ->]]]]; [congruence|].
      exists r2. split; [exact A2|]. left. assert (r2 = r) by (unfold reg_at in *; congruence). subst. auto.
    - destruct (upd_at _ _ _ _ _ A') as [r2 [A2 [[X1 ->]|[N1 ->]]]].
      + subst k. exists r2. split; [exact A2|]. right. left.
        assert (r2 = src) by (unfold reg_at in *; congruence). subst. auto.
      + exists r2. split; [exact A2|]. right. right. auto. }
  constructor.
  - apply (LInv_merge s n r e m src); assumption.
  - intros k r' X. destruct (RB _ _ X) as [r0 [X0 [[-> [-> ->]]|[[N [-> [-> ->]]]|[N [N2 ->]]]]]].
    + simpl. assert (SN : match w_own src with Some q => Some q | None => w_sib r end = w_own src).
      { rewrite SI. destruct (w_own src); reflexivity. }
      destruct W. rewrite DN in *. constructor; simpl; try assumption; try discriminate; try (intros; congruence).
      * rewrite SN. apply (VecInvW.W_own_ptr _ _ _ WS).
      * intros p Q. rewrite BI in Q. discriminate.
      * intros p OW. destruct (W_own p OW) as [H1 [H2 H3]]. split; [exact H1|]. split; [exact H2|].
        intros _. destruct (H3 AL) as [H4 _]. split; lia.
      * unfold done. simpl. destruct W_le. split; lia.
      * intros _ RD. destruct (RDY RD) as [p [OW [X2 X3]]]. exists p.
        split; [unfold cur_index; simpl; rewrite SH; exact OW|].
        destruct (RDY2 (BOTH RD)) as [q [OWQ [Y2 Y3]]]. rewrite OWQ.
        destruct (OWN p OW) as [_ [_ H]]. destruct (OWS q OWQ) as [_ [_ H']].
        split; [intros ->; lia|]. split; [exact SH|]. split; [lia|]. split; [lia|]. split; [lia|].
        split; [lia|]. split; [lia|]. split.
        -- intros i IO _. apply H. unfold in_region, in_obj in *. lia.
        -- intros i IO _. apply H'. unfold in_region, in_obj in *. lia.
      * intros q _ Q. rewrite SN in Q. destruct (OWS q Q) as [-> [-> _]]. split; lia.
      * intros p _ Q. rewrite BI in Q. discriminate.
      * intros n0 E. destruct (W_snap n0 E) as [X1 X2]. split; [exact X1|]. intros _.
        destruct (X2 AL) as [X3 [X4 _]]. split; [exact X3|]. split; [lia|]. intro. lia.
      * exact Logic.I.
    + simpl. destruct WS. constructor; simpl; try assumption; try discriminate; try (intros; congruence).
      * intros p OW. destruct (W_own p OW) as [H1 [H2 _]]. split; [exact H1|]. split; [exact H2|]. discriminate.
      * intros n0 E. destruct (W_snap n0 E) as [X1 _]. split; [exact X1|]. discriminate.
      * intros _. split; assumption.
    + apply (I_reg s I _ _ X0).
  - apply (I_sub s I).
  - intros n1 r1 n2 r2 p X1 X2 N B1 B2.
    destruct (RB _ _ X1) as [x [Y1 [[E1 [-> ->]]|[[N1 [E1 [-> ->]]]|[N1 [_ ->]]]]]]; simpl in B1; try congruence;
    destruct (RB _ _ X2) as [y [Y2 [[E2 [-> ->]]|[[N2 [E2 [-> ->]]]|[N2 [_ ->]]]]]]; simpl in B2; try congruence.
    all: try (rewrite BI in B1; discriminate B1); try (rewrite BI in B2; discriminate B2).
    all: try (rewrite BI2 in B1; discriminate B1); try (rewrite BI2 in B2; discriminate B2).
    eapply (I_dis s I n1 x n2 y); eassumption.
Qed.

Lemma Inv_crash g s bs :
  Inv s -> calm_step g s (Crashed bs) -> Inv (with_regs (reboot_all bs (s_regs s)) s).
Proof.
  intros I C. set (s' := with_regs (reboot_all bs (s_regs s)) s).
  assert (RB : forall m r', reg_at s' m r' -> exists r0, reg_at s m r0 /\ r' = reboot (nth m bs O) r0).
  { intros m r' X. unfold reg_at, s' in X. simpl in X. rewrite reboot_all_nth in X.
    destruct (nth_error (s_regs s) m) as [r0|] eqn:E; [|discriminate]. injection X as <-.
    exists r0. split; [exact E|reflexivity]. }
  constructor.
  - apply (LInv_crash g s bs); [apply (I_log s I)|exact C].
  - intros m r' X. destruct (RB _ _ X) as [r [A ->]]. destruct (C m r A) as [C1 _].
    pose proof (I_reg s I m r A) as W. destruct W. constructor; simpl; try (intros ? X1; discriminate X1); try discriminate; try (intros; discriminate); try assumption.
    + unfold done. simpl. split; lia.
    + exact Logic.I.
    + auto.
  - apply (I_sub s I).
  - intros n1 r1 n2 r2 p X1 X2 N B1. destruct (RB _ _ X1) as [x [_ ->]]. discriminate.
Qed.

Lemma Inv_init lo hi : lo < hi -> Inv (init lo hi).
Proof.
  intro H. constructor.
  - apply LInv_init. exact H.
  - intros [|n] r X; unfold reg_at in X; simpl in X; [injection X as <-|destruct n; discriminate].
    constructor; simpl; try discriminate; try (intros; discriminate); try (intros p X; discriminate).
    + split; unfold done; simpl; lia.
    + exact Logic.I.
  - intros p i X. exfalso. apply X. unfold geto. simpl. destruct p; reflexivity.
  - intros [|n1] r1 n2 r2 p X1 _ _ B1; unfold reg_at in X1; simpl in X1; [injection X1 as <-; discriminate|destruct n1; discriminate].
Qed.

(** ** All steps *)
Lemma Inv_step g s a s' : any_order g -> Inv s -> calm_step g s a -> step g s a = Some s' -> Inv s'.
Proof.
  intros AO I C ST.
  destruct a; try (simpl in ST; injection ST as <-; eapply Inv_crash; eassumption);
    unfold step, act_reg in ST; destruct (nth_error (s_regs s) n) as [r|] eqn:A; try discriminate ST.
  - simpl in ST. destruct (r_alive r && op_valid r o) eqn:V; [|discriminate]. injection ST as <-.
    apply andb_true_iff in V. destruct V. eapply Inv_propose; eassumption.
  - unfold step_reg in ST. destruct (r_apc r) eqn:PC; try discriminate.
    destruct (nth_error (r_log r) (r_applied r)) as [e|] eqn:NE; [|discriminate].
    destruct (r_alive r) eqn:AL; [|discriminate]. unfold apply_data in ST.
    pose proof (C r e A NE) as CS.
    destruct (Z.eqb_spec (e_epoch e) (r_epoch r)) as [EP|EP]; cbn [negb] in ST.
    + specialize (CS EP). destruct (e_op e) eqn:O.
      * rewrite <- O in ST. injection ST as <-. change (op_versions (e_op e) (e_ts e)) with (versions_of e).
        eapply Inv_write; try eassumption. unfold is_write. rewrite O. exact Logic.I.
      * rewrite <- O in ST. injection ST as <-. change (op_versions (e_op e) (e_ts e)) with (versions_of e).
        eapply Inv_write; try eassumption. unfold is_write. rewrite O. exact Logic.I.
      * injection ST as <-. eapply Inv_skip; try eassumption. right. exact O.
      * destruct ((r_lo r <? mid) && (mid <? r_hi r)) eqn:M; [|discriminate]. injection ST as <-.
        apply andb_true_iff in M. destruct M as [M1 M2]. apply Z.ltb_lt in M1, M2.
        eapply Inv_split; try eassumption. lia.
      * destruct (Nat.eqb_spec src n) as [|MN]; [discriminate|].
        destruct (nth_error (s_regs s) src) as [rs|] eqn:B; [|discriminate].
        destruct (r_alive rs && (r_applied rs =? length (r_log rs))%nat &&
               match r_apc rs with AIdle => true | _ => false end &&
               ((r_hi rs =? r_lo r) || (r_hi r =? r_lo rs))) eqn:K; [|discriminate]. injection ST as <-.
        apply andb_true_iff in K. destruct K as [K K4]. apply andb_true_iff in K. destruct K as [K K3].
        apply andb_true_iff in K. destruct K as [K1 K2]. apply Nat.eqb_eq in K2.
        apply orb_true_iff in K4. rewrite !Z.eqb_eq in K4.
        destruct CS as [CS1 CS2]. destruct (CS2 rs eq_refl) as [CS3 CS4].
        eapply Inv_merge; try eassumption. destruct (r_apc rs); congruence.
    + injection ST as <-. eapply Inv_skip; try eassumption. left. exact EP.
  - eapply Inv_pick; eassumption.
  - eapply Inv_awrite; eassumption.
  - eapply Inv_mark; eassumption.
  - eapply Inv_done; eassumption.
  - eapply Inv_start; eassumption.
  - eapply Inv_scan; eassumption.
  - eapply Inv_catch; eassumption.
  - eapply Inv_lock; eassumption.
  - eapply Inv_last; eassumption.
  - eapply Inv_switch; eassumption.
  - eapply Inv_unlock; eassumption.
  - eapply Inv_save; eassumption.
  - eapply Inv_load; eassumption.
  - eapply Inv_clear; eassumption.
Qed.

Lemma Inv_run g s acts s' : any_order g -> Inv s -> calm_run g s acts s' -> Inv s'.
Proof.
  intros AO I R. induction R; [exact I|]. apply IHR. eapply Inv_step; eassumption.
Qed.

(** ** What a search finds *)
Lemma Inv_finds s n r i :
  Inv s -> serving s n r -> r_apc r = AIdle ->
  (forall j e v, (r_applied r <= j)%nat -> nth_error (r_log r) j = Some e -> ~ In (i, e_ts e, v) (s_data s)) ->
  finds_exactly s n r i.
Proof.
  intros I [A [AL RD]] PC P v. pose proof (I_reg s I n r A) as W.
  assert (DN : done r = r_applied r) by (unfold done; rewrite PC; reflexivity).
  destruct (W_rdy _ _ _ W AL RD) as [p [C H]]. rewrite DN in H.
  unfold searchable. rewrite A, RD, C.
  assert (HIT : forall o x, (match o_has o i with Some w => w =? v | None => false end) = true -> o_has o i = x -> x = Some v).
  { intros o x Y <-. destruct (o_has o i); [|discriminate]. apply Z.eqb_eq in Y. congruence. }
  pose proof (I_sub s I p i) as SP.
  destruct (w_sib r) as [q|].
  - pose proof (I_sub s I q i) as SQ.
    destruct H as [H1 [H2 [H3 [H4 [H5 [H6 [H7 [H8 H9]]]]]]]].
    set (op := geto (s_heap s) p) in *. set (oq := geto (s_heap s) q) in *. unfold in_obj in *.
    split.
    + intro X. injection X as X. apply orb_true_iff in X. destruct X as [X|X].
      * destruct (o_has oq i) as [w|] eqn:E; [|discriminate]. apply Z.eqb_eq in X. subst w.
        assert (IO : o_lo oq <= i < o_hi oq) by (apply SQ; discriminate).
        split; [lia|]. rewrite <- (H9 i IO P). exact E.
      * destruct (o_has op i) as [w|] eqn:E; [|discriminate]. apply Z.eqb_eq in X. subst w.
        assert (IO : o_lo op <= i < o_hi op) by (apply SP; discriminate).
        split; [lia|]. rewrite <- (H8 i IO P). exact E.
    + intros [IR ST]. f_equal. apply orb_true_iff.
      assert (IO : (o_lo oq <= i < o_hi oq) \/ (o_lo op <= i < o_hi op)) by lia.
      destruct IO as [IO|IO].
      * left. rewrite (H9 i IO P), ST. apply Z.eqb_refl.
      * right. rewrite (H8 i IO P), ST. apply Z.eqb_refl.
  - destruct H as [H1 [H2 H3]]. set (op := geto (s_heap s) p) in *. unfold in_obj in SP.
    destruct ((r_lo r =? o_lo op) && (r_hi r =? o_hi op)) eqn:EQ.
    + apply andb_true_iff in EQ. rewrite !Z.eqb_eq in EQ. destruct EQ as [Q1 Q2]. split.
      * intro X. injection X as X. destruct (o_has op i) as [w|] eqn:E; [|discriminate]. apply Z.eqb_eq in X. subst w.
        assert (IO : o_lo op <= i < o_hi op) by (apply SP; discriminate).
        split; [lia|]. rewrite <- (H3 i); [exact E|unfold in_region; lia|exact P].
      * intros [IR ST]. rewrite (H3 i IR P), ST, Z.eqb_refl. reflexivity.
    + split.
      * intro X. injection X as X. apply andb_true_iff in X. destruct X as [X0 X]. apply in_rng_spec in X0.
        destruct (o_has op i) as [w|] eqn:E; [|discriminate]. apply Z.eqb_eq in X. subst w.
        split; [lia|]. rewrite <- (H3 i); [exact E|exact X0|exact P].
      * intros [IR ST]. rewrite (H3 i IR P), ST, Z.eqb_refl, andb_true_r. f_equal. apply in_rng_spec. exact IR.
Qed.

Lemma calm_finds g lo hi acts s n r i :
  any_order g -> lo < hi -> calm_run g (init lo hi) acts s ->
  serving s n r -> r_apc r = AIdle -> no_write_to_come r i -> finds_exactly s n r i.
Proof.
  intros AO LH R SV PC NW.
  assert (I : Inv s) by (eapply Inv_run; [exact AO|apply Inv_init; exact LH|exact R]).
  apply Inv_finds; try assumption. intros j e v J N X.
  apply (NW j e J N). eapply op_versions_ids. eapply (rec_entry s n r j e); [apply (I_log s I)| |exact X].
  split; [apply SV|exact N].
Qed.

(** ** Without restarts *)
Definition NC (s : state) : Prop :=
  forall n r j e i v, ent_at s n r j e -> In (i, e_ts e, v) (s_data s) ->
    (j < r_applied r)%nat \/ (j = r_applied r /\ r_apc r <> AIdle).

Lemma NC_view s s' n f :
  s_data s' = s_data s -> s_regs s' = upd (s_regs s) n f ->
  (forall r, reg_at s n r -> r_log (f r) = r_log r /\ (r_applied r <= r_applied (f r))%nat /\
     (r_apc r <> AIdle -> r_apc (f r) <> AIdle \/ (r_applied r < r_applied (f r))%nat)) ->
  NC s -> NC s'.
Proof.
  intros D R V H m r' j e i v [X N] I0. rewrite D in I0. unfold reg_at in X. rewrite R in X.
  destruct (upd_at _ _ _ _ _ X) as [r [A [[-> ->]|[_ ->]]]].
  - destruct (V r A) as [V1 [V2 V3]]. rewrite V1 in N.
    destruct (H m r j e i v (conj A N) I0) as [K|[K1 K2]]; [left; lia|].
    destruct (V3 K2) as [K|K]; [|left; lia].
    destruct (Nat.eq_dec j (r_applied (f r))) as [E|E]; [right; auto|left; lia].
  - apply (H m r j e i v (conj A N) I0).
Qed.

Lemma NC_heap s h : NC s -> NC (with_heap h s).
Proof. intros H n r j e i v A. exact (H n r j e i v A). Qed.

Lemma NC_step g s a s' :
  any_order g -> Inv s -> NC s -> ~ is_restart a -> calm_step g s a -> step g s a = Some s' -> NC s'.
Proof.
  intros AO I H NR C ST. pose proof (I_log s I) as L.
  destruct a; try (exfalso; apply NR; exact Logic.I);
    unfold step, act_reg in ST; destruct (nth_error (s_regs s) n) as [r|] eqn:A; try discriminate ST.
  - simpl in ST. destruct (r_alive r && op_valid r o) eqn:V; [|discriminate]. injection ST as <-.
    destruct C as [_ C]. intros m r' j e i v [X N] I0. unfold reg_at, on_reg in X. simpl in X, I0.
    destruct (upd_at _ _ _ _ _ X) as [r0 [A' [[-> ->]|[_ ->]]]].
    + assert (r0 = r) by congruence. subst r0. simpl in N |- *.
      destruct (nth_snoc _ _ _ _ N) as [N'|[-> ->]]; [apply (H m r j e i v (conj A N') I0)|].
      exfalso. destruct (L_orig s L _ _ _ I0) as [n2 [r2 [j2 [e2 [[E1 E2] W]]]]].
      apply op_versions_ts in W. simpl in W. specialize (C n2 r2 j2 e2 E1 E2). lia.
    + apply (H m r0 j e i v (conj A' N) I0).
  - unfold step_reg in ST. destruct (r_apc r) eqn:PC; try discriminate.
    destruct (nth_error (r_log r) (r_applied r)) as [e|] eqn:NE; [|discriminate].
    destruct (r_alive r) eqn:AL; [|discriminate]. unfold apply_data in ST.
    assert (SKIP : forall x, x <> AIdle -> NC (on_reg n (set_apc x) s)).
    { intros x XI. apply (NC_view s _ n (set_apc x)); try reflexivity; [|exact H].
      intros r0 A0. simpl. split; [reflexivity|]. split; [lia|]. intros _. left. exact XI. }
    assert (WRT : forall x, x <> AIdle ->
      NC (on_reg n (set_apc x) (with_data (put_versions (s_data s) (op_versions (e_op e) (e_ts e))) s))).
    { intros x XI m r' j e0 i v [X N] I0. simpl in I0. apply put_versions_in in I0.
      unfold reg_at, on_reg in X. simpl in X. destruct (upd_at _ _ _ _ _ X) as [r0 [A' Y]].
      assert (LG : nth_error (r_log r0) j = Some e0) by (destruct Y as [[_ ->]|[_ ->]]; exact N).
      destruct I0 as [I0|I0].
      - apply op_versions_ts in I0.
        destruct (L_ts s L m r0 j e0 n r (r_applied r) e) as [-> ->]; [split; assumption|split; assumption|exact I0|].
        assert (r0 = r) by congruence. subst r0. destruct Y as [[_ ->]|[Y _]]; [|congruence].
        right. split; [reflexivity|exact XI].
      - destruct (H m r0 j e0 i v (conj A' LG) I0) as [K|[K1 K2]].
        + left. destruct Y as [[_ ->]|[_ ->]]; exact K.
        + right. destruct Y as [[-> ->]|[_ ->]]; (split; [exact K1|]); [exact XI|exact K2]. }
    destruct (e_epoch e =? r_epoch r); cbn [negb] in ST; [|injection ST as <-; apply SKIP; discriminate].
    destruct (e_op e) eqn:O.
    + rewrite <- O in ST, WRT. injection ST as <-. apply WRT. destruct (w_ready r && _); discriminate.
    + rewrite <- O in ST, WRT. injection ST as <-. apply WRT. destruct (w_ready r && _); discriminate.
    + injection ST as <-. apply SKIP. discriminate.
    + destruct ((r_lo r <? mid) && (mid <? r_hi r)); [|discriminate]. injection ST as <-.
      intros m r' j e0 i v [X N] I0. unfold reg_at in X. simpl in X, I0.
      destruct (nth_snoc _ _ _ _ X) as [X'|[-> ->]]; [|destruct j; discriminate].
      destruct (upd_at _ _ _ _ _ X') as [r0 [A' [[-> ->]|[_ ->]]]]; [|apply (H m r0 j e0 i v (conj A' N) I0)].
      simpl in *. destruct (H m r0 j e0 i v (conj A' N) I0) as [K|[K1 K2]]; [left; exact K|right; split; [exact K1|discriminate]].
    + destruct (src =? n)%nat; [discriminate|]. destruct (nth_error (s_regs s) src) as [rs|] eqn:B; [|discriminate].
      destruct (_ && _); [|discriminate]. injection ST as <-.
      intros m r' j e0 i v [X N] I0. unfold reg_at in X. simpl in X, I0.
      destruct (upd_at _ _ _ _ _ X) as [r1 [A' Y]]. destruct (upd_at _ _ _ _ _ A') as [r0 [A2 Y2]].
      assert (LG : nth_error (r_log r0) j = Some e0).
      { destruct Y as [[_ ->]|[_ ->]]; destruct Y2 as [[_ ->]|[_ ->]]; exact N. }
      destruct (H m r0 j e0 i v (conj A2 LG) I0) as [K|[K1 K2]].
      * left. destruct Y as [[_ ->]|[_ ->]]; destruct Y2 as [[_ ->]|[_ ->]]; exact K.
      * right. destruct Y as [[_ ->]|[_ ->]]; destruct Y2 as [[_ ->]|[_ ->]]; simpl; (split; [exact K1|]); try discriminate; exact K2.
  - simpl in ST. destruct (r_apc r) eqn:PC; try discriminate.
    assert (X : exists a, a <> AIdle /\ s' = on_reg n (set_apc a) s).
    { destruct (w_ready r); [destruct (w_switch r); [discriminate|destruct (cur_index r)]|]; injection ST as <-; eexists; split; try reflexivity; discriminate. }
    destruct X as [x [X ->]]. apply (NC_view s _ n (set_apc x)); try reflexivity; [|exact H].
    intros r0 A0. simpl. split; [reflexivity|]. split; [lia|]. intros _. left. exact X.
  - simpl in ST. destruct (r_apc r) eqn:PC; try discriminate.
    destruct (nth_error (r_log r) (r_applied r)) as [e|] eqn:NE; [|discriminate].
    destruct (match e_op e with OAdd l => _ | ODel l => _ | _ => _ end) as [h' ok]. injection ST as <-.
    apply (NC_view (with_heap h' s) _ n (set_apc (if ok : bool then AMark else ADone))); try reflexivity; [|exact H].
    intros r0 A0. simpl. split; [reflexivity|]. split; [lia|]. intros _. left. destruct ok; discriminate.
  - simpl in ST. destruct (r_apc r) eqn:PC; try discriminate. injection ST as <-.
    eapply (NC_view s _ n); try reflexivity; [|exact H].
    intros r0 A0. simpl. split; [reflexivity|]. split; [lia|]. intros _. left. discriminate.
  - simpl in ST. destruct (r_apc r) eqn:PC; try discriminate. injection ST as <-.
    eapply (NC_view s _ n); try reflexivity; [|exact H].
    intros r0 A0. simpl. split; [reflexivity|]. split; [lia|]. intros _. right. lia.
  - simpl in ST. destruct (r_bpc r); try discriminate. destruct (r_alive r && may_build r force && (known <=? r_applied r)%nat); [|discriminate].
    injection ST as <-. eapply (NC_view (with_heap _ s) _ n); try reflexivity; [|apply NC_heap; exact H].
    intros r0 A0. simpl. auto.
  - simpl in ST. destruct (r_bpc r); try discriminate.
    injection ST as <-. eapply (NC_view (with_heap _ s) _ n); try reflexivity; [|apply NC_heap; exact H].
    intros r0 A0. simpl. auto.
  - unfold step_reg in ST. destruct (r_bpc r); try discriminate.
    cbv zeta in ST. destruct (S (o_apply (geto (s_heap s) p)) + c_gap g <=? r_applied r)%nat; injection ST as <-; [apply NC_heap; exact H|].
    eapply (NC_view s _ n); try reflexivity; [|exact H]. intros r0 A0. simpl. auto.
  - simpl in ST. destruct (r_bpc r); try discriminate. injection ST as <-.
    eapply (NC_view s _ n); try reflexivity; [|exact H]. intros r0 A0. simpl. auto.
  - simpl in ST. destruct (r_bpc r); try discriminate.
    injection ST as <-. eapply (NC_view (with_heap _ s) _ n); try reflexivity; [|apply NC_heap; exact H].
    intros r0 A0. simpl. auto.
  - simpl in ST. destruct (r_bpc r); try discriminate.
    destruct hold; injection ST as <-; (eapply (NC_view (with_heap _ s) _ n); try reflexivity; [|apply NC_heap; exact H]);
    intros r0 A0; simpl; auto.
  - simpl in ST. destruct (r_bpc r); try discriminate. injection ST as <-.
    eapply (NC_view s _ n); try reflexivity; [|exact H]. intros r0 A0. simpl. auto.
  - simpl in ST. destruct (r_bpc r); try discriminate. destruct (w_own r); [|discriminate].
    destruct (match w_snap r with Some n => _ | None => _ end); [|discriminate]. injection ST as <-.
    eapply (NC_view s _ n); try reflexivity; [|exact H]. intros r0 A0. simpl. auto.
  - simpl in ST. destruct (r_bpc r); try discriminate. destruct (w_snap r); [|discriminate].
    destruct (r_alive r && (n_epoch s0 =? r_epoch r)); [|discriminate]. injection ST as <-.
    eapply (NC_view (with_heap _ s) _ n); try reflexivity; [|apply NC_heap; exact H]. intros r0 A0. simpl. auto.
  - simpl in ST. injection ST as <-.
    eapply (NC_view s _ n); try reflexivity; [|exact H]. intros r0 A0. simpl. auto.
Qed.

Lemma NC_run g s acts s' :
  any_order g -> Inv s -> NC s -> Forall (fun a => ~ is_restart a) acts -> calm_run g s acts s' -> NC s'.
Proof.
  intros AO I H F R. induction R; [exact H|]. inversion F; subst. apply IHR; try assumption.
  - eapply Inv_step; eassumption.
  - eapply NC_step; eassumption.
Qed.

Lemma calm_finds_all g lo hi acts s n r i :
  any_order g -> lo < hi -> Forall (fun a => ~ is_restart a) acts -> calm_run g (init lo hi) acts s ->
  serving s n r -> r_apc r = AIdle -> finds_exactly s n r i.
Proof.
  intros AO LH F R SV PC.
  assert (I : Inv s) by (eapply Inv_run; [exact AO|apply Inv_init; exact LH|exact R]).
  assert (H : NC s).
  { eapply NC_run; [exact AO|apply Inv_init; exact LH| |exact F|exact R].
    intros n0 r0 j e i0 v [X N] []. }
  apply Inv_finds; try assumption. intros j e v J N X.
  destruct (H n r j e i v) as [K|[_ K]]; [split; [apply SV|exact N]|exact X|lia|congruence].
Qed.
