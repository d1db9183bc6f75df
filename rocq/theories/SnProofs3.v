(** Proofs about the replica: the invariant of runs, gentle and not. *)
From Coq Require Import ZArith List Bool Arith Lia.
From Verif Require Import Bytes SnModel SnSpec SnProofs2.
Import ListNotations.
Open Scope nat_scope.

#[local] Arguments Nat.ltb : simpl never.
#[local] Arguments Nat.leb : simpl never.
#[local] Arguments Nat.max : simpl never.

Section Replica.
  Variable ncf : nat.
  Variable g0 : region.
  Variable log : list entry.
  Hypothesis PL : proper_log g0 log.

  Notation G := (region_after g0 log).
  Notation D := (data_after g0 log).
  Notation step := (step ncf log).
  Notation good := (good ncf g0 log).

  Definition snap_ok (sn : snapshot) : Prop :=
    match sn_meta sn with
    | None => True
    | Some m =>
        sn_index sn <= m_index m /\ m_index m <= length log /\ m_region m = G (m_index m) /\
        (forall c k, c < ncf -> inside (G (m_index m)) k -> sn_file sn c k = D (m_index m) c k) /\
        (forall c k, bleb (g_lo g0) k = false -> sn_file sn c k = None)
    end.

  Lemma snap_ok_install j m L gone :
    proper_install ncf g0 log (LInstall j m L) ->
    snap_ok (mkSnapshot j (Some m) (file_of L (g_lo (m_region m))) gone).
  Proof.
    intros (A & B & C & E). unfold snap_ok. cbn [sn_meta sn_index sn_file].
    repeat split; auto.
    - intros c k Hc I. unfold file_of. rewrite C in *.
      rewrite (proj1 I). apply E; auto.
    - intros c k F. unfold file_of. rewrite C, (lo_const g0 log PL), F by auto. reflexivity.
  Qed.

  Lemma snap_ok_gone sn gone :
    snap_ok sn -> snap_ok (mkSnapshot (sn_index sn) (sn_meta sn) (sn_file sn) gone).
  Proof. unfold snap_ok. cbn. destruct (sn_meta sn); auto. Qed.

  (** ** Gentle runs *)

  Definition some_good (s : replica) : Prop := exists a h, good a h (r_region s) (r_db s).

  Definition inv (s : replica) : Prop :=
    snap_ok (r_snap s) /\
    match r_pc s with
    | Up => r_saved s <= r_applied s /\ sn_index (r_snap s) <= r_pos s /\
            exists h, good (Nat.max (r_applied s) (r_pos s)) h (r_region s) (r_db s)
    | Down => may_stop s /\
        ((exists h, good (Nat.max (r_saved s) (sn_index (r_snap s))) h (r_region s) (r_db s)) \/
         exists m, sn_meta (r_snap s) = Some m /\ r_saved s < m_index m /\
                   (some_good s \/ r_region s = G (m_index m)))
    | Loading st => exists m, sn_meta (r_snap s) = Some m /\ r_saved s < m_index m /\
        match st with
        | SMeta => sn_gone (r_snap s) = [] /\ (some_good s \/ r_region s = G (m_index m))
        | SDel c => sn_gone (r_snap s) = [] /\ r_region s = G (m_index m) /\
            forall c' k, c' < c -> inside (r_region s) k -> r_db s c' k = None
        | SIngest c => sn_gone (r_snap s) = [] /\ r_region s = G (m_index m) /\
            forall c' k, c' < ncf -> inside (r_region s) k ->
              r_db s c' k = if c' <? c then D (m_index m) c' k else None
        | SRemove c => r_region s = G (m_index m) /\
            forall c' k, c' < ncf -> inside (r_region s) k -> r_db s c' k = D (m_index m) c' k
        | SSave => exists h, good (sn_index (r_snap s)) h (r_region s) (r_db s)
        end
    end.

  Lemma inv_fresh d : empty_inside ncf g0 d -> inv (fresh g0 d).
  Proof.
    intro E. split; [exact I|]. cbn. repeat split; auto.
    exists 0. split; auto; try (cbn; lia).
  Qed.

  Lemma begin_load_inv s :
    snap_ok (r_snap s) -> r_saved s <= r_applied s -> sn_index (r_snap s) <= r_pos s ->
    (forall m, sn_meta (r_snap s) = Some m -> r_applied s < m_index m ->
       sn_gone (r_snap s) = [] /\ (some_good s \/ r_region s = G (m_index m))) ->
    ((forall m, sn_meta (r_snap s) = Some m -> m_index m <= r_applied s) ->
       exists h, good (Nat.max (r_applied s) (r_pos s)) h (r_region s) (r_db s)) ->
    inv (begin_load s).
  Proof.
    intros SO SA SI HL HU. unfold begin_load.
    destruct (sn_meta (r_snap s)) as [m|] eqn:M.
    - destruct (Nat.ltb_spec (r_applied s) (m_index m)) as [Lt | Ge].
      + split; [exact SO|]. cbn. exists m. destruct (HL m eq_refl Lt) as [A B].
        repeat split; auto; lia.
      + split; [exact SO|]. cbn. repeat split; auto. apply HU.
        intros m' E. injection E as <-. exact Ge.
    - split; [exact SO|]. cbn. repeat split; auto. apply HU. discriminate.
  Qed.

  Lemma load_step_inv st m s :
    inv s -> r_pc s = Loading st -> sn_meta (r_snap s) = Some m -> inv (load_step ncf st m s).
  Proof.
    intros [SO H] P M. rewrite P in H. destruct H as (m' & M' & SV & H).
    rewrite M in M'. injection M' as <-.
    pose proof SO as SO'. unfold snap_ok in SO'. rewrite M in SO'.
    destruct SO' as (J & IL & MR & FI & _).
    destruct st as [ | c | c | c | ]; cbn [load_step].
    - (* SMeta *)
      destruct H as [GN H].
      destruct (Nat.ltb_spec (g_ver (m_region m)) (g_ver (r_region s))) as [V | V].
      + split; [exact SO|]. cbn. exists m. repeat split; auto.
        destruct H as [(a & h & K) | EQ].
        * exists h. eapply good_older; eauto. rewrite <- MR. exact V.
        * exfalso. rewrite EQ, MR in V. lia.
      + split; [exact SO|]. cbn. exists m. repeat split; auto.
        * destruct (Nat.ltb_spec (g_ver (r_region s)) (g_ver (m_region m))) as [V2 | V2].
          -- exact MR.
          -- destruct H as [(a & h & K) | E]; [|exact E].
             destruct K as [K1 K2 K3 _]. rewrite K3. apply (same_ver g0 log PL); auto.
             rewrite K3, MR in V, V2. lia.
        * intros c' k Lc. lia.
    - (* SDel *)
      destruct H as (GN & RG & DB).
      destruct (Nat.ltb_spec c ncf) as [L | L].
      + split; [exact SO|]. cbn. exists m. repeat split; auto.
        intros c' k Lc I. unfold del_range.
        destruct (Nat.eqb_spec c' c) as [-> | NE]; cbn [andb].
        * destruct I as [I1 I2]. rewrite I1, I2. reflexivity.
        * apply DB; auto. lia.
      + split; [exact SO|]. cbn. exists m. repeat split; auto.
        intros c' k Lc I. apply DB; auto. lia.
    - (* SIngest *)
      destruct H as (GN & RG & DB).
      destruct (Nat.ltb_spec c ncf) as [L | L].
      + split; [exact SO|]. cbn. exists m. repeat split; auto.
        intros c' k Lc I. unfold ingest. rewrite GN. cbn [existsb].
        destruct (Nat.eqb_spec c' c) as [-> | NE].
        * rewrite (FI c k Lc) by (rewrite <- RG; exact I).
          rewrite (DB c k Lc I), Nat.ltb_irrefl.
          destruct (Nat.ltb_spec c (S c)); [|lia].
          destruct (D (m_index m) c k); reflexivity.
        * rewrite (DB c' k Lc I).
          destruct (Nat.ltb_spec c' c); destruct (Nat.ltb_spec c' (S c)); auto; lia.
      + split; [exact SO|]. cbn. exists m. repeat split; auto.
        intros c' k Lc I. rewrite (DB c' k Lc I).
        destruct (Nat.ltb_spec c' c); auto; lia.
    - (* SRemove *)
      destruct H as (RG & DB).
      destruct (Nat.ltb_spec c ncf) as [L | L].
      + split; [apply (snap_ok_gone _ (c :: sn_gone (r_snap s)) SO)|]. cbn. exists m. auto.
      + split; [exact SO|]. cbn. exists m. repeat split; auto.
        exists (m_index m). rewrite RG. apply good_loaded; auto.
        intros c' k Lc I. apply DB; auto. rewrite RG. exact I.
    - (* SSave *)
      split; [exact SO|]. cbn. repeat split; auto.
      rewrite Nat.max_id. exact H.
  Qed.

  Lemma exec_some e g d o : exists g' d' o', exec e (g, d, o) = (g', d', o').
  Proof. destruct (exec e (g, d, o)) as [[a b] c]. eauto. Qed.

  Lemma step_inv l s s' :
    inv s -> proper_install ncf g0 log l -> (l = LCrash -> may_stop s) ->
    step l s = Some s' -> inv s'.
  Proof.
    intros IV PI MS E. pose proof IV as [SO H].
    destruct l; cbn [SnModel.step] in E.
    - (* LApply *)
      destruct (r_pc s); try discriminate. destruct H as (SV & SI & h & K).
      destruct (nth_error log (r_pos s)) as [e|] eqn:N; [|discriminate].
      destruct (Nat.leb_spec (S (r_pos s)) (r_applied s)) as [L | L].
      + injection E as <-. split; [exact SO|]. cbn. repeat split; auto.
        exists h. rewrite Nat.max_l in K by lia. rewrite Nat.max_l by lia. exact K.
      + destruct (exec e (r_region s, r_db s, r_opened s)) as [[g d] o] eqn:X.
        injection E as <-. split; [exact SO|]. cbn [r_pc r_saved r_applied r_snap r_pos r_region r_db].
        rewrite Nat.max_r in K by lia.
        destruct (good_exec ncf g0 log PL _ _ _ _ _ _ _ _ _ K N X) as [h' K'].
        split; [|split].
        * match goal with |- (if ?b then _ else _) <= _ => destruct b end; lia.
        * lia.
        * exists h'. rewrite Nat.max_id. exact K'.
    - (* LSnapSave *)
      destruct (r_pc s); try discriminate. destruct H as (SV & SI & h & K).
      destruct (sn_index (r_snap s) <? r_pos s); [|discriminate].
      destruct (r_applied s =? r_pos s); [|discriminate].
      injection E as <-. split; [exact I|]. cbn. eauto.
    - (* LSnapSaved *)
      destruct (r_pc s); try discriminate. destruct H as (SV & SI & h & K).
      destruct (sn_meta (r_snap s)) eqn:M; [discriminate|].
      injection E as <-. split; [exact SO|]. cbn. eauto.
    - (* LInstall *)
      destruct (r_pc s); try discriminate. destruct H as (SV & SI & h & K).
      destruct (Nat.ltb_spec (sn_index (r_snap s)) j) as [J1 | J1]; cbn [andb] in E; [|discriminate].
      destruct (Nat.leb_spec (r_pos s) j) as [J2 | J2]; [|discriminate].
      injection E as <-. apply begin_load_inv; cbn [r_snap r_saved r_applied r_pos r_region r_db sn_index sn_meta sn_gone].
      + apply snap_ok_install. exact PI.
      + exact SV.
      + lia.
      + intros m' _ _. split; [reflexivity|]. left. exists (Nat.max (r_applied s) (r_pos s)), h. exact K.
      + intro Q. specialize (Q m eq_refl). destruct PI as (PJ & _).
        exists h. rewrite Nat.max_l by lia. rewrite Nat.max_l in K by lia. exact K.
    - (* LLoad *)
      destruct (r_pc s) as [|st|] eqn:P; try discriminate.
      destruct (sn_meta (r_snap s)) as [m|] eqn:M; [|discriminate].
      injection E as <-. apply load_step_inv; auto.
    - (* LCrash *)
      specialize (MS eq_refl).
      destruct (r_pc s) as [|st|] eqn:P; try discriminate; injection E as <-; (split; [exact SO|]).
      + destruct H as (SV & SI & h & K). cbn. split; [exact MS|]. left. exists h.
        eapply good_weaker; [|exact K]. lia.
      + cbn. split; [exact MS|]. right. destruct H as (m & M & SV & H).
        exists m. split; [exact M|]. split; [exact SV|].
        unfold may_stop in MS. rewrite M in MS.
        destruct st as [ | c | c | c | ].
        * tauto.
        * tauto.
        * tauto.
        * tauto.
        * left. destruct H as [h K]. exists (sn_index (r_snap s)), h. exact K.
    - (* LStart *)
      destruct (r_pc s); try discriminate. destruct H as [MSP H].
      injection E as <-. apply begin_load_inv; cbn [r_snap r_saved r_applied r_pos r_region r_db]; auto.
      + intros m M Lt. unfold may_stop in MSP. rewrite M in MSP.
        split; [destruct MSP; [assumption | lia]|].
        destruct H as [(h & K) | (m' & M' & _ & H)].
        * left. exists (Nat.max (r_saved s) (sn_index (r_snap s))), h. exact K.
        * rewrite M in M'. injection M' as <-. exact H.
      + intro Q. destruct H as [K | (m' & M' & Lt & _)]; [exact K|].
        exfalso. specialize (Q m' M'). lia.
  Qed.

  Lemma gentle_inv s ls s' :
    gentle ncf log s ls s' -> inv s -> Forall (proper_install ncf g0 log) ls -> inv s'.
  Proof.
    induction 1 as [s | s l s1 ls s2 E MS R IH]; intros IV F; auto.
    inversion F; subst. apply IH; auto. eapply step_inv; eauto.
  Qed.

  Lemma caught_up_holds d ls s :
    empty_inside ncf g0 d ->
    gentle ncf log (fresh g0 d) ls s -> Forall (proper_install ncf g0 log) ls ->
    caught_up log s ->
    r_region s = G (length log) /\
    forall c k, c < ncf -> inside (r_region s) k -> r_db s c k = D (length log) c k.
  Proof.
    intros E R F [U A]. destruct (gentle_inv _ _ _ R (inv_fresh d E) F) as [_ H].
    rewrite U in H. destruct H as (_ & _ & h & [K1 K2 K3 K4]).
    assert (h = length log) as -> by lia.
    split; [exact K3|]. intros c k Hc I. apply K4; auto.
    intros n e X Y. lia.
  Qed.

  (** ** All runs: the region *)

  Definition winv (s : replica) : Prop :=
    snap_ok (r_snap s) /\
    exists h, h <= length log /\ r_region s = G h /\
    match r_pc s with
    | Up => r_saved s <= r_applied s /\ sn_index (r_snap s) <= r_pos s /\
            Nat.max (r_applied s) (r_pos s) <= h
    | Down => Nat.max (r_saved s) (sn_index (r_snap s)) <= h \/
              exists m, sn_meta (r_snap s) = Some m /\ r_saved s < m_index m
    | Loading st => exists m, sn_meta (r_snap s) = Some m /\ r_saved s < m_index m /\
        match st with
        | SMeta => True
        | SDel _ | SIngest _ | SRemove _ => h = m_index m
        | SSave => sn_index (r_snap s) <= h
        end
    end.

  Lemma winv_fresh d : winv (fresh g0 d).
  Proof. split; [exact I|]. exists 0. cbn. repeat split; auto; lia. Qed.

  Lemma begin_load_winv s h :
    snap_ok (r_snap s) -> r_saved s <= r_applied s -> sn_index (r_snap s) <= r_pos s ->
    h <= length log -> r_region s = G h ->
    ((forall m, sn_meta (r_snap s) = Some m -> m_index m <= r_applied s) ->
     Nat.max (r_applied s) (r_pos s) <= h) ->
    winv (begin_load s).
  Proof.
    intros SO SA SI L RG HU. unfold begin_load.
    destruct (sn_meta (r_snap s)) as [m|] eqn:M.
    - destruct (Nat.ltb_spec (r_applied s) (m_index m)) as [Lt | Ge].
      + split; [exact SO|]. exists h. cbn. repeat split; auto. exists m. repeat split; auto; lia.
      + split; [exact SO|]. exists h. cbn. repeat split; auto. apply HU.
        intros m' E. injection E as <-. exact Ge.
    - split; [exact SO|]. exists h. cbn. repeat split; auto. apply HU. discriminate.
  Qed.

  Lemma load_step_winv st m s :
    winv s -> r_pc s = Loading st -> sn_meta (r_snap s) = Some m -> winv (load_step ncf st m s).
  Proof.
    intros [SO (h & HL & RG & H)] P M. rewrite P in H. destruct H as (m' & M' & SV & H).
    rewrite M in M'. injection M' as <-.
    pose proof SO as SO'. unfold snap_ok in SO'. rewrite M in SO'.
    destruct SO' as (J & IL & MR & _).
    destruct st as [ | c | c | c | ]; cbn [load_step].
    - destruct (Nat.ltb_spec (g_ver (m_region m)) (g_ver (r_region s))) as [V | V].
      + split; [exact SO|]. exists h. cbn. repeat split; auto. exists m. repeat split; auto.
        destruct (Nat.le_gt_cases h (m_index m)) as [L | L]; [|lia].
        pose proof (ver_mono g0 log PL h (m_index m) L IL). rewrite RG, MR in V. lia.
      + split; [exact SO|]. exists (m_index m). cbn. repeat split; auto.
        * destruct (Nat.ltb_spec (g_ver (r_region s)) (g_ver (m_region m))) as [V2 | V2]; auto.
          rewrite RG. apply (same_ver g0 log PL); auto. rewrite RG, MR in V, V2. lia.
        * exists m. auto.
    - subst h. destruct (c <? ncf); (split; [exact SO|]; exists (m_index m); cbn; repeat split; auto; exists m; auto).
    - subst h. destruct (c <? ncf); (split; [exact SO|]; exists (m_index m); cbn; repeat split; auto; exists m; auto).
    - subst h. destruct (c <? ncf).
      + split; [apply (snap_ok_gone _ (c :: sn_gone (r_snap s)) SO)|]. exists (m_index m).
        cbn; repeat split; auto; exists m; auto.
      + split; [exact SO|]; exists (m_index m); cbn; repeat split; auto; exists m; auto.
    - split; [exact SO|]. exists h. cbn. repeat split; auto. lia.
  Qed.

  Lemma step_winv l s s' :
    winv s -> proper_install ncf g0 log l -> step l s = Some s' -> winv s'.
  Proof.
    intros WV PI E. pose proof WV as [SO (h & HL & RG & H)].
    destruct l; cbn [SnModel.step] in E.
    - destruct (r_pc s); try discriminate. destruct H as (SV & SI & K).
      destruct (nth_error log (r_pos s)) as [e|] eqn:N; [|discriminate].
      assert (LP : r_pos s < length log) by (apply nth_error_Some; congruence).
      destruct (Nat.leb_spec (S (r_pos s)) (r_applied s)) as [L | L].
      + injection E as <-. split; [exact SO|]. exists h. cbn. repeat split; auto. lia.
      + destruct (exec e (r_region s, r_db s, r_opened s)) as [[g d] o] eqn:X.
        injection E as <-. split; [exact SO|]. cbn [r_pc r_saved r_applied r_snap r_pos r_region r_db].
        assert (good_r : SnProofs2.good 0 g0 log (r_pos s) h (r_region s) (r_db s)).
        { split; auto; [lia|]. intros c k Hc. lia. }
        destruct (good_exec 0 g0 log PL _ _ _ _ _ _ _ _ _ good_r N X) as [h' [K1 K2 K3 _]].
        exists h'. repeat split; auto; try lia.
        match goal with |- (if ?b then _ else _) <= _ => destruct b end; lia.
    - destruct (r_pc s); try discriminate. destruct H as (SV & SI & K).
      destruct (sn_index (r_snap s) <? r_pos s); [|discriminate].
      destruct (r_applied s =? r_pos s); [|discriminate].
      injection E as <-. split; [exact I|]. exists h. cbn. auto.
    - destruct (r_pc s); try discriminate. destruct H as (SV & SI & K).
      destruct (sn_meta (r_snap s)) eqn:M; [discriminate|].
      injection E as <-. split; [exact SO|]. exists h. cbn. auto.
    - destruct (r_pc s); try discriminate. destruct H as (SV & SI & K).
      destruct (Nat.ltb_spec (sn_index (r_snap s)) j) as [J1 | J1]; cbn [andb] in E; [|discriminate].
      destruct (Nat.leb_spec (r_pos s) j) as [J2 | J2]; [|discriminate].
      injection E as <-.
      apply begin_load_winv with (h := h); cbn [r_snap r_saved r_applied r_pos r_region r_db sn_index sn_meta sn_gone]; auto.
      + apply snap_ok_install. exact PI.
      + intro Q. specialize (Q m eq_refl). destruct PI as (PJ & _). lia.
    - destruct (r_pc s) as [|st|] eqn:P; try discriminate.
      destruct (sn_meta (r_snap s)) as [m|] eqn:M; [|discriminate].
      injection E as <-. apply load_step_winv; auto.
    - destruct (r_pc s) as [|st|] eqn:P; try discriminate; injection E as <-;
        (split; [exact SO|]); exists h; cbn; repeat split; auto.
      + left. lia.
      + right. destruct H as (m & M & SV & _). eauto.
    - destruct (r_pc s); try discriminate.
      injection E as <-.
      apply begin_load_winv with (h := h); cbn [r_snap r_saved r_applied r_pos r_region r_db]; auto.
      intro Q. destruct H as [K | (m & M & Lt)]; [lia|]. specialize (Q m M). lia.
  Qed.

  (** ** What a run leaves alone *)

  Definition snap_within (sn : snapshot) : Prop :=
    match sn_meta sn with
    | None => True
    | Some m => forall c k, c < ncf -> bltb k (g_hi (m_region m)) = false -> sn_file sn c k = None
    end.

  (** A key outside the region, either before its start or with nothing beyond the ends of
      the snapshots. *)
  Definition clear_of (sn : snapshot) (k : bytes) : Prop :=
    bleb (g_lo g0) k = false \/ snap_within sn.

  Lemma exec_outside e g d o g' d' o' a h c k :
    nth_error log a = Some e -> a <= h -> h <= length log -> g = G h ->
    exec e (g, d, o) = (g', d', o') -> ~ inside g k ->
    d' c k = d c k /\ ~ inside g' k.
  Proof.
    intros N A H RG X NI.
    assert (La : a < length log) by (apply nth_error_Some; congruence).
    destruct (PL a e N) as [P1 P2]. cbn [exec] in X.
    destruct (Nat.eqb_spec (e_ver e) (g_ver g)) as [V | V].
    - assert (Va : g_ver (G a) = g_ver g).
      { pose proof (ver_mono g0 log PL a h A H). rewrite RG in *. lia. }
      assert (Ga : G a = g).
      { rewrite RG. apply (same_ver g0 log PL); auto; [lia|]. rewrite Va, RG. reflexivity. }
      destruct (P2 ltac:(lia)) as [W SP]. rewrite Ga in *.
      destruct (e_cmd e) as [ops|m] eqn:C.
      + assert (g' = g) by congruence. assert (d' = fold_left do_op ops d) by congruence. subst g' d'.
        split; auto. rewrite fold_ops.
        assert (OA : ops_at ops c k None = None).
        { apply ops_at_none. intro W'. apply NI. eapply W; eauto. }
        rewrite OA. reflexivity.
      + assert (g' = mkRegion (S (g_ver g)) (g_lo g) m) by congruence.
        assert (d' = d) by congruence. subst g' d'. split; auto.
        intros [I1 I2]. cbn [g_lo g_hi] in *. apply NI. split; auto.
        destruct (SP m eq_refl) as [_ B]. unfold bltb in *.
        destruct (bcmp k m) eqn:E1; try discriminate.
        destruct (bcmp m (g_hi g)) eqn:E2; try discriminate.
        rewrite (bcmp_trans _ _ _ E1 E2). reflexivity.
    - assert (g' = g) by congruence. assert (d' = d) by congruence. subst. auto.
  Qed.

  Lemma begin_load_frame s : r_db (begin_load s) = r_db s /\ r_region (begin_load s) = r_region s /\
    r_snap (begin_load s) = r_snap s.
  Proof.
    unfold begin_load. destruct (sn_meta (r_snap s)); auto.
    destruct (r_applied s <? m_index s0); auto.
  Qed.

  Lemma load_outside st m s c k :
    winv s -> r_pc s = Loading st -> sn_meta (r_snap s) = Some m ->
    ~ inside (r_region s) k -> clear_of (r_snap s) k ->
    r_db (load_step ncf st m s) c k = r_db s c k /\
    ~ inside (r_region (load_step ncf st m s)) k /\
    clear_of (r_snap (load_step ncf st m s)) k.
  Proof.
    intros [SO (h & HL & RG & H)] P M NI CO. rewrite P in H. destruct H as (m' & M' & SV & H).
    rewrite M in M'. injection M' as <-.
    pose proof SO as SO'. unfold snap_ok in SO'. rewrite M in SO'.
    destruct SO' as (J & IL & MR & _ & BL).
    destruct st as [ | c0 | c0 | c0 | ]; cbn [load_step].
    - destruct (Nat.ltb_spec (g_ver (m_region m)) (g_ver (r_region s))) as [V | V]; [auto|].
      cbn [r_db r_region r_snap]. repeat split; auto.
      destruct (Nat.ltb_spec (g_ver (r_region s)) (g_ver (m_region m))) as [V2 | V2]; auto.
      intro I. apply NI. rewrite RG. rewrite MR in I.
      apply (inside_mono g0 log PL h (m_index m)); auto.
      destruct (Nat.le_gt_cases h (m_index m)) as [L | L]; auto.
      pose proof (ver_mono g0 log PL (m_index m) h ltac:(lia) HL). rewrite RG, MR in V2. lia.
    - destruct (c0 <? ncf); [|auto]. cbn [r_db r_region r_snap]. repeat split; auto.
      unfold del_range. destruct (c =? c0); cbn [andb]; auto.
      destruct (bleb (g_lo (r_region s)) k && bltb k (g_hi (r_region s))) eqn:B; auto.
      apply andb_prop in B. contradiction.
    - destruct (Nat.ltb_spec c0 ncf) as [Lc | Lc]; [|auto]. cbn [r_db r_region r_snap]. repeat split; auto.
      unfold ingest. destruct (existsb (Nat.eqb c0) (sn_gone (r_snap s))); auto.
      destruct (Nat.eqb_spec c c0) as [-> | NE]; auto.
      assert (F : sn_file (r_snap s) c0 k = None); [|rewrite F; reflexivity].
      destruct (bleb (g_lo g0) k) eqn:BE; [|auto].
      destruct CO as [CO | CO]; [congruence|].
      unfold snap_within in CO. rewrite M in CO. apply CO; auto.
      destruct (bltb k (g_hi (m_region m))) eqn:BH; auto. exfalso. apply NI.
      rewrite RG, H, <- MR. split; auto. rewrite MR, (lo_const g0 log PL); auto.
    - destruct (c0 <? ncf); [|auto]. cbn [r_db r_region r_snap]. repeat split; auto.
    - cbn. auto.
  Qed.

  Lemma step_outside l s s' c k :
    winv s -> proper_install ncf g0 log l -> step l s = Some s' ->
    ~ inside (r_region s) k -> clear_of (r_snap s) k ->
    (bleb (g_lo g0) k = false \/ nothing_beyond ncf l) ->
    r_db s' c k = r_db s c k /\ ~ inside (r_region s') k /\ clear_of (r_snap s') k.
  Proof.
    intros WV PI E NI CO NB. pose proof WV as [SO (h & HL & RG & H)].
    destruct l; cbn [SnModel.step] in E.
    - destruct (r_pc s); try discriminate. destruct H as (SV & SI & K).
      destruct (nth_error log (r_pos s)) as [e|] eqn:N; [|discriminate].
      destruct (Nat.leb_spec (S (r_pos s)) (r_applied s)) as [L | L].
      + injection E as <-. cbn. auto.
      + destruct (exec e (r_region s, r_db s, r_opened s)) as [[g d] o] eqn:X.
        injection E as <-. cbn [r_pc r_saved r_applied r_snap r_pos r_region r_db].
        destruct (exec_outside e _ _ _ _ _ _ (r_pos s) h c k N ltac:(lia) HL RG X NI). auto.
    - destruct (r_pc s); try discriminate.
      destruct (sn_index (r_snap s) <? r_pos s); [|discriminate].
      destruct (r_applied s =? r_pos s); [|discriminate].
      injection E as <-. cbn. split; [reflexivity|]. split; [exact NI|]. right. exact I.
    - destruct (r_pc s); try discriminate.
      destruct (sn_meta (r_snap s)) eqn:M; [discriminate|].
      injection E as <-. cbn. auto.
    - destruct (r_pc s); try discriminate.
      destruct ((sn_index (r_snap s) <? j) && (r_pos s <=? j)); [|discriminate].
      injection E as <-.
      match goal with |- context [begin_load ?x] => destruct (begin_load_frame x) as (-> & -> & ->) end.
      cbn [r_db r_region r_snap]. repeat split; auto.
      destruct NB as [NB | NB]; [left; exact NB|]. right.
      unfold snap_within. cbn [sn_meta sn_file]. intros c' k' Hc B. unfold file_of.
      destruct (bleb (g_lo (m_region m)) k'); auto.
    - destruct (r_pc s) as [|st|] eqn:P; try discriminate.
      destruct (sn_meta (r_snap s)) as [m|] eqn:M; [|discriminate].
      injection E as <-. apply load_outside; auto.
    - destruct (r_pc s) as [|st|] eqn:P; try discriminate; injection E as <-; cbn; auto.
    - destruct (r_pc s); try discriminate. injection E as <-.
      match goal with |- context [begin_load ?x] => destruct (begin_load_frame x) as (-> & -> & ->) end.
      cbn [r_db r_region r_snap]. auto.
  Qed.

  Lemma run_nil s : run ncf log [] s = Some s.
  Proof. reflexivity. Qed.
  Lemma run_none ls : fold_left (fun o l => match o with Some s => step l s | None => None end) ls None = None.
  Proof. induction ls; auto. Qed.
  Lemma run_cons l ls s : run ncf log (l :: ls) s =
    match step l s with Some s1 => run ncf log ls s1 | None => None end.
  Proof.
    unfold run. cbn [fold_left]. destruct (step l s); auto. apply run_none.
  Qed.
  Lemma run_app ls1 ls2 s : run ncf log (ls1 ++ ls2) s =
    match run ncf log ls1 s with Some s1 => run ncf log ls2 s1 | None => None end.
  Proof.
    revert s. induction ls1 as [|l ls1 IH]; intro s; cbn [app]; [reflexivity|].
    rewrite !run_cons. destruct (step l s); auto.
  Qed.

  Lemma run_winv ls : forall s s', run ncf log ls s = Some s' -> winv s ->
    Forall (proper_install ncf g0 log) ls -> winv s'.
  Proof.
    induction ls as [|l ls IH]; intros s s' R W F.
    - injection R as <-. exact W.
    - rewrite run_cons in R. destruct (step l s) as [s1|] eqn:E; [|discriminate].
      inversion F; subst. eapply IH; eauto. eapply step_winv; eauto.
  Qed.

  Lemma run_outside ls : forall s s' c k, run ncf log ls s = Some s' -> winv s ->
    Forall (proper_install ncf g0 log) ls ->
    (bleb (g_lo g0) k = false \/ Forall (nothing_beyond ncf) ls) ->
    ~ inside (r_region s) k -> clear_of (r_snap s) k ->
    r_db s' c k = r_db s c k.
  Proof.
    induction ls as [|l ls IH]; intros s s' c k R W F NB NI CO.
    - injection R as <-. reflexivity.
    - rewrite run_cons in R. destruct (step l s) as [s1|] eqn:E; [|discriminate].
      inversion F; subst.
      destruct (step_outside l s s1 c k W ltac:(auto) E NI CO) as (A & B & C).
      { destruct NB as [NB | NB]; [auto|]. inversion NB; auto. }
      rewrite <- A. eapply IH; eauto.
      + eapply step_winv; eauto.
      + destruct NB as [NB | NB]; [auto|]. inversion NB; auto.
  Qed.

  Lemma run_clear ls : forall s s' k, run ncf log ls s = Some s' ->
    (bleb (g_lo g0) k = false \/ Forall (nothing_beyond ncf) ls) ->
    clear_of (r_snap s) k -> clear_of (r_snap s') k.
  Proof.
    induction ls as [|l ls IH]; intros s s' k R NB CO.
    - injection R as <-. exact CO.
    - rewrite run_cons in R. destruct (step l s) as [s1|] eqn:E; [|discriminate].
      apply (IH s1 s' k R).
      { destruct NB as [NB | NB]; [auto|]. inversion NB; auto. }
      destruct NB as [NB | NB]; [left; exact NB|]. inversion NB; subst.
      clear IH R. destruct l; cbn [SnModel.step] in E; destruct (r_pc s) as [|st|]; try discriminate.
      + destruct (nth_error log (r_pos s)) as [e|]; [|discriminate].
        destruct (S (r_pos s) <=? r_applied s); [injection E as <-; exact CO|].
        destruct (exec e (r_region s, r_db s, r_opened s)) as [[g d] o]. injection E as <-. exact CO.
      + destruct (sn_index (r_snap s) <? r_pos s); [|discriminate].
        destruct (r_applied s =? r_pos s); [|discriminate].
        injection E as <-. right. exact I.
      + destruct (sn_meta (r_snap s)); [discriminate|]. injection E as <-. exact CO.
      + destruct ((sn_index (r_snap s) <? j) && (r_pos s <=? j)); [|discriminate].
        injection E as <-.
        match goal with |- context [begin_load ?x] => destruct (begin_load_frame x) as (_ & _ & ->) end.
        right. unfold snap_within. cbn [r_snap sn_meta sn_file]. intros c' k' Hc B. unfold file_of.
        destruct (bleb (g_lo (m_region m)) k'); auto.
      + destruct (sn_meta (r_snap s)) as [m|] eqn:M; [|discriminate]. injection E as <-.
        destruct st as [ | c | c | c | ]; cbn [load_step].
        * destruct (g_ver (m_region m) <? g_ver (r_region s)); exact CO.
        * destruct (c <? ncf); exact CO.
        * destruct (c <? ncf); exact CO.
        * destruct (c <? ncf); [|exact CO].
          destruct CO as [CO | CO]; [left; exact CO | right].
          unfold snap_within in *. cbn. rewrite M in *. exact CO.
        * exact CO.
      + injection E as <-. exact CO.
      + injection E as <-. exact CO.
      + injection E as <-.
        match goal with |- context [begin_load ?x] => destruct (begin_load_frame x) as (_ & _ & ->) end.
        exact CO.
  Qed.

  Lemma others_untouched d ls1 ls2 s1 s2 c k :
    run ncf log ls1 (fresh g0 d) = Some s1 -> run ncf log ls2 s1 = Some s2 ->
    Forall (proper_install ncf g0 log) (ls1 ++ ls2) ->
    (bleb (g_lo g0) k = false \/ Forall (nothing_beyond ncf) (ls1 ++ ls2)) ->
    ~ inside (r_region s1) k ->
    r_db s2 c k = r_db s1 c k.
  Proof.
    intros R1 R2 F NB NI. apply Forall_app in F. destruct F as [F1 F2].
    eapply run_outside; eauto.
    - eapply run_winv; eauto. apply winv_fresh.
    - destruct NB as [NB | NB]; [auto|]. apply Forall_app in NB. tauto.
    - eapply run_clear; eauto.
      + destruct NB as [NB | NB]; [auto|]. apply Forall_app in NB. tauto.
      + right. exact I.
  Qed.

  (** ** Splits *)

  Lemma opened_after n : n <= length log ->
    snd (after g0 log n) = seq (g_ver g0) (g_ver (G n) - g_ver g0) /\ g_ver g0 <= g_ver (G n).
  Proof.
    induction n as [|n IH]; intro H.
    - cbn. rewrite Nat.sub_diag. auto.
    - destruct (IH ltac:(lia)) as [A B].
      destruct (nth_in log n ltac:(lia)) as [e E].
      rewrite (G_S g0 log n e E). rewrite (after_S g0 log n e E).
      unfold region_after in *. destruct (after g0 log n) as [[g dd] o]. cbn [fst snd exec] in *.
      destruct (e_ver e =? g_ver g); [|auto]. destruct (e_cmd e); [auto|].
      cbn [snd g_ver]. split; [|lia]. rewrite A.
      replace (S (g_ver g) - g_ver g0) with (S (g_ver g - g_ver g0)) by lia.
      rewrite seq_S. do 2 f_equal. lia.
  Qed.

  Definition all_open (s : replica) : Prop :=
    g_ver g0 <= g_ver (r_region s) /\
    r_opened s = seq (g_ver g0) (g_ver (r_region s) - g_ver g0).

  Lemma exec_open e g d o g' d' o' :
    exec e (g, d, o) = (g', d', o') ->
    g_ver g0 <= g_ver g -> o = seq (g_ver g0) (g_ver g - g_ver g0) ->
    g_ver g0 <= g_ver g' /\ o' = seq (g_ver g0) (g_ver g' - g_ver g0).
  Proof.
    intros X L O. cbn [exec] in X. destruct (e_ver e =? g_ver g).
    - destruct (e_cmd e).
      + assert (g' = g) by congruence. assert (o' = o) by congruence. subst. auto.
      + assert (g' = mkRegion (S (g_ver g)) (g_lo g) m) by congruence.
        assert (o' = o ++ [g_ver g]) by congruence. subst g' o'. cbn [g_ver]. split; [lia|].
        replace (S (g_ver g) - g_ver g0) with (S (g_ver g - g_ver g0)) by lia.
        rewrite seq_S, O. do 2 f_equal. lia.
    - assert (g' = g) by congruence. assert (o' = o) by congruence. subst. auto.
  Qed.

  Lemma step_open l s s' : step l s = Some s' -> not_newer s l -> all_open s -> all_open s'.
  Proof.
    intros E NN AO. unfold all_open in *.
    destruct l; cbn [SnModel.step] in E; unfold not_newer in NN;
      destruct (r_pc s) as [|st|]; try discriminate.
    - destruct (nth_error log (r_pos s)) as [e|]; [|discriminate].
      destruct (S (r_pos s) <=? r_applied s); [injection E as <-; exact AO|].
      destruct (exec e (r_region s, r_db s, r_opened s)) as [[g d] o] eqn:X. injection E as <-.
      cbn [r_region r_opened]. destruct AO as [A1 A2]. eapply exec_open; eauto.
    - destruct (sn_index (r_snap s) <? r_pos s); [|discriminate].
      destruct (r_applied s =? r_pos s); [|discriminate]. injection E as <-. exact AO.
    - destruct (sn_meta (r_snap s)); [discriminate|]. injection E as <-. exact AO.
    - destruct ((sn_index (r_snap s) <? j) && (r_pos s <=? j)); [|discriminate].
      injection E as <-. unfold begin_load. cbn [r_snap sn_meta].
      match goal with |- context [if ?b then _ else _] => destruct b end; exact AO.
    - destruct (sn_meta (r_snap s)) as [m|] eqn:M; [|discriminate]. injection E as <-.
      destruct st as [ | c | c | c | ]; cbn [load_step].
      + destruct (g_ver (m_region m) <? g_ver (r_region s)); [exact AO|].
        cbn [r_region r_opened].
        destruct (Nat.ltb_spec (g_ver (r_region s)) (g_ver (m_region m))); [lia | exact AO].
      + destruct (c <? ncf); exact AO.
      + destruct (c <? ncf); exact AO.
      + destruct (c <? ncf); exact AO.
      + exact AO.
    - injection E as <-. exact AO.
    - injection E as <-. exact AO.
    - injection E as <-. unfold begin_load. cbn [r_snap].
      destruct (sn_meta (r_snap s)); [|exact AO].
      match goal with |- context [if ?b then _ else _] => destruct b end; exact AO.
  Qed.

  Lemma no_skip_open s ls s' : no_skip ncf log s ls s' -> all_open s -> all_open s'.
  Proof. induction 1; auto. intro A. apply IHno_skip. eapply step_open; eauto. Qed.

  Lemma no_skip_run s ls s' : no_skip ncf log s ls s' -> run ncf log ls s = Some s'.
  Proof.
    induction 1; [reflexivity|]. rewrite run_cons, H. exact IHno_skip.
  Qed.
  Lemma gentle_run s ls s' : gentle ncf log s ls s' -> run ncf log ls s = Some s'.
  Proof.
    induction 1; [reflexivity|]. rewrite run_cons, H. exact IHgentle.
  Qed.

  Lemma caught_up_region d ls s :
    run ncf log ls (fresh g0 d) = Some s -> Forall (proper_install ncf g0 log) ls ->
    caught_up log s -> r_region s = G (length log).
  Proof.
    intros R F [U A]. destruct (run_winv _ _ _ R (winv_fresh d) F) as [_ (h & HL & RG & H)].
    rewrite U in H. destruct H as (_ & _ & K).
    assert (h = length log) as -> by lia. exact RG.
  Qed.

  Lemma splits_opened d ls s :
    no_skip ncf log (fresh g0 d) ls s -> Forall (proper_install ncf g0 log) ls ->
    caught_up log s -> r_opened s = snd (after g0 log (length log)).
  Proof.
    intros R F C.
    assert (AO : all_open s).
    { eapply no_skip_open; [exact R|]. split; cbn; [lia|]. rewrite Nat.sub_diag. reflexivity. }
    pose proof (caught_up_region d ls s (no_skip_run _ _ _ R) F C) as RG.
    destruct AO as [_ ->]. rewrite RG. symmetry. apply opened_after. lia.
  Qed.

  (** A split that was passed over is never made up for. *)
  Lemma step_never l s s' v :
    step l s = Some s' -> v < g_ver (r_region s) -> ~ In v (r_opened s) ->
    v < g_ver (r_region s') /\ ~ In v (r_opened s').
  Proof.
    intros E L NI.
    destruct l; cbn [SnModel.step] in E; destruct (r_pc s) as [|st|]; try discriminate.
    - destruct (nth_error log (r_pos s)) as [e|]; [|discriminate].
      destruct (S (r_pos s) <=? r_applied s); [injection E as <-; auto|].
      destruct (exec e (r_region s, r_db s, r_opened s)) as [[g d] o] eqn:X. injection E as <-.
      cbn [r_region r_opened]. cbn [exec] in X.
      destruct (e_ver e =? g_ver (r_region s)).
      + destruct (e_cmd e).
        * assert (g = r_region s) by congruence. assert (o = r_opened s) by congruence. subst. auto.
        * assert (g = mkRegion (S (g_ver (r_region s))) (g_lo (r_region s)) m) by congruence.
          assert (o = r_opened s ++ [g_ver (r_region s)]) by congruence. subst. cbn [g_ver].
          split; [lia|]. rewrite in_app_iff. cbn. intros [A | [A | []]]; auto. lia.
      + assert (g = r_region s) by congruence. assert (o = r_opened s) by congruence. subst. auto.
    - destruct (sn_index (r_snap s) <? r_pos s); [|discriminate].
      destruct (r_applied s =? r_pos s); [|discriminate]. injection E as <-. auto.
    - destruct (sn_meta (r_snap s)); [discriminate|]. injection E as <-. auto.
    - destruct ((sn_index (r_snap s) <? j) && (r_pos s <=? j)); [|discriminate].
      injection E as <-. unfold begin_load. cbn [r_snap sn_meta].
      match goal with |- context [if ?b then _ else _] => destruct b end; auto.
    - destruct (sn_meta (r_snap s)) as [m|] eqn:M; [|discriminate]. injection E as <-.
      destruct st as [ | c | c | c | ]; cbn [load_step].
      + destruct (g_ver (m_region m) <? g_ver (r_region s)); [auto|].
        cbn [r_region r_opened].
        destruct (Nat.ltb_spec (g_ver (r_region s)) (g_ver (m_region m))); split; auto; lia.
      + destruct (c <? ncf); auto.
      + destruct (c <? ncf); auto.
      + destruct (c <? ncf); auto.
      + auto.
    - injection E as <-. auto.
    - injection E as <-. auto.
    - injection E as <-. unfold begin_load. cbn [r_snap].
      destruct (sn_meta (r_snap s)); [|auto].
      match goal with |- context [if ?b then _ else _] => destruct b end; auto.
  Qed.
End Replica.

Lemma run_never ncf log v ls : forall s s', run ncf log ls s = Some s' ->
  v < g_ver (r_region s) -> ~ In v (r_opened s) ->
  v < g_ver (r_region s') /\ ~ In v (r_opened s').
Proof.
  induction ls as [|l ls IH]; intros s s' R L NI.
  - injection R as <-. auto.
  - rewrite run_cons in R. destruct (step ncf log l s) as [s1|] eqn:E; [|discriminate].
    assert (A : v < g_ver (r_region s1) /\ ~ In v (r_opened s1)).
    { eapply step_never; eauto. }
    destruct A. eapply IH; eauto.
Qed.
