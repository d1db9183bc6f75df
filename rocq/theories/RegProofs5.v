(** Proofs: catching up in a merge, and logs of several regions. *)
From Coq Require Import ZArith List Bool Lia.
From Verif Require Import Bytes RegModel RegSpec RegProofs RegProofs2 RegProofs3 RegProofs4.
Import ListNotations.
Local Open Scope Z_scope.

(** ** Catching up *)

Lemma run_data_reqs ctx id ds : forall n, run_data ctx n ds = run_reqs ctx id (map QData ds) n.
Proof.
  induction ds as [|d ds IH]; intros n; auto.
  cbn [run_data map run_reqs handler].
  destruct (data_handler ctx d) as [es|es|]; cbn [then_run]; auto. rewrite IH. reflexivity.
Qed.

Lemma entry_of_plain d : Forall plain (de_reqs d) -> plain_data (entry_of d).
Proof.
  intros H. unfold plain_data. cbn. induction H; cbn; constructor; eauto.
Qed.

Lemma takes_body id r d : takes r d ->
  body id r (entry_of d) =
  match run_data false n_zero (de_reqs d) with
  | ROk es => ADone (es ++ finish id (de_index d)) StOk
  | RAbort es => AAbort es
  | RWait => AWait
  end.
Proof.
  intros (A & B & C & D & P). unfold body. cbn [entry_of e_conf e_ver e_reqs e_index].
  destruct (rstate_eqb (r_state r) SStandby) eqn:E.
  { destruct (r_state r); try discriminate. contradiction. }
  rewrite A, C, D, !Z.eqb_refl. cbn [andb negb]. rewrite (run_data_reqs false id). reflexivity.
Qed.

Lemma run_data_plain (id : Z) ds n : Forall plain ds -> run_data false n ds = run_data false n_zero ds.
Proof.
  intros P. rewrite !(run_data_reqs false id). apply run_reqs_plain.
  induction P; cbn; constructor; eauto.
Qed.

Lemma catch_up_stream id r es : forall n, nd_regs n id = Some r -> Forall (takes r) es ->
  increasing (nd_applied n id) (map entry_of es) ->
  Forall (fun e => exists ef st, body id r e = ADone ef st) (map entry_of es) ->
  catch_up_loop id es n = ROk (stream id r (map entry_of es)).
Proof.
  induction es as [|d es IH]; intros n R T I B; auto.
  inversion T as [|? ? T1 T2]; subst. inversion B as [|? ? B1 B2]; subst. destruct I as [I1 I2].
  cbn [catch_up_loop]. cbn [entry_of e_index] in I1.
  destruct (Z.leb_spec (de_index d) (nd_applied n id)); [lia|].
  pose proof (takes_body id r d T1) as TB.
  destruct B1 as (ef & st & B1).
  rewrite (run_data_plain id (de_reqs d) n) by apply T1.
  rewrite B1 in TB. destruct (run_data false n_zero (de_reqs d)) as [ws|ws|]; try discriminate.
  injection TB as -> ->. cbn [then_run].
  destruct (effs_keep id r (entry_of d) _ _ n (entry_of_plain d (proj2 (proj2 (proj2 (proj2 T1))))) B1) as [K1 K2].
  rewrite IH; auto.
  - change (map entry_of (d :: es)) with (entry_of d :: map entry_of es).
    change (stream id r (entry_of d :: map entry_of es))
      with (effs id r (entry_of d) ++ stream id r (map entry_of es)).
    unfold effs at 1. rewrite B1. reflexivity.
  - rewrite K1. auto.
  - rewrite K2. auto.
Qed.

Lemma catch_up_prefix id a : forall b n, Forall (fun d => de_index d <= nd_applied n id) a ->
  catch_up_loop id (a ++ b) n = catch_up_loop id b n.
Proof.
  induction a as [|d a IH]; intros b n F; auto. inversion F; subst. cbn [app catch_up_loop].
  rewrite (proj2 (Z.leb_le _ _)) by auto. apply IH; auto.
Qed.

Lemma increasing_last lo d es : increasing lo (map entry_of (d :: es)) ->
  Forall (fun x => de_index x <= de_index (last (d :: es) (mkD 0 0 0 []))) (d :: es).
Proof.
  revert lo d. induction es as [|e es IH]; intros lo d H.
  - constructor; [cbn; lia|constructor].
  - destruct H as [H1 H2]. pose proof (IH _ e H2) as X. destruct H2 as [H2 _].
    change (last (d :: e :: es) (mkD 0 0 0 [])) with (last (e :: es) (mkD 0 0 0 [])).
    constructor; auto. inversion X; subst. cbn in *. lia.
Qed.

Lemma catch_up_loop_eq id lo es n : increasing lo (map entry_of es) ->
  catch_up id es n = catch_up_loop id es n.
Proof.
  intros I. unfold catch_up. destruct es as [|d es]; auto.
  destruct (Z.leb_spec (de_index (last (d :: es) (mkD 0 0 0 []))) (nd_applied n id)) as [L|L]; auto.
  pose proof (increasing_last lo d es I) as F.
  pose proof (catch_up_prefix id (d :: es) [] n) as X. rewrite app_nil_r in X. rewrite X; auto.
  eapply Forall_impl; [|exact F]. cbv beta. intros x Hx. lia.
Qed.

Lemma stream_applied id r es : forall n, Forall plain_data es ->
  Forall (fun e => exists ef st, body id r e = ADone ef st) es ->
  nd_applied (performs n (stream id r es)) id = last (map e_index es) (nd_applied n id).
Proof.
  induction es as [|e es IH]; intros n P B; auto.
  inversion P; inversion B as [|? ? (ef & st & B1) B2]; subst.
  change (stream id r (e :: es)) with (effs id r e ++ stream id r es).
  unfold effs at 1. rewrite B1, performs_app, IH by auto.
  destruct (effs_keep id r e ef st n H1 B1) as [_ K]. rewrite K.
  destruct es as [|x es]; auto. cbn [map]. 
  change (last (e_index e :: e_index x :: map e_index es) (nd_applied n id))
    with (last (e_index x :: map e_index es) (nd_applied n id)).
  clear. revert x. induction es as [|y es IH]; intros x; auto. cbn [map].
  change (last (e_index x :: e_index y :: map e_index es) (e_index e))
    with (last (e_index y :: map e_index es) (e_index e)).
  change (last (e_index x :: e_index y :: map e_index es) (nd_applied n id))
    with (last (e_index y :: map e_index es) (nd_applied n id)). auto.
Qed.

Lemma increasing_upto lo es : increasing lo es ->
  Forall (fun e => e_index e <= last (map e_index es) lo) es /\ lo <= last (map e_index es) lo.
Proof.
  revert lo. induction es as [|e es IH]; intros lo I.
  - cbn. split; [constructor|lia].
  - destruct I as [I1 I2]. destruct (IH _ I2) as [A B].
    assert (E : last (map e_index (e :: es)) lo = last (map e_index es) (e_index e)).
    { clear. destruct es as [|x es]; auto. cbn [map].
      change (last (e_index e :: e_index x :: map e_index es) lo) with (last (e_index x :: map e_index es) lo).
      revert x. induction es as [|y es IH]; intros x; auto. cbn [map].
      change (last (e_index x :: e_index y :: map e_index es) lo)
        with (last (e_index y :: map e_index es) lo).
      change (last (e_index x :: e_index y :: map e_index es) (e_index e))
        with (last (e_index y :: map e_index es) (e_index e)). auto. }
    rewrite E. split; [|lia]. constructor; auto.
Qed.

Lemma increasing_tail lo a b : increasing lo (a ++ b) ->
  increasing (last (map e_index a) lo) b.
Proof.
  revert lo. induction a as [|e a IH]; intros lo H; auto.
  destruct H as [H1 H2]. specialize (IH _ H2).
  replace (last (map e_index (e :: a)) lo) with (last (map e_index a) (e_index e)); auto.
  clear. destruct a as [|x a]; auto. cbn [map].
  change (last (e_index e :: e_index x :: map e_index a) lo) with (last (e_index x :: map e_index a) lo).
  revert x. induction a as [|y a IH]; intros x; auto. cbn [map].
  change (last (e_index x :: e_index y :: map e_index a) lo)
    with (last (e_index y :: map e_index a) lo).
  change (last (e_index x :: e_index y :: map e_index a) (e_index e))
    with (last (e_index y :: map e_index a) (e_index e)). auto.
Qed.

(** A replica that has applied [a] catches up with [a ++ b]: it ends with the
    data of one that applied all of it, and applies none of it again. *)
Lemma catch_up_once ctx id r a b n nf n1 : nd_regs n id = Some r ->
  Forall (takes r) (a ++ b) -> increasing (nd_applied n id) (map entry_of (a ++ b)) ->
  apply_log ctx id (map entry_of (a ++ b)) n = Some nf ->
  apply_log ctx id (map entry_of a) n = Some n1 ->
  exists cu, catch_up id (a ++ b) n1 = ROk cu /\ performs n1 cu = nf /\
    (forall m, nd_applied m id = nd_applied nf id -> nd_regs m id <> None ->
       apply_log ctx id (map entry_of (a ++ b)) m = Some m).
Proof.
  intros R T I F A.
  assert (P : Forall plain_data (map entry_of (a ++ b))).
  { clear -T. induction T as [|d es T1 T2 IH]; cbn; constructor; auto. apply entry_of_plain. apply T1. }
  destruct (proj1 (apply_log_stream ctx id _ n r nf R P I) F) as [B ->].
  rewrite map_app in *. apply Forall_app in P, B. destruct P as [P1 P2], B as [B1 B2].
  assert (I1 : increasing (nd_applied n id) (map entry_of a)) by exact (proj1 (increasing_app _ _ _ I)).
  destruct (proj1 (apply_log_stream ctx id _ n r n1 R P1 I1) A) as [_ ->].
  pose proof (stream_applied id r (map entry_of a) n P1 B1) as SA.
  pose proof (increasing_tail _ _ _ I) as I2. rewrite <- SA in I2.
  set (m := performs n (stream id r (map entry_of a))) in *.
  assert (RM : nd_regs m id = Some r) by (unfold m; rewrite stream_regs; auto).
  apply Forall_app in T. destruct T as [T1 T2].
  exists (stream id r (map entry_of b)). split; [|split].
  - rewrite (catch_up_loop_eq id (nd_applied n id)) by (rewrite map_app; auto).
    rewrite catch_up_prefix.
    + apply catch_up_stream; auto.
    + destruct (increasing_upto _ _ I1) as [U _]. rewrite <- SA in U.
      rewrite Forall_forall in *. intros d D. apply (U (entry_of d)). apply in_map; auto.
  - rewrite stream_app, performs_app. reflexivity.
  - intros x X1 X2. destruct (nd_regs x id) as [rx|] eqn:RX; [|congruence].
    eapply apply_log_skip; eauto.
    + apply Forall_app; auto.
    + assert (BB : Forall (fun e => exists ef st, body id r e = ADone ef st) (map entry_of a ++ map entry_of b))
        by (apply Forall_app; auto).
      assert (PP : Forall plain_data (map entry_of a ++ map entry_of b)) by (apply Forall_app; auto).
      rewrite X1, (stream_applied id r _ n PP BB). apply increasing_upto; auto.
Qed.

(** ... and inside a CommitMerge. *)
Lemma merge_hands_over ctx ctx' id c e a b n nf n1 es r :
  cm_source c <> id -> nd_regs n (cm_source c) = Some r -> alive (r_state r) ->
  cm_entries c = a ++ b ->
  Forall (takes r) (a ++ b) -> increasing (nd_applied n (cm_source c)) (map entry_of (a ++ b)) ->
  apply_log ctx (cm_source c) (map entry_of (a ++ b)) n = Some nf ->
  apply_log ctx (cm_source c) (map entry_of a) n = Some n1 ->
  e_reqs e = [QCommit c] -> on_apply ctx' id e n1 = ADone es StOk ->
  same_data nf (performs n1 es) /\
  apply_log ctx (cm_source c) (map entry_of (a ++ b)) (performs n1 es) = Some (performs n1 es).
Proof.
  intros N R AL CE T I F A Q H.
  destruct (accepted_means _ _ _ _ _ H) as (t & RT & _ & _ & _ & _ & _ & ws & W & ->).
  rewrite Q in W. cbn [run_reqs handler] in W.
  destruct (commit_handler id c n1) as [e1|e1|] eqn:CH; cbn [then_run] in W; try discriminate.
  injection W as <-. rewrite app_nil_r.
  assert (P : Forall plain_data (map entry_of a)).
  { apply Forall_app in T. destruct T as [T _]. clear -T.
    induction T as [|d es T1 T2 IH]; cbn; constructor; auto. apply entry_of_plain. apply T1. }
  assert (I1 : increasing (nd_applied n (cm_source c)) (map entry_of a)).
  { rewrite map_app in I. exact (proj1 (increasing_app _ _ _ I)). }
  destruct (proj1 (apply_log_stream ctx _ _ n r n1 R P I1) A) as [_ E1].
  assert (R1 : nd_regs n1 (cm_source c) = Some r) by (rewrite E1, stream_regs; auto).
  destruct (commit_result id c n1 e1 r t N R1 RT (alive_tombstone _ AL) CH)
    as (cu & n2 & D2 & A2 & S2 & RG2 & CU & OPS & AP & G).
  (* the same catch-up from n1: n2 differs from n1 only in the target's job *)
  destruct (catch_up_once ctx (cm_source c) r a b n nf n1 R T I F A) as (cu' & CU' & PF & AGAIN).
  assert (SAME : cu = cu').
  { rewrite CE in CU. clear -CU CU' A2 T.
    assert (L : forall es x y, nd_applied x = nd_applied y -> Forall (takes r) es ->
      catch_up_loop (cm_source c) es x = catch_up_loop (cm_source c) es y).
    { induction es as [|d es IH]; intros x y E TT; auto. inversion TT; subst. cbn [catch_up_loop]. rewrite E.
      destruct (_ <=? _); [auto|].
      rewrite (run_data_plain 0 _ x), (run_data_plain 0 _ y) by apply H1.
      pose proof (run_data_data false (de_reqs d) n_zero) as RD.
      destruct (run_data false n_zero (de_reqs d)) as [ws|ws|]; cbn [then_run]; auto.
      rewrite (IH (performs x (ws ++ finish (cm_source c) (de_index d)))
                  (performs y (ws ++ finish (cm_source c) (de_index d)))); auto.
      cbn in RD. rewrite !performs_app.
      destruct (batches_keep ws x RD) as (_ & X1 & _), (batches_keep ws y RD) as (_ & Y1 & _).
      unfold finish. destruct (_ =? 0); cbn; rewrite X1, Y1, E; reflexivity. }
    unfold catch_up in *. destruct (a ++ b) as [|d0 es0] eqn:EE; [congruence|].
    rewrite A2 in CU. destruct (_ <=? _); [congruence|]. rewrite (L _ n2 n1 A2 T) in CU. congruence. }
  subst cu'. split.
  - intros cf k. rewrite performs_app. destruct (finish_mem id (e_index e) (performs n1 e1)) as (_ & _ & Y).
    rewrite Y, performs_db, OPS, <- PF, performs_db. reflexivity.
  - apply AGAIN.
    + rewrite performs_app.
      assert (FN : nd_applied (performs (performs n1 e1) (finish id (e_index e))) (cm_source c) =
                   nd_applied (performs n1 e1) (cm_source c)).
      { unfold finish. destruct (_ =? 0); cbn; rewrite zput_other; auto. }
      rewrite FN, AP, <- PF.
      assert (M : forall es x y, nd_applied x = nd_applied y -> nd_applied (performs x es) = nd_applied (performs y es)).
      { clear. induction es as [|e es IH]; intros x y E; auto. cbn [performs fold_left].
        apply (IH (perform x e) (perform y e)). destruct e; cbn; rewrite ?E; auto. }
      rewrite (M cu n2 n1 A2). reflexivity.
    + rewrite performs_app, performs_regs, finish_metas, G.
      destruct (_ =? id); [discriminate|]. rewrite Z.eqb_refl. discriminate.
Qed.

(** ** Logs of several regions *)

Lemma data_apply ctx id e n n' : plain_data e -> apply ctx id e n = Some n' ->
  exists r ef, nd_regs n id = Some r /\
    n' = performs n ef /\ nd_regs n' = nd_regs n /\
    (forall i, i <> id -> nd_applied n' i = nd_applied n i) /\
    (forall cf k, touched (ops_of ef) cf k ->
       (r_state r = SNew \/ alive (r_state r)) /\ exists d, In (QData d) (e_reqs e) /\ names d k) /\
    (forall ctx' m, nd_regs m id = nd_regs n id -> nd_applied m id = nd_applied n id ->
       apply ctx' id e m = Some (performs m ef)) /\
    nd_applied n' id = Z.max (nd_applied n id) (e_index e).
Proof.
  intros P H. unfold apply in H. destruct (nd_regs n id) as [r|] eqn:R.
  2:{ unfold on_apply in H. rewrite R in H. discriminate. }
  exists r. rewrite (on_apply_body ctx id e n r R P) in H.
  destruct (Z.leb_spec (e_index e) (nd_applied n id)) as [L|L].
  { injection H as <-. exists []. split; auto. split; auto. split; auto. split; auto. split.
    - intros cf k (w & [] & _).
    - split; [|cbn; lia]. intros ctx' m M1 M2. unfold apply.
      rewrite (on_apply_body ctx' id e m r M1 P), M2.
      rewrite (proj2 (Z.leb_le _ _)) by auto. auto. }
  destruct (body id r e) as [ef st|ef|] eqn:B; try discriminate. injection H as <-.
  exists ef. split; auto. split; auto.
  destruct (effs_keep id r e ef st n P B) as [K1 K2]. split; auto.
  destruct (body_shape id r e ef st P B) as (bs & F & E).
  split.
  { intros i N. rewrite E, performs_app. destruct (batches_keep bs n F) as (_ & X & _).
    unfold finish. destruct (_ =? 0); cbn; rewrite zput_other, X; auto. }
  split.
  { intros cf k T. unfold body in B.
    destruct (rstate_eqb (r_state r) SStandby) eqn:SB; try discriminate.
    destruct (refused_state (r_state r)) eqn:RS.
    { injection B as <- <-. rewrite finish_ops in T. destruct T as (w & [] & _). }
    destruct (negb _).
    { injection B as <- <-. rewrite finish_ops in T. destruct T as (w & [] & _). }
    destruct (run_reqs false id (e_reqs e) n_zero) as [ws|ws|] eqn:W; try discriminate.
    injection B as <- <-. rewrite ops_app, finish_ops, app_nil_r in T. split.
    - unfold alive. destruct (r_state r); simpl in SB, RS; try discriminate; auto.
    - eapply run_reqs_names; eauto. apply plain_is_data; auto. }
  split; [|rewrite K2; lia].
  intros ctx' m M1 M2. unfold apply. rewrite (on_apply_body ctx' id e m r M1 P), M2.
  destruct (Z.leb_spec (e_index e) (nd_applied n id)); [lia|]. rewrite B. auto.
Qed.

Definition silent (j : Z) (vs : list event) : Prop := log_of j vs = [].

Lemma silent_dec j vs : {silent j vs} + {~ silent j vs}.
Proof. unfold silent. destruct (log_of j vs); [left; auto|right; discriminate]. Qed.

Lemma silent_cons j v vs : ~ silent j vs -> ~ silent j (v :: vs).
Proof.
  unfold silent. intros N. cbn [log_of]. destruct v as [ctx id e| |]; auto.
  destruct (id =? j); [discriminate|auto].
Qed.

(** The data at a key of region [j] depends on the log of [j] alone. *)
Lemma only_owner j cf k : forall vs n n' m, Forall (in_range n) vs -> run n vs = Some n' ->
  (forall i, i <> j -> ~ silent i vs -> ~ owns n i k) ->
  nd_regs m j = nd_regs n j -> nd_applied m j = nd_applied n j -> nd_db m cf k = nd_db n cf k ->
  exists m', apply_log (fun _ => false) j (log_of j vs) m = Some m' /\ nd_db m' cf k = nd_db n' cf k.
Proof.
  induction vs as [|v vs IH]; intros n n' m F R O M1 M2 M3; cbn [run] in R.
  - injection R as <-. exists m. auto.
  - inversion F as [|? ? F1 F2]; subst.
    destruct v as [ctx id e| |]; cbn [in_range] in F1; try contradiction.
    cbn [step] in R. destruct (apply ctx id e n) as [n1|] eqn:A; try discriminate.
    destruct F1 as (P & r & RI & NN & IN).
    destruct (data_apply ctx id e n n1 P A) as (r' & ef & R' & E1 & RG & OA & TO & AG & AI).
    rewrite RI in R'. injection R' as <-.
    assert (F2' : Forall (in_range n1) vs).
    { eapply Forall_impl; [|exact F2]. intros v V. destruct v; cbn [in_range] in *; auto. rewrite RG. auto. }
    assert (O' : forall i, i <> j -> ~ silent i vs -> ~ owns n1 i k).
    { intros i I S X. apply (O i I (silent_cons _ _ _ S)). unfold owns in *. rewrite RG in X. auto. }
    cbn [log_of]. destruct (Z.eqb_spec id j) as [->|N].
    + cbn [apply_log]. rewrite (AG false m M1 M2).
      destruct (data_apply false j e m (performs m ef) P (AG false m M1 M2))
        as (rm & _ & _ & _ & RGm & _ & _ & _ & AIm).
      apply (IH n1 n' (performs m ef)); auto.
      * rewrite RGm, RG. auto.
      * rewrite AIm, AI, M2. auto.
      * rewrite E1, !performs_db. apply batch_ext. auto.
    + apply (IH n1 n' m); auto.
      * rewrite RG. auto.
      * rewrite OA by auto. auto.
      * rewrite E1, performs_db, batch_other; auto.
        intros T. destruct (TO cf k T) as [[S|S] (d & D1 & D2)]; [contradiction|].
        apply (O id N).
        { unfold silent. cbn [log_of]. rewrite Z.eqb_refl. discriminate. }
        exists r. split; auto. split; auto. eapply IN; eauto.
Qed.

Fixpoint ids (vs : list event) : list Z :=
  match vs with
  | [] => []
  | VApply _ id _ :: rest => id :: ids rest
  | _ :: rest => ids rest
  end.

Lemma not_silent j vs : ~ silent j vs -> In j (ids vs).
Proof.
  unfold silent. induction vs as [|v vs IH]; cbn [log_of ids]; [congruence|].
  destruct v as [ctx id e| |]; auto. destruct (Z.eqb_spec id j); [left; auto|right; auto].
Qed.

Lemma owns_dec n j k : {owns n j k} + {~ owns n j k}.
Proof.
  unfold owns. destruct (nd_regs n j) as [r|].
  - destruct (between (r_start r) (r_end r) k) eqn:B.
    + apply inside_dec in B. unfold alive.
      destruct (r_state r) eqn:S;
        try (left; exists r; split; [reflexivity|]; rewrite S; split; [tauto|exact B]);
        right; intros (x & E & [A|[A|A]] & _); injection E as <-; congruence.
    + right. intros (x & E & _ & I). injection E as <-. apply inside_dec in I. congruence.
  - right. intros (x & E & _). discriminate.
Qed.

Lemma interleavings_agree n vs1 vs2 n1 n2 : exclusive n ->
  Forall (in_range n) vs1 -> Forall (in_range n) vs2 ->
  (forall j, log_of j vs1 = log_of j vs2) ->
  run n vs1 = Some n1 -> run n vs2 = Some n2 -> same_data n1 n2.
Proof.
  intros X F1 F2 L R1 R2 cf k.
  assert (Y : (exists j, owns n j k) \/ (forall j, In j (ids vs1) -> ~ owns n j k)).
  { induction (ids vs1) as [|j l IH]; [right; intros j []|].
    destruct (owns_dec n j k) as [O|O]; [left; eauto|].
    destruct IH as [IH|IH]; [left; auto|]. right. intros i [<-|I]; auto. }
  assert (G : forall j, (forall i, i <> j -> ~ silent i vs1 -> ~ owns n i k) -> nd_db n2 cf k = nd_db n1 cf k).
  { intros j O.
    destruct (only_owner j cf k vs1 n n1 n F1 R1 O eq_refl eq_refl eq_refl) as (m1 & A1 & E1).
    destruct (only_owner j cf k vs2 n n2 n F2 R2) as (m2 & A2 & E2); auto.
    { intros i I S. apply O; auto. unfold silent in *. rewrite L. auto. }
    rewrite <- L in A2. congruence. }
  destruct Y as [(j & O)|O].
  - apply (G j). intros i I _ O'. apply I. apply (X k); auto.
  - apply (G 0). intros i _ S. apply O. apply not_silent; auto.
Qed.
