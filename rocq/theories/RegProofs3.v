(** Proofs: what a split and a merge do to the regions. *)
From Coq Require Import ZArith List Bool Lia.
From Verif Require Import Bytes RegModel RegSpec RegProofs RegProofs2.
Import ListNotations.
Local Open Scope Z_scope.

Lemma op_state_hit id s n r : nd_regs n id = Some r -> can_move (r_state r) s = true ->
  op_state id s n = [EMeta id (with_state r s)].
Proof. intros R C. unfold op_state. rewrite R, C. auto. Qed.

Lemma op_state_miss id s n r : nd_regs n id = Some r -> can_move (r_state r) s = false ->
  op_state id s n = [].
Proof. intros R C. unfold op_state. rewrite R, C. auto. Qed.

Lemma op_bump_hit id a b n r : nd_regs n id = Some r ->
  op_bump id a b n = [EMeta id (with_epoch r (r_ver r + 1) a b)].
Proof.
  intros R. unfold op_bump, op_epoch. rewrite R. destruct (Z.leb_spec (r_ver r + 1) (r_ver r)); [lia|auto].
Qed.

Lemma op_epoch_hit id v a b n r : nd_regs n id = Some r -> r_ver r < v ->
  op_epoch id v a b n = [EMeta id (with_epoch r v a b)].
Proof. intros R L. unfold op_epoch. rewrite R. destruct (Z.leb_spec v (r_ver r)); [lia|auto]. Qed.

Lemma op_job_hit id j n r : nd_regs n id = Some r -> op_job id j n = [EMeta id (with_job r j)].
Proof. intros R. unfold op_job. rewrite R. auto. Qed.

(** Only the metas in a list of effects matter for the regions. *)
Fixpoint metas (es : list eff) (f : Z -> option region) : Z -> option region :=
  match es with
  | [] => f
  | EMeta id r :: rest => metas rest (zput f id (Some r))
  | _ :: rest => metas rest f
  end.

Lemma performs_regs es : forall n, nd_regs (performs n es) = metas es (nd_regs n).
Proof.
  induction es as [|e es IH]; intros n; auto.
  change (performs n (e :: es)) with (performs (perform n e) es). rewrite IH. destruct e; reflexivity.
Qed.

Definition meta_only (e : eff) : Prop := match e with EBatch _ => False | _ => True end.

Lemma meta_only_db es : Forall meta_only es -> ops_of es = [].
Proof. induction 1 as [|e es H F IH]; auto. destruct e; simpl in *; auto; contradiction. Qed.

(** After a finished entry the regions are those of its handlers. *)
Lemma finish_metas id i f : metas (finish id i) f = f.
Proof. unfold finish. destruct (i mod save_step =? 0); reflexivity. Qed.

Lemma bleb_lt a b : bleb a b = false <-> lt b a.
Proof.
  unfold bleb, lt. pose proof (bcmp_opp a b) as O. destruct (bcmp a b), (bcmp b a); simpl in O; split; congruence.
Qed.

(** ** Split *)

Definition can_split (s : rstate) : Prop := s = SNew \/ s = SNormal \/ s = SSplitting.

Lemma not_refused s : refused_state s = false -> s <> SStandby -> can_split s.
Proof. unfold can_split. destruct s; simpl; intros; try discriminate; auto; contradiction. Qed.

Definition split_regs (id : Z) (s : split_req) (p c : region) (f : Z -> option region) : Z -> option region :=
  fun j =>
    if j =? id then Some (mkR SNormal (r_conf p) (r_ver p + 1) (sp_key s) (r_end p) (sp_job s))
    else if j =? sp_to s then Some (mkR SNormal (r_conf c) (r_ver c + 1) (r_start p) (sp_key s) (r_job c))
    else f j.

Ltac zsimp :=
  repeat first
    [ rewrite zput_same
    | rewrite zput_other by (auto; congruence) ].

Lemma pre_split_refused id s n p es : nd_regs n id = Some p -> sp_ver s <> r_ver p ->
  pre_split id s n = ROk es -> es = [EMeta id (with_job p (sp_job s))].
Proof.
  intros P V H. unfold pre_split in H. rewrite (op_job_hit _ _ _ _ P) in H.
  cbn [performs fold_left perform nd_regs] in H. rewrite zput_same in H. cbn [with_job r_ver] in H.
  destruct (Z.eqb_spec (sp_ver s) (r_ver p)); [contradiction|]. cbn [negb] in H. injection H as <-. auto.
Qed.

Lemma pre_split_result id s n p es : nd_regs n id = Some p -> can_split (r_state p) ->
  sp_ver s = r_ver p -> pre_split id s n = ROk es ->
  exists c, nd_regs n (sp_to s) = Some c /\ r_state c = SStandby /\ sp_to s <> id /\
    lt (r_start p) (sp_key s) /\ lt (sp_key s) (r_end p) /\
    Forall meta_only es /\
    forall j, nd_regs (performs n es) j = split_regs id s p c (nd_regs n) j.
Proof.
  intros P CS V H. unfold pre_split in H. rewrite (op_job_hit _ _ _ _ P) in H.
  set (n0 := performs n [EMeta id (with_job p (sp_job s))]) in *.
  assert (R0 : nd_regs n0 = zput (nd_regs n) id (Some (with_job p (sp_job s)))) by reflexivity.
  rewrite R0 in H. rewrite zput_same in H. cbn [with_job r_ver r_start r_end] in H.
  rewrite (proj2 (Z.eqb_eq _ _) V) in H. cbn [negb] in H.
  destruct (Z.eq_dec (sp_to s) id) as [T|T].
  { rewrite T, zput_same in H. cbn [with_job r_state] in H.
    destruct CS as [CS|[CS|CS]]; rewrite CS in H; discriminate. }
  rewrite zput_other in H by auto.
  destruct (nd_regs n (sp_to s)) as [c|] eqn:C; try discriminate.
  destruct (rstate_eqb (r_state c) SStandby) eqn:SC; try discriminate. cbn [negb] in H.
  assert (SC' : r_state c = SStandby) by (destruct (r_state c); simpl in SC; try discriminate; auto).
  destruct (bleb (r_end p) (r_start p)); try discriminate.
  destruct (bleb (sp_key s) (r_start p)) eqn:B1; try discriminate.
  destruct (bleb (r_end p) (sp_key s)) eqn:B2; try discriminate. cbn [orb] in H.
  apply bleb_lt in B1, B2.
  exists c. split; auto. split; auto. split; auto. split; auto. split; auto.
  injection H as <-.
  set (ops := [op_state (sp_to s) SSplitting; op_state id SSplitting;
               op_bump (sp_to s) (r_start p) (sp_key s); op_bump id (sp_key s) (r_end p);
               op_state id SNormal; op_state (sp_to s) SNormal]).
  set (p0 := with_job p (sp_job s)) in *.
  assert (X : exists pre st, Forall meta_only pre /\
     seq ops n0 = pre ++
       [EMeta (sp_to s) (with_epoch c (r_ver c + 1) (r_start p) (sp_key s));
        EMeta id (mkR st (r_conf p) (r_ver p + 1) (sp_key s) (r_end p) (sp_job s));
        EMeta id (mkR SNormal (r_conf p) (r_ver p + 1) (sp_key s) (r_end p) (sp_job s));
        EMeta (sp_to s) (mkR SNormal (r_conf c) (r_ver c + 1) (r_start p) (sp_key s) (r_job c))] /\
     (forall j, j <> id -> metas pre (nd_regs n0) j = nd_regs n0 j)).
  { unfold ops. rewrite seq_cons.
    rewrite (op_state_miss (sp_to s) SSplitting n0 c);
      [| rewrite R0; zsimp; auto | rewrite SC'; reflexivity].
    cbn [app]. rewrite performs_nil.
    assert (TAIL : forall m st, (st = SNew \/ st = SSplitting) ->
       nd_regs m id = Some (mkR st (r_conf p) (r_ver p) (r_start p) (r_end p) (sp_job s)) ->
       nd_regs m (sp_to s) = Some c ->
       seq [op_bump (sp_to s) (r_start p) (sp_key s); op_bump id (sp_key s) (r_end p);
            op_state id SNormal; op_state (sp_to s) SNormal] m =
       [EMeta (sp_to s) (with_epoch c (r_ver c + 1) (r_start p) (sp_key s));
        EMeta id (mkR st (r_conf p) (r_ver p + 1) (sp_key s) (r_end p) (sp_job s));
        EMeta id (mkR SNormal (r_conf p) (r_ver p + 1) (sp_key s) (r_end p) (sp_job s));
        EMeta (sp_to s) (mkR SNormal (r_conf c) (r_ver c + 1) (r_start p) (sp_key s) (r_job c))]).
    { intros m st ST M1 M2.
      rewrite seq_cons, (op_bump_hit (sp_to s) _ _ m c M2). cbn [app].
      set (m1 := performs m _).
      rewrite seq_cons, (op_bump_hit id _ _ m1 (mkR st (r_conf p) (r_ver p) (r_start p) (r_end p) (sp_job s)));
        [|unfold m1; cbn; rewrite zput_other by auto; auto].
      cbn [app with_epoch r_ver r_state r_conf r_job].
      set (m2 := performs m1 _).
      rewrite seq_cons, (op_state_hit id SNormal m2 (mkR st (r_conf p) (r_ver p + 1) (sp_key s) (r_end p) (sp_job s)));
        [|unfold m2; cbn; rewrite zput_same; auto | cbn; destruct ST as [->| ->]; auto].
      cbn [app with_state r_ver r_state r_conf r_job r_start r_end].
      set (m3 := performs m2 _).
      rewrite seq_cons, (op_state_hit (sp_to s) SNormal m3 (with_epoch c (r_ver c + 1) (r_start p) (sp_key s)));
        [|unfold m3, m2, m1; cbn; zsimp; auto | cbn; rewrite SC'; auto].
      reflexivity. }
    destruct CS as [CS|[CS|CS]].
    - exists [], SNew. rewrite seq_cons.
      rewrite (op_state_miss id SSplitting n0 p0);
        [| rewrite R0; zsimp; auto | unfold p0; cbn; rewrite CS; reflexivity].
      cbn [app]. rewrite performs_nil. split; [constructor|]. split; [|auto].
      apply TAIL; auto; rewrite R0; zsimp; auto. unfold p0, with_job. rewrite CS. reflexivity.
    - exists [EMeta id (with_state p0 SSplitting)], SSplitting. rewrite seq_cons.
      rewrite (op_state_hit id SSplitting n0 p0);
        [| rewrite R0; zsimp; auto | unfold p0; cbn; rewrite CS; reflexivity].
      split; [repeat constructor|]. split.
      + cbn [app]. f_equal. apply TAIL; auto; cbn [performs fold_left perform nd_regs]; zsimp; auto.
        rewrite R0. zsimp. auto.
      + intros j J. cbn [metas]. apply zput_other; auto.
    - exists [], SSplitting. rewrite seq_cons.
      rewrite (op_state_miss id SSplitting n0 p0);
        [| rewrite R0; zsimp; auto | unfold p0; cbn; rewrite CS; reflexivity].
      cbn [app]. rewrite performs_nil. split; [constructor|]. split; [|auto].
      apply TAIL; auto; rewrite R0; zsimp; auto. unfold p0, with_job. rewrite CS. reflexivity. }
  assert (G : forall pre st, Forall meta_only pre ->
     seq ops n0 = pre ++
       [EMeta (sp_to s) (with_epoch c (r_ver c + 1) (r_start p) (sp_key s));
        EMeta id (mkR st (r_conf p) (r_ver p + 1) (sp_key s) (r_end p) (sp_job s));
        EMeta id (mkR SNormal (r_conf p) (r_ver p + 1) (sp_key s) (r_end p) (sp_job s));
        EMeta (sp_to s) (mkR SNormal (r_conf c) (r_ver c + 1) (r_start p) (sp_key s) (r_job c))] ->
     (forall j, j <> id -> metas pre (nd_regs n0) j = nd_regs n0 j) ->
     let es := [EMeta id p0] ++ seq ops n0 ++ [ESaved id (nd_applied n id)] in
     Forall meta_only es /\
     (forall j, nd_regs (performs n es) j = split_regs id s p c (nd_regs n) j)).
  { intros pre st F E M es. unfold es. rewrite E. split.
    - apply Forall_app. split; [repeat constructor|]. apply Forall_app. split; [|repeat constructor].
      apply Forall_app. split; auto. repeat constructor.
    - intros j. rewrite performs_app. fold n0. rewrite performs_app.
      cbn [performs fold_left perform nd_regs]. change (fold_left perform) with (fun l n => performs n l).
      cbn beta. rewrite performs_app. cbn [performs fold_left perform nd_regs].
      unfold split_regs, zput. destruct (Z.eqb_spec j (sp_to s)) as [J1|J1].
      + subst j. destruct (Z.eqb_spec (sp_to s) id); [contradiction|]. reflexivity.
      + destruct (Z.eqb_spec j id) as [J2|J2]; auto.
        change (fold_left perform pre n0) with (performs n0 pre).
        rewrite performs_regs, M by auto. rewrite R0. rewrite zput_other by auto. auto. }
  destruct X as (pre & st & F & E & M). exact (G pre st F E M).
Qed.

Definition post_regs (id : Z) (s : split_req) (p : region) (f : Z -> option region) : Z -> option region :=
  fun j =>
    if j =? id then Some (mkR SNormal (r_conf p) (r_ver p + 1) (sp_key s) (r_end p) (sp_job s))
    else if j =? sp_to s then Some (mkR SNormal 1 2 (r_start p) (sp_key s) 0)
    else f j.

Lemma post_split_refused id s n p es : nd_regs n id = Some p -> sp_ver s <> r_ver p ->
  post_split id s n = ROk es -> es = [EMeta id (with_job p (sp_job s))].
Proof.
  intros P V H. unfold post_split in H. rewrite (op_job_hit _ _ _ _ P) in H.
  cbn [performs fold_left perform nd_regs] in H. rewrite zput_same in H. cbn [with_job r_ver] in H.
  destruct (Z.eqb_spec (sp_ver s) (r_ver p)); [contradiction|]. cbn [negb] in H. injection H as <-. auto.
Qed.

Lemma post_split_result id s n p es : nd_regs n id = Some p -> can_split (r_state p) ->
  sp_ver s = r_ver p -> post_split id s n = ROk es ->
  nd_regs n (sp_to s) = None /\ sp_to s <> id /\
    lt (r_start p) (sp_key s) /\ lt (sp_key s) (r_end p) /\
    Forall meta_only es /\
    forall j, nd_regs (performs n es) j = post_regs id s p (nd_regs n) j.
Proof.
  intros P CS V H. unfold post_split in H. rewrite (op_job_hit _ _ _ _ P) in H.
  set (n0 := performs n [EMeta id (with_job p (sp_job s))]) in *.
  assert (R0 : nd_regs n0 = zput (nd_regs n) id (Some (with_job p (sp_job s)))) by reflexivity.
  rewrite R0 in H. rewrite zput_same in H. cbn [with_job r_ver r_start r_end] in H.
  rewrite (proj2 (Z.eqb_eq _ _) V) in H. cbn [negb] in H.
  destruct (bleb (r_end p) (r_start p)); try discriminate.
  destruct (bleb (sp_key s) (r_start p)) eqn:B1; try discriminate.
  destruct (bleb (r_end p) (sp_key s)) eqn:B2; try discriminate. cbn [orb] in H.
  apply bleb_lt in B1, B2.
  destruct (Z.eq_dec (sp_to s) id) as [T|T].
  { rewrite T, zput_same in H. discriminate. }
  rewrite zput_other in H by auto.
  destruct (nd_regs n (sp_to s)) as [c|] eqn:C; try discriminate.
  split; auto. split; auto. split; auto. split; auto.
  injection H as <-.
  set (c0 := mkR SSplitting 1 2 (r_start p) (sp_key s) 0) in *.
  set (p0 := with_job p (sp_job s)) in *.
  set (ops := [op_state id SSplitting; op_create (sp_to s) c0; op_bump id (sp_key s) (r_end p);
               op_state id SNormal; op_state (sp_to s) SNormal]).
  assert (X : exists pre st, Forall meta_only pre /\
     seq ops n0 = pre ++
       [ESaved (sp_to s) 0; EMem (sp_to s) 0; EMeta (sp_to s) c0;
        EMeta id (mkR st (r_conf p) (r_ver p + 1) (sp_key s) (r_end p) (sp_job s));
        EMeta id (mkR SNormal (r_conf p) (r_ver p + 1) (sp_key s) (r_end p) (sp_job s));
        EMeta (sp_to s) (mkR SNormal 1 2 (r_start p) (sp_key s) 0)] /\
     (forall j, j <> id -> metas pre (nd_regs n0) j = nd_regs n0 j)).
  { assert (TAIL : forall m st, (st = SNew \/ st = SSplitting) ->
       nd_regs m id = Some (mkR st (r_conf p) (r_ver p) (r_start p) (r_end p) (sp_job s)) ->
       seq [op_create (sp_to s) c0; op_bump id (sp_key s) (r_end p);
            op_state id SNormal; op_state (sp_to s) SNormal] m =
       [ESaved (sp_to s) 0; EMem (sp_to s) 0; EMeta (sp_to s) c0;
        EMeta id (mkR st (r_conf p) (r_ver p + 1) (sp_key s) (r_end p) (sp_job s));
        EMeta id (mkR SNormal (r_conf p) (r_ver p + 1) (sp_key s) (r_end p) (sp_job s));
        EMeta (sp_to s) (mkR SNormal 1 2 (r_start p) (sp_key s) 0)]).
    { intros m st ST M1.
      rewrite seq_cons. unfold op_create. cbn [app]. do 3 f_equal.
      set (m1 := performs m _).
      rewrite seq_cons, (op_bump_hit id _ _ m1 (mkR st (r_conf p) (r_ver p) (r_start p) (r_end p) (sp_job s)));
        [|unfold m1; cbn; rewrite zput_other by auto; auto].
      cbn [app with_epoch r_ver r_state r_conf r_job].
      set (m2 := performs m1 _).
      rewrite seq_cons, (op_state_hit id SNormal m2 (mkR st (r_conf p) (r_ver p + 1) (sp_key s) (r_end p) (sp_job s)));
        [|unfold m2; cbn; rewrite zput_same; auto | cbn; destruct ST as [->| ->]; auto].
      cbn [app with_state r_ver r_state r_conf r_job r_start r_end].
      set (m3 := performs m2 _).
      rewrite seq_cons, (op_state_hit (sp_to s) SNormal m3 c0);
        [|unfold m3, m2, m1; cbn; zsimp; auto | cbn; auto].
      reflexivity. }
    unfold ops. destruct CS as [CS|[CS|CS]].
    - exists [], SNew. rewrite seq_cons.
      rewrite (op_state_miss id SSplitting n0 p0);
        [| rewrite R0; zsimp; auto | unfold p0; cbn; rewrite CS; reflexivity].
      cbn [app]. rewrite performs_nil. split; [constructor|]. split; [|auto].
      apply TAIL; auto; rewrite R0; zsimp; auto. unfold p0, with_job. rewrite CS. reflexivity.
    - exists [EMeta id (with_state p0 SSplitting)], SSplitting. rewrite seq_cons.
      rewrite (op_state_hit id SSplitting n0 p0);
        [| rewrite R0; zsimp; auto | unfold p0; cbn; rewrite CS; reflexivity].
      split; [repeat constructor|]. split.
      + cbn [app]. f_equal. apply TAIL; auto; cbn [performs fold_left perform nd_regs]; zsimp; auto.
      + intros j J. cbn [metas]. apply zput_other; auto.
    - exists [], SSplitting. rewrite seq_cons.
      rewrite (op_state_miss id SSplitting n0 p0);
        [| rewrite R0; zsimp; auto | unfold p0; cbn; rewrite CS; reflexivity].
      cbn [app]. rewrite performs_nil. split; [constructor|]. split; [|auto].
      apply TAIL; auto; rewrite R0; zsimp; auto. unfold p0, with_job. rewrite CS. reflexivity. }
  destruct X as (pre & st & F & E & M).
  change (Forall meta_only (EMeta id p0 :: seq ops n0 ++ [ESaved id (nd_applied n id)]) /\
    forall j, nd_regs (performs n (EMeta id p0 :: seq ops n0 ++ [ESaved id (nd_applied n id)])) j =
              post_regs id s p (nd_regs n) j).
  rewrite E. split.
  - constructor; [exact I|]. apply Forall_app. split; [|repeat constructor].
    apply Forall_app. split; auto. repeat constructor.
  - intros j. rewrite performs_regs.
    change (metas ((pre ++ [ESaved (sp_to s) 0; EMem (sp_to s) 0; EMeta (sp_to s) c0;
        EMeta id (mkR st (r_conf p) (r_ver p + 1) (sp_key s) (r_end p) (sp_job s));
        EMeta id (mkR SNormal (r_conf p) (r_ver p + 1) (sp_key s) (r_end p) (sp_job s));
        EMeta (sp_to s) (mkR SNormal 1 2 (r_start p) (sp_key s) 0)]) ++ [ESaved id (nd_applied n id)])
        (nd_regs n0) j = post_regs id s p (nd_regs n) j).
    assert (MA : forall a b f, metas (a ++ b) f = metas b (metas a f)).
    { clear. induction a as [|e a IH]; intros b f; auto. destruct e; cbn [app metas]; apply IH. }
    rewrite !MA. cbn [metas]. unfold post_regs, zput.
    destruct (Z.eqb_spec j (sp_to s)) as [J1|J1].
    + subst j. destruct (Z.eqb_spec (sp_to s) id); [contradiction|]. reflexivity.
    + destruct (Z.eqb_spec j id) as [J2|J2]; auto.
      rewrite M by auto. rewrite R0. rewrite zput_other by auto. auto.
Qed.

(** ** Owners after a split *)

Lemma inside_split a m b k : lt a m -> lt m b ->
  (inside a b k <-> inside a m k \/ inside m b k) /\ ~ (inside a m k /\ inside m b k).
Proof.
  unfold inside, le, lt. intros A B. split.
  - split.
    + intros [K1 K2]. destruct (bcmp k m) eqn:E.
      * right. split; auto. rewrite bcmp_opp, E. discriminate.
      * left. split; auto.
      * right. split; auto. rewrite bcmp_opp, E. discriminate.
    + intros [[K1 K2]|[K1 K2]].
      * split; auto. eapply bcmp_trans; eauto.
      * split; auto. destruct (bcmp m k) eqn:E; [apply bcmp_eq in E; subst; rewrite A; discriminate| |congruence].
        rewrite (bcmp_trans _ _ _ A E). discriminate.
  - intros [[_ K1] [K2 _]]. apply K2. rewrite bcmp_opp, K1. reflexivity.
Qed.

Lemma owns_regs n n' id k : nd_regs n' id = nd_regs n id -> (owns n' id k <-> owns n id k).
Proof. intros E. unfold owns. rewrite E. tauto. Qed.

(** What both kinds of split leave. *)
Lemma split_effect ctx id s e n es p :
  e_reqs e = [QSplit s] -> on_apply ctx id e n = ADone es StOk ->
  nd_regs n id = Some p -> sp_ver s = r_ver p ->
  exists c, sp_to s <> id /\ lt (r_start p) (sp_key s) /\ lt (sp_key s) (r_end p) /\
    (forall k, ~ owns n (sp_to s) k) /\
    same_data n (performs n es) /\
    can_split (r_state p) /\
    r_state c = SNormal /\ r_start c = r_start p /\ r_end c = sp_key s /\
    (forall c0, nd_regs n (sp_to s) = Some c0 -> r_ver c = r_ver c0 + 1) /\
    forall j, nd_regs (performs n es) j =
      if j =? id then Some (mkR SNormal (r_conf p) (r_ver p + 1) (sp_key s) (r_end p) (sp_job s))
      else if j =? sp_to s then Some c else nd_regs n j.
Proof.
  intros Q A P V. destruct (accepted_means _ _ _ _ _ A) as (r & R & RS & SB & C1 & C2 & _ & ws & W & ->).
  rewrite P in R. injection R as <-.
  rewrite Q in W. cbn [run_reqs handler] in W.
  destruct (split_handler id s n) as [e1|e1|] eqn:H; cbn [then_run] in W; try discriminate.
  injection W as <-. rewrite app_nil_r.
  pose proof (not_refused _ RS SB) as CS.
  unfold split_handler in H. destruct (sp_pre s).
  - destruct (pre_split_result id s n p e1 P CS V H) as (c & C & SC & T & L1 & L2 & F & G).
    exists (mkR SNormal (r_conf c) (r_ver c + 1) (r_start p) (sp_key s) (r_job c)).
    split; auto. split; auto. split; auto. split.
    { intros k (r & R & AL & _). rewrite C in R. injection R as <-. rewrite SC in AL.
      destruct AL as [AL|[AL|AL]]; discriminate. }
    split.
    { intros cf k. rewrite performs_db, ops_app, finish_ops, (meta_only_db _ F). reflexivity. }
    split; auto. split; auto. split; auto. split; auto. split.
    { intros c0 C0. rewrite C in C0. injection C0 as <-. reflexivity. }
    intros j. rewrite performs_app, performs_regs, finish_metas, G. reflexivity.
  - destruct (post_split_result id s n p e1 P CS V H) as (C & T & L1 & L2 & F & G).
    exists (mkR SNormal 1 2 (r_start p) (sp_key s) 0).
    split; auto. split; auto. split; auto. split.
    { intros k (r & R & _). congruence. }
    split.
    { intros cf k. rewrite performs_db, ops_app, finish_ops, (meta_only_db _ F). reflexivity. }
    split; auto. split; auto. split; auto. split; auto. split.
    { intros c0 C0. congruence. }
    intros j. rewrite performs_app, performs_regs, finish_metas, G. reflexivity.
Qed.

Lemma split_owners ctx id s e n es p :
  e_reqs e = [QSplit s] -> on_apply ctx id e n = ADone es StOk ->
  nd_regs n id = Some p -> sp_ver s = r_ver p ->
  let n' := performs n es in
  same_data n n' /\
  (forall k, owns n' (sp_to s) k <-> inside (r_start p) (sp_key s) k) /\
  (forall k, owns n' id k <-> inside (sp_key s) (r_end p) k) /\
  (forall j k, j <> id -> j <> sp_to s -> (owns n' j k <-> owns n j k)) /\
  (forall k, inside (r_start p) (r_end p) k ->
     (owns n' id k /\ ~ owns n' (sp_to s) k) \/ (owns n' (sp_to s) k /\ ~ owns n' id k)) /\
  (exists p', nd_regs n' id = Some p' /\ r_ver p' = r_ver p + 1) /\
  (forall c0, nd_regs n (sp_to s) = Some c0 ->
     exists c', nd_regs n' (sp_to s) = Some c' /\ r_ver c' = r_ver c0 + 1).
Proof.
  intros Q A P V n'.
  destruct (split_effect ctx id s e n es p Q A P V)
    as (c & T & L1 & L2 & _ & D & _ & C1 & C2 & C3 & C4 & G).
  assert (OT : forall k, owns n' (sp_to s) k <-> inside (r_start p) (sp_key s) k).
  { intros k. unfold owns, n'. rewrite G. destruct (Z.eqb_spec (sp_to s) id); [contradiction|].
    rewrite Z.eqb_refl. split.
    - intros (r & R & _ & IN). injection R as <-. rewrite C2, C3 in IN. auto.
    - intros IN. exists c. split; auto. rewrite C1, C2, C3. split; auto. left; auto. }
  assert (OI : forall k, owns n' id k <-> inside (sp_key s) (r_end p) k).
  { intros k. unfold owns, n'. rewrite G, Z.eqb_refl. split.
    - intros (r & R & _ & IN). injection R as <-. auto.
    - intros IN. eexists. split; [reflexivity|]. cbn. split; auto. left; auto. }
  split; [exact D|]. split; [exact OT|]. split; [exact OI|]. split.
  { intros j k J1 J2. apply owns_regs. unfold n'. rewrite G.
    destruct (Z.eqb_spec j id); [contradiction|]. destruct (Z.eqb_spec j (sp_to s)); [contradiction|auto]. }
  split.
  { intros k K. destruct (inside_split _ _ _ k L1 L2) as [X Y]. rewrite OT, OI. tauto. }
  split.
  { unfold n'. rewrite G, Z.eqb_refl. eexists. split; [reflexivity|auto]. }
  intros c0 H0. exists c. unfold n'. rewrite G. destruct (Z.eqb_spec (sp_to s) id); [contradiction|].
  rewrite Z.eqb_refl. auto.
Qed.

(** A split whose version is not the region's changes nothing. *)
Lemma split_other_version ctx id s e n es p :
  e_reqs e = [QSplit s] -> on_apply ctx id e n = ADone es StOk ->
  nd_regs n id = Some p -> sp_ver s <> r_ver p ->
  same_data n (performs n es) /\ same_regions n (performs n es).
Proof.
  intros Q A P V. destruct (accepted_means _ _ _ _ _ A) as (r & R & RS & SB & C1 & C2 & _ & ws & W & ->).
  rewrite Q in W. cbn [run_reqs handler] in W.
  destruct (split_handler id s n) as [e1|e1|] eqn:H; cbn [then_run] in W; try discriminate.
  injection W as <-. rewrite app_nil_r.
  assert (E : e1 = [EMeta id (with_job p (sp_job s))]).
  { unfold split_handler in H. destruct (sp_pre s);
      [eapply pre_split_refused|eapply post_split_refused]; eauto. }
  subst e1. split.
  - intros cf k. rewrite performs_db, ops_app, finish_ops. reflexivity.
  - intros j. rewrite performs_app, performs_regs, finish_metas. cbn [performs fold_left perform nd_regs].
    unfold zput. destruct (Z.eqb_spec j id) as [->|N].
    + rewrite P. cbn. auto.
    + destruct (nd_regs n j); auto.
Qed.
