(** * Lemmas about jobs: failures, and applying without a crash *)

From Coq Require Import ZArith List Bool Arith Lia Permutation.
From Verif Require Import JbModel JbSpec JbProofs2 JbProofs3.
Import ListNotations.
Local Open Scope Z_scope.

(** ** Counting failures *)

Definition is_fail (id : Z) (i : inc) : bool :=
  match i with IStatus id' _ Fail => id' =? id | _ => false end.

Definition cnt (id : Z) (l : list inc) : nat := length (filter (is_fail id) l).

Lemma cnt_app id l l' : cnt id (l ++ l') = (cnt id l + cnt id l')%nat.
Proof. unfold cnt. rewrite filter_app, app_length. reflexivity. Qed.

Definition round_incs (r : round) : list inc := match r with Sending _ _ incs => incs | _ => [] end.

Definition pending (s : sys) : list inc := flat_map snd (y_log s) ++ round_incs (y_round s).

(** Tries of a version of a job. *)
Definition tries_le (j : job) (n : nat) : Prop :=
  forall t o, In t (j_tasks j) -> In o (t_ops t) -> (o_tries o <= n)%nat.

Lemma tries_le_mono j n m : (n <= m)%nat -> tries_le j n -> tries_le j m.
Proof. intros H T t o Ht Ho. specialize (T t o Ht Ho). lia. Qed.

(** [F]: the failures so far; [K]: those on the way. *)
Definition tco (F K : Z -> nat) (co : coord) : Prop :=
  forall j, In j (co_jobs co) -> exists n, tries_le j n /\ (n + K (j_id j) <= F (j_id j))%nat.

Definition tinc (F K : Z -> nat) (i : inc) : Prop :=
  match i with
  | ICreate j | IUpdate j => exists n, tries_le j n /\ (n + K (j_id j) <= F (j_id j))%nat
  | _ => True
  end.

Definition given_up (limit : nat) (F : Z -> nat) (co : coord) : Prop :=
  forall j, In (j, false) (co_arch co) ->
    (limit + 2 <= F (j_id j))%nat
    /\ forall n t c, (n < j_next j)%nat -> nth_error (j_tasks j) n = Some t -> In c (task_cmds t) -> c_kind c <> KCreate.

Lemma tries_on_task j step f n :
  tries_le j n ->
  (forall t, nth_error (j_tasks j) step = Some t -> forall o, In o (f (t_ops t)) -> (o_tries o <= n)%nat) ->
  tries_le (on_task step (on_ops f) j) n.
Proof.
  intros T H t o Ht Ho. cbn in Ht. apply upd_In in Ht. destruct Ht as [Ht | (x & Hx & ->)]; [exact (T t o Ht Ho)|].
  cbn in Ho. exact (H x Hx o Ho).
Qed.

Lemma tries_mark cid ops o : In o (mark_ok cid ops) -> exists o', In o' ops /\ o_tries o = o_tries o'.
Proof.
  unfold mark_ok. rewrite in_map_iff. intros (o' & E & Ho). exists o'. split; [exact Ho|].
  destruct (has cid o'); subst o; reflexivity.
Qed.

Lemma tries_fail cid ops o : In o (fail_ops cid ops) -> exists o', In o' ops /\ (o_tries o <= S (o_tries o'))%nat.
Proof.
  unfold fail_ops. destruct (index (has cid) ops) as [i|].
  - intros H. apply upd_In in H. destruct H as [H | (x & Hx & ->)].
    + exists o. split; [exact H | lia].
    + exists x. split; [exact (nth_error_In _ _ Hx) | cbn; lia].
  - intros H. exists o. split; [exact H | lia].
Qed.

Lemma tries_add s c ops o : In o (add_to s c ops) -> o_tries o = 0%nat \/ exists o', In o' ops /\ o_tries o = o_tries o'.
Proof.
  induction ops as [|x ops IH]; cbn [add_to].
  - intros [<- | []]. left. reflexivity.
  - destruct (o_store x =? s); intros [<- | H]; [right | right | right |].
    + exists x. split; [left; reflexivity | reflexivity].
    + exists o. split; [right; exact H | reflexivity].
    + exists x. split; [left; reflexivity | reflexivity].
    + destruct (IH H) as [E | (o' & H1 & H2)]; [left; exact E | right]. exists o'. split; [right; exact H1 | exact H2].
Qed.

Lemma tries_move cid s ops o : In o (move_ops cid s ops) -> o_tries o = 0%nat \/ exists o', In o' ops /\ o_tries o = o_tries o'.
Proof.
  unfold move_ops. intros H.
  assert (Hid : In o ops -> o_tries o = 0%nat \/ exists o', In o' ops /\ o_tries o = o_tries o').
  { intros Hin. right. exists o. split; [exact Hin | reflexivity]. }
  destruct (index (has cid) ops) as [i|]; [|exact (Hid H)]. destruct (find _ _) as [c|]; [|exact (Hid H)].
  apply upd_In in H. destruct H as [H | (x & Hx & ->)]; [exact (tries_add _ _ _ _ H)|].
  exact (tries_add _ _ _ _ (nth_error_In _ _ Hx)).
Qed.

Lemma tco_put F K co j :
  tco F K co -> (exists n, tries_le j n /\ (n + K (j_id j) <= F (j_id j))%nat) -> tco F K (put co j).
Proof.
  intros C V x Hx. cbn in Hx. apply put_in_In in Hx. destruct Hx as [-> | Hx]; [exact V | exact (C x Hx)].
Qed.

Lemma tries_of_le j step cid n : tries_le j n -> (tries_of j step cid <= n)%nat.
Proof.
  intros T. unfold tries_of. destruct (find (has cid) (t_ops (nth_task j step))) as [o|] eqn:E; [|lia].
  apply find_some in E. destruct E as [E _]. unfold nth_task in E.
  destruct (nth_error (j_tasks j) step) as [t|] eqn:Et.
  - rewrite (nth_error_nth _ _ _ Et) in E. exact (T t o (nth_error_In _ _ Et) E).
  - apply nth_error_None in Et. rewrite nth_overflow in E by exact Et. destruct E.
Qed.

Lemma need_clean_spec limit j n :
  need_clean limit j n = true ->
  (limit < n)%nat
  /\ forall k t c, (k < j_next j)%nat -> nth_error (j_tasks j) k = Some t -> In c (task_cmds t) -> c_kind c <> KCreate.
Proof.
  unfold need_clean. destruct (Nat.leb n limit) eqn:E; [discriminate|]. apply Nat.leb_gt in E. intros H.
  split; [exact E|]. intros k t c Hk Ht Hc Ek.
  rewrite negb_true_iff in H. assert (Hx : existsb has_create (firstn (j_next j) (j_tasks j)) = true); [|congruence].
  apply existsb_exists. exists t. split.
  - apply (nth_error_In _ k). rewrite <- Ht. clear - Hk. revert k Hk. generalize (j_next j) as m. generalize (j_tasks j) as l.
    induction l as [|x l IH]; intros [|m] [|k] Hk; try lia; try reflexivity. cbn. apply IH. lia.
  - apply task_cmds_In in Hc. destruct Hc as (o & Ho & Hc). unfold has_create. apply existsb_exists. exists o. split; [exact Ho|].
    apply existsb_exists. exists c. split; [exact Hc | rewrite Ek; reflexivity].
Qed.

Definition plus (K : Z -> nat) (l : list inc) : Z -> nat := fun id => (K id + cnt id l)%nat.

Lemma tco_weak F K K' co : (forall id, (K' id <= K id)%nat) -> tco F K co -> tco F K' co.
Proof. intros H C j Hj. destruct (C j Hj) as (n & H1 & H2). exists n. split; [exact H1|]. specialize (H (j_id j)). lia. Qed.

Lemma apply_inc_tries limit F K co i co' :
  tco F (plus K [i]) co -> tinc F (plus K [i]) i -> given_up limit F co ->
  apply_inc limit co i = Some co' -> tco F K co' /\ given_up limit F co'.
Proof.
  intros C T G H. 
  assert (C' : tco F K co) by (apply (tco_weak F (plus K [i])); [intros id; unfold plus; lia | exact C]).
  destruct i as [j|j|id|id cid st|id cid st]; cbn in H.
  - destruct (j_id j =? 0); [discriminate|]. assert (co' = put co j) by congruence. subst co'. split; [|exact G].
    apply tco_put; [exact C'|]. destruct T as (n & T1 & T2). exists n. split; [exact T1 | unfold plus in T2; lia].
  - destruct (j_id j =? 0); [discriminate|]. assert (co' = put co j) by congruence. subst co'. split; [|exact G].
    apply tco_put; [exact C'|]. destruct T as (n & T1 & T2). exists n. split; [exact T1 | unfold plus in T2; lia].
  - destruct (get co id) as [j|] eqn:Eg; [|discriminate]. assert (Ec : co' = erase (archive co j true) id) by congruence. subst co'.
    split.
    + intros x Hx. cbn in Hx. apply filter_In in Hx. exact (C' x (proj1 Hx)).
    + intros x Hx. cbn in Hx. apply in_app_or in Hx. destruct Hx as [Hx | [Hx | []]]; [exact (G x Hx) | congruence].
  - destruct (get co id) as [j|] eqn:Eg; [|assert (co' = co) by congruence; subst co'; split; assumption].
    destruct (get_In _ _ _ Eg) as [Hj Ej].
    assert (Ec : co' = apply_status limit co j cid st) by congruence. subst co'. clear H.
    unfold apply_status. destruct (find_task j cid) as [step|] eqn:Ef; [|split; assumption].
    destruct st.
    + destruct (Nat.eqb step (j_next j)); [|split; [apply tco_put; [exact C' | exact (C' j Hj)] | exact G]].
      split; [|exact G]. apply tco_put; [exact C'|]. destruct (C' j Hj) as (n & T1 & T2).
      assert (T3 : tries_le (on_task step (on_ops (mark_ok cid)) j) n).
      { apply tries_on_task; [exact T1|]. intros t Ht o Ho. destruct (tries_mark _ _ _ Ho) as (o' & Ho' & ->).
        exact (T1 t o' (nth_error_In _ _ Ht) Ho'). }
      exists n. unfold job_done. destruct (all_ok _); (split; [exact T3 | exact T2]).
    + destruct (C j Hj) as (n & T1 & T2). unfold plus, cnt in T2. cbn in T2. rewrite Ej in T2. rewrite Z.eqb_refl in T2. cbn in T2.
      destruct (need_clean limit j (tries_of j step cid)) eqn:En.
      * destruct (need_clean_spec _ _ _ En) as [N1 N2]. pose proof (tries_of_le j step cid n T1). split.
        -- intros x Hx. cbn in Hx. apply filter_In in Hx. exact (C' x (proj1 Hx)).
        -- intros x Hx. cbn in Hx. apply in_app_or in Hx. destruct Hx as [Hx | [Hx | []]]; [exact (G x Hx)|].
           assert (x = j) by congruence. subst x. split; [rewrite Ej; lia | exact N2].
      * split; [|exact G]. apply tco_put; [exact C'|]. exists (S n). split.
        -- unfold job_fail, with_next. intros t o Ht Ho. cbn in Ht. apply upd_In in Ht.
           destruct Ht as [Ht | (x & Hx & ->)]; [specialize (T1 t o Ht Ho); lia|]. cbn in Ho.
           destruct (tries_fail _ _ _ Ho) as (o' & Ho' & Hle). specialize (T1 x o' (nth_error_In _ _ Hx) Ho'). lia.
        -- cbn. rewrite Ej. lia.
  - destruct (get co id) as [j|] eqn:Eg; [|assert (co' = co) by congruence; subst co'; split; assumption].
    destruct (get_In _ _ _ Eg) as [Hj Ej].
    assert (Ec : co' = apply_move co j cid st) by congruence. subst co'. clear H.
    unfold apply_move. destruct (find_task j cid) as [step|] eqn:Ef; [|split; assumption].
    split; [|exact G]. apply tco_put; [exact C'|]. destruct (C' j Hj) as (n & T1 & T2). exists n. split; [|exact T2].
    apply tries_on_task; [exact T1|]. intros t Ht o Ho. destruct (tries_move _ _ _ _ Ho) as [-> | (o' & Ho' & ->)]; [lia|].
    exact (T1 t o' (nth_error_In _ _ Ht) Ho').
Qed.

Lemma tinc_weak F K K' i : (forall id, (K' id <= K id)%nat) -> tinc F K i -> tinc F K' i.
Proof.
  intros H. destruct i; cbn; try (intros T; exact T).
  - intros (n & T1 & T2). exists n. split; [exact T1|]. specialize (H (j_id j)). lia.
  - intros (n & T1 & T2). exists n. split; [exact T1|]. specialize (H (j_id j)). lia.
Qed.

Lemma apply_all_tries limit F l : forall K co co',
  tco F (plus K l) co -> (forall i, In i l -> tinc F (plus K l) i) -> given_up limit F co ->
  apply_all limit co l = Some co' -> tco F K co' /\ given_up limit F co'.
Proof.
  induction l as [|i l IH]; intros K co co' C T G H; cbn in H.
  - assert (co' = co) by congruence. subst co'. split; [|exact G].
    apply (tco_weak F (plus K [])); [intros id; unfold plus; lia | exact C].
  - destruct (apply_inc limit co i) as [co1|] eqn:E; [|discriminate].
    assert (Hp : forall id, plus K (i :: l) id = plus (plus K l) [i] id).
    { intros id. unfold plus. change (i :: l) with ([i] ++ l). rewrite cnt_app. lia. }
    destruct (apply_inc_tries limit F (plus K l) co i co1) as [C1 G1]; try assumption.
    + apply (tco_weak F (plus K (i :: l))); [intros id; rewrite Hp; lia | exact C].
    + apply (tinc_weak F (plus K (i :: l))); [intros id; rewrite Hp; lia | apply T; left; reflexivity].
    + apply (IH K co1 co' C1); [|exact G1 | exact H]. intros i' Hi.
      apply (tinc_weak F (plus K (i :: l))); [intros id; rewrite Hp; unfold plus; lia | apply T; right; exact Hi].
Qed.

Record tinv (limit : nat) (s : sys) : Prop := mkTinv {
  ti_pend : forall id, (cnt id (pending s) <= failures s id)%nat;
  ti_co : tco (failures s) (fun id => cnt id (pending s)) (y_co s);
  ti_inc : forall i, In i (pending s) -> tinc (failures s) (fun id => cnt id (pending s)) i;
  ti_arch : given_up limit (failures s) (y_co s)
}.

Lemma tinv_init limit : tinv limit init.
Proof. constructor; cbn; try (intros; contradiction); [intros id; lia | intros j [] | intros j []]. Qed.

Lemma apply_entry_tries limit s : tinv limit s -> tinv limit (apply_entry limit s).
Proof.
  intros I. unfold apply_entry. destruct (y_log s) as [|[mine l] r] eqn:El; [exact I|].
  destruct I as [I1 I2 I3 I4].
  destruct (apply_all limit (y_co s) l) as [co'|] eqn:Ea.
  - set (s' := mkSys co' (if mine then Idle else y_round s) r (y_dead s) (y_born s) (y_acked s) (y_sent s) (y_fails s)).
    assert (Ep : pending s = l ++ flat_map snd r ++ round_incs (y_round s)).
    { unfold pending. rewrite El. cbn [flat_map snd]. rewrite <- app_assoc. reflexivity. }
    set (K := fun id => cnt id (flat_map snd r ++ round_incs (y_round s))).
    assert (EK : forall id, plus K l id = cnt id (pending s)).
    { intros id. unfold plus, K. rewrite Ep, !cnt_app. lia. }
    assert (HK' : forall id, (cnt id (pending s') <= K id)%nat).
    { intros id. unfold K, pending, s'. cbn [y_log y_round]. rewrite !cnt_app. destruct mine; [change (cnt id (round_incs Idle)) with 0%nat|]; lia. }
    assert (Hsub : forall i, In i (pending s') -> In i (pending s)).
    { intros i Hi. rewrite Ep. unfold pending, s' in Hi. cbn in Hi. apply in_app_or in Hi. apply in_or_app. right. apply in_or_app.
      destruct Hi as [Hi | Hi]; [left; exact Hi | right]. destruct mine; [destruct Hi | exact Hi]. }
    destruct (apply_all_tries limit (failures s) l K (y_co s) co') as [C1 G1]; try assumption.
    + apply (tco_weak _ (fun id => cnt id (pending s))); [intros id; rewrite EK; lia | exact I2].
    + intros i Hi. apply (tinc_weak _ (fun id => cnt id (pending s))); [intros id; rewrite EK; lia|].
      apply I3. rewrite Ep. apply in_or_app. left. exact Hi.
    + constructor.
      * intros id. change (failures s' id) with (failures s id). specialize (I1 id). specialize (HK' id). specialize (EK id).
        unfold plus in EK. lia.
      * change (failures s') with (failures s). exact (tco_weak _ K _ _ HK' C1).
      * intros i Hi. change (failures s') with (failures s).
        apply (tinc_weak _ (fun id => cnt id (pending s))); [|exact (I3 i (Hsub i Hi))].
        intros id. specialize (HK' id). specialize (EK id). unfold plus in EK. lia.
      * exact G1.
  - set (s' := mkSys (y_co s) (y_round s) ((mine, l) :: r) true (y_born s) (y_acked s) (y_sent s) (y_fails s)).
    assert (Ep : pending s' = pending s) by (unfold pending, s'; cbn; rewrite El; reflexivity).
    constructor.
    + intros id. rewrite Ep. exact (I1 id).
    + change (tco (failures s) (fun id => cnt id (pending s')) (y_co s)). rewrite Ep. exact I2.
    + rewrite Ep. exact I3.
    + exact I4.
Qed.

Lemma apply_entries_tries limit n : forall s, tinv limit s -> tinv limit (apply_entries limit n s).
Proof.
  induction n as [|n IH]; intros s H; [exact H|]. cbn [apply_entries]. destruct (y_dead s); [exact H|].
  apply IH. apply apply_entry_tries. exact H.
Qed.

(** More failures, and as many more on the way. *)
Lemma tinv_grow limit s s' d :
  tinv limit s ->
  y_co s' = y_co s ->
  (forall id, (cnt id (pending s') <= cnt id (pending s) + d id)%nat) ->
  (forall id, failures s' id = (failures s id + d id)%nat) ->
  (forall i, In i (pending s') -> In i (pending s) \/ tinc (failures s') (fun id => cnt id (pending s')) i) ->
  tinv limit s'.
Proof.
  intros [I1 I2 I3 I4] Ec Hp Hf Hi. constructor.
  - intros id. specialize (I1 id). specialize (Hp id). rewrite Hf. lia.
  - rewrite Ec. intros j Hj. destruct (I2 j Hj) as (n & T1 & T2). exists n. split; [exact T1|].
    specialize (Hp (j_id j)). rewrite Hf. lia.
  - intros i Hin. destruct (Hi i Hin) as [Hin' | T]; [|exact T]. specialize (I3 i Hin'). destruct i; cbn in *; try exact I3.
    + destruct I3 as (n & T1 & T2). exists n. split; [exact T1|]. specialize (Hp (j_id j)). rewrite Hf. lia.
    + destruct I3 as (n & T1 & T2). exists n. split; [exact T1|]. specialize (Hp (j_id j)). rewrite Hf. lia.
  - rewrite Ec. intros j Hj. destruct (I4 j Hj) as [G1 G2]. split; [rewrite Hf; lia | exact G2].
Qed.

Lemma process_tries F K v cap js :
  (forall j, In j js -> exists n, tries_le j n /\ (n + K (j_id j) <= F (j_id j))%nat) ->
  forall i, In i (fst (process v cap js)) -> tinc F K i /\ forall id, is_fail id i = false.
Proof.
  intros V. unfold process.
  assert (G : forall js a, (forall j, In j js -> exists n, tries_le j n /\ (n + K (j_id j) <= F (j_id j))%nat) ->
     (forall i, In i (fst a) -> tinc F K i /\ forall id, is_fail id i = false) ->
     forall i, In i (fst (fold_left (fun a j => process_job v cap j a) js a)) -> tinc F K i /\ forall id, is_fail id i = false).
  { clear js V. induction js as [|j js IH]; intros [incs m] V Hi; [exact Hi|]. cbn [fold_left].
    apply IH; [intros j' Hj; apply V; right; exact Hj|].
    unfold process_job. destruct (Nat.eqb (j_next j) (length (j_tasks j))).
    - cbn. intros i Hin. apply in_app_or in Hin. destruct Hin as [Hin | [<- | []]]; [exact (Hi i Hin) | split; [exact I | reflexivity]].
    - destruct (nth_error (j_tasks j) (j_next j)) as [t|]; [|exact Hi].
      destruct (negb (forallb (check_ok v) (t_ops t))); [exact Hi|].
      destruct (add_sends v cap (items j t) m) as [m' ok].
      destruct (negb ok); [exact Hi|]. destruct (negb (forallb (pv_drop v) (t_drops t))); [exact Hi|].
      destruct (forallb _ (t_ops t)); [|exact Hi].
      cbn. intros i Hin. apply in_app_or in Hin. destruct Hin as [Hin | [<- | []]]; [exact (Hi i Hin)|].
      split; [|reflexivity]. cbn. exact (V j (or_introl eq_refl)). }
  apply (G js ([], []) V). intros i [].
Qed.

Lemma reply_incs_fails co stores st id xs : forall rs,
  (cnt id (reply_incs co stores st xs rs)
   <= length (filter (Z.eqb id) (flat_map (fun p => match snd p with
                                    | Refused _ => if advances (c_kind (i_cmd (fst p))) (snd p) then [] else [i_job (fst p)]
                                    | _ => []
                                    end) (combine xs rs))))%nat
  /\ forall i, In i (reply_incs co stores st xs rs) -> forall F K, tinc F K i.
Proof.
  induction xs as [|x xs IH]; intros [|r rs]; cbn [reply_incs combine flat_map]; try (split; [cbn; lia | intros i []]).
  destruct (IH rs) as [H1 H2]. rewrite cnt_app, filter_app, app_length. cbn [fst snd]. split.
  - match goal with |- (_ <= ?b + _)%nat => assert (Hx : (cnt id (one_inc co stores st x r) <= b)%nat) end; [|lia].
    unfold one_inc. destruct r as [| |e|s'].
    + destruct (get co (i_job x)); cbn; lia.
    + destruct (get co (i_job x)); cbn; lia.
    + destruct (get co (i_job x)); [|cbn; lia].
      destruct (advances (c_kind (i_cmd x)) (Refused e)) eqn:Ea; unfold cnt; cbn -[advances].
      * lia.
      * rewrite (Z.eqb_sym id). destruct (i_job x =? id); cbn; lia.
    + destruct ((s' =? 0) || (s' =? st)); [cbn; lia|]. destruct (stores st && stores s'); cbn; lia.
  - intros i Hi F K. apply in_app_or in Hi. destruct Hi as [Hi | Hi]; [|exact (H2 i Hi F K)].
    unfold one_inc in Hi. destruct r as [| |e|s'];
      try (destruct (get co (i_job x)); [destruct Hi as [<- | []]; exact I | destruct Hi]).
    destruct ((s' =? 0) || (s' =? st)); [destruct Hi|]. destruct (stores st && stores s'); [|destruct Hi].
    destruct Hi as [<- | []]. exact I.
Qed.

Lemma reply_incs_ok co stores st xs id : cnt id (reply_incs co stores st xs (map (fun _ => Accepted) xs)) = 0%nat.
Proof.
  induction xs as [|x xs IH]; [reflexivity|]. cbn [map reply_incs]. rewrite cnt_app, IH. cbn.
  destruct (get co (i_job x)); reflexivity.
Qed.

Lemma tinv_step limit s e s' :
  tinv limit s -> fits s e -> step limit s e = Some s' -> tinv limit s'.
Proof.
  intros I F H. unfold step in H. destruct (y_dead s) eqn:Ed; [discriminate|].
  destruct e as [j|id cid|id|v cap|r| | |n].
  - set (s1 := mkSys (y_co s) (y_round s) (y_log s ++ [(false, [ICreate j])]) false (j :: y_born s)
                            (y_acked s) (y_sent s) (y_fails s)).
    assert (Es : s' = s1) by (unfold s1; cbn in H; congruence). subst s'. clear H.
    assert (Hc : forall id, cnt id (pending s1) = cnt id (pending s)).
    { intros id. unfold pending, s1. cbn [y_log y_round]. rewrite flat_map_app, !cnt_app. change (cnt id (flat_map snd [(false, [ICreate j])])) with 0%nat. lia. }
    apply (tinv_grow limit s s1 (fun _ => 0%nat) I); [reflexivity | intros id; rewrite Hc; lia | intros id; unfold failures; cbn; lia|].
    intros i Hi. unfold pending, s1 in Hi. cbn in Hi. rewrite flat_map_app in Hi. cbn in Hi.
    rewrite <- app_assoc in Hi. apply in_app_or in Hi. cbn in Hi. unfold pending.
    destruct Hi as [Hi | [Hi | Hi]].
    + left. apply in_or_app. left. exact Hi.
    + right. subst i. unfold tinc. exists 0%nat. destruct F as [(_ & _ & _ & F) _]. split.
      * intros t o Ht Ho. destruct (F t Ht) as [F1 _]. destruct (F1 o Ho) as (_ & E & _). lia.
      * cbv beta. rewrite Hc. exact (ti_pend _ _ I _).
    + left. apply in_or_app. right. exact Hi.
  - destruct (get (y_co s) id) as [j|] eqn:Eg; [|assert (s' = s) by congruence; subst s'; exact I].
    set (s1 := mkSys (y_co s) (y_round s) (y_log s ++ [(false, [IStatus id cid Fail])]) false (y_born s)
                            (y_acked s) (y_sent s) (id :: y_fails s)).
    assert (Es : s' = s1) by (unfold s1; cbn in H; congruence). subst s'. clear H.
    apply (tinv_grow limit s s1 (fun id' => if id =? id' then 1%nat else 0%nat) I); [reflexivity | | |].
    + intros id'. unfold pending, s1. cbn [y_log y_round]. rewrite flat_map_app, !cnt_app.
      assert (E1 : cnt id' (flat_map snd [(false, [IStatus id cid Fail])]) = if id =? id' then 1%nat else 0%nat)
        by (unfold cnt; cbn; destruct (id =? id'); reflexivity).
      rewrite E1. destruct (id =? id'); lia.
    + intros id'. unfold failures, s1. cbn. rewrite (Z.eqb_sym id'). destruct (id =? id'); cbn; lia.
    + intros i Hi. unfold pending, s1 in Hi. cbn in Hi. rewrite flat_map_app in Hi. cbn in Hi.
      rewrite <- app_assoc in Hi. apply in_app_or in Hi. cbn in Hi. unfold pending.
      destruct Hi as [Hi | [Hi | Hi]].
      * left. apply in_or_app. left. exact Hi.
      * right. subst i. exact Logic.I.
      * left. apply in_or_app. right. exact Hi.
  - set (l := map (fun j => IDelete (j_id j)) (filter (fun j => (id =? 0) || (j_id j =? id)) (co_jobs (y_co s)))) in *.
    assert (Es : s' = s \/ s' = write s false l) by (destruct l; [left | right]; congruence).
    destruct Es as [Es | Es]; [subst s'; exact I|].
    assert (Hl : forall i, In i l -> (forall id, is_fail id i = false) /\ forall F K, tinc F K i).
    { intros i Hi. unfold l in Hi. apply in_map_iff in Hi. destruct Hi as (j & <- & _). split; [reflexivity | intros; exact Logic.I]. }
    apply (tinv_grow limit s s' (fun _ => 0%nat) I); subst s'.
    + reflexivity.
    + intros id'. unfold pending, write. cbn [y_log y_round]. rewrite flat_map_app, !cnt_app. cbn [flat_map snd]. rewrite app_nil_r.
      assert (E0 : cnt id' l = 0%nat); [|lia]. unfold cnt. clear - Hl. induction l as [|i l IH]; [reflexivity|]. cbn.
      rewrite (proj1 (Hl i (or_introl eq_refl)) id'). apply IH. intros i' Hi. apply Hl. right. exact Hi.
    + intros id'. unfold failures. cbn. lia.
    + intros i Hi. unfold pending, write in Hi. cbn in Hi. rewrite flat_map_app in Hi. cbn in Hi. rewrite app_nil_r in Hi.
      rewrite <- app_assoc in Hi. apply in_app_or in Hi. unfold pending. destruct Hi as [Hi | Hi]; [left; apply in_or_app; left; exact Hi|].
      apply in_app_or in Hi. destruct Hi as [Hi | Hi]; [right; apply (Hl i Hi) | left; apply in_or_app; right; exact Hi].
  - destruct (y_round s) eqn:Er; try discriminate.
    destruct (process v cap (co_jobs (y_co s))) as [incs m] eqn:Ep.
    set (s1 := mkSys (y_co s) (Sending (pv_store v) (sends m) incs) (y_log s) false
                            (y_born s) (y_acked s) (y_sent s) (y_fails s)).
    assert (Es : s' = s1) by (unfold s1; congruence). subst s'. clear H.
    pose proof (process_tries (failures s) (fun id => cnt id (pending s)) v cap (co_jobs (y_co s)) (ti_co _ _ I)) as G.
    rewrite Ep in G. cbn in G.
    assert (Hc : forall id, cnt id (pending s1) = cnt id (pending s)).
    { intros id. unfold pending, s1. rewrite Er. cbn [y_log y_round round_incs]. rewrite !cnt_app. assert (E0 : cnt id incs = 0%nat); [|rewrite E0; reflexivity].
      unfold cnt. clear - G. induction incs as [|i l IH]; [reflexivity|]. cbn.
      rewrite (proj2 (G i (or_introl eq_refl)) id). apply IH. intros i' Hi. apply G. right. exact Hi. }
    apply (tinv_grow limit s s1 (fun _ => 0%nat) I); [reflexivity | intros id; rewrite Hc; lia | intros id; unfold failures; cbn; lia|].
    intros i Hi. unfold pending, s1 in Hi. cbn in Hi. apply in_app_or in Hi. destruct Hi as [Hi | Hi].
    + left. unfold pending. apply in_or_app. left. exact Hi.
    + right. apply (tinc_weak _ (fun id => cnt id (pending s))); [intros id; rewrite Hc; lia|].
      change (failures s1) with (failures s). exact (proj1 (G i Hi)).
  - destruct (y_round s) as [|stores todo incs|] eqn:Er; try discriminate.
    destruct todo as [|[st xs] todo]; [discriminate|].
    destruct (match r with RReply rs => Nat.eqb (length rs) (length xs) | _ => true end) eqn:El; [|discriminate].
    set (s1 := mkSys (y_co s) (Sending stores todo (incs ++ send_incs (y_co s) stores st xs r)) (y_log s) false
                            (y_born s) (acks_of xs r ++ y_acked s)
                            (map (fun x => (i_job x, c_id (i_cmd x))) xs ++ y_sent s)
                            (fails_of xs r ++ y_fails s)).
    assert (Es : s' = s1) by (unfold s1; congruence). subst s'. clear H.
    assert (Hsi : (forall id, (cnt id (send_incs (y_co s) stores st xs r) <= length (filter (Z.eqb id) (fails_of xs r)))%nat)
                  /\ forall i, In i (send_incs (y_co s) stores st xs r) -> forall F K, tinc F K i).
    { split.
      - intros id. destruct r as [| |rs]; cbn [send_incs fails_of]; [cbn; lia | rewrite reply_incs_ok; lia|].
        exact (proj1 (reply_incs_fails (y_co s) stores st id xs rs)).
      - intros i Hi. destruct r as [| |rs]; cbn in Hi; [destruct Hi | |].
        + exact (proj2 (reply_incs_fails (y_co s) stores st 0 xs _) i Hi).
        + exact (proj2 (reply_incs_fails (y_co s) stores st 0 xs _) i Hi). }
    apply (tinv_grow limit s s1 (fun id => length (filter (Z.eqb id) (fails_of xs r))) I); [reflexivity | | |].
    + intros id. unfold pending, s1. rewrite Er. cbn [y_log y_round round_incs]. rewrite !cnt_app. pose proof (proj1 Hsi id). lia.
    + intros id. unfold failures, s1. cbn. rewrite filter_app, app_length. lia.
    + intros i Hi. unfold pending, s1 in Hi. cbn in Hi. unfold pending. rewrite Er. cbn.
      rewrite app_assoc in Hi. apply in_app_or in Hi. destruct Hi as [Hi | Hi]; [left; exact Hi | right].
      apply (proj2 Hsi i Hi).
  - destruct (y_round s) as [|stores todo incs|] eqn:Er; try discriminate. destruct todo as [|p todo]; [|destruct incs; discriminate].
    assert (Es : y_co s' = y_co s /\ y_fails s' = y_fails s /\ pending s' = pending s).
    { unfold pending. rewrite Er. destruct incs as [|i0 incs].
      - assert (Es : s' = mkSys (y_co s) Idle (y_log s) false (y_born s) (y_acked s) (y_sent s) (y_fails s)) by congruence.
        subst s'. cbn. split; [reflexivity | split; reflexivity].
      - assert (Es : s' = mkSys (y_co s) Waiting (y_log s ++ [(true, i0 :: incs)]) false (y_born s) (y_acked s) (y_sent s) (y_fails s))
          by (cbn in H; congruence).
        subst s'. cbn. rewrite flat_map_app. cbn. rewrite !app_nil_r. split; [reflexivity | split; reflexivity]. }
    destruct Es as (E1 & E2 & E3).
    apply (tinv_grow limit s s' (fun _ => 0%nat) I E1); [intros id; rewrite E3; lia | intros id; unfold failures; rewrite E2; lia|].
    intros i Hi. left. rewrite <- E3. exact Hi.
  - assert (Es : s' = apply_entry limit s) by (destruct (y_log s); congruence). subst s'. exact (apply_entry_tries limit s I).
  - pose proof (apply_entries_tries limit n s I) as J. set (s1 := apply_entries limit n s) in *.
    assert (Es : s' = mkSys (y_co s1) Idle [] (y_dead s1) (y_born s1) (y_acked s1) (y_sent s1) (y_fails s1)) by congruence.
    clear H. apply (tinv_grow limit s1 s' (fun _ => 0%nat) J); subst s'.
    + reflexivity.
    + intros id. unfold pending at 1. cbn. lia.
    + intros id. unfold failures. cbn. lia.
    + intros i [].
Qed.

Lemma tinv_reach limit (P : sys -> event -> Prop) s :
  (forall s e, P s e -> fits s e) -> reach limit P s -> tinv limit s.
Proof.
  intros HP H. induction H as [|s e s' Hr IH Hp Hs]; [apply tinv_init|]. exact (tinv_step limit s e s' IH (HP _ _ Hp) Hs).
Qed.

Lemma given_up_after limit s j :
  reach limit fits s -> In (j, false) (co_arch (y_co s)) ->
  (limit + 2 <= failures s (j_id j))%nat
  /\ forall n t c, (n < j_next j)%nat -> nth_error (j_tasks j) n = Some t -> In c (task_cmds t) -> c_kind c <> KCreate.
Proof. intros R. exact (ti_arch _ _ (tinv_reach limit fits s (fun _ _ H => H) R) j). Qed.
