(** * Lemmas about jobs: applying the log does not end the process *)

From Coq Require Import ZArith List Bool Arith Lia Permutation.
From Verif Require Import JbModel JbSpec JbProofs2 JbProofs3 JbProofs4.
Import ListNotations.
Local Open Scope Z_scope.

Definition ids (co : coord) : list Z := map j_id (co_jobs co).

Definition dels (l : list inc) : list Z := flat_map (fun i => match i with IDelete id => [id] | _ => [] end) l.

Lemma put_in_ids j l :
  map j_id (put_in j l) = if existsb (fun x => j_id x =? j_id j) l then map j_id l else map j_id l ++ [j_id j].
Proof.
  induction l as [|x l IH]; [reflexivity|]. cbn [put_in existsb]. destruct (j_id x =? j_id j) eqn:E; cbn.
  - apply Z.eqb_eq in E. rewrite E. reflexivity.
  - rewrite IH. destruct (existsb _ l); reflexivity.
Qed.

Lemma ids_put co j id : In id (ids co) -> In id (ids (put co j)).
Proof.
  unfold ids, put. cbn. rewrite put_in_ids. destruct (existsb _ _); [tauto|]. intros H. apply in_or_app. left. exact H.
Qed.

Lemma ids_put_nodup co j : NoDup (ids co) -> NoDup (ids (put co j)).
Proof.
  unfold ids, put. cbn. rewrite put_in_ids. destruct (existsb _ _) eqn:E; [tauto|]. intros H.
  apply (Permutation_NoDup (Permutation_cons_append _ _)). constructor; [|exact H].
  intros Hin. apply in_map_iff in Hin. destruct Hin as (x & Ex & Hx).
  assert (E2 : existsb (fun x => j_id x =? j_id j) (co_jobs co) = true); [|congruence].
  apply existsb_exists. exists x. split; [exact Hx | apply Z.eqb_eq; exact Ex].
Qed.

Lemma ids_erase co id j ok : ids (erase (archive co j ok) id) = filter (fun x => negb (x =? id)) (ids co).
Proof.
  unfold ids, erase, archive. cbn. induction (co_jobs co) as [|x l IH]; [reflexivity|]. cbn.
  destruct (j_id x =? id); cbn; rewrite IH; reflexivity.
Qed.

Lemma get_ids co id : In id (ids co) <-> exists j, get co id = Some j.
Proof.
  unfold ids, get. split.
  - intros H. apply in_map_iff in H. destruct H as (j & E & Hj).
    destruct (find (fun j => j_id j =? id) (co_jobs co)) as [x|] eqn:Ef; [exists x; reflexivity|].
    pose proof (find_none _ _ Ef j Hj) as Hx. cbn in Hx. rewrite E, Z.eqb_refl in Hx. discriminate.
  - intros (j & H). apply find_some in H. destruct H as [H1 H2]. apply Z.eqb_eq in H2. rewrite <- H2. apply in_map. exact H1.
Qed.

Definition pos_inc (i : inc) : Prop := match i with ICreate j | IUpdate j => 0 < j_id j | _ => True end.

Lemma apply_inc_live limit F K co i :
  (forall id, (F id <= limit + 1)%nat) ->
  NoDup (ids co) -> pos_inc i -> (forall id, i = IDelete id -> In id (ids co)) -> tco F (plus K [i]) co ->
  exists co', apply_inc limit co i = Some co' /\ NoDup (ids co')
    /\ forall id, In id (ids co) -> ~ In id (dels [i]) -> In id (ids co').
Proof.
  intros HF Hn Hp Hd HT. destruct i as [j|j|id|id cid st|id cid st]; cbn in *.
  - destruct (j_id j =? 0) eqn:E; [apply Z.eqb_eq in E; lia|]. exists (put co j). split; [reflexivity|].
    split; [exact (ids_put_nodup _ _ Hn) | intros id H _; exact (ids_put _ _ _ H)].
  - destruct (j_id j =? 0) eqn:E; [apply Z.eqb_eq in E; lia|]. exists (put co j). split; [reflexivity|].
    split; [exact (ids_put_nodup _ _ Hn) | intros id H _; exact (ids_put _ _ _ H)].
  - destruct (proj1 (get_ids co id) (Hd id eq_refl)) as (j & Ej). rewrite Ej. eexists. split; [reflexivity|].
    rewrite ids_erase. split; [apply NoDup_filter; exact Hn|]. intros id' H Hne. apply filter_In. split; [exact H|].
    destruct (id' =? id) eqn:E; [|reflexivity]. apply Z.eqb_eq in E. exfalso. apply Hne. left. congruence.
  - destruct (get co id) as [j|] eqn:Eg; [|exists co; split; [reflexivity | split; [exact Hn | intros; assumption]]].
    eexists. split; [reflexivity|]. unfold apply_status.
    destruct (find_task j cid) as [step|]; [|split; [exact Hn | intros; assumption]].
    destruct (get_In _ _ _ Eg) as [Hj Ej].
    destruct st.
    + destruct (Nat.eqb step (j_next j)); (split; [exact (ids_put_nodup _ _ Hn) | intros id' H _; exact (ids_put _ _ _ H)]).
    + destruct (HT j Hj) as (n & T1 & T2). unfold plus, cnt in T2. cbn in T2. rewrite Ej, Z.eqb_refl in T2. cbn in T2.
      specialize (HF id). pose proof (tries_of_le j step cid n T1) as Hle.
      assert (Ec : need_clean limit j (tries_of j step cid) = false).
      { unfold need_clean. destruct (Nat.leb (tries_of j step cid) limit) eqn:E; [reflexivity|]. apply Nat.leb_gt in E. lia. }
      rewrite Ec. split; [exact (ids_put_nodup _ _ Hn) | intros id' H _; exact (ids_put _ _ _ H)].
  - destruct (get co id) as [j|] eqn:Eg; [|exists co; split; [reflexivity | split; [exact Hn | intros; assumption]]].
    eexists. split; [reflexivity|]. unfold apply_move.
    destruct (find_task j cid) as [step|]; [|split; [exact Hn | intros; assumption]].
    split; [exact (ids_put_nodup _ _ Hn) | intros id' H _; exact (ids_put _ _ _ H)].
Qed.

Lemma dels_app l l' : dels (l ++ l') = dels l ++ dels l'.
Proof. unfold dels. apply flat_map_app. Qed.

Lemma dels_In l id : In id (dels l) <-> In (IDelete id) l.
Proof.
  unfold dels. rewrite in_flat_map. split.
  - intros (i & Hi & H). destruct i as [j|j|x|x y z|x y z]; cbn in H; try contradiction. destruct H as [<- | []]. exact Hi.
  - intros H. exists (IDelete id). split; [exact H | left; reflexivity].
Qed.

Lemma apply_all_live limit F l : forall K co,
  (forall id, (F id <= limit + 1)%nat) ->
  NoDup (ids co) -> (forall i, In i l -> pos_inc i) -> (forall id, In id (dels l) -> In id (ids co)) -> NoDup (dels l) ->
  tco F (plus K l) co -> (forall i, In i l -> tinc F (plus K l) i) -> given_up limit F co ->
  exists co', apply_all limit co l = Some co' /\ NoDup (ids co')
    /\ forall id, In id (ids co) -> ~ In id (dels l) -> In id (ids co').
Proof.
  induction l as [|i l IH]; intros K co HF Hn Hp Hd Hdn HT HI HG; cbn [apply_all].
  - exists co. split; [reflexivity|]. split; [exact Hn | intros; assumption].
  - assert (Hpl : forall id, plus K (i :: l) id = plus (plus K l) [i] id).
    { intros id. unfold plus. change (i :: l) with ([i] ++ l). rewrite cnt_app. lia. }
    assert (HT' : tco F (plus (plus K l) [i]) co) by (apply (tco_weak F (plus K (i :: l))); [intros id; rewrite Hpl; lia | exact HT]).
    destruct (apply_inc_live limit F (plus K l) co i HF Hn (Hp i (or_introl eq_refl))) as (co1 & E1 & N1 & D1); [|exact HT'|].
    { intros id Ei. apply Hd. apply dels_In. left. exact Ei. }
    destruct (apply_inc_tries limit F (plus K l) co i co1 HT') as [C1 G1]; [|exact HG|exact E1|].
    { apply (tinc_weak F (plus K (i :: l))); [intros id; rewrite Hpl; lia | apply HI; left; reflexivity]. }
    rewrite E1.
    assert (Ed : dels (i :: l) = dels [i] ++ dels l) by (unfold dels; cbn; rewrite app_nil_r; reflexivity).
    assert (Hdis : forall id, In id (dels l) -> ~ In id (dels [i])).
    { intros id H1 H2. rewrite Ed in Hdn. destruct i; cbn in H2; try contradiction. destruct H2 as [-> | []].
      cbn in Hdn. inversion Hdn; subst. contradiction. }
    destruct (IH K co1 HF N1) as (co2 & E2 & N2 & D2).
    + intros i' Hi. apply Hp. right. exact Hi.
    + intros id Hin. apply D1; [|exact (Hdis id Hin)]. apply Hd. rewrite Ed. apply in_or_app. right. exact Hin.
    + rewrite Ed in Hdn. destruct i; cbn in Hdn; try exact Hdn. inversion Hdn; assumption.
    + exact C1.
    + intros i' Hi. apply (tinc_weak F (plus K (i :: l))); [intros id; rewrite Hpl; unfold plus; lia | apply HI; right; exact Hi].
    + exact G1.
    + exists co2. split; [exact E2|]. split; [exact N2|]. intros id H1 H2. rewrite Ed in H2.
      apply D2; [apply D1; [exact H1|] |]; intros Hx; apply H2; apply in_or_app; [left | right]; exact Hx.
Qed.

(** Entries without deletions, not of the run. *)
Definition plain_log (l : list (bool * list inc)) : Prop := forall m x, In (m, x) l -> m = false /\ dels x = [].

Definition rinv (s : sys) : Prop :=
  match y_round s with
  | Idle => plain_log (y_log s)
  | Sending _ _ incs => plain_log (y_log s) /\ NoDup (dels incs) /\ forall id, In id (dels incs) -> In id (ids (y_co s))
  | Waiting => exists l1 l l2, y_log s = l1 ++ (true, l) :: l2 /\ plain_log l1 /\ plain_log l2
                 /\ NoDup (dels l) /\ forall id, In id (dels l) -> In id (ids (y_co s))
  end.

Record linv (s : sys) : Prop := mkLinv {
  li_dead : y_dead s = false;
  li_ids : NoDup (ids (y_co s));
  li_round : rinv s
}.

Lemma incgood_pos nc A B i : incgood nc A B i -> pos_inc i.
Proof. destruct i; cbn; intros H; try exact I; apply H. Qed.

Lemma apply_entry_live limit s :
  (forall id, (failures s id <= limit + 1)%nat) -> yinv true s -> tinv limit s -> linv s -> linv (apply_entry limit s).
Proof.
  intros HF Y T L. unfold apply_entry. destruct (y_log s) as [|[mine l] r] eqn:El; [exact L|].
  destruct T as [T1 T2 T3 T4]. destruct L as [L1 L2 L3].
  assert (Ep : pending s = l ++ flat_map snd r ++ round_incs (y_round s)).
  { unfold pending. rewrite El. cbn [flat_map snd]. rewrite <- app_assoc. reflexivity. }
  set (K := fun id => cnt id (flat_map snd r ++ round_incs (y_round s))).
  assert (EK : forall id, plus K l id = cnt id (pending s)).
  { intros id. unfold plus, K. rewrite Ep, !cnt_app. lia. }
  assert (Hpos : forall i, In i l -> pos_inc i).
  { intros i Hi. apply (incgood_pos true (y_acked s) (y_born s)). apply (yi_log _ _ Y mine l i); [rewrite El; left; reflexivity | exact Hi]. }
  assert (Hlive : NoDup (dels l) -> (forall id, In id (dels l) -> In id (ids (y_co s))) ->
            exists co', apply_all limit (y_co s) l = Some co' /\ NoDup (ids co')
              /\ forall id, In id (ids (y_co s)) -> ~ In id (dels l) -> In id (ids co')).
  { intros H1 H2. apply (apply_all_live limit (failures s) l K (y_co s) HF L2 Hpos H2 H1); [| |exact T4].
    - apply (tco_weak _ (fun id => cnt id (pending s))); [intros id; rewrite EK; lia | exact T2].
    - intros i Hi. apply (tinc_weak _ (fun id => cnt id (pending s))); [intros id; rewrite EK; lia|].
      apply T3. rewrite Ep. apply in_or_app. left. exact Hi. }
  assert (Hplain : mine = false -> dels l = [] -> plain_log r \/ True). { intros; right; exact I. }
  clear Hplain.
  unfold rinv in L3. rewrite El in L3.
  destruct (y_round s) as [|stores todo incs|] eqn:Er.
  - destruct (L3 mine l (or_introl eq_refl)) as [Em Edl].
    destruct (Hlive) as (co' & E1 & N1 & D1); [rewrite Edl; constructor | rewrite Edl; intros id []|].
    rewrite E1, Em. constructor; cbn; [exact L1 | exact N1|]. unfold rinv. cbn.
    intros m x Hx. exact (L3 m x (or_intror Hx)).
  - destruct L3 as (L3 & L4 & L5). destruct (L3 mine l (or_introl eq_refl)) as [Em Edl].
    destruct (Hlive) as (co' & E1 & N1 & D1); [rewrite Edl; constructor | rewrite Edl; intros id []|].
    rewrite E1, Em. constructor; cbn; [exact L1 | exact N1|]. unfold rinv. cbn.
    split; [intros m x Hx; exact (L3 m x (or_intror Hx))|]. split; [exact L4|].
    intros id Hid. apply D1; [exact (L5 id Hid) | rewrite Edl; intros []].
  - destruct L3 as (l1 & l0 & l2 & Elog & P1 & P2 & N0 & D0). destruct l1 as [|[m1 x1] l1]; cbn in Elog.
    + assert (mine = true) by congruence. assert (l = l0) by congruence. assert (r = l2) by congruence. subst mine l0 l2.
      destruct (Hlive N0 D0) as (co' & E1 & N1 & D1). rewrite E1. constructor; cbn; [exact L1 | exact N1|].
      unfold rinv. cbn. exact P2.
    + assert (mine = m1) by congruence. assert (l = x1) by congruence. assert (Er2 : r = l1 ++ (true, l0) :: l2) by congruence. subst m1 x1.
      destruct (P1 mine l (or_introl eq_refl)) as [Em Edl].
      destruct (Hlive) as (co' & E1 & N1 & D1); [rewrite Edl; constructor | rewrite Edl; intros id []|].
      rewrite E1, Em. constructor; cbn; [exact L1 | exact N1|]. unfold rinv. cbn.
      exists l1, l0, l2. split; [exact Er2|]. split; [intros m x Hx; exact (P1 m x (or_intror Hx))|].
      split; [exact P2|]. split; [exact N0|]. intros id Hid. apply D1; [exact (D0 id Hid) | rewrite Edl; intros []].
Qed.

Lemma apply_entries_live limit n : forall s,
  (forall id, (failures s id <= limit + 1)%nat) -> yinv true s -> tinv limit s -> linv s -> linv (apply_entries limit n s).
Proof.
  induction n as [|n IH]; intros s HF Y T L; [exact L|]. cbn [apply_entries]. destruct (y_dead s) eqn:Ed; [exact L|].
  apply IH.
  - intros id. destruct (apply_entry_keep limit s) as (_ & _ & _ & E). unfold failures. rewrite E. exact (HF id).
  - exact (apply_entry_good true limit s Y).
  - exact (apply_entry_tries limit s T).
  - exact (apply_entry_live limit s HF Y T L).
Qed.

Lemma process_dels v cap js :
  dels (fst (process v cap js)) = map j_id (filter (fun j => Nat.eqb (j_next j) (length (j_tasks j))) js).
Proof.
  unfold process.
  assert (G : forall js a, dels (fst (fold_left (fun a j => process_job v cap j a) js a))
                           = dels (fst a) ++ map j_id (filter (fun j => Nat.eqb (j_next j) (length (j_tasks j))) js)).
  { clear js. induction js as [|j js IH]; intros [incs m]; [cbn; rewrite app_nil_r; reflexivity|]. cbn [fold_left]. rewrite IH.
    cbn [filter]. unfold process_job. destruct (Nat.eqb (j_next j) (length (j_tasks j))).
    - cbn. unfold dels. rewrite flat_map_app. cbn. rewrite <- app_assoc. reflexivity.
    - f_equal. destruct (nth_error (j_tasks j) (j_next j)) as [t|]; [|reflexivity].
      destruct (negb (forallb (check_ok v) (t_ops t))); [reflexivity|].
      destruct (add_sends v cap (items j t) m) as [m' ok].
      destruct (negb ok); [reflexivity|]. destruct (negb (forallb (pv_drop v) (t_drops t))); [reflexivity|].
      destruct (forallb _ (t_ops t)); [|reflexivity]. cbn. unfold dels. rewrite flat_map_app. cbn. rewrite app_nil_r. reflexivity. }
  rewrite G. reflexivity.
Qed.

Lemma send_dels co stores st xs r : dels (send_incs co stores st xs r) = [].
Proof.
  assert (G : forall xs rs, dels (reply_incs co stores st xs rs) = []).
  { clear. induction xs as [|x xs IH]; intros [|r rs]; try reflexivity. cbn [reply_incs]. unfold dels in *.
    rewrite flat_map_app, IH, app_nil_r. unfold one_inc. destruct r as [| |e|s'].
    - destruct (get co (i_job x)); reflexivity.
    - destruct (get co (i_job x)); reflexivity.
    - destruct (get co (i_job x)); reflexivity.
    - destruct ((s' =? 0) || (s' =? st)); [reflexivity|]. destruct (stores st && stores s'); reflexivity. }
  destruct r; cbn; [reflexivity | apply G | apply G].
Qed.

Lemma plain_snoc l x : plain_log l -> dels x = [] -> plain_log (l ++ [(false, x)]).
Proof.
  intros H Hx m y Hin. apply in_app_or in Hin. destruct Hin as [Hin | [E | []]]; [exact (H m y Hin)|].
  assert (m = false) by congruence. assert (y = x) by congruence. subst m y. split; [reflexivity | exact Hx].
Qed.

Lemma rinv_write s x round born acks sent fails :
  rinv s -> dels x = [] -> round = y_round s ->
  rinv (mkSys (y_co s) round (y_log s ++ [(false, x)]) false born acks sent fails).
Proof.
  intros R Hx ->. unfold rinv in *. cbn. destruct (y_round s) as [|stores todo incs|].
  - exact (plain_snoc _ _ R Hx).
  - destruct R as (R1 & R2). split; [exact (plain_snoc _ _ R1 Hx) | exact R2].
  - destruct R as (l1 & l & l2 & E & P1 & P2 & R). exists l1, l, (l2 ++ [(false, x)]).
    split; [rewrite E, <- app_assoc; reflexivity|]. split; [exact P1|]. split; [exact (plain_snoc _ _ P2 Hx) | exact R].
Qed.

Lemma NoDup_map_filter {A} (f : A -> Z) (p : A -> bool) l : NoDup (map f l) -> NoDup (map f (filter p l)).
Proof.
  induction l as [|x l IH]; [intros H; exact H|]. cbn. intros H. inversion H as [|? ? H1 H2]; subst.
  destruct (p x); [|exact (IH H2)]. cbn. constructor; [|exact (IH H2)]. intros Hin. apply H1.
  apply in_map_iff in Hin. destruct Hin as (y & E & Hy). apply filter_In in Hy. apply in_map_iff. exists y. tauto.
Qed.

Lemma linv_step limit s e s' :
  (forall id, (failures s' id <= limit + 1)%nat) ->
  (forall id, (failures s id <= limit + 1)%nat) ->
  yinv true s -> tinv limit s -> linv s -> no_clean e -> step limit s e = Some s' -> linv s'.
Proof.
  intros HF' HF Y T L N H. unfold step in H. pose proof (li_dead _ L) as Ed. rewrite Ed in H.
  destruct e as [j|id cid|id|v cap|r| | |n].
  - cbn in H. match type of H with Some ?x = _ => assert (Es : s' = x) by congruence end. clear H. subst s'.
    destruct L as [L1 L2 L3]. constructor; cbn; [reflexivity | exact L2|]. apply rinv_write; [exact L3 | reflexivity | reflexivity].
  - destruct (get (y_co s) id) as [j|]; [|assert (s' = s) by congruence; subst s'; exact L].
    cbn in H. match type of H with Some ?x = _ => assert (Es : s' = x) by congruence end. clear H. subst s'.
    destruct L as [L1 L2 L3]. constructor; cbn; [reflexivity | exact L2|]. apply rinv_write; [exact L3 | reflexivity | reflexivity].
  - destruct N.
  - destruct (y_round s) eqn:Er; try discriminate.
    destruct (process v cap (co_jobs (y_co s))) as [incs m] eqn:Ep.
    match type of H with Some ?x = _ => assert (Es : s' = x) by congruence end. clear H. subst s'.
    destruct L as [L1 L2 L3]. constructor; cbn; [reflexivity | exact L2|]. unfold rinv in *. rewrite Er in L3. cbn -[dels].
    pose proof (process_dels v cap (co_jobs (y_co s))) as Hd. rewrite Ep in Hd. cbn [fst] in Hd.
    split; [exact L3|]. rewrite Hd. split; [exact (NoDup_map_filter _ _ _ L2)|].
    intros id Hid. apply in_map_iff in Hid. destruct Hid as (j & E & Hj). apply filter_In in Hj. unfold ids. apply in_map_iff.
    exists j. tauto.
  - destruct (y_round s) as [|stores todo incs|] eqn:Er; try discriminate.
    destruct todo as [|[st xs] todo]; [discriminate|].
    destruct (match r with RReply rs => Nat.eqb (length rs) (length xs) | _ => true end) eqn:El; [|discriminate].
    match type of H with Some ?x = _ => assert (Es : s' = x) by congruence end. clear H. subst s'.
    destruct L as [L1 L2 L3]. constructor; cbn; [reflexivity | exact L2|]. unfold rinv in *. rewrite Er in L3. cbn.
    assert (E : dels (incs ++ send_incs (y_co s) stores st xs r) = dels incs).
    { rewrite dels_app, send_dels, app_nil_r. reflexivity. }
    change (plain_log (y_log s) /\ NoDup (dels (incs ++ send_incs (y_co s) stores st xs r))
            /\ forall id, In id (dels (incs ++ send_incs (y_co s) stores st xs r)) -> In id (ids (y_co s))).
    rewrite E. exact L3.
  - destruct (y_round s) as [|stores todo incs|] eqn:Er; try discriminate. destruct todo as [|p todo]; [|destruct incs; discriminate].
    destruct L as [L1 L2 L3]. unfold rinv in L3. rewrite Er in L3. destruct L3 as (R1 & R2 & R3).
    destruct incs as [|i0 incs].
    + match type of H with Some ?x = _ => assert (Es : s' = x) by congruence end. clear H. subst s'.
      constructor; cbn; [reflexivity | exact L2|]. exact R1.
    + assert (Es : s' = mkSys (y_co s) Waiting (y_log s ++ [(true, i0 :: incs)]) false (y_born s) (y_acked s) (y_sent s) (y_fails s))
        by (cbn in H; congruence).
      clear H. subst s'. constructor; cbn; [reflexivity | exact L2|]. unfold rinv. cbn -[dels].
      exists (y_log s), (i0 :: incs), []. split; [reflexivity|]. split; [exact R1|]. split; [intros m x []|]. split; [exact R2 | exact R3].
  - assert (Es : s' = apply_entry limit s) by (destruct (y_log s); congruence). subst s'. exact (apply_entry_live limit s HF Y T L).
  - pose proof (apply_entries_live limit n s HF Y T L) as J. set (s1 := apply_entries limit n s) in *.
    assert (Es : s' = mkSys (y_co s1) Idle [] (y_dead s1) (y_born s1) (y_acked s1) (y_sent s1) (y_fails s1)) by congruence.
    clear H. subst s'. destruct J as [J1 J2 J3]. constructor; cbn; [exact J1 | exact J2|]. intros m x [].
Qed.

Lemma apply_entries_keep limit n : forall s, y_fails (apply_entries limit n s) = y_fails s.
Proof.
  induction n as [|n IH]; intros s; [reflexivity|]. cbn [apply_entries]. destruct (y_dead s); [reflexivity|].
  rewrite IH. apply apply_entry_keep.
Qed.

Lemma fails_grow limit s e s' id : step limit s e = Some s' -> (failures s id <= failures s' id)%nat.
Proof.
  intros H. unfold step in H. destruct (y_dead s) eqn:Ed; [discriminate|]. unfold failures.
  destruct e as [j|id' cid|id'|v cap|r| | |n].
  - cbn in H. match type of H with Some ?x = _ => assert (Es : s' = x) by congruence end. subst s'. cbn. lia.
  - destruct (get (y_co s) id') as [j|]; [|assert (s' = s) by congruence; subst s'; lia].
    cbn in H. match type of H with Some ?x = _ => assert (Es : s' = x) by congruence end. subst s'. cbn. destruct (id =? id'); cbn; lia.
  - set (l := map (fun j => IDelete (j_id j)) _) in *.
    assert (Es : s' = s \/ s' = write s false l) by (destruct l; [left | right]; congruence).
    destruct Es as [Es | Es]; subst s'; cbn; lia.
  - destruct (y_round s); try discriminate. destruct (process v cap (co_jobs (y_co s))) as [incs m].
    match type of H with Some ?x = _ => assert (Es : s' = x) by congruence end. subst s'. cbn. lia.
  - destruct (y_round s) as [|stores todo incs|]; try discriminate. destruct todo as [|[st xs] todo]; [discriminate|].
    destruct (match r with RReply rs => Nat.eqb (length rs) (length xs) | _ => true end); [|discriminate].
    match type of H with Some ?x = _ => assert (Es : s' = x) by congruence end. subst s'. cbn [y_fails].
    rewrite filter_app, app_length. lia.
  - destruct (y_round s) as [|stores todo incs|]; try discriminate. destruct todo as [|p todo]; [|destruct incs; discriminate].
    destruct incs; cbn in H; match type of H with Some ?x = _ => assert (Es : s' = x) by congruence end; subst s'; cbn; lia.
  - assert (Es : s' = apply_entry limit s) by (destruct (y_log s); congruence). subst s'.
    destruct (apply_entry_keep limit s) as (_ & _ & _ & E). rewrite E. lia.
  - match type of H with Some ?x = _ => assert (Es : s' = x) by congruence end. subst s'. cbn. rewrite apply_entries_keep. lia.
Qed.

Lemma live limit s :
  reach limit (fun s e => fits s e /\ no_clean e) s -> (forall id, (failures s id <= limit + 1)%nat) -> linv s.
Proof.
  intros R. induction R as [|s e s' R IH [P1 P2] Hs]; intros HF.
  - constructor; cbn; [reflexivity | constructor | intros m x []].
  - assert (HF0 : forall id, (failures s id <= limit + 1)%nat).
    { intros id. specialize (HF id). pose proof (fails_grow limit s e s' id Hs). lia. }
    apply (linv_step limit s e s' HF HF0); try assumption.
    + exact (yinv_reach true limit _ s (fun s e H => conj (proj1 H) (fun _ => proj2 H)) R).
    + exact (tinv_reach limit _ s (fun s e H => proj1 H) R).
    + exact (IH HF0).
Qed.

Lemma never_dead limit s :
  reach limit (fun s e => fits s e /\ no_clean e) s -> (forall id, (failures s id <= limit + 1)%nat) -> y_dead s = false.
Proof. intros R HF. exact (li_dead _ (live limit s R HF)). Qed.
