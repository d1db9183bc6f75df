(** * Lemmas about jobs: rounds in which everything works *)

From Coq Require Import ZArith List Bool Arith Lia Permutation.
From Verif Require Import JbModel JbSpec JbProofs2 JbProofs3 JbProofs4 JbProofs5 JbProofs6.
Import ListNotations.
Local Open Scope Z_scope.

(** ** What a round does when all is well *)

Definition no_cmds (t : task) : bool := forallb (fun o => match o_cmds o with [] => true | _ => false end) (t_ops t).

Definition pinc (j : job) : list inc :=
  if Nat.eqb (j_next j) (length (j_tasks j)) then [IDelete (j_id j)]
  else match nth_error (j_tasks j) (j_next j) with
       | None => []
       | Some t => if no_cmds t then [IUpdate (with_next (S (j_next j)) j)] else []
       end.

Definition pitems (j : job) : list (Z * item) :=
  if Nat.eqb (j_next j) (length (j_tasks j)) then []
  else match nth_error (j_tasks j) (j_next j) with None => [] | Some t => items j t end.

Definition adds (cap : nat) (l : list (Z * item)) (m : list (Z * list item)) : list (Z * list item) :=
  fold_left (fun m p => add_send cap (fst p) (snd p) m) l m.

Lemma add_sends_well v cap l : (forall s, pv_store v s = true) -> forall m, add_sends v cap l m = (adds cap l m, true).
Proof.
  intros H. induction l as [|[s x] l IH]; intros m; [reflexivity|]. cbn [add_sends]. rewrite H. exact (IH _).
Qed.

Lemma process_job_well v cap j incs m :
  all_well v -> process_job v cap j (incs, m) = (incs ++ pinc j, adds cap (pitems j) m).
Proof.
  intros (H1 & H2 & H3). unfold process_job, pinc, pitems.
  destruct (Nat.eqb (j_next j) (length (j_tasks j))); [reflexivity|].
  destruct (nth_error (j_tasks j) (j_next j)) as [t|]; [|rewrite app_nil_r; reflexivity].
  assert (E1 : forallb (check_ok v) (t_ops t) = true).
  { apply forallb_forall. intros o _. unfold check_ok. destruct (o_check o); [reflexivity | apply H1]. }
  rewrite E1. cbn [negb]. rewrite (add_sends_well v cap _ H2).
  assert (E3 : forallb (pv_drop v) (t_drops t) = true) by (apply forallb_forall; intros r _; apply H3).
  rewrite E3. cbn [negb]. fold (no_cmds t). destruct (no_cmds t); [reflexivity | rewrite app_nil_r; reflexivity].
Qed.

Lemma process_well v cap js :
  all_well v -> process v cap js = (flat_map pinc js, adds cap (flat_map pitems js) []).
Proof.
  intros H. unfold process.
  assert (G : forall js a, fold_left (fun a j => process_job v cap j a) js a
                           = (fst a ++ flat_map pinc js, adds cap (flat_map pitems js) (snd a))).
  { clear js. induction js as [|j js IH]; intros [incs m]; cbn [fold_left flat_map fst snd]; [rewrite app_nil_r; reflexivity|].
    rewrite (process_job_well v cap j incs m H), IH. cbn [fst snd]. rewrite <- app_assoc. f_equal.
    unfold adds. rewrite fold_left_app. reflexivity. }
  rewrite G. reflexivity.
Qed.

(** No command is left out. *)
Lemma add_send_new cap s x m n :
  (n <= cap)%nat -> (forall st xs, In (st, xs) m -> (length xs <= n)%nat) ->
  sent_in (add_send cap s x m) x
  /\ (forall y, sent_in m y -> sent_in (add_send cap s x m) y)
  /\ (forall st xs, In (st, xs) (add_send cap s x m) -> (length xs <= S n)%nat).
Proof.
  intros Hn. induction m as [|[s' l] m IH]; intros Hm; cbn [add_send].
  - split; [exists s, [x]; split; left; reflexivity|]. split; [intros y (st & xs & [] & _)|].
    intros st xs [E | []]. assert (xs = [x]) by congruence. subst xs. cbn. lia.
  - pose proof (Hm s' l (or_introl eq_refl)) as Hl.
    destruct (s =? s').
    + assert (E : Nat.ltb cap (length l) = false) by (apply Nat.ltb_ge; lia). rewrite E.
      split; [exists s', (l ++ [x]); split; [left; reflexivity | apply in_or_app; right; left; reflexivity]|]. split.
      * intros y (st & xs & [E2 | H] & Hy).
        -- assert (xs = l) by congruence. subst xs. exists s', (l ++ [x]). split; [left; reflexivity | apply in_or_app; left; exact Hy].
        -- exists st, xs. split; [right; exact H | exact Hy].
      * intros st xs [E2 | H].
        -- assert (xs = l ++ [x]) by congruence. subst xs. rewrite app_length. cbn. lia.
        -- specialize (Hm st xs (or_intror H)). lia.
    + destruct (s <? s').
      * split; [exists s, [x]; split; left; reflexivity|]. split.
        -- intros y (st & xs & H & Hy). exists st, xs. split; [right; exact H | exact Hy].
        -- intros st xs [E2 | H]; [assert (xs = [x]) by congruence; subst xs; cbn; lia | specialize (Hm st xs H); lia].
      * destruct IH as (I1 & I2 & I3); [intros st xs H; exact (Hm st xs (or_intror H))|].
        split; [destruct I1 as (st & xs & H & Hy); exists st, xs; split; [right; exact H | exact Hy]|]. split.
        -- intros y (st & xs & [E2 | H] & Hy); [exists st, xs; split; [left; exact E2 | exact Hy]|].
           destruct (I2 y) as (st' & xs' & H' & Hy'); [exists st, xs; split; assumption|].
           exists st', xs'. split; [right; exact H' | exact Hy'].
        -- intros st xs [E2 | H]; [assert (xs = l) by congruence; subst xs; lia | exact (I3 st xs H)].
Qed.

Lemma adds_all cap l : forall m n,
  (n + length l <= S cap)%nat -> (forall st xs, In (st, xs) m -> (length xs <= n)%nat) ->
  (forall y, sent_in m y -> sent_in (adds cap l m) y) /\ (forall st y, In (st, y) l -> sent_in (adds cap l m) y).
Proof.
  induction l as [|[s x] l IH]; intros m n Hn Hm; cbn in Hn.
  - split; [intros y H; exact H | intros st y []].
  - destruct (add_send_new cap s x m n) as (A1 & A2 & A3); [lia | exact Hm|].
    destruct (IH (add_send cap s x m) (S n)) as [B1 B2]; [lia | exact A3|]. change (adds cap ((s, x) :: l) m) with (adds cap l (add_send cap s x m)). split.
    + intros y H. exact (B1 y (A2 y H)).
    + intros st y [E | H]; [assert (x = y) by congruence; subst y; exact (B1 x A1) | exact (B2 st y H)].
Qed.

Lemma adds_only cap l : forall m y, sent_in (adds cap l m) y -> sent_in m y \/ exists st, In (st, y) l.
Proof.
  induction l as [|[s x] l IH]; intros m y H; [left; exact H|].
  destruct (IH _ _ H) as [(st & xs & H1 & H2) | (st & H1)].
  - destruct (add_send_In _ _ _ _ _ _ _ H1 H2) as [E | G]; [right; exists s; left; cbn in E; cbn; congruence | left; exact G].
  - right. exists st. right. exact H1.
Qed.

Lemma sends_all m x : sent_in m x -> sent_in (sends m) x.
Proof.
  intros (st & xs & H & Hx). unfold sends. destruct (is_kind KCreate x) eqn:Ek.
  - exists st, (filter (is_kind KCreate) xs). assert (Hin : In x (filter (is_kind KCreate) xs)) by (apply filter_In; split; assumption).
    split; [|exact Hin]. apply filter_In. split.
    + apply in_or_app. left. unfold creates. apply in_map_iff. exists (st, xs). split; [reflexivity | exact H].
    + cbn [snd]. destruct (filter (is_kind KCreate) xs); [destruct Hin | reflexivity].
  - set (ys := filter (fun x => negb (is_kind KCreate x) && negb (is_kind KDelete x)) xs ++ filter (is_kind KDelete) xs).
    assert (Hin : In x ys).
    { unfold ys. apply in_or_app. destruct (is_kind KDelete x) eqn:Ed.
      - right. apply filter_In. split; assumption.
      - left. apply filter_In. split; [exact Hx | rewrite Ek, Ed; reflexivity]. }
    exists st, ys. split; [|exact Hin]. apply filter_In. split.
    + apply in_or_app. right. unfold others. apply in_map_iff. exists (st, xs). split; [reflexivity | exact H].
    + cbn [snd]. destruct ys; [destruct Hin | reflexivity].
Qed.

(** ** The requests of a good round *)

Definition done_of (x : item) : inc := IStatus (i_job x) (c_id (i_cmd x)) Done.

Lemma reply_accepted co stores st xs : forall rs,
  length rs = length xs -> (forall x, In x rs -> x = Accepted) ->
  (forall x, In x xs -> exists j, get co (i_job x) = Some j) ->
  reply_incs co stores st xs rs = map done_of xs.
Proof.
  induction xs as [|x xs IH]; intros [|r rs] Hl Ha Hg; cbn in Hl; try discriminate; [reflexivity|].
  cbn [reply_incs map]. rewrite (Ha r (or_introl eq_refl)). cbn [one_inc advances].
  destruct (Hg x (or_introl eq_refl)) as (j & Ej). rewrite Ej. cbn [app]. f_equal.
  apply IH; [congruence | intros y Hy; apply Ha; right; exact Hy | intros y Hy; apply Hg; right; exact Hy].
Qed.

Lemma run_sends limit stores rs : forall todo incs s s',
  y_round s = Sending stores todo incs -> y_dead s = false -> y_log s = [] ->
  (forall r x, In r rs -> In x r -> x = Accepted) ->
  (forall st xs x, In (st, xs) todo -> In x xs -> exists j, get (y_co s) (i_job x) = Some j) ->
  run limit s (map (fun r => ESend (RReply r)) rs ++ [EEnd; EApply]) = Some s' ->
  let l := incs ++ flat_map (fun p => map done_of (snd p)) todo in
  match apply_all limit (y_co s) l with
  | Some co' => y_co s' = co' /\ y_round s' = Idle /\ y_log s' = [] /\ y_dead s' = false
  | None => True
  end.
Proof.
  induction rs as [|r rs IH]; intros todo incs s s' Er Ed El Ha Hg H; cbn zeta.
  - cbn [map app run] in H. unfold step in H at 1. rewrite Ed, Er in H.
    destruct todo as [|p todo]; [|destruct incs; discriminate].
    cbn [flat_map]. rewrite app_nil_r.
    destruct incs as [|i0 incs].
    + unfold step in H. cbn in H. rewrite El in H. discriminate.
    + cbn in H. rewrite El in H. cbn [app] in H. unfold apply_entry in H. cbn [y_log y_co y_round y_dead y_born y_acked y_sent y_fails] in H.
      destruct (apply_all limit (y_co s) (i0 :: incs)) as [co'|]; [|exact I].
      assert (Es : s' = mkSys co' Idle [] false (y_born s) (y_acked s) (y_sent s) (y_fails s)) by congruence.
      subst s'. repeat split.
  - cbn [map app run] in H. destruct (step limit s (ESend (RReply r))) as [s1|] eqn:Es; [|discriminate].
    unfold step in Es. rewrite Ed, Er in Es. destruct todo as [|[st xs] todo]; [discriminate|].
    destruct (Nat.eqb (length r) (length xs)) eqn:El2; [|discriminate]. apply Nat.eqb_eq in El2.
    cbn [send_incs] in Es. rewrite (reply_accepted (y_co s) stores st xs r El2) in Es.
    2:{ intros x Hx. exact (Ha r x (or_introl eq_refl) Hx). }
    2:{ intros x Hx. exact (Hg st xs x (or_introl eq_refl) Hx). }
    match type of Es with Some ?x = _ => assert (E1 : s1 = x) by congruence end. clear Es.
    specialize (IH todo (incs ++ map done_of xs) s1 s'). cbn zeta in IH.
    cbn [flat_map snd]. rewrite app_assoc. replace (y_co s) with (y_co s1) by (rewrite E1; reflexivity).
    apply IH.
    + rewrite E1. reflexivity.
    + rewrite E1. reflexivity.
    + rewrite E1. exact El.
    + intros r' x Hr Hx. exact (Ha r' x (or_intror Hr) Hx).
    + intros st' xs' x H1 H2. rewrite E1. exact (Hg st' xs' x (or_intror H1) H2).
    + exact H.
Qed.

(** ** Applying it *)

Definition soft (i : inc) : Prop := match i with IStatus _ _ Fail => False | _ => True end.

Lemma apply_inc_soft limit co i :
  NoDup (ids co) -> pos_inc i -> soft i -> (forall id, i = IDelete id -> In id (ids co)) ->
  exists co', apply_inc limit co i = Some co' /\ NoDup (ids co')
    /\ forall id, In id (ids co) -> ~ In id (dels [i]) -> In id (ids co').
Proof.
  intros Hn Hp Hs Hd.
  destruct i as [j|j|id|id cid st|id cid st].
  - cbn in Hp |- *. destruct (j_id j =? 0) eqn:E; [apply Z.eqb_eq in E; lia|]. exists (put co j). split; [reflexivity|].
    split; [exact (ids_put_nodup _ _ Hn) | intros id H _; exact (ids_put _ _ _ H)].
  - cbn in Hp |- *. destruct (j_id j =? 0) eqn:E; [apply Z.eqb_eq in E; lia|]. exists (put co j). split; [reflexivity|].
    split; [exact (ids_put_nodup _ _ Hn) | intros id H _; exact (ids_put _ _ _ H)].
  - cbn. destruct (proj1 (get_ids co id) (Hd id eq_refl)) as (j & Ej). rewrite Ej. eexists. split; [reflexivity|].
    rewrite ids_erase. split; [apply NoDup_filter; exact Hn|]. intros id' H Hne. apply filter_In. split; [exact H|].
    destruct (id' =? id) eqn:E; [|reflexivity]. apply Z.eqb_eq in E. exfalso. apply Hne. left. congruence.
  - destruct st; [|destruct Hs]. cbn. destruct (get co id) as [j|] eqn:Eg; [|exists co; split; [reflexivity | split; [exact Hn | intros; assumption]]].
    eexists. split; [reflexivity|]. unfold apply_status. destruct (find_task j cid) as [step|]; [|split; [exact Hn | intros; assumption]].
    destruct (Nat.eqb step (j_next j)); (split; [exact (ids_put_nodup _ _ Hn) | intros id' H _; exact (ids_put _ _ _ H)]).
  - cbn. destruct (get co id) as [j|] eqn:Eg; [|exists co; split; [reflexivity | split; [exact Hn | intros; assumption]]].
    eexists. split; [reflexivity|]. unfold apply_move. destruct (find_task j cid) as [step|]; [|split; [exact Hn | intros; assumption]].
    split; [exact (ids_put_nodup _ _ Hn) | intros id' H _; exact (ids_put _ _ _ H)].
Qed.

Lemma apply_all_soft limit l : forall co,
  NoDup (ids co) -> (forall i, In i l -> pos_inc i) -> (forall i, In i l -> soft i) ->
  (forall id, In id (dels l) -> In id (ids co)) -> NoDup (dels l) -> exists co', apply_all limit co l = Some co'.
Proof.
  induction l as [|i l IH]; intros co Hn Hp Hs Hd Hdn; cbn [apply_all]; [exists co; reflexivity|].
  assert (Ed : dels (i :: l) = dels [i] ++ dels l) by (rewrite <- dels_app; reflexivity).
  destruct (apply_inc_soft limit co i Hn (Hp i (or_introl eq_refl)) (Hs i (or_introl eq_refl))) as (co1 & E1 & N1 & D1).
  { intros id Ei. apply Hd. apply dels_In. left. exact Ei. }
  rewrite E1. apply (IH co1 N1).
  - intros i' Hi. apply Hp. right. exact Hi.
  - intros i' Hi. apply Hs. right. exact Hi.
  - intros id Hin. apply D1.
    + apply Hd. rewrite Ed. apply in_or_app. right. exact Hin.
    + intros H2. rewrite Ed in Hdn. destruct i; cbn in H2; try contradiction. destruct H2 as [-> | []].
      cbn in Hdn. inversion Hdn; subst. contradiction.
  - rewrite Ed in Hdn. destruct i; cbn in Hdn; try exact Hdn. inversion Hdn; assumption.
Qed.

Lemma apply_inc_arch limit co i co' p : apply_inc limit co i = Some co' -> In p (co_arch co) -> In p (co_arch co').
Proof.
  intros H Hp. destruct i as [j|j|id|id cid st|id cid st]; cbn in H.
  - destruct (j_id j =? 0); [discriminate|]. assert (co' = put co j) by congruence. subst co'. exact Hp.
  - destruct (j_id j =? 0); [discriminate|]. assert (co' = put co j) by congruence. subst co'. exact Hp.
  - destruct (get co id) as [j|]; [|discriminate]. assert (E : co' = erase (archive co j true) id) by congruence. subst co'.
    cbn. apply in_or_app. left. exact Hp.
  - destruct (get co id) as [j|]; [|congruence]. assert (E : co' = apply_status limit co j cid st) by congruence. subst co'.
    unfold apply_status. destruct (find_task j cid) as [step|]; [|exact Hp]. destruct st.
    + destruct (Nat.eqb step (j_next j)); exact Hp.
    + destruct (need_clean _ _ _); [cbn; apply in_or_app; left; exact Hp | exact Hp].
  - destruct (get co id) as [j|]; [|congruence]. assert (E : co' = apply_move co j cid st) by congruence. subst co'.
    unfold apply_move. destruct (find_task j cid); exact Hp.
Qed.

Lemma apply_all_arch limit l p : forall co co', apply_all limit co l = Some co' -> In p (co_arch co) -> In p (co_arch co').
Proof.
  induction l as [|i l IH]; intros co co' H Hp; cbn in H; [congruence|].
  destruct (apply_inc limit co i) as [co1|] eqn:E; [|discriminate]. exact (IH co1 co' H (apply_inc_arch _ _ _ _ _ E Hp)).
Qed.

Lemma apply_all_other limit l id : forall co co',
  (forall i, In i l -> inc_id i <> id) -> apply_all limit co l = Some co' -> get co' id = get co id.
Proof.
  induction l as [|i l IH]; intros co co' Hn H; cbn in H; [congruence|].
  destruct (apply_inc limit co i) as [co1|] eqn:E; [|discriminate].
  rewrite (IH co1 co' (fun i' Hi => Hn i' (or_intror Hi)) H). exact (apply_inc_other _ _ _ _ _ (Hn i (or_introl eq_refl)) E).
Qed.

Lemma apply_all_app limit l l' : forall co,
  apply_all limit co (l ++ l') = match apply_all limit co l with None => None | Some co1 => apply_all limit co1 l' end.
Proof.
  induction l as [|i l IH]; intros co; [reflexivity|]. cbn [app apply_all]. destruct (apply_inc limit co i); [apply IH | reflexivity].
Qed.

(** *** All commands of a step are done *)

Section Done.
  Variables (limit : nat) (j : job) (k : nat) (t : task).
  Hypothesis Hk : j_next j = k.
  Hypothesis Ht : nth_error (j_tasks j) k = Some t.
  Hypothesis Hfind : forall cid, (exists c, In c (task_cmds t) /\ c_id c = cid) -> find_task j cid = Some k.

  Definition dinv (seen : list Z) (j' : job) : Prop :=
    j_id j' = j_id j
    /\ Forall2 (fun a b => map o_cmds (t_ops a) = map o_cmds (t_ops b)) (j_tasks j') (j_tasks j)
    /\ ((j_next j' = k
         /\ exists t', nth_error (j_tasks j') k = Some t'
              /\ (forall o, In o (t_ops t') -> (exists c, In c (o_cmds o) /\ In (c_id c) seen) -> o_ok o = true)
              /\ (seen <> [] -> all_ok (t_ops t') = false))
        \/ j_next j' = S k).

  Lemma dinv_init : dinv [] j.
  Proof.
    split; [reflexivity|]. split.
    - clear. induction (j_tasks j) as [|x l IH]; constructor; [reflexivity | exact IH].
    - left. split; [exact Hk|]. exists t. split; [exact Ht|]. split; [intros o _ (c & _ & []) | intros H; exfalso; apply H; reflexivity].
  Qed.

  Lemma mark_cmds cid ops : map o_cmds (mark_ok cid ops) = map o_cmds ops.
  Proof. unfold mark_ok. rewrite map_map. apply map_ext. intros o. destruct (has cid o); reflexivity. Qed.

  Lemma same_has cid (l l' : list op) : map o_cmds l = map o_cmds l' -> existsb (has cid) l = existsb (has cid) l'.
  Proof.
    revert l'. induction l as [|o l IH]; intros [|o' l'] E; cbn in E; try discriminate; [reflexivity|].
    cbn. assert (E1 : o_cmds o = o_cmds o') by congruence. unfold has at 1 3. rewrite E1. f_equal. apply IH. congruence.
  Qed.

  Lemma same_find j' cid :
    Forall2 (fun a b => map o_cmds (t_ops a) = map o_cmds (t_ops b)) (j_tasks j') (j_tasks j) -> find_task j' cid = find_task j cid.
  Proof.
    unfold find_task. generalize (j_tasks j) (j_tasks j'). intros B A H. induction H as [|a b l l' E H IH]; [reflexivity|]. cbn [index].
    rewrite (same_has cid _ _ E). destruct (existsb (has cid) (t_ops b)); [reflexivity|]. rewrite IH. reflexivity.
  Qed.

  Lemma dinv_step seen j' cid :
    dinv seen j' -> (exists c, In c (task_cmds t) /\ c_id c = cid) ->
    dinv (cid :: seen) (if Nat.eqb k (j_next j') then job_done cid k j' else j').
  Proof.
    intros (D1 & D2 & D3) Hc. destruct (Nat.eqb k (j_next j')) eqn:En.
    - apply Nat.eqb_eq in En. destruct D3 as [(D3 & t' & Et' & D4 & D5) | D3]; [|lia].
      assert (Et2 : nth_error (j_tasks (on_task k (on_ops (mark_ok cid)) j')) k = Some (on_ops (mark_ok cid) t')).
      { cbn. apply upd_nth_same. exact Et'. }
      assert (F2 : Forall2 (fun a b => map o_cmds (t_ops a) = map o_cmds (t_ops b))
                           (j_tasks (on_task k (on_ops (mark_ok cid)) j')) (j_tasks j)).
      { cbn. apply Forall2_upd; [exact D2|]. intros x x0 _ E. cbn. rewrite mark_cmds. exact E. }
      unfold job_done. unfold nth_task. rewrite (nth_error_nth _ _ _ Et2).
      destruct (all_ok (t_ops (on_ops (mark_ok cid) t'))) eqn:Eo.
      + split; [exact D1|]. split; [exact F2|]. right. cbn. lia.
      + split; [exact D1|]. split; [exact F2|]. left. split; [exact D3|].
        exists (on_ops (mark_ok cid) t'). split; [exact Et2|]. split; [|intros _; exact Eo].
        intros o Ho (c & Hco & Hs). cbn in Ho. unfold mark_ok in Ho. apply in_map_iff in Ho. destruct Ho as (o' & E & Ho).
        destruct (has cid o') eqn:Eh; subst o; [reflexivity|]. destruct Hs as [Hs | Hs]; [|apply (D4 o' Ho); exists c; split; assumption].
        exfalso. assert (Hx : has cid o' = true) by (apply has_In; exists c; split; [exact Hco | congruence]). congruence.
    - apply Nat.eqb_neq in En. destruct D3 as [(D3 & _) | D3]; [lia|]. split; [exact D1|]. split; [exact D2|]. right. exact D3.
  Qed.

  Lemma apply_done co j' seen cid co' :
    dinv seen j' -> get co (j_id j) = Some j' -> (exists c, In c (task_cmds t) /\ c_id c = cid) ->
    apply_inc limit co (IStatus (j_id j) cid Done) = Some co' ->
    exists j'', get co' (j_id j) = Some j'' /\ dinv (cid :: seen) j''.
  Proof.
    intros D Eg Hc H. cbn in H. rewrite Eg in H. unfold apply_status in H.
    pose proof (dinv_step seen j' cid D Hc) as D'. pose proof D as (D1 & D2 & _).
    rewrite (same_find j' cid D2), (Hfind cid Hc) in H.
    exists (if Nat.eqb k (j_next j') then job_done cid k j' else j'). split; [|exact D'].
    destruct D' as (D1' & _).
    destruct (Nat.eqb k (j_next j')); match type of H with Some ?x = _ => assert (E : co' = x) by congruence end;
      subst co'; rewrite get_put, D1', Z.eqb_refl; reflexivity.
  Qed.

  Lemma apply_dones l : forall co co' j' seen,
    dinv seen j' -> get co (j_id j) = Some j' ->
    (forall i, In i l -> inc_id i = j_id j -> exists cid, i = IStatus (j_id j) cid Done /\ exists c, In c (task_cmds t) /\ c_id c = cid) ->
    apply_all limit co l = Some co' ->
    exists j'' seen', get co' (j_id j) = Some j'' /\ dinv seen' j''
      /\ (forall cid, In cid seen -> In cid seen')
      /\ forall cid, In (IStatus (j_id j) cid Done) l -> In cid seen'.
  Proof.
    induction l as [|i l IH]; intros co co' j' seen D Eg Hl H; cbn in H.
    - exists j', seen. split; [congruence|]. split; [exact D|]. split; [intros cid Hin; exact Hin | intros cid []].
    - destruct (apply_inc limit co i) as [co1|] eqn:E1; [|discriminate].
      destruct (Z.eq_dec (inc_id i) (j_id j)) as [Ei|Ei].
      + destruct (Hl i (or_introl eq_refl) Ei) as (cid & -> & Hc).
        destruct (apply_done co j' seen cid co1 D Eg Hc E1) as (j1 & Eg1 & D1).
        destruct (IH co1 co' j1 (cid :: seen) D1 Eg1) as (j2 & seen2 & R1 & R2 & R3 & R4); [|exact H|].
        { intros i' Hi. apply Hl. right. exact Hi. }
        exists j2, seen2. split; [exact R1|]. split; [exact R2|]. split; [intros x Hx; apply R3; right; exact Hx|].
        intros x [E | Hx]; [|exact (R4 x Hx)]. assert (x = cid) by congruence. subst x. apply R3. left. reflexivity.
      + destruct (IH co1 co' j' seen D) as (j2 & seen2 & R1 & R2 & R3 & R4); [| |exact H|].
        { rewrite (apply_inc_other _ _ _ _ _ Ei E1). exact Eg. }
        { intros i' Hi. apply Hl. right. exact Hi. }
        exists j2, seen2. split; [exact R1|]. split; [exact R2|]. split; [exact R3|].
        intros x [E | Hx]; [|exact (R4 x Hx)]. exfalso. apply Ei. rewrite E. reflexivity.
  Qed.

  Lemma all_done seen j' :
    dinv seen j' -> (forall c, In c (task_cmds t) -> In (c_id c) seen) -> task_cmds t <> [] -> j_next j' = S k.
  Proof.
    intros (D1 & D2 & [(D3 & t' & Et' & D4 & D5) | D3]) Hs Hne; [|exact D3]. exfalso.
    destruct (Forall2_nth _ _ _ _ _ D2 Et') as (t2 & Et2 & E). assert (t2 = t) by congruence. subst t2.
    assert (Ec : task_cmds t' = task_cmds t).
    { unfold task_cmds. rewrite !flat_map_concat_map, E. reflexivity. }
    assert (Hseen : seen <> []).
    { destruct (task_cmds t) as [|c l]; [exfalso; apply Hne; reflexivity|]. intros E0. specialize (Hs c (or_introl eq_refl)).
      rewrite E0 in Hs. destruct Hs. }
    assert (Ho : all_ok (t_ops t') = true); [|rewrite (D5 Hseen) in Ho; discriminate].
    unfold all_ok. apply forallb_forall. intros o Ho. destruct (o_cmds o) as [|c l] eqn:El; [apply orb_true_r|].
    rewrite orb_false_r. apply (D4 o Ho). exists c. rewrite El. split; [left; reflexivity|]. apply Hs. rewrite <- Ec.
    apply task_cmds_In. exists o. split; [exact Ho | rewrite El; left; reflexivity].
  Qed.
End Done.

Lemma get_of_In co j : NoDup (ids co) -> In j (co_jobs co) -> get co (j_id j) = Some j.
Proof.
  unfold get, ids. induction (co_jobs co) as [|x l IH]; [intros _ []|]. cbn. intros Hn Hj. inversion Hn as [|? ? N1 N2]; subst.
  destruct Hj as [-> | Hj]; [rewrite Z.eqb_refl; reflexivity|].
  destruct (j_id x =? j_id j) eqn:E; [|exact (IH N2 Hj)]. apply Z.eqb_eq in E. exfalso. apply N1. rewrite E. apply in_map. exact Hj.
Qed.

Lemma find_task_of A B j k t cid :
  vgood A B j -> nth_error (j_tasks j) k = Some t -> (exists c, In c (task_cmds t) /\ c_id c = cid) -> find_task j cid = Some k.
Proof.
  intros (_ & (j0 & _ & V2 & _ & V4) & _) Ht (c & Hc & E).
  assert (Hat : cmd_at j k cid) by (exists t, c; split; [exact Ht | split; assumption]).
  destruct (find_task j cid) as [n|] eqn:Ef.
  - f_equal. apply (cmd_at_unique j0 _ _ cid); [apply V2 | |].
    + apply (cmd_at_same j j0 _ _ V4). exact (proj1 (find_task_at _ _ _ Ef)).
    + apply (cmd_at_same j j0 _ _ V4). exact Hat.
  - exfalso. unfold find_task in Ef.
    assert (Hx : existsb (has cid) (t_ops t) = true).
    { apply task_cmds_In in Hc. destruct Hc as (o & Ho & Hc). apply existsb_exists. exists o. split; [exact Ho|].
      apply has_In. exists c. split; assumption. }
    apply nth_error_In in Ht. clear - Ef Ht Hx. revert Ef Ht. induction (j_tasks j) as [|y l IH]; [intros _ []|]. cbn.
    destruct (existsb (has cid) (t_ops y)) eqn:Ey; [discriminate|].
    destruct (index _ l) eqn:Ei; [discriminate|]. intros _ [-> | Hin]; [congruence | exact (IH eq_refl Hin)].
Qed.

Lemma pinc_id j i : In i (pinc j) -> inc_id i = j_id j.
Proof.
  unfold pinc. destruct (Nat.eqb _ _); [intros [<- | []]; reflexivity|].
  destruct (nth_error _ _) as [t|]; [|intros []]. destruct (no_cmds t); [intros [<- | []]; reflexivity | intros []].
Qed.

Lemma pinc_once js j :
  NoDup (map j_id js) -> In j js ->
  exists l1 l2, flat_map pinc js = l1 ++ pinc j ++ l2 /\ forall i, In i (l1 ++ l2) -> inc_id i <> j_id j.
Proof.
  induction js as [|x js IH]; [intros _ []|]. cbn [map flat_map]. intros Hn Hj. inversion Hn as [|? ? N1 N2]; subst.
  destruct Hj as [-> | Hj].
  - exists [], (flat_map pinc js). split; [reflexivity|]. cbn. intros i Hi E. apply N1. apply in_flat_map in Hi.
    destruct Hi as (y & Hy & Hi). rewrite <- E, (pinc_id y i Hi). apply in_map. exact Hy.
  - destruct (IH N2 Hj) as (l1 & l2 & E & Hd). exists (pinc x ++ l1), l2. split; [rewrite E, app_assoc; reflexivity|].
    intros i Hi. rewrite <- app_assoc in Hi. apply in_app_or in Hi. destruct Hi as [Hi | Hi]; [|exact (Hd i Hi)].
    rewrite (pinc_id x i Hi). intros Ex. apply N1. rewrite Ex. apply in_map. exact Hj.
Qed.

Lemma pitems_In j st x :
  In (st, x) (pitems j) ->
  exists t c, nth_error (j_tasks j) (j_next j) = Some t /\ In c (task_cmds t) /\ x = mkItem (j_id j) (j_next j) c.
Proof.
  unfold pitems. destruct (Nat.eqb _ _); [intros []|]. destruct (nth_error _ _) as [t|]; [|intros []].
  intros H. destruct (items_In _ _ _ _ H) as (c & Hc & ->). exists t, c. split; [reflexivity | split; [exact Hc | reflexivity]].
Qed.

Lemma pitems_all j t c :
  nth_error (j_tasks j) (j_next j) = Some t -> In c (task_cmds t) -> exists st, In (st, mkItem (j_id j) (j_next j) c) (pitems j).
Proof.
  intros Ht Hc. unfold pitems.
  assert (E : Nat.eqb (j_next j) (length (j_tasks j)) = false).
  { apply Nat.eqb_neq. assert (Hx : nth_error (j_tasks j) (j_next j) <> None) by congruence. apply nth_error_Some in Hx. lia. }
  rewrite E, Ht. apply task_cmds_In in Hc. destruct Hc as (o & Ho & Hc). exists (o_store o). unfold items.
  apply in_flat_map. exists o. split; [exact Ho|]. apply in_map_iff. exists c. split; [reflexivity | exact Hc].
Qed.

Lemma pitems_length j : (length (pitems j) <= length (job_cmds j))%nat.
Proof.
  unfold pitems. destruct (Nat.eqb _ _); [cbn; lia|]. destruct (nth_error (j_tasks j) (j_next j)) as [t|] eqn:Et; [|cbn; lia].
  assert (E : length (items j t) = length (task_cmds t)).
  { unfold items, task_cmds. induction (t_ops t) as [|o l IH]; [reflexivity|]. cbn. rewrite !app_length, map_length, IH. reflexivity. }
  rewrite E. unfold job_cmds. rewrite (flat_map_split _ _ _ _ Et), !app_length. lia.
Qed.

(** One good round moves every job on by one step. *)
Lemma good_step limit s l s' :
  reach limit fits s -> y_round s = Idle -> y_log s = [] -> y_dead s = false -> small s -> good_round l -> run limit s l = Some s' ->
  (y_round s' = Idle /\ y_log s' = [] /\ y_dead s' = false)
  /\ (forall p, In p (co_arch (y_co s)) -> In p (co_arch (y_co s')))
  /\ (forall id, get (y_co s) id = None -> get (y_co s') id = None)
  /\ forall j, In j (co_jobs (y_co s)) ->
       (j_next j = length (j_tasks j) -> In (j, true) (co_arch (y_co s')) /\ get (y_co s') (j_id j) = None)
       /\ ((j_next j < length (j_tasks j))%nat ->
             exists j', In j' (co_jobs (y_co s')) /\ j_id j' = j_id j /\ j_next j' = S (j_next j)
                        /\ length (j_tasks j') = length (j_tasks j)).
Proof.
  intros Rs Er El Ed Sm (v & cap & rs & -> & Hw & Ha & Hcap) H.
  pose proof (yinv_reach false limit fits s (fun s e H => conj H (fun E => False_ind _ (Bool.diff_false_true E))) Rs) as Y.
  pose proof (reach_ids limit fits s Rs) as Nd. pose proof (proj1 (yi_co _ _ Y)) as V.
  cbn [run] in H. unfold step in H at 1. rewrite Ed, Er, (process_well v cap _ Hw) in H.
  set (js := co_jobs (y_co s)) in *. set (m := adds cap (flat_map pitems js) []) in *.
  set (s0 := mkSys (y_co s) (Sending (pv_store v) (sends m) (flat_map pinc js)) (y_log s) false (y_born s) (y_acked s) (y_sent s) (y_fails s)) in *.
  assert (Hlen : (length (flat_map pitems js) <= 100)%nat).
  { unfold small in Sm. fold js in Sm. apply (Nat.le_trans _ (length (flat_map job_cmds js))); [|exact Sm].
    clear. induction js as [|j l IH]; [apply le_n|]. cbn. rewrite !app_length. pose proof (pitems_length j). lia. }
  assert (Hm1 : forall st x, In (st, x) (flat_map pitems js) -> sent_in (sends m) x).
  { intros st x Hx. apply sends_all. unfold m. destruct (adds_all cap (flat_map pitems js) [] 0) as [_ G].
    - rewrite Hcap. cbn [Nat.add]. lia.
    - intros st' xs [].
    - exact (G st x Hx). }
  assert (Hm2 : forall st xs x, In (st, xs) (sends m) -> In x xs ->
            exists j t c, In j js /\ nth_error (j_tasks j) (j_next j) = Some t /\ In c (task_cmds t) /\ x = mkItem (j_id j) (j_next j) c).
  { intros st xs x H1 H2. pose proof (sends_In _ _ _ _ H1 H2) as H3. unfold m in H3.
    destruct (adds_only _ _ _ _ H3) as [(st' & xs' & [] & _) | (st' & H4)]. apply in_flat_map in H4.
    destruct H4 as (j & Hj & H4). destruct (pitems_In _ _ _ H4) as (t & c & H5 & H6 & H7). exists j, t, c.
    split; [exact Hj | split; [exact H5 | split; assumption]]. }
  set (l := flat_map pinc js ++ flat_map (fun p => map done_of (snd p)) (sends m)).
  assert (Hdone : forall i, In i (flat_map (fun p => map done_of (snd p)) (sends m)) ->
            exists j t c, In j js /\ nth_error (j_tasks j) (j_next j) = Some t /\ In c (task_cmds t) /\ i = IStatus (j_id j) (c_id c) Done).
  { intros i Hi. apply in_flat_map in Hi. destruct Hi as ([st xs] & H1 & H2). cbn in H2. apply in_map_iff in H2.
    destruct H2 as (x & <- & H2). destruct (Hm2 st xs x H1 H2) as (j & t & c & G1 & G2 & G3 & ->). exists j, t, c.
    split; [exact G1 | split; [exact G2 | split; [exact G3 | reflexivity]]]. }
  assert (Hdel : dels l = map j_id (filter (fun j => Nat.eqb (j_next j) (length (j_tasks j))) js)).
  { unfold l. rewrite dels_app. replace (dels (flat_map (fun p => map done_of (snd p)) (sends m))) with (@nil Z).
    - rewrite app_nil_r. pose proof (process_dels v cap js) as Hp. rewrite (process_well v cap js Hw) in Hp. exact Hp.
    - symmetry. destruct (dels (flat_map (fun p => map done_of (snd p)) (sends m))) as [|x y] eqn:Ex; [reflexivity|].
      assert (Hin : In x (dels (flat_map (fun p => map done_of (snd p)) (sends m)))) by (rewrite Ex; left; reflexivity).
      apply dels_In in Hin. destruct (Hdone _ Hin) as (j & t & c & _ & _ & _ & E). discriminate. }
  assert (Hinc : forall i, In i (flat_map pinc js) -> (exists id, i = IDelete id) \/ exists j, In j js /\ i = IUpdate (with_next (S (j_next j)) j)).
  { intros i Hi. apply in_flat_map in Hi. destruct Hi as (j & Hj & Hi). unfold pinc in Hi.
    destruct (Nat.eqb _ _); [destruct Hi as [<- | []]; left; exists (j_id j); reflexivity|].
    destruct (nth_error _ _) as [t|]; [|destruct Hi]. destruct (no_cmds t); [|destruct Hi]. destruct Hi as [<- | []].
    right. exists j. split; [exact Hj | reflexivity]. }
  destruct (apply_all_soft limit l (y_co s) Nd) as (co' & Eall).
  { intros i Hi. apply in_app_or in Hi. destruct Hi as [Hi | Hi].
    - destruct (Hinc i Hi) as [(id & ->) | (j & Hj & ->)]; [exact I|]. cbn. apply (V j Hj).
    - destruct (Hdone i Hi) as (j & t & c & _ & _ & _ & ->). exact I. }
  { intros i Hi. apply in_app_or in Hi. destruct Hi as [Hi | Hi].
    - destruct (Hinc i Hi) as [(id & ->) | (j & Hj & ->)]; exact I.
    - destruct (Hdone i Hi) as (j & t & c & _ & _ & _ & ->). exact I. }
  { intros id Hid. rewrite Hdel in Hid. apply in_map_iff in Hid. destruct Hid as (j & <- & Hj). apply filter_In in Hj.
    unfold ids. apply in_map. exact (proj1 Hj). }
  { rewrite Hdel. apply NoDup_map_filter. exact Nd. }
  pose proof (run_sends limit (pv_store v) rs (sends m) (flat_map pinc js) s0 s' eq_refl eq_refl El Ha) as G.
  cbn zeta in G. fold l in G. change (y_co s0) with (y_co s) in G. rewrite Eall in G.
  destruct G as (G1 & G2 & G3 & G4).
  { intros st xs x H1 H2. destruct (Hm2 st xs x H1 H2) as (j & t & c & Hj & _ & _ & ->). exists j. exact (get_of_In _ _ Nd Hj). }
  { exact H. }
  rewrite G1. split; [split; [exact G2 | split; [exact G3 | exact G4]]|].
  split; [intros p Hp; exact (apply_all_arch limit l p _ _ Eall Hp)|].
  assert (Hall : forall i, In i l -> In (inc_id i) (ids (y_co s))).
  { intros i Hi. apply in_app_or in Hi. unfold ids. destruct Hi as [Hi | Hi].
    - apply in_flat_map in Hi. destruct Hi as (j & Hj & Hi). rewrite (pinc_id j i Hi). apply in_map. exact Hj.
    - destruct (Hdone i Hi) as (j & t & c & Hj & _ & _ & ->). cbn. apply in_map. exact Hj. }
  split.
  { intros id Hid. rewrite (apply_all_other limit l id (y_co s) co'); [exact Hid | | exact Eall].
    intros i Hi E. specialize (Hall i Hi). rewrite E in Hall. apply get_ids in Hall. destruct Hall as (x & Ex). congruence. }
  intros j Hj. destruct (pinc_once js j Nd Hj) as (l1 & l2 & El12 & Hd12).
  assert (Ejg : get (y_co s) (j_id j) = Some j) by exact (get_of_In _ _ Nd Hj).
  assert (Huniq : forall j', In j' js -> j_id j' = j_id j -> j' = j).
  { intros j' Hj' E. pose proof (get_of_In _ _ Nd Hj') as E2. rewrite E in E2. congruence. }
  split.
  - intros En. assert (Ep : pinc j = [IDelete (j_id j)]) by (unfold pinc; rewrite En, Nat.eqb_refl; reflexivity).
    rewrite Ep in El12. cbn [app] in El12.
    assert (Hother : forall i, In i (flat_map (fun p => map done_of (snd p)) (sends m)) -> inc_id i <> j_id j).
    { intros i Hi E. destruct (Hdone i Hi) as (j' & t & c & Hj' & Ht & _ & ->). cbn in E.
      assert (j' = j) by (apply Huniq; assumption). subst j'. rewrite En in Ht.
      assert (Hx : nth_error (j_tasks j) (length (j_tasks j)) = None) by (apply nth_error_None; lia). congruence. }
    unfold l in Eall. rewrite El12, <- app_assoc in Eall. cbn [app] in Eall. rewrite apply_all_app in Eall.
    destruct (apply_all limit (y_co s) l1) as [c1|] eqn:E1; [|discriminate]. cbn [apply_all] in Eall.
    assert (Eg1 : get c1 (j_id j) = Some j).
    { rewrite (apply_all_other limit l1 (j_id j) (y_co s) c1); [exact Ejg | |exact E1].
      intros i Hi. apply Hd12. apply in_or_app. left. exact Hi. }
    cbn [apply_inc] in Eall. rewrite Eg1 in Eall. split.
    + apply (apply_all_arch limit _ _ _ _ Eall). cbn. apply in_or_app. right. left. reflexivity.
    + rewrite (apply_all_other limit _ (j_id j) _ co' ) with (2 := Eall).
      * rewrite get_erase, Z.eqb_refl. reflexivity.
      * intros i Hi. apply in_app_or in Hi. destruct Hi as [Hi | Hi]; [apply Hd12; apply in_or_app; right; exact Hi | exact (Hother i Hi)].
  - intros Hlt.
    assert (Ene : Nat.eqb (j_next j) (length (j_tasks j)) = false) by (apply Nat.eqb_neq; lia).
    destruct (nth_error (j_tasks j) (j_next j)) as [t|] eqn:Et; [|apply nth_error_None in Et; lia].
    assert (Hfin : forall j', get co' (j_id j) = Some j' -> In j' (co_jobs co') /\ j_id j' = j_id j) by (intros j' E; exact (get_In _ _ _ E)).
    destruct (no_cmds t) eqn:Enc.
    + assert (Ep : pinc j = [IUpdate (with_next (S (j_next j)) j)]) by (unfold pinc; rewrite Ene, Et, Enc; reflexivity).
      rewrite Ep in El12. cbn [app] in El12.
      assert (Hother : forall i, In i (flat_map (fun p => map done_of (snd p)) (sends m)) -> inc_id i <> j_id j).
      { intros i Hi E. destruct (Hdone i Hi) as (j' & t' & c & Hj' & Ht & Hc & ->). cbn in E.
        assert (j' = j) by (apply Huniq; assumption). subst j'. assert (t' = t) by congruence. subst t'.
        apply task_cmds_In in Hc. destruct Hc as (o & Ho & Hc). unfold no_cmds in Enc. rewrite forallb_forall in Enc.
        specialize (Enc o Ho). destruct (o_cmds o); [destruct Hc | discriminate]. }
      unfold l in Eall. rewrite El12, <- app_assoc in Eall. cbn [app] in Eall. rewrite apply_all_app in Eall.
      destruct (apply_all limit (y_co s) l1) as [c1|] eqn:E1; [|discriminate]. cbn [apply_all apply_inc] in Eall.
      destruct (j_id (with_next (S (j_next j)) j) =? 0) eqn:E0; [discriminate|].
      exists (with_next (S (j_next j)) j).
      destruct (Hfin (with_next (S (j_next j)) j)) as [F1 F2].
      { rewrite (apply_all_other limit _ (j_id j) _ co' ) with (2 := Eall).
        - rewrite get_put. cbn [with_next j_id]. rewrite Z.eqb_refl. reflexivity.
        - intros i Hi. apply in_app_or in Hi. destruct Hi as [Hi | Hi]; [apply Hd12; apply in_or_app; right; exact Hi | exact (Hother i Hi)]. }
      split; [exact F1|]. split; [exact F2|]. split; reflexivity.
    + assert (Ep : pinc j = []) by (unfold pinc; rewrite Ene, Et, Enc; reflexivity).
      rewrite Ep in El12. cbn [app] in El12.
      assert (Hfind : forall cid, (exists c, In c (task_cmds t) /\ c_id c = cid) -> find_task j cid = Some (j_next j)).
      { intros cid Hc. exact (find_task_of _ _ _ _ _ _ (V j Hj) Et Hc). }
      assert (Hshape : forall i, In i l -> inc_id i = j_id j ->
                exists cid, i = IStatus (j_id j) cid Done /\ exists c, In c (task_cmds t) /\ c_id c = cid).
      { intros i Hi E. apply in_app_or in Hi. destruct Hi as [Hi | Hi].
        - rewrite El12 in Hi. exfalso. exact (Hd12 i Hi E).
        - destruct (Hdone i Hi) as (j' & t' & c & Hj' & Ht & Hc & ->). cbn in E.
          assert (j' = j) by (apply Huniq; assumption). subst j'. assert (t' = t) by congruence. subst t'.
          exists (c_id c). split; [reflexivity | exists c; split; [exact Hc | reflexivity]]. }
      destruct (apply_dones limit j (j_next j) t eq_refl Hfind l (y_co s) co' j [] (dinv_init j _ t eq_refl Et) Ejg Hshape Eall)
        as (j2 & seen & R1 & R2 & _ & R4).
      exists j2. destruct (Hfin j2 R1) as [F1 F2]. split; [exact F1|]. split; [exact F2|]. split.
      * apply (all_done j (j_next j) t Et Hfind seen j2 R2).
        -- intros c Hc. apply R4. unfold l. apply in_or_app. right.
           destruct (pitems_all j t c Et Hc) as (st & Hin).
           destruct (Hm1 st (mkItem (j_id j) (j_next j) c)) as (st' & xs & H1 & H2).
           { apply in_flat_map. exists j. split; [exact Hj | exact Hin]. }
           apply in_flat_map. exists (st', xs). split; [exact H1|]. cbn. apply in_map_iff.
           exists (mkItem (j_id j) (j_next j) c). split; [reflexivity | exact H2].
        -- intros E0. unfold no_cmds in Enc. assert (Ht : forallb (fun o => match o_cmds o with [] => true | _ => false end) (t_ops t) = true); [|congruence].
           apply forallb_forall. intros o Ho. destruct (o_cmds o) as [|c q] eqn:Eo; [reflexivity|]. exfalso.
           assert (Hc : In c (task_cmds t)) by (apply task_cmds_In; exists o; split; [exact Ho | rewrite Eo; left; reflexivity]).
           rewrite E0 in Hc. destruct Hc.
      * destruct R2 as (_ & R2 & _). exact (Forall2_len _ _ _ R2).
Qed.

Lemma good_fits limit s l s' :
  reach limit fits s -> good_round l -> run limit s l = Some s' -> reach limit fits s'.
Proof.
  intros R (v & cap & rs & -> & _ & Ha & _) H. cbn [run] in H.
  destruct (step limit s (EBegin v cap)) as [s1|] eqn:E1; [|discriminate].
  assert (R1 : reach limit fits s1) by (exact (reach_step limit fits s (EBegin v cap) s1 R I E1)). clear R E1.
  revert s1 R1 H. induction rs as [|r rs IH]; intros s1 R1 H; cbn [map app run] in H.
  - destruct (step limit s1 EEnd) as [s2|] eqn:E2; [|discriminate].
    destruct (step limit s2 EApply) as [s3|] eqn:E3; [|discriminate]. assert (s3 = s') by congruence. subst s3.
    exact (reach_step limit fits s2 EApply s' (reach_step limit fits s1 EEnd s2 R1 I E2) I E3).
  - destruct (step limit s1 (ESend (RReply r))) as [s2|] eqn:E2; [|discriminate].
    apply (IH (fun r' x Hr Hx => Ha r' x (or_intror Hr) Hx) s2); [|exact H].
    apply (reach_step limit fits s1 (ESend (RReply r)) s2 R1); [|exact E2].
    cbn. destruct (y_round s1) as [|stores [|[st xs] todo] incs|]; try exact I. intros x st' Hin.
    apply in_combine_r in Hin. specialize (Ha r _ (or_introl eq_refl) Hin). discriminate.
Qed.

Lemma jobs_end limit n : forall s s' j,
  reach limit fits s -> y_round s = Idle -> y_log s = [] -> y_dead s = false ->
  In j (co_jobs (y_co s)) -> n = S (length (j_tasks j) - j_next j) -> rounds limit n s s' ->
  exists j', In (j', true) (co_arch (y_co s')) /\ j_id j' = j_id j /\ get (y_co s') (j_id j) = None.
Proof.
  induction n as [|n IH]; intros s s' j R Er El Ed Hj En Hr; [discriminate|].
  inversion Hr as [|n' s0 l s1 s2 Hsm Hg Hrun Hrest]; subst.
  pose proof (yinv_reach false limit fits s (fun s e H => conj H (fun E => False_ind _ (Bool.diff_false_true E))) R) as Y.
  pose proof (proj1 (yi_co _ _ Y) j Hj) as (_ & _ & _ & Hle & _).
  destruct (good_step limit s l s1 R Er El Ed Hsm Hg Hrun) as ((G1 & G2 & G3) & G4 & G5 & G6).
  pose proof (good_fits limit s l s1 R Hg Hrun) as R1.
  destruct (G6 j Hj) as [H1 H2]. destruct (Nat.eq_dec (j_next j) (length (j_tasks j))) as [E|E].
  - destruct (H1 E) as [A1 A2]. assert (n = 0%nat) by lia. subst n. inversion Hrest; subst.
    exists j. split; [exact A1 | split; [reflexivity | exact A2]].
  - destruct (H2 ltac:(lia)) as (j' & J1 & J2 & J3 & J4).
    destruct (IH s1 s' j' R1 G1 G2 G3 J1) as (j2 & K1 & K2 & K3); [rewrite J3, J4; lia | exact Hrest|].
    exists j2. rewrite J2 in K2, K3. split; [exact K1 | split; [exact K2 | exact K3]].
Qed.
