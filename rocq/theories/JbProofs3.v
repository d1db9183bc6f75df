(** * Lemmas about jobs: the machine *)

From Coq Require Import ZArith List Bool Arith Lia Permutation.
From Verif Require Import JbModel JbSpec JbProofs2.
Import ListNotations.
Local Open Scope Z_scope.

Definition all_acked (A : list (Z * Z)) (B : list job) (id : Z) : Prop :=
  exists j0, In j0 B /\ j_id j0 = id /\ forall n cid, cmd_at j0 n cid -> In (id, cid) A.

Definition before_acked (A : list (Z * Z)) (j0 : job) (k : nat) : Prop :=
  forall n cid, (n < k)%nat -> cmd_at j0 n cid -> In (j_id j0, cid) A.

Definition reached (A : list (Z * Z)) (B : list job) (id cid : Z) : Prop :=
  exists j0 k, In j0 B /\ fresh_job j0 /\ j_id j0 = id /\ cmd_at j0 k cid /\ before_acked A j0 k.

Definition itemgood (A : list (Z * Z)) (B : list job) (x : item) : Prop :=
  exists j0 t0, In j0 B /\ fresh_job j0 /\ j_id j0 = i_job x
    /\ nth_error (j_tasks j0) (i_step x) = Some t0 /\ In (ck (i_cmd x)) (map ck (task_cmds t0))
    /\ before_acked A j0 (i_step x).

Definition incgood (nc : bool) (A : list (Z * Z)) (B : list job) (i : inc) : Prop :=
  match i with
  | ICreate j | IUpdate j => vgood A B j
  | IDelete id => nc = true -> all_acked A B id
  | IStatus id cid Done => In (id, cid) A
  | IStatus id cid Fail => reached A B id cid
  | IMove id cid _ =>
      exists j0 k t0, In j0 B /\ fresh_job j0 /\ j_id j0 = id /\ nth_error (j_tasks j0) k = Some t0
        /\ (exists c, In c (task_cmds t0) /\ c_id c = cid) /\ length (task_cmds t0) = 1%nat
  end.

Definition cogood (nc : bool) (A : list (Z * Z)) (B : list job) (co : coord) : Prop :=
  (forall j, In j (co_jobs co) -> vgood A B j)
  /\ (forall j ok, In (j, ok) (co_arch co) -> vgood A B j /\ (ok = true -> nc = true -> all_acked A B (j_id j))).

Record yinv (nc : bool) (s : sys) : Prop := mkYinv {
  yi_born : NoDup (map j_id (y_born s));
  yi_co : cogood nc (y_acked s) (y_born s) (y_co s);
  yi_log : forall m l i, In (m, l) (y_log s) -> In i l -> incgood nc (y_acked s) (y_born s) i;
  yi_round : match y_round s with
             | Sending _ todo incs =>
                 (forall i, In i incs -> incgood nc (y_acked s) (y_born s) i)
                 /\ (forall st xs x, In (st, xs) todo -> In x xs -> itemgood (y_acked s) (y_born s) x)
             | _ => True
             end;
  yi_sent : forall id cid, In (id, cid) (y_sent s) -> reached (y_acked s) (y_born s) id cid
}.

Section Mono.
  Variables (A A' : list (Z * Z)) (B B' : list job).
  Hypothesis HA : incl A A'.
  Hypothesis HB : incl B B'.

  Lemma all_acked_mono id : all_acked A B id -> all_acked A' B' id.
  Proof.
    intros (j0 & H1 & H2 & H3). exists j0. split; [exact (HB _ H1)|]. split; [exact H2|].
    intros n cid Hc. exact (HA _ (H3 n cid Hc)).
  Qed.

  Lemma before_mono j0 k : before_acked A j0 k -> before_acked A' j0 k.
  Proof. intros H n cid Hn Hc. exact (HA _ (H n cid Hn Hc)). Qed.

  Lemma reached_mono id cid : reached A B id cid -> reached A' B' id cid.
  Proof.
    intros (j0 & k & H1 & H2 & H3 & H4 & H5). exists j0, k. split; [exact (HB _ H1)|].
    split; [exact H2|]. split; [exact H3|]. split; [exact H4 | exact (before_mono _ _ H5)].
  Qed.

  Lemma itemgood_mono x : itemgood A B x -> itemgood A' B' x.
  Proof.
    intros (j0 & t0 & H1 & H2 & H3 & H4 & H5 & H6). exists j0, t0. split; [exact (HB _ H1)|].
    repeat (split; [assumption|]). exact (before_mono _ _ H6).
  Qed.

  Lemma incgood_mono nc i : incgood nc A B i -> incgood nc A' B' i.
  Proof.
    destruct i as [j|j|id|id cid []|id cid st]; cbn.
    - apply vgood_mono; assumption.
    - apply vgood_mono; assumption.
    - intros H Hn. exact (all_acked_mono _ (H Hn)).
    - apply HA.
    - apply reached_mono.
    - intros (j0 & k & t0 & H1 & H2). exists j0, k, t0. split; [exact (HB _ H1) | exact H2].
  Qed.

  Lemma cogood_mono nc co : cogood nc A B co -> cogood nc A' B' co.
  Proof.
    intros [H1 H2]. split.
    - intros j Hj. exact (vgood_mono _ _ _ _ _ HA HB (H1 j Hj)).
    - intros j ok Hj. destruct (H2 j ok Hj) as [G1 G2]. split; [exact (vgood_mono _ _ _ _ _ HA HB G1)|].
      intros E En. exact (all_acked_mono _ (G2 E En)).
  Qed.
End Mono.

Lemma get_In co id j : get co id = Some j -> In j (co_jobs co) /\ j_id j = id.
Proof.
  unfold get. intros H. apply find_some in H. destruct H as [H1 H2]. apply Z.eqb_eq in H2. split; assumption.
Qed.

Lemma put_in_In j l x : In x (put_in j l) -> x = j \/ In x l.
Proof.
  induction l as [|y l IH]; cbn [put_in].
  - intros [E | []]. left. congruence.
  - destruct (j_id y =? j_id j); intros [E | H].
    + left. congruence.
    + right. right. exact H.
    + right. left. exact E.
    + destruct (IH H) as [E | H']; [left; exact E | right; right; exact H'].
Qed.

Lemma cogood_put nc A B co j : cogood nc A B co -> vgood A B j -> cogood nc A B (put co j).
Proof.
  intros [H1 H2] V. split; [|exact H2]. cbn. intros x Hx. apply put_in_In in Hx.
  destruct Hx as [-> | Hx]; [exact V | exact (H1 x Hx)].
Qed.

Lemma cogood_erase nc A B co j ok id :
  cogood nc A B co -> vgood A B j -> (ok = true -> nc = true -> all_acked A B (j_id j)) ->
  cogood nc A B (erase (archive co j ok) id).
Proof.
  intros [H1 H2] V Hok. split.
  - cbn. intros x Hx. apply filter_In in Hx. exact (H1 x (proj1 Hx)).
  - cbn. intros x k Hx. apply in_app_or in Hx. destruct Hx as [Hx | [E | []]]; [exact (H2 x k Hx)|].
    assert (j = x) by congruence. assert (ok = k) by congruence. subst x k. split; assumption.
Qed.

Lemma born_unique (B : list job) j1 j2 :
  NoDup (map j_id B) -> In j1 B -> In j2 B -> j_id j1 = j_id j2 -> j1 = j2.
Proof.
  induction B as [|x B IH]; [intros _ []|]. cbn. intros Hn H1 H2 E. inversion Hn as [|? ? Ha Hb]; subst.
  destruct H1 as [H1 | H1]; destruct H2 as [H2 | H2].
  - congruence.
  - subst x. exfalso. apply Ha. rewrite E. apply in_map. exact H2.
  - subst x. exfalso. apply Ha. rewrite <- E. apply in_map. exact H1.
  - exact (IH Hb H1 H2 E).
Qed.

Lemma apply_inc_good nc limit A B co i co' :
  NoDup (map j_id B) -> cogood nc A B co -> incgood nc A B i -> apply_inc limit co i = Some co' -> cogood nc A B co'.
Proof.
  intros HB C G H. destruct i as [j|j|id|id cid st|id cid st]; cbn in H, G.
  - destruct (j_id j =? 0); [discriminate|]. assert (co' = put co j) by congruence. subst co'. exact (cogood_put _ _ _ _ _ C G).
  - destruct (j_id j =? 0); [discriminate|]. assert (co' = put co j) by congruence. subst co'. exact (cogood_put _ _ _ _ _ C G).
  - destruct (get co id) as [j|] eqn:Eg; [|discriminate]. assert (Ec : co' = erase (archive co j true) id) by congruence. subst co'.
    destruct (get_In _ _ _ Eg) as [Hj Ej]. apply cogood_erase; [exact C | exact (proj1 C j Hj)|].
    intros _ Hn. rewrite Ej. exact (G Hn).
  - destruct (get co id) as [j|] eqn:Eg; [|congruence].
    destruct (get_In _ _ _ Eg) as [Hj Ej]. pose proof (proj1 C j Hj) as V.
    assert (Ec : co' = apply_status limit co j cid st) by congruence. subst co'. clear H.
    unfold apply_status. destruct (find_task j cid) as [step|] eqn:Ef; [|exact C].
    destruct st.
    + destruct (Nat.eqb step (j_next j)) eqn:En; [|exact (cogood_put _ _ _ _ _ C V)].
      apply Nat.eqb_eq in En. apply cogood_put; [exact C|]. apply vgood_done; try assumption. rewrite Ej. exact G.
    + destruct (need_clean _ _ _).
      * apply cogood_erase; [exact C | exact V | discriminate].
      * apply cogood_put; [exact C|]. apply vgood_fail; try assumption.
        intros n cid' Hn Hc. destruct G as (j0 & k & G1 & G2 & G3 & G4 & G5).
        destruct V as (_ & (j1 & V1 & V2 & V3 & V4) & _).
        assert (j0 = j1) by (apply (born_unique B); try assumption; congruence). subst j1.
        assert (Hk : step = k).
        { apply (cmd_at_unique j0 _ _ cid); [apply G2 | |exact G4]. apply (cmd_at_same j j0 _ _ V4). exact (proj1 (find_task_at _ _ _ Ef)). }
        subst k. rewrite Ej, <- G3. apply (G5 n cid' Hn). apply (cmd_at_same j j0 _ _ V4). exact Hc.
  - destruct (get co id) as [j|] eqn:Eg; [|congruence].
    destruct (get_In _ _ _ Eg) as [Hj Ej]. pose proof (proj1 C j Hj) as V.
    assert (Ec : co' = apply_move co j cid st) by congruence. subst co'. clear H.
    unfold apply_move. destruct (find_task j cid) as [step|] eqn:Ef; [|exact C].
    apply cogood_put; [exact C|]. apply vgood_move; try assumption.
    intros t Ht. destruct G as (j0 & k & t0 & G1 & G2 & G3 & G4 & G5 & G6).
    destruct V as (_ & (j1 & V1 & V2 & V3 & V4) & _).
    assert (j0 = j1) by (apply (born_unique B); try assumption; congruence). subst j1.
    assert (Hk : step = k).
    { apply (cmd_at_unique j0 _ _ cid); [apply G2 | |].
      - apply (cmd_at_same j j0 _ _ V4). exact (proj1 (find_task_at _ _ _ Ef)).
      - destruct G5 as (c & Hc & Ec). exists t0, c. split; [exact G4 | split; assumption]. }
    subst k. destruct (Forall2_nth _ _ _ _ _ V4 Ht) as (t1 & Et1 & Hs).
    apply Permutation_length in Hs. rewrite !map_length in Hs. congruence.
Qed.

Lemma apply_all_good nc limit A B l : forall co co',
  NoDup (map j_id B) -> cogood nc A B co -> (forall i, In i l -> incgood nc A B i) ->
  apply_all limit co l = Some co' -> cogood nc A B co'.
Proof.
  induction l as [|i l IH]; intros co co' HB C G H; cbn in H; [congruence|].
  destruct (apply_inc limit co i) as [co1|] eqn:E; [|discriminate].
  apply (IH co1 co' HB); [|intros i' Hi; apply G; right; exact Hi|exact H].
  apply (apply_inc_good nc limit A B co i co1 HB C); [apply G; left; reflexivity | exact E].
Qed.

(** ** A round *)

Lemma add_send_In cap s x m st xs y :
  In (st, xs) (add_send cap s x m) -> In y xs -> y = x \/ exists st' xs', In (st', xs') m /\ In y xs'.
Proof.
  induction m as [|[s' l] m IH]; cbn [add_send].
  - intros [E | []] Hy. assert (xs = [x]) by congruence. subst xs. destruct Hy as [Hy | []]. left. congruence.
  - destruct (s =? s').
    + intros [E | H] Hy.
      * assert (Ex : xs = if Nat.ltb cap (length l) then l else l ++ [x]) by congruence.
        destruct (Nat.ltb cap (length l)); subst xs.
        -- right. exists s', l. split; [left; reflexivity | exact Hy].
        -- apply in_app_or in Hy. destruct Hy as [Hy | [Hy | []]]; [|left; congruence].
           right. exists s', l. split; [left; reflexivity | exact Hy].
      * right. exists st, xs. split; [right; exact H | exact Hy].
    + destruct (s <? s').
      * intros [E | H] Hy.
        -- assert (xs = [x]) by congruence. subst xs. destruct Hy as [Hy | []]. left. congruence.
        -- right. exists st, xs. split; [exact H | exact Hy].
      * intros [E | H] Hy.
        -- right. exists st, xs. split; [left; exact E | exact Hy].
        -- destruct (IH H Hy) as [E | (st' & xs' & H1 & H2)]; [left; exact E|].
           right. exists st', xs'. split; [right; exact H1 | exact H2].
Qed.

Definition sent_in (m : list (Z * list item)) (x : item) : Prop := exists st xs, In (st, xs) m /\ In x xs.

Lemma add_sends_In v cap l : forall m m' ok y,
  add_sends v cap l m = (m', ok) -> sent_in m' y -> sent_in m y \/ exists st, In (st, y) l.
Proof.
  induction l as [|[s x] l IH]; intros m m' ok y H Hy; cbn [add_sends] in H.
  - left. assert (m' = m) by congruence. subst m'. exact Hy.
  - destruct (pv_store v s).
    + destruct (IH _ _ _ _ H Hy) as [(st & xs & H1 & H2) | (st & H1)].
      * destruct (add_send_In _ _ _ _ _ _ _ H1 H2) as [E | G]; [right; exists s; left; congruence | left; exact G].
      * right. exists st. right. exact H1.
    + left. assert (m' = m) by congruence. subst m'. exact Hy.
Qed.

Lemma items_In j t st x : In (st, x) (items j t) -> exists c, In c (task_cmds t) /\ x = mkItem (j_id j) (j_next j) c.
Proof.
  unfold items. rewrite in_flat_map. intros (o & Ho & Hx). apply in_map_iff in Hx. destruct Hx as (c & E & Hc).
  exists c. split; [apply task_cmds_In; exists o; split; assumption | congruence].
Qed.

Lemma process_job_good nc A B v cap j incs m :
  vgood A B j ->
  (forall i, In i incs -> incgood nc A B i) -> (forall x, sent_in m x -> itemgood A B x) ->
  (forall i, In i (fst (process_job v cap j (incs, m))) -> incgood nc A B i)
  /\ (forall x, sent_in (snd (process_job v cap j (incs, m))) x -> itemgood A B x).
Proof.
  intros V Hi Hm. pose proof V as (V1 & (j0 & V2 & V3 & V4 & V5) & _ & V6 & V7).
  assert (Hb : forall k, (k <= j_next j)%nat -> before_acked A j0 k).
  { intros k Hk n cid Hn Hc. rewrite V4. apply (V7 n cid); [lia|]. apply (cmd_at_same j j0 _ _ V5). exact Hc. }
  unfold process_job. destruct (Nat.eqb (j_next j) (length (j_tasks j))) eqn:En.
  - split; [|exact Hm]. cbn. intros i Hin. apply in_app_or in Hin. destruct Hin as [Hin | [<- | []]]; [exact (Hi i Hin)|].
    intros _. exists j0. split; [exact V2|]. split; [exact V4|]. intros n cid Hc. rewrite <- V4.
    apply (Hb (j_next j) (le_n _) n cid); [|exact Hc]. apply Nat.eqb_eq in En. rewrite En.
    destruct Hc as (t & c & Ht & _). rewrite (Forall2_len _ _ _ V5). apply nth_error_Some. congruence.
  - destruct (nth_error (j_tasks j) (j_next j)) as [t|] eqn:Et; [|split; assumption].
    destruct (negb (forallb (check_ok v) (t_ops t))); [split; assumption|].
    destruct (add_sends v cap (items j t) m) as [m' ok] eqn:Ea.
    assert (Hm' : forall x, sent_in m' x -> itemgood A B x).
    { intros x Hx. destruct (add_sends_In _ _ _ _ _ _ _ Ea Hx) as [Hx' | (st & Hx')]; [exact (Hm x Hx')|].
      destruct (items_In _ _ _ _ Hx') as (c & Hc & ->).
      destruct (Forall2_nth _ _ _ _ _ V5 Et) as (t0 & Et0 & Hs).
      exists j0, t0. cbn. split; [exact V2|]. split; [exact V3|]. split; [exact V4|]. split; [exact Et0|].
      split; [|exact (Hb _ (le_n _))]. apply (Permutation_in _ Hs). apply in_map_iff. exists c. split; [reflexivity | exact Hc]. }
    destruct (negb ok); [split; assumption|].
    destruct (negb (forallb (pv_drop v) (t_drops t))); [split; assumption|].
    destruct (forallb (fun o => match o_cmds o with [] => true | _ => false end) (t_ops t)) eqn:Eempty; [|split; assumption].
    split; [|exact Hm']. cbn. intros i Hin. apply in_app_or in Hin. destruct Hin as [Hin | [<- | []]]; [exact (Hi i Hin)|].
    cbn. apply vgood_with_next; [exact V| |].
    + assert (Hx : nth_error (j_tasks j) (j_next j) <> None) by congruence. apply nth_error_Some in Hx. exact Hx.
    + intros n cid Hn Hc. destruct (Nat.eq_dec n (j_next j)) as [->|Hne]; [|apply (V7 n cid); [lia | exact Hc]].
      exfalso. destruct Hc as (t' & c & Ht' & Hc & _). assert (t' = t) by congruence. subst t'.
      apply task_cmds_In in Hc. destruct Hc as (o & Ho & Hc). rewrite forallb_forall in Eempty.
      specialize (Eempty o Ho). destruct (o_cmds o); [destruct Hc | discriminate].
Qed.

Lemma process_good nc A B v cap js :
  (forall j, In j js -> vgood A B j) ->
  (forall i, In i (fst (process v cap js)) -> incgood nc A B i)
  /\ (forall x, sent_in (snd (process v cap js)) x -> itemgood A B x).
Proof.
  intros V. unfold process.
  assert (G : forall js a, (forall j, In j js -> vgood A B j) ->
     (forall i, In i (fst a) -> incgood nc A B i) -> (forall x, sent_in (snd a) x -> itemgood A B x) ->
     (forall i, In i (fst (fold_left (fun a j => process_job v cap j a) js a)) -> incgood nc A B i)
     /\ (forall x, sent_in (snd (fold_left (fun a j => process_job v cap j a) js a)) x -> itemgood A B x)).
  { clear js V. induction js as [|j js IH]; intros [incs m] V Hi Hm; [split; assumption|]. cbn [fold_left].
    destruct (process_job_good nc A B v cap j incs m (V j (or_introl eq_refl)) Hi Hm) as [H1 H2].
    apply IH; [intros j' Hj; apply V; right; exact Hj | exact H1 | exact H2]. }
  apply G; [exact V | intros i [] | intros x (st & xs & [] & _)].
Qed.

Lemma sends_In m st xs x : In (st, xs) (sends m) -> In x xs -> sent_in m x.
Proof.
  unfold sends. rewrite filter_In. intros [H _] Hx. apply in_app_or in H. destruct H as [H | H].
  - unfold creates in H. apply in_map_iff in H. destruct H as ([s l] & E & Hl). exists s, l. split; [exact Hl|].
    assert (Ex : xs = filter (is_kind KCreate) l) by (cbn in E; congruence). rewrite Ex in Hx.
    apply filter_In in Hx. exact (proj1 Hx).
  - unfold others in H. apply in_map_iff in H. destruct H as ([s l] & E & Hl). exists s, l. split; [exact Hl|].
    assert (Ex : xs = filter (fun x => negb (is_kind KCreate x) && negb (is_kind KDelete x)) l ++ filter (is_kind KDelete) l)
      by (cbn in E; congruence).
    rewrite Ex in Hx. apply in_app_or in Hx. destruct Hx as [Hx | Hx]; apply filter_In in Hx; exact (proj1 Hx).
Qed.

Lemma itemgood_reached A B x : itemgood A B x -> reached A B (i_job x) (c_id (i_cmd x)).
Proof.
  intros (j0 & t0 & H1 & H2 & H3 & H4 & H5 & H6). exists j0, (i_step x). split; [exact H1|]. split; [exact H2|].
  split; [exact H3|]. split; [|exact H6]. apply in_map_iff in H5. destruct H5 as (c & E & Hc).
  exists t0, c. split; [exact H4|]. split; [exact Hc | unfold ck in E; congruence].
Qed.

Lemma reply_incs_good nc A B co stores st xs : forall rs,
  length rs = length xs ->
  (forall x, In x xs -> itemgood A B x) ->
  (forall x s, In (x, NotLeader s) (combine xs rs) -> leader_kind (c_kind (i_cmd x)) = true) ->
  (forall x r, In (x, r) (combine xs rs) -> advances (c_kind (i_cmd x)) r = true -> In (i_job x, c_id (i_cmd x)) A) ->
  forall i, In i (reply_incs co stores st xs rs) -> incgood nc A B i.
Proof.
  induction xs as [|x xs IH]; intros [|r rs] Hl Hx Hn Ha i Hi; cbn in Hl; try discriminate; [destruct Hi|].
  cbn [reply_incs] in Hi. apply in_app_or in Hi. destruct Hi as [Hi | Hi].
  - pose proof (Hx x (or_introl eq_refl)) as Gx.
    assert (Hst : match r with NotLeader _ => False | _ => True end ->
              In i (match get co (i_job x) with
                    | None => []
                    | Some _ => [IStatus (i_job x) (c_id (i_cmd x)) (if advances (c_kind (i_cmd x)) r then Done else Fail)]
                    end) -> incgood nc A B i).
    { intros _ Hin. destruct (get co (i_job x)); [|destruct Hin]. destruct Hin as [<- | []].
      destruct (advances (c_kind (i_cmd x)) r) eqn:Eadv; cbn.
      - apply (Ha x r); [left; reflexivity | exact Eadv].
      - exact (itemgood_reached _ _ _ Gx). }
    unfold one_inc in Hi. destruct r as [| |e|s']; try (exact (Hst I Hi)).
    destruct ((s' =? 0) || (s' =? st)); [destruct Hi|]. destruct (stores st && stores s'); [|destruct Hi].
    destruct Hi as [<- | []]. cbn. pose proof (Hn x s' (or_introl eq_refl)) as Hk.
    destruct Gx as (j0 & t0 & G1 & G2 & G3 & G4 & G5 & _). exists j0, (i_step x), t0.
    split; [exact G1|]. split; [exact G2|]. split; [exact G3|]. split; [exact G4|].
    apply in_map_iff in G5. destruct G5 as (c & E & Hc). split.
    + exists c. split; [exact Hc | unfold ck in E; congruence].
    + destruct G2 as (_ & _ & _ & G2). apply (proj2 (G2 t0 (nth_error_In _ _ G4))). exists c. split; [exact Hc|].
      unfold ck in E. replace (c_kind c) with (c_kind (i_cmd x)) by congruence. exact Hk.
  - apply (IH rs); [congruence | intros y Hy; apply Hx; right; exact Hy | | |exact Hi].
    + intros y s Hy. apply (Hn y s). right. exact Hy.
    + intros y r' Hy. apply (Ha y r'). right. exact Hy.
Qed.

(** ** The invariant *)

Lemma yinv_init nc : yinv nc init.
Proof.
  constructor; cbn; try (intros; contradiction); [constructor | | exact I].
  split; cbn; intros; contradiction.
Qed.

Lemma apply_entry_good nc limit s : yinv nc s -> yinv nc (apply_entry limit s).
Proof.
  intros I. unfold apply_entry. destruct (y_log s) as [|[mine l] r] eqn:El; [exact I|]. destruct I as [I1 I2 I3 I4 I5].
  destruct (apply_all limit (y_co s) l) as [co'|] eqn:Ea.
  - constructor; cbn; try assumption.
    + apply (apply_all_good nc limit _ _ l (y_co s)); try assumption.
      intros i Hi. apply (I3 mine l i); [rewrite El; left; reflexivity | exact Hi].
    + intros m l' i Hm Hi. apply (I3 m l' i); [rewrite El; right; exact Hm | exact Hi].
    + destruct mine; [exact I | exact I4].
  - constructor; cbn -[In]; try assumption. intros m l' i Hm Hi. apply (I3 m l' i); [rewrite El; exact Hm | exact Hi].
Qed.

Lemma apply_entry_keep limit s :
  y_born (apply_entry limit s) = y_born s /\ y_acked (apply_entry limit s) = y_acked s
  /\ y_sent (apply_entry limit s) = y_sent s /\ y_fails (apply_entry limit s) = y_fails s.
Proof.
  unfold apply_entry. destruct (y_log s) as [|[mine l] r]; [repeat split|].
  destruct (apply_all limit (y_co s) l); cbn; repeat split.
Qed.

Lemma apply_entries_good nc limit n : forall s, yinv nc s -> yinv nc (apply_entries limit n s).
Proof.
  induction n as [|n IH]; intros s H; [exact H|]. cbn [apply_entries]. destruct (y_dead s); [exact H|].
  apply IH. apply apply_entry_good. exact H.
Qed.

Lemma yinv_step nc limit s e s' :
  yinv nc s -> fits s e -> (nc = true -> no_clean e) -> step limit s e = Some s' -> yinv nc s'.
Proof.
  intros I F N H. unfold step in H. destruct (y_dead s) eqn:Ed; [discriminate|].
  destruct e as [j|id cid|id|v cap|r| | |n].
  - (* new *)
    destruct F as [F1 F2].
    assert (Es : s' = mkSys (y_co s) (y_round s) (y_log s ++ [(false, [ICreate j])]) false (j :: y_born s)
                            (y_acked s) (y_sent s) (y_fails s)) by (cbn in H; congruence).
    clear H. subst s'. destruct I as [I1 I2 I3 I4 I5].
    assert (HB : incl (y_born s) (j :: y_born s)) by (intros x Hx; right; exact Hx).
    assert (HA : incl (y_acked s) (y_acked s)) by (intros x Hx; exact Hx).
    constructor; cbn.
    + constructor; assumption.
    + exact (cogood_mono _ _ _ _ HA HB nc _ I2).
    + intros m l i Hm Hi. apply in_app_or in Hm. destruct Hm as [Hm | [E | []]].
      * exact (incgood_mono _ _ _ _ HA HB nc i (I3 m l i Hm Hi)).
      * assert (l = [ICreate j]) by congruence. subst l. destruct Hi as [<- | []]. cbn.
        apply vgood_fresh; [exact F1 | left; reflexivity].
    + destruct (y_round s) as [|stores todo incs|]; try exact I. destruct I4 as [G1 G2]. split.
      * intros i Hi. exact (incgood_mono _ _ _ _ HA HB nc i (G1 i Hi)).
      * intros st xs x H1 H2. exact (itemgood_mono _ _ _ _ HA HB x (G2 st xs x H1 H2)).
    + intros id cid Hin. exact (reached_mono _ _ _ _ HA HB _ _ (I5 id cid Hin)).
  - (* report *)
    destruct (get (y_co s) id) as [j|] eqn:Eg; [|assert (s' = s) by congruence; subst s'; exact I].
    assert (Es : s' = mkSys (y_co s) (y_round s) (y_log s ++ [(false, [IStatus id cid Fail])]) false (y_born s)
                            (y_acked s) (y_sent s) (id :: y_fails s)) by (cbn in H; congruence).
    clear H. subst s'. destruct I as [I1 I2 I3 I4 I5]. constructor; cbn; try assumption.
    intros m l i Hm Hi. apply in_app_or in Hm. destruct Hm as [Hm | [E | []]]; [exact (I3 m l i Hm Hi)|].
    assert (l = [IStatus id cid Fail]) by congruence. subst l. destruct Hi as [<- | []]. cbn. exact (I5 _ _ F).
  - (* clean *)
    set (l := map (fun j => IDelete (j_id j)) (filter (fun j => (id =? 0) || (j_id j =? id)) (co_jobs (y_co s)))) in *.
    assert (Hcl : nc = false) by (destruct nc; [destruct (N eq_refl) | reflexivity]).
    assert (Hl : forall i, In i l -> incgood nc (y_acked s) (y_born s) i).
    { intros i Hi. unfold l in Hi. apply in_map_iff in Hi. destruct Hi as (j & <- & _). cbn. rewrite Hcl. discriminate. }
    assert (Es : s' = s \/ s' = write s false l) by (destruct l; [left | right]; congruence).
    destruct Es as [Es | Es]; subst s'; [exact I|]. destruct I as [I1 I2 I3 I4 I5]. constructor; cbn; try assumption.
    intros m l' i Hm Hi. apply in_app_or in Hm. destruct Hm as [Hm | [E | []]]; [exact (I3 m l' i Hm Hi)|].
    assert (l' = l) by congruence. subst l'. exact (Hl i Hi).
  - (* begin *)
    destruct (y_round s) eqn:Er; try discriminate.
    destruct (process v cap (co_jobs (y_co s))) as [incs m] eqn:Ep.
    assert (Es : s' = mkSys (y_co s) (Sending (pv_store v) (sends m) incs) (y_log s) false
                            (y_born s) (y_acked s) (y_sent s) (y_fails s)) by congruence.
    clear H. subst s'. destruct I as [I1 I2 I3 I4 I5].
    destruct (process_good nc (y_acked s) (y_born s) v cap (co_jobs (y_co s)) (proj1 I2)) as [G1 G2].
    rewrite Ep in G1, G2. cbn in G1, G2.
    constructor; cbn; try assumption. split; [exact G1|].
    intros st xs x H1 H2. apply G2. exact (sends_In _ _ _ _ H1 H2).
  - (* send *)
    unfold fits in F. destruct (y_round s) as [|stores todo incs|] eqn:Er; try discriminate.
    destruct todo as [|[st xs] todo]; [discriminate|].
    destruct (match r with RReply rs => Nat.eqb (length rs) (length xs) | _ => true end) eqn:El; [|discriminate].
    assert (Es : s' = mkSys (y_co s) (Sending stores todo (incs ++ send_incs (y_co s) stores st xs r)) (y_log s) false
                            (y_born s) (acks_of xs r ++ y_acked s)
                            (map (fun x => (i_job x, c_id (i_cmd x))) xs ++ y_sent s)
                            (fails_of xs r ++ y_fails s)) by congruence.
    clear H. subst s'. destruct I as [I1 I2 I3 I4 I5]. rewrite Er in I4. destruct I4 as [G1 G2].
    assert (HB : incl (y_born s) (y_born s)) by (intros x Hx; exact Hx).
    assert (HA : incl (y_acked s) (acks_of xs r ++ y_acked s)) by (intros x Hx; apply in_or_app; right; exact Hx).
    constructor; cbn.
    + exact I1.
    + exact (cogood_mono _ _ _ _ HA HB nc _ I2).
    + intros m l i Hm Hi. exact (incgood_mono _ _ _ _ HA HB nc i (I3 m l i Hm Hi)).
    + split.
      * intros i Hi. apply in_app_or in Hi. destruct Hi as [Hi | Hi]; [exact (incgood_mono _ _ _ _ HA HB nc i (G1 i Hi))|].
        destruct r as [| |rs]; [destruct Hi | destruct F |]. cbn in Hi. apply Nat.eqb_eq in El.
        apply (reply_incs_good nc _ _ (y_co s) stores st xs rs El); [| exact F | | exact Hi].
        -- intros x Hx. exact (itemgood_mono _ _ _ _ HA HB x (G2 st xs x (or_introl eq_refl) Hx)).
        -- intros x r' Hx Hadv. apply in_or_app. left. cbn. apply in_flat_map. exists (x, r'). split; [exact Hx|].
           cbn. rewrite Hadv. left. reflexivity.
      * intros st' xs' x H1 H2. exact (itemgood_mono _ _ _ _ HA HB x (G2 st' xs' x (or_intror H1) H2)).
    + intros id cid Hin. apply in_app_or in Hin. destruct Hin as [Hin | Hin].
      * apply in_map_iff in Hin. destruct Hin as (x & E & Hx). assert (E1 : i_job x = id) by congruence.
        assert (E2 : c_id (i_cmd x) = cid) by congruence. subst id cid. apply itemgood_reached.
        exact (itemgood_mono _ _ _ _ HA HB x (G2 st xs x (or_introl eq_refl) Hx)).
      * exact (reached_mono _ _ _ _ HA HB _ _ (I5 id cid Hin)).
  - (* end *)
    destruct (y_round s) as [|stores todo incs|] eqn:Er; try discriminate. destruct todo as [|p todo]; [|destruct incs; discriminate].
    destruct I as [I1 I2 I3 I4 I5]. rewrite Er in I4. destruct I4 as [G1 G2].
    destruct incs as [|i0 incs].
    + assert (Es : s' = mkSys (y_co s) Idle (y_log s) false (y_born s) (y_acked s) (y_sent s) (y_fails s)) by congruence.
      clear H. subst s'. constructor; cbn; assumption || exact I.
    + assert (Es : s' = mkSys (y_co s) Waiting (y_log s ++ [(true, i0 :: incs)]) false (y_born s) (y_acked s) (y_sent s) (y_fails s))
        by (cbn in H; congruence).
      clear H. subst s'. constructor; cbn -[In]; try assumption; try exact I.
      intros m l i Hm Hi. apply in_app_or in Hm. destruct Hm as [Hm | [E | []]]; [exact (I3 m l i Hm Hi)|].
      assert (l = i0 :: incs) by congruence. subst l. exact (G1 i Hi).
  - (* apply *)
    assert (Es : s' = apply_entry limit s) by (destruct (y_log s); congruence). subst s'. exact (apply_entry_good nc limit s I).
  - (* lose *)
    pose proof (apply_entries_good nc limit n s I) as J.
    set (s1 := apply_entries limit n s) in *.
    assert (Es : s' = mkSys (y_co s1) Idle [] (y_dead s1) (y_born s1) (y_acked s1) (y_sent s1) (y_fails s1)) by congruence.
    clear H. subst s'. destruct J as [J1 J2 J3 J4 J5]. constructor; cbn; try assumption; try exact I; intros; contradiction.
Qed.

Lemma yinv_reach nc limit (P : sys -> event -> Prop) s :
  (forall s e, P s e -> fits s e /\ (nc = true -> no_clean e)) -> reach limit P s -> yinv nc s.
Proof.
  intros HP H. induction H as [|s e s' Hr IH Hp Hs]; [apply yinv_init|].
  destruct (HP s e Hp) as [H1 H2]. exact (yinv_step nc limit s e s' IH H1 H2 Hs).
Qed.

(** Commands are sent in the order of the steps. *)
Lemma send_order limit s x j :
  reach limit fits s -> to_send s x -> In j (y_born s) -> j_id j = i_job x ->
  cmd_at j (i_step x) (c_id (i_cmd x))
  /\ forall n cid, (n < i_step x)%nat -> cmd_at j n cid -> acked s (j_id j) cid.
Proof.
  intros R (stores & todo & incs & st & xs & Er & H1 & H2) Hj Ej.
  pose proof (yinv_reach false limit fits s (fun s e H => conj H (fun E => False_ind _ (Bool.diff_false_true E))) R) as I.
  destruct I as [I1 I2 I3 I4 I5]. rewrite Er in I4. destruct I4 as [_ G2].
  destruct (G2 st xs x H1 H2) as (j0 & t0 & G3 & G4 & G5 & G6 & G7 & G8).
  assert (j = j0) by (apply (born_unique (y_born s)); try assumption; congruence). subst j0. split.
  - apply in_map_iff in G7. destruct G7 as (c & E & Hc). exists t0, c. split; [exact G6|]. split; [exact Hc | unfold ck in E; congruence].
  - exact G8.
Qed.

(** Finished jobs have all their commands acknowledged. *)
Lemma finished_acked limit s j j0 :
  reach limit (fun s e => fits s e /\ no_clean e) s ->
  In (j, true) (co_arch (y_co s)) -> In j0 (y_born s) -> j_id j0 = j_id j ->
  forall c, In c (job_cmds j0) -> acked s (j_id j0) (c_id c).
Proof.
  intros R Ha Hj Ej c Hc.
  pose proof (yinv_reach true limit _ s (fun s e H => conj (proj1 H) (fun _ => proj2 H)) R) as I.
  destruct I as [I1 I2 I3 I4 I5]. destruct (proj2 I2 _ _ Ha) as [_ G]. destruct (G eq_refl eq_refl) as (j1 & G1 & G2 & G3).
  assert (j0 = j1) by (apply (born_unique (y_born s)); try assumption; congruence). subst j1.
  unfold job_cmds in Hc. apply in_flat_map in Hc. destruct Hc as (t & Ht & Hc).
  destruct (In_nth_error _ _ Ht) as (n & En). unfold acked. rewrite Ej. apply (G3 n). exists t, c. split; [exact En | split; [exact Hc | reflexivity]].
Qed.
