(** * Lemmas about jobs: what every version of a job satisfies *)

From Coq Require Import ZArith List Bool Arith Lia Permutation.
From Verif Require Import JbModel JbSpec.
Import ListNotations.
Local Open Scope Z_scope.

(** ** Lists *)

Lemma index_spec {A} (f : A -> bool) l n d : index f l = Some n -> f (nth n l d) = true /\ (n < length l)%nat.
Proof.
  revert n. induction l as [|x l IH]; intros n H; [discriminate|]. cbn [index] in H.
  destruct (f x) eqn:E.
  - assert (n = 0%nat) by congruence. subst n. cbn. split; [exact E | lia].
  - destruct (index f l) as [m|]; [|discriminate]. cbn in H. assert (n = S m) by congruence. subst n.
    destruct (IH m eq_refl) as [H1 H2]. cbn. split; [exact H1 | lia].
Qed.

Lemma index_nth {A} (f : A -> bool) l n : index f l = Some n -> exists x, nth_error l n = Some x /\ f x = true.
Proof.
  revert n. induction l as [|x l IH]; intros n H; [discriminate|]. cbn [index] in H.
  destruct (f x) eqn:E.
  - assert (n = 0%nat) by congruence. subst n. exists x. split; [reflexivity | exact E].
  - destruct (index f l) as [m|]; [|discriminate]. cbn in H. assert (n = S m) by congruence. subst n.
    exact (IH m eq_refl).
Qed.

Lemma upd_length {A} n (f : A -> A) l : length (upd n f l) = length l.
Proof. revert n. induction l as [|x l IH]; intros [|n]; cbn; try reflexivity. rewrite IH. reflexivity. Qed.

Lemma upd_nth_same {A} n (f : A -> A) l x : nth_error l n = Some x -> nth_error (upd n f l) n = Some (f x).
Proof.
  revert n. induction l as [|y l IH]; intros [|n] H; cbn in *; try discriminate.
  - congruence.
  - exact (IH n H).
Qed.

Lemma upd_nth_other {A} n m (f : A -> A) l : n <> m -> nth_error (upd n f l) m = nth_error l m.
Proof.
  revert n m. induction l as [|y l IH]; intros [|n] [|m] H; cbn; try reflexivity; try congruence.
  apply IH. congruence.
Qed.

Lemma upd_In {A} n (f : A -> A) l y : In y (upd n f l) -> In y l \/ exists x, nth_error l n = Some x /\ y = f x.
Proof.
  revert n. induction l as [|x l IH]; intros [|n] H; cbn in *; try contradiction.
  - destruct H as [H | H]; [right; exists x; split; [reflexivity | congruence] | left; right; exact H].
  - destruct H as [H | H]; [left; left; exact H|]. destruct (IH n H) as [H1 | H1]; [left; right; exact H1 | right; exact H1].
Qed.

Lemma Forall2_upd {A B} (R : A -> B -> Prop) n f l l0 :
  Forall2 R l l0 -> (forall x x0, nth_error l n = Some x -> R x x0 -> R (f x) x0) -> Forall2 R (upd n f l) l0.
Proof.
  intros H. revert n. induction H as [|x x0 l l0 H1 H2 IH]; intros [|n] Hf; cbn; constructor; try assumption.
  - exact (Hf x x0 eq_refl H1).
  - apply IH. intros y y0 Hy Hr. exact (Hf y y0 Hy Hr).
Qed.

Lemma Forall2_nth {A B} (R : A -> B -> Prop) l l0 n x :
  Forall2 R l l0 -> nth_error l n = Some x -> exists y, nth_error l0 n = Some y /\ R x y.
Proof.
  intros H. revert n. induction H as [|a b l l0 H1 H2 IH]; intros [|n] E; cbn in *; try discriminate.
  - exists b. split; [reflexivity | congruence].
  - exact (IH n E).
Qed.

Lemma Forall2_nth_r {A B} (R : A -> B -> Prop) l l0 n y :
  Forall2 R l l0 -> nth_error l0 n = Some y -> exists x, nth_error l n = Some x /\ R x y.
Proof.
  intros H. revert n. induction H as [|a b l l0 H1 H2 IH]; intros [|n] E; cbn in *; try discriminate.
  - exists a. split; [reflexivity | congruence].
  - exact (IH n E).
Qed.

Lemma Forall2_len {A B} (R : A -> B -> Prop) l l0 : Forall2 R l l0 -> length l = length l0.
Proof. induction 1; cbn; congruence. Qed.

(** ** Commands of steps *)

Definition ck (c : cmd) : Z * kind := (c_id c, c_kind c).

Lemma has_In cid o : has cid o = true <-> exists c, In c (o_cmds o) /\ c_id c = cid.
Proof.
  unfold has. rewrite existsb_exists. split; intros (c & H1 & H2); exists c; split; try assumption.
  - apply Z.eqb_eq. exact H2.
  - apply Z.eqb_eq in H2. exact H2.
Qed.

Lemma task_cmds_In t c : In c (task_cmds t) <-> exists o, In o (t_ops t) /\ In c (o_cmds o).
Proof. unfold task_cmds. rewrite in_flat_map. reflexivity. Qed.

Lemma mark_ok_cmds cid ops : flat_map o_cmds (mark_ok cid ops) = flat_map o_cmds ops.
Proof.
  induction ops as [|o ops IH]; [reflexivity|]. cbn [mark_ok map flat_map].
  fold (mark_ok cid ops). rewrite IH. destruct (has cid o); reflexivity.
Qed.

Lemma retry_ck cid l : map ck (map (retry_cmd cid) l) = map ck l.
Proof.
  rewrite map_map. apply map_ext. intros c. unfold retry_cmd, ck. destruct (c_id c =? cid); reflexivity.
Qed.

Lemma upd_ck (f : op -> op) i ops :
  (forall o, map ck (o_cmds (f o)) = map ck (o_cmds o)) ->
  map ck (flat_map o_cmds (upd i f ops)) = map ck (flat_map o_cmds ops).
Proof.
  intros Hf. revert i. induction ops as [|o ops IH]; intros [|i]; try reflexivity; cbn [upd flat_map]; rewrite !map_app.
  - rewrite Hf. reflexivity.
  - rewrite IH. reflexivity.
Qed.

Lemma fail_ops_ck cid ops : map ck (flat_map o_cmds (fail_ops cid ops)) = map ck (flat_map o_cmds ops).
Proof.
  unfold fail_ops. destruct (index (has cid) ops) as [i|]; [|reflexivity].
  apply upd_ck. intros o. cbn. apply retry_ck.
Qed.

Lemma add_to_perm s c ops : Permutation (flat_map o_cmds (add_to s c ops)) (c :: flat_map o_cmds ops).
Proof.
  induction ops as [|o ops IH]; [reflexivity|]. cbn [add_to]. destruct (o_store o =? s).
  - cbn [flat_map o_cmds]. rewrite <- app_assoc. cbn [app]. symmetry. apply Permutation_middle.
  - cbn [flat_map]. rewrite IH. symmetry. apply Permutation_middle.
Qed.

Lemma drop_cmd_perm cid l c :
  find (fun c => c_id c =? cid) l = Some c -> Permutation (c :: drop_cmd cid l) l.
Proof.
  induction l as [|x l IH]; [discriminate|]. cbn [find drop_cmd]. destruct (c_id x =? cid) eqn:E; intros H.
  - assert (x = c) by congruence. subst x. reflexivity.
  - rewrite perm_swap, (IH H). reflexivity.
Qed.

Lemma find_app_some {A} (f : A -> bool) l l' c : find f l = Some c -> find f (l ++ l') = Some c.
Proof. induction l as [|x l IH]; [discriminate|]. cbn. destruct (f x); [intros H; exact H | exact IH]. Qed.

Lemma add_to_nth s c ops i o :
  nth_error ops i = Some o ->
  exists o', nth_error (add_to s c ops) i = Some o' /\ o_ok o' = o_ok o /\ exists l, o_cmds o' = o_cmds o ++ l.
Proof.
  revert i. induction ops as [|x ops IH]; intros [|i] H; cbn in H; try discriminate.
  - assert (x = o) by congruence. subst x. cbn [add_to]. destruct (o_store o =? s); cbn [nth_error].
    + exists (mkOp s (o_check o) (o_cmds o ++ [c]) (o_ok o) (o_tries o)). split; [reflexivity|]. split; [reflexivity|].
      exists [c]. reflexivity.
    + exists o. split; [reflexivity|]. split; [reflexivity|]. exists []. rewrite app_nil_r. reflexivity.
  - cbn [add_to]. destruct (o_store x =? s); cbn [nth_error].
    + exists o. split; [exact H|]. split; [reflexivity|]. exists []. rewrite app_nil_r. reflexivity.
    + exact (IH i H).
Qed.

Lemma upd_drop_perm cid i ops o c :
  nth_error ops i = Some o -> find (fun c => c_id c =? cid) (o_cmds o) = Some c ->
  Permutation (c :: flat_map o_cmds (upd i (fun o => mkOp (o_store o) (o_check o) (drop_cmd cid (o_cmds o)) (o_ok o) (o_tries o)) ops))
              (flat_map o_cmds ops).
Proof.
  revert i. induction ops as [|x ops IH]; intros [|i] H Hf; cbn in H; try discriminate.
  - assert (x = o) by congruence. subst x. cbn [upd flat_map o_cmds].
    change (Permutation ((c :: drop_cmd cid (o_cmds o)) ++ flat_map o_cmds ops) (o_cmds o ++ flat_map o_cmds ops)).
    apply Permutation_app_tail. exact (drop_cmd_perm _ _ _ Hf).
  - cbn [upd flat_map]. rewrite Permutation_middle. apply Permutation_app_head. exact (IH i H Hf).
Qed.

Lemma move_ops_perm cid s ops : Permutation (flat_map o_cmds (move_ops cid s ops)) (flat_map o_cmds ops).
Proof.
  unfold move_ops. destruct (index (has cid) ops) as [i|] eqn:Ei; [|reflexivity].
  destruct (index_nth _ _ _ Ei) as (o & Ho & _).
  rewrite (nth_error_nth ops i (mkOp 0 0 [] false 0) Ho).
  destruct (find (fun c => c_id c =? cid) (o_cmds o)) as [c|] eqn:Ef; [|reflexivity].
  destruct (add_to_nth s c ops i o Ho) as (o' & Ho' & _ & l & El).
  apply (Permutation_cons_inv (a := c)).
  rewrite (upd_drop_perm cid i (add_to s c ops) o' c Ho'); [apply add_to_perm|].
  rewrite El. exact (find_app_some _ _ _ _ Ef).
Qed.

Lemma add_to_ok s c ops o : In o (add_to s c ops) -> o_ok o = true -> exists o', In o' ops /\ o_ok o' = true.
Proof.
  induction ops as [|x ops IH]; cbn [add_to].
  - intros [<- | []] H. discriminate.
  - destruct (o_store x =? s); intros [<- | H] Hok.
    + exists x. split; [left; reflexivity | exact Hok].
    + exists o. split; [right; exact H | exact Hok].
    + exists x. split; [left; reflexivity | exact Hok].
    + destruct (IH H Hok) as (o' & H1 & H2). exists o'. split; [right; exact H1 | exact H2].
Qed.

Lemma move_ops_ok cid s ops o : In o (move_ops cid s ops) -> o_ok o = true -> exists o', In o' ops /\ o_ok o' = true.
Proof.
  unfold move_ops. intros H Hok. destruct (index (has cid) ops) as [i|]; [|exists o; split; assumption].
  destruct (find _ _) as [c|]; [|exists o; split; assumption].
  apply upd_In in H. destruct H as [H | (x & Hx & E)].
  - exact (add_to_ok _ _ _ _ H Hok).
  - apply (add_to_ok s c ops x); [exact (nth_error_In _ _ Hx)|]. rewrite E in Hok. exact Hok.
Qed.

(** ** Versions of jobs *)

Definition same_cmds (t t0 : task) : Prop := Permutation (map ck (task_cmds t)) (map ck (task_cmds t0)).

(** What the success marks of a step mean. *)
Definition tgood (A : list (Z * Z)) (id : Z) (t : task) : Prop :=
  ((length (task_cmds t) <= 1)%nat \/ forall o, In o (t_ops t) -> (length (o_cmds o) <= 1)%nat)
  /\ forall o, In o (t_ops t) -> o_ok o = true ->
       forall c, In c (task_cmds t) -> ((length (task_cmds t) <= 1)%nat \/ In c (o_cmds o)) -> In (id, c_id c) A.

Definition vgood (A : list (Z * Z)) (B : list job) (j : job) : Prop :=
  0 < j_id j
  /\ (exists j0, In j0 B /\ fresh_job j0 /\ j_id j0 = j_id j /\ Forall2 same_cmds (j_tasks j) (j_tasks j0))
  /\ (forall t, In t (j_tasks j) -> tgood A (j_id j) t)
  /\ (j_next j <= length (j_tasks j))%nat
  /\ (forall n cid, (n < j_next j)%nat -> cmd_at j n cid -> In (j_id j, cid) A).

Lemma same_cmds_In t t0 : same_cmds t t0 -> forall cid,
  (exists c, In c (task_cmds t) /\ c_id c = cid) <-> (exists c, In c (task_cmds t0) /\ c_id c = cid).
Proof.
  intros H cid.
  assert (G : forall t, (exists c, In c (task_cmds t) /\ c_id c = cid) <-> exists k, In (cid, k) (map ck (task_cmds t))).
  { intros t'. split.
    - intros (c & Hc & E). exists (c_kind c). apply in_map_iff. exists c. split; [unfold ck; congruence | exact Hc].
    - intros (k & Hk). apply in_map_iff in Hk. destruct Hk as (c & E & Hc). exists c. split; [exact Hc | unfold ck in E; congruence]. }
  rewrite !G. split; intros (k & Hk); exists k.
  - exact (Permutation_in _ H Hk).
  - exact (Permutation_in _ (Permutation_sym H) Hk).
Qed.

Lemma cmd_at_same j j0 n cid :
  Forall2 same_cmds (j_tasks j) (j_tasks j0) -> cmd_at j n cid <-> cmd_at j0 n cid.
Proof.
  intros H. split; intros (t & c & H1 & H2 & H3).
  - destruct (Forall2_nth _ _ _ _ _ H H1) as (t0 & E0 & Hs).
    destruct (proj1 (same_cmds_In _ _ Hs cid)) as (c0 & Hc0 & Ec0); [exists c; split; assumption|].
    exists t0, c0. split; [exact E0 | split; assumption].
  - destruct (Forall2_nth_r _ _ _ _ _ H H1) as (t0 & E0 & Hs).
    destruct (proj2 (same_cmds_In _ _ Hs cid)) as (c0 & Hc0 & Ec0); [exists c; split; assumption|].
    exists t0, c0. split; [exact E0 | split; assumption].
Qed.

Lemma flat_map_split {A B} (f : A -> list B) l n x :
  nth_error l n = Some x -> flat_map f l = flat_map f (firstn n l) ++ f x ++ flat_map f (skipn (S n) l).
Proof.
  revert n. induction l as [|y l IH]; intros [|n] H; cbn in H; try discriminate.
  - assert (y = x) by congruence. subst y. reflexivity.
  - cbn [firstn skipn flat_map]. rewrite <- app_assoc. f_equal. exact (IH n H).
Qed.

Lemma cmd_at_unique j n m cid :
  NoDup (map c_id (job_cmds j)) -> cmd_at j n cid -> cmd_at j m cid -> n = m.
Proof.
  unfold job_cmds.
  assert (G : forall n m, (n < m)%nat -> NoDup (map c_id (flat_map task_cmds (j_tasks j))) -> cmd_at j n cid -> cmd_at j m cid -> False).
  { clear n m. intros n m Hlt Hn (t & c & H1 & H2 & H3) (t' & c' & H1' & H2' & H3').
    rewrite (flat_map_split _ _ _ _ H1') in Hn. rewrite map_app in Hn.
    assert (Ht : In t (firstn m (j_tasks j))).
    { apply (nth_error_In _ n). rewrite <- H1. clear - Hlt. revert n m Hlt. generalize (j_tasks j) as l.
      induction l as [|y l IH]; intros [|n] [|m] Hlt; try lia; try reflexivity. cbn. apply IH. lia. }
    assert (Ha : In cid (map c_id (flat_map task_cmds (firstn m (j_tasks j))))).
    { apply in_map_iff. exists c. split; [exact H3|]. apply in_flat_map. exists t. split; assumption. }
    assert (Hb : In cid (map c_id (task_cmds t' ++ flat_map task_cmds (skipn (S m) (j_tasks j))))).
    { apply in_map_iff. exists c'. split; [exact H3'|]. apply in_or_app. left. exact H2'. }
    clear - Hn Ha Hb. revert Hn Ha. generalize (map c_id (flat_map task_cmds (firstn m (j_tasks j)))) as l1.
    intros l1. induction l1 as [|y l1 IH]; cbn; [intros _ []|]. intros Hn [E | Ha].
    - subst y. inversion Hn as [|? ? H1 H2]; subst. apply H1. apply in_or_app. right. exact Hb.
    - inversion Hn as [|? ? H1 H2]; subst. exact (IH H2 Ha). }
  intros Hn H1 H2. destruct (lt_eq_lt_dec n m) as [[Hlt | E] | Hlt]; [exfalso | exact E | exfalso].
  - exact (G n m Hlt Hn H1 H2).
  - exact (G m n Hlt Hn H2 H1).
Qed.

Lemma vgood_mono A A' B B' j : incl A A' -> incl B B' -> vgood A B j -> vgood A' B' j.
Proof.
  intros HA HB (H1 & (j0 & H2 & H3) & H4 & H5 & H6). split; [exact H1|]. split.
  - exists j0. split; [apply HB; exact H2 | exact H3].
  - split; [|split; [exact H5 | intros n cid Hn Hc; apply HA; exact (H6 n cid Hn Hc)]].
    intros t Ht. destruct (H4 t Ht) as [G1 G2]. split; [exact G1|]. intros o Ho Hk c Hc Hd. apply HA. exact (G2 o Ho Hk c Hc Hd).
Qed.

Lemma vgood_fresh A B j : fresh_job j -> In j B -> vgood A B j.
Proof.
  intros F HB. pose proof F as (F1 & F2 & F3 & F4). split; [exact F1|]. split.
  - exists j. split; [exact HB|]. split; [exact F|]. split; [reflexivity|].
    generalize (j_tasks j) as l. induction l as [|x l IH]; constructor; [apply Permutation_refl | exact IH].
  - split; [|split; [rewrite F2; lia | rewrite F2; intros n cid Hn; lia]].
    intros t Ht. destruct (F4 t Ht) as [G1 G2]. split.
    + right. intros o Ho. apply (G1 o Ho).
    + intros o Ho Hk. destruct (G1 o Ho) as [E _]. congruence.
Qed.

(** Changing the operations of one step. *)
Lemma vgood_on_task A B j step f :
  vgood A B j ->
  (forall t, nth_error (j_tasks j) step = Some t -> same_cmds (on_ops f t) t /\ tgood A (j_id j) (on_ops f t)) ->
  vgood A B (on_task step (on_ops f) j).
Proof.
  intros (H1 & (j0 & Hb & Hf & Hi & H2) & H4 & H5 & H6) Hstep.
  assert (H2' : Forall2 same_cmds (upd step (on_ops f) (j_tasks j)) (j_tasks j0)).
  { apply Forall2_upd; [exact H2|]. intros t t0 Ht Hs. destruct (Hstep t Ht) as [G _].
    unfold same_cmds in *. rewrite G. exact Hs. }
  split; [exact H1|]. split; [exists j0; split; [exact Hb | split; [exact Hf | split; [exact Hi | exact H2']]]|].
  split; [|split].
  - cbn. intros t Ht. apply upd_In in Ht. destruct Ht as [Ht | (x & Hx & ->)]; [exact (H4 t Ht) | exact (proj2 (Hstep x Hx))].
  - cbn. rewrite upd_length. exact H5.
  - intros n cid Hn Hc. cbn in Hn. apply (H6 n cid Hn).
    apply (cmd_at_same j j0 n cid H2). apply (cmd_at_same (on_task step (on_ops f) j) j0 n cid H2'). exact Hc.
Qed.

Lemma vgood_with_next A B j n :
  vgood A B j -> (n <= length (j_tasks j))%nat ->
  (forall m cid, (m < n)%nat -> cmd_at j m cid -> In (j_id j, cid) A) -> vgood A B (with_next n j).
Proof.
  intros (H1 & H2 & H4 & H5 & H6) Hn Ha. split; [exact H1|]. split; [exact H2|]. split; [exact H4|]. split; [exact Hn|].
  exact Ha.
Qed.

Lemma tgood_perm A id t t' :
  same_cmds t' t ->
  ((length (task_cmds t) <= 1)%nat \/ forall o, In o (t_ops t') -> (length (o_cmds o) <= 1)%nat) ->
  (forall o, In o (t_ops t') -> o_ok o = true ->
     forall c, In c (task_cmds t') -> ((length (task_cmds t') <= 1)%nat \/ In c (o_cmds o)) -> In (id, c_id c) A) ->
  tgood A id t'.
Proof.
  intros Hs H1 H2. split; [|exact H2]. destruct H1 as [H1 | H1]; [left | right; exact H1].
  apply Permutation_length in Hs. rewrite !map_length in Hs. lia.
Qed.

Lemma find_task_at j cid n : find_task j cid = Some n -> cmd_at j n cid /\ (n < length (j_tasks j))%nat.
Proof.
  intros H. unfold find_task in H. destruct (index_nth _ _ _ H) as (t & Ht & Hx).
  split.
  - apply existsb_exists in Hx. destruct Hx as (o & Ho & Hh). apply has_In in Hh. destruct Hh as (c & Hc & E).
    exists t, c. split; [exact Ht|]. split; [|exact E]. apply task_cmds_In. exists o. split; assumption.
  - apply nth_error_Some. congruence.
Qed.

Lemma solo_In (l : list cmd) c c' : (length l <= 1)%nat -> In c l -> In c' l -> c = c'.
Proof.
  destruct l as [|x [|y l]]; cbn; intros H H1 H2; [contradiction | | lia].
  destruct H1 as [H1 | []]. destruct H2 as [H2 | []]. congruence.
Qed.

Lemma vgood_done A B j step cid :
  vgood A B j -> find_task j cid = Some step -> step = j_next j -> In (j_id j, cid) A ->
  vgood A B (job_done cid step j).
Proof.
  intros V Hf Es Ha.
  assert (V' : vgood A B (on_task step (on_ops (mark_ok cid)) j)).
  { apply vgood_on_task; [exact V|]. intros t Ht.
    assert (Et : task_cmds (on_ops (mark_ok cid) t) = task_cmds t) by (unfold task_cmds; apply mark_ok_cmds).
    assert (Hs : same_cmds (on_ops (mark_ok cid) t) t) by (unfold same_cmds; rewrite Et; apply Permutation_refl).
    split; [exact Hs|]. destruct V as (_ & _ & V & _). destruct (V t (nth_error_In _ _ Ht)) as [G1 G2].
    apply (tgood_perm _ _ t _ Hs).
    - destruct G1 as [G1 | G1]; [left; exact G1 | right]. intros o Ho. cbn in Ho. unfold mark_ok in Ho.
      apply in_map_iff in Ho. destruct Ho as (o' & Eo & Ho). pose proof (G1 o' Ho). destruct (has cid o'); subst o; assumption.
    - intros o Ho Hk c Hc Hd. rewrite Et in Hc, Hd. cbn in Ho. unfold mark_ok in Ho. apply in_map_iff in Ho.
      destruct Ho as (o' & Eo & Ho). destruct (has cid o') eqn:Eh.
      + apply has_In in Eh. destruct Eh as (c' & Hc' & Ec').
        assert (Hct : In c' (task_cmds t)) by (apply task_cmds_In; exists o'; split; assumption).
        assert (c = c').
        { destruct Hd as [Hd | Hd]; [exact (solo_In _ _ _ Hd Hc Hct)|]. subst o. cbn in Hd.
          destruct G1 as [G1 | G1]; [exact (solo_In _ _ _ G1 Hc Hct)|]. exact (solo_In _ _ _ (G1 o' Ho) Hd Hc'). }
        subst c'. rewrite Ec'. exact Ha.
      + subst o. exact (G2 o' Ho Hk c Hc Hd). }
  unfold job_done. destruct (all_ok _) eqn:Eo; [|exact V'].
  apply vgood_with_next; [exact V'| |].
  - cbn. rewrite upd_length. destruct (find_task_at _ _ _ Hf) as [_ Hl]. lia.
  - intros m cid' Hm Hc. cbn in Hm. destruct (Nat.eq_dec m (j_next j)) as [E|E].
    + destruct Hc as (t & c & Ht & Hc & Ec).
      unfold all_ok in Eo. rewrite forallb_forall in Eo.
      assert (En : nth_task (on_task step (on_ops (mark_ok cid)) j) step = t).
      { unfold nth_task. rewrite Es. rewrite E in Ht. rewrite Es in Ht. exact (nth_error_nth _ _ _ Ht). }
      rewrite En in Eo. pose proof Hc as Hc0. apply task_cmds_In in Hc. destruct Hc as (o & Ho & Hco).
      specialize (Eo o Ho). destruct V' as (_ & _ & V' & _).
      destruct (V' t (nth_error_In _ _ Ht)) as [_ G2]. rewrite <- Ec.
      destruct (o_cmds o) as [|c0 l0] eqn:El; [destruct Hco|]. rewrite orb_false_r in Eo.
      exact (G2 o Ho Eo c Hc0 (or_intror (eq_ind_r (fun l => In c l) Hco El))).
    + destruct V' as (_ & _ & _ & _ & V'). apply (V' m cid'); [cbn; lia | exact Hc].
Qed.

Lemma vgood_fail A B j step cid :
  vgood A B j -> find_task j cid = Some step ->
  (forall n cid', (n < step)%nat -> cmd_at j n cid' -> In (j_id j, cid') A) ->
  vgood A B (job_fail cid step j).
Proof.
  intros V Hf Ha.
  assert (V' : vgood A B (on_task step (on_ops (fail_ops cid)) j)).
  { apply vgood_on_task; [exact V|]. intros t Ht.
    assert (Et : map ck (task_cmds (on_ops (fail_ops cid) t)) = map ck (task_cmds t)) by (unfold task_cmds; apply fail_ops_ck).
    assert (Hs : same_cmds (on_ops (fail_ops cid) t) t) by (unfold same_cmds; rewrite Et; apply Permutation_refl).
    split; [exact Hs|]. destruct V as (_ & _ & V & _). destruct (V t (nth_error_In _ _ Ht)) as [G1 G2].
    assert (El : length (task_cmds (on_ops (fail_ops cid) t)) = length (task_cmds t)).
    { rewrite <- (map_length ck), Et, map_length. reflexivity. }
    assert (Hops : forall o, In o (fail_ops cid (t_ops t)) ->
              exists o', In o' (t_ops t) /\ o_ok o = o_ok o' /\ map ck (o_cmds o) = map ck (o_cmds o')).
    { intros o Ho. unfold fail_ops in Ho. destruct (index (has cid) (t_ops t)) as [i|].
      - apply upd_In in Ho. destruct Ho as [Ho | (x & Hx & E)].
        + exists o. split; [exact Ho | split; reflexivity].
        + exists x. split; [exact (nth_error_In _ _ Hx)|]. subst o. cbn. split; [reflexivity | apply retry_ck].
      - exists o. split; [exact Ho | split; reflexivity]. }
    assert (Hck : forall c l l', map ck l = map ck l' -> In c l -> exists c', In c' l' /\ c_id c' = c_id c).
    { intros c l l' E Hin. assert (Hx : In (ck c) (map ck l')) by (rewrite <- E; apply in_map; exact Hin).
      apply in_map_iff in Hx. destruct Hx as (c' & E' & H'). exists c'. split; [exact H' | unfold ck in E'; congruence]. }
    apply (tgood_perm _ _ t _ Hs).
    - destruct G1 as [G1 | G1]; [left; exact G1 | right]. intros o Ho. cbn in Ho.
      destruct (Hops o Ho) as (o' & Ho' & _ & E). rewrite <- (map_length ck), E, map_length. exact (G1 o' Ho').
    - intros o Ho Hk c Hc Hd. rewrite El in Hd. destruct (Hops o Ho) as (o' & Ho' & Eok & E). rewrite Eok in Hk.
      destruct Hd as [Hd | Hd].
      + destruct (Hck c _ _ Et Hc) as (c' & Hc' & Ec'). rewrite <- Ec'. exact (G2 o' Ho' Hk c' Hc' (or_introl Hd)).
      + destruct (Hck c _ _ E Hd) as (c' & Hc' & Ec'). rewrite <- Ec'.
        apply (G2 o' Ho' Hk c'); [apply task_cmds_In; exists o'; split; assumption | right; exact Hc']. }
  unfold job_fail. apply vgood_with_next; [exact V' | |].
  - cbn. rewrite upd_length. destruct (find_task_at _ _ _ Hf). lia.
  - intros n cid' Hn Hc. apply (Ha n cid' Hn).
    destruct V as (_ & (j0 & _ & _ & _ & V2) & _). destruct V' as (_ & (j1 & _ & _ & _ & _) & _).
    destruct Hc as (t & c & Ht & Hc & Ec). cbn in Ht. rewrite upd_nth_other in Ht by lia.
    exists t, c. split; [exact Ht | split; assumption].
Qed.

Lemma vgood_move A B j step cid s :
  vgood A B j -> find_task j cid = Some step ->
  (forall t, nth_error (j_tasks j) step = Some t -> length (task_cmds t) = 1%nat) ->
  vgood A B (on_task step (on_ops (move_ops cid s)) j).
Proof.
  intros V Hf Hl. apply vgood_on_task; [exact V|]. intros t Ht.
  assert (Hp : Permutation (task_cmds (on_ops (move_ops cid s) t)) (task_cmds t)) by (unfold task_cmds; apply move_ops_perm).
  assert (Hs : same_cmds (on_ops (move_ops cid s) t) t) by (unfold same_cmds; apply Permutation_map; exact Hp).
  split; [exact Hs|]. specialize (Hl t Ht).
  destruct V as (_ & _ & V & _). destruct (V t (nth_error_In _ _ Ht)) as [G1 G2].
  apply (tgood_perm _ _ t _ Hs); [left; lia|].
  intros o Ho Hk c Hc _. destruct (move_ops_ok _ _ _ _ Ho Hk) as (o' & Ho' & Hk').
  apply (G2 o' Ho' Hk' c); [exact (Permutation_in _ Hp Hc) | left; lia].
Qed.
