(** The property theorems of the balance schedulers, assembled. *)
From Coq Require Import ZArith QArith List Bool Lia.
From Verif Require Import BalModel BalSpec BalProofs1 BalProofs2 BalProofs3 BalDemo.
Import ListNotations.
Local Open Scope Z_scope.

Lemma filter_nodup_map (f : task -> bool) ts : NoDup (map t_region ts) -> NoDup (map t_region (filter f ts)).
Proof.
  induction ts as [|t ts IH]; intros N; [constructor|]. inversion N as [|? ? Hx Hn]. subst. cbn.
  destruct (f t); [|auto]. cbn. constructor; [|auto]. intros Hi. apply Hx.
  apply in_map_iff in Hi. destruct Hi as (u & E & Hu). apply filter_In in Hu. rewrite <- E. apply in_map. apply Hu.
Qed.

Lemma filter_le {A} (f : A -> bool) l : (length (filter f l) <= length l)%nat.
Proof. induction l as [|x l IH]; cbn; [lia|]. destruct (f x); cbn; lia. Qed.

Lemma plan_sound batch views fuel rs ss ts : map_ok rs -> schedule batch views fuel rs ss = Some ts ->
  (length ts <= Nat.max 1 batch)%nat /\ NoDup (map t_region ts) /\
  (exists n, forall t, In t ts -> healthy_in (views n) (t_region t)) /\
  forall t, In t ts ->
    leads rs (t_src t) (t_region t) /\ t_src t <> t_dst t /\
    store_up ss (t_src t) /\ store_up ss (t_dst t) /\
    (follows rs (t_dst t) (t_region t) \/ exists n, votes_in (views n) (t_dst t) (t_region t)).
Proof.
  intros Ok H. apply schedule_inv in H. destruct H as (p & Iv & L & ->).
  assert (T := i_tasks _ _ _ Iv). split.
  { eapply Nat.le_trans; [apply filter_le | exact L]. }
  split; [apply filter_nodup_map; exact (tasks_nodup _ _ _ _ T)|]. split.
  { exists (pl_round p). intros t Ht. apply filter_In in Ht. apply health_check_ok. apply Ht. }
  intros t Ht. apply filter_In in Ht. destruct Ht as [Ht _].
  destruct (tasks_in _ _ _ _ _ T Ht) as (pre & S).
  destruct (step_sound _ _ _ _ _ Ok S) as (A & B & C & D & (n & _ & W)).
  repeat (split; [assumption|]). destruct W as [[_ W] | [_ W]]; [right; exists n; exact W | left; exact W].
Qed.

Lemma targets_vote batch views fuel rs ss ts : map_ok rs -> schedule batch views fuel rs ss = Some ts ->
  (forall n s r, store_up ss s -> follows rs s r -> fits_in (views n) s r) ->
  forall t, In t ts -> exists n, votes_in (views n) (t_dst t) (t_region t) /\ fits_in (views n) (t_dst t) (t_region t).
Proof.
  intros Ok H Hf t Ht. apply schedule_inv in H. destruct H as (p & Iv & L & ->).
  assert (T := i_tasks _ _ _ Iv). apply filter_In in Ht. destruct Ht as [Ht _].
  destruct (tasks_in _ _ _ _ _ T Ht) as (pre & S).
  destruct (step_sound _ _ _ _ _ Ok S) as (A & B & C & D & (n & _ & W)).
  destruct W as [[W1 W2] | [W1 W2]]; [exists n; auto|]. exfalso. apply W1. apply Hf; assumption.
Qed.

Lemma transfer_helps batch views fuel rs ss ts : map_ok rs -> steady views ->
  schedule batch views fuel rs ss = Some ts ->
  forall pre t post, ts = pre ++ t :: post ->
    no_more (load rs (pre ++ [t]) (t_dst t)) (weight_of ss (t_dst t))
            (load rs (pre ++ [t]) (t_src t)) (weight_of ss (t_src t)).
Proof.
  intros Ok St H pre t post E. apply schedule_inv in H. destruct H as (p & Iv & L & Ets).
  assert (T := i_tasks _ _ _ Iv). rewrite (steady_keeps _ _ _ _ _ St T) in Ets. rewrite Ets in E.
  apply (step_load views). exact Ok. exact (T pre t post E).
Qed.

Lemma plan_bounds batch views fuel rs ss ts : map_ok rs -> stores_ok ss -> steady views ->
  schedule batch views fuel rs ss = Some ts ->
  forall s, candidate rs ss s ->
    (exists a, candidate rs ss a /\ no_more (load rs ts s) (weight_of ss s) (load rs [] a) (weight_of ss a)) /\
    (exists b, candidate rs ss b /\ no_more (load rs [] b) (weight_of ss b) (load rs ts s) (weight_of ss s)).
Proof.
  intros Ok Sok St H s Cs. apply schedule_inv in H. destruct H as (p & Iv & L & Ets).
  assert (T := i_tasks _ _ _ Iv). rewrite (steady_keeps _ _ _ _ _ St T) in Ets. subst ts.
  apply (candidate_entry _ _ _ Sok) in Cs.
  destruct (bounds views rs ss (pl_tasks p) s Ok T Cs) as [(a & Ca & Ha) (b & Cb & Hb)]. split.
  - exists a. split; [apply (candidate_entry _ _ _ Sok); exact Ca | exact Ha].
  - exists b. split; [apply (candidate_entry _ _ _ Sok); exact Cb | exact Hb].
Qed.

Lemma move_sound c views rs ss k : rschedule c views rs ss = Planned (Some k) ->
  finite c (views 0%nat) ss ->
  store_up ss (k_src k) /\ store_up ss (k_dst k) /\ follows rs (k_src k) (k_region k) /\
  (exists a b, v_store (views 0%nat) (k_src k) = Some a /\ v_store (views 0%nat) (k_dst k) = Some b /\
     (fullness c b < fullness c a)%Q) /\
  exists n sm m, v_store (views n) (k_dst k) = Some sm /\ v_region (views n) (k_region k) = Some m /\
    0 < rm_size m < sm_free_cap sm /\ ~ In (k_region k) (sm_regions sm) /\
    (truthful rs (views n) ->
       replaces (rm_peers m) (k_new k) (k_src k) (k_dst k) /\
       pair_accepts (rm_peers m) (k_new k) = Some (k_dst k, k_src k)).
Proof.
  intros H [Fc Ff]. apply rschedule_made in H.
  destruct H as (n & s & t & m & Hs & Ht & Es & Et & Le & Fo & Rm & Re & Pl & En).
  apply gen_rentries_ok in Hs. destruct Hs as (s0 & ms & Hs0 & Is & Ns & Us & Ms & Ss & Fs).
  apply gen_rentries_ok in Ht. destruct Ht as (t0 & mt & Ht0 & It & Nt & Ut & Mt & St & Ft).
  rewrite Es, Et, Is, It. rewrite Is, It in *.
  split; [split; [exact Ns | exists s0; auto]|].
  split; [split; [exact Nt | exists t0; auto]|].
  rewrite Fs in Fo. apply followers_of_In in Fo. split; [exact Fo|]. split.
  { exists ms, mt. split; [exact Ms|]. split; [exact Mt|].
    rewrite Ss, St, (rscore_fin _ _ Fc (Ff _ _ Hs0 Ms)), (rscore_fin _ _ Fc (Ff _ _ Ht0 Mt)) in Le.
    cbn in Le. apply Qnot_le_lt. rewrite <- Qle_bool_iff. congruence. }
  apply rresource_ok in Re. destruct Re as (sm & m' & Vs & Vr & Sz). assert (m' = m) by congruence. subst m'.
  exists n, sm, m. split; [exact Vs|]. split; [exact Vr|]. split; [exact Sz|].
  unfold placement_check in Pl. rewrite Vs in Pl. apply negb_true_iff, memZ_false in Pl. split; [exact Pl|].
  intros Tr. destruct (Tr _ _ Rm) as (N & Fol & Rep). rewrite En.
  apply new_stores_replaces; [exact N | apply Fol; exact Fo|].
  intros Hi. apply Pl. exact (Rep _ _ Hi Vs).
Qed.

Lemma windows_exact ws h : Forall hours_ok ws -> Forall (fun w => fst w <= snd w) ws ->
  (should_run (render ws) h = true <-> exists w, In w ws /\ within w h).
Proof.
  intros F O. unfold should_run. rewrite (parse_render _ F). unfold in_periods. rewrite existsb_exists. split.
  - intros (w & Hw & H). exists w. split; [exact Hw|]. unfold within.
    rewrite Forall_forall in O. specialize (O w Hw). apply Z.leb_le in O. rewrite O.
    apply andb_true_iff in H. rewrite !Z.leb_le in H. exact H.
  - intros (w & Hw & H). exists w. split; [exact Hw|]. unfold within in H.
    rewrite Forall_forall in O. specialize (O w Hw). apply Z.leb_le in O. rewrite O in H.
    apply andb_true_iff. rewrite !Z.leb_le. exact H.
Qed.

Lemma open_end_exact a h : 0 <= a < 24 -> (should_run (dec a) h = true <-> a <= h <= 23).
Proof.
  intros Ha. assert (E : parse_periods (dec a) = [(a, 23)]).
  { assert (G : forallb (fun n => match parse_periods (dec (Z.of_nat n)) with [(x, y)] => (x =? Z.of_nat n) && (y =? 23) | _ => false end) (seq 0 24) = true)
      by (vm_compute; reflexivity).
    rewrite forallb_forall in G. specialize (G (Z.to_nat a)). rewrite Z2Nat.id in G by lia.
    assert (Hin : In (Z.to_nat a) (seq 0 24)) by (apply in_seq; lia). specialize (G Hin).
    destruct (parse_periods (dec a)) as [|[x y] [|p l]]; try discriminate. apply andb_true_iff in G. destruct G as [G1 G2].
    apply Z.eqb_eq in G1, G2. congruence. }
  unfold should_run. rewrite E. cbn [in_periods existsb fst snd]. rewrite orb_false_r, andb_true_iff, !Z.leb_le. reflexivity.
Qed.

Lemma one_runs l st i j : one_at_a_time l -> launches l_init l = Some st ->
  running st i -> running st j -> i = j.
Proof.
  intros O H Hi Hj. destruct (launches_inv _ O _ H) as (I1 & _). apply I1; right; assumption.
Qed.

(** Concrete maps. *)
Ltac nodup := repeat (constructor; [cbn; intuition discriminate|]); constructor.

Lemma six_ok : map_ok six.
Proof.
  split; [cbn; nodup|]. intros g Hg. cbn in Hg.
  repeat (destruct Hg as [<- | Hg]; [cbn; nodup|]). contradiction.
Qed.

Lemma fifteen_ok : map_ok fifteen.
Proof.
  split; [cbn; nodup|]. intros g Hg. cbn in Hg.
  repeat (destruct Hg as [<- | Hg]; [cbn; nodup|]). contradiction.
Qed.

Lemma learning_ok : map_ok learning.
Proof.
  split; [cbn; nodup|]. intros g Hg. cbn in Hg.
  repeat (destruct Hg as [<- | Hg]; [cbn; nodup|]). contradiction.
Qed.

Lemma lonely_ok : map_ok lonely.
Proof.
  split; [cbn; nodup|]. intros g Hg. cbn in Hg.
  repeat (destruct Hg as [<- | Hg]; [cbn; nodup|]). contradiction.
Qed.

Lemma three_ok : stores_ok three. Proof. unfold stores_ok. cbn. nodup. Qed.
Lemma two_ok : stores_ok two. Proof. unfold stores_ok. cbn. nodup. Qed.
Lemma weighted_ok : stores_ok weighted. Proof. unfold stores_ok. cbn. nodup. Qed.

Lemma cand_by rs ss s g st : In g rs -> g_leader g <> 0 -> replica_on g s ->
  s <> 0 -> In st ss -> s_id st = s -> s_normal st = true -> candidate rs ss s.
Proof. intros. split; [split; [assumption | exists st; auto] | exists g; auto]. Qed.
