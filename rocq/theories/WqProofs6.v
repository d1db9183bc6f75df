(** The theorems of [WqProofs3]-[WqProofs5] in terms of schedules. *)
From Coq Require Import ZArith List Bool Lia.
From Verif Require Import WqModel WqSpec WqProofs1 WqProofs2 WqProofs3 WqProofs4 WqProofs5.
Import ListNotations.

Lemma once_runs : forall c ls s tr, sruns c (s_init c) ls = Some (s, tr) -> run_at_most_once tr.
Proof. intros. eapply once_core. eapply runs_reach; eauto. Qed.

Lemma served_runs : forall c ls s tr,
  sruns c (s_init c) ls = Some (s, tr) -> 0 < c_workers c -> ~ In Stopping tr -> s_quiet c s -> all_served tr.
Proof. intros. eapply all_run_core; eauto. eapply runs_reach; eauto. Qed.

Lemma bounded_runs : forall c s, exists n, forall ls s' tr,
  sruns c s ls = Some (s', tr) -> forallb own_action ls = true -> length ls <= n.
Proof. intros c s. exists (weight s). intros. pose proof (bounded_core _ _ _ _ _ H H0). lia. Qed.

Lemma shutdown_runs : forall c ls s tr k,
  sruns c (s_init c) ls = Some (s, tr) -> 0 < c_workers c -> all_left s ->
  precedes tr (Returned k true) Stopping -> In (Ended k) tr.
Proof. intros. eapply shutdown_core; eauto. eapply runs_reach; eauto. Qed.

Lemma left_runs : forall c ls s tr,
  sruns c (s_init c) ls = Some (s, tr) -> In Stopping tr -> s_quiet c s -> all_left s.
Proof.
  intros c ls s tr E ST Q p I. pose proof (runs_reach _ _ _ _ E) as R.
  assert (S : s_stop s = true).
  { destruct (s_stop s) eqn:X; auto. apply (stop_reach _ _ _ R) in ST. congruence. }
  apply In_nth_error in I. destruct I as (w & N). destruct p as [| |k|]; auto; exfalso.
  - specialize (Q (SWorker w) eq_refl). cbn in Q. rewrite N in Q. destruct (s_queue s); [rewrite S in Q|]; discriminate.
  - specialize (Q (SKick w) eq_refl). cbn in Q. rewrite S, N in Q. discriminate.
  - specialize (Q (SEnd w) eq_refl). cbn in Q. rewrite N in Q. discriminate.
Qed.

Lemma order_runs : forall c ls s tr k j,
  sruns c (s_init c) ls = Some (s, tr) -> c_inplace c = false ->
  precedes tr (Returned k true) (Called j) -> In (Started j) tr -> precedes tr (Started k) (Started j).
Proof.
  intros c ls s tr k j E P PR S. pose proof (runs_reach _ _ _ _ E) as R.
  destruct (fifo_reach _ _ _ R P k j PR) as (_ & B). auto.
Qed.

Lemma alone_runs : forall c ls s tr k j,
  sruns c (s_init c) ls = Some (s, tr) -> c_inplace c = false -> c_workers c = 1 ->
  precedes tr (Started k) (Started j) -> precedes tr (Ended k) (Started j).
Proof. intros. eapply single_reach; eauto. eapply runs_reach; eauto. Qed.

Lemma refusal_runs : forall c ls s tr l s' e k,
  sruns c (s_init c) ls = Some (s, tr) -> sstep c s l = Some (s', e) -> In (Returned k false) e ->
  (0 < c_max c < outstanding tr)%Z.
Proof. intros. eapply refusal_core; eauto. eapply runs_reach; eauto. Qed.

Lemma concurrency_runs : forall c ls s tr,
  sruns c (s_init c) ls = Some (s, tr) -> c_inplace c = false -> (running tr <= Z.of_nat (c_workers c))%Z.
Proof. intros. eapply concurrency_core; eauto. eapply runs_reach; eauto. Qed.

Lemma sruns_app : forall c ls1 ls2 s,
  sruns c s (ls1 ++ ls2) =
  match sruns c s ls1 with
  | None => None
  | Some (s1, t1) => match sruns c s1 ls2 with None => None | Some (s2, t2) => Some (s2, t1 ++ t2) end
  end.
Proof.
  induction ls1 as [|l ls1 IH]; intros ls2 s; simpl.
  - destruct (sruns c s ls2) as [(a, b)|]; reflexivity.
  - destruct (sstep c s l) as [(s1, e1)|]; auto. rewrite IH.
    destruct (sruns c s1 ls1) as [(s2, e2)|]; auto.
    destruct (sruns c s2 ls2) as [(s3, e3)|]; auto. rewrite app_assoc. reflexivity.
Qed.

Lemma outstanding_runs : forall c p ls s tr,
  sruns c (s_init c) ls = Some (s, tr) ->
  (forall ls1 ls2 s1 tr1, ls = ls1 ++ ls2 -> sruns c (s_init c) ls1 = Some (s1, tr1) -> (inside tr1 <= p)%Z) ->
  (0 < c_max c)%Z -> (c_max c + p < 2 ^ 64)%Z -> (outstanding tr <= c_max c + p)%Z.
Proof.
  intros c p ls s tr E IN M B.
  assert (PP : (0 <= p)%Z) by (specialize (IN [] ls _ _ eq_refl eq_refl); cbn in IN; exact IN).
  apply (outstanding_core c p s tr); auto. clear M B PP.
  revert s tr E IN. induction ls as [|l ls IH] using rev_ind; intros s tr E IN.
  - injection E as <- <-. constructor.
  - pose proof E as E0. rewrite sruns_app in E. destruct (sruns c (s_init c) ls) as [(s1, t1)|] eqn:E1; [|discriminate].
    simpl in E. destruct (sstep c s1 l) as [(s2, e2)|] eqn:E2; [|discriminate]. injection E as <- <-.
    rewrite app_nil_r in *. econstructor; eauto.
    + apply IH; auto. intros ls1 ls2 s3 t3 -> E3. eapply (IN ls1 (ls2 ++ [l])); eauto. rewrite app_assoc. reflexivity.
    + eapply (IN (ls ++ [l]) []); [rewrite app_nil_r; reflexivity|]. exact E0.
Qed.

Lemma e_once_runs : forall max n ls s tr, eruns max (e_init n) ls = EOk s tr -> run_at_most_once tr.
Proof. intros. eapply e_once_core. eapply eruns_reach; eauto. Qed.

Lemma e_served_runs : forall max n ls s tr, eruns max (e_init n) ls = EOk s tr -> e_quiet max s -> all_served tr.
Proof. intros. eapply e_all_run_core; eauto. eapply eruns_reach; eauto. Qed.

Lemma e_bounded_runs : forall max s, exists n, forall ls s' tr,
  eruns max s ls = EOk s' tr -> forallb e_own_action ls = true -> length ls <= n.
Proof. intros max s. exists (eweight s). intros. pose proof (e_bounded_core _ _ _ _ _ H H0). lia. Qed.

Lemma e_order_runs : forall max n ls s tr k j r,
  eruns max (e_init n) ls = EOk s tr ->
  nth_error (modes ls) k = Some (ByRegion r) -> nth_error (modes ls) j = Some (ByRegion r) ->
  precedes tr (Returned k true) (Called j) -> In (Started j) tr -> precedes tr (Ended k) (Started j).
Proof. intros. eapply e_order_core; eauto. eapply eruns_reach; eauto. Qed.

Lemma e_alone_runs : forall max n ls s tr k j r,
  eruns max (e_init n) ls = EOk s tr ->
  nth_error (modes ls) k = Some (ByRegion r) -> nth_error (modes ls) j = Some (ByRegion r) ->
  precedes tr (Started k) (Started j) -> precedes tr (Ended k) (Started j).
Proof. intros. eapply e_alone_core; eauto. eapply eruns_reach; eauto. Qed.

Lemma e_unlimited_runs : forall n ls s tr k,
  eruns 0 (e_init n) ls = EOk s tr -> ~ In (Returned k false) tr.
Proof. intros. eapply e_unlimited_core. eapply eruns_reach; eauto. Qed.

Lemma eruns_crash : forall max n ls s tr ms,
  ereach max n s tr ms -> 0 < n -> (forall r, In (XCall (ByRegion r)) ls -> (0 <= r)%Z) ->
  eruns max s ls <> ECrash.
Proof.
  induction ls as [|l ls IH]; intros s tr ms R P NN; simpl; [discriminate|].
  destruct (estep max s l) as [s1 e1| |] eqn:E1; try discriminate.
  - pose proof (IH s1 _ _ (er1 _ _ _ _ _ _ _ _ R E1) P (fun r I => NN r (or_intror I))) as H.
    destruct (eruns max s1 ls); congruence.
  - exfalso. eapply e_no_crash_core; eauto. intros r ->. apply NN. left; auto.
Qed.

Lemma e_no_crash_runs : forall max n ls,
  0 < n -> (forall r, In (XCall (ByRegion r)) ls -> (0 <= r)%Z) -> eruns max (e_init n) ls <> ECrash.
Proof. intros. eapply eruns_crash; eauto. constructor. Qed.

(** ** Refusals by the set with one queue per worker *)

Definition ended_id (e : event) : list nat := match e with Ended k => [k] | _ => [] end.
Definition accepted_id (e : event) : list nat := match e with Returned k true => [k] | _ => [] end.

Lemma ended_len : forall tr, length (flat_map ended_id tr) = number is_ended tr.
Proof.
  induction tr as [|e tr IH]; simpl; auto. unfold number in *. simpl. rewrite app_length, IH.
  destruct e as [| k [|] | | |]; reflexivity.
Qed.

Lemma ended_count : forall tr k, count_occ Nat.eq_dec (flat_map ended_id tr) k = times (Ended k) tr.
Proof.
  induction tr as [|e tr IH]; intro k; auto. cbn [flat_map]. rewrite count_occ_app, IH.
  unfold times. cbn [count_occ]. destruct (event_eq_dec e (Ended k)) as [->|N].
  - cbn. destruct (Nat.eq_dec k k); [lia|congruence].
  - destruct e as [j|j b|j|j|]; cbn; try lia. destruct (Nat.eq_dec j k); [congruence|lia].
Qed.

Definition is_accepted (e : event) : bool := match e with Returned _ true => true | _ => false end.

Lemma accepted_len : forall tr, length (flat_map accepted_id tr) = number is_accepted tr.
Proof.
  induction tr as [|e tr IH]; simpl; auto. unfold number in *. simpl. rewrite app_length, IH.
  destruct e as [| k [|] | | |]; reflexivity.
Qed.

Lemma accepted_in : forall tr k, In (Returned k true) tr -> In k (flat_map accepted_id tr).
Proof. intros tr k I. apply in_flat_map. exists (Returned k true). split; auto. left; auto. Qed.

Lemma e_counts : forall max n s tr ms, ereach max n s tr ms ->
  e_pend s = (Z.of_nat (number is_accepted tr) - Z.of_nat (number is_ended tr))%Z /\
  number is_called tr = length (e_calls s) /\
  number is_refused tr = tot (fun p => e_false (Some p)) (e_calls s) /\
  number is_accepted tr = tot (fun p => e_true (Some p)) (e_calls s).
Proof.
  intros max n s tr ms R. induction R as [|s tr ms l s' e R IH E]; [repeat split; reflexivity|].
  destruct IH as (I1 & I2 & I3 & I4). rewrite !number_app.
  destruct l as [m|j|j|j|w|w]; cbn [estep] in E.
  - destruct (over_limit _ _); [|destruct (choose m s) as [w|]; [|discriminate]]; injection E as <- <-;
      cbn [e_pend e_calls]; rewrite !tot_app, app_length; cbn in *; lia.
  - destruct (nth_error (e_calls s) j) as [q|] eqn:N; [|discriminate]. destruct q as [v|v|v|v|]; try discriminate.
    destruct (nth_error (e_works s) v) as [y|] eqn:Y; [|discriminate]. injection E as <- <-. cbn [e_pend e_calls].
    pose proof (tot_set _ (fun p => e_false (Some p)) j (EPush v) _ _ N) as T1.
    pose proof (tot_set _ (fun p => e_true (Some p)) j (EPush v) _ _ N) as T2.
    rewrite set_nth_len. cbn in *. lia.
  - destruct (nth_error (e_calls s) j) as [q|] eqn:N; [|discriminate]. destruct q as [v|v|v|v|]; try discriminate.
    destruct (nth_error (e_works s) v) as [y|] eqn:Y; [|discriminate]. injection E as <- <-. cbn [e_pend e_calls].
    pose proof (tot_set _ (fun p => e_false (Some p)) j (ECounted v) _ _ N) as T1.
    pose proof (tot_set _ (fun p => e_true (Some p)) j (ECounted v) _ _ N) as T2.
    rewrite set_nth_len. cbn in *. lia.
  - destruct (nth_error (e_calls s) j) as [q|] eqn:N; [|discriminate]. destruct q as [v|v|v|v|]; try discriminate.
    injection E as <- <-. cbn [e_pend e_calls].
    pose proof (tot_set _ (fun p => e_false (Some p)) j (EBack v) _ _ N) as T1.
    pose proof (tot_set _ (fun p => e_true (Some p)) j (EBack v) _ _ N) as T2.
    rewrite set_nth_len. cbn in *. lia.
  - destruct (nth_error (e_works s) w) as [y|] eqn:Y; [|discriminate]. destruct y as [c [|h q] [r|]]; try discriminate.
    injection E as <- <-. cbn in *. lia.
  - destruct (nth_error (e_works s) w) as [y|] eqn:Y; [|discriminate]. destruct y as [c q [r|]]; try discriminate.
    injection E as <- <-. cbn in *. lia.
Qed.

Lemma tot_two : forall (l : list epc),
  tot (fun p => e_false (Some p)) l + tot (fun p => e_true (Some p)) l <= length l.
Proof. induction l as [|p l IH]; cbn in *; auto. destruct p; cbn; lia. Qed.

Lemma e_refusal_runs : forall max n ls s tr m s' e k,
  eruns max (e_init n) ls = EOk s tr ->
  (forall j, In (Ended j) tr -> In (Returned j true) tr) ->
  estep max s (XCall m) = EOk s' e -> In (Returned k false) e ->
  (0 < max < outstanding tr)%Z.
Proof.
  intros max n ls s tr m s' e k E H ST I. pose proof (eruns_reach _ _ _ _ _ E) as R.
  destruct (e_counts _ _ _ _ _ R) as (C1 & C2 & C3 & C4). pose proof (tot_two (e_calls s)) as T.
  assert (ND : NoDup (flat_map ended_id tr)).
  { apply (NoDup_count_occ Nat.eq_dec). intro j. rewrite ended_count. apply (e_once_core _ _ _ _ _ R j). }
  assert (IN : incl (flat_map ended_id tr) (flat_map accepted_id tr)).
  { intros j J. apply accepted_in. apply H. apply (count_occ_In Nat.eq_dec) in J. rewrite ended_count in J.
    apply times_in1. lia. }
  pose proof (NoDup_incl_length ND IN) as LE. rewrite ended_len, accepted_len in LE.
  cbn [estep] in ST. destruct (over_limit max (e_pend s)) eqn:O.
  - unfold over_limit in O. apply andb_true_iff in O. destruct O as (O1 & O2).
    apply Z.ltb_lt in O1. apply Z.ltb_lt in O2. unfold as_u64 in O2.
    pose proof (Z.mod_le (e_pend s) (2 ^ 64) ltac:(lia) ltac:(lia)). unfold outstanding. lia.
  - destruct (choose m s); [|discriminate]. injection ST as <- <-. cbn in I. intuition discriminate.
Qed.
