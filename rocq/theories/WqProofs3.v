(** The simple worker set: order of events, progress, limits, shutdown. *)
From Coq Require Import ZArith List Bool Lia.
From Verif Require Import WqModel WqSpec WqProofs1 WqProofs2.
Import ListNotations.

(** What each action emits, and in which circumstances. *)
Lemma emit_started : forall c s l s' e k,
  sstep c s l = Some (s', e) -> In (Started k) e ->
  e = [Started k] /\
  ((exists n, l = SBegin k /\ nth_error (s_calls s) k = Some (CCount n) /\ c_inplace c = true) \/
   (exists w q, l = SWorker w /\ nth_error (s_workers s) w = Some WTop /\ s_queue s = k :: q /\
                s_queue s' = q)).
Proof.
  intros c s l s' e k H I. destruct l as [|j|j|j|j w|w|w|w| |w]; cbn [sstep] in H.
  - destruct (over_limit _ _); injection H as <- <-; cbn in I; intuition discriminate.
  - destruct (nth_error (s_calls s) j) as [p|]; [|discriminate]. destruct p; try discriminate.
    injection H as <- <-. inversion I.
  - destruct (nth_error (s_calls s) j) as [p|] eqn:N; [|discriminate]. destruct p as [|n| | | | |]; try discriminate.
    destruct (c_inplace c) eqn:P; cbn [andb] in H; [destruct (n <? Z.of_nat (c_workers c))%Z|];
      injection H as <- <-; cbn in I; try tauto.
    destruct I as [E|[]]. injection E as ->. split; auto. left. exists n. auto.
  - destruct (nth_error (s_calls s) j) as [p|]; [|discriminate]. destruct p; try discriminate.
    injection H as <- <-. cbn in I. intuition discriminate.
  - destruct (nth_error (s_calls s) j) as [p|]; [|discriminate]. destruct p; try discriminate.
    destruct (wake _ _); [|discriminate]. injection H as <- <-. cbn in I. intuition discriminate.
  - destruct (nth_error (s_workers s) w) as [p|] eqn:N; [|discriminate]. destruct p; try discriminate.
    destruct (s_queue s) as [|h q] eqn:Q.
    + destruct (s_stop s); injection H as <- <-; inversion I.
    + injection H as <- <-. cbn in I. destruct I as [E|[]]. injection E as ->. split; auto. right.
      exists w, q. auto.
  - destruct (nth_error (s_workers s) w) as [p|]; [|discriminate]. destruct p; try discriminate.
    injection H as <- <-. cbn in I. intuition discriminate.
  - destruct (nth_error (s_workers s) w) as [p|]; [|discriminate]. destruct p; try discriminate.
    injection H as <- <-. inversion I.
  - destruct (s_stop s); [discriminate|]. injection H as <- <-. cbn in I. intuition discriminate.
  - destruct (s_stop s); [|discriminate].
    destruct (nth_error (s_workers s) w) as [p|]; [|discriminate]. destruct p; try discriminate.
    injection H as <- <-. inversion I.
Qed.

Lemma emit_called : forall c s l s' e k,
  sstep c s l = Some (s', e) -> In (Called k) e -> k = length (s_calls s) /\ l = SCall.
Proof.
  intros c s l s' e k H I. destruct l as [|j|j|j|j w|w|w|w| |w]; cbn [sstep] in H;
    [destruct (over_limit _ _); injection H as <- <-; cbn in I; intuition congruence|..]; exfalso;
    repeat match type of H with
    | match ?x with _ => _ end = _ => destruct x; try discriminate H
    end; injection H as <- <-; cbn in I; intuition discriminate.
Qed.

Lemma emit_ended : forall c s l s' e k,
  sstep c s l = Some (s', e) -> In (Ended k) e ->
  nth_error (s_calls s) k = Some CRun \/ exists w, nth_error (s_workers s) w = Some (WRun k).
Proof.
  intros c s l s' e k H I. destruct l as [|j|j|j|j w|w|w|w| |w]; cbn [sstep] in H.
  4: { destruct (nth_error (s_calls s) j) as [p|] eqn:N; [|discriminate]. destruct p; try discriminate.
       injection H as <- <-. cbn in I. destruct I as [E|[E|[]]]; [|discriminate]. injection E as ->. auto. }
  6: { destruct (nth_error (s_workers s) w) as [p|] eqn:N; [|discriminate]. destruct p; try discriminate.
       injection H as <- <-. cbn in I. destruct I as [E|[]]. injection E as ->. right. eauto. }
  all: exfalso; repeat match type of H with
    | match ?x with _ => _ end = _ => destruct x; try discriminate H
    end; injection H as <- <-; cbn in I; intuition discriminate.
Qed.

Lemma emit_stopping : forall c s l s' e,
  sstep c s l = Some (s', e) -> In Stopping e -> l = SDestroy.
Proof.
  intros c s l s' e H I. destruct l as [|j|j|j|j w|w|w|w| |w]; cbn [sstep] in H; auto; exfalso;
    repeat match type of H with
    | match ?x with _ => _ end = _ => destruct x; try discriminate H
    end; injection H as <- <-; cbn in I; intuition discriminate.
Qed.

Lemma times_in1 : forall e tr, 1 <= times e tr -> In e tr.
Proof. intros. apply times_in. lia. Qed.

Lemma worker_counted : forall w k ws, nth_error ws w = Some (WRun k) -> 1 <= tot (is_run k) ws.
Proof.
  intros w k ws N. apply nth_error_In in N. pose proof (tot_in _ (is_run k) _ _ N).
  cbn in H. destruct (Nat.eq_dec k k); [lia|congruence].
Qed.

Lemma order_reach : forall c s tr, sreach c s tr -> forall k,
  (In (Started k) tr -> precedes tr (Called k) (Started k)) /\
  (In (Ended k) tr -> precedes tr (Started k) (Ended k)).
Proof.
  intros c s tr R. induction R as [|s tr l s' e R IH E]; intro k; [split; intros []|].
  pose proof (kinv_reach _ _ _ R k) as K. destruct (IH k) as (I1 & I2).
  split; intro I; apply in_app_or in I; destruct I as [I|I]; try (apply pre_app; auto; fail).
  - apply pre_new; auto. apply times_in1. rewrite (k_call _ _ _ K).
    destruct (emit_started _ _ _ _ _ _ E I) as (_ & [(n & _ & N & _)|(w & q & _ & _ & Q & _)]).
    + rewrite N. cbn. lia.
    + pose proof (k_place _ _ _ K) as P. unfold nq in P. rewrite Q in P. cbn [count_occ] in P.
      destruct (Nat.eq_dec k k); [|congruence]. destruct (nth_error (s_calls s) k) as [p|]; [cbn; lia|cbn in P; lia].
  - apply pre_new; auto. apply times_in1. rewrite (k_start _ _ _ K).
    destruct (emit_ended _ _ _ _ _ _ E I) as [N|(w & N)].
    + rewrite N. cbn. lia.
    + apply worker_counted in N. unfold nw. lia.
Qed.

Theorem once_core : forall c s tr, sreach c s tr -> run_at_most_once tr.
Proof.
  intros c s tr R k. pose proof (kinv_reach _ _ _ R k) as [K1 K2 K3 K4 K5 K6].
  destruct (order_reach _ _ _ R k) as (O1 & O2).
  remember (nth_error (s_calls s) k) as p.
  assert (A : entered p <= 1) by (destruct p as [[]|]; cbn; lia).
  repeat split; auto; try lia.
  - intros F S. apply times_in in F. apply times_in in S. destruct p as [[]|]; cbn in *; lia.
  - destruct p as [[]|]; cbn in *; lia.
Qed.

(** ** No wake-up is lost *)

Definition awake (p : wpc) : Prop := p = WTop \/ exists k, p = WRun k.

Definition winv (s : sset) : Prop :=
  s_stop s = false ->
  (forall p, In p (s_workers s) -> p <> WGone) /\
  (s_queue s <> [] -> (exists p, In p (s_workers s) /\ awake p) \/ In CPush (s_calls s)).

Lemma in_set_nth : forall A n (x y : A) l z, nth_error l n = Some y ->
  In z (set_nth n x l) -> z = x \/ In z l.
Proof.
  induction n; destruct l; intros z N I; try discriminate; unfold set_nth in I; simpl in I.
  - destruct I; auto. right. right. auto.
  - destruct I; [right; left; auto|]. destruct (IHn x y l z N H); auto. right. right. auto.
Qed.

Lemma in_set_same : forall A n (x y : A) l, nth_error l n = Some y -> In x (set_nth n x l).
Proof. intros. eapply nth_error_In. eapply nth_set_same; eauto. Qed.

Lemma in_set_keep : forall A n (x y : A) l z, nth_error l n = Some y -> In z l -> z <> y -> In z (set_nth n x l).
Proof.
  intros A n x y l z N I D. apply In_nth_error in I. destruct I as (m & M).
  apply (nth_error_In _ m). rewrite nth_set_other; auto. intros ->. congruence.
Qed.

Lemma step_len : forall c s l s' e, sstep c s l = Some (s', e) -> length (s_workers s') = length (s_workers s).
Proof.
  intros c s l s' e H. destruct l as [|j|j|j|j w|w|w|w| |w]; cbn [sstep] in H.
  5: { destruct (nth_error (s_calls s) j) as [p|]; [|discriminate]. destruct p; try discriminate.
       unfold wake in H. destruct (any_wait _).
       - destruct (nth_error (s_workers s) w) as [q|]; [|discriminate]. destruct q; try discriminate.
         injection H as <- <-. apply set_nth_len.
       - injection H as <- <-. reflexivity. }
  all: repeat match type of H with
    | match ?x with _ => _ end = _ => destruct x; try discriminate H
    end; injection H as <- <-; cbn [s_workers]; rewrite ?set_nth_len; reflexivity.
Qed.

Lemma len_reach : forall c s tr, sreach c s tr -> length (s_workers s) = c_workers c.
Proof.
  intros c s tr R. induction R; [apply repeat_length|]. rewrite (step_len _ _ _ _ _ H). auto.
Qed.

Lemma any_wait_false : forall l p, any_wait l = false -> In p l -> p <> WWait.
Proof.
  intros l p E I ->. unfold any_wait in E.
  assert (existsb is_wait l = true) by (apply existsb_exists; exists WWait; auto). congruence.
Qed.

Lemma winv_reach : forall c s tr, sreach c s tr -> 0 < c_workers c -> winv s.
Proof.
  intros c s tr R W. induction R as [|s tr l s' e R IH E].
  { intros _. split; [|intros F; elim F; reflexivity]. intros p I. apply repeat_spec in I. subst. discriminate. }
  intros ST. pose proof (len_reach _ _ _ R) as L.
  assert (S0 : s_stop s = false).
  { destruct l; cbn [sstep] in E;
      repeat match type of E with
      | match ?x with _ => _ end = _ => destruct x eqn:?X; try discriminate E
      end; injection E as <- <-; cbn in ST; try congruence. }
  destruct (IH S0) as (G & Q). clear IH.
  destruct l as [|j|j|j|j w|w|w|w| |w]; cbn [sstep] in E.
  - destruct (over_limit _ _); injection E as <- <-; cbn [s_workers s_queue s_calls]; (split; [exact G|]);
      intro NE; destruct (Q NE) as [A|A]; auto; right; apply in_or_app; auto.
  - destruct (nth_error (s_calls s) j) as [p|] eqn:N; [|discriminate]. destruct p; try discriminate.
    injection E as <- <-; cbn [s_workers s_queue s_calls]. split; [exact G|]. intro NE.
    destruct (Q NE) as [A|A]; auto. right. eapply in_set_keep; eauto. discriminate.
  - destruct (nth_error (s_calls s) j) as [p|] eqn:N; [|discriminate]. destruct p; try discriminate.
    destruct (_ && _); injection E as <- <-; cbn [s_workers s_queue s_calls]; (split; [exact G|]); intro NE.
    + destruct (Q NE) as [A|A]; auto. right. eapply in_set_keep; eauto. discriminate.
    + right. eapply in_set_same; eauto.
  - destruct (nth_error (s_calls s) j) as [p|] eqn:N; [|discriminate]. destruct p; try discriminate.
    injection E as <- <-; cbn [s_workers s_queue s_calls]. split; [exact G|]. intro NE.
    destruct (Q NE) as [A|A]; auto. right. eapply in_set_keep; eauto. discriminate.
  - destruct (nth_error (s_calls s) j) as [p|] eqn:N; [|discriminate]. destruct p; try discriminate.
    unfold wake in E. destruct (any_wait (s_workers s)) eqn:AW.
    + destruct (nth_error (s_workers s) w) as [q|] eqn:M; [|discriminate]. destruct q; try discriminate.
      injection E as <- <-; cbn [s_workers s_queue s_calls]. split.
      * intros p I. destruct (in_set_nth _ _ _ _ _ _ M I) as [->|I']; [discriminate|auto].
      * intros _. left. exists WTop. split; [eapply in_set_same; eauto|left; auto].
    + injection E as <- <-; cbn [s_workers s_queue s_calls]. split; [exact G|]. intros _. left.
      destruct (s_workers s) as [|p ws] eqn:WS; [simpl in L; lia|]. exists p. split; [left; auto|].
      assert (p <> WGone) by (apply G; left; auto).
      assert (p <> WWait) by (eapply any_wait_false; [exact AW|left; auto]).
      destruct p; try congruence; [left; auto|right; eauto].
  - destruct (nth_error (s_workers s) w) as [p|] eqn:M; [|discriminate]. destruct p; try discriminate.
    destruct (s_queue s) as [|h q] eqn:QQ.
    + destruct (s_stop s) eqn:SS; [discriminate|]. injection E as <- <-; cbn [s_workers s_queue s_calls].
      split; [|congruence]. intros p I. destruct (in_set_nth _ _ _ _ _ _ M I) as [->|I']; [discriminate|auto].
    + injection E as <- <-; cbn [s_workers s_queue s_calls]. split.
      * intros p I. destruct (in_set_nth _ _ _ _ _ _ M I) as [->|I']; [discriminate|auto].
      * intros _. left. exists (WRun h). split; [eapply in_set_same; eauto|right; eauto].
  - destruct (nth_error (s_workers s) w) as [p|] eqn:M; [|discriminate]. destruct p; try discriminate.
    injection E as <- <-; cbn [s_workers s_queue s_calls]. split.
    + intros p I. destruct (in_set_nth _ _ _ _ _ _ M I) as [->|I']; [discriminate|auto].
    + intros _. left. exists WTop. split; [eapply in_set_same; eauto|left; auto].
  - destruct (nth_error (s_workers s) w) as [p|] eqn:M; [|discriminate]. destruct p; try discriminate.
    injection E as <- <-; cbn [s_workers s_queue s_calls]. split.
    + intros p I. destruct (in_set_nth _ _ _ _ _ _ M I) as [->|I']; [discriminate|auto].
    + intros _. left. exists WTop. split; [eapply in_set_same; eauto|left; auto].
  - destruct (s_stop s); [discriminate|]. injection E as <- <-. discriminate ST.
  - rewrite S0 in E. discriminate.
Qed.

Lemma stop_reach : forall c s tr, sreach c s tr -> (s_stop s = true <-> In Stopping tr).
Proof.
  intros c s tr R. induction R as [|s tr l s' e R IH E]; [split; [discriminate|intros []]|].
  destruct l as [|j|j|j|j w|w|w|w| |w].
  9: { cbn [sstep] in E. destruct (s_stop s); [discriminate|]. injection E as <- <-. cbn. split; auto.
       intros _. apply in_or_app. right. left. auto. }
  all: match type of E with sstep _ _ ?l = _ =>
         assert (ST : s_stop s' = s_stop s) by
           (cbn [sstep] in E; repeat match type of E with
            | match ?x with _ => _ end = _ => destruct x eqn:?X; try discriminate E
            end; injection E as <- <-; cbn; congruence);
         assert (NE : ~ In Stopping e) by (intro I; pose proof (emit_stopping _ _ _ _ _ E I); discriminate)
       end;
    rewrite ST, IH; split; intro I; [apply in_or_app; auto|apply in_app_or in I; tauto].
Qed.

(** What quiet means. *)
Lemma quiet_calls : forall c s, s_quiet c s -> forall p, In p (s_calls s) ->
  p = CBackQ \/ p = CBackI \/ p = CRefused.
Proof.
  intros c s Q p I. apply In_nth_error in I. destruct I as (k & N). destruct p; auto; exfalso.
  - specialize (Q (SCount k) eq_refl). cbn in Q. rewrite N in Q. discriminate.
  - specialize (Q (SBegin k) eq_refl). cbn in Q. rewrite N in Q. destruct (_ && _); discriminate.
  - specialize (Q (SFinish k) eq_refl). cbn in Q. rewrite N in Q. discriminate.
  - destruct (any_wait (s_workers s)) eqn:A.
    + unfold any_wait in A. apply existsb_exists in A. destruct A as (q & I & W). destruct q; try discriminate.
      apply In_nth_error in I. destruct I as (w & M).
      specialize (Q (SSignal k w) eq_refl). cbn in Q. rewrite N in Q. unfold wake in Q.
      assert (AW : any_wait (s_workers s) = true).
      { unfold any_wait. apply existsb_exists. exists WWait. split; auto. eapply nth_error_In; eauto. }
      rewrite AW, M in Q. discriminate.
    + specialize (Q (SSignal k 0) eq_refl). cbn in Q. rewrite N in Q. unfold wake in Q. rewrite A in Q. discriminate.
Qed.

Lemma quiet_workers : forall c s, s_quiet c s -> forall p, In p (s_workers s) -> ~ awake p.
Proof.
  intros c s Q p I A. apply In_nth_error in I. destruct I as (w & N). destruct A as [->|(k & ->)].
  - specialize (Q (SWorker w) eq_refl). cbn in Q. rewrite N in Q.
    destruct (s_queue s); [destruct (s_stop s)|]; discriminate.
  - specialize (Q (SEnd w) eq_refl). cbn in Q. rewrite N in Q. discriminate.
Qed.

Lemma no_run : forall k ws, (forall p, In p ws -> ~ awake p) -> tot (is_run k) ws = 0.
Proof.
  intros. apply tot_zero. intros p I. specialize (H p I). destruct p; auto. elim H. right. eauto.
Qed.

Theorem all_run_core : forall c s tr,
  sreach c s tr -> 0 < c_workers c -> ~ In Stopping tr -> s_quiet c s -> all_served tr.
Proof.
  intros c s tr R W NS Q k C.
  assert (ST : s_stop s = false).
  { destruct (s_stop s) eqn:E; auto. elim NS. apply (stop_reach _ _ _ R); auto. }
  pose proof (quiet_calls _ _ Q) as QC. pose proof (quiet_workers _ _ Q) as QW.
  destruct (winv_reach _ _ _ R W ST) as (G & NL).
  assert (QE : s_queue s = []).
  { destruct (s_queue s) as [|h q] eqn:E; auto.
    destruct NL as [(p & I & A)|I]; [discriminate|elim (QW p I A)|].
    destruct (QC _ I) as [B|[B|B]]; discriminate. }
  pose proof (kinv_reach _ _ _ R k) as [K1 K2 K3 K4 K5 K6].
  unfold nq, nw in *. rewrite QE in *. rewrite (no_run k _ QW) in *. cbn [count_occ] in *.
  apply times_in in C. destruct (nth_error (s_calls s) k) as [p|] eqn:N; [|cbn in K3; lia].
  destruct (QC p (nth_error_In _ _ N)) as [-> | [-> | ->]]; cbn in *.
  - right. split; apply times_in1; lia.
  - right. split; apply times_in1; lia.
  - left. apply times_in1; lia.
Qed.

(** ** Own actions come to an end *)

Definition wc (p : cpc) : nat :=
  match p with CRead _ => 6 | CCount _ => 5 | CRun => 1 | CPush => 2 | _ => 0 end.
Definition ww (stop : bool) (p : wpc) : nat :=
  match p with WTop => 1 | WWait => if stop then 2 else 0 | WRun _ => 2 | WGone => 0 end.
Definition weight (s : sset) : nat :=
  tot wc (s_calls s) + 2 * length (s_queue s) + tot (ww (s_stop s)) (s_workers s).

Lemma weight_step : forall c s l s' e,
  sstep c s l = Some (s', e) -> own_action l = true -> weight s' < weight s.
Proof.
  intros c s l s' e H O. unfold weight. destruct l as [|j|j|j|j w|w|w|w| |w]; cbn [sstep] in H; try discriminate O.
  - destruct (nth_error (s_calls s) j) as [p|] eqn:N; [|discriminate]. destruct p; try discriminate.
    injection H as <- <-. cbn [s_calls s_queue s_workers s_stop].
    pose proof (tot_set _ wc j (CCount seen) _ _ N) as T. cbn in T. lia.
  - destruct (nth_error (s_calls s) j) as [p|] eqn:N; [|discriminate]. destruct p; try discriminate.
    destruct (_ && _); injection H as <- <-; cbn [s_calls s_queue s_workers s_stop].
    + pose proof (tot_set _ wc j CRun _ _ N) as T. cbn in T. lia.
    + pose proof (tot_set _ wc j CPush _ _ N) as T. cbn in T. rewrite app_length. simpl. lia.
  - destruct (nth_error (s_calls s) j) as [p|] eqn:N; [|discriminate]. destruct p; try discriminate.
    injection H as <- <-. cbn [s_calls s_queue s_workers s_stop].
    pose proof (tot_set _ wc j CBackI _ _ N) as T. cbn in T. lia.
  - destruct (nth_error (s_calls s) j) as [p|] eqn:N; [|discriminate]. destruct p; try discriminate.
    pose proof (tot_set _ wc j CBackQ _ _ N) as T. cbn in T. unfold wake in H.
    destruct (any_wait _).
    + destruct (nth_error (s_workers s) w) as [q|] eqn:M; [|discriminate]. destruct q; try discriminate.
      injection H as <- <-. cbn [s_calls s_queue s_workers s_stop].
      pose proof (tot_set _ (ww (s_stop s)) w WTop _ _ M) as T2. cbn in T2. destruct (s_stop s); lia.
    + injection H as <- <-. cbn [s_calls s_queue s_workers s_stop]. lia.
  - destruct (nth_error (s_workers s) w) as [p|] eqn:M; [|discriminate]. destruct p; try discriminate.
    destruct (s_queue s) as [|h q].
    + destruct (s_stop s); injection H as <- <-; cbn [s_calls s_queue s_workers s_stop].
      * pose proof (tot_set _ (ww true) w WGone _ _ M) as T2. cbn in T2. simpl. lia.
      * pose proof (tot_set _ (ww false) w WWait _ _ M) as T2. cbn in T2. simpl. lia.
    + injection H as <- <-; cbn [s_calls s_queue s_workers s_stop].
      pose proof (tot_set _ (ww (s_stop s)) w (WRun h) _ _ M) as T2. cbn in T2. simpl. lia.
  - destruct (nth_error (s_workers s) w) as [p|] eqn:M; [|discriminate]. destruct p; try discriminate.
    injection H as <- <-; cbn [s_calls s_queue s_workers s_stop].
    pose proof (tot_set _ (ww (s_stop s)) w WTop _ _ M) as T2. cbn in T2. lia.
  - destruct (s_stop s) eqn:ST; [|discriminate].
    destruct (nth_error (s_workers s) w) as [p|] eqn:M; [|discriminate]. destruct p; try discriminate.
    injection H as <- <-; cbn [s_calls s_queue s_workers s_stop].
    pose proof (tot_set _ (ww true) w WTop _ _ M) as T2. cbn in T2. lia.
Qed.

Theorem bounded_core : forall c ls s s' tr,
  sruns c s ls = Some (s', tr) -> forallb own_action ls = true -> length ls + weight s' <= weight s.
Proof.
  induction ls as [|l ls IH]; intros s s' tr E O; simpl in *.
  - injection E as <- <-. lia.
  - destruct (sstep c s l) as [(s1, e1)|] eqn:E1; [|discriminate].
    destruct (sruns c s1 ls) as [(s2, e2)|] eqn:E2; [|discriminate].
    injection E as <- <-. apply andb_true_iff in O. destruct O as (O1 & O2).
    pose proof (weight_step _ _ _ _ _ E1 O1). specialize (IH _ _ _ E2 O2). lia.
Qed.
