(** The simple worker set: limits, order and shutdown. *)
From Coq Require Import ZArith List Bool Lia.
From Verif Require Import WqModel WqSpec WqProofs1 WqProofs2 WqProofs3.
Import ListNotations.

(** ** Counts *)

Definition n_read (p : cpc) : nat := match p with CRead _ => 1 | _ => 0 end.
Definition n_count (p : cpc) : nat := match p with CCount _ => 1 | _ => 0 end.
Definition n_run (p : cpc) : nat := match p with CRun => 1 | _ => 0 end.
Definition n_push (p : cpc) : nat := match p with CPush => 1 | _ => 0 end.
Definition w_run (p : wpc) : nat := match p with WRun _ => 1 | _ => 0 end.

Record ginv (s : sset) (tr : list event) : Prop := mkG {
  g_pend : s_pend s = Z.of_nat (tot n_count (s_calls s) + tot n_run (s_calls s)
                                + length (s_queue s) + tot w_run (s_workers s));
  g_out : number is_called tr = number is_refused tr + number is_ended tr
            + tot n_read (s_calls s) + tot n_count (s_calls s) + tot n_run (s_calls s)
            + length (s_queue s) + tot w_run (s_workers s);
  g_run : number is_started tr = number is_ended tr + tot n_run (s_calls s) + tot w_run (s_workers s);
  g_in : number is_called tr = number is_returned tr + tot n_read (s_calls s) + tot n_count (s_calls s)
            + tot n_run (s_calls s) + tot n_push (s_calls s)
}.

Ltac gn := rewrite ?number_app; cbn [number filter length is_called is_refused is_returned is_started is_ended app].

Lemma ginv_reach : forall c s tr, sreach c s tr -> ginv s tr.
Proof.
  intros c s tr R. induction R as [|s tr l s' e R [G1 G2 G3 G4] E].
  { split; cbn; rewrite ?tot_repeat0 by reflexivity; reflexivity. }
  destruct l as [|j|j|j|j w|w|w|w| |w]; cbn [sstep] in E.
  - destruct (over_limit _ _); injection E as <- <-; split; cbn [s_pend s_calls s_queue s_workers];
      rewrite ?tot_app; unfold number in *; rewrite ?filter_app, ?app_length; cbn; lia.
  - destruct (nth_error (s_calls s) j) as [p|] eqn:N; [|discriminate]. destruct p; try discriminate.
    injection E as <- <-. rewrite app_nil_r.
    pose proof (tot_set _ n_read j (CCount seen) _ _ N) as T1. pose proof (tot_set _ n_count j (CCount seen) _ _ N) as T2.
    pose proof (tot_set _ n_run j (CCount seen) _ _ N) as T3. pose proof (tot_set _ n_push j (CCount seen) _ _ N) as T4.
    cbn [n_read n_count n_run n_push] in *. split; cbn [s_pend s_calls s_queue s_workers]; lia.
  - destruct (nth_error (s_calls s) j) as [p|] eqn:N; [|discriminate]. destruct p; try discriminate.
    destruct (_ && _); injection E as <- <-.
    + pose proof (tot_set _ n_read j CRun _ _ N) as T1. pose proof (tot_set _ n_count j CRun _ _ N) as T2.
      pose proof (tot_set _ n_run j CRun _ _ N) as T3. pose proof (tot_set _ n_push j CRun _ _ N) as T4.
      cbn [n_read n_count n_run n_push] in *.
      split; cbn [s_pend s_calls s_queue s_workers]; unfold number in *; rewrite ?filter_app, ?app_length; cbn [filter is_called is_refused is_returned is_started is_ended length]; lia.
    + pose proof (tot_set _ n_read j CPush _ _ N) as T1. pose proof (tot_set _ n_count j CPush _ _ N) as T2.
      pose proof (tot_set _ n_run j CPush _ _ N) as T3. pose proof (tot_set _ n_push j CPush _ _ N) as T4.
      cbn [n_read n_count n_run n_push] in *. rewrite app_nil_r.
      split; cbn [s_pend s_calls s_queue s_workers]; rewrite ?app_length; cbn [length]; lia.
  - destruct (nth_error (s_calls s) j) as [p|] eqn:N; [|discriminate]. destruct p; try discriminate.
    injection E as <- <-.
    pose proof (tot_set _ n_read j CBackI _ _ N) as T1. pose proof (tot_set _ n_count j CBackI _ _ N) as T2.
    pose proof (tot_set _ n_run j CBackI _ _ N) as T3. pose proof (tot_set _ n_push j CBackI _ _ N) as T4.
    cbn [n_read n_count n_run n_push] in *.
    split; cbn [s_pend s_calls s_queue s_workers]; unfold number in *; rewrite ?filter_app, ?app_length; cbn [filter is_called is_refused is_returned is_started is_ended length]; lia.
  - destruct (nth_error (s_calls s) j) as [p|] eqn:N; [|discriminate]. destruct p; try discriminate.
    destruct (wake _ _) as [ws|] eqn:W; [|discriminate]. injection E as <- <-.
    pose proof (wake_tot w_run _ _ _ W eq_refl) as T0.
    pose proof (tot_set _ n_read j CBackQ _ _ N) as T1. pose proof (tot_set _ n_count j CBackQ _ _ N) as T2.
    pose proof (tot_set _ n_run j CBackQ _ _ N) as T3. pose proof (tot_set _ n_push j CBackQ _ _ N) as T4.
    cbn [n_read n_count n_run n_push] in *.
    split; cbn [s_pend s_calls s_queue s_workers]; unfold number in *; rewrite ?filter_app, ?app_length; cbn [filter is_called is_refused is_returned is_started is_ended length]; lia.
  - destruct (nth_error (s_workers s) w) as [p|] eqn:N; [|discriminate]. destruct p; try discriminate.
    destruct (s_queue s) as [|h q] eqn:Q.
    + destruct (s_stop s); injection E as <- <-; rewrite app_nil_r;
        match goal with |- context [set_nth w ?p _] => pose proof (tot_set _ w_run w p _ _ N) as T end;
        cbn [w_run length] in *; split; cbn [s_pend s_calls s_queue s_workers length]; lia.
    + injection E as <- <-. pose proof (tot_set _ w_run w (WRun h) _ _ N) as T. cbn [w_run length] in *.
      split; cbn [s_pend s_calls s_queue s_workers]; unfold number in *; rewrite ?filter_app, ?app_length; cbn [filter is_called is_refused is_returned is_started is_ended length]; lia.
  - destruct (nth_error (s_workers s) w) as [p|] eqn:N; [|discriminate]. destruct p; try discriminate.
    injection E as <- <-. pose proof (tot_set _ w_run w WTop _ _ N) as T. cbn [w_run length] in *.
    split; cbn [s_pend s_calls s_queue s_workers]; unfold number in *; rewrite ?filter_app, ?app_length; cbn [filter is_called is_refused is_returned is_started is_ended length]; lia.
  - destruct (nth_error (s_workers s) w) as [p|] eqn:N; [|discriminate]. destruct p; try discriminate.
    injection E as <- <-. pose proof (tot_set _ w_run w WTop _ _ N) as T. cbn [w_run length] in *. rewrite app_nil_r.
    split; cbn [s_pend s_calls s_queue s_workers]; lia.
  - destruct (s_stop s); [discriminate|]. injection E as <- <-.
    split; cbn [s_pend s_calls s_queue s_workers]; unfold number in *; rewrite ?filter_app, ?app_length; cbn [filter is_called is_refused is_returned is_started is_ended length]; lia.
  - destruct (s_stop s); [|discriminate].
    destruct (nth_error (s_workers s) w) as [p|] eqn:N; [|discriminate]. destruct p; try discriminate.
    injection E as <- <-. pose proof (tot_set _ w_run w WTop _ _ N) as T. cbn [w_run length] in *. rewrite app_nil_r.
    split; cbn [s_pend s_calls s_queue s_workers]; lia.
Qed.

(** A call is refused only when too many tasks are outstanding. *)
Theorem refusal_core : forall c s tr l s' e k,
  sreach c s tr -> sstep c s l = Some (s', e) -> In (Returned k false) e ->
  (0 < c_max c < outstanding tr)%Z.
Proof.
  intros c s tr l s' e k R E I. pose proof (ginv_reach _ _ _ R) as [G1 G2 G3 G4].
  destruct l as [|j|j|j|j w|w|w|w| |w]; cbn [sstep] in E.
  { destruct (over_limit (c_max c) (s_pend s)) eqn:O; injection E as <- <-; [|cbn in I; intuition discriminate].
    unfold over_limit in O. apply andb_true_iff in O. destruct O as (O1 & O2).
    apply Z.ltb_lt in O1. apply Z.ltb_lt in O2. unfold outstanding.
    assert (as_u64 (s_pend s) <= s_pend s)%Z by (apply Z.mod_le; lia). lia. }
  all: exfalso; repeat match type of E with
    | match ?x with _ => _ end = _ => destruct x; try discriminate E
    end; injection E as <- <-; cbn in I; intuition discriminate.
Qed.

Lemma tot_le_len : forall A (f : A -> nat) l, (forall x, f x <= 1) -> tot f l <= length l.
Proof. induction l; simpl; intros; auto. specialize (IHl H). pose proof (H a). lia. Qed.

Theorem concurrency_core : forall c s tr,
  sreach c s tr -> c_inplace c = false -> (running tr <= Z.of_nat (c_workers c))%Z.
Proof.
  intros c s tr R P.
  assert (Z0 : tot n_run (s_calls s) = 0).
  { clear -R P. induction R as [|s tr l s' e R IH E]; [reflexivity|].
    destruct l as [|j|j|j|j w|w|w|w| |w]; cbn [sstep] in E.
    - destruct (over_limit _ _); injection E as <- <-; cbn [s_calls]; rewrite tot_app; cbn; lia.
    - destruct (nth_error (s_calls s) j) as [p|] eqn:N; [|discriminate]. destruct p; try discriminate.
      injection E as <- <-. pose proof (tot_set _ n_run j (CCount seen) _ _ N) as T. cbn in *. lia.
    - rewrite P in E. cbn [andb] in E. destruct (nth_error (s_calls s) j) as [p|] eqn:N; [|discriminate]. destruct p; try discriminate.
      injection E as <- <-. pose proof (tot_set _ n_run j CPush _ _ N) as T. cbn in *. lia.
    - destruct (nth_error (s_calls s) j) as [p|] eqn:N; [|discriminate]. destruct p; try discriminate.
      injection E as <- <-. pose proof (tot_set _ n_run j CBackI _ _ N) as T. cbn in *. lia.
    - destruct (nth_error (s_calls s) j) as [p|] eqn:N; [|discriminate]. destruct p; try discriminate.
      destruct (wake _ _); [|discriminate].
      injection E as <- <-. pose proof (tot_set _ n_run j CBackQ _ _ N) as T. cbn in *. lia.
    - repeat match type of E with
      | match ?x with _ => _ end = _ => destruct x; try discriminate E
      end; injection E as <- <-; exact IH.
    - repeat match type of E with
      | match ?x with _ => _ end = _ => destruct x; try discriminate E
      end; injection E as <- <-; exact IH.
    - repeat match type of E with
      | match ?x with _ => _ end = _ => destruct x; try discriminate E
      end; injection E as <- <-; exact IH.
    - repeat match type of E with
      | match ?x with _ => _ end = _ => destruct x; try discriminate E
      end; injection E as <- <-; exact IH.
    - repeat match type of E with
      | match ?x with _ => _ end = _ => destruct x; try discriminate E
      end; injection E as <- <-; exact IH. }
  pose proof (ginv_reach _ _ _ R) as [G1 G2 G3 G4]. pose proof (len_reach _ _ _ R) as L.
  assert (tot w_run (s_workers s) <= length (s_workers s)) by (apply tot_le_len; intros []; cbn; lia).
  unfold running. lia.
Qed.

(** The number of outstanding tasks, when at most [p] calls are in progress at
    any moment. *)
Inductive sreach_in (c : scfg) (p : Z) : sset -> list event -> Prop :=
| si0 : sreach_in c p (s_init c) []
| si1 : forall s tr l s' e, sreach_in c p s tr -> sstep c s l = Some (s', e) ->
    (inside (tr ++ e) <= p)%Z -> sreach_in c p s' (tr ++ e).

Lemma in_reach : forall c p s tr, sreach_in c p s tr -> sreach c s tr.
Proof. intros c p s tr R. induction R; econstructor; eauto. Qed.

Lemma pend_bound : forall c p s tr, sreach_in c p s tr ->
  (0 < c_max c)%Z -> (0 <= p)%Z -> (c_max c + p < 2 ^ 64)%Z ->
  (s_pend s + Z.of_nat (tot n_read (s_calls s)) <= c_max c + p)%Z.
Proof.
  intros c p s tr R M PP B. induction R as [|s tr l s' e R IH E IN].
  { cbn. lia. }
  pose proof (ginv_reach _ _ _ (in_reach _ _ _ _ R)) as [G1 G2 G3 G4].
  pose proof (ginv_reach _ _ _ (sr1 _ _ _ _ _ _ (in_reach _ _ _ _ R) E)) as [H1 H2 H3 H4].
  assert (A : l <> SCall -> (s_pend s' + Z.of_nat (tot n_read (s_calls s')) <=
                s_pend s + Z.of_nat (tot n_read (s_calls s)))%Z).
  { intro NC. destruct l as [|j|j|j|j w|w|w|w| |w]; cbn [sstep] in E; [congruence|..].
    - destruct (nth_error (s_calls s) j) as [q|] eqn:N; [|discriminate]. destruct q; try discriminate.
      injection E as <- <-. pose proof (tot_set _ n_read j (CCount seen) _ _ N) as T. cbn [n_read s_pend s_calls] in *. lia.
    - destruct (nth_error (s_calls s) j) as [q|] eqn:N; [|discriminate]. destruct q; try discriminate.
      destruct (_ && _); injection E as <- <-; cbn [s_pend s_calls];
        match goal with |- context [set_nth j ?q _] => pose proof (tot_set _ n_read j q _ _ N) as T end; cbn [n_read] in *; lia.
    - destruct (nth_error (s_calls s) j) as [q|] eqn:N; [|discriminate]. destruct q; try discriminate.
      injection E as <- <-. pose proof (tot_set _ n_read j CBackI _ _ N) as T. cbn [n_read s_pend s_calls] in *. lia.
    - destruct (nth_error (s_calls s) j) as [q|] eqn:N; [|discriminate]. destruct q; try discriminate.
      destruct (wake _ _); [|discriminate].
      injection E as <- <-. pose proof (tot_set _ n_read j CBackQ _ _ N) as T. cbn [n_read s_pend s_calls] in *. lia.
    - repeat match type of E with
      | match ?x with _ => _ end = _ => destruct x; try discriminate E
      end; injection E as <- <-; cbn [s_pend s_calls]; lia.
    - repeat match type of E with
      | match ?x with _ => _ end = _ => destruct x; try discriminate E
      end; injection E as <- <-; cbn [s_pend s_calls]; lia.
    - repeat match type of E with
      | match ?x with _ => _ end = _ => destruct x; try discriminate E
      end; injection E as <- <-; cbn [s_pend s_calls]; lia.
    - repeat match type of E with
      | match ?x with _ => _ end = _ => destruct x; try discriminate E
      end; injection E as <- <-; cbn [s_pend s_calls]; lia.
    - repeat match type of E with
      | match ?x with _ => _ end = _ => destruct x; try discriminate E
      end; injection E as <- <-; cbn [s_pend s_calls]; lia. }
  destruct l; try (specialize (A ltac:(discriminate)); lia).
  clear A. cbn [sstep] in E. destruct (over_limit (c_max c) (s_pend s)) eqn:O; injection E as <- <-;
    cbn [s_pend s_calls] in *; rewrite tot_app in *; cbn [tot n_read] in *; [lia|].
  assert (LE : (s_pend s <= c_max c)%Z).
  { unfold over_limit in O. apply andb_false_iff in O. destruct O as [O|O]; [apply Z.ltb_ge in O; lia|].
    apply Z.ltb_ge in O. unfold as_u64 in O. rewrite Z.mod_small in O; lia. }
  unfold inside in IN. lia.
Qed.

Theorem outstanding_core : forall c p s tr, sreach_in c p s tr ->
  (0 < c_max c)%Z -> (0 <= p)%Z -> (c_max c + p < 2 ^ 64)%Z -> (outstanding tr <= c_max c + p)%Z.
Proof.
  intros c p s tr R M PP B. pose proof (pend_bound _ _ _ _ R M PP B).
  pose proof (ginv_reach _ _ _ (in_reach _ _ _ _ R)) as [G1 G2 G3 G4]. unfold outstanding. lia.
Qed.

(** ** Shutdown *)

Lemma emit_returned : forall c s l s' e k b,
  sstep c s l = Some (s', e) -> In (Returned k b) e -> l <> SDestroy.
Proof.
  intros c s l s' e k b H I ->. cbn [sstep] in H. destruct (s_stop s); [discriminate|].
  injection H as <- <-. cbn in I. intuition discriminate.
Qed.

Lemma gone_reach : forall c s tr, sreach c s tr -> In WGone (s_workers s) ->
  s_stop s = true /\ forall k, In k (s_queue s) -> ~ precedes tr (Returned k true) Stopping.
Proof.
  intros c s tr R. induction R as [|s tr l s' e R IH E]; intro G.
  { exfalso. apply repeat_spec in G. discriminate. }
  pose proof (fun k => kinv_reach _ _ _ R k) as K.
  (* no action but Destroy emits Stopping *)
  assert (KEEP : l <> SDestroy -> forall k, precedes (tr ++ e) (Returned k true) Stopping ->
                                            precedes tr (Returned k true) Stopping).
  { intros NL k P. apply pre_back in P; auto. intro I. elim NL. eapply emit_stopping; eauto. }
  destruct l as [|j|j|j|j w|w|w|w| |w]; cbn [sstep] in E.
  - assert (D : In WGone (s_workers s)) by (destruct (over_limit _ _); injection E as <- <-; exact G).
    destruct (IH D) as (S1 & S2).
    assert (s_stop s' = s_stop s /\ s_queue s' = s_queue s) as (-> & ->)
      by (destruct (over_limit _ _); injection E as <- <-; auto).
    split; auto. intros k I P. apply (S2 k I). apply KEEP; auto. discriminate.
  - destruct (nth_error (s_calls s) j) as [q|] eqn:N; [|discriminate]. destruct q; try discriminate.
    injection E as <- <-. cbn [s_workers s_stop s_queue] in *. destruct (IH G) as (S1 & S2).
    split; auto. intros k I P. apply (S2 k I). apply KEEP; auto. discriminate.
  - destruct (nth_error (s_calls s) j) as [q|] eqn:N; [|discriminate]. destruct q; try discriminate.
    destruct (_ && _); injection E as <- <-; cbn [s_workers s_stop s_queue] in *; destruct (IH G) as (S1 & S2);
      (split; [auto|]); intros k I P; apply KEEP in P; try discriminate.
    + apply (S2 k I P).
    + apply in_app_or in I. destruct I as [I|[<-|[]]]; [apply (S2 k I P)|].
      apply pre_left in P. apply times_in in P. pose proof (k_true _ _ _ (K j)) as T. rewrite N in T. cbn in T. lia.
  - destruct (nth_error (s_calls s) j) as [q|] eqn:N; [|discriminate]. destruct q; try discriminate.
    injection E as <- <-. cbn [s_workers s_stop s_queue] in *. destruct (IH G) as (S1 & S2).
    split; auto. intros k I P. apply (S2 k I). apply KEEP; auto. discriminate.
  - destruct (nth_error (s_calls s) j) as [q|] eqn:N; [|discriminate]. destruct q; try discriminate.
    destruct (wake w (s_workers s)) as [ws|] eqn:W; [|discriminate].
    injection E as <- <-. cbn [s_workers s_stop s_queue] in *.
    assert (D : In WGone (s_workers s)).
    { unfold wake in W. destruct (any_wait _); [|injection W as <-; auto].
      destruct (nth_error (s_workers s) w) as [q|] eqn:M; [|discriminate]. destruct q; try discriminate.
      injection W as <-. destruct (in_set_nth _ _ _ _ _ _ M G); [discriminate|auto]. }
    destruct (IH D) as (S1 & S2). split; auto. intros k I P. apply (S2 k I). apply KEEP; auto. discriminate.
  - destruct (nth_error (s_workers s) w) as [q|] eqn:N; [|discriminate]. destruct q; try discriminate.
    destruct (s_queue s) as [|h q] eqn:Q.
    + destruct (s_stop s) eqn:ST; injection E as <- <-; cbn [s_workers s_stop s_queue] in *.
      * split; auto.
      * destruct (in_set_nth _ _ _ _ _ _ N G) as [D|D]; [discriminate|].
        destruct (IH D) as (S1 & S2). congruence.
    + injection E as <- <-; cbn [s_workers s_stop s_queue] in *.
      destruct (in_set_nth _ _ _ _ _ _ N G) as [D|D]; [discriminate|].
      destruct (IH D) as (S1 & S2). split; auto. intros k I P. apply (S2 k (or_intror I)). apply KEEP; auto. discriminate.
  - destruct (nth_error (s_workers s) w) as [q|] eqn:N; [|discriminate]. destruct q; try discriminate.
    injection E as <- <-; cbn [s_workers s_stop s_queue] in *.
    destruct (in_set_nth _ _ _ _ _ _ N G) as [D|D]; [discriminate|].
    destruct (IH D) as (S1 & S2). split; auto. intros i I P. apply (S2 i I). apply KEEP; auto. discriminate.
  - destruct (nth_error (s_workers s) w) as [q|] eqn:N; [|discriminate]. destruct q; try discriminate.
    injection E as <- <-; cbn [s_workers s_stop s_queue] in *.
    destruct (in_set_nth _ _ _ _ _ _ N G) as [D|D]; [discriminate|].
    destruct (IH D) as (S1 & S2). split; auto. intros k I P. apply (S2 k I). apply KEEP; auto. discriminate.
  - destruct (s_stop s) eqn:ST; [discriminate|]. injection E as <- <-; cbn [s_workers s_stop s_queue] in *.
    destruct (IH G) as (S1 & _). congruence.
  - destruct (s_stop s) eqn:ST; [|discriminate].
    destruct (nth_error (s_workers s) w) as [q|] eqn:N; [|discriminate]. destruct q; try discriminate.
    injection E as <- <-; cbn [s_workers s_stop s_queue] in *.
    destruct (in_set_nth _ _ _ _ _ _ N G) as [D|D]; [discriminate|].
    destruct (IH D) as (S1 & S2). split; auto. intros k I P. apply (S2 k I). apply KEEP; auto. discriminate.
Qed.

Theorem shutdown_core : forall c s tr k,
  sreach c s tr -> 0 < c_workers c -> all_left s ->
  precedes tr (Returned k true) Stopping -> In (Ended k) tr.
Proof.
  intros c s tr k R W AL P.
  assert (G : In WGone (s_workers s)).
  { pose proof (len_reach _ _ _ R) as L. destruct (s_workers s) as [|p ws] eqn:E; [simpl in L; lia|].
    left. apply AL. rewrite E. left; auto. }
  destruct (gone_reach _ _ _ R G) as (_ & NQ).
  pose proof (kinv_reach _ _ _ R k) as [K1 K2 K3 K4 K5 K6].
  assert (Q0 : nq k s = 0).
  { unfold nq. destruct (count_occ Nat.eq_dec (s_queue s) k) eqn:C; auto.
    elim (NQ k); auto. apply (count_occ_In Nat.eq_dec). lia. }
  assert (W0 : nw k s = 0).
  { apply tot_zero. intros p I. rewrite (AL p I). reflexivity. }
  apply pre_left in P. apply times_in in P. apply times_in1.
  destruct (nth_error (s_calls s) k) as [[]|]; cbn in *; lia.
Qed.

(** ** Order *)

Lemma nodup_queue : forall c s tr k, sreach c s tr -> nq k s <= 1.
Proof.
  intros c s tr k R. pose proof (kinv_reach _ _ _ R k) as [K1 _ _ _ _ _].
  destruct (nth_error (s_calls s) k) as [[]|]; cbn in *; lia.
Qed.

Definition ahead (q : list nat) (k j : nat) : Prop :=
  exists q1 q2, q = q1 ++ q2 /\ In k q1 /\ In j q2.

Lemma noplace_reach : forall c s tr, sreach c s tr -> c_inplace c = false ->
  forall k, nth_error (s_calls s) k <> Some CRun /\ nth_error (s_calls s) k <> Some CBackI.
Proof.
  intros c s tr R P. induction R as [|s tr l s' e R IH E]; intro k.
  { destruct k; split; discriminate. }
  destruct l as [|j|j|j|j w|w|w|w| |w]; cbn [sstep] in E.
  - destruct (over_limit _ _); injection E as <- <-; cbn [s_calls]; rewrite nth_snoc;
      destruct (Nat.eq_dec _ _); auto; split; discriminate.
  - destruct (nth_error (s_calls s) j) as [q|] eqn:N; [|discriminate]. destruct q; try discriminate.
    injection E as <- <-; cbn [s_calls]. destruct (Nat.eq_dec j k) as [<-|M];
      [rewrite (nth_set_same _ _ _ _ _ N); split; discriminate|rewrite nth_set_other; auto].
  - rewrite P in E. cbn [andb] in E. destruct (nth_error (s_calls s) j) as [q|] eqn:N; [|discriminate]. destruct q; try discriminate.
    injection E as <- <-; cbn [s_calls]. destruct (Nat.eq_dec j k) as [<-|M];
      [rewrite (nth_set_same _ _ _ _ _ N); split; discriminate|rewrite nth_set_other; auto].
  - destruct (nth_error (s_calls s) j) as [q|] eqn:N; [|discriminate]. destruct q; try discriminate.
    destruct (IH j). congruence.
  - destruct (nth_error (s_calls s) j) as [q|] eqn:N; [|discriminate]. destruct q; try discriminate.
    destruct (wake _ _); [|discriminate].
    injection E as <- <-; cbn [s_calls]. destruct (Nat.eq_dec j k) as [<-|M];
      [rewrite (nth_set_same _ _ _ _ _ N); split; discriminate|rewrite nth_set_other; auto].
  - repeat match type of E with
      | match ?x with _ => _ end = _ => destruct x; try discriminate E
      end; injection E as <- <-; exact (IH k).
  - repeat match type of E with
      | match ?x with _ => _ end = _ => destruct x; try discriminate E
      end; injection E as <- <-; exact (IH k).
  - repeat match type of E with
      | match ?x with _ => _ end = _ => destruct x; try discriminate E
      end; injection E as <- <-; exact (IH k).
  - repeat match type of E with
      | match ?x with _ => _ end = _ => destruct x; try discriminate E
      end; injection E as <- <-; exact (IH k).
  - repeat match type of E with
      | match ?x with _ => _ end = _ => destruct x; try discriminate E
      end; injection E as <- <-; exact (IH k).
Qed.

(** Steps that neither push nor pop leave the queue alone. *)
Lemma queue_step : forall c s l s' e, sstep c s l = Some (s', e) ->
  s_queue s' = s_queue s \/
  (exists k n, l = SBegin k /\ nth_error (s_calls s) k = Some (CCount n) /\ s_queue s' = s_queue s ++ [k] /\ e = []) \/
  (exists w k, l = SWorker w /\ nth_error (s_workers s) w = Some WTop /\ s_queue s = k :: s_queue s' /\ e = [Started k]).
Proof.
  intros c s l s' e E. destruct l as [|j|j|j|j w|w|w|w| |w]; cbn [sstep] in E.
  3: { destruct (nth_error (s_calls s) j) as [q|] eqn:N; [|discriminate]. destruct q; try discriminate.
       destruct (_ && _); injection E as <- <-; auto. right. left. exists j, seen. auto. }
  5: { destruct (nth_error (s_workers s) w) as [q|] eqn:N; [|discriminate]. destruct q; try discriminate.
       destruct (s_queue s) as [|h q] eqn:Q; [destruct (s_stop s); injection E as <- <-; auto|].
       injection E as <- <-. right. right. exists w, h. auto. }
  all: left; repeat match type of E with
      | match ?x with _ => _ end = _ => destruct x; try discriminate E
      end; injection E as <- <-; reflexivity.
Qed.

Lemma fifo_reach : forall c s tr, sreach c s tr -> c_inplace c = false ->
  forall k j, precedes tr (Returned k true) (Called j) ->
    (In j (s_queue s) -> In (Started k) tr \/ ahead (s_queue s) k j) /\
    (In (Started j) tr -> precedes tr (Started k) (Started j)).
Proof.
  intros c s tr R P. induction R as [|s tr l s' e R IH E]; intros k j PR.
  { exfalso. apply pre_left in PR. inversion PR. }
  pose proof (fun i => kinv_reach _ _ _ R i) as K.
  pose proof (fun i => kinv_reach _ _ _ (sr1 _ _ _ _ _ _ R E) i) as K'.
  destruct (in_dec event_eq_dec (Called j) e) as [IC|NC].
  - (* the call that has just been made *)
    destruct (emit_called _ _ _ _ _ _ E IC) as (-> & ->).
    assert (N : nth_error (s_calls s) (length (s_calls s)) = None) by apply nth_len.
    pose proof (K (length (s_calls s))) as [K1 K2 K3 K4 K5 K6]. rewrite N in *. cbn in K1, K2, K3, K4, K5.
    split.
    + intro I. exfalso.
      assert (Q : s_queue s' = s_queue s) by (cbn [sstep] in E; destruct (over_limit _ _); injection E as <- <-; auto).
      rewrite Q in I. apply (count_occ_In Nat.eq_dec) in I. unfold nq in K1. lia.
    + intro I. exfalso. apply in_app_or in I. destruct I as [I|I]; [apply times_in in I; lia|].
      destruct (emit_started _ _ _ _ _ _ E I) as (_ & [(n & D & _)|(w & q & D & _)]); discriminate.
  - apply pre_back in PR; auto. destruct (IH k j PR) as (A & B).
    assert (BACK : In k (s_queue s) \/ In (Started k) tr).
    { pose proof (K k) as [K1 K2 K3 K4 K5 K6]. destruct (noplace_reach _ _ _ R P k) as (N1 & N2).
      apply pre_left in PR. apply times_in in PR.
      destruct (nq k s) eqn:NQ.
      - right. apply times_in1. destruct (nth_error (s_calls s) k) as [[]|]; cbn in *; try lia; congruence.
      - left. apply (count_occ_In Nat.eq_dec). unfold nq in NQ. lia. }
    split.
    + intro I. destruct (queue_step _ _ _ _ _ E) as [Q|[(i & n & -> & N & Q & ->)|(w & h & -> & N & Q & ->)]].
      * rewrite Q in *. destruct (A I) as [S|S]; auto. left. apply in_or_app; auto.
      * rewrite app_nil_r. rewrite Q in *. apply in_app_or in I. destruct I as [I|[<-|[]]].
        -- destruct (A I) as [S|(q1 & q2 & -> & I1 & I2)]; auto. right.
           exists q1, (q2 ++ [i]). rewrite app_assoc. repeat split; auto. apply in_or_app; auto.
        -- destruct BACK as [S|S]; auto. right. exists (s_queue s), [i]. repeat split; auto. left; auto.
      * assert (I0 : In j (s_queue s)) by (rewrite Q; right; auto).
        destruct (A I0) as [S|(q1 & q2 & Q2 & I1 & I2)]; [left; apply in_or_app; auto|].
        rewrite Q in Q2. destruct q1 as [|x q1]; [inversion I1|]. injection Q2 as -> Q2.
        destruct I1 as [->|I1]; [left; apply in_or_app; right; left; auto|].
        right. exists q1, q2. auto.
    + intro I. apply in_app_or in I. destruct I as [I|I]; [apply pre_app; auto|].
      destruct (emit_started _ _ _ _ _ _ E I) as (-> & [(n & _ & _ & D)|(w & q & -> & _ & Q & Q')]); [congruence|].
      apply pre_new; [|left; auto].
      assert (I0 : In j (s_queue s)) by (rewrite Q; left; auto).
      destruct (A I0) as [S|(q1 & q2 & Q2 & I1 & I2)]; auto. exfalso.
      destruct q1 as [|x q1]; [inversion I1|]. rewrite Q in Q2. injection Q2 as -> Q2.
      pose proof (nodup_queue _ _ _ x R) as ND. unfold nq in ND. rewrite Q, Q2 in ND. cbn [count_occ] in ND.
      destruct (Nat.eq_dec x x); [|congruence]. rewrite count_occ_app in ND.
      apply (count_occ_In Nat.eq_dec) in I2. lia.
Qed.

(** With one worker and no task run in place, a task starts only after every
    task started before it has ended. *)
Lemma single_reach : forall c s tr, sreach c s tr -> c_inplace c = false -> c_workers c = 1 ->
  forall k j, precedes tr (Started k) (Started j) -> precedes tr (Ended k) (Started j).
Proof.
  intros c s tr R P W. induction R as [|s tr l s' e R IH E]; intros k j PR.
  { exfalso. apply pre_left in PR. inversion PR. }
  destruct (in_dec event_eq_dec (Started j) e) as [IC|NC].
  - destruct (emit_started _ _ _ _ _ _ E IC) as (-> & [(n & _ & _ & D)|(w & q & -> & N & Q & Q')]); [congruence|].
    apply pre_new; [|left; auto].
    apply (pre_left_app _ _ _ _) in PR; [|simpl; lia].
    pose proof (kinv_reach _ _ _ R k) as [K1 K2 K3 K4 K5 K6]. apply times_in in PR. apply times_in1.
    assert (NW : nw k s = 0).
    { pose proof (len_reach _ _ _ R) as L. rewrite W in L. unfold nw.
      destruct (s_workers s) as [|p [|]]; simpl in L; try lia.
      destruct w as [|[|]]; cbn in N; try discriminate. injection N as ->. reflexivity. }
    destruct (noplace_reach _ _ _ R P k) as (N1 & N2).
    destruct (nth_error (s_calls s) k) as [[]|]; cbn in *; try lia; congruence.
  - apply pre_app. apply IH. eapply pre_back; eauto.
Qed.
