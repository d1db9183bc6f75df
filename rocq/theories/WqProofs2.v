(** The simple worker set: invariants. *)
From Coq Require Import ZArith List Bool Lia.
From Verif Require Import WqModel WqSpec WqProofs1.
Import ListNotations.

Inductive sreach (c : scfg) : sset -> list event -> Prop :=
| sr0 : sreach c (s_init c) []
| sr1 : forall s tr l s' e, sreach c s tr -> sstep c s l = Some (s', e) -> sreach c s' (tr ++ e).

Lemma sreach_runs : forall c ls s tr s' tr',
  sreach c s tr -> sruns c s ls = Some (s', tr') -> sreach c s' (tr ++ tr').
Proof.
  induction ls as [|l ls IH]; intros s tr s' tr' R E; simpl in E.
  - injection E as <- <-. rewrite app_nil_r. exact R.
  - destruct (sstep c s l) as [(s1, e1)|] eqn:E1; [|discriminate].
    destruct (sruns c s1 ls) as [(s2, e2)|] eqn:E2; [|discriminate].
    injection E as <- <-. rewrite app_assoc. eapply IH; [|exact E2]. econstructor; eauto.
Qed.

Lemma runs_reach : forall c ls s tr, sruns c (s_init c) ls = Some (s, tr) -> sreach c s tr.
Proof. intros. apply (sreach_runs c ls _ [] _ _ (sr0 c) H). Qed.

(** Per-task classification. *)
Definition is_run (k : nat) (p : wpc) : nat :=
  match p with WRun j => if Nat.eq_dec j k then 1 else 0 | _ => 0 end.
Definition nq (k : nat) (s : sset) : nat := count_occ Nat.eq_dec (s_queue s) k.
Definition nw (k : nat) (s : sset) : nat := tot (is_run k) (s_workers s).

Definition entered (p : option cpc) : nat :=
  match p with Some CRun | Some CPush | Some CBackQ | Some CBackI => 1 | _ => 0 end.
Definition in_place (p : option cpc) : nat := match p with Some CRun => 1 | _ => 0 end.
Definition known (p : option cpc) : nat := match p with Some _ => 1 | _ => 0 end.
Definition backt (p : option cpc) : nat := match p with Some CBackQ | Some CBackI => 1 | _ => 0 end.
Definition backf (p : option cpc) : nat := match p with Some CRefused => 1 | _ => 0 end.

Record kinv (s : sset) (tr : list event) (k : nat) : Prop := mkK {
  k_place : nq k s + nw k s + times (Ended k) tr + in_place (nth_error (s_calls s) k)
            = entered (nth_error (s_calls s) k);
  k_start : times (Started k) tr = nw k s + times (Ended k) tr + in_place (nth_error (s_calls s) k);
  k_call : times (Called k) tr = known (nth_error (s_calls s) k);
  k_true : times (Returned k true) tr = backt (nth_error (s_calls s) k);
  k_false : times (Returned k false) tr = backf (nth_error (s_calls s) k);
  k_backi : nth_error (s_calls s) k = Some CBackI -> times (Ended k) tr = 1
}.

Lemma nth_lt : forall A (l : list A) n x, nth_error l n = Some x -> n < length l.
Proof. intros. apply nth_error_Some. rewrite H. discriminate. Qed.

Lemma nth_len : forall A (l : list A), nth_error l (length l) = None.
Proof. intros. apply nth_error_None. lia. Qed.

(** A signal only moves a waiter. *)
Lemma wake_tot : forall f w l l', wake w l = Some l' -> f WWait = f WTop -> tot f l' = tot f l.
Proof.
  intros f w l l' E F. unfold wake in E. destruct (any_wait l); [|injection E as <-; auto].
  destruct (nth_error l w) as [p|] eqn:N; [|discriminate]. destruct p; try discriminate.
  injection E as <-. pose proof (tot_set _ f w WTop WWait l N). lia.
Qed.

Ltac ev := repeat rewrite times_app; repeat rewrite times_cons; rewrite ?times_nil;
  repeat (match goal with |- context [event_eq_dec ?a ?b] =>
            let E := fresh "E" in
            destruct (event_eq_dec a b) as [E|E]; try discriminate E;
            try (exfalso; apply E; reflexivity) end).

Ltac split_call kk j calls :=
  destruct (Nat.eq_dec kk j) as [<-|?N].

Ltac start H :=
  match type of H with
  | match ?x with _ => _ end = _ => let E := fresh "E" in destruct x eqn:E; try discriminate H
  end.

Lemma kinv_init : forall c k, kinv (s_init c) [] k.
Proof.
  intros c k. assert (W : nw k (s_init c) = 0).
  { unfold nw. simpl. apply tot_repeat0. reflexivity. }
  split; unfold nq; rewrite ?W; simpl; auto.
  - destruct k; reflexivity.
  - destruct k; reflexivity.
  - destruct k; reflexivity.
  - destruct k; reflexivity.
  - destruct k; reflexivity.
  - destruct k; discriminate.
Qed.

Ltac evq := 
  repeat match goal with
  | E : Called _ = Called _ |- _ => injection E as E
  | E : Returned _ _ = Returned _ _ |- _ => injection E as E
  | E : Started _ = Started _ |- _ => injection E as E
  | E : Ended _ = Ended _ |- _ => injection E as E
  | E : Called ?a <> Called ?b |- _ => assert (a <> b) by congruence; clear E
  | E : Returned ?a ?x <> Returned ?b ?x |- _ => assert (a <> b) by congruence; clear E
  | E : Started ?a <> Started ?b |- _ => assert (a <> b) by congruence; clear E
  | E : Ended ?a <> Ended ?b |- _ => assert (a <> b) by congruence; clear E
  end.

Lemma kinv_step : forall c s l s' e tr,
  sstep c s l = Some (s', e) -> (forall k, kinv s tr k) -> forall k, kinv s' (tr ++ e) k.
Proof.
  intros c s l s' e tr H I k.
  pose proof (I k) as K. destruct K as [K1 K2 K3 K4 K5 K6].
  unfold nq, nw in *. destruct l as [|j|j|j|j w|w|w|w| |w]; cbn [sstep] in H.
  - (* SCall *)
    destruct (over_limit _ _); injection H as <- <-; split; unfold nq, nw; cbn [s_queue s_workers s_calls];
      rewrite nth_snoc; destruct (Nat.eq_dec k (length (s_calls s))) as [->|N];
      try rewrite nth_len in *; cbn in K1, K2, K3, K4, K5; ev; evq; cbn; try lia; try discriminate; try congruence;
      intro B; specialize (K6 B); lia.
  - (* SCount *)
    destruct (nth_error (s_calls s) j) as [p|] eqn:N; [|discriminate]. destruct p; try discriminate.
    injection H as <- <-. split; unfold nq, nw; cbn [s_queue s_workers s_calls]; rewrite ?app_nil_r;
      (destruct (Nat.eq_dec j k) as [<-|M];
       [rewrite (nth_set_same _ _ _ _ _ N); rewrite N in *; cbn in *; lia || discriminate
       |rewrite (nth_set_other _ _ _ _ _ M); auto]).
  - (* SBegin *)
    destruct (nth_error (s_calls s) j) as [p|] eqn:N; [|discriminate]. destruct p; try discriminate.
    destruct (_ && _); injection H as <- <-; split; unfold nq, nw; cbn [s_queue s_workers s_calls]; rewrite ?app_nil_r, ?count_occ_app;
      (destruct (Nat.eq_dec j k) as [<-|M];
       [rewrite (nth_set_same _ _ _ _ _ N); rewrite N in *; cbn in K1, K2, K3, K4, K5; ev; evq; cbn;
        try destruct (Nat.eq_dec j j); try lia; discriminate
       |rewrite (nth_set_other _ _ _ _ _ M); ev; evq; cbn; try destruct (Nat.eq_dec j k); try congruence; try lia; auto;
        intro B; specialize (K6 B); lia]).
  - (* SFinish *)
    destruct (nth_error (s_calls s) j) as [p|] eqn:N; [|discriminate]. destruct p; try discriminate.
    injection H as <- <-; split; unfold nq, nw; cbn [s_queue s_workers s_calls];
      (destruct (Nat.eq_dec j k) as [<-|M];
       [rewrite (nth_set_same _ _ _ _ _ N); rewrite N in *; cbn in K1, K2, K3, K4, K5; ev; evq; cbn;
        try lia; try (intros _; lia)
       |rewrite (nth_set_other _ _ _ _ _ M); ev; evq; cbn; try congruence; try lia; auto;
        intro B; specialize (K6 B); lia]).
  - (* SSignal *)
    destruct (nth_error (s_calls s) j) as [p|] eqn:N; [|discriminate]. destruct p; try discriminate.
    destruct (wake w (s_workers s)) as [ws|] eqn:W; [|discriminate].
    injection H as <- <-.
    pose proof (wake_tot (is_run k) _ _ _ W eq_refl) as WT.
    split; unfold nq, nw; cbn [s_queue s_workers s_calls]; rewrite ?WT;
      (destruct (Nat.eq_dec j k) as [<-|M];
       [rewrite (nth_set_same _ _ _ _ _ N); rewrite N in *; cbn in K1, K2, K3, K4, K5; ev; evq; cbn;
        try lia; discriminate
       |rewrite (nth_set_other _ _ _ _ _ M); ev; evq; cbn; try congruence; try lia; auto;
        intro B; specialize (K6 B); lia]).
  - (* SWorker *)
    destruct (nth_error (s_workers s) w) as [p|] eqn:N; [|discriminate]. destruct p; try discriminate.
    destruct (s_queue s) as [|h q] eqn:Q.
    + destruct (s_stop s); injection H as <- <-; split; unfold nq, nw; cbn [s_queue s_workers s_calls]; rewrite ?app_nil_r; auto;
      match goal with |- context [set_nth w ?p _] => pose proof (tot_set _ (is_run k) w p _ _ N) as T end;
      cbn [count_occ is_run] in *; lia.
    + injection H as <- <-. pose proof (tot_set _ (is_run k) w (WRun h) _ _ N) as T. cbn [is_run] in T.
      cbn [count_occ] in K1.
      destruct (Nat.eq_dec h k) as [HK|HK];
      (split; unfold nq, nw; cbn [s_queue s_workers s_calls]; ev; evq; try congruence; try lia; auto;
        try (intro B; specialize (K6 B); lia)).
  - (* SEnd *)
    destruct (nth_error (s_workers s) w) as [p|] eqn:N; [|discriminate]. destruct p as [| |h|]; try discriminate.
    injection H as <- <-. pose proof (tot_set _ (is_run k) w WTop _ _ N) as T. cbn [is_run] in T.
    destruct (Nat.eq_dec h k) as [HK|HK];
    (split; unfold nq, nw; cbn [s_queue s_workers s_calls]; ev; evq; try congruence; try lia; auto;
        intro B; specialize (K6 B); try lia).
    rewrite B in *. cbn [entered in_place] in K1. lia.
  - (* SSpurious *)
    destruct (nth_error (s_workers s) w) as [p|] eqn:N; [|discriminate]. destruct p; try discriminate.
    injection H as <- <-. pose proof (tot_set _ (is_run k) w WTop _ _ N) as T. cbn [is_run] in T.
    split; unfold nq, nw; cbn [s_queue s_workers s_calls]; rewrite ?app_nil_r; auto; lia.
  - (* SDestroy *)
    destruct (s_stop s); [discriminate|]. injection H as <- <-.
    split; unfold nq, nw; cbn [s_queue s_workers s_calls]; ev; try lia; intro B; specialize (K6 B); lia.
  - (* SKick *)
    destruct (s_stop s); [|discriminate].
    destruct (nth_error (s_workers s) w) as [p|] eqn:N; [|discriminate]. destruct p; try discriminate.
    injection H as <- <-. pose proof (tot_set _ (is_run k) w WTop _ _ N) as T. cbn [is_run] in T.
    split; unfold nq, nw; cbn [s_queue s_workers s_calls]; rewrite ?app_nil_r; auto; lia.
Qed.

Lemma kinv_reach : forall c s tr, sreach c s tr -> forall k, kinv s tr k.
Proof.
  intros c s tr R. induction R as [|s tr l s' e R IH E]; [apply kinv_init|].
  eapply kinv_step; eauto.
Qed.
