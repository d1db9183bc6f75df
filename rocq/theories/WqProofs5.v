(** The worker set with one queue per worker. *)
From Coq Require Import ZArith List Bool Lia.
From Verif Require Import WqModel WqSpec WqProofs1 WqProofs2 WqProofs3 WqProofs4.
Import ListNotations.

Definition mode_of (l : elabel) : list emode := match l with XCall m => [m] | _ => [] end.

Lemma modes_cons : forall l ls, modes (l :: ls) = mode_of l ++ modes ls.
Proof. destruct l; reflexivity. Qed.

Inductive ereach (max : Z) (n : nat) : eset -> list event -> list emode -> Prop :=
| er0 : ereach max n (e_init n) [] []
| er1 : forall s tr ms l s' e, ereach max n s tr ms -> estep max s l = EOk s' e ->
    ereach max n s' (tr ++ e) (ms ++ mode_of l).

Lemma ereach_runs : forall max n ls s tr ms s' tr',
  ereach max n s tr ms -> eruns max s ls = EOk s' tr' -> ereach max n s' (tr ++ tr') (ms ++ modes ls).
Proof.
  induction ls as [|l ls IH]; intros s tr ms s' tr' R E; simpl eruns in E.
  - injection E as <- <-. rewrite !app_nil_r. exact R.
  - destruct (estep max s l) as [s1 e1| |] eqn:E1; try discriminate.
    destruct (eruns max s1 ls) as [s2 e2| |] eqn:E2; try discriminate.
    injection E as <- <-. rewrite modes_cons, !app_assoc. eapply IH; [|exact E2]. econstructor; eauto.
Qed.

Lemma eruns_reach : forall max n ls s tr,
  eruns max (e_init n) ls = EOk s tr -> ereach max n s tr (modes ls).
Proof. intros. apply (ereach_runs max n ls _ [] [] _ _ (er0 max n) H). Qed.

Definition eq_n (k : nat) (x : ework) : nat := count_occ Nat.eq_dec (e_queue x) k.
Definition er_n (k : nat) (x : ework) : nat :=
  match e_run x with Some j => if Nat.eq_dec j k then 1 else 0 | None => 0 end.
Definition e_ent (p : option epc) : nat :=
  match p with Some (EPush _) | Some (ECounted _) | Some (EBack _) => 1 | _ => 0 end.
Definition e_known (p : option epc) : nat := match p with Some _ => 1 | _ => 0 end.
Definition e_true (p : option epc) : nat := match p with Some (EBack _) => 1 | _ => 0 end.
Definition e_false (p : option epc) : nat := match p with Some ERefused => 1 | _ => 0 end.
Definition pcw (p : epc) : option nat :=
  match p with ERead w | EPush w | ECounted w | EBack w => Some w | ERefused => None end.

Record ekinv (s : eset) (tr : list event) (k : nat) : Prop := mkEK {
  ek_place : tot (eq_n k) (e_works s) + tot (er_n k) (e_works s) + times (Ended k) tr
             = e_ent (nth_error (e_calls s) k);
  ek_start : times (Started k) tr = tot (er_n k) (e_works s) + times (Ended k) tr;
  ek_call : times (Called k) tr = e_known (nth_error (e_calls s) k);
  ek_true : times (Returned k true) tr = e_true (nth_error (e_calls s) k);
  ek_false : times (Returned k false) tr = e_false (nth_error (e_calls s) k)
}.

Lemma ekinv_reach : forall max n s tr ms, ereach max n s tr ms -> forall k, ekinv s tr k.
Proof.
  intros max n s tr ms R. induction R as [|s tr ms l s' e R IH E]; intro k.
  { split; cbn; rewrite ?tot_repeat0 by reflexivity; destruct k; reflexivity. }
  destruct (IH k) as [K1 K2 K3 K4 K5].
  destruct l as [m|j|j|j|w|w]; cbn [estep] in E.
  - destruct (over_limit _ _); [|destruct (choose m s) as [w|]; [|discriminate]]; injection E as <- <-;
      split; cbn [e_calls e_works]; rewrite ?nth_snoc;
      (destruct (Nat.eq_dec k (length (e_calls s))) as [->|N];
       [rewrite nth_len in *; cbn in K1, K2, K3, K4, K5|]; ev; evq; cbn; try lia; try congruence).
  - destruct (nth_error (e_calls s) j) as [p|] eqn:N; [|discriminate]. destruct p as [w|w|w|w|]; try discriminate.
    destruct (nth_error (e_works s) w) as [x|] eqn:M; [|discriminate]. injection E as <- <-.
    pose proof (tot_set _ (eq_n k) w (mkEwork (e_count x) (e_queue x ++ [j]) (e_run x)) _ _ M) as T1.
    pose proof (tot_set _ (er_n k) w (mkEwork (e_count x) (e_queue x ++ [j]) (e_run x)) _ _ M) as T2.
    assert (B1 : eq_n k (mkEwork (e_count x) (e_queue x ++ [j]) (e_run x)) = eq_n k x + if Nat.eq_dec j k then 1 else 0)
      by (unfold eq_n; cbn [e_queue]; rewrite count_occ_app; cbn [count_occ]; destruct (Nat.eq_dec j k); lia).
    assert (B2 : er_n k (mkEwork (e_count x) (e_queue x ++ [j]) (e_run x)) = er_n k x) by reflexivity.
    rewrite app_nil_r.
    destruct (Nat.eq_dec j k) as [<-|D];
      (split; unfold on_work; cbn [e_calls e_works];
       [..|]; try rewrite (nth_set_same _ _ _ _ _ N); try rewrite (nth_set_other _ _ _ _ _ D); try rewrite N in *;
       cbn [e_ent e_known e_true e_false] in *; try lia).
  - destruct (nth_error (e_calls s) j) as [p|] eqn:N; [|discriminate]. destruct p as [w|w|w|w|]; try discriminate.
    destruct (nth_error (e_works s) w) as [x|] eqn:M; [|discriminate]. injection E as <- <-.
    pose proof (tot_set _ (eq_n k) w (mkEwork (e_count x + 1) (e_queue x) (e_run x)) _ _ M) as T1.
    pose proof (tot_set _ (er_n k) w (mkEwork (e_count x + 1) (e_queue x) (e_run x)) _ _ M) as T2.
    assert (B1 : eq_n k (mkEwork (e_count x + 1) (e_queue x) (e_run x)) = eq_n k x) by reflexivity.
    assert (B2 : er_n k (mkEwork (e_count x + 1) (e_queue x) (e_run x)) = er_n k x) by reflexivity.
    rewrite app_nil_r.
    destruct (Nat.eq_dec j k) as [<-|D];
      (split; unfold on_work; cbn [e_calls e_works];
       [..|]; try rewrite (nth_set_same _ _ _ _ _ N); try rewrite (nth_set_other _ _ _ _ _ D); try rewrite N in *;
       cbn [e_ent e_known e_true e_false] in *; try lia).
  - destruct (nth_error (e_calls s) j) as [p|] eqn:N; [|discriminate]. destruct p as [w|w|w|w|]; try discriminate.
    injection E as <- <-.
    destruct (Nat.eq_dec j k) as [<-|D];
      (split; cbn [e_calls e_works];
       [..|]; try rewrite (nth_set_same _ _ _ _ _ N); try rewrite (nth_set_other _ _ _ _ _ D); try rewrite N in *;
       cbn [e_ent e_known e_true e_false] in *; ev; evq; try congruence; lia).
  - destruct (nth_error (e_works s) w) as [x|] eqn:M; [|discriminate]. destruct x as [c [|h q] [r|]]; try discriminate.
    injection E as <- <-.
    pose proof (tot_set _ (eq_n k) w (mkEwork c q (Some h)) _ _ M) as T1.
    pose proof (tot_set _ (er_n k) w (mkEwork c q (Some h)) _ _ M) as T2.
    unfold eq_n at 2 4 in T1. unfold er_n at 2 4 in T2. cbn [e_queue e_run count_occ] in T1, T2.
    destruct (Nat.eq_dec h k) as [<-|D];
      (split; unfold on_work; cbn [e_calls e_works]; ev; evq; try congruence; lia).
  - destruct (nth_error (e_works s) w) as [x|] eqn:M; [|discriminate]. destruct x as [c q [r|]]; try discriminate.
    injection E as <- <-.
    pose proof (tot_set _ (eq_n k) w (mkEwork (c - 1) q None) _ _ M) as T1.
    pose proof (tot_set _ (er_n k) w (mkEwork (c - 1) q None) _ _ M) as T2.
    unfold eq_n at 2 4 in T1. unfold er_n at 2 4 in T2. cbn [e_queue e_run count_occ] in T1, T2.
    destruct (Nat.eq_dec r k) as [<-|D];
      (split; unfold on_work; cbn [e_calls e_works]; ev; evq; try congruence; lia).
Qed.

(** ** Which worker *)

Lemma least_lt : forall l i best low, best < i + length l -> least_from i best low l < i + length l \/ l = [].
Proof.
  induction l as [|x l IH]; intros i best low B; auto. left. simpl in *.
  destruct (e_count x <? low)%Z.
  - destruct (IH (S i) i (e_count x)) as [H|H]; [lia|lia|]. subst. simpl in *. lia.
  - destruct (IH (S i) best low) as [H|H]; [lia|lia|]. subst. simpl in *. lia.
Qed.

Lemma choose_lt : forall m s w, choose m s = Some w -> w < length (e_works s).
Proof.
  intros m s w E. unfold choose in E. set (n := Z.of_nat (length (e_works s))) in *.
  destruct (n =? 0)%Z eqn:Z0; [destruct m; discriminate|]. apply Z.eqb_neq in Z0.
  assert (NP : (0 < n)%Z) by (subst n; lia).
  destruct m as [r| |].
  - destruct (Z.rem r n <? 0)%Z eqn:L; [discriminate|]. injection E as <-. apply Z.ltb_ge in L.
    assert (Z.rem r n < n)%Z.
    { destruct (Z_le_gt_dec 0 r); [apply Z.rem_bound_pos; lia|].
      pose proof (Z.rem_nonpos r n ltac:(lia) ltac:(lia)). lia. }
    lia.
  - injection E as <-. pose proof (Z.mod_pos_bound (e_next s) n). lia.
  - injection E as <-. unfold least.
    destruct (least_lt (e_works s) 0 0 (2 ^ 31 - 1)) as [H|H]; [lia|exact H|].
    subst n. rewrite H in Z0. simpl in Z0. lia.
Qed.

Lemma eworks_len : forall max n s tr ms, ereach max n s tr ms -> length (e_works s) = n.
Proof.
  intros max n s tr ms R. induction R as [|s tr ms l s' e R IH E]; [apply repeat_length|].
  destruct l as [m|j|j|j|w|w]; cbn [estep] in E.
  - destruct (over_limit _ _); [|destruct (choose m s) as [w|]; [|discriminate]]; injection E as <- <-; auto.
  - repeat match type of E with
      | match ?x with _ => _ end = _ => destruct x; try discriminate E
      end; injection E as <- <-; unfold on_work; cbn [e_works]; rewrite ?set_nth_len; auto.
  - repeat match type of E with
      | match ?x with _ => _ end = _ => destruct x; try discriminate E
      end; injection E as <- <-; unfold on_work; cbn [e_works]; rewrite ?set_nth_len; auto.
  - repeat match type of E with
      | match ?x with _ => _ end = _ => destruct x; try discriminate E
      end; injection E as <- <-; unfold on_work; cbn [e_works]; rewrite ?set_nth_len; auto.
  - repeat match type of E with
      | match ?x with _ => _ end = _ => destruct x; try discriminate E
      end; injection E as <- <-; unfold on_work; cbn [e_works]; rewrite ?set_nth_len; auto.
  - repeat match type of E with
      | match ?x with _ => _ end = _ => destruct x; try discriminate E
      end; injection E as <- <-; unfold on_work; cbn [e_works]; rewrite ?set_nth_len; auto.
Qed.

(** A call keeps its worker. *)
Lemma pcw_step : forall max s l s' e k p,
  estep max s l = EOk s' e -> nth_error (e_calls s) k = Some p ->
  exists p', nth_error (e_calls s') k = Some p' /\ pcw p' = pcw p.
Proof.
  intros max s l s' e k p E N.
  destruct l as [m|j|j|j|w|w]; cbn [estep] in E.
  - assert (k <> length (e_calls s)) by (apply nth_lt in N; lia).
    destruct (over_limit _ _); [|destruct (choose m s) as [w|]; [|discriminate]]; injection E as <- <-; cbn [e_calls];
      rewrite nth_snoc; destruct (Nat.eq_dec _ _); try congruence; eauto.
  - destruct (nth_error (e_calls s) j) as [q|] eqn:M; [|discriminate]. destruct q; try discriminate.
    destruct (nth_error (e_works s) w) as [x|]; [|discriminate]. injection E as <- <-; cbn [e_calls].
    destruct (Nat.eq_dec j k) as [<-|D]; [rewrite (nth_set_same _ _ _ _ _ M)|rewrite (nth_set_other _ _ _ _ _ D)]; eauto.
    eexists; split; [reflexivity|]. rewrite M in N. injection N as <-. reflexivity.
  - destruct (nth_error (e_calls s) j) as [q|] eqn:M; [|discriminate]. destruct q; try discriminate.
    destruct (nth_error (e_works s) w) as [x|]; [|discriminate]. injection E as <- <-; cbn [e_calls].
    destruct (Nat.eq_dec j k) as [<-|D]; [rewrite (nth_set_same _ _ _ _ _ M)|rewrite (nth_set_other _ _ _ _ _ D)]; eauto.
    eexists; split; [reflexivity|]. rewrite M in N. injection N as <-. reflexivity.
  - destruct (nth_error (e_calls s) j) as [q|] eqn:M; [|discriminate]. destruct q; try discriminate.
    injection E as <- <-; cbn [e_calls].
    destruct (Nat.eq_dec j k) as [<-|D]; [rewrite (nth_set_same _ _ _ _ _ M)|rewrite (nth_set_other _ _ _ _ _ D)]; eauto.
    eexists; split; [reflexivity|]. rewrite M in N. injection N as <-. reflexivity.
  - repeat match type of E with
      | match ?x with _ => _ end = _ => destruct x; try discriminate E
      end; injection E as <- <-; cbn [e_calls]; eauto.
  - repeat match type of E with
      | match ?x with _ => _ end = _ => destruct x; try discriminate E
      end; injection E as <- <-; cbn [e_calls]; eauto.
Qed.

Lemma pcw_new : forall max s l s' e k p,
  estep max s l = EOk s' e -> nth_error (e_calls s) k = None -> nth_error (e_calls s') k = Some p ->
  exists m, l = XCall m /\ k = length (e_calls s) /\ s' = mkEset (e_pend s') (e_next s') (e_calls s') (e_works s) /\
    (pcw p = None \/ choose m s = pcw p).
Proof.
  intros max s l s' e k p E N N'.
  destruct l as [m|j|j|j|w|w]; cbn [estep] in E.
  { destruct (over_limit _ _); [|destruct (choose m s) as [w|] eqn:C; [|discriminate]]; injection E as <- <-; cbn [e_calls] in N';
      rewrite nth_snoc in N'; destruct (Nat.eq_dec k (length (e_calls s))); try congruence;
      injection N' as <-; exists m; repeat split; auto. }
  all: exfalso; assert (L : length (e_calls s') = length (e_calls s))
    by (repeat match type of E with
      | match ?x with _ => _ end = _ => destruct x; try discriminate E
      end; injection E as <- <-; cbn [e_calls]; rewrite ?set_nth_len; auto);
    apply nth_lt in N'; apply nth_error_None in N; lia.
Qed.

Lemma ecalls_len : forall max n s tr ms, ereach max n s tr ms -> length (e_calls s) = length ms.
Proof.
  intros max n s tr ms R. induction R as [|s tr ms l s' e R IH E]; [reflexivity|].
  rewrite app_length, <- IH.
  destruct l as [m|j|j|j|w|w]; cbn [estep mode_of length] in *;
    repeat match type of E with
      | match ?x with _ => _ end = _ => destruct x; try discriminate E
      end; injection E as <- <-; cbn [e_calls]; rewrite ?app_length, ?set_nth_len; simpl; lia.
Qed.

(** The worker of a call that named its region. *)
Lemma region_worker : forall max n s tr ms, ereach max n s tr ms ->
  forall k r p, nth_error ms k = Some (ByRegion r) -> nth_error (e_calls s) k = Some p ->
    pcw p = None \/ pcw p = Some (Z.to_nat (Z.rem r (Z.of_nat n))).
Proof.
  intros max n s tr ms R. induction R as [|s tr ms l s' e R IH E]; intros k r p M N.
  { destruct k; discriminate. }
  pose proof (ecalls_len _ _ _ _ _ R) as L. pose proof (eworks_len _ _ _ _ _ R) as LW.
  destruct (nth_error (e_calls s) k) as [p0|] eqn:N0.
  - assert (k < length ms) by (rewrite <- L; eapply nth_lt; eauto).
    rewrite nth_error_app1 in M by auto.
    destruct (pcw_step _ _ _ _ _ _ _ E N0) as (p1 & N1 & P1).
    assert (p1 = p) by congruence. subst p1. rewrite P1. eapply IH; eauto.
  - destruct (pcw_new _ _ _ _ _ _ _ E N0 N) as (m & -> & -> & _ & [C|C]); auto.
    rewrite L in M. rewrite nth_error_app2 in M by lia. rewrite Nat.sub_diag in M. simpl in M. injection M as ->.
    rewrite <- C. cbn [choose]. rewrite LW. destruct (Z.of_nat n =? 0)%Z; [left; auto|].
    destruct (Z.rem r (Z.of_nat n) <? 0)%Z; [left; auto|right; auto].
Qed.

(** Tasks sit with the worker of their call. *)
Lemma eloc_reach : forall max n s tr ms, ereach max n s tr ms ->
  forall w x k, nth_error (e_works s) w = Some x -> In k (e_queue x) \/ e_run x = Some k ->
    exists p, nth_error (e_calls s) k = Some p /\ pcw p = Some w.
Proof.
  intros max n s tr ms R. induction R as [|s tr ms l s' e R IH E]; intros w x k X I.
  { exfalso. apply nth_error_In in X. apply repeat_spec in X. subst x. cbn in I. destruct I as [[]|I]; discriminate. }
  assert (KEEP : forall p, nth_error (e_calls s) k = Some p -> pcw p = Some w ->
                 exists p', nth_error (e_calls s') k = Some p' /\ pcw p' = Some w).
  { intros p N P. destruct (pcw_step _ _ _ _ _ _ _ E N) as (p' & N' & P'). exists p'. split; congruence. }
  destruct l as [m|j|j|j|v|v]; pose proof E as E0; cbn [estep] in E.
  - assert (W : e_works s' = e_works s)
      by (destruct (over_limit _ _); [|destruct (choose m s) as [v|]; [|discriminate]]; injection E as <- <-; auto).
    rewrite W in X. destruct (IH _ _ _ X I) as (p & N & P). eauto.
  - destruct (nth_error (e_calls s) j) as [q|] eqn:N; [|discriminate]. destruct q as [v|v|v|v|]; try discriminate.
    destruct (nth_error (e_works s) v) as [y|] eqn:Y; [|discriminate]. injection E as <- <-. cbn [e_works] in X. unfold on_work in X.
    destruct (Nat.eq_dec v w) as [<-|D].
    + rewrite (nth_set_same _ _ _ _ _ Y) in X. injection X as <-. cbn [e_queue e_run] in I.
      destruct I as [I|I]; [apply in_app_or in I; destruct I as [I|[<-|[]]]|].
      * destruct (IH _ _ k Y (or_introl I)) as (p & M & P). eauto.
      * eapply KEEP; eauto. 
      * destruct (IH _ _ k Y (or_intror I)) as (p & M & P). eauto.
    + rewrite (nth_set_other _ _ _ _ _ D) in X. destruct (IH _ _ _ X I) as (p & M & P). eauto.
  - destruct (nth_error (e_calls s) j) as [q|] eqn:N; [|discriminate]. destruct q as [v|v|v|v|]; try discriminate.
    destruct (nth_error (e_works s) v) as [y|] eqn:Y; [|discriminate]. injection E as <- <-. cbn [e_works] in X. unfold on_work in X.
    destruct (Nat.eq_dec v w) as [<-|D].
    + rewrite (nth_set_same _ _ _ _ _ Y) in X. injection X as <-. cbn [e_queue e_run] in I.
      destruct (IH _ _ k Y I) as (p & M & P). eauto.
    + rewrite (nth_set_other _ _ _ _ _ D) in X. destruct (IH _ _ _ X I) as (p & M & P). eauto.
  - destruct (nth_error (e_calls s) j) as [q|] eqn:N; [|discriminate]. destruct q as [v|v|v|v|]; try discriminate.
    injection E as <- <-. cbn [e_works] in X. destruct (IH _ _ _ X I) as (p & M & P). eauto.
  - destruct (nth_error (e_works s) v) as [y|] eqn:Y; [|discriminate]. destruct y as [c [|h q] [r|]]; try discriminate.
    injection E as <- <-. cbn [e_works] in X. unfold on_work in X.
    destruct (Nat.eq_dec v w) as [<-|D].
    + rewrite (nth_set_same _ _ _ _ _ Y) in X. injection X as <-. cbn [e_queue e_run] in I.
      destruct I as [I|I].
      * destruct (IH _ _ k Y) as (p & M & P); [left; right; auto|]. eauto.
      * injection I as ->. destruct (IH _ _ k Y) as (p & M & P); [left; left; auto|]. eauto.
    + rewrite (nth_set_other _ _ _ _ _ D) in X. destruct (IH _ _ _ X I) as (p & M & P). eauto.
  - destruct (nth_error (e_works s) v) as [y|] eqn:Y; [|discriminate]. destruct y as [c q [r|]]; try discriminate.
    injection E as <- <-. cbn [e_works] in X. unfold on_work in X.
    destruct (Nat.eq_dec v w) as [<-|D].
    + rewrite (nth_set_same _ _ _ _ _ Y) in X. injection X as <-. cbn [e_queue e_run] in I.
      destruct I as [I|I]; [|discriminate].
      destruct (IH _ _ k Y) as (p & M & P); [left; auto|]. eauto.
    + rewrite (nth_set_other _ _ _ _ _ D) in X. destruct (IH _ _ _ X I) as (p & M & P). eauto.
Qed.

(** ** Events *)

Lemma e_emit_started : forall max s l s' e k, estep max s l = EOk s' e -> In (Started k) e ->
  e = [Started k] /\ exists w c q, l = XStart w /\ nth_error (e_works s) w = Some (mkEwork c (k :: q) None) /\
    e_works s' = set_nth w (mkEwork c q (Some k)) (e_works s).
Proof.
  intros max s l s' e k E I. destruct l as [m|j|j|j|w|w]; cbn [estep] in E.
  5: { destruct (nth_error (e_works s) w) as [y|] eqn:Y; [|discriminate]. destruct y as [c [|h q] [r|]]; try discriminate.
       injection E as <- <-. destruct I as [I|[]]. injection I as ->. split; auto. exists w, c, q. auto. }
  all: exfalso; repeat match type of E with
      | match ?x with _ => _ end = _ => destruct x; try discriminate E
      end; injection E as <- <-; cbn in I; intuition discriminate.
Qed.

Lemma e_emit_called : forall max s l s' e k, estep max s l = EOk s' e -> In (Called k) e ->
  k = length (e_calls s) /\ (exists m, l = XCall m) /\ e_works s' = e_works s.
Proof.
  intros max s l s' e k E I. destruct l as [m|j|j|j|w|w]; cbn [estep] in E.
  { destruct (over_limit _ _); [|destruct (choose m s) as [w|]; [|discriminate]]; injection E as <- <-;
      cbn in I; (split; [intuition congruence|split; [eauto|reflexivity]]). }
  all: exfalso; repeat match type of E with
      | match ?x with _ => _ end = _ => destruct x; try discriminate E
      end; injection E as <- <-; cbn in I; intuition discriminate.
Qed.

Lemma e_emit_ended : forall max s l s' e k, estep max s l = EOk s' e -> In (Ended k) e ->
  exists w x, nth_error (e_works s) w = Some x /\ e_run x = Some k.
Proof.
  intros max s l s' e k E I. destruct l as [m|j|j|j|w|w]; cbn [estep] in E.
  6: { destruct (nth_error (e_works s) w) as [y|] eqn:Y; [|discriminate]. destruct y as [c q [r|]]; try discriminate.
       injection E as <- <-. destruct I as [I|[]]. injection I as ->. eauto. }
  all: exfalso; repeat match type of E with
      | match ?x with _ => _ end = _ => destruct x; try discriminate E
      end; injection E as <- <-; cbn in I; intuition discriminate.
Qed.

Lemma queued_counted : forall w k ws x, nth_error ws w = Some x -> In k (e_queue x) -> 1 <= tot (eq_n k) ws.
Proof.
  intros w k ws x N I. apply nth_error_In in N. pose proof (tot_in _ (eq_n k) _ _ N).
  apply (count_occ_In Nat.eq_dec) in I. unfold eq_n in *. lia.
Qed.

Lemma running_counted : forall w k ws x, nth_error ws w = Some x -> e_run x = Some k -> 1 <= tot (er_n k) ws.
Proof.
  intros w k ws x N I. apply nth_error_In in N. pose proof (tot_in _ (er_n k) _ _ N).
  unfold er_n in H. rewrite I in H. destruct (Nat.eq_dec k k); [|congruence]. exact H.
Qed.

Lemma eorder_reach : forall max n s tr ms, ereach max n s tr ms -> forall k,
  (In (Started k) tr -> precedes tr (Called k) (Started k)) /\
  (In (Ended k) tr -> precedes tr (Started k) (Ended k)).
Proof.
  intros max n s tr ms R. induction R as [|s tr ms l s' e R IH E]; intro k; [split; intros []|].
  pose proof (ekinv_reach _ _ _ _ _ R k) as [K1 K2 K3 K4 K5]. destruct (IH k) as (I1 & I2).
  split; intro I; apply in_app_or in I; destruct I as [I|I]; try (apply pre_app; auto; fail);
    (apply pre_new; auto); apply times_in1.
  - rewrite K3. destruct (e_emit_started _ _ _ _ _ _ E I) as (_ & w & c & q & -> & N & _).
    pose proof (queued_counted _ k _ _ N (or_introl eq_refl)) as C.
    destruct (nth_error (e_calls s) k) as [p|]; cbn in *; lia.
  - rewrite K2. destruct (e_emit_ended _ _ _ _ _ _ E I) as (w & x & N & X).
    pose proof (running_counted _ k _ _ N X). lia.
Qed.

Theorem e_once_core : forall max n s tr ms, ereach max n s tr ms -> run_at_most_once tr.
Proof.
  intros max n s tr ms R k. pose proof (ekinv_reach _ _ _ _ _ R k) as [K1 K2 K3 K4 K5].
  destruct (eorder_reach _ _ _ _ _ R k) as (O1 & O2).
  remember (nth_error (e_calls s) k) as p.
  assert (A : e_ent p <= 1) by (destruct p as [[]|]; cbn; lia).
  repeat split; auto; try lia.
  - intros F S. apply times_in in F. apply times_in in S. destruct p as [[]|]; cbn in *; lia.
  - destruct p as [[]|]; cbn in *; lia.
Qed.

(** ** Everything accepted runs *)

Theorem e_all_run_core : forall max n s tr ms,
  ereach max n s tr ms -> e_quiet max s -> all_served tr.
Proof.
  intros max n s tr ms R Q k C. pose proof (ekinv_reach _ _ _ _ _ R k) as [K1 K2 K3 K4 K5].
  assert (RUN : forall w x, nth_error (e_works s) w = Some x -> e_run x = None /\ e_queue x = []).
  { intros w x N. destruct x as [c q [r|]].
    - specialize (Q (XEnd w) eq_refl). cbn in Q. rewrite N in Q. discriminate.
    - split; auto. destruct q as [|h q]; auto.
      specialize (Q (XStart w) eq_refl). cbn in Q. rewrite N in Q. discriminate. }
  assert (Z1 : tot (eq_n k) (e_works s) = 0).
  { apply tot_zero. intros x I. apply In_nth_error in I. destruct I as (w & N). destruct (RUN _ _ N) as (_ & B).
    unfold eq_n. rewrite B. reflexivity. }
  assert (Z2 : tot (er_n k) (e_works s) = 0).
  { apply tot_zero. intros x I. apply In_nth_error in I. destruct I as (w & N). destruct (RUN _ _ N) as (B & _).
    unfold er_n. rewrite B. reflexivity. }
  apply times_in in C. destruct (nth_error (e_calls s) k) as [p|] eqn:N; [|cbn in K3; lia].
  assert (P : forall w, p <> ERead w /\ p <> EPush w /\ p <> ECounted w).
  { assert (IN : forall w, pcw p = Some w -> exists x, nth_error (e_works s) w = Some x).
    { clear -R N. intros w PW. destruct (nth_error (e_works s) w) eqn:X; eauto. exfalso.
      apply nth_error_None in X.
      assert (forall s tr ms, ereach max n s tr ms -> forall k p w, nth_error (e_calls s) k = Some p -> pcw p = Some w ->
                w < length (e_works s)).
      { clear. intros s tr ms R. induction R as [|s tr ms l s' e R IH E]; intros k p w N P; [destruct k; discriminate|].
        pose proof (eworks_len _ _ _ _ _ R). pose proof (eworks_len _ _ _ _ _ (er1 _ _ _ _ _ _ _ _ R E)).
        destruct (nth_error (e_calls s) k) as [p0|] eqn:N0.
        - destruct (pcw_step _ _ _ _ _ _ _ E N0) as (p1 & N1 & P1). assert (p1 = p) by congruence. subst.
          specialize (IH k p0 w N0 ltac:(congruence)). lia.
        - destruct (pcw_new _ _ _ _ _ _ _ E N0 N) as (m & -> & _ & _ & [D|D]); [congruence|].
          rewrite P in D. apply choose_lt in D. lia. }
      specialize (H _ _ _ R _ _ _ N PW). lia. }
    intro w. repeat split; intros ->.
    - destruct (IN w eq_refl) as (x & X). specialize (Q (XPush k) eq_refl). cbn in Q. rewrite N, X in Q. discriminate.
    - destruct (IN w eq_refl) as (x & X). specialize (Q (XCount k) eq_refl). cbn in Q. rewrite N, X in Q. discriminate.
    - specialize (Q (XReturn k) eq_refl). cbn in Q. rewrite N in Q. discriminate. }
  destruct p as [w|w|w|w|]; try (destruct (P w) as (? & ? & ?); congruence); cbn in *.
  - right. split; apply times_in1; lia.
  - left. apply times_in1; lia.
Qed.

Definition ewc (p : epc) : nat :=
  match p with ERead _ => 5 | EPush _ => 2 | ECounted _ => 1 | _ => 0 end.
Definition eww (x : ework) : nat := 2 * length (e_queue x) + match e_run x with Some _ => 1 | None => 0 end.
Definition eweight (s : eset) : nat := tot ewc (e_calls s) + tot eww (e_works s).

Lemma eweight_step : forall max s l s' e,
  estep max s l = EOk s' e -> e_own_action l = true -> eweight s' < eweight s.
Proof.
  intros max s l s' e E O. unfold eweight. destruct l as [m|j|j|j|w|w]; cbn [estep] in E; [discriminate O|..].
  - destruct (nth_error (e_calls s) j) as [q|] eqn:N; [|discriminate]. destruct q as [v|v|v|v|]; try discriminate.
    destruct (nth_error (e_works s) v) as [y|] eqn:Y; [|discriminate]. injection E as <- <-. unfold on_work. cbn [e_calls e_works].
    pose proof (tot_set _ ewc j (EPush v) _ _ N) as T1.
    pose proof (tot_set _ eww v (mkEwork (e_count y) (e_queue y ++ [j]) (e_run y)) _ _ Y) as T2.
    unfold eww at 2 4 in T2. cbn [ewc e_queue e_run] in *. rewrite app_length in T2. simpl length in T2. lia.
  - destruct (nth_error (e_calls s) j) as [q|] eqn:N; [|discriminate]. destruct q as [v|v|v|v|]; try discriminate.
    destruct (nth_error (e_works s) v) as [y|] eqn:Y; [|discriminate]. injection E as <- <-. unfold on_work. cbn [e_calls e_works].
    pose proof (tot_set _ ewc j (ECounted v) _ _ N) as T1.
    pose proof (tot_set _ eww v (mkEwork (e_count y + 1) (e_queue y) (e_run y)) _ _ Y) as T2.
    unfold eww at 2 4 in T2. cbn [ewc e_queue e_run] in *. lia.
  - destruct (nth_error (e_calls s) j) as [q|] eqn:N; [|discriminate]. destruct q as [v|v|v|v|]; try discriminate.
    injection E as <- <-. cbn [e_calls e_works]. pose proof (tot_set _ ewc j (EBack v) _ _ N) as T1. cbn [ewc] in *. lia.
  - destruct (nth_error (e_works s) w) as [y|] eqn:Y; [|discriminate]. destruct y as [c [|h q] [r|]]; try discriminate.
    injection E as <- <-. unfold on_work. cbn [e_calls e_works].
    pose proof (tot_set _ eww w (mkEwork c q (Some h)) _ _ Y) as T2. unfold eww at 2 4 in T2. cbn [e_queue e_run length] in *. lia.
  - destruct (nth_error (e_works s) w) as [y|] eqn:Y; [|discriminate]. destruct y as [c q [r|]]; try discriminate.
    injection E as <- <-. unfold on_work. cbn [e_calls e_works].
    pose proof (tot_set _ eww w (mkEwork (c - 1) q None) _ _ Y) as T2. unfold eww at 2 4 in T2. cbn [e_queue e_run length] in *. lia.
Qed.

Theorem e_bounded_core : forall max ls s s' tr,
  eruns max s ls = EOk s' tr -> forallb e_own_action ls = true -> length ls + eweight s' <= eweight s.
Proof.
  induction ls as [|l ls IH]; intros s s' tr E O; simpl in *.
  - injection E as <- <-. lia.
  - destruct (estep max s l) as [s1 e1| |] eqn:E1; try discriminate.
    destruct (eruns max s1 ls) as [s2 e2| |] eqn:E2; try discriminate.
    injection E as <- <-. apply andb_true_iff in O. destruct O as (O1 & O2).
    pose proof (eweight_step _ _ _ _ _ E1 O1). specialize (IH _ _ _ E2 O2). lia.
Qed.

(** ** Tasks of one worker: one at a time, in order *)

Definition at_worker (s : eset) (k w : nat) : Prop :=
  exists p, nth_error (e_calls s) k = Some p /\ pcw p = Some w.

Lemma at_back : forall max s l s' e k w, estep max s l = EOk s' e -> at_worker s' k w ->
  nth_error (e_calls s) k <> None -> at_worker s k w.
Proof.
  intros max s l s' e k w E (p & N & P) NN. destruct (nth_error (e_calls s) k) as [p0|] eqn:N0; [|congruence].
  destruct (pcw_step _ _ _ _ _ _ _ E N0) as (p1 & N1 & P1). exists p0. split; auto. congruence.
Qed.

Lemma seen_call : forall max n s tr ms k, ereach max n s tr ms ->
  In (Started k) tr \/ In (Returned k true) tr \/ In (Called k) tr -> nth_error (e_calls s) k <> None.
Proof.
  intros max n s tr ms k R I N. pose proof (ekinv_reach _ _ _ _ _ R k) as [K1 K2 K3 K4 K5].
  rewrite N in *. cbn in *. destruct I as [I|[I|I]]; apply times_in in I; lia.
Qed.

Lemma e_single_reach : forall max n s tr ms, ereach max n s tr ms ->
  forall w k j, at_worker s k w -> at_worker s j w ->
    precedes tr (Started k) (Started j) -> precedes tr (Ended k) (Started j).
Proof.
  intros max n s tr ms R. induction R as [|s tr ms l s' e R IH E]; intros w k j AK AJ PR.
  { exfalso. apply pre_left in PR. inversion PR. }
  destruct (in_dec event_eq_dec (Started j) e) as [IC|NC].
  - destruct (e_emit_started _ _ _ _ _ _ E IC) as (-> & v & c & q & -> & N & WS).
    apply pre_new; [|left; auto].
    apply (pre_left_app _ _ _ _) in PR; [|simpl; lia].
    assert (BK : at_worker s k w) by (eapply at_back; eauto; eapply seen_call; eauto).
    assert (BJ : at_worker s j v) by (destruct (eloc_reach _ _ _ _ _ R v _ j N (or_introl (or_introl eq_refl))) as (p & ? & ?); exists p; auto).
    assert (BJ2 : at_worker s j w).
    { eapply at_back; eauto. destruct BJ as (p & Np & _). congruence. }
    assert (v = w) by (destruct BJ as (p1 & X1 & Y1); destruct BJ2 as (p2 & X2 & Y2); congruence). subst v.
    pose proof (ekinv_reach _ _ _ _ _ R k) as [K1 K2 K3 K4 K5]. apply times_in in PR. apply times_in1.
    destruct (tot (er_n k) (e_works s)) eqn:T; [lia|]. exfalso.
    destruct (tot_pos _ (er_n k) (e_works s)) as (x & I & F); [lia|].
    apply In_nth_error in I. destruct I as (u & U).
    assert (RX : e_run x = Some k).
    { unfold er_n in F. destruct (e_run x) as [i|]; [|congruence]. destruct (Nat.eq_dec i k); congruence. }
    destruct (eloc_reach _ _ _ _ _ R u x k U (or_intror RX)) as (p & X1 & Y1).
    destruct BK as (p2 & X2 & Y2). assert (u = w) by congruence. subst u.
    rewrite N in U. injection U as <-. discriminate.
  - apply pre_app. apply pre_back in PR; auto. apply (IH w); auto; eapply at_back; eauto;
      eapply seen_call; eauto; left; [eapply pre_left|eapply pre_right]; eauto.
Qed.

(** The queue of one worker across a step. *)
Lemma e_queue_step : forall max s l s' e w x', estep max s l = EOk s' e -> nth_error (e_works s') w = Some x' ->
  exists x, nth_error (e_works s) w = Some x /\
   (e_queue x' = e_queue x \/
    (exists k, l = XPush k /\ nth_error (e_calls s) k = Some (ERead w) /\ e_queue x' = e_queue x ++ [k] /\ e = []) \/
    (exists k, l = XStart w /\ e_queue x = k :: e_queue x' /\ e = [Started k])).
Proof.
  intros max s l s' e w x' E X. destruct l as [m|j|j|j|v|v]; cbn [estep] in E.
  - assert (W : e_works s' = e_works s)
      by (destruct (over_limit _ _); [|destruct (choose m s) as [v|]; [|discriminate]]; injection E as <- <-; auto).
    rewrite W in X. eauto.
  - destruct (nth_error (e_calls s) j) as [q|] eqn:N; [|discriminate]. destruct q as [v|v|v|v|]; try discriminate.
    destruct (nth_error (e_works s) v) as [y|] eqn:Y; [|discriminate]. injection E as <- <-. cbn [e_works] in X. unfold on_work in X.
    destruct (Nat.eq_dec v w) as [<-|D].
    + rewrite (nth_set_same _ _ _ _ _ Y) in X. injection X as <-. exists y. split; auto. right. left. exists j. auto.
    + rewrite (nth_set_other _ _ _ _ _ D) in X. eauto.
  - destruct (nth_error (e_calls s) j) as [q|] eqn:N; [|discriminate]. destruct q as [v|v|v|v|]; try discriminate.
    destruct (nth_error (e_works s) v) as [y|] eqn:Y; [|discriminate]. injection E as <- <-. cbn [e_works] in X. unfold on_work in X.
    destruct (Nat.eq_dec v w) as [<-|D].
    + rewrite (nth_set_same _ _ _ _ _ Y) in X. injection X as <-. exists y. auto.
    + rewrite (nth_set_other _ _ _ _ _ D) in X. eauto.
  - destruct (nth_error (e_calls s) j) as [q|] eqn:N; [|discriminate]. destruct q as [v|v|v|v|]; try discriminate.
    injection E as <- <-. cbn [e_works] in X. eauto.
  - destruct (nth_error (e_works s) v) as [y|] eqn:Y; [|discriminate]. destruct y as [c [|h q] [r|]]; try discriminate.
    injection E as <- <-. cbn [e_works] in X. unfold on_work in X.
    destruct (Nat.eq_dec v w) as [<-|D].
    + rewrite (nth_set_same _ _ _ _ _ Y) in X. injection X as <-. eexists. split; [exact Y|]. right. right. exists h. auto.
    + rewrite (nth_set_other _ _ _ _ _ D) in X. eauto.
  - destruct (nth_error (e_works s) v) as [y|] eqn:Y; [|discriminate]. destruct y as [c q [r|]]; try discriminate.
    injection E as <- <-. cbn [e_works] in X. unfold on_work in X.
    destruct (Nat.eq_dec v w) as [<-|D].
    + rewrite (nth_set_same _ _ _ _ _ Y) in X. injection X as <-. eexists. split; [exact Y|]. auto.
    + rewrite (nth_set_other _ _ _ _ _ D) in X. eauto.
Qed.

Lemma e_fifo_reach : forall max n s tr ms, ereach max n s tr ms ->
  forall w x k j, nth_error (e_works s) w = Some x -> at_worker s k w -> at_worker s j w ->
    precedes tr (Returned k true) (Called j) ->
    (In j (e_queue x) -> In (Started k) tr \/ ahead (e_queue x) k j) /\
    (In (Started j) tr -> precedes tr (Started k) (Started j)).
Proof.
  intros max n s tr ms R. induction R as [|s tr ms l s' e R IH E]; intros w x' k j X' AK AJ PR.
  { exfalso. apply pre_left in PR. inversion PR. }
  pose proof (fun i => ekinv_reach _ _ _ _ _ R i) as K.
  destruct (e_queue_step _ _ _ _ _ _ _ E X') as (x & X & QS).
  destruct (in_dec event_eq_dec (Called j) e) as [IC|NC].
  - destruct (e_emit_called _ _ _ _ _ _ E IC) as (-> & (m & ->) & W).
    assert (N : nth_error (e_calls s) (length (e_calls s)) = None) by apply nth_len.
    pose proof (K (length (e_calls s))) as [K1 K2 K3 K4 K5]. rewrite N in *. cbn in K1, K2, K3, K4, K5.
    split.
    + intro I. exfalso. rewrite W in X'. pose proof (queued_counted _ _ _ _ X' I). lia.
    + intro I. exfalso. apply in_app_or in I. destruct I as [I|I]; [apply times_in in I; lia|].
      destruct (e_emit_started _ _ _ _ _ _ E I) as (_ & v & c & q & D & _). discriminate.
  - apply pre_back in PR; auto.
    assert (BK : at_worker s k w) by (eapply at_back; eauto; eapply seen_call; eauto; right; left; eapply pre_left; eauto).
    assert (BJ : at_worker s j w) by (eapply at_back; eauto; eapply seen_call; eauto; right; right; eapply pre_right; eauto).
    destruct (IH w x k j X BK BJ PR) as (A & B).
    assert (BACK : In k (e_queue x) \/ In (Started k) tr).
    { pose proof (K k) as [K1 K2 K3 K4 K5]. pose proof (pre_left _ _ _ PR) as RT. apply times_in in RT.
      destruct (nth_error (e_calls s) k) as [p|] eqn:N; [|cbn in *; lia].
      destruct (tot (eq_n k) (e_works s)) eqn:T.
      - right. apply times_in1. destruct p; cbn in *; lia.
      - left. destruct (tot_pos _ (eq_n k) (e_works s)) as (y & I & F); [lia|].
        assert (IY : In k (e_queue y)) by (apply (count_occ_In Nat.eq_dec); unfold eq_n in F; lia).
        apply In_nth_error in I. destruct I as (u & U).
        destruct (eloc_reach _ _ _ _ _ R u y k U (or_introl IY)) as (p1 & X1 & Y1).
        destruct BK as (p2 & X2 & Y2). assert (u = w) by congruence. subst u. congruence. }
    split.
    + intro I. destruct QS as [Q|[(i & -> & N & Q & ->)|(h & -> & Q & ->)]].
      * rewrite Q in *. destruct (A I) as [S|S]; auto. left. apply in_or_app; auto.
      * rewrite app_nil_r. rewrite Q in *. apply in_app_or in I. destruct I as [I|[<-|[]]].
        -- destruct (A I) as [S|(q1 & q2 & -> & I1 & I2)]; auto. right.
           exists q1, (q2 ++ [i]). rewrite app_assoc. repeat split; auto. apply in_or_app; auto.
        -- destruct BACK as [S|S]; auto. right. exists (e_queue x), [i]. repeat split; auto. left; auto.
      * assert (I0 : In j (e_queue x)) by (rewrite Q; right; auto).
        destruct (A I0) as [S|(q1 & q2 & Q2 & I1 & I2)]; [left; apply in_or_app; auto|].
        rewrite Q in Q2. destruct q1 as [|y q1]; [inversion I1|]. injection Q2 as -> Q2.
        destruct I1 as [->|I1]; [left; apply in_or_app; right; left; auto|].
        right. exists q1, q2. auto.
    + intro I. apply in_app_or in I. destruct I as [I|I]; [apply pre_app; auto|].
      destruct (e_emit_started _ _ _ _ _ _ E I) as (-> & v & c & q & -> & N & WS).
      apply pre_new; [|left; auto].
      destruct (eloc_reach _ _ _ _ _ R v _ j N (or_introl (or_introl eq_refl))) as (p1 & X1 & Y1).
      destruct BJ as (p2 & X2 & Y2). assert (v = w) by congruence. subst v.
      rewrite N in X. injection X as <-. cbn [e_queue] in *.
      destruct (A (or_introl eq_refl)) as [S|(q1 & q2 & Q2 & I1 & I2)]; auto. exfalso.
      destruct q1 as [|y q1]; [inversion I1|]. injection Q2 as <- Q2.
      pose proof (K j) as [K1 K2 K3 K4 K5]. pose proof (tot_in _ (eq_n j) _ _ (nth_error_In _ _ N)) as T.
      unfold eq_n at 1 in T. cbn [e_queue count_occ] in T. destruct (Nat.eq_dec j j); [|congruence].
      subst q. rewrite count_occ_app in T. apply (count_occ_In Nat.eq_dec) in I2.
      destruct (nth_error (e_calls s) j) as [[]|]; cbn in *; lia.
Qed.

Lemma call_at : forall max n s tr ms k r, ereach max n s tr ms ->
  nth_error ms k = Some (ByRegion r) -> In (Started k) tr \/ In (Returned k true) tr ->
  at_worker s k (Z.to_nat (Z.rem r (Z.of_nat n))).
Proof.
  intros max n s tr ms k r R M I.
  destruct (nth_error (e_calls s) k) as [p|] eqn:N;
    [|exfalso; eapply seen_call; [exact R| |exact N]; tauto].
  exists p. split; auto. destruct (region_worker _ _ _ _ _ R _ _ _ M N) as [P|P]; auto. exfalso.
  pose proof (ekinv_reach _ _ _ _ _ R k) as [K1 K2 K3 K4 K5]. rewrite N in *.
  destruct p; try discriminate. cbn in *. destruct I as [I|I]; apply times_in in I; lia.
Qed.

Theorem e_order_core : forall max n s tr ms k j r, ereach max n s tr ms ->
  nth_error ms k = Some (ByRegion r) -> nth_error ms j = Some (ByRegion r) ->
  precedes tr (Returned k true) (Called j) -> In (Started j) tr -> precedes tr (Ended k) (Started j).
Proof.
  intros max n s tr ms k j r R MK MJ PR SJ.
  pose proof (call_at _ _ _ _ _ _ _ R MK (or_intror (pre_left _ _ _ PR))) as AK.
  pose proof (call_at _ _ _ _ _ _ _ R MJ (or_introl SJ)) as AJ.
  set (w := Z.to_nat (Z.rem r (Z.of_nat n))) in *.
  destruct (nth_error (e_works s) w) as [x|] eqn:X.
  - destruct (e_fifo_reach _ _ _ _ _ R w x k j X AK AJ PR) as (_ & B).
    eapply e_single_reach; eauto.
  - exfalso.
    assert (forall s tr ms, ereach max n s tr ms -> forall k w, at_worker s k w -> w < length (e_works s)).
    { clear. intros s tr ms R. induction R as [|s tr ms l s' e R IH E]; intros k w (p & N & P); [destruct k; discriminate|].
      pose proof (eworks_len _ _ _ _ _ R). pose proof (eworks_len _ _ _ _ _ (er1 _ _ _ _ _ _ _ _ R E)).
      destruct (nth_error (e_calls s) k) as [p0|] eqn:N0.
      - destruct (pcw_step _ _ _ _ _ _ _ E N0) as (p1 & N1 & P1). assert (p1 = p) by congruence. subst.
        assert (AW : at_worker s k w) by (exists p0; split; congruence). specialize (IH k w AW). lia.
      - destruct (pcw_new _ _ _ _ _ _ _ E N0 N) as (m & -> & _ & _ & [D|D]); [congruence|].
        rewrite P in D. apply choose_lt in D. lia. }
    specialize (H _ _ _ R _ _ AK). apply nth_error_None in X. lia.
Qed.

Theorem e_alone_core : forall max n s tr ms k j r, ereach max n s tr ms ->
  nth_error ms k = Some (ByRegion r) -> nth_error ms j = Some (ByRegion r) ->
  precedes tr (Started k) (Started j) -> precedes tr (Ended k) (Started j).
Proof.
  intros max n s tr ms k j r R MK MJ PR. eapply e_single_reach; eauto.
  - eapply call_at; eauto. left. eapply pre_left; eauto.
  - eapply call_at; eauto. left. eapply pre_right; eauto.
Qed.

Theorem e_unlimited_core : forall n s tr ms k, ereach 0 n s tr ms -> ~ In (Returned k false) tr.
Proof.
  intros n s tr ms k R. induction R as [|s tr ms l s' e R IH E]; [intros []|].
  intro I. apply in_app_or in I. destruct I as [I|I]; auto.
  destruct l as [m|j|j|j|w|w]; cbn [estep] in E.
  { change (over_limit 0 (e_pend s)) with false in E. destruct (choose m s) as [w|]; [|discriminate]. injection E as <- <-.
    cbn in I. intuition discriminate. }
  all: repeat match type of E with
      | match ?x with _ => _ end = _ => destruct x; try discriminate E
      end; injection E as <- <-; cbn in I; intuition discriminate.
Qed.

(** A set that has workers never misbehaves for region ids that are not negative. *)
Theorem e_no_crash_core : forall max n s tr ms l, ereach max n s tr ms -> 0 < n ->
  (forall r, l = XCall (ByRegion r) -> (0 <= r)%Z) -> estep max s l <> ECrash.
Proof.
  intros max n s tr ms l R P NN E. pose proof (eworks_len _ _ _ _ _ R) as L.
  destruct l as [m|j|j|j|w|w]; cbn [estep] in E.
  { destruct (over_limit _ _); [discriminate|]. destruct (choose m s) as [w|] eqn:C; [discriminate|].
    unfold choose in C. rewrite L in C. assert (Z.of_nat n =? 0 = false)%Z by (apply Z.eqb_neq; lia).
    rewrite H in C. destruct m as [r| |]; try discriminate. specialize (NN r eq_refl).
    pose proof (Z.rem_bound_pos r (Z.of_nat n) NN ltac:(lia)).
    assert (Z.rem r (Z.of_nat n) <? 0 = false)%Z by (apply Z.ltb_ge; lia). rewrite H1 in C. discriminate. }
  all: repeat match type of E with
      | match ?x with _ => _ end = _ => destruct x; try discriminate E
      end.
Qed.
