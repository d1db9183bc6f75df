(** Lemmas about the pool coming to rest, and about the parallel calls. *)
From Coq Require Import ZArith List Bool Arith Lia Permutation.
From Verif Require Import LkModel LkSpec LkProofs LkProofs2.
Import ListNotations.
Local Open Scope nat_scope.

(** * A bound on what can happen without new calls *)
Definition pcw (w : worker) : nat := match w_pc w with PCheck => 3 | PGap => 2 | PSleep => 1 | PRun _ => 4 | PExit => 0 end.
Fixpoint wsum (l : list worker) : nat := match l with [] => 0 | w :: r => pcw w + wsum r end.
Definition muw (s : pool) : nat := match p_mu s with MFree => 0 | MNotify _ => 2 * length (p_ws s) + 2 | MJoin _ => 1 end.
Definition dw (s : pool) : nat := match p_des s with DFlag => 2 * length (p_ws s) + 3 | _ => 0 end.
Definition pmeas (s : pool) : nat :=
  2 * length (p_q s) + wsum (p_ws s) + 6 * length (p_sub s) + 3 * p_ntf s + muw s + dw s.

Lemma wsum_put ws i w w' : nth_error ws i = Some w -> wsum (put ws i w') + pcw w = wsum ws + pcw w'.
Proof.
  revert i. induction ws as [|a ws IH]; intros [|i] H; cbn in *; try discriminate.
  - injection H as ->. lia.
  - pose proof (IH _ H). lia.
Qed.
Lemma wsum_rouse ws : wsum (map rouse ws) <= wsum ws + 2 * length ws.
Proof.
  induction ws as [|a ws IH]; cbn [map wsum length]; [lia|].
  assert (pcw (rouse a) <= pcw a + 2). { unfold rouse, is_sleep, pcw, at_pc. destruct (w_pc a) eqn:E; cbn; rewrite ?E; lia. }
  lia.
Qed.
Lemma wsum_filter f ws : wsum (filter f ws) <= wsum ws /\ length (filter f ws) <= length ws.
Proof. induction ws as [|a ws IH]; cbn; [lia|]. destruct (f a); cbn; lia. Qed.
Lemma wsum_same f ws : (forall w, pcw (f w) = pcw w) -> wsum (map f ws) = wsum ws.
Proof. intros H. induction ws as [|a ws IH]; cbn; [reflexivity|]. rewrite H, IH. reflexivity. Qed.

Lemma pstep_meas s e s' : closing e -> pstep s e = Some s' -> S (pmeas s') <= pmeas s.
Proof.
  intros C H. apply pstep_unfold in H. destruct H as [_ H].
  destruct e; cbn in C; try contradiction; cbn [pstep0] in H.
  - destruct (tm_free s); [|discriminate]. destruct (nth_error (p_sub s) k) eqn:E; [|discriminate]. injection H as <-.
    pose proof (cut_length _ _ _ E). unfold pmeas, muw, dw. cbn [p_q p_ws p_sub p_ntf p_mu p_des]. rewrite app_length. cbn [length].
    destruct (p_mu s), (p_des s); lia.
  - destruct (p_ntf s) eqn:Nt; [discriminate|]. cbv zeta in H. destruct (existsb is_sleep (p_ws s)).
    + destruct (nth_error (p_ws s) w) as [x|] eqn:En; [|discriminate]. destruct (is_sleep x) eqn:Eb; [|discriminate]. injection H as <-.
      pose proof (wsum_put _ _ _ (at_pc x PCheck) En) as W. unfold pmeas, muw, dw. cbn [p_q p_ws p_sub p_ntf p_mu p_des]. rewrite put_length.
      unfold is_sleep in Eb. unfold pcw at 1 in W. destruct (w_pc x); try discriminate. cbn in W. rewrite Nt. destruct (p_mu s), (p_des s); lia.
    + injection H as <-. unfold pmeas, muw, dw. cbn [p_q p_ws p_sub p_ntf p_mu p_des]. rewrite Nt. destruct (p_mu s), (p_des s); lia.
  - destruct (nth_error (p_ws s) w) as [x|] eqn:En; [|discriminate]. destruct (w_pc x) eqn:Ep; try discriminate.
    destruct (tm_free s); [|discriminate]. unfold work in H.
    assert (W := fun c => wsum_put _ _ _ (at_pc x c) En). unfold pcw at 1 in W. rewrite Ep in W.
    destruct (p_q s) as [|a q] eqn:Eq.
    + injection H as <-. specialize (W (if w_stop x then PExit else PGap)).
      unfold pmeas, muw, dw. cbn [p_q p_ws p_sub p_ntf p_mu p_des set_ws]. rewrite put_length.
      destruct (w_stop x); cbn in W; destruct (p_mu s), (p_des s); lia.
    + rewrite <- Eq in *. destruct (is_top (p_q s) k); [|discriminate]. destruct (nth_error (p_q s) k) as [[u pr]|] eqn:Ek; [|discriminate]. injection H as <-.
      specialize (W (PRun u)). cbn in W. pose proof (cut_length _ _ _ Ek).
      unfold pmeas, muw, dw. cbn [p_q p_ws p_sub p_ntf p_mu p_des]. rewrite put_length. destruct (p_mu s), (p_des s); lia.
  - destruct (nth_error (p_ws s) w) as [x|] eqn:En; [|discriminate]. destruct (w_pc x) eqn:Ep; try discriminate. injection H as <-.
    pose proof (wsum_put _ _ _ (at_pc x PSleep) En) as W. unfold pcw at 1 in W. rewrite Ep in W. cbn in W.
    unfold pmeas, muw, dw. cbn [p_q p_ws p_sub p_ntf p_mu p_des set_ws]. rewrite put_length. destruct (p_mu s), (p_des s); lia.
  - destruct (nth_error (p_ws s) w) as [x|] eqn:En; [|discriminate]. destruct (w_pc x) eqn:Ep; try discriminate.
    pose proof (wsum_put _ _ _ (at_pc x PCheck) En) as W. unfold pcw at 1 in W. rewrite Ep in W. cbn in W.
    destruct o; try contradiction; injection H as <-;
      unfold pmeas, muw, dw; cbn [p_q p_ws p_sub p_ntf p_mu p_des]; rewrite put_length; destruct (p_mu s), (p_des s); lia.
  - destruct (p_mu s) eqn:M; try discriminate. injection H as <-. pose proof (wsum_rouse (p_ws s)).
    unfold pmeas, muw, dw. cbn [p_q p_ws p_sub p_ntf p_mu p_des set_mu]. rewrite M, map_length. destruct (p_des s); lia.
  - destruct (p_mu s) as [|d|[]] eqn:M; try discriminate.
    + destruct (forallb is_exit (p_ws s)); [|discriminate]. injection H as <-.
      unfold pmeas, muw, dw. cbn [p_q p_ws p_sub p_ntf p_mu p_des set_mu]. rewrite M. destruct (p_des s); lia.
    + destruct (forallb _ (p_ws s)); [|discriminate]. injection H as <-. destruct (wsum_filter (fun w => negb (w_leave w)) (p_ws s)).
      unfold pmeas, muw, dw. cbn [p_q p_ws p_sub p_ntf p_mu p_des set_mu]. rewrite M. destruct (p_des s); lia.
  - destruct (p_des s) eqn:D; try discriminate. destruct (p_mu s) eqn:M; try discriminate. injection H as <-.
    unfold pmeas, muw, dw. cbn [p_q p_ws p_sub p_ntf p_mu p_des set_mu]. rewrite M, D, map_length, wsum_same by reflexivity. lia.
Qed.
Lemma p_bounded es : forall s, Forall closing es -> p_all_happen s es -> length es <= pmeas s.
Proof.
  induction es as [|e es IH]; intros s F H; [cbn; lia|]. inversion F; subst. cbn in H. destruct H as [H R].
  unfold pnext in *. destruct (pstep s e) as [s'|] eqn:E; [|congruence].
  pose proof (pstep_meas s e s' H2 E). specialize (IH s' H3 R). cbn [length]. lia.
Qed.

(** * At rest *)
Lemma dead_step s e s' : closing e -> pstep s e = Some s' -> p_dead s' = false.
Proof.
  intros C H. apply pstep_unfold in H. destruct H as [D H]. destruct e; cbn in C; try contradiction; cbn [pstep0] in H.
  - destruct (tm_free s); [|discriminate]. destruct (nth_error (p_sub s) k); [|discriminate]. injection H as <-. exact D.
  - destruct (p_ntf s); [discriminate|]. cbv zeta in H. destruct (existsb is_sleep (p_ws s)); [|injection H as <-; exact D].
    destruct (nth_error (p_ws s) w) as [x|]; [|discriminate]. destruct (is_sleep x); [|discriminate]. injection H as <-. exact D.
  - destruct (nth_error (p_ws s) w) as [x|]; [|discriminate]. destruct (w_pc x); try discriminate. destruct (tm_free s); [|discriminate].
    unfold work in H. destruct (p_q s) as [|a q] eqn:Eq; [injection H as <-; exact D|]. rewrite <- Eq in *.
    destruct (is_top (p_q s) k); [|discriminate]. destruct (nth_error (p_q s) k) as [[u pr]|]; [|discriminate]. injection H as <-. exact D.
  - destruct (nth_error (p_ws s) w) as [x|]; [|discriminate]. destruct (w_pc x); try discriminate. injection H as <-. exact D.
  - destruct (nth_error (p_ws s) w) as [x|]; [|discriminate]. destruct (w_pc x); try discriminate. destruct o; try contradiction; injection H as <-; exact D.
  - destruct (p_mu s); try discriminate. injection H as <-. exact D.
  - destruct (p_mu s) as [|d|[]]; try discriminate; destruct (forallb _ _); try discriminate; injection H as <-; exact D.
  - destruct (p_des s); try discriminate. destruct (p_mu s); try discriminate. injection H as <-. exact D.
Qed.
Lemma dead_run es : forall s, p_dead s = false -> Forall closing es -> p_dead (prun s es) = false.
Proof.
  induction es as [|e es IH]; intros s D F; [exact D|]. inversion F; subst. change (prun s (e :: es)) with (prun (pnext s e) es).
  apply IH; [|assumption]. unfold pnext. destruct (pstep s e) eqn:E; [eapply dead_step; eauto|exact D].
Qed.

Lemma top_exists q : q <> [] -> exists k, is_top q k = true.
Proof.
  intros H.
  assert (G : forall l : list (nat * Z), l <> [] -> exists k t pr, nth_error l k = Some (t, pr) /\ forall e, In e l -> (snd e <= pr)%Z).
  { induction l as [|[t pr] l IH]; intros N; [congruence|]. destruct l as [|b l].
    - exists 0, t, pr. split; [reflexivity|]. intros e [<-|[]]. cbn. lia.
    - destruct IH as (k & t' & pr' & A & B); [congruence|]. destruct (Z_le_gt_dec pr pr').
      + exists (S k), t', pr'. split; [exact A|]. intros e [<-|E]; [exact l0|auto].
      + exists 0, t, pr. split; [reflexivity|]. intros e [<-|E]; [cbn; lia|]. specialize (B e E). lia. }
  destruct (G q H) as (k & t & pr & A & B). exists k. unfold is_top. rewrite A. apply forallb_forall. intros e E. apply Z.leb_le, B, E.
Qed.

(** at rest a worker sleeps or has returned, and the two mutexes are free or held for a join *)
Lemma rest_workers s : p_dead s = false -> p_at_rest s ->
  (forall w, In w (p_ws s) -> w_pc w = PSleep \/ w_pc w = PExit) /\ p_sub s = [] /\ (forall d, p_mu s <> MNotify d).
Proof.
  intros D A. assert (St : forall e, closing e -> pstep0 s e = None).
  { intros e C. pose proof (A e C) as H. unfold pstep in H. rewrite D in H. exact H. }
  assert (NG : forall w, In w (p_ws s) -> w_pc w <> PGap).
  { intros w W Q. apply in_nth in W. destruct W as [i W]. pose proof (St (ESleep i) Logic.I) as H. cbn in H. rewrite W, Q in H. discriminate. }
  assert (TM : tm_free s = true).
  { unfold tm_free. apply negb_true_iff, ex_false. intros w W. pose proof (NG w W). unfold is_gap. destruct (w_pc w); auto; congruence. }
  split; [|split].
  - intros w W. pose proof (NG w W) as G. destruct (in_nth _ _ W) as [i N]. destruct (w_pc w) eqn:P; auto; try congruence; exfalso.
    + destruct (p_q s) as [|a q] eqn:Eq.
      * pose proof (St (EWork i 0) Logic.I) as H. cbn in H. rewrite N, P, TM in H. unfold work in H. rewrite Eq in H. discriminate.
      * destruct (top_exists (p_q s)) as [k K]; [congruence|]. pose proof (St (EWork i k) Logic.I) as H. cbn in H. rewrite N, P, TM in H. unfold work in H. rewrite Eq in H. rewrite <- Eq in H. rewrite K in H.
        unfold is_top in K. destruct (nth_error (p_q s) k) as [[u pr]|]; discriminate.
    + pose proof (St (EEnd i Returns) Logic.I) as H. cbn in H. rewrite N, P in H. discriminate.
  - destruct (p_sub s) as [|pr l] eqn:E; [reflexivity|]. pose proof (St (EPush 0) Logic.I) as H. cbn in H. rewrite TM, E in H. discriminate.
  - intros d M. pose proof (St ENotifyAll Logic.I) as H. cbn in H. rewrite M in H. discriminate.
Qed.

Lemma rest_all_run s : ginv s -> p_dead s = false -> p_at_rest s -> (exists w, In w (p_ws s) /\ is_exit w = false) -> p_q s = [] /\ all_run s.
Proof.
  intros [O P] D A [w [W X]]. destruct (rest_workers s D A) as (R1 & R2 & R3).
  assert (Wp : w_pc w = PSleep). { destruct (R1 w W) as [E|E]; [exact E|]. unfold is_exit in X. rewrite E in X. discriminate. }
  assert (Q : p_q s = []).
  { destruct (p_q s) as [|a q] eqn:Eq; [reflexivity|exfalso]. destruct P as [P1 P2 _ _ _ _ _].
    assert (S : existsb is_sleep (p_ws s) = true). { apply existsb_exists. exists w. split; [exact W|]. unfold is_sleep. rewrite Wp. reflexivity. }
    destruct P2 as [N|[N|N]]; [congruence| | |congruence].
    - destruct (in_nth _ _ W) as [i Ni]. pose proof (A (ENotify i) Logic.I) as H. unfold pstep in H. rewrite D in H. cbn in H.
      destruct (p_ntf s); [lia|]. rewrite S, Ni in H. unfold is_sleep in H. rewrite Wp in H. discriminate.
    - apply existsb_exists in N. destruct N as [x [I F]]. unfold act in F. destruct (R1 x I) as [E|E]; rewrite E in F; discriminate. }
  split; [exact Q|]. intros t T.
  assert (Rn : flat_map run_of (p_ws s) = []).
  { clear - R1. induction (p_ws s) as [|a l IH]; [reflexivity|]. cbn. rewrite IH by (intros x X; apply R1; right; exact X).
    unfold run_of. destruct (R1 a) as [E|E]; [left; reflexivity| |]; rewrite E; reflexivity. }
  pose proof (O t) as H. unfold places in H. rewrite Q, Rn in H. cbn in H.
  apply (count_occ_In Nat.eq_dec). rewrite H. apply count_occ_In. apply in_seq. lia.
Qed.

(** * Workers that are not told to stop *)
Lemma kept_step s e s' : pinv s -> closing e -> p_des s = DNone -> has_worker s -> pstep s e = Some s' -> p_des s' = DNone /\ has_worker s'.
Proof.
  intros I C De [w0 [W S]] H. apply pstep_unfold in H. destruct H as [_ H].
  assert (G : forall i w c, nth_error (p_ws s) i = Some w -> exists x, In x (put (p_ws s) i (at_pc w c)) /\ w_stop x = false).
  { intros i w c N. destruct (in_put_old _ _ (at_pc w c) _ _ N W) as [E|E]; [|eauto]. subst w0. exists (at_pc w c). split; [eapply in_put_new; eauto|exact S]. }
  destruct e; cbn in C; try contradiction; cbn [pstep0] in H.
  - destruct (tm_free s); [|discriminate]. destruct (nth_error (p_sub s) k); [|discriminate]. injection H as <-. split; [exact De|]. exists w0. auto.
  - destruct (p_ntf s); [discriminate|]. cbv zeta in H. destruct (existsb is_sleep (p_ws s)); [|injection H as <-; split; [exact De|exists w0; auto]].
    destruct (nth_error (p_ws s) w) as [x|] eqn:E; [|discriminate]. destruct (is_sleep x); [|discriminate]. injection H as <-. split; [exact De|]. eapply G; eauto.
  - destruct (nth_error (p_ws s) w) as [x|] eqn:E; [|discriminate]. destruct (w_pc x); try discriminate. destruct (tm_free s); [|discriminate].
    unfold work in H. destruct (p_q s) as [|a q] eqn:Eq; [injection H as <-; split; [exact De|eapply G; eauto]|]. rewrite <- Eq in *.
    destruct (is_top (p_q s) k); [|discriminate]. destruct (nth_error (p_q s) k) as [[u pr]|]; [|discriminate]. injection H as <-. split; [exact De|eapply G; eauto].
  - destruct (nth_error (p_ws s) w) as [x|] eqn:E; [|discriminate]. destruct (w_pc x); try discriminate. injection H as <-. split; [exact De|eapply G; eauto].
  - destruct (nth_error (p_ws s) w) as [x|] eqn:E; [|discriminate]. destruct (w_pc x); try discriminate. destruct o; try contradiction; injection H as <-; (split; [exact De|eapply G; eauto]).
  - destruct (p_mu s); try discriminate. injection H as <-. split; [exact De|]. exists (rouse w0). split; [apply in_map; exact W|]. unfold rouse. destruct (is_sleep w0); exact S.
  - destruct (p_mu s) as [|d|[]] eqn:M; try discriminate; destruct (forallb _ _) eqn:F; try discriminate; injection H as <-.
    + exfalso. destruct I as [_ _ _ _ I5 _ _]. rewrite I5 in S; [discriminate|auto|exact W].
    + split; [exact De|]. exists w0. split; [|exact S]. apply filter_In. split; [exact W|].
      destruct (w_leave w0) eqn:L; [|reflexivity]. destruct I as [_ _ _ I4 _ _ _]. rewrite (I4 _ W L) in S. discriminate.
  - rewrite De in H. discriminate.
Qed.
Lemma kept_run es : forall s, ginv s -> Forall closing es -> p_des s = DNone -> has_worker s -> p_des (prun s es) = DNone /\ has_worker (prun s es).
Proof.
  induction es as [|e es IH]; intros s G F D H; [auto|]. inversion F; subst. change (prun s (e :: es)) with (prun (pnext s e) es).
  assert (K : p_des (pnext s e) = DNone /\ has_worker (pnext s e)).
  { unfold pnext. destruct (pstep s e) eqn:E; [|auto]. eapply kept_step; eauto. apply G. }
  apply IH; [apply ginv_next, G|assumption|apply K|apply K].
Qed.

Lemma tasks_run_in_the_end s es : ginv s -> p_dead s = false -> p_des s = DNone -> has_worker s ->
  Forall closing es -> p_all_happen s es ->
  length es <= pmeas s /\ (p_at_rest (prun s es) -> p_q (prun s es) = [] /\ all_run (prun s es)).
Proof.
  intros G D De H F A. split; [apply p_bounded; assumption|]. intros R.
  destruct (kept_run es s G F De H) as [_ [w [W S]]]. pose proof (ginv_run es s G) as G'.
  apply rest_all_run; [exact G'|apply dead_run; assumption|exact R|]. exists w. split; [exact W|]. apply G'; assumption.
Qed.

(** * C145: stopping *)
Definition stopping (s : pool) : Prop := forall w, In w (p_ws s) -> w_stop w = true -> w_pc w <> PSleep /\ w_pc w <> PGap.
Lemma stopping_step s e s' : stopping s -> closing e -> p_des s <> DFlag -> pstep s e = Some s' -> stopping s' /\ p_des s' <> DFlag.
Proof.
  intros P C De H. apply pstep_unfold in H. destruct H as [_ H].
  assert (G : forall i w c, nth_error (p_ws s) i = Some w -> (w_stop w = true -> c <> PSleep /\ c <> PGap) ->
     forall x, In x (put (p_ws s) i (at_pc w c)) -> w_stop x = true -> w_pc x <> PSleep /\ w_pc x <> PGap).
  { intros i w c N K x X S. destruct (in_put _ _ _ _ X) as [->|X']; [exact (K S)|exact (P x X' S)]. }
  destruct e; cbn in C; try contradiction; cbn [pstep0] in H.
  - destruct (tm_free s); [|discriminate]. destruct (nth_error (p_sub s) k); [|discriminate]. injection H as <-. auto.
  - destruct (p_ntf s); [discriminate|]. cbv zeta in H. destruct (existsb is_sleep (p_ws s)); [|injection H as <-; auto].
    destruct (nth_error (p_ws s) w) as [x|] eqn:E; [|discriminate]. destruct (is_sleep x); [|discriminate]. injection H as <-. split; [|exact De].
    refine (G _ _ _ E _). intros _. split; discriminate.
  - destruct (nth_error (p_ws s) w) as [x|] eqn:E; [|discriminate]. destruct (w_pc x); try discriminate. destruct (tm_free s); [|discriminate].
    unfold work in H. destruct (p_q s) as [|a q] eqn:Eq.
    + injection H as <-. split; [|exact De]. refine (G _ _ _ E _). intros S. rewrite S. split; discriminate.
    + rewrite <- Eq in *. destruct (is_top (p_q s) k); [|discriminate]. destruct (nth_error (p_q s) k) as [[u pr]|]; [|discriminate]. injection H as <-. split; [|exact De].
      refine (G _ _ _ E _). intros _. split; discriminate.
  - destruct (nth_error (p_ws s) w) as [x|] eqn:E; [|discriminate]. destruct (w_pc x) eqn:Ep; try discriminate. injection H as <-. split; [|exact De].
    refine (G _ _ _ E _). intros S. exfalso. destruct (P x (nth_in _ _ _ E) S) as [_ Q]. congruence.
  - destruct (nth_error (p_ws s) w) as [x|] eqn:E; [|discriminate]. destruct (w_pc x); try discriminate.
    destruct o; try contradiction; injection H as <-; (split; [|exact De]; refine (G _ _ _ E _); intros _; split; discriminate).
  - destruct (p_mu s); try discriminate. injection H as <-. split; [|exact De]. intros x X S. cbn in X. apply in_map_iff in X. destruct X as [y [<- Y]].
    unfold rouse in *. destruct (is_sleep y) eqn:Q; [cbn; split; discriminate|]. apply P; assumption.
  - destruct (p_mu s) as [|d|[]] eqn:M; try discriminate; destruct (forallb _ _) eqn:F; try discriminate; injection H as <-.
    + split; [exact P|discriminate].
    + split; [|exact De]. intros x X. cbn in X. apply filter_In in X. apply P. tauto.
  - destruct (p_des s); try discriminate. congruence.
Qed.
Lemma stopping_run es : forall s, stopping s -> Forall closing es -> p_des s <> DFlag -> stopping (prun s es) /\ p_des (prun s es) <> DFlag.
Proof.
  induction es as [|e es IH]; intros s P F D; [auto|]. inversion F; subst. change (prun s (e :: es)) with (prun (pnext s e) es).
  assert (K : stopping (pnext s e) /\ p_des (pnext s e) <> DFlag).
  { unfold pnext. destruct (pstep s e) eqn:E; [|auto]. eapply stopping_step; eauto. }
  apply IH; [apply K|assumption|apply K].
Qed.
Lemma stop_returns s d es : ginv s -> p_dead s = false -> p_mu s = MNotify d -> p_des s <> DFlag ->
  (forall w, In w (p_ws s) -> w_pc w <> PGap) ->
  let u := pnext s ENotifyAll in
  Forall closing es -> p_at_rest (prun u es) -> p_mu (prun u es) = MFree /\ p_des (prun u es) <> DIn.
Proof.
  intros G D M De NG u F R.
  assert (Eu : u = set_mu s (map rouse (p_ws s)) (MJoin d) (p_des s)). { unfold u, pnext, pstep. rewrite D. cbn. rewrite M. reflexivity. }
  assert (St : stopping u).
  { rewrite Eu. intros w W S. cbn in W. apply in_map_iff in W. destruct W as [y [<- Y]]. pose proof (NG y Y).
    unfold rouse, is_sleep. destruct (w_pc y) eqn:E; cbn; rewrite ?E; split; congruence. }
  assert (Gu : ginv u) by apply ginv_next, G.
  assert (Du : p_dead u = false) by (rewrite Eu; exact D).
  destruct (stopping_run es u St F) as [T1 T2]. { rewrite Eu. exact De. }
  pose proof (ginv_run es u Gu) as [_ I]. pose proof (dead_run es u Du F) as Dt. set (t := prun u es) in *.
  destruct (rest_workers t Dt R) as (R1 & R2 & R3).
  assert (X : forall w, In w (p_ws t) -> w_stop w = true -> is_exit w = true).
  { intros w W S. destruct (T1 w W S) as [Q1 Q2]. destruct (R1 w W) as [E|E]; [congruence|]. unfold is_exit. rewrite E. reflexivity. }
  destruct I as [_ _ _ I4 I5 I6 _].
  assert (Mu : p_mu t = MFree).
  { destruct (p_mu t) as [|d'|d'] eqn:Mt; [reflexivity|exfalso; exact (R3 d' eq_refl)|exfalso].
    pose proof (R EJoinWorkers Logic.I) as H. unfold pstep in H. rewrite Dt in H. cbn in H. rewrite Mt in H. destruct d'.
    - assert (B : forallb is_exit (p_ws t) = true). { apply forallb_forall. intros w W. apply X; auto. }
      rewrite B in H. discriminate.
    - assert (B : forallb (fun w => negb (w_leave w) || is_exit w) (p_ws t) = true).
      { apply forallb_forall. intros w W. destruct (w_leave w) eqn:L; [|reflexivity]. cbn. apply X; auto. }
      rewrite B in H. discriminate. }
  split; [exact Mu|]. intros Q. apply I6 in Q. rewrite Mu in Q. destruct Q; discriminate.
Qed.

(** * C145: what has been run when Destroy returns *)
Definition winding (s : pool) : Prop :=
  p_des s <> DNone /\ p_sub s = [] /\ ((exists w, In w (p_ws s) /\ is_exit w = false) \/ p_q s = []) /\
  (p_des s = DDone -> p_q s = [] /\ flat_map run_of (p_ws s) = []).
Lemma all_exit_run ws : forallb is_exit ws = true -> flat_map run_of ws = [].
Proof.
  induction ws as [|a l IH]; cbn; [reflexivity|]. intros H. apply andb_true_iff in H. destruct H as [H K]. rewrite (IH K).
  unfold is_exit in H. unfold run_of. destruct (w_pc a); try discriminate. reflexivity.
Qed.
Lemma winding_step s e s' : winding s -> pstep s e = Some s' -> winding s'.
Proof.
  intros (A & B & C & D) H. apply pstep_unfold in H. destruct H as [_ H].
  assert (G : forall i w c, nth_error (p_ws s) i = Some w -> c <> PExit -> exists x, In x (put (p_ws s) i (at_pc w c)) /\ is_exit x = false).
  { intros i w c N X. exists (at_pc w c). split; [eapply in_put_new; eauto|]. unfold is_exit. cbn. destruct c; auto. congruence. }
  assert (Ru : forall i w c, nth_error (p_ws s) i = Some w -> (forall t, c <> PRun t) -> flat_map run_of (p_ws s) = [] -> flat_map run_of (put (p_ws s) i (at_pc w c)) = []).
  { intros i w c N X E. destruct (flat_map run_of (put (p_ws s) i (at_pc w c))) as [|t l] eqn:Q; [reflexivity|exfalso].
    assert (In t (flat_map run_of (put (p_ws s) i (at_pc w c)))) as K by (rewrite Q; left; reflexivity).
    apply in_flat_map in K. destruct K as [y [Y Z]]. destruct (in_put _ _ _ _ Y) as [->|Y'].
    - unfold run_of in Z. cbn in Z. destruct c; try contradiction. exact (X _ eq_refl).
    - assert (In t (flat_map run_of (p_ws s))) as K2 by (apply in_flat_map; eauto). rewrite E in K2. contradiction. }
  destruct e; cbn [pstep0] in H.
  - destruct (p_des s); try discriminate. congruence.
  - destruct (tm_free s); [|discriminate]. rewrite B in H. destruct k; discriminate.
  - destruct (p_ntf s); [discriminate|]. cbv zeta in H. destruct (existsb is_sleep (p_ws s)); [|injection H as <-; repeat split; cbn; auto; apply D; assumption].
    destruct (nth_error (p_ws s) w) as [x|] eqn:E; [|discriminate]. destruct (is_sleep x); [|discriminate]. injection H as <-.
    split; [exact A|]. split; [exact B|]. split; [left; eapply G; [exact E|discriminate]|]. intros Q. destruct (D Q). split; [assumption|]. apply Ru; auto. discriminate.
  - destruct (nth_error (p_ws s) w) as [x|] eqn:E; [|discriminate]. destruct (w_pc x); try discriminate. destruct (tm_free s); [|discriminate].
    unfold work in H. destruct (p_q s) as [|a q] eqn:Eq.
    + injection H as <-. split; [exact A|]. split; [exact B|]. split; [right; exact Eq|]. intros Q. split; [exact Eq|]. apply Ru; auto; [|apply D; exact Q]. destruct (w_stop x); discriminate.
    + rewrite <- Eq in *. destruct (is_top (p_q s) k); [|discriminate]. destruct (nth_error (p_q s) k) as [[u pr]|]; [|discriminate]. injection H as <-.
      split; [exact A|]. split; [exact B|]. split; [left; eapply G; [exact E|discriminate]|]. intros Q. destruct (D Q). congruence.
  - destruct (nth_error (p_ws s) w) as [x|] eqn:E; [|discriminate]. destruct (w_pc x) eqn:Ep; try discriminate. injection H as <-.
    split; [exact A|]. split; [exact B|]. split; [left; eapply G; [exact E|discriminate]|]. intros Q. destruct (D Q). split; [assumption|]. apply Ru; auto. discriminate.
  - destruct (nth_error (p_ws s) w) as [x|] eqn:E; [|discriminate]. destruct (w_pc x) eqn:Ep; try discriminate. injection H as <-.
    split; [exact A|]. split; [exact B|]. split; [left; eapply G; [exact E|discriminate]|]. intros Q. destruct (D Q). split; [assumption|]. apply Ru; auto. discriminate.
  - destruct (nth_error (p_ws s) w) as [x|] eqn:E; [|discriminate]. destruct (w_pc x) eqn:Ep; try discriminate.
    destruct o; injection H as <-; (split; [exact A|]; split; [exact B|]); try (split; [exact C|exact D]);
      (split; [left; eapply G; [exact E|discriminate]|]; intros Q; destruct (D Q); split; [assumption|]; apply Ru; auto; discriminate).
  - destruct (p_mu s); try discriminate. cbv zeta in H. destruct (n <? members (p_ws s)); injection H as <-; (split; [exact A|]; split; [exact B|]; split).
    + destruct C as [[w [W X]]|C]; [|auto]. left. assert (existsb (fun w => negb (is_exit w)) (shrink (p_ws s) n) = true) as K.
      { rewrite ex_shrink by reflexivity. apply existsb_exists. exists w. rewrite X. auto. }
      apply existsb_exists in K. destruct K as [y [Y Z]]. exists y. split; [exact Y|]. apply negb_true_iff, Z.
    + intros Q. destruct (D Q). split; [assumption|]. cbn. rewrite run_shrink. assumption.
    + destruct C as [[w [W X]]|C]; [|auto]. left. exists w. split; [cbn; apply in_or_app; auto|exact X].
    + intros Q. destruct (D Q). split; [assumption|]. cbn. rewrite run_new. assumption.
  - destruct (p_mu s); try discriminate. injection H as <-. split; [exact A|]. split; [exact B|]. split.
    + destruct C as [[w [W X]]|C]; [|auto]. left. exists (rouse w). split; [apply in_map; exact W|]. unfold rouse, is_sleep. destruct (w_pc w) eqn:E; auto.
    + intros Q. destruct (D Q). split; [assumption|]. cbn. rewrite run_map by apply rouse_run. assumption.
  - destruct (p_mu s) as [|d|[]] eqn:M; try discriminate; destruct (forallb _ _) eqn:F; try discriminate; injection H as <-.
    + assert (Q : p_q s = []). { destruct C as [[w [W X]]|C]; [|exact C]. rewrite forallb_forall in F. rewrite (F w W) in X. discriminate. }
      split; [discriminate|]. split; [exact B|]. split; [right; exact Q|]. intros _. split; [exact Q|]. apply all_exit_run, F.
    + split; [exact A|]. split; [exact B|]. split.
      * destruct C as [[w [W X]]|C]; [|auto]. left. exists w. split; [|exact X]. apply filter_In. split; [exact W|]. rewrite forallb_forall in F. specialize (F w W). rewrite X in F. rewrite orb_false_r in F. exact F.
      * intros Q. destruct (D Q). split; [assumption|]. cbn. rewrite run_filter by exact F. assumption.
  - destruct (p_des s); try discriminate. congruence.
  - destruct (p_des s); try discriminate. destruct (p_mu s); try discriminate. injection H as <-. split; [discriminate|]. split; [exact B|]. split; [|discriminate].
    destruct C as [[w [W X]]|C]; [|auto]. left. exists (mkW (w_pc w) true (w_leave w)). split; [|exact X]. cbn. apply in_map_iff. exists w. auto.
  - destruct (_ <? _); [|discriminate]. injection H as <-. split; [exact A|]. split; [exact B|]. split; [exact C|exact D].
Qed.
Lemma winding_run es : forall s, winding s -> winding (prun s es).
Proof.
  induction es as [|e es IH]; intros s W; [exact W|]. change (prun s (e :: es)) with (prun (pnext s e) es). apply IH.
  unfold pnext. destruct (pstep s e) eqn:E; [eapply winding_step; eauto|exact W].
Qed.
Lemma destroy_runs_all s es : ginv s -> p_dead s = false -> p_des s = DNone -> p_sub s = [] -> has_worker s ->
  let t := prun s (EDestroy :: es) in p_des t = DDone -> all_run t.
Proof.
  intros G D De Sb [w [W S]] t Q. unfold t in *. change (prun s (EDestroy :: es)) with (prun (pnext s EDestroy) es) in *.
  assert (Gt : ginv (prun (pnext s EDestroy) es)) by (apply ginv_run, ginv_next, G).
  assert (Wd : winding (prun (pnext s EDestroy) es)).
  { apply winding_run. unfold pnext, pstep. rewrite D. cbn. rewrite De. split; [discriminate|]. split; [exact Sb|]. split; [|discriminate].
    left. exists w. split; [exact W|]. destruct G as [_ I]. apply I; assumption. }
  destruct Wd as (_ & _ & _ & Z). destruct (Z Q) as [Z1 Z2]. intros x X. destruct Gt as [O _]. pose proof (O x) as H. unfold places in H. rewrite Z1, Z2 in H. cbn in H.
  apply (count_occ_In Nat.eq_dec). rewrite H. apply count_occ_In, in_seq. lia.
Qed.

(** * C146 and C147 *)
Lemma split_concat {A} fuel : forall (l : list A) bs, 0 < bs -> length l <= fuel -> concat (split fuel l bs) = l.
Proof.
  induction fuel as [|f IH]; intros l bs B L; [destruct l; [reflexivity|cbn in L; lia]|].
  destruct l as [|a l]; [reflexivity|]. cbn [split concat]. rewrite IH; [apply firstn_skipn|exact B|]. rewrite skipn_length. cbn [length] in *. lia.
Qed.
Lemma split_sizes {A} fuel : forall (l : list A) bs b, 0 < bs -> In b (split fuel l bs) -> 0 < length b <= bs.
Proof.
  induction fuel as [|f IH]; intros l bs b B H; [contradiction|]. destruct l as [|a l]; [contradiction|]. cbn [split] in H. destruct H as [<-|H]; [|eauto].
  rewrite firstn_length. cbn [length]. lia.
Qed.
Lemma split_count {A} fuel : forall (l : list A) bs, 0 < bs -> length (split fuel l bs) <= length l.
Proof.
  induction fuel as [|f IH]; intros l bs B; [cbn; lia|]. destruct l as [|a l]; [cbn; lia|]. cbn [split length].
  specialize (IH (skipn bs (a :: l)) bs B). rewrite skipn_length in IH. cbn [length] in IH. lia.
Qed.

Lemma first_bad_zero l : first_bad l = 0%Z <-> Forall (fun c => c = 0%Z) l.
Proof.
  induction l as [|c l IH]; cbn; [split; auto|]. destruct (Z.eqb_spec c 0) as [->|N]; [rewrite IH; split; [constructor; auto|inversion 1; auto]|].
  split; [congruence|]. inversion 1. congruence.
Qed.
Lemma first_bad_in l c : first_bad l = c -> c <> 0%Z -> In c l.
Proof. induction l as [|d l IH]; cbn; intros H N; [congruence|]. destruct (d =? 0)%Z eqn:E; [right; auto|left; exact H]. Qed.

Lemma rows_ok fails rows : (forall r, In r rows -> fails r = false) -> rows_until fails rows = (rows, false).
Proof.
  induction rows as [|r q IH]; intros H; [reflexivity|]. cbn. rewrite (H r) by (left; reflexivity). rewrite IH by (intros x X; apply H; right; exact X). reflexivity.
Qed.
Lemma map_snd_combine {A B} (f : B -> A) (bs : list B) : forall (is : list nat), length bs <= length is ->
  map (fun x => f (snd x)) (combine is bs) = map f bs.
Proof. induction bs as [|b bs IH]; intros [|i is] L; cbn in *; try reflexivity; try lia. rewrite IH by lia. reflexivity. Qed.
Lemma upsert_all pool n bs fails : 0 < bs ->
  (forall acc, pool = Some acc -> forall i, acc i = true) -> (forall r, r < n -> fails r = false) ->
  hnsw_upsert pool n bs fails = (seq 0 n, 0%Z).
Proof.
  intros B A F. unfold hnsw_upsert, parallel_for. destruct pool as [acc|].
  - f_equal. rewrite (map_ext_in _ (fun x => fst (rows_until fails (snd x)))) by (intros x _; rewrite (A acc eq_refl); reflexivity).
    rewrite (map_snd_combine (fun b => fst (rows_until fails b))).
    + rewrite (map_ext_in _ (fun b => b)); [rewrite map_id; apply split_concat; [exact B|apply le_n]|].
      intros b Hb. rewrite rows_ok; [reflexivity|]. intros r R. apply F.
      assert (In r (concat (split_batches (seq 0 n) bs))) as K by (apply in_concat; eauto).
      unfold split_batches in K. rewrite split_concat in K by (auto; apply le_n). apply in_seq in K. lia.
    + etransitivity; [apply split_count; exact B|]. apply le_n.
  - rewrite rows_ok; [reflexivity|]. intros r R. apply F. apply in_seq in R. lia.
Qed.

Lemma split_one {A} fuel : forall l : list A, length l <= fuel -> split fuel l 1 = map (fun x => [x]) l.
Proof. induction fuel as [|f IH]; intros [|a l] L; cbn in *; try reflexivity; try lia. rewrite IH by lia. reflexivity. Qed.

Lemma nth_ext_opt {A} (l : list A) : forall l', (forall j, nth_error l j = nth_error l' j) -> l = l'.
Proof.
  induction l as [|a l IH]; intros [|b l'] H; [reflexivity|pose proof (H 0); discriminate|pose proof (H 0); discriminate|].
  pose proof (H 0) as H0. cbn in H0. injection H0 as ->. f_equal. apply IH. intros j. exact (H (S j)).
Qed.
Lemma search_one {Q A} (ans : Q -> A) (qs : list Q) order : Permutation order (seq 0 (length qs)) ->
  search_parallel ans qs 1 order = map (fun q => Some (ans q)) qs.
Proof.
  intros P. unfold search_parallel, split_batches. rewrite split_one by apply le_n.
  assert (ND : NoDup order) by (eapply Permutation_NoDup; [apply Permutation_sym, P|apply seq_NoDup]).
  assert (Bd : forall i, In i order -> i < length qs) by (intros i I; apply (Permutation_in _ P) in I; apply in_seq in I; lia).
  set (f := fun (res : list (option A)) (index : nat) => place res index (map ans (nth index (map (fun x => [x]) qs) []))).
  assert (One : forall res i q, nth_error qs i = Some q -> f res i = put res i (Some (ans q))).
  { intros res i q N. unfold f. assert (E : nth i (map (fun x => [x]) qs) [] = [q]) by (apply nth_error_nth; rewrite nth_error_map, N; reflexivity). rewrite E. reflexivity. }
  assert (Len : forall o res, (forall i, In i o -> i < length qs) -> length (fold_left f o res) = length res).
  { induction o as [|i o IH]; intros res H; [reflexivity|]. cbn. rewrite IH by (intros; apply H; right; assumption).
    destruct (nth_error qs i) as [q|] eqn:N; [|apply nth_error_None in N; specialize (H i (or_introl eq_refl)); lia]. rewrite (One _ _ _ N). apply put_length. }
  assert (Keep : forall o res j, (forall i, In i o -> i < length qs) -> ~ In j o -> nth_error (fold_left f o res) j = nth_error res j).
  { induction o as [|i o IH]; intros res j H N; [reflexivity|]. cbn. rewrite IH; [|intros; apply H; right; assumption|intros K; apply N; right; exact K].
    destruct (nth_error qs i) as [q|] eqn:M; [|apply nth_error_None in M; specialize (H i (or_introl eq_refl)); lia]. rewrite (One _ _ _ M).
    apply nth_put_other. intros ->. apply N. left. reflexivity. }
  assert (Put : forall o res j q, NoDup o -> (forall i, In i o -> i < length qs) -> length res = length qs -> In j o -> nth_error qs j = Some q ->
     nth_error (fold_left f o res) j = Some (Some (ans q))).
  { induction o as [|i o IH]; intros res j q N H L I M; [contradiction|]. inversion N; subst. cbn.
    destruct I as [->|I].
    - rewrite Keep by (auto; intros; apply H; right; assumption). rewrite (One _ _ _ M).
      destruct (nth_error res j) as [z|] eqn:Z; [|apply nth_error_None in Z; specialize (H j (or_introl eq_refl)); lia]. eapply nth_put_same; eauto.
    - apply IH; auto; [intros; apply H; right; assumption|].
      destruct (nth_error qs i) as [q'|] eqn:M'; [|apply nth_error_None in M'; specialize (H i (or_introl eq_refl)); lia]. rewrite (One _ _ _ M'). rewrite put_length. exact L. }
  apply nth_ext_opt. intros j. rewrite nth_error_map. destruct (nth_error qs j) as [q|] eqn:M; cbn.
  - apply Put; auto; [apply repeat_length|]. apply (Permutation_in _ (Permutation_sym P)). apply in_seq. assert (j < length qs) by (apply nth_error_Some; congruence). lia.
  - apply nth_error_None. rewrite Len by exact Bd. rewrite repeat_length. apply nth_error_None. exact M.
Qed.

(** * More about the lock, in the words of the theorems *)
Lemma cnt_filter {A} (f : A -> bool) l : cnt f l = Z.of_nat (length (filter f l)).
Proof. induction l as [|a l IH]; [reflexivity|]. cbn [cnt filter]. rewrite IH. destruct (f a); cbn [b2z length]; lia. Qed.
Lemma cnt_sum l : (cnt isWS l + cnt isWA l)%Z = cnt (fun t => match t with WSleep | WAwake => true | _ => false end) l.
Proof. induction l as [|a l IH]; [reflexivity|]. cbn [cnt]. rewrite <- IH. destruct a; cbn [isWS isWA b2z]; lia. Qed.
Lemma counts_right s : linv s ->
  active_readers (lk s) = Z.of_nat (length (filter (fun t => match t with Reading => true | _ => false end) (th s))) /\
  (active_writer (lk s) = true <-> exists i, writes s i) /\
  waiting_writers (lk s) = Z.of_nat (length (filter (fun t => match t with WSleep | WAwake => true | _ => false end) (th s))).
Proof.
  intros [I1 I2 I3 _ _ _]. rewrite <- !cnt_filter. rewrite <- cnt_sum. split; [exact I1|]. split; [|exact I3]. split.
  - intros E. rewrite E in I2. cbn in I2. destruct (cnt_ex isW (th s)) as (k & x & K & X); [lia|]. exists k. destruct x; try discriminate. exact K.
  - intros [i W]. pose proof (cnt_pos isW _ _ _ W eq_refl). destruct (active_writer (lk s)); [reflexivity|]. cbn in I2. lia.
Qed.
Lemma lock_ends n es1 es2 : let s := lrun (sys0 n) es1 in
  Forall closing_lock es2 -> l_all_happen s es2 ->
  (Z.of_nat (length es2) <= (Z.of_nat n + 1) * (2 * Z.of_nat n) + Z.of_nat n)%Z /\
  (l_at_rest (lrun s es2) -> all_idle (lrun s es2)) /\
  (~ all_idle (lrun s es2) -> exists e, closing_lock e /\ lstep (lrun s es2) e <> None).
Proof.
  intros s F H. assert (L : linv (lrun s es2)) by (apply lrun_linv, lrun_linv, linv0). split; [|split].
  - assert (N : length (th s) = n) by (unfold s; rewrite lrun_length; apply repeat_length).
    pose proof (l_bounded es2 s F H) as B. pose proof (meas_bound (th s)) as M. rewrite N in *. lia.
  - apply rest_idle, L.
  - intros NI. destruct (rest_dec (lrun s es2)) as [R|R]; [exfalso; apply NI, rest_idle; assumption|exact R].
Qed.
Lemma run_status codes : let r := parallel_run (map (fun c => (true, FRet c)) codes) in
  (r = 0%Z <-> Forall (fun c => c = 0%Z) codes) /\ (r <> 0%Z -> In r codes).
Proof.
  unfold parallel_run. rewrite map_map. cbn [batch_status]. rewrite map_id. split; [apply first_bad_zero|]. intros N. eapply first_bad_in; [reflexivity|exact N].
Qed.
