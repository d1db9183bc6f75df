(** Lemmas about the pool. *)
From Coq Require Import ZArith List Bool Arith Lia Permutation.
From Verif Require Import LkModel LkSpec LkProofs.
Import ListNotations.
Local Open Scope nat_scope.

(** * Lists *)
Lemma in_put {A} (l : list A) i x y : In y (put l i x) -> y = x \/ In y l.
Proof. revert i. induction l as [|a l IH]; intros [|i] H; cbn in *; auto; destruct H; auto. destruct (IH _ H); auto. Qed.
Lemma in_put_new {A} (l : list A) i x y : nth_error l i = Some y -> In x (put l i x).
Proof. revert i. induction l as [|a l IH]; intros [|i] H; cbn in *; try discriminate; eauto. Qed.
Lemma in_put_old {A} (l : list A) i x y z : nth_error l i = Some y -> In z l -> z = y \/ In z (put l i x).
Proof.
  revert i. induction l as [|a l IH]; intros [|i] H K; cbn in *; try discriminate.
  - injection H as ->. destruct K; auto.
  - destruct K; auto. destruct (IH _ H H0); auto.
Qed.
Lemma nth_in {A} (l : list A) i x : nth_error l i = Some x -> In x l.
Proof. apply nth_error_In. Qed.
Lemma in_nth {A} (l : list A) x : In x l -> exists i, nth_error l i = Some x.
Proof. apply In_nth_error. Qed.
Lemma cut_length {A} (l : list A) k x : nth_error l k = Some x -> S (length (cut l k)) = length l.
Proof. revert k. induction l as [|a l IH]; intros [|k] H; cbn in *; try discriminate; eauto. Qed.

(** * C143: every task is in one place *)
Definition run_of (w : worker) : list nat := match w_pc w with PRun t => [t] | _ => [] end.
Notation occ := (count_occ Nat.eq_dec).
Lemma run_put ws i w w' t : nth_error ws i = Some w ->
  occ (flat_map run_of (put ws i w')) t + occ (run_of w) t = occ (flat_map run_of ws) t + occ (run_of w') t.
Proof.
  revert i. induction ws as [|a ws IH]; intros [|i] H; cbn [nth_error put flat_map] in *; try discriminate.
  - injection H as ->. rewrite !count_occ_app. lia.
  - rewrite !count_occ_app. pose proof (IH _ H). lia.
Qed.
Lemma cut_occ (q : list (nat * Z)) k x pr t : nth_error q k = Some (x, pr) ->
  occ (map fst (cut q k)) t + occ [x] t = occ (map fst q) t.
Proof.
  revert k. induction q as [|a q IH]; intros [|k] H; try discriminate.
  - cbn [nth_error] in H. injection H as ->. cbn [cut map fst]. cbn. destruct (Nat.eq_dec x t); lia.
  - cbn [nth_error] in H. pose proof (IH _ H) as G. cbn [cut map]. cbn in G |- *. destruct (Nat.eq_dec (fst a) t), (Nat.eq_dec x t); lia.
Qed.
Lemma run_map (f : worker -> worker) ws : (forall w, run_of (f w) = run_of w) -> flat_map run_of (map f ws) = flat_map run_of ws.
Proof. intros H. induction ws as [|a ws IH]; cbn; [reflexivity|]. rewrite H, IH. reflexivity. Qed.
Lemma run_shrink ws : forall n, flat_map run_of (shrink ws n) = flat_map run_of ws.
Proof.
  induction ws as [|a ws IH]; intros n; cbn [shrink]; [reflexivity|].
  destruct (w_leave a); [|destruct n]; cbn [flat_map]; rewrite IH; reflexivity.
Qed.
Lemma run_new ws n : flat_map run_of (ws ++ repeat new_worker n) = flat_map run_of ws.
Proof. rewrite flat_map_app. induction n as [|n IH]; cbn; [apply app_nil_r|exact IH]. Qed.
Lemma run_filter ws : forallb (fun w => negb (w_leave w) || is_exit w) ws = true ->
  flat_map run_of (filter (fun w => negb (w_leave w)) ws) = flat_map run_of ws.
Proof.
  induction ws as [|a ws IH]; cbn [forallb filter]; intros H; [reflexivity|]. apply andb_true_iff in H. destruct H as [H K].
  destruct (w_leave a) eqn:L; cbn [negb] in *; cbn [flat_map]; rewrite ?IH by exact K; [|reflexivity].
  cbn in H. unfold is_exit in H. unfold run_of at 2. destruct (w_pc a); try discriminate. reflexivity.
Qed.
Lemma rouse_run w : run_of (rouse w) = run_of w.
Proof. unfold rouse, is_sleep, run_of, at_pc. destruct (w_pc w) eqn:E; cbn; rewrite ?E; reflexivity. Qed.

Definition places (s : pool) (t : nat) : nat := occ (map fst (p_q s)) t + occ (flat_map run_of (p_ws s)) t + occ (p_done s) t.
Definition once (s : pool) : Prop := forall t, places s t = occ (seq 0 (p_next s)) t.

Lemma pstep_unfold s e s' : pstep s e = Some s' -> p_dead s = false /\ pstep0 s e = Some s'.
Proof. unfold pstep. destruct (p_dead s); [discriminate|auto]. Qed.

Ltac open_step H :=
  repeat match type of H with
  | context [match nth_error ?l ?i with _ => _ end] => let E := fresh "En" in destruct (nth_error l i) eqn:E
  | context [match w_pc ?w with _ => _ end] => let E := fresh "Ep" in destruct (w_pc w) eqn:E
  | context [if ?b then _ else _] => let E := fresh "Eb" in destruct b eqn:E
  | context [match ?x with _ => _ end] => let E := fresh "Em" in destruct x eqn:E
  end; try discriminate.

Lemma once_step s e s' : once s -> pstep s e = Some s' -> once s'.
Proof.
  intros O H. apply pstep_unfold in H. destruct H as [_ H]. intros t. specialize (O t). unfold places in *.
  destruct e; cbn [pstep0] in H.
  - open_step H. injection H as <-. exact O.
  - open_step H. injection H as <-. cbn [p_q p_ws p_done p_next]. rewrite seq_S, map_app, !count_occ_app.
    cbn [map fst plus]. cbn in O |- *. lia.
  - destruct (p_ntf s); [discriminate|]. cbv zeta in H. destruct (existsb is_sleep (p_ws s)); [|injection H as <-; exact O].
    destruct (nth_error (p_ws s) w) as [x|] eqn:En; [|discriminate]. destruct (is_sleep x) eqn:Eb; [|discriminate].
    injection H as <-; cbn [p_q p_ws p_done p_next].
    pose proof (run_put _ _ _ (at_pc x PCheck) t En) as R. unfold is_sleep in Eb. unfold run_of at 2 in R. destruct (w_pc x); try discriminate. cbn in R. lia.
  - destruct (nth_error (p_ws s) w) as [x|] eqn:En; [|discriminate]. destruct (w_pc x) eqn:Ep; try discriminate.
    destruct (tm_free s); [|discriminate]. unfold work in H.
    assert (R := fun c => run_put _ _ _ (at_pc x c) t En).
    assert (Rx : run_of x = []) by (unfold run_of; rewrite Ep; reflexivity).
    destruct (p_q s) as [|a q] eqn:Eq.
    + injection H as <-. cbn [p_q p_ws p_done p_next set_ws]. rewrite Eq. specialize (R (if w_stop x then PExit else PGap)). rewrite Rx in R.
      destruct (w_stop x); cbn in R |- *; cbn in O; lia.
    + rewrite <- Eq in *. destruct (is_top (p_q s) k); [|discriminate].
      destruct (nth_error (p_q s) k) as [[u pr]|] eqn:Ek; [|discriminate]. injection H as <-. cbn [p_q p_ws p_done p_next].
      pose proof (cut_occ _ _ _ _ t Ek) as G. specialize (R (PRun u)). rewrite Rx in R. change (run_of (at_pc x (PRun u))) with [u] in R. change (occ [] t) with 0 in R. lia.
  - open_step H. injection H as <-. cbn [p_q p_ws p_done p_next set_ws].
    pose proof (run_put _ _ _ (at_pc w0 PSleep) t En) as R. unfold run_of at 2 in R. rewrite Ep in R. cbn in R. lia.
  - open_step H. injection H as <-. cbn [p_q p_ws p_done p_next set_ws].
    pose proof (run_put _ _ _ (at_pc w0 PCheck) t En) as R. unfold run_of at 2 in R. rewrite Ep in R. cbn in R. lia.
  - destruct (nth_error (p_ws s) w) as [x|] eqn:En; [|discriminate]. destruct (w_pc x) eqn:Ep; try discriminate.
    pose proof (run_put _ _ _ (at_pc x PCheck) t En) as R. unfold run_of at 2 in R. rewrite Ep in R. change (run_of (at_pc x PCheck)) with (@nil nat) in R.
    change (occ [] t) with 0 in R.
    destruct o; injection H as <-; cbn [p_q p_ws p_done p_next]; rewrite ?count_occ_app; lia.
  - destruct (p_mu s); try discriminate. cbv zeta in H. destruct (n <? members (p_ws s)); injection H as <-; cbn [p_q p_ws p_done p_next set_ws set_mu].
    + rewrite run_shrink. exact O.
    + rewrite run_new. exact O.
  - destruct (p_mu s); try discriminate. injection H as <-. cbn [p_q p_ws p_done p_next set_mu]. rewrite run_map by apply rouse_run. exact O.
  - destruct (p_mu s) as [|d|[]]; try discriminate.
    + destruct (forallb is_exit (p_ws s)); [|discriminate]. injection H as <-. exact O.
    + destruct (forallb _ (p_ws s)) eqn:F; [|discriminate]. injection H as <-. cbn [p_q p_ws p_done p_next set_mu]. rewrite run_filter by exact F. exact O.
  - destruct (p_des s); try discriminate. injection H as <-. exact O.
  - destruct (p_des s); try discriminate. destruct (p_mu s); try discriminate. injection H as <-.
    cbn [p_q p_ws p_done p_next set_mu]. rewrite run_map by reflexivity. exact O.
  - destruct (_ <? _); [|discriminate]. injection H as <-. exact O.
Qed.

(** * Facts about the workers *)
Definition act (w : worker) : bool := match w_pc w with PCheck | PRun _ => true | _ => false end.
Record pinv (s : pool) : Prop := mkPinv {
  pi_gap : existsb is_gap (p_ws s) = true -> p_q s = [];
  pi_wake : p_q s <> [] -> 0 < p_ntf s \/ existsb act (p_ws s) = true \/ existsb is_sleep (p_ws s) = false;
  pi_exit : forall w, In w (p_ws s) -> w_stop w = false -> is_exit w = false;
  pi_leave : forall w, In w (p_ws s) -> w_leave w = true -> w_stop w = true;
  pi_des : p_mu s = MNotify true \/ p_mu s = MJoin true -> forall w, In w (p_ws s) -> w_stop w = true;
  pi_in : p_des s = DIn <-> (p_mu s = MNotify true \/ p_mu s = MJoin true);
  pi_join : forall t, occ (p_joined s) t <= occ (p_done s) t }.

Lemma pinv0 n : pinv (pool0 n).
Proof.
  assert (G : forall w, In w (repeat new_worker n) -> w = new_worker) by (intros w H; eapply repeat_spec; exact H).
  split; cbn.
  - reflexivity.
  - congruence.
  - intros w H _. rewrite (G _ H). reflexivity.
  - intros w H. rewrite (G _ H). discriminate.
  - intros [H|H]; discriminate.
  - split; [discriminate|intros [H|H]; discriminate].
  - reflexivity.
Qed.

Lemma ex_put {A} (f : A -> bool) l i x y : nth_error l i = Some y -> f x = true -> existsb f (put l i x) = true.
Proof. intros H F. apply existsb_exists. exists x. split; [eapply in_put_new; eauto|exact F]. Qed.
Lemma ex_put_inv {A} (f : A -> bool) l i x : existsb f (put l i x) = true -> f x = true \/ existsb f l = true.
Proof. intros H. apply existsb_exists in H. destruct H as [y [H F]]. destruct (in_put _ _ _ _ H); [subst; auto|]. right. apply existsb_exists. eauto. Qed.
Lemma ex_false {A} (f : A -> bool) l : existsb f l = false <-> forall x, In x l -> f x = false.
Proof.
  split.
  - intros H x K. destruct (f x) eqn:F; [|reflexivity]. assert (existsb f l = true) by (apply existsb_exists; eauto). congruence.
  - intros H. destruct (existsb f l) eqn:E; [|reflexivity]. apply existsb_exists in E. destruct E as [x [K F]]. rewrite (H _ K) in F. discriminate.
Qed.
Lemma ex_map {A B} (f : B -> bool) (g : A -> B) l : existsb f (map g l) = existsb (fun a => f (g a)) l.
Proof. induction l as [|a l IH]; cbn; [reflexivity|]. rewrite IH. reflexivity. Qed.
Lemma ex_ext {A} (f g : A -> bool) l : (forall a, f a = g a) -> existsb f l = existsb g l.
Proof. intros H. induction l as [|a l IH]; cbn; [reflexivity|]. rewrite H, IH. reflexivity. Qed.
Lemma ex_shrink f ws : (forall w b c, f (mkW (w_pc w) b c) = f w) -> forall n, existsb f (shrink ws n) = existsb f ws.
Proof.
  intros F. induction ws as [|a ws IH]; intros n; cbn [shrink]; [reflexivity|].
  destruct (w_leave a); [|destruct n]; cbn [existsb]; rewrite ?F, IH; reflexivity.
Qed.
Lemma in_shrink ws x : forall n, In x (shrink ws n) -> In x ws \/ exists y, In y ws /\ x = mkW (w_pc y) true true.
Proof.
  induction ws as [|a ws IH]; intros n H; cbn [shrink] in H; [contradiction|].
  destruct (w_leave a); [|destruct n]; cbn in H; destruct H as [<-|H]; try (left; left; reflexivity);
    try (right; exists a; split; [left; reflexivity|reflexivity]);
    destruct (IH _ H) as [K|[y [K E]]]; try (left; right; exact K); right; exists y; (split; [right; exact K|exact E]).
Qed.

(** replacing one worker by itself at another point *)
Lemma pinv_move s s' i w c : pinv s -> nth_error (p_ws s) i = Some w -> p_ws s' = put (p_ws s) i (at_pc w c) ->
  p_mu s' = p_mu s -> p_des s' = p_des s -> (forall t, occ (p_joined s') t <= occ (p_done s') t) ->
  (c = PExit -> w_stop w = true) ->
  (existsb is_gap (p_ws s') = true -> p_q s' = []) ->
  (p_q s' <> [] -> 0 < p_ntf s' \/ existsb act (p_ws s') = true \/ existsb is_sleep (p_ws s') = false) -> pinv s'.
Proof.
  intros I N W M D J X G K. destruct I as [I1 I2 I3 I4 I5 I6 I7]. pose proof (nth_in _ _ _ N) as In0.
  split; auto.
  - intros x H S. rewrite W in H. destruct (in_put _ _ _ _ H) as [->|H']; [|auto]. cbn in *. unfold is_exit. cbn. destruct c; auto. rewrite X in S by reflexivity. discriminate.
  - intros x H L. rewrite W in H. destruct (in_put _ _ _ _ H) as [->|H']; [|auto]. cbn in *. apply (I4 w); auto.
  - rewrite M. intros Q x H. rewrite W in H. destruct (in_put _ _ _ _ H) as [->|H']; [|auto]. cbn. auto.
  - rewrite M, D. exact I6.
Qed.

Lemma pinv_step s e s' : pinv s -> pstep s e = Some s' -> pinv s'.
Proof.
  intros I H. apply pstep_unfold in H. destruct H as [_ H]. pose proof I as [I1 I2 I3 I4 I5 I6 I7].
  destruct e; cbn [pstep0] in H.
  - open_step H. injection H as <-. split; cbn [p_q p_ws p_mu p_des p_ntf p_joined p_done]; auto.
  - unfold tm_free in H. destruct (existsb is_gap (p_ws s)) eqn:T; [discriminate|]. cbn [negb] in H.
    open_step H. injection H as <-. split; cbn [p_q p_ws p_mu p_des p_ntf p_joined p_done]; auto.
    + congruence.
    + intros _. left. lia.
  - destruct (p_ntf s) eqn:Nt; [discriminate|]. cbv zeta in H. destruct (existsb is_sleep (p_ws s)) eqn:Sl.
    + destruct (nth_error (p_ws s) w) as [x|] eqn:En; [|discriminate]. destruct (is_sleep x) eqn:Sx; [|discriminate]. injection H as <-.
      eapply pinv_move; [exact I|exact En|reflexivity|reflexivity|reflexivity|exact I7|discriminate| |];
        cbn [p_q p_ws p_ntf].
      * intros G. apply ex_put_inv in G. destruct G as [G|G]; [discriminate|auto].
      * intros _. right. left. eapply ex_put; eauto.
    + injection H as <-. split; cbn [p_q p_ws p_mu p_des p_ntf p_joined p_done]; auto.
  - destruct (nth_error (p_ws s) w) as [x|] eqn:En; [|discriminate]. destruct (w_pc x) eqn:Ep; try discriminate.
    unfold tm_free in H. destruct (existsb is_gap (p_ws s)) eqn:T; [discriminate|]. cbn [negb] in H. unfold work in H.
    destruct (p_q s) as [|a q] eqn:Eq.
    + injection H as <-. eapply pinv_move with (c := if w_stop x then PExit else PGap); [exact I|exact En|reflexivity|reflexivity|reflexivity|exact I7| | |];
        cbn [p_q set_ws].
      * destruct (w_stop x); [auto|discriminate].
      * auto.
      * congruence.
    + rewrite <- Eq in *. destruct (is_top (p_q s) k); [|discriminate].
      destruct (nth_error (p_q s) k) as [[u pr]|] eqn:Ek; [|discriminate]. injection H as <-.
      eapply pinv_move with (c := PRun u); [exact I|exact En|reflexivity|reflexivity|reflexivity|exact I7|discriminate| |]; cbn [p_q p_ws].
      * intros G. apply ex_put_inv in G. destruct G as [G|G]; [discriminate|congruence].
      * intros _. right. left. eapply ex_put; eauto.
  - destruct (nth_error (p_ws s) w) as [x|] eqn:En; [|discriminate]. destruct (w_pc x) eqn:Ep; try discriminate. injection H as <-.
    assert (Q : p_q s = []). { apply I1. apply existsb_exists. exists x. split; [eapply nth_in; eauto|]. unfold is_gap. rewrite Ep. reflexivity. }
    eapply pinv_move with (c := PSleep); [exact I|exact En|reflexivity|reflexivity|reflexivity|exact I7|discriminate| |]; cbn [p_q set_ws]; auto.
  - destruct (nth_error (p_ws s) w) as [x|] eqn:En; [|discriminate]. destruct (w_pc x) eqn:Ep; try discriminate. injection H as <-.
    eapply pinv_move with (c := PCheck); [exact I|exact En|reflexivity|reflexivity|reflexivity|exact I7|discriminate| |]; cbn [p_q p_ws set_ws].
    + intros G. apply ex_put_inv in G. destruct G as [G|G]; [discriminate|auto].
    + intros _. right. left. eapply ex_put; eauto.
  - destruct (nth_error (p_ws s) w) as [x|] eqn:En; [|discriminate]. destruct (w_pc x) eqn:Ep; try discriminate.
    destruct o; injection H as <-; try (split; cbn [p_q p_ws p_mu p_des p_ntf p_joined p_done]; auto; fail);
      (eapply pinv_move with (c := PCheck); [exact I|exact En|reflexivity|reflexivity|reflexivity| |discriminate| |]; cbn [p_q p_ws p_joined p_done];
       [intros u; rewrite count_occ_app; pose proof (I7 u); lia
       |intros G; apply ex_put_inv in G; destruct G as [G|G]; [discriminate|auto]
       |intros _; right; left; eapply ex_put; eauto]).
  - destruct (p_mu s) eqn:M; try discriminate. cbv zeta in H. destruct (n <? members (p_ws s)); injection H as <-; split;
      cbn [p_q p_ws p_mu p_des p_ntf p_joined p_done set_ws set_mu]; auto.
    + rewrite ex_shrink by reflexivity. exact I1.
    + rewrite !ex_shrink by reflexivity. exact I2.
    + intros w W S. destruct (in_shrink _ _ _ W) as [K|[y [K E]]]; [auto|]. subst w. discriminate.
    + intros w W L. destruct (in_shrink _ _ _ W) as [K|[y [K E]]]; [auto|]. subst w. reflexivity.
    + intros [Q|Q]; discriminate.
    + rewrite I6. split; intros [Q|Q]; discriminate.
    + rewrite existsb_app. intros G. apply orb_true_iff in G. destruct G as [G|G]; [auto|].
      apply existsb_exists in G. destruct G as [w [W F]]. apply repeat_spec in W. subst w. discriminate.
    + intros Q. destruct (I2 Q) as [A|[A|A]]; [auto| |].
      * right. left. rewrite existsb_app, A. reflexivity.
      * right. right. rewrite existsb_app, A. apply ex_false. intros w W. apply repeat_spec in W. subst w. reflexivity.
    + intros w W S. apply in_app_or in W. destruct W as [W|W]; [auto|]. apply repeat_spec in W. subst w. reflexivity.
    + intros w W L. apply in_app_or in W. destruct W as [W|W]; [auto|]. apply repeat_spec in W. subst w. discriminate.
    + rewrite M. intros [Q|Q]; discriminate.
    + rewrite M. exact I6.
  - destruct (p_mu s) as [|d|] eqn:M; try discriminate. injection H as <-.
    assert (RI : forall w, In w (map rouse (p_ws s)) -> exists y, In y (p_ws s) /\ w_stop w = w_stop y /\ w_leave w = w_leave y /\ is_exit w = is_exit y).
    { intros w W. apply in_map_iff in W. destruct W as [y [<- Y]]. exists y. split; [exact Y|]. unfold rouse, is_sleep, is_exit, at_pc. destruct (w_pc y) eqn:E; cbn; rewrite ?E; auto. }
    split; cbn [p_q p_ws p_mu p_des p_ntf p_joined p_done set_mu]; auto.
    + rewrite ex_map. intros G. apply I1. rewrite <- G. apply ex_ext. intros w. unfold rouse, is_sleep, is_gap, at_pc. destruct (w_pc w) eqn:E; cbn; rewrite ?E; auto.
    + intros _. right. right. rewrite ex_map. apply ex_false. intros w _. unfold rouse. destruct (is_sleep w) eqn:E; [reflexivity|exact E].
    + intros w W S. destruct (RI w W) as (y & Y & A & B & C). rewrite C. apply I3; congruence.
    + intros w W L. destruct (RI w W) as (y & Y & A & B & C). rewrite A. apply I4; congruence.
    + intros Q w W. destruct (RI w W) as (y & Y & A & B & C). rewrite A. apply I5; [|exact Y]. destruct Q as [Q|Q]; [discriminate|]. injection Q as ->. auto.
    + rewrite I6. split; intros [Q|Q]; try discriminate; injection Q as ->; auto.
  - destruct (p_mu s) as [|d|[]] eqn:M; try discriminate.
    + destruct (forallb is_exit (p_ws s)); [|discriminate]. injection H as <-. split; cbn [p_q p_ws p_mu p_des p_ntf p_joined p_done set_mu]; auto.
      split; [discriminate|intros [Q|Q]; discriminate].
    + destruct (forallb _ (p_ws s)) eqn:F; [|discriminate]. injection H as <-. rewrite forallb_forall in F.
      split; cbn [p_q p_ws p_mu p_des p_ntf p_joined p_done set_mu]; auto.
      * intros G. apply I1. apply existsb_exists in G. destruct G as [w [W X]]. apply filter_In in W. apply existsb_exists. exists w. tauto.
      * intros Q. destruct (I2 Q) as [A|[A|A]]; [auto| |].
        -- right. left. apply existsb_exists in A. destruct A as [w [W X]]. apply existsb_exists. exists w. split; [|exact X].
           apply filter_In. split; [exact W|]. specialize (F w W). destruct (w_leave w); [|reflexivity]. cbn in F. unfold is_exit in F. unfold act in X. destruct (w_pc w); discriminate.
        -- right. right. apply ex_false. intros w W. apply filter_In in W. rewrite ex_false in A. apply A. tauto.
      * intros w W. apply filter_In in W. apply I3. tauto.
      * intros w W. apply filter_In in W. apply I4. tauto.
      * intros [Q|Q]; discriminate.
      * rewrite I6. split; intros [Q|Q]; discriminate.
  - destruct (p_des s) eqn:D; try discriminate. injection H as <-. split; cbn [p_q p_ws p_mu p_des p_ntf p_joined p_done set_mu]; auto.
    split; [discriminate|]. intros Q. apply I6 in Q. discriminate.
  - destruct (p_des s) eqn:D; try discriminate. destruct (p_mu s) eqn:M; try discriminate. injection H as <-.
    split; cbn [p_q p_ws p_mu p_des p_ntf p_joined p_done set_mu]; auto.
    + rewrite ex_map. exact I1.
    + rewrite !ex_map. exact I2.
    + intros w W S. apply in_map_iff in W. destruct W as [y [<- Y]]. discriminate.
    + intros w W S. apply in_map_iff in W. destruct W as [y [<- Y]]. reflexivity.
    + intros _ w W. apply in_map_iff in W. destruct W as [y [<- Y]]. reflexivity.
    + tauto.
  - destruct (_ <? _) eqn:L; [|discriminate]. apply Nat.ltb_lt in L. injection H as <-. split; cbn [p_q p_ws p_mu p_des p_ntf p_joined p_done]; auto.
    intros u. cbn. destruct (Nat.eq_dec t u); [subst; lia|apply I7].
Qed.

Definition ginv (s : pool) : Prop := once s /\ pinv s.
Lemma ginv_next s e : ginv s -> ginv (pnext s e).
Proof. intros [A B]. unfold pnext. destruct (pstep s e) eqn:E; [|split; assumption]. split; [eapply once_step; eauto|eapply pinv_step; eauto]. Qed.
Lemma ginv_run es : forall s, ginv s -> ginv (prun s es).
Proof. induction es as [|e es IH]; intros s G; [exact G|]. cbn. apply IH, ginv_next, G. Qed.
Lemma ginv0 n : ginv (pool0 n).
Proof.
  split; [|apply pinv0]. intros t. unfold places. cbn. rewrite Nat.add_0_r.
  induction n as [|n IH]; cbn; [reflexivity|exact IH].
Qed.

(** * C143 *)
Lemma occ_perm l l' : (forall t, occ l t = occ l' t) -> Permutation l l'.
Proof. intros H. apply (Permutation_count_occ Nat.eq_dec). exact H. Qed.
Lemma once_perm s : once s -> Permutation (map fst (p_q s) ++ running s ++ p_done s) (seq 0 (p_next s)).
Proof.
  intros O. apply occ_perm. intros t. rewrite !count_occ_app. rewrite <- (O t). unfold places, running.
  change (fun w : worker => match w_pc w with PRun t0 => [t0] | _ => [] end) with run_of. lia.
Qed.
Lemma once_done_nodup s : once s -> NoDup (p_done s).
Proof.
  intros O. apply (NoDup_count_occ Nat.eq_dec). intros t. pose proof (O t) as H. unfold places in H.
  assert (occ (seq 0 (p_next s)) t <= 1) by (apply (NoDup_count_occ Nat.eq_dec), seq_NoDup). lia.
Qed.
Lemma join_iff s t : ginv s -> p_dead s = false -> (pstep s (EJoinTask t) <> None <-> In t (p_done s) /\ ~ In t (p_joined s)).
Proof.
  intros [O [_ _ _ _ _ _ J]] D. unfold pstep. rewrite D. cbn [pstep0].
  pose proof (once_done_nodup s O) as N. rewrite (NoDup_count_occ Nat.eq_dec) in N. specialize (N t).
  rewrite (count_occ_In Nat.eq_dec). rewrite (count_occ_not_In Nat.eq_dec).
  destruct (_ <? _) eqn:L; [apply Nat.ltb_lt in L|apply Nat.ltb_ge in L].
  - split; [intros _; lia|discriminate].
  - split; [congruence|lia].
Qed.
Lemma takes_top s i k s' t : pstep s (EWork i k) = Some s' -> In t (running s') -> ~ In t (running s) ->
  exists pr, In (t, pr) (p_q s) /\ forall u, In u (p_q s) -> (snd u <= pr)%Z.
Proof.
  intros H R N. apply pstep_unfold in H. destruct H as [_ H]. cbn [pstep0] in H.
  destruct (nth_error (p_ws s) i) as [x|] eqn:En; [|discriminate]. destruct (w_pc x) eqn:Ep; try discriminate.
  destruct (tm_free s); [|discriminate]. unfold work in H.
  assert (P : forall c, In t (flat_map run_of (put (p_ws s) i (at_pc x c))) -> c = PRun t).
  { intros c K. apply in_flat_map in K. destruct K as [y [Y Z]]. destruct (in_put _ _ _ _ Y) as [->|Y'].
    - unfold run_of in Z. cbn in Z. destruct c; try contradiction. destruct Z as [->|[]]. reflexivity.
    - exfalso. apply N. unfold running. apply in_flat_map. exists y. split; [exact Y'|exact Z]. }
  destruct (p_q s) as [|a q] eqn:Eq.
  - injection H as <-. apply P in R. destruct (w_stop x); discriminate.
  - rewrite <- Eq in *. destruct (is_top (p_q s) k) eqn:T; [|discriminate]. unfold is_top in T.
    destruct (nth_error (p_q s) k) as [[u pr]|] eqn:Ek; [|discriminate]. injection H as <-. apply P in R. injection R as ->.
    exists pr. split; [eapply nth_in; eauto|]. intros v V. rewrite forallb_forall in T. apply Z.leb_le, T, V.
Qed.
