(** Invariant of calm runs, first part: logs, stored versions, ranges. *)
Require Import ZArith List Bool Permutation Lia.
Require Import Verif.VecModel Verif.VecSpec Verif.VecProofs.
Import ListNotations.
Open Scope Z_scope.

Definition reg_at (s : state) (n : nat) (r : region) : Prop := nth_error (s_regs s) n = Some r.
Definition ent_at (s : state) (n : nat) (r : region) (j : nat) (e : entry) : Prop :=
  reg_at s n r /\ nth_error (r_log r) j = Some e.

Definition versions_of (e : entry) : list version := op_versions (e_op e) (e_ts e).

Record LInv (s : state) : Prop := {
  L_ts : forall n1 r1 j1 e1 n2 r2 j2 e2, ent_at s n1 r1 j1 e1 -> ent_at s n2 r2 j2 e2 ->
    e_ts e1 = e_ts e2 -> n1 = n2 /\ j1 = j2;
  L_inc : forall n r j1 e1 j2 e2, ent_at s n r j1 e1 -> ent_at s n r j2 e2 ->
    (j1 < j2)%nat -> e_ts e1 < e_ts e2;
  L_orig : forall i t v, In (i, t, v) (s_data s) ->
    exists n r j e, ent_at s n r j e /\ In (i, t, v) (versions_of e);
  L_nodup : forall n r j e l, ent_at s n r j e -> e_op e = OAdd l -> NoDup (map fst l);
  L_ep : forall n r j e, ent_at s n r j e -> e_epoch e <= r_epoch r;
  L_in : forall n r j e i, ent_at s n r j e -> r_alive r = true -> e_epoch e = r_epoch r ->
    In i (op_ids (e_op e)) -> r_lo r <= i < r_hi r;
  L_rng : forall n r, reg_at s n r -> r_alive r = true -> r_lo r < r_hi r;
  L_dis : forall n1 r1 n2 r2, reg_at s n1 r1 -> reg_at s n2 r2 -> n1 <> n2 ->
    r_alive r1 = true -> r_alive r2 = true -> r_hi r1 <= r_lo r2 \/ r_hi r2 <= r_lo r1;
  L_len : forall n r, reg_at s n r -> (r_applied r <= length (r_log r))%nat /\
    (r_apc r <> AIdle -> (r_applied r < length (r_log r))%nat);
  L_acc : forall n r j e, ent_at s n r j e -> r_alive r = true -> e_epoch e = r_epoch r ->
    ((j < r_applied r)%nat \/ (j = r_applied r /\ r_apc r <> AIdle)) ->
    forall x, In x (versions_of e) -> In x (s_data s);
  L_late : forall n r j e i t v, ent_at s n r j e -> r_alive r = true -> e_epoch e = r_epoch r ->
    In i (op_ids (e_op e)) -> In (i, t, v) (s_data s) -> e_ts e < t ->
    exists j' e', (j < j')%nat /\ nth_error (r_log r) j' = Some e' /\ e_ts e' = t;
  L_chg : forall n r j e, ent_at s n r j e -> r_alive r = true -> e_epoch e = r_epoch r ->
    is_change e ->
    ((r_applied r <= j)%nat /\ (r_apc r <> AIdle -> (r_applied r < j)%nat)) /\
    forall j' e' i v, (j < j')%nat -> nth_error (r_log r) j' = Some e' ->
      ~ In (i, e_ts e', v) (s_data s);
  L_old : forall n r j e i v, ent_at s n r j e -> r_alive r = true -> e_epoch e <> r_epoch r ->
    (r_applied r <= j)%nat -> ~ In (i, e_ts e, v) (s_data s)
}.

(** A stored version with an entry's timestamp is one of the entry's. *)
Lemma rec_entry s n r j e i v :
  LInv s -> ent_at s n r j e -> In (i, e_ts e, v) (s_data s) -> In (i, e_ts e, v) (versions_of e).
Proof.
  intros L E I. destruct (L_orig s L _ _ _ I) as [n2 [r2 [j2 [e2 [E2 V]]]]].
  pose proof (op_versions_ts _ _ _ _ _ V) as T.
  destruct (L_ts s L _ _ _ _ _ _ _ _ E E2 T) as [-> ->].
  destruct E as [E1 E1']. destruct E2 as [E2 E2']. unfold reg_at in *.
  rewrite E1 in E2. injection E2 as ->. rewrite E1' in E2'. injection E2' as ->. exact V.
Qed.

Lemma rec_not_write s n r j e i v :
  LInv s -> ent_at s n r j e -> ~ is_write e -> ~ In (i, e_ts e, v) (s_data s).
Proof.
  intros L E W I. apply (rec_entry s n r j e i v L E) in I. unfold versions_of, is_write in *.
  destruct (e_op e); simpl in I; try contradiction; apply W; exact Logic.I.
Qed.

Lemma versions_fun e i t v v' :
  (forall l, e_op e = OAdd l -> NoDup (map fst l)) ->
  In (i, t, v) (versions_of e) -> In (i, t, v') (versions_of e) -> v = v'.
Proof.
  intros ND I I'.
  assert (Q : match e_op e with OAdd l => NoDup (map fst l) | _ => True end).
  { destruct (e_op e); try exact Logic.I. apply ND. reflexivity. }
  pose proof (op_versions_ts _ _ _ _ _ I) as T. subst t.
  rewrite <- (eff_in _ cempty _ _ _ Q I). apply (eff_in _ cempty _ _ _ Q I').
Qed.

Lemma data_functional s : LInv s -> functional (s_data s).
Proof.
  intros L i t v v' I I'.
  destruct (L_orig s L _ _ _ I) as [n [r [j [e [E V]]]]].
  pose proof (op_versions_ts _ _ _ _ _ V) as T. subst t.
  pose proof (rec_entry s n r j e i v' L E I') as V'.
  eapply versions_fun; [|exact V|exact V']. intros l O. eapply L_nodup; eassumption.
Qed.

(** ** Frame *)

Record lview (r r' : region) : Prop := {
  lv_alive : r_alive r' = r_alive r; lv_lo : r_lo r' = r_lo r; lv_hi : r_hi r' = r_hi r;
  lv_epoch : r_epoch r' = r_epoch r; lv_log : r_log r' = r_log r;
  lv_applied : r_applied r' = r_applied r;
  lv_apc : r_apc r' = AIdle <-> r_apc r = AIdle
}.

Lemma lview_refl r : lview r r.
Proof. constructor; reflexivity. Qed.

Definition same_view (s s' : state) : Prop :=
  s_data s' = s_data s /\
  (forall n r', reg_at s' n r' -> exists r, reg_at s n r /\ lview r r') /\
  (forall n r, reg_at s n r -> exists r', reg_at s' n r' /\ lview r r').

Lemma LInv_frame s s' : same_view s s' -> LInv s -> LInv s'.
Proof.
  intros [D [B F]] L.
  assert (EB : forall n r' j e, ent_at s' n r' j e -> exists r, ent_at s n r j e /\ lview r r').
  { intros n r' j e [A N]. destruct (B _ _ A) as [r [A' V]]. exists r.
    split; [split; [exact A'|]|exact V]. rewrite (lv_log _ _ V) in N. exact N. }
  constructor.
  - intros n1 r1 j1 e1 n2 r2 j2 e2 A1 A2 T. destruct (EB _ _ _ _ A1) as [? [B1 _]].
    destruct (EB _ _ _ _ A2) as [? [B2 _]]. eapply (L_ts s L); eassumption.
  - intros n r j1 e1 j2 e2 A1 A2 T. destruct (EB _ _ _ _ A1) as [ra [B1 _]].
    destruct (EB _ _ _ _ A2) as [rb [B2 _]].
    assert (ra = rb) by (destruct B1 as [B1 _]; destruct B2 as [B2 _]; unfold reg_at in *; congruence).
    subst. eapply (L_inc s L); [exact B1|exact B2|exact T].
  - intros i t v I. rewrite D in I. destruct (L_orig s L _ _ _ I) as [n [r [j [e [[A N] V]]]]].
    destruct (F _ _ A) as [r' [A' V']]. exists n, r', j, e. split; [|exact V].
    split; [exact A'|]. rewrite (lv_log _ _ V'). exact N.
  - intros n r j e l A O. destruct (EB _ _ _ _ A) as [? [B1 _]]. eapply (L_nodup s L); eassumption.
  - intros n r j e A. destruct (EB _ _ _ _ A) as [r0 [B1 V]]. rewrite (lv_epoch _ _ V).
    eapply (L_ep s L); eassumption.
  - intros n r j e i A AL EP I. destruct (EB _ _ _ _ A) as [r0 [B1 V]].
    rewrite (lv_lo _ _ V), (lv_hi _ _ V). eapply (L_in s L); try eassumption.
    + rewrite <- (lv_alive _ _ V). exact AL.
    + rewrite EP. apply lv_epoch. exact V.
  - intros n r A AL. destruct (B _ _ A) as [r0 [B1 V]]. rewrite (lv_lo _ _ V), (lv_hi _ _ V).
    eapply (L_rng s L); [exact B1|]. rewrite <- (lv_alive _ _ V). exact AL.
  - intros n1 r1 n2 r2 A1 A2 N AL1 AL2. destruct (B _ _ A1) as [x [B1 V1]]. destruct (B _ _ A2) as [y [B2 V2]].
    rewrite (lv_lo _ _ V1), (lv_hi _ _ V1), (lv_lo _ _ V2), (lv_hi _ _ V2).
    eapply (L_dis s L); try eassumption.
    + rewrite <- (lv_alive _ _ V1). exact AL1.
    + rewrite <- (lv_alive _ _ V2). exact AL2.
  - intros n r A. destruct (B _ _ A) as [r0 [B1 V]]. rewrite (lv_applied _ _ V), (lv_log _ _ V).
    destruct (L_len s L _ _ B1) as [H1 H2]. split; [exact H1|]. intro X. apply H2. intro Y.
    apply X. apply (lv_apc _ _ V). exact Y.
  - intros n r j e A AL EP J x I. destruct (EB _ _ _ _ A) as [r0 [B1 V]]. rewrite D.
    eapply (L_acc s L); [exact B1| | | |exact I].
    + rewrite <- (lv_alive _ _ V). exact AL.
    + rewrite EP. apply lv_epoch. exact V.
    + rewrite (lv_applied _ _ V) in J. destruct J as [J|[J X]]; [left; exact J|right; split; [exact J|]].
      intro Y. apply X. apply (lv_apc _ _ V). exact Y.
  - intros n r j e i t v A AL EP IO I T. destruct (EB _ _ _ _ A) as [r0 [B1 V]]. rewrite D in I.
    rewrite (lv_log _ _ V). eapply (L_late s L); try eassumption.
    + rewrite <- (lv_alive _ _ V). exact AL.
    + rewrite EP. apply lv_epoch. exact V.
  - intros n r j e A AL EP C. destruct (EB _ _ _ _ A) as [r0 [B1 V]]. rewrite D, (lv_log _ _ V), (lv_applied _ _ V).
    assert (EP' : e_epoch e = r_epoch r0) by (rewrite EP; apply lv_epoch; exact V).
    assert (AL' : r_alive r0 = true) by (rewrite <- (lv_alive _ _ V); exact AL).
    destruct (L_chg s L _ _ _ _ B1 AL' EP' C) as [[H1 H2] H3]. split; [split|exact H3].
    + exact H1.
    + intro X. apply H2. intro Y. apply X. apply (lv_apc _ _ V). exact Y.
  - intros n r j e i v A AL EP J. destruct (EB _ _ _ _ A) as [r0 [B1 V]]. rewrite D.
    eapply (L_old s L); [exact B1| | |].
    + rewrite <- (lv_alive _ _ V). exact AL.
    + rewrite <- (lv_epoch _ _ V). exact EP.
    + rewrite <- (lv_applied _ _ V). exact J.
Qed.

Lemma upd_at {A} (l : list A) n f m (x : A) :
  nth_error (upd l n f) m = Some x ->
  exists y, nth_error l m = Some y /\ ((n = m /\ x = f y) \/ (n <> m /\ x = y)).
Proof.
  rewrite nth_upd. destruct (Nat.eq_dec n m) as [E|N]; intro H.
  - destruct (nth_error l m) as [y|]; [|discriminate]. simpl in H. injection H as <-.
    exists y. split; [reflexivity|left; split; [exact E|reflexivity]].
  - exists x. split; [exact H|right; split; [exact N|reflexivity]].
Qed.

Lemma same_view_on_reg s s' n f :
  s_data s' = s_data s -> s_regs s' = upd (s_regs s) n f ->
  (forall r, reg_at s n r -> lview r (f r)) -> same_view s s'.
Proof.
  intros D R V. split; [exact D|]. unfold reg_at. rewrite R. split.
  - intros m r' A. destruct (upd_at _ _ _ _ _ A) as [r [A' [[-> ->]|[N ->]]]]; exists r; split;
      try exact A'; [apply V; exact A'|apply lview_refl].
  - intros m r A. destruct (Nat.eq_dec n m) as [->|N].
    + exists (f r). split; [apply nth_upd_same; exact A|apply V; exact A].
    + exists r. split; [rewrite nth_upd_other by exact N; exact A|apply lview_refl].
Qed.

(** ** Steps that matter *)

Lemma nth_snoc {A} (l : list A) x j y :
  nth_error (l ++ [x]) j = Some y -> nth_error l j = Some y \/ (j = length l /\ y = x).
Proof.
  intro H. destruct (Nat.lt_ge_cases j (length l)) as [L|G].
  - rewrite nth_error_app1 in H by exact L. left. exact H.
  - rewrite nth_error_app2 in H by exact G.
    destruct (j - length l)%nat as [|k] eqn:E.
    + simpl in H. injection H as <-. right. split; [lia|reflexivity].
    + simpl in H. destruct k; discriminate.
Qed.

Lemma nth_snoc_old {A} (l : list A) x j y : nth_error l j = Some y -> nth_error (l ++ [x]) j = Some y.
Proof.
  intro H. rewrite nth_error_app1; [exact H|]. apply nth_error_Some. congruence.
Qed.

Lemma nth_lt {A} (l : list A) j y : nth_error l j = Some y -> (j < length l)%nat.
Proof. intro H. apply nth_error_Some. congruence. Qed.

Lemma in_rng_spec lo hi i : in_rng lo hi i = true <-> lo <= i < hi.
Proof. unfold in_rng. rewrite andb_true_iff, Z.leb_le, Z.ltb_lt. tauto. Qed.

Lemma op_valid_ids r o i : op_valid r o = true -> In i (op_ids o) -> r_lo r <= i < r_hi r.
Proof.
  destruct o as [l|l| |m|m]; simpl; intros V I; try destruct I.
  - destruct l as [|x l]; [discriminate|]. rewrite forallb_forall in V.
    apply in_map_iff in I. destruct I as [p [E I]]. apply V in I. apply in_rng_spec in I. subst i. exact I.
  - destruct l as [|x l]; [discriminate|]. rewrite forallb_forall in V.
    apply V in I. apply in_rng_spec in I. exact I.
Qed.

Lemma LInv_propose g s n r o ts :
  LInv s -> reg_at s n r -> r_alive r = true -> op_valid r o = true ->
  calm_step g s (Propose n o ts) ->
  LInv (on_reg n (set_log (r_log r ++ [{| e_op := o; e_ts := ts; e_epoch := r_epoch r |}])) s).
Proof.
  intros L A AL V [C1 C2].
  set (en := {| e_op := o; e_ts := ts; e_epoch := r_epoch r |}).
  set (s' := on_reg n (set_log (r_log r ++ [en])) s).
  assert (RB : forall m r', reg_at s' m r' -> exists r0, reg_at s m r0 /\
    ((n = m /\ r0 = r /\ r' = set_log (r_log r ++ [en]) r) \/ (n <> m /\ r' = r0))).
  { intros m r' X. unfold reg_at, s', on_reg in X. simpl in X.
    destruct (upd_at _ _ _ _ _ X) as [r0 [A' [[-> ->]|[N ->]]]]; exists r0; (split; [exact A'|]).
    - left. assert (r0 = r) by (unfold reg_at in *; congruence). subst. auto.
    - right. auto. }
  assert (RF : forall m r0, reg_at s m r0 -> exists r', reg_at s' m r' /\
     r_alive r' = r_alive r0 /\ (forall j e, nth_error (r_log r0) j = Some e -> nth_error (r_log r') j = Some e)).
  { intros m r0 X. destruct (Nat.eq_dec n m) as [->|N].
    - assert (r0 = r) by (unfold reg_at in *; congruence). subst r0.
      exists (set_log (r_log r ++ [en]) r). split; [unfold s', on_reg, reg_at; simpl; apply (nth_upd_same _ _ _ _ X)|].
      split; [reflexivity|]. intros j e H. simpl. apply nth_snoc_old. exact H.
    - exists r0. split; [unfold s', on_reg, reg_at; simpl; rewrite nth_upd_other by exact N; exact X|].
      split; [reflexivity|auto]. }
  assert (EB : forall m r' j e, ent_at s' m r' j e ->
    (exists r0, ent_at s m r0 j e /\ ((n = m /\ r0 = r /\ r' = set_log (r_log r ++ [en]) r) \/ (n <> m /\ r' = r0)))
    \/ (m = n /\ r' = set_log (r_log r ++ [en]) r /\ j = length (r_log r) /\ e = en)).
  { intros m r' j e [X N]. destruct (RB _ _ X) as [r0 [X0 [[-> [-> ->]]|[NE ->]]]].
    - simpl in N. destruct (nth_snoc _ _ _ _ N) as [N'|[-> ->]].
      + left. exists r. split; [split; assumption|]. left. auto.
      + right. auto.
    - left. exists r0. split; [split; assumption|]. right. auto. }
  assert (NEW : forall m r0 j e, ent_at s m r0 j e -> e_ts e < ts).
  { intros m r0 j e [X N]. eapply C2; eassumption. }
  assert (DT : forall i t v, In (i, t, v) (s_data s) -> t < ts).
  { intros i t v I. destruct (L_orig s L _ _ _ I) as [m [r0 [j [e [E W]]]]].
    apply op_versions_ts in W. subst. eapply NEW. exact E. }
  assert (LT : forall j e, nth_error (r_log r) j = Some e -> (j < length (r_log r))%nat) by (intros; eapply nth_lt; eassumption).
  constructor.
  - intros n1 r1 j1 e1 n2 r2 j2 e2 A1 A2 T.
    destruct (EB _ _ _ _ A1) as [[x [B1 _]]|[-> [-> [-> ->]]]];
    destruct (EB _ _ _ _ A2) as [[y [B2 _]]|[-> [-> [-> ->]]]].
    + eapply (L_ts s L); eassumption.
    + apply NEW in B1. simpl in T. lia.
    + apply NEW in B2. simpl in T. lia.
    + auto.
  - intros m r1 j1 e1 j2 e2 A1 A2 T.
    destruct (EB _ _ _ _ A1) as [[x [B1 X1]]|[M1 [E1 [-> ->]]]];
    destruct (EB _ _ _ _ A2) as [[y [B2 X2]]|[M2 [E2 [-> ->]]]].
    + assert (x = y) by (destruct B1 as [B1 _]; destruct B2 as [B2 _]; unfold reg_at in *; congruence). subst y.
      eapply (L_inc s L); [exact B1|exact B2|exact T].
    + apply NEW in B1. exact B1.
    + destruct B2 as [B2 N2]. destruct X2 as [[_ [-> _]]|[X2 _]]; [|congruence].
      apply LT in N2. lia.
    + lia.
  - intros i t v I. destruct (L_orig s L _ _ _ I) as [m [r0 [j [e [[E N] W]]]]].
    destruct (RF _ _ E) as [r' [E' [_ H]]]. exists m, r', j, e. split; [|exact W]. split; [exact E'|apply H; exact N].
  - intros m r' j e l A1 O. destruct (EB _ _ _ _ A1) as [[x [B1 _]]|[-> [-> [-> ->]]]].
    + eapply (L_nodup s L); eassumption.
    + simpl in O. subst o. exact C1.
  - intros m r' j e A1. destruct (EB _ _ _ _ A1) as [[x [B1 [[-> [-> ->]]|[_ ->]]]]|[-> [-> [-> ->]]]].
    + simpl. eapply (L_ep s L); eassumption.
    + eapply (L_ep s L); eassumption.
    + simpl. lia.
  - intros m r' j e i A1 AL1 EP I. destruct (EB _ _ _ _ A1) as [[x [B1 [[-> [-> ->]]|[_ ->]]]]|[-> [-> [-> ->]]]].
    + simpl in *. eapply (L_in s L); eassumption.
    + eapply (L_in s L); eassumption.
    + simpl in *. eapply op_valid_ids; eassumption.
  - intros m r' A1 AL1. destruct (RB _ _ A1) as [x [B1 [[-> [-> ->]]|[_ ->]]]]; simpl in *; eapply (L_rng s L); eassumption.
  - intros n1 r1 n2 r2 A1 A2 N AL1 AL2.
    destruct (RB _ _ A1) as [x [B1 [[-> [-> ->]]|[_ ->]]]]; destruct (RB _ _ A2) as [y [B2 [[-> [-> ->]]|[_ ->]]]];
      simpl in *; try congruence; eapply (L_dis s L); eassumption.
  - intros m r' A1. destruct (RB _ _ A1) as [x [B1 [[-> [-> ->]]|[_ ->]]]].
    + simpl. rewrite app_length. simpl. destruct (L_len s L _ _ B1) as [H1 H2]. split; [lia|]. intro X. apply H2 in X. lia.
    + apply (L_len s L _ _ B1).
  - intros m r' j e A1 AL1 EP J x I.
    destruct (EB _ _ _ _ A1) as [[x0 [B1 [[-> [-> ->]]|[_ ->]]]]|[-> [-> [-> ->]]]].
    + simpl in *. eapply (L_acc s L); eassumption.
    + eapply (L_acc s L); eassumption.
    + exfalso. simpl in J. destruct (L_len s L _ _ A) as [H1 H2]. destruct J as [J|[J X]]; [lia|apply H2 in X; lia].
  - intros m r' j e i t v A1 AL1 EP IO I T.
    destruct (EB _ _ _ _ A1) as [[x0 [B1 [[-> [-> ->]]|[_ ->]]]]|[-> [-> [-> ->]]]].
    + simpl in *. destruct (L_late s L _ _ _ _ _ _ _ B1 AL1 EP IO I T) as [j' [e' [J1 [J2 J3]]]].
      exists j', e'. split; [exact J1|]. split; [apply nth_snoc_old; exact J2|exact J3].
    + eapply (L_late s L); eassumption.
    + exfalso. apply DT in I. simpl in T. lia.
  - intros m r' j e A1 AL1 EP CH.
    destruct (EB _ _ _ _ A1) as [[x0 [B1 [[-> [-> ->]]|[_ ->]]]]|[-> [-> [-> ->]]]].
    + simpl in *. destruct (L_chg s L _ _ _ _ B1 AL1 EP CH) as [H1 H2]. split; [exact H1|].
      intros j' e' i v J N I. destruct (nth_snoc _ _ _ _ N) as [N'|[-> ->]].
      * eapply H2; eassumption.
      * apply DT in I. simpl in I. lia.
    + eapply (L_chg s L); eassumption.
    + simpl. destruct (L_len s L _ _ A) as [H1 H2]. split; [split; [exact H1|exact H2]|].
      intros j' e' i v J N I. destruct (nth_snoc _ _ _ _ N) as [N'|[-> ->]]; [apply LT in N'; lia|lia].
  - intros m r' j e i v A1 AL1 EP J.
    destruct (EB _ _ _ _ A1) as [[x0 [B1 [[-> [-> ->]]|[_ ->]]]]|[-> [-> [-> ->]]]].
    + simpl in *. eapply (L_old s L); eassumption.
    + eapply (L_old s L); eassumption.
    + simpl in EP. congruence.
Qed.

(** Advancing the applied index. *)
Lemma LInv_done s n r :
  LInv s -> reg_at s n r -> r_apc r = ADone ->
  LInv (on_reg n (fun r => set_apc AIdle (set_applied (S (r_applied r)) r)) s).
Proof.
  intros L A PC.
  set (f := fun r => set_apc AIdle (set_applied (S (r_applied r)) r)).
  set (s' := on_reg n f s).
  assert (RB : forall m r', reg_at s' m r' -> exists r0, reg_at s m r0 /\
    ((n = m /\ r0 = r /\ r' = f r) \/ (n <> m /\ r' = r0))).
  { intros m r' X. unfold reg_at, s', on_reg in X. simpl in X.
    destruct (upd_at _ _ _ _ _ X) as [r0 [A' [[-> ->]|[N ->]]]]; exists r0; (split; [exact A'|]).
    - left. assert (r0 = r) by (unfold reg_at in *; congruence). subst. auto.
    - right. auto. }
  assert (RF : forall m r0, reg_at s m r0 -> exists r', reg_at s' m r' /\ r_log r' = r_log r0).
  { intros m r0 X. destruct (Nat.eq_dec n m) as [->|N].
    - exists (f r0). split; [unfold s', on_reg, reg_at; simpl; apply (nth_upd_same _ _ _ _ X)|reflexivity].
    - exists r0. split; [unfold s', on_reg, reg_at; simpl; rewrite nth_upd_other by exact N; exact X|reflexivity]. }
  assert (EB : forall m r' j e, ent_at s' m r' j e -> exists r0, ent_at s m r0 j e /\
     ((n = m /\ r0 = r /\ r' = f r) \/ (n <> m /\ r' = r0))).
  { intros m r' j e [X N]. destruct (RB _ _ X) as [r0 [X0 [[-> [-> ->]]|[NE ->]]]]; eexists;
      (split; [split; [exact X0|exact N]|]); auto. }
  assert (NI : r_apc r <> AIdle) by congruence.
  constructor.
  - intros n1 r1 j1 e1 n2 r2 j2 e2 A1 A2 T.
    destruct (EB _ _ _ _ A1) as [x [B1 _]]. destruct (EB _ _ _ _ A2) as [y [B2 _]]. eapply (L_ts s L); eassumption.
  - intros m r1 j1 e1 j2 e2 A1 A2 T.
    destruct (EB _ _ _ _ A1) as [x [B1 _]]. destruct (EB _ _ _ _ A2) as [y [B2 _]].
    assert (x = y) by (destruct B1 as [B1 _]; destruct B2 as [B2 _]; unfold reg_at in *; congruence). subst y.
    eapply (L_inc s L); [exact B1|exact B2|exact T].
  - intros i t v I. destruct (L_orig s L _ _ _ I) as [m [r0 [j [e [[E N] W]]]]].
    destruct (RF _ _ E) as [r' [E' H]]. exists m, r', j, e. split; [|exact W]. split; [exact E'|rewrite H; exact N].
  - intros m r' j e l A1 O. destruct (EB _ _ _ _ A1) as [x [B1 _]]. eapply (L_nodup s L); eassumption.
  - intros m r' j e A1. destruct (EB _ _ _ _ A1) as [x [B1 [[-> [-> ->]]|[_ ->]]]]; simpl; eapply (L_ep s L); eassumption.
  - intros m r' j e i A1 AL1 EP I. destruct (EB _ _ _ _ A1) as [x [B1 [[-> [-> ->]]|[_ ->]]]]; simpl in *; eapply (L_in s L); eassumption.
  - intros m r' A1 AL1. destruct (RB _ _ A1) as [x [B1 [[-> [-> ->]]|[_ ->]]]]; simpl in *; eapply (L_rng s L); eassumption.
  - intros n1 r1 n2 r2 A1 A2 N AL1 AL2.
    destruct (RB _ _ A1) as [x [B1 [[-> [-> ->]]|[_ ->]]]]; destruct (RB _ _ A2) as [y [B2 [[-> [-> ->]]|[_ ->]]]];
      simpl in *; try congruence; eapply (L_dis s L); eassumption.
  - intros m r' A1. destruct (RB _ _ A1) as [x [B1 [[-> [-> ->]]|[_ ->]]]].
    + simpl. destruct (L_len s L _ _ B1) as [H1 H2]. split; [apply H2 in NI; lia|congruence].
    + apply (L_len s L _ _ B1).
  - intros m r' j e A1 AL1 EP J x I.
    destruct (EB _ _ _ _ A1) as [x0 [B1 [[-> [-> ->]]|[_ ->]]]].
    + simpl in *. eapply (L_acc s L); [exact B1|exact AL1|exact EP| |exact I].
      destruct J as [J|[_ J]]; [|congruence].
      destruct (Nat.eq_dec j (r_applied r)); [right; split; assumption|left; lia].
    + eapply (L_acc s L); eassumption.
  - intros m r' j e i t v A1 AL1 EP IO I T.
    destruct (EB _ _ _ _ A1) as [x0 [B1 [[-> [-> ->]]|[_ ->]]]]; simpl in *; eapply (L_late s L); eassumption.
  - intros m r' j e A1 AL1 EP CH.
    destruct (EB _ _ _ _ A1) as [x0 [B1 [[-> [-> ->]]|[_ ->]]]].
    + simpl in *. destruct (L_chg s L _ _ _ _ B1 AL1 EP CH) as [[H1 H2] H3]. split; [|exact H3].
      apply H2 in NI. split; [lia|congruence].
    + eapply (L_chg s L); eassumption.
  - intros m r' j e i v A1 AL1 EP J.
    destruct (EB _ _ _ _ A1) as [x0 [B1 [[-> [-> ->]]|[_ ->]]]].
    + simpl in *. eapply (L_old s L); [exact B1|exact AL1|exact EP|lia].
    + eapply (L_old s L); eassumption.
Qed.

(** The handler starts on an entry without storing anything. *)
Lemma LInv_skip s n r e :
  LInv s -> reg_at s n r -> r_alive r = true -> r_apc r = AIdle ->
  nth_error (r_log r) (r_applied r) = Some e ->
  (e_epoch e <> r_epoch r \/ e_op e = OConf) ->
  LInv (on_reg n (set_apc ADone) s).
Proof.
  intros L A AL PC NE SK.
  set (f := set_apc ADone).
  set (s' := on_reg n f s).
  assert (RB : forall m r', reg_at s' m r' -> exists r0, reg_at s m r0 /\
    ((n = m /\ r0 = r /\ r' = f r) \/ (n <> m /\ r' = r0))).
  { intros m r' X. unfold reg_at, s', on_reg in X. simpl in X.
    destruct (upd_at _ _ _ _ _ X) as [r0 [A' [[-> ->]|[N ->]]]]; exists r0; (split; [exact A'|]).
    - left. assert (r0 = r) by (unfold reg_at in *; congruence). subst. auto.
    - right. auto. }
  assert (RF : forall m r0, reg_at s m r0 -> exists r', reg_at s' m r' /\ r_log r' = r_log r0).
  { intros m r0 X. destruct (Nat.eq_dec n m) as [->|N].
    - exists (f r0). split; [unfold s', on_reg, reg_at; simpl; apply (nth_upd_same _ _ _ _ X)|reflexivity].
    - exists r0. split; [unfold s', on_reg, reg_at; simpl; rewrite nth_upd_other by exact N; exact X|reflexivity]. }
  assert (EB : forall m r' j e, ent_at s' m r' j e -> exists r0, ent_at s m r0 j e /\
     ((n = m /\ r0 = r /\ r' = f r) \/ (n <> m /\ r' = r0))).
  { intros m r' j e0 [X N]. destruct (RB _ _ X) as [r0 [X0 [[-> [-> ->]]|[N0 ->]]]]; eexists;
      (split; [split; [exact X0|exact N]|]); auto. }
  constructor.
  - intros n1 r1 j1 e1 n2 r2 j2 e2 A1 A2 T.
    destruct (EB _ _ _ _ A1) as [x [B1 _]]. destruct (EB _ _ _ _ A2) as [y [B2 _]]. eapply (L_ts s L); eassumption.
  - intros m r1 j1 e1 j2 e2 A1 A2 T.
    destruct (EB _ _ _ _ A1) as [x [B1 _]]. destruct (EB _ _ _ _ A2) as [y [B2 _]].
    assert (x = y) by (destruct B1 as [B1 _]; destruct B2 as [B2 _]; unfold reg_at in *; congruence). subst y.
    eapply (L_inc s L); [exact B1|exact B2|exact T].
  - intros i t v I. destruct (L_orig s L _ _ _ I) as [m [r0 [j [e0 [[E N] W]]]]].
    destruct (RF _ _ E) as [r' [E' H]]. exists m, r', j, e0. split; [|exact W]. split; [exact E'|rewrite H; exact N].
  - intros m r' j e0 l A1 O. destruct (EB _ _ _ _ A1) as [x [B1 _]]. eapply (L_nodup s L); eassumption.
  - intros m r' j e0 A1. destruct (EB _ _ _ _ A1) as [x [B1 [[-> [-> ->]]|[_ ->]]]]; simpl; eapply (L_ep s L); eassumption.
  - intros m r' j e0 i A1 AL1 EP I. destruct (EB _ _ _ _ A1) as [x [B1 [[-> [-> ->]]|[_ ->]]]]; simpl in *; eapply (L_in s L); eassumption.
  - intros m r' A1 AL1. destruct (RB _ _ A1) as [x [B1 [[-> [-> ->]]|[_ ->]]]]; simpl in *; eapply (L_rng s L); eassumption.
  - intros n1 r1 n2 r2 A1 A2 N AL1 AL2.
    destruct (RB _ _ A1) as [x [B1 [[-> [-> ->]]|[_ ->]]]]; destruct (RB _ _ A2) as [y [B2 [[-> [-> ->]]|[_ ->]]]];
      simpl in *; try congruence; eapply (L_dis s L); eassumption.
  - intros m r' A1. destruct (RB _ _ A1) as [x [B1 [[-> [-> ->]]|[_ ->]]]].
    + simpl. destruct (L_len s L _ _ B1) as [H1 H2]. split; [exact H1|]. intros _. eapply nth_lt. exact NE.
    + apply (L_len s L _ _ B1).
  - intros m r' j e0 A1 AL1 EP J x I.
    destruct (EB _ _ _ _ A1) as [x0 [B1 [[-> [-> ->]]|[_ ->]]]].
    + simpl in *. destruct J as [J|[J _]].
      * eapply (L_acc s L); [exact B1|exact AL1|exact EP|left; exact J|exact I].
      * subst j. destruct B1 as [_ B1]. rewrite NE in B1. injection B1 as <-.
        destruct SK as [SK|SK]; [congruence|]. unfold versions_of in I. rewrite SK in I. destruct I.
    + eapply (L_acc s L); eassumption.
  - intros m r' j e0 i t v A1 AL1 EP IO I T.
    destruct (EB _ _ _ _ A1) as [x0 [B1 [[-> [-> ->]]|[_ ->]]]]; simpl in *; eapply (L_late s L); eassumption.
  - intros m r' j e0 A1 AL1 EP CH.
    destruct (EB _ _ _ _ A1) as [x0 [B1 [[-> [-> ->]]|[_ ->]]]].
    + simpl in *. destruct (L_chg s L _ _ _ _ B1 AL1 EP CH) as [[H1 H2] H3]. split; [|exact H3].
      split; [exact H1|]. intros _.
      destruct (Nat.eq_dec j (r_applied r)) as [->|N]; [|lia].
      destruct B1 as [_ B1]. rewrite NE in B1. injection B1 as <-.
      destruct SK as [SK|SK]; [congruence|]. unfold is_change in CH. rewrite SK in CH. destruct CH.
    + eapply (L_chg s L); eassumption.
  - intros m r' j e0 i v A1 AL1 EP J.
    destruct (EB _ _ _ _ A1) as [x0 [B1 [[-> [-> ->]]|[_ ->]]]]; simpl in *; eapply (L_old s L); eassumption.
Qed.

(** The handler stores the vectors of an entry. *)
Lemma LInv_write s n r e a :
  LInv s -> reg_at s n r -> r_alive r = true -> r_apc r = AIdle ->
  nth_error (r_log r) (r_applied r) = Some e -> e_epoch e = r_epoch r -> is_write e -> a <> AIdle ->
  LInv (on_reg n (set_apc a) (with_data (put_versions (s_data s) (versions_of e)) s)).
Proof.
  intros L A AL PC NE EP0 W AI.
  set (f := set_apc a).
  set (s' := on_reg n f (with_data (put_versions (s_data s) (versions_of e)) s)).
  assert (RB : forall m r', reg_at s' m r' -> exists r0, reg_at s m r0 /\
    ((n = m /\ r0 = r /\ r' = f r) \/ (n <> m /\ r' = r0))).
  { intros m r' X. unfold reg_at, s', on_reg in X. simpl in X.
    destruct (upd_at _ _ _ _ _ X) as [r0 [A' [[-> ->]|[N ->]]]]; exists r0; (split; [exact A'|]).
    - left. assert (r0 = r) by (unfold reg_at in *; congruence). subst. auto.
    - right. auto. }
  assert (RF : forall m r0, reg_at s m r0 -> exists r', reg_at s' m r' /\ r_log r' = r_log r0).
  { intros m r0 X. destruct (Nat.eq_dec n m) as [->|N].
    - exists (f r0). split; [unfold s', on_reg, reg_at; simpl; apply (nth_upd_same _ _ _ _ X)|reflexivity].
    - exists r0. split; [unfold s', on_reg, reg_at; simpl; rewrite nth_upd_other by exact N; exact X|reflexivity]. }
  assert (EB : forall m r' j e, ent_at s' m r' j e -> exists r0, ent_at s m r0 j e /\
     ((n = m /\ r0 = r /\ r' = f r) \/ (n <> m /\ r' = r0))).
  { intros m r' j e0 [X N]. destruct (RB _ _ X) as [r0 [X0 [[-> [-> ->]]|[N0 ->]]]]; eexists;
      (split; [split; [exact X0|exact N]|]); auto. }
  assert (E0 : ent_at s n r (r_applied r) e) by (split; assumption).
  assert (DI : forall x, In x (s_data s') <-> In x (versions_of e) \/ In x (s_data s)).
  { intro x. apply put_versions_in. }
  assert (VT : forall i t v, In (i, t, v) (versions_of e) -> t = e_ts e) by (intros i t v; apply op_versions_ts).
  constructor.
  - intros n1 r1 j1 e1 n2 r2 j2 e2 A1 A2 T.
    destruct (EB _ _ _ _ A1) as [x [B1 _]]. destruct (EB _ _ _ _ A2) as [y [B2 _]]. eapply (L_ts s L); eassumption.
  - intros m r1 j1 e1 j2 e2 A1 A2 T.
    destruct (EB _ _ _ _ A1) as [x [B1 _]]. destruct (EB _ _ _ _ A2) as [y [B2 _]].
    assert (x = y) by (destruct B1 as [B1 _]; destruct B2 as [B2 _]; unfold reg_at in *; congruence). subst y.
    eapply (L_inc s L); [exact B1|exact B2|exact T].
  - intros i t v I. apply DI in I. destruct I as [I|I].
    + destruct (RF _ _ A) as [r' [E' H]]. exists n, r', (r_applied r), e. split; [|exact I].
      split; [exact E'|rewrite H; exact NE].
    + destruct (L_orig s L _ _ _ I) as [m [r0 [j [e0 [[E N] X]]]]].
      destruct (RF _ _ E) as [r' [E' H]]. exists m, r', j, e0. split; [|exact X]. split; [exact E'|rewrite H; exact N].
  - intros m r' j e0 l A1 O. destruct (EB _ _ _ _ A1) as [x [B1 _]]. eapply (L_nodup s L); eassumption.
  - intros m r' j e0 A1. destruct (EB _ _ _ _ A1) as [x [B1 [[-> [-> ->]]|[_ ->]]]]; simpl; eapply (L_ep s L); eassumption.
  - intros m r' j e0 i A1 AL1 EP I. destruct (EB _ _ _ _ A1) as [x [B1 [[-> [-> ->]]|[_ ->]]]]; simpl in *; eapply (L_in s L); eassumption.
  - intros m r' A1 AL1. destruct (RB _ _ A1) as [x [B1 [[-> [-> ->]]|[_ ->]]]]; simpl in *; eapply (L_rng s L); eassumption.
  - intros n1 r1 n2 r2 A1 A2 N AL1 AL2.
    destruct (RB _ _ A1) as [x [B1 [[-> [-> ->]]|[_ ->]]]]; destruct (RB _ _ A2) as [y [B2 [[-> [-> ->]]|[_ ->]]]];
      simpl in *; try congruence; eapply (L_dis s L); eassumption.
  - intros m r' A1. destruct (RB _ _ A1) as [x [B1 [[-> [-> ->]]|[_ ->]]]].
    + simpl. destruct (L_len s L _ _ B1) as [H1 H2]. split; [exact H1|]. intros _. eapply nth_lt. exact NE.
    + apply (L_len s L _ _ B1).
  - intros m r' j e0 A1 AL1 EP J x I. apply DI.
    destruct (EB _ _ _ _ A1) as [x0 [B1 [[-> [-> ->]]|[_ ->]]]].
    + simpl in *. destruct J as [J|[J _]].
      * right. eapply (L_acc s L); [exact B1|exact AL1|exact EP|left; exact J|exact I].
      * subst j. destruct B1 as [_ B1]. rewrite NE in B1. injection B1 as <-. left. exact I.
    + right. eapply (L_acc s L); eassumption.
  - intros m r' j e0 i t v A1 AL1 EP IO I T. apply DI in I.
    destruct (EB _ _ _ _ A1) as [x0 [B1 X]].
    assert (LG : r_log r' = r_log x0) by (destruct X as [[_ [-> ->]]|[_ ->]]; reflexivity).
    assert (AX : r_alive x0 = true) by (destruct X as [[_ [-> ->]]|[_ ->]]; exact AL1).
    assert (EX : e_epoch e0 = r_epoch x0) by (destruct X as [[_ [-> ->]]|[_ ->]]; exact EP).
    rewrite LG. destruct I as [I|I]; [|eapply (L_late s L); eassumption].
    pose proof (VT _ _ _ I) as TT. subst t. pose proof (op_versions_ids _ _ _ _ _ I) as IE.
    pose proof (L_in s L _ _ _ _ _ E0 AL EP0 IE) as R1.
    pose proof (L_in s L _ _ _ _ _ B1 AX EX IO) as R2.
    destruct X as [[NM [X0 _]]|[NM _]].
    + subst x0 m. exists (r_applied r), e. split; [|split; [exact NE|reflexivity]].
      destruct (Nat.lt_ge_cases j (r_applied r)) as [J|J]; [exact J|]. exfalso.
      destruct (Nat.eq_dec j (r_applied r)) as [->|N].
      * destruct B1 as [_ B1]. rewrite NE in B1. injection B1 as <-. lia.
      * assert (K : e_ts e < e_ts e0) by (eapply (L_inc s L); [exact E0|exact B1|lia]). lia.
    + exfalso. destruct B1 as [B1 _]. pose proof (L_dis s L _ _ _ _ A B1 NM AL AX). lia.
  - intros m r' j e0 A1 AL1 EP CH.
    destruct (EB _ _ _ _ A1) as [x0 [B1 X]].
    assert (LG : r_log r' = r_log x0) by (destruct X as [[_ [-> ->]]|[_ ->]]; reflexivity).
    assert (AX : r_alive x0 = true) by (destruct X as [[_ [-> ->]]|[_ ->]]; exact AL1).
    assert (EX : e_epoch e0 = r_epoch x0) by (destruct X as [[_ [-> ->]]|[_ ->]]; exact EP).
    destruct (L_chg s L _ _ _ _ B1 AX EX CH) as [[H1 H2] H3].
    split.
    + destruct X as [[NM [X0 ->]]|[NM ->]]; [|split; assumption]. subst x0. simpl.
      split; [exact H1|]. intros _. destruct (Nat.eq_dec j (r_applied r)) as [->|N]; [|lia].
      destruct B1 as [_ B1]. rewrite NE in B1. injection B1 as <-.
      unfold is_change, is_write in *. destruct (e_op e); contradiction.
    + rewrite LG. intros j' e' i v J N I. apply DI in I. destruct I as [I|I]; [|eapply H3; eassumption].
      pose proof (VT _ _ _ I) as TT.
      assert (E1 : ent_at s m x0 j' e') by (split; [apply B1|exact N]).
      destruct (L_ts s L _ _ _ _ _ _ _ _ E1 E0 TT) as [-> ->].
      assert (x0 = r) by (destruct B1 as [B1 _]; unfold reg_at in *; congruence). subst x0. lia.
  - intros m r' j e0 i v A1 AL1 EP J I. apply DI in I.
    destruct (EB _ _ _ _ A1) as [x0 [B1 X]].
    assert (AP : r_applied r' = r_applied x0) by (destruct X as [[_ [-> ->]]|[_ ->]]; reflexivity).
    assert (AX : r_alive x0 = true) by (destruct X as [[_ [-> ->]]|[_ ->]]; exact AL1).
    assert (EX : e_epoch e0 <> r_epoch x0) by (destruct X as [[_ [-> ->]]|[_ ->]]; exact EP).
    destruct I as [I|I]; [|eapply (L_old s L); [exact B1|exact AX|exact EX|rewrite <- AP; exact J|exact I]].
    pose proof (VT _ _ _ I) as TT. destruct (L_ts s L _ _ _ _ _ _ _ _ B1 E0 TT) as [-> ->].
    destruct B1 as [B1 B1']. assert (x0 = r) by (unfold reg_at in *; congruence). subst x0.
    rewrite NE in B1'. injection B1' as <-. congruence.
Qed.

(** After a region change no entry of the region has its epoch. *)
Lemma no_recs_from_change s n r e :
  LInv s -> reg_at s n r -> r_alive r = true ->
  nth_error (r_log r) (r_applied r) = Some e -> e_epoch e = r_epoch r -> is_change e ->
  forall j e' i v, (r_applied r <= j)%nat -> nth_error (r_log r) j = Some e' ->
    ~ In (i, e_ts e', v) (s_data s).
Proof.
  intros L A AL NE EP CH j e' i v J N.
  assert (E0 : ent_at s n r (r_applied r) e) by (split; assumption).
  destruct (Nat.eq_dec j (r_applied r)) as [->|NJ].
  - rewrite NE in N. injection N as <-. apply (rec_not_write s n r (r_applied r) e i v L E0).
    unfold is_write, is_change in *. destruct (e_op e); try contradiction; intros [].
  - destruct (L_chg s L _ _ _ _ E0 AL EP CH) as [_ H]. eapply H; [|exact N]. lia.
Qed.

Lemma LInv_split s n r e mid p :
  LInv s -> reg_at s n r -> r_alive r = true -> r_apc r = AIdle ->
  nth_error (r_log r) (r_applied r) = Some e -> e_epoch e = r_epoch r -> e_op e = OSplit mid ->
  r_lo r < mid < r_hi r ->
  LInv (with_regs (upd (s_regs s) n (shrink mid) ++ [child_region (r_lo r) mid p]) s).
Proof.
  intros L A AL PC NE EP0 O M.
  set (ch := child_region (r_lo r) mid p).
  set (s' := with_regs (upd (s_regs s) n (shrink mid) ++ [ch]) s).
  assert (CH : is_change e) by (unfold is_change; rewrite O; exact I).
  pose proof (no_recs_from_change s n r e L A AL NE EP0 CH) as NR.
  assert (E0 : ent_at s n r (r_applied r) e) by (split; assumption).
  assert (LN : length (upd (s_regs s) n (shrink mid)) = length (s_regs s)) by apply upd_length.
  assert (RB : forall m r', reg_at s' m r' ->
    (exists r0, reg_at s m r0 /\ ((n = m /\ r0 = r /\ r' = shrink mid r) \/ (n <> m /\ r' = r0)))
    \/ (m = length (s_regs s) /\ r' = ch)).
  { intros m r' X. unfold reg_at, s' in X. simpl in X. destruct (nth_snoc _ _ _ _ X) as [X'|[-> ->]].
    - left. destruct (upd_at _ _ _ _ _ X') as [r0 [A' [[-> ->]|[N ->]]]]; exists r0; (split; [exact A'|]).
      + left. assert (r0 = r) by (unfold reg_at in *; congruence). subst. auto.
      + right. auto.
    - right. auto. }
  assert (RF : forall m r0, reg_at s m r0 -> exists r', reg_at s' m r' /\ r_log r' = r_log r0).
  { intros m r0 X. destruct (Nat.eq_dec n m) as [->|N].
    - exists (shrink mid r0). split; [unfold s', reg_at; simpl; apply nth_snoc_old; apply (nth_upd_same _ _ _ _ X)|reflexivity].
    - exists r0. split; [unfold s', reg_at; simpl; apply nth_snoc_old; rewrite nth_upd_other by exact N; exact X|reflexivity]. }
  assert (EB : forall m r' j e, ent_at s' m r' j e -> exists r0, ent_at s m r0 j e /\
     ((n = m /\ r0 = r /\ r' = shrink mid r) \/ (n <> m /\ r' = r0))).
  { intros m r' j e0 [X N]. destruct (RB _ _ X) as [[r0 [X0 [[-> [-> ->]]|[N0 ->]]]]|[-> ->]].
    - eexists; (split; [split; [exact X0|exact N]|]); auto.
    - eexists; (split; [split; [exact X0|exact N]|]); auto.
    - simpl in N. destruct j; discriminate. }
  assert (RLT : forall m r0, reg_at s m r0 -> (m < length (s_regs s))%nat) by (intros m r0 X; eapply nth_lt; exact X).
  constructor.
  - intros n1 r1 j1 e1 n2 r2 j2 e2 A1 A2 T.
    destruct (EB _ _ _ _ A1) as [x [B1 _]]. destruct (EB _ _ _ _ A2) as [y [B2 _]]. eapply (L_ts s L); eassumption.
  - intros m r1 j1 e1 j2 e2 A1 A2 T.
    destruct (EB _ _ _ _ A1) as [x [B1 _]]. destruct (EB _ _ _ _ A2) as [y [B2 _]].
    assert (x = y) by (destruct B1 as [B1 _]; destruct B2 as [B2 _]; unfold reg_at in *; congruence). subst y.
    eapply (L_inc s L); [exact B1|exact B2|exact T].
  - intros i t v I. destruct (L_orig s L _ _ _ I) as [m [r0 [j [e0 [[E N] X]]]]].
    destruct (RF _ _ E) as [r' [E' H]]. exists m, r', j, e0. split; [|exact X]. split; [exact E'|rewrite H; exact N].
  - intros m r' j e0 l A1 O1. destruct (EB _ _ _ _ A1) as [x [B1 _]]. eapply (L_nodup s L); eassumption.
  - intros m r' j e0 A1. destruct (EB _ _ _ _ A1) as [x [B1 [[-> [-> ->]]|[_ ->]]]].
    + simpl. pose proof (L_ep s L _ _ _ _ B1). lia.
    + eapply (L_ep s L); eassumption.
  - intros m r' j e0 i A1 AL1 EP I. destruct (EB _ _ _ _ A1) as [x [B1 [[-> [-> ->]]|[_ ->]]]].
    + simpl in EP. pose proof (L_ep s L _ _ _ _ B1). lia.
    + eapply (L_in s L); eassumption.
  - intros m r' A1 AL1. destruct (RB _ _ A1) as [[x [B1 [[-> [-> ->]]|[_ ->]]]]|[-> ->]]; simpl in *.
    + lia.
    + eapply (L_rng s L); eassumption.
    + lia.
  - intros n1 r1 n2 r2 A1 A2 N AL1 AL2.
    destruct (RB _ _ A1) as [[x [B1 [[-> [-> ->]]|[N1 ->]]]]|[-> ->]];
    destruct (RB _ _ A2) as [[y [B2 [[-> [-> ->]]|[N2 ->]]]]|[-> ->]]; simpl in *; try congruence; try lia.
    + pose proof (L_dis s L _ _ _ _ B1 B2 N AL AL2). lia.
    + pose proof (L_dis s L _ _ _ _ B1 B2 N AL1 AL). lia.
    + eapply (L_dis s L); eassumption.
    + pose proof (L_dis s L _ _ _ _ A B1 N1 AL AL1). lia.
    + pose proof (L_dis s L _ _ _ _ A B2 N2 AL AL2). lia.
  - intros m r' A1. destruct (RB _ _ A1) as [[x [B1 [[-> [-> ->]]|[N1 ->]]]]|[-> ->]].
    + simpl. destruct (L_len s L _ _ B1) as [H1 H2]. split; [exact H1|]. intros _. eapply nth_lt. exact NE.
    + apply (L_len s L _ _ B1).
    + simpl. split; [lia|congruence].
  - intros m r' j e0 A1 AL1 EP J x I.
    destruct (EB _ _ _ _ A1) as [x0 [B1 [[-> [-> ->]]|[_ ->]]]].
    + simpl in EP. pose proof (L_ep s L _ _ _ _ B1). lia.
    + eapply (L_acc s L); eassumption.
  - intros m r' j e0 i t v A1 AL1 EP IO I T.
    destruct (EB _ _ _ _ A1) as [x0 [B1 [[-> [-> ->]]|[_ ->]]]].
    + simpl in EP. pose proof (L_ep s L _ _ _ _ B1). lia.
    + eapply (L_late s L); eassumption.
  - intros m r' j e0 A1 AL1 EP CH1.
    destruct (EB _ _ _ _ A1) as [x0 [B1 [[-> [-> ->]]|[_ ->]]]].
    + simpl in EP. pose proof (L_ep s L _ _ _ _ B1). lia.
    + eapply (L_chg s L); eassumption.
  - intros m r' j e0 i v A1 AL1 EP J.
    destruct (EB _ _ _ _ A1) as [x0 [B1 [[-> [-> ->]]|[_ ->]]]].
    + simpl in J. apply (NR j e0 i v J). apply B1.
    + eapply (L_old s L); eassumption.
Qed.

Lemma LInv_merge s n r e m src q :
  LInv s -> reg_at s n r -> r_alive r = true -> r_apc r = AIdle ->
  nth_error (r_log r) (r_applied r) = Some e -> e_epoch e = r_epoch r -> e_op e = OMerge m ->
  m <> n -> reg_at s m src -> r_alive src = true ->
  (r_hi src = r_lo r \/ r_hi r = r_lo src) ->
  LInv (with_regs (upd (upd (s_regs s) m retire) n
         (grow (Z.min (r_lo r) (r_lo src)) (Z.max (r_hi r) (r_hi src))
               (Z.max (r_epoch r) (r_epoch src) + 1) q)) s).
Proof.
  intros L A AL PC NE EP0 O MN B BL ADJ.
  set (f := grow (Z.min (r_lo r) (r_lo src)) (Z.max (r_hi r) (r_hi src))
               (Z.max (r_epoch r) (r_epoch src) + 1) q).
  set (s' := with_regs (upd (upd (s_regs s) m retire) n f) s).
  assert (CH : is_change e) by (unfold is_change; rewrite O; exact I).
  pose proof (no_recs_from_change s n r e L A AL NE EP0 CH) as NR.
  assert (E0 : ent_at s n r (r_applied r) e) by (split; assumption).
  assert (RB : forall k r', reg_at s' k r' ->
    exists r0, reg_at s k r0 /\ ((n = k /\ r0 = r /\ r' = f r) \/ (n <> k /\ m = k /\ r0 = src /\ r' = retire src)
                               \/ (n <> k /\ m <> k /\ r' = r0))).
  { intros k r' X. unfold reg_at, s' in X. simpl in X.
    destruct (upd_at _ _ _ _ _ X) as [r1 [A' [[-> ->]|[N ->]]]].
    - destruct (upd_at _ _ _ _ _ A') as [r2 [A2 [[X1 ->]|[N ->]]]]; [congruence|].
      exists r2. split; [exact A2|]. left. assert (r2 = r) by (unfold reg_at in *; congruence). subst. auto.
    - destruct (upd_at _ _ _ _ _ A') as [r2 [A2 [[X1 ->]|[N1 ->]]]].
      + subst k. exists r2. split; [exact A2|]. right. left.
        assert (r2 = src) by (unfold reg_at in *; congruence). subst. auto.
      + exists r2. split; [exact A2|]. right. right. auto. }
  assert (RF : forall k r0, reg_at s k r0 -> exists r', reg_at s' k r' /\ r_log r' = r_log r0).
  { intros k r0 X. destruct (Nat.eq_dec n k) as [->|N].
    - exists (f r0). split; [|reflexivity]. unfold s', reg_at. simpl. apply nth_upd_same.
      rewrite nth_upd_other by exact MN. exact X.
    - destruct (Nat.eq_dec m k) as [->|N2].
      + exists (retire r0). split; [|reflexivity]. unfold s', reg_at. simpl. rewrite nth_upd_other by exact N.
        apply nth_upd_same. exact X.
      + exists r0. split; [|reflexivity]. unfold s', reg_at. simpl. rewrite nth_upd_other by exact N.
        rewrite nth_upd_other by exact N2. exact X. }
  assert (EB : forall k r' j e, ent_at s' k r' j e -> exists r0, ent_at s k r0 j e /\
     ((n = k /\ r0 = r /\ r' = f r) \/ (n <> k /\ m = k /\ r0 = src /\ r' = retire src)
                               \/ (n <> k /\ m <> k /\ r' = r0))).
  { intros k r' j e0 [X N]. destruct (RB _ _ X) as [r0 [X0 C]]. exists r0. split; [|exact C].
    split; [exact X0|]. destruct C as [[_ [-> ->]]|[[_ [_ [-> ->]]]|[_ [_ ->]]]]; exact N. }
  pose proof (L_rng s L _ _ A AL) as R1. pose proof (L_rng s L _ _ B BL) as R2.
  constructor.
  - intros n1 r1 j1 e1 n2 r2 j2 e2 A1 A2 T.
    destruct (EB _ _ _ _ A1) as [x [B1 _]]. destruct (EB _ _ _ _ A2) as [y [B2 _]]. eapply (L_ts s L); eassumption.
  - intros k r1 j1 e1 j2 e2 A1 A2 T.
    destruct (EB _ _ _ _ A1) as [x [B1 _]]. destruct (EB _ _ _ _ A2) as [y [B2 _]].
    assert (x = y) by (destruct B1 as [B1 _]; destruct B2 as [B2 _]; unfold reg_at in *; congruence). subst y.
    eapply (L_inc s L); [exact B1|exact B2|exact T].
  - intros i t v I. destruct (L_orig s L _ _ _ I) as [k [r0 [j [e0 [[E N] X]]]]].
    destruct (RF _ _ E) as [r' [E' H]]. exists k, r', j, e0. split; [|exact X]. split; [exact E'|rewrite H; exact N].
  - intros k r' j e0 l A1 O1. destruct (EB _ _ _ _ A1) as [x [B1 _]]. eapply (L_nodup s L); eassumption.
  - intros k r' j e0 A1. destruct (EB _ _ _ _ A1) as [x [B1 [[-> [-> ->]]|[[_ [-> [-> ->]]]|[_ [_ ->]]]]]].
    + simpl. pose proof (L_ep s L _ _ _ _ B1). lia.
    + simpl. eapply (L_ep s L); eassumption.
    + eapply (L_ep s L); eassumption.
  - intros k r' j e0 i A1 AL1 EP I. destruct (EB _ _ _ _ A1) as [x [B1 [[-> [-> ->]]|[[_ [-> [-> ->]]]|[_ [_ ->]]]]]].
    + simpl in EP. pose proof (L_ep s L _ _ _ _ B1). lia.
    + discriminate AL1.
    + eapply (L_in s L); eassumption.
  - intros k r' A1 AL1. destruct (RB _ _ A1) as [x [B1 [[-> [-> ->]]|[[_ [-> [-> ->]]]|[_ [_ ->]]]]]]; simpl in *.
    + lia.
    + discriminate AL1.
    + eapply (L_rng s L); eassumption.
  - intros n1 r1 n2 r2 A1 A2 N AL1 AL2.
    destruct (RB _ _ A1) as [x [B1 [[-> [-> ->]]|[[X1 [-> [-> ->]]]|[X1 [Y1 ->]]]]]];
    destruct (RB _ _ A2) as [y [B2 [[-> [-> ->]]|[[X2 [-> [-> ->]]]|[X2 [Y2 ->]]]]]]; simpl in *; try congruence; try discriminate.
    + pose proof (L_dis s L _ _ _ _ A B2 N AL AL2). pose proof (L_dis s L _ _ _ _ B B2 Y2 BL AL2).
      pose proof (L_rng s L _ _ B2 AL2). lia.
    + pose proof (L_dis s L _ _ _ _ A B1 X1 AL AL1). pose proof (L_dis s L _ _ _ _ B B1 Y1 BL AL1).
      pose proof (L_rng s L _ _ B1 AL1). lia.
    + eapply (L_dis s L); eassumption.
  - intros k r' A1. destruct (RB _ _ A1) as [x [B1 [[-> [-> ->]]|[[X1 [-> [-> ->]]]|[X1 [Y1 ->]]]]]].
    + simpl. destruct (L_len s L _ _ B1) as [H1 H2]. split; [exact H1|]. intros _. eapply nth_lt. exact NE.
    + apply (L_len s L _ _ B1).
    + apply (L_len s L _ _ B1).
  - intros k r' j e0 A1 AL1 EP J x I.
    destruct (EB _ _ _ _ A1) as [x0 [B1 [[-> [-> ->]]|[[X1 [-> [-> ->]]]|[X1 [Y1 ->]]]]]].
    + simpl in EP. pose proof (L_ep s L _ _ _ _ B1). lia.
    + discriminate AL1.
    + eapply (L_acc s L); eassumption.
  - intros k r' j e0 i t v A1 AL1 EP IO I T.
    destruct (EB _ _ _ _ A1) as [x0 [B1 [[-> [-> ->]]|[[X1 [-> [-> ->]]]|[X1 [Y1 ->]]]]]].
    + simpl in EP. pose proof (L_ep s L _ _ _ _ B1). lia.
    + discriminate AL1.
    + eapply (L_late s L); eassumption.
  - intros k r' j e0 A1 AL1 EP CH1.
    destruct (EB _ _ _ _ A1) as [x0 [B1 [[-> [-> ->]]|[[X1 [-> [-> ->]]]|[X1 [Y1 ->]]]]]].
    + simpl in EP. pose proof (L_ep s L _ _ _ _ B1). lia.
    + discriminate AL1.
    + eapply (L_chg s L); eassumption.
  - intros k r' j e0 i v A1 AL1 EP J.
    destruct (EB _ _ _ _ A1) as [x0 [B1 [[-> [-> ->]]|[[X1 [-> [-> ->]]]|[X1 [Y1 ->]]]]]].
    + simpl in J. apply (NR j e0 i v J). apply B1.
    + discriminate AL1.
    + eapply (L_old s L); eassumption.
Qed.

Lemma reboot_all_nth l : forall bs n,
  nth_error (reboot_all bs l) n = option_map (reboot (nth n bs O)) (nth_error l n).
Proof.
  induction l as [|x l IH]; intros bs [|n]; simpl; try reflexivity.
  - destruct bs; reflexivity.
  - rewrite IH. destruct bs; simpl; [destruct n|]; reflexivity.
Qed.

Lemma LInv_crash g s bs :
  LInv s -> calm_step g s (Crashed bs) -> LInv (with_regs (reboot_all bs (s_regs s)) s).
Proof.
  intros L C. set (s' := with_regs (reboot_all bs (s_regs s)) s).
  assert (RB : forall m r', reg_at s' m r' -> exists r0, reg_at s m r0 /\ r' = reboot (nth m bs O) r0).
  { intros m r' X. unfold reg_at, s' in X. simpl in X. rewrite reboot_all_nth in X.
    destruct (nth_error (s_regs s) m) as [r0|] eqn:E; [|discriminate]. injection X as <-.
    exists r0. split; [exact E|reflexivity]. }
  assert (RF : forall m r0, reg_at s m r0 -> reg_at s' m (reboot (nth m bs O) r0)).
  { intros m r0 X. unfold reg_at, s' in *. simpl. rewrite reboot_all_nth, X. reflexivity. }
  assert (EB : forall m r' j e, ent_at s' m r' j e -> exists r0, ent_at s m r0 j e /\ r' = reboot (nth m bs O) r0).
  { intros m r' j e [X N]. destruct (RB _ _ X) as [r0 [X0 ->]]. exists r0. split; [split; assumption|reflexivity]. }
  constructor.
  - intros n1 r1 j1 e1 n2 r2 j2 e2 A1 A2 T.
    destruct (EB _ _ _ _ A1) as [x [B1 _]]. destruct (EB _ _ _ _ A2) as [y [B2 _]]. eapply (L_ts s L); eassumption.
  - intros m r1 j1 e1 j2 e2 A1 A2 T.
    destruct (EB _ _ _ _ A1) as [x [B1 _]]. destruct (EB _ _ _ _ A2) as [y [B2 _]].
    assert (x = y) by (destruct B1 as [B1 _]; destruct B2 as [B2 _]; unfold reg_at in *; congruence). subst y.
    eapply (L_inc s L); [exact B1|exact B2|exact T].
  - intros i t v I. destruct (L_orig s L _ _ _ I) as [m [r0 [j [e0 [[E N] X]]]]].
    exists m, (reboot (nth m bs O) r0), j, e0. split; [|exact X]. split; [apply RF; exact E|exact N].
  - intros m r' j e0 l A1 O. destruct (EB _ _ _ _ A1) as [x [B1 _]]. eapply (L_nodup s L); eassumption.
  - intros m r' j e0 A1. destruct (EB _ _ _ _ A1) as [x [B1 ->]]. simpl. eapply (L_ep s L); eassumption.
  - intros m r' j e0 i A1 AL1 EP I. destruct (EB _ _ _ _ A1) as [x [B1 ->]]. simpl in *. eapply (L_in s L); eassumption.
  - intros m r' A1 AL1. destruct (RB _ _ A1) as [x [B1 ->]]. simpl in *. eapply (L_rng s L); eassumption.
  - intros n1 r1 n2 r2 A1 A2 N AL1 AL2.
    destruct (RB _ _ A1) as [x [B1 ->]]. destruct (RB _ _ A2) as [y [B2 ->]]. simpl in *.
    eapply (L_dis s L); eassumption.
  - intros m r' A1. destruct (RB _ _ A1) as [x [B1 ->]]. simpl. destruct (L_len s L _ _ B1) as [H1 H2].
    split; [lia|congruence].
  - intros m r' j e0 A1 AL1 EP J x I. destruct (EB _ _ _ _ A1) as [x0 [B1 ->]]. simpl in *.
    eapply (L_acc s L); [exact B1|exact AL1|exact EP| |exact I].
    destruct J as [J|[_ J]]; [left; lia|congruence].
  - intros m r' j e0 i t v A1 AL1 EP IO I T. destruct (EB _ _ _ _ A1) as [x0 [B1 ->]]. simpl in *.
    eapply (L_late s L); eassumption.
  - intros m r' j e0 A1 AL1 EP CH. destruct (EB _ _ _ _ A1) as [x0 [B1 ->]]. simpl in *.
    destruct (L_chg s L _ _ _ _ B1 AL1 EP CH) as [[H1 H2] H3]. split; [|exact H3]. split; [lia|congruence].
  - intros m r' j e0 i v A1 AL1 EP J. destruct (EB _ _ _ _ A1) as [x0 [B1 ->]]. simpl in *.
    destruct (Nat.le_gt_cases (r_applied x0) j) as [K|K].
    + eapply (L_old s L); eassumption.
    + destruct (C m x0) as [_ C2]; [apply B1|]. apply (C2 j e0 i v); [lia|apply B1|exact EP].
Qed.

Lemma LInv_init lo hi : lo < hi -> LInv (init lo hi).
Proof.
  intro H.
  assert (RB : forall m r', reg_at (init lo hi) m r' -> m = O /\ r_log r' = [] /\ r_lo r' = lo /\ r_hi r' = hi /\ r_applied r' = O /\ r_apc r' = AIdle).
  { intros [|m] r' X; unfold reg_at in X; simpl in X; [injection X as <-; simpl; tauto|destruct m; discriminate]. }
  assert (EB : forall m r' j e, ent_at (init lo hi) m r' j e -> False).
  { intros m r' j e [X N]. destruct (RB _ _ X) as [_ [E _]]. rewrite E in N. destruct j; discriminate. }
  constructor; try (intros; exfalso; eapply EB; eassumption).
  - intros i t v [].
  - intros n r X _. destruct (RB _ _ X) as [_ [_ [-> [-> _]]]]. exact H.
  - intros n1 r1 n2 r2 A1 A2 N. destruct (RB _ _ A1) as [-> _]. destruct (RB _ _ A2) as [-> _]. congruence.
  - intros n r X. destruct (RB _ _ X) as [_ [-> [_ [_ [-> ->]]]]]. simpl. split; [lia|congruence].
Qed.
