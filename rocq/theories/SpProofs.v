(** Proofs about the coordinator's safe points. *)
From Coq Require Import ZArith List Bool Lia.
From Verif Require Import SpModel SpSpec.
Import ListNotations.
Open Scope Z_scope.

Lemma zget_del {A} (m : list (Z * A)) k i : zget (zdel m k) i = if i =? k then None else zget m i.
Proof.
  induction m as [|[a v] m IH]; simpl.
  - destruct (i =? k); reflexivity.
  - destruct (Z.eqb_spec a k) as [->|H]; simpl.
    + rewrite IH. destruct (i =? k); reflexivity.
    + rewrite IH. destruct (Z.eqb_spec i a) as [->|H2]; [|reflexivity].
      destruct (Z.eqb_spec a k); [contradiction|reflexivity].
Qed.
Lemma zget_set {A} (m : list (Z * A)) k v i : zget (zset m k v) i = if i =? k then Some v else zget m i.
Proof. unfold zset. simpl. rewrite zget_del. destruct (i =? k); reflexivity. Qed.
Lemma zget_in {A} (m : list (Z * A)) k v : zget m k = Some v -> In (k, v) m.
Proof. induction m as [|[a x] m IH]; simpl; [discriminate|]. destruct (Z.eqb_spec k a); [intros [= ->]; subst; auto|auto]. Qed.
Lemma in_zget {A} (m : list (Z * A)) k v : NoDup (map fst m) -> In (k, v) m -> zget m k = Some v.
Proof.
  induction m as [|[a x] m IH]; simpl; intros N H; [destruct H|]. inversion N as [|? ? N1 N2]; subst.
  destruct H as [[= -> ->]|H]; [rewrite Z.eqb_refl; reflexivity|].
  destruct (Z.eqb_spec k a) as [->|]; [|auto]. exfalso. apply N1. apply (in_map fst) in H. exact H.
Qed.
Lemma zget_none {A} (m : list (Z * A)) k : ~ In k (map fst m) -> zget m k = None.
Proof. induction m as [|[a x] m IH]; simpl; intros H; [reflexivity|]. destruct (Z.eqb_spec k a); [subst; tauto|auto]. Qed.
Lemma zget_keys {A} (m : list (Z * A)) k : In k (map fst m) -> zget m k <> None.
Proof. induction m as [|[a x] m IH]; simpl; [tauto|]. intros H. destruct (Z.eqb_spec k a); [discriminate|]. apply IH. destruct H; congruence. Qed.

(** * Counters *)
Lemma bump_le now o : now <= bump now o.
Proof. unfold bump. destruct o as [v|]; [|lia]. destruct (Z.ltb_spec now v); lia. Qed.

Lemma ask_applied c u c1 r : ask c u = (c1, r) ->
  c_sp c1 = c_sp c /\ c_rl c1 = c_rl c /\ c_stop c1 = c_stop c /\ c_ten c1 = c_ten c /\
  c_tsp c <= c_tsp c1 /\ c_trl c <= c_trl c1 /\
  (c_pend c1 = c_pend c \/ exists i, c_pend c1 = c_pend c ++ [i] /\
     exists q, raise_sp (c_ten c) (u_tsp u) = Some q /\ raise_rl (c_ten c) (u_trl u) q = Some (i_tens i)).
Proof.
  intros H. unfold ask in H.
  destruct (match u_flag u with FNone => _ | FStop => _ | FStart => _ | FOther => _ end) as [[stop is]|].
  2:{ injection H as <- <-. repeat split; auto; lia. }
  destruct (raise_sp (c_ten c) (u_tsp u)) as [q|] eqn:E1.
  2:{ injection H as <- <-. cbn. repeat split; auto; lia. }
  destruct (raise_rl (c_ten c) (u_trl u) q) as [q2|] eqn:E2.
  2:{ injection H as <- <-. cbn. repeat split; auto; lia. }
  assert (D : (c1 = with_temp c (u_sp u) (u_rl u)) \/ exists i, c1 = propose (with_temp c (u_sp u) (u_rl u)) i /\ i_tens i = q2).
  { destruct (u_sp u <=? c_tsp c), (u_rl u <=? c_trl c), is, q2; injection H as <- <-; eauto. }
  destruct D as [->|(i & -> & <-)]; cbn; repeat split; try reflexivity; try lia; [auto|]. right. exists i. split; [reflexivity|]. eauto.
Qed.

(** only updates come from a request for safe points *)
Definition is_upd (i : tinc) : Prop := match i with TUpdate _ _ => True | _ => False end.
Lemma raise_sp_upd ten l q : raise_sp ten l = Some q -> Forall is_upd q.
Proof.
  revert q; induction l as [|[id sp] l IH]; simpl; intros q H; [injection H as <-; constructor|].
  destruct (id =? 0); [auto|]. destruct (zget ten id); [|discriminate]. destruct (raise_sp ten l) as [q0|]; [|discriminate].
  destruct (n_sp t <? sp); injection H as <-; [constructor; [exact Logic.I|auto]|auto].
Qed.
Lemma put_rl_upd q id t rl : Forall is_upd q -> Forall is_upd (put_rl q id t rl).
Proof.
  induction 1 as [|x q Hx Hq IH]; simpl; [repeat constructor|]. destruct x as [|i x|]; try destruct Hx.
  destruct (i =? id); constructor; simpl; auto.
Qed.
Lemma raise_rl_upd ten l : forall q q2, raise_rl ten l q = Some q2 -> Forall is_upd q -> Forall is_upd q2.
Proof.
  induction l as [|[id rl] l IH]; simpl; intros q q2 H F; [injection H as <-; exact F|].
  destruct (id =? 0); [eauto|]. destruct (zget ten id) as [t|]; [|discriminate].
  apply (IH _ _ H). destruct (n_rl t <? rl); [apply put_rl_upd|]; exact F.
Qed.

Lemma remove_nth_in {A} (l : list A) : forall n x, In x (remove_nth l n) -> In x l.
Proof. induction l as [|a l IH]; intros [|n] x H; simpl in *; auto. destruct H; eauto. Qed.

(** * No safe point of a tenant goes back *)
Lemma update_tenant_le x t y : update_tenant x t = Some y -> n_sp x <= n_sp y /\ n_rl x <= n_rl y.
Proof.
  unfold update_tenant. intros H.
  set (x1 := if 0 <? n_sp t then _ else _) in H.
  assert (S : n_sp x <= n_sp x1 /\ n_rl x1 = n_rl x).
  { unfold x1. destruct (0 <? n_sp t); [destruct (Z.leb_spec (n_sp t) (n_sp x))|]; cbn; lia. }
  clearbody x1.
  destruct (0 <? n_rl t).
  - destruct (Z.ltb_spec (n_rl t) (n_rl x1)); [discriminate|].
    destruct ((n_rl t =? n_rl x1) && (n_sp x1 <=? n_sp x)); [discriminate|]. injection H as <-. cbn. lia.
  - injection H as <-. cbn. lia.
Qed.
Definition grown (x y : tenant) : Prop := n_sp x <= n_sp y /\ n_rl x <= n_rl y.
Definition spares (id : Z) (i : tinc) : Prop :=
  match i with TCreate k _ => k <> id | TDelete k => k <> id | TUpdate _ _ => True end.
Lemma apply_tinc_grown id m i x : spares id i -> zget m id = Some x -> exists y, zget (apply_tinc m i) id = Some y /\ grown x y.
Proof.
  intros S H. destruct i as [k t|k t|k]; cbn [apply_tinc spares] in *.
  - rewrite zget_set. destruct (Z.eqb_spec id k); [congruence|]. exists x. split; [exact H|split; lia].
  - destruct (zget m k) as [x0|] eqn:E; [|exists x; split; [exact H|split; lia]].
    destruct (update_tenant x0 t) as [y|] eqn:U; [|exists x; split; [exact H|split; lia]].
    rewrite zget_set. destruct (Z.eqb_spec id k) as [->|]; [|exists x; split; [exact H|split; lia]].
    exists y. split; [reflexivity|]. assert (x0 = x) by congruence. subst. exact (update_tenant_le _ _ _ U).
  - rewrite zget_del. destruct (Z.eqb_spec id k); [congruence|]. exists x. split; [exact H|split; lia].
Qed.
Lemma apply_tincs_grown id l : forall m x, Forall (spares id) l -> zget m id = Some x ->
  exists y, zget (fold_left apply_tinc l m) id = Some y /\ grown x y.
Proof.
  induction l as [|i l IH]; intros m x F H; simpl; [exists x; split; [exact H|split; lia]|].
  inversion F; subst. destruct (apply_tinc_grown id m i x) as (y & Hy & G); auto.
  destruct (IH _ _ H3 Hy) as (z & Hz & G2). exists z. split; [exact Hz|]. unfold grown in *. lia.
Qed.

Lemma cstep_counters c e : c_sp c <= c_sp (cstep c e) /\ c_rl c <= c_rl (cstep c e).
Proof.
  destruct e as [u|p|p| |id nm cm|id|id nm cm]; cbn [cstep].
  - destruct (ask c u) as [c1 r] eqn:E. apply ask_applied in E as (A & B & _). cbn [fst]. lia.
  - destruct (nth_error (c_pend c) p); [cbn; split; apply bump_le|lia].
  - cbn; lia.
  - cbn; lia.
  - destruct (id =? 0); [lia|]. destruct (zget (c_ten c) id); cbn; lia.
  - destruct (id <=? 0); [lia|]. destruct (zget (c_ten c) id); cbn; lia.
  - destruct (id <=? 0); [lia|]. destruct (zget (c_ten c) id); cbn; lia.
Qed.
Lemma crun_counters es : forall c, c_sp c <= c_sp (crun c es) /\ c_rl c <= c_rl (crun c es).
Proof.
  induction es as [|e es IH]; intros c; [simpl; lia|].
  change (crun c (e :: es)) with (crun (cstep c e) es). specialize (IH (cstep c e)). pose proof (cstep_counters c e). lia.
Qed.
Lemma cstep_temps c e : no_change e -> c_tsp c <= c_tsp (cstep c e) /\ c_trl c <= c_trl (cstep c e).
Proof.
  intros N. destruct e as [u|p|p| |id nm cm|id|id nm cm]; cbn [cstep].
  - destruct (ask c u) as [c1 r] eqn:E. apply ask_applied in E as (_ & _ & _ & _ & A & B & _). cbn [fst]. auto.
  - destruct (nth_error (c_pend c) p); cbn; lia.
  - cbn; lia.
  - exfalso; apply N; reflexivity.
  - destruct (id =? 0); [lia|]. destruct (zget (c_ten c) id); cbn; lia.
  - destruct (id <=? 0); [lia|]. destruct (zget (c_ten c) id); cbn; lia.
  - destruct (id <=? 0); [lia|]. destruct (zget (c_ten c) id); cbn; lia.
Qed.
Lemma crun_temps es : forall c, Forall no_change es ->
  w_sp (get_gc c) <= w_sp (get_gc (crun c es)) /\ w_rl (get_gc c) <= w_rl (get_gc (crun c es)).
Proof.
  cbn. induction es as [|e es IH]; intros c F; [simpl; lia|]. inversion F; subst.
  change (crun c (e :: es)) with (crun (cstep c e) es). specialize (IH (cstep c e) H2). pose proof (cstep_temps c e H1). lia.
Qed.

Lemma way_spares id c : none_under_way id c <-> forall i, In i (c_pend c) -> Forall (spares id) (i_tens i).
Proof.
  unfold none_under_way. split; intros H i Hi.
  - apply Forall_forall. intros x Hx. exact (H i Hi x Hx).
  - intros x Hx. pose proof (proj1 (Forall_forall _ _) (H i Hi) x Hx) as S. exact S.
Qed.
Lemma upd_spares id q : Forall is_upd q -> Forall (spares id) q.
Proof. apply Forall_impl. intros [k t|k t|k]; simpl; tauto. Qed.

Lemma cstep_tenant id c e x : leaves_alone id e -> none_under_way id c -> zget (c_ten c) id = Some x ->
  none_under_way id (cstep c e) /\ exists y, zget (c_ten (cstep c e)) id = Some y /\ grown x y.
Proof.
  intros L W H. rewrite way_spares in W |- *.
  assert (T : exists y, Some x = Some y /\ grown x y) by (exists x; split; [reflexivity|split; lia]).
  assert (P : forall c' j, (forall i, In i (c_pend c') -> Forall (spares id) (i_tens i)) -> Forall (spares id) (i_tens j) ->
              forall i, In i (c_pend (propose c' j)) -> Forall (spares id) (i_tens i)).
  { intros c' j A B i Hi. cbn in Hi. apply in_app_or in Hi as [Hi|[<-|[]]]; auto. }
  destruct e as [u|p|p| |k nm cm|k|k nm cm]; cbn [cstep leaves_alone] in *.
  - destruct (ask c u) as [c1 r] eqn:E. apply ask_applied in E as (_ & _ & _ & A & _ & _ & B). cbn [fst]. rewrite A, H. split; [|exact T].
    intros i Hi. destruct B as [B|(j & B & q & Q1 & Q2)]; rewrite B in Hi; [auto|].
    apply in_app_or in Hi as [Hi|[<-|[]]]; [auto|]. apply upd_spares. apply (raise_rl_upd _ _ _ _ Q2). exact (raise_sp_upd _ _ _ Q1).
  - destruct (nth_error (c_pend c) p) as [i|] eqn:E; [|rewrite H; auto]. cbn. split.
    + intros j Hj. apply W. exact (remove_nth_in _ _ _ Hj).
    + apply apply_tincs_grown; [|exact H]. apply W. exact (nth_error_In _ _ E).
  - cbn. rewrite H. split; [|exact T]. intros j Hj. apply W. exact (remove_nth_in _ _ _ Hj).
  - cbn. rewrite H. split; [|exact T]. intros j [].
  - destruct (k =? 0); [rewrite H; auto|]. destruct (zget (c_ten c) k) eqn:E; [rewrite H; auto|]. cbn [c_ten propose]. rewrite H. split; [|exact T].
    apply P; [exact W|]. constructor; [|constructor]. simpl. intros ->. congruence.
  - destruct (k <=? 0); [rewrite H; auto|]. destruct (zget (c_ten c) k) eqn:E; [|rewrite H; auto]. cbn [c_ten propose]. rewrite H. split; [|exact T].
    apply P; [exact W|]. constructor; [|constructor]. exact L.
  - destruct (k <=? 0); [rewrite H; auto|]. destruct (zget (c_ten c) k) eqn:E; [|rewrite H; auto]. cbn [c_ten propose]. rewrite H. split; [|exact T].
    apply P; [exact W|]. constructor; [|constructor]. exact Logic.I.
Qed.
Lemma crun_tenant id es : forall c x, Forall (leaves_alone id) es -> none_under_way id c -> zget (c_ten c) id = Some x ->
  exists y, zget (c_ten (crun c es)) id = Some y /\ n_sp x <= n_sp y /\ n_rl x <= n_rl y.
Proof.
  induction es as [|e es IH]; intros c x F W H; [simpl; exists x; split; [exact H|lia]|]. inversion F; subst.
  destruct (cstep_tenant id c e x) as (W2 & y & Hy & G); auto.
  change (crun c (e :: es)) with (crun (cstep c e) es). destruct (IH _ _ H3 W2 Hy) as (z & Hz & G2).
  exists z. split; [exact Hz|]. unfold grown in *. lia.
Qed.
