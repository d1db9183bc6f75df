From Coq Require Import ZArith List Bool Arith Lia.
From Verif Require Import TsoModel TsoSpec.
Import ListNotations.
Open Scope Z_scope.

(** the value of a field in the last of the first n entries, 0 if there is none *)
Definition upto (f : upd -> Z) (l : list upd) (n : nat) : Z :=
  match n with O => 0 | S m => match nth_error l m with Some u => f u | None => 0 end end.

Lemma upto_app f l u n : (n <= length l)%nat -> upto f (l ++ [u]) n = upto f l n.
Proof. intros H. destruct n as [|m]; [reflexivity|]. cbn [upto]. rewrite nth_error_app1 by lia. reflexivity. Qed.

Lemma nth_app1 {A} (l : list A) x m y : nth_error l m = Some y -> nth_error (l ++ [x]) m = Some y.
Proof. intros H. rewrite nth_error_app1; [exact H|]. apply nth_error_Some. congruence. Qed.

Lemma nth_snoc {A} (l : list A) x m y : nth_error (l ++ [x]) m = Some y -> nth_error l m = Some y \/ (m = length l /\ y = x).
Proof.
  intros H. destruct (lt_dec m (length l)) as [L|L]; [rewrite nth_error_app1 in H by exact L; auto|].
  rewrite nth_error_app2 in H by lia. destruct (m - length l)%nat as [|k] eqn:E; [injection H as <-; right; split; [lia|reflexivity]|].
  destruct k; discriminate.
Qed.

Definition good (u : upd) : Prop := u_kind u = Update /\ u_logic u = 0 /\ 0 < u_phys u /\ u_phys u < u_save u.

Definition log_ok (l : list upd) : Prop :=
  (forall m u, nth_error l m = Some u -> good u) /\
  (forall a b u v, nth_error l a = Some u -> nth_error l b = Some v -> (a < b)%nat ->
     u_phys u < u_phys v /\ u_save u <= u_save v /\ (u_term u <= u_term v)%nat).

Definition node_ok (l : list upd) (T : nat) (n : tnode) : Prop :=
  (n_app n <= length l)%nat /\ n_save n = upto u_save l (n_app n) /\ n_phys n <= upto u_phys l (n_app n) /\ 0 <= n_logic n /\
  (forall t, n_term n = Some t -> (t <= T)%nat) /\
  (n_synced n = true -> exists t u m, n_term n = Some t /\ n_app n = S m /\ nth_error l m = Some u /\ u_term u = t /\ n_phys n = u_phys u).

Definition valid (l : list upd) (u : upd) : Prop :=
  good u /\ upto u_phys l (length l) < u_phys u /\ upto u_save l (length l) <= u_save u.

Definition lead_ok (l : list upd) (T : nat) (n : tnode) : Prop :=
  n_term n = Some T /\ (n_app n + n_out n = length l)%nat /\
  (forall m u, nth_error l m = Some u -> (n_app n <= m)%nat -> u_term u = T) /\
  (n_pend n = [] \/ exists u, n_pend n = [u] /\ n_out n = O /\ valid l u).

(** what was handed out *)
Definition issued (s : cluster) (p l c : Z) : Prop :=
  0 <= l /\ 0 < c /\ l + c < kMaxLogical /\
  exists m u, nth_error (tlog s) m = Some u /\ u_phys u = p /\
    forall i, n_term (nodes s i) = Some (u_term u) -> (m < n_app (nodes s i))%nat /\ (n_phys (nodes s i) = p -> l + c <= n_logic (nodes s i)).

Record tinv (s : cluster) (out : list answer) : Prop := {
  t_log : log_ok (tlog s);
  t_terms : forall m u, nth_error (tlog s) m = Some u -> (u_term u <= terms s)%nat;
  t_node : forall i, node_ok (tlog s) (terms s) (nodes s i);
  t_uni : forall i j t, n_term (nodes s i) = Some t -> n_term (nodes s j) = Some t -> i = j;
  t_lead : forall i, lead s = Some i -> lead_ok (tlog s) (terms s) (nodes s i);
  t_out : forall p l c, In (Stamp p l c) out -> issued s p l c;
  t_unique : unique out
}.

Lemma set_same f i n : set f i n i = n.
Proof. unfold set. now rewrite Nat.eqb_refl. Qed.
Lemma set_other f i j n : j <> i -> set f i n j = f j.
Proof. intros H. unfold set. destruct (Nat.eqb_spec j i); [contradiction|reflexivity]. Qed.
Ltac sets j i := destruct (Nat.eq_dec j i) as [->|?]; [rewrite ?set_same in *|rewrite ?set_other in * by assumption].

Lemma upto_pos l n : log_ok l -> 0 <= upto u_phys l n /\ 0 <= upto u_save l n.
Proof.
  intros [G _]. destruct n as [|m]; cbn; [lia|]. destruct (nth_error l m) as [u|] eqn:E; [|lia]. destruct (G m u E) as [_ [_ G1]]. lia.
Qed.

Lemma upto_mono l a b : log_ok l -> (a <= b)%nat -> (b <= length l)%nat -> upto u_phys l a <= upto u_phys l b /\ upto u_save l a <= upto u_save l b.
Proof.
  intros H Le Lb. destruct a as [|a]; [apply (upto_pos l b H)|]. destruct b as [|b]; [lia|]. cbn.
  destruct (nth_error l a) as [u|] eqn:Ea; [|apply nth_error_None in Ea; lia].
  destruct (nth_error l b) as [v|] eqn:Eb; [|apply nth_error_None in Eb; lia].
  destruct (Nat.eq_dec a b) as [->|N]; [rewrite Ea in Eb; injection Eb as <-; lia|].
  destruct (proj2 H a b u v Ea Eb ltac:(lia)) as [X1 [X2 _]]. lia.
Qed.

Lemma upto_lt l n m u : log_ok l -> nth_error l m = Some u -> (n <= m)%nat -> upto u_phys l n < u_phys u /\ upto u_save l n <= u_save u.
Proof.
  intros H Hu L. destruct n as [|n]; cbn; [destruct (proj1 H m u Hu) as [_ [_ G]]; lia|].
  destruct (nth_error l n) as [v|] eqn:E; [|apply nth_error_None in E; assert (m < length l)%nat by (apply nth_error_Some; congruence); lia].
  destruct (proj2 H n m v u E Hu ltac:(lia)) as [X1 [X2 _]]. lia.
Qed.

Lemma log_snoc l u : log_ok l -> valid l u -> (forall m v, nth_error l m = Some v -> (u_term v <= u_term u)%nat) -> log_ok (l ++ [u]).
Proof.
  intros H [V1 [V2 V3]] T. split.
  - intros m v E. apply nth_snoc in E. destruct E as [E|[_ ->]]; [eapply (proj1 H); exact E|exact V1].
  - intros a b v w Ea Eb L. apply nth_snoc in Ea. apply nth_snoc in Eb.
    destruct Ea as [Ea|[-> ->]]; destruct Eb as [Eb|[-> ->]]; try lia.
    + eapply (proj2 H); eassumption.
    + assert (U : upto u_phys l (S a) = u_phys v /\ upto u_save l (S a) = u_save v) by (cbn; rewrite Ea; auto).
      assert (La : (a < length l)%nat) by (apply nth_error_Some; congruence).
      destruct (upto_mono l (S a) (length l) H ltac:(lia) ltac:(lia)) as [M1 M2]. specialize (T a v Ea). lia.
    + assert (b < length l)%nat by (apply nth_error_Some; congruence). lia.
Qed.

Lemma node_ok_snoc l T n u : node_ok l T n -> node_ok (l ++ [u]) T n.
Proof.
  intros [A [B [C [D [E F]]]]]. split; [rewrite app_length; cbn; lia|]. rewrite !upto_app by exact A.
  split; [exact B|]. split; [exact C|]. split; [exact D|]. split; [exact E|]. intros Sy. destruct (F Sy) as [t [v [m [F1 [F2 [F3 F4]]]]]].
  exists t, v, m. split; [exact F1|]. split; [exact F2|]. split; [apply nth_app1, F3|exact F4].
Qed.

Lemma leader_start_valid l T n now : log_ok l -> node_ok l T n -> n_app n = length l -> valid l (leader_start n now).
Proof.
  intros H [A [B [C [D [E F]]]]] L. unfold leader_start, valid, good. cbn [u_kind u_logic u_phys u_save].
  destruct (upto_pos l (length l) H) as [P1 P2].
  assert (X : upto u_phys l (length l) <= upto u_save l (length l)).
  { destruct (length l) as [|m] eqn:EL; cbn; [lia|]. destruct (nth_error l m) as [u|] eqn:Eu; [|lia]. destruct (proj1 H m u Eu) as [_ [_ G]]. lia. }
  rewrite L in B. unfold kInterval, kGuard, kSave. destruct (Z.ltb_spec now (n_save n + 50)); repeat split; lia.
Qed.

Lemma timer_valid l T n now u : log_ok l -> node_ok l T n -> n_app n = length l -> n_synced n = true -> update_timestamp n now = Some u -> valid l u.
Proof.
  intros H [A [B [C [D [E F]]]]] L Sy U. destruct (F Sy) as [t [v [m [F1 [F2 [F3 [F4 F5]]]]]]].
  assert (P : upto u_phys l (length l) = n_phys n) by (rewrite <- L, F2; cbn; rewrite F3; congruence).
  rewrite L in B. destruct (proj1 H m v F3) as [_ [_ G]]. unfold update_timestamp in U. cbv zeta in U. unfold kGuard in U.
  assert (X : exists next, n_phys n < next /\ u = mkU Update next 0 (if n_save n - next <=? 1 then next + kSave else n_save n) 0).
  { destruct (Z.gtb_spec (now - n_phys n) 1).
    - injection U as <-. exists now. split; [lia|reflexivity].
    - destruct (n_logic n >? kMaxLogical / 2); [|discriminate]. injection U as <-. exists (n_phys n + 1). split; [lia|reflexivity]. }
  destruct X as [next [X1 ->]]. unfold valid, good. cbn [u_kind u_logic u_phys u_save]. unfold kSave.
  destruct (Z.leb_spec (n_save n - next) 1); repeat split; lia.
Qed.

(** a step that changes one node, not the log, and hands out nothing *)
Lemma frame s out i n' ld :
  tinv s out -> node_ok (tlog s) (terms s) n' ->
  (forall t, n_term n' = Some t -> n_term (nodes s i) = Some t /\ (n_app (nodes s i) <= n_app n')%nat /\
     (n_phys n' = n_phys (nodes s i) /\ n_logic n' = n_logic (nodes s i) \/
      forall m u, nth_error (tlog s) m = Some u -> (m < n_app (nodes s i))%nat -> u_phys u <> n_phys n')) ->
  (forall j, ld = Some j -> lead s = Some j) ->
  (ld = Some i -> lead_ok (tlog s) (terms s) n') ->
  tinv (mkCl (set (nodes s) i n') (tlog s) ld (terms s)) out.
Proof.
  intros H N T L LO. constructor; cbn [nodes tlog lead terms].
  - apply (t_log s out H).
  - apply (t_terms s out H).
  - intros j. sets j i; [exact N|apply (t_node s out H)].
  - intros j k t Hj Hk. sets j i; sets k i; auto.
    + destruct (T t Hj) as [X _]. eapply (t_uni s out H); eassumption.
    + destruct (T t Hk) as [X _]. eapply (t_uni s out H); eassumption.
    + eapply (t_uni s out H); eassumption.
  - intros j Hj. sets j i; [apply LO, Hj|]. apply (t_lead s out H), L, Hj.
  - intros p l c I. destruct (t_out s out H p l c I) as [A [B [C [m [u [M1 [M2 M3]]]]]]]. split; [exact A|]. split; [exact B|]. split; [exact C|].
    exists m, u. split; [exact M1|]. split; [exact M2|]. cbn [nodes]. intros j Hj. sets j i; [|apply M3, Hj].
    destruct (T _ Hj) as [X1 [X2 X3]]. destruct (M3 i X1) as [Y1 Y2]. split; [lia|]. intros E.
    destruct X3 as [[X3 X4]|X3]; [rewrite X4; apply Y2; congruence|]. exfalso. apply (X3 m u M1 Y1). congruence.
  - apply (t_unique s out H).
Qed.


Lemma elect_inv s out i now : tinv s out -> n_term (nodes s i) = None -> n_app (nodes s i) = length (tlog s) -> n_pend (nodes s i) = [] ->
  tinv (mkCl (set (nodes s) i (with_term (nodes s i) (Some (S (terms s))) false ([] ++ [leader_start (nodes s i) now]) 0)) (tlog s) (Some i) (S (terms s))) out.
Proof.
  intros H Tm La Pe. set (n' := with_term _ _ _ _ _). assert (N := t_node s out H).
  assert (W : forall n, node_ok (tlog s) (terms s) n -> node_ok (tlog s) (S (terms s)) n).
  { intros n [A [B [C [D [E F]]]]]. repeat (split; [assumption|]). split; [|exact F]. intros t Ht. specialize (E t Ht). lia. }
  assert (V : valid (tlog s) (leader_start (nodes s i) now)) by (eapply leader_start_valid; [apply (t_log s out H)|apply N|exact La]).
  constructor; cbn [nodes tlog lead terms].
  - apply (t_log s out H).
  - intros m u E. specialize (t_terms s out H m u E). lia.
  - intros j. sets j i; [|apply W, N]. destruct (N i) as [A [B [C [D [E F]]]]]. repeat (split; [assumption|]). cbn [n_term n_synced n' with_term].
    split; [intros t Ht; injection Ht as <-; lia|discriminate].
  - intros j k t Hj Hk.
    assert (X : forall j, n_term (nodes s j) = Some t -> t <> S (terms s)).
    { intros x Hx ->. destruct (N x) as [_ [_ [_ [_ [E _]]]]]. specialize (E _ Hx). lia. }
    sets j i; sets k i; auto.
    + cbn in Hj. injection Hj as <-. exfalso. eapply X; [exact Hk|reflexivity].
    + cbn in Hk. injection Hk as <-. exfalso. eapply X; [exact Hj|reflexivity].
    + eapply (t_uni s out H); eassumption.
  - intros j Hj. injection Hj as <-. rewrite set_same. split; [reflexivity|]. split; [cbn; lia|]. split.
    + intros m u E L. cbn in L. assert (m < length (tlog s))%nat by (apply nth_error_Some; congruence). lia.
    + right. eexists. split; [reflexivity|]. split; [reflexivity|exact V].
  - intros p l c I. destruct (t_out s out H p l c I) as [A [B [C [m [u [M1 [M2 M3]]]]]]]. split; [exact A|]. split; [exact B|]. split; [exact C|].
    exists m, u. split; [exact M1|]. split; [exact M2|]. cbn [nodes]. intros j Hj. sets j i; [|apply M3, Hj].
    cbn in Hj. injection Hj as Hj. specialize (t_terms s out H m u M1). lia.
  - apply (t_unique s out H).
Qed.

Lemma submit_inv s out i u : tinv s out -> lead s = Some i -> n_pend (nodes s i) = [u] ->
  tinv (mkCl (set (nodes s) i (with_term (nodes s i) (n_term (nodes s i)) (n_synced (nodes s i)) [] (S (n_out (nodes s i)))))
             (tlog s ++ [mkU (u_kind u) (u_phys u) (u_logic u) (u_save u) (terms s)]) (lead s) (terms s)) out.
Proof.
  intros H Ld Pe. set (n' := with_term _ _ _ _ _). set (v := mkU _ _ _ _ _). destruct (t_lead s out H i Ld) as [L1 [L2 [L3 L4]]].
  destruct L4 as [L4|[u' [L4 [L5 L6]]]]; [congruence|]. rewrite Pe in L4. injection L4 as <-.
  assert (V : valid (tlog s) v) by exact L6.
  constructor; cbn [nodes tlog lead terms].
  - apply log_snoc; [apply (t_log s out H)|exact V|apply (t_terms s out H)].
  - intros m w E. apply nth_snoc in E. destruct E as [E|[_ ->]]; [apply (t_terms s out H m w E)|cbn; lia].
  - intros j. apply node_ok_snoc. sets j i; [|apply (t_node s out H)].
    destruct (t_node s out H i) as [A [B [C [D [E F]]]]]. repeat (split; [assumption|]). exact F.
  - intros j k t Hj Hk. sets j i; sets k i; auto; eapply (t_uni s out H); eassumption.
  - intros j Hj. rewrite Ld in Hj. injection Hj as <-. rewrite set_same. split; [exact L1|]. split; [rewrite app_length; cbn; lia|]. split.
    + intros m w E L. apply nth_snoc in E. destruct E as [E|[_ ->]]; [eapply L3; eassumption|reflexivity].
    + left. reflexivity.
  - intros p l c I. destruct (t_out s out H p l c I) as [A [B [C [m [w [M1 [M2 M3]]]]]]]. split; [exact A|]. split; [exact B|]. split; [exact C|].
    exists m, w. split; [apply nth_app1, M1|]. split; [exact M2|]. cbn [nodes]. intros j Hj. sets j i; [|apply M3, Hj]. apply (M3 i Hj).
  - apply (t_unique s out H).
Qed.

Lemma apply_upd_node l T n u : log_ok l -> node_ok l T n -> nth_error l (n_app n) = Some u ->
  apply_upd n u = mkN (u_phys u) (u_logic u) (u_save u) (n_ok n) (n_term n) (n_app n) (n_synced n) (n_pend n) (n_out n).
Proof.
  intros H [A [B [C _]]] E. destruct (upto_lt l (n_app n) (n_app n) u H E (le_n _)) as [X1 X2]. destruct (proj1 H _ u E) as [K _].
  unfold apply_upd. rewrite K. unfold update_tso. destruct (Z.ltb_spec (u_save u) (n_save n)); [lia|]. destruct (Z.ltb_spec (u_phys u) (n_phys n)); [lia|]. reflexivity.
Qed.

Lemma unique_snoc out a : unique out -> (forall b t, In b out -> stamps b t -> stamps a t -> False) -> unique (out ++ [a]).
Proof.
  intros U D i j x y t Hi Hj Sx Sy. apply nth_snoc in Hi. apply nth_snoc in Hj. destruct Hi as [Hi|[-> ->]]; destruct Hj as [Hj|[-> ->]]; auto.
  - eapply U; eassumption.
  - exfalso. eapply D; [eapply nth_error_In; exact Hi|exact Sx|exact Sy].
  - exfalso. eapply D; [eapply nth_error_In; exact Hj|exact Sy|exact Sx].
Qed.

Lemma gen_inv s out i count t : tinv s out -> 0 < count -> n_term (nodes s i) = Some t -> n_synced (nodes s i) = true ->
  let '(n', a) := gen_tso (nodes s i) count in tinv (mkCl (set (nodes s) i n') (tlog s) (lead s) (terms s)) (out ++ [a]).
Proof.
  intros H Pc Tm Sy. set (n := nodes s i) in *. assert (N := t_node s out H i). fold n in N. destruct N as [A [B [C [D [E F]]]]].
  assert (NO : forall a, (forall p l c, a <> Stamp p l c) -> tinv (mkCl (set (nodes s) i n) (tlog s) (lead s) (terms s)) (out ++ [a])).
  { intros a Na. assert (H0 : tinv (mkCl (set (nodes s) i n) (tlog s) (lead s) (terms s)) out).
    { apply frame; [exact H|apply (t_node s out H)| |auto|].
      - intros t' Ht'. split; [exact Ht'|]. split; [apply le_n|]. left. auto.
      - intros Ld. apply (t_lead s out H i Ld). }
    destruct H0. constructor; auto.
    - intros p l c I. apply in_app_or in I. destruct I as [I|[I|[]]]; [auto|]. exfalso. eapply Na. exact I.
    - apply unique_snoc; auto. intros b x _ _ Sx. destruct a; try (exact Sx). exfalso. eapply Na. reflexivity. }
  unfold gen_tso. fold n. destruct (Z.eqb_spec count 0); [lia|]. destruct (n_ok n) eqn:Ok; cbn [negb]; [|apply NO; discriminate].
  destruct (Z.eqb_spec (n_phys n) 0) as [P0|P0]; [apply NO; discriminate|].
  destruct (Z.ltb_spec (n_logic n + count) kMaxLogical) as [Lt|]; [|apply NO; discriminate].
  set (n' := mkN _ _ _ _ _ _ _ _ _). destruct (F Sy) as [t' [u [m [F1 [F2 [F3 [F4 F5]]]]]]]. rewrite Tm in F1. injection F1 as <-.
  assert (OLD : forall p l c, In (Stamp p l c) out -> issued (mkCl (set (nodes s) i n') (tlog s) (lead s) (terms s)) p l c).
  { intros p l c I. destruct (t_out s out H p l c I) as [G1 [G2 [G3 [m' [u' [M1 [M2 M3]]]]]]]. split; [exact G1|]. split; [exact G2|]. split; [exact G3|].
    exists m', u'. split; [exact M1|]. split; [exact M2|]. cbn [nodes]. intros j Hj. sets j i; [|apply M3, Hj].
    destruct (M3 i Hj) as [Y1 Y2]. split; [exact Y1|]. intros Ep. cbn in Ep |- *. specialize (Y2 Ep). fold n in Y2. lia. }
  constructor; cbn [nodes tlog lead terms].
  - apply (t_log s out H).
  - apply (t_terms s out H).
  - intros j. sets j i; [|apply (t_node s out H)]. repeat (split; [assumption|]). split; [cbn; lia|]. split; [exact E|exact F].
  - intros j k x Hj Hk. sets j i; sets k i; auto; eapply (t_uni s out H); eassumption.
  - intros j Hj. sets j i; [|apply (t_lead s out H j Hj)]. destruct (t_lead s out H i Hj) as [L1 [L2 [L3 L4]]]. repeat (split; [assumption|]). exact L4.
  - intros p l c I. apply in_app_or in I. destruct I as [I|[I|[]]]; [apply OLD, I|]. injection I as <- <- <-.
    split; [exact D|]. split; [exact Pc|]. split; [exact Lt|]. exists m, u. split; [exact F3|]. split; [congruence|]. cbn [nodes].
    intros j Hj. sets j i; [split; [cbn; fold n; lia|cbn; lia]|]. exfalso. apply n1. rewrite F4 in Hj. eapply (t_uni s out H); eassumption.
  - apply unique_snoc; [apply (t_unique s out H)|]. intros b x Ib Sb Sa. destruct b as [p l c| | | |]; try exact Sb.
    destruct (t_out s out H p l c Ib) as [G1 [G2 [G3 [m' [u' [M1 [M2 M3]]]]]]]. cbn [stamps] in Sa, Sb.
    assert (Ep : p = n_phys n). { unfold kMaxLogical in *. change (2 ^ 18) with 262144 in *. lia. }
    assert (Em : m' = m).
    { destruct (Nat.lt_trichotomy m' m) as [L|[L|L]]; [|exact L|].
      - destruct (proj2 (t_log s out H) m' m u' u M1 F3 L) as [X _]. lia.
      - destruct (proj2 (t_log s out H) m m' u u' F3 M1 L) as [X _]. lia. }
    subst m'. rewrite F3 in M1. injection M1 as <-. rewrite F4 in M3. destruct (M3 i Tm) as [_ Y]. fold n in Y. specialize (Y (eq_sym Ep)). subst p. lia.
Qed.

Lemma unhealthy_like s out i n' : tinv s out ->
  n_phys n' = n_phys (nodes s i) -> n_logic n' = n_logic (nodes s i) -> n_save n' = n_save (nodes s i) -> n_term n' = n_term (nodes s i) ->
  n_app n' = n_app (nodes s i) -> n_synced n' = n_synced (nodes s i) ->
  (lead s = Some i -> n_out n' = n_out (nodes s i) /\ (n_pend n' = n_pend (nodes s i) \/ n_pend n' = [] \/
     exists u, n_pend n' = [u] /\ n_out n' = O /\ valid (tlog s) u)) ->
  tinv (mkCl (set (nodes s) i n') (tlog s) (lead s) (terms s)) out.
Proof.
  intros H E1 E2 E3 E4 E5 E6 P. apply frame; auto.
  - destruct (t_node s out H i) as [A [B [C [D [E F]]]]]. unfold node_ok. rewrite E1, E2, E3, E4, E5, E6. auto 10.
  - intros t Ht. rewrite E4 in Ht. split; [exact Ht|]. split; [lia|]. left. auto.
  - intros Ld. destruct (P Ld) as [P1 P2]. destruct (t_lead s out H i Ld) as [L1 [L2 [L3 L4]]]. unfold lead_ok. rewrite E4, E5, P1.
    split; [exact L1|]. split; [exact L2|]. split; [exact L3|]. destruct P2 as [P2|[P2|[u [P2 [P3 P4]]]]].
    + rewrite P2. exact L4.
    + left. exact P2.
    + right. exists u. rewrite <- P1. auto.
Qed.

Lemma step_tinv s e out : tinv s out -> tallowed s e ->
  tinv (fst (tstep s e)) (out ++ match snd (tstep s e) with Some a => [a] | None => [] end).
Proof.
  intros H [NC [PO [SS NS]]].
  assert (SAME : tinv s (out ++ [])) by (now rewrite app_nil_r).
  destruct e as [i now|i|i|i|i now|i|i count|i u|i from|i j]; cbn [tstep].
  - destruct (n_term (nodes s i)) eqn:Tm; [exact SAME|]. destruct (Nat.eqb_spec (n_app (nodes s i)) (length (tlog s))) as [La|]; [|exact SAME].
    cbn [fst snd]. rewrite app_nil_r. cbn in NS. rewrite NS. apply elect_inv; assumption.
  - destruct (n_pend (nodes s i)) as [|u r] eqn:Pe; [exact SAME|].
    assert (X : lead s <> Some i -> tinv (mkCl (set (nodes s) i (with_term (nodes s i) (n_term (nodes s i)) (n_synced (nodes s i)) r (n_out (nodes s i)))) (tlog s) (lead s) (terms s)) out).
    { intros Nl. apply unhealthy_like; auto. intros Ld. contradiction. }
    destruct (lead s) as [j|] eqn:Ld.
    + destruct (n_term (nodes s i)) as [t|] eqn:Tm.
      * destruct (Nat.eqb_spec j i) as [->|Nj].
        -- cbn [fst snd]. rewrite app_nil_r. destruct (t_lead s out H i Ld) as [L1 [L2 [L3 L4]]]. rewrite Tm in L1. injection L1 as ->.
           destruct L4 as [L4|[u' [L4 _]]]; [congruence|]. rewrite Pe in L4. injection L4 as -> ->.
           rewrite <- Tm, <- Ld. apply submit_inv; assumption.
        -- cbn [fst snd]. rewrite app_nil_r. apply X. congruence.
      * cbn [fst snd]. rewrite app_nil_r. apply X. intros E. injection E as ->.
        destruct (t_lead s out H i Ld) as [L1 _]. congruence.
    + cbn [fst snd]. rewrite app_nil_r. apply X. discriminate.
  - cbn [fst snd]. rewrite app_nil_r. apply unhealthy_like; auto.
  - destruct (nth_error (tlog s) (n_app (nodes s i))) as [u|] eqn:Hu; [|exact SAME].
    set (own := match n_term (nodes s i) with Some t => Nat.eqb (u_term u) t | None => false end).
    destruct (match n_term (nodes s i) with Some t => Nat.ltb t (u_term u) | None => false end) eqn:Late; [exact SAME|].
    cbn [fst snd]. rewrite app_nil_r.
    rewrite (apply_upd_node (tlog s) (terms s) (nodes s i) u (t_log s out H) (t_node s out H i) Hu).
    cbn [n_phys n_logic n_save n_ok n_term n_app n_synced n_pend n_out].
    assert (N := t_node s out H i). destruct N as [A [B [C [D [E F]]]]].
    destruct (proj1 (t_log s out H) _ u Hu) as [K1 [K2 K3]].
    apply frame; auto.
    + split; [cbn; apply nth_error_Some; congruence|]. cbn [n_save n_app n_phys n_logic n_term n_synced upto]. rewrite Hu.
      split; [reflexivity|]. split; [lia|]. split; [lia|]. split; [exact E|]. intros Sy.
      assert (O : exists t, n_term (nodes s i) = Some t /\ u_term u = t).
      { destruct (n_synced (nodes s i)) eqn:Sn.
        - destruct (F eq_refl) as [t [v [m [F1 [F2 [F3 [F4 F5]]]]]]]. exists t. split; [exact F1|]. rewrite F1 in Late. apply Nat.ltb_ge in Late.
          destruct (proj2 (t_log s out H) m (n_app (nodes s i)) v u F3 Hu ltac:(lia)) as [_ [_ X]]. lia.
        - cbn [orb] in Sy. unfold own in Sy. destruct (n_term (nodes s i)) as [t|]; [|discriminate]. exists t. split; [reflexivity|]. apply Nat.eqb_eq, Sy. }
      destruct O as [t [O1 O2]]. exists t, u, (n_app (nodes s i)). auto.
    + intros t Ht. cbn [n_term n_app n_phys n_logic] in *. split; [exact Ht|]. split; [lia|]. right. intros m v Hv L.
      destruct (proj2 (t_log s out H) m _ v u Hv Hu L) as [X _]. lia.
    + intros Ld. destruct (t_lead s out H i Ld) as [L1 [L2 [L3 L4]]].
      assert (Eo : own = true). { unfold own. rewrite L1. apply Nat.eqb_eq. eapply L3; [exact Hu|lia]. }
      rewrite Eo. assert (La : (n_app (nodes s i) < length (tlog s))%nat) by (apply nth_error_Some; congruence).
      split; [exact L1|]. cbn [n_app n_out n_pend]. split; [lia|]. split; [intros m v Hv L; eapply L3; [exact Hv|lia]|].
      destruct L4 as [L4|[v [L4 [L5 _]]]]; [left; exact L4|lia].
  - destruct (n_term (nodes s i)) as [t|] eqn:Tm; [|exact SAME]. destruct (n_synced (nodes s i)) eqn:Sy; [|exact SAME].
    destruct (n_pend (nodes s i)) eqn:Pe; [|exact SAME]. destruct (n_out (nodes s i)) eqn:Ou; [|exact SAME].
    destruct (update_timestamp (nodes s i) now) as [u|] eqn:U; [|exact SAME]. cbn [fst snd]. rewrite app_nil_r.
    apply unhealthy_like; auto. intros Ld. split; [cbn; congruence|]. right. right. exists u. split; [reflexivity|]. split; [reflexivity|].
    destruct (t_lead s out H i Ld) as [L1 [L2 _]]. eapply timer_valid; [apply (t_log s out H)|apply (t_node s out H i)|lia|exact Sy|exact U].
  - cbn [fst snd]. rewrite app_nil_r. apply frame; auto.
    + destruct (t_node s out H i) as [A [B [C [D [E F]]]]]. repeat (split; [assumption|]). split; discriminate.
    + discriminate.
    + intros j Hj. destruct (lead s) as [k|]; [|discriminate]. destruct (Nat.eqb k i); [discriminate|exact Hj].
    + intros Hj. destruct (lead s) as [k|]; [|discriminate]. destruct (Nat.eqb_spec k i); [discriminate|]. congruence.
  - destruct (n_term (nodes s i)) as [t|] eqn:Tm.
    + destruct (gen_tso (nodes s i) count) as [n' a] eqn:G. cbn [fst snd].
      destruct SS as [SS|SS]; [congruence|]. assert (X := gen_inv s out i count t H PO Tm SS). rewrite G in X. exact X.
    + cbn [fst snd]. destruct H. constructor; auto.
      * intros p l c I. apply in_app_or in I. destruct I as [I|[I|[]]]; [auto|discriminate].
      * apply unique_snoc; auto.
  - destruct NC.
  - cbn [fst snd]. rewrite app_nil_r. apply frame; auto.
    + destruct from as [j|].
      * destruct (t_node s out H j) as [A [B [C [D [E F]]]]]. split; [exact A|]. split; [exact B|]. cbn [n_phys n_logic n_term n_synced n_app].
        split; [apply (upto_pos _ _ (t_log s out H))|]. split; [lia|]. split; discriminate.
      * unfold fresh. split; [cbn; lia|]. cbn. split; [reflexivity|]. split; [lia|]. split; [lia|]. split; discriminate.
    + intros t Ht. destruct from; discriminate.
    + intros j Hj. destruct (lead s) as [k|]; [|discriminate]. destruct (Nat.eqb k i); [discriminate|exact Hj].
    + intros Hj. destruct (lead s) as [k|]; [|discriminate]. destruct (Nat.eqb_spec k i); [discriminate|]. congruence.
  - destruct (n_term (nodes s i)) as [t|] eqn:Tm; [exact SAME|]. destruct (Nat.ltb_spec (n_app (nodes s i)) (n_app (nodes s j))) as [L|]; [|exact SAME].
    cbn [fst snd]. rewrite app_nil_r. apply frame; auto.
    + destruct (t_node s out H j) as [A [B [C [D [E F]]]]]. destruct (t_node s out H i) as [A' [B' [C' [D' [E' F']]]]].
      split; [exact A|]. split; [exact B|]. cbn [n_phys n_logic n_term n_synced n_app].
      destruct (upto_mono _ (n_app (nodes s i)) (n_app (nodes s j)) (t_log s out H) ltac:(lia) A) as [M _].
      split; [lia|]. split; [exact D'|]. split; discriminate.
    + discriminate.
    + intros Ld. destruct (t_lead s out H i Ld) as [L1 _]. congruence.
Qed.

Lemma init_tinv : tinv tinit [].
Proof.
  constructor; cbn [tinit nodes tlog lead terms].
  - split; intros [|m]; discriminate.
  - intros [|m]; discriminate.
  - intros i. unfold fresh. split; [cbn; lia|]. cbn. split; [reflexivity|]. split; [lia|]. split; [lia|]. split; discriminate.
  - discriminate.
  - discriminate.
  - intros p l c [].
  - intros [|i]; discriminate.
Qed.

Lemma run_tinv es : forall s out, tinv s out -> all_steps tallowed s es -> tinv (fst (trun s es)) (out ++ snd (trun s es)).
Proof.
  induction es as [|e es IH]; intros s out H A; cbn [trun all_steps] in *; [cbn [fst snd]; rewrite app_nil_r; exact H|].
  destruct A as [A1 A2]. assert (X := step_tinv s e out H A1). destruct (tstep s e) as [s' a]. cbn [fst snd] in *.
  specialize (IH s' _ X A2). destruct (trun s' es) as [s'' l]. cbn [fst snd] in *. destruct a as [a|]; [rewrite <- app_assoc in IH|rewrite app_nil_r in IH]; exact IH.
Qed.

(** ** one leader at a time *)

Definition single (s : cluster) : Prop := forall i j t t', n_term (nodes s i) = Some t -> n_term (nodes s j) = Some t' -> i = j.
Definition behind (s : cluster) (out : list answer) : Prop :=
  forall p l c, In (Stamp p l c) out -> forall m u, nth_error (tlog s) m = Some u -> u_phys u = p ->
  forall i t, n_term (nodes s i) = Some t -> (m < n_app (nodes s i))%nat \/ (u_term u < t)%nat.

Definition sinv (s : cluster) (out : list answer) : Prop := tinv s out /\ single s /\ behind s out /\ increasing out.

(** terms and applied positions after a step that is not an election *)
Lemma step_terms s e : match e with Elect _ _ => False | _ => True end ->
  terms (fst (tstep s e)) = terms s /\
  forall i t, n_term (nodes (fst (tstep s e)) i) = Some t -> n_term (nodes s i) = Some t /\ (n_app (nodes s i) <= n_app (nodes (fst (tstep s e)) i))%nat.
Proof.
  intros NE.
  assert (ID : terms s = terms s /\ forall i t, n_term (nodes s i) = Some t -> n_term (nodes s i) = Some t /\ (n_app (nodes s i) <= n_app (nodes s i))%nat) by (split; auto).
  assert (SET : forall i n' l ld, (forall t, n_term n' = Some t -> n_term (nodes s i) = Some t /\ (n_app (nodes s i) <= n_app n')%nat) ->
     terms (mkCl (set (nodes s) i n') l ld (terms s)) = terms s /\
     forall j t, n_term (nodes (mkCl (set (nodes s) i n') l ld (terms s)) j) = Some t ->
       n_term (nodes s j) = Some t /\ (n_app (nodes s j) <= n_app (nodes (mkCl (set (nodes s) i n') l ld (terms s)) j))%nat).
  { intros i n' l ld T. split; [reflexivity|]. cbn [nodes]. intros j t Hj. sets j i; auto. }
  destruct e as [i now|i|i|i|i now|i|i count|i u|i from|i j]; cbn [tstep].
  - destruct NE.
  - destruct (n_pend (nodes s i)) as [|u r]; [exact ID|]. destruct (lead s) as [j|]; [destruct (n_term (nodes s i)) as [t|] eqn:Tm; [destruct (Nat.eqb j i)|]|];
      cbn [fst]; apply SET; cbn; auto; try (intros t' Ht'; split; [congruence|lia]); discriminate.
  - cbn [fst]. apply SET. cbn. auto.
  - destruct (nth_error (tlog s) (n_app (nodes s i))) as [u|]; [|exact ID].
    destruct (match n_term (nodes s i) with Some t => Nat.ltb t (u_term u) | None => false end); [exact ID|]. cbn [fst]. apply SET.
    assert (X : n_term (apply_upd (nodes s i) u) = n_term (nodes s i) /\ n_app (apply_upd (nodes s i) u) = n_app (nodes s i)).
    { unfold apply_upd, update_tso, reset_tso. destruct (u_kind u) as [|f].
      - destruct ((u_save u <? n_save (nodes s i)) || (u_phys u <? n_phys (nodes s i))); split; reflexivity.
      - destruct (0 <? u_save u); [|split; reflexivity].
        destruct (((u_save u <? n_save (nodes s i)) || (u_phys u <? n_phys (nodes s i))) && negb f); split; reflexivity. }
    destruct X as [X1 X2]. cbn [n_term n_app]. rewrite X1, X2. intros t Ht. split; [exact Ht|lia].
  - destruct (n_term (nodes s i)) as [t|] eqn:Tm; [|exact ID]. destruct (n_synced (nodes s i)); [|exact ID].
    destruct (n_pend (nodes s i)); [|exact ID]. destruct (n_out (nodes s i)); [|exact ID].
    destruct (update_timestamp (nodes s i) now); [|exact ID]. cbn [fst]. apply SET. cbn. intros t' Ht'. split; [congruence|lia].
  - cbn [fst]. apply SET. discriminate.
  - destruct (n_term (nodes s i)) as [t|] eqn:Tm; [|exact ID]. unfold gen_tso.
    destruct (count =? 0); [cbn [fst]; apply SET; intros; split; [congruence|lia]|].
    destruct (negb (n_ok (nodes s i))); [cbn [fst]; apply SET; intros; split; [congruence|lia]|].
    destruct (n_phys (nodes s i) =? 0); [cbn [fst]; apply SET; intros; split; [congruence|lia]|].
    destruct (n_logic (nodes s i) + count <? kMaxLogical); cbn [fst]; apply SET; cbn; intros; (split; [congruence|lia]).
  - destruct (lead s) as [j|]; [|exact ID]. destruct (n_term (nodes s i)) as [t|] eqn:Tm; [|exact ID].
    destruct (Nat.eqb j i); [|exact ID]. cbn [fst]. apply SET. cbn. intros t' Ht'. split; [congruence|lia].
  - cbn [fst]. apply SET. destruct from; discriminate.
  - destruct (n_term (nodes s i)) as [t|] eqn:Tm; [exact ID|]. destruct (Nat.ltb (n_app (nodes s i)) (n_app (nodes s j))); [|exact ID].
    cbn [fst]. apply SET. discriminate.
Qed.

Lemma step_log s e : tallowed s e -> forall out, tinv s out ->
  tlog (fst (tstep s e)) = tlog s \/ exists u, tlog (fst (tstep s e)) = tlog s ++ [u] /\ valid (tlog s) u.
Proof.
  intros [NC _] out H. destruct e as [i now|i|i|i|i now|i|i count|i u|i from|i j]; cbn [tstep]; auto.
  - destruct (n_term (nodes s i)); auto. destruct (Nat.eqb (n_app (nodes s i)) (length (tlog s))); auto.
  - destruct (n_pend (nodes s i)) as [|u r] eqn:Pe; auto. destruct (lead s) as [j|] eqn:Ld; auto. destruct (n_term (nodes s i)) as [t|] eqn:Tm; auto.
    destruct (Nat.eqb_spec j i) as [->|]; auto. right. destruct (t_lead s out H i Ld) as [L1 [L2 [L3 L4]]].
    destruct L4 as [L4|[u' [L4 [L5 L6]]]]; [congruence|]. rewrite Pe in L4. injection L4 as -> ->. eexists. split; [reflexivity|]. exact L6.
  - destruct (nth_error (tlog s) (n_app (nodes s i))) as [u|]; auto.
    destruct (match n_term (nodes s i) with Some t => Nat.ltb t (u_term u) | None => false end); auto.
  - destruct (n_term (nodes s i)); auto. destruct (n_synced (nodes s i)); auto. destruct (n_pend (nodes s i)); auto.
    destruct (n_out (nodes s i)); auto. destruct (update_timestamp (nodes s i) now); auto.
  - destruct (n_term (nodes s i)); auto. destruct (gen_tso (nodes s i) count); auto.
  - destruct NC.
  - destruct (n_term (nodes s i)); auto. destruct (Nat.ltb (n_app (nodes s i)) (n_app (nodes s j))); auto.
Qed.

Lemma increasing_snoc out a : increasing out -> (forall b t u, In b out -> stamps b t -> stamps a u -> t < u) -> increasing (out ++ [a]).
Proof.
  intros I D i j x y t u Hi Hj L Sx Sy. apply nth_snoc in Hi. apply nth_snoc in Hj. destruct Hi as [Hi|[-> ->]]; destruct Hj as [Hj|[-> ->]].
  - exact (I i j x y t u Hi Hj L Sx Sy).
  - eapply D; [eapply nth_error_In; exact Hi|exact Sx|exact Sy].
  - assert (j < length out)%nat by (apply nth_error_Some; congruence). lia.
  - lia.
Qed.

Lemma step_silent s e : match e with Gen _ _ => False | _ => True end -> snd (tstep s e) = None.
Proof.
  intros NG. destruct e as [i now|i|i|i|i now|i|i count|i u1|i from|i j]; cbn [tstep]; try reflexivity.
  - destruct (n_term (nodes s i)); [reflexivity|]. destruct (Nat.eqb (n_app (nodes s i)) (length (tlog s))); reflexivity.
  - destruct (n_pend (nodes s i)); [reflexivity|]. destruct (lead s) as [n|]; [destruct (n_term (nodes s i)); [destruct (Nat.eqb n i)|]|]; reflexivity.
  - destruct (nth_error (tlog s) (n_app (nodes s i))) as [u|]; [|reflexivity].
    destruct (match n_term (nodes s i) with Some t => Nat.ltb t (u_term u) | None => false end); reflexivity.
  - destruct (n_term (nodes s i)); [|reflexivity]. destruct (n_synced (nodes s i)); [|reflexivity]. destruct (n_pend (nodes s i)); [|reflexivity].
    destruct (n_out (nodes s i)); [|reflexivity]. destruct (update_timestamp (nodes s i) now); reflexivity.
  - destruct NG.
  - destruct (lead s) as [n|]; [destruct (n_term (nodes s i)); [destruct (Nat.eqb n i)|]|]; reflexivity.
  - destruct (n_term (nodes s i)); [reflexivity|]. destruct (Nat.ltb (n_app (nodes s i)) (n_app (nodes s j))); reflexivity.
Qed.

Lemma step_sinv s e out : sinv s out -> tallowed s e -> one_leader s e ->
  sinv (fst (tstep s e)) (out ++ match snd (tstep s e) with Some a => [a] | None => [] end).
Proof.
  intros [H [Sg [Bh Inc]]] Al Ol. assert (H' := step_tinv s e out H Al). split; [exact H'|].
  assert (Sg' : single (fst (tstep s e))).
  { destruct e as [i now|i|i|i|i now|i|i count|i u|i from|i j]; try (
      match goal with |- single (fst (tstep s ?e)) => destruct (step_terms s e Logic.I) as [_ T] end;
      intros a b t t' Ha Hb; eapply Sg; [eapply T; exact Ha|eapply T; exact Hb]).
    cbn [tstep]. destruct (n_term (nodes s i)) eqn:Tm; [exact Sg|]. destruct (Nat.eqb (n_app (nodes s i)) (length (tlog s))); [|exact Sg].
    cbn [fst]. intros a b t t' Ha Hb. cbn [nodes] in *. cbn in Ol. sets a i; sets b i; auto.
    - rewrite (Ol b n) in Hb. discriminate.
    - rewrite (Ol a n) in Ha. discriminate.
    - rewrite (Ol a n) in Ha. discriminate. }
  split; [exact Sg'|].
  assert (Bo : behind (fst (tstep s e)) out).
  { intros p l c I m u Hu Pu. destruct (t_out s out H p l c I) as [_ [_ [_ [m0 [u0 [M1 [M2 _]]]]]]].
    assert (Hu0 : nth_error (tlog s) m = Some u).
    { destruct (step_log s e Al out H) as [El|[w [El [Gw [Vw _]]]]]; rewrite El in Hu; [exact Hu|]. apply nth_snoc in Hu. destruct Hu as [Hu|[-> ->]]; [exact Hu|].
      exfalso. assert (m0 < length (tlog s))%nat by (apply nth_error_Some; congruence).
      destruct (upto_mono (tlog s) (S m0) (length (tlog s)) (t_log s out H) ltac:(lia) ltac:(lia)) as [X _]. cbn [upto] in X. rewrite M1 in X. lia. }
    destruct e as [i now|i|i|i|i now|i|i count|i u1|i from|i j]; try (
      match goal with |- context [fst (tstep s ?e)] => destruct (step_terms s e Logic.I) as [_ T] end;
      intros a t Ha; destruct (T a t Ha) as [T1 T2]; destruct (Bh p l c I m u Hu0 Pu a t T1) as [B|B]; [left; lia|right; exact B]).
    cbn [tstep]. destruct (n_term (nodes s i)) eqn:Tm; [apply (Bh p l c I m u Hu0 Pu)|].
    destruct (Nat.eqb (n_app (nodes s i)) (length (tlog s))); [|apply (Bh p l c I m u Hu0 Pu)].
    cbn [fst nodes]. intros a t Ha. sets a i; [|apply (Bh p l c I m u Hu0 Pu a t Ha)]. cbn in Ha. injection Ha as <-.
    right. specialize (t_terms s out H m u Hu0). lia. }
  destruct e as [i now|i|i|i|i now|i|i count|i u1|i from|i j].
  7: { cbn [tstep] in *. destruct (n_term (nodes s i)) as [t|] eqn:Tm.
    - destruct Al as [_ [Pc [SS _]]]. cbn in Pc, SS. destruct SS as [SS|SS]; [congruence|].
      destruct (t_node s out H i) as [A [B [C [D [E F]]]]]. destruct (F SS) as [t' [u [m [F1 [F2 [F3 [F4 F5]]]]]]]. rewrite Tm in F1. injection F1 as <-.
      assert (NS : forall n' a, gen_tso (nodes s i) count = (n', a) -> (exists p l c, a = Stamp p l c) -> a = Stamp (n_phys (nodes s i)) (n_logic (nodes s i)) count /\ n_term n' = Some t /\ n_app n' = n_app (nodes s i)).
      { intros n' a G [p [l [c Ea]]]. unfold gen_tso in G. destruct (count =? 0); [congruence|]. destruct (negb (n_ok (nodes s i))); [congruence|].
        destruct (n_phys (nodes s i) =? 0); [congruence|]. destruct (n_logic (nodes s i) + count <? kMaxLogical); [|congruence]. injection G as <- <-. auto. }
      destruct (gen_tso (nodes s i) count) as [n' a] eqn:G. cbn [fst snd] in *. split.
      + intros p l c I m' u' Hu' Pu'. apply in_app_or in I. destruct I as [I|[I|[]]]; [apply (Bo p l c I m' u' Hu' Pu')|].
        destruct (NS n' a eq_refl) as [Ea [Tn An]]; [eauto|]. rewrite Ea in I. injection I as <- <- <-. cbn [nodes tlog] in *.
        assert (Em : m' = m).
        { destruct (Nat.lt_trichotomy m' m) as [L|[L|L]]; [|exact L|].
          - destruct (proj2 (t_log s out H) m' m u' u Hu' F3 L) as [X _]. lia.
          - destruct (proj2 (t_log s out H) m m' u u' F3 Hu' L) as [X _]. lia. }
        subst m'. intros x tx Hx. left. sets x i; [rewrite An; lia|]. exfalso. apply n. eapply Sg; eassumption.
      + apply increasing_snoc; [exact Inc|]. intros b x y Ib Sb Sa. destruct b as [p l c| | | |]; try destruct Sb.
        destruct a as [p' l' c'| | | |]; try destruct Sa. destruct (NS n' _ eq_refl) as [Ea _]; [eauto|]. injection Ea as -> -> ->.
        destruct (t_out s out H p l c Ib) as [G1 [G2 [G3 [m' [u' [M1 [M2 M3]]]]]]].
        assert (Lm : (m' <= m)%nat).
        { destruct (Bh p l c Ib m' u' M1 M2 i t Tm) as [X|X]; [lia|]. destruct (Nat.le_gt_cases m' m) as [|L]; [assumption|].
          destruct (proj2 (t_log s out H) m m' u u' F3 M1 L) as [_ [_ Y]]. lia. }
        change (2 ^ 18) with 262144 in *. unfold kMaxLogical in *.
        destruct (Nat.eq_dec m' m) as [->|Nm].
        * rewrite F3 in M1. injection M1 as <-. rewrite F4 in M3. destruct (M3 i Tm) as [_ Y]. specialize (Y ltac:(congruence)). nia.
        * destruct (proj2 (t_log s out H) m' m u' u M1 F3 ltac:(lia)) as [Y _]. nia.
    - cbn [fst snd] in *. split.
      + intros p l c I. apply in_app_or in I. destruct I as [I|[I|[]]]; [apply (Bo p l c I)|discriminate].
      + apply increasing_snoc; [exact Inc|]. intros b x y _ _ []. }
  all: rewrite step_silent by exact Logic.I; rewrite app_nil_r; split; [exact Bo|exact Inc].
Qed.

Lemma run_sinv es : forall s out, sinv s out -> all_steps tallowed s es -> all_steps one_leader s es -> sinv (fst (trun s es)) (out ++ snd (trun s es)).
Proof.
  induction es as [|e es IH]; intros s out H A O; cbn [trun all_steps] in *; [cbn [fst snd]; rewrite app_nil_r; exact H|].
  destruct A as [A1 A2]. destruct O as [O1 O2]. assert (X := step_sinv s e out H A1 O1). destruct (tstep s e) as [s' a]. cbn [fst snd] in *.
  specialize (IH s' _ X A2 O2). destruct (trun s' es) as [s'' l]. cbn [fst snd] in *. destruct a as [a|]; [rewrite <- app_assoc in IH|rewrite app_nil_r in IH]; exact IH.
Qed.

Lemma init_sinv : sinv tinit [].
Proof. split; [exact init_tinv|]. split; [discriminate|]. split; [intros p l c []|intros [|i]; discriminate]. Qed.

(** ** service *)

Lemma served s out i t count : tinv s out -> n_term (nodes s i) = Some t -> n_synced (nodes s i) = true -> n_ok (nodes s i) = true ->
  0 < count -> n_logic (nodes s i) + count < kMaxLogical ->
  snd (tstep s (Gen i count)) = Some (Stamp (n_phys (nodes s i)) (n_logic (nodes s i)) count) /\ 0 < n_phys (nodes s i).
Proof.
  intros H Tm Sy Ok Pc Lt. destruct (t_node s out H i) as [A [B [C [D [E F]]]]]. destruct (F Sy) as [t' [u [m [F1 [F2 [F3 [F4 F5]]]]]]].
  destruct (proj1 (t_log s out H) m u F3) as [_ [_ [G _]]]. split; [|lia].
  cbn [tstep]. rewrite Tm. unfold gen_tso. destruct (Z.eqb_spec count 0); [lia|]. rewrite Ok. cbn [negb].
  destruct (Z.eqb_spec (n_phys (nodes s i)) 0); [lia|]. destruct (Z.ltb_spec (n_logic (nodes s i) + count) kMaxLogical); [|lia]. reflexivity.
Qed.

Definition kinds (s : cluster) : Prop := (forall u, In u (tlog s) -> u_kind u = Update) /\ forall i u, In u (n_pend (nodes s i)) -> u_kind u = Update.
Definition sick (i : nat) (s : cluster) : Prop := n_ok (nodes s i) = false.

Lemma kinds_step s e : kinds s -> match e with Client _ _ => False | _ => True end -> kinds (fst (tstep s e)).
Proof.
  intros [K1 K2] NC.
  assert (SET : forall i n' ld T, (forall u, In u (n_pend n') -> u_kind u = Update) -> kinds (mkCl (set (nodes s) i n') (tlog s) ld T)).
  { intros i n' ld T P. split; [exact K1|]. cbn [nodes]. intros j u I. sets j i; [apply P, I|apply (K2 j u I)]. }
  assert (AP : forall i u, n_pend (apply_upd (nodes s i) u) = n_pend (nodes s i)).
  { intros i u. unfold apply_upd, update_tso, reset_tso. destruct (u_kind u) as [|f].
    - destruct ((u_save u <? n_save (nodes s i)) || (u_phys u <? n_phys (nodes s i))); reflexivity.
    - destruct (0 <? u_save u); [|reflexivity].
      destruct (((u_save u <? n_save (nodes s i)) || (u_phys u <? n_phys (nodes s i))) && negb f); reflexivity. }
  destruct e as [i now|i|i|i|i now|i|i count|i u1|i from|i j]; cbn [tstep].
  - destruct (n_term (nodes s i)); [split; assumption|]. destruct (Nat.eqb (n_app (nodes s i)) (length (tlog s))); [|split; assumption].
    cbn [fst]. apply SET. cbn [n_pend with_term]. intros u I. apply in_app_or in I. destruct I as [I|[<-|[]]]; [apply (K2 i u I)|reflexivity].
  - assert (K := K2 i). destruct (n_pend (nodes s i)) as [|u r] eqn:Pe; [split; assumption|].
    assert (R : forall v, In v r -> u_kind v = Update) by (intros v Iv; apply K; now right).
    destruct (lead s) as [j|]; [destruct (n_term (nodes s i)) as [t|] eqn:Tm; [destruct (Nat.eqb j i)|]|]; cbn [fst]; try (apply SET; exact R).
    split.
    + cbn [tlog]. intros v Iv. apply in_app_or in Iv. destruct Iv as [Iv|[<-|[]]]; [apply K1, Iv|]. cbn. apply K. now left.
    + cbn [nodes]. intros k v Iv. sets k i; [apply R, Iv|apply (K2 k v Iv)].
  - cbn [fst]. apply SET. apply (K2 i).
  - destruct (nth_error (tlog s) (n_app (nodes s i))) as [u|]; [|split; assumption].
    destruct (match n_term (nodes s i) with Some t => Nat.ltb t (u_term u) | None => false end); [split; assumption|]. cbn [fst]. apply SET. cbn [n_pend].
    rewrite AP. apply (K2 i).
  - destruct (n_term (nodes s i)); [|split; assumption]. destruct (n_synced (nodes s i)); [|split; assumption]. destruct (n_pend (nodes s i)); [|split; assumption].
    destruct (n_out (nodes s i)); [|split; assumption]. destruct (update_timestamp (nodes s i) now) as [u|] eqn:U; [|split; assumption]. cbn [fst]. apply SET.
    cbn. intros v [<-|[]]. unfold update_timestamp in U. cbv zeta in U. destruct (now - n_phys (nodes s i) >? kGuard); [injection U as <-; reflexivity|].
    destruct (n_logic (nodes s i) >? kMaxLogical / 2); [injection U as <-; reflexivity|discriminate].
  - cbn [fst]. apply SET. apply (K2 i).
  - destruct (n_term (nodes s i)); [|split; assumption]. destruct (gen_tso (nodes s i) count) as [n' a] eqn:G. cbn [fst]. apply SET.
    assert (Ep : n_pend n' = n_pend (nodes s i)).
    { unfold gen_tso in G. destruct (count =? 0); [congruence|]. destruct (negb (n_ok (nodes s i))); [congruence|]. destruct (n_phys (nodes s i) =? 0); [congruence|].
      destruct (n_logic (nodes s i) + count <? kMaxLogical); [injection G as <- <-; reflexivity|congruence]. }
    rewrite Ep. apply (K2 i).
  - destruct NC.
  - cbn [fst]. apply SET. destruct from; intros u [].
  - destruct (n_term (nodes s i)); [split; assumption|]. destruct (Nat.ltb (n_app (nodes s i)) (n_app (nodes s j))); [|split; assumption]. cbn [fst]. apply SET. apply (K2 i).
Qed.

Lemma sick_step s e i : kinds s -> sick i s -> keeps_unhealthy i e -> sick i (fst (tstep s e)).
Proof.
  intros [K1 _] S KU. unfold sick in *.
  assert (SET : forall k n' l ld T, (k = i -> n_ok n' = false) -> n_ok (nodes (mkCl (set (nodes s) k n') l ld T) i) = false).
  { intros k n' l ld T P. cbn [nodes]. sets i k; auto. }
  destruct e as [k now|k|k|k|k now|k|k count|k u1|k from|k j]; cbn [tstep].
  - destruct (n_term (nodes s k)); [exact S|]. destruct (Nat.eqb (n_app (nodes s k)) (length (tlog s))); [|exact S]. cbn [fst]. apply SET. intros ->. exact S.
  - destruct (n_pend (nodes s k)) as [|u r]; [exact S|].
    destruct (lead s) as [j|]; [destruct (n_term (nodes s k)) as [t|]; [destruct (Nat.eqb j k)|]|]; cbn [fst]; apply SET; intros ->; exact S.
  - cbn [fst]. apply SET. reflexivity.
  - destruct (nth_error (tlog s) (n_app (nodes s k))) as [u|] eqn:Hu; [|exact S].
    destruct (match n_term (nodes s k) with Some t => Nat.ltb t (u_term u) | None => false end); [exact S|]. cbn [fst]. apply SET. intros ->. cbn [n_ok].
    unfold apply_upd. rewrite (K1 u (nth_error_In _ _ Hu)). unfold update_tso.
    destruct ((u_save u <? n_save (nodes s i)) || (u_phys u <? n_phys (nodes s i))); exact S.
  - destruct (n_term (nodes s k)); [|exact S]. destruct (n_synced (nodes s k)); [|exact S]. destruct (n_pend (nodes s k)); [|exact S].
    destruct (n_out (nodes s k)); [|exact S]. destruct (update_timestamp (nodes s k) now) as [u|]; [|exact S]. cbn [fst]. apply SET. intros ->. exact S.
  - cbn [fst]. apply SET. intros ->. exact S.
  - destruct (n_term (nodes s k)); [|exact S]. destruct (gen_tso (nodes s k) count) as [n' a] eqn:G. cbn [fst]. apply SET. intros ->.
    unfold gen_tso in G. rewrite S in G. destruct (count =? 0); injection G as <- <-; exact S.
  - destruct KU.
  - cbn [fst]. apply SET. intros ->. cbn in KU. congruence.
  - destruct (n_term (nodes s k)); [exact S|]. destruct (Nat.ltb (n_app (nodes s k)) (n_app (nodes s j))); [|exact S]. cbn [fst]. apply SET. intros ->. exact S.
Qed.

Lemma kinds_run es : forall s, kinds s -> Forall (fun e => match e with Client _ _ => False | _ => True end) es -> kinds (fst (trun s es)).
Proof.
  induction es as [|e es IH]; intros s K F; [exact K|]. cbn [trun]. inversion F as [|? ? F1 F2]; subst. assert (X := kinds_step s e K F1).
  destruct (tstep s e) as [s' a]. cbn [fst] in X. specialize (IH s' X F2). destruct (trun s' es). exact IH.
Qed.

Lemma sick_run i es : forall s, kinds s -> sick i s -> Forall (keeps_unhealthy i) es -> sick i (fst (trun s es)).
Proof.
  induction es as [|e es IH]; intros s K S F; [exact S|]. cbn [trun]. inversion F as [|? ? F1 F2]; subst.
  assert (X := kinds_step s e K). assert (Y := sick_step s e i K S F1).
  destruct (tstep s e) as [s' a]. cbn [fst] in *. specialize (IH s' (X ltac:(destruct e; auto)) Y F2). destruct (trun s' es). exact IH.
Qed.

Lemma sick_gen s i count : sick i s -> 0 < count -> snd (tstep s (Gen i count)) = Some ERetry \/ snd (tstep s (Gen i count)) = Some ENotLeader.
Proof.
  intros S Pc. cbn [tstep]. destruct (n_term (nodes s i)); [left|right; reflexivity]. unfold gen_tso. rewrite S.
  destruct (Z.eqb_spec count 0); [lia|]. reflexivity.
Qed.

Lemma dup_not_unique l i j p m c p' m' c' t : nth_error l i = Some (Stamp p m c) -> nth_error l j = Some (Stamp p' m' c') -> i <> j ->
  p * 2 ^ 18 + m <= t < p * 2 ^ 18 + m + c -> p' * 2 ^ 18 + m' <= t < p' * 2 ^ 18 + m' + c' -> ~ unique l.
Proof. intros A B N H1 H2 U. exact (N (U i j _ _ t A B H1 H2)). Qed.
