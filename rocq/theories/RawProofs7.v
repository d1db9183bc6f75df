(** Proofs for the raw API, part 7: what linearizability means for a client. *)
From Coq Require Import ZArith List Lia Bool PeanoNat.
From Verif Require Import Bytes SMap Outcome CodecModel CodecSpec CodecProofs2 MvccModel RawModel RawSpec
  RawProofs1 RawProofs3 RawProofs5 RawProofs6.
Import ListNotations.
Open Scope Z_scope.

(** ** which keys a request can change *)
Lemma put_all_other e k kvs : forall m, ~ In k (map fst kvs) -> put_all m e kvs k = m k.
Proof.
  unfold put_all. induction kvs as [|[k' v] l IH]; intros m N; cbn [fold_left]; auto. cbn in N.
  rewrite IH by tauto. cbn [fst snd]. apply aset_other. intros ->. apply N. auto.
Qed.
Lemma cas_all_other e k kvs : forall m, ~ In k (map fst kvs) -> cas_all m e kvs k = m k.
Proof.
  unfold cas_all. induction kvs as [|[k' v] l IH]; intros m N; cbn [fold_left]; auto. cbn in N.
  rewrite IH by tauto. cbn [fst snd]. apply aset_other. intros ->. apply N. auto.
Qed.
Lemma remove_all_other k keys : forall m, ~ In k keys -> remove_all m keys k = m k.
Proof.
  unfold remove_all. induction keys as [|k' l IH]; intros m N; cbn [fold_left]; auto. cbn in N.
  rewrite IH by tauto. apply aset_other. intros ->. apply N. auto.
Qed.
Lemma in_map_filter {A B} (f : A -> B) (g : A -> bool) l y : In y (map f (filter g l)) -> In y (map f l).
Proof. intros H. apply in_map_iff in H. destruct H as (a & E & H). apply filter_In in H. apply in_map_iff. exists a. tauto. Qed.
Lemma in_combine_keys (kvs : list (bytes * bytes)) (expects : list bytes) k : In k (map fst (map fst (combine kvs expects))) -> In k (map fst kvs).
Proof.
  revert expects. induction kvs as [|a l IH]; intros [|e es] H; cbn in *; try tauto. destruct H; auto. right. eauto.
Qed.
Lemma in_cas_keys (kvs : list (bytes * bytes)) (expects : list bytes) g k :
  In k (map fst (map fst (filter g (combine kvs expects)))) -> In k (map fst kvs).
Proof. intros H. rewrite map_map in H. apply in_map_filter in H. rewrite <- map_map in H. eapply in_combine_keys; eauto. Qed.

Lemma in_intersect a b k : bleb (fst (intersect_range a b)) k && bltb k (snd (intersect_range a b)) = true ->
  bleb (fst b) k && bltb k (snd b) = true.
Proof.
  unfold intersect_range. cbn [fst snd]. intros H. apply andb_true_iff in H. destruct H as [H1 H2].
  apply andb_true_iff. split.
  - destruct (bleb (fst a) (fst b)) eqn:E; auto. apply bleb_false in E. apply bleb_iff. apply bleb_iff in H1.
    eapply ble_trans; eauto.
  - destruct (bleb (snd a) (snd b)) eqn:E; auto. apply bleb_iff in E. unfold bltb in *.
    destruct (bcmp k (snd a)) eqn:X; try discriminate. rewrite (blt_le_trans _ _ _ X E). auto.
Qed.

Lemma spec_frame range m now t q k : ~ touches k q -> fst (spec range m now t q) k = m k.
Proof.
  intros N. destruct q as [keys|kvs ttl|kvs ttl [|]|keys|r|kvs expects ttl [|]]; cbn [spec touches] in *; auto.
  - apply put_all_other; auto.
  - destruct (existsb _ _); auto. cbn. apply put_all_other; auto.
  - cbn. apply put_all_other. intros X. apply N. eapply in_map_filter; eauto.
  - apply remove_all_other; auto.
  - set (r' := intersect_range range r). destruct (negb (bltb (fst r) (snd r))); auto. destruct (bltb (fst r') (snd r')); auto. cbn [fst].
    destruct (bleb (fst r') k && bltb k (snd r')) eqn:E; auto. exfalso. apply N. eapply in_intersect; eauto.
  - destruct (first_mismatch _ _ _ _); auto. cbn. apply cas_all_other; auto.
  - cbn. apply cas_all_other. intros X. apply N. eapply in_cas_keys; eauto.
Qed.

Definition perm (m : amap) (k : bytes) : Prop := exists v, m k = Some (v, None).
Lemma aset_perm m k' v k : perm m k -> perm (aset m k' (Some (v, None))) k.
Proof. intros [w P]. unfold perm, aset. destruct (beqb k k'); eauto. Qed.
Lemma put_all_perm k kvs : forall m, perm m k -> perm (put_all m None kvs) k.
Proof. unfold put_all. induction kvs as [|kv l IH]; intros m P; cbn [fold_left]; auto. apply IH, aset_perm; auto. Qed.

Lemma spec_perm range m now t q k : ~ may_end k q -> perm m k -> perm (fst (spec range m now t q)) k.
Proof.
  intros N P. assert (F: ~ touches k q -> perm (fst (spec range m now t q)) k).
  { intros T. unfold perm. rewrite spec_frame; auto. }
  destruct q as [keys|kvs ttl|kvs ttl atomic|keys|r|kvs expects ttl atomic]; cbn [may_end touches] in *; auto.
  - destruct (Z.eq_dec ttl 0) as [->|E]; [|apply F; tauto]. cbn. apply put_all_perm; auto.
  - destruct (Z.eq_dec ttl 0) as [->|E]; [|apply F; tauto]. cbn [spec expiry]. destruct atomic.
    + destruct (existsb _ _); auto. apply put_all_perm; auto.
    + apply put_all_perm; auto.
Qed.

(** what is stored under [k] ends before [t] *)
Definition ends (m : amap) (k : bytes) (t : Z) : Prop :=
  match m k with None => True | Some (_, Some d) => d < t | Some (_, None) => False end.
Lemma put_all_ends k t d kvs : forall m, (In k (map fst kvs) -> d < t) -> ends m k t -> ends (put_all m (Some d) kvs) k t.
Proof.
  unfold put_all. induction kvs as [|[k' v] l IH]; intros m D P; cbn [fold_left]; auto. cbn in D.
  apply IH; [tauto|]. unfold ends, aset in *. cbn [fst snd]. destruct (beqb k k') eqn:E; auto. apply beqb_true in E. auto.
Qed.
Lemma cas_all_ends k t d kvs : forall m, (In k (map fst kvs) -> d < t) -> ends m k t -> ends (cas_all m (Some d) kvs) k t.
Proof.
  unfold cas_all. induction kvs as [|[k' v] l IH]; intros m D P; cbn [fold_left]; auto. cbn in D.
  apply IH; [tauto|]. unfold ends, aset in *. cbn [fst snd]. destruct (beqb k k') eqn:E; auto. apply beqb_true in E.
  destruct (is_empty v); auto.
Qed.
Lemma remove_all_ends k t keys : forall m, ends m k t -> ends (remove_all m keys) k t.
Proof.
  unfold remove_all. induction keys as [|k' l IH]; intros m P; cbn [fold_left]; auto.
  apply IH. unfold ends, aset in *. destruct (beqb k k'); auto.
Qed.
Lemma spec_ends range m now t0 q k t : gone_by k t t0 q -> ends m k t -> ends (fst (spec range m now t0 q)) k t.
Proof.
  intros G E. assert (F: ~ touches k q -> ends (fst (spec range m now t0 q)) k t).
  { intros T. unfold ends. rewrite spec_frame; auto. }
  assert (X: forall ttl (kvs : list (bytes * bytes)), (In k (map fst kvs) -> ttl <> 0 /\ t0 + ttl < t) ->
     (~ In k (map fst kvs)) \/ (expiry t0 ttl = Some (t0 + ttl) /\ t0 + ttl < t)).
  { intros ttl kvs H. destruct (in_dec (list_eq_dec Z.eq_dec) k (map fst kvs)) as [I|I]; auto. right.
    destruct (H I) as [A B]. unfold expiry. destruct (ttl =? 0) eqn:Z; [apply Z.eqb_eq in Z; tauto|auto]. }
  destruct q as [keys|kvs ttl|kvs ttl atomic|keys|r|kvs expects ttl atomic]; cbn [gone_by touches] in *; auto.
  - destruct (X _ _ G) as [N|[Y1 Y2]]; auto. cbn [spec fst]. rewrite Y1. apply put_all_ends; auto.
  - destruct (X _ _ G) as [N|[Y1 Y2]]; auto. cbn [spec]. rewrite Y1. destruct atomic.
    + destruct (existsb _ _); auto. apply put_all_ends; auto.
    + apply put_all_ends; auto.
  - cbn. apply remove_all_ends; auto.
  - cbn [spec]. set (r' := intersect_range range r). destruct (negb (bltb (fst r) (snd r))); auto.
    destruct (bltb (fst r') (snd r')); auto. unfold ends. cbn [fst].
    destruct (bleb (fst r') k && bltb k (snd r')); auto.
  - destruct (X _ _ G) as [N|[Y1 Y2]]; auto. cbn [spec]. rewrite Y1. destruct atomic.
    + destruct (first_mismatch _ _ _ _); auto. apply cas_all_ends; auto.
    + apply cas_all_ends; auto.
Qed.

(** ** histories and explanations *)
Lemma visible_split x : forall h1 e h2, visible_events x = h1 ++ e :: h2 ->
  exists x1 y x2, x = x1 ++ y :: x2 /\ visible_events x1 = h1 /\ visible_events [y] = [e] /\ visible_events x2 = h2.
Proof.
  induction x as [|a x IH]; intros h1 e h2 V; cbn in V; [destruct h1; discriminate|].
  assert (SK: visible_events x = h1 ++ e :: h2 -> visible_events [a] = [] ->
    exists x1 y x2, a :: x = x1 ++ y :: x2 /\ visible_events x1 = h1 /\ visible_events [y] = [e] /\ visible_events x2 = h2).
  { intros E A. destruct (IH _ _ _ E) as (x1 & y & x2 & B & C & D & F). exists (a :: x1), y, x2. subst x. split; auto. split; auto.
    change (a :: x1) with ([a] ++ x1). rewrite visible_app, A. auto. }
  assert (VS: forall b, visible_events [a] = [b] -> b :: visible_events x = h1 ++ e :: h2 ->
    exists x1 y x2, a :: x = x1 ++ y :: x2 /\ visible_events x1 = h1 /\ visible_events [y] = [e] /\ visible_events x2 = h2).
  { intros b A E. destruct h1 as [|c h1]; cbn in E; injection E as -> E.
    - exists [], a, x. auto.
    - destruct (IH _ _ _ E) as (x1 & y & x2 & B & C & D & F). exists (a :: x1), y, x2. subst x. split; auto. split; auto.
      change (a :: x1) with ([a] ++ x1). rewrite visible_app, A, C. auto. }
  destruct a; try (eapply VS; [reflexivity|exact V]); apply SK; auto.
Qed.

Lemma lin_run_split range x1 x2 : forall L L', lin_run range L (x1 ++ x2) L' -> exists M, lin_run range L x1 M /\ lin_run range M x2 L'.
Proof.
  induction x1 as [|a x1 IH]; intros L L' R; cbn in R; [exists L; split; auto; constructor|].
  inversion R; subst. destruct (IH _ _ H4) as (M & A & B). exists M. split; auto. econstructor; eauto.
Qed.

Lemma visible_inv x id q t : In (XInv id q t) x -> In (EInv id q t) (visible_events x).
Proof. induction x as [|a x IH]; cbn; [tauto|]. intros [->|H]; [left; auto|]. destruct a; cbn; auto. Qed.

Lemma visible_time x t : In (XTime t) x -> In (ETime t) (visible_events x).
Proof. induction x as [|a x IH]; cbn; [tauto|]. intros [->|H]; [left; auto|]. destruct a; cbn; auto. Qed.

(** an invariant of explanations *)
Lemma lin_run_keeps range (P : lin -> Prop) x : forall L L', lin_run range L x L' ->
  (forall M e M', In e x -> P M -> lin_step range M e M' -> P M') -> P L -> P L'.
Proof.
  induction x as [|e x IH]; intros L L' R S P0; inversion R; subst; auto.
  eapply IH; eauto.
  - intros M e' M' I. apply S. right. auto.
  - eapply (S L e l'); eauto. left. auto.
Qed.

Ltac calls_tac := unfold set_call in *; repeat match goal with
  | H : context [if ?a =? ?b then _ else _] |- _ => destruct (Z.eqb_spec a b); subst
  | |- context [if ?a =? ?b then _ else _] => destruct (Z.eqb_spec a b); subst
  end.

(** waiting requests are requests of the history *)
Definition waiting_ok (Q : Z -> Z -> req -> Prop) (L : lin) : Prop :=
  forall id q t s, l_calls L id = Some (Waiting q t s) -> Q id t q.
Lemma waiting_step range (Q : Z -> Z -> req -> Prop) L e L' : (forall id q t, e = XInv id q t -> Q id t q) -> waiting_ok Q L ->
  lin_step range L e L' -> waiting_ok Q L'.
Proof.
  intros E W S. unfold waiting_ok in *. intros i q0 t0 s0. inversion S; subst; cbn [l_calls] in *; intros H'; calls_tac; eauto;
    try discriminate; inversion H'; subst; eauto.
Qed.

(** ** put-if-absent has one winner *)
Section Winner.
Variable range : bytes * bytes.
Variable k : bytes.
Variable W : Z -> bool.

Definition win_req (id : Z) (t : Z) (q : req) : Prop :=
  ~ may_end k q /\ (W id = true -> exists v atomic, q = RPutIfAbsent [(k, v)] 0 atomic).
Definition win_inv (L : lin) (w : option Z) : Prop :=
  waiting_ok win_req L /\
  match w with
  | None => forall id, W id = true -> l_calls L id <> Some (Acted (PStates [true]))
  | Some i => perm (l_map L) k /\ forall id, W id = true -> l_calls L id = Some (Acted (PStates [true])) -> id = i
  end.

Lemma pia_win m now t v atomic : let x := spec range m now t (RPutIfAbsent [(k, v)] 0 atomic) in
  (perm m k -> snd x <> PStates [true]) /\ (snd x = PStates [true] -> perm (fst x) k).
Proof.
  assert (A: perm (put_all m None [(k, v)]) k). { exists v. cbn. unfold aset. rewrite beqb_refl. auto. }
  assert (B: perm m k -> present m now k = true). { intros [w E]. unfold present, aview. rewrite E. auto. }
  cbv zeta. destruct atomic; cbn [spec fst snd expiry existsb map filter negb Z.eqb];
    destruct (present m now k) eqn:P; cbn [orb negb fst snd map]; split; intros H; auto; try discriminate;
    try (specialize (B H); congruence).
Qed.

Lemma win_step L e L' w : (forall id q t, e = XInv id q t -> win_req id t q) -> win_inv L w -> lin_step range L e L' ->
  exists w', win_inv L' w' /\ (forall i, w = Some i -> w' = Some i) /\
    (forall id, W id = true -> e = XRes id (PStates [true]) -> w' = Some id).
Proof.
  intros E [WO WI] S. assert (WO' := waiting_step _ _ _ _ _ E WO S).
  assert (KEEP: (forall id, e <> XRes id (PStates [true])) -> (forall id, l_calls L' id = Some (Acted (PStates [true])) -> l_calls L id = Some (Acted (PStates [true]))) ->
    (perm (l_map L) k -> perm (l_map L') k) ->
    exists w', win_inv L' w' /\ (forall i, w = Some i -> w' = Some i) /\ (forall id, W id = true -> e = XRes id (PStates [true]) -> w' = Some id)).
  { intros N C P. exists w. split; [split; auto|split; auto; intros id _ X; exfalso; eapply N; eauto].
    destruct w as [i|]; [destruct WI as [W1 W2]; split; [auto|intros id Wd X; apply W2; auto]|intros id Wd X; apply (WI id Wd); auto]. }
  inversion S; subst; cbn [l_map l_calls] in *.
  - apply KEEP; auto. congruence.
  - apply KEEP; auto; [congruence|]. intros i. calls_tac; auto. discriminate.
  - (* a request acts *)
    assert (EM: m' = fst (spec range m now t q)) by (rewrite H1; auto).
    assert (ER: r = snd (spec range m now t q)) by (rewrite H1; auto).
    destruct (WO id q t [] H) as [ME WQ].
    assert (PP: perm m k -> perm m' k) by (intros P; rewrite EM; apply spec_perm; auto).
    assert (NEW: W id = true -> r = PStates [true] -> w = None /\ perm m' k).
    { intros Wd R. destruct (WQ Wd) as (v & atomic & ->). destruct (pia_win m now t v atomic) as [A B].
      rewrite <- ER in A, B. rewrite <- EM in B. split; auto. destruct w as [i|]; auto. destruct WI as [W1 _]. exfalso. apply A; auto. }
    assert (D: (W id = true /\ r = PStates [true]) \/ (W id = true -> r <> PStates [true])).
    { destruct (W id); [|right; discriminate]. destruct r; try (right; intros; discriminate).
      destruct (list_eq_dec bool_dec key_states [true]) as [->|N]; [left; auto|right; congruence]. }
    destruct D as [[Wd ->]|D].
    + destruct (NEW Wd eq_refl) as [-> P]. exists (Some id). split; [|split; [discriminate|discriminate]].
      split; auto. cbn [l_map l_calls]. split; auto. intros i Wi. calls_tac; auto. intros X. exfalso. eapply WI; eauto.
    + exists w. split; [|split; [auto|discriminate]]. split; auto. destruct w as [i|].
      * destruct WI as [W1 W2]. cbn [l_map l_calls]. split; auto. intros j Wj. calls_tac; auto. intros X. injection X as X. exfalso. apply D; auto.
      * cbn [l_calls]. intros j Wj. calls_tac; auto. intros X. injection X as X. apply D; auto.
  - apply KEEP; auto; [congruence|]. intros i. calls_tac; auto. discriminate.
  - (* an answer *)
    exists w. split; [|split; auto].
    + split; auto. destruct w as [i|]; cbn [l_map l_calls]; [destruct WI as [W1 W2]; split; auto|]; intros j Wj; calls_tac; auto; discriminate.
    + intros id' Wd X. inversion X; subst. destruct w as [i|]; [|exfalso; eapply WI; eauto].
      destruct WI as [_ W2]. rewrite (W2 id' Wd H). auto.
  - apply KEEP; auto; [unfold get_answer; congruence|]. intros i. calls_tac; auto. discriminate.
  - apply KEEP; auto; [congruence|]. intros i. calls_tac; auto. discriminate.
  - apply KEEP; auto. congruence.
Qed.

Lemma win_run x : forall L L' w, lin_run range L x L' -> win_inv L w ->
  (forall id q t, In (XInv id q t) x -> win_req id t q) ->
  exists w', win_inv L' w' /\ (forall i, w = Some i -> w' = Some i) /\
    (forall id, W id = true -> In (XRes id (PStates [true])) x -> w' = Some id).
Proof.
  induction x as [|e x IH]; intros L L' w R I A; inversion R; subst.
  - exists w. split; auto. split; auto. intros id _ [].
  - destruct (win_step L e l' w) as (w1 & B & C & D); auto.
    { intros id q t ->. apply (A id q t). left. auto. }
    destruct (IH l' L' w1) as (w2 & F & G & H); auto.
    { intros id q t X. apply (A id q t). right. auto. }
    exists w2. split; auto. split; auto. intros id Wd [X|X]; auto.
Qed.
End Winner.

Lemma visible_res x id r : In (ERes id r) (visible_events x) -> In (XRes id r) x.
Proof.
  induction x as [|a x IH]; cbn; [tauto|]. intros H. destruct a; cbn in H; try (destruct H as [H|H]; [inversion H; subst|]); auto; discriminate.
Qed.
Lemma visible_inv2 x id q t : In (XInv id q t) x -> In (EInv id q t) (visible_events x).
Proof. apply visible_inv. Qed.

Definition once (h : list event) : Prop := forall id q t q' t', In (EInv id q t) h -> In (EInv id q' t') h -> q = q' /\ t = t'.

Lemma lin_one_winner range now h k id1 id2 v1 v2 a1 a2 t1 t2 : linearizable range now h -> once h ->
  (forall id q t, In (EInv id q t) h -> ~ may_end k q) ->
  In (EInv id1 (RPutIfAbsent [(k, v1)] 0 a1) t1) h -> In (EInv id2 (RPutIfAbsent [(k, v2)] 0 a2) t2) h ->
  In (ERes id1 (PStates [true])) h -> In (ERes id2 (PStates [true])) h -> id1 = id2.
Proof.
  intros (x & L & V & R) O ME I1 I2 R1 R2. subst h.
  destruct (win_run range k (fun i => (i =? id1) || (i =? id2)) x (lin0 now) L None R) as (w & _ & _ & A).
  - split; [|intros id _; cbn; discriminate]. intros id q t s X. discriminate.
  - intros id q t X. apply visible_inv in X. split; [eapply ME; eauto|].
    intros Y. apply orb_true_iff in Y. destruct Y as [Y|Y]; apply Z.eqb_eq in Y; subst.
    + destruct (O _ _ _ _ _ X I1) as [-> _]. eauto.
    + destruct (O _ _ _ _ _ X I2) as [-> _]. eauto.
  - apply visible_res in R1. apply visible_res in R2.
    assert (w = Some id1) by (apply A; auto; rewrite Z.eqb_refl; auto).
    assert (w = Some id2) by (apply A; auto; rewrite Z.eqb_refl, orb_true_r; auto). congruence.
Qed.

(** ** a put that was acknowledged is read *)
Lemma expiry_view m now k v t0 ttl : m k = Some (v, expiry t0 ttl) -> (ttl = 0 \/ now <= t0 + ttl) -> aview m now k = Some v.
Proof.
  intros E D. unfold aview. rewrite E. unfold expiry. destruct (ttl =? 0) eqn:Z; auto. apply Z.eqb_neq in Z.
  assert (now <= t0 + ttl) by tauto. apply Z.leb_le in H. rewrite H. auto.
Qed.

Lemma lin_step_time range L e L' : lin_step range L e L' -> (forall t, e <> XTime t) -> l_now L' = l_now L.
Proof. intros S N. inversion S; subst; auto. exfalso. eapply N; eauto. Qed.

Lemma NoDup_tail {A} (a b : list A) : NoDup (a ++ b) -> NoDup b.
Proof. induction a as [|x a IH]; cbn; auto. intros H. inversion H; auto. Qed.

Lemma lin_run_cons range L e x L' : lin_run range L (e :: x) L' -> exists M, lin_step range L e M /\ lin_run range M x L'.
Proof. intros R. inversion R; subst. eauto. Qed.

Lemma lin_read_put range now h1 h2 h3 h4 h5 id1 id3 k v ttl t0 t r :
  linearizable range now (h1 ++ EInv id1 (RPut [(k, v)] ttl) t0 :: h2 ++ ERes id1 PDone :: h3 ++ EInv id3 (RGet [k]) t :: h4 ++ ERes id3 r :: h5) ->
  let h := h1 ++ EInv id1 (RPut [(k, v)] ttl) t0 :: h2 ++ ERes id1 PDone :: h3 ++ EInv id3 (RGet [k]) t :: h4 ++ ERes id3 r :: h5 in
  NoDup (flat_map (fun e => match e with EInv id _ _ => [id] | _ => [] end) h) ->
  (forall id q s, In (EInv id q s) h -> id <> id1 -> ~ touches k q) ->
  0 <= ttl -> (ttl = 0 \/ forall s, In (ETime s) (h2 ++ h3 ++ h4) -> s <= t0 + ttl) ->
  definite r -> r = PVals [(k, v)].
Proof.
  intros (x & L & V & R) h ND TO TT TM [DR DU].
  apply visible_split in V. destruct V as (x1 & y1 & xr & -> & V1 & W1 & V).
  apply visible_split in V. destruct V as (x2 & y2 & xr2 & -> & V2 & W2 & V).
  apply visible_split in V. destruct V as (x3 & y3 & xr3 & -> & V3 & W3 & V).
  apply visible_split in V. destruct V as (x4 & y4 & x5 & -> & V4 & W4 & V5).
  assert (Y1: y1 = XInv id1 (RPut [(k, v)] ttl) t0) by (destruct y1; cbn in W1; inversion W1; subst; auto).
  assert (Y2: y2 = XRes id1 PDone) by (destruct y2; cbn in W2; inversion W2; subst; auto).
  assert (Y3: y3 = XInv id3 (RGet [k]) t) by (destruct y3; cbn in W3; inversion W3; subst; auto).
  assert (Y4: y4 = XRes id3 r) by (destruct y4; cbn in W4; inversion W4; subst; auto). subst y1 y2 y3 y4.
  clear W1 W2 W3 W4.
  assert (V1': forall e, In e (visible_events x1) -> In e h1) by (rewrite V1; auto).
  assert (V2': forall e, In e (visible_events x2) -> In e h2) by (rewrite V2; auto).
  assert (V3': forall e, In e (visible_events x3) -> In e h3) by (rewrite V3; auto).
  assert (V4': forall e, In e (visible_events x4) -> In e h4) by (rewrite V4; auto).
  clear V1 V2 V3 V4 V5.
  assert (HIN: forall e, In e h <-> In e h1 \/ e = EInv id1 (RPut [(k, v)] ttl) t0 \/ In e h2 \/ e = ERes id1 PDone \/ In e h3 \/
     e = EInv id3 (RGet [k]) t \/ In e h4 \/ e = ERes id3 r \/ In e h5).
  { intros e. unfold h. repeat (rewrite in_app_iff || cbn [In]). intuition congruence. }
  assert (FRESH: forall q s, In (EInv id1 q s) (h1 ++ h2 ++ h3 ++ EInv id3 (RGet [k]) t :: h4) -> False).
  { intros q s X. unfold h in ND. rewrite flat_map_app in ND. cbn [flat_map app] in ND. apply NoDup_remove_2 in ND. apply ND.
    assert (Y: In id1 (flat_map (fun e => match e with EInv id _ _ => [id] | _ => [] end) (h1 ++ h2 ++ h3 ++ EInv id3 (RGet [k]) t :: h4))).
    { apply in_flat_map. exists (EInv id1 q s). split; auto. cbn. auto. }
    repeat (rewrite flat_map_app in Y || rewrite flat_map_app || rewrite in_app_iff in Y || rewrite in_app_iff || cbn [flat_map app In] in Y || cbn [flat_map app In]). tauto. }
  assert (FR3: forall q s, In (EInv id3 q s) h4 -> False).
  { intros q s X. unfold h in ND. rewrite flat_map_app in ND. apply NoDup_tail in ND. cbn [flat_map app] in ND. apply NoDup_cons_iff in ND. destruct ND as [_ ND].
    rewrite flat_map_app in ND. apply NoDup_tail in ND. cbn [flat_map app] in ND. rewrite flat_map_app in ND. apply NoDup_tail in ND.
    cbn [flat_map app] in ND. apply NoDup_cons_iff in ND. destruct ND as [ND _]. apply ND. rewrite flat_map_app. apply in_app_iff. left.
    apply in_flat_map. exists (EInv id3 q s). split; auto. cbn. auto. }
  (* up to the arrival of the put *)
  apply lin_run_split in R. destruct R as (M1 & R1 & R). apply lin_run_cons in R. destruct R as (M2 & S1 & R'). rename R' into R.
  set (Q := fun (id _ : Z) (q : req) => (id = id1 -> q = RPut [(k, v)] ttl) /\ (id <> id1 -> ~ touches k q)).
  assert (QH: forall id q s, In (EInv id q s) h -> id <> id1 -> Q id s q).
  { intros id q s X N. split; [tauto|]. intros _. eapply TO; eauto. }
  assert (A1: waiting_ok Q M1 /\ l_calls M1 id1 = None).
  { eapply (lin_run_keeps range (fun L => waiting_ok Q L /\ l_calls L id1 = None)); eauto.
    - intros M e M' I [P1 P2] S.
      assert (NE: forall id q s, e = XInv id q s -> In (EInv id q s) h1 /\ id <> id1).
      { intros id q s ->. apply visible_inv in I. apply V1' in I. split; auto. intros ->. eapply FRESH. apply in_app_iff. left. eauto. }
      split; [eapply waiting_step; eauto; intros id q s E; destruct (NE _ _ _ E); eapply QH; eauto; apply HIN; auto|].
      inversion S; subst; cbn [l_calls] in *; auto; calls_tac; auto; try congruence.
      destruct (NE _ _ _ eq_refl). tauto.
    - split; auto. intros id q s z X. discriminate. }
  destruct A1 as [A1 C1].
  assert (A2: waiting_ok Q M2 /\ l_now M2 = t0 /\ l_calls M2 id1 = Some (Waiting (RPut [(k, v)] ttl) t0 [])).
  { split; [eapply waiting_step; eauto; intros id q s E; inversion E; subst; split; [auto|tauto]|].
    inversion S1; subst. cbn. split; auto. unfold set_call. rewrite Z.eqb_refl. auto. }
  (* until it is answered *)
  apply lin_run_split in R. destruct R as (M3 & R2 & R). apply lin_run_cons in R. destruct R as (M4 & S2 & R'). rename R' into R.
  set (TB := fun L => ttl = 0 \/ l_now L <= t0 + ttl).
  assert (TS: forall M e M', (forall s, e = XTime s -> ttl = 0 \/ s <= t0 + ttl) -> TB M -> lin_step range M e M' -> TB M').
  { intros M e M' E B S. inversion S; subst; auto. unfold TB. cbn. eauto. }
  set (P2 := fun L => waiting_ok Q L /\ TB L /\ match l_calls L id1 with
     | Some (Waiting q s _) => q = RPut [(k, v)] ttl /\ s = t0
     | Some (Acted _) => l_map L k = Some (v, expiry t0 ttl)
     | None => True end).
  assert (ACT: forall M id q s m' r', waiting_ok Q M -> id <> id1 -> l_calls M id = Some (Waiting q s []) ->
    spec range (l_map M) (l_now M) s q = (m', r') -> m' k = l_map M k).
  { intros M id q s m' r' WO N E SP. rewrite <- (spec_frame range (l_map M) (l_now M) s q k); [rewrite SP; auto|]. apply (WO id q s [] E); auto. }
  assert (TOK: forall s, In (ETime s) (h2 ++ h3 ++ h4) -> ttl = 0 \/ s <= t0 + ttl).
  { intros s X. destruct TM as [TM|TM]; auto. }
  assert (A3: P2 M3).
  { eapply (lin_run_keeps range P2); eauto.
    - intros M e M' I (P1 & P3 & P4) S.
      assert (NE: forall id q s, e = XInv id q s -> In (EInv id q s) h2 /\ id <> id1).
      { intros id q s ->. apply visible_inv in I. apply V2' in I. split; auto. intros ->. eapply FRESH. apply in_app_iff. right. apply in_app_iff. left. eauto. }
      split; [eapply waiting_step; eauto; intros id q s E; destruct (NE _ _ _ E); eapply QH; eauto; apply HIN; auto|].
      split. { eapply TS; eauto. intros s ->. apply TOK. apply visible_time in I. apply V2' in I. apply in_app_iff. auto. }
      pose proof (ACT M) as AC. inversion S; subst; cbn [l_calls l_map l_now] in *; auto; calls_tac; auto.
      + destruct (NE _ _ _ eq_refl). tauto.
      + rewrite H in P4. destruct P4 as [-> ->]. cbn [spec] in H1. injection H1 as <- _. cbn. unfold aset. rewrite beqb_refl. auto.
      + destruct (c id1) as [[q' s' z|r']|]; auto. rewrite <- P4. eapply AC; eauto.
      + rewrite H in P4. destruct P4. discriminate.
    - destruct A2 as (B1 & B2 & B3). split; auto. split; [unfold TB; lia|]. rewrite B3. auto. }
  destruct A3 as (A3 & T3 & C3).
  assert (A4: waiting_ok Q M4 /\ TB M4 /\ l_calls M4 id1 = None /\ l_map M4 k = Some (v, expiry t0 ttl)).
  { split; [eapply waiting_step; eauto; intros; discriminate|]. split; [eapply TS; eauto; intros; discriminate|].
    inversion S2; subst; cbn [l_calls l_map] in *. match goal with E : c _ = Some (Acted _) |- _ => rewrite E in C3 end. unfold set_call. rewrite Z.eqb_refl. auto. }
  set (P3 := fun L => waiting_ok Q L /\ TB L /\ l_calls L id1 = None /\ l_map L k = Some (v, expiry t0 ttl)).
  assert (ST: forall M e M', (forall id q s, e = XInv id q s -> In (EInv id q s) h /\ id <> id1) -> (forall s, e = XTime s -> In (ETime s) (h2 ++ h3 ++ h4)) ->
     P3 M -> lin_step range M e M' -> P3 M').
  { intros M e M' NE TE (P1 & Pt & Pc & P4) S.
    split; [eapply waiting_step; eauto; intros id q s E; destruct (NE _ _ _ E); eapply QH; eauto|].
    split; [eapply TS; eauto; intros s E; apply TOK; auto|].
    pose proof (ACT M) as AC. inversion S; subst; cbn [l_calls l_map l_now] in *; auto; calls_tac; auto; try congruence.
    - destruct (NE _ _ _ eq_refl). tauto.
    - split; auto. rewrite <- P4. eapply AC; eauto. }
  (* until the read arrives *)
  apply lin_run_split in R. destruct R as (M5 & R3 & R). apply lin_run_cons in R. destruct R as (M6 & S3 & R'). rename R' into R.
  assert (N31: id3 <> id1). { intros ->. eapply FRESH. rewrite !in_app_iff. cbn [In]. eauto 6. }
  assert (A5: P3 M5).
  { eapply (lin_run_keeps range P3); eauto. intros M e M' I. apply ST.
    - intros id q s ->. apply visible_inv in I. apply V3' in I. split; [apply HIN; tauto|]. intros ->. eapply FRESH. rewrite !in_app_iff. eauto.
    - intros s ->. apply visible_time in I. apply V3' in I. rewrite !in_app_iff. auto. }
  assert (A6: P3 M6).
  { eapply ST; [| |exact A5|exact S3]; [|intros; discriminate]. intros id q s E. inversion E; subst. split; auto. apply HIN. tauto. }
  (* until it is answered *)
  apply lin_run_split in R. destruct R as (M7 & R4 & R). apply lin_run_cons in R. destruct R as (M8 & S4 & R').
  set (P4 := fun L => P3 L /\ match l_calls L id3 with
     | Some (Waiting q _ seen) => q = RGet [k] /\ Forall (eq (Some v)) seen
     | Some (Acted _) => False
     | None => True end).
  assert (A7: P4 M7).
  { eapply (lin_run_keeps range P4); eauto.
    - intros M e M' I (Pa & Pb) S. split.
      + eapply ST; eauto.
        * intros id q s ->. apply visible_inv in I. apply V4' in I. split; [apply HIN; tauto|]. intros ->. eapply FRESH.
          rewrite !in_app_iff. cbn [In]. eauto 8.
        * intros s ->. apply visible_time in I. apply V4' in I. rewrite !in_app_iff. auto.
      + destruct Pa as (_ & PT & _ & PM). inversion S; subst; cbn [l_calls l_map l_now] in *; auto; calls_tac; auto.
        * exfalso. apply visible_inv in I. apply V4' in I. eapply FR3; eauto.
        * rewrite H in Pb. destruct Pb as [-> _]. discriminate.
        * rewrite H in Pb. destruct Pb as [E F]. inversion E; subst. split; auto. apply Forall_app. split; auto.
          constructor; [|constructor]. symmetry. destruct seen as [|? [|? ?]]; cbn in H0; inversion H0; subst.
          eapply expiry_view; eauto.
    - split; auto. inversion S3; subst. cbn [l_calls]. unfold set_call. rewrite Z.eqb_refl. split; auto. }
  destruct A7 as (_ & A7). inversion S4; subst; cbn [l_calls] in *.
  - match goal with E : c _ = Some (Acted _) |- _ => rewrite E in A7 end. tauto.
  - match goal with E : c _ = Some (Waiting _ _ _) |- _ => rewrite E in A7 end. destruct A7 as [E F]. inversion E; subst. destruct seen as [|z [|? ?]]; try discriminate.
    inversion F; subst. reflexivity.
  - tauto.
  - tauto.
Qed.

(** ** a value is not read after its time-to-live *)
Lemma ends_view m k t now : ends m k t -> t <= now -> aview m now k = None.
Proof.
  unfold ends, aview. destruct (m k) as [[v [d|]]|]; auto; [|tauto]. intros D N. destruct (now <=? d) eqn:E; auto.
  apply Z.leb_le in E. lia.
Qed.

Lemma lin_gone range now h1 h2 h3 id k t r :
  linearizable range now (h1 ++ EInv id (RGet [k]) t :: h2 ++ ERes id r :: h3) ->
  let h := h1 ++ EInv id (RGet [k]) t :: h2 ++ ERes id r :: h3 in
  NoDup (flat_map (fun e => match e with EInv id _ _ => [id] | _ => [] end) h) ->
  (forall i q s, In (EInv i q s) h -> gone_by k t s q) -> definite r -> r = PVals [].
Proof.
  intros (x & L & V & R) h ND GB [DR DU].
  apply visible_split in V. destruct V as (x1 & y1 & xr & -> & V1 & W1 & V).
  apply visible_split in V. destruct V as (x2 & y2 & x3 & -> & V2 & W2 & V3).
  assert (Y1: y1 = XInv id (RGet [k]) t) by (destruct y1; cbn in W1; inversion W1; subst; auto).
  assert (Y2: y2 = XRes id r) by (destruct y2; cbn in W2; inversion W2; subst; auto). subst y1 y2. clear W1 W2.
  assert (V1': forall e, In e (visible_events x1) -> In e h1) by (rewrite V1; auto).
  assert (V2': forall e, In e (visible_events x2) -> In e h2) by (rewrite V2; auto).
  clear V1 V2 V3.
  assert (FR: forall q s, In (EInv id q s) h2 -> False).
  { intros q s X. unfold h in ND. rewrite flat_map_app in ND. apply NoDup_tail in ND. cbn [flat_map app] in ND.
    apply NoDup_cons_iff in ND. destruct ND as [ND _]. apply ND. rewrite flat_map_app. apply in_app_iff. left.
    apply in_flat_map. exists (EInv id q s). split; auto. cbn. auto. }
  set (Q := fun (_ s : Z) (q : req) => gone_by k t s q).
  set (P := fun L => waiting_ok Q L /\ ends (l_map L) k t).
  assert (ST: forall M e M', (forall i q s, e = XInv i q s -> gone_by k t s q) -> P M -> lin_step range M e M' -> P M').
  { intros M e M' E [P1 P2] S. split; [eapply waiting_step; eauto|]. inversion S; subst; cbn [l_map l_calls] in *; auto.
    replace m' with (fst (spec range m now0 t0 q)) by (rewrite H1; auto). apply spec_ends; auto. apply (P1 _ _ _ _ H). }
  apply lin_run_split in R. destruct R as (M1 & R1 & R). apply lin_run_cons in R. destruct R as (M2 & S1 & R).
  assert (A1: P M1).
  { eapply (lin_run_keeps range P); eauto.
    - intros M e M' I. apply ST. intros i q s ->. apply visible_inv in I. apply V1' in I. eapply GB. unfold h. apply in_app_iff. eauto.
    - split; [intros i q s z X; discriminate|cbn; auto]. }
  assert (A2: P M2) by (eapply ST; eauto; intros i q s E; inversion E; subst; cbn; auto).
  apply lin_run_split in R. destruct R as (M3 & R2 & R). apply lin_run_cons in R. destruct R as (M4 & S2 & R).
  set (P' := fun L => P L /\ t <= l_now L /\ match l_calls L id with
     | Some (Waiting q _ seen) => q = RGet [k] /\ Forall (eq None) seen
     | Some (Acted _) => False
     | None => True end).
  assert (A3: P' M3).
  { eapply (lin_run_keeps range P'); eauto.
    - intros M e M' I (Pa & Pt & Pb) S. split; [|split].
      + eapply ST; eauto. intros i q s ->. apply visible_inv in I. apply V2' in I. eapply GB. unfold h.
        rewrite in_app_iff. right. right. apply in_app_iff. eauto.
      + inversion S; subst; cbn in *; lia.
      + destruct Pa as (_ & PM). inversion S; subst; cbn [l_calls l_map l_now] in *; auto; calls_tac; auto.
        * exfalso. apply visible_inv in I. apply V2' in I. eapply FR; eauto.
        * rewrite H in Pb. destruct Pb as [-> _]. discriminate.
        * rewrite H in Pb. destruct Pb as [E F]. inversion E; subst. split; auto. apply Forall_app. split; auto.
          constructor; [|constructor]. symmetry. destruct seen as [|? [|? ?]]; cbn in H0; inversion H0; subst.
          eapply ends_view; eauto.
    - split; auto. inversion S1; subst. cbn [l_calls l_now]. unfold set_call. rewrite Z.eqb_refl. split; [lia|]. split; auto. }
  destruct A3 as (_ & _ & A3). inversion S2; subst; cbn [l_calls] in *.
  - match goal with E : c _ = Some (Acted _) |- _ => rewrite E in A3 end. tauto.
  - match goal with E : c _ = Some (Waiting _ _ _) |- _ => rewrite E in A3 end. destruct A3 as [E F]. inversion E; subst.
    destruct seen as [|z [|? ?]]; try discriminate. inversion F; subst. reflexivity.
  - tauto.
  - tauto.
Qed.

(** ** request ids in the histories of the machine *)
Definition arrivals (h : list event) : list Z := flat_map (fun e => match e with EInv id _ _ => [id] | _ => [] end) h.

Lemma used_arrivals id h : used id h = false -> ~ In id (arrivals h).
Proof.
  unfold used, arrivals. induction h as [|e h IH]; cbn; auto. intros H. apply orb_false_iff in H. destruct H as [A B].
  rewrite in_app_iff. intros [X|X]; [|apply IH; auto]. destruct e; cbn in X; try tauto. destruct X as [->|[]].
  rewrite Z.eqb_refl in A. discriminate.
Qed.

Lemma step_hist s l s' : step s l = Next s' -> exists es, r_hist s' = r_hist s ++ es /\
  (arrivals es = [] \/ exists id, arrivals es = [id] /\ used id (r_hist s) = false).
Proof.
  assert (NIL: forall es, arrivals es = [] -> exists es', r_hist s ++ es = r_hist s ++ es' /\
     (arrivals es' = [] \/ exists id, arrivals es' = [id] /\ used id (r_hist s) = false)) by eauto.
  assert (Z0: exists es', r_hist s = r_hist s ++ es' /\
     (arrivals es' = [] \/ exists id, arrivals es' = [id] /\ used id (r_hist s) = false)) by (exists []; rewrite app_nil_r; auto).
  destruct l as [id n q ts|id|id|id|n|n m|n keep|n|n|t]; cbn [step].
  - unfold start. destruct (nth_error _ _); [|discriminate]. destruct (used _ _) eqn:U; [discriminate|].
    destruct (_ || _); [intros H; inversion H; subst; cbn; eexists; split; [reflexivity|]; right; exists id; auto|].
    destruct (negb _); [discriminate|]. destruct (_ && _); [discriminate|].
    intros H; inversion H; subst; cbn; eexists; split; [reflexivity|]; right; exists id; auto.
  - unfold read. destruct (find_op s id) as [o|]; [|discriminate]. destruct (o_prop o); [discriminate|].
    destruct (next_action _ _ _ _ _); try discriminate. destruct (nth_error _ _); [|discriminate].
    destruct (kv_get _ _ _ _); [|discriminate]. intros H; inversion H; subst; cbn [with_ops r_hist]. apply NIL; auto.
  - unfold reply. destruct (find_op s id) as [o|]; [|discriminate].
    destruct (o_prop o); [discriminate|]. destruct (next_action _ _ _ _ _); try discriminate.
    intros H; inversion H; subst; cbn [with_ops r_hist]. apply NIL; auto.
  - unfold propose. destruct (find_op s id) as [o|]; [|discriminate].
    destruct (o_prop o); [discriminate|]. destruct (next_action _ _ _ _ _); try discriminate.
    destruct (nth_error _ _); [|discriminate].
    destruct (negb _); [intros H; inversion H; subst; cbn [with_ops r_hist]; apply NIL; auto|].
    destruct (negb _); intros H; inversion H; subst; cbn [with_ops r_hist]; [apply NIL; auto|exact Z0].
  - unfold apply_entry. destruct (nth_error _ _); [|discriminate].
    destruct (nth_error _ _) as [[id c]|]; [|discriminate].
    destruct (find_op s id) as [o|]; [destruct (o_prop o); [destruct (Nat.eqb _ _)|]|]; intros H; inversion H; subst; cbn [with_ops with_peer r_hist];
      try exact Z0. apply NIL; auto.
  - unfold install. destruct (nth_error _ _); [|discriminate].
    destruct (_ && _); [|discriminate]. intros H; inversion H; subst; exact Z0.
  - unfold elect. destruct (nth_error _ _); [|discriminate].
    destruct (_ && _); [|discriminate]. intros H; inversion H; subst; cbn [r_hist]. apply NIL.
    induction (filter proposed (r_ops s)); cbn; auto.
  - unfold ready. destruct (nth_error _ _); [|discriminate].
    destruct (_ && _); [|discriminate]. intros H; inversion H; subst; exact Z0.
  - unfold deposed. destruct (nth_error _ _); [|discriminate].
    destruct (Nat.eqb _ _); [discriminate|]. intros H; inversion H; subst; exact Z0.
  - destruct (r_now s <=? t); [|discriminate]. intros H; inversion H; subst. cbn [r_hist]. apply NIL; auto.
Qed.

Lemma run_arrivals ls : forall s s', NoDup (arrivals (r_hist s)) -> run s ls = Next s' -> NoDup (arrivals (r_hist s')).
Proof.
  induction ls as [|l ls IH]; intros s s' N; cbn [run]; [intros H; inversion H; subst; auto|].
  destruct (step s l) as [s1| |] eqn:E; try discriminate. apply IH.
  destruct (step_hist _ _ _ E) as (es & -> & D). unfold arrivals in *. rewrite flat_map_app.
  destruct D as [->|(id & -> & U)]; [rewrite app_nil_r; auto|]. apply used_arrivals in U. unfold arrivals in U.
  clear - N U. induction (flat_map _ (r_hist s)) as [|a l IH]; cbn in *.
  - repeat constructor; auto.
  - inversion N; subst. constructor; [|apply IH; tauto]. rewrite in_app_iff. cbn. intuition congruence.
Qed.

Lemma arrivals_once h : NoDup (arrivals h) -> once h.
Proof.
  unfold once, arrivals. induction h as [|e h IH]; intros N id q t q' t' A B; [destruct A|].
  assert (X: forall q t, In (EInv id q t) h -> In id (flat_map (fun e => match e with EInv id _ _ => [id] | _ => [] end) h)).
  { intros a b C. apply in_flat_map. exists (EInv id a b). split; auto. cbn. auto. }
  destruct A as [->|A], B as [B|B].
  - inversion B; auto.
  - cbn in N. inversion N; subst. exfalso. apply H1. eauto.
  - subst. cbn in N. inversion N; subst. exfalso. apply H1. eauto.
  - apply (IH) with (id := id); auto. destruct e; cbn in N; auto. inversion N; auto.
Qed.

Lemma run_one_winner range n now ls s k id1 id2 v1 v2 a1 a2 t1 t2 : bytes_ok (fst range) -> bytes_ok (snd range) ->
  calm_run (init range n now) ls -> run (init range n now) ls = Next s ->
  (forall id q t, In (EInv id q t) (r_hist s) -> ~ may_end k q) ->
  In (EInv id1 (RPutIfAbsent [(k, v1)] 0 a1) t1) (r_hist s) -> In (EInv id2 (RPutIfAbsent [(k, v2)] 0 a2) t2) (r_hist s) ->
  In (ERes id1 (PStates [true])) (r_hist s) -> In (ERes id2 (PStates [true])) (r_hist s) -> id1 = id2.
Proof.
  intros R1 R2 C R. destruct (raw_linearizable range n now ls R1 R2 C) as [_ L]. specialize (L s R).
  intros. eapply lin_one_winner; eauto. apply arrivals_once. eapply run_arrivals; eauto. constructor.
Qed.

Lemma run_read_put range n now ls s h1 h2 h3 h4 h5 id1 id3 k v ttl t0 t r : bytes_ok (fst range) -> bytes_ok (snd range) ->
  calm_run (init range n now) ls -> run (init range n now) ls = Next s ->
  r_hist s = h1 ++ EInv id1 (RPut [(k, v)] ttl) t0 :: h2 ++ ERes id1 PDone :: h3 ++ EInv id3 (RGet [k]) t :: h4 ++ ERes id3 r :: h5 ->
  (forall id q s', In (EInv id q s') (r_hist s) -> id <> id1 -> ~ touches k q) ->
  0 <= ttl -> (ttl = 0 \/ forall s', In (ETime s') (h2 ++ h3 ++ h4) -> s' <= t0 + ttl) ->
  definite r -> r = PVals [(k, v)].
Proof.
  intros R1 R2 C R E TO TT TM D. destruct (raw_linearizable range n now ls R1 R2 C) as [_ L]. specialize (L s R).
  assert (N: NoDup (arrivals (r_hist s))) by (eapply run_arrivals; eauto; constructor).
  rewrite E in L, N. rewrite E in TO. eapply lin_read_put; eauto.
Qed.

Lemma run_gone range n now ls s h1 h2 h3 id k t r : bytes_ok (fst range) -> bytes_ok (snd range) ->
  calm_run (init range n now) ls -> run (init range n now) ls = Next s ->
  r_hist s = h1 ++ EInv id (RGet [k]) t :: h2 ++ ERes id r :: h3 ->
  (forall i q s', In (EInv i q s') (r_hist s) -> gone_by k t s' q) ->
  definite r -> r = PVals [].
Proof.
  intros R1 R2 C R E TO D. destruct (raw_linearizable range n now ls R1 R2 C) as [_ L]. specialize (L s R).
  assert (N: NoDup (arrivals (r_hist s))) by (eapply run_arrivals; eauto; constructor).
  rewrite E in L, N. rewrite E in TO. eapply lin_gone; eauto.
Qed.
