(** What a backup collects. *)
From Coq Require Import ZArith List Bool Lia Sorted.
From Verif Require Import Bytes SMap Outcome TxnModel TxnSpec TxnBase TxnMoves TxnReadModel TxnReadSpec TxnReadProofs TxnInv TxnRun TxnProofs BrModel BrSpec.
Import ListNotations.
Open Scope Z_scope.

(** the entries the loops take *)
Fixpoint pick {V} (ok : V -> bool) (tso : Z) (ws : list ((bytes * Z) * V)) (last : bytes) (go : bool) : list ((bytes * Z) * V) :=
  match ws with
  | [] => []
  | ((k, t), w) :: r =>
      let go := if beqb last k then go else true in
      if tso <? t then pick ok tso r k go
      else if negb go then pick ok tso r k go
      else if ok w then ((k, t), w) :: pick ok tso r k false
      else pick ok tso r k go
  end.

Lemma vcmp_lt k t k' t' : vcmp (k, t) (k', t') = Lt <-> blt k k' \/ (k = k' /\ t' < t).
Proof.
  unfold vcmp, blt. simpl. destruct (bcmp k k') eqn:E.
  - apply bcmp_eq in E. subst. rewrite Z.compare_lt_iff. split; intros H.
    + right; auto.
    + destruct H as [H|[_ H]]; [discriminate|auto].
  - split; auto.
  - split; intros H; [discriminate|]. destruct H as [H|[H _]]; [discriminate|].
    subst. rewrite bcmp_refl in E. discriminate.
Qed.
Lemma ble_refl k : ble k k.
Proof. unfold ble. rewrite bcmp_refl. discriminate. Qed.
Lemma ble_cases a b : ble a b <-> blt a b \/ a = b.
Proof.
  unfold ble, blt. destruct (bcmp a b) eqn:E.
  - apply bcmp_eq in E. split; auto. intros _. discriminate.
  - split; auto. intros _. discriminate.
  - split; [congruence|]. intros [H|H]; [discriminate|]. subst. rewrite bcmp_refl in E. discriminate.
Qed.
Lemma blt_irrefl a : ~ blt a a.
Proof. unfold blt. rewrite bcmp_refl. discriminate. Qed.
Lemma blt_trans a b c : blt a b -> blt b c -> blt a c.
Proof. unfold blt. apply bcmp_trans. Qed.
Lemma ble_lt_trans a b c : ble a b -> blt b c -> blt a c.
Proof. intros H L. apply ble_cases in H. destruct H as [H| ->]; auto. eapply blt_trans; eauto. Qed.
Lemma beqb_iff a b : beqb a b = true <-> a = b.
Proof. split; [apply beqb_true|]. intros ->. destruct (beqb b b) eqn:E; auto. apply beqb_false in E. congruence. Qed.

Section Pick.
  Context {V : Type}.
  Variable ok : V -> bool.
  Variable tso : Z.

  Lemma pick_spec : forall ws last go, sorted vcmp ws ->
    (forall k t w, In ((k, t), w) ws -> ble last k) ->
    forall k t w, In ((k, t), w) (pick ok tso ws last go) <->
      In ((k, t), w) ws /\ t <= tso /\ ok w = true /\
      (forall t' w', In ((k, t'), w') ws -> t < t' <= tso -> ok w' = false) /\
      (k = last -> go = true).
  Proof.
    induction ws as [|[[k0 t0] w0] ws IH]; intros last go SS LE k t w; [simpl; tauto|].
    apply sorted_cons in SS. destruct SS as [SS FA]. rewrite Forall_forall in FA.
    assert (LE' : forall k t w, In ((k, t), w) ws -> ble k0 k).
    { intros k1 t1 w1 I. specialize (FA _ I). unfold klt in FA. simpl in FA. apply vcmp_lt in FA. apply ble_cases.
      destruct FA as [FA|[FA _]]; auto. }
    assert (LT' : forall t w, In ((k0, t), w) ws -> t < t0).
    { intros t1 w1 I. specialize (FA _ I). unfold klt in FA. simpl in FA. apply vcmp_lt in FA.
      destruct FA as [FA|[_ FA]]; auto. exfalso. eapply blt_irrefl; eauto. }
    assert (LK : k0 <> last -> blt last k0).
    { intros N. assert (X := LE _ _ _ (or_introl eq_refl)). apply ble_cases in X. destruct X; congruence. }
    assert (KL : forall k t w, In ((k, t), w) ws -> k0 <> last -> k <> last).
    { intros k1 t1 w1 I N E. subst k1. assert (X := LE' _ _ _ I). eapply blt_irrefl. eapply ble_lt_trans; eauto. }
    cbn [pick]. set (go1 := if beqb last k0 then go else true).
    assert (G1 : k0 = last -> go1 = go).
    { intros E. unfold go1. subst. assert (beqb last last = true) by (apply beqb_iff; auto). rewrite H. auto. }
    assert (G2 : k0 <> last -> go1 = true).
    { intros E. unfold go1. destruct (beqb last k0) eqn:B; auto. apply beqb_true in B. congruence. }
    assert (KD : k0 = last \/ k0 <> last).
    { destruct (beqb k0 last) eqn:B; [left; apply beqb_true; auto|right; apply beqb_false; auto]. }
    assert (GG : forall k t w, In ((k, t), w) ws -> ((k = last -> go = true) <-> (k = k0 -> go1 = true)) \/ (k <> k0 /\ k <> last)).
    { intros k1 t1 w1 I. destruct KD as [E|E].
      - subst last. rewrite G1 by auto. left. tauto.
      - assert (k1 <> last) by (eapply KL; eauto). rewrite G2 by auto. left. split; intros; auto; congruence. }
    (* the head is not taken and does not matter for the others *)
    assert (SKIP : (t0 <= tso -> ok w0 = true -> go1 = false) ->
      (In (k, t, w) (pick ok tso ws k0 go1) <->
       In (k, t, w) ((k0, t0, w0) :: ws) /\ t <= tso /\ ok w = true /\
       (forall t' w', In (k, t', w') ((k0, t0, w0) :: ws) -> t < t' <= tso -> ok w' = false) /\ (k = last -> go = true))).
    { intros NT. rewrite (IH k0 go1 SS LE' k t w). split.
      - intros (I & L & O & MX & G). split; [right; auto|]. split; [auto|]. split; [auto|]. split.
        + intros t' w' [E|I'] B; [|eapply MX; eauto]. inversion E; subst.
          destruct (ok w') eqn:O'; auto. exfalso. assert (go1 = false) by (apply NT; auto; lia). rewrite G in H; auto. discriminate.
        + destruct (GG _ _ _ I) as [X|[X1 X2]]; [tauto|]. intros; congruence.
      - intros (I & L & O & MX & G). destruct I as [E|I].
        + exfalso. inversion E; subst k0 t0 w0. assert (X := NT L O). destruct KD as [D|D].
          * rewrite G1 in X by auto. rewrite G in X; auto. discriminate.
          * rewrite G2 in X by auto. discriminate.
        + split; [auto|]. split; [auto|]. split; [auto|]. split.
          * intros t' w' I' B. eapply MX; eauto. right; auto.
          * destruct (GG _ _ _ I) as [X|[X1 X2]]; [tauto|]. intros; congruence. }
    destruct (tso <? t0) eqn:TL.
    { apply Z.ltb_lt in TL. apply SKIP. intros. lia. }
    apply Z.ltb_ge in TL. destruct (negb go1) eqn:NG.
    { apply SKIP. intros. destruct go1; auto; discriminate. }
    assert (GT : go1 = true) by (destruct go1; auto; discriminate).
    destruct (ok w0) eqn:O0; [|apply SKIP; intros; congruence].
    cbn [In]. rewrite (IH k0 false SS LE' k t w). split.
    - intros [E|(I & L & O & MX & G)].
      + inversion E; subst k0 t0 w0. split; [left; auto|]. split; [auto|]. split; [auto|]. split.
        * intros t' w' [E'|I'] B; [inversion E'; subst; lia|]. specialize (LT' _ _ I'). lia.
        * intros D. rewrite <- (G1 D). auto.
      + assert (NK : k <> k0) by (intros E; specialize (G E); discriminate).
        split; [right; auto|]. split; [auto|]. split; [auto|]. split.
        * intros t' w' [E'|I'] B; [inversion E'; congruence|eapply MX; eauto].
        * destruct (GG _ _ _ I) as [X|[X1 X2]]; [|intros; congruence]. apply X. intros; congruence.
    - intros ([E|I] & L & O & MX & G); [left; auto|]. 
      destruct (bytes_eq_dec k k0) as [E|NK].
      + exfalso. subst k. specialize (LT' _ _ I). rewrite (MX t0 w0) in O0; [discriminate|left; auto|lia].
      + right. split; [auto|]. split; [auto|]. split; [auto|]. split.
        * intros t' w' I' B. eapply MX; eauto.
        * intros; congruence.
  Qed.
End Pick.

(** * Collecting into maps *)
Section Collect.
  Context {A V : Type}.
  Variable f : A -> option ((bytes * Z) * V).
  Definition collect (l : list A) (m : smap (bytes * Z) V) : smap (bytes * Z) V :=
    fold_left (fun m e => match f e with Some (x, v) => ins m x v | None => m end) l m.

  Lemma get_ins (m : smap (bytes * Z) V) x v y :
    get vcmp (ins m x v) y = match get vcmp m y with Some u => Some u | None => if kt_dec x y then Some v else None end.
  Proof.
    unfold ins. destruct (get vcmp m x) eqn:E.
    - destruct (get vcmp m y) eqn:E2; auto. destruct (kt_dec x y); auto. subst. congruence.
    - rewrite (get_put vcmp vcmp_ok). destruct (kt_dec x y) as [->|N].
      + rewrite E. destruct (cmp_dec vcmp vcmp_ok y y); congruence.
      + destruct (cmp_dec vcmp vcmp_ok x y); [congruence|]. destruct (get vcmp m y); auto.
  Qed.
  Lemma sorted_ins (m : smap (bytes * Z) V) x v : sorted vcmp m -> sorted vcmp (ins m x v).
  Proof. intros H. unfold ins. destruct (get vcmp m x); auto. apply sorted_put; auto using vcmp_ok. Qed.
  Lemma sorted_collect : forall l m, sorted vcmp m -> sorted vcmp (collect l m).
  Proof.
    induction l as [|a l IH]; intros m H; simpl; auto. apply IH.
    destruct (f a) as [[x v]|]; auto using sorted_ins.
  Qed.

  Lemma get_collect : forall l m x v,
    (forall e1 e2 v1 v2, In e1 l -> In e2 l -> f e1 = Some (x, v1) -> f e2 = Some (x, v2) -> v1 = v2) ->
    get vcmp m x = None ->
    (get vcmp (collect l m) x = Some v <-> exists e, In e l /\ f e = Some (x, v)).
  Proof.
    assert (KEEP : forall l m x v, get vcmp m x = Some v -> get vcmp (collect l m) x = Some v).
    { induction l as [|a l IH]; intros m x v H; simpl; auto. apply IH.
      destruct (f a) as [[y u]|]; auto. rewrite get_ins, H. auto. }
    induction l as [|a l IH]; intros m x v FN NM; simpl.
    - rewrite NM. split; [discriminate|]. intros (e & [] & _).
    - destruct (f a) as [[y u]|] eqn:FA.
      + destruct (kt_dec y x) as [E|N].
        * subst y. rewrite (KEEP l _ x u) by (rewrite get_ins, NM; destruct (kt_dec x x); congruence).
          split.
          -- intros H. exists a. split; [auto|]. congruence.
          -- intros (e & I & E). f_equal. eapply (FN a e); eauto. left; auto.
        * rewrite IH.
          -- split; intros (e & I & E); exists e; split; auto. destruct I as [I|I]; auto. subst. rewrite FA in E. congruence.
          -- intros e1 e2 v1 v2 I1 I2. apply FN; right; auto.
          -- rewrite get_ins, NM. destruct (kt_dec y x); congruence.
      + rewrite IH; auto.
        * split; intros (e & I & E); exists e; split; auto. destruct I as [I|I]; auto. subst. congruence.
        * intros e1 e2 v1 v2 I1 I2. apply FN; right; auto.
  Qed.
End Collect.

(** * The scan of a transactional region *)
Definition okw (w : wrec) : bool := match w_op w with OpPut | OpDelete => true | _ => false end.
Definition whole (e : (bytes * Z) * wrec) : option ((bytes * Z) * wrec) := Some (fst e, snd e).
Definition its_data (s : store) (e : (bytes * Z) * wrec) : option ((bytes * Z) * bytes) :=
  match get vcmp (datas s) (fst (fst e), w_start (snd e)) with
  | Some v => Some ((fst (fst e), w_start (snd e)), v)
  | None => None
  end.

Lemma scan_txn_pick s tso : forall ws last go fw fd,
  scan_txn s tso ws last go fw fd =
  if existsb (fun e => own_lock s (fst (fst e)) (w_start (snd e))) (pick okw tso ws last go) then BLocked
  else BOk (collect whole (pick okw tso ws last go) fw) (collect (its_data s) (pick okw tso ws last go) fd).
Proof.
  induction ws as [|[[k t] w] ws IH]; intros last go fw fd; [reflexivity|].
  cbn [scan_txn pick]. set (g := if beqb last k then go else true).
  destruct (tso <? t); [apply IH|]. destruct (negb g); [apply IH|].
  destruct (okw w) eqn:KO.
  - assert (HD : forall X Y : bres, match w_op w with OpPut | OpDelete => X | _ => Y end = X)
      by (intros; unfold okw in KO; destruct (w_op w); auto; discriminate).
    rewrite HD. cbn [existsb fst snd]. destruct (own_lock s k (w_start w)) eqn:OL; [reflexivity|]. cbn [orb]. rewrite IH.
    destruct (existsb _ _); auto. unfold collect. cbn [fold_left]. unfold whole at 3, its_data at 3, copy_data. cbn [fst snd].
    destruct (get vcmp (datas s) (k, w_start w)); reflexivity.
  - assert (HD : forall X Y : bres, match w_op w with OpPut | OpDelete => X | _ => Y end = Y)
      by (intros; unfold okw in KO; destruct (w_op w); auto; discriminate).
    rewrite HD. apply IH.
Qed.

Lemma bleb_iff a b : bleb a b = true <-> ble a b.
Proof. unfold bleb, ble. destruct (bcmp a b); split; intros; congruence. Qed.
Lemma bltb_iff a b : bltb a b = true <-> blt a b.
Proof. unfold bltb, blt. destruct (bcmp a b); split; intros; congruence. Qed.
Lemma inside_iff a b k : inside a b k = true <-> in_range a b k.
Proof. unfold inside, in_range. rewrite andb_true_iff, bleb_iff, bltb_iff. tauto. Qed.

Lemma nil_le k : ble [] k.
Proof. unfold ble. destruct k; simpl; discriminate. Qed.
Lemma range_nonempty a b k : a <> [] -> in_range a b k -> k <> [].
Proof. intros N [H _] E. subst k. apply N. unfold ble in H. destruct a; auto. simpl in H. congruence. Qed.

Definition taken (s : store) (tso : Z) (a b : bytes) : list ((bytes * Z) * wrec) :=
  pick okw tso (filter (fun e => inside a b (fst (fst e))) (writes s)) [] false.

Lemma okw_false w : three w -> (okw w = false <-> w_op w = OpRollback).
Proof. unfold three, okw. intros [H|[H|H]]; rewrite H; split; congruence. Qed.
Lemma okw_true w : three w -> (okw w = true <-> w_op w <> OpRollback).
Proof. unfold three, okw. intros [H|[H|H]]; rewrite H; split; congruence. Qed.

Lemma taken_spec s tso a b k t w : store_ok s -> a <> [] ->
  (In ((k, t), w) (taken s tso a b) <-> in_range a b k /\ newest s SI tso k t w).
Proof.
  intros H NA. unfold taken. rewrite pick_spec.
  - assert (FI : forall k t w, In ((k, t), w) (filter (fun e => inside a b (fst (fst e))) (writes s)) <->
                 in_range a b k /\ write_at s k t = Some w).
    { intros k1 t1 w1. rewrite filter_In. cbn [fst]. rewrite inside_iff. unfold write_at.
      rewrite (get_iff vcmp vcmp_ok) by apply H. tauto. }
    unfold newest. simpl (sees_up_to SI tso). split.
    + intros (I & L & O & MX & G). apply FI in I. destruct I as [R W]. split; auto. split; auto. split; auto. split.
      * apply okw_true; auto. eapply three_ok; eauto.
      * intros t' w' W' B. apply okw_false; [eapply three_ok; eauto|]. eapply MX; eauto. apply FI. auto.
    + intros (R & W & L & O & MX). split; [apply FI; auto|]. split; auto. split; [apply okw_true; auto; eapply three_ok; eauto|]. split.
      * intros t' w' I B. apply FI in I. destruct I as [_ I]. apply okw_false; [eapply three_ok; eauto|]. eapply MX; eauto.
      * intros E. exfalso. eapply range_nonempty; eauto.
  - apply sorted_filter. apply H.
  - intros. apply nil_le.
Qed.

Lemma backup_txn_unfold s tso a b : backup_txn s tso a b =
  if existsb (fun e => own_lock s (fst (fst e)) (w_start (snd e))) (taken s tso a b) then BLocked
  else BOk (collect whole (taken s tso a b) []) (collect (its_data s) (taken s tso a b) []).
Proof. apply scan_txn_pick. Qed.

Lemma own_lock_iff s k st : own_lock s k st = true <-> holds s k st.
Proof.
  unfold own_lock, holds, lock_at. destruct (get bcmp (locks s) k) as [l|].
  - rewrite Z.eqb_eq. split; [intros; exists l; auto|]. intros (l' & E & T). congruence.
  - split; [discriminate|]. intros (l' & E & _). discriminate.
Qed.

Lemma backup_exact s tso a b fw fd : store_ok s -> a <> [] -> backup_txn s tso a b = BOk fw fd ->
  (forall k t w, get vcmp fw (k, t) = Some w <-> in_range a b k /\ newest s SI tso k t w) /\
  (forall k st v, get vcmp fd (k, st) = Some v <->
     data_at s k st = Some v /\ exists t w, in_range a b k /\ newest s SI tso k t w /\ w_start w = st).
Proof.
  intros H NA E. rewrite backup_txn_unfold in E. destruct (existsb _ _); [discriminate|].
  assert (E1 : fw = collect whole (taken s tso a b) []) by congruence.
  assert (E2 : fd = collect (its_data s) (taken s tso a b) []) by congruence.
  clear E. subst. split.
  - intros k t w. rewrite get_collect; [|clear w|reflexivity].
    + rewrite <- (taken_spec s tso a b k t w H NA). unfold whole. split.
      * intros ([x u] & I & E). simpl in E. inversion E; subst. auto.
      * intros I. exists ((k, t), w). auto.
    + intros [x1 u1] [x2 u2] v1 v2 I1 I2 F1 F2. unfold whole in F1, F2. simpl in F1, F2. inversion F1; inversion F2; subst.
      apply taken_spec in I1; auto. apply taken_spec in I2; auto.
      destruct I1 as [_ (W1 & _)]. destruct I2 as [_ (W2 & _)]. congruence.
  - intros k st v. rewrite get_collect; [|clear v|reflexivity].
    + split.
      * intros ([[k1 t] w] & I & F). unfold its_data in F. simpl in F. destruct (get vcmp (datas s) (k1, w_start w)) eqn:D; [|discriminate].
        inversion F; subst. apply taken_spec in I; auto. split; auto. exists t, w. tauto.
      * intros (D & t & w & R & N & <-). exists ((k, t), w). split; [apply taken_spec; auto|].
        unfold its_data. simpl. unfold data_at in D. rewrite D. auto.
    + intros [[k1 t1] w1] [[k2 t2] w2] v1 v2 I1 I2 F1 F2. unfold its_data in F1, F2. simpl in F1, F2.
      destruct (get vcmp (datas s) (k1, w_start w1)) eqn:D1; [|discriminate].
      destruct (get vcmp (datas s) (k2, w_start w2)) eqn:D2; [|discriminate].
      inversion F1; inversion F2; subst. congruence.
Qed.

Lemma backup_sorted s tso a b fw fd : backup_txn s tso a b = BOk fw fd -> sorted vcmp fw /\ sorted vcmp fd.
Proof.
  intros E. rewrite backup_txn_unfold in E. destruct (existsb _ _); [discriminate|].
  assert (E1 : fw = collect whole (taken s tso a b) []) by congruence.
  assert (E2 : fd = collect (its_data s) (taken s tso a b) []) by congruence.
  subst. split; apply sorted_collect; constructor.
Qed.

Lemma backup_refused s tso a b : store_ok s -> a <> [] ->
  (backup_txn s tso a b = BLocked <->
   exists k t w, in_range a b k /\ newest s SI tso k t w /\ holds s k (w_start w)).
Proof.
  intros H NA. rewrite backup_txn_unfold. destruct (existsb _ _) eqn:E.
  - split; auto. intros _. apply existsb_exists in E. destruct E as ([[k t] w] & I & L). simpl in L.
    apply taken_spec in I; auto. apply own_lock_iff in L. exists k, t, w. tauto.
  - split; [discriminate|]. intros (k & t & w & R & N & L). exfalso.
    rewrite <- not_true_iff_false in E. apply E. apply existsb_exists. exists ((k, t), w). split.
    + apply taken_spec; auto.
    + simpl. apply own_lock_iff. auto.
Qed.

(** a region in a state requests can bring about is always backed up *)
Lemma backup_succeeds c P g tso a b : plan_ok P -> reachable c P g -> a <> [] ->
  exists fw fd, backup_txn (rg_store g) tso a b = BOk fw fd.
Proof.
  intros HP RE NA. assert (I := reachable_inv _ _ _ HP RE). destruct I as [H K].
  destruct (backup_txn (rg_store g) tso a b) as [fw fd|] eqn:E; [eauto|]. exfalso.
  apply backup_refused in E; auto. destruct E as (k & t & w & R & (W & _ & O & _) & (l & L & T)).
  eapply (ki_nocommit _ _ _ (K k) l t); eauto. rewrite T. exists w. auto.
Qed.

(** * The scan of a plain region *)
Definition always (v : bytes) : bool := true.
Definition whole_p (e : (bytes * Z) * bytes) : option ((bytes * Z) * bytes) := Some (fst e, snd e).
Lemma scan_plain_pick tso : forall ws last go f,
  scan_plain tso ws last go f =
  if forallb (fun e => flag_ok (snd e)) (pick always tso ws last go)
  then Ok (collect whole_p (pick always tso ws last go) f) else Crash.
Proof.
  induction ws as [|[[k t] v] ws IH]; intros last go f; [reflexivity|].
  cbn [scan_plain pick]. set (g := if beqb last k then go else true).
  destruct (tso <? t); [apply IH|]. destruct (negb g); [apply IH|].
  change (always v) with true. cbn iota. cbn [forallb snd]. destruct (flag_ok v); cbn [andb]; [apply IH|reflexivity].
Qed.
Lemma plain_spec m tso a b k t v : sorted vcmp m -> a <> [] ->
  (In ((k, t), v) (pick always tso (filter (fun e => inside a b (fst (fst e))) m) [] false) <-> in_range a b k /\ newest_plain m tso k t v).
Proof.
  intros H NA. rewrite pick_spec.
  - assert (FI : forall k t w, In ((k, t), w) (filter (fun e => inside a b (fst (fst e))) m) <->
                 in_range a b k /\ get vcmp m (k, t) = Some w).
    { intros k1 t1 w1. rewrite filter_In. cbn [fst]. rewrite inside_iff.
      rewrite (get_iff vcmp vcmp_ok) by auto. tauto. }
    unfold newest_plain. split.
    + intros (I & L & O & MX & G). apply FI in I. destruct I as [R W]. split; [auto|]. split; [auto|]. split; [auto|].
      intros t' w' W' B. assert (X : always w' = false) by (eapply MX; eauto; apply FI; auto). discriminate.
    + intros (R & W & L & MX). split; [apply FI; auto|]. split; [auto|]. split; [auto|]. split.
      * intros t' w' I B. apply FI in I. exfalso. eapply MX; [apply I|auto].
      * intros E. exfalso. eapply range_nonempty; eauto.
  - apply sorted_filter. auto.
  - intros. apply nil_le.
Qed.
Lemma backup_plain_exact m tso a b f : sorted vcmp m -> a <> [] -> backup_plain m tso a b = Ok f ->
  forall k t v, get vcmp f (k, t) = Some v <-> in_range a b k /\ newest_plain m tso k t v.
Proof.
  intros H NA E k t v. unfold backup_plain in E. rewrite scan_plain_pick in E. destruct (forallb _ _); [|discriminate].
  apply Ok_inj in E. subst f. rewrite get_collect; [|clear v|reflexivity].
  - rewrite <- (plain_spec m tso a b k t v H NA). unfold whole_p. split.
    + intros ([x u] & I & E). simpl in E. inversion E; subst. auto.
    + intros I. exists ((k, t), v). auto.
  - intros [x1 u1] [x2 u2] v1 v2 I1 I2 F1 F2. unfold whole_p in F1, F2. simpl in F1, F2. inversion F1; inversion F2; subst.
    apply plain_spec in I1; auto. apply plain_spec in I2; auto.
    destruct I1 as [_ (W1 & _)]. destruct I2 as [_ (W2 & _)]. congruence.
Qed.
Lemma backup_plain_runs m tso a b : sorted vcmp m -> a <> [] ->
  (forall k t v, get vcmp m (k, t) = Some v -> flag_ok v = true) -> exists f, backup_plain m tso a b = Ok f.
Proof.
  intros H NA F. unfold backup_plain. rewrite scan_plain_pick. destruct (forallb _ _) eqn:E; eauto. exfalso.
  rewrite <- not_true_iff_false in E. apply E. apply forallb_forall. intros [[k t] v] I. apply plain_spec in I; auto.
  simpl. eapply F. apply I.
Qed.
