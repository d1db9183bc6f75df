From Coq Require Import ZArith List Lia Bool Sorted.
From Verif Require Import Bytes SMap Outcome TxnModel TxnSpec TxnBase TxnInv TxnRun TxnProofs TxnReadModel TxnReadSpec
  TxnReadProofs TxnReadProofs4 GcTxnSpec.
Import ListNotations.
Open Scope Z_scope.

Definition op_dec : forall a b : op, {a = b} + {a <> b}.
Proof. decide equality. Defined.

(** ** what the scan proposes to delete *)
Definition op_known (w : wrec) : Prop := w_op w = OpPut \/ w_op w = OpDelete \/ w_op w = OpRollback.

Definition newer_in (ws : smap (bytes * Z) wrec) (k : bytes) (t : Z) : Prop :=
  exists t' w', In ((k, t'), w') ws /\ t < t' /\ w_op w' <> OpRollback.

Lemma vsorted_tail k t (w : wrec) ws : sorted vcmp (((k, t), w) :: ws) ->
  sorted vcmp ws /\ forall k' t' w', In ((k', t'), w') ws -> bcmp k k' = Lt \/ (k = k' /\ t' < t).
Proof.
  intros S. unfold sorted in *. inversion S as [|? ? S' F]; subst. split; auto.
  intros k' t' w' I. rewrite Forall_forall in F. specialize (F _ I). unfold klt, vcmp in F. cbn [fst snd] in F.
  destruct (bcmp k k') eqn:E; [|auto|discriminate]. right. apply bcmp_eq in E. split; auto.

Qed.

Lemma gc_scan_del ds sp : forall ws cur gt first, sorted vcmp ws -> (forall e, In e ws -> op_known (snd e)) ->
  (forall k t w, In ((k, t), w) ws -> bcmp cur k <> Gt) ->
  forall k t, In (DelWrite k t) (concat (gc_scan ds sp ws cur gt first)) <->
  exists w, In ((k, t), w) ws /\ t <= sp /\
    (w_op w <> OpPut \/ (k = cur /\ (gt = true \/ first = false)) \/ newer_in ws k t).
Proof.
  induction ws as [|[[k0 t0] w0] ws IH]; intros cur gt first SO KN LE k t.
  { simpl. split; [tauto|intros (w & [] & _)]. }
  destruct (vsorted_tail _ _ _ _ SO) as (SO' & TL).
  assert (KN' : forall e, In e ws -> op_known (snd e)) by (intros; apply KN; simpl; auto).
  assert (K0 : op_known w0) by (apply (KN ((k0, t0), w0)); simpl; auto).
  assert (LE' : forall k t w, In ((k, t), w) ws -> bcmp k0 k <> Gt).
  { intros k' t' w' I. destruct (TL _ _ _ I) as [A|[<- A]]; [congruence|]. rewrite bcmp_refl. discriminate. }
  assert (CUR : forall t w, In ((cur, t), w) ws -> k0 = cur).
  { intros t' w' I. assert (A := LE' _ _ _ I). assert (B := LE k0 t0 w0 (or_introl eq_refl)).
    destruct (bcmp cur k0) eqn:E; [symmetry; apply bcmp_eq; auto| |congruence].
    exfalso. apply A. rewrite bcmp_opp, E. reflexivity. }
  set (gt1 := if beqb cur k0 then gt else false). set (first1 := if beqb cur k0 then first else true).
  assert (N1 : (gt1 = true \/ first1 = false) <-> (k0 = cur /\ (gt = true \/ first = false))).
  { unfold gt1, first1. destruct (beqb cur k0) eqn:E.
    - apply beqb_true in E. subst. tauto.
    - split; [intros [X|X]; discriminate|]. intros [-> _]. rewrite beqb_refl in E. discriminate. }
  (* one step: what the item contributes and the flags afterwards *)
  assert (G : forall it gt2 first2, 
     (In (DelWrite k t) it <-> k = k0 /\ t = t0 /\ t0 <= sp /\ (w_op w0 <> OpPut \/ gt1 = true \/ first1 = false)) ->
     ((gt2 = true \/ first2 = false) <-> (gt1 = true \/ first1 = false \/ w_op w0 <> OpRollback)) ->
     (In (DelWrite k t) (concat (it :: gc_scan ds sp ws k0 gt2 first2)) <->
      exists w, In ((k, t), w) (((k0, t0), w0) :: ws) /\ t <= sp /\
        (w_op w <> OpPut \/ (k = cur /\ (gt = true \/ first = false)) \/ newer_in (((k0, t0), w0) :: ws) k t))).
  { intros it gt2 first2 Q1 Q2. cbn [concat]. rewrite in_app_iff, Q1, (IH k0 gt2 first2 SO' KN' LE' k t). split.
    - intros [(-> & -> & A & B)|(w & A & B & C)].
      + exists w0. split; [left; auto|split; [auto|]]. destruct B as [B|B]; auto. apply N1 in B. right; left; exact B.
      + exists w. split; [right; auto|split; [auto|]]. destruct C as [C|[(-> & C)|(t' & w' & C1 & C2)]]; auto.
        * apply Q2 in C. destruct C as [C|[C|C]]; [| |right; right; exists t0, w0].
          -- right; left. apply N1. auto.
          -- right; left. apply N1. auto.
          -- split; [left; auto|]. destruct (TL _ _ _ A) as [X|[_ X]]; [rewrite bcmp_refl in X; discriminate|]. auto.
        * right; right. exists t', w'. split; [right; auto|auto].
    - intros (w & [A|A] & B & C).
      + left. assert (k0 = k) by congruence. assert (t0 = t) by congruence. assert (w0 = w) by congruence. subst.
        split; [auto|split; [auto|split; [auto|]]]. destruct C as [C|[C|(t' & w' & [C|C] & D & E)]]; auto.
        * right. apply N1. auto.
        * assert (t = t') by congruence. lia.
        * destruct (TL _ _ _ C) as [X|[_ X]]; [rewrite bcmp_refl in X; discriminate|lia].
      + right. exists w. split; [auto|split; [auto|]]. destruct C as [C|[(-> & C)|(t' & w' & [C|C] & D & E)]]; auto.
        * assert (k0 = cur) by (eapply CUR; eauto). right; left. split; auto. apply Q2. 
          destruct (proj2 N1 (conj H C)); auto.
        * right; left. split; [congruence|]. apply Q2. right; right. congruence.
        * right; right. exists t', w'. auto. }
  cbn [gc_scan]. fold gt1 first1. destruct (sp <? t0) eqn:E.
  - apply Z.ltb_lt in E. apply G.
    + simpl. split; [tauto|intros (_ & _ & X & _); lia].
    + unfold op_eqb. destruct K0 as [K0|[K0|K0]]; rewrite K0; simpl.
      * rewrite !orb_true_r. split; [right; right; discriminate|auto].
      * rewrite !orb_true_r. split; [right; right; discriminate|auto].
      * rewrite !orb_false_r. split; [intros [X|X]; auto|]. intros [X|[X|X]]; auto; congruence.
  - apply Z.ltb_ge in E. destruct K0 as [K0|[K0|K0]]; rewrite K0.
    + destruct gt1 eqn:G1; [|destruct first1 eqn:F1]; cbn [negb andb]; apply G; rewrite ?K0.
      all: try (split; [intros _; right; right; discriminate|auto; fail]).
      * split.
        -- intros [X|X]; [inversion X; subst; repeat split; auto|].
           destruct (beqb (w_short w0) []); [destruct (get vcmp ds (k0, w_start w0))|]; simpl in X; try tauto.
           destruct X as [X|[]]; discriminate.
        -- intros (-> & -> & _). left; auto.
      * simpl. split; [tauto|]. intros (_ & _ & _ & [X|[X|X]]); congruence.
      * split.
        -- intros [X|X]; [inversion X; subst; repeat split; auto|].
           destruct (beqb (w_short w0) []); [destruct (get vcmp ds (k0, w_start w0))|]; simpl in X; try tauto.
           destruct X as [X|[]]; discriminate.
        -- intros (-> & -> & _). left; auto.
    + apply G; rewrite ?K0.
      * split; [intros [X|[]]; inversion X; subst; repeat split; auto; left; discriminate|].
        intros (-> & -> & _). left; auto.
      * destruct gt1; cbn [negb]; split; auto; intros _; right; right; discriminate.
    + apply G; rewrite ?K0.
      * split; [intros [X|[]]; inversion X; subst; repeat split; auto; left; discriminate|].
        intros (-> & -> & _). left; auto.
      * split; [intros [X|X]; auto|]. intros [X|[X|X]]; auto; congruence.
Qed.

Lemma gc_flush_concat limit : forall items acc, concat (gc_flush limit items acc) = acc ++ concat items.
Proof.
  induction items as [|it items IH]; intros acc; cbn [gc_flush concat].
  - destruct acc; simpl; rewrite ?app_nil_r; auto.
  - destruct it as [|y it]; [apply IH|].
    destruct (limit <=? _); cbn [concat]; rewrite IH; cbn [app]; rewrite <- ?app_assoc; auto.
Qed.

(** a stored record is proposed for deletion *)
Definition removed (sp : Z) (s : store) (k : bytes) (t : Z) : Prop :=
  exists w, write_at s k t = Some w /\ t <= sp /\
    (w_op w <> OpPut \/ exists t' w', write_at s k t' = Some w' /\ t < t' /\ w_op w' <> OpRollback).

Lemma gc_txn_del c s sp k t : store_ok s ->
  (In (DelWrite k t) (concat (gc_txn c s sp)) <-> removed sp s k t).
Proof.
  intros H. unfold gc_txn. rewrite gc_flush_concat. cbn [app].
  assert (W := fun k t w => get_iff vcmp vcmp_ok (writes s) (k, t) w (ok_ws s H)).
  rewrite gc_scan_del.
  - unfold removed, newer_in, write_at. split.
    + intros (w & A & B & C). exists w. rewrite W. split; [auto|split; [auto|]].
      destruct C as [C|[(_ & [C|C])|(t' & w' & C & D)]]; [auto|discriminate|discriminate|].
      right. exists t', w'. rewrite W. auto.
    + intros (w & A & B & C). exists w. rewrite <- W. split; [auto|split; [auto|]].
      destruct C as [C|(t' & w' & C & D)]; [auto|]. right; right. exists t', w'. rewrite <- W. auto.
  - apply ok_ws; auto.
  - intros [[k' t'] w'] I. apply W in I. apply (ok_write s H) in I. destruct I as (_ & [[I _]|[[I|I] _]]); unfold op_known; cbn [snd]; auto.
  - intros k' t' w' _. destruct k'; simpl; discriminate.
Qed.

(** ** applying batches *)
Lemma apply_batches_concat bs : forall s, apply_batches s bs = apply_batch s (concat bs).
Proof.
  induction bs as [|b bs IH]; intros s; [reflexivity|]. cbn [apply_batches fold_left concat].
  change (fold_left apply_batch bs ?x) with (apply_batches x bs). rewrite IH.
  unfold apply_batch. rewrite fold_left_app. auto.
Qed.

Section Reads.
  Variables (c : cfg) (sp : Z) (s s' : store) (P : plan).
  Hypotheses (H : store_ok s) (H' : store_ok s') (K' : forall k, kinv P s' k) (HP : plan_ok P) (L : later sp s s').
  Variable part : list batch.
  Hypothesis PT : incl part (gc_txn c s sp).

  Let after := apply_batches s' part.

  Lemma part_in o : In o (concat part) -> exists b, In b (gc_txn c s sp) /\ In o b /\ In b part.
  Proof. intros I. apply in_concat in I. destruct I as (b & B1 & B2). exists b. auto. Qed.

  Lemma part_dels : deletes_only (concat part).
  Proof.
    intros o I. apply part_in in I. destruct I as (b & B1 & B2 & _).
    destruct (gc_txn_entry _ _ _ _ _ H B1 B2) as (k & t & w & _ & _ & _ & [->|(-> & _)]); eauto.
  Qed.

  Lemma gone k t : In (DelWrite k t) (concat part) -> removed sp s k t.
  Proof.
    intros I. apply (gc_txn_del c); auto. apply part_in in I. destruct I as (b & B1 & B2 & _).
    apply in_concat. eauto.
  Qed.

  Lemma after_write k t w : write_at after k t = Some w <-> write_at s' k t = Some w /\ ~ In (DelWrite k t) (concat part).
  Proof.
    unfold after. rewrite apply_batches_concat. split.
    - apply del_write; auto using part_dels.
    - intros [A B]. rewrite keep_write; auto using part_dels.
  Qed.

  Lemma after_lock k : lock_at after k = lock_at s' k.
  Proof. unfold after. rewrite apply_batches_concat. apply del_lock; auto using part_dels. Qed.

  Lemma after_data k t v : data_at after k t = Some v -> data_at s' k t = Some v.
  Proof.
    unfold after. rewrite apply_batches_concat. intros A.
    destruct (batch_data (concat part) s' k t H') as [(l & B & _)|[(B & C)|(_ & B & C)]]; [| |congruence].
    - destruct (part_dels _ B) as [(? & ? & X)|(? & ? & X)]; discriminate.
    - congruence.
  Qed.

  Lemma after_newer k t w : sp < t -> write_at s' k t = Some w -> write_at after k t = Some w.
  Proof.
    intros T W. apply after_write. split; auto. intros X. apply gone in X. destruct X as (w' & _ & X & _). lia.
  Qed.

  (** the value of a record that is still there is still there *)
  Lemma after_value k t w v : write_at after k t = Some w -> w_op w = OpPut -> value_of s' k w v -> value_of after k w v.
  Proof.
    intros W O [V|[V1 V2]]; [left; auto|]. right. split; auto.
    unfold after. rewrite apply_batches_concat. rewrite keep_data; auto using part_dels.
    intros X. assert (Y := X). apply part_in in Y. destruct Y as (b & B1 & B2 & B3).
    destruct (gc_txn_entry _ _ _ _ _ H B1 B2) as (k2 & t2 & w2 & W1 & W2 & W3 & [E|(E & W4 & W5)]); [discriminate|].
    assert (k2 = k) by congruence. assert (ST : w_start w = w_start w2) by congruence. subst k2. clear E.
    apply after_write in W. destruct W as [W N].
    assert (Z1 : write_at s' k t2 = Some w2) by (apply (proj2 L); [congruence|auto]).
    assert (C1 := committed_put _ _ _ _ W O). assert (C2 := committed_put _ _ _ _ Z1 W4).
    rewrite <- ST in C2. destruct (Z.eq_dec t t2) as [->|n].
    - apply N. apply in_concat. eauto.
    - assert (F1 := committed_for _ _ _ _ _ (K' k) C1). assert (F2 := committed_for _ _ _ _ _ (K' k) C2).
      destruct HP as (_ & HP2 & _). apply HP2 in F1. apply HP2 in F2.
      destruct (ki_disj _ _ _ (K' k) _ _ _ _ C1 C2) as [Y|Y]; auto; lia.
  Qed.

  (** the newest visible commit survives, unless it is a delete at or below the safe point *)
  Lemma newest_kept i ts k t w : gc_safe_read sp s s' k (sees_up_to i ts) -> newest s' i ts k t w ->
    (sp < t \/ w_op w = OpPut) -> newest after i ts k t w.
  Proof.
    intros (LO & SF) (A & B & C & D) Q. split; [|split; [auto|split; [auto|]]].
    2: { intros t' w' W T. apply after_write in W. eapply D; eauto; tauto. }
    destruct (Z_lt_dec sp t) as [T|T]; [apply after_newer; auto|].
    assert (O : w_op w = OpPut) by (destruct Q; [lia|auto]).
    apply after_write. split; auto. intros X. apply gone in X. destruct X as (w2 & W2 & _ & X).
    assert (write_at s' k t = Some w -> write_at s k t = Some w) by (apply (proj1 L); [lia|auto]).
    rewrite H0 in W2 by auto. assert (w2 = w) by congruence. subst w2.
    destruct X as [X|(t' & w' & X1 & X2 & X3)]; [congruence|].
    assert (Y : write_at s' k t' = Some w') by (apply (proj2 L); auto).
    destruct SF as [(u & wu & U1 & U2 & U3)|SF].
    - apply U2. apply (D u); auto. lia.
    - assert (t' <= sp) by (eapply SF; eauto). 
      destruct (Z_le_dec t' (sees_up_to i ts)) as [Z0|Z0]; [apply X3, (D t'); auto; lia|].
      lia.
  Qed.

  Lemma live_kept i ts k v : gc_safe_read sp s s' k (sees_up_to i ts) -> v <> [] ->
    reads s' i ts k v -> reads after i ts k v.
  Proof.
    intros SF NE [(t & w & N & O & V)|[(t & w & _ & _ & ->)|(_ & ->)]]; [|congruence|congruence].
    assert (N' := newest_kept i ts k t w SF N (or_intror O)).
    left. exists t, w. split; [auto|split; [auto|]]. eapply after_value; eauto. apply N'.
  Qed.
End Reads.

Section Complete.
  Variables (c : cfg) (sp : Z) (s s' : store) (P : plan).
  Hypotheses (H : store_ok s) (H' : store_ok s') (K' : forall k, kinv P s' k) (HP : plan_ok P) (L : later sp s s').
  Let bs := gc_txn c s sp.
  Let after := apply_batches s' bs.

  Lemma newest_back i ts k t w : newest after i ts k t w -> newest s' i ts k t w.
  Proof.
    intros (A & B & C & D). assert (A' := A). apply (after_write c sp s s' H H' bs (incl_refl _)) in A'. destruct A' as [A0 A1].
    split; [auto|split; [auto|split; [auto|]]]. intros t' w' W T.
    destruct (op_dec (w_op w') OpRollback) as [|N]; auto. exfalso.
    destruct (Z_lt_dec sp t') as [S|S].
    - apply N. apply (D t'); auto. apply (after_newer c sp s s' H H' bs (incl_refl _)); auto.
    - apply A1. apply (gc_txn_del c); auto. exists w. 
      split; [apply (proj1 L); [lia|auto|auto]|split; [lia|]]. right. exists t', w'.
      split; [apply (proj1 L); [lia|auto|auto]|split; [lia|auto]].
  Qed.

  Lemma value_back k w v : value_of after k w v -> value_of s' k w v.
  Proof.
    intros [V|[V1 V2]]; [left; auto|]. right. split; auto.
    apply (after_data c sp s s' H H' bs (incl_refl _)); auto.
  Qed.

  Lemma stale_free i ts k v v' : reads after i ts k v' -> reads s' i ts k v -> v' = v \/ v' = [].
  Proof.
    intros [(t & w & N & O & V)|[(t & w & _ & _ & ->)|(_ & ->)]] R; auto. left.
    eapply reads_unique; [|exact R]. left. exists t, w. split; [apply newest_back; auto|split; [auto|]].
    apply value_back; auto.
  Qed.

  Lemma reads_kept i ts k v : gc_safe_read sp s s' k (sees_up_to i ts) ->
    reads s' i ts k v -> reads after i ts k v.
  Proof.
    intros SF [(t & w & N & O & V)|[(t & w & N & O & ->)|(N & ->)]].
    - assert (N' := newest_kept c sp s s' H H' L bs (incl_refl _) i ts k t w SF N (or_intror O)).
      left. exists t, w. split; [auto|split; [auto|]].
      eapply (after_value c sp s s' P H H' K' HP L bs (incl_refl _)); eauto. apply N'.
    - destruct (Z_lt_dec sp t) as [T|T].
      + right; left. exists t, w. split; [|auto].
        apply (newest_kept c sp s s' H H' L bs (incl_refl _)); auto.
      + right; right. split; auto. intros t' w' W B.
        destruct (op_dec (w_op w') OpRollback) as [|NR]; auto. exfalso.
        assert (W0 := W). apply (after_write c sp s s' H H' bs (incl_refl _)) in W0. destruct W0 as [W0 W1].
        destruct N as (A & B' & C & D).
        destruct (Z_lt_dec t t') as [X|X]; [apply NR, (D t'); auto; lia|].
        apply W1. apply (gc_txn_del c); auto. exists w'.
        split; [apply (proj1 L); [lia|auto|auto]|split; [lia|]].
        destruct (Z.eq_dec t t') as [<-|n].
        * left. assert (w' = w) by congruence. subst. congruence.
        * right. exists t, w. split; [apply (proj1 L); [lia|congruence|auto]|split; [lia|congruence]].
    - right; right. split; auto. intros t w W B. apply (after_write c sp s s' H H' bs (incl_refl _)) in W. apply (N t); tauto.
  Qed.

  Lemma left_over k t w : write_at after k t = Some w -> t <= sp ->
    write_at s k t = Some w ->
    w_op w = OpPut /\ forall t' w', write_at s k t' = Some w' -> w_op w' <> OpRollback -> t' <= t.
  Proof.
    intros W T W0. apply (after_write c sp s s' H H' bs (incl_refl _)) in W. destruct W as [W N].
    assert (NR : ~ removed sp s k t) by (intros X; apply N; apply (gc_txn_del c); auto).
    split.
    - destruct (op_dec (w_op w) OpPut); auto. exfalso. apply NR. exists w. auto.
    - intros t' w' W' O. destruct (Z_le_dec t' t); auto. exfalso. apply NR. exists w. split; [auto|split; [auto|]].
      right. exists t', w'. split; [auto|split; [lia|auto]].
  Qed.
End Complete.

(** ** values of removed records *)
Lemma gc_scan_value ds sp : forall ws cur gt first k t, In (DelWrite k t) (concat (gc_scan ds sp ws cur gt first)) ->
  exists w, In ((k, t), w) ws /\
    (w_op w = OpPut -> w_short w = [] -> forall v, get vcmp ds (k, w_start w) = Some v ->
     In (DelData k (w_start w)) (concat (gc_scan ds sp ws cur gt first))).
Proof.
  induction ws as [|[[k0 t0] w0] ws IH]; intros cur gt first k t; [intros []|].
  set (gt1 := if beqb cur k0 then gt else false). set (first1 := if beqb cur k0 then first else true).
  assert (G : forall it gt2 first2,
     (In (DelWrite k t) it -> k = k0 /\ t = t0 /\ (w_op w0 = OpPut -> w_short w0 = [] ->
         forall v, get vcmp ds (k0, w_start w0) = Some v -> In (DelData k0 (w_start w0)) it)) ->
     In (DelWrite k t) (concat (it :: gc_scan ds sp ws k0 gt2 first2)) ->
     exists w, In ((k, t), w) (((k0, t0), w0) :: ws) /\
       (w_op w = OpPut -> w_short w = [] -> forall v, get vcmp ds (k, w_start w) = Some v ->
        In (DelData k (w_start w)) (concat (it :: gc_scan ds sp ws k0 gt2 first2)))).
  { intros it gt2 first2 Q. cbn [concat]. rewrite in_app_iff. intros [A|A].
    - destruct (Q A) as (-> & -> & Q'). exists w0. split; [left; auto|]. intros A1 A2 v A3. apply in_app_iff. left. eauto.
    - destruct (IH _ _ _ _ _ A) as (w & B & C). exists w. split; [right; auto|]. intros A1 A2 v A3. apply in_app_iff. right. eauto. }
  assert (ONE : w_op w0 <> OpPut -> In (DelWrite k t) [DelWrite k0 t0] -> k = k0 /\ t = t0 /\ (w_op w0 = OpPut -> w_short w0 = [] ->
         forall v, get vcmp ds (k0, w_start w0) = Some v -> In (DelData k0 (w_start w0)) [DelWrite k0 t0])).
  { intros N [X|[]]. inversion X; subst. split; [auto|split; [auto|congruence]]. }
  cbn [gc_scan]. fold gt1 first1. destruct (sp <? t0); [apply G; intros []|].
  destruct (w_op w0) eqn:O; try (apply G; intros []; fail); try (apply G; apply ONE; congruence).
  destruct (negb gt1 && first1); [apply G; intros []|]. apply G. intros [X|X].
  - inversion X; subst. split; [auto|split; [auto|]]. intros _ S v V. right. rewrite S, V. simpl. auto.
  - exfalso. destruct (beqb (w_short w0) []); [destruct (get vcmp ds (k0, w_start w0))|]; simpl in X; try tauto.
    destruct X as [X|[]]; discriminate.
Qed.

(** ** reachable regions *)
Section Reach.
  Variables (c c' : cfg) (P : plan) (g g' : region) (sp : Z).
  Hypotheses (HP : plan_ok P) (R : reachable c P g) (R' : reachable c P g') (L : later sp (rg_store g) (rg_store g')).
  Let s := rg_store g.
  Let s' := rg_store g'.

  Lemma both_ok : store_ok s /\ store_ok s' /\ (forall k, kinv P s' k).
  Proof.
    destruct (reachable_inv _ _ _ HP R) as [H K D _]. destruct (reachable_inv _ _ _ HP R') as [H' K' D' _]. auto.
  Qed.

  Lemma part_values part : incl part (gc_txn c' s sp) -> store_ok (apply_batches s' part) /\ values_there (apply_batches s' part).
  Proof.
    intros PT. destruct both_ok as (H & H' & K').
    destruct (TxnReadProofs3.reachable_values _ _ _ HP R') as (_ & V & _). fold s' in V. split.
    - assert (Q := part_dels c' sp s H part PT). rewrite apply_batches_concat.
      apply apply_batch_ok; auto. apply Forall_forall. intros o I.
      destruct (Q o I) as [(k & t & ->)|(k & t & ->)]; exact Logic.I.
    - intros k t w W O S. assert (W0 := W). apply (after_write c' sp s s' H H' part PT) in W0. destruct W0 as [W0 _].
      destruct (V k t w W0 O S) as (v & V1 & V2). exists v. split; auto.
      destruct (after_value c' sp s s' P H H' K' HP L part PT k t w v W O (or_intror (conj S V2))) as [[X Y]|[_ X]]; auto.
      congruence.
  Qed.

  Lemma conflict_same part k i ts rs : incl part (gc_txn c' s sp) ->
    (no_conflict (apply_batches s' part) i ts rs k <-> no_conflict s' i ts rs k).
  Proof.
    intros PT. destruct both_ok as (H & H' & K'). unfold no_conflict.
    rewrite (after_lock c' sp s s' H H' part PT). tauto.
  Qed.

  Lemma get_gc i ts rs k : ts <= kMaxVer -> gc_safe_read sp s s' k (sees_up_to i ts) ->
    get_key (apply_batches s' (gc_txn c' s sp)) i ts rs k = get_key s' i ts rs k.
  Proof.
    intros LT SF. destruct both_ok as (H & H' & K').
    destruct (part_values _ (incl_refl _)) as (HA & VA).
    destruct (TxnReadProofs3.reachable_values _ _ _ HP R') as (_ & V & _). fold s' in V.
    assert (AL := after_lock c' sp s s' H H' _ (incl_refl _) k).
    destruct (get_key_spec s' i ts rs k H' V LT) as [(l & -> & A & B)|(v & -> & A & B)];
      destruct (get_key_spec _ i ts rs k HA VA LT) as [(l' & -> & A' & B')|(v' & -> & A' & B')].
    - congruence.
    - exfalso. apply (A' l); [congruence|auto].
    - exfalso. apply (A l'); [congruence|auto].
    - f_equal. eapply reads_unique; [exact B'|]. apply (reads_kept c' sp s s' P); auto.
  Qed.

  Lemma get_part part i ts rs k v : incl part (gc_txn c' s sp) -> ts <= kMaxVer ->
    gc_safe_read sp s s' k (sees_up_to i ts) -> v <> [] ->
    get_key s' i ts rs k = RdVal v -> get_key (apply_batches s' part) i ts rs k = RdVal v.
  Proof.
    intros PT LT SF NE. destruct both_ok as (H & H' & K').
    destruct (part_values _ PT) as (HA & VA).
    destruct (TxnReadProofs3.reachable_values _ _ _ HP R') as (_ & V & _). fold s' in V.
    assert (AL := after_lock c' sp s s' H H' _ PT k).
    destruct (get_key_spec s' i ts rs k H' V LT) as [(l & -> & A & B)|(x & -> & A & B)]; [discriminate|].
    intros E. assert (x = v) by congruence. subst x.
    destruct (get_key_spec _ i ts rs k HA VA LT) as [(l' & -> & A' & B')|(v' & -> & A' & B')].
    - exfalso. apply (A l'); [congruence|auto].
    - f_equal. eapply reads_unique; [exact B'|]. apply (live_kept c' sp s s' P); auto.
  Qed.

  Lemma get_stale_free i ts rs k : ts <= kMaxVer ->
    get_key (apply_batches s' (gc_txn c' s sp)) i ts rs k = get_key s' i ts rs k \/
    get_key (apply_batches s' (gc_txn c' s sp)) i ts rs k = RdVal [].
  Proof.
    intros LT. destruct both_ok as (H & H' & K').
    destruct (part_values _ (incl_refl _)) as (HA & VA).
    destruct (TxnReadProofs3.reachable_values _ _ _ HP R') as (_ & V & _). fold s' in V.
    assert (AL := after_lock c' sp s s' H H' _ (incl_refl _) k).
    destruct (get_key_spec s' i ts rs k H' V LT) as [(l & -> & A & B)|(v & -> & A & B)];
      destruct (get_key_spec _ i ts rs k HA VA LT) as [(l' & -> & A' & B')|(v' & -> & A' & B')].
    - left. congruence.
    - exfalso. apply (A' l); [congruence|auto].
    - exfalso. apply (A l'); [congruence|auto].
    - destruct (stale_free c' sp s s' H H' L i ts k v v' B' B) as [-> | ->]; auto.
  Qed.

  Lemma untouched part k t w : incl part (gc_txn c' s sp) ->
    lock_at (apply_batches s' part) k = lock_at s' k /\
    (sp < t -> (write_at (apply_batches s' part) k t = Some w <-> write_at s' k t = Some w)) /\
    (write_at (apply_batches s' part) k t = Some w -> write_at s' k t = Some w) /\
    (write_at (apply_batches s' part) k t = Some w -> w_op w = OpPut -> w_short w = [] ->
       data_at (apply_batches s' part) k (w_start w) = data_at s' k (w_start w)).
  Proof.
    intros PT. destruct both_ok as (H & H' & K').
    assert (B : write_at (apply_batches s' part) k t = Some w -> write_at s' k t = Some w).
    { intros W. apply (after_write c' sp s s' H H' part PT) in W. tauto. }
    split; [apply (after_lock c' sp s s' H H' part PT)|split; [|split; [auto|]]].
    - intros T. split; auto. apply (after_newer c' sp s s' H H' part PT); auto.
    - intros W O S. destruct (TxnReadProofs3.reachable_values _ _ _ HP R') as (_ & V & _). fold s' in V.
      destruct (V k t w (B W) O S) as (v & V1 & V2). rewrite V2.
      destruct (after_value c' sp s s' P H H' K' HP L part PT k t w v W O (or_intror (conj S V2))) as [[X Y]|[_ X]]; auto.
      congruence.
  Qed.

  Lemma txn_contents k t w : t <= sp -> write_at s k t = Some w -> write_at s' k t = Some w ->
    (write_at (apply_batches s' (gc_txn c' s sp)) k t = Some w <->
     w_op w = OpPut /\ forall t' w', write_at s k t' = Some w' -> w_op w' <> OpRollback -> t' <= t).
  Proof.
    intros T W W'. destruct both_ok as (H & H' & K'). split.
    - intros A. apply (left_over c' sp s s' H H' k t w A T W).
    - intros (O & N). apply (after_write c' sp s s' H H' _ (incl_refl _)). split; auto.
      intros X. apply (gc_txn_del c') in X; auto. destruct X as (w2 & X1 & _ & [X|(t' & w' & Y1 & Y2 & Y3)]).
      + congruence.
      + specialize (N t' w' Y1 Y3). lia.
  Qed.

  Lemma values_reclaimed k t w : write_at s k t = Some w -> w_op w = OpPut -> w_short w = [] ->
    write_at (apply_batches s' (gc_txn c' s sp)) k t = None ->
    data_at (apply_batches s' (gc_txn c' s sp)) k (w_start w) = None.
  Proof.
    intros W O S N. destruct both_ok as (H & H' & K').
    assert (W' : write_at s' k t = Some w) by (apply (proj2 L); [congruence|auto]).
    assert (D : In (DelWrite k t) (concat (gc_txn c' s sp))).
    { rewrite apply_batches_concat in N.
      destruct (batch_write (concat (gc_txn c' s sp)) s' k t H') as [(x & A & _)|[(A & B)|(_ & A & B)]]; [|auto|congruence].
      exfalso. destruct (part_dels c' sp s H _ (incl_refl _) _ A) as [(? & ? & X)|(? & ? & X)]; discriminate. }
    destruct (TxnReadProofs3.reachable_values _ _ _ HP R) as (_ & V & _). fold s in V.
    destruct (V k t w W O S) as (v & _ & V2).
    assert (DD : In (DelData k (w_start w)) (concat (gc_txn c' s sp))).
    { unfold gc_txn in *. rewrite gc_flush_concat in *. cbn [app] in *.
      destruct (gc_scan_value _ _ _ _ _ _ _ _ D) as (w2 & I2 & Q).
      apply (get_iff vcmp vcmp_ok) in I2; [|apply ok_ws; auto]. unfold write_at in W. assert (w2 = w) by congruence. subst w2.
      eapply Q; eauto. }
    rewrite apply_batches_concat.
    destruct (batch_data (concat (gc_txn c' s sp)) s' k (w_start w) H') as [(x & A & _)|[(A & B)|(_ & A & B)]]; auto.
    - exfalso. destruct (part_dels c' sp s H _ (incl_refl _) _ A) as [(? & ? & X)|(? & ? & X)]; discriminate.
    - contradiction.
  Qed.
End Reach.

(** ** checking [later] on concrete stores *)
Definition wrec_dec : forall a b : wrec, {a = b} + {a <> b}.
Proof. decide equality; [apply (list_eq_dec Z.eq_dec)|apply op_dec|apply Z.eq_dec]. Defined.
Definition has_writeb (s : store) (k : bytes) (t : Z) (w : wrec) : bool :=
  match write_at s k t with Some w' => if wrec_dec w' w then true else false | None => false end.
Definition laterb (sp : Z) (s s' : store) : bool :=
  forallb (fun e => let '((k, t), w) := e in (sp <? t) || op_eqb (w_op w) OpRollback || has_writeb s k t w) (writes s') &&
  forallb (fun e => let '((k, t), w) := e in op_eqb (w_op w) OpRollback || has_writeb s' k t w) (writes s).
Lemma has_writeb_ok s k t w : has_writeb s k t w = true -> write_at s k t = Some w.
Proof. unfold has_writeb. destruct (write_at s k t) as [w'|]; [|discriminate]. destruct (wrec_dec w' w); congruence. Qed.
Lemma laterb_ok sp s s' : store_ok s -> store_ok s' -> laterb sp s s' = true -> later sp s s'.
Proof.
  intros H H' B. unfold laterb in B. rewrite andb_true_iff, !forallb_forall in B. destruct B as [B1 B2]. split.
  - intros k t w T O W. apply (get_iff vcmp vcmp_ok) in W; [|apply ok_ws; auto]. apply B1 in W.
    rewrite !orb_true_iff, Z.ltb_lt, op_eqb_eq in W. destruct W as [[W|W]|W]; [lia|congruence|apply has_writeb_ok; auto].
  - intros k t w O W. apply (get_iff vcmp vcmp_ok) in W; [|apply ok_ws; auto]. apply B2 in W.
    rewrite !orb_true_iff, op_eqb_eq in W. destruct W as [W|W]; [congruence|apply has_writeb_ok; auto].
Qed.
Definition none_aboveb (sp : Z) (s : store) (k : bytes) : bool :=
  forallb (fun e => let '((k', t), _) := e in negb (beqb k' k) || (t <=? sp)) (writes s).
Lemma none_aboveb_ok sp s k : store_ok s -> none_aboveb sp s k = true -> forall t w, write_at s k t = Some w -> t <= sp.
Proof.
  intros H B t w W. unfold none_aboveb in B. rewrite forallb_forall in B.
  apply (get_iff vcmp vcmp_ok) in W; [|apply ok_ws; auto]. apply B in W. rewrite beqb_refl in W. simpl in W. apply Z.leb_le; auto.
Qed.
