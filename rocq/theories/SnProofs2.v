(** Proofs about logs and replicas. *)
From Coq Require Import ZArith List Bool Arith Lia.
From Verif Require Import Bytes SnModel SnSpec.
Import ListNotations.
Open Scope nat_scope.

(** ** Writes *)

Fixpoint ops_at (ops : list op) (c : nat) (k : bytes) (acc : option (option bytes))
  : option (option bytes) :=
  match ops with
  | [] => acc
  | o :: r => ops_at r c k (match op_at o c k with Some v => Some v | None => acc end)
  end.

Lemma fold_ops_at ops : forall d c k acc d0,
  d c k = match acc with Some v => v | None => d0 c k end ->
  fold_left do_op ops d c k = match ops_at ops c k acc with Some v => v | None => d0 c k end.
Proof.
  induction ops as [|o ops IH]; intros d c k acc d0 E; cbn [fold_left ops_at]; auto.
  apply IH. unfold do_op. destruct (op_at o c k); auto.
Qed.

Lemma fold_ops ops d c k :
  fold_left do_op ops d c k = match ops_at ops c k None with Some v => v | None => d c k end.
Proof. apply fold_ops_at. reflexivity. Qed.

Lemma ops_at_some ops : forall c k x, exists y, ops_at ops c k (Some x) = Some y.
Proof.
  induction ops as [|o ops IH]; intros c k x; cbn; eauto.
  destruct (op_at o c k); apply IH.
Qed.

Lemma ops_at_none ops : forall c k, ops_at ops c k None = None <-> ~ writes (CWrite ops) c k.
Proof.
  induction ops as [|o ops IH]; intros c k; cbn [ops_at].
  - split; auto. intros _ (o & [] & _).
  - destruct (op_at o c k) as [v|] eqn:E.
    + split.
      * intro H. destruct (ops_at_some ops c k v) as [y Hy]. congruence.
      * intro H. exfalso. apply H. exists o. split; [left; reflexivity | congruence].
    + rewrite IH. split; intros H (o' & I & W); apply H.
      * destruct I as [<-|I]; [congruence|]. exists o'. auto.
      * exists o'. split; [right; exact I | exact W].
Qed.

Lemma writes_dec cm c k : {writes cm c k} + {~ writes cm c k}.
Proof.
  destruct cm as [ops | m]; [|right; intros []].
  destruct (ops_at ops c k None) eqn:E.
  - left. assert (N : ~ ~ writes (CWrite ops) c k).
    { intro H. apply ops_at_none in H. congruence. }
    clear E. cbn [writes] in *.
    assert (X : existsb (fun o => match op_at o c k with Some _ => true | None => false end) ops = true).
    { destruct (existsb _ ops) eqn:B; auto. exfalso. apply N. intros (o' & I & W).
      assert (existsb (fun o => match op_at o c k with Some _ => true | None => false end) ops = true).
      { apply existsb_exists. exists o'. split; auto. destruct (op_at o' c k); auto. }
      congruence. }
    apply existsb_exists in X. destruct X as (o' & I & W). exists o'. split; auto.
    destruct (op_at o' c k); congruence.
  - right. apply ops_at_none. exact E.
Qed.

(** ** The log *)

Section Log.
  Variable ncf : nat.
  Variable g0 : region.
  Variable log : list entry.
  Hypothesis PL : proper_log g0 log.

  Notation G := (region_after g0 log).
  Notation D := (data_after g0 log).
  Notation ver n := (g_ver (G n)).

  Lemma firstn_S_nth : forall n e, nth_error log n = Some e -> firstn (S n) log = firstn n log ++ [e].
  Proof.
    clear PL. induction log as [|x l IH]; intros [|n] e H; cbn in H; try discriminate.
    - injection H as ->. reflexivity.
    - cbn [firstn app]. f_equal. apply IH. exact H.
  Qed.

  Lemma after_S n e : nth_error log n = Some e -> after g0 log (S n) = exec e (after g0 log n).
  Proof.
    intro H. unfold after. rewrite (firstn_S_nth n e H), fold_left_app. reflexivity.
  Qed.

  Lemma G_0 : G 0 = g0.
  Proof. reflexivity. Qed.

  Lemma G_S n e : nth_error log n = Some e ->
    G (S n) = if e_ver e =? ver n
              then match e_cmd e with
                   | CWrite _ => G n
                   | CSplit m => mkRegion (S (ver n)) (g_lo (G n)) m
                   end
              else G n.
  Proof.
    intro H. unfold region_after. rewrite (after_S n e H).
    destruct (after g0 log n) as [[g d] o]. cbn [fst snd exec].
    destruct (e_ver e =? g_ver g); auto. destruct (e_cmd e); auto.
  Qed.

  Lemma D_S n e : nth_error log n = Some e ->
    D (S n) = if e_ver e =? ver n
              then match e_cmd e with
                   | CWrite ops => fold_left do_op ops (D n)
                   | CSplit m => D n
                   end
              else D n.
  Proof.
    intro H. unfold data_after, region_after. rewrite (after_S n e H).
    destruct (after g0 log n) as [[g d] o]. cbn [fst snd exec].
    destruct (e_ver e =? g_ver g); auto. destruct (e_cmd e); auto.
  Qed.

  Lemma nth_in n : n < length log -> exists e, nth_error log n = Some e.
  Proof.
    intro H. destruct (nth_error log n) eqn:E; eauto. apply nth_error_None in E. lia.
  Qed.

  Lemma G_step n : n < length log ->
    ver n <= ver (S n) /\ (ver n = ver (S n) -> G (S n) = G n) /\ g_lo (G (S n)) = g_lo (G n) /\
    (forall k, inside (G (S n)) k -> inside (G n) k).
  Proof.
    intro H. destruct (nth_in n H) as [e E]. rewrite (G_S n e E).
    destruct (Nat.eqb_spec (e_ver e) (ver n)) as [V | V]; [|repeat split; auto; apply H0].
    destruct (PL n e E) as [_ P]. destruct (P V) as [_ P2].
    destruct (e_cmd e) as [ops|m] eqn:C.
    { repeat split; auto; apply H0. }
    cbn [g_ver g_lo g_hi]. repeat split; auto; try lia.
    - destruct H0 as [A _]. exact A.
    - destruct H0 as [_ A]. cbn [g_hi] in A. destruct (P2 m eq_refl) as [_ B].
      unfold bltb in *. destruct (bcmp k m) eqn:E1; try discriminate.
      destruct (bcmp m (g_hi (G n))) eqn:E2; try discriminate.
      rewrite (bcmp_trans _ _ _ E1 E2). reflexivity.
  Qed.

  Lemma G_mono n m : n <= m -> m <= length log ->
    ver n <= ver m /\ (ver n = ver m -> G m = G n) /\ g_lo (G m) = g_lo (G n) /\
    (forall k, inside (G m) k -> inside (G n) k).
  Proof.
    induction 1 as [|m Hm IH]; intro L; [auto|].
    destruct (IH ltac:(lia)) as (A & B & C & E).
    destruct (G_step m ltac:(lia)) as (A' & B' & C' & E').
    split; [lia|]. split; [|split; [congruence | auto]].
    intro V. rewrite B' by lia. apply B. lia.
  Qed.

  Lemma ver_mono n m : n <= m -> m <= length log -> ver n <= ver m.
  Proof. intros. apply G_mono; auto. Qed.
  Lemma same_ver n m : n <= length log -> m <= length log -> ver n = ver m -> G n = G m.
  Proof.
    intros A B V. destruct (Nat.le_gt_cases n m) as [L | L].
    - symmetry. apply G_mono; auto.
    - apply G_mono; auto; lia.
  Qed.
  Lemma lo_const n : n <= length log -> g_lo (G n) = g_lo g0.
  Proof. intro H. destruct (G_mono 0 n) as (_ & _ & C & _); auto; lia. Qed.
  Lemma inside_mono n m k : n <= m -> m <= length log -> inside (G m) k -> inside (G n) k.
  Proof. intros A B. apply G_mono; auto. Qed.

  (** The entries numbered (a, h] that a replica in version [ver h] would execute. *)
  Definition quiet (a h : nat) (c : nat) (k : bytes) : Prop :=
    forall n e, a <= n -> n < h -> nth_error log n = Some e -> e_ver e = ver h -> ~ writes (e_cmd e) c k.

  Lemma D_stable n h c k : n <= h -> h <= length log ->
    (forall m e, n <= m -> m < h -> nth_error log m = Some e -> e_ver e = ver m -> ~ writes (e_cmd e) c k) ->
    D h c k = D n c k.
  Proof.
    induction 1 as [|h Hh IH]; intros L Q; auto.
    destruct (nth_in h ltac:(lia)) as [e E].
    assert (IH' : D h c k = D n c k) by (apply IH; [lia | intros m e' A B; apply Q; lia]).
    rewrite (D_S h e E).
    destruct (Nat.eqb_spec (e_ver e) (ver h)) as [V | V]; auto.
    destruct (e_cmd e) as [ops|m] eqn:C; auto.
    rewrite fold_ops.
    assert (W : ~ writes (CWrite ops) c k) by (rewrite <- C; apply (Q h e); auto; lia).
    apply ops_at_none in W. rewrite W. exact IH'.
  Qed.

  (** What holds of a replica's region and data when it has applied [a] entries. *)
  Record good (a h : nat) (g : region) (d : db) : Prop := {
    o_le : a <= h;
    o_len : h <= length log;
    o_region : g = G h;
    o_data : forall c k, c < ncf -> inside g k -> quiet a h c k -> d c k = D h c k
  }.

  Lemma good_weaker a a' h g d : a' <= a -> good a h g d -> good a' h g d.
  Proof.
    intros L [A B C E]. split; auto; [lia|].
    intros c k Hc I Q. apply E; auto. intros n e X. apply Q. lia.
  Qed.

  (** Executing the next entry. *)
  Lemma good_exec a h g d o e g' d' o' :
    good a h g d -> nth_error log a = Some e -> exec e (g, d, o) = (g', d', o') ->
    exists h', good (S a) h' g' d'.
  Proof.
    intros [A B C E] N X. subst g.
    assert (La : a < length log) by (apply nth_error_Some; congruence).
    destruct (PL a e N) as [P1 P2].
    cbn [exec] in X. destruct (Nat.eq_dec a h) as [-> | NE].
    - (* the entry after everything known *)
      exists (S h).
      assert (Eg : g' = G (S h) /\ (forall c k, c < ncf -> inside (G h) k -> d' c k = D (S h) c k)).
      { rewrite (G_S h e N), (D_S h e N).
        assert (Q0 : forall c k, c < ncf -> inside (G h) k -> d c k = D h c k).
        { intros c k Hc I. apply E; auto. intros n e' Y Z. lia. }
        destruct (e_ver e =? ver h).
        - destruct (e_cmd e) as [ops|m].
          + injection X as <- <- <-. split; auto. intros c k Hc I.
            rewrite !fold_ops, (Q0 c k Hc I). reflexivity.
          + assert (g' = mkRegion (S (ver h)) (g_lo (G h)) m) by congruence.
            assert (d' = d) by congruence. subst. auto.
        - assert (g' = G h) by congruence. assert (d' = d) by congruence. subst. auto. }
      destruct Eg as [-> Ed]. split; auto; try lia.
      intros c k Hc I _. apply Ed; auto. apply (inside_mono h (S h)); auto.
    - (* replaying something the data already contains *)
      assert (Lh : a < h) by lia.
      exists h. destruct (Nat.eqb_spec (e_ver e) (ver h)) as [V | V].
      + assert (Va : ver a = ver h).
        { pose proof (ver_mono a h ltac:(lia) B). lia. }
        assert (Ve : e_ver e = ver a) by lia.
        assert (Vs : ver (S a) = ver h).
        { pose proof (ver_mono a (S a) ltac:(lia) ltac:(lia)).
          pose proof (ver_mono (S a) h ltac:(lia) B). lia. }
        pose proof (G_S a e N) as GS. rewrite Ve, Nat.eqb_refl in GS.
        pose proof (D_S a e N) as DS. rewrite Ve, Nat.eqb_refl in DS.
        destruct (e_cmd e) as [ops|m] eqn:Cm.
        * assert (g' = G h) by congruence. assert (d' = fold_left do_op ops d) by congruence. subst.
          split; auto; try lia. intros c k Hc I Q.
          assert (ST : D h c k = D (S a) c k).
          { apply D_stable; auto. intros m e' M1 M2 M3 M4.
            apply (Q m e'); auto.
            pose proof (ver_mono (S a) m ltac:(lia) ltac:(lia)).
            pose proof (ver_mono m h ltac:(lia) ltac:(lia)). lia. }
          destruct (writes_dec (CWrite ops) c k) as [W | W].
          -- rewrite ST, DS, !fold_ops.
             destruct (ops_at ops c k None) eqn:OA; auto.
             apply ops_at_none in OA. contradiction.
          -- rewrite fold_ops.
             assert (OA : ops_at ops c k None = None) by (apply ops_at_none; auto). rewrite OA.
             apply E; auto. intros n e' Y1 Y2 Y3 Y4.
             destruct (Nat.eq_dec n a) as [-> | NA].
             ++ rewrite N in Y3. injection Y3 as <-. rewrite Cm. exact W.
             ++ apply (Q n e'); auto; lia.
        * exfalso. rewrite GS in Vs. cbn [g_ver] in Vs. lia.
      + assert (g' = G h) by congruence. assert (d' = d) by congruence. subst.
        split; auto; try lia. intros c k Hc I Q. apply E; auto.
        intros n e' Y1 Y2 Y3 Y4. destruct (Nat.eq_dec n a) as [-> | NA].
        * congruence.
        * apply (Q n e'); auto; lia.
  Qed.

  (** A snapshot of an older version changes nothing that matters. *)
  Lemma good_older a h g d j i :
    good a h g d -> j <= i -> i <= length log -> ver i < g_ver g -> good j h g d.
  Proof.
    intros [A B C E] J I V. subst g.
    assert (IH : i < h).
    { destruct (Nat.le_gt_cases h i) as [L | L]; auto.
      pose proof (ver_mono h i L I). lia. }
    split; auto; [lia|]. intros c k Hc Hk Q. apply E; auto.
    intros n e Y1 Y2 Y3 Y4. apply (Q n e); auto.
    destruct (Nat.le_gt_cases j n) as [L | L]; auto. exfalso.
    destruct (PL n e Y3) as [P _]. pose proof (ver_mono n i ltac:(lia) I). lia.
  Qed.

  Lemma good_loaded j i d :
    j <= i -> i <= length log -> (forall c k, c < ncf -> inside (G i) k -> d c k = D i c k) ->
    good j i (G i) d.
  Proof. intros A B C. split; auto. Qed.
End Log.
