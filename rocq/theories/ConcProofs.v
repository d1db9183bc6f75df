From Coq Require Import ZArith List Bool Arith Lia.
From Verif Require Import Bytes SMap TxnModel TxnReadModel ConcModel ConcSpec.
From Verif Require LatchModel LatchProofs.
Import ListNotations.
Open Scope Z_scope.

Notation upd := LatchModel.upd.
Lemma nupd {A} (l : list A) n m x y : nth_error l n = Some y ->
  nth_error (upd l n x) m = if Nat.eq_dec m n then Some x else nth_error l m.
Proof.
  intros H. destruct (Nat.eq_dec m n) as [->|N]; [eapply LatchProofs.upd_same; exact H|now apply LatchProofs.upd_other].
Qed.

Lemma nth_app_new {A} (l : list A) x n : nth_error (l ++ [x]) n = if Nat.eq_dec n (length l) then Some x else nth_error l n.
Proof.
  destruct (Nat.eq_dec n (length l)) as [->|N].
  - rewrite nth_error_app2 by lia. now rewrite Nat.sub_diag.
  - destruct (lt_dec n (length l)).
    + apply nth_error_app1. assumption.
    + rewrite (proj2 (nth_error_None (l ++ [x]) n)) by (rewrite app_length; cbn; lia).
      symmetry. apply nth_error_None. lia.
Qed.

Lemma in_upd {A} (l : list A) n x y : In y (upd l n x) -> y = x \/ In y l.
Proof.
  revert n. induction l as [|a l IH]; intros [|n] H; cbn in *; auto.
  - destruct H as [->|H]; auto.
  - destruct H as [->|H]; auto. destruct (IH n H); auto.
Qed.

(** ** unpublishing *)

Lemma unlock_spec keys : forall t, sorted bcmp (tab t) -> (forall k e, get bcmp (tab t) k = Some e -> (e < length (heap t))%nat) ->
  let t' := unlock_keys t keys in
  sorted bcmp (tab t') /\ length (heap t') = length (heap t) /\
  (forall k, get bcmp (tab t') k = if in_dec bytes_eq_dec k keys then None else get bcmp (tab t) k) /\
  (forall e x, nth_error (heap t) e = Some x -> exists x', nth_error (heap t') e = Some x' /\
     e_lock x' = e_lock x /\ e_busy x' = e_busy x /\ e_owner x' = e_owner x /\
     (e_dead x' = e_dead x \/ exists k, In k keys /\ get bcmp (tab t) k = Some e)).
Proof.
  induction keys as [|k0 keys IH]; intros t S B; cbn [unlock_keys].
  { split; [exact S|]. split; [reflexivity|]. split; [intros k; reflexivity|]. intros e x H. exists x. auto 10. }
  destruct (get bcmp (tab t) k0) as [e0|] eqn:G.
  - destruct (nth_error (heap t) e0) as [x0|] eqn:H0; [|apply nth_error_None in H0; specialize (B _ _ G); lia].
    unfold set_entry. rewrite H0. cbn [tab heap].
    set (t1 := mkTab _ _).
    assert (S1 : sorted bcmp (tab t1)) by (apply (sorted_del bcmp); exact S).
    assert (L1 : length (heap t1) = length (heap t)) by (apply LatchProofs.upd_length).
    assert (G1 : forall k, get bcmp (tab t1) k = if bytes_eq_dec k0 k then None else get bcmp (tab t) k).
    { intros k. cbn [tab t1]. destruct (bytes_eq_dec k0 k) as [<-|N]; [apply (get_del_same bcmp bcmp_ok _ _ S)|].
      apply (get_del_other bcmp bcmp_ok); assumption. }
    destruct (IH t1 S1) as [I1 [I2 [I3 I4]]].
    { intros k e E. rewrite L1. rewrite G1 in E. destruct (bytes_eq_dec k0 k); [discriminate|]. eapply B; exact E. }
    split; [exact I1|]. split; [rewrite I2; exact L1|]. split.
    + intros k. rewrite I3, G1. destruct (in_dec bytes_eq_dec k keys) as [I|N].
      * destruct (in_dec bytes_eq_dec k (k0 :: keys)) as [_|N]; [reflexivity|]. exfalso. apply N. now right.
      * destruct (bytes_eq_dec k0 k) as [->|Nk].
        -- destruct (in_dec bytes_eq_dec k (k :: keys)) as [_|N']; [reflexivity|]. exfalso. apply N'. now left.
        -- destruct (in_dec bytes_eq_dec k (k0 :: keys)) as [[->|I]|_]; [congruence|contradiction|reflexivity].
    + intros e x Hx.
      assert (X1 : exists x1, nth_error (heap t1) e = Some x1 /\ e_lock x1 = e_lock x /\ e_busy x1 = e_busy x /\ e_owner x1 = e_owner x /\
                  (e_dead x1 = e_dead x \/ e = e0)).
      { cbn [heap t1]. rewrite (nupd _ _ _ _ _ H0). destruct (Nat.eq_dec e e0) as [->|N].
        - rewrite H0 in Hx. injection Hx as <-. eexists. split; [reflexivity|]. cbn. auto.
        - exists x. auto 10. }
      destruct X1 as [x1 [Hx1 [E1 [E2 [E3 E4]]]]]. destruct (I4 e x1 Hx1) as [x' [Hx' [F1 [F2 [F3 F4]]]]].
      exists x'. split; [exact Hx'|]. split; [congruence|]. split; [congruence|]. split; [congruence|].
      destruct F4 as [F4|[k [Ik Gk]]].
      * destruct E4 as [E4|E4]; [left; congruence|]. right. exists k0. split; [now left|]. now rewrite E4.
      * right. exists k. split; [now right|]. rewrite G1 in Gk. destruct (bytes_eq_dec k0 k); [discriminate|exact Gk].
  - destruct (IH t S B) as [I1 [I2 [I3 I4]]]. split; [exact I1|]. split; [exact I2|]. split.
    + intros k. rewrite I3. destruct (in_dec bytes_eq_dec k keys) as [I|N].
      * destruct (in_dec bytes_eq_dec k (k0 :: keys)) as [_|N]; [reflexivity|]. exfalso. apply N. now right.
      * destruct (in_dec bytes_eq_dec k (k0 :: keys)) as [[->|I]|_]; [exact G|contradiction|reflexivity].
    + intros e x Hx. destruct (I4 e x Hx) as [x' [H1 [H2 [H3 [H4 H5]]]]]. exists x'. split; [exact H1|].
      split; [exact H2|]. split; [exact H3|]. split; [exact H4|]. destruct H5 as [H5|[k [Ik Gk]]]; [now left|].
      right. exists k. split; [now right|exact Gk].
Qed.

(** ** the invariant *)

(** how many mutations of an unfinished prewrite are published *)
Definition pubn (w : writer) : nat :=
  match wph w with
  | WPub j => j
  | WTs j _ | WRel j _ _ => S j
  | WWrite => if w_final w =? 0 then 0 else length (w_items (wq w))
  | _ => 0
  end.

Definition pending (r : reader) : list nat :=
  match rph r with RCheck es => es | RLocked e es => e :: es | _ => [] end.

Definition past (r : reader) : Prop :=
  match rph r with RStart | RLook | RRefused _ => False | _ => True end.

(** the prewrite cannot end with a commit timestamp at or below R for key k *)
Definition will (R : Z) (w : writer) (k : bytes) : Prop :=
  match wph w with
  | WIdle => True
  | WPub j | WTs j _ => R < w_final w \/ exists j', (j <= j')%nat /\ nth_error (item_keys (wq w)) j' = Some k
  | WRel j _ m => R < w_final w \/ R < m \/ m = 0 \/ exists j', (j < j')%nat /\ nth_error (item_keys (wq w)) j' = Some k
  | WWrite | WUnpub | WEnd => R < w_final w \/ w_final w = 0
  end.

Definition late (w : writer) : Prop := match wph w with WWrite | WUnpub | WEnd => True | _ => False end.
Definition gone (w : writer) : Prop := match wph w with WUnpub | WEnd => True | _ => False end.

Definition seen (s : cstate) (r : reader) (i : nat) : Prop :=
  match rph r with RDone snap => In i snap | _ => In i (applied s) end.

Definition entry_ok (w : writer) (x : entry) : Prop :=
  exists it, In it (w_items (wq w)) /\ l_key (e_lock x) = l_key (i_lock it) /\ l_ts (e_lock x) = l_ts (i_lock it) /\
    l_fut (e_lock x) = l_fut (i_lock it) /\
    (e_busy x = false -> (l_ts (e_lock x) < l_minc (e_lock x) /\ l_fut (e_lock x) < l_minc (e_lock x) /\ l_minc (e_lock x) <= w_final w)
                         \/ (w_final w = 0 /\ late w)).

Record cinv (s : cstate) : Prop := {
  c_ok : forall i w, nth_error (wrs s) i = Some w -> store_service (wq w) /\ covers_for_update (wq w);
  c_sorted : sorted bcmp (tab (tb s));
  c_tab : forall k e, get bcmp (tab (tb s)) k = Some e -> exists x w, nth_error (heap (tb s)) e = Some x /\
            l_key (e_lock x) = k /\ e_dead x = false /\ nth_error (wrs s) (e_owner x) = Some w /\ active w = true /\
            In k (item_keys (wq w));
  c_pub : forall i w j k, nth_error (wrs s) i = Some w -> (j < pubn w)%nat -> nth_error (item_keys (wq w)) j = Some k ->
            exists e x, get bcmp (tab (tb s)) k = Some e /\ nth_error (heap (tb s)) e = Some x /\ e_owner x = i;
  c_heap : forall e x, nth_error (heap (tb s)) e = Some x -> exists w, nth_error (wrs s) (e_owner x) = Some w /\
            entry_ok w x /\ (e_dead x = true -> wph w = WEnd) /\
            (e_busy x = true -> match wph w with WTs _ e' | WRel _ e' _ => e' = e | _ => False end);
  c_own : forall i w, nth_error (wrs s) i = Some w -> match wph w with
            | WTs j e => exists x it, nth_error (heap (tb s)) e = Some x /\ e_owner x = i /\
                           nth_error (w_items (wq w)) j = Some it /\ e_lock x = i_lock it
            | WRel j e m => exists x it, nth_error (heap (tb s)) e = Some x /\ e_owner x = i /\
                           nth_error (w_items (wq w)) j = Some it /\ e_lock x = i_lock it /\
                           (m = 0 \/ (w_start_ts (wq w) < m /\ i_fut it < m /\ l_minc (i_lock it) <= m))
            | _ => True
            end;
  c_latch : forall i j w v k, nth_error (wrs s) i = Some w -> nth_error (wrs s) j = Some v -> active w = true -> active v = true ->
            In k (w_latch (wq w)) -> In k (w_latch (wq v)) -> i = j;
  c_final : forall i w, nth_error (wrs s) i = Some w -> 0 <= w_final w;
  c_app : forall i, In i (applied s) -> exists w, nth_error (wrs s) i = Some w /\ gone w;
  c_max : forall r, In r (rds s) -> rph r <> RStart -> r_ts (rq r) <= maxts s;
  c_pend : forall r e, In r (rds s) -> In e (pending r) -> (e < length (heap (tb s)))%nat;
  c_read : forall r i w k, In r (rds s) -> past r -> nth_error (wrs s) i = Some w -> In k (item_keys (wq w)) ->
            in_scope (r_scope (rq r)) k -> ~ In (w_start_ts (wq w)) (r_resolved (rq r)) ->
            seen s r i \/ (gone w /\ ~ In i (applied s)) \/ will (r_ts (rq r)) w k \/
            (exists e x, In e (pending r) /\ nth_error (heap (tb s)) e = Some x /\ e_owner x = i)
}.

Lemma active_keys s i w v k : cinv s -> nth_error (wrs s) i = Some w -> active w = true -> In k (all_keys (wq w)) ->
  forall j, nth_error (wrs s) j = Some v -> active v = true -> In k (all_keys (wq v)) -> i = j.
Proof.
  intros H Hw Aw Ik j Hv Av Jk. destruct (c_ok s H i w Hw) as [[L1 _] _]. destruct (c_ok s H j v Hv) as [[L2 _] _].
  eapply (c_latch s H i j w v k); eauto.
Qed.

Lemma item_key_in q j it : nth_error (w_items q) j = Some it -> nth_error (item_keys q) j = Some (l_key (i_lock it)).
Proof. intros H. unfold item_keys. exact (map_nth_error (fun it => l_key (i_lock it)) _ _ H). Qed.

(** ** a writer changes its phase, the table stays *)
Lemma phase_inv s i w p f b : cinv s -> nth_error (wrs s) i = Some w ->
  let w' := mkWt (wq w) p f in
  let s' := mkC (maxts s) (tb s) (rds s) (upd (wrs s) i w') (if (b : bool) then i :: applied s else applied s) in
  (active w' = true -> active w = true \/ (forall j v k, nth_error (wrs s) j = Some v -> active v = true ->
                                    In k (w_latch (wq w)) -> In k (w_latch (wq v)) -> False)) ->
  (active w = true -> active w' = true) ->
  wph w <> WEnd ->
  (pubn w' <= pubn w)%nat ->
  (w_final w <= f \/ (f = 0 /\ late w') ) -> (w_final w = 0 -> late w -> f = 0 /\ late w') ->
  match p with
  | WTs _ _ => False
  | WRel j e m => wph w = WTs j e /\ (forall it, nth_error (w_items (wq w)) j = Some it -> m = 0 \/ (w_start_ts (wq w) < m /\ i_fut it < m /\ l_minc (i_lock it) <= m))
  | _ => match wph w with WTs _ _ | WRel _ _ _ => False | _ => True end
  end ->
  0 <= f -> (gone w -> gone w') -> (b = true -> gone w' /\ wph w = WWrite) ->
  (forall R k, R <= maxts s -> In k (item_keys (wq w)) -> will R w k -> will R w' k \/ (gone w' /\ b = false /\ ~ In i (applied s))) ->
  cinv s'.
Proof.
  intros H Hw w' s' A1 A2 NE P1 F1 F2 O Fn G1 G2 W.
  assert (N : forall m, nth_error (upd (wrs s) i w') m = if Nat.eq_dec m i then Some w' else nth_error (wrs s) m) by (intros m; eapply nupd; exact Hw).
  constructor; cbn [maxts tb rds wrs applied s'].
  - intros m v Hv. rewrite N in Hv. destruct (Nat.eq_dec m i) as [->|]; [|eapply (c_ok s H); exact Hv].
    injection Hv as <-. exact (c_ok s H i w Hw).
  - apply (c_sorted s H).
  - intros k e G. destruct (c_tab s H k e G) as [x [v [H1 [H2 [H3 [H4 [H5 H6]]]]]]].
    destruct (Nat.eq_dec (e_owner x) i) as [E|Ne].
    + exists x, w'. rewrite E in H4. rewrite Hw in H4. injection H4 as <-. rewrite N, E.
      destruct (Nat.eq_dec i i); [|congruence]. auto 10.
    + exists x, v. rewrite N. destruct (Nat.eq_dec (e_owner x) i); [congruence|]. auto 10.
  - intros m v j k Hv Hj Hk. rewrite N in Hv. destruct (Nat.eq_dec m i) as [->|]; [|eapply (c_pub s H); eassumption].
    injection Hv as <-. eapply (c_pub s H i w j k Hw); [lia|exact Hk].
  - intros e x Hx. destruct (c_heap s H e x Hx) as [v [H1 [H2 [H3 H4]]]]. destruct (Nat.eq_dec (e_owner x) i) as [E|Ne].
    + exists w'. rewrite N, E. destruct (Nat.eq_dec i i); [|congruence]. rewrite E, Hw in H1. injection H1 as <-.
      split; [reflexivity|]. split; [|split].
      * destruct H2 as [it [K1 [K2 [K3 [K4 K5]]]]]. exists it. cbn [wq w' w_final]. repeat (split; [assumption|]).
        intros B. destruct (K5 B) as [[L1 [L2 L3]]|[L1 L2]].
        -- destruct F1 as [F1|F1]; [left; repeat split; try assumption; lia|right; exact F1].
        -- right. apply F2; assumption.
      * intros D. exfalso. apply NE, H3, D.
      * intros B. specialize (H4 B). cbn [wph w']. destruct p as [|?|? ?|j' e' m'| | |]; try (destruct (wph w); contradiction).
        destruct O as [O1 O2]. rewrite O1 in H4. exact H4.
    + exists v. rewrite N. destruct (Nat.eq_dec (e_owner x) i); [congruence|]. auto.
  - intros m v Hv. rewrite N in Hv. destruct (Nat.eq_dec m i) as [->|]; [|apply (c_own s H m v Hv)].
    injection Hv as <-. cbn [wph wq w']. assert (O' := c_own s H i w Hw). destruct p as [|?|? ?|j e m| | |]; auto.
    + contradiction.
    + destruct O as [O1 O2]. rewrite O1 in O'. destruct O' as [x [it [K1 [K2 [K3 K4]]]]]. exists x, it. auto 10.
  - intros a c v u k Hv Hu Av Au I1 I2. rewrite N in Hv, Hu.
    destruct (Nat.eq_dec a i) as [->|Na]; destruct (Nat.eq_dec c i) as [->|Nc]; auto.
    + injection Hv as <-. destruct (A1 Av) as [Aw|No]; [eapply (c_latch s H i c w u k); eassumption|].
      exfalso. eapply No; eassumption.
    + injection Hu as <-. destruct (A1 Au) as [Aw|No]; [eapply (c_latch s H a i v w k); eassumption|].
      exfalso. eapply (No a v k); eassumption.
    + eapply (c_latch s H); eassumption.
  - intros m v Hv. rewrite N in Hv. destruct (Nat.eq_dec m i) as [->|]; [injection Hv as <-; exact Fn|eapply (c_final s H); exact Hv].
  - intros m I. assert (I' : m = i /\ b = true \/ In m (applied s)) by (destruct b; [destruct I; auto|auto]).
    rewrite N. destruct (Nat.eq_dec m i) as [->|Nm].
    + exists w'. split; [reflexivity|]. destruct I' as [[_ ->]|I']; [apply G2; reflexivity|]. destruct (c_app s H i I') as [v [Hv Gv]].
      rewrite Hw in Hv. injection Hv as <-. auto.
    + destruct I' as [[E _]|I']; [congruence|]. apply (c_app s H m I').
  - apply (c_max s H).
  - apply (c_pend s H).
  - intros r m v k Ir Pr Hv Ik Sc Nr. rewrite N in Hv. destruct (Nat.eq_dec m i) as [->|Nm].
    + injection Hv as <-. assert (Rm : r_ts (rq r) <= maxts s).
      { apply (c_max s H r Ir). unfold past in Pr. intros E. rewrite E in Pr. exact Pr. }
      destruct (c_read s H r i w k Ir Pr Hw Ik Sc Nr) as [J|[[J1 J2]|[J|J]]].
      * left. unfold seen in *. destruct (rph r); auto; destruct b; auto; now right.
      * destruct b.
        { exfalso. destruct (G2 eq_refl) as [_ E]. unfold gone in J1. rewrite E in J1. exact J1. }
        right. left. auto.
      * destruct (W _ k Rm Ik J) as [J'|[J1 [-> J3]]]; [right; right; left; exact J'|right; left; auto].
      * right. right. right. exact J.
    + destruct (c_read s H r m v k Ir Pr Hv Ik Sc Nr) as [J|[[J1 J2]|[J|J]]].
      * left. unfold seen in *. destruct (rph r); auto; destruct b; auto; now right.
      * right. left. split; [exact J1|]. destruct b; [|exact J2]. intros [E|I]; [congruence|contradiction].
      * right. right. left. exact J.
      * right. right. right. exact J.
Qed.

Ltac own i := destruct (Nat.eq_dec i i) as [_|?]; [|congruence].

(** ** publishing a lock *)
Lemma publish_inv s i w j it : cinv s -> nth_error (wrs s) i = Some w -> wph w = WPub j -> nth_error (w_items (wq w)) j = Some it ->
  cinv (mkC (maxts s) (lock_key (tb s) (i_lock it) i) (rds s) (upd (wrs s) i (mkWt (wq w) (WTs j (length (heap (tb s)))) (w_final w))) (applied s)).
Proof.
  intros H Hw P Hit. set (w' := mkWt _ _ _). set (s' := mkC _ _ _ _ _). set (k0 := l_key (i_lock it)).
  assert (N : forall m, nth_error (upd (wrs s) i w') m = if Nat.eq_dec m i then Some w' else nth_error (wrs s) m) by (intros m; eapply nupd; exact Hw).
  assert (Hh : forall e, nth_error (heap (lock_key (tb s) (i_lock it) i)) e =
     if Nat.eq_dec e (length (heap (tb s))) then Some (mkE (i_lock it) true false i) else nth_error (heap (tb s)) e) by (intros e; apply nth_app_new).
  assert (Ht : forall k, get bcmp (tab (lock_key (tb s) (i_lock it) i)) k = if bytes_eq_dec k0 k then Some (length (heap (tb s))) else get bcmp (tab (tb s)) k).
  { intros k. cbn [tab lock_key]. destruct (bytes_eq_dec k0 k) as [<-|Nk]; [apply (get_put_same bcmp bcmp_ok)|apply (get_put_other bcmp bcmp_ok); exact Nk]. }
  assert (Hin : In it (w_items (wq w))) by (eapply nth_error_In; exact Hit).
  assert (Ik0 : In k0 (item_keys (wq w))) by (eapply nth_error_In; apply item_key_in; exact Hit).
  assert (Aw : active w = true) by (unfold active; now rewrite P).
  assert (OLD : forall e x, nth_error (heap (tb s)) e = Some x -> nth_error (heap (lock_key (tb s) (i_lock it) i)) e = Some x).
  { intros e x Hx. rewrite Hh. destruct (Nat.eq_dec e (length (heap (tb s)))) as [->|]; [|exact Hx].
    assert (nth_error (heap (tb s)) (length (heap (tb s))) = None) by (apply nth_error_None; lia). congruence. }
  constructor; cbn [maxts tb rds wrs applied s'].
  - intros m v Hv. rewrite N in Hv. destruct (Nat.eq_dec m i) as [->|]; [|eapply (c_ok s H); exact Hv].
    injection Hv as <-. exact (c_ok s H i w Hw).
  - cbn [tab lock_key]. apply (sorted_put bcmp bcmp_ok), (c_sorted s H).
  - intros k e G. rewrite Ht in G. destruct (bytes_eq_dec k0 k) as [<-|Nk].
    + injection G as <-. eexists. exists w'. rewrite Hh. destruct (Nat.eq_dec (length (heap (tb s))) (length (heap (tb s)))); [|congruence].
      split; [reflexivity|]. cbn [e_lock e_dead e_owner]. rewrite N. own i. auto.
    + destruct (c_tab s H k e G) as [x [v [H1 [H2 [H3 [H4 [H5 H6]]]]]]].
      destruct (Nat.eq_dec (e_owner x) i) as [E|Ne].
      * exists x, w'. rewrite (OLD e x H1), N, E. own i. rewrite E, Hw in H4. injection H4 as <-. auto 10.
      * exists x, v. rewrite (OLD e x H1), N. destruct (Nat.eq_dec (e_owner x) i); [congruence|]. auto 10.
  - intros m v j' k Hv Hj Hk. rewrite Ht. rewrite N in Hv. destruct (Nat.eq_dec m i) as [->|Nm].
    + injection Hv as <-. cbn [pubn wph w' wq] in Hj, Hk. destruct (bytes_eq_dec k0 k) as [E|Nk].
      * exists (length (heap (tb s))). eexists. split; [reflexivity|]. rewrite Hh.
        destruct (Nat.eq_dec (length (heap (tb s))) (length (heap (tb s)))); [|congruence]. split; reflexivity.
      * assert (Lt : (j' < pubn w)%nat).
        { unfold pubn. rewrite P. assert (j' <> j); [|unfold pubn, w' in Hj; cbn in Hj; lia]. intros ->.
          assert (X := item_key_in _ _ _ Hit). fold k0 in X. unfold w' in Hk. cbn [wq] in Hk. rewrite X in Hk. injection Hk as Ek. contradiction. }
        destruct (c_pub s H i w j' k Hw Lt Hk) as [e [x [G1 [G2 G3]]]]. exists e, x. auto.
    + destruct (c_pub s H m v j' k Hv Hj Hk) as [e [x [G1 [G2 G3]]]]. destruct (bytes_eq_dec k0 k) as [<-|Nk].
      * exfalso. apply Nm. destruct (c_tab s H k0 e G1) as [x' [v' [K1 [K2 [K3 [K4 [K5 K6]]]]]]].
        rewrite G2 in K1. injection K1 as <-. rewrite G3, Hv in K4. injection K4 as <-.
        eapply (active_keys s m v w k0 H Hv K5); [apply in_or_app; now left|exact Hw|exact Aw|apply in_or_app; now left].
      * exists e, x. auto.
  - intros e x Hx. rewrite Hh in Hx. destruct (Nat.eq_dec e (length (heap (tb s)))) as [->|Ne].
    + injection Hx as <-. exists w'. cbn [e_owner e_dead e_busy]. rewrite N. own i. split; [reflexivity|].
      split; [exists it; cbn; repeat (split; [auto|]); discriminate|]. split; [discriminate|]. cbn. auto.
    + destruct (c_heap s H e x Hx) as [v [H1 [H2 [H3 H4]]]]. destruct (Nat.eq_dec (e_owner x) i) as [E|No].
      * exists w'. rewrite N, E. own i. rewrite E, Hw in H1. injection H1 as <-. split; [reflexivity|]. split; [|split].
        -- destruct H2 as [it' [K1 [K2 [K3 [K4 K5]]]]]. exists it'. cbn [wq w_final w']. repeat (split; [assumption|]).
           intros B. destruct (K5 B) as [L|[L1 L2]]; [now left|]. unfold late in L2. rewrite P in L2. destruct L2.
        -- intros D. specialize (H3 D). congruence.
        -- intros B. specialize (H4 B). rewrite P in H4. destruct H4.
      * exists v. rewrite N. destruct (Nat.eq_dec (e_owner x) i); [congruence|]. auto.
  - intros m v Hv. rewrite N in Hv. destruct (Nat.eq_dec m i) as [->|Nm].
    + injection Hv as <-. cbn [wph wq w']. eexists. exists it. rewrite Hh.
      destruct (Nat.eq_dec (length (heap (tb s))) (length (heap (tb s)))); [|congruence]. split; [reflexivity|]. auto.
    + assert (O := c_own s H m v Hv). destruct (wph v) as [|?|a e|a e mm| | |]; auto.
      * destruct O as [x [it' [O1 O2]]]. exists x, it'. split; [apply OLD, O1|exact O2].
      * destruct O as [x [it' [O1 O2]]]. exists x, it'. split; [apply OLD, O1|exact O2].
  - intros a c v u k Hv Hu Av Au I1 I2. rewrite N in Hv, Hu.
    destruct (Nat.eq_dec a i) as [->|Na]; destruct (Nat.eq_dec c i) as [->|Nc]; auto.
    + injection Hv as <-. eapply (c_latch s H i c w u k); eassumption.
    + injection Hu as <-. eapply (c_latch s H a i v w k); eassumption.
    + eapply (c_latch s H); eassumption.
  - intros m v Hv. rewrite N in Hv. destruct (Nat.eq_dec m i) as [->|]; [injection Hv as <-; cbn; eapply (c_final s H); exact Hw|eapply (c_final s H); exact Hv].
  - intros m I. destruct (c_app s H m I) as [v [Hv Gv]]. rewrite N. destruct (Nat.eq_dec m i) as [->|Nm]; [|eauto].
    rewrite Hw in Hv. injection Hv as <-. unfold gone in Gv. rewrite P in Gv. destruct Gv.
  - apply (c_max s H).
  - intros r e Ir Ie. assert (L := c_pend s H r e Ir Ie). cbn [heap lock_key]. rewrite app_length. lia.
  - intros r m v k Ir Pr Hv Ik Sc Nr. rewrite N in Hv. destruct (Nat.eq_dec m i) as [->|Nm].
    + injection Hv as <-. destruct (c_read s H r i w k Ir Pr Hw Ik Sc Nr) as [J|[[J1 J2]|[J|[e [x [J1 [J2 J3]]]]]]].
      * left. exact J.
      * unfold gone in J1. rewrite P in J1. destruct J1.
      * right. right. left. unfold will in *. rewrite P in J. exact J.
      * right. right. right. exists e, x. auto.
    + destruct (c_read s H r m v k Ir Pr Hv Ik Sc Nr) as [J|[J|[J|[e [x [J1 [J2 J3]]]]]]]; [left; exact J|right; left; exact J|right; right; left; exact J|].
      right. right. right. exists e, x. auto.
Qed.

(** ** releasing the entry with its final min_commit_ts *)
Lemma release_inv s i w j e m p f : cinv s -> nth_error (wrs s) i = Some w -> wph w = WRel j e m ->
  ((m = 0 /\ p = WWrite /\ f = 0) \/ (m <> 0 /\ p = WPub (S j) /\ f = (if w_final w <? m then m else w_final w))) ->
  cinv (mkC (maxts s) (set_entry (tb s) e (fun x => mkE (if 0 <? m then with_minc (e_lock x) m else e_lock x) false (e_dead x) (e_owner x)))
            (rds s) (upd (wrs s) i (mkWt (wq w) p f)) (applied s)).
Proof.
  intros H Hw P C. set (w' := mkWt _ _ _).
  assert (O := c_own s H i w Hw). rewrite P in O. destruct O as [x0 [it [Hx0 [Ow [Hit [El Em]]]]]].
  unfold set_entry. rewrite Hx0. set (x1 := mkE _ _ _ _). set (s' := mkC _ _ _ _ _).
  assert (N : forall n, nth_error (upd (wrs s) i w') n = if Nat.eq_dec n i then Some w' else nth_error (wrs s) n) by (intros n; eapply nupd; exact Hw).
  assert (Hh : forall e', nth_error (upd (heap (tb s)) e x1) e' = if Nat.eq_dec e' e then Some x1 else nth_error (heap (tb s)) e') by (intros e'; eapply nupd; exact Hx0).
  destruct (c_ok s H i w Hw) as [[_ [_ [St Ts]]] Cv].
  assert (Hin : In it (w_items (wq w))) by (eapply nth_error_In; exact Hit).
  assert (X1 : l_key (e_lock x1) = l_key (e_lock x0) /\ l_ts (e_lock x1) = l_ts (e_lock x0) /\ l_fut (e_lock x1) = l_fut (e_lock x0) /\ e_dead x1 = e_dead x0 /\ e_owner x1 = e_owner x0).
  { cbn [x1 e_lock e_dead e_owner]. destruct (0 <? m); auto 10. }
  destruct X1 as [X1 [X2 [X3 [X4 X5]]]].
  assert (Cm : m <> 0 -> l_minc (e_lock x1) = m /\ w_start_ts (wq w) < m /\ l_fut (i_lock it) < m).
  { intros Nm. destruct Em as [|[E1 [E2 E3]]]; [contradiction|]. assert (0 <? m = true) as L by (apply Z.ltb_lt; lia).
    cbn [x1 e_lock]. rewrite L. split; [reflexivity|]. split; [exact E1|]. destruct (Cv it Hin); lia. }
  assert (Fn := c_final s H i w Hw).
  assert (OLD : forall e' x, nth_error (heap (tb s)) e' = Some x -> exists x', nth_error (upd (heap (tb s)) e x1) e' = Some x' /\ e_owner x' = e_owner x /\
      l_key (e_lock x') = l_key (e_lock x) /\ e_dead x' = e_dead x).
  { intros e' x Hx. rewrite Hh. destruct (Nat.eq_dec e' e) as [->|]; [|exists x; auto]. rewrite Hx0 in Hx. injection Hx as <-. exists x1. auto. }
  constructor; cbn [maxts tb rds wrs applied s' tab heap].
  - intros n v Hv. rewrite N in Hv. destruct (Nat.eq_dec n i) as [->|]; [|eapply (c_ok s H); exact Hv].
    injection Hv as <-. exact (c_ok s H i w Hw).
  - apply (c_sorted s H).
  - intros k e' G. destruct (c_tab s H k e' G) as [x [v [H1 [H2 [H3 [H4 [H5 H6]]]]]]].
    destruct (OLD e' x H1) as [x' [Q1 [Q2 [Q3 Q4]]]]. exists x'.
    destruct (Nat.eq_dec (e_owner x) i) as [E|Ne].
    + exists w'. rewrite Q2, N, E. own i. rewrite E, Hw in H4. injection H4 as <-. split; [exact Q1|]. split; [congruence|]. split; [congruence|].
      split; [reflexivity|]. split; [|exact H6]. unfold active. cbn [wph w']. destruct C as [[_ [-> _]]|[_ [-> _]]]; reflexivity.
    + exists v. rewrite Q2, N. destruct (Nat.eq_dec (e_owner x) i); [congruence|]. split; [exact Q1|]. split; [congruence|]. split; [congruence|]. auto.
  - intros n v j' k Hv Hj Hk. rewrite N in Hv.
    assert (EX : exists e' x, get bcmp (tab (tb s)) k = Some e' /\ nth_error (heap (tb s)) e' = Some x /\ e_owner x = n).
    { destruct (Nat.eq_dec n i) as [->|]; [|eapply (c_pub s H); eassumption]. injection Hv as <-.
      apply (c_pub s H i w j' k Hw); [|exact Hk]. unfold pubn in *. rewrite P. cbn [wph w' w_final wq] in Hj.
      destruct C as [[_ [-> ->]]|[_ [-> _]]]; [cbn in Hj; lia|exact Hj]. }
    destruct EX as [e' [x [Q1 [Q2 Q3]]]]. destruct (OLD e' x Q2) as [x' [R1 [R2 _]]]. exists e', x'. split; [exact Q1|]. split; [exact R1|congruence].
  - intros e' x Hx. rewrite Hh in Hx. destruct (Nat.eq_dec e' e) as [->|Ne].
    + injection Hx as <-. exists w'. rewrite X5, Ow, N. own i. split; [reflexivity|].
      destruct (c_heap s H e x0 Hx0) as [v [H1 [_ [H3 _]]]]. rewrite Ow, Hw in H1. injection H1 as <-.
      split; [|split; [intros D; rewrite X4 in D; specialize (H3 D); congruence|discriminate]].
      exists it. cbn [wq w_final w']. split; [exact Hin|]. split; [congruence|]. split; [congruence|]. split; [congruence|]. intros _.
      destruct C as [[-> [-> ->]]|[Nm [-> ->]]].
      * right. split; [reflexivity|exact Logic.I].
      * left. destruct (Cm Nm) as [C1 [C2 C3]]. rewrite X2, X3, El, C1, (Ts it Hin). split; [lia|]. split; [lia|].
        destruct (Z.ltb_spec (w_final w) m); lia.
    + destruct (c_heap s H e' x Hx) as [v [H1 [H2 [H3 H4]]]]. destruct (Nat.eq_dec (e_owner x) i) as [E|No].
      * exists w'. rewrite N, E. own i. rewrite E, Hw in H1. injection H1 as <-. split; [reflexivity|]. split; [|split].
        -- destruct H2 as [it' [K1 [K2 [K3 [K4 K5]]]]]. exists it'. cbn [wq w_final w']. repeat (split; [assumption|]).
           intros B. destruct (K5 B) as [[L1 [L2 L3]]|[_ L2]]; [|unfold late in L2; rewrite P in L2; destruct L2].
           destruct C as [[_ [-> ->]]|[Nm [-> ->]]]; [right; split; [reflexivity|exact Logic.I]|left].
           repeat (split; [assumption|]). destruct (Z.ltb_spec (w_final w) m); lia.
        -- intros D. specialize (H3 D). congruence.
        -- intros B. specialize (H4 B). rewrite P in H4. congruence.
      * exists v. rewrite N. destruct (Nat.eq_dec (e_owner x) i); [congruence|]. auto.
  - intros n v Hv. rewrite N in Hv. destruct (Nat.eq_dec n i) as [->|Nm].
    + injection Hv as <-. cbn [wph w']. destruct C as [[_ [-> _]]|[_ [-> _]]]; exact Logic.I.
    + assert (O := c_own s H n v Hv). destruct (wph v) as [|?|a e'|a e' mm| | |]; auto.
      * destruct O as [x [it' [O1 [O2 O3]]]]. exists x, it'. rewrite Hh. destruct (Nat.eq_dec e' e) as [->|]; [|auto].
        rewrite Hx0 in O1. injection O1 as <-. congruence.
      * destruct O as [x [it' [O1 [O2 O3]]]]. exists x, it'. rewrite Hh. destruct (Nat.eq_dec e' e) as [->|]; [|auto].
        rewrite Hx0 in O1. injection O1 as <-. congruence.
  - assert (Aw : active w = true) by (unfold active; now rewrite P).
    intros a c v u k Hv Hu Av Au I1 I2. rewrite N in Hv, Hu.
    destruct (Nat.eq_dec a i) as [->|Na]; destruct (Nat.eq_dec c i) as [->|Nc]; auto.
    + injection Hv as <-. eapply (c_latch s H i c w u k); eassumption.
    + injection Hu as <-. eapply (c_latch s H a i v w k); eassumption.
    + eapply (c_latch s H); eassumption.
  - intros n v Hv. rewrite N in Hv. destruct (Nat.eq_dec n i) as [->|]; [injection Hv as <-|eapply (c_final s H); exact Hv].
    cbn [w_final w']. destruct C as [[_ [_ ->]]|[_ [_ ->]]]; [lia|]. destruct (Z.ltb_spec (w_final w) m); lia.
  - intros n I. destruct (c_app s H n I) as [v [Hv Gv]]. rewrite N. destruct (Nat.eq_dec n i) as [->|Nm]; [|eauto].
    rewrite Hw in Hv. injection Hv as <-. unfold gone in Gv. rewrite P in Gv. destruct Gv.
  - apply (c_max s H).
  - intros r e' Ir Ie. rewrite LatchProofs.upd_length. apply (c_pend s H r e' Ir Ie).
  - intros r n v k Ir Pr Hv Ik Sc Nr. rewrite N in Hv.
    assert (PE : forall q, (exists e' x, In e' (pending r) /\ nth_error (heap (tb s)) e' = Some x /\ e_owner x = q) ->
       exists e' x, In e' (pending r) /\ nth_error (upd (heap (tb s)) e x1) e' = Some x /\ e_owner x = q).
    { intros q [e' [x [Q1 [Q2 Q3]]]]. destruct (OLD e' x Q2) as [x' [R1 [R2 _]]]. exists e', x'. split; [exact Q1|]. split; [exact R1|congruence]. }
    destruct (Nat.eq_dec n i) as [->|Nm].
    + injection Hv as <-. destruct (c_read s H r i w k Ir Pr Hw Ik Sc Nr) as [J|[[J1 J2]|[J|J]]].
      * left. exact J.
      * unfold gone in J1. rewrite P in J1. destruct J1.
      * right. right. left. unfold will in *. rewrite P in J. cbn [wph w' w_final wq].
        destruct C as [[E [-> ->]]|[Nm [-> ->]]]; [now right|].
        destruct J as [J|[J|[J|[j' [J1 J2]]]]].
        -- left. destruct (Z.ltb_spec (w_final w) m); lia.
        -- left. destruct (Z.ltb_spec (w_final w) m); lia.
        -- contradiction.
        -- right. exists j'. split; [lia|exact J2].
      * right. right. right. apply PE, J.
    + destruct (c_read s H r n v k Ir Pr Hv Ik Sc Nr) as [J|[J|[J|J]]]; [left; exact J|right; left; exact J|right; right; left; exact J|].
      right. right. right. apply PE, J.
Qed.

(** ** unpublishing *)
Lemma unpublish_inv s i w : cinv s -> nth_error (wrs s) i = Some w -> wph w = WUnpub ->
  cinv (mkC (maxts s) (unlock_keys (tb s) (all_keys (wq w))) (rds s) (upd (wrs s) i (mkWt (wq w) WEnd (w_final w))) (applied s)).
Proof.
  intros H Hw P. set (w' := mkWt _ _ _).
  assert (BD : forall k e, get bcmp (tab (tb s)) k = Some e -> (e < length (heap (tb s)))%nat).
  { intros k e G. destruct (c_tab s H k e G) as [x [v [H1 _]]]. apply nth_error_Some. congruence. }
  destruct (unlock_spec (all_keys (wq w)) (tb s) (c_sorted s H) BD) as [U1 [U2 [U3 U4]]].
  set (t' := unlock_keys (tb s) (all_keys (wq w))) in *. set (s' := mkC _ _ _ _ _).
  assert (N : forall n, nth_error (upd (wrs s) i w') n = if Nat.eq_dec n i then Some w' else nth_error (wrs s) n) by (intros n; eapply nupd; exact Hw).
  assert (Aw : active w = true) by (unfold active; now rewrite P).
  (* a removed entry is the writer's own *)
  assert (OWN : forall k e x, In k (all_keys (wq w)) -> get bcmp (tab (tb s)) k = Some e -> nth_error (heap (tb s)) e = Some x -> e_owner x = i).
  { intros k e x Ik G Hx. destruct (c_tab s H k e G) as [x' [v [K1 [K2 [K3 [K4 [K5 K6]]]]]]].
    rewrite Hx in K1. injection K1 as <-. symmetry. eapply (active_keys s i w v k H Hw Aw Ik); [exact K4|exact K5|apply in_or_app; now left]. }
  assert (BACK : forall e x', nth_error (heap t') e = Some x' -> exists x, nth_error (heap (tb s)) e = Some x /\ e_lock x' = e_lock x /\ e_busy x' = e_busy x /\
      e_owner x' = e_owner x /\ (e_dead x' = e_dead x \/ e_owner x = i)).
  { intros e x' Hx'. destruct (nth_error (heap (tb s)) e) as [x|] eqn:Hx.
    - destruct (U4 e x Hx) as [x2 [Q1 [Q2 [Q3 [Q4 Q5]]]]]. rewrite Hx' in Q1. injection Q1 as <-. exists x.
      split; [reflexivity|]. split; [exact Q2|]. split; [exact Q3|]. split; [exact Q4|].
      destruct Q5 as [Q5|[k [Ik Gk]]]; [left; exact Q5|right; eapply OWN; eassumption].
    - apply nth_error_None in Hx. rewrite <- U2 in Hx. apply nth_error_None in Hx. congruence. }
  constructor; cbn [maxts tb rds wrs applied s'].
  - intros n v Hv. rewrite N in Hv. destruct (Nat.eq_dec n i) as [->|]; [|eapply (c_ok s H); exact Hv].
    injection Hv as <-. exact (c_ok s H i w Hw).
  - exact U1.
  - intros k e G. rewrite U3 in G. destruct (in_dec bytes_eq_dec k (all_keys (wq w))) as [|NI]; [discriminate|].
    destruct (c_tab s H k e G) as [x [v [K1 [K2 [K3 [K4 [K5 K6]]]]]]].
    destruct (U4 e x K1) as [x' [Q1 [Q2 [Q3 [Q4 Q5]]]]]. exists x', v.
    assert (No : e_owner x <> i).
    { intros E. rewrite E, Hw in K4. injection K4 as <-. apply NI. apply in_or_app. now left. }
    split; [exact Q1|]. split; [congruence|]. split.
    + destruct Q5 as [Q5|[k' [Ik Gk]]]; [congruence|]. exfalso. apply No. eapply OWN; eassumption.
    + rewrite Q4, N. destruct (Nat.eq_dec (e_owner x) i); [congruence|]. auto.
  - intros n v j k Hv Hj Hk. rewrite N in Hv. destruct (Nat.eq_dec n i) as [->|Nn]; [injection Hv as <-; cbn in Hj; lia|].
    destruct (c_pub s H n v j k Hv Hj Hk) as [e [x [G1 [G2 G3]]]]. rewrite U3.
    destruct (in_dec bytes_eq_dec k (all_keys (wq w))) as [Ik|NI].
    + exfalso. apply Nn. rewrite <- G3. eapply OWN; eassumption.
    + destruct (U4 e x G2) as [x' [Q1 [Q2 [Q3 [Q4 Q5]]]]]. exists e, x'. split; [exact G1|]. split; [exact Q1|congruence].
  - intros e x' Hx'. destruct (BACK e x' Hx') as [x [Q1 [Q2 [Q3 [Q4 Q5]]]]].
    destruct (c_heap s H e x Q1) as [v [H1 [H2 [H3 H4]]]]. rewrite Q4. destruct (Nat.eq_dec (e_owner x) i) as [E|No].
    + exists w'. rewrite N, E. own i. rewrite E, Hw in H1. injection H1 as <-. split; [reflexivity|]. split; [|split; [reflexivity|]].
      * destruct H2 as [it [K1 [K2 [K3 [K4 K5]]]]]. exists it. rewrite Q2, Q3. cbn [wq w_final w']. repeat (split; [assumption|]).
        intros B. destruct (K5 B) as [L|[L1 L2]]; [now left|]. right. split; [exact L1|exact Logic.I].
      * intros B. rewrite Q3 in B. specialize (H4 B). rewrite P in H4. destruct H4.
    + exists v. rewrite N. destruct (Nat.eq_dec (e_owner x) i); [congruence|]. split; [exact H1|]. split; [|split].
      * destruct H2 as [it [K1 [K2 [K3 [K4 K5]]]]]. exists it. rewrite Q2, Q3. auto.
      * intros D. apply H3. destruct Q5 as [Q5|Q5]; congruence.
      * rewrite Q3. exact H4.
  - intros n v Hv. rewrite N in Hv. destruct (Nat.eq_dec n i) as [->|Nm]; [injection Hv as <-; exact Logic.I|].
    assert (O := c_own s H n v Hv). destruct (wph v) as [|?|a e'|a e' mm| | |]; auto.
    + destruct O as [x [it' [O1 [O2 [O3 O4]]]]]. destruct (U4 e' x O1) as [x' [Q1 [Q2 [Q3 [Q4 Q5]]]]]. exists x', it'.
      split; [exact Q1|]. split; [congruence|]. split; [exact O3|congruence].
    + destruct O as [x [it' [O1 [O2 [O3 [O4 O5]]]]]]. destruct (U4 e' x O1) as [x' [Q1 [Q2 [Q3 [Q4 Q5]]]]]. exists x', it'.
      split; [exact Q1|]. split; [congruence|]. split; [exact O3|]. split; [congruence|exact O5].
  - intros a c v u k Hv Hu Av Au I1 I2. rewrite N in Hv, Hu.
    destruct (Nat.eq_dec a i) as [->|Na]; [injection Hv as <-; discriminate|].
    destruct (Nat.eq_dec c i) as [->|Nc]; [injection Hu as <-; discriminate|].
    eapply (c_latch s H); eassumption.
  - intros n v Hv. rewrite N in Hv. destruct (Nat.eq_dec n i) as [->|]; [injection Hv as <-; exact (c_final s H i w Hw)|eapply (c_final s H); exact Hv].
  - intros n I. destruct (c_app s H n I) as [v [Hv Gv]]. rewrite N. destruct (Nat.eq_dec n i) as [->|Nm]; [|eauto].
    exists w'. split; [reflexivity|exact Logic.I].
  - apply (c_max s H).
  - intros r e' Ir Ie. rewrite U2. apply (c_pend s H r e' Ir Ie).
  - intros r n v k Ir Pr Hv Ik Sc Nr. rewrite N in Hv.
    assert (PE : forall q, (exists e' x, In e' (pending r) /\ nth_error (heap (tb s)) e' = Some x /\ e_owner x = q) ->
       exists e' x, In e' (pending r) /\ nth_error (heap t') e' = Some x /\ e_owner x = q).
    { intros q [e' [x [Q1 [Q2 Q3]]]]. destruct (U4 e' x Q2) as [x' [R1 [R2 [R3 [R4 R5]]]]]. exists e', x'. split; [exact Q1|]. split; [exact R1|congruence]. }
    destruct (Nat.eq_dec n i) as [->|Nm].
    + injection Hv as <-. destruct (c_read s H r i w k Ir Pr Hw Ik Sc Nr) as [J|[[J1 J2]|[J|J]]].
      * left. exact J.
      * right. left. split; [exact Logic.I|exact J2].
      * right. right. left. unfold will in *. rewrite P in J. exact J.
      * right. right. right. apply PE, J.
    + destruct (c_read s H r n v k Ir Pr Hv Ik Sc Nr) as [J|[J|[J|J]]]; [left; exact J|right; left; exact J|right; right; left; exact J|].
      right. right. right. apply PE, J.
Qed.

(** ** readers *)

Lemma collect_in t sc k e : sorted bcmp (tab t) -> in_scope sc k -> get bcmp (tab t) k = Some e -> In e (collect t sc).
Proof.
  intros S I G. destruct sc as [ks|a b]; cbn [collect in_scope] in *.
  - apply in_flat_map. exists k. split; [exact I|]. rewrite G. now left.
  - apply (get_iff bcmp bcmp_ok _ _ _ S) in G. apply (in_map snd) with (x := (k, e)). apply filter_In. split; [exact G|].
    cbn [fst]. destruct I as [I1 I2]. apply andb_true_intro. unfold bleb, bltb. rewrite I2. split; [|reflexivity].
    destruct (bcmp a k); congruence.
Qed.

Lemma collect_scope t sc e : sorted bcmp (tab t) -> In e (collect t sc) -> exists k, in_scope sc k /\ get bcmp (tab t) k = Some e.
Proof.
  intros S I. destruct sc as [ks|a b]; cbn [collect in_scope] in *.
  - apply in_flat_map in I. destruct I as [k [Ik I]]. exists k. split; [exact Ik|]. destruct (get bcmp (tab t) k) as [e'|]; [|destruct I].
    destruct I as [->|[]]. reflexivity.
  - apply in_map_iff in I. destruct I as [[k e'] [E I]]. cbn in E. subst e'. apply filter_In in I. destruct I as [I F]. cbn [fst] in F.
    apply andb_prop in F. destruct F as [F1 F2]. exists k. split.
    + unfold bleb, bltb in *. split; [destruct (bcmp a k); congruence|]. destruct (bcmp k b); congruence.
    + apply (get_iff bcmp bcmp_ok _ _ _ S). exact I.
Qed.

Lemma reader_inv s i r p ts : cinv s -> nth_error (rds s) i = Some r -> maxts s <= ts ->
  let r' := mkRd (rq r) p in
  let s' := mkC ts (tb s) (upd (rds s) i r') (wrs s) (applied s) in
  (p <> RStart -> r_ts (rq r) <= ts) ->
  (forall e, In e (pending r') -> (e < length (heap (tb s)))%nat) ->
  (past r' -> forall n w k, nth_error (wrs s) n = Some w -> In k (item_keys (wq w)) ->
      in_scope (r_scope (rq r)) k -> ~ In (w_start_ts (wq w)) (r_resolved (rq r)) ->
      seen s r' n \/ (gone w /\ ~ In n (applied s)) \/ will (r_ts (rq r)) w k \/
      (exists e x, In e (pending r') /\ nth_error (heap (tb s)) e = Some x /\ e_owner x = n)) ->
  cinv s'.
Proof.
  intros H Hr Le r' s' M Pe J.
  constructor; cbn [maxts tb rds wrs applied s']; try apply H.
  - intros r0 I0 N0. apply in_upd in I0. destruct I0 as [->|I0]; [apply M; exact N0|]. assert (X := c_max s H r0 I0 N0). lia.
  - intros r0 e I0 Ie. apply in_upd in I0. destruct I0 as [->|I0]; [apply Pe, Ie|]. apply (c_pend s H r0 e I0 Ie).
  - intros r0 n w k I0 P0 Hw Ik Sc Nr. apply in_upd in I0. destruct I0 as [->|I0].
    + apply (J P0 n w k Hw Ik Sc Nr).
    + apply (c_read s H r0 n w k I0 P0 Hw Ik Sc Nr).
Qed.

Lemma will_final R w k : R < w_final w -> will R w k.
Proof. unfold will. destruct (wph w); auto. Qed.

Lemma reader_step_inv s i s' : cinv s -> cstep s (CReader i) = Some s' -> cinv s'.
Proof.
  intros H E. cbn [cstep] in E. destruct (nth_error (rds s) i) as [r|] eqn:Hr; [|discriminate].
  assert (Ir : In r (rds s)) by (eapply nth_error_In; exact Hr).
  assert (Mx := c_max s H r Ir). assert (Rd := c_read s H r). assert (Pn := c_pend s H r).
  unfold reader_step in E. destruct (rph r) as [| |es|e es| |snap|e0] eqn:P.
  - injection E as <-. unfold set_reader. cbn [maxts tb rds wrs applied].
    apply (reader_inv s i r RLook (Z.max (maxts s) (r_ts (rq r))) H Hr); [lia|lia|intros e []|intros []].
  - injection E as <-. unfold set_reader.
    apply (reader_inv s i r _ (maxts s) H Hr); [lia|intros _; apply Mx; discriminate| |].
    + intros e Ie. cbn [pending rph] in Ie. destruct (collect_scope _ _ _ (c_sorted s H) Ie) as [k [_ G]].
      destruct (c_tab s H k e G) as [x [v [H1 _]]]. apply nth_error_Some. congruence.
    + intros _ n w k Hw Ik Sc Nr. cbn [pending rph seen].
      assert (FIND : forall j, (j < pubn w)%nat -> nth_error (item_keys (wq w)) j = Some k ->
         exists e x, In e (collect (tb s) (r_scope (rq r))) /\ nth_error (heap (tb s)) e = Some x /\ e_owner x = n).
      { intros j Hj Hk. destruct (c_pub s H n w j k Hw Hj Hk) as [e [x [G1 [G2 G3]]]]. exists e, x.
        split; [eapply collect_in; [apply (c_sorted s H)|exact Sc|exact G1]|auto]. }
      destruct (In_nth_error _ _ Ik) as [j Hj].
      destruct (wph w) as [|n0|n0 e0|n0 e0 m0| | |] eqn:Pw.
      * right. right. left. unfold will. now rewrite Pw.
      * destruct (lt_dec j n0) as [L|L].
        -- right. right. right. apply (FIND j); [unfold pubn; rewrite Pw; exact L|exact Hj].
        -- right. right. left. unfold will. rewrite Pw. right. exists j. split; [lia|exact Hj].
      * destruct (lt_dec j n0) as [L|L].
        -- right. right. right. apply (FIND j); [unfold pubn; rewrite Pw; lia|exact Hj].
        -- right. right. left. unfold will. rewrite Pw. right. exists j. split; [lia|exact Hj].
      * destruct (le_dec j n0) as [L|L].
        -- right. right. right. apply (FIND j); [unfold pubn; rewrite Pw; lia|exact Hj].
        -- right. right. left. unfold will. rewrite Pw. right. right. right. exists j. split; [lia|exact Hj].
      * destruct (Z.eq_dec (w_final w) 0) as [Z0|Z0].
        -- right. right. left. unfold will. rewrite Pw. now right.
        -- right. right. right. apply (FIND j); [|exact Hj]. unfold pubn. rewrite Pw. apply Z.eqb_neq in Z0. rewrite Z0.
           assert (L : (j < length (item_keys (wq w)))%nat) by (apply nth_error_Some; congruence).
           unfold item_keys in L. rewrite map_length in L. exact L.
      * destruct (in_dec Nat.eq_dec n (applied s)) as [Ia|Na]; [now left|]. right. left. split; [unfold gone; now rewrite Pw|exact Na].
      * destruct (in_dec Nat.eq_dec n (applied s)) as [Ia|Na]; [now left|]. right. left. split; [unfold gone; now rewrite Pw|exact Na].
  - destruct es as [|e es].
    + injection E as <-. unfold set_reader. apply (reader_inv s i r _ (maxts s) H Hr); [lia|intros _; apply Mx; discriminate|intros e []|].
      intros _ n w k Hw Ik Sc Nr. destruct (Rd n w k Ir ltac:(unfold past; now rewrite P) Hw Ik Sc Nr) as [J|[J|[J|[e [x [J1 _]]]]]].
      * left. unfold seen in *. rewrite P in J. exact J.
      * now right; left.
      * now right; right; left.
      * unfold pending in J1. rewrite P in J1. destruct J1.
    + destruct (nth_error (heap (tb s)) e) as [x|] eqn:Hx; [|discriminate].
      destruct (c_heap s H e x Hx) as [v [Hv [_ [Dx _]]]].
      destruct (e_dead x) eqn:D.
      * injection E as <-. unfold set_reader. apply (reader_inv s i r _ (maxts s) H Hr); [lia|intros _; apply Mx; discriminate| |].
        -- intros e' Ie. apply (Pn e' Ir). unfold pending. rewrite P. now right.
        -- intros _ n w k Hw Ik Sc Nr. destruct (Rd n w k Ir ltac:(unfold past; now rewrite P) Hw Ik Sc Nr) as [J|[J|[J|[e' [x' [J1 [J2 J3]]]]]]].
           ++ left. unfold seen in *. rewrite P in J. exact J.
           ++ now right; left.
           ++ now right; right; left.
           ++ unfold pending in J1. rewrite P in J1. destruct J1 as [<-|J1].
              ** rewrite Hx in J2. injection J2 as <-. rewrite J3, Hw in Hv. injection Hv as <-. specialize (Dx eq_refl).
                 destruct (in_dec Nat.eq_dec n (applied s)) as [Ia|Na]; [now left|]. right. left. split; [unfold gone; now rewrite Dx|exact Na].
              ** right. right. right. exists e', x'. auto.
      * injection E as <-. unfold set_reader. apply (reader_inv s i r _ (maxts s) H Hr); [lia|intros _; apply Mx; discriminate| |].
        -- intros e' Ie. apply (Pn e' Ir). unfold pending. rewrite P. exact Ie.
        -- intros _ n w k Hw Ik Sc Nr. destruct (Rd n w k Ir ltac:(unfold past; now rewrite P) Hw Ik Sc Nr) as [J|[J|[J|[e' [x' [J1 J2]]]]]].
           ++ left. unfold seen in *. rewrite P in J. exact J.
           ++ now right; left.
           ++ now right; right; left.
           ++ right. right. right. exists e', x'. unfold pending in J1. rewrite P in J1. auto.
  - destruct (nth_error (heap (tb s)) e) as [x|] eqn:Hx; [|discriminate].
    destruct (e_busy x) eqn:Bx; [discriminate|].
    destruct (lock_conflict SI (r_ts (rq r)) (r_resolved (rq r)) (e_lock x)) eqn:Lc.
    + injection E as <-. unfold set_reader. apply (reader_inv s i r _ (maxts s) H Hr); [lia|intros _; apply Mx; discriminate|intros e' []|intros []].
    + injection E as <-. unfold set_reader. apply (reader_inv s i r _ (maxts s) H Hr); [lia|intros _; apply Mx; discriminate| |].
      * intros e' Ie. apply (Pn e' Ir). unfold pending. rewrite P. now right.
      * intros _ n w k Hw Ik Sc Nr. destruct (Rd n w k Ir ltac:(unfold past; now rewrite P) Hw Ik Sc Nr) as [J|[J|[J|[e' [x' [J1 [J2 J3]]]]]]].
        -- left. unfold seen in *. rewrite P in J. exact J.
        -- now right; left.
        -- now right; right; left.
        -- unfold pending in J1. rewrite P in J1. destruct J1 as [<-|J1]; [|right; right; right; exists e', x'; auto].
           rewrite Hx in J2. injection J2 as <-. destruct (c_heap s H e x Hx) as [v [Hv [[it [K1 [K2 [K3 [K4 K5]]]]] _]]].
           rewrite J3, Hw in Hv. injection Hv as <-. destruct (c_ok s H n w Hw) as [[_ [_ [St Ts]]] _].
           right. right. left. destruct (K5 Bx) as [[L1 [L2 L3]]|[L1 L2]].
           ++ apply will_final. unfold lock_conflict in Lc. rewrite K3, (Ts it K1) in *.
              destruct (existsb (Z.eqb (w_start_ts (wq w))) (r_resolved (rq r))) eqn:Ex.
              { exfalso. apply existsb_exists in Ex. destruct Ex as [y [Iy Ey]]. apply Z.eqb_eq in Ey. subst y. contradiction. }
              destruct (Z.ltb_spec (r_ts (rq r)) (l_minc (e_lock x))); [lia|].
              destruct (Z.ltb_spec 0 (w_start_ts (wq w))); [|lia].
              destruct (Z.ltb_spec 0 (l_fut (e_lock x))).
              ** apply Z.ltb_ge in Lc. lia.
              ** apply Z.ltb_ge in Lc. lia.
           ++ unfold will. unfold late in L2. destruct (wph w); auto; destruct L2.
  - injection E as <-. unfold set_reader. apply (reader_inv s i r _ (maxts s) H Hr); [lia|intros _; apply Mx; discriminate|intros e' []|].
    intros _ n w k Hw Ik Sc Nr. destruct (Rd n w k Ir ltac:(unfold past; now rewrite P) Hw Ik Sc Nr) as [J|[J|[J|[e' [x' [J1 _]]]]]].
    + left. unfold seen in *. rewrite P in J. exact J.
    + now right; left.
    + now right; right; left.
    + unfold pending in J1. rewrite P in J1. destruct J1.
  - discriminate.
  - discriminate.
Qed.

Lemma gen_final_facts mx lm st fut mc : 0 < st -> let m := gen_final_min_commit mx lm st fut mc in
  m = 0 \/ (st < m /\ fut < m /\ lm <= m /\ mx < m).
Proof.
  intros S. unfold gen_final_min_commit. cbv zeta. destruct (negb (mc =? 0) && (mc <? Z.max (Z.max mx st) fut + 1)); [now left|]. right. lia.
Qed.

Lemma item_key_none q j j' k : nth_error (w_items q) j = None -> (j <= j')%nat -> nth_error (item_keys q) j' = Some k -> False.
Proof.
  intros N L E. apply nth_error_None in N. assert (nth_error (item_keys q) j' <> None) by congruence.
  apply nth_error_Some in H. unfold item_keys in H. rewrite map_length in H. lia.
Qed.

Lemma step_inv s c s' : cinv s -> cstep s c = Some s' -> cinv s'.
Proof.
  intros H E. destruct c as [i|i|i|ts].
  - eapply reader_step_inv; eassumption.
  - cbn [cstep] in E. destruct (nth_error (wrs s) i) as [w|] eqn:Hw; [|discriminate].
    assert (Fn := c_final s H i w Hw).
    destruct (wph w) as [|j|j e|j e m| | |] eqn:P.
    + destruct (latches_free s (wq w)) eqn:LF; [|discriminate]. injection E as <-. unfold set_writer.
      apply (phase_inv s i w (WPub 0) (w_final w) false H Hw).
      * intros _. right. intros n v k Hv Av I1 I2. unfold latches_free in LF. rewrite forallb_forall in LF.
        assert (X := LF v (nth_error_In _ _ Hv)). rewrite Av in X. cbn [negb orb] in X. apply negb_true_iff in X.
        assert (Y : existsb (fun k => existsb (beqb k) (w_latch (wq v))) (w_latch (wq w)) = true); [|congruence].
        apply existsb_exists. exists k. split; [exact I1|]. apply existsb_exists. exists k. split; [exact I2|]. apply (beqb_refl).
      * unfold active. now rewrite P.
      * congruence.
      * unfold pubn. rewrite P. cbn. lia.
      * left. lia.
      * intros _ L. unfold late in L. rewrite P in L. destruct L.
      * rewrite P. exact Logic.I.
      * lia.
      * unfold gone. now rewrite P.
      * discriminate.
      * intros R k _ Ik _. left. right. destruct (In_nth_error _ _ Ik) as [j' Hj]. exists j'. split; [lia|exact Hj].
    + destruct (nth_error (w_items (wq w)) j) as [it|] eqn:Hit.
      * injection E as <-. unfold set_writer, set_table. cbn [maxts tb rds wrs applied]. apply publish_inv; assumption.
      * injection E as <-. unfold set_writer. apply (phase_inv s i w WWrite (w_final w) false H Hw).
        -- left. unfold active. now rewrite P.
        -- reflexivity.
        -- congruence.
        -- unfold pubn. rewrite P. cbn [wph w_final wq]. apply nth_error_None in Hit. destruct (w_final w =? 0); lia.
        -- left. lia.
        -- intros _ L. unfold late in L. rewrite P in L. destruct L.
        -- rewrite P. exact Logic.I.
        -- exact Fn.
        -- unfold gone. now rewrite P.
        -- discriminate.
        -- intros R k _ Ik W. unfold will in W. rewrite P in W. left. destruct W as [W|[j' [L Hj]]]; [now left|].
           exfalso. eapply item_key_none; eassumption.
    + destruct (nth_error (w_items (wq w)) j) as [it|] eqn:Hit; [|discriminate].
      injection E as <-. unfold set_writer. destruct (c_ok s H i w Hw) as [[_ [_ [St _]]] _].
      set (m := gen_final_min_commit _ _ _ _ _). assert (Gm := gen_final_facts (maxts s) (l_minc (i_lock it)) (w_start_ts (wq w)) (i_fut it) (w_maxc (wq w)) St).
      cbv zeta in Gm. fold m in Gm.
      apply (phase_inv s i w (WRel j e m) (w_final w) false H Hw).
      * left. unfold active. now rewrite P.
      * reflexivity.
      * congruence.
      * unfold pubn. rewrite P. cbn. lia.
      * left. lia.
      * intros _ L. unfold late in L. rewrite P in L. destruct L.
      * split; [exact P|]. intros it' Hit'. rewrite Hit in Hit'. injection Hit' as <-. destruct Gm as [Gm|Gm]; [now left|right; tauto].
      * exact Fn.
      * unfold gone. now rewrite P.
      * discriminate.
      * intros R k Rm Ik W. unfold will in W. rewrite P in W. left. unfold will. cbn [wph w_final wq]. destruct W as [W|[j' [L Hj]]]; [now left|].
        destruct Gm as [Gm|Gm]; [now right; right; left|]. right. left. lia.
    + assert (C := release_inv s i w j e m). destruct (Z.eqb_spec m 0) as [M0|M0].
      * injection E as <-. unfold set_writer, set_table. cbn [maxts tb rds wrs applied]. apply (C WWrite 0 H Hw P). left. auto.
      * injection E as <-. unfold set_writer, set_table. cbn [maxts tb rds wrs applied]. apply (C (WPub (S j)) _ H Hw P). right. auto.
    + injection E as <-. unfold set_writer. cbn [maxts tb rds wrs applied].
      apply (phase_inv s i w WUnpub (w_final w) true H Hw).
      * left. unfold active. now rewrite P.
      * reflexivity.
      * congruence.
      * unfold pubn. cbn. lia.
      * left. lia.
      * intros Z0 _. split; [exact Z0|exact Logic.I].
      * rewrite P. exact Logic.I.
      * exact Fn.
      * intros _. exact Logic.I.
      * intros _. split; [exact Logic.I|exact P].
      * intros R k Rm Ik W. unfold will in W. rewrite P in W. left. exact W.
    + assert (O : w_unlock (wq w) = true) by apply (c_ok s H i w Hw). rewrite O in E.
      injection E as <-. unfold set_writer, set_table. cbn [maxts tb rds wrs applied]. apply unpublish_inv; assumption.
    + discriminate.
  - cbn [cstep] in E. destruct (nth_error (wrs s) i) as [w|] eqn:Hw; [|discriminate].
    assert (Fn := c_final s H i w Hw).
    assert (Ni : match wph w with WPub _ | WWrite => ~ In i (applied s) | _ => True end).
    { destruct (wph w) eqn:P; auto; intros Ia; destruct (c_app s H i Ia) as [v [Hv Gv]]; rewrite Hw in Hv; injection Hv as <-;
        unfold gone in Gv; rewrite P in Gv; exact Gv. }
    destruct (wph w) as [|j|j e|j e m| | |] eqn:P; try discriminate; injection E as <-; unfold set_writer;
      apply (phase_inv s i w WUnpub (w_final w) false H Hw); try (left; unfold active; now rewrite P); try reflexivity; try congruence;
      try exact Fn; try (intros _; exact Logic.I); try discriminate.
    + unfold pubn. cbn. lia.
    + left. lia.
    + intros _ L. unfold late in L. rewrite P in L. destruct L.
    + rewrite P. exact Logic.I.
    + intros R k Rm Ik W. right. split; [exact Logic.I|auto].
    + unfold pubn. cbn. lia.
    + left. lia.
    + intros Z0 L. split; [exact Z0|exact Logic.I].
    + rewrite P. exact Logic.I.
    + intros R k Rm Ik W. right. split; [exact Logic.I|auto].
  - injection E as <-. destruct H. constructor; cbn [maxts tb rds wrs applied]; auto.
    intros r Ir Nr. specialize (c_max0 r Ir Nr). lia.
Qed.

Lemma init_inv ts rs ws : (forall q, In q ws -> store_service q /\ covers_for_update q) -> cinv (cinit ts rs ws).
Proof.
  intros OK. unfold cinit.
  assert (W : forall i w, nth_error (map (fun q => mkWt q WIdle 0) ws) i = Some w -> exists q, In q ws /\ w = mkWt q WIdle 0).
  { intros i w Hw. apply nth_error_In in Hw. apply in_map_iff in Hw. destruct Hw as [q [<- Iq]]. eauto. }
  assert (R : forall r, In r (map (fun q => mkRd q RStart) rs) -> rph r = RStart).
  { intros r Ir. apply in_map_iff in Ir. destruct Ir as [q [<- _]]. reflexivity. }
  constructor; cbn [maxts tb rds wrs applied tab heap].
  - intros i w Hw. destruct (W i w Hw) as [q [Iq ->]]. apply OK, Iq.
  - constructor.
  - intros k e G. discriminate.
  - intros i w j k Hw Hj. destruct (W i w Hw) as [q [Iq ->]]. cbn in Hj. lia.
  - intros [|e] x Hx; discriminate.
  - intros i w Hw. destruct (W i w Hw) as [q [Iq ->]]. exact Logic.I.
  - intros i j w v k Hw Hv A. destruct (W i w Hw) as [q [Iq ->]]. discriminate.
  - intros i w Hw. destruct (W i w Hw) as [q [Iq ->]]. cbn. lia.
  - intros i [].
  - intros r Ir N. rewrite (R r Ir) in N. congruence.
  - intros r e Ir Ie. unfold pending in Ie. rewrite (R r Ir) in Ie. destruct Ie.
  - intros r i w k Ir P. unfold past in P. rewrite (R r Ir) in P. destruct P.
Qed.

Lemma run_inv sched : forall s, cinv s -> cinv (crun s sched).
Proof.
  induction sched as [|c sched IH]; intros s H; [exact H|]. cbn [crun]. apply IH.
  destruct (cstep s c) as [s'|] eqn:E; [eapply step_inv; eassumption|exact H].
Qed.

(** requests never change *)
Lemma no_missed s r i w k snap : cinv s -> In r (rds s) -> rph r = RDone snap -> nth_error (wrs s) i = Some w -> In i (applied s) ->
  w_final w <> 0 -> w_final w <= r_ts (rq r) -> In k (item_keys (wq w)) -> in_scope (r_scope (rq r)) k ->
  ~ In (w_start_ts (wq w)) (r_resolved (rq r)) -> In i snap.
Proof.
  intros H Ir P Hw Ia F0 Fr Ik Sc Nr. destruct (c_app s H i Ia) as [v [Hv Gv]]. rewrite Hw in Hv. injection Hv as <-.
  destruct (c_read s H r i w k Ir ltac:(unfold past; now rewrite P) Hw Ik Sc Nr) as [J|[[_ J]|[J|[e [x [J _]]]]]].
  - unfold seen in J. now rewrite P in J.
  - contradiction.
  - unfold will in J. unfold gone in Gv. destruct (wph w); try contradiction; destruct J; lia.
  - unfold pending in J. rewrite P in J. destruct J.
Qed.

Lemma visible_published s i k : cinv s -> published s i k -> visible s i k.
Proof.
  intros H [w [j [Hw [Hj Pw]]]].
  assert (L : (j < pubn w)%nat).
  { unfold pubn. destruct (wph w); try contradiction; try lia. apply Z.eqb_neq in Pw. rewrite Pw.
    assert (nth_error (item_keys (wq w)) j <> None) by congruence. apply nth_error_Some in H0. unfold item_keys in H0. rewrite map_length in H0. exact H0. }
  destruct (c_pub s H i w j k Hw L Hj) as [e [x [G1 [G2 G3]]]]. exists e, x.
  destruct (c_tab s H k e G1) as [x' [v [K1 [K2 [K3 _]]]]]. rewrite G2 in K1. injection K1 as <-. auto.
Qed.

Lemma empty_when_over s : cinv s -> (forall w, In w (wrs s) -> active w = false) -> tab (tb s) = [].
Proof.
  intros H A. destruct (tab (tb s)) as [|[k e] m] eqn:T; [reflexivity|]. exfalso.
  assert (G : get bcmp (tab (tb s)) k = Some e).
  { apply (get_iff bcmp bcmp_ok _ _ _ (c_sorted s H)). rewrite T. now left. }
  destruct (c_tab s H k e G) as [x [v [_ [_ [_ [Hv [Av _]]]]]]]. apply nth_error_In in Hv. rewrite (A v Hv) in Av. discriminate.
Qed.

(** ** why a read is refused *)

Definition held (s : cstate) : Prop := forall i w, nth_error (wrs s) i = Some w ->
  match wph w with WTs _ e | WRel _ e _ => exists x, nth_error (heap (tb s)) e = Some x /\ e_owner x = i /\ e_busy x = true | _ => True end.

Definition kept (t t' : table) : Prop := forall e x, nth_error (heap t) e = Some x -> exists x', nth_error (heap t') e = Some x' /\
  l_key (e_lock x') = l_key (e_lock x) /\ e_owner x' = e_owner x /\ (e_busy x = false -> e_lock x' = e_lock x /\ e_busy x' = false).

Lemma kept_refl t : kept t t.
Proof. intros e x Hx. exists x. auto. Qed.

Lemma tab_bound s k e : cinv s -> get bcmp (tab (tb s)) k = Some e -> (e < length (heap (tb s)))%nat.
Proof. intros H G. destruct (c_tab s H k e G) as [x [v [H1 _]]]. apply nth_error_Some. congruence. Qed.

Lemma step_kept s c s' : cinv s -> held s -> cstep s c = Some s' -> kept (tb s) (tb s') /\ held s'.
Proof.
  intros H B E. destruct c as [i|i|i|ts].
  - cbn [cstep] in E. destruct (nth_error (rds s) i) as [r|]; [|discriminate].
    assert (T : tb s' = tb s /\ wrs s' = wrs s).
    { destruct (reader_step s r) as [f [p|]] eqn:RS; [|discriminate]. injection E as <-. unfold set_reader. cbn [tb wrs].
      unfold reader_step in RS. destruct (rph r) as [| |[|e es]|e es| | |]; try (injection RS as <- <-; split; reflexivity); try discriminate.
      - destruct (nth_error (heap (tb s)) e) as [x|]; [|discriminate]. destruct (e_dead x); injection RS as <- <-; split; reflexivity.
      - destruct (nth_error (heap (tb s)) e) as [x|]; [|discriminate]. destruct (e_busy x); [discriminate|].
        destruct (lock_conflict SI (r_ts (rq r)) (r_resolved (rq r)) (e_lock x)); injection RS as <- <-; split; reflexivity. }
    destruct T as [T1 T2]. unfold held. rewrite T1, T2. split; [apply kept_refl|exact B].
  - cbn [cstep] in E. destruct (nth_error (wrs s) i) as [w|] eqn:Hw; [|discriminate].
    assert (N : forall w' m, nth_error (upd (wrs s) i w') m = if Nat.eq_dec m i then Some w' else nth_error (wrs s) m) by (intros w' m; eapply nupd; exact Hw).
    assert (FR : forall p f ap, match p with WTs _ _ | WRel _ _ _ => False | _ => True end ->
       kept (tb s) (tb s) /\ held (mkC (maxts s) (tb s) (rds s) (upd (wrs s) i (mkWt (wq w) p f)) ap)).
    { intros p f ap Np. split; [apply kept_refl|]. intros m v Hv. cbn [wrs tb] in *. rewrite N in Hv.
      destruct (Nat.eq_dec m i) as [->|]; [|apply (B m v Hv)]. injection Hv as <-. cbn [wph]. destruct p; auto; destruct Np. }
    destruct (wph w) as [|j|j e|j e m| | |] eqn:P.
    + destruct (latches_free s (wq w)); [|discriminate]. injection E as <-. apply FR. exact Logic.I.
    + destruct (nth_error (w_items (wq w)) j) as [it|] eqn:Hit; injection E as <-; [|apply FR; exact Logic.I].
      unfold set_table, set_writer. cbn [tb maxts rds wrs applied].
      assert (Hh : forall e, nth_error (heap (lock_key (tb s) (i_lock it) i)) e =
        if Nat.eq_dec e (length (heap (tb s))) then Some (mkE (i_lock it) true false i) else nth_error (heap (tb s)) e) by (intros e; apply nth_app_new).
      assert (OLD : forall e x, nth_error (heap (tb s)) e = Some x -> nth_error (heap (lock_key (tb s) (i_lock it) i)) e = Some x).
      { intros e x Hx. rewrite Hh. destruct (Nat.eq_dec e (length (heap (tb s)))) as [->|]; [|exact Hx].
        assert (nth_error (heap (tb s)) (length (heap (tb s))) = None) by (apply nth_error_None; lia). congruence. }
      split.
      * intros e x Hx. exists x. split; [apply OLD, Hx|auto].
      * intros m v Hv. cbn [wrs tb] in *. rewrite N in Hv. destruct (Nat.eq_dec m i) as [->|].
        -- injection Hv as <-. cbn [wph]. eexists. rewrite Hh. destruct (Nat.eq_dec (length (heap (tb s))) (length (heap (tb s)))); [|congruence]. auto.
        -- specialize (B m v Hv). destruct (wph v); auto; destruct B as [x [B1 B2]]; exists x; split; auto.
    + destruct (nth_error (w_items (wq w)) j) as [it|] eqn:Hit; [|discriminate]. injection E as <-. unfold set_writer. cbn [tb].
      split; [apply kept_refl|]. intros m v Hv. cbn [wrs tb] in *. rewrite N in Hv. destruct (Nat.eq_dec m i) as [->|]; [|apply (B m v Hv)].
      injection Hv as <-. cbn [wph]. specialize (B i w Hw). rewrite P in B. exact B.
    + assert (Bi := B i w Hw). rewrite P in Bi. destruct Bi as [x0 [Hx0 [Ow Bs]]].
      set (t' := set_entry _ _ _) in E. assert (T' : exists x1, heap t' = upd (heap (tb s)) e x1 /\ l_key (e_lock x1) = l_key (e_lock x0) /\ e_owner x1 = e_owner x0).
      { unfold t', set_entry. rewrite Hx0. eexists. split; [reflexivity|]. cbn [e_lock e_owner]. destruct (0 <? m); auto. }
      destruct T' as [x1 [T1 [T2 T3]]].
      assert (Hh : forall e', nth_error (heap t') e' = if Nat.eq_dec e' e then Some x1 else nth_error (heap (tb s)) e') by (intros e'; rewrite T1; eapply nupd; exact Hx0).
      assert (Q : tb s' = t' /\ exists p f, wrs s' = upd (wrs s) i (mkWt (wq w) p f) /\ match p with WTs _ _ | WRel _ _ _ => False | _ => True end).
      { destruct (m =? 0); injection E as <-; (split; [reflexivity|]); do 2 eexists; (split; [reflexivity|exact Logic.I]). }
      destruct Q as [Q1 [p [f [Q2 Q3]]]]. rewrite Q1. split.
      * intros e' x Hx. rewrite Hh. destruct (Nat.eq_dec e' e) as [->|]; [|exists x; auto].
        rewrite Hx0 in Hx. injection Hx as <-. exists x1. split; [reflexivity|]. split; [exact T2|]. split; [exact T3|]. congruence.
      * intros n v Hv. rewrite Q1. rewrite Q2, N in Hv. destruct (Nat.eq_dec n i) as [->|Nn].
        -- injection Hv as <-. cbn [wph]. destruct p; auto; destruct Q3.
        -- assert (Bn := B n v Hv). destruct (wph v); auto; destruct Bn as [x [B1 [B2 B3]]]; exists x; rewrite Hh;
           (match goal with |- context [Nat.eq_dec ?a ?b] => destruct (Nat.eq_dec a b) as [->|] end); auto;
           rewrite Hx0 in B1; injection B1 as <-; congruence.
    + injection E as <-. apply FR. exact Logic.I.
    + assert (U : forall t', (t' = tb s \/ t' = unlock_keys (tb s) (all_keys (wq w))) -> forall e x, nth_error (heap (tb s)) e = Some x ->
        exists x', nth_error (heap t') e = Some x' /\ e_lock x' = e_lock x /\ e_busy x' = e_busy x /\ e_owner x' = e_owner x).
      { intros t' [-> | ->] e x Hx; [exists x; auto|].
        destruct (unlock_spec (all_keys (wq w)) (tb s) (c_sorted s H) (fun k e => tab_bound s k e H)) as [_ [_ [_ U4]]].
        destruct (U4 e x Hx) as [x' [U5 [U6 [U7 [U8 _]]]]]. exists x'. auto. }
      assert (Q : exists t', (t' = tb s \/ t' = unlock_keys (tb s) (all_keys (wq w))) /\ tb s' = t' /\ wrs s' = upd (wrs s) i (mkWt (wq w) WEnd (w_final w))).
      { injection E as <-. eexists. split; [|split; reflexivity]. destruct (w_unlock (wq w)); auto. }
      destruct Q as [t' [Q0 [Q1 Q2]]]. specialize (U t' Q0). rewrite Q1. split.
      * intros e x Hx. destruct (U e x Hx) as [x' [V1 [V2 [V3 V4]]]]. exists x'. split; [exact V1|]. split; [congruence|]. split; [exact V4|].
        intros Bz. split; congruence.
      * intros n v Hv. rewrite Q1. rewrite Q2, N in Hv. destruct (Nat.eq_dec n i) as [->|Nn]; [injection Hv as <-; exact Logic.I|].
        assert (Bn := B n v Hv). destruct (wph v); auto; destruct Bn as [x [B1 [B2 B3]]];
        destruct (U _ x B1) as [x' [V1 [V2 [V3 V4]]]]; exists x'; (split; [exact V1|split; congruence]).
    + discriminate.
  - cbn [cstep] in E. destruct (nth_error (wrs s) i) as [w|] eqn:Hw; [|discriminate].
    assert (Q : s' = set_writer s i (mkWt (wq w) WUnpub (w_final w))) by (destruct (wph w); try discriminate; injection E as <-; reflexivity).
    rewrite Q. unfold set_writer. cbn [tb]. split; [apply kept_refl|]. intros m v Hv. cbn [wrs tb] in *. rewrite (nupd _ _ _ _ _ Hw) in Hv.
    destruct (Nat.eq_dec m i) as [->|]; [injection Hv as <-; exact Logic.I|apply (B m v Hv)].
  - injection E as <-. cbn [tb]. split; [apply kept_refl|exact B].
Qed.

Definition scoped (s : cstate) : Prop := forall r e, In r (rds s) ->
  (In e (pending r) -> exists x, nth_error (heap (tb s)) e = Some x /\ in_scope (r_scope (rq r)) (l_key (e_lock x))) /\
  (rph r = RRefused e -> exists x, nth_error (heap (tb s)) e = Some x /\ in_scope (r_scope (rq r)) (l_key (e_lock x)) /\
      e_busy x = false /\ lock_conflict SI (r_ts (rq r)) (r_resolved (rq r)) (e_lock x) = true).

Lemma scoped_kept s tb' : kept (tb s) tb' -> scoped s -> forall ts ws ap, scoped (mkC ts tb' (rds s) ws ap).
Proof.
  intros K Sc ts ws ap r e Ir. cbn [tb rds] in *. destruct (Sc r e Ir) as [S1 S2]. split.
  - intros Ie. destruct (S1 Ie) as [x [X1 X2]]. destruct (K e x X1) as [x' [K1 [K2 _]]]. exists x'. split; [exact K1|now rewrite K2].
  - intros P. destruct (S2 P) as [x [X1 [X2 [X3 X4]]]]. destruct (K e x X1) as [x' [K1 [K2 [_ K3]]]]. destruct (K3 X3) as [K4 K5].
    exists x'. split; [exact K1|]. rewrite K2. split; [exact X2|]. split; [exact K5|]. now rewrite K4.
Qed.

Lemma step_scoped s c s' : cinv s -> held s -> scoped s -> cstep s c = Some s' -> scoped s'.
Proof.
  intros H B Sc E. destruct (step_kept s c s' H B E) as [K _]. destruct c as [i|i|i|ts].
  - cbn [cstep] in E. destruct (nth_error (rds s) i) as [r|] eqn:Hr; [|discriminate].
    assert (Ir : In r (rds s)) by (eapply nth_error_In; exact Hr).
    destruct (reader_step s r) as [f [p|]] eqn:RS; [|discriminate].
    assert (Q : tb s' = tb s /\ rds s' = upd (rds s) i (mkRd (rq r) p)).
    { injection E as <-. unfold set_reader. cbn [tb rds]. unfold reader_step in RS.
      destruct (rph r) as [| |[|e es]|e es| | |]; try (injection RS as <- <-; split; reflexivity); try discriminate.
      - destruct (nth_error (heap (tb s)) e) as [x|]; [|discriminate]. destruct (e_dead x); injection RS as <- <-; split; reflexivity.
      - destruct (nth_error (heap (tb s)) e) as [x|]; [|discriminate]. destruct (e_busy x); [discriminate|].
        destruct (lock_conflict SI (r_ts (rq r)) (r_resolved (rq r)) (e_lock x)); injection RS as <- <-; split; reflexivity. }
    destruct Q as [Q1 Q2].
    intros r0 e0 I0. rewrite Q1. rewrite Q2 in I0. apply in_upd in I0. destruct I0 as [->|I0]; [|apply (Sc r0 e0 I0)].
    cbn [rq rph]. unfold pending. cbn [rph]. assert (Sr := fun e => Sc r e Ir). unfold pending in Sr.
    unfold reader_step in RS. destruct (rph r) as [| |[|e es]|e es| | |] eqn:P; try discriminate.
    + injection RS as <- <-. split; [intros []|discriminate].
    + injection RS as <- <-. split; [|discriminate]. intros Ie. destruct (collect_scope _ _ _ (c_sorted s H) Ie) as [k [Ks G]].
      destruct (c_tab s H k e0 G) as [x [v [H1 [H2 _]]]]. exists x. split; [exact H1|now rewrite H2].
    + injection RS as <- <-. split; [intros []|discriminate].
    + destruct (nth_error (heap (tb s)) e) as [x|]; [|discriminate]. destruct (e_dead x); injection RS as <- <-; (split; [|discriminate]).
      * intros Ie. apply (Sr e0). now right.
      * intros Ie. apply (Sr e0). exact Ie.
    + destruct (nth_error (heap (tb s)) e) as [x|] eqn:Hx; [|discriminate]. destruct (e_busy x) eqn:Bx; [discriminate|].
      destruct (lock_conflict SI (r_ts (rq r)) (r_resolved (rq r)) (e_lock x)) eqn:Lc; injection RS as <- <-.
      * split; [intros []|]. intros Eq. injection Eq as <-. destruct (proj1 (Sr e) (or_introl eq_refl)) as [x' [X1 X2]].
        rewrite Hx in X1. injection X1 as <-. exists x. auto.
      * split; [|discriminate]. intros Ie. apply (Sr e0). now right.
    + injection RS as <- <-. split; [intros []|discriminate].
  - assert (Rs : rds s' = rds s).
    { cbn [cstep] in E. destruct (nth_error (wrs s) i) as [w|]; [|discriminate]. destruct (wph w) as [|j|j e|j e m| | |]; try discriminate.
      - destruct (latches_free s (wq w)); [|discriminate]. injection E as <-. reflexivity.
      - destruct (nth_error (w_items (wq w)) j); injection E as <-; reflexivity.
      - destruct (nth_error (w_items (wq w)) j); [|discriminate]. injection E as <-; reflexivity.
      - destruct (m =? 0); injection E as <-; reflexivity.
      - injection E as <-; reflexivity.
      - injection E as <-; reflexivity. }
    assert (X := scoped_kept s (tb s') K Sc 0 [] []). unfold scoped in *. cbn [tb rds] in X. rewrite Rs. exact X.
  - assert (Rs : rds s' = rds s).
    { cbn [cstep] in E. destruct (nth_error (wrs s) i) as [w|]; [|discriminate]. destruct (wph w) as [|j|j e|j e m| | |]; try discriminate; injection E as <-; reflexivity. }
    assert (X := scoped_kept s (tb s') K Sc 0 [] []). unfold scoped in *. cbn [tb rds] in X. rewrite Rs. exact X.
  - injection E as <-. exact Sc.
Qed.

Lemma run_scoped sched : forall s, cinv s -> held s -> scoped s -> scoped (crun s sched).
Proof.
  induction sched as [|c sched IH]; intros s H B Sc; [exact Sc|]. cbn [crun].
  destruct (cstep s c) as [s'|] eqn:E; [|apply IH; assumption].
  apply IH; [eapply step_inv; eassumption|eapply step_kept; eassumption|eapply step_scoped; eassumption].
Qed.

Lemma init_scoped ts rs ws : held (cinit ts rs ws) /\ scoped (cinit ts rs ws).
Proof.
  split.
  - intros i w Hw. cbn in Hw. apply nth_error_In in Hw. apply in_map_iff in Hw. destruct Hw as [q [<- _]]. exact Logic.I.
  - intros r e Ir. cbn in Ir. apply in_map_iff in Ir. destruct Ir as [q [<- _]]. split; [intros []|discriminate].
Qed.

Lemma refused s r e : cinv s -> scoped s -> In r (rds s) -> rph r = RRefused e ->
  exists x w, nth_error (heap (tb s)) e = Some x /\ nth_error (wrs s) (e_owner x) = Some w /\
    In (l_key (e_lock x)) (item_keys (wq w)) /\ in_scope (r_scope (rq r)) (l_key (e_lock x)) /\
    ~ In (w_start_ts (wq w)) (r_resolved (rq r)) /\
    (if 0 <? l_fut (e_lock x) then l_fut (e_lock x) else w_start_ts (wq w)) < r_ts (rq r) /\ l_minc (e_lock x) <= r_ts (rq r).
Proof.
  intros H Sc Ir P. destruct (proj2 (Sc r e Ir) P) as [x [X1 [X2 [X3 X4]]]].
  destruct (c_heap s H e x X1) as [w [Hw [[it [K1 [K2 [K3 [K4 _]]]]] _]]]. destruct (c_ok s H _ w Hw) as [[_ [_ [St Ts]]] _].
  exists x, w. split; [exact X1|]. split; [exact Hw|]. split.
  { rewrite K2. unfold item_keys. apply in_map_iff. exists it. auto. }
  split; [exact X2|]. unfold lock_conflict in X4. rewrite K3, (Ts it K1) in X4.
  destruct (existsb (Z.eqb (w_start_ts (wq w))) (r_resolved (rq r))) eqn:Ex; [discriminate|].
  split. { intros I. assert (existsb (Z.eqb (w_start_ts (wq w))) (r_resolved (rq r)) = true); [|congruence].
    apply existsb_exists. exists (w_start_ts (wq w)). split; [exact I|apply Z.eqb_refl]. }
  destruct (Z.ltb_spec (r_ts (rq r)) (l_minc (e_lock x))); [discriminate|]. split; [|lia].
  destruct (Z.ltb_spec 0 (w_start_ts (wq w))); [|discriminate].
  destruct (0 <? l_fut (e_lock x)); apply Z.ltb_lt; exact X4.
Qed.

(** ** a lock that stays published *)

Section Stuck.
Variables (q : rreq) (x : entry) (W : list writer) (k : bytes).
Hypothesis Wend : forall w, In w W -> wph w = WEnd.
Hypothesis Sq : r_scope q = Keys [k].
Hypothesis Bx : e_busy x = false.
Hypothesis Dx : e_dead x = false.
Hypothesis Cx : lock_conflict SI (r_ts q) (r_resolved q) (e_lock x) = true.

Definition stuck (n : nat) (s : cstate) : Prop :=
  tb s = mkTab [(k, 0%nat)] [x] /\ wrs s = W /\
  exists p, rds s = [mkRd q p] /\
    match p with
    | RStart => n = 0 | RLook => n <= 1 | RCheck [O] => n <= 2 | RLocked O [] => n <= 3 | RRefused _ => True | _ => False
    end%nat.

Definition next (s : cstate) (c : choice) : cstate := match cstep s c with Some s' => s' | None => s end.

Lemma stuck_reader n s : stuck n s -> stuck (S n) (next s (CReader 0)).
Proof.
  intros [T [Hw [p [R P]]]]. unfold next. cbn [cstep]. rewrite R. cbn [nth_error]. unfold reader_step. cbn [rph rq].
  destruct p as [| |[|[|e] [|e' es]]|[|e] [|e' es]| | |e0]; try (exfalso; exact P).
  - split; [exact T|]. split; [exact Hw|]. cbn [rds set_reader]. rewrite R. exists RLook. split; [reflexivity|lia].
  - split; [exact T|]. split; [exact Hw|]. cbn [rds set_reader]. rewrite R. eexists. split; [reflexivity|].
    rewrite T, Sq. cbn [collect flat_map tab get]. rewrite bcmp_refl. cbn [app]. lia.
  - rewrite T. cbn [heap nth_error]. rewrite Dx. split; [exact T|]. split; [exact Hw|].
    cbn [rds set_reader]. rewrite R. eexists. split; [reflexivity|]. cbn. lia.
  - rewrite T. cbn [heap nth_error]. rewrite Bx, Cx. split; [exact T|]. split; [exact Hw|].
    cbn [rds set_reader]. rewrite R. eexists. split; [reflexivity|]. exact Logic.I.
  - split; [exact T|]. split; [exact Hw|]. exists (RRefused e0). auto.
Qed.

Lemma stuck_weak n s : stuck (S n) s -> stuck n s.
Proof.
  intros [T [Hw [p [R P]]]]. split; [exact T|]. split; [exact Hw|]. exists p. split; [exact R|].
  destruct p as [| |[|[|e] [|e' es]]|[|e] [|e' es]| | |e0]; try (exfalso; exact P); auto; lia.
Qed.

Lemma stuck_next n s c : stuck n s -> stuck n (next s c).
Proof.
  intros H. destruct c as [[|i]|i|i|ts].
  - apply stuck_weak, stuck_reader, H.
  - destruct H as [T [Hw [p [R P]]]]. unfold next. cbn [cstep]. rewrite R. cbn [nth_error]. replace (nth_error [] i) with (@None reader) by (destruct i; reflexivity).
    split; [exact T|]. split; [exact Hw|]. exists p. auto.
  - assert (E : cstep s (CWriter i) = None); [|unfold next; now rewrite E]. destruct H as [T [Hw _]]. cbn [cstep]. rewrite Hw.
    destruct (nth_error W i) as [w|] eqn:E; [|reflexivity]. now rewrite (Wend w (nth_error_In _ _ E)).
  - assert (E : cstep s (CFail i) = None); [|unfold next; now rewrite E]. destruct H as [T [Hw _]]. cbn [cstep]. rewrite Hw.
    destruct (nth_error W i) as [w|] eqn:E; [|reflexivity]. now rewrite (Wend w (nth_error_In _ _ E)).
  - exact H.
Qed.

Lemma crun_app a : forall s b, crun s (a ++ b) = crun (crun s a) b.
Proof. induction a as [|c a IH]; intros s b; [reflexivity|]. cbn [app crun]. apply IH. Qed.

Lemma stuck_run more : forall s, stuck 0 s -> stuck 0 (crun s more).
Proof. induction more as [|c more IH]; intros s H; [exact H|]. cbn [crun]. apply IH. apply (stuck_next 0 s c H). Qed.

Lemma stuck_refused s more r : stuck 0 s ->
  In r (rds (crun s (more ++ [CReader 0; CReader 0; CReader 0; CReader 0]))) -> exists e, rph r = RRefused e.
Proof.
  intros H I. rewrite crun_app in I. apply (stuck_run more) in H. cbn [crun] in I.
  apply stuck_reader, stuck_reader, stuck_reader, stuck_reader in H. unfold next in H. destruct H as [_ [_ [p [R P]]]].
  rewrite R in I. destruct I as [<-|[]]. cbn [rph].
  destruct p as [| |[|[|e] [|e' es]]|[|e] [|e' es]| | |e0]; try (exfalso; exact P); try lia. eauto.
Qed.
End Stuck.
