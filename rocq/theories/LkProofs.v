(** Lemmas about the lock. *)
From Coq Require Import ZArith List Bool Arith Lia.
From Verif Require Import LkModel LkSpec.
Import ListNotations.
Open Scope Z_scope.

(** * Lists *)
Lemma put_length {A} (l : list A) i x : length (put l i x) = length l.
Proof. revert i. induction l as [|a l IH]; intros [|i]; cbn; auto. Qed.
Lemma nth_put_same {A} (l : list A) i x y : nth_error l i = Some y -> nth_error (put l i x) i = Some x.
Proof. revert i. induction l as [|a l IH]; intros [|i] H; cbn in *; try discriminate; auto. Qed.
Lemma nth_put_other {A} (l : list A) i j x : i <> j -> nth_error (put l i x) j = nth_error l j.
Proof.
  revert i j. induction l as [|a l IH]; intros i j H; [destruct i; reflexivity|].
  destruct i, j; cbn; try reflexivity; [contradiction|]. apply IH. congruence.
Qed.
Lemma nth_put {A} (l : list A) i j x y : nth_error (put l i x) j = Some y ->
  (i = j /\ y = x) \/ (i <> j /\ nth_error l j = Some y).
Proof.
  destruct (Nat.eq_dec i j) as [->|N].
  - intros H. left. split; auto. destruct (nth_error l j) as [z|] eqn:E.
    + rewrite (nth_put_same _ _ x _ E) in H. congruence.
    + apply nth_error_None in E. assert (nth_error (put l j x) j = None) by (apply nth_error_None; rewrite put_length; exact E). congruence.
  - rewrite nth_put_other by exact N. auto.
Qed.

(** * Counting *)
Definition b2z (b : bool) : Z := if b then 1 else 0.
Fixpoint cnt {A} (f : A -> bool) (l : list A) : Z :=
  match l with [] => 0 | a :: r => b2z (f a) + cnt f r end.
Lemma b2z_range b : 0 <= b2z b <= 1. Proof. destruct b; cbn; lia. Qed.
Lemma cnt_nonneg {A} (f : A -> bool) l : 0 <= cnt f l.
Proof. induction l as [|a l IH]; cbn; [lia|]. pose proof (b2z_range (f a)). lia. Qed.
Lemma cnt_put {A} (f : A -> bool) l i x y : nth_error l i = Some y ->
  cnt f (put l i x) = cnt f l - b2z (f y) + b2z (f x).
Proof.
  revert i. induction l as [|a l IH]; intros [|i] H; cbn in *; try discriminate.
  - injection H as ->. lia.
  - rewrite (IH _ H). lia.
Qed.
Lemma cnt_pos {A} (f : A -> bool) l i x : nth_error l i = Some x -> f x = true -> 1 <= cnt f l.
Proof.
  revert i. induction l as [|a l IH]; intros [|i] H F; cbn in *; try discriminate.
  - injection H as ->. rewrite F. pose proof (cnt_nonneg f l). cbn [b2z]. lia.
  - pose proof (IH _ H F). pose proof (b2z_range (f a)). lia.
Qed.
Lemma cnt_ex {A} (f : A -> bool) l : 1 <= cnt f l -> exists i x, nth_error l i = Some x /\ f x = true.
Proof.
  induction l as [|a l IH]; cbn; intros H; [lia|].
  destruct (f a) eqn:E. { exists 0%nat, a. auto. }
  cbn [b2z] in H. destruct IH as [i [x [P Q]]]; [lia|]. exists (S i), x. auto.
Qed.
Lemma cnt_two {A} (f : A -> bool) l i j x y : nth_error l i = Some x -> nth_error l j = Some y -> i <> j ->
  f x = true -> f y = true -> 2 <= cnt f l.
Proof.
  revert i j. induction l as [|a l IH]; intros i j H K N F G; [destruct i; discriminate|].
  destruct i, j; cbn in *.
  - congruence.
  - injection H as ->. rewrite F. pose proof (cnt_pos f l j y K G). cbn [b2z]. lia.
  - injection K as ->. rewrite G. pose proof (cnt_pos f l i x H F). cbn [b2z]. lia.
  - pose proof (IH i j H K ltac:(congruence) F G). pose proof (b2z_range (f a)). lia.
Qed.
Lemma cnt_le_length {A} (f : A -> bool) l : cnt f l <= Z.of_nat (length l).
Proof. induction l as [|a l IH]; cbn [cnt length]; [lia|]. pose proof (b2z_range (f a)). lia. Qed.
Lemma cnt_map {A B} (f : B -> bool) (g : A -> B) l : cnt f (map g l) = cnt (fun a => f (g a)) l.
Proof. induction l as [|a l IH]; cbn; [reflexivity|]. rewrite IH. reflexivity. Qed.
Lemma cnt_ext {A} (f g : A -> bool) l : (forall a, f a = g a) -> cnt f l = cnt g l.
Proof. intros H. induction l as [|a l IH]; cbn; [reflexivity|]. rewrite H, IH. reflexivity. Qed.
Lemma cnt_zero {A} (f : A -> bool) l : (forall a, f a = false) -> cnt f l = 0.
Proof. intros H. induction l as [|a l IH]; cbn; [reflexivity|]. rewrite H, IH. reflexivity. Qed.

(** * The invariant *)
Definition isR t := match t with Reading => true | _ => false end.
Definition isW t := match t with Writing => true | _ => false end.
Definition isRS t := match t with RSleep => true | _ => false end.
Definition isRA t := match t with RAwake => true | _ => false end.
Definition isWS t := match t with WSleep => true | _ => false end.
Definition isWA t := match t with WAwake => true | _ => false end.
Definition isId t := match t with Idle => true | _ => false end.

Record linv (s : sys) : Prop := mkLinv {
  li_r : active_readers (lk s) = cnt isR (th s);
  li_w : b2z (active_writer (lk s)) = cnt isW (th s);
  li_ww : waiting_writers (lk s) = cnt isWS (th s) + cnt isWA (th s);
  li_x : active_writer (lk s) = true -> active_readers (lk s) = 0;
  li_ws : 1 <= cnt isWS (th s) -> can_write (lk s) = false;
  li_rs : 1 <= cnt isRS (th s) -> can_read (lk s) = false }.

Lemma wake_counts t :
  isR (wake t) = isR t /\ isW (wake t) = isW t /\ isWS (wake t) = false /\ isRS (wake t) = false /\
  b2z (isWA (wake t)) = b2z (isWS t) + b2z (isWA t) /\ b2z (isRA (wake t)) = b2z (isRS t) + b2z (isRA t).
Proof. destruct t; cbn; repeat split. Qed.
Lemma wake_cnt l :
  cnt isR (map wake l) = cnt isR l /\ cnt isW (map wake l) = cnt isW l /\ cnt isWS (map wake l) = 0 /\
  cnt isRS (map wake l) = 0 /\ cnt isWA (map wake l) = cnt isWS l + cnt isWA l /\
  cnt isRA (map wake l) = cnt isRS l + cnt isRA l.
Proof.
  induction l as [|a l IH]; cbn; [repeat split|].
  destruct (wake_counts a) as (A1 & A2 & A3 & A4 & A5 & A6). destruct IH as (B1 & B2 & B3 & B4 & B5 & B6).
  rewrite A1, A2, A3, A4, A5, A6, B1, B2, B3, B4, B5, B6. cbn. repeat split; lia.
Qed.

Ltac counts H :=
  let go f := (rewrite ?(cnt_put f _ _ _ _ H)) in
  go isR; go isW; go isWS; go isWA; go isRS; go isRA.

Lemma linv0 n : linv (sys0 n).
Proof.
  assert (Z0 : forall f, f Idle = false -> cnt f (repeat Idle n) = 0).
  { intros f F. induction n as [|n IH]; cbn; [reflexivity|]. rewrite F, IH. reflexivity. }
  split; cbn; rewrite ?Z0 by reflexivity; cbn; try reflexivity; try discriminate; lia.
Qed.

Ltac pull l :=
  pose proof (cnt_nonneg isR l); pose proof (cnt_nonneg isW l); pose proof (cnt_nonneg isWS l);
  pose proof (cnt_nonneg isWA l); pose proof (cnt_nonneg isRS l); pose proof (cnt_nonneg isRA l).

Lemma can_read_true l : can_read l = true <-> active_writer l = false /\ waiting_writers l = 0.
Proof. unfold can_read. rewrite andb_true_iff, negb_true_iff, Z.eqb_eq. tauto. Qed.
Lemma can_write_true l : can_write l = true <-> active_readers l = 0 /\ active_writer l = false.
Proof. unfold can_write. rewrite andb_true_iff, negb_true_iff, Z.eqb_eq. tauto. Qed.
Lemma can_read_false l : can_read l = false <-> active_writer l = true \/ waiting_writers l <> 0.
Proof. unfold can_read. rewrite andb_false_iff, negb_false_iff, Z.eqb_neq. tauto. Qed.
Lemma can_write_false l : can_write l = false <-> active_readers l <> 0 \/ active_writer l = true.
Proof. unfold can_write. rewrite andb_false_iff, negb_false_iff, Z.eqb_neq. tauto. Qed.

Lemma try_read_linv s i t : linv s -> nth_error (th s) i = Some t -> t = Idle \/ t = RAwake -> linv (try_read s i).
Proof.
  intros [I1 I2 I3 I4 I5 I6] H T. unfold try_read. pull (th s).
  destruct (can_read (lk s)) eqn:C.
  - apply can_read_true in C. destruct C as [C1 C2].
    split; cbn [lk th active_readers active_writer waiting_writers]; counts H;
      destruct T; subst t; cbn [isR isW isWS isWA isRS isRA b2z]; try lia; intros K;
      rewrite ?can_write_false, ?can_read_false in *; cbn [active_readers active_writer waiting_writers] in *;
      rewrite C1 in *; cbn in *; try lia; try congruence.
  - split; cbn [lk th active_readers active_writer waiting_writers]; counts H;
      destruct T; subst t; cbn [isR isW isWS isWA isRS isRA b2z]; try lia; intros K; auto; try (apply I5; lia).
Qed.

(** what [LockWrite] hands to the loop: one more is counted than waits *)
Lemma try_write_linv s s' i t : linv s -> nth_error (th s) i = Some t -> t = Idle \/ t = WAwake ->
  s' = mkSys (mkRw (active_readers (lk s)) (active_writer (lk s)) (waiting_writers (lk s) + b2z (isId t))) (th s) ->
  linv (try_write s' i).
Proof.
  intros [I1 I2 I3 I4 I5 I6] H T ->. unfold try_write. pull (th s). cbn [lk th].
  set (l' := mkRw _ _ _).
  destruct (can_write l') eqn:C.
  - apply can_write_true in C. cbn in C. destruct C as [C1 C2].
    split; cbn [l' lk th active_readers active_writer waiting_writers]; counts H;
      rewrite C2 in *; cbn [b2z] in *;
      destruct T; subst t; cbn [isR isW isWS isWA isRS isRA isId b2z]; try lia; intros K;
      rewrite ?can_write_false, ?can_read_false in *; cbn [l' active_readers active_writer waiting_writers] in *; auto.
  - split; cbn [l' lk th active_readers active_writer waiting_writers]; counts H;
      destruct T; subst t; cbn [isR isW isWS isWA isRS isRA isId b2z]; try lia; intros K; auto;
      rewrite ?can_write_false, ?can_read_false in *; cbn [l' active_readers active_writer waiting_writers isId b2z] in *; auto; try lia.
    destruct I6 as [R|R]; [lia|left; exact R|right; lia].
Qed.

Lemma lstep_linv s e s' : linv s -> lstep s e = Some s' -> linv s'.
Proof.
  intros L H. destruct e as [i|i|i|i|i|i]; cbn [lstep] in H;
    destruct (nth_error (th s) i) as [t|] eqn:E; try discriminate; destruct t; try discriminate;
    injection H as <-.
  - eapply try_read_linv; eauto.
  - destruct L as [I1 I2 I3 I4 I5 I6]. pull (th s).
    pose proof (cnt_pos isR _ _ _ E eq_refl) as P.
    destruct (active_writer (lk s)) eqn:AW. { rewrite (I4 eq_refl) in I1. lia. }
    destruct (active_readers (lk s) - 1 =? 0) eqn:Q.
    + apply Z.eqb_eq in Q. destruct (wake_cnt (put (th s) i Idle)) as (B1 & B2 & B3 & B4 & B5 & B6).
      split; cbn [lk th active_readers active_writer waiting_writers]; rewrite ?B1, ?B2, ?B3, ?B4, ?B5, ?B6; counts E;
        cbn [isR isW isWS isWA isRS isRA b2z] in *; try lia; try discriminate.
    + apply Z.eqb_neq in Q.
      split; cbn [lk th active_readers active_writer waiting_writers]; counts E;
        cbn [isR isW isWS isWA isRS isRA b2z] in *; try lia; try discriminate; intros K;
        rewrite ?can_write_false, ?can_read_false in *; cbn [active_readers active_writer waiting_writers] in *; try lia.
      right. destruct I6 as [R|R]; [lia|congruence|lia].
  - eapply try_write_linv; eauto.
  - destruct L as [I1 I2 I3 I4 I5 I6]. pull (th s).
    pose proof (cnt_pos isW _ _ _ E eq_refl) as P.
    destruct (active_writer (lk s)) eqn:AW; [|cbn in I2; lia]. cbn [b2z] in I2.
    destruct (wake_cnt (put (th s) i Idle)) as (B1 & B2 & B3 & B4 & B5 & B6).
    split; cbn [lk th active_readers active_writer waiting_writers]; rewrite ?B1, ?B2, ?B3, ?B4, ?B5, ?B6; counts E;
      cbn [isR isW isWS isWA isRS isRA b2z] in *; try lia; try discriminate.
  - eapply try_read_linv; eauto.
  - eapply try_write_linv; eauto. destruct s as [[a b c] t]; cbn. f_equal. f_equal. lia.
  - destruct L as [I1 I2 I3 I4 I5 I6]. split; cbn [lk th]; counts E; cbn [isR isW isWS isWA isRS isRA b2z]; try lia; auto;
      intros K; [apply I5|apply I6]; lia.
  - destruct L as [I1 I2 I3 I4 I5 I6]. split; cbn [lk th]; counts E; cbn [isR isW isWS isWA isRS isRA b2z]; try lia; auto;
      intros K; [apply I5|apply I6]; lia.
Qed.

Lemma lnext_linv s e : linv s -> linv (lnext s e).
Proof. intros L. unfold lnext. destruct (lstep s e) eqn:E; [eapply lstep_linv; eauto|exact L]. Qed.
Lemma lrun_linv es : forall s, linv s -> linv (lrun s es).
Proof. induction es as [|e es IH]; intros s L; [exact L|]. cbn. apply IH, lnext_linv, L. Qed.
Lemma lrun_app es fs s : lrun s (es ++ fs) = lrun (lrun s es) fs.
Proof. apply fold_left_app. Qed.

(** * C140 *)
Lemma excl s i j : linv s -> writes s i -> (reads s j -> False) /\ (writes s j -> i = j).
Proof.
  intros [I1 I2 I3 I4 I5 I6] W. pose proof (cnt_pos isW _ _ _ W eq_refl) as P.
  destruct (active_writer (lk s)) eqn:AW; cbn in I2; [|lia]. split.
  - intros R. pose proof (cnt_pos isR _ _ _ R eq_refl). rewrite (I4 eq_refl) in I1. lia.
  - intros W'. destruct (Nat.eq_dec i j); [assumption|]. pose proof (cnt_two isW _ _ _ _ _ W W' n eq_refl eq_refl). lia.
Qed.

Lemma wake_reading t : wake t = Reading -> t = Reading. Proof. destruct t; cbn; congruence. Qed.

(** a thread that begins to read *)
Lemma begins_to_read s e j : linv s -> ~ reads s j -> reads (lnext s e) j ->
  (e = LockRead j \/ e = Look j) /\ (forall k, ~ wants_write s k) /\ (forall k, ~ writes s k).
Proof.
  intros L N R. unfold lnext in R. destruct (lstep s e) as [s'|] eqn:E; [|contradiction].
  assert (G : forall i t, nth_error (th s) i = Some t -> try_read s i = s' -> j = i /\ can_read (lk s) = true).
  { intros i t H <-. unfold try_read, reads, does in R. destruct (can_read (lk s)).
    - cbn in R. apply nth_put in R. destruct R as [[-> _]|[_ R]]; [auto|contradiction].
    - cbn in R. apply nth_put in R. destruct R as [[_ R]|[_ R]]; [discriminate|contradiction]. }
  assert (F : can_read (lk s) = true -> (forall k, ~ wants_write s k) /\ (forall k, ~ writes s k)).
  { intros C. apply can_read_true in C. destruct C as [C1 C2]. destruct L as [I1 I2 I3 I4 I5 I6]. pull (th s).
    rewrite C1 in I2. cbn in I2. split.
    - intros k [K|K]; [pose proof (cnt_pos isWS _ _ _ K eq_refl)|pose proof (cnt_pos isWA _ _ _ K eq_refl)]; lia.
    - intros k K. pose proof (cnt_pos isW _ _ _ K eq_refl). lia. }
  assert (G2 : forall s2 i, th s2 = th s -> try_write s2 i = s' -> False).
  { intros s2 i T <-. unfold try_write, reads, does in R. rewrite T in R.
    destruct (can_write (lk s2)); cbn in R; apply nth_put in R; destruct R as [[_ R]|[_ R]]; try discriminate; contradiction. }
  destruct e as [i|i|i|i|i|i]; cbn [lstep] in E;
    destruct (nth_error (th s) i) as [t|] eqn:Ei; try discriminate; destruct t; try discriminate;
    injection E as E.
  - destruct (G _ _ Ei E) as [-> C]. auto.
  - exfalso. subst s'. unfold reads, does in R. cbn [th] in R.
    destruct (active_readers (lk s) - 1 =? 0).
    + rewrite nth_error_map in R. destruct (nth_error (put (th s) i Idle) j) as [t|] eqn:Q; [|discriminate].
      cbn in R. injection R as R. apply wake_reading in R. subst t. apply nth_put in Q. destruct Q as [[_ Q]|[_ Q]]; [discriminate|contradiction].
    + apply nth_put in R. destruct R as [[_ R]|[_ R]]; [discriminate|contradiction].
  - exfalso. eapply G2; [|exact E]. reflexivity.
  - exfalso. subst s'. unfold reads, does in R. cbn [th] in R.
    rewrite nth_error_map in R. destruct (nth_error (put (th s) i Idle) j) as [t|] eqn:Q; [|discriminate].
    cbn in R. injection R as R. apply wake_reading in R. subst t. apply nth_put in Q. destruct Q as [[_ Q]|[_ Q]]; [discriminate|contradiction].
  - destruct (G _ _ Ei E) as [-> C]. auto.
  - exfalso. eapply G2; [|exact E]. reflexivity.
  - exfalso. subst s'. unfold reads, does in R. cbn [th] in R. apply nth_put in R. destruct R as [[_ R]|[_ R]]; [discriminate|contradiction].
  - exfalso. subst s'. unfold reads, does in R. cbn [th] in R. apply nth_put in R. destruct R as [[_ R]|[_ R]]; [discriminate|contradiction].
Qed.

(** * C141 *)
Lemma sleep_reason s i : linv s ->
  (does s i RSleep -> exists k, writes s k \/ wants_write s k) /\
  (does s i WSleep -> exists k, writes s k \/ reads s k).
Proof.
  intros [I1 I2 I3 I4 I5 I6]. pull (th s). split; intros D.
  - pose proof (cnt_pos isRS _ _ _ D eq_refl) as P. apply I6, can_read_false in P. destruct P as [P|P].
    + rewrite P in I2. cbn in I2. destruct (cnt_ex isW (th s)) as (k & x & K & X); [lia|]. exists k. left. destruct x; try discriminate. exact K.
    + destruct (Z_le_gt_dec 1 (cnt isWS (th s))).
      * destruct (cnt_ex isWS (th s)) as (k & x & K & X); [lia|]. exists k. right. left. destruct x; try discriminate. exact K.
      * destruct (cnt_ex isWA (th s)) as (k & x & K & X); [lia|]. exists k. right. right. destruct x; try discriminate. exact K.
  - pose proof (cnt_pos isWS _ _ _ D eq_refl) as P. apply I5, can_write_false in P. destruct P as [P|P].
    + destruct (cnt_ex isR (th s)) as (k & x & K & X); [lia|]. exists k. right. destruct x; try discriminate. exact K.
    + rewrite P in I2. cbn in I2. destruct (cnt_ex isW (th s)) as (k & x & K & X); [lia|]. exists k. left. destruct x; try discriminate. exact K.
Qed.

Lemma rest_idle s : linv s -> l_at_rest s -> all_idle s.
Proof.
  intros L A. 
  assert (NoR : forall k, ~ reads s k). { intros k K. pose proof (A (UnlockRead k) Logic.I) as H. cbn in H. rewrite K in H. discriminate. }
  assert (NoW : forall k, ~ writes s k). { intros k K. pose proof (A (UnlockWrite k) Logic.I) as H. cbn in H. rewrite K in H. discriminate. }
  assert (NoWA : forall k, ~ does s k WAwake). { intros k K. pose proof (A (Look k) Logic.I) as H. cbn in H. rewrite K in H. discriminate. }
  assert (NoRA : forall k, ~ does s k RAwake). { intros k K. pose proof (A (Look k) Logic.I) as H. cbn in H. rewrite K in H. discriminate. }
  assert (NoWS : forall k, ~ does s k WSleep).
  { intros k K. destruct (proj2 (sleep_reason s k L) K) as [x [X|X]]; [exact (NoW x X)|exact (NoR x X)]. }
  assert (NoRS : forall k, ~ does s k RSleep).
  { intros k K. destruct (proj1 (sleep_reason s k L) K) as [x [X|[X|X]]]; [exact (NoW x X)|exact (NoWS x X)|exact (NoWA x X)]. }
  intros i t H. destruct t; auto; exfalso;
    [exact (NoRS i H)|exact (NoRA i H)|exact (NoR i H)|exact (NoWS i H)|exact (NoWA i H)|exact (NoW i H)].
Qed.

Definition waits t := match t with RSleep | RAwake | WSleep | WAwake => true | _ => false end.
Definition holds t := match t with Reading | Writing => true | _ => false end.
Definition awake t := match t with RAwake | WAwake => true | _ => false end.
Definition meas (n : Z) (l : list thr) : Z := (n + 1) * (2 * cnt waits l + cnt holds l) + cnt awake l.

Lemma wake_meas n l : 0 <= n -> meas n (map wake l) <= meas n l + (cnt waits l - cnt awake l).
Proof.
  intros N. unfold meas. rewrite !cnt_map.
  rewrite (cnt_ext (fun a => waits (wake a)) waits) by (intros []; reflexivity).
  rewrite (cnt_ext (fun a => holds (wake a)) holds) by (intros []; reflexivity).
  rewrite (cnt_ext (fun a => awake (wake a)) waits) by (intros []; reflexivity). lia.
Qed.

Lemma lstep_meas s e s' : closing_lock e -> lstep s e = Some s' ->
  length (th s') = length (th s) /\ meas (Z.of_nat (length (th s))) (th s') < meas (Z.of_nat (length (th s))) (th s).
Proof.
  intros C H. set (n := Z.of_nat (length (th s))). assert (N : 0 <= n) by lia.
  pose proof (cnt_nonneg waits (th s)) as P1. pose proof (cnt_nonneg holds (th s)) as P2. pose proof (cnt_nonneg awake (th s)) as P3.
  pose proof (cnt_le_length waits (th s)) as P4. pose proof (cnt_le_length awake (th s)) as P5. fold n in P4, P5.
  destruct e as [i|i|i|i|i|i]; cbn in C; try contradiction; cbn [lstep] in H;
    destruct (nth_error (th s) i) as [t|] eqn:E; try discriminate; destruct t; try discriminate; injection H as <-.
  - pose proof (wake_meas n (put (th s) i Idle) N) as W.
    pose proof (cnt_nonneg awake (put (th s) i Idle)) as P6.
    cbn [th]. destruct (active_readers (lk s) - 1 =? 0); (split; [rewrite ?map_length, put_length; reflexivity|]).
    + unfold meas in *. rewrite !(cnt_put _ _ _ _ _ E) in W. cbn [waits holds awake b2z] in W.
      rewrite (cnt_put awake _ _ _ _ E) in P6. cbn in P6. nia.
    + unfold meas. rewrite !(cnt_put _ _ _ _ _ E). cbn [waits holds awake b2z]. nia.
  - pose proof (wake_meas n (put (th s) i Idle) N) as W.
    cbn [th]. split; [rewrite map_length, put_length; reflexivity|].
    unfold meas in *. rewrite !(cnt_put _ _ _ _ _ E) in W. cbn [waits holds awake b2z] in W. nia.
  - unfold try_read. destruct (can_read (lk s)); cbn [th]; (split; [apply put_length|]);
      unfold meas; rewrite !(cnt_put _ _ _ _ _ E); cbn [waits holds awake b2z]; nia.
  - unfold try_write. destruct (can_write (lk s)); cbn [th]; (split; [apply put_length|]);
      unfold meas; rewrite !(cnt_put _ _ _ _ _ E); cbn [waits holds awake b2z]; nia.
Qed.

Lemma meas_bound l : meas (Z.of_nat (length l)) l <= (Z.of_nat (length l) + 1) * (2 * Z.of_nat (length l)) + Z.of_nat (length l).
Proof.
  unfold meas. pose proof (cnt_le_length awake l).
  assert (2 * cnt waits l + cnt holds l <= 2 * Z.of_nat (length l)).
  { clear. induction l as [|a l IH]; cbn [cnt length]; [lia|]. destruct a; cbn [waits holds b2z]; lia. }
  nia.
Qed.

Lemma l_bounded es : forall s, Forall closing_lock es -> l_all_happen s es ->
  Z.of_nat (length es) <= meas (Z.of_nat (length (th s))) (th s).
Proof.
  induction es as [|e es IH]; intros s F H.
  - cbn. unfold meas. pose proof (cnt_nonneg waits (th s)). pose proof (cnt_nonneg holds (th s)). pose proof (cnt_nonneg awake (th s)). nia.
  - inversion F; subst. cbn in H. destruct H as [H R]. unfold lnext in *.
    destruct (lstep s e) as [s'|] eqn:E; [|congruence].
    destruct (lstep_meas s e s' H2 E) as [L M]. specialize (IH s' H3 R). rewrite L in IH. cbn [length]. lia.
Qed.

Lemma lrun_length es : forall s, length (th (lrun s es)) = length (th s).
Proof.
  induction es as [|e es IH]; intros s; [reflexivity|]. change (lrun s (e :: es)) with (lrun (lnext s e) es). rewrite IH. unfold lnext.
  destruct (lstep s e) as [s'|] eqn:E; [|reflexivity].
  destruct e as [i|i|i|i|i|i]; cbn [lstep] in E;
    destruct (nth_error (th s) i) as [t|]; try discriminate; destruct t; try discriminate; injection E as <-;
    unfold try_read, try_write; try destruct (can_read _); try destruct (can_write _); try destruct (_ =? 0); cbn [th];
    rewrite ?map_length, ?put_length; reflexivity.
Qed.

Lemma rest_dec s : l_at_rest s \/ exists e, closing_lock e /\ lstep s e <> None.
Proof.
  assert (G : forall l k, (forall i t, nth_error l i = Some t -> nth_error (th s) (k + i) = Some t) ->
     (forall i t, nth_error l i = Some t -> holds t = false /\ awake t = false) \/ exists e, closing_lock e /\ lstep s e <> None).
  { induction l as [|a l IH]; intros k H. { left. intros [|i] t K; discriminate. }
    destruct (IH (S k)) as [Q|Q]; [|clear IH|auto].
    - intros i t K. replace (S k + i)%nat with (k + S i)%nat by lia. apply H. exact K.
    - pose proof (H 0%nat a eq_refl) as A. rewrite Nat.add_0_r in A.
      destruct a; try (left; intros [|i] t K; [injection K as <-; split; reflexivity|exact (Q i t K)]); right.
      + exists (Look k). split; [exact Logic.I|]. cbn. rewrite A. discriminate.
      + exists (UnlockRead k). split; [exact Logic.I|]. cbn. rewrite A. discriminate.
      + exists (Look k). split; [exact Logic.I|]. cbn. rewrite A. discriminate.
      + exists (UnlockWrite k). split; [exact Logic.I|]. cbn. rewrite A. discriminate. }
  destruct (G (th s) 0%nat) as [Q|Q]; [auto| |auto]. left.
  intros e C. destruct e as [i|i|i|i|i|i]; cbn in C; try contradiction; cbn;
    destruct (nth_error (th s) i) as [t|] eqn:E; auto; destruct (Q i t E); destruct t; auto; discriminate.
Qed.

(** a thread that waits and asks for nothing else keeps waiting or holds *)
Lemma rest_exists k : forall s, (Z.to_nat (meas (Z.of_nat (length (th s))) (th s)) <= k)%nat -> exists es, Forall closing_lock es /\ l_all_happen s es /\ l_at_rest (lrun s es).
Proof.
  induction k as [|k IH]; intros s B.
  - destruct (rest_dec s) as [R|[e [C H]]]; [exists []; repeat split; auto|].
    destruct (lstep s e) as [s'|] eqn:E; [|congruence]. destruct (lstep_meas s e s' C E) as [L M].
    assert (0 <= meas (Z.of_nat (length (th s))) (th s')).
    { unfold meas. pose proof (cnt_nonneg waits (th s')). pose proof (cnt_nonneg holds (th s')). pose proof (cnt_nonneg awake (th s')). nia. }
    lia.
  - destruct (rest_dec s) as [R|[e [C H]]]; [exists []; repeat split; auto|].
    destruct (lstep s e) as [s'|] eqn:E; [|congruence]. destruct (lstep_meas s e s' C E) as [L M].
    destruct (IH s') as (es & F & A & R).
    { rewrite L. assert (0 <= meas (Z.of_nat (length (th s))) (th s')).
      { unfold meas. pose proof (cnt_nonneg waits (th s')). pose proof (cnt_nonneg holds (th s')). pose proof (cnt_nonneg awake (th s')). nia. }
      lia. }
    exists (e :: es). split; [constructor; auto|]. split.
    + cbn. split; [congruence|]. unfold lnext. rewrite E. exact A.
    + change (lrun s (e :: es)) with (lrun (lnext s e) es). unfold lnext. rewrite E. exact R.
Qed.
