(** Lists, counts and precedence. *)
From Coq Require Import ZArith List Bool Lia.
From Verif Require Import WqModel WqSpec.
Import ListNotations.

Lemma set_nth_len : forall A n (x : A) l, length (set_nth n x l) = length l.
Proof.
  induction n; destruct l; simpl; auto.
  unfold set_nth in *. simpl. specialize (IHn x l). f_equal. exact IHn.
Qed.

Lemma set_nth_S : forall A n (x y : A) l, set_nth (S n) x (y :: l) = y :: set_nth n x l.
Proof. reflexivity. Qed.

Lemma nth_set_same : forall A n (x y : A) l, nth_error l n = Some y -> nth_error (set_nth n x l) n = Some x.
Proof.
  induction n; destruct l; intros H; try discriminate; auto.
  rewrite set_nth_S. simpl in *. eauto.
Qed.

Lemma nth_set_other : forall A n m (x : A) l, n <> m -> nth_error (set_nth n x l) m = nth_error l m.
Proof.
  induction n; destruct l, m; intros H; auto; try lia.
  rewrite set_nth_S. simpl. apply IHn. lia.
Qed.

Lemma nth_snoc : forall A (l : list A) x n,
  nth_error (l ++ [x]) n = if Nat.eq_dec n (length l) then Some x else nth_error l n.
Proof.
  induction l; intros x n; simpl.
  - destruct n; simpl; auto. destruct n; auto.
  - destruct n; simpl; auto. rewrite IHl. destruct (Nat.eq_dec n (length l)), (Nat.eq_dec (S n) (S (length l))); auto; lia.
Qed.

(** Sums. *)
Fixpoint tot {A} (f : A -> nat) (l : list A) : nat :=
  match l with [] => 0 | x :: r => f x + tot f r end.

Lemma tot_app : forall A (f : A -> nat) l m, tot f (l ++ m) = tot f l + tot f m.
Proof. induction l; intros; simpl; auto. rewrite IHl. lia. Qed.

Lemma tot_set : forall A (f : A -> nat) n x y l,
  nth_error l n = Some y -> tot f (set_nth n x l) + f y = tot f l + f x.
Proof.
  induction n; destruct l; intros H; try discriminate.
  - simpl in H. injection H as ->. unfold set_nth. simpl. lia.
  - rewrite set_nth_S. simpl in *. specialize (IHn x y l H). lia.
Qed.

Lemma tot_zero : forall A (f : A -> nat) l, (forall x, In x l -> f x = 0) -> tot f l = 0.
Proof. induction l; simpl; intros; auto. rewrite H, IHl; auto. Qed.

Lemma tot_in : forall A (f : A -> nat) l x, In x l -> f x <= tot f l.
Proof. induction l; simpl; intros; [tauto|]. destruct H; [subst; lia|]. specialize (IHl _ H). lia. Qed.

Lemma tot_pos : forall A (f : A -> nat) l, tot f l <> 0 -> exists x, In x l /\ f x <> 0.
Proof.
  induction l; simpl; intros; [lia|]. destruct (Nat.eq_dec (f a) 0).
  - destruct IHl as (x & I & F); [lia|]. eauto.
  - eauto.
Qed.

Lemma tot_repeat0 : forall A (f : A -> nat) x n, f x = 0 -> tot f (repeat x n) = 0.
Proof. intros. apply tot_zero. intros y I. apply repeat_spec in I. subst. auto. Qed.

(** Events. *)
Lemma times_app : forall e a b, times e (a ++ b) = times e a + times e b.
Proof. intros. apply count_occ_app. Qed.

Lemma times_in : forall e tr, In e tr <-> times e tr > 0.
Proof. intros. apply count_occ_In. Qed.

Lemma times_nil : forall e, times e [] = 0.
Proof. reflexivity. Qed.

Lemma times_cons : forall e a b, times e (a :: b) = (if event_eq_dec a e then 1 else 0) + times e b.
Proof. intros. unfold times. simpl. destruct (event_eq_dec a e); reflexivity. Qed.

Lemma number_app : forall f a b, number f (a ++ b) = number f a + number f b.
Proof. intros. unfold number. rewrite filter_app, app_length. reflexivity. Qed.

Lemma pre_app : forall tr e a b, precedes tr a b -> precedes (tr ++ e) a b.
Proof.
  intros tr e a b (t1 & t2 & -> & I & J). exists t1, (t2 ++ e). rewrite app_assoc.
  repeat split; auto. apply in_or_app; auto.
Qed.

Lemma pre_new : forall tr e a b, In a tr -> In b e -> precedes (tr ++ e) a b.
Proof. intros. exists tr, e. auto. Qed.

Lemma app_split : forall (a b c d : list event), a ++ b = c ++ d ->
  (exists m, c = a ++ m /\ b = m ++ d) \/ (exists m, a = c ++ m /\ d = m ++ b).
Proof.
  induction a as [|x a IH]; intros b c d E; simpl in E.
  - left. exists c. auto.
  - destruct c as [|y c]; simpl in E.
    + right. exists (x :: a). auto.
    + injection E as -> E. destruct (IH _ _ _ E) as [(m & -> & ->)|(m & -> & ->)];
        [left|right]; exists m; auto.
Qed.

Lemma pre_back : forall tr e a b, precedes (tr ++ e) a b -> ~ In b e -> precedes tr a b.
Proof.
  intros tr e a b (t1 & t2 & E & I & J) N.
  destruct (app_split _ _ _ _ E) as [(m & -> & ->)|(m & -> & ->)].
  - exfalso. apply N. apply in_or_app; auto.
  - exists t1, m. apply in_app_or in J. intuition.
Qed.

Lemma pre_left : forall tr a b, precedes tr a b -> In a tr.
Proof. intros tr a b (t1 & t2 & -> & I & J). apply in_or_app; auto. Qed.

Lemma pre_right : forall tr a b, precedes tr a b -> In b tr.
Proof. intros tr a b (t1 & t2 & -> & I & J). apply in_or_app; auto. Qed.

(** The left event was seen before the new events. *)
Lemma pre_last : forall tr e a b, precedes (tr ++ [e]) a b -> a = e -> ~ In e tr -> False.
Proof.
  intros tr e a b (t1 & t2 & E & I & J) -> N.
  destruct (app_split _ _ _ _ E) as [(m & -> & F)|(m & -> & ->)].
  - destruct m as [|y m].
    + simpl in F. rewrite app_nil_r in I. auto.
    + injection F as <- F. symmetry in F. apply app_eq_nil in F. destruct F as (_ & ->). inversion J.
  - apply N. apply in_or_app; auto.
Qed.

Lemma pre_left_app : forall tr e a b, precedes (tr ++ e) a b -> (length e <= 1) -> In a tr.
Proof.
  intros tr e a b (t1 & t2 & E & I & J) L.
  destruct (app_split _ _ _ _ E) as [(m & -> & F)|(m & -> & ->)].
  - destruct m as [|y m]; [rewrite app_nil_r in I; auto|].
    exfalso. subst e. rewrite app_length in L. simpl in L. destruct t2; [inversion J|simpl in L; lia].
  - apply in_or_app; auto.
Qed.
