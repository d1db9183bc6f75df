(** Library: byte strings, their lexicographic order, big-endian integers.
    Not a model of any particular file: [bcmp] is the order of
    std::string::compare / rocksdb::BytewiseComparator (memcmp on unsigned bytes,
    shorter string first on a tie). *)
From Coq Require Import ZArith List Lia Bool.
Import ListNotations.
Open Scope Z_scope.

Definition bytes := list Z.
Definition byte_ok (b : Z) : Prop := 0 <= b < 256.
Definition bytes_ok (l : bytes) : Prop := Forall byte_ok l.

Fixpoint bcmp (a b : bytes) : comparison :=
  match a, b with
  | [], [] => Eq
  | [], _ :: _ => Lt
  | _ :: _, [] => Gt
  | x :: a', y :: b' =>
      match Z.compare x y with
      | Eq => bcmp a' b'
      | c => c
      end
  end.

Definition beqb (a b : bytes) : bool :=
  match bcmp a b with Eq => true | _ => false end.
Definition bltb (a b : bytes) : bool :=
  match bcmp a b with Lt => true | _ => false end.
Definition bleb (a b : bytes) : bool :=
  match bcmp a b with Gt => false | _ => true end.

(** A comparison function that is a strict total order. *)
Record cmp_ok {K : Type} (cmp : K -> K -> comparison) : Prop := {
  cmp_eq : forall a b, cmp a b = Eq <-> a = b;
  cmp_opp : forall a b, cmp b a = CompOpp (cmp a b);
  cmp_trans : forall a b c, cmp a b = Lt -> cmp b c = Lt -> cmp a c = Lt
}.

Lemma bcmp_refl a : bcmp a a = Eq.
Proof. induction a; simpl; auto. rewrite Z.compare_refl. auto. Qed.

Lemma bcmp_eq a : forall b, bcmp a b = Eq <-> a = b.
Proof.
  induction a as [|x a IH]; destruct b as [|y b]; simpl; split; intro H; try congruence; auto.
  - destruct (Z.compare_spec x y); try congruence. subst. f_equal. apply IH; auto.
  - inversion H; subst. rewrite Z.compare_refl. apply IH; auto.
Qed.

Lemma bcmp_opp a : forall b, bcmp b a = CompOpp (bcmp a b).
Proof.
  induction a as [|x a IH]; destruct b as [|y b]; simpl; auto.
  rewrite (Z.compare_antisym x y). destruct (Z.compare x y); simpl; auto.
Qed.

Lemma bcmp_trans a : forall b c, bcmp a b = Lt -> bcmp b c = Lt -> bcmp a c = Lt.
Proof.
  induction a as [|x a IH]; destruct b as [|y b]; destruct c as [|z c]; simpl; intros; try congruence.
  destruct (Z.compare_spec x y); try congruence; destruct (Z.compare_spec y z); try congruence; subst.
  - rewrite Z.compare_refl. eauto.
  - destruct (Z.compare_spec y z); try lia; auto.
  - destruct (Z.compare_spec x z); try lia; auto.
  - destruct (Z.compare_spec x z); try lia; auto.
Qed.

Lemma bcmp_ok : cmp_ok bcmp.
Proof. split; [apply bcmp_eq | apply bcmp_opp | apply bcmp_trans]. Qed.

Lemma beqb_true a b : beqb a b = true <-> a = b.
Proof. unfold beqb. destruct (bcmp a b) eqn:E; rewrite <- bcmp_eq; rewrite E; split; congruence. Qed.
Lemma beqb_false a b : beqb a b = false <-> a <> b.
Proof. rewrite <- beqb_true. destruct (beqb a b); split; congruence. Qed.
Lemma beqb_refl a : beqb a a = true.
Proof. apply beqb_true; auto. Qed.

Lemma bytes_eq_dec : forall a b : bytes, {a = b} + {a <> b}.
Proof. apply list_eq_dec. apply Z.eq_dec. Defined.

Lemma bcmp_app p a b : bcmp (p ++ a) (p ++ b) = bcmp a b.
Proof. induction p; simpl; auto. rewrite Z.compare_refl. auto. Qed.

Lemma bcmp_app_neq a : forall b x y, length a = length b -> bcmp a b <> Eq ->
  bcmp (a ++ x) (b ++ y) = bcmp a b.
Proof.
  induction a as [|c a IH]; destruct b as [|d b]; simpl; intros; try congruence; try lia.
  destruct (Z.compare c d) eqn:E; auto.
Qed.

Lemma bcmp_prefix_lt p x r : bcmp p (p ++ x :: r) = Lt.
Proof. induction p; simpl; auto. rewrite Z.compare_refl; auto. Qed.

Lemma bcmp_prefix_le p r : bcmp p (p ++ r) <> Gt.
Proof. induction p; simpl. destruct r; congruence. rewrite Z.compare_refl; auto. Qed.

Lemma bytes_ok_app a b : bytes_ok (a ++ b) <-> bytes_ok a /\ bytes_ok b.
Proof. unfold bytes_ok. rewrite Forall_app. tauto. Qed.

Lemma bytes_ok_repeat0 n : bytes_ok (repeat 0 n).
Proof. unfold bytes_ok. induction n; simpl; constructor; auto. unfold byte_ok; lia. Qed.

(** Big-endian encoding on [n] bytes of the residue of [x] modulo 256^n. *)
Fixpoint be (n : nat) (x : Z) : bytes :=
  match n with
  | O => []
  | S n' => (x / 256 ^ Z.of_nat n') mod 256 :: be n' x
  end.

Fixpoint unbe (l : bytes) : Z :=
  match l with
  | [] => 0
  | b :: l' => b * 256 ^ Z.of_nat (length l') + unbe l'
  end.

Lemma be_length n x : length (be n x) = n.
Proof. induction n; simpl; auto. Qed.

Lemma be_ok n x : bytes_ok (be n x).
Proof.
  induction n; simpl; constructor; auto. unfold byte_ok. apply Z.mod_pos_bound; lia.
Qed.

Lemma unbe_bound l : bytes_ok l -> 0 <= unbe l < 256 ^ Z.of_nat (length l).
Proof.
  induction l as [|b l IH]; simpl length; intros H; simpl unbe.
  - simpl; lia.
  - inversion H as [|? ? Hb Hl]; subst. specialize (IH Hl). unfold byte_ok in Hb.
    rewrite Nat2Z.inj_succ, Z.pow_succ_r by lia. nia.
Qed.

Lemma unbe_be n x : unbe (be n x) = x mod 256 ^ Z.of_nat n.
Proof.
  induction n as [|n IH].
  - simpl. rewrite Z.mod_1_r. auto.
  - simpl be. cbn [unbe]. rewrite be_length, IH.
    rewrite Nat2Z.inj_succ, Z.pow_succ_r by lia.
    set (P := 256 ^ Z.of_nat n). assert (0 < P) by (apply Z.pow_pos_nonneg; lia).
    rewrite (Z.mul_comm 256 P), Z.rem_mul_r by lia. lia.
Qed.

Lemma be_mod n x : be n (x mod 256 ^ Z.of_nat n) = be n x.
Proof.
  assert (G: forall k m, (k <= m)%nat -> be k (x mod 256 ^ Z.of_nat m) = be k x).
  { induction k as [|k IH]; intros m Hk; simpl; auto. rewrite IH by lia. f_equal.
    replace (Z.of_nat m) with (Z.of_nat k + Z.of_nat (m - k)) by lia.
    rewrite Z.pow_add_r by lia. set (P := 256 ^ Z.of_nat k). set (Q := 256 ^ Z.of_nat (m - k)).
    assert (0 < P) by (apply Z.pow_pos_nonneg; lia).
    assert (0 < Q) by (apply Z.pow_pos_nonneg; lia).
    rewrite Z.rem_mul_r by lia. rewrite (Z.add_comm (x mod P)), Z.mul_comm, Z.div_add_l by lia.
    rewrite (Z.div_small (x mod P) P) by (apply Z.mod_pos_bound; lia). rewrite Z.add_0_r.
    unfold Q. replace (m - k)%nat with (S (m - k - 1)) by lia.
    rewrite Nat2Z.inj_succ, Z.pow_succ_r by lia.
    assert (0 < 256 ^ Z.of_nat (m-k-1)) by (apply Z.pow_pos_nonneg; lia).
    rewrite Z.rem_mul_r by lia. rewrite Z.mul_comm, Z_mod_plus_full.
    apply Z.mod_mod; lia. }
  apply G; lia.
Qed.

Lemma be_unbe l : bytes_ok l -> be (length l) (unbe l) = l.
Proof.
  induction l as [|b l IH]; simpl length; intros H; auto.
  inversion H as [|? ? Hb Hl]; subst. simpl be. cbn [unbe].
  pose proof (unbe_bound l Hl) as B. set (P := 256 ^ Z.of_nat (length l)) in *.
  assert (0 < P) by (apply Z.pow_pos_nonneg; lia).
  f_equal.
  - rewrite Z.div_add_l by lia. rewrite (Z.div_small (unbe l)) by lia.
    rewrite Z.add_0_r. apply Z.mod_small. auto.
  - rewrite <- (be_mod _ (b * P + unbe l)). fold P.
    rewrite Z.add_comm, Z_mod_plus_full, Z.mod_small by lia. auto.
Qed.

Lemma be_cmp n : forall x y, 0 <= x < 256 ^ Z.of_nat n -> 0 <= y < 256 ^ Z.of_nat n ->
  bcmp (be n x) (be n y) = Z.compare x y.
Proof.
  induction n as [|n IH]; intros x y Hx Hy.
  - simpl in *. replace x with 0 by lia. replace y with 0 by lia. auto.
  - rewrite Nat2Z.inj_succ, Z.pow_succ_r in Hx, Hy by lia.
    simpl. set (P := 256 ^ Z.of_nat n) in *.
    assert (0 < P) by (apply Z.pow_pos_nonneg; lia).
    pose proof (Z.div_mod x P ltac:(lia)). pose proof (Z.div_mod y P ltac:(lia)).
    pose proof (Z.mod_pos_bound x P ltac:(lia)). pose proof (Z.mod_pos_bound y P ltac:(lia)).
    assert (0 <= x / P < 256) by (split; [apply Z.div_pos; lia | apply Z.div_lt_upper_bound; lia]).
    assert (0 <= y / P < 256) by (split; [apply Z.div_pos; lia | apply Z.div_lt_upper_bound; lia]).
    rewrite !Z.mod_small by lia.
    destruct (Z.compare_spec (x / P) (y / P)) as [E|E|E].
    + rewrite <- (be_mod n x), <- (be_mod n y). fold P. rewrite IH by auto.
      rewrite E in *. assert (x - y = x mod P - y mod P) by lia.
      destruct (Z.compare_spec (x mod P) (y mod P)); destruct (Z.compare_spec x y); auto; lia.
    + symmetry. apply Z.compare_lt_iff. nia.
    + symmetry. apply Z.compare_gt_iff. nia.
Qed.

Lemma be_inj n x y : 0 <= x < 256 ^ Z.of_nat n -> 0 <= y < 256 ^ Z.of_nat n ->
  be n x = be n y -> x = y.
Proof.
  intros Hx Hy E. apply (f_equal unbe) in E. rewrite !unbe_be in E.
  rewrite !Z.mod_small in E by lia. auto.
Qed.
