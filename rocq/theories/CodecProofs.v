From Coq Require Import ZArith List Lia Bool PeanoNat ZifyNat ZifyBool.
From Verif Require Import Bytes Outcome CodecModel CodecSpec.
Import ListNotations.
Open Scope Z_scope.
Ltac Zify.zify_post_hook ::= Z.div_mod_to_equations.

(** ** integers *)
Lemma two64_256 : two64 = 256 ^ Z.of_nat 8. Proof. reflexivity. Qed.
Lemma two63_val : two63 = 9223372036854775808. Proof. reflexivity. Qed.
Lemma two64_val : two64 = 18446744073709551616. Proof. reflexivity. Qed.

Lemma to_u64_range x : 0 <= to_u64 x < 256 ^ Z.of_nat 8.
Proof. rewrite <- two64_256. unfold to_u64. apply Z.mod_pos_bound. rewrite two64_val; lia. Qed.

Lemma to_s64_u64 x : - two63 <= x < two63 -> to_s64 (to_u64 x) = x.
Proof.
  unfold to_s64, to_u64. rewrite two63_val, two64_val. intros.
  destruct (Z.ltb_spec (x mod 18446744073709551616) 9223372036854775808); lia.
Qed.

Lemma write_long_length v : length (write_long v) = 8%nat.
Proof. apply be_length. Qed.

Lemma firstn_app_exact {A} n (a b : list A) : length a = n -> firstn n (a ++ b) = a.
Proof. intros. rewrite firstn_app, H, Nat.sub_diag, firstn_O, app_nil_r, firstn_all2; auto. lia. Qed.
Lemma skipn_app_exact {A} n (a b : list A) : length a = n -> skipn n (a ++ b) = b.
Proof. intros. rewrite skipn_app, H, Nat.sub_diag, skipn_all2 by lia. auto. Qed.

Lemma read_write_long v s : - two63 <= v < two63 -> read_long (write_long v ++ s) = Ok v.
Proof.
  intros. unfold read_long. rewrite app_length, write_long_length. simpl Nat.ltb.
  replace (8 + length s <? 8)%nat with false by (symmetry; apply Nat.ltb_ge; lia).
  rewrite firstn_app_exact by apply write_long_length.
  unfold write_long. rewrite unbe_be. rewrite Z.mod_small by apply to_u64_range.
  rewrite to_s64_u64; auto.
Qed.

Lemma lnot_range v : ts_ok v -> - two63 <= Z.lnot v < two63.
Proof. unfold ts_ok, Z.lnot. rewrite two63_val. lia. Qed.

Lemma write_long_neg_eq v : ts_ok v -> write_long_neg v = Ok (write_long (Z.lnot v)).
Proof.
  intros [H _]. unfold write_long_neg. destruct (Z.ltb_spec v 0); try lia. reflexivity.
Qed.

Lemma read_write_long_neg v s : ts_ok v -> read_long_neg (write_long (Z.lnot v) ++ s) = Ok v.
Proof.
  intros. unfold read_long_neg. rewrite read_write_long by (apply lnot_range; auto).
  simpl. f_equal. apply Z.lnot_involutive.
Qed.

Lemma write_long_cmp_order a b : - two63 <= a < two63 -> - two63 <= b < two63 ->
  (0 <= a /\ 0 <= b \/ a < 0 /\ b < 0) ->
  bcmp (write_long a) (write_long b) = Z.compare a b.
Proof.
  intros. unfold write_long. rewrite be_cmp by apply to_u64_range.
  unfold to_u64. rewrite two63_val, two64_val in *.
  set (q := 18446744073709551616) in *.
  destruct (Z.compare_spec (a mod q) (b mod q)); destruct (Z.compare_spec a b); unfold q in *; auto; lia.
Qed.

(** WriteLongComparable is order preserving on all of int64 *)
Lemma lxor128 b : byte_ok b -> Z.lxor b 128 = (b + 128) mod 256.
Proof.
  intros [H1 H2].
  assert (G: forall n, (n < 256)%nat -> Z.lxor (Z.of_nat n) 128 = (Z.of_nat n + 128) mod 256).
  { intros n Hn.
    assert (F: forallb (fun n => Z.eqb (Z.lxor (Z.of_nat n) 128) ((Z.of_nat n + 128) mod 256)) (seq 0 256) = true)
      by (vm_compute; reflexivity).
    rewrite forallb_forall in F. apply Z.eqb_eq. apply F. apply in_seq. lia. }
  replace b with (Z.of_nat (Z.to_nat b)) by lia. apply G. lia.
Qed.

Lemma write_long_cmp_eq v : - two63 <= v < two63 -> write_long_cmp v = be 8 (v + two63).
Proof.
  intros Hv. unfold write_long_cmp.
  assert (E: be 8 (to_u64 v) = (to_u64 v / 256 ^ 7) mod 256 :: be 7 (to_u64 v)) by reflexivity.
  rewrite E. rewrite lxor128 by (apply Z.mod_pos_bound; lia).
  assert (E2: be 8 (v + two63) = ((v + two63) / 256 ^ 7) mod 256 :: be 7 (v + two63)) by reflexivity.
  rewrite E2. change (256^7) with 72057594037927936.
  unfold to_u64. rewrite two63_val, two64_val in *.
  f_equal.
  - lia.
  - rewrite <- (be_mod 7 (v mod _)), <- (be_mod 7 (v + _)).
    f_equal. change (256 ^ Z.of_nat 7) with 72057594037927936. lia.
Qed.

Lemma write_long_cmp_length v : - two63 <= v < two63 -> length (write_long_cmp v) = 8%nat.
Proof. intros. rewrite write_long_cmp_eq by auto. apply be_length. Qed.

Lemma write_long_cmp_ord a b : - two63 <= a < two63 -> - two63 <= b < two63 ->
  bcmp (write_long_cmp a) (write_long_cmp b) = Z.compare a b.
Proof.
  intros. rewrite !write_long_cmp_eq by auto.
  rewrite be_cmp by (change (256 ^ Z.of_nat 8) with 18446744073709551616; rewrite two63_val in *; lia).
  destruct (Z.compare_spec (a + two63) (b + two63)); destruct (Z.compare_spec a b); auto; lia.
Qed.

Lemma read_write_long_cmp v s : - two63 <= v < two63 -> read_long_cmp (write_long_cmp v ++ s) = Ok v.
Proof.
  intros Hv. unfold read_long_cmp. rewrite app_length, write_long_cmp_length by auto.
  replace (8 + length s <? 8)%nat with false by (symmetry; apply Nat.ltb_ge; lia).
  rewrite firstn_app_exact by (apply write_long_cmp_length; auto).
  unfold write_long_cmp.
  assert (E: be 8 (to_u64 v) = (to_u64 v / 256 ^ 7) mod 256 :: be 7 (to_u64 v)) by reflexivity.
  rewrite E. rewrite Z.lxor_assoc, Z.lxor_nilpotent, Z.lxor_0_r. rewrite <- E.
  rewrite unbe_be, Z.mod_small by apply to_u64_range. rewrite to_s64_u64; auto.
Qed.

(** ** EncodeBytes *)

Lemma encode_loop_nil i : encode_loop i [] = repeat 0 (8 - i mod 8) ++ [255 - Z.of_nat (8 - i mod 8)].
Proof. reflexivity. Qed.
Lemma encode_loop_cons i b r : encode_loop i (b :: r) =
  if ((i + 1) mod 8 =? 0)%nat then b :: 255 :: encode_loop (S i) r else b :: encode_loop (S i) r.
Proof. reflexivity. Qed.

Lemma encode_loop_mod i j l : (i mod 8 = j mod 8)%nat -> encode_loop i l = encode_loop j l.
Proof.
  revert i j. induction l as [|b l IH]; intros i j H.
  - rewrite !encode_loop_nil, H. reflexivity.
  - rewrite !encode_loop_cons. assert (H1: ((i + 1) mod 8 = (j + 1) mod 8)%nat).
    { rewrite Nat.add_mod by lia. rewrite H. rewrite <- Nat.add_mod by lia. auto. }
    rewrite H1. replace (encode_loop (S i) l) with (encode_loop (S j) l); auto.
    apply IH.
    replace (S i) with (i + 1)%nat by lia. replace (S j) with (j + 1)%nat by lia. auto.
Qed.

(** full group unfolding *)
Lemma encode_loop_short l : forall i, (i + length l < 8)%nat ->
  encode_loop i l = l ++ repeat 0 (8 - (i + length l)) ++ [247 + Z.of_nat (i + length l)].
Proof.
  induction l as [|b l IH]; intros i H; cbn [length] in *.
  - rewrite encode_loop_nil. rewrite Nat.mod_small by lia.
    rewrite Nat.add_0_r.
    replace (255 - Z.of_nat (8 - i)) with (247 + Z.of_nat i) by lia. reflexivity.
  - rewrite encode_loop_cons.
    replace ((i + 1) mod 8 =? 0)%nat with false.
    2:{ symmetry. apply Nat.eqb_neq. rewrite Nat.mod_small by lia. lia. }
    rewrite IH by lia. replace (S i + length l)%nat with (i + S (length l))%nat by lia. auto.
Qed.

Lemma encode_loop_group l : forall i r, (i + length l = 8)%nat -> (i < 8)%nat ->
  encode_loop i (l ++ r) = l ++ [255] ++ encode_loop 0 r.
Proof.
  induction l as [|b l IH]; intros i r H Hi; cbn [length] in *.
  - lia.
  - cbn [app]. rewrite encode_loop_cons.
    destruct (Nat.eq_dec i 7).
    + subst. assert (length l = 0%nat) by lia. destruct l; simpl in H0; try lia.
      change ((7 + 1) mod 8 =? 0)%nat with true. simpl app.
      rewrite (encode_loop_mod 8 0) by reflexivity. reflexivity.
    + replace ((i + 1) mod 8 =? 0)%nat with false.
      2:{ symmetry. apply Nat.eqb_neq. rewrite Nat.mod_small by lia. lia. }
      f_equal. apply IH; lia.
Qed.

Lemma encode_bytes_short l : (length l < 8)%nat ->
  encode_bytes l = l ++ repeat 0 (8 - length l) ++ [247 + Z.of_nat (length l)].
Proof. intros. unfold encode_bytes. rewrite encode_loop_short by lia. auto. Qed.

Lemma encode_bytes_group g r : length g = 8%nat ->
  encode_bytes (g ++ r) = g ++ [255] ++ encode_bytes r.
Proof. intros. unfold encode_bytes. apply encode_loop_group; lia. Qed.

(** induction on groups *)
Lemma group_ind (P : bytes -> Prop) :
  (forall l, (length l < 8)%nat -> P l) ->
  (forall g r, length g = 8%nat -> P r -> P (g ++ r)) ->
  forall l, P l.
Proof.
  intros Hs Hg l. remember (length l) as n. revert l Heqn.
  induction n as [n IH] using lt_wf_ind. intros l E.
  destruct (lt_dec (length l) 8); auto.
  rewrite <- (firstn_skipn 8 l). apply Hg.
  - rewrite firstn_length. lia.
  - apply (IH (length (skipn 8 l))); auto. rewrite skipn_length. lia.
Qed.

Lemma encode_bytes_length l : length (encode_bytes l) = (9 * (length l / 8 + 1))%nat.
Proof.
  induction l as [l H | g r Hg IH] using group_ind.
  - rewrite encode_bytes_short by auto. rewrite !app_length, repeat_length. cbn [length].
    rewrite Nat.div_small by auto. lia.
  - rewrite encode_bytes_group by auto. rewrite !app_length, IH, Hg. cbn [length].
    replace (8 + length r)%nat with (length r + 1 * 8)%nat by lia. rewrite Nat.div_add by lia. lia.
Qed.

Lemma encode_bytes_ok l : bytes_ok l -> bytes_ok (encode_bytes l).
Proof.
  induction l as [l H | g r Hg IH] using group_ind; intros Hok.
  - rewrite encode_bytes_short by auto. rewrite !bytes_ok_app. repeat split; auto.
    + apply bytes_ok_repeat0.
    + constructor; [unfold byte_ok; lia | constructor].
  - rewrite encode_bytes_group by auto. rewrite bytes_ok_app in Hok. rewrite !bytes_ok_app.
    repeat split; try tauto; auto. constructor; [unfold byte_ok; lia | constructor].
Qed.

Lemma check_zeros_repeat n s : check_zeros n (repeat 0 n ++ s) = Ok true.
Proof. induction n; simpl; auto. Qed.

Lemma decode_loop_S fuel l out m : nth_error l 8 = Some m ->
  decode_loop (S fuel) l out =
    if 255 - m =? 0 then decode_loop fuel (skipn 9 l) (out ++ firstn 8 l)
    else olet z := check_zeros (Z.to_nat (255 - m)) (skipn (Z.to_nat (8 - (255 - m))) l) in
         Ok (if z then Some (out ++ firstn (Z.to_nat (8 - (255 - m))) l) else None).
Proof.
  intros N. destruct l as [|z l]; [discriminate|]. cbn [decode_loop]. rewrite N. reflexivity.
Qed.

(** the decoder undoes the encoder, whatever follows (trailing groups are ignored) *)
Lemma decode_loop_encode l : forall fuel rest out, (length (encode_bytes l) <= fuel)%nat ->
  decode_loop fuel (encode_bytes l ++ rest) out = Ok (Some (out ++ l)).
Proof.
  induction l as [l H | g r Hg IH] using group_ind; intros fuel rest out Hf.
  - rewrite encode_bytes_short in * by auto.
    assert (L: length (l ++ repeat 0 (8 - length l)) = 8%nat) by (rewrite app_length, repeat_length; lia).
    rewrite !app_length in Hf. rewrite repeat_length in Hf. cbn [length] in Hf.
    destruct fuel as [|fuel]; [lia|].
    replace ((l ++ repeat 0 (8 - length l) ++ [247 + Z.of_nat (length l)]) ++ rest)
      with ((l ++ repeat 0 (8 - length l)) ++ (247 + Z.of_nat (length l)) :: rest)
      by (rewrite <- !app_assoc; reflexivity).
    rewrite (decode_loop_S _ _ _ (247 + Z.of_nat (length l)))
      by (rewrite nth_error_app2, L by lia; reflexivity).
    destruct (Z.eqb_spec (255 - (247 + Z.of_nat (length l))) 0); [lia|].
    replace (8 - (255 - (247 + Z.of_nat (length l)))) with (Z.of_nat (length l)) by lia.
    rewrite Nat2Z.id. rewrite <- app_assoc.
    rewrite skipn_app_exact by auto. rewrite firstn_app_exact by auto.
    replace (Z.to_nat (255 - (247 + Z.of_nat (length l)))) with (8 - length l)%nat by lia.
    rewrite check_zeros_repeat. reflexivity.
  - rewrite encode_bytes_group in * by auto. rewrite !app_length in Hf. cbn [length] in Hf.
    destruct fuel as [|fuel]; [lia|].
    replace ((g ++ [255] ++ encode_bytes r) ++ rest) with (g ++ 255 :: (encode_bytes r ++ rest))
      by (rewrite <- !app_assoc; reflexivity).
    rewrite (decode_loop_S _ _ _ 255) by (rewrite nth_error_app2, Hg by lia; reflexivity).
    change (255 - 255 =? 0) with true. cbv iota.
    rewrite firstn_app_exact by auto.
    replace (skipn 9 (g ++ 255 :: encode_bytes r ++ rest)) with (encode_bytes r ++ rest).
    2:{ change (g ++ 255 :: encode_bytes r ++ rest) with (g ++ [255] ++ (encode_bytes r ++ rest)).
        rewrite app_assoc. rewrite skipn_app_exact; auto. rewrite app_length, Hg. auto. }
    rewrite IH by lia. rewrite <- app_assoc. auto.
Qed.

Lemma last_encode l : exists p b, encode_bytes l = p ++ [b] /\ 247 <= b < 255.
Proof.
  induction l as [l H | g r Hg [p [b [E Hb]]]] using group_ind.
  - rewrite encode_bytes_short by auto. rewrite app_assoc. eexists _, _; split; [reflexivity|]. lia.
  - rewrite encode_bytes_group by auto. rewrite E. exists (g ++ [255] ++ p), b. split; auto.
    rewrite <- !app_assoc. auto.
Qed.

Lemma back_snoc p b : back (p ++ [b]) = Ok b.
Proof. unfold back. rewrite rev_app_distr. reflexivity. Qed.

Lemma decode_encode_bytes l : decode_bytes (encode_bytes l) = Ok (Some l).
Proof.
  unfold decode_bytes. destruct (last_encode l) as [p [b [E Hb]]].
  assert (M: (length (encode_bytes l) mod kPadGroupSize =? 0)%nat = true).
  { rewrite encode_bytes_length. apply Nat.eqb_eq. unfold kPadGroupSize.
    rewrite Nat.mul_comm. apply Nat.mod_mul. lia. }
  rewrite M. simpl negb. cbv iota. rewrite E at 1. rewrite back_snoc. simpl.
  unfold kMarker. destruct (Z.eqb_spec b 255); [lia|].
  pose proof (decode_loop_encode l (length (encode_bytes l)) [] []) as D.
  rewrite app_nil_r in D. apply D. lia.
Qed.

Lemma encode_key_eq k ts : ts_ok ts -> encode_key k ts = Ok (encode_bytes k ++ write_long (Z.lnot ts)).
Proof. intros. unfold encode_key. rewrite write_long_neg_eq by auto. reflexivity. Qed.

Lemma encode_bytes_len_ge l : (9 <= length (encode_bytes l))%nat.
Proof. rewrite encode_bytes_length. lia. Qed.

Lemma decode_encode_key k ts e : ts_ok ts -> encode_key k ts = Ok e -> decode_key e = Ok (Some (k, ts)).
Proof.
  intros H E. rewrite encode_key_eq in E by auto. injection E as <-.
  unfold decode_key. pose proof (encode_bytes_len_ge k). rewrite app_length, write_long_length.
  unfold kValidEncodeKeyMinLength.
  destruct (Nat.ltb_spec (length (encode_bytes k) + 8) 17); [lia|].
  replace (length (encode_bytes k) + 8 - 8)%nat with (length (encode_bytes k)) by lia.
  rewrite firstn_app_exact, skipn_app_exact by auto.
  rewrite decode_encode_bytes. cbn [obind].
  pose proof (read_write_long_neg ts [] H) as R. rewrite app_nil_r in R. rewrite R. reflexivity.
Qed.

Lemma truncate_ts_encode k ts e : ts_ok ts -> encode_key k ts = Ok e ->
  truncate_ts e = Ok (encode_bytes k) /\ truncate_key e = Ok ts.
Proof.
  intros H E. rewrite encode_key_eq in E by auto. injection E as <-.
  unfold truncate_ts, truncate_key. pose proof (encode_bytes_len_ge k). rewrite app_length, write_long_length.
  unfold kValidEncodeKeyMinLength.
  destruct (Nat.ltb_spec (length (encode_bytes k) + 8) 17); [lia|].
  replace (length (encode_bytes k) + 8 - 8)%nat with (length (encode_bytes k)) by lia.
  rewrite firstn_app_exact, skipn_app_exact by auto. split; auto.
  pose proof (read_write_long_neg ts [] H) as R. rewrite app_nil_r in R. auto.
Qed.

(** ** exact description of what the decoder accepts *)

Lemma skipn_S_tl {A} n : forall l : list A, skipn (S n) l = tl (skipn n l).
Proof.
  induction n as [|n IH]; intros [|a l]; auto.
  cbn [skipn] in *. rewrite <- IH. auto.
Qed.

Lemma check_zeros_true n : forall l, check_zeros n l = Ok true -> exists r, l = repeat 0 n ++ r.
Proof.
  induction n as [|n IH]; intros l; simpl.
  - intros; eauto.
  - destruct l as [|b l]; try discriminate. destruct (Z.eqb_spec b 0); try discriminate.
    intros H1. destruct (IH _ H1) as [r E]. subst. eauto.
Qed.

Lemma decode_loop_out fuel : forall l out,
  decode_loop fuel l out = omap (option_map (app out)) (decode_loop fuel l []).
Proof.
  induction fuel as [|fuel IH]; intros l out; cbn [decode_loop].
  - simpl. rewrite app_nil_r. auto.
  - destruct l as [|z l]; [simpl; rewrite app_nil_r; auto|].
    destruct (nth_error (z :: l) 8); auto.
    destruct (kMarker - z0 =? 0).
    + rewrite IH. rewrite (IH _ ([] ++ _)).
      destruct (decode_loop fuel (skipn 9 (z :: l)) []) as [[k|]|]; cbn [omap obind option_map]; auto.
      rewrite <- !app_assoc. auto.
    + destruct (check_zeros _ _) as [[|]|]; auto.
Qed.

Lemma decode_loop_acc fuel : forall l out k, decode_loop fuel l out = Ok (Some k) ->
  exists k', k = out ++ k' /\ decode_loop fuel l [] = Ok (Some k').
Proof.
  intros l out k H. rewrite decode_loop_out in H.
  destruct (decode_loop fuel l []) as [[k'|]|]; try discriminate.
  injection H as <-. eauto.
Qed.

Lemma memcomparable_group g r : length g = 8%nat -> memcomparable (g ++ r) = g ++ [255] ++ memcomparable r.
Proof.
  intros H. unfold memcomparable. rewrite app_length, H.
  replace ((8 + length r) / 8)%nat with (S (length r / 8)).
  2:{ replace (8 + length r)%nat with (length r + 1 * 8)%nat by lia. rewrite Nat.div_add by lia. lia. }
  cbn [full_groups]. rewrite firstn_app_exact, skipn_app_exact by auto.
  replace (8 * S (length r / 8))%nat with (8 + 8 * (length r / 8))%nat by lia.
  rewrite skipn_app, H, skipn_all2 by lia.
  replace (8 + 8 * (length r / 8) - 8)%nat with (8 * (length r / 8))%nat by lia.
  rewrite <- !app_assoc. reflexivity.
Qed.

Lemma encode_bytes_memcomparable k : encode_bytes k = memcomparable k.
Proof.
  induction k as [l H | g r Hg IH] using group_ind.
  - rewrite encode_bytes_short by auto. unfold memcomparable, last_group.
    rewrite Nat.div_small by auto. reflexivity.
  - rewrite encode_bytes_group, memcomparable_group by auto. rewrite IH. auto.
Qed.

Definition accepted_shape (e k : bytes) : Prop :=
  (exists rest, e = encode_bytes k ++ rest) \/
  (exists rest, (length k mod 8 = 0)%nat /\ e = full_groups (length k / 8) k ++ repeat 0 255 ++ rest).

Lemma accepted_shape_iff e k : accepted_shape e k <-> decodable e k.
Proof. unfold accepted_shape, decodable. rewrite encode_bytes_memcomparable. tauto. Qed.

Lemma decode_loop_shape fuel : forall l k, bytes_ok l -> decode_loop fuel l [] = Ok (Some k) ->
  (length l <= fuel)%nat -> back l <> Ok 255 -> l <> [] -> accepted_shape l k.
Proof.
  induction fuel as [|fuel IH]; intros l k Hok; cbn [decode_loop].
  - intros _ Hl _ Hne. destruct l; simpl in Hl; try lia. congruence.
  - destruct l as [|z l]; [congruence|].
    destruct (nth_error (z :: l) 8) as [m|] eqn:N; try discriminate.
    set (w := z :: l) in *. clearbody w.
    assert (Lw: (9 <= length w)%nat) by (apply nth_error_Some; rewrite N; discriminate).
    assert (Ew: w = firstn 8 w ++ m :: skipn 9 w).
    { rewrite <- (firstn_skipn 8 w) at 1. f_equal.
      destruct (skipn 8 w) eqn:S8.
      - apply (f_equal (@length Z)) in S8. rewrite skipn_length in S8. simpl in S8; lia.
      - assert (nth_error (firstn 8 w ++ skipn 8 w) 8 = Some m) by (rewrite firstn_skipn; auto).
        rewrite nth_error_app2 in H by (rewrite firstn_length; lia).
        rewrite firstn_length, Nat.min_l, S8 in H by lia. simpl in H. injection H as ->.
        f_equal. rewrite (skipn_S_tl 8 w), S8. reflexivity. }
    assert (Hm: byte_ok m).
    { unfold bytes_ok in Hok. rewrite Forall_forall in Hok. apply Hok. eapply nth_error_In; eauto. }
    assert (L8: length (firstn 8 w) = 8%nat) by (rewrite firstn_length; lia).
    unfold kMarker. destruct (Z.eqb_spec (255 - m) 0).
    + intros H Hl Hb Hne. rewrite app_nil_l in H. apply decode_loop_acc in H. destruct H as [k' [-> H]].
      assert (Hnn: skipn 9 w <> []).
      { intros E. rewrite E in Ew. apply Hb. rewrite Ew. replace m with 255 by lia. apply back_snoc. }
      apply IH in H; auto.
      * assert (m = 255) by lia. subst m.
        assert (Q: ((8 + length k') / 8 = S (length k' / 8))%nat).
        { replace (8 + length k')%nat with (length k' + 1 * 8)%nat by lia. rewrite Nat.div_add by lia. lia. }
        destruct H as [[rest E]|[rest [M E]]].
        -- left. exists rest. rewrite encode_bytes_group by auto. rewrite Ew at 1. rewrite E.
           rewrite <- !app_assoc. reflexivity.
        -- right. exists rest.
           replace (length (firstn 8 w ++ k')) with (8 + length k')%nat by (rewrite app_length, L8; reflexivity). split.
           { clear -M. lia. }
           rewrite Q. cbn [full_groups]. rewrite firstn_app_exact, skipn_app_exact by auto.
           rewrite Ew at 1. rewrite E. rewrite <- !app_assoc. reflexivity.
      * unfold bytes_ok in *. rewrite Ew in Hok. rewrite Forall_app in Hok. destruct Hok as [_ Hok].
        inversion Hok; auto.
      * rewrite skipn_length. lia.
      * intros Hb'. apply Hb. rewrite Ew. destruct (skipn 9 w) as [|y s] eqn:S9; [congruence|].
        unfold back in *.
        replace (firstn 8 w ++ m :: y :: s) with ((firstn 8 w ++ [m]) ++ y :: s) by (rewrite <- app_assoc; auto).
        rewrite rev_app_distr. destruct (rev (y :: s)); [discriminate|]. exact Hb'.
    + intros H _ _ _. unfold byte_ok in Hm.
      destruct (check_zeros _ _) as [[|]|] eqn:C; cbn [obind app] in H; try discriminate.
      assert (Ek: k = firstn (Z.to_nat (8 - (255 - m))) w) by congruence. subst k. clear H.
      apply check_zeros_true in C. destruct C as [r C].
      destruct (Z_le_gt_dec 247 m).
      * left. set (n0 := Z.to_nat (8 - (255 - m))) in *. assert (n0 < 8)%nat by lia.
        exists (skipn 9 w). rewrite encode_bytes_short by (rewrite firstn_length; lia).
        assert (Ln: length (firstn n0 w) = n0) by (rewrite firstn_length; lia). rewrite Ln.
        replace (Z.to_nat (255 - m)) with (8 - n0)%nat in C by lia.
        assert (E8: firstn 8 w = firstn n0 w ++ repeat 0 (8 - n0)).
        { rewrite <- (firstn_skipn n0 w) at 1. rewrite C. rewrite app_assoc.
          rewrite firstn_app_exact; auto. rewrite app_length, repeat_length, Ln. lia. }
        rewrite Ew at 1. rewrite E8. rewrite <- !app_assoc. cbn [app].
        replace (247 + Z.of_nat n0) with m by lia. reflexivity.
      * right. replace (Z.to_nat (8 - (255 - m))) with 0%nat in * by lia. rewrite skipn_O in C. rewrite firstn_O.
        assert (m = 0).
        { rewrite C in N. rewrite nth_error_app1 in N by (rewrite repeat_length; lia).
          apply nth_error_In in N. apply repeat_spec in N. auto. }
        subst m. exists r. split; [reflexivity|exact C].
Qed.

Lemma decode_bytes_shape e k : bytes_ok e -> decode_bytes e = Ok (Some k) ->
  accepted_shape e k /\ (length e mod 9 = 0)%nat /\ back e <> Ok 255.
Proof.
  unfold decode_bytes. intros Hok. destruct (Nat.eqb_spec (length e mod kPadGroupSize) 0); simpl; try discriminate.
  destruct (back e) eqn:B; simpl; try discriminate.
  destruct (Z.eqb_spec a kMarker); try discriminate.
  intros H. assert (back e <> Ok 255) by (rewrite B; unfold kMarker in *; congruence).
  split; [|split; [assumption|congruence]].
  eapply decode_loop_shape; eauto. intro; subst; discriminate.
Qed.

Lemma decode_full_groups n : forall k rest fuel out, length k = (8 * n)%nat -> (9 * n < fuel)%nat ->
  decode_loop fuel (full_groups n k ++ repeat 0 255 ++ rest) out = Ok (Some (out ++ k)).
Proof.
  induction n as [|n IH]; intros k rest fuel out Hk Hf.
  - destruct k; simpl in Hk; try lia. destruct fuel; [lia|]. rewrite app_nil_r.
    change (full_groups 0 [] ++ repeat 0 255 ++ rest) with (repeat 0 255 ++ rest).
    rewrite (decode_loop_S _ _ _ 0) by reflexivity.
    change (255 - 0 =? 0) with false. cbv iota.
    change (Z.to_nat (8 - (255 - 0))) with 0%nat. rewrite skipn_O, firstn_O.
    change (Z.to_nat (255 - 0)) with 255%nat.
    rewrite check_zeros_repeat. simpl. rewrite app_nil_r. auto.
  - destruct fuel as [|fuel]; [lia|].
    assert (L8: length (firstn 8 k) = 8%nat) by (rewrite firstn_length; lia).
    cbn [full_groups].
    replace ((firstn 8 k ++ [255] ++ full_groups n (skipn 8 k)) ++ repeat 0 255 ++ rest)
      with (firstn 8 k ++ 255 :: (full_groups n (skipn 8 k) ++ repeat 0 255 ++ rest))
      by (rewrite <- !app_assoc; reflexivity).
    set (t := full_groups n (skipn 8 k) ++ repeat 0 255 ++ rest).
    rewrite (decode_loop_S _ _ _ 255) by (rewrite nth_error_app2, L8 by lia; reflexivity).
    change (255 - 255 =? 0) with true. cbv iota.
    rewrite firstn_app_exact by auto.
    replace (skipn 9 (firstn 8 k ++ 255 :: t)) with t.
    2:{ change (firstn 8 k ++ 255 :: t) with (firstn 8 k ++ [255] ++ t).
        rewrite app_assoc. rewrite skipn_app_exact; auto. rewrite app_length, L8. auto. }
    unfold t. rewrite IH; [|rewrite skipn_length; lia|lia].
    rewrite <- app_assoc, firstn_skipn. auto.
Qed.

Lemma full_groups_length n : forall k, length k = (8 * n)%nat -> length (full_groups n k) = (9 * n)%nat.
Proof.
  induction n; intros k Hk; [reflexivity|]. cbn [full_groups]. rewrite !app_length, firstn_length. cbn [length].
  rewrite IHn by (rewrite skipn_length; lia). lia.
Qed.

Lemma shape_decode_bytes e k : accepted_shape e k -> (length e mod 9 = 0)%nat -> back e <> Ok 255 ->
  decode_bytes e = Ok (Some k).
Proof.
  intros S M B. unfold decode_bytes. unfold kPadGroupSize. rewrite M. simpl.
  assert (e <> []).
  { intro; subst. destruct S as [[rest E]|[rest [_ E]]].
    - apply (f_equal (@length Z)) in E. rewrite app_length in E. pose proof (encode_bytes_len_ge k). simpl in E. lia.
    - apply (f_equal (@length Z)) in E. rewrite !app_length, repeat_length in E. simpl in E. lia. }
  destruct (back e) eqn:Bk.
  2:{ unfold back in Bk. destruct (rev e) eqn:R; try discriminate.
      apply (f_equal (@rev Z)) in R. rewrite rev_involutive in R. simpl in R. congruence. }
  simpl. destruct (Z.eqb_spec a kMarker); [unfold kMarker in *; congruence|].
  destruct S as [[rest E]|[rest [Mk E]]].
  - subst e. rewrite decode_loop_encode; auto. rewrite app_length. lia.
  - assert (Hk: length k = (8 * (length k / 8))%nat) by (pose proof (Nat.div_mod (length k) 8); lia).
    rewrite E at 2. rewrite decode_full_groups; auto.
    rewrite E, app_length, full_groups_length by auto. rewrite app_length, repeat_length. lia.
Qed.

(** ** order *)

Lemma encode_cmp_nil b : forall i p s t, (i mod 8 + p = 8)%nat -> (0 < p)%nat ->
  bytes_ok b -> forall q, (p <= q)%nat -> (q <= 8)%nat -> ((p < q)%nat \/ b <> []) ->
  bcmp ((repeat 0 p ++ [255 - Z.of_nat q]) ++ s) (encode_loop i b ++ t) = Lt.
Proof.
  induction b as [|y b IH]; intros i p s t Hp Hp0 Hok q Hpq Hq8 Hne.
  - destruct Hne as [Hlt|Hne]; [|congruence].
    rewrite encode_loop_nil.
    replace (8 - i mod 8)%nat with p by lia.
    rewrite <- !app_assoc. rewrite bcmp_app. cbn [app bcmp].
    destruct (Z.compare_spec (255 - Z.of_nat q) (255 - Z.of_nat p)); try lia; auto.
  - inversion Hok as [|? ? Hy Hb]; subst. unfold byte_ok in Hy.
    rewrite encode_loop_cons.
    destruct p as [|p]; [lia|]. cbn [repeat].
    assert (Hm: ((i + 1) mod 8 = if (p =? 0)%nat then 0 else i mod 8 + 1)%nat).
    { rewrite Nat.add_mod by lia. change (1 mod 8)%nat with 1%nat.
      destruct (Nat.eqb_spec p 0).
      - replace (i mod 8)%nat with 7%nat by lia. reflexivity.
      - apply Nat.mod_small. lia. }
    rewrite Hm. destruct (Nat.eqb_spec p 0).
    + subst p. cbn [repeat app Nat.eqb]. cbn [bcmp].
      destruct (Z.compare_spec 0 y); try lia; auto.
      destruct (Z.compare_spec (255 - Z.of_nat q) 255); try lia; auto.
    + destruct (Nat.eqb_spec (i mod 8 + 1) 0); [lia|].
      cbn [app bcmp]. destruct (Z.compare_spec 0 y); try lia; auto.
      apply (IH (S i) p s t); auto; try lia.
Qed.

Lemma encode_cmp a : forall b i s t, bytes_ok a -> bytes_ok b ->
  bcmp (encode_loop i a ++ s) (encode_loop i b ++ t) =
  match bcmp a b with Eq => bcmp s t | c => c end.
Proof.
  induction a as [|x a IH]; intros [|y b] i s t Ha Hb.
  - simpl bcmp at 2. apply bcmp_app.
  - assert (M := Nat.mod_upper_bound i 8 ltac:(lia)).
    rewrite encode_loop_nil.
    rewrite encode_cmp_nil; auto; try lia. right; congruence.
  - assert (M := Nat.mod_upper_bound i 8 ltac:(lia)).
    rewrite bcmp_opp.
    rewrite encode_loop_nil.
    rewrite encode_cmp_nil; auto; try lia. right; congruence.
  - inversion Ha as [|? ? Hx Ha']; inversion Hb as [|? ? Hy Hb']; subst.
    rewrite !encode_loop_cons.
    destruct ((i + 1) mod 8 =? 0)%nat; cbn [app bcmp];
      destruct (Z.compare_spec x y); auto.
    rewrite Z.compare_refl. apply IH; auto.
Qed.

Lemma encode_bytes_cmp_app a b s t : bytes_ok a -> bytes_ok b ->
  bcmp (encode_bytes a ++ s) (encode_bytes b ++ t) = match bcmp a b with Eq => bcmp s t | c => c end.
Proof. intros. apply encode_cmp; auto. Qed.

Lemma encode_bytes_cmp a b : bytes_ok a -> bytes_ok b -> bcmp (encode_bytes a) (encode_bytes b) = bcmp a b.
Proof.
  intros. pose proof (encode_bytes_cmp_app a b [] []) as E. rewrite !app_nil_r in E. rewrite E by auto.
  destruct (bcmp a b); auto.
Qed.

Lemma neg_order t1 t2 : ts_ok t1 -> ts_ok t2 ->
  bcmp (write_long (Z.lnot t1)) (write_long (Z.lnot t2)) = Z.compare t2 t1.
Proof.
  intros H1 H2. rewrite write_long_cmp_order; try (apply lnot_range; auto).
  - unfold Z.lnot. destruct (Z.compare_spec (Z.pred (- t1)) (Z.pred (- t2)));
      destruct (Z.compare_spec t2 t1); auto; lia.
  - right. unfold Z.lnot, ts_ok in *. lia.
Qed.

Lemma encode_key_order k1 t1 k2 t2 e1 e2 : bytes_ok k1 -> bytes_ok k2 -> ts_ok t1 -> ts_ok t2 ->
  encode_key k1 t1 = Ok e1 -> encode_key k2 t2 = Ok e2 ->
  bcmp e1 e2 = version_order k1 t1 k2 t2.
Proof.
  intros K1 K2 T1 T2 E1 E2. rewrite encode_key_eq in E1, E2 by auto. injection E1 as <-. injection E2 as <-.
  rewrite encode_bytes_cmp_app by auto. unfold version_order.
  destruct (bcmp k1 k2); auto. apply neg_order; auto.
Qed.

(** ** PrefixNext *)

Lemma prefix_next_loop_spec l : bytes_ok l ->
  (l = repeat 255 (length l) /\ prefix_next_loop l = (repeat 0 (length l), 1)) \/
  (exists p b n, l = p ++ b :: repeat 255 n /\ 0 <= b < 255 /\
                 prefix_next_loop l = (p ++ (b + 1) :: repeat 0 n, 0)).
Proof.
  induction l as [|c l IH]; intros Hok.
  - left. auto.
  - inversion Hok as [|? ? Hc Hl]; subst. unfold byte_ok in Hc.
    destruct (IH Hl) as [[E1 E2]|[p [b [n [E1 [Hb E2]]]]]].
    + cbn [prefix_next_loop]. rewrite E2. destruct (Z.eqb_spec c 255).
      * left. subst c. simpl. split; [congruence|reflexivity].
      * right. exists [], c, (length l). simpl. rewrite Z.mod_small by lia. repeat split; try lia. congruence.
    + right. exists (c :: p), b, n. cbn [prefix_next_loop]. rewrite E2.
      change (0 =? 1) with false. rewrite andb_false_r. rewrite Z.add_0_r, Z.mod_small by lia.
      simpl. repeat split; try lia. congruence.
Qed.

Lemma prefix_next_spec l : bytes_ok l ->
  (l = repeat 255 (length l) /\ prefix_next l = l) \/
  (exists p b n, l = p ++ b :: repeat 255 n /\ 0 <= b < 255 /\
                 prefix_next l = p ++ (b + 1) :: repeat 0 n).
Proof.
  intros H. unfold prefix_next. destruct (prefix_next_loop_spec l H) as [[E1 E2]|[p [b [n [E1 [Hb E2]]]]]].
  - left. rewrite E2. simpl. auto.
  - right. exists p, b, n. rewrite E2. simpl. auto.
Qed.

Lemma app_snoc_last {A} (p q : list A) x y : p ++ [x] = q ++ [y] -> p = q /\ x = y.
Proof. apply app_inj_tail. Qed.

(** for a key not ending in 0xff, [s, next(s)) is exactly the set of keys with prefix s *)
Lemma prefix_next_snoc p b : bytes_ok (p ++ [b]) -> b <> 255 -> prefix_next (p ++ [b]) = p ++ [b + 1].
Proof.
  intros Hok Hb. destruct (prefix_next_spec _ Hok) as [[E1 E2]|[p' [b' [n [E1 [Hb' E2]]]]]].
  - exfalso. rewrite app_length in E1. simpl in E1. rewrite Nat.add_1_r in E1.
    replace (repeat 255 (S (length p))) with (repeat 255 (length p) ++ [255]) in E1.
    + apply app_snoc_last in E1. lia.
    + replace (S (length p)) with (length p + 1)%nat by lia. rewrite repeat_app. auto.
  - destruct n as [|n].
    + apply app_snoc_last in E1. destruct E1; subst. exact E2.
    + exfalso. replace (b' :: repeat 255 (S n)) with ((b' :: repeat 255 n) ++ [255]) in E1.
      * rewrite app_assoc in E1. apply app_snoc_last in E1. lia.
      * simpl. rewrite repeat_cons. reflexivity.
Qed.

Lemma range_prefix_snoc p b x : bcmp (p ++ [b]) x <> Gt /\ bcmp x (p ++ [b + 1]) = Lt <-> is_prefix (p ++ [b]) x.
Proof.
  unfold is_prefix. revert x. induction p as [|c p IH]; intros x; cbn [app bcmp].
  - destruct x as [|d x]; cbn [app bcmp].
    + split; [intros [H _]; congruence | intros [r H]; discriminate].
    + split.
      * intros [H1 H2]. exists x. f_equal.
        revert H1 H2. destruct (Z.compare_spec d (b + 1)); destruct (Z.compare_spec b d);
          intros H1 H2; try congruence; try lia; destruct x; discriminate H2.
      * intros [r H]. injection H as -> ->. rewrite Z.compare_refl.
        split; [destruct r; congruence|]. destruct (Z.compare_spec b (b + 1)); auto; lia.
  - destruct x as [|d x].
    + split; [intros [H _]; congruence | intros [r H]; discriminate].
    + cbn [bcmp]. specialize (IH x). destruct (Z.compare_spec c d); destruct (Z.compare_spec d c); subst; try lia.
      * rewrite IH. split; intros [r H1]; exists r; congruence.
      * split; [intros [_ H2]; congruence|]. intros [r H2]. injection H2 as -> _. lia.
      * split; [intros [H2 _]; congruence|]. intros [r H2]. injection H2 as -> _. lia.
Qed.

Lemma encode_bytes_prefix_eq a b r s : bytes_ok a -> bytes_ok b ->
  encode_bytes a ++ r = encode_bytes b ++ s -> a = b /\ r = s.
Proof.
  intros Ha Hb E. pose proof (encode_bytes_cmp_app a b r s Ha Hb) as C.
  rewrite E, bcmp_refl in C. destruct (bcmp a b) eqn:D; try discriminate.
  apply bcmp_eq in D. subst. split; auto. apply bcmp_eq. auto.
Qed.

Lemma get_upper_bound k : bytes_ok k -> exists p b, encode_bytes k = p ++ [b] /\
  prefix_next (encode_bytes k) = p ++ [b + 1].
Proof.
  intros H. destruct (last_encode k) as [p [b [E Hb]]]. exists p, b. split; auto.
  rewrite E. apply prefix_next_snoc; [|lia]. rewrite <- E. apply encode_bytes_ok; auto.
Qed.

Lemma key_range_iff k k' s : bytes_ok k -> bytes_ok k' ->
  (in_range (encode_bytes k, prefix_next (encode_bytes k)) (encode_bytes k' ++ s) <-> k' = k).
Proof.
  intros H H'. destruct (get_upper_bound k H) as [p [b [E1 E2]]].
  unfold in_range, ble, blt. cbn [fst snd]. rewrite E2. rewrite E1 at 1. rewrite range_prefix_snoc. rewrite <- E1.
  split.
  - intros [r E]. symmetry in E. apply encode_bytes_prefix_eq in E; auto. intuition.
  - intros ->. exists s. auto.
Qed.

Lemma range_encode_iff a b k s : bytes_ok a -> bytes_ok b -> bytes_ok k ->
  (in_range (encode_bytes a, encode_bytes b) (encode_bytes k ++ s) <-> in_range (a, b) k).
Proof.
  intros Ha Hb Hk. unfold in_range, ble, blt. cbn [fst snd].
  pose proof (encode_bytes_cmp_app a k [] s Ha Hk) as C1. rewrite app_nil_r in C1.
  pose proof (encode_bytes_cmp_app k b s [] Hk Hb) as C2. rewrite app_nil_r in C2.
  rewrite C1, C2. destruct (bcmp a k), (bcmp k b) eqn:D; destruct s; simpl; intuition congruence.
Qed.

(** ** values *)
Lemma get_value_flag_snoc p b : get_value_flag (p ++ [b]) =
  if b =? 0 then Ok kPut else if b =? 1 then Ok kPutTTL else if b =? 2 then Ok kDelete else Crash.
Proof. unfold get_value_flag. rewrite back_snoc. reflexivity. Qed.

Lemma firstn_len_app {A} (a b : list A) : firstn (length (a ++ b) - length b) (a ++ b) = a.
Proof. apply firstn_app_exact. rewrite app_length. lia. Qed.
Lemma skipn_len_app {A} (a b : list A) : skipn (length (a ++ b) - length b) (a ++ b) = b.
Proof. apply skipn_app_exact. rewrite app_length. lia. Qed.

Lemma unpackage_package f ttl v : - two63 <= ttl < two63 ->
  unpackage_value3 (package_value f ttl v) =
    Ok (f, match f with kPutTTL => ttl | _ => 0 end, match f with kDelete => [] | _ => v end) /\
  unpackage_value (package_value f ttl v) = Ok (match f with kDelete => [] | _ => v end) /\
  get_value_flag (package_value f ttl v) = Ok f.
Proof.
  intros Ht. unfold unpackage_value3, unpackage_value. destruct f; cbn [package_value flag_byte].
  - rewrite get_value_flag_snoc. simpl obind. cbv iota. cbn [obind].
    change 1%nat with (@length Z [0]). rewrite firstn_len_app. auto.
  - rewrite app_assoc, get_value_flag_snoc. cbn [Z.eqb obind]. change (1 =? 0) with false. change (1 =? 1) with true.
    cbv iota. cbn [obind]. rewrite <- app_assoc.
    assert (L: length (write_long ttl ++ [1]) = 9%nat) by (rewrite app_length, write_long_length; auto).
    rewrite <- L. rewrite firstn_len_app, skipn_len_app.
    replace (Nat.ltb (length (v ++ write_long ttl ++ [1])) (length (write_long ttl ++ [1]))) with false
      by (symmetry; apply Nat.ltb_ge; rewrite (app_length v); lia).
    rewrite read_write_long by auto. auto.
  - change [2] with ([] ++ [2]). rewrite get_value_flag_snoc. auto.
Qed.

Lemma get_value_ttl_package ttl v : - two63 <= ttl < two63 ->
  get_value_ttl (package_value kPutTTL ttl v) = if (0 <? length v)%nat then Ok ttl else Crash.
Proof.
  intros Ht. unfold get_value_ttl. cbn [package_value flag_byte].
  assert (L: length (write_long ttl ++ [1]) = 9%nat) by (rewrite app_length, write_long_length; auto).
  rewrite app_length, L. destruct (Nat.ltb_spec 0 (length v)).
  - replace (length v + 9 <=? 9)%nat with false by (symmetry; apply Nat.leb_gt; lia).
    rewrite app_assoc, back_snoc. cbn [obind]. change (1 =? 1) with true. cbv iota.
    rewrite <- app_assoc. replace (length v + 9 - 9)%nat with (length v) by lia.
    rewrite skipn_app_exact by auto. apply read_write_long; auto.
  - replace (length v + 9 <=? 9)%nat with true by (symmetry; apply Nat.leb_le; lia). auto.
Qed.
