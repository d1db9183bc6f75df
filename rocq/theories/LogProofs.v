(** Lemmas about the log's keys and values and about the cache of terms. *)
From Coq Require Import ZArith List Bool Lia Sorted Arith.
From Verif Require Import Bytes SMap Outcome LogModel LogSpec.
Import ListNotations.
Open Scope Z_scope.

(* ---------------------------------------------------------------- keys *)
Definition i64 (x : Z) : Prop := 0 <= x <= kMaxIndex.
Lemma i64_256 x : i64 x -> 0 <= x < 256 ^ Z.of_nat 8.
Proof. unfold i64, kMaxIndex. change (256 ^ Z.of_nat 8) with (2 ^ 64). lia. Qed.

Lemma enc_key_cmp r i r' i' : i64 r -> i64 i -> i64 r' -> i64 i' ->
  bcmp (enc_key r i) (enc_key r' i') =
  match Z.compare r r' with Eq => Z.compare i i' | x => x end.
Proof.
  intros R I R' I'. unfold enc_key. cbn [bcmp]. change (68 ?= 68) with Eq. cbv iota.
  destruct (Z.compare r r') eqn:E.
  - apply Z.compare_eq in E. subst r'. rewrite bcmp_app. apply be_cmp; apply i64_256; auto.
  - rewrite bcmp_app_neq.
    + rewrite be_cmp by (apply i64_256; auto). exact E.
    + rewrite !be_length. auto.
    + rewrite be_cmp by (apply i64_256; auto). rewrite E. discriminate.
  - rewrite bcmp_app_neq.
    + rewrite be_cmp by (apply i64_256; auto). exact E.
    + rewrite !be_length. auto.
    + rewrite be_cmp by (apply i64_256; auto). rewrite E. discriminate.
Qed.

Lemma enc_key_inj r i r' i' : i64 r -> i64 i -> i64 r' -> i64 i' ->
  enc_key r i = enc_key r' i' -> r = r' /\ i = i'.
Proof.
  intros R I R' I' E. pose proof (enc_key_cmp r i r' i' R I R' I') as C. rewrite E, bcmp_refl in C.
  destruct (Z.compare r r') eqn:E1; try discriminate. apply Z.compare_eq in E1.
  symmetry in C. apply Z.compare_eq in C. auto.
Qed.

Lemma firstn_exact {A} n (a b : list A) : length a = n -> firstn n (a ++ b) = a.
Proof. intros H. subst n. rewrite firstn_app, Nat.sub_diag, firstn_all. cbn [firstn]. apply app_nil_r. Qed.
Lemma skipn_exact {A} n (a b : list A) : length a = n -> skipn n (a ++ b) = b.
Proof. intros H. subst n. rewrite skipn_app, Nat.sub_diag, skipn_all. reflexivity. Qed.

Lemma enc_key_length r i : length (enc_key r i) = 17%nat.
Proof. unfold enc_key. cbn [length]. rewrite app_length, !be_length. reflexivity. Qed.

Lemma dec_enc_key r i : i64 r -> i64 i -> dec_key (enc_key r i) = Ok (r, i).
Proof.
  intros R I. unfold dec_key. rewrite enc_key_length. cbn [Nat.eqb].
  unfold enc_key. change (skipn 1 (68 :: be 8 r ++ be 8 i)) with (be 8 r ++ be 8 i).
  change (skipn 9 (68 :: be 8 r ++ be 8 i)) with (skipn 8 (be 8 r ++ be 8 i)).
  rewrite firstn_exact, skipn_exact by apply be_length.
  rewrite !unbe_be, !Z.mod_small by (apply i64_256; auto). reflexivity.
Qed.

(* ---------------------------------------------------------------- values *)
Lemma unle_le n x : 0 <= x < 256 ^ Z.of_nat n -> unle (le n x) = x.
Proof.
  intros H. unfold unle, le. rewrite rev_involutive, unbe_be. apply Z.mod_small. auto.
Qed.
Lemma le_length n x : length (le n x) = n.
Proof. unfold le. rewrite rev_length, be_length. auto. Qed.

Lemma enc_val_length ty t d : length (enc_val ty t d) = (length d + 12)%nat.
Proof. unfold enc_val. rewrite !app_length, !le_length. lia. Qed.

Lemma dec_enc_val ty t d : 0 <= ty < 2 ^ 32 -> i64 t -> d <> [] ->
  dec_val (enc_val ty t d) = Ok (ty, t).
Proof.
  intros T I D. unfold dec_val. rewrite enc_val_length.
  assert (L : (0 < length d)%nat) by (destruct d; cbn [length]; [congruence|lia]).
  destruct (12 <? length d + 12)%nat eqn:E; [|apply Nat.ltb_ge in E; lia].
  unfold enc_val.
  replace (length d + 12 - 12)%nat with (length d) by lia.
  rewrite (skipn_exact (length d)), firstn_exact by (auto; apply le_length).
  rewrite (app_assoc d), (skipn_exact (length d + 12 - 8)) by (rewrite app_length, le_length; lia).
  rewrite !unle_le; auto.
  apply i64_256; auto.
Qed.

Lemma val_data ty t d : firstn (length (enc_val ty t d) - 12) (enc_val ty t d) = d.
Proof.
  rewrite enc_val_length. replace (length d + 12 - 12)%nat with (length d) by lia.
  unfold enc_val. rewrite firstn_app, Nat.sub_diag, firstn_all. cbn [firstn]. apply app_nil_r.
Qed.

Lemma entry_ok_val e : entry_ok e -> 0 <= e_type e < 2 ^ 32 /\ i64 (e_term e) /\ e_data e <> [].
Proof.
  intros [T [H [_ D]]]. unfold tNoOp, tData, tConf, i64 in *. split; [|split; auto; lia].
  destruct T as [T|[T|T]]; rewrite T; split; try lia; reflexivity.
Qed.

(* ---------------------------------------------------------------- the cache of terms *)
(** the entry in force at index i, read from the front *)
Fixpoint lookup (c : cache) (i : Z) (d : Z) : Z :=
  match c with
  | [] => d
  | (x, t) :: rest => if x <=? i then lookup rest i t else d
  end.

Definition inc (c : cache) : Prop := StronglySorted (fun a b => fst a < fst b) c.

Lemma inc_cons a c : inc (a :: c) <-> inc c /\ Forall (fun b => fst a < fst b) c.
Proof. split; intro H. inversion H; auto. destruct H; constructor; auto. Qed.

Lemma inc_app a b : inc (a ++ b) <-> inc a /\ inc b /\ (forall x y, In x a -> In y b -> fst x < fst y).
Proof.
  induction a as [|x a IH]; cbn [app]; split; intros H.
  - split; [constructor|]. split; auto. intros x y [].
  - apply H.
  - apply inc_cons in H. destruct H as [H F]. apply IH in H. destruct H as [A [B AB]].
    rewrite Forall_app in F. destruct F as [F1 F2]. split; [apply inc_cons; auto|]. split; auto.
    intros u v [U|U] V; subst; auto. rewrite Forall_forall in F2. auto.
  - destruct H as [A [B AB]]. apply inc_cons in A. destruct A as [A F]. apply inc_cons. split.
    + apply IH. split; auto. split; auto. intros; apply AB; auto. right; auto.
    + rewrite Forall_app. split; auto. rewrite Forall_forall. intros; apply AB; auto. left; auto.
Qed.

Lemma lookup_all c : forall i d, Forall (fun a => fst a <= i) c ->
  lookup c i d = match rev c with [] => d | (_, t) :: _ => t end.
Proof.
  induction c as [|[x t] c IH]; intros i d F; auto. inversion F; subst. cbn [fst] in *. cbn [lookup].
  destruct (x <=? i) eqn:E; [|apply Z.leb_gt in E; lia]. rewrite IH by auto. cbn [rev].
  destruct (rev c) as [|[y u] r]; reflexivity.
Qed.

Lemma lookup_app a b i d : inc (a ++ b) ->
  lookup (a ++ b) i d =
  match b with
  | [] => lookup a i d
  | (x, _) :: _ => if x <=? i then lookup b i d else lookup a i d
  end.
Proof.
  revert d. induction a as [|[y u] a IH]; intros d S.
  - destruct b as [|[x t] b]; auto. cbn [app lookup]. destruct (x <=? i); auto.
  - cbn [app] in S. apply inc_cons in S. destruct S as [S F]. cbn [app lookup].
    destruct (y <=? i) eqn:E.
    + rewrite IH by auto. destruct b as [|[x t] b]; auto. cbn [lookup].
      destruct (x <=? i) eqn:E2; auto.
    + destruct b as [|[x t] b]; auto. apply Z.leb_gt in E.
      rewrite Forall_forall in F. assert (X := F (x, t) (in_or_app _ _ _ (or_intror (in_eq _ _)))).
      cbn [fst] in X. destruct (x <=? i) eqn:E2; auto. apply Z.leb_le in E2. lia.
Qed.

Lemma lookup_small c i d : (forall x, In x c -> i < fst x) -> lookup c i d = d.
Proof.
  destruct c as [|[x t] c]; auto. intros H. cbn [lookup].
  assert (X := H (x, t) (in_eq _ _)). cbn [fst] in X.
  destruct (x <=? i) eqn:E; auto. apply Z.leb_le in E. lia.
Qed.

Lemma lookup_snoc c x t i : inc (c ++ [(x, t)]) ->
  lookup (c ++ [(x, t)]) i 0 = if x <=? i then t else lookup c i 0.
Proof.
  intros S. rewrite lookup_app by auto. cbn [lookup]. destruct (x <=? i); reflexivity.
Qed.

Lemma scan_back_lookup i c : inc c -> scan_back i (rev c) = lookup c i 0.
Proof.
  induction c as [|[x t] c IH] using rev_ind; auto. intros S. rewrite rev_app_distr. cbn [rev app scan_back].
  rewrite lookup_snoc by auto. destruct (x <=? i); auto. apply IH. apply inc_app in S. tauto.
Qed.

Lemma inc_nth c m n : inc c -> (m < n < length c)%nat -> fst (nth m c (0, 0)) < fst (nth n c (0, 0)).
Proof.
  revert m n. induction c as [|a c IH]; intros m n S H; [cbn [length] in H; lia|].
  apply inc_cons in S. destruct S as [S F]. cbn [length] in H. destruct n as [|n]; [lia|]. destruct m as [|m].
  - cbn [nth]. rewrite Forall_forall in F. apply F. apply nth_In. lia.
  - cbn [nth]. apply IH; auto. lia.
Qed.

Lemma div2_lt n : (Nat.div2 (S n) < S n)%nat.
Proof. apply Nat.lt_div2. lia. Qed.

Lemma upper_bound_spec fuel : forall i c first len,
  inc c -> (len <= fuel)%nat -> (first + len <= length c)%nat ->
  (forall m, (m < first)%nat -> fst (nth m c (0, 0)) <= i) ->
  (forall m, (first + len <= m < length c)%nat -> i < fst (nth m c (0, 0))) ->
  let p := upper_bound fuel i c first len in
  (p <= length c)%nat /\
  (forall m, (m < p)%nat -> fst (nth m c (0, 0)) <= i) /\
  (forall m, (p <= m < length c)%nat -> i < fst (nth m c (0, 0))).
Proof.
  induction fuel as [|f IH]; intros i c first len S FL LC Lo Hi.
  - assert (len = 0%nat) by lia. subst len. cbn [upper_bound]. rewrite Nat.add_0_r in *.
    cbv zeta. split; [lia|]. split; auto.
  - cbn [upper_bound]. destruct len as [|len].
    + rewrite Nat.add_0_r in *. cbv zeta. split; [lia|]. split; auto.
    + set (half := Nat.div2 (Datatypes.S len)). assert (HL : (half < Datatypes.S len)%nat) by apply div2_lt.
      cbv zeta. destruct (i <? fst (nth (first + half) c (0, 0))) eqn:E.
      * apply Z.ltb_lt in E. apply (IH i c first half); auto; try lia.
        intros m M. destruct (Nat.eq_dec m (first + half)); [subst; auto|].
        assert (fst (nth (first + half) c (0, 0)) < fst (nth m c (0, 0))) by (apply inc_nth; auto; lia).
        lia.
      * apply Z.ltb_ge in E. apply (IH i c (Datatypes.S (first + half)) (Datatypes.S len - half - 1)%nat); auto; try lia.
        -- intros m M. destruct (Nat.eq_dec m (first + half)); [subst; auto|].
           assert (fst (nth m c (0, 0)) < fst (nth (first + half) c (0, 0))) by (apply inc_nth; auto; lia).
           lia.
        -- intros m M. apply Hi. lia.
Qed.

Lemma lookup_pos c i p : inc c -> (p <= length c)%nat ->
  (forall m, (m < p)%nat -> fst (nth m c (0, 0)) <= i) ->
  (forall m, (p <= m < length c)%nat -> i < fst (nth m c (0, 0))) ->
  forall d, lookup c i d = match p with O => d | S n => snd (nth n c (0, 0)) end.
Proof.
  revert p. induction c as [|[x t] c IH]; intros p S P Lo Hi d.
  - cbn [length] in P. assert (p = 0%nat) by lia. subst. reflexivity.
  - apply inc_cons in S. destruct S as [S F]. cbn [lookup]. destruct p as [|n].
    + assert (X := Hi 0%nat). cbn [length nth fst] in X. destruct (x <=? i) eqn:E; auto.
      apply Z.leb_le in E. lia.
    + assert (X := Lo 0%nat). cbn [nth fst] in X. destruct (x <=? i) eqn:E; [|apply Z.leb_gt in E; lia].
      cbn [length] in P. rewrite (IH n); auto; try lia.
      * destruct n; reflexivity.
      * intros m M. apply (Lo (Datatypes.S m)). lia.
      * intros m M. apply (Hi (Datatypes.S m)). cbn [length]. lia.
Qed.

(** both ways of searching give the entry in force *)
Lemma cache_term_lookup c i : inc c -> cache_term c i = lookup c i 0.
Proof.
  intros S. unfold cache_term.
  destruct (rev c) as [|[x t] rc] eqn:E.
  - apply (f_equal (@rev _)) in E. rewrite rev_involutive in E. subst. reflexivity.
  - assert (C : c = rev rc ++ [(x, t)]) by (rewrite <- (rev_involutive c), E; reflexivity).
    destruct (x <=? i) eqn:X.
    + rewrite C in *. rewrite lookup_snoc, X by auto. reflexivity.
    + destruct (length c <? 15)%nat.
      * rewrite <- E. apply scan_back_lookup; auto.
      * destruct (upper_bound_spec (length c) i c 0 (length c) S) as [P [Lo Hi]]; try lia.
        symmetry. apply lookup_pos; auto.
Qed.

Lemma cache_prefix_eq a x t c keep : cache_prefix (a :: (x, t) :: c) keep =
  if x <=? keep then cache_prefix ((x, t) :: c) keep else a :: (x, t) :: c.
Proof. reflexivity. Qed.

Lemma cache_prefix_app c keep : exists p, c = p ++ cache_prefix c keep /\
  (c <> [] -> cache_prefix c keep <> []) /\
  forall a, In a p -> exists x t rest, cache_prefix c keep = (x, t) :: rest /\ x <= keep.
Proof.
  induction c as [|[y u] c IH]; [exists []; split; [reflexivity|split; [congruence|intros a []]]|].
  destruct c as [|[x t] c]; [exists []; split; [reflexivity|split; [cbn; congruence|intros a []]]|].
  rewrite cache_prefix_eq. destruct (x <=? keep) eqn:E.
  - apply Z.leb_le in E. destruct IH as [p [C [N P]]]. exists ((y, u) :: p).
    split; [cbn [app]; f_equal; exact C|]. split; [intros _; apply N; congruence|].
    intros a _. destruct p as [|q p].
    + cbn [app] in C. exists x, t, c. rewrite <- C. auto.
    + apply (P q). left; auto.
  - exists []. split; [reflexivity|]. split; [congruence|intros a []].
Qed.

Lemma cache_prefix_lookup c keep i : inc c -> keep <= i ->
  lookup (cache_prefix c keep) i 0 = lookup c i 0.
Proof.
  intros S K. destruct (cache_prefix_app c keep) as [p [C [_ P]]]. rewrite C in S at 1.
  rewrite C at 2. rewrite lookup_app by auto. destruct p as [|a p].
  - cbn [app] in C. rewrite <- C. destruct c as [|[x t] c]; auto.
    destruct (x <=? i) eqn:E; auto. cbn [lookup]. rewrite E. reflexivity.
  - destruct (P a (in_eq _ _)) as [x [t [rest [Q X]]]]. rewrite Q.
    destruct (x <=? i) eqn:E; auto. apply Z.leb_gt in E. lia.
Qed.

Lemma cache_prefix_In c keep a : In a (cache_prefix c keep) -> In a c.
Proof.
  destruct (cache_prefix_app c keep) as [p [C _]]. intros H. rewrite C. apply in_or_app. auto.
Qed.
Lemma cache_prefix_inc c keep : inc c -> inc (cache_prefix c keep).
Proof.
  destruct (cache_prefix_app c keep) as [p [C _]]. intros H. rewrite C in H. apply inc_app in H. tauto.
Qed.

Lemma cache_suffix_spec c keep : inc c ->
  exists p, c = cache_suffix c keep ++ p /\ (forall a, In a p -> keep < fst a) /\
            (forall a, In a (cache_suffix c keep) -> fst a <= keep).
Proof.
  unfold cache_suffix. induction c as [|[x t] c IH] using rev_ind; intros S.
  - exists []. split; [reflexivity|]. split; intros a [].
  - rewrite rev_app_distr. cbn [rev app pop_back]. assert (S2 := S). apply inc_app in S.
    destruct S as [S [_ B]]. destruct (keep <? x) eqn:E.
    + destruct (IH S) as [p [C [P Q]]]. exists (p ++ [(x, t)]). split.
      * rewrite app_assoc, <- C. reflexivity.
      * split; auto. intros a H. apply in_app_or in H. destruct H as [H|[H|[]]]; auto. subst. apply Z.ltb_lt in E. auto.
    + exists []. cbn [rev]. rewrite rev_involutive. split; [rewrite app_nil_r; reflexivity|]. split; [intros a []|].
      intros a H. apply Z.ltb_ge in E. apply in_app_or in H. destruct H as [H|[H|[]]]; [|subst; auto].
      assert (X := B a (x, t) H (in_eq _ _)). cbn [fst] in X. lia.
Qed.

Lemma cache_suffix_lookup c keep i : inc c -> i <= keep ->
  lookup (cache_suffix c keep) i 0 = lookup c i 0.
Proof.
  intros S K. destruct (cache_suffix_spec c keep S) as [p [C [P _]]]. rewrite C in S at 1. rewrite C at 2.
  rewrite lookup_app by auto. destruct p as [|[x t] p]; auto.
  assert (X := P (x, t) (in_eq _ _)). cbn [fst] in X. destruct (x <=? i) eqn:E; auto. apply Z.leb_le in E. lia.
Qed.
Lemma cache_suffix_In c keep a : inc c -> In a (cache_suffix c keep) -> In a c /\ fst a <= keep.
Proof.
  intros S H. destruct (cache_suffix_spec c keep S) as [p [C [_ Q]]]. split; auto.
  rewrite C. apply in_or_app. auto.
Qed.
Lemma cache_suffix_inc c keep : inc c -> inc (cache_suffix c keep).
Proof.
  intros S. destruct (cache_suffix_spec c keep S) as [p [C _]]. rewrite C in S. apply inc_app in S. tauto.
Qed.

Lemma cache_append_spec c i t : inc c -> (forall x u, In (x, u) c -> x < i /\ u <= t) ->
  exists c', cache_append c i t = Some c' /\ inc c' /\
    (forall x u, In (x, u) c' -> In (x, u) c \/ (x, u) = (i, t)) /\
    (forall j, j < i -> lookup c' j 0 = lookup c j 0) /\
    (forall j, i <= j -> lookup c' j 0 = t).
Proof.
  intros S H. unfold cache_append. destruct (rev c) as [|[x u] rc] eqn:E.
  - apply (f_equal (@rev _)) in E. rewrite rev_involutive in E. subst c. exists [(i, t)].
    split; [reflexivity|]. split; [repeat constructor|]. split; [intros x u [A|[]]; auto|]. cbn [lookup rev]. split; intros j J.
    + destruct (i <=? j) eqn:Q; auto. apply Z.leb_le in Q. lia.
    + destruct (i <=? j) eqn:Q; auto. apply Z.leb_gt in Q. lia.
  - assert (C : c = rev rc ++ [(x, u)]) by (rewrite <- (rev_involutive c), E; reflexivity).
    assert (HX := H x u). rewrite C in HX. destruct HX as [X U]; [apply in_or_app; right; left; auto|].
    destruct ((i <=? x) || (t <? u)) eqn:B.
    { apply orb_true_iff in B. destruct B as [B|B]; [apply Z.leb_le in B|apply Z.ltb_lt in B]; lia. }
    destruct (t =? u) eqn:T.
    + apply Z.eqb_eq in T. subst u. exists c. split; [reflexivity|]. split; auto. split; auto. split; auto.
      intros j J. rewrite C in *. rewrite lookup_snoc by auto. destruct (x <=? j) eqn:Q; auto.
      apply Z.leb_gt in Q. lia.
    + assert (S2 : inc (c ++ [(i, t)])).
      { apply inc_app. split; auto. split; [repeat constructor|]. intros [a b] y A [Y|[]]. subst y. cbn [fst].
        apply (H a b A). }
      exists (c ++ [(i, t)]). split; [reflexivity|]. split; auto. split.
      { intros a b A. apply in_app_or in A. destruct A as [A|[A|[]]]; auto. }
      split; intros j J; rewrite lookup_snoc by auto.
      * destruct (i <=? j) eqn:Q; auto. apply Z.leb_le in Q. lia.
      * destruct (i <=? j) eqn:Q; auto. apply Z.leb_gt in Q. lia.
Qed.
