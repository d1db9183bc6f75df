(** The merged iterator delivers everything in order. *)
From Coq Require Import ZArith List Lia Bool Sorted Permutation.
From Verif Require Import Bytes SMap Outcome CodecModel CodecSpec ScModel.
Import ListNotations.
Open Scope Z_scope.

Lemma ble_refl a : ble a a. Proof. unfold ble. rewrite bcmp_refl. discriminate. Qed.
Lemma bleb_ble a b : bleb a b = true <-> ble a b.
Proof. unfold bleb, ble. destruct (bcmp a b); split; try discriminate; try congruence; auto. Qed.
Lemma bltb_blt a b : bltb a b = true <-> blt a b.
Proof. unfold bltb, blt. destruct (bcmp a b); split; try discriminate; auto. Qed.
Lemma blt_ble a b : blt a b -> ble a b. Proof. unfold blt, ble. intros ->. discriminate. Qed.
Lemma ble_or a b : ble a b <-> blt a b \/ a = b.
Proof.
  unfold ble, blt. split.
  - destruct (bcmp a b) eqn:E; intros H; [right; apply bcmp_eq; auto|left; auto|congruence].
  - intros [->| ->]; [discriminate|rewrite bcmp_refl; discriminate].
Qed.
Lemma ble_trans a b c : ble a b -> ble b c -> ble a c.
Proof.
  rewrite !ble_or. intros [A| ->] [B| ->]; auto. left. unfold blt in *. apply (bcmp_trans a b c); auto.
Qed.
Lemma ble_total a b : ble a b \/ ble b a.
Proof. unfold ble. rewrite (bcmp_opp a b). destruct (bcmp a b); simpl; [left|left|right]; discriminate. Qed.
Lemma ble_antisym a b : ble a b -> ble b a -> a = b.
Proof. unfold ble. rewrite (bcmp_opp a b). destruct (bcmp a b) eqn:E; simpl; intros; try congruence. apply bcmp_eq. auto. Qed.

Definition kle (a b : item) : Prop := ble (fst a) (fst b).

(** *** the heap *)
Lemma least_spec h e : In e (least h) -> In e h /\ forall e', In e' h -> ble (e_key e) (e_key e').
Proof.
  unfold least. rewrite filter_In. intros [I F]. split; auto. intros e' I'. rewrite forallb_forall in F. apply bleb_ble. auto.
Qed.

Lemma least_exists : forall h : list hentry, h <> [] -> exists e, In e h /\ forall e', In e' h -> ble (e_key e) (e_key e').
Proof.
  induction h as [|x h IH]; [congruence|]. intros _. destruct h as [|y h].
  - exists x. split; [left; auto|]. intros e' [<-|[]]. apply ble_refl.
  - destruct (IH ltac:(discriminate)) as (e & I & M). destruct (ble_total (e_key x) (e_key e)) as [L|L].
    + exists x. split; [left; auto|]. intros e' [<-|I']; [apply ble_refl|]. eapply ble_trans; [exact L|]. auto.
    + exists e. split; [right; auto|]. intros e' [<-|I']; auto.
Qed.

Lemma top_some tb h e : top tb h = Some e -> In e h /\ forall e', In e' h -> ble (e_key e) (e_key e').
Proof. unfold top. intros E. apply nth_error_In in E. apply least_spec. auto. Qed.
Lemma top_none tb h : top tb h = None -> h = [].
Proof.
  unfold top. intros E. destruct h as [|x h]; auto. exfalso.
  destruct (least_exists (x :: h) ltac:(discriminate)) as (e & I & M).
  assert (In e (least (x :: h))). { unfold least. apply filter_In. split; auto. apply forallb_forall. intros e' I'. apply bleb_ble. auto. }
  apply nth_error_None in E. destruct (least (x :: h)); [destruct H|]. pose proof (Nat.mod_upper_bound (tb (x :: h)) (length (h0 :: l)) ltac:(discriminate)). lia.
Qed.

(** *** lists of lists *)
Lemma set_nth_len {A} (l : list A) n x : length (set_nth l n x) = length l.
Proof. revert n. induction l; intros [|n]; simpl; auto. Qed.
Lemma nth_set_nth {A} (l : list A) n m x d : (n < length l)%nat -> nth m (set_nth l n x) d = if Nat.eqb m n then x else nth m l d.
Proof.
  revert n m. induction l as [|y l IH]; intros [|n] [|m] L; simpl in *; try lia; auto. apply IH. lia.
Qed.
Lemma set_nth_perm (l : list (list item)) p x r : nth p l [] = x :: r -> Permutation (concat l) (x :: concat (set_nth l p r)).
Proof.
  revert p. induction l as [|y l IH]; intros [|p] E; simpl in *; try discriminate.
  - subst y. apply Permutation_refl.
  - eapply Permutation_trans; [apply Permutation_app_head; apply (IH p E)|]. apply Permutation_sym. apply Permutation_middle.
Qed.
Lemma nth_cons_lt {A} (l : list (list A)) p x r : nth p l [] = x :: r -> (p < length l)%nat.
Proof. intros E. destruct (Nat.lt_ge_cases p (length l)); auto. rewrite nth_overflow in E by auto. discriminate. Qed.

Definition rest_of (m : mit) : list item := map e_item (m_heap m) ++ concat (m_iters m).

Record inv (ok : nat -> Prop) (m : mit) : Prop := {
  i_nodup : NoDup (map e_pos (m_heap m));
  i_sorted : forall p, StronglySorted kle (nth p (m_iters m) []);
  i_cover : forall p, ok p -> nth p (m_iters m) [] = [] \/
              exists e, In e (m_heap m) /\ e_pos e = p /\ Forall (kle (e_item e)) (nth p (m_iters m) []) }.

Lemma push_perm m p : Permutation (rest_of (push m p)) (rest_of m).
Proof.
  unfold push. destruct (nth p (m_iters m) []) as [|x r] eqn:E; [apply Permutation_refl|]. unfold rest_of. cbn [m_heap m_iters map e_item].
  apply Permutation_sym. eapply Permutation_trans; [apply Permutation_app_head; apply (set_nth_perm _ p x r E)|].
  apply Permutation_sym. apply Permutation_middle.
Qed.

Lemma push_inv ok m p : inv ok m -> ~ In p (map e_pos (m_heap m)) -> inv (fun q => q = p \/ ok q) (push m p).
Proof.
  intros [N S C] NI. unfold push. destruct (nth p (m_iters m) []) as [|x r] eqn:E.
  - split; auto. intros q [->|O]; auto.
  - assert (L := nth_cons_lt _ _ _ _ E). assert (SP := S p). rewrite E in SP. inversion SP as [|? ? S1 F1]; subst.
    split; cbn [m_heap m_iters].
    + cbn [map e_pos]. constructor; auto.
    + intros q. rewrite nth_set_nth by auto. destruct (Nat.eqb q p); auto.
    + intros q O. rewrite nth_set_nth by auto. destruct (Nat.eqb_spec q p) as [->|NE].
      * right. eexists. split; [left; reflexivity|]. cbn [e_pos e_item]. auto.
      * destruct O as [->|O]; [congruence|]. destruct (C q O) as [C1|(e & I & P & F)]; [left; auto|]. right. exists e. split; [right; auto|auto].
Qed.

Lemma push_heap m p q : In q (map e_pos (m_heap (push m p))) -> q = p \/ In q (map e_pos (m_heap m)).
Proof. unfold push. destruct (nth p (m_iters m) []); auto. cbn [m_heap map e_pos]. intros [H|H]; auto. Qed.

Lemma inv_imp (ok ok' : nat -> Prop) m : (forall p, ok' p -> ok p) -> inv ok m -> inv ok' m.
Proof. intros H [A B C]. split; auto. Qed.

Lemma merged_inv iters : (forall p, StronglySorted kle (nth p iters [])) -> inv (fun p => (p < length iters)%nat) (merged iters) /\
  Permutation (rest_of (merged iters)) (concat iters).
Proof.
  intros SS. unfold merged.
  assert (G : forall n k m, inv (fun p => (p < k)%nat) m -> (forall q, In q (map e_pos (m_heap m)) -> (q < k)%nat) ->
            inv (fun p => (p < k + n)%nat) (fold_left push (seq k n) m) /\ Permutation (rest_of (fold_left push (seq k n) m)) (rest_of m)).
  { induction n as [|n IH]; intros k m I H; simpl.
    - rewrite Nat.add_0_r. auto.
    - destruct (IH (S k) (push m k)) as [I1 P1].
      + apply (inv_imp (fun q => q = k \/ (q < k)%nat)); [intros; lia|]. apply push_inv; auto. intros J. apply H in J. lia.
      + intros q J. apply push_heap in J. destruct J as [->|J]; [lia|]. apply H in J. lia.
      + split; [apply (inv_imp (fun p => (p < S k + n)%nat)); [intros; lia|exact I1]|].
        eapply Permutation_trans; [exact P1|apply push_perm]. }
  destruct (G (length iters) O (mkMit iters [])) as [I P].
  - split; cbn; auto; [constructor|intros; lia].
  - intros q [].
  - split; auto.
Qed.

Lemma next_spec m e : inv (fun p => (p < length (m_iters m))%nat) m -> In e (m_heap m) ->
  inv (fun p => (p < length (m_iters (next m e)))%nat) (next m e) /\ Permutation (rest_of m) (e_item e :: rest_of (next m e)).
Proof.
  intros [N S C] I. unfold next. set (h := filter (fun e' => negb (Nat.eqb (e_pos e') (e_pos e))) (m_heap m)).
  assert (PH : Permutation (m_heap m) (e :: h)).
  { unfold h. clear S C. revert I N. generalize (m_heap m). induction l as [|x l IH]; [intros []|]. intros [->|I] N; cbn [filter map] in *.
    - rewrite Nat.eqb_refl. cbn [negb]. constructor. inversion N as [|? ? NI N']; subst.
      assert (F : filter (fun e' => negb (Nat.eqb (e_pos e') (e_pos e))) l = l).
      { clear IH N N'. induction l as [|y l IH]; auto. cbn [filter map] in *. destruct (Nat.eqb_spec (e_pos y) (e_pos e)) as [X|X].
        - exfalso. apply NI. left. auto.
        - cbn [negb]. f_equal. apply IH. intros J. apply NI. right. auto. }
      rewrite F. apply Permutation_refl.
    - inversion N as [|? ? NI N']; subst. destruct (Nat.eqb_spec (e_pos x) (e_pos e)) as [X|X].
      + exfalso. apply NI. rewrite X. apply in_map. auto.
      + cbn [negb]. eapply Permutation_trans; [apply perm_skip; apply (IH I N')|]. apply perm_swap. }
  assert (NH : ~ In (e_pos e) (map e_pos h)).
  { unfold h. intros J. apply in_map_iff in J. destruct J as (x & E & J). apply filter_In in J. rewrite E, Nat.eqb_refl in J. destruct J; discriminate. }
  assert (ND : NoDup (map e_pos h)).
  { assert (X := Permutation_NoDup (Permutation_map e_pos PH) N). inversion X; auto. }
  assert (I0 : inv (fun p => (p < length (m_iters m))%nat /\ p <> e_pos e) (mkMit (m_iters m) h)).
  { split; cbn [m_heap m_iters]; auto. intros p [L NE]. destruct (C p L) as [C1|(x & J & P & F)]; auto. right. exists x. split; auto.
    unfold h. apply filter_In. split; auto. destruct (Nat.eqb_spec (e_pos x) (e_pos e)); auto. congruence. }
  assert (LE : length (m_iters (push (mkMit (m_iters m) h) (e_pos e))) = length (m_iters m)).
  { unfold push. cbn [m_iters]. destruct (nth (e_pos e) (m_iters m) []); auto. cbn [m_iters]. apply set_nth_len. }
  split.
  - rewrite LE. apply (inv_imp (fun q => q = e_pos e \/ ((q < length (m_iters m))%nat /\ q <> e_pos e))); [intros p L; destruct (Nat.eq_dec p (e_pos e)); auto|].
    apply push_inv; auto.
  - eapply Permutation_trans.
    + unfold rest_of at 1. apply Permutation_app_tail. apply (Permutation_map e_item PH).
    + cbn [map app]. constructor. apply Permutation_sym. apply (push_perm (mkMit (m_iters m) h)).
Qed.

Lemma least_rest m e : inv (fun p => (p < length (m_iters m))%nat) m -> In e (m_heap m) ->
  (forall e', In e' (m_heap m) -> ble (e_key e) (e_key e')) -> Forall (kle (e_item e)) (rest_of m).
Proof.
  intros [N S C] I M. apply Forall_forall. intros x J. unfold rest_of in J. apply in_app_or in J. destruct J as [J|J].
  - apply in_map_iff in J. destruct J as (e' & <- & J). apply (M e' J).
  - apply in_concat in J. destruct J as (l & J1 & J2). apply (In_nth _ _ []) in J1. destruct J1 as (p & L & E).
    destruct (C p L) as [C1|(e' & J3 & P & F)]; [rewrite <- E, C1 in J2; destruct J2|].
    rewrite E in F. rewrite Forall_forall in F. unfold kle. eapply ble_trans; [apply (M e' J3)|apply (F x J2)].
Qed.

Lemma visit_spec tb : forall fuel m, inv (fun p => (p < length (m_iters m))%nat) m -> (length (rest_of m) < fuel)%nat ->
  Permutation (visit fuel tb m) (rest_of m) /\ StronglySorted kle (visit fuel tb m).
Proof.
  induction fuel as [|f IH]; intros m I L; [lia|]. cbn [visit]. destruct (top tb (m_heap m)) as [e|] eqn:T.
  - destruct (top_some _ _ _ T) as [J M]. destruct (next_spec m e I J) as [I1 P1].
    assert (LP := Permutation_length P1). cbn [length] in LP.
    destruct (IH (next m e) I1 ltac:(lia)) as [P2 S2]. split.
    + eapply Permutation_trans; [apply perm_skip; exact P2|]. apply Permutation_sym. exact P1.
    + constructor; auto. assert (F := least_rest m e I J M).
      assert (F2 := Permutation_Forall (Permutation_trans P1 (perm_skip _ (Permutation_sym P2))) F). inversion F2; auto.
  - apply top_none in T. unfold rest_of. rewrite T. cbn [map app].
    assert (concat (m_iters m) = []).
    { destruct I as [_ _ C]. rewrite T in C. clear -C. assert (X : forall l, In l (m_iters m) -> l = []).
      { intros l J. apply (In_nth _ _ []) in J. destruct J as (p & L & E). destruct (C p L) as [D|(e & [] & _)]. congruence. }
      clear C. induction (m_iters m) as [|y l IH]; auto. cbn [concat]. rewrite (X y (or_introl eq_refl)). apply IH. intros z J. apply X. right. auto. }
    rewrite H. split; constructor.
Qed.

Lemma walk_spec tb cfs start stop : (forall c, In c cfs -> StronglySorted kle (seek_cf start stop c)) ->
  Permutation (walk tb cfs start stop) (concat (map (seek_cf start stop) cfs)) /\ StronglySorted kle (walk tb cfs start stop).
Proof.
  intros SS. unfold walk. set (iters := map (seek_cf start stop) cfs).
  destruct (merged_inv iters) as [I P].
  { intros p. destruct (Nat.lt_ge_cases p (length iters)) as [L|L].
    - assert (J := nth_In iters [] L). unfold iters in J at 2. apply in_map_iff in J. destruct J as (c & E & J). rewrite <- E. auto.
    - rewrite nth_overflow by auto. constructor. }
  assert (LE : length (m_iters (merged iters)) = length iters).
  { unfold merged. assert (G : forall l m, length (m_iters (fold_left push l m)) = length (m_iters m)).
    { induction l as [|p l IH]; intros m; simpl; auto. rewrite IH. unfold push. destruct (nth p (m_iters m) []); auto. cbn [m_iters]. apply set_nth_len. }
    rewrite G. auto. }
  destruct (visit_spec tb (S (total_items iters)) (merged iters)) as [P2 S2].
  - rewrite LE. auto.
  - rewrite (Permutation_length P). unfold total_items. lia.
  - split; auto. eapply Permutation_trans; eauto.
Qed.
