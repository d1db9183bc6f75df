From Coq Require Import ZArith List Bool Arith Lia Sorted.
From Verif Require Import Outcome LatchModel LatchSpec.
Import ListNotations.
Open Scope Z_scope.

(** ** the required hashes *)

Lemma insert_in x y l : In y (insert x l) <-> y = x \/ In y l.
Proof.
  induction l as [|a l IH]; cbn [insert].
  - cbn. intuition.
  - destruct (Z.ltb_spec x a); [cbn; intuition|]. destruct (Z.eqb_spec x a) as [->|N].
    + cbn. intuition.
    + cbn. rewrite IH. intuition.
Qed.

Lemma insert_sorted x l : StronglySorted Z.lt l -> StronglySorted Z.lt (insert x l).
Proof.
  induction 1 as [|a l S IH F]; cbn [insert]; [repeat constructor|].
  destruct (Z.ltb_spec x a).
  - constructor; [constructor; assumption|]. constructor; [assumption|].
    rewrite Forall_forall in *. intros y I. specialize (F y I). lia.
  - destruct (Z.eqb_spec x a) as [->|N]; [constructor; assumption|]. constructor; [exact IH|].
    rewrite Forall_forall in *. intros y I. apply insert_in in I. destruct I as [->|I]; [lia|auto].
Qed.

Lemma make_lock_in hs h : In h (make_lock hs) <-> In h hs.
Proof. induction hs as [|a hs IH]; cbn; [tauto|]. rewrite insert_in, IH. intuition. Qed.

Lemma make_lock_sorted hs : StronglySorted Z.lt (make_lock hs).
Proof. induction hs as [|a hs IH]; cbn; [constructor|]. apply insert_sorted, IH. Qed.

(** ** updating the list of threads *)

Lemma upd_length {A} (l : list A) n x : length (upd l n x) = length l.
Proof. revert n. induction l as [|a l IH]; intros [|n]; cbn; auto. Qed.

Lemma upd_same {A} (l : list A) n x y : nth_error l n = Some y -> nth_error (upd l n x) n = Some x.
Proof. revert n. induction l as [|a l IH]; intros [|n] H; cbn in *; try discriminate; auto. Qed.

Lemma upd_other {A} (l : list A) n m x : m <> n -> nth_error (upd l n x) m = nth_error l m.
Proof.
  revert n m. induction l as [|a l IH]; intros [|n] [|m] H; cbn; auto; try congruence.
Qed.

Lemma upd_in_lists l n t t' c : nth_error l n = Some t ->
  in_lists (upd l n t') c = in_lists l c - Z.of_nat (count_occ Nat.eq_dec (wake_list t) c)
                            + Z.of_nat (count_occ Nat.eq_dec (wake_list t') c).
Proof.
  revert n. induction l as [|a l IH]; intros [|n] H; cbn in *; try discriminate.
  - injection H as ->. lia.
  - rewrite (IH n H). lia.
Qed.

Lemma in_lists_nonneg l c : 0 <= in_lists l c.
Proof. induction l as [|a l IH]; cbn; lia. Qed.

Lemma in_lists_ge l n t c : nth_error l n = Some t -> Z.of_nat (count_occ Nat.eq_dec (wake_list t) c) <= in_lists l c.
Proof.
  revert n. induction l as [|a l IH]; intros [|n] H; cbn in *; try discriminate.
  - injection H as ->. assert (G := in_lists_nonneg l c). lia.
  - specialize (IH n H). lia.
Qed.

(** ** queues *)

Definition subq (h : Z) (q : queue) : list nat := map snd (filter (fun e => fst e =? h) q).

Lemma first_req_sub h q : first_req h q = hd_error (subq h q).
Proof.
  unfold subq. induction q as [|[x c] q IH]; [reflexivity|]. cbn. destruct (x =? h); [reflexivity|exact IH].
Qed.

Lemma subq_push h h' c q : subq h (wait_for_wake h' c q) = subq h q ++ (if h' =? h then [c] else []).
Proof. unfold subq, wait_for_wake. rewrite filter_app, map_app. cbn. destruct (h' =? h); reflexivity. Qed.

Lemma erase_sub h q : match erase_first h q with
  | Some (c, q') => subq h q = c :: subq h q' /\ (forall h', h' <> h -> subq h' q' = subq h' q) /\
                    (forall e, In e q' -> In e q)
  | None => subq h q = []
  end.
Proof.
  unfold subq. induction q as [|[x c] q IH]; [reflexivity|]. cbn [erase_first].
  destruct (Z.eqb_spec x h) as [->|N].
  - cbn. rewrite Z.eqb_refl. split; [reflexivity|]. split; [|auto].
    intros h' Nh. destruct (Z.eqb_spec h h'); [congruence|reflexivity].
  - destruct (erase_first h q) as [[w q']|].
    + destruct IH as [H1 [H2 H3]]. cbn. destruct (Z.eqb_spec x h); [congruence|]. split; [exact H1|]. split.
      * intros h' Nh. destruct (x =? h'); cbn; [f_equal|]; apply H2, Nh.
      * intros e [H|H]; auto.
    + cbn. destruct (Z.eqb_spec x h); [congruence|exact IH].
Qed.

Lemma pop_sub h q : h <> 0 -> (forall e, In e q -> fst e <> 0) -> match pop_front h q with
  | Some (c, q') => subq h q = c :: subq h q' /\ (forall h', h' <> h -> subq h' q' = subq h' q) /\
                    (forall e, In e q' -> In e q)
  | None => subq h q = []
  end.
Proof.
  intros N Z0. destruct q as [|[x c] q]; [reflexivity|]. cbn [pop_front].
  destruct (Z.eqb_spec x h) as [->|Nx]; [|apply erase_sub].
  assert (S : maybe_shrink q = q).
  { unfold maybe_shrink. clear -Z0. induction q as [|e q IH]; [reflexivity|]. cbn.
    assert (E : negb (fst e =? 0) = true). { apply negb_true_iff, Z.eqb_neq. apply Z0. cbn. auto. }
    rewrite E. f_equal. apply IH. intros e' I. apply Z0. cbn in I |- *. intuition. }
  rewrite S. unfold subq. cbn. rewrite Z.eqb_refl. split; [reflexivity|]. split; [|auto].
  intros h' Nh. destruct (Z.eqb_spec h h'); [congruence|reflexivity].
Qed.

(** ** the invariant *)

(** the hashes in whose queue a command stands *)
Definition claims (t : thread) (h : Z) : Prop :=
  match ph t with
  | Acq i w => In h (firstn i (req t)) \/ (w = true /\ nth_error (req t) i = Some h)
  | Wait i => In h (firstn i (req t)) \/ nth_error (req t) i = Some h
  | Hold => In h (req t)
  | Rel j _ => In h (skipn j (req t))
  | _ => False
  end.

Section Slots.
Variable slots : Z.

Definition Q (s : lstate) (h : Z) : list nat := queue_of slots s h.

Lemma Q_sub s h : Q s h = subq h (qs s (slot slots h)).
Proof. reflexivity. Qed.

Definition expected (s : lstate) (c : nat) : Z :=
  match nth_error (ths s) c with
  | Some t => match ph t with
              | Wait i => match nth_error (req t) i with
                          | Some h => match hd_error (Q s h) with Some c' => if (c' =? c)%nat then 1 else 0 | None => 0 end
                          | None => 0
                          end
              | _ => 0
              end
  | None => 0
  end.

Definition thread_ok (s : lstate) (c : nat) (t : thread) : Prop :=
  StronglySorted Z.lt (req t) /\ ~ In 0 (req t) /\ cnt t <= 0 /\
  match ph t with
  | Acq i w => w = true -> exists h, nth_error (req t) i = Some h /\ hd_error (Q s h) = Some c
  | Wait i => exists h, nth_error (req t) i = Some h
  | Sig _ (Some c') => exists t', nth_error (ths s) c' = Some t'
  | _ => True
  end.

Record linv (s : lstate) : Prop := {
  l_zero : forall i e, In e (qs s i) -> fst e <> 0;
  l_nodup : forall h, NoDup (Q s h);
  l_claims : forall h c, In c (Q s h) <-> exists t, nth_error (ths s) c = Some t /\ claims t h;
  l_first : forall c t h, nth_error (ths s) c = Some t -> owns t h -> hd_error (Q s h) = Some c;
  l_ok : forall c t, nth_error (ths s) c = Some t -> thread_ok s c t;
  l_wake : forall c, wakeups s c = expected s c
}.

Lemma sorted_nth l i h : StronglySorted Z.lt l -> nth_error l i = Some h ->
  (forall x, In x (firstn i l) -> x < h) /\ (forall x, In x (skipn (S i) l) -> h < x).
Proof.
  intros S. revert i. induction S as [|a l S IH F]; intros [|i] H; cbn in *; try discriminate.
  - injection H as ->. split; [intros x []|]. rewrite Forall_forall in F. exact F.
  - destruct (IH i H) as [H1 H2]. split; [|exact H2]. intros x [<-|I]; [|auto].
    rewrite Forall_forall in F. apply F. eapply nth_error_In; eassumption.
Qed.

Lemma firstn_S {A} (l : list A) i x : nth_error l i = Some x -> firstn (S i) l = firstn i l ++ [x].
Proof.
  revert i. induction l as [|a l IH]; intros [|i] H; cbn in *; try discriminate.
  - injection H as ->. reflexivity.
  - f_equal. apply IH, H.
Qed.

Lemma skipn_nth {A} (l : list A) i x : nth_error l i = Some x -> skipn i l = x :: skipn (S i) l.
Proof.
  revert i. induction l as [|a l IH]; intros [|i] H; cbn in *; try discriminate.
  - injection H as ->. reflexivity.
  - apply IH, H.
Qed.

Lemma owns_claims t h : owns t h -> claims t h.
Proof. unfold owns, claims. destruct (ph t); auto. Qed.

Lemma Q_setq_push s h c h' : Q (mkL (ths s) (setq (qs s) (slot slots h) (wait_for_wake h c (qs s (slot slots h)))) (touched s)) h'
  = Q s h' ++ (if h =? h' then [c] else []).
Proof.
  rewrite !Q_sub. cbn [qs]. unfold setq. destruct (Z.eqb_spec (slot slots h') (slot slots h)) as [E|N].
  - rewrite E. apply subq_push.
  - destruct (Z.eqb_spec h h') as [->|N']; [congruence|]. now rewrite app_nil_r.
Qed.

Lemma Q_ths l f b l' b' h : Q (mkL l f b) h = Q (mkL l' f b') h.
Proof. reflexivity. Qed.

(** a step that changes only thread c, with the same queues and claims *)
Lemma same_queues s c t t' b : linv s -> nth_error (ths s) c = Some t ->
  req t' = req t ->
  (forall h, claims t' h <-> claims t h) -> (forall h, owns t' h -> hd_error (Q s h) = Some c) ->
  thread_ok (mkL (upd (ths s) c t') (qs s) b) c t' ->
  wake_list t' = wake_list t -> 
  (expected (mkL (upd (ths s) c t') (qs s) b) c = expected s c + cnt t - cnt t') ->
  linv (mkL (upd (ths s) c t') (qs s) b).
Proof.
  intros [H1 H2 H3 H4 H5 H6] Ht Er Ec Eo Ok' Ew Ex.
  assert (N1 : forall d, d <> c -> nth_error (upd (ths s) c t') d = nth_error (ths s) d) by (intros; now apply upd_other).
  assert (N2 : nth_error (upd (ths s) c t') c = Some t') by (eapply upd_same; eassumption).
  constructor; cbn [qs ths].
  - exact H1.
  - intros h. rewrite (Q_ths _ _ _ (ths s) (touched s)). destruct s. apply H2.
  - intros h d. rewrite (Q_ths _ _ _ (ths s) (touched s)). change (mkL (ths s) (qs s) (touched s)) with (mkL (ths s) (qs s) (touched s)).
    assert (E : Q (mkL (ths s) (qs s) (touched s)) h = Q s h) by (destruct s; reflexivity). rewrite E, H3.
    destruct (Nat.eq_dec d c) as [->|N].
    + split; intros [x [Hx Hc]].
      * rewrite Ht in Hx. injection Hx as <-. exists t'. split; [exact N2|]. now apply Ec.
      * rewrite N2 in Hx. injection Hx as <-. exists t. split; [exact Ht|]. now apply Ec.
    + rewrite (N1 d N). reflexivity.
  - intros d x h Hx Ho. assert (E : Q (mkL (upd (ths s) c t') (qs s) b) h = Q s h) by reflexivity. rewrite E.
    destruct (Nat.eq_dec d c) as [->|N].
    + rewrite N2 in Hx. injection Hx as <-. apply Eo, Ho.
    + rewrite (N1 d N) in Hx. eapply H4; eassumption.
  - intros d x Hx. destruct (Nat.eq_dec d c) as [->|N].
    + rewrite N2 in Hx. injection Hx as <-. exact Ok'.
    + rewrite (N1 d N) in Hx. destruct (H5 d x Hx) as [K1 [K2 [K3 K4]]]. split; [exact K1|]. split; [exact K2|]. split; [exact K3|].
      destruct (ph x) as [| | | | |wl [c'|]|]; auto. destruct K4 as [u Hu]. cbn [ths].
      destruct (Nat.eq_dec c' c) as [->|N']; [exists t'; exact N2|]. exists u. rewrite (N1 c' N'). exact Hu.
  - intros d. unfold wakeups. cbn [ths]. rewrite (upd_in_lists _ _ _ _ _ Ht), Ew.
    specialize (H6 d). unfold wakeups in H6.
    destruct (Nat.eq_dec d c) as [->|N].
    + rewrite N2, Ex. rewrite Ht in H6. lia.
    + rewrite (N1 d N). unfold expected in *. cbn [ths]. rewrite (N1 d N).
      assert (E : forall h, Q (mkL (upd (ths s) c t') (qs s) b) h = Q s h) by reflexivity.
      destruct (nth_error (ths s) d) as [x|]; [|lia]. destruct (ph x) as [| |i| | | |]; try lia.
      destruct (nth_error (req x) i); [rewrite E|]; lia.
Qed.

(** facts about a thread in the acquire loop *)
Lemma acq_facts s c t i w h : linv s -> nth_error (ths s) c = Some t -> ph t = Acq i w -> nth_error (req t) i = Some h ->
  (hd_error (Q s h) = Some c <-> w = true) /\ (w = false -> ~ In c (Q s h)) /\ ~ In h (firstn i (req t)).
Proof.
  intros H Ht P Hh. destruct (l_ok s H c t Ht) as [S [_ [_ T]]]. rewrite P in T.
  assert (NI : ~ In h (firstn i (req t))).
  { intros I. destruct (sorted_nth _ _ _ S Hh) as [L _]. specialize (L h I). lia. }
  assert (C : w = false -> ~ In c (Q s h)).
  { intros -> I. apply (l_claims s H) in I. destruct I as [x [Hx Hc]]. rewrite Ht in Hx. injection Hx as <-.
    unfold claims in Hc. rewrite P in Hc. destruct Hc as [Hc|[Hc _]]; [contradiction|discriminate]. }
  split; [|split; [exact C|exact NI]]. split.
  - intros E. destruct w; [reflexivity|]. exfalso. apply (C eq_refl). destruct (Q s h); [discriminate|]. injection E as ->. now left.
  - intros ->. destruct (T eq_refl) as [h' [Hh' E]]. rewrite Hh in Hh'. injection Hh' as <-. exact E.
Qed.

Lemma expected_zero s c t : nth_error (ths s) c = Some t -> (forall i, ph t <> Wait i) -> expected s c = 0.
Proof. intros Ht N. unfold expected. rewrite Ht. destruct (ph t) as [| |i| | | |] eqn:P; try reflexivity. destruct (N i eq_refl). Qed.

(** pushing command c to the end of the queue of hash h *)
Lemma push_inv s c t t' h i : linv s -> nth_error (ths s) c = Some t ->
  ph t = Acq i false -> nth_error (req t) i = Some h -> req t' = req t -> cnt t' = cnt t ->
  ((Q s h = [] /\ ph t' = Acq (S i) false) \/ (Q s h <> [] /\ ph t' = Wait i)) ->
  linv (mkL (upd (ths s) c t') (setq (qs s) (slot slots h) (wait_for_wake h c (qs s (slot slots h)))) (touched s)).
Proof.
  intros H Ht P Hh Er En Cs. destruct (acq_facts s c t i false h H Ht P Hh) as [_ [NI NF]]. specialize (NI eq_refl).
  set (s' := mkL _ _ _).
  assert (HQ : forall h', Q s' h' = Q s h' ++ (if h =? h' then [c] else [])) by (intros h'; apply Q_setq_push).
  assert (HD : forall h' d, In d (Q s h') -> hd_error (Q s' h') = hd_error (Q s h')).
  { intros h' d I. rewrite HQ. destruct (Q s h'); [destruct I|reflexivity]. }
  assert (N1 : forall d, d <> c -> nth_error (upd (ths s) c t') d = nth_error (ths s) d) by (intros; now apply upd_other).
  assert (N2 : nth_error (upd (ths s) c t') c = Some t') by (eapply upd_same; eassumption).
  assert (OkT := l_ok s H c t Ht). destruct OkT as [S [Z0 [Cn _]]].
  assert (CT : forall h', claims t' h' <-> claims t h' \/ h' = h).
  { intros h'. unfold claims. rewrite P, Er. destruct Cs as [[_ ->]|[_ ->]].
    - rewrite (firstn_S _ _ _ Hh), in_app_iff. cbn. intuition congruence.
    - rewrite Hh. intuition congruence. }
  assert (HDQ : forall h' d, hd_error (Q s h') = Some d -> hd_error (Q s' h') = Some d).
  { intros h' d E. rewrite (HD h' d); [exact E|]. destruct (Q s h'); [discriminate|]. injection E as ->. now left. }
  constructor.
  - intros j e I. unfold s' in I. cbn [qs] in I. unfold setq in I. destruct (j =? slot slots h).
    + unfold wait_for_wake in I. apply in_app_or in I. destruct I as [I|[<-|[]]]; [eapply (l_zero s H); exact I|].
      cbn. intros ->. apply Z0. eapply nth_error_In; eassumption.
    + eapply (l_zero s H); exact I.
  - intros h'. rewrite HQ. destruct (Z.eqb_spec h h') as [<-|N]; [|rewrite app_nil_r; apply (l_nodup s H)].
    assert (ND := l_nodup s H h). clear -ND NI. induction (Q s h) as [|a l IH]; cbn; [repeat constructor; auto|].
    inversion ND; subst. constructor; [|apply IH; [|assumption]].
    + intros I. apply in_app_or in I. destruct I as [I|[->|[]]]; [contradiction|]. apply NI. now left.
    + intros I. apply NI. now right.
  - intros h' d. rewrite HQ, in_app_iff, (l_claims s H). cbn [ths s'].
    destruct (Nat.eq_dec d c) as [->|N].
    + split.
      * intros [[x [Hx Hc]]|I].
        -- rewrite Ht in Hx. injection Hx as <-. exists t'. split; [exact N2|]. apply CT. now left.
        -- destruct (Z.eqb_spec h h') as [Eh|Nh]; [|destruct I]. exists t'. split; [exact N2|]. apply CT. right. now symmetry.
      * intros [x [Hx Hc]]. rewrite N2 in Hx. injection Hx as <-. apply CT in Hc. destruct Hc as [Hc| ->].
        -- left. eauto.
        -- right. rewrite Z.eqb_refl. now left.
    + rewrite (N1 d N). split.
      * intros [I|I]; [exact I|]. destruct (h =? h'); [destruct I as [I|[]]; congruence|destruct I].
      * auto.
  - intros d x h' Hx Ho. cbn [ths s'] in Hx. destruct (Nat.eq_dec d c) as [->|N].
    + rewrite N2 in Hx. injection Hx as <-. unfold owns in Ho. rewrite Er in Ho.
      destruct Cs as [[E Ep]|[E Ep]]; rewrite Ep in Ho.
      * rewrite (firstn_S _ _ _ Hh) in Ho. apply in_app_or in Ho. destruct Ho as [Ho|[<-|[]]].
        -- apply HDQ. apply (l_first s H c t h' Ht). unfold owns. rewrite P. exact Ho.
        -- rewrite HQ, E, Z.eqb_refl. reflexivity.
      * apply HDQ. apply (l_first s H c t h' Ht). unfold owns. rewrite P. exact Ho.
    + rewrite (N1 d N) in Hx. apply HDQ. eapply (l_first s H); eassumption.
  - intros d x Hx. cbn [ths s'] in Hx. destruct (Nat.eq_dec d c) as [->|N].
    + rewrite N2 in Hx. injection Hx as <-. unfold thread_ok. rewrite Er, En. repeat split; auto.
      destruct Cs as [[_ ->]|[_ ->]]; [discriminate|eauto].
    + rewrite (N1 d N) in Hx. destruct (l_ok s H d x Hx) as [K1 [K2 [K3 K4]]]. repeat split; auto.
      destruct (ph x) as [|j w| | | |wl [c'|]|]; auto.
      * intros W. destruct (K4 W) as [h' [Eh Hd]]. exists h'. split; [exact Eh|]. apply HDQ, Hd.
      * destruct K4 as [u Hu]. cbn [ths s']. destruct (Nat.eq_dec c' c) as [->|N']; [exists t'; exact N2|].
        exists u. rewrite (N1 c' N'). exact Hu.
  - intros d. assert (W := l_wake s H d). unfold wakeups in *. cbn [ths s'].
    rewrite (upd_in_lists _ _ _ _ _ Ht).
    assert (Ewl : wake_list t' = [] /\ wake_list t = []).
    { unfold wake_list. rewrite P. destruct Cs as [[_ ->]|[_ ->]]; auto. }
    destruct Ewl as [-> ->]. cbn [count_occ].
    destruct (Nat.eq_dec d c) as [->|N].
    + rewrite N2, En. rewrite Ht in W. rewrite (expected_zero s c t Ht) in W by (rewrite P; discriminate).
      assert (X : expected s' c = 0).
      { unfold expected. cbn [ths s']. rewrite N2. destruct Cs as [[_ ->]|[E ->]]; [reflexivity|].
        rewrite Er, Hh, HQ. destruct (Q s h) as [|a l] eqn:EQ; [congruence|]. cbn.
        destruct (Nat.eqb_spec a c) as [->|]; [|reflexivity]. exfalso. apply NI. now left. }
      rewrite X. lia.
    + rewrite (N1 d N). assert (X : expected s' d = expected s d).
      { unfold expected. cbn [ths s']. rewrite (N1 d N). destruct (nth_error (ths s) d) as [x|] eqn:Hx; [|reflexivity].
        destruct (ph x) as [| |j| | | |] eqn:Px; try reflexivity. destruct (nth_error (req x) j) as [h'|] eqn:Eh; [|reflexivity].
        rewrite (HD h' d); [reflexivity|]. apply (l_claims s H). exists x. split; [exact Hx|]. unfold claims. rewrite Px. now right. }
      rewrite X. lia.
Qed.

(** releasing the j-th hash *)
Lemma release_inv s c t j wl h q' : linv s -> nth_error (ths s) c = Some t -> ph t = Rel j wl ->
  nth_error (req t) j = Some h -> pop_front h (qs s (slot slots h)) = Some (c, q') ->
  linv (mkL (upd (ths s) c (set_ph t (Rel (S j) (match first_req h q' with Some w => wl ++ [w] | None => wl end))))
            (setq (qs s) (slot slots h) q') (touched s)).
Proof.
  intros H Ht P Hh EP. destruct (l_ok s H c t Ht) as [S [Z0 [Cn _]]].
  assert (N0 : h <> 0) by (intros ->; apply Z0; eapply nth_error_In; eassumption).
  pose proof (pop_sub h (qs s (slot slots h)) N0 (l_zero s H _)) as PS. rewrite EP in PS. destruct PS as [P1 [P2 P3]].
  set (wl' := match first_req h q' with Some w => wl ++ [w] | None => wl end).
  set (t' := set_ph t (Rel (Datatypes.S j) wl')). set (s' := mkL _ _ _).
  assert (HQh : Q s h = c :: Q s' h).
  { rewrite !Q_sub. cbn [qs s']. unfold setq. rewrite Z.eqb_refl. exact P1. }
  assert (HQo : forall h', h' <> h -> Q s' h' = Q s h').
  { intros h' N. rewrite !Q_sub. cbn [qs s']. unfold setq. destruct (Z.eqb_spec (slot slots h') (slot slots h)) as [E|]; [|reflexivity].
    rewrite E. apply P2, N. }
  assert (Fst : first_req h q' = hd_error (Q s' h)).
  { rewrite Q_sub. cbn [qs s']. unfold setq. rewrite Z.eqb_refl. apply first_req_sub. }
  assert (ND := l_nodup s H h). rewrite HQh in ND. inversion ND as [|? ? NIc NDt]; subst.
  destruct (sorted_nth _ _ _ S Hh) as [_ Later].
  assert (N1 : forall d, d <> c -> nth_error (upd (ths s) c t') d = nth_error (ths s) d) by (intros; now apply upd_other).
  assert (N2 : nth_error (upd (ths s) c t') c = Some t') by (eapply upd_same; eassumption).
  assert (CT : forall h', claims t h' <-> claims t' h' \/ h' = h).
  { intros h'. unfold claims, t', set_ph. rewrite P. cbn [ph req]. rewrite (skipn_nth _ _ _ Hh). cbn. intuition congruence. }
  assert (CN : ~ claims t' h).
  { unfold claims, t', set_ph. cbn [ph req]. intros I. specialize (Later h I). lia. }
  (* whoever is first now was waiting for h *)
  assert (NEW : forall d, In d (Q s' h) -> d <> c /\ exists x i, nth_error (ths s) d = Some x /\ ph x = Wait i /\ nth_error (req x) i = Some h).
  { intros d I. split; [intros ->; contradiction|]. assert (In d (Q s h)) as I' by (rewrite HQh; now right).
    apply (l_claims s H) in I'. destruct I' as [x [Hx Hc]]. exists x.
    assert (NOwn : ~ owns x h).
    { intros Ho. assert (E := l_first s H d x h Hx Ho). rewrite HQh in E. injection E as <-. contradiction. }
    unfold claims in Hc. unfold owns in NOwn. destruct (ph x) as [|i w|i| |j' wl2| |] eqn:Px; try contradiction.
    - destruct Hc as [Hc|[-> Hc]]; [contradiction|]. exfalso. destruct (acq_facts s d x i true h H Hx Px Hc) as [F _].
      assert (E := proj2 F eq_refl). rewrite HQh in E. injection E as <-. contradiction.
    - destruct Hc as [Hc|Hc]; [contradiction|]. exists i. auto. }
  constructor.
  - intros i e I. unfold s' in I. cbn [qs] in I. unfold setq in I. destruct (i =? slot slots h); eapply (l_zero s H); [apply P3, I|exact I].
  - intros h'. destruct (Z.eq_dec h' h) as [->|N]; [exact NDt|]. rewrite (HQo h' N). apply (l_nodup s H).
  - intros h' d. cbn [ths s']. destruct (Z.eq_dec h' h) as [->|N].
    + destruct (Nat.eq_dec d c) as [->|Nd].
      * split; [intros I; contradiction|]. intros [x [Hx Hc]]. rewrite N2 in Hx. injection Hx as <-. contradiction.
      * rewrite (N1 d Nd), <- (l_claims s H), HQh. cbn. intuition congruence.
    + rewrite (HQo h' N), (l_claims s H). destruct (Nat.eq_dec d c) as [->|Nd].
      * split; intros [x [Hx Hc]].
        -- rewrite Ht in Hx. injection Hx as <-. exists t'. split; [exact N2|]. apply CT in Hc. intuition.
        -- rewrite N2 in Hx. injection Hx as <-. exists t. split; [exact Ht|]. apply CT. now left.
      * rewrite (N1 d Nd). reflexivity.
  - intros d x h' Hx Ho. cbn [ths s'] in Hx. destruct (Nat.eq_dec d c) as [->|Nd].
    + rewrite N2 in Hx. injection Hx as <-. assert (Nh : h' <> h) by (intros ->; apply CN, owns_claims, Ho).
      rewrite (HQo h' Nh). apply (l_first s H c t h' Ht). unfold owns in Ho |- *. rewrite P.
      unfold t', set_ph in Ho. cbn [ph req] in Ho. rewrite (skipn_nth _ _ _ Hh). now right.
    + rewrite (N1 d Nd) in Hx. destruct (Z.eq_dec h' h) as [->|Nh].
      * assert (E := l_first s H d x h Hx Ho). rewrite HQh in E. injection E as E. congruence.
      * rewrite (HQo h' Nh). eapply (l_first s H); eassumption.
  - intros d x Hx. cbn [ths s'] in Hx. destruct (Nat.eq_dec d c) as [->|Nd].
    + rewrite N2 in Hx. injection Hx as <-. unfold thread_ok, t', set_ph. cbn [ph req cnt]. auto.
    + rewrite (N1 d Nd) in Hx. destruct (l_ok s H d x Hx) as [K1 [K2 [K3 K4]]]. repeat split; auto.
      destruct (ph x) as [|i w| | | |wl2 [c'|]|] eqn:Px; auto.
      * intros W. destruct (K4 W) as [h' [Eh Hd]]. exists h'. split; [exact Eh|].
        destruct (Z.eq_dec h' h) as [->|Nh]; [rewrite HQh in Hd; injection Hd as Hd; congruence|]. rewrite (HQo h' Nh). exact Hd.
      * destruct K4 as [u Hu]. cbn [ths s']. destruct (Nat.eq_dec c' c) as [->|N']; [exists t'; exact N2|].
        exists u. rewrite (N1 c' N'). exact Hu.
  - intros d. assert (W := l_wake s H d). unfold wakeups in *. cbn [ths s'].
    rewrite (upd_in_lists _ _ _ _ _ Ht).
    assert (Ewl : wake_list t' = wl' /\ wake_list t = wl) by (unfold wake_list, t', set_ph; rewrite P; auto).
    destruct Ewl as [-> ->].
    assert (CO : Z.of_nat (count_occ Nat.eq_dec wl' d) - Z.of_nat (count_occ Nat.eq_dec wl d) =
                 match hd_error (Q s' h) with Some w => if (w =? d)%nat then 1 else 0 | None => 0 end).
    { unfold wl'. rewrite Fst. destruct (hd_error (Q s' h)) as [w|]; [|lia]. rewrite count_occ_app. cbn.
      destruct (Nat.eq_dec w d) as [->|Nw]; [rewrite Nat.eqb_refl; lia|]. apply Nat.eqb_neq in Nw. rewrite Nw. lia. }
    destruct (Nat.eq_dec d c) as [->|Nd].
    + rewrite N2. rewrite Ht in W. rewrite (expected_zero s c t Ht) in W by (rewrite P; discriminate).
      rewrite (expected_zero s' c t') by (auto; cbn; discriminate). unfold t', set_ph. cbn [cnt].
      assert (match hd_error (Q s' h) with Some w => if (w =? c)%nat then 1 else 0 | None => 0 end = 0) as E0.
      { destruct (Q s' h) as [|a l] eqn:EQ; [reflexivity|]. cbn. destruct (Nat.eqb_spec a c) as [->|]; [|reflexivity].
        exfalso. apply NIc. now left. }
      lia.
    + rewrite (N1 d Nd).
      assert (X : expected s' d = expected s d + match hd_error (Q s' h) with Some w => if (w =? d)%nat then 1 else 0 | None => 0 end).
      { unfold expected. cbn [ths s']. rewrite (N1 d Nd).
        assert (Hw : forall w, hd_error (Q s' h) = Some w -> w = d -> exists x i, nth_error (ths s) d = Some x /\ ph x = Wait i /\ nth_error (req x) i = Some h).
        { intros w Ew ->. apply NEW. destruct (Q s' h); [discriminate|]. injection Ew as ->. now left. }
        destruct (nth_error (ths s) d) as [x|] eqn:Hx.
        - destruct (ph x) as [| |i| | | |] eqn:Px;
            try (destruct (hd_error (Q s' h)) as [w|] eqn:Ew; [|reflexivity]; destruct (Nat.eqb_spec w d) as [->|]; [|reflexivity];
                 destruct (Hw d eq_refl eq_refl) as [x0 [i0 [E1 [E2 E3]]]]; injection E1 as <-; congruence).
          destruct (nth_error (req x) i) as [h'|] eqn:Eh.
          + destruct (Z.eq_dec h' h) as [->|Nh].
            * rewrite HQh. cbn [hd_error]. destruct (Nat.eqb_spec c d); [congruence|]. reflexivity.
            * rewrite (HQo h' Nh).
              destruct (hd_error (Q s' h)) as [w|] eqn:Ew; [|destruct (hd_error (Q s h')); lia].
              destruct (Nat.eqb_spec w d) as [->|]; [|destruct (hd_error (Q s h')); lia].
              destruct (Hw d eq_refl eq_refl) as [x0 [i0 [E1 [E2 E3]]]]. injection E1 as <-. rewrite Px in E2. injection E2 as <-. congruence.
          + destruct (hd_error (Q s' h)) as [w|] eqn:Ew; [|reflexivity]. destruct (Nat.eqb_spec w d) as [->|]; [|reflexivity].
            destruct (Hw d eq_refl eq_refl) as [x0 [i0 [E1 [E2 E3]]]]. injection E1 as <-. rewrite Px in E2. injection E2 as <-. congruence.
        - destruct (hd_error (Q s' h)) as [w|] eqn:Ew; [|reflexivity]. destruct (Nat.eqb_spec w d) as [->|]; [|reflexivity].
          destruct (Hw d eq_refl eq_refl) as [x0 [i0 [E1 _]]]. discriminate. }
      rewrite X. lia.
Qed.

(** decreasing the counter of a command on the wake-up list *)
Lemma decrease_inv s c t c' wl t1 b : linv s -> nth_error (ths s) c = Some t -> ph t = Sig (c' :: wl) None ->
  nth_error (upd (ths s) c (set_ph t (Sig wl (Some c')))) c' = Some t1 ->
  linv (mkL (upd (upd (ths s) c (set_ph t (Sig wl (Some c')))) c' (mkT (req t1) (ph t1) (cnt t1 - 1))) (qs s) b)
  /\ exists i, ph t1 = Wait i.
Proof.
  intros H Ht P H1.
  set (t' := set_ph t (Sig wl (Some c'))) in *.
  assert (N1 : forall d, d <> c -> nth_error (upd (ths s) c t') d = nth_error (ths s) d) by (intros; now apply upd_other).
  assert (N2 : nth_error (upd (ths s) c t') c = Some t') by (eapply upd_same; eassumption).
  assert (G : Z.of_nat (count_occ Nat.eq_dec (wake_list t) c') <= in_lists (ths s) c') by (eapply in_lists_ge; eassumption).
  unfold wake_list in G. rewrite P in G. cbn [count_occ] in G. destruct (Nat.eq_dec c' c'); [|congruence].
  assert (W := l_wake s H c'). unfold wakeups, expected in W.
  assert (Wt : exists x i, nth_error (ths s) c' = Some x /\ ph x = Wait i).
  { destruct (nth_error (ths s) c') as [x|] eqn:Hx; [|lia].
    assert (Cx : cnt x <= 0) by apply (l_ok s H c' x Hx).
    destruct (ph x) as [| |i| | | |] eqn:Px; try lia. exists x, i. auto. }
  destruct Wt as [x [i [Hx Px]]].
  assert (Ncc : c' <> c) by (intros ->; rewrite Ht in Hx; injection Hx as <-; congruence).
  assert (x = t1) as -> by (rewrite (N1 c' Ncc) in H1; congruence). clear H1.
  split; [|eauto].
  set (u := mkT (req t1) (ph t1) (cnt t1 - 1)). set (s' := mkL _ _ _).
  assert (M : forall d, nth_error (ths s') d = if (d =? c')%nat then Some u else if (d =? c)%nat then Some t' else nth_error (ths s) d).
  { intros d. cbn [ths s']. destruct (Nat.eqb_spec d c') as [->|Nd].
    - eapply upd_same. rewrite (N1 c' Ncc). exact Hx.
    - rewrite upd_other by exact Nd. destruct (Nat.eqb_spec d c) as [->|Nc]; [exact N2|apply N1, Nc]. }
  assert (CU : forall h, claims u h <-> claims t1 h) by reflexivity.
  assert (CT : forall h, claims t' h <-> claims t h) by (intros h; unfold claims, t', set_ph; rewrite P; cbn; tauto).
  assert (EQ : forall h, Q s' h = Q s h) by reflexivity.
  constructor.
  - intros j e0 I. eapply (l_zero s H); exact I.
  - intros h. rewrite EQ. apply (l_nodup s H).
  - intros h d. rewrite EQ, (l_claims s H), M. destruct (Nat.eqb_spec d c') as [->|Nd].
    + split; intros [y [Hy Hc]].
      * rewrite Hx in Hy. injection Hy as <-. exists u. auto.
      * injection Hy as <-. exists t1. auto.
    + destruct (Nat.eqb_spec d c) as [->|Nc]; [|reflexivity]. split; intros [y [Hy Hc]].
      * rewrite Ht in Hy. injection Hy as <-. exists t'. split; [reflexivity|]. now apply CT.
      * injection Hy as <-. exists t. split; [exact Ht|]. now apply CT.
  - intros d y h Hy Ho. rewrite M in Hy. rewrite EQ. destruct (Nat.eqb_spec d c') as [->|Nd].
    + injection Hy as <-. apply (l_first s H c' t1 h Hx). exact Ho.
    + destruct (Nat.eqb_spec d c) as [->|Nc]; [injection Hy as <-; destruct Ho|]. eapply (l_first s H); eassumption.
  - intros d y Hy. rewrite M in Hy.
    assert (EX : forall c2 z, nth_error (ths s) c2 = Some z -> exists z', nth_error (ths s') c2 = Some z').
    { intros c2 z Hz. rewrite M. destruct (c2 =? c')%nat; [eauto|]. destruct (c2 =? c)%nat; eauto. }
    destruct (Nat.eqb_spec d c') as [->|Nd].
    + injection Hy as <-. destruct (l_ok s H c' t1 Hx) as [K1 [K2 [K3 K4]]]. unfold thread_ok, u. cbn [req ph cnt].
      rewrite Px in *. repeat split; auto; lia.
    + destruct (Nat.eqb_spec d c) as [->|Nc].
      * injection Hy as <-. destruct (l_ok s H c t Ht) as [K1 [K2 [K3 K4]]]. unfold thread_ok, t', set_ph. cbn [req ph cnt].
        repeat split; auto. eapply EX; eassumption.
      * destruct (l_ok s H d y Hy) as [K1 [K2 [K3 K4]]]. repeat split; auto.
        destruct (ph y) as [| | | | |wl2 [c2|]|]; auto. destruct K4 as [z Hz]. eapply EX; eassumption.
  - intros d. assert (Wd := l_wake s H d). unfold wakeups in *. rewrite M. cbn [ths s'].
    rewrite (upd_in_lists (upd (ths s) c t') c' t1 u d) by (rewrite (N1 c' Ncc); exact Hx).
    rewrite (upd_in_lists _ _ _ t' d Ht).
    assert (Wl : wake_list u = wake_list t1) by reflexivity. rewrite Wl.
    assert (Wl2 : wake_list t' = wl /\ wake_list t = c' :: wl) by (unfold wake_list, t', set_ph; rewrite P; auto).
    destruct Wl2 as [-> ->].
    assert (CO : Z.of_nat (count_occ Nat.eq_dec (c' :: wl) d) = Z.of_nat (count_occ Nat.eq_dec wl d) + (if (d =? c')%nat then 1 else 0)).
    { cbn [count_occ]. destruct (Nat.eq_dec c' d) as [->|Nd]; [rewrite Nat.eqb_refl; lia|].
      destruct (Nat.eqb_spec d c'); [congruence|lia]. }
    rewrite CO.
    assert (X : expected s' d = expected s d).
    { unfold expected. rewrite M. destruct (Nat.eqb_spec d c') as [->|Nd]; [rewrite Hx; reflexivity|].
      destruct (Nat.eqb_spec d c) as [->|Nc]; [|reflexivity]. rewrite Ht, P. reflexivity. }
    rewrite X, <- Wd. destruct (Nat.eqb_spec d c') as [->|Nd].
    + rewrite Hx. unfold u. cbn [cnt]. lia.
    + destruct (Nat.eqb_spec d c) as [->|Nc]; [rewrite Ht; unfold t', set_ph; cbn [cnt]; lia|lia].
Qed.

Lemma step_inv s c : linv s -> match lstep slots s c with Ok (Some s') => linv s' | Ok None => True | Crash => False end.
Proof.
  intros H. unfold lstep. destruct (nth_error (ths s) c) as [t|] eqn:Ht; [|exact Logic.I].
  destruct (l_ok s H c t Ht) as [S [Z0 [Cn T]]].
  destruct (ph t) as [|i w|i| |j wl|wl d|] eqn:P.
  - apply (same_queues s c t); auto.
    + intros h. unfold claims, set_ph. rewrite P. cbn. intuition discriminate.
    + unfold owns, set_ph. cbn. intros h [].
    + unfold thread_ok, set_ph. cbn. repeat split; auto. discriminate.
    + unfold wake_list, set_ph. now rewrite P.
    + rewrite (expected_zero s c t Ht) by (rewrite P; discriminate).
      erewrite expected_zero; [|cbn [ths]; eapply upd_same; eassumption|discriminate]. unfold set_ph. cbn. lia.
  - destruct (nth_error (req t) i) as [h|] eqn:Hh.
    + destruct (acq_facts s c t i w h H Ht P Hh) as [F1 [F2 F3]].
      rewrite first_req_sub. change (subq h (qs s (slot slots h))) with (Q s h).
      destruct (hd_error (Q s h)) as [who|] eqn:E.
      * destruct (Nat.eqb_spec who c) as [->|N].
        -- assert (W : w = true) by (apply F1; reflexivity). subst w.
           apply (same_queues s c t); auto.
           ++ intros h'. unfold claims, set_ph. rewrite P. cbn [ph req]. rewrite (firstn_S _ _ _ Hh), in_app_iff, Hh. cbn. intuition congruence.
           ++ intros h' Ho. unfold owns, set_ph in Ho. cbn [ph req] in Ho. rewrite (firstn_S _ _ _ Hh) in Ho.
              apply in_app_or in Ho. destruct Ho as [Ho|[<-|[]]]; [|exact E]. apply (l_first s H c t h' Ht). unfold owns. rewrite P. exact Ho.
           ++ unfold thread_ok, set_ph. cbn. repeat split; auto. discriminate.
           ++ unfold wake_list, set_ph. now rewrite P.
           ++ rewrite (expected_zero s c t Ht) by (rewrite P; discriminate).
              erewrite expected_zero; [|cbn [ths]; eapply upd_same; eassumption|discriminate]. unfold set_ph. cbn. lia.
        -- assert (W : w = false) by (destruct w; [|reflexivity]; assert (X := proj2 F1 eq_refl); congruence). subst w.
           eapply (push_inv s c t _ h i); eauto. right. split; [|reflexivity]. intros X. rewrite X in E. discriminate.
      * assert (W : w = false) by (destruct w; [|reflexivity]; assert (X := proj2 F1 eq_refl); discriminate). subst w.
        eapply (push_inv s c t _ h i); eauto. left. split; [|reflexivity]. destruct (Q s h); [reflexivity|discriminate].
    + assert (FA : firstn i (req t) = req t) by (apply firstn_all2; apply nth_error_None; exact Hh).
      apply (same_queues s c t); auto.
      * intros h'. unfold claims, set_ph. rewrite P. cbn [ph req]. rewrite FA, Hh. intuition discriminate.
      * intros h' Ho. apply (l_first s H c t h' Ht). unfold owns. rewrite P, FA. exact Ho.
      * unfold thread_ok, set_ph. cbn. auto.
      * unfold wake_list, set_ph. now rewrite P.
      * rewrite (expected_zero s c t Ht) by (rewrite P; discriminate).
        erewrite expected_zero; [|cbn [ths]; eapply upd_same; eassumption|discriminate]. unfold set_ph. cbn. lia.
  - destruct (Z.ltb_spec 0 (cnt t + 1)) as [|L]; [exact Logic.I|].
    destruct T as [h Hh]. assert (W := l_wake s H c). unfold wakeups, expected in W. rewrite Ht, P, Hh in W.
    assert (G := in_lists_nonneg (ths s) c).
    assert (E : hd_error (Q s h) = Some c /\ cnt t = -1).
    { destruct (hd_error (Q s h)) as [c'|]; [|lia]. destruct (Nat.eqb_spec c' c) as [E0|]; [|lia]. split; [now f_equal|lia]. }
    destruct E as [E C1].
    apply (same_queues s c t); auto.
    + intros h'. unfold claims. rewrite P. cbn [ph req]. rewrite Hh. intuition congruence.
    + intros h' Ho. apply (l_first s H c t h' Ht). unfold owns in *. rewrite P. exact Ho.
    + unfold thread_ok. cbn [req ph cnt]. split; [exact S|]. split; [exact Z0|]. split; [lia|]. intros _. exists h. auto.
    + unfold wake_list. now rewrite P.
    + erewrite expected_zero; [|cbn [ths]; eapply upd_same; eassumption|discriminate].
      unfold expected. rewrite Ht, P, Hh, E, Nat.eqb_refl. cbn [cnt]. lia.
  - apply (same_queues s c t); auto.
    + intros h. unfold claims, set_ph. rewrite P. cbn. tauto.
    + intros h Ho. apply (l_first s H c t h Ht). unfold owns in *. rewrite P. exact Ho.
    + unfold thread_ok, set_ph. cbn. auto.
    + unfold wake_list, set_ph. now rewrite P.
    + rewrite (expected_zero s c t Ht) by (rewrite P; discriminate).
      erewrite expected_zero; [|cbn [ths]; eapply upd_same; eassumption|discriminate]. unfold set_ph. cbn. lia.
  - destruct (nth_error (req t) j) as [h|] eqn:Hh.
    + assert (N0 : h <> 0) by (intros ->; apply Z0; eapply nth_error_In; eassumption).
      assert (Hd : hd_error (Q s h) = Some c).
      { apply (l_first s H c t h Ht). unfold owns. rewrite P, (skipn_nth _ _ _ Hh). now left. }
      pose proof (pop_sub h (qs s (slot slots h)) N0 (l_zero s H _)) as PS.
      destruct (pop_front h (qs s (slot slots h))) as [[front q']|] eqn:EP.
      * destruct PS as [P1 _]. change (subq h (qs s (slot slots h))) with (Q s h) in P1. rewrite P1 in Hd. injection Hd as ->.
        rewrite Nat.eqb_refl. eapply release_inv; eassumption.
      * change (subq h (qs s (slot slots h))) with (Q s h) in PS. rewrite PS in Hd. discriminate.
    + assert (SA : skipn j (req t) = []) by (apply skipn_all2; apply nth_error_None; exact Hh).
      apply (same_queues s c t); auto.
      * intros h. unfold claims, set_ph. rewrite P, SA. cbn. tauto.
      * intros h Ho. destruct Ho.
      * unfold thread_ok, set_ph. cbn. auto.
      * unfold wake_list, set_ph. now rewrite P.
      * rewrite (expected_zero s c t Ht) by (rewrite P; discriminate).
        erewrite expected_zero; [|cbn [ths]; eapply upd_same; eassumption|discriminate]. unfold set_ph. cbn. lia.
  - destruct d as [c'|].
    + assert (GO : linv (mkL (upd (ths s) c (set_ph t (Sig wl None))) (qs s) (touched s || is_done s c'))).
      { apply (same_queues s c t); auto.
        * intros h. unfold claims, set_ph. rewrite P. cbn. tauto.
        * intros h Ho. destruct Ho.
        * unfold thread_ok, set_ph. cbn. auto.
        * unfold wake_list, set_ph. now rewrite P.
        * rewrite (expected_zero s c t Ht) by (rewrite P; discriminate).
          erewrite expected_zero; [|cbn [ths]; eapply upd_same; eassumption|discriminate]. unfold set_ph. cbn. lia. }
      destruct wl; exact GO.
    + destruct wl as [|c' wl].
      * apply (same_queues s c t); auto.
        -- intros h. unfold claims, set_ph. rewrite P. cbn. tauto.
        -- intros h Ho. destruct Ho.
        -- unfold thread_ok, set_ph. cbn. auto.
        -- unfold wake_list, set_ph. now rewrite P.
        -- rewrite (expected_zero s c t Ht) by (rewrite P; discriminate).
           erewrite expected_zero; [|cbn [ths]; eapply upd_same; eassumption|discriminate]. unfold set_ph. cbn. lia.
      * destruct (nth_error (upd (ths s) c (set_ph t (Sig wl (Some c')))) c') as [t1|] eqn:H1.
        -- eapply decrease_inv; eassumption.
        -- (* the target exists: a wake-up is on its way to it *)
           assert (G : Z.of_nat (count_occ Nat.eq_dec (wake_list t) c') <= in_lists (ths s) c') by (eapply in_lists_ge; eassumption).
           unfold wake_list in G. rewrite P in G. cbn [count_occ] in G. destruct (Nat.eq_dec c' c'); [|congruence].
           assert (W := l_wake s H c'). unfold wakeups, expected in W.
           apply nth_error_None in H1. rewrite upd_length in H1. apply nth_error_None in H1. rewrite H1 in W. lia.
  - exact Logic.I.
Qed.

Lemma init_inv reqs : no_zero reqs -> linv (linit reqs).
Proof.
  intros NZ. unfold linit.
  assert (NT : forall c t, nth_error (map (fun hs => mkT (make_lock hs) Idle 0) reqs) c = Some t ->
     exists hs, In hs reqs /\ t = mkT (make_lock hs) Idle 0).
  { intros c t H. apply nth_error_In in H. apply in_map_iff in H. destruct H as [hs [E I]]. eauto. }
  constructor; cbn [qs ths].
  - intros i e [].
  - intros h. constructor.
  - intros h c. split; [intros []|]. intros [t [Ht Hc]]. destruct (NT c t Ht) as [hs [_ ->]]. destruct Hc.
  - intros c t h Ht Ho. destruct (NT c t Ht) as [hs [_ ->]]. destruct Ho.
  - intros c t Ht. destruct (NT c t Ht) as [hs [I ->]]. unfold thread_ok. cbn. repeat split; auto.
    + apply make_lock_sorted.
    + rewrite make_lock_in. unfold no_zero in NZ. rewrite Forall_forall in NZ. apply NZ, I.
    + lia.
  - intros c. unfold wakeups, expected. cbn [ths].
    assert (Z1 : in_lists (map (fun hs => mkT (make_lock hs) Idle 0) reqs) c = 0) by (clear; induction reqs; cbn in *; auto).
    rewrite Z1. destruct (nth_error (map (fun hs => mkT (make_lock hs) Idle 0) reqs) c) as [t|] eqn:Ht; [|reflexivity].
    destruct (NT c t Ht) as [hs [_ ->]]. reflexivity.
Qed.

Lemma run_inv sched : forall s, linv s -> exists s', lrun slots s sched = Ok s' /\ linv s'.
Proof.
  induction sched as [|c sched IH]; intros s H; cbn [lrun]; [eauto|].
  assert (ST := step_inv s c H). destruct (lstep slots s c) as [[s1|]|]; [apply IH, ST|apply IH, H|destruct ST].
Qed.

Lemma reach_inv reqs sched s : no_zero reqs -> lrun slots (linit reqs) sched = Ok s -> linv s.
Proof.
  intros NZ R. destruct (run_inv sched _ (init_inv reqs NZ)) as [s' [R' H]]. rewrite R in R'. injection R' as ->. exact H.
Qed.

(** ** C30 *)

Lemma exclusive reqs sched s c1 c2 h : no_zero reqs -> lrun slots (linit reqs) sched = Ok s ->
  owner s c1 h -> owner s c2 h -> c1 = c2.
Proof.
  intros NZ R [t1 [H1 O1]] [t2 [H2 O2]]. assert (H := reach_inv reqs sched s NZ R).
  assert (E1 := l_first s H c1 t1 h H1 O1). assert (E2 := l_first s H c2 t2 h H2 O2). congruence.
Qed.

Lemma executing_exclusive reqs sched s c1 c2 h : no_zero reqs -> lrun slots (linit reqs) sched = Ok s ->
  executes_with s c1 h -> executes_with s c2 h -> c1 = c2.
Proof.
  intros NZ R [t1 [H1 [P1 O1]]] [t2 [H2 [P2 O2]]]. eapply exclusive; eauto.
  - exists t1. split; [exact H1|]. unfold owns. rewrite P1. exact O1.
  - exists t2. split; [exact H2|]. unfold owns. rewrite P2. exact O2.
Qed.

Lemma requests_kept sched : forall s s', lrun slots s sched = Ok s' -> map req (ths s') = map req (ths s).
Proof.
  induction sched as [|c sched IH]; intros s s' R; cbn [lrun] in R; [injection R as <-; reflexivity|].
  assert (U : forall l n t t', nth_error l n = Some t -> req t' = req t -> map req (upd l n t') = map req l).
  { clear. induction l as [|a l IH]; intros [|n] t t' H E; cbn in *; try discriminate; [injection H as ->; now rewrite E|].
    f_equal. eapply IH; eassumption. }
  assert (ST : forall s1, lstep slots s c = Ok (Some s1) -> map req (ths s1) = map req (ths s)).
  { intros s1 E. unfold lstep in E. destruct (nth_error (ths s) c) as [t|] eqn:Ht; [|discriminate].
    destruct (ph t) as [|i w|i| |j wl|wl d|].
    - injection E as <-. cbn [ths]. eapply U; [exact Ht|reflexivity].
    - destruct (nth_error (req t) i) as [h|]; [|injection E as <-; cbn [ths]; eapply U; [exact Ht|reflexivity]].
      destruct (first_req h (qs s (slot slots h))) as [who|];
        [destruct (who =? c)%nat|]; injection E as <-; cbn [ths]; eapply U; (exact Ht || reflexivity).
    - destruct (0 <? cnt t + 1); [discriminate|]. injection E as <-. cbn [ths]. eapply U; [exact Ht|reflexivity].
    - injection E as <-. cbn [ths]. eapply U; [exact Ht|reflexivity].
    - destruct (nth_error (req t) j) as [h|]; [|injection E as <-; cbn [ths]; eapply U; [exact Ht|reflexivity]].
      destruct (pop_front h (qs s (slot slots h))) as [[f q']|]; [|discriminate]. destruct (f =? c)%nat; [|discriminate].
      injection E as <-. cbn [ths]. eapply U; [exact Ht|reflexivity].
    - destruct wl as [|c' wl], d as [d|].
      + injection E as <-. cbn [ths]. eapply U; [exact Ht|reflexivity].
      + injection E as <-. cbn [ths]. eapply U; [exact Ht|reflexivity].
      + injection E as <-. cbn [ths]. eapply U; [exact Ht|reflexivity].
      + destruct (nth_error (upd (ths s) c (set_ph t (Sig wl (Some c')))) c') as [t1|] eqn:H1; [|discriminate].
        injection E as <-. cbn [ths]. rewrite (U _ _ t1 _ H1) by reflexivity. eapply U; [exact Ht|reflexivity].
    - discriminate. }
  destruct (lstep slots s c) as [[s1|]|] eqn:E; [|apply IH, R|discriminate].
  rewrite (IH _ _ R). apply ST. reflexivity.
Qed.

(** ** C31 *)

(** wake-ups are on their way exactly to the waiting commands that are first in the queue *)
Lemma wake_exact reqs sched s c : no_zero reqs -> lrun slots (linit reqs) sched = Ok s ->
  (forall h, waits_for s c h -> wakeups s c = if match hd_error (queue_of slots s h) with Some c' => (c' =? c)%nat | None => false end then 1 else 0) /\
  ((forall h, ~ waits_for s c h) -> wakeups s c = 0).
Proof.
  intros NZ R. assert (H := reach_inv reqs sched s NZ R). rewrite (l_wake s H c). unfold expected. split.
  - intros h [t [i [Ht [P Hh]]]]. rewrite Ht, P, Hh. unfold Q. destruct (hd_error (queue_of slots s h)) as [c'|]; [|reflexivity].
    destruct (c' =? c)%nat; reflexivity.
  - intros N. destruct (nth_error (ths s) c) as [t|] eqn:Ht; [|reflexivity].
    destruct (ph t) as [| |i| | | |] eqn:P; try reflexivity. destruct (nth_error (req t) i) as [h|] eqn:Hh; [|reflexivity].
    exfalso. apply (N h). exists t, i. auto.
Qed.

Lemma queue_exact reqs sched s h c : no_zero reqs -> lrun slots (linit reqs) sched = Ok s ->
  NoDup (queue_of slots s h) /\ ((owner s c h \/ waits_for s c h) -> In c (queue_of slots s h)) /\
  (owner s c h -> hd_error (queue_of slots s h) = Some c).
Proof.
  intros NZ R. assert (H := reach_inv reqs sched s NZ R). split; [apply (l_nodup s H)|]. split.
  - intros [[t [Ht Ho]]|[t [i [Ht [P Hh]]]]]; apply (l_claims s H); exists t; (split; [exact Ht|]).
    + apply owns_claims, Ho.
    + unfold claims. rewrite P. now right.
  - intros [t [Ht Ho]]. eapply (l_first s H); eassumption.
Qed.

Lemma move_dec s c : linv s -> can_move slots s c \/
  (forall t, nth_error (ths s) c = Some t -> ph t = Done \/ exists i h, ph t = Wait i /\ nth_error (req t) i = Some h /\ 0 <= cnt t).
Proof.
  intros H. assert (ST := step_inv s c H). unfold can_move.
  destruct (lstep slots s c) as [[s'|]|] eqn:E; [left; eauto| |destruct ST].
  right. intros t Ht. unfold lstep in E. rewrite Ht in E. destruct (l_ok s H c t Ht) as [_ [_ [_ T]]].
  destruct (ph t) as [|i w|i| |j wl|wl d|] eqn:P; try discriminate; auto.
  - destruct (nth_error (req t) i) as [h|]; [|discriminate].
    destruct (first_req h (qs s (slot slots h))) as [who|]; [destruct (who =? c)%nat|]; discriminate.
  - destruct (Z.ltb_spec 0 (cnt t + 1)); [|discriminate]. right. destruct T as [h Hh]. exists i, h. repeat split; auto. lia.
  - destruct (nth_error (req t) j) as [h|]; [|discriminate].
    destruct (pop_front h (qs s (slot slots h))) as [[f q']|]; [|discriminate]. destruct (f =? c)%nat; discriminate.
  - destruct wl as [|c' wl], d as [d|]; try discriminate.
    destruct (nth_error (upd (ths s) c (set_ph t (Sig wl (Some c')))) c'); discriminate.
Qed.

(** the largest hash some command is blocked on *)
Definition blocked_hash (t : thread) : option Z := match ph t with Wait i => nth_error (req t) i | _ => None end.

Lemma max_blocked (l : list thread) : (exists t h, In t l /\ blocked_hash t = Some h) ->
  exists t h, In t l /\ blocked_hash t = Some h /\ forall t' h', In t' l -> blocked_hash t' = Some h' -> h' <= h.
Proof.
  induction l as [|a l IH]; intros [t [h [I B]]]; [destruct I|].
  assert (D : (exists t h, In t l /\ blocked_hash t = Some h) \/ ~ (exists t h, In t l /\ blocked_hash t = Some h)).
  { clear. induction l as [|a l IH]; [right; intros [t [h [[] _]]]|]. destruct (blocked_hash a) as [h|] eqn:E.
    - left. exists a, h. split; [now left|exact E].
    - destruct IH as [[t [h [I B]]]|N]; [left; exists t, h; split; [now right|exact B]|right].
      intros [t [h [[<-|I] B]]]; [congruence|]. apply N. eauto. }
  destruct D as [D|N].
  - destruct (IH D) as [t1 [h1 [I1 [B1 M1]]]]. destruct (blocked_hash a) as [ha|] eqn:Ea.
    + destruct (Z_le_gt_dec ha h1).
      * exists t1, h1. split; [now right|]. split; [exact B1|]. intros t' h' [<-|I'] B'; [congruence|eauto].
      * exists a, ha. split; [now left|]. split; [exact Ea|]. intros t' h' [<-|I'] B'; [assert (h' = ha) by congruence; lia|].
        specialize (M1 t' h' I' B'). lia.
    + exists t1, h1. split; [now right|]. split; [exact B1|]. intros t' h' [<-|I'] B'; [congruence|eauto].
  - destruct I as [->|I]; [|exfalso; apply N; eauto]. exists t, h. split; [now left|]. split; [exact B|].
    intros t' h' [<-|I'] B'; [assert (h' = h) by congruence; lia|]. exfalso. apply N. eauto.
Qed.

Lemma done_dec t : {ph t = Done} + {ph t <> Done}.
Proof. destruct (ph t); (right; discriminate) || (left; reflexivity). Defined.

(** no deadlock: if nobody can move, everybody is done *)
Lemma progress s : linv s -> (forall c, ~ can_move slots s c) -> all_done s.
Proof.
  intros H NM.
  assert (B : forall c t, nth_error (ths s) c = Some t -> ph t = Done \/ exists i h, ph t = Wait i /\ nth_error (req t) i = Some h /\ 0 <= cnt t).
  { intros c t Ht. destruct (move_dec s c H) as [M|D]; [destruct (NM c M)|apply D, Ht]. }
  destruct (Forall_dec (fun t => ph t = Done) done_dec (ths s)) as [F|NF].
  { intros t I. rewrite Forall_forall in F. apply F, I. }
  exfalso. apply (neg_Forall_Exists_neg done_dec) in NF.
  apply Exists_exists in NF. destruct NF as [t [I ND]].
  assert (Ex : exists t h, In t (ths s) /\ blocked_hash t = Some h).
  { exists t. destruct (In_nth_error _ _ I) as [c Hc]. destruct (B c t Hc) as [D|[i [h [P [Hh _]]]]]; [contradiction|].
    exists h. split; [exact I|]. unfold blocked_hash. now rewrite P. }
  destruct (max_blocked _ Ex) as [t1 [h1 [I1 [B1 M1]]]]. destruct (In_nth_error _ _ I1) as [c1 H1].
  unfold blocked_hash in B1. destruct (ph t1) as [| |i1| | | |] eqn:P1; try discriminate.
  (* c1 waits for h1 and has no wake-up: nobody has a wake-up list *)
  assert (NL : in_lists (ths s) c1 = 0).
  { assert (W0 : forall x, In x (ths s) -> wake_list x = []).
    { intros x Ix. destruct (In_nth_error _ _ Ix) as [cx Hx]. unfold wake_list.
      destruct (B cx x Hx) as [->|[i [h [-> _]]]]; reflexivity. }
    clear -W0. induction (ths s) as [|a l IH]; [reflexivity|]. cbn. rewrite (W0 a) by now left. cbn.
    apply IH. intros x Ix. apply W0. now right. }
  assert (Cn : cnt t1 = 0).
  { destruct (B c1 t1 H1) as [D|[i [h [_ [_ C]]]]]; [congruence|].
    destruct (l_ok s H c1 t1 H1) as [_ [_ [C' _]]]. lia. }
  assert (W := l_wake s H c1). unfold wakeups, expected in W. rewrite H1, P1, B1, NL, Cn in W.
  (* the first of its queue is another command, which owns h1 and waits for a larger hash *)
  assert (Iq : In c1 (Q s h1)). { apply (l_claims s H). exists t1. split; [exact H1|]. unfold claims. rewrite P1. now right. }
  destruct (Q s h1) as [|c2 q2] eqn:EQ; [destruct Iq|]. cbn [hd_error] in W.
  destruct (Nat.eqb_spec c2 c1) as [->|N12]; [lia|].
  assert (I2 : In c2 (Q s h1)) by (rewrite EQ; now left).
  apply (l_claims s H) in I2. destruct I2 as [t2 [H2 C2]].
  destruct (B c2 t2 H2) as [D|[i2 [h2 [P2 [Hh2 C2n]]]]]; [unfold claims in C2; rewrite D in C2; destruct C2|].
  destruct (l_ok s H c2 t2 H2) as [S2 _].
  unfold claims in C2. rewrite P2 in C2. destruct C2 as [C2|C2].
  - assert (L : h1 < h2) by (apply (sorted_nth _ _ _ S2 Hh2), C2).
    assert (h2 <= h1); [|lia]. apply (M1 t2 h2); [eapply nth_error_In; eassumption|]. unfold blocked_hash. now rewrite P2.
  - (* c2 is first and waits for the same hash: then a wake-up is on its way to it *)
    assert (W2 := l_wake s H c2). unfold wakeups, expected in W2. rewrite H2, P2, C2, EQ in W2. cbn [hd_error] in W2.
    rewrite Nat.eqb_refl in W2.
    assert (NL2 : in_lists (ths s) c2 = 0).
    { assert (W0 : forall x, In x (ths s) -> wake_list x = []).
      { intros x Ix. destruct (In_nth_error _ _ Ix) as [cx Hx]. unfold wake_list.
        destruct (B cx x Hx) as [->|[i [h [-> _]]]]; reflexivity. }
      clear -W0. induction (ths s) as [|a l IH]; [reflexivity|]. cbn. rewrite (W0 a) by now left. cbn.
      apply IH. intros x Ix. apply W0. now right. }
    assert (Cn2 : cnt t2 <= 0) by apply (l_ok s H c2 t2 H2). lia.
Qed.

(** ** every execution ends *)

Definition weight (t : thread) : nat :=
  let n := length (req t) in
  match ph t with
  | Idle => 6 * n + 5
  | Acq i false => 3 * (n - i) + 3 * n + 4
  | Wait i => 3 * (n - i) + 3 * n + 3
  | Acq i true => 3 * (n - i) + 3 * n + 2
  | Hold => 3 * n + 3
  | Rel j wl => 3 * (n - j) + 2 * length wl + 2
  | Sig wl None => 2 * length wl + 1
  | Sig wl (Some _) => 2 * length wl + 2
  | Done => 0
  end.

Fixpoint total (l : list thread) : nat := match l with [] => 0 | t :: r => weight t + total r end.

Lemma total_upd l n t t' : nth_error l n = Some t -> (total (upd l n t') + weight t = total l + weight t')%nat.
Proof.
  revert n. induction l as [|a l IH]; intros [|n] H; cbn in *; try discriminate.
  - injection H as ->. lia.
  - specialize (IH n H). lia.
Qed.

Lemma step_total s c s' : linv s -> lstep slots s c = Ok (Some s') -> (total (ths s') < total (ths s))%nat.
Proof.
  intros H E. unfold lstep in E. destruct (nth_error (ths s) c) as [t|] eqn:Ht; [|discriminate].
  assert (U := fun t' => total_upd (ths s) c t t' Ht).
  destruct (ph t) as [|i w|i| |j wl|wl d|] eqn:P.
  - injection E as <-. cbn [ths]. specialize (U (set_ph t (Acq 0 false))). unfold weight in U. rewrite P in U. cbn [set_ph ph req] in U. lia.
  - destruct (nth_error (req t) i) as [h|] eqn:Hh.
    + assert (Li : (i < length (req t))%nat) by (apply nth_error_Some; congruence).
      destruct (acq_facts s c t i w h H Ht P Hh) as [F1 [F2 F3]].
      rewrite first_req_sub in E. change (subq h (qs s (slot slots h))) with (Q s h) in E.
      destruct (hd_error (Q s h)) as [who|] eqn:Eh.
      * destruct (Nat.eqb_spec who c) as [->|N].
        -- injection E as <-. cbn [ths]. specialize (U (set_ph t (Acq (S i) false))). unfold weight in U. rewrite P in U. cbn [set_ph ph req] in U.
           assert (w = true) as -> by (apply F1; reflexivity). lia.
        -- assert (w = false) as -> by (destruct w; [|reflexivity]; assert (X := proj2 F1 eq_refl); congruence).
           injection E as <-. cbn [ths]. specialize (U (set_ph t (Wait i))). unfold weight in U. rewrite P in U. cbn [set_ph ph req] in U. lia.
      * injection E as <-. cbn [ths]. specialize (U (set_ph t (Acq (S i) false))). unfold weight in U. rewrite P in U. cbn [set_ph ph req] in U.
        destruct w; lia.
    + injection E as <-. cbn [ths]. specialize (U (set_ph t Hold)). unfold weight in U. rewrite P in U. cbn [set_ph ph req] in U.
      assert (w = false) as ->.
      { destruct w; [|reflexivity]. destruct (l_ok s H c t Ht) as [_ [_ [_ T]]]. rewrite P in T. destruct (T eq_refl) as [h [Eh _]]. congruence. }
      lia.
  - destruct (0 <? cnt t + 1); [discriminate|]. injection E as <-. cbn [ths]. specialize (U (mkT (req t) (Acq i true) (cnt t + 1))).
    unfold weight in U. rewrite P in U. cbn [ph req] in U. lia.
  - injection E as <-. cbn [ths]. specialize (U (set_ph t (Rel 0 []))). unfold weight in U. rewrite P in U. cbn [set_ph ph req length] in U. lia.
  - destruct (nth_error (req t) j) as [h|] eqn:Hh.
    + assert (Lj : (j < length (req t))%nat) by (apply nth_error_Some; congruence).
      destruct (pop_front h (qs s (slot slots h))) as [[f q']|]; [|discriminate]. destruct (f =? c)%nat; [|discriminate].
      injection E as <-. cbn [ths].
      specialize (U (set_ph t (Rel (S j) (match first_req h q' with Some w => wl ++ [w] | None => wl end)))).
      unfold weight in U. rewrite P in U. cbn [set_ph ph req] in U.
      destruct (first_req h q'); [rewrite app_length in U; cbn [length] in U|]; lia.
    + injection E as <-. cbn [ths]. specialize (U (set_ph t (Sig wl None))). unfold weight in U. rewrite P in U. cbn [set_ph ph req] in U. lia.
  - destruct wl as [|c' wl], d as [d|].
    + injection E as <-. cbn [ths]. specialize (U (set_ph t (Sig [] None))). unfold weight in U. rewrite P in U. cbn [set_ph ph req length] in U. lia.
    + injection E as <-. cbn [ths]. specialize (U (set_ph t Done)). unfold weight in U. rewrite P in U. cbn [set_ph ph req length] in U. lia.
    + injection E as <-. cbn [ths]. specialize (U (set_ph t (Sig (c' :: wl) None))). unfold weight in U. rewrite P in U. cbn [set_ph ph req length] in U. lia.
    + destruct (nth_error (upd (ths s) c (set_ph t (Sig wl (Some c')))) c') as [t1|] eqn:H1; [|discriminate].
      injection E as <-. cbn [ths].
      assert (U2 := total_upd _ c' t1 (mkT (req t1) (ph t1) (cnt t1 - 1)) H1).
      assert (Wt : weight (mkT (req t1) (ph t1) (cnt t1 - 1)) = weight t1) by reflexivity.
      specialize (U (set_ph t (Sig wl (Some c')))). unfold weight in U. rewrite P in U. cbn [set_ph ph req length] in U.
      rewrite Wt in U2. cbn [ths]. change (set_ph t (Sig wl (Some c'))) with (mkT (req t) (Sig wl (Some c')) (cnt t)) in *. lia.
  - discriminate.
Qed.

Lemma run_all_bound sched : forall s s', linv s -> lrun_all slots s sched = Ok (Some s') ->
  (length sched + total (ths s') <= total (ths s))%nat.
Proof.
  induction sched as [|c sched IH]; intros s s' H R; cbn [lrun_all] in R.
  - injection R as <-. cbn. lia.
  - assert (ST := step_inv s c H). destruct (lstep slots s c) as [[s1|]|] eqn:E; try discriminate.
    specialize (IH s1 s' ST R). assert (T := step_total s c s1 H E). cbn [length]. lia.
Qed.

Lemma run_all_run sched : forall s s', lrun_all slots s sched = Ok (Some s') -> lrun slots s sched = Ok s'.
Proof.
  induction sched as [|c sched IH]; intros s s' R; cbn [lrun_all lrun] in *; [now injection R as <-|].
  destruct (lstep slots s c) as [[s1|]|]; try discriminate. apply IH, R.
Qed.

Lemma total_init reqs : (total (ths (linit reqs)) <= fold_right (fun hs n => 6 * length hs + 5 + n)%nat 0%nat reqs)%nat.
Proof.
  unfold linit. cbn [ths]. induction reqs as [|hs reqs IH]; [cbn; lia|]. cbn [map total fold_right]. unfold weight. cbn [ph req].
  assert (L : (length (make_lock hs) <= length hs)%nat).
  { clear. unfold make_lock. induction hs as [|a hs IH]; [cbn; lia|]. cbn [fold_right length].
    assert (G : forall x l, (length (insert x l) <= S (length l))%nat).
    { clear. induction l as [|b l IH]; [cbn; lia|]. cbn [insert]. destruct (x <? b); [cbn; lia|]. destruct (x =? b); cbn [length] in *; lia. }
    specialize (G a (fold_right insert [] hs)). lia. }
  lia.
Qed.

(** from every reachable state, commands that keep moving all finish *)
Lemma finish_aux n : forall s, linv s -> (total (ths s) <= n)%nat -> exists sched s', lrun_all slots s sched = Ok (Some s') /\ all_done s'.
Proof.
  induction n as [|n IH]; intros s H L.
  - exists [], s. split; [reflexivity|]. apply progress; [exact H|]. intros c [s' E].
    assert (T := step_total s c s' H E). lia.
  - (* either someone can move or all are done *)
    assert (D : (exists c, (c < length (ths s))%nat /\ can_move slots s c) \/ (forall c, ~ can_move slots s c)).
    { assert (D1 : forall m, (exists c, (c < m)%nat /\ can_move slots s c) \/ (forall c, (c < m)%nat -> ~ can_move slots s c)).
      { induction m as [|m IHm]; [right; intros c Hc; lia|]. destruct IHm as [[c [Lc M]]|N]; [left; exists c; split; [lia|exact M]|].
        assert (Dm : can_move slots s m \/ ~ can_move slots s m).
        { unfold can_move. destruct (lstep slots s m) as [[s'|]|]; [left; eauto|right; intros [s' E]; discriminate|right; intros [s' E]; discriminate]. }
        destruct Dm as [M|NM]; [left; exists m; split; [lia|exact M]|]. right. intros c Lc.
        destruct (Nat.eq_dec c m) as [->|]; [exact NM|]. apply N. lia. }
      destruct (D1 (length (ths s))) as [M|N]; [left; exact M|]. right. intros c M.
      destruct (lt_dec c (length (ths s))) as [Lc|NL]; [exact (N c Lc M)|].
      destruct M as [s' E]. unfold lstep in E. assert (nth_error (ths s) c = None) as En by (apply nth_error_None; lia).
      rewrite En in E. discriminate. }
    destruct D as [[c [_ [s1 E]]]|N].
    + assert (ST := step_inv s c H). rewrite E in ST. assert (T := step_total s c s1 H E).
      destruct (IH s1 ST ltac:(lia)) as [sched [s' [R A]]]. exists (c :: sched), s'. split; [|exact A]. cbn [lrun_all]. rewrite E. exact R.
    + exists [], s. split; [reflexivity|]. apply progress; assumption.
Qed.

Lemma all_finish reqs sched s : no_zero reqs -> lrun slots (linit reqs) sched = Ok s ->
  exists sched' s', lrun_all slots s sched' = Ok (Some s') /\ all_done s'.
Proof. intros NZ R. apply (finish_aux (total (ths s))); [eapply reach_inv; eassumption|lia]. Qed.

Lemma no_deadlock reqs sched s : no_zero reqs -> lrun slots (linit reqs) sched = Ok s ->
  (forall c, ~ can_move slots s c) -> all_done s.
Proof. intros NZ R. apply progress. eapply reach_inv; eassumption. Qed.

Lemma bounded reqs sched s : no_zero reqs -> lrun_all slots (linit reqs) sched = Ok (Some s) ->
  (length sched <= fold_right (fun hs n => 6 * length hs + 5 + n)%nat 0%nat reqs)%nat.
Proof.
  intros NZ R. assert (B := run_all_bound sched _ _ (init_inv reqs NZ) R). assert (T := total_init reqs). lia.
Qed.

Lemma no_crash reqs sched : no_zero reqs -> exists s, lrun slots (linit reqs) sched = Ok s.
Proof. intros NZ. destruct (run_inv sched _ (init_inv reqs NZ)) as [s [R _]]. eauto. Qed.

(** a wake-up decreases the counter of a command that is still waiting *)
Lemma decrease_live reqs sched s c t c' wl : no_zero reqs -> lrun slots (linit reqs) sched = Ok s ->
  nth_error (ths s) c = Some t -> ph t = Sig (c' :: wl) None -> exists h, waits_for s c' h.
Proof.
  intros NZ R Ht P. assert (H := reach_inv reqs sched s NZ R).
  assert (G : Z.of_nat (count_occ Nat.eq_dec (wake_list t) c') <= in_lists (ths s) c') by (eapply in_lists_ge; eassumption).
  unfold wake_list in G. rewrite P in G. cbn [count_occ] in G. destruct (Nat.eq_dec c' c'); [|congruence].
  assert (W := l_wake s H c'). unfold wakeups, expected in W.
  destruct (nth_error (ths s) c') as [x|] eqn:Hx; [|lia].
  assert (Cx : cnt x <= 0) by apply (l_ok s H c' x Hx).
  destruct (ph x) as [| |i| | | |] eqn:Px; try lia. destruct (nth_error (req x) i) as [h|] eqn:Eh; [|lia].
  exists h, x, i. auto.
Qed.

(** ** queues are first come, first served *)
Lemma fifo reqs sched s c s' h : no_zero reqs -> lrun slots (linit reqs) sched = Ok s -> lstep slots s c = Ok (Some s') ->
  queue_of slots s' h = queue_of slots s h \/ queue_of slots s' h = queue_of slots s h ++ [c] \/
  queue_of slots s h = c :: queue_of slots s' h.
Proof.
  intros NZ R E. assert (H := reach_inv reqs sched s NZ R).
  unfold lstep in E. destruct (nth_error (ths s) c) as [t|] eqn:Ht; [|discriminate].
  destruct (ph t) as [|i w|i| |j wl|wl d|] eqn:P.
  - injection E as <-. now left.
  - destruct (nth_error (req t) i) as [h0|] eqn:Hh; [|injection E as <-; now left].
    assert (PQ : forall l, queue_of slots (mkL l (setq (qs s) (slot slots h0) (wait_for_wake h0 c (qs s (slot slots h0)))) (touched s)) h
              = queue_of slots s h \/ queue_of slots (mkL l (setq (qs s) (slot slots h0) (wait_for_wake h0 c (qs s (slot slots h0)))) (touched s)) h
              = queue_of slots s h ++ [c]).
    { intros l. assert (X := Q_setq_push s h0 c h). unfold Q, queue_of in *. cbn [qs] in *. rewrite X.
      destruct (h0 =? h); [now right|left; apply app_nil_r]. }
    destruct (first_req h0 (qs s (slot slots h0))) as [who|]; [destruct (who =? c)%nat|]; injection E as <-.
    + now left.
    + destruct (PQ (upd (ths s) c (set_ph t (Wait i)))); auto.
    + destruct (PQ (upd (ths s) c (set_ph t (Acq (S i) false)))); auto.
  - destruct (0 <? cnt t + 1); [discriminate|]. injection E as <-. now left.
  - injection E as <-. now left.
  - destruct (nth_error (req t) j) as [h0|] eqn:Hh; [|injection E as <-; now left].
    destruct (l_ok s H c t Ht) as [S [Z0 _]].
    assert (N0 : h0 <> 0) by (intros ->; apply Z0; eapply nth_error_In; eassumption).
    pose proof (pop_sub h0 (qs s (slot slots h0)) N0 (l_zero s H _)) as PS.
    destruct (pop_front h0 (qs s (slot slots h0))) as [[f q']|]; [|discriminate]. destruct (Nat.eqb_spec f c) as [->|]; [|discriminate].
    destruct PS as [P1 [P2 _]]. injection E as <-. unfold queue_of. cbn [qs]. unfold setq.
    destruct (Z.eqb_spec (slot slots h) (slot slots h0)) as [Es|]; [|now left]. rewrite Es.
    destruct (Z.eq_dec h h0) as [->|Nh]; [right; right; exact P1|left; exact (P2 h Nh)].
  - destruct wl as [|c' wl], d as [d|]; try (injection E as <-; now left).
    destruct (nth_error (upd (ths s) c (set_ph t (Sig wl (Some c')))) c'); [|discriminate]. injection E as <-. now left.
  - discriminate.
Qed.

(** a command executes exactly with the hashes of its keys *)
Lemma all_latched reqs sched s c t : lrun slots (linit reqs) sched = Ok s -> nth_error (ths s) c = Some t ->
  exists hs, nth_error reqs c = Some hs /\ StronglySorted Z.lt (req t) /\ (forall h, In h (req t) <-> In h hs).
Proof.
  intros R Ht. assert (K := requests_kept _ _ _ R). unfold linit in K. cbn [ths] in K. rewrite map_map in K. cbn [req] in K.
  assert (E := map_nth_error req _ _ Ht). rewrite K in E. rewrite nth_error_map in E.
  destruct (nth_error reqs c) as [hs|]; [|discriminate]. injection E as E. exists hs. rewrite <- E.
  split; [reflexivity|]. split; [apply make_lock_sorted|apply make_lock_in].
Qed.
End Slots.
