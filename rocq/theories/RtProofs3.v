(** Proofs: in a calm run the index leads to every region whose record is not outdated. *)
From Coq Require Import ZArith List Bool Lia Sorted Permutation.
From Verif Require Import Bytes SMap Outcome LogProofs2 RtModel RtSpec RtProofs1 RtProofs2.
Import ListNotations.
Open Scope Z_scope.

Definition inc_id (i : incr) : Z := match i with ICreate r => r_id r | IUpdate r => r_id r | IDelete i => i end.
Definition honest (W : world) (T : nat) (r : region) : Prop := exists n, (n <= T)%nat /\ right_at W n r.
Definition pend_ok (W : world) (T : nat) (l : list incr) : Prop :=
  NoDup (map inc_id l) /\ (forall r, written l r -> honest W T r) /\
  ((forall i, ~ In (IDelete i) l) \/ (forall r, ~ written l r)).
Record inv (W : world) (T : nat) (s : state) : Prop := {
  i_map : sorted Z.compare (s_map s);
  i_keyed : keyed (s_idx s);
  i_rec : forall i r, zget (s_map s) i = Some r -> r_id r = i /\ honest W T r;
  i_honest : forall k x, bget (s_idx s) k = Some x -> honest W T x;
  i_entry : forall k x, bget (s_idx s) k = Some x -> k <> max_start_key -> zget (s_map s) (r_id x) = Some x;
  i_found : forall i c, zget (s_map s) i = Some c -> blt (r_start c) (r_end c) ->
    bget (s_idx s) (r_start c) = Some c \/ exists n, (n <= T)%nat /\ over_at W n c;
  i_pend : forall l, In l (s_pend s) -> pend_ok W T l
}.

Lemma honest_place W T r : world_ok W -> honest W T r ->
  0 < r_id r /\ blt (r_end r) max_start_key /\ (blt (r_start r) (r_end r) \/ r_start r = max_start_key).
Proof.
  intros (A & _) (n & _ & H). apply A in H. destruct H as [H [[B C]|[B C]]]; simpl in *; auto.
Qed.
Lemma proper_iff r : proper r = true <-> blt (r_start r) (r_end r).
Proof. apply bltb_iff. Qed.

Lemma in_map_iff_get (m : rmap) (c : region) i : sorted Z.compare m -> zget m i = Some c -> r_id c = i -> In (r_id c, c) m.
Proof. intros H G E. subst i. apply get_In in G; auto. apply zcmp_ok. Qed.

Lemma taken_in rm l r : In r (flat_map (taken rm) l) <->
  In (ICreate r) l \/ In (IUpdate r) l /\ accepts rm r = true.
Proof.
  rewrite in_flat_map. split.
  - intros ([x|x|i] & H & K); simpl in K.
    + destruct K as [->|[]]. auto.
    + destruct (accepts rm x) eqn:E; simpl in K; [|tauto]. destruct K as [->|[]]. auto.
    + tauto.
  - intros [H|[H E]].
    + exists (ICreate r). simpl; auto.
    + exists (IUpdate r). simpl. rewrite E. simpl; auto.
Qed.
Lemma taken_written rm l r : In r (flat_map (taken rm) l) -> written l r.
Proof. rewrite taken_in. unfold written. tauto. Qed.
Lemma taken_nodup rm l : NoDup (map inc_id l) -> NoDup (map r_id (flat_map (taken rm) l)).
Proof.
  induction l as [|i l IH]; simpl; intros H; [constructor|]. inversion H; subst.
  assert (K : forall r, In r (flat_map (taken rm) l) -> r_id r <> inc_id i).
  { intros r Hr E. apply H2. rewrite <- E. apply taken_written in Hr.
    destruct Hr as [Hr|Hr]; apply (in_map inc_id) in Hr; exact Hr. }
  assert (K' : ~ In (inc_id i) (map r_id (flat_map (taken rm) l))).
  { intros C. apply in_map_iff in C. destruct C as (r & E & C). exact (K r C E). }
  destruct i as [r|r|i]; simpl; auto.
  - constructor; auto.
  - destruct (accepts rm r); simpl; auto. constructor; auto.
Qed.
Lemma inc_unique l i j : NoDup (map inc_id l) -> In i l -> In j l -> inc_id i = inc_id j -> i = j.
Proof.
  induction l as [|a l IH]; simpl; intros N; [tauto|]. inversion N; subst. intros [->|A] [->|B] E; auto.
  - exfalso. apply H1. rewrite E. apply in_map; auto.
  - exfalso. apply H1. rewrite <- E. apply in_map; auto.
Qed.
Lemma find_id l r : NoDup (map r_id l) -> In r l -> find (fun x => r_id x =? r_id r) l = Some r.
Proof.
  induction l as [|a l IH]; simpl; intros N; [tauto|]. inversion N; subst. intros [->|H].
  - rewrite Z.eqb_refl. auto.
  - replace (r_id a =? r_id r) with false; auto. symmetry. apply Z.eqb_neq. intros E. apply H1. rewrite E. apply in_map; auto.
Qed.
Lemma find_id_none l i : (forall r, In r l -> r_id r <> i) -> find (fun x => r_id x =? i) l = None.
Proof.
  induction l as [|a l IH]; simpl; intros H; auto. replace (r_id a =? i) with false; auto.
  symmetry. apply Z.eqb_neq. auto.
Qed.

(** ** applying an increment *)

Section Apply.
  Variables (W : world) (T : nat) (s : state) (n : nat) (l : list incr).
  Hypothesis HW : world_ok W.
  Hypothesis HI : inv W T s.
  Hypothesis Hn : nth_error (s_pend s) n = Some l.
  Hypothesis Hc : calm W T s (OApply n).
  Let rm := s_map s.
  Let xm := s_idx s.
  Let rm' := fst (apply_incs rm xm l).
  Let xm' := snd (apply_incs rm xm l).

  Lemma ap_pend : pend_ok W T l.
  Proof. apply (i_pend _ _ _ HI). eapply nth_error_In; eauto. Qed.
  Lemma ap_nodup : NoDup (map r_id (flat_map (taken rm) l)).
  Proof. apply taken_nodup. apply ap_pend. Qed.

  (** the regions afterwards: those taken from the increment, and the others unless deleted *)
  Lemma ap_map i c : zget rm' i = Some c <->
    (In c (flat_map (taken rm) l) /\ r_id c = i) \/
    (zget rm i = Some c /\ ~ In (IDelete i) l /\ forall r, In r (flat_map (taken rm) l) -> r_id r <> i).
  Proof.
    destruct ap_pend as (N & _ & Hom).
    unfold rm'. rewrite apply_map by (try apply ap_nodup; apply (i_map _ _ _ HI)).
    destruct (in_dec Z.eq_dec i (w_dels (collect rm xm l))) as [D|D].
    - apply collect_dels in D. destruct D as [D _]. split; [congruence|]. intros [[A B]|[A [B _]]]; [|tauto].
      exfalso. destruct Hom as [Hom|Hom]; [apply (Hom i); auto|]. apply (Hom c). eapply taken_written; eauto.
    - destruct (find _ _) as [r|] eqn:F.
      + pose proof (find_some _ _ F) as [F1 F2]. apply Z.eqb_eq in F2. split.
        * intros [= <-]. auto.
        * intros [[A B]|[A [B C]]]; [|exfalso; eapply C; eauto].
          rewrite <- B in F. rewrite find_id in F by (auto; apply ap_nodup). congruence.
      + assert (Hno : forall r, In r (flat_map (taken rm) l) -> r_id r <> i).
        { intros r Hr. apply Z.eqb_neq. apply (find_none _ _ F). auto. }
        split.
        * intros H. right. split; auto. split; auto. intros C. apply D. apply collect_dels. eauto.
        * intros [[A B]|[A _]]; auto. exfalso. exact (Hno c A B).
  Qed.

  Lemma ap_put_unique r q : In r (flat_map (taken rm) l) -> In q (flat_map (taken rm) l) ->
    proper r = true -> proper q = true -> r_start r = r_start q -> r = q.
  Proof.
    intros Hr Hq Pr Pq E. destruct (Hc l Hn) as (_ & U & _ & _).
    assert (Ei : r_id r = r_id q) by (apply U; eauto using taken_written; apply proper_iff; auto).
    pose proof (find_id _ _ ap_nodup Hr) as F1. pose proof (find_id _ _ ap_nodup Hq) as F2. rewrite Ei in F1. congruence.
  Qed.
  Lemma ap_find r : In r (flat_map (taken rm) l) -> proper r = true ->
    find (fun x => beqb (r_start x) (r_start r)) (filter proper (flat_map (taken rm) l)) = Some r.
  Proof.
    intros Hr Pr. destruct (find _ _) as [q|] eqn:F.
    - apply find_some in F. destruct F as [F1 F2]. apply filter_In in F1. destruct F1 as [F1 F3]. apply beqb_true in F2.
      f_equal. apply ap_put_unique; auto.
    - exfalso. assert (In r (filter proper (flat_map (taken rm) l))) as Q by (apply filter_In; auto).
      apply (find_none _ _ F) in Q. rewrite beqb_refl in Q. congruence.
  Qed.

  Lemma ap_entry k x : bget xm' k = Some x -> k <> max_start_key -> zget rm' (r_id x) = Some x.
  Proof.
    unfold xm'. rewrite apply_idx by apply (i_keyed _ _ _ HI). intros H Hk.
    destruct (in_dec bytes_eq_dec k (w_xdels (collect rm xm l))) as [D|D]; [congruence|].
    destruct (find _ _) as [r|] eqn:F.
    - injection H as ->. apply find_some in F. destruct F as [F _]. apply filter_In in F. apply ap_map. left. tauto.
    - destruct (in_dec bytes_eq_dec k (w_xdels_update (collect rm xm l))) as [E|E]; [congruence|].
      pose proof (i_entry _ _ _ HI _ _ H Hk) as G. pose proof (proj2 (i_keyed _ _ _ HI) _ _ H) as Ks.
      apply ap_map. right. split; auto. split.
      + intros C. apply D. apply collect_xdels. exists (r_id x), x. auto.
      + intros r Hr Er. apply taken_in in Hr. destruct Hr as [Hr|[Hr Ac]].
        * destruct (Hc l Hn) as (_ & _ & Fr & _). specialize (Fr r Hr). rewrite Er in Fr. fold rm in Fr.
          unfold rm in *. congruence.
        * assert (Hw : written l r) by (right; auto).
          assert (Htk : In r (flat_map (taken rm) l)) by (apply taken_in; auto).
          destruct (bytes_eq_dec (r_start r) k) as [Es|Es].
          -- (* the same start key: it is put again *)
             destruct (honest_place W T r HW) as (_ & _ & [P|P]); [apply ap_pend; auto| |congruence].
             apply proper_iff in P. pose proof (ap_find r Htk P) as Q. rewrite Es in Q. congruence.
          -- assert (L : leaves rm r k).
             { split; auto. exists x. unfold rm. rewrite Er. auto. }
             assert (Lg : legal_delete rm xm (r_id r) k = true).
             { unfold legal_delete. rewrite H, Er, Z.eqb_refl, andb_false_r. auto. }
             destruct (collect_xdu_all rm xm l r k Hr L Lg) as [Q|(q & Q & R)]; [tauto|].
             rewrite collect_xputs, collect_puts in Q. apply (find_none _ _ F) in Q. rewrite R, beqb_refl in Q. congruence.
  Qed.

  Lemma ap_found i c : zget rm' i = Some c -> blt (r_start c) (r_end c) ->
    bget xm' (r_start c) = Some c \/ exists n, (n <= T)%nat /\ over_at W n c.
  Proof.
    intros H P. apply ap_map in H. destruct ap_pend as (N & Hon & Hom). destruct (Hc l Hn) as (Cw & Cu & Cf & Cd).
    destruct H as [[H E]|(H & Nd & Nt)].
    - left. unfold xm'. rewrite apply_idx by apply (i_keyed _ _ _ HI). rewrite ap_find by (auto; apply proper_iff; auto).
      destruct (in_dec bytes_eq_dec (r_start c) (w_xdels (collect rm xm l))) as [D|D]; auto.
      apply collect_xdels in D. destruct D as (j & r & D & _). exfalso.
      destruct Hom as [Hom|Hom]; [exact (Hom j D)|]. apply (Hom c). eapply taken_written; eauto.
    - destruct (i_rec _ _ _ HI _ _ H) as [Ei Hh].
      assert (Hin : In (r_id c, c) rm) by (eapply in_map_iff_get; eauto; apply (i_map _ _ _ HI)).
      destruct (i_found _ _ _ HI _ _ H P) as [F|F]; [|auto].
      unfold xm'. rewrite apply_idx by apply (i_keyed _ _ _ HI).
      destruct (in_dec bytes_eq_dec (r_start c) (w_xdels (collect rm xm l))) as [D|D].
      + right. apply collect_xdels in D. destruct D as (j & r & D & Gr & Er).
        apply (Cd j r D Gr c Hin); auto. congruence.
      + destruct (find _ _) as [r|] eqn:Fi.
        * right. apply find_some in Fi. destruct Fi as [F1 F2]. apply filter_In in F1. destruct F1 as [F1 F3].
          apply beqb_true in F2. destruct (Cw r (taken_written _ _ _ F1) (proj1 (proper_iff r) F3)) as (t & T1 & T2 & T3).
          exists t. split; auto. apply T3; auto. rewrite Ei. intros E. exact (Nt r F1 (eq_sym E)).
        * destruct (in_dec bytes_eq_dec (r_start c) (w_xdels_update (collect rm xm l))) as [D'|D']; [|auto].
          exfalso. apply collect_xdu_only in D'. destruct D' as (r & R1 & (R2 & old & R3 & R4 & R5) & R6).
          assert (Hr : In r (flat_map (taken rm) l)) by (apply taken_in; auto).
          unfold legal_delete in R6. change (bget xm (r_start c) = Some c) in F. rewrite F in R6.
          destruct (honest_place W T c HW Hh) as (Pos & _).
          rewrite (proj2 (Z.ltb_lt _ _) Pos) in R6.
          assert (En : (r_id c =? r_id r) = false).
          { apply Z.eqb_neq. rewrite Ei. intros E. exact (Nt r Hr (eq_sym E)). }
          rewrite En in R6. cbn [negb andb] in R6. rewrite <- Ei in H. rewrite H in R6.
          rewrite (proj2 (Z.ltb_lt _ _) Pos), Z.eqb_refl, beqb_refl in R6. simpl in R6. congruence.
  Qed.

  Lemma ap_inv : inv W T (mkS rm' xm' (remove_nth n (s_pend s))).
  Proof.
    destruct (apply_sorted rm xm l (i_map _ _ _ HI) (proj1 (i_keyed _ _ _ HI))) as [S1 S2].
    constructor; cbn [s_map s_idx s_pend].
    - exact S1.
    - apply apply_keyed. apply (i_keyed _ _ _ HI).
    - intros i r H. apply ap_map in H. destruct H as [[H E]|[H _]].
      + split; auto. apply ap_pend. eapply taken_written; eauto.
      + apply (i_rec _ _ _ HI); auto.
    - intros k x. unfold xm'. rewrite apply_idx by apply (i_keyed _ _ _ HI).
      destruct (in_dec _ _ _); [congruence|]. destruct (find _ _) as [r|] eqn:F.
      + intros [= <-]. apply find_some in F. destruct F as [F _]. apply filter_In in F.
        apply ap_pend. eapply taken_written. apply F.
      + destruct (in_dec _ _ _); [congruence|]. apply (i_honest _ _ _ HI).
    - exact ap_entry.
    - exact ap_found.
    - intros k Hk. apply (i_pend _ _ _ HI). unfold remove_nth in Hk. apply in_app_or in Hk.
      rewrite <- (firstn_skipn n (s_pend s)). apply in_or_app. destruct Hk as [Hk|Hk]; auto. right.
      replace (S n) with (1 + n)%nat in Hk by auto.
      assert (forall m (L : list (list incr)) x, In x (skipn (S m) L) -> In x (skipn m L)) as Sk.
      { induction m as [|m IH]; intros L x; destruct L; simpl; auto. }
      apply Sk. exact Hk.
  Qed.
End Apply.

(** ** the other steps *)

Lemma skipn_S_in {A} (x : A) : forall m (L : list A), In x (skipn (S m) L) -> In x (skipn m L).
Proof. induction m as [|m IH]; intros L; destruct L; simpl; auto. Qed.
Lemma remove_nth_in {A} (x : A) n L : In x (remove_nth n L) -> In x L.
Proof.
  unfold remove_nth. intros H. rewrite <- (firstn_skipn n L). apply in_app_or in H. apply in_or_app.
  destruct H; auto. right. apply skipn_S_in. auto.
Qed.

Lemma propose_inv W T s l : inv W T s -> pend_ok W T l -> inv W T (propose s l).
Proof.
  intros [A B C D E F G] H. constructor; cbn [propose s_map s_idx s_pend]; auto.
  intros k Hk. apply in_app_or in Hk. destruct Hk as [Hk|[<-|[]]]; auto.
Qed.

Lemma beat_region_form W T s b p i : inv W T s -> In i (beat_region (s_map s) b p) ->
  beat_region (s_map s) b p = [i] /\
  exists r st d, i = IUpdate (mkR (p_id p) st d) /\ zget (s_map s) (p_id p) = Some r /\ (d = r_def r \/ d = p_def p).
Proof.
  intros HI. unfold beat_region. destruct (zget (s_map s) (p_id p)) as [r|] eqn:E; [|simpl; tauto].
  destruct (i_rec _ _ _ HI _ _ E) as [Er _].
  destruct (_ && negb (deleted_state (r_state r))); [simpl; tauto|].
  match goal with |- context [if ?c then _ else []] => destruct c end; [|simpl; tauto].
  intros [<-|[]]. split; auto. rewrite Er. do 3 eexists. split; [reflexivity|]. split; eauto.
  match goal with |- context [if ?c then p_def p else r_def r] => destruct c end; auto.
Qed.
Lemma right_at_def W n i st st' d : right_at W n (mkR i st d) -> right_at W n (mkR i st' d).
Proof. auto. Qed.

Lemma beat_pend W T s b : inv W T s -> calm W T s (OBeat b) -> pend_ok W T (beat_incs (s_map s) b).
Proof.
  intros HI [Nd Hr]. unfold beat_incs.
  assert (HH : forall ps, NoDup (map p_id ps) ->
     (forall p, In p ps -> exists n, (n <= T)%nat /\ right_at W n (mkR (p_id p) SNew (p_def p))) ->
     pend_ok W T (flat_map (beat_region (s_map s) b) ps)).
  { clear Nd Hr. intros ps Nd Hr. split; [|split].
    - induction ps as [|p ps IH]; simpl; [constructor|]. inversion Nd; subst.
      assert (IH' : NoDup (map inc_id (flat_map (beat_region (s_map s) b) ps))) by (apply IH; auto; intros; apply Hr; right; auto).
      destruct (beat_region (s_map s) b p) as [|i t] eqn:E; auto.
      destruct (beat_region_form W T s b p i HI) as (E2 & r & st & d & -> & G & _); [rewrite E; left; auto|].
      rewrite E in E2. injection E2 as ->. simpl. constructor; auto.
      intros C. apply in_map_iff in C. destruct C as (j & Ej & C). apply in_flat_map in C. destruct C as (q & Q1 & Q2).
      destruct (beat_region_form W T s b q j HI Q2) as (_ & r' & st' & d' & -> & _). simpl in Ej.
      apply H1. rewrite <- Ej. apply in_map. auto.
    - intros r Hw.
      assert (exists p, In p ps /\ In (IUpdate r) (beat_region (s_map s) b p)) as (p & P1 & P2).
      { destruct Hw as [Hw|Hw]; apply in_flat_map in Hw; destruct Hw as (p & P1 & P2); [|eauto].
        destruct (beat_region_form W T s b p _ HI P2) as (_ & r' & st' & d' & Q & _). congruence. }
      destruct (beat_region_form W T s b p _ HI P2) as (_ & r' & st & d & Q & G & D). injection Q as ->.
      destruct D as [->| ->].
      + destruct (i_rec _ _ _ HI _ _ G) as [Ei (n & N1 & N2)]. exists n. split; auto.
        unfold right_at in *. simpl. rewrite <- Ei. exact N2.
      + apply Hr; auto.
    - left. intros i C. apply in_flat_map in C. destruct C as (p & P1 & P2).
      destruct (beat_region_form W T s b p _ HI P2) as (_ & r' & st & d & Q & _). congruence. }
  destruct (_ && _); auto. split; [constructor|]. split; [intros r [[]|[]]|left; simpl; auto].
Qed.

Lemma create_form rm xm : forall l is, create_regions rm xm l = Ok (inr is) -> is = map (fun n => ICreate (new_region n)) l.
Proof.
  induction l as [|n l IH]; intros is; cbn [create_regions map].
  - intros [= <-]. auto.
  - destruct (check_range xm (n_start n) (n_end n)) as [[e|]|]; try congruence.
    destruct (zget rm (n_id n)); try congruence.
    destruct (create_regions rm xm l) as [[e|is']|]; try congruence. intros [= <-]. f_equal. auto.
Qed.
Lemma create_pend W T l : NoDup (map n_id l) -> (forall n, In n l -> exists t, (t <= T)%nat /\ right_at W t (new_region n)) ->
  pend_ok W T (map (fun n => ICreate (new_region n)) l).
Proof.
  intros N H. split; [|split].
  - rewrite map_map. exact N.
  - intros r [Hr|Hr]; apply in_map_iff in Hr; destruct Hr as (n & E & Hn); [injection E as <-; apply H; auto|congruence].
  - left. intros i C. apply in_map_iff in C. destruct C as (n & E & _). congruence.
Qed.

Lemma build_get rm : forall order m k,
  (forall x, bget (fold_left (fun m id => match zget rm id with Some r => put bcmp m (r_start r) r | None => m end) order m) k = Some x ->
     bget m k = Some x \/ exists i, zget rm i = Some x /\ r_start x = k) /\
  ((exists i r, In i order /\ zget rm i = Some r /\ r_start r = k) \/ (exists x, bget m k = Some x) ->
     exists x, bget (fold_left (fun m id => match zget rm id with Some r => put bcmp m (r_start r) r | None => m end) order m) k = Some x).
Proof.
  induction order as [|i order IH]; intros m k; simpl.
  - split; [auto|]. intros [(i & r & [] & _)|H]; auto.
  - destruct (IH (match zget rm i with Some r => put bcmp m (r_start r) r | None => m end) k) as [I1 I2]. split.
    + intros x Hx. destruct (I1 x Hx) as [H|H]; auto. destruct (zget rm i) as [r|] eqn:E; auto.
      rewrite (get_put bcmp bcmp_ok) in H. destruct (cmp_dec bcmp bcmp_ok (r_start r) k); auto. injection H as <-. eauto.
    + intros H. apply I2. destruct H as [(j & r & [->|Hj] & G & Es)|(x & Hx)].
      * right. rewrite G. exists r. rewrite <- Es. apply get_put_same. apply bcmp_ok.
      * left. eauto.
      * right. destruct (zget rm i) as [r|]; eauto. rewrite (get_put bcmp bcmp_ok).
        destruct (cmp_dec bcmp bcmp_ok (r_start r) k); eauto.
Qed.

Lemma index_inv W T s order : world_ok W -> inv W T s -> calm W T s (OIndex order) ->
  inv W T (mkS (s_map s) (build_index (s_map s) order) (s_pend s)).
Proof.
  intros HW [A B C D E F G] [Hp Hu].
  assert (Hin : forall k x, bget (build_index (s_map s) order) k = Some x -> exists i, zget (s_map s) i = Some x /\ r_start x = k).
  { intros k x H. destruct (proj1 (build_get (s_map s) order [] k) x H) as [Q|Q]; auto. simpl in Q. congruence. }
  constructor; cbn [s_map s_idx s_pend]; auto.
  - apply build_index_keyed.
  - intros k x H. destruct (Hin k x H) as (i & Q & _). apply (C i x Q).
  - intros k x H _. destruct (Hin k x H) as (i & Q & _). destruct (C i x Q) as [-> _]. auto.
  - intros i c H P. left.
    destruct (proj2 (build_get (s_map s) order [] (r_start c))) as (x & Hx).
    { left. exists i, c. split; auto. eapply Permutation_in; [apply Permutation_sym; exact Hp|].
      apply get_In in H; [|apply zcmp_ok]. apply (in_map fst) in H. exact H. }
    change (bget (build_index (s_map s) order) (r_start c) = Some x) in Hx. rewrite Hx. f_equal.
    destruct (Hin _ _ Hx) as (j & Q & Es). destruct (C _ _ H) as [Ei Hh]. destruct (C _ _ Q) as [Ej Hj].
    assert (r_id x = r_id c).
    { apply Hu; auto; try (eapply in_map_iff_get; eauto).
      destruct (honest_place W T c HW Hh) as (_ & Q2 & _). rewrite Es. eapply blt_trans; eauto. }
    rewrite <- Ei, <- H0, Ej in H. congruence.
Qed.

Lemma step_inv W T s o s' : world_ok W -> inv W T s -> calm W T s o -> step s o = Ok s' -> inv W T s'.
Proof.
  intros HW HI Hc. destruct o; cbn [step].
  - intros [= <-]. apply propose_inv; auto. apply beat_pend; auto.
  - destruct (create_regions (s_map s) (s_idx s) l) as [[e|is]|] eqn:E; simpl; intros [= <-]; auto.
    apply propose_inv; auto. rewrite (create_form _ _ _ _ E). apply create_pend; apply Hc.
  - unfold create_child. destruct (zget (s_map s) parent) as [p|] eqn:Ep; [|simpl; intros [= <-]; auto].
    destruct (create_regions _ _ _) as [[e|is]|] eqn:E; cbn [proposed]; intros [= <-]; auto.
    apply propose_inv; auto. rewrite (create_form _ _ _ _ E). apply create_pend.
    + simpl. constructor; auto. constructor.
    + intros n [<-|[]]. exact (Hc p Ep).
  - intros [= <-]. apply propose_inv; auto. unfold drop_region. destruct (zget (s_map s) id) as [r|]; [destruct (deleted_state _)|].
    + split; [constructor|]. split; [intros q [[]|[]]|left; simpl; auto].
    + split; [simpl; constructor; auto; constructor|]. split; [intros q [[Q|[]]|[Q|[]]]; congruence|].
      right. intros q [[Q|[]]|[Q|[]]]; congruence.
    + split; [constructor|]. split; [intros q [[]|[]]|left; simpl; auto].
  - destruct (nth_error (s_pend s) n) as [l|] eqn:E; [|intros [= <-]; auto].
    rewrite (surjective_pairing (apply_incs (s_map s) (s_idx s) l)). intros [= <-].
    apply ap_inv; auto.
  - intros [= <-]. destruct HI as [A B C D E F G]. constructor; cbn [s_map s_idx s_pend]; auto.
    intros l Hl. apply G. eapply remove_nth_in; eauto.
  - intros [= <-]. apply index_inv; auto.
Qed.
Lemma run_inv W T : world_ok W -> forall ops s s', inv W T s -> calm_run W T s ops -> run s ops = Ok s' -> inv W T s'.
Proof.
  intros HW. induction ops as [|o ops IH]; simpl; intros s s' HI Hc Hr.
  - injection Hr as <-; auto.
  - destruct Hc as [C1 C2]. destruct (step s o) as [s1|] eqn:E; [|congruence]. apply (IH s1); auto. eapply step_inv; eauto.
Qed.
Lemma init_inv W T : inv W T init.
Proof.
  constructor.
  - constructor.
  - apply init_keyed.
  - simpl; congruence.
  - simpl; congruence.
  - simpl; congruence.
  - simpl; congruence.
  - simpl; tauto.
Qed.

(** ** caught up: the index is exact *)
Lemma caught_exact W T s : world_ok W -> inv W T s -> caught_up W T s ->
  exact_index (s_idx s) (fun r => zget (s_map s) (r_id r) = Some r).
Proof.
  intros HW HI [C1 C2].
  assert (Hent : forall k r, In (k, r) (s_idx s) -> bget (s_idx s) k = Some r).
  { intros. apply In_get; auto. apply bcmp_ok. apply (i_keyed _ _ _ HI). }
  split; [apply (i_keyed _ _ _ HI)|]. split; [|split; [|split; [|split; [|split]]]].
  - intros k r H. apply Hent in H. split; [apply (i_keyed _ _ _ HI); auto|].
    apply (honest_place W T r HW). eapply (i_honest _ _ _ HI); eauto.
  - intros k r H. apply Hent in H. destruct (bytes_eq_dec k max_start_key) as [E|E]; auto. right. split.
    + eapply (i_entry _ _ _ HI); eauto.
    + destruct (honest_place W T r HW) as (_ & _ & [P|P]); auto; [eapply (i_honest _ _ _ HI); eauto|].
      exfalso. apply E. rewrite <- P. symmetry. apply (i_keyed _ _ _ HI). auto.
  - intros r H P. destruct (i_found _ _ _ HI _ _ H P) as [F|(n & N1 & N2)].
    + apply get_In in F; auto. apply bcmp_ok.
    + exfalso. destruct (C1 _ _ H) as [_ R]. exact (N2 T N1 R).
  - intros r H. destruct (i_rec _ _ _ HI _ _ H) as [_ Hh]. apply (honest_place W T r HW Hh).
  - intros r q k H K N [A B]. destruct (C1 _ _ H) as [_ R]. destruct (C1 _ _ K) as [_ Q].
    destruct HW as (_ & Dj & _). apply (Dj T (r_id r) (r_id q) _ _ k R Q N). simpl. unfold holds in *. tauto.
  - intros r q H K E. rewrite E in H. congruence.
Qed.

Lemma lookup_exact W T ops s start end_ limit : world_ok W -> calm_run W T init ops -> run init ops = Ok s ->
  caught_up W T s -> ble end_ max_start_key -> exists rs,
  scan_regions (s_idx s) start end_ limit = Ok rs /\
  answer (fun r => zget (s_map s) (r_id r) = Some r) start end_ limit rs.
Proof.
  intros HW Hc Hr Hu He. eapply scan_exact; auto. eapply caught_exact; eauto. eapply run_inv; eauto. apply init_inv.
Qed.
