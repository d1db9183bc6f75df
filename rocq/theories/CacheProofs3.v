(** Proofs about the timestamp cache: order of answers, the lower bound, valid pointers, progress. *)
From Coq Require Import ZArith List Bool Arith Lia.
From Verif Require LatchModel LatchProofs.
From Verif Require Import CacheModel CacheSpec ConcProofs CacheProofs CacheProofs2.
Import ListNotations.
Open Scope Z_scope.

(** * A call that starts after another returned gets the larger timestamp *)

Definition ahead (k : nat) (t1 : Z) (g : getter) : Prop :=
  match g_ph g with
  | GStart | GDead _ | GLink _ => True
  | GHead h | GTail h _ | GNext h _ _ | GTake h _ _ | GMove h _ _ => (k <= h)%nat
  | GGot h _ _ ts => (k <= h)%nat /\ (0 < ts -> t1 < ts)
  | GDone ts => 0 < ts -> t1 < ts
  end.

Lemma ahead_step s c s' j g k t1 : Inv s -> opairs below (cells s) -> source s k t1 -> 
  nth_error (gets s) j = Some g -> ahead k t1 g -> cstep s c = Some s' ->
  exists g', nth_error (gets s') j = Some g' /\ ahead k t1 g'.
Proof.
  intros V O (K & bk & BK & W & C) G A E.
  destruct (after_keeps _ _ _ _ _ E G) as (g' & G' & _ & [->|(now & ok & d & -> & ST)]); [eauto|].
  exists g'. split; auto. unfold get_step in ST. unfold ahead in A.
  destruct (g_ph g) as [|h|h t|h t nx|h t nx|h t nx ts|h t nx|h|h|ts] eqn:P.
  - inversion ST; subst. cbn in G'. rewrite (LatchProofs.upd_same _ _ _ _ G) in G'. inversion G'; subst. exact K.
  - inversion ST; subst. cbn in G'. rewrite (LatchProofs.upd_same _ _ _ _ G) in G'. inversion G'; subst. exact A.
  - destruct (nth_error (heap s) h); [|discriminate].
    inversion ST; subst. cbn in G'. rewrite (LatchProofs.upd_same _ _ _ _ G) in G'. inversion G'; subst. exact A.
  - destruct (nth_error (heap s) h) as [b|]; [|discriminate].
    destruct (stale _ _ _); inversion ST; subst; cbn in G'; rewrite (LatchProofs.upd_same _ _ _ _ G) in G'; inversion G'; subst; exact A.
  - destruct (nth_error (heap s) h) as [b|] eqn:B; [|discriminate].
    inversion ST; subst. cbn in G'. rewrite (LatchProofs.upd_same _ _ _ _ G) in G'. inversion G'; subst. split; auto.
    destruct (Z.ltb_spec (b_cur b) (b_end b)) as [L|L]; [|lia]. intros _.
    destruct (Nat.eq_dec k h) as [->|N]; [assert (b = bk) by congruence; subst; lia|].
    assert (KH : (k < h)%nat) by lia. apply (cell_pairs _ _ O k h bk b KH BK B); auto.
    pose proof (i_cur _ V h b B). split; cbn; lia.
  - destruct A as [A1 A2]. destruct (_ && _); inversion ST; subst; cbn in G'; rewrite (LatchProofs.upd_same _ _ _ _ G) in G'; inversion G'; subst; auto.
  - destruct nx as [x|].
    + destruct (Nat.eqb h t).
      * destruct (ok && Nat.eqb (tl s) t); inversion ST; subst; cbn in G'; rewrite (LatchProofs.upd_same _ _ _ _ G) in G'; inversion G'; subst; exact I.
      * destruct (ok && Nat.eqb (hd s) h); inversion ST; subst; cbn in G'; rewrite (LatchProofs.upd_same _ _ _ _ G) in G'; inversion G'; subst; exact I.
    + inversion ST; subst; cbn in G'; rewrite (LatchProofs.upd_same _ _ _ _ G) in G'; inversion G'; subst. unfold ahead; cbn. lia.
  - destruct (nth_error (heap s) h); [|discriminate].
    inversion ST; subst. cbn in G'. rewrite (LatchProofs.upd_same _ _ _ _ G) in G'. inversion G'; subst. exact I.
  - destruct (Nat.ltb d (hd s)).
    + destruct (nth_error (heap s) d) as [b|]; [|discriminate]. destruct (b_next b); inversion ST; subst.
      cbn in G'. rewrite (LatchProofs.upd_same _ _ _ _ G) in G'. inversion G'; subst. exact I.
    + inversion ST; subst. cbn in G'. rewrite (LatchProofs.upd_same _ _ _ _ G) in G'. inversion G'; subst. exact I.
  - discriminate.
Qed.

Lemma ahead_run sched k t1 j : forall s R g, Inv s -> opairs below (cells s) -> known R s -> source s k t1 ->
  nth_error (gets s) j = Some g -> ahead k t1 g ->
  ForallOrdPairs below (ranges sched) -> (forall a b, In a R -> In b (ranges sched) -> below a b) ->
  exists g', nth_error (gets (crun s sched)) j = Some g' /\ ahead k t1 g'.
Proof.
  induction sched as [|c r IH]; intros s R g V O K S G A F H; cbn [crun]; eauto.
  assert (RC : ranges (c :: r) = ranges [c] ++ ranges r) by (destruct c; reflexivity).
  rewrite RC in F, H. destruct (FOP_app _ _ _ F) as (F1 & F2 & F3).
  destruct (cstep s c) as [s'|] eqn:E.
  - pose proof (cells_run below [c] below0 s R O K F1) as C. cbn [crun] in C. rewrite E in C.
    destruct C as [O' K']; [intros a b X Y; apply H; auto; apply in_or_app; auto|].
    destruct (cstep_inv _ _ _ V E) as [V' EV].
    destruct (ahead_step _ _ _ _ _ _ _ V O S G A E) as (g' & G' & A').
    apply (IH s' (R ++ ranges [c]) g'); auto.
    + eapply source_evolves; eauto.
    + intros a b X Y. apply in_app_or in X. destruct X as [X|X]; auto. apply H; auto. apply in_or_app; auto.
  - apply (IH s R g); auto. intros a b X Y. apply H; auto. apply in_or_app; auto.
Qed.

Lemma below_apart a b : below a b -> apart a b.
Proof. intros H ts A B. specialize (H ts ts A B). lia. Qed.

Lemma answers_ordered now afters mins s1 s2 i j t1 t2 after : ForallOrdPairs below (ranges (s1 ++ s2)) ->
  answered (crun (cinit now afters mins) s1) i t1 -> 0 < t1 -> fresh (crun (cinit now afters mins) s1) j after ->
  answered (crun (cinit now afters mins) (s1 ++ s2)) j t2 -> 0 < t2 -> t1 < t2.
Proof.
  intros F [a A] P1 FR [b B] P2. rewrite ranges_app in F. destruct (FOP_app _ _ _ F) as (F1 & F2 & F3).
  destruct (run_facts below now afters mins s1 below0 below_apart F1) as (V & O & K & S & _).
  destruct (S i _ t1 A eq_refl P1) as [k SK].
  destruct (ahead_run s2 k t1 j _ _ _ V O K SK FR I F2 F3) as (g' & G' & A').
  rewrite crun_app in B. rewrite B in G'. inversion G'; subst. exact (A' P2).
Qed.

(** * The lower bound *)

Definition bounded (s : cache) : Prop := forall i v p, nth_error (sets s) i = Some (mkSt v p) ->
  match p with SStart => True | SStore => minv s < v | SDone => v <= minv s end.

Lemma sets_other s c s' : cstep s c = Some s' -> (forall i, c <> CSet i) -> sets s' = sets s /\ minv s' = minv s.
Proof.
  intros E N. destruct c as [k now ok d|k|p l count now|ok]; cbn [cstep] in E.
  - destruct (nth_error (gets s) k) as [gk|]; [|discriminate]. unfold get_step in E.
    destruct (g_ph gk); repeat (match type of E with context [match ?x with _ => _ end] => destruct x end; try discriminate);
            inversion E; subst; cbn; auto.
  - destruct (N k eq_refl).
  - destruct (push s); inversion E; subst; auto.
  - unfold push_step in E.
    destruct (push s); repeat (match type of E with context [match ?x with _ => _ end] => destruct x end; try discriminate); inversion E; subst; auto.
Qed.

Lemma bounded_step s c s' : calm s -> bounded s -> cstep s c = Some s' -> bounded s' /\ minv s <= minv s'.
Proof.
  intros C B E. destruct c as [k now ok d|k|p l count now|ok];
    try (destruct (sets_other _ _ _ E) as [A M]; [intros; discriminate|]; unfold bounded; rewrite A, M; split; [exact B|lia]).
  cbn in E. destruct (nth_error (sets s) k) as [[v [| |]]|] eqn:H; inversion E; subst; clear E; cbn.
  - split; [|lia]. intros i w p X. cbn in *. rewrite (nupd _ _ _ _ _ H) in X. destruct (Nat.eq_dec i k); [|eapply B; eauto].
    inversion X; subst. destruct (Z.ltb_spec (minv s) w); auto.
  - pose proof (B k v SStore H) as LV. cbn in LV. split; [|lia].
    intros i w p X. cbn in *. rewrite (nupd _ _ _ _ _ H) in X. destruct (Nat.eq_dec i k) as [->|N]; [inversion X; subst; lia|].
    pose proof (B i w p X) as Y. destruct p; auto; [|lia]. destruct N. apply C; [exists w|exists v]; auto.
Qed.

Definition above (v : Z) (g : getter) : Prop := forall ts, g_ph g = GDone ts -> 0 < ts -> v < ts.

Lemma above_run sched v j : forall s g, calm_run s sched -> bounded s -> v <= minv s -> nth_error (gets s) j = Some g -> above v g ->
  exists g', nth_error (gets (crun s sched)) j = Some g' /\ above v g'.
Proof.
  induction sched as [|c r IH]; intros s g [C CR] B M G A; cbn [crun]; eauto.
  destruct (cstep s c) as [s'|] eqn:E; [|eapply IH; eauto].
  destruct (bounded_step _ _ _ C B E) as [B' M'].
  destruct (after_keeps _ _ _ _ _ E G) as (g' & G' & _ & D).
  apply (IH s' g'); auto; [lia|]. destruct D as [->|(now & ok & d & -> & ST)]; auto.
  intros ts P T. destruct (done_step _ _ _ _ _ _ _ _ _ G ST G' P) as [->|(h & t & nx & _ & _ & _ & X)]; lia.
Qed.

Lemma calm_app a : forall s b, calm_run s (a ++ b) -> calm_run s a /\ calm_run (crun s a) b.
Proof.
  induction a as [|c a IH]; intros s b H; cbn in *.
  - split; auto. destruct b; cbn in H; tauto.
  - destruct H as [C H]. destruct (IH _ _ H). auto.
Qed.

Lemma bounded_run sched : forall s, calm_run s sched -> bounded s -> bounded (crun s sched).
Proof.
  induction sched as [|c r IH]; intros s [C CR] B; cbn; auto. destruct (cstep s c) eqn:E; [|apply IH; auto].
  apply IH; auto. eapply bounded_step; eauto.
Qed.

Lemma init_bounded now afters mins : bounded (cinit now afters mins).
Proof. intros i v p H. cbn in H. rewrite nth_error_map in H. destruct (nth_error mins i); cbn in H; inversion H; subst. exact I. Qed.

Lemma bound_respected now afters mins s1 s2 j after v ts : calm_run (cinit now afters mins) (s1 ++ s2) ->
  bound_set (crun (cinit now afters mins) s1) v -> fresh (crun (cinit now afters mins) s1) j after ->
  answered (crun (cinit now afters mins) (s1 ++ s2)) j ts -> 0 < ts -> v < ts.
Proof.
  intros C [i BS] FR [a A] T. destruct (calm_app _ _ _ C) as [C1 C2].
  pose proof (bounded_run _ _ C1 (init_bounded now afters mins)) as B.
  pose proof (B i v SDone BS) as M. cbn in M.
  destruct (above_run s2 v j _ _ C2 B M FR) as (g' & G' & A'); [intros x X; discriminate|].
  rewrite crun_app in A. rewrite A in G'. inversion G'; subst. eapply A'; [reflexivity|exact T].
Qed.

(** * No null or wild pointer *)

Lemma heap_at s h : Inv s -> (h <= tl s)%nat -> exists b, nth_error (heap s) h = Some b.
Proof.
  intros V L. pose proof (i_tn _ V). destruct (nth_error (heap s) h) eqn:E; eauto. apply nth_error_None in E. lia.
Qed.

Lemma get_moves s i g now ok : Inv s -> nth_error (gets s) i = Some g -> (forall ts, g_ph g <> GDone ts) -> cstep s (CGet i now ok (hd s)) <> None.
Proof.
  intros V G N. cbn. rewrite G. pose proof (i_get _ V i g G) as OK. pose proof (i_ht _ V). unfold gok, nxok in OK. unfold get_step.
  assert (D : forall h, (h <= hd s)%nat -> exists b, nth_error (heap s) h = Some b) by (intros; apply heap_at; auto; lia).
  destruct (g_ph g) as [|h|h t|h t nx|h t nx|h t nx ts|h t nx|h|h|ts] eqn:P; try discriminate.
  - destruct (D h) as [b ->]; [lia|discriminate].
  - destruct (D h) as [b ->]; [lia|]. destruct (stale _ _ _); discriminate.
  - destruct (D h) as [b ->]; [lia|discriminate].
  - destruct (_ && _); discriminate.
  - destruct nx; [|discriminate]. destruct (Nat.eqb h t); [discriminate|]. destruct (_ && _); discriminate.
  - destruct (D h) as [b ->]; [lia|discriminate].
  - destruct (Nat.ltb_spec (hd s) (hd s)); [lia|discriminate].
  - destruct (N ts eq_refl).
Qed.

Lemma push_moves s ok : Inv s -> push s <> PIdle -> cstep s (CPush ok) <> None.
Proof.
  intros V N. cbn. unfold push_step. pose proof (i_push _ V) as P. unfold pok in P.
  destruct (push s) as [|b|b t|b t nx|b t x|b t|p]; try discriminate; try congruence.
  - destruct (heap_at s t V) as [c ->]; [lia|discriminate].
  - destruct (Nat.eqb (tl s) t); discriminate.
  - destruct (heap_at s t V) as [c ->]; [lia|]. destruct (b_next c); [discriminate|]. destruct ok; discriminate.
Qed.

(** * Progress *)

Definition reach (c : choice) (s s' : cache) : Prop := exists n, crun s (repeat c n) = s'.
Lemma reach_refl c s : reach c s s.
Proof. exists O. reflexivity. Qed.
Lemma reach_step c s s1 s2 : cstep s c = Some s1 -> reach c s1 s2 -> reach c s s2.
Proof. intros E [n H]. exists (S n). cbn. now rewrite E. Qed.
Lemma reach_trans c a b d : reach c a b -> reach c b d -> reach c a d.
Proof. intros [n A] [m B]. exists (n + m)%nat. rewrite repeat_app, crun_app, A. exact B. Qed.
Lemma reach_inv c s s' : Inv s -> reach c s s' -> Inv s'.
Proof. intros V [n <-]. now apply crun_inv. Qed.

(** the last batch can serve [a] *)
Definition serves (s : cache) (a now : Z) : Prop := exists b, nth_error (heap s) (length (heap s) - 1) = Some b /\
  stale b now (lastp s) = false /\ b_cur b < b_end b /\ a < b_cur b /\ 0 < b_cur b /\ minv s < b_cur b.

Ltac one G := eapply reach_step; [cbn [cstep gets set_get set_heap set_hd set_tl]; rewrite G; unfold get_step; cbn [g_ph g_after]|].

Lemma upd_upd {A} (l : list A) n x y : upd (upd l n x) n y = upd l n y.
Proof. revert n. induction l as [|a l IH]; intros [|n]; cbn; auto. now rewrite IH. Qed.

(** one round: an answer, or the head's successor is about to be used *)
Lemma round s i a now d : Inv s -> nth_error (gets s) i = Some (mkGt a GStart) -> serves s a now ->
  (exists s' ts, reach (CGet i now true d) s s' /\ answered s' i ts /\ 0 < ts) \/
  (S (hd s) < length (heap s))%nat /\
  exists s', reach (CGet i now true d) s s' /\ nth_error (gets s') i = Some (mkGt a (GMove (hd s) (tl s) (Some (S (hd s))))) /\
     hd s' = hd s /\ tl s' = tl s /\ length (heap s') = length (heap s) /\ serves s' a now.
Proof.
  intros V G SV. pose proof (i_ht _ V) as HT. pose proof (i_tn _ V) as TN.
  destruct (heap_at s (hd s) V HT) as [b B].
  set (c := CGet i now true d).
  pose proof (i_link _ V (hd s) b (le_n _) B) as NX.
  set (nx := b_next b) in *.
  assert (R1 : exists s1, reach c s s1 /\ s1 = set_get (set_get (set_get s i a (GHead (hd s))) i a (GTail (hd s) (tl s))) i a (GNext (hd s) (tl s) nx)).
  { eexists. split; [|reflexivity]. subst c.
    assert (U1 : forall p, nth_error (upd (gets s) i (mkGt a p)) i = Some (mkGt a p)) by (intros; eapply LatchProofs.upd_same; exact G).
    eapply reach_step; [cbn [cstep]; rewrite G; reflexivity|].
    eapply reach_step; [cbn [cstep gets set_get]; rewrite U1; reflexivity|].
    eapply reach_step; [cbn [cstep gets set_get]; rewrite upd_upd, U1; cbn [get_step g_ph g_after heap set_get]; rewrite B; reflexivity|].
    apply reach_refl. }
  destruct R1 as (s1 & R1 & ->).
  assert (E1 : set_get (set_get (set_get s i a (GHead (hd s))) i a (GTail (hd s) (tl s))) i a (GNext (hd s) (tl s) nx) = set_get s i a (GNext (hd s) (tl s) nx)).
  { unfold set_get. cbn. now rewrite !upd_upd. }
  rewrite E1 in R1. clear E1.
  assert (U1 : forall p, nth_error (upd (gets s) i (mkGt a p)) i = Some (mkGt a p)) by (intros; eapply LatchProofs.upd_same; exact G).
  destruct SV as (bl & BL & ST & L1 & L2 & L3 & L4).
  destruct (Nat.eq_dec (S (hd s)) (length (heap s))) as [EQ|NE].
  - left. assert (bl = b) by (replace (length (heap s) - 1)%nat with (hd s) in BL by lia; congruence). subst bl.
    set (s3 := set_get (set_heap s (upd (heap s) (hd s) (mkB (b_start b) (b_cur b + 1) (b_end b) (b_phys b) (b_ctime b) (b_next b)))) i a (GGot (hd s) (tl s) nx (b_cur b))).
    exists (set_get s3 i a (GDone (b_cur b))), (b_cur b). split; [|split; auto].
    + eapply reach_trans; [exact R1|]. subst c.
      eapply reach_step; [cbn [cstep gets set_get]; rewrite U1; cbn [get_step g_ph g_after heap lastp set_get]; rewrite B, ST; reflexivity|].
      eapply reach_step.
      { cbn [cstep gets set_get]. rewrite upd_upd, U1. cbn [get_step g_ph g_after heap set_get]. rewrite B. cbv zeta.
        destruct (Z.ltb_spec (b_cur b) (b_end b)); [|lia]. reflexivity. }
      eapply reach_step.
      { cbn [cstep gets set_get set_heap]. rewrite !upd_upd, U1. cbn [get_step g_ph g_after heap set_get set_heap minv].
        destruct (Z.ltb_spec a (b_cur b)); [|lia]. destruct (Z.ltb_spec 0 (b_cur b)); [|lia]. destruct (Z.ltb_spec (minv s) (b_cur b)); [|lia]. cbn [andb]. reflexivity. }
      replace (set_get s3 i a (GDone (b_cur b))) with (set_get (set_get (set_heap (set_get (set_get s i a (GNext (hd s) (tl s) nx)) i a (GTake (hd s) (tl s) nx))
        (upd (heap s) (hd s) (mkB (b_start b) (b_cur b + 1) (b_end b) (b_phys b) (b_ctime b) (b_next b)))) i a (GGot (hd s) (tl s) nx (b_cur b))) i a (GDone (b_cur b)));
        [apply reach_refl|]. unfold s3, set_get, set_heap. cbn. now rewrite !upd_upd.
    + exists a. cbn. unfold s3. cbn. rewrite upd_upd. apply U1.
  - destruct (Nat.eqb_spec (S (hd s)) (length (heap s))) as [?|_]; [contradiction|]. rewrite NX in R1.
    destruct (stale b now (lastp s)) eqn:SB.
    + right. split; [lia|]. eexists. split.
      * eapply reach_trans; [exact R1|]. subst c.
        eapply reach_step; [cbn [cstep gets set_get]; rewrite U1; cbn [get_step g_ph g_after heap lastp set_get]; rewrite B, SB; reflexivity|apply reach_refl].
      * cbn. rewrite upd_upd, U1. repeat split; auto. exists bl. repeat split; auto.
    + set (ts := if b_cur b <? b_end b then b_cur b else 0).
      assert (R2 : reach c s (set_get (set_heap s (upd (heap s) (hd s) (mkB (b_start b) (b_cur b + 1) (b_end b) (b_phys b) (b_ctime b) (b_next b)))) i a (GGot (hd s) (tl s) (Some (S (hd s))) ts))).
      { eapply reach_trans; [exact R1|]. subst c.
        eapply reach_step; [cbn [cstep gets set_get]; rewrite U1; cbn [get_step g_ph g_after heap lastp set_get]; rewrite B, SB; reflexivity|].
        eapply reach_step.
        { cbn [cstep gets set_get]. rewrite upd_upd, U1. cbn [get_step g_ph g_after heap set_get]. rewrite B. cbv zeta. reflexivity. }
        fold ts. replace (set_get (set_heap (set_get (set_get s i a (GNext (hd s) (tl s) (Some (S (hd s))))) i a (GTake (hd s) (tl s) (Some (S (hd s)))))
           (upd (heap s) (hd s) (mkB (b_start b) (b_cur b + 1) (b_end b) (b_phys b) (b_ctime b) (b_next b)))) i a (GGot (hd s) (tl s) (Some (S (hd s))) ts))
          with (set_get (set_heap s (upd (heap s) (hd s) (mkB (b_start b) (b_cur b + 1) (b_end b) (b_phys b) (b_ctime b) (b_next b)))) i a (GGot (hd s) (tl s) (Some (S (hd s))) ts));
        [apply reach_refl|]. unfold set_get, set_heap. cbn. now rewrite !upd_upd. }
      destruct ((a <? ts) && (0 <? ts) && (minv s <? ts)) eqn:OK.
      * left. eexists _, ts. split; [eapply reach_trans; [exact R2|]|split].
        -- subst c. eapply reach_step; [cbn [cstep gets set_get set_heap]; rewrite U1; cbn [get_step g_ph g_after heap set_get set_heap minv]; rewrite OK; reflexivity|apply reach_refl].
        -- exists a. cbn. rewrite upd_upd. apply U1.
        -- apply andb_prop in OK. destruct OK as [OK _]. apply andb_prop in OK. destruct OK as [_ OK]. now apply Z.ltb_lt in OK.
      * right. split; [lia|]. eexists. split; [eapply reach_trans; [exact R2|]|].
        -- subst c. eapply reach_step; [cbn [cstep gets set_get set_heap]; rewrite U1; cbn [get_step g_ph g_after heap set_get set_heap minv]; rewrite OK; reflexivity|apply reach_refl].
        -- cbn. rewrite upd_upd, U1, LatchProofs.upd_length. repeat split; auto. exists bl. cbn. rewrite LatchProofs.upd_length, LatchProofs.upd_other by lia.
           repeat split; auto.
Qed.

Lemma solo m : forall s i a now d, (length (heap s) - hd s + (length (heap s) - tl s) <= m)%nat -> (length (heap s) <= d)%nat -> Inv s ->
  nth_error (gets s) i = Some (mkGt a GStart) -> serves s a now ->
  exists s' ts, reach (CGet i now true d) s s' /\ answered s' i ts /\ 0 < ts.
Proof.
  induction m as [|m IH]; intros s i a now d M D V G SV.
  { pose proof (i_ht _ V). pose proof (i_tn _ V). lia. }
  destruct (round s i a now d V G SV) as [H|(LT & s' & R & G' & EH & ET & EL & SV')]; [exact H|].
  pose proof (reach_inv _ _ _ V R) as V'. pose proof (i_ht _ V') as HT'. pose proof (i_tn _ V') as TN'.
  destruct (Nat.eq_dec (hd s) (tl s)) as [EQ|NE].
  - set (s2 := set_get (set_tl s' (S (hd s))) i a GStart).
    assert (E : cstep s' (CGet i now true d) = Some s2).
    { cbn [cstep]. rewrite G'. cbn [get_step g_ph g_after]. destruct (Nat.eqb_spec (hd s) (tl s)); [|contradiction].
      destruct (Nat.eqb_spec (tl s') (tl s)); [|lia]. reflexivity. }
    destruct (cstep_inv _ _ _ V' E) as [V2 _].
    destruct (IH s2 i a now d) as (s3 & ts & R3 & A3 & P3); auto.
    + cbn. lia.
    + cbn. lia.
    + cbn. eapply LatchProofs.upd_same; exact G'.
    + exists s3, ts. split; auto. eapply reach_trans; [exact R|]. eapply reach_step; eauto.
  - set (s2 := set_get (set_hd s' (S (hd s))) i a (GDead (hd s))).
    assert (E : cstep s' (CGet i now true d) = Some s2).
    { cbn [cstep]. rewrite G'. cbn [get_step g_ph g_after]. destruct (Nat.eqb_spec (hd s) (tl s)); [contradiction|].
      destruct (Nat.eqb_spec (hd s') (hd s)); [|lia]. reflexivity. }
    destruct (cstep_inv _ _ _ V' E) as [V2 _].
    assert (G2 : nth_error (gets s2) i = Some (mkGt a (GDead (hd s)))) by (cbn; eapply LatchProofs.upd_same; exact G').
    destruct (heap_at s2 (hd s) V2) as [b B]; [cbn; lia|].
    set (s3 := set_get (set_heap s2 (upd (heap s2) (hd s) (with_next b None))) i a (GLink (hd s))).
    assert (E3 : cstep s2 (CGet i now true d) = Some s3) by (cbn [cstep]; rewrite G2; cbn [get_step g_ph g_after]; rewrite B; reflexivity).
    destruct (cstep_inv _ _ _ V2 E3) as [V3 _].
    assert (G3 : nth_error (gets s3) i = Some (mkGt a (GLink (hd s)))) by (cbn [s3 gets set_get]; eapply LatchProofs.upd_same; exact G2).
    set (s4 := set_get s3 i a GStart).
    assert (E4 : cstep s3 (CGet i now true d) = Some s4).
    { cbn [cstep]. rewrite G3. cbn [get_step g_ph g_after]. destruct (Nat.ltb_spec d (hd s3)) as [L|L]; [|reflexivity]. exfalso. cbn in L. lia. }
    destruct (cstep_inv _ _ _ V3 E4) as [V4 _].
    destruct (IH s4 i a now d) as (s5 & ts & R5 & A5 & P5); auto.
    + cbn. rewrite LatchProofs.upd_length. lia.
    + cbn. rewrite LatchProofs.upd_length. lia.
    + cbn [s4 gets set_get]. eapply LatchProofs.upd_same; exact G3.
    + destruct SV' as (bl & BL & X). exists bl. split; [|exact X]. cbn. rewrite LatchProofs.upd_length, LatchProofs.upd_other by lia. exact BL.
    + exists s5, ts. split; auto. eapply reach_trans; [exact R|]. do 3 (eapply reach_step; [eassumption|]). exact R5.
Qed.

Lemma push_solo m : forall s b, (length (heap s) - tl s <= m)%nat -> Inv s -> push s = PLoad b ->
  exists s', reach (CPush true) s s' /\ push s' = PIdle /\ gets s' = gets s /\ minv s' = minv s /\ lastp s' = b_phys b /\
    length (heap s') = S (length (heap s)) /\ nth_error (heap s') (length (heap s)) = Some b.
Proof.
  induction m as [|m IH]; intros s b M V P; pose proof (i_tn _ V) as TN; [lia|].
  destruct (heap_at s (tl s) V (le_n _)) as [c C].
  pose proof (i_link _ V (tl s) c (i_ht _ V) C) as NX.
  set (s2 := set_push (set_push s (PTail b (tl s))) (PNext b (tl s) (b_next c))).
  assert (R2 : reach (CPush true) s s2).
  { eapply reach_step; [cbn; unfold push_step; rewrite P; reflexivity|].
    eapply reach_step; [cbn; unfold push_step; cbn; rewrite C; reflexivity|apply reach_refl]. }
  destruct (Nat.eqb_spec (S (tl s)) (length (heap s))) as [EQ|NE].
  - eexists. split; [eapply reach_trans; [exact R2|]|].
    + unfold s2. rewrite NX. eapply reach_step; [cbn; unfold push_step; cbn; rewrite Nat.eqb_refl; reflexivity|].
      eapply reach_step; [cbn; unfold push_step; cbn; rewrite C, NX; reflexivity|].
      eapply reach_step; [reflexivity|apply reach_refl].
    + cbn. rewrite app_length, LatchProofs.upd_length. cbn. repeat split; auto; try lia. 
      rewrite nth_app_new, LatchProofs.upd_length. destruct (Nat.eq_dec (length (heap s)) (length (heap s))); [reflexivity|lia].
  - set (s4 := set_push (set_tl s2 (S (tl s))) (PLoad b)).
    assert (R4 : reach (CPush true) s s4).
    { eapply reach_trans; [exact R2|]. unfold s4, s2. rewrite NX.
      eapply reach_step; [cbn; unfold push_step; cbn; rewrite Nat.eqb_refl; reflexivity|].
      eapply reach_step; [cbn; unfold push_step; cbn; rewrite Nat.eqb_refl; reflexivity|].
      unfold set_push, set_tl. cbn. apply reach_refl. }
    destruct (IH s4 b) as (s' & R' & Q); [cbn; lia|eapply reach_inv; eauto|reflexivity|].
    exists s'. split; [eapply reach_trans; eauto|exact Q].
Qed.

Lemma renew_serves now0 afters mins sched i after p l count now : let s := crun (cinit now0 afters mins) sched in
  push s = PIdle -> fresh s i after -> 0 < count -> after < compose p l -> 0 < compose p l -> minv s < compose p l ->
  exists n m d ts, answered (crun s ((CBatch p l count now :: repeat (CPush true) n) ++ repeat (CGet i now true d) m)) i ts /\ 0 < ts.
Proof.
  intros s P F C A Z M. pose proof (proj1 (crun_inv sched _ (init_inv now0 afters mins))) as V. fold s in V.
  set (b := new_batch p l count now). set (s1 := set_push s (PLoad b)).
  assert (E : cstep s (CBatch p l count now) = Some s1) by (cbn; rewrite P; reflexivity).
  destruct (cstep_inv _ _ _ V E) as [V1 _].
  destruct (push_solo _ s1 b (le_n _) V1 eq_refl) as (s2 & R2 & P2 & G2 & M2 & L2 & N2 & B2).
  pose proof (reach_inv _ _ _ V1 R2) as V2.
  destruct (solo _ s2 i after now (length (heap s2)) (le_n _) (le_n _) V2) as (s3 & ts & R3 & A3 & P3).
  - rewrite G2. exact F.
  - exists b. rewrite N2. replace (S (length (heap s1)) - 1)%nat with (length (heap s1)) by lia. split; [exact B2|].
    unfold stale. rewrite L2. unfold b, new_batch. cbn [b_ctime b_phys b_cur b_end]. unfold kStale. split.
    + destruct (Z.ltb_spec (now + 3000) now); [lia|]. destruct (Z.ltb_spec (p + 3000) p); [lia|]. reflexivity.
    + rewrite M2. cbn. unfold compose in *. lia.
  - destruct R2 as [n R2]. destruct R3 as [m R3]. exists n, m, (length (heap s2)), ts. split; auto.
    rewrite crun_app. cbn [crun]. rewrite E, R2, R3. exact A3.
Qed.

Lemma no_abort now afters mins sched : let s := crun (cinit now afters mins) sched in
  (forall i g, nth_error (gets s) i = Some g -> (forall ts, g_ph g <> GDone ts) -> forall t ok, exists d, cstep s (CGet i t ok d) <> None) /\
  (push s <> PIdle -> forall ok, cstep s (CPush ok) <> None).
Proof.
  intros s. pose proof (proj1 (crun_inv sched _ (init_inv now afters mins))) as V. split.
  - intros i g G N t ok. exists (hd s). eapply get_moves; eauto.
  - intros N ok. now apply push_moves.
Qed.

Lemma calm_one s sched : length (sets s) = 1%nat -> calm_run s sched.
Proof.
  revert s. induction sched as [|c r IH]; intros s L; cbn; (split; [|try exact I]).
  1,2: intros i j [v A] [w B]; apply nth_len in A; apply nth_len in B; lia.
  destruct (cstep s c) as [s'|] eqn:E; [|now apply IH]. apply IH. 
  destruct c as [k now ok d|k|p l count now|ok]; try (destruct (sets_other _ _ _ E) as [-> _]; [intros; discriminate|exact L]).
  cbn in E. destruct (nth_error (sets s) k) as [[v []]|]; inversion E; subst; cbn; now rewrite LatchProofs.upd_length.
Qed.

