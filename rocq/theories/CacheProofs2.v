(** Proofs about the timestamp cache: which timestamps are handed out. *)
From Coq Require Import ZArith List Bool Arith Lia.
From Verif Require LatchModel LatchProofs.
From Verif Require Import CacheModel CacheSpec ConcProofs CacheProofs.
Import ListNotations.
Open Scope Z_scope.

(** * The batches in the list and the one being pushed *)

Definition brange (b : batch) : Z * Z := (b_start b, b_end b).
Definition pending (p : pphase) : list (Z * Z) :=
  match p with
  | PIdle | PLast _ => []
  | PLoad b | PTail b _ | PNext b _ _ | PSwing b _ _ | PCas b _ => [brange b]
  end.
Definition cells (s : cache) : list (Z * Z) := map brange (heap s) ++ pending (push s).

Lemma map_upd {A B} (f : A -> B) l n x y : nth_error l n = Some y -> f x = f y -> map f (upd l n x) = map f l.
Proof. revert n. induction l as [|a l IH]; intros [|n] H E; cbn in *; try discriminate; [inversion H; subst; congruence|f_equal; eauto]. Qed.

Lemma cells_step s c s' : cstep s c = Some s' -> cells s' = cells s ++ ranges [c].
Proof.
  intros E. destruct c as [i now ok d|i|p l count now|ok]; cbn [cstep ranges] in *; rewrite ?app_nil_r.
  - destruct (nth_error (gets s) i) as [g|] eqn:H; [|discriminate]. unfold get_step in E. unfold cells.
    destruct (g_ph g) as [|h|h t|h t nx|h t nx|h t nx ts|h t nx|h|h|ts].
    + inversion E; subst; reflexivity.
    + inversion E; subst; reflexivity.
    + destruct (nth_error (heap s) h); inversion E; subst; reflexivity.
    + destruct (nth_error (heap s) h) as [b|]; [|discriminate]. destruct (stale _ _ _); inversion E; subst; reflexivity.
    + destruct (nth_error (heap s) h) as [b|] eqn:B; inversion E; subst; cbn. erewrite map_upd; [reflexivity|exact B|reflexivity].
    + destruct (_ && _); inversion E; subst; reflexivity.
    + destruct nx; [|inversion E; subst; reflexivity]. destruct (Nat.eqb h t).
      * destruct (_ && _); inversion E; subst; reflexivity.
      * destruct (_ && _); inversion E; subst; reflexivity.
    + destruct (nth_error (heap s) h) as [b|] eqn:B; inversion E; subst; cbn. erewrite map_upd; [reflexivity|exact B|reflexivity].
    + destruct (Nat.ltb d (hd s)); [|inversion E; subst; reflexivity].
      destruct (nth_error (heap s) d) as [b|] eqn:B; [|discriminate]. destruct (b_next b); inversion E; subst; cbn.
      erewrite map_upd; [reflexivity|exact B|reflexivity].
    + discriminate.
  - destruct (nth_error (sets s) i) as [[v []]|]; inversion E; subst; reflexivity.
  - unfold cells. destruct (push s); inversion E; subst; cbn. now rewrite app_nil_r.
  - unfold push_step in E. unfold cells. destruct (push s) as [|b|b t|b t nx|b t x|b t|p] eqn:P; cbn [pending].
    + discriminate.
    + inversion E; subst; reflexivity.
    + destruct (nth_error (heap s) t); inversion E; subst; reflexivity.
    + destruct (Nat.eqb (tl s) t); [destruct nx|]; inversion E; subst; reflexivity.
    + destruct (_ && _); inversion E; subst; reflexivity.
    + destruct (nth_error (heap s) t) as [c|] eqn:B; [|discriminate]. destruct (b_next c); [inversion E; subst; reflexivity|].
      destruct ok; inversion E; subst; cbn; [|reflexivity].
      rewrite map_app, app_nil_r. erewrite map_upd; [reflexivity|exact B|reflexivity].
    + inversion E; subst; reflexivity.
Qed.

Definition opairs (P : Z * Z -> Z * Z -> Prop) (l : list (Z * Z)) : Prop :=
  forall i j a b, (i < j)%nat -> nth_error l i = Some a -> nth_error l j = Some b -> P a b.

Lemma opairs_snoc P l r : opairs P l -> (forall a, In a l -> P a r) -> opairs P (l ++ [r]).
Proof.
  intros O H i j a b L A B. rewrite nth_app_new in *. destruct (Nat.eq_dec i (length l)) as [->|Ni].
  - destruct (Nat.eq_dec j (length l)); [lia|]. apply nth_len in B. lia.
  - destruct (Nat.eq_dec j (length l)) as [->|Nj].
    + inversion B; subst. apply H. eapply nth_error_In; eauto.
    + eapply O; eauto.
Qed.

Definition known (R : list (Z * Z)) (s : cache) : Prop := forall r, In r (cells s) -> r = (0, 0) \/ In r R.

Lemma cells_run (P : Z * Z -> Z * Z -> Prop) sched : (forall r, P (0, 0) r) -> forall s R, opairs P (cells s) -> known R s ->
  ForallOrdPairs P (ranges sched) -> (forall a b, In a R -> In b (ranges sched) -> P a b) ->
  opairs P (cells (crun s sched)) /\ known (R ++ ranges sched) (crun s sched).
Proof.
  intros P0. induction sched as [|c r IH]; intros s R O K F H; cbn [crun].
  - cbn. rewrite app_nil_r. auto.
  - assert (RC : ranges (c :: r) = ranges [c] ++ ranges r) by (destruct c; reflexivity).
    assert (FR : ForallOrdPairs P (ranges r)).
    { destruct c; cbn in F; auto. inversion F; subst; auto. }
    destruct (cstep s c) as [s'|] eqn:E.
    + pose proof (cells_step _ _ _ E) as CE.
      specialize (IH s' (R ++ ranges [c])). rewrite RC, app_assoc. apply IH; auto.
      * rewrite CE. destruct c as [| |p l count now|]; cbn [ranges] in *; rewrite ?app_nil_r; auto.
        apply opairs_snoc; auto. intros a A. destruct (K a A) as [->|I]; [apply P0|]. apply H; [auto|now left].
      * intros x X. rewrite CE in X. apply in_app_or in X. destruct X as [X|X].
        -- destruct (K x X); [auto|right; apply in_or_app; auto].
        -- right. apply in_or_app. auto.
      * intros a b A B. apply in_app_or in A. destruct A as [A|A]; [apply H; [auto|rewrite RC; apply in_or_app; auto]|].
        destruct c as [| |p l count now|]; cbn [ranges] in *; try contradiction.
        destruct A as [<-|[]]. inversion F as [|? ? FA FB]; subst. rewrite Forall_forall in FA. auto.
    + destruct (IH s R O K FR) as [A B].
      * intros a b X Y. apply H; auto. rewrite RC. apply in_or_app; auto.
      * split; auto. intros x X. destruct (B x X) as [->|Q]; auto. right. rewrite RC. apply in_app_or in Q.
        apply in_or_app. destruct Q; [auto|right; apply in_or_app; auto].
Qed.

Lemma init_cells (P : Z * Z -> Z * Z -> Prop) now a m : (forall r, P (0, 0) r) -> opairs P (cells (cinit now a m)) /\ known [] (cinit now a m).
Proof.
  intros P0. unfold cells. cbn. split.
  - intros [|[|i]] [|j] x y L A B; cbn in *; try discriminate; try lia. destruct j; discriminate.
  - intros r [<-|[]]. left. reflexivity.
Qed.

Lemma cell_pairs P s : opairs P (cells s) -> forall i j a b, (i < j)%nat ->
  nth_error (heap s) i = Some a -> nth_error (heap s) j = Some b -> P (brange a) (brange b).
Proof.
  intros O i j a b L A B. apply (O i j); auto; unfold cells.
  - rewrite nth_error_app1 by (rewrite map_length; eapply nth_len; eauto). rewrite nth_error_map, A. reflexivity.
  - rewrite nth_error_app1 by (rewrite map_length; eapply nth_len; eauto). rewrite nth_error_map, B. reflexivity.
Qed.

(** * Timestamps held by calls *)

Definition got (g : getter) : option Z :=
  match g_ph g with GGot _ _ _ ts => Some ts | GDone ts => Some ts | _ => None end.

(** [ts] was taken from a cell at or before the head *)
Definition source (s : cache) (k : nat) (ts : Z) : Prop :=
  (k <= hd s)%nat /\ exists b, nth_error (heap s) k = Some b /\ within ts (brange b) /\ ts < b_cur b.

Lemma source_evolves s s' k ts : evolves s s' -> source s k ts -> source s' k ts.
Proof.
  intros [A B C D] (L & b & N & W & T). split; [lia|]. destruct (D k b N) as (b' & N' & E1 & E2 & E3).
  exists b'. repeat split; auto; try (unfold brange in *; cbn in *; unfold within in *; cbn in *; lia).
Qed.

(** the only step that yields a timestamp *)
Lemma got_step s c s' : Inv s -> cstep s c = Some s' -> forall i g ts, nth_error (gets s') i = Some g -> got g = Some ts -> 0 < ts ->
  (exists g0, nth_error (gets s) i = Some g0 /\ got g0 = Some ts) \/
  (exists g0 h t nx b b', nth_error (gets s) i = Some g0 /\ g_ph g0 = GTake h t nx /\ nth_error (heap s) h = Some b /\ ts = b_cur b /\ b_cur b < b_end b /\
     (h <= hd s)%nat /\ nth_error (heap s') h = Some b' /\ b_start b' = b_start b /\ b_end b' = b_end b /\ b_cur b' = b_cur b + 1 /\
     (forall j, j <> i -> nth_error (gets s') j = nth_error (gets s) j)).
Proof.
  intros V E i g ts G T TP. destruct c as [k now ok d|k|p l count now|ok]; cbn [cstep] in E.
  - destruct (nth_error (gets s) k) as [gk|] eqn:H; [|discriminate].
    destruct (Nat.eq_dec i k) as [->|N].
    2:{ left. exists g. split; auto. unfold get_step in E.
        assert (GS : exists a, gets s' = upd (gets s) k a).
        { destruct (g_ph gk); repeat (match type of E with context [match ?x with _ => _ end] => destruct x end; try discriminate);
            inversion E; subst; cbn; eauto. }
        destruct GS as [a GS]. rewrite GS, LatchProofs.upd_other in G; auto. }
    unfold get_step in E. pose proof (i_get _ V k gk H) as OK. unfold gok in OK.
    destruct (g_ph gk) as [|h|h t|h t nx|h t nx|h t nx ts0|h t nx|h|h|ts0] eqn:P.
    + inversion E; subst. cbn in G. rewrite (LatchProofs.upd_same _ _ _ _ H) in G. inversion G; subst. discriminate.
    + inversion E; subst. cbn in G. rewrite (LatchProofs.upd_same _ _ _ _ H) in G. inversion G; subst. discriminate.
    + destruct (nth_error (heap s) h); [|discriminate]. inversion E; subst. cbn in G. rewrite (LatchProofs.upd_same _ _ _ _ H) in G. inversion G; subst. discriminate.
    + destruct (nth_error (heap s) h) as [b|]; [|discriminate].
      destruct (stale _ _ _); inversion E; subst; cbn in G; rewrite (LatchProofs.upd_same _ _ _ _ H) in G; inversion G; subst; discriminate.
    + destruct (nth_error (heap s) h) as [b|] eqn:B; [|discriminate]. inversion E; subst. cbn in G.
      rewrite (LatchProofs.upd_same _ _ _ _ H) in G. inversion G; subst. unfold got in T. cbn in T. inversion T; subst. clear E T G.
      destruct (Z.ltb_spec (b_cur b) (b_end b)) as [L|L]; [|lia].
      right. exists gk, h, t, nx, b. eexists. split; [auto|]. split; [auto|]. split; [auto|]. split; [auto|]. split; [auto|].
      split; [apply OK|]. split; [cbn; eapply LatchProofs.upd_same; exact B|]. cbn. repeat split; auto.
      intros j J. apply LatchProofs.upd_other; auto.
    + destruct (_ && _); inversion E; subst; cbn in G; rewrite (LatchProofs.upd_same _ _ _ _ H) in G; inversion G; subst; [|discriminate].
      left. exists gk. split; auto. unfold got in *. rewrite P. exact T.
    + destruct nx as [x|].
      * destruct (Nat.eqb h t).
        -- destruct (ok && Nat.eqb (tl s) t); inversion E; subst; cbn in G; rewrite (LatchProofs.upd_same _ _ _ _ H) in G; inversion G; subst; discriminate.
        -- destruct (ok && Nat.eqb (hd s) h); inversion E; subst; cbn in G; rewrite (LatchProofs.upd_same _ _ _ _ H) in G; inversion G; subst; discriminate.
      * inversion E; subst. cbn in G. rewrite (LatchProofs.upd_same _ _ _ _ H) in G. inversion G; subst. cbn in T. inversion T; lia.
    + destruct (nth_error (heap s) h); [|discriminate]. inversion E; subst. cbn in G. rewrite (LatchProofs.upd_same _ _ _ _ H) in G. inversion G; subst. discriminate.
    + destruct (Nat.ltb d (hd s)).
      * destruct (nth_error (heap s) d) as [b|]; [|discriminate]. destruct (b_next b); inversion E; subst.
        cbn in G. rewrite (LatchProofs.upd_same _ _ _ _ H) in G. inversion G; subst. discriminate.
      * inversion E; subst. cbn in G. rewrite (LatchProofs.upd_same _ _ _ _ H) in G. inversion G; subst. discriminate.
    + discriminate.
  - left. exists g. split; auto. destruct (nth_error (sets s) k) as [[v []]|]; inversion E; subst; exact G.
  - left. exists g. split; auto. destruct (push s); inversion E; subst; exact G.
  - left. exists g. split; auto. unfold push_step in E.
    destruct (push s); repeat (match type of E with context [match ?x with _ => _ end] => destruct x end; try discriminate); inversion E; subst; exact G.
Qed.

(** * Unique answers *)

Definition sourced (s : cache) : Prop := forall i g ts, nth_error (gets s) i = Some g -> got g = Some ts -> 0 < ts -> exists k, source s k ts.
Definition single (s : cache) : Prop := forall i j g g' ts, nth_error (gets s) i = Some g -> nth_error (gets s) j = Some g' ->
  got g = Some ts -> got g' = Some ts -> 0 < ts -> i = j.

Lemma take_source s h b s' b' : Inv s -> nth_error (heap s) h = Some b -> b_cur b < b_end b ->
  (h <= hd s)%nat -> evolves s s' -> nth_error (heap s') h = Some b' -> b_start b' = b_start b -> b_end b' = b_end b ->
  b_cur b' = b_cur b + 1 -> source s' h (b_cur b).
Proof.
  intros V B L H EV B' E1 E2 E3. split; [pose proof (e_hd _ _ EV); lia|]. exists b'. split; auto.
  pose proof (i_cur _ V h b B). unfold brange, within. cbn. lia.
Qed.

Lemma sourced_step s c s' : Inv s -> cstep s c = Some s' -> sourced s -> sourced s'.
Proof.
  intros V E S i g ts G T TP. destruct (cstep_inv _ _ _ V E) as [V' EV].
  destruct (got_step _ _ _ V E i g ts G T TP) as [(g0 & G0 & T0)|(g0 & h & t & nx & b & b' & G0 & P & B & -> & L & H & B' & E1 & E2 & E3 & O)].
  - destruct (S i g0 ts G0 T0 TP) as [k K]. exists k. eapply source_evolves; eauto.
  - exists h. exact (take_source s h b s' b' V B L H EV B' E1 E2 E3).
Qed.

Lemma apart_sym a b : apart a b -> apart b a.
Proof. intros H ts A B. eapply H; eauto. Qed.

Lemma single_step s c s' : Inv s -> opairs apart (cells s) -> sourced s -> single s -> cstep s c = Some s' -> single s'.
Proof.
  intros V O S U E i j g g' ts G G' T T' TP.
  assert (D : forall i g, nth_error (gets s') i = Some g -> got g = Some ts ->
     (exists g0, nth_error (gets s) i = Some g0 /\ got g0 = Some ts) \/
     ((forall k, source s k ts -> False) /\ (forall j, j <> i -> nth_error (gets s') j = nth_error (gets s) j))).
  { intros i0 g0 G0 T0. destruct (got_step _ _ _ V E i0 g0 ts G0 T0 TP) as [L|(g1 & h & t & nx & b & b' & G1 & P & B & -> & L & H & B' & E1 & E2 & E3 & OT)]; auto.
    right. split; auto. intros k (K & x & X & W & C).
    destruct (lt_eq_lt_dec k h) as [[LT|EQ]|LT].
    - pose proof (cell_pairs _ _ O k h x b LT X B) as A. apply (A (b_cur b)); auto. pose proof (i_cur _ V h b B). split; cbn; lia.
    - subst. assert (x = b) by congruence. subst. lia.
    - pose proof (cell_pairs _ _ O h k b x LT B X) as A. apply (A (b_cur b)); auto. pose proof (i_cur _ V h b B). split; cbn; lia. }
  destruct (D i g G T) as [(a & A & TA)|(NA & OA)].
  - destruct (D j g' G' T') as [(b & B & TB)|(NB & OB)].
    + eapply U; eauto.
    + destruct (S i a ts A TA TP) as [k K]. destruct (NB k K).
  - destruct (Nat.eq_dec i j) as [EQ|N]; auto. rewrite OA in G' by auto.
    destruct (S j g' ts G' T' TP) as [k K]. destruct (NA k K).
Qed.

Lemma apart0 r : apart (0, 0) r.
Proof. intros ts [A B] _. cbn in *. lia. Qed.
Lemma below0 r : below (0, 0) r.
Proof. intros ts ts' [A B] _. cbn in *. lia. Qed.

Lemma init_got now afters mins i g : nth_error (gets (cinit now afters mins)) i = Some g -> got g = None.
Proof. cbn. rewrite nth_error_map. destruct (nth_error afters i); cbn; [|discriminate]. intros H. inversion H; reflexivity. Qed.

Lemma crun_app a : forall s b, crun s (a ++ b) = crun (crun s a) b.
Proof. induction a; intros; cbn; auto. Qed.

Lemma ranges_app a b : ranges (a ++ b) = ranges a ++ ranges b.
Proof. induction a as [|c a IH]; cbn; auto. destruct c; cbn; rewrite ?IH; auto. Qed.

Lemma FOP_app (P : Z * Z -> Z * Z -> Prop) (a b : list (Z * Z)) : ForallOrdPairs P (a ++ b) -> ForallOrdPairs P a /\ ForallOrdPairs P b /\ forall x y, In x a -> In y b -> P x y.
Proof.
  induction a as [|x a IH]; cbn; intros H.
  - split; [constructor|]. split; auto. intros ? ? [].
  - inversion H as [|? ? A B]; subst. destruct (IH B) as (C & D & E). rewrite Forall_forall in A. split; [|split; auto].
    + constructor; auto. rewrite Forall_forall. intros y Y. apply A. apply in_or_app; auto.
    + intros p q [->|P1] Q; [apply A; apply in_or_app; auto|eauto].
Qed.

Lemma uniq_run (P : Z * Z -> Z * Z -> Prop) sched : (forall r, P (0, 0) r) -> (forall a b, P a b -> apart a b) -> forall s R,
  Inv s -> opairs P (cells s) -> known R s -> sourced s -> single s ->
  ForallOrdPairs P (ranges sched) -> (forall a b, In a R -> In b (ranges sched) -> P a b) ->
  sourced (crun s sched) /\ single (crun s sched).
Proof.
  intros P0 PA. induction sched as [|c r IH]; intros s R V O K S U F H; cbn [crun]; auto.
  assert (RC : ranges (c :: r) = ranges [c] ++ ranges r) by (destruct c; reflexivity).
  rewrite RC in F, H. destruct (FOP_app _ _ _ F) as (F1 & F2 & F3).
  destruct (cstep s c) as [s'|] eqn:E.
  - pose proof (cells_run P [c] P0 s R O K F1) as C. cbn [crun] in C. rewrite E in C.
    destruct C as [O' K']; [intros a b A B; apply H; auto; apply in_or_app; auto|].
    apply (IH s' (R ++ ranges [c])); auto.
    + eapply cstep_inv; eauto.
    + eapply sourced_step; eauto.
    + eapply single_step; eauto. intros i j a b L A B. apply PA. eapply O; eauto.
    + intros a b A B. apply in_app_or in A. destruct A as [A|A]; auto. apply H; auto. apply in_or_app; auto.
  - apply (IH s R); auto. intros a b A B. apply H; auto. apply in_or_app; auto.
Qed.

Lemma run_facts (P : Z * Z -> Z * Z -> Prop) now afters mins sched : (forall r, P (0, 0) r) -> (forall a b, P a b -> apart a b) ->
  ForallOrdPairs P (ranges sched) -> let s := crun (cinit now afters mins) sched in
  Inv s /\ opairs P (cells s) /\ known (ranges sched) s /\ sourced s /\ single s.
Proof.
  intros P0 PA F s. destruct (init_cells P now afters mins P0) as [O K].
  destruct (cells_run P sched P0 _ _ O K F) as [O' K']; [intros ? ? []|].
  destruct (uniq_run P sched P0 PA _ [] (init_inv now afters mins) O K) as [S U]; auto.
  - intros i g ts G T. rewrite (init_got _ _ _ _ _ G) in T. discriminate.
  - intros i j g g' ts G G' T. rewrite (init_got _ _ _ _ _ G) in T. discriminate.
  - intros ? ? [].
  - repeat (split; [first [assumption | apply crun_inv; apply init_inv]|]); auto.
Qed.

Lemma answers_unique now afters mins sched i j ts : ForallOrdPairs apart (ranges sched) ->
  answered (crun (cinit now afters mins) sched) i ts -> answered (crun (cinit now afters mins) sched) j ts -> 0 < ts -> i = j.
Proof.
  intros F [a A] [b B] T. destruct (run_facts apart now afters mins sched apart0 (fun _ _ h => h) F) as (_ & _ & _ & _ & U).
  eapply U; [exact A|exact B|reflexivity|reflexivity|exact T].
Qed.

(** * What a call returns *)

Definition legit (s : cache) : Prop := forall i g ts, nth_error (gets s) i = Some g -> g_ph g = GDone ts -> ts = 0 \/ (0 < ts /\ g_after g < ts).

Lemma after_keeps s c s' i g : cstep s c = Some s' -> nth_error (gets s) i = Some g ->
  exists g', nth_error (gets s') i = Some g' /\ g_after g' = g_after g /\
    (g' = g \/ exists now ok d, c = CGet i now ok d /\ get_step s i g now ok d = Some s').
Proof.
  intros E G. destruct c as [k now ok d|k|p l count now|ok]; cbn [cstep] in E.
  - destruct (nth_error (gets s) k) as [gk|] eqn:H; [|discriminate].
    assert (GS : exists p, gets s' = upd (gets s) k (mkGt (g_after gk) p)).
    { unfold get_step in E. destruct (g_ph gk); repeat (match type of E with context [match ?x with _ => _ end] => destruct x end; try discriminate);
            inversion E; subst; cbn; eauto. }
    destruct GS as [p GS]. rewrite GS. destruct (Nat.eq_dec i k) as [->|N].
    + assert (gk = g) by congruence. subst. eexists. split; [eapply LatchProofs.upd_same; exact H|]. split; auto. right. eauto.
    + rewrite LatchProofs.upd_other by auto. eauto.
  - exists g. destruct (nth_error (sets s) k) as [[v []]|]; inversion E; subst; auto.
  - exists g. destruct (push s); inversion E; subst; auto.
  - exists g. unfold push_step in E.
    destruct (push s); repeat (match type of E with context [match ?x with _ => _ end] => destruct x end; try discriminate); inversion E; subst; auto.
Qed.

Lemma gets_back s c s' i g' : cstep s c = Some s' -> nth_error (gets s') i = Some g' -> exists g, nth_error (gets s) i = Some g.
Proof.
  intros E G. destruct (nth_error (gets s) i) as [g|] eqn:H; eauto. exfalso.
  assert (LE : length (gets s') = length (gets s)).
  { destruct c as [k now ok d|k|p l count now|ok]; cbn [cstep] in E.
    - destruct (nth_error (gets s) k) as [gk|]; [|discriminate]. unfold get_step in E.
      destruct (g_ph gk); repeat (match type of E with context [match ?x with _ => _ end] => destruct x end; try discriminate);
            inversion E; subst; cbn; now rewrite LatchProofs.upd_length.
    - destruct (nth_error (sets s) k) as [[v []]|]; inversion E; subst; auto.
    - destruct (push s); inversion E; subst; auto.
    - unfold push_step in E.
      destruct (push s); repeat (match type of E with context [match ?x with _ => _ end] => destruct x end; try discriminate); inversion E; subst; auto. }
  apply nth_error_None in H. apply nth_len in G. lia.
Qed.

(** the step that returns *)
Lemma done_step s i g now ok d s' g' ts : nth_error (gets s) i = Some g -> get_step s i g now ok d = Some s' ->
  nth_error (gets s') i = Some g' -> g_ph g' = GDone ts ->
  ts = 0 \/ (exists h t nx, g_ph g = GGot h t nx ts /\ g_after g < ts /\ 0 < ts /\ minv s < ts).
Proof.
  intros H E G P. unfold get_step in E.
  destruct (g_ph g) as [|h|h t|h t nx|h t nx|h t nx ts0|h t nx|h|h|ts0] eqn:PG;
    try (repeat (match type of E with context [match ?x with _ => _ end] => destruct x end; try discriminate);
         inversion E; subst; cbn in G; rewrite (LatchProofs.upd_same _ _ _ _ H) in G; inversion G; subst; cbn in P; try discriminate; inversion P; auto; fail).
  destruct ((g_after g <? ts0) && (0 <? ts0) && (minv s <? ts0)) eqn:C; inversion E; subst; cbn in G; rewrite (LatchProofs.upd_same _ _ _ _ H) in G;
    inversion G; subst; cbn in P; inversion P; subst. right. apply andb_prop in C. destruct C as [C C3]. apply andb_prop in C. destruct C as [C1 C2].
  apply Z.ltb_lt in C1, C2, C3. exists h, t, nx. auto.
Qed.

Lemma legit_step s c s' : legit s -> cstep s c = Some s' -> legit s'.
Proof.
  intros L E i g' ts G P. destruct (gets_back _ _ _ _ _ E G) as [g H]. destruct (after_keeps _ _ _ _ _ E H) as (x & X & A & D).
  assert (x = g') by congruence. subst x. rewrite A. destruct D as [->|(now & ok & d & -> & ST)]; [now apply (L i)|].
  destruct (done_step _ _ _ _ _ _ _ _ _ H ST G P) as [->|(h & t & nx & _ & B & C & _)]; auto.
Qed.

Lemma legit_run sched : forall s, legit s -> legit (crun s sched).
Proof. induction sched as [|c r IH]; intros s L; cbn; auto. destruct (cstep s c) eqn:E; auto. apply IH. eapply legit_step; eauto. Qed.

Lemma afters_run sched : forall s i g, nth_error (gets s) i = Some g -> exists g', nth_error (gets (crun s sched)) i = Some g' /\ g_after g' = g_after g.
Proof.
  induction sched as [|c r IH]; intros s i g G; cbn; eauto. destruct (cstep s c) as [s'|] eqn:E; eauto.
  destruct (after_keeps _ _ _ _ _ E G) as (x & X & A & _). destruct (IH _ _ _ X) as (y & Y & B). exists y. split; auto. congruence.
Qed.

Lemma answers_ok now afters mins sched i after ts : nth_error afters i = Some after ->
  answered (crun (cinit now afters mins) sched) i ts ->
  ts = 0 \/ (0 < ts /\ after < ts /\ exists r, In r (ranges sched) /\ within ts r).
Proof.
  intros N [a A].
  set (T := fun _ _ : Z * Z => True).
  destruct (init_cells T now afters mins (fun _ => I)) as [O K].
  assert (F : forall l, ForallOrdPairs T l) by (induction l; constructor; auto; rewrite Forall_forall; unfold T; auto).
  destruct (cells_run T sched (fun _ => I) _ _ O K (F _)) as [_ K']; [unfold T; auto|].
  assert (S : sourced (crun (cinit now afters mins) sched)).
  { assert (G : forall s, Inv s -> sourced s -> sourced (crun s sched)).
    { clear. induction sched as [|c r IH]; intros s V S; cbn; auto. destruct (cstep s c) eqn:E; auto. apply IH; [eapply cstep_inv; eauto|eapply sourced_step; eauto]. }
    apply G; [apply init_inv|]. intros j g t Gj Tj. rewrite (init_got _ _ _ _ _ Gj) in Tj. discriminate. }
  assert (L : legit (crun (cinit now afters mins) sched)).
  { apply legit_run. intros j g t Gj Pj. pose proof (init_got _ _ _ _ _ Gj) as X. unfold got in X. rewrite Pj in X. discriminate. }
  destruct (L i _ ts A eq_refl) as [->|[P B]]; auto. right.
  assert (EA : a = after).
  { assert (H : nth_error (gets (cinit now afters mins)) i = Some (mkGt after GStart)) by (cbn; rewrite nth_error_map, N; reflexivity).
    destruct (afters_run sched _ _ _ H) as (g' & G' & E). rewrite A in G'. inversion G'; subst. exact E. }
  cbn in B. subst a. split; auto. split; auto.
  destruct (S i _ ts A eq_refl P) as (k & Hk & b & B1 & B2 & B3). exists (brange b). split; auto.
  destruct (K' (brange b)) as [E|I]; auto.
  - unfold cells. apply in_or_app. left. apply in_map. eapply nth_error_In; eauto.
  - rewrite E in B2. destruct B2; cbn in *; lia.
Qed.
