(** Asynchronous commit: every transaction has one fate. *)
From Coq Require Import ZArith List Lia Bool.
From Verif Require Import Bytes SMap Outcome TxnModel TxnSpec TxnBase TxnMoves TxnHandlers TxnHandlers2 TxnHandlers3 TxnInv
  TxnRun TxnProofs TxnProofs2 TxnProofs3 TxnProofs4 TxnProofs5 TxnProofs6 TxnProofs7 AtomSpec AtomProofs AsyncSpec AsyncBase.
Import ListNotations.
Open Scope Z_scope.

Lemma good_iff a : good a = true <-> succeeded a.
Proof.
  unfold good, succeeded. destruct (r_err a); [split; [discriminate|intros (Q & _); discriminate]|].
  destruct (r_res a); [|split; [discriminate|intros (_ & Q & _); discriminate]].
  destruct (r_exist a); [split; auto|split; [discriminate|intros (_ & _ & Q); discriminate]].
Qed.
Lemma inZ_iff' x l : inZ x l = true <-> In x l.
Proof.
  unfold inZ. rewrite existsb_exists. split.
  - intros (y & A & B). apply Z.eqb_eq in B. subst; auto.
  - intros A. exists x. rewrite Z.eqb_refl. auto.
Qed.
Lemma written_iff p k : In k (written p) <-> exists m, In m (pw_muts p) /\ m_key m = k /\ m_op m <> OpCheckNotExists.
Proof.
  unfold written. rewrite in_map_iff. split.
  - intros (m & A & B). apply filter_In in B. destruct B as [B C]. exists m. split; [auto|split; [auto|]].
    intros Q. rewrite Q in C. discriminate.
  - intros (m & A & B & C). exists m. split; auto. apply filter_In. split; auto.
    destruct (m_op m); auto.
Qed.
Lemma tried_iff w st i k : tried w st i k = true <-> In (st, (i, k)) (y_try w).
Proof.
  unfold tried. rewrite existsb_exists. split.
  - intros ((st' & (i' & k')) & A & B). cbn [fst snd] in B. rewrite !andb_true_iff, Z.eqb_eq, Nat.eqb_eq in B.
    destruct B as ((-> & ->) & B). apply beqb_true in B. subst. auto.
  - intros A. exists (st, (i, k)). split; auto. cbn [fst snd]. rewrite Z.eqb_refl, Nat.eqb_refl. apply beqb_true. auto.
Qed.
Lemma fresh_no w i p m : fresh w i p = true -> In m (pw_muts p) -> ~ In (pw_start p, (i, m_key m)) (y_try w).
Proof.
  unfold fresh. rewrite forallb_forall. intros A B C. specialize (A m B). apply tried_iff in C. rewrite C in A. discriminate.
Qed.

Lemma Forall2_in_l {A B} (R : A -> B -> Prop) xs ys x : Forall2 R xs ys -> In x xs -> exists y, R x y.
Proof. intros F. induction F as [|a b xs ys E F IH]; [intros []|]. intros [->|Q]; eauto. Qed.

Definition yfate := Z -> verdict -> Prop.
(** the first prewrite of a key: whether its lock was marked, and its min_commit_ts *)
Definition hist := Z -> part -> option (bool * Z).

Section World.
Variable c : cfg.
Variable P : plan.
Variable prim : Z -> part.
Variable secs : Z -> list part.
Hypothesis HP : plan_ok P.
Notation parts := (parts prim secs).

Definition ystore (w : yworld) (q : part) : store := rg_store (y_reg w (fst q)).
Definition ydead (w : yworld) (st : Z) (q : part) : Prop := st <= rg_safe (y_reg w (fst q)).

Definition allH (H : hist) st := forall q, In q (parts st) -> exists x, H st q = Some x.
Definition allA (H : hist) st := forall q, In q (parts st) -> exists m, H st q = Some (true, m).
Definition someS (H : hist) st := exists q m, In q (parts st) /\ H st q = Some (false, m).
Definition hval (H : hist) st q : Z := match H st q with Some (_, m) => m | None => 0 end.
Definition maxm (H : hist) st := fold_right Z.max 0 (map (hval H st) (parts st)).

Lemma allA_S H st : allA H st -> someS H st -> False.
Proof. intros A (q & m & B & C). destruct (A q B) as (m' & D). congruence. Qed.
Lemma allA_H H st : allA H st -> allH H st.
Proof. intros A q B. destruct (A q B) as (m & D). eauto. Qed.

Lemma maxm_ge H st q : In q (parts st) -> hval H st q <= maxm H st.
Proof.
  unfold maxm. induction (parts st) as [|x xs IH]; [intros []|]. cbn [map fold_right].
  intros [->|B]; [lia|]. specialize (IH B). lia.
Qed.
Lemma maxm_at H st : maxm H st = 0 \/ exists q, In q (parts st) /\ hval H st q = maxm H st.
Proof.
  unfold maxm. induction (parts st) as [|x xs IH]; [left; auto|]. cbn [map fold_right].
  destruct (Z_le_gt_dec (fold_right Z.max 0 (map (hval H st) xs)) (hval H st x)) as [L|L].
  - right. exists x. split; [simpl; auto|lia].
  - rewrite Z.max_r by lia. destruct IH as [IH|(q & A & B)]; [left; auto|right; exists q; simpl; auto].
Qed.

(** what the locks of a region say *)
Definition lock_good (H : hist) (i : nat) (k : bytes) (l : lock) : Prop :=
  (is_write (l_type l) -> In (i, k) (parts (l_ts l)) /\
     exists m0, H (l_ts l) (i, k) = Some (l_async l, m0) /\ (someS H (l_ts l) \/ l_minc l = m0)) /\
  (l_type l = OpLock -> l_async l = false) /\
  (l_async l = true -> (i, k) = prim (l_ts l) -> l_secs l = map snd (secs (l_ts l))).

Record yinv (F : yfate) (H : hist) (w : yworld) : Prop := {
  yi_reg : forall i, rinv P (y_reg w i);
  yi_fun : forall st v v', F st v -> F st v' -> v = v';
  yi_c : forall i k st ct, ycommitted w i k st ct -> F st (VCommitted ct);
  yi_r : forall i k st, yrolled_back w i k st -> F st VRolledBack;
  yi_known : forall st v, In (st, v) (y_known w) -> F st v;
  yi_fc : forall st ct, F st (VCommitted ct) -> (allA H st /\ ct = maxm H st) \/
     (allH H st /\ someS H st /\ In st (y_sync w) /\
      (committed (ystore w (prim st)) (snd (prim st)) st ct \/ ydead w st (prim st)));
  yi_fr : forall st, F st VRolledBack ->
     (exists q, In q (parts st) /\ H st q = None /\ (rolled_back (ystore w q) (snd q) st \/ ydead w st q \/ In st (y_quit w))) \/
     (someS H st /\ (rolled_back (ystore w (prim st)) (snd (prim st)) st \/ ydead w st (prim st)));
  yi_all : forall st, allA H st -> F st (VCommitted (maxm H st));
  yi_h : forall st q x, H st q = Some x -> In q (parts st) /\ In (st, q) (y_try w) /\
     (settled (ystore w q) (snd q) st \/ ydead w st q);
  yi_lock : forall i k l, lock_at (rg_store (y_reg w i)) k = Some l -> lock_good H i k l;
  yi_ev : forall st q m, In (st, q, m) (y_ev w) -> exists m0, H st q = Some (true, m0) /\
     (someS H st \/ (m0 <= m /\ exists q' b, In q' (parts st) /\ H st q' = Some (b, m)));
  yi_done : forall st q, In (st, q) (y_done w) -> exists x, H st q = Some x;
  yi_sync : forall st, In st (y_sync w) -> someS H st;
  yi_quit : forall st, In st (y_quit w) -> F st VRolledBack /\ exists q, In q (parts st) /\ ~ In (st, q) (y_try w) }.

Definition fext (F F' : yfate) : Prop := forall st v, F st v -> F' st v.
Definition hext (H H' : hist) : Prop := forall st q x, H st q = Some x -> H' st q = Some x.

Lemma yinv_init : yinv (fun _ _ => False) (fun _ _ => None) init_yworld.
Proof.
  constructor; simpl; try tauto; try discriminate.
  - intros i. apply rinv_init.
  - intros i k st ct (w & W & _). discriminate.
  - intros i k st (w & W & _). discriminate.
  - intros st A. destruct (A (prim st)) as (m & Q); [left; auto|discriminate].
Qed.

Lemma hext_allH H H' st : hext H H' -> allH H st -> allH H' st.
Proof. intros X A q B. destruct (A q B) as (x & D). eauto. Qed.
Lemma hext_allA H H' st : hext H H' -> allA H st -> allA H' st.
Proof. intros X A q B. destruct (A q B) as (x & D). eauto. Qed.
Lemma hext_someS H H' st : hext H H' -> someS H st -> someS H' st.
Proof. intros X (q & m & A & B). exists q, m. auto. Qed.
Lemma hext_maxm H H' st : hext H H' -> allH H st -> maxm H' st = maxm H st.
Proof.
  intros X A. unfold maxm, allH in *. induction (parts st) as [|q xs IH]; auto. cbn [map fold_right].
  rewrite IH by (intros; apply A; right; auto). f_equal.
  destruct (A q (or_introl eq_refl)) as (x & D). unfold hval. rewrite (X _ _ _ D), D. auto.
Qed.

Lemma concluded_fate F H w st ct : yinv F H w -> concluded prim secs w st ct -> F st (VCommitted ct) /\ allA H st.
Proof.
  intros I (ms & A & ->).
  assert (AA : allA H st).
  { intros q B. destruct (Forall2_in_l _ _ _ _ A B) as (m & Q). apply (yi_ev _ _ _ I) in Q. destruct Q as (m0 & Q & _). eauto. }
  split; auto. replace (fold_right Z.max 0 ms) with (maxm H st); [apply (yi_all _ _ _ I); auto|].
  assert (E : Forall2 (fun q m => hval H st q <= m /\ m <= maxm H st) (parts st) ms).
  { assert (G : forall q m, In (st, q, m) (y_ev w) -> hval H st q <= m /\ m <= maxm H st).
    { intros q m Q. apply (yi_ev _ _ _ I) in Q. destruct Q as (m0 & Q & [Q1|(Q1 & q' & b & Q2 & Q3)]); [destruct (allA_S _ _ AA Q1)|].
      unfold hval at 1. rewrite Q. split; [lia|]. assert (Y := maxm_ge H st q' Q2). unfold hval in Y. rewrite Q3 in Y. auto. }
    clear -A G. induction A; constructor; auto. }
  assert (L : maxm H st <= fold_right Z.max 0 ms).
  { unfold maxm. clear A. generalize dependent (maxm H st). intros mm E. induction E as [|q m qs ms' E1 E2 IH]; cbn [map fold_right]; lia. }
  assert (U : fold_right Z.max 0 ms <= Z.max 0 (maxm H st)).
  { clear A L. revert E. generalize (maxm H st). generalize (parts st). intros ps mm E. induction E as [|q m qs ms' E1 E2 IH]; cbn [map fold_right]; lia. }
  assert (N : 0 <= maxm H st) by (unfold maxm; clear; induction (map (hval H st) (parts st)); cbn [fold_right]; lia).
  lia.
Qed.

Lemma says_fate F H w st v : yinv F H w -> says prim secs w st v -> F st v.
Proof.
  intros I [A|(ct & -> & A)]; [apply (yi_known _ _ _ I); auto|]. eapply concluded_fate; eauto.
Qed.


(** a region moved, and things were learned *)
Lemma yinv_move F F' H H' w w' i g : yinv F H w -> fext F F' -> hext H H' ->
  (forall j, y_reg w' j = if Nat.eqb j i then g else y_reg w j) ->
  rinv P g -> rg_safe (y_reg w i) <= rg_safe g -> grow (rg_safe g) (rg_store (y_reg w i)) (rg_store g) ->
  (forall st v v', F' st v -> F' st v' -> v = v') ->
  (forall k st ct, committed (rg_store g) k st ct -> F' st (VCommitted ct)) ->
  (forall k st, rolled_back (rg_store g) k st -> F' st VRolledBack) ->
  (forall st v, In (st, v) (y_known w') -> F' st v) ->
  (forall st ct, F' st (VCommitted ct) -> F st (VCommitted ct) \/ (allA H' st /\ ct = maxm H' st) \/
     (allH H' st /\ someS H' st /\ In st (y_sync w') /\ committed (ystore w' (prim st)) (snd (prim st)) st ct)) ->
  (forall st, F' st VRolledBack -> F st VRolledBack \/
     (exists q, In q (parts st) /\ H' st q = None /\ rolled_back (ystore w' q) (snd q) st) \/
     (someS H' st /\ rolled_back (ystore w' (prim st)) (snd (prim st)) st)) ->
  (forall st q, H st q = None -> rolled_back (ystore w q) (snd q) st \/ ydead w st q \/ In st (y_quit w) -> H' st q = None) ->
  (forall st, allA H' st -> F' st (VCommitted (maxm H' st))) ->
  (forall st q x, H' st q = Some x -> H st q = Some x \/ (In q (parts st) /\ In (st, q) (y_try w') /\ settled (ystore w' q) (snd q) st)) ->
  (forall k st x, H st (i, k) = Some x -> settled (rg_store (y_reg w i)) k st -> settled (rg_store g) k st \/ st <= rg_safe g) ->
  (forall x, In x (y_try w) -> In x (y_try w')) ->
  (forall k l, lock_at (rg_store g) k = Some l -> lock_good H' i k l) ->
  (forall st q m, In (st, q, m) (y_ev w') -> In (st, q, m) (y_ev w) \/ exists m0, H' st q = Some (true, m0) /\
     (someS H' st \/ (m0 <= m /\ exists q' b, In q' (parts st) /\ H' st q' = Some (b, m)))) ->
  (forall st q, In (st, q) (y_done w') -> In (st, q) (y_done w) \/ exists x, H' st q = Some x) ->
  (forall st, In st (y_sync w) -> In st (y_sync w')) ->
  (forall st, In st (y_sync w') -> In st (y_sync w) \/ someS H' st) ->
  y_quit w' = y_quit w ->
  (forall st q, In st (y_quit w) -> In (st, q) (y_try w') -> In (st, q) (y_try w)) ->
  yinv F' H' w'.
Proof.
  intros I FX HX RG RI SF GR FU C R K FC FR HN AL HH HS TM LG EV DN SM SY EQ QT.
  assert (GC : forall j, rg_safe (y_reg w j) <= rg_safe (y_reg w' j) /\
                 grow (rg_safe (y_reg w' j)) (rg_store (y_reg w j)) (rg_store (y_reg w' j))).
  { intros j. rewrite RG. destruct (Nat.eqb_spec j i) as [->|n]; auto. split; [lia|apply grow_refl]. }
  assert (DD : forall st q, ydead w st q -> ydead w' st q).
  { intros st q. unfold ydead. destruct (GC (fst q)). lia. }
  assert (CP : forall st ct q, committed (ystore w q) (snd q) st ct -> committed (ystore w' q) (snd q) st ct \/ ydead w' st q).
  { intros st ct q Q. destruct (GC (fst q)) as [G1 G2].
    destruct (Z_lt_le_dec (rg_safe (y_reg w' (fst q))) st) as [L1|L1]; [left|right; auto].
    unfold ystore in *. apply G2; auto. assert (L := commit_after _ _ _ _ (gi_ok _ _ _ _ (yi_reg _ _ _ I (fst q))) Q). lia. }
  assert (RP : forall st q, rolled_back (ystore w q) (snd q) st -> rolled_back (ystore w' q) (snd q) st \/ ydead w' st q).
  { intros st q Q. destruct (GC (fst q)) as [G1 G2].
    destruct (Z_lt_le_dec (rg_safe (y_reg w' (fst q))) st) as [L1|L1]; [left|right; auto].
    unfold ystore in *. apply G2; auto. }
  constructor; auto.
  - intros j. rewrite RG. destruct (Nat.eqb j i); auto. apply I.
  - intros j k st ct. unfold ycommitted. rewrite RG. destruct (Nat.eqb j i); eauto.
    intros Q. apply FX. eapply (yi_c _ _ _ I); eauto.
  - intros j k st. unfold yrolled_back. rewrite RG. destruct (Nat.eqb j i); eauto.
    intros Q. apply FX. eapply (yi_r _ _ _ I); eauto.
  - intros st ct Q. destruct (FC st ct Q) as [Q1|[Q1|(Q1 & Q2 & Q3 & Q4)]]; [|auto|right; auto].
    destruct (yi_fc _ _ _ I st ct Q1) as [(A1 & A2)|(A1 & A2 & A3 & A4)].
    + left. split; [eapply hext_allA; eauto|]. rewrite (hext_maxm H H'); auto. apply allA_H; auto.
    + right. split; [eapply hext_allH; eauto|split; [eapply hext_someS; eauto|split; [auto|]]].
      destruct A4 as [A4|A4]; auto.
  - intros st Q. destruct (FR st Q) as [Q1|[(q & Q1 & Q2 & Q3)|(Q1 & Q2)]]; [|left; exists q; auto|right; auto].
    destruct (yi_fr _ _ _ I st Q1) as [(q & A1 & A2 & A3)|(A1 & A2)].
    + left. exists q. split; [auto|split; [auto|]]. destruct A3 as [A3|[A3|A3]].
      * destruct (RP _ _ A3); auto.
      * auto.
      * right; right. rewrite EQ. auto.
    + right. split; [eapply hext_someS; eauto|]. destruct A2 as [A2|A2]; auto.
  - intros st q x Q. destruct (HH st q x Q) as [Q1|(Q1 & Q2 & Q3)]; [|auto].
    destruct (yi_h _ _ _ I st q x Q1) as (A1 & A2 & A3). split; [auto|split; [auto|]].
    destruct A3 as [A3|A3]; [|right; auto].
    unfold ystore, ydead in *. rewrite RG. destruct (Nat.eqb_spec (fst q) i) as [E|n]; [|auto].
    destruct q as [j k]. cbn [fst snd] in *. subst j. eauto.
  - intros j k l. rewrite RG. destruct (Nat.eqb_spec j i) as [->|n]; [auto|]. intros Q.
    destruct (yi_lock _ _ _ I j k l Q) as (A1 & A2 & A3). split; [|split; auto]. intros B.
    destruct (A1 B) as (B1 & m0 & B2 & B3). split; auto. exists m0. split; [auto|].
    destruct B3; [left; eapply hext_someS; eauto|auto].
  - intros st q m Q. destruct (EV st q m Q) as [Q1|Q1]; auto.
    destruct (yi_ev _ _ _ I st q m Q1) as (m0 & A1 & A2). exists m0. split; [auto|].
    destruct A2 as [A2|(A2 & q' & b & A3 & A4)]; [left; eapply hext_someS; eauto|]. right. split; [auto|]. exists q', b. auto.
  - intros st q Q. destruct (DN st q Q) as [Q1|Q1]; auto. destruct (yi_done _ _ _ I st q Q1) as (x & A). eauto.
  - intros st Q. destruct (SY st Q) as [Q1|Q1]; auto. apply (yi_sync _ _ _ I) in Q1. eapply hext_someS; eauto.
  - intros st Q. rewrite EQ in Q. destruct (yi_quit _ _ _ I st Q) as (A & q & B & D). split; [auto|].
    exists q. split; [auto|]. intros Y. apply D. eauto.
Qed.

Lemma yother_inv F H w i e g : yinv F H w -> match e with EReq _ _ => False | _ => allowed c P (y_reg w i) e end ->
  step c (y_reg w i) e = Ok g -> yinv F H (set_yreg w i g).
Proof.
  intros I A S.
  assert (A' : allowed c P (y_reg w i) e) by (destruct e; tauto).
  destruct (step_inv _ _ _ _ _ HP (yi_reg _ _ _ I i) A' S) as (I1 & L1 & G1).
  assert (SUB : (forall k t x, write_at (rg_store g) k t = Some x -> write_at (rg_store (y_reg w i)) k t = Some x) /\
                forall k, lock_at (rg_store g) k = lock_at (rg_store (y_reg w i)) k).
  { destruct e as [r n|ts| |sp|st ct|n]; cbn [step] in S; try (destruct A; fail);
      try (apply Ok_inj in S; subst g; auto; fail).
    destruct (nth_error (rg_pool (y_reg w i)) n) as [b|] eqn:E; apply Ok_inj in S; subst g; auto.
    cbn [rg_store]. apply nth_error_In in E. assert (PS := pool_sub P _ _ _ b (yi_reg _ _ _ I i) E).
    split; [intros k t x; apply PS|intros k; apply PS]. }
  destruct SUB as [SUB LK].
  eapply yinv_move with (F := F) (H := H) (w := w) (i := i) (g := g); eauto; try (cbn; tauto).
  - intros st v; auto.
  - intros st q x; auto.
  - apply (yi_fun _ _ _ I).
  - intros k st ct (x & W & Q). apply (yi_c _ _ _ I i k). exists x. auto.
  - intros k st (x & W & Q). apply (yi_r _ _ _ I i k). exists x. auto.
  - apply (yi_known _ _ _ I).
  - apply (yi_all _ _ _ I).
  - intros k st x Q1 Q2. destruct (Z_lt_le_dec (rg_safe g) st) as [L|L]; [left|right; auto].
    eapply step_settled with (g := y_reg w i); eauto. { apply (yi_reg _ _ _ I i). }
    intros p n ->. destruct A.
  - intros k l Q. rewrite LK in Q. apply (yi_lock _ _ _ I i k l Q).
Qed.

(** * Requests *)
Section Request.
Variables (F : yfate) (H : hist) (w : yworld) (i : nat) (r : req) (n : nat) (heard : bool) (a : resp) (bs : list batch).
Hypothesis I : yinv F H w.
Hypothesis AL : allowed c P (y_reg w i) (EReq r n).
Hypothesis HE : heard = true -> (length bs <= n)%nat.
Hypothesis AV : forall st q, In st (txns_of r) -> In q (parts st) -> rg_safe (y_reg w (fst q)) < st.
Hypothesis RU : yrule prim secs w i r.
Hypothesis SV : serve c (y_reg w i) r = Ok (a, bs).

Notation s := (rg_store (y_reg w i)).
Notation s' := (apply_batches (rg_store (y_reg w i)) (firstn n bs)).

Lemma YOK : store_ok s.
Proof. apply (yi_reg _ _ _ I i). Qed.
Lemma YMV : moves r a s (firstn n bs).
Proof. apply moves_firstn. eapply serve_moves; eauto. apply YOK. Qed.
Lemma YHD : heard = true -> s' = apply_batches s bs.
Proof. intros Q. rewrite firstn_all2; auto. Qed.

Lemma ystep_facts : exists g, step c (y_reg w i) (EReq r n) = Ok g /\ rg_store g = s' /\ rg_safe g = rg_safe (y_reg w i) /\
  rinv P g /\ grow (rg_safe g) s (rg_store g) /\
  (forall k st x, H st (i, k) = Some x -> settled s k st -> settled (rg_store g) k st \/ st <= rg_safe g).
Proof.
  assert (S : exists g, step c (y_reg w i) (EReq r n) = Ok g /\ rg_store g = s' /\ rg_safe g = rg_safe (y_reg w i)).
  { cbn [step]. rewrite SV. cbn [obind snd]. eexists. split; [reflexivity|split; reflexivity]. }
  destruct S as (g & S & S1 & S2). exists g. split; [exact S|].
  destruct (step_inv _ _ _ _ _ HP (yi_reg _ _ _ I i) AL S) as (I1 & L1 & G1).
  split; [auto|split; [auto|split; [auto|split; [auto|]]]].
  intros k st x Q1 Q2. destruct (Z_lt_le_dec (rg_safe g) st) as [L|L]; [left|right; auto].
  eapply step_settled with (g := y_reg w i); eauto. { apply (yi_reg _ _ _ I i). }
  intros p m Q E. inversion Q; subst. destruct RU as (_ & R2). apply (yi_h _ _ _ I) in Q1. apply (R2 (i, k)). tauto.
Qed.

(** nothing but a prewrite changes what the locks say *)
Lemma locks_kept : (forall p, r <> RPrewrite p) -> forall k l, lock_at s' k = Some l -> lock_good H i k l.
Proof.
  intros NP.
  assert (G : forall bs s0, store_ok s0 -> moves r a s0 bs -> (forall k l, lock_at s0 k = Some l -> lock_good H i k l) ->
     forall k l, lock_at (apply_batches s0 bs) k = Some l -> lock_good H i k l).
  { induction bs0 as [|b bs0 IH]; intros s0 OK0 M Q; [auto|]. destruct M as (M1 & M2 & M3).
    apply (IH _ (apply_batch_ok _ _ OK0 M1) M3). intros k l L'.
    destruct (M2 k) as
      [ L W D
      | l0 l1 L0 L IT E1 E2 E3 E4 E5 E6 E7 E8 E9 E10 W D MI
      | p l1 E L E1 E2 E3 WF X W D E4 NA
      | p l1 E L E1 E2 WF X W D DN E4
      | st' fut keys l0 E L0 E1 E2 E3 IK L W D
      | ct' l0 IC L0 T LT L MC W D
      | p wr E X N1 N2 E1 E2 L W D DN
      | l0 L0 IT L W D TT TY RO
      | st' IT NH' L NC NR W D RO ]; try congruence.
    - apply Q. congruence.
    - rewrite L in L'. inversion L'; subst l1. destruct (Q _ _ L0) as (Q1 & Q2 & Q3). unfold lock_good.
      rewrite E1, E2, E7, E8. split; [|split; auto]. intros B. destruct (Q1 B) as (B1 & m0 & B2 & B3). split; auto.
      exists m0. split; auto. destruct MI as [->|(p & lk & cl & cu & fs & rm & -> & Z)]; auto.
      left. destruct Z as [Z|Z].
      + exists (i, k), m0. rewrite Z in B2. auto.
      + destruct IT as [<-|[]]. destruct RU as (_ & R2). apply (yi_sync _ _ _ I). auto.
    - rewrite L in L'. inversion L'; subst l1.
      assert (LA : l_async l = false).
      { destruct (l_async l) eqn:LA; auto. exfalso. destruct (NA eq_refl) as (l0 & A1 & A2 & A3).
        destruct (Q _ _ A1) as (Q1 & Q2 & _).
        assert (B : is_write (l_type l0)).
        { assert (Z : l_type l0 = OpLock \/ is_write (l_type l0)).
          { destruct (ok_lock _ OK0 _ _ A1) as (_ & _ & _ & [Z|[Z|Z]] & _); unfold is_write; auto. }
          destruct Z; auto. rewrite Q2 in A3; congruence. }
        destruct (Q1 B) as (_ & m0 & B2 & _). rewrite A2 in B2. apply (yi_h _ _ _ I) in B2.
        subst r. destruct RU as (_ & R2). apply (R2 (i, k)). tauto. }
      split; [rewrite E2; intros [Z|Z]; discriminate|split; auto]. congruence.
    - apply Q. congruence. }
  apply G; [apply YOK|apply YMV|]. intros k l. apply (yi_lock _ _ _ I).
Qed.


Lemma status_one k lk cl cu fs rm : r = RCheckStatus k lk cl cu fs rm -> bs = [] \/ exists b, bs = [b].
Proof.
  intros E. assert (X := SV). rewrite E in X. unfold serve in X. unfold handle in X.
  destruct (validate _); [ok_reply X; auto|]. destruct (existsb _ _); [discriminate|].
  unfold check_status in X. destruct (_ =? _) in X.
  - destruct (negb (beqb _ _)); [ok_reply X; auto|]. destruct (_ && _); [ok_reply X; auto|].
    destruct (_ && _); [ok_reply X; auto|].
    destruct (_ <=? _); [destruct (_ <? _)|]; ok_reply X; eauto;
      destruct (beqb _ _); unfold do_rollback; cbn; eauto.
  - destruct (get_rollback _ _ _) as [[|]|]; cbn [obind] in X; [ok_reply X; auto| |discriminate].
    destruct (_ =? 0) in X; [destruct rm|]; ok_reply X; unfold mark_rollback; eauto.
Qed.

(** a key that was prewritten shows it *)
Lemma hist_none k st : In st (txns_of r) -> In (i, k) (parts st) ->
  ~ prewritten s k st -> ~ rolled_back s k st -> (forall ct, ct <= kMaxVer -> ~ committed s k st ct) -> H st (i, k) = None.
Proof.
  intros T IP N1 N2 N3. destruct (H st (i, k)) as [x|] eqn:E; auto. exfalso.
  destruct (yi_h _ _ _ I _ _ _ E) as (A1 & A2 & [A3|A3]).
  - unfold ystore in A3. cbn [fst snd] in A3. destruct A3 as [A3|[(ct & A3)|A3]]; try tauto.
    apply (N3 ct); auto. assert (Y := committed_for _ _ _ _ _ (gi_k _ _ _ _ (yi_reg _ _ _ I i) k) A3).
    apply HP in Y. lia.
  - unfold ydead in A3. assert (Q := AV _ _ T IP). lia.
Qed.

Definition newC (st ct : Z) : Prop :=
  In st (txns_of r) /\ ready prim secs w st /\ i = fst (prim st) /\ committed s' (snd (prim st)) st ct.
Definition newR (st : Z) : Prop :=
  In st (txns_of r) /\ exists k, rolled_back s' k st /\
  ((In (i, k) (parts st) /\ H st (i, k) = None) \/ (someS H st /\ prim st = (i, k))).

Lemma ynew_commit k st ct : (forall p, r <> RPrewrite p) -> committed s' k st ct -> F st (VCommitted ct) \/ newC st ct.
Proof.
  intros NP C. destruct (committed_dec s k st ct) as [N|N]; [left; eapply (yi_c _ _ _ I i); eauto|].
  assert (CH : s' <> s) by (intros Q; rewrite Q in C; auto). unfold newC.
  destruct (moves_committed _ _ _ _ _ _ _ YMV C) as [Q|[Q|(p & E & E1 & E2 & E3)]]; [tauto| |destruct (NP p); auto].
  destruct r as [p|st0 ct0 keys|st0 keys|p|st0 fut keys|k0 lk cl cu fs rm|st0 keys|st0 ct0 keys txns|k0 st0 adv]; simpl in Q; try tauto.
  - destruct Q as [Q|[]]. inversion Q; subst st0 ct0. destruct RU as [R1|(R1 & R2 & R3)]; [left; eapply says_fate; eauto|].
    right. split; [simpl; auto|split; [auto|split; [auto|]]].
    assert (SU : succeeded a).
    { destruct (succeeded_dec a) as [|NS]; auto. exfalso. apply CH.
      assert (K : keyed (RCommit st ct keys)) by exact Logic.I.
      assert (RB := rejected_no_effect _ _ _ _ _ _ K SV NS). subst bs. rewrite firstn_nil. reflexivity. }
    assert (ALL : s' = apply_batches s bs).
    { destruct (all_or_nothing c s _ (RCommit st ct keys) a bs n Logic.I SV) as [Q1|Q1]; [destruct (CH Q1)|exact Q1]. }
    rewrite ALL. unfold serve in SV. eapply commit_effect; eauto. apply YOK.
  - left. apply filter_In in Q. destruct Q as [Q1 Q2]. simpl in Q2. assert (RU' := RU). unfold yrule in RU'.
    apply RU' in Q1. rewrite Q2 in Q1. eapply says_fate; eauto.
Qed.

Lemma ynew_rollback k st : rolled_back s' k st -> F st VRolledBack \/ newR st.
Proof.
  intros C. destruct (rolled_back_dec s k st) as [N|N]; [left; eapply (yi_r _ _ _ I i); eauto|].
  assert (HN := hist_none k st). assert (LG := yi_lock _ _ _ I i k).
  assert (WF := YOK). assert (SO := status_one). assert (MV := YMV). unfold newR.
  destruct (moves_rolled _ _ _ _ _ _ MV C) as [Q|Q]; [tauto|].
  destruct r as [p|st0 ct0 keys|st0 keys|p|st0 fut keys|k0 lk cl cu fs rm|st0 keys|st0 ct0 keys txns|k0 st0 adv]; simpl in Q; try tauto.
  - subst st0. left. destruct RU as [Q|Q]; [apply (yi_quit _ _ _ I) in Q; tauto|apply (yi_known _ _ _ I); auto].
  - destruct Q as [-> ->]. right. destruct RU as (R1 & R2). split; [simpl; auto|].
    assert (IP : In (i, k) (parts st)) by (left; auto). exists k. split; [auto|].
    assert (MB : exists b, bs = [b] /\ firstn n bs = [b]).
    { destruct (SO _ _ _ _ _ _ eq_refl) as [E|(b & E)]; rewrite E in *; [rewrite firstn_nil in C; destruct (N C)|].
      destruct n; [destruct (N C)|]. exists b. split; auto. cbn [firstn]. destruct n0; auto. }
    destruct MB as (b & _ & E). rewrite E in *. cbn [moves apply_batches fold_left] in *. destruct MV as (_ & MV & _).
    destruct (MV k) as
      [ L W D
      | l0 l1 L0 L IT E1 E2 E3 E4 E5 E6 E7 E8 E9 E10 W D MI
      | p l1 X1 L E1 E2 E3 WF1 X W D E4 NA
      | p l1 X1 L E1 E2 WF1 X W D DN E4
      | st' fut keys l0 X1 L0 E1 E2 E3 IK L W D
      | ct' l0 IC L0 T LT L MC W D
      | p wr X1 X N1 N2 E1 E2 L W D DN
      | l0 L0 IT L W D TT TY RO AF
      | st' IT NH' L NC NR W D RO ]; try discriminate;
      try (exfalso; apply N; rewrite <- (rolled_back_same _ _ _ _ W); exact C); try (destruct IC; fail).
    + simpl in IT. destruct IT as [IT|[]]. destruct (LG _ L0) as (G1 & G2 & G3).
      destruct (ok_lock _ WF _ _ L0) as (_ & _ & _ & TYP & _).
      assert (Z : is_write (l_type l0) \/ l_type l0 = OpLock) by (unfold is_write; tauto). destruct Z as [Z|Z].
      * right. split; [|auto]. destruct (G1 Z) as (_ & m0 & G4 & _). rewrite <- IT in *.
        destruct (AF _ _ _ _ _ _ eq_refl) as [Q|Q]; [|apply (yi_sync _ _ _ I); auto].
        exists (i, k), m0. rewrite Q in G4. auto.
      * left. split; auto. apply HN; auto.
        -- simpl; auto.
        -- intros (l2 & A1 & A2 & A3). rewrite L0 in A1. inversion A1; subst l2. destruct A3; congruence.
        -- intros ct Q C1. eapply (ki_nocommit _ _ _ (gi_k _ _ _ _ (yi_reg _ _ _ I i) k)); eauto. rewrite IT in C1 || rewrite <- IT; eauto.
    + simpl in IT. destruct IT as [IT|[]]. subst st'. left. split; auto. apply HN; auto.
      * simpl; auto.
      * intros (l2 & A1 & A2 & A3). apply NH'. exists l2. auto.
  - subst st0. right. split; [simpl; auto|]. exists k. split; [auto|]. left. unfold serve in SV.
    destruct (handle_secondary _ _ _ _ _ _ _ WF SV) as [(_ & B)|(Z & _ & _ & [B|[B|[B|[B|B]]]])].
    + rewrite B, firstn_nil in C. destruct (N C).
    + destruct B as (? & ? & _ & _ & B). rewrite B, firstn_nil in C. destruct (N C).
    + destruct B as (k1 & B1 & B2 & B3 & B4 & _ & B5). destruct n as [|n']; [destruct (N C)|].
      rewrite B5 in C. unfold mark_rollback in C. cbn [firstn] in C. rewrite firstn_nil in C.
      cbn [apply_batches fold_left] in C. destruct (list_eq_dec Z.eq_dec k1 k) as [->|NE].
      * assert (IP : In (i, k) (parts st)) by (apply RU; auto). split; auto. apply HN; auto. { simpl; auto. }
        intros (l2 & A1 & A2 & A3). apply B2. exists l2. auto.
      * exfalso. apply N. destruct C as (x & X1 & X2). exists x. split; auto.
        unfold apply_batch in X1. cbn [fold_left] in X1. rewrite write_at_put in X1.
        destruct (kt_dec _ _) as [Y|Y]; auto. inversion Y. congruence.
    + destruct B as (? & _ & _ & _ & _ & B). rewrite B, firstn_nil in C. destruct (N C).
    + destruct B as (? & _ & _ & _ & _ & B). rewrite B, firstn_nil in C. destruct (N C).
    + destruct B as (_ & _ & B & _). rewrite B, firstn_nil in C. destruct (N C).
  - left. destruct Q as (ct & L & Q). assert (RU' := RU). unfold yrule in RU'. apply RU' in Q.
    replace (0 <? ct) with false in Q by (symmetry; apply Z.ltb_ge; auto). apply (yi_known _ _ _ I). auto.
Qed.


(** what the primary shows stays *)
Lemma prim_stays st : In st (txns_of r) -> i = fst (prim st) ->
  (forall ct, committed (ystore w (prim st)) (snd (prim st)) st ct \/ ydead w st (prim st) -> committed s' (snd (prim st)) st ct) /\
  (rolled_back (ystore w (prim st)) (snd (prim st)) st \/ ydead w st (prim st) -> rolled_back s' (snd (prim st)) st).
Proof.
  intros T E. destruct ystep_facts as (g & G1 & G2 & G3 & G4 & G5 & _).
  assert (Q := AV st (prim st) T (or_introl eq_refl)). unfold ystore, ydead. rewrite <- E in *. rewrite G2 in G5.
  split.
  - intros ct [D|D]; [|lia]. apply G5; auto.
    assert (L := commit_after _ _ _ _ YOK D). lia.
  - intros [D|D]; [|lia]. apply G5; auto. lia.
Qed.

Lemma excl' k st ct : committed s' k st ct -> rolled_back s' k st -> False.
Proof.
  destruct ystep_facts as (g & G1 & G2 & G3 & G4 & _). rewrite <- G2. intros A B.
  eapply ki_excl; [apply (gi_k _ _ _ _ G4)| |]; eauto.
Qed.
Lemma one' k st c1 c2 : committed s' k st c1 -> committed s' k st c2 -> c1 = c2.
Proof.
  destruct ystep_facts as (g & G1 & G2 & G3 & G4 & _). rewrite <- G2. intros A B.
  eapply commit_one; [exact HP|apply (gi_k _ _ _ _ G4)| |]; eauto.
Qed.

Lemma ready_facts st : ready prim secs w st -> allH H st /\ someS H st.
Proof.
  intros (A & B). split; [|apply (yi_sync _ _ _ I); auto]. intros q Q. eapply (yi_done _ _ _ I). auto.
Qed.

Lemma newC_old st ct v : newC st ct -> F st v -> v = VCommitted ct.
Proof.
  intros (A & B & D & E) Q. destruct (ready_facts st B) as (B1 & B2). destruct (prim_stays st A D) as (S1 & S2).
  destruct v as [ct'|].
  - destruct (yi_fc _ _ _ I _ _ Q) as [(Q1 & _)|(_ & _ & _ & Q1)]; [destruct (allA_S _ _ Q1 B2)|].
    apply S1 in Q1. f_equal. eapply one'; eauto.
  - exfalso. destruct (yi_fr _ _ _ I _ Q) as [(q & Q1 & Q2 & _)|(_ & Q1)].
    + destruct (B1 q Q1) as (x & Y). congruence.
    + apply S2 in Q1. eapply excl'; eauto.
Qed.
Lemma newR_old st v : newR st -> F st v -> v = VRolledBack.
Proof.
  intros (A & k & B & D) Q. destruct v as [ct|]; auto. exfalso.
  assert (AH : allH H st).
  { destruct (yi_fc _ _ _ I _ _ Q) as [(Q1 & _)|(Q1 & _)]; auto. apply allA_H; auto. }
  destruct D as [(D1 & D2)|(D1 & D2)].
  - destruct (AH _ D1) as (x & Y). congruence.
  - destruct (yi_fc _ _ _ I _ _ Q) as [(Q1 & _)|(_ & _ & _ & Q1)]; [destruct (allA_S _ _ Q1 D1)|].
    assert (E : i = fst (prim st)) by (rewrite D2; auto).
    apply (prim_stays st A E) in Q1. rewrite D2 in Q1. cbn [snd] in Q1. eapply excl'; eauto.
Qed.
Lemma newC_newR st ct : newC st ct -> newR st -> False.
Proof.
  intros (A & B & D & E) (_ & k & B' & D'). destruct (ready_facts st B) as (B1 & B2).
  destruct D' as [(D1 & D2)|(D1 & D2)].
  - destruct (B1 _ D1) as (x & Y). congruence.
  - rewrite D2 in E. eapply excl'; eauto.
Qed.

(** what is learned from an answer that arrives is true *)
Lemma ylearned_true (F' : yfate) st v : heard = true ->
  (forall k st ct, committed s' k st ct -> F' st (VCommitted ct)) ->
  (forall k st, rolled_back s' k st -> F' st VRolledBack) ->
  In (st, v) (ylearned prim i r a) -> F' st v.
Proof.
  intros HD C R IN. assert (ALL := YHD HD).
  destruct r as [p|st0 ct0 keys|st0 keys|p|st0 fut keys|k0 lk cl cu fs rm|st0 keys|st0 ct0 keys txns|k0 st0 adv]; try destruct IN.
  - unfold ylearned in IN. destruct (_ && _) eqn:E in IN; [|destruct IN]. destruct IN as [IN|[]]. inversion IN; subst st v.
    apply andb_true_iff in E. destruct E as [E SU]. apply good_iff in SU.
    apply andb_true_iff in E. destruct E as [_ E]. apply existsb_exists in E. destruct E as (k1 & K1 & K2).
    apply beqb_true in K2. subst k1. apply (C (snd (prim st0))). rewrite ALL.
    unfold serve in SV. eapply commit_effect; eauto. apply YOK.
  - unfold ylearned in IN. destruct (r_err a) eqn:ER; [destruct IN|]. unfold serve in SV.
    destruct (handle_status _ _ _ _ _ _ _ _ _ _ _ SV ER) as (LP & CS).
    assert (NHC : ~ holds s k0 lk -> F' st v).
    { intros NH. destruct (check_status_nolock _ _ _ _ _ _ _ _ _ YOK LP NH CS) as
        [(Q1 & -> & ->)|[(ct & Q1 & Q2 & Q3 & -> & ->)|(Q1 & Q2 & [(-> & -> & ->)|(-> & -> & ->)])]]; cbn in IN.
      * destruct IN as [IN|[]]. inversion IN; subst. apply (R k0). rewrite ALL. auto.
      * replace (0 <? ct) with true in IN by (symmetry; apply Z.ltb_lt; lia).
        destruct IN as [IN|[]]. inversion IN; subst. apply (C k0). rewrite ALL. auto.
      * destruct IN as [IN|[]]. inversion IN; subst. apply (R k0). rewrite ALL. apply mark_rollback_rolled. apply YOK.
      * destruct IN. }
    destruct (lock_at s k0) as [l|] eqn:L; [destruct (Z.eq_dec (l_ts l) lk) as [E|E]|].
    + destruct (check_status_lock _ _ _ _ _ _ _ _ _ _ YOK L E CS) as (Q1 & Q2). rewrite Q1 in IN. cbn [Z.ltb Z.compare] in IN.
      assert (SR : In (st, v) [(lk, VRolledBack)] /\ says_rolled_back a).
      { unfold says_rolled_back. destruct (r_action a); cbn [Z.eqb In] in IN; try (destruct IN; fail); split; auto. }
      destruct SR as [[SR|[]] SR2]. inversion SR; subst st v. apply (R k0). rewrite ALL. apply Q2; auto.
    + apply NHC. intros (l' & H1 & H2); congruence.
    + apply NHC. intros (l' & H1 & H2); congruence.
  - unfold ylearned in IN. unfold serve in SV.
    destruct (handle_secondary _ _ _ _ _ _ _ YOK SV) as [(B & _)|(Z & ER & _ & [B|[B|[B|[B|B]]]])].
    + destruct (r_err a); [destruct IN|tauto].
    + destruct B as (? & ? & _ & B & _). rewrite ER, B in IN. destruct IN.
    + destruct B as (k1 & _ & _ & _ & _ & B & B1). rewrite ER, B in IN. destruct IN as [IN|[]]. inversion IN; subst.
      apply (R k1). rewrite ALL. apply mark_rollback_rolled. apply YOK.
    + destruct B as (k1 & _ & B & B1 & B2 & B3). rewrite ER, B, B1 in IN. cbn [Z.ltb Z.compare] in IN.
      destruct (Nat.ltb _ _); [|destruct IN]. destruct IN as [IN|[]]. inversion IN; subst.
      apply (R k1). rewrite ALL. auto.
    + destruct B as (k1 & _ & B & B1 & B2 & B3). rewrite ER, B in IN. apply Z.ltb_lt in B1. rewrite B1 in IN.
      destruct IN as [IN|[]]. inversion IN; subst. apply (C k1). rewrite ALL. auto.
    + destruct B as (B & B1 & _ & B2). rewrite ER, B, B1, B2, Nat.ltb_irrefl in IN. destruct IN.
Qed.

Lemma yevidence_true st q m : (forall p, r <> RPrewrite p) -> In (st, q, m) (evidence w i r a) ->
  exists m0, H st q = Some (true, m0) /\
     (someS H st \/ (m0 <= m /\ exists q' b, In q' (parts st) /\ H st q' = Some (b, m))).
Proof.
  intros NP IN.
  assert (G : forall k l, lock_at s k = Some l -> l_async l = true -> exists m0, H (l_ts l) (i, k) = Some (true, m0) /\
     (someS H (l_ts l) \/ (m0 <= l_minc l /\ exists q' b, In q' (parts (l_ts l)) /\ H (l_ts l) q' = Some (b, l_minc l)))).
  { intros k l L LA. destruct (yi_lock _ _ _ I i k l L) as (G1 & G2 & _).
    assert (IW : is_write (l_type l)).
    { destruct (ok_lock _ YOK _ _ L) as (_ & _ & _ & [Z|[Z|Z]] & _); unfold is_write; auto. rewrite G2 in LA; congruence. }
    destruct (G1 IW) as (G3 & m0 & G4 & G5). rewrite LA in G4. exists m0. split; [auto|].
    destruct G5 as [G5|G5]; [auto|right]. split; [lia|]. exists (i, k), true. subst m0. auto. }
  destruct r as [p|st0 ct0 keys|st0 keys|p|st0 fut keys|k0 lk cl cu fs rm|st0 keys|st0 ct0 keys txns|k0 st0 adv]; try destruct IN.
  - destruct (NP p); auto.
  - unfold evidence in IN. destruct (r_err a) eqn:ER; [destruct IN|].
    destruct (r_res a) as [|t ts] eqn:RR; [destruct IN|]. unfold serve in SV.
    destruct (handle_status _ _ _ _ _ _ _ _ _ _ _ SV ER) as (LP & CS).
    destruct t; try (destruct IN; fail). destruct ts; [|destruct IN]. destruct (l_async _) eqn:LA in IN; [|destruct IN]. destruct IN as [IN|[]]. inversion IN; subst.
    destruct (check_status_locked _ _ _ _ _ _ _ _ _ _ YOK LP CS RR) as (L1 & <-). auto.
  - unfold evidence in IN. unfold serve in SV.
    destruct (handle_secondary _ _ _ _ _ _ _ YOK SV) as [(B & _)|(Z & ER & B & _)].
    + destruct (r_err a); [destruct IN|tauto].
    + rewrite ER in IN. apply in_map_iff in IN. destruct IN as (l & E & IN). inversion E; subst.
      apply filter_In in IN. destruct IN as (IN & LA). destruct (B l IN) as (B1 & <- & _). auto.
Qed.
Lemma ysync_true st : (forall p, r <> RPrewrite p) -> In st (sync_signs w i r a) -> someS H st.
Proof.
  intros NP IN.
  destruct r as [p|st0 ct0 keys|st0 keys|p|st0 fut keys|k0 lk cl cu fs rm|st0 keys|st0 ct0 keys txns|k0 st0 adv]; try destruct IN.
  - destruct (NP p); auto.
  - unfold sync_signs in IN. unfold serve in SV.
    destruct (handle_secondary _ _ _ _ _ _ _ YOK SV) as [(B & _)|(Z & ER & B & _)].
    + destruct (r_err a); [destruct IN|tauto].
    + rewrite ER in IN. destruct (existsb _ _) eqn:E; [|destruct IN]. destruct IN as [<-|[]].
      apply existsb_exists in E. destruct E as (l & L1 & L2). destruct (B l L1) as (B1 & B2 & B3).
      destruct (yi_lock _ _ _ I i _ l B1) as (G1 & _). destruct (G1 B3) as (G3 & m0 & G4 & _).
      rewrite B2 in *. apply negb_true_iff in L2. rewrite L2 in G4. exists (i, l_key l), m0. auto.
Qed.

Lemma yreq_inv_other w' : (forall p, r <> RPrewrite p) -> ystep c prim w (YReq i r n heard) = Ok w' ->
  exists F', yinv F' H w' /\ fext F F'.
Proof.
  intros NP W.
  destruct ystep_facts as (g & G1 & G2 & G3 & G4 & G5 & G6).
  cbn [ystep] in W. rewrite SV in W. cbn [obind] in W. rewrite G1 in W. cbn [obind fst] in W.
  assert (PW : prewrites i r = []) by (destruct r; auto; destruct (NP p); auto).
  exists (fun st v => F st v \/ (exists ct, v = VCommitted ct /\ newC st ct) \/ (v = VRolledBack /\ newR st)).
  split; [|intros st v Q; auto].
  assert (CC : forall k st ct, committed s' k st ct ->
     F st (VCommitted ct) \/ (exists ct', VCommitted ct = VCommitted ct' /\ newC st ct') \/ (VCommitted ct = VRolledBack /\ newR st)).
  { intros k st ct Q. destruct (ynew_commit k st ct NP Q); eauto. }
  assert (RR : forall k st, rolled_back s' k st ->
     F st VRolledBack \/ (exists ct', VRolledBack = VCommitted ct' /\ newC st ct') \/ (VRolledBack = VRolledBack /\ newR st)).
  { intros k st Q. destruct (ynew_rollback k st Q); eauto. }
  assert (LT := ylearned_true (fun st v => F st v \/ (exists ct, v = VCommitted ct /\ newC st ct) \/ (v = VRolledBack /\ newR st))).
  assert (ET := yevidence_true). assert (ST := ysync_true).
  apply Ok_inj in W.
  eapply yinv_move with (F := F) (H := H) (w := w) (i := i) (g := g); auto.
  - intros st v Q; auto.
  - intros st q x Q; auto.
  - intros j. subst w'. reflexivity.
  - lia.
  - intros st v v' [A|[(ct & -> & A)|(-> & A)]] [B|[(ct' & -> & B)|(-> & B)]]; auto.
    + eapply (yi_fun _ _ _ I); eauto.
    + eapply newC_old; eauto.
    + eapply newR_old; eauto.
    + symmetry. eapply newC_old; eauto.
    + f_equal. destruct A as (_ & _ & _ & A), B as (_ & _ & _ & B). eapply one'; eauto.
    + destruct (newC_newR _ _ A B).
    + symmetry. eapply newR_old; eauto.
    + destruct (newC_newR _ _ B A).
  - rewrite G2. auto.
  - rewrite G2. auto.
  - subst w'. cbn [y_known]. intros st v Q. destruct heard; [|left; apply (yi_known _ _ _ I); auto].
    apply in_app_iff in Q. destruct Q as [Q|Q]; [|left; apply (yi_known _ _ _ I); auto].
    apply LT; auto.
  - intros st ct [Q|[(ct' & E & Q)|(E & _)]]; [auto| |discriminate]. inversion E; subst ct'.
    right; right. destruct Q as (Q1 & Q2 & Q3 & Q4). destruct (ready_facts st Q2) as (R1 & R2).
    split; [auto|split; [auto|split]].
    + subst w'. cbn [y_sync]. destruct Q2 as (Q2 & _). destruct heard; auto. apply in_app_iff; auto.
    + subst w'. unfold ystore. cbn [y_reg]. rewrite <- Q3, Nat.eqb_refl, G2. auto.
  - intros st [Q|[(ct' & E & Q)|(_ & Q)]]; [auto|discriminate|]. right.
    destruct Q as (Q1 & k & Q2 & [(Q3 & Q4)|(Q3 & Q4)]); [left; exists (i, k)|right]; unfold ystore; subst w'; cbn [y_reg].
    + cbn [fst snd]. rewrite Nat.eqb_refl, G2. auto.
    + rewrite Q4. cbn [fst snd]. rewrite Nat.eqb_refl, G2. auto.
  - intros st Q. left. apply (yi_all _ _ _ I). auto.
  - subst w'. cbn [y_try]. intros x Q. destruct (_ && _); auto. apply in_app_iff; auto.
  - rewrite G2. apply locks_kept; auto.
  - subst w'. cbn [y_ev]. intros st q m Q. destruct heard; auto. apply in_app_iff in Q. destruct Q as [Q|Q]; auto.
  - subst w'. cbn [y_done]. rewrite PW. intros st q Q. destruct (_ && _); auto.
  - subst w'. cbn [y_sync]. intros st Q. destruct heard; auto. apply in_app_iff; auto.
  - subst w'. cbn [y_sync]. intros st Q. destruct heard; auto. apply in_app_iff in Q. destruct Q as [Q|Q]; auto.
  - subst w'. reflexivity.
  - subst w'. cbn [y_try]. rewrite PW. intros st q Q. destruct (_ && _); auto.
Qed.


(** * Prewrites *)
Section Prewrite.
Variable p : prewrite_req.
Hypothesis RP : r = RPrewrite p.
Notation st := (pw_start p).

Lemma PRU : pw_primary p = snd (prim st) /\ (pw_secs p = map snd (secs st) \/ pw_secs p = []) /\
      pw_try1 p = false /\ NoDup (map m_key (pw_muts p)) /\
      (forall k, In k (written p) -> In (i, k) (parts st)) /\ ~ In st (y_quit w).
Proof. assert (Q := RU). rewrite RP in Q. exact Q. Qed.
Lemma PAV q : In q (parts st) -> rg_safe (y_reg w (fst q)) < st.
Proof. apply AV. rewrite RP. simpl; auto. Qed.

Lemma pw_prewritten k : prewritten s k st -> exists x, H st (i, k) = Some x.
Proof.
  intros (l & A & B & D). destruct (yi_lock _ _ _ I i k l A) as (G & _). destruct (G D) as (_ & m0 & Q & _).
  rewrite B in Q. eauto.
Qed.
Lemma pw_fresh k : fresh w i p = true -> In k (map m_key (pw_muts p)) -> H st (i, k) = None.
Proof.
  intros FR Q. apply in_map_iff in Q. destruct Q as (m & <- & Q). destruct (H st (i, m_key m)) eqn:E; auto.
  apply (yi_h _ _ _ I) in E. destruct (fresh_no _ _ _ _ FR Q). tauto.
Qed.
Lemma written_muts k : In k (written p) -> In k (map m_key (pw_muts p)).
Proof. intros Q. apply written_iff in Q. destruct Q as (m & A & <- & _). apply in_map. auto. Qed.

(** the records do not change *)
Lemma pw_records : (forall k x ct, committed s' k x ct -> committed s k x ct) /\
  (forall k x, rolled_back s' k x -> rolled_back s k x).
Proof.
  split.
  - intros k x ct C. destruct (moves_committed _ _ _ _ _ _ _ YMV C) as [Q|[Q|(p' & E & E1 & E2 & E3)]]; [auto| |].
    + rewrite RP in Q. destruct Q.
    + destruct (committed_dec s k x ct) as [D|D]; auto. exfalso.
      assert (CH : s' = s -> False) by (intros Q; rewrite Q in C; auto).
      assert (SV' := SV). rewrite RP in SV'.
      destruct (succeeded_dec a) as [SU|NS].
      * destruct bs as [|b bs'] eqn:BS; [rewrite firstn_nil in CH; auto|].
        apply E3. rewrite E2. eapply prewrite_no_1pc; [apply YOK|exact SV'|auto|apply PRU|discriminate].
      * assert (K : keyed (RPrewrite p)) by exact Logic.I.
        assert (RB := rejected_no_effect _ _ _ _ _ _ K SV' NS). apply CH. rewrite RB, firstn_nil. reflexivity.
  - intros k x C. destruct (moves_rolled _ _ _ _ _ _ YMV C) as [Q|Q]; [auto|]. rewrite RP in Q. destruct Q.
Qed.

Lemma done_parts : (forall k, In k (written p) -> exists x, H st (i, k) = Some x) ->
  forall x q, In (x, q) (prewrites i r) -> exists y, H x q = Some y.
Proof.
  intros A x q Q. rewrite RP in Q. simpl in Q. apply in_map_iff in Q. destruct Q as (k & E & Q). inversion E; subst. auto.
Qed.

Lemma pw_still w' : s' = s -> ystep c prim w (YReq i r n heard) = Ok w' ->
  (heard = true -> good a = true -> exists ct, F st (VCommitted ct) /\ (r_minc a = ct \/ r_minc a = 0)) -> yinv F H w'.
Proof.
  intros SE W CM.
  destruct ystep_facts as (g & G1 & G2 & G3 & G4 & G5 & G6).
  cbn [ystep] in W. rewrite SV in W. cbn [obind] in W. rewrite G1 in W. cbn [obind fst] in W.
  apply Ok_inj in W. rewrite SE in G2.
  destruct PRU as (R1 & R2 & R3 & R4 & R5 & R6).
  assert (AH : heard = true -> good a = true -> allH H st).
  { intros Q1 Q2. destruct (CM Q1 Q2) as (ct & Q & _). destruct (yi_fc _ _ _ I _ _ Q) as [(Q3 & _)|(Q3 & _)]; auto. apply allA_H; auto. }
  eapply yinv_move with (F := F) (H := H) (w := w) (i := i) (g := g); auto.
  - intros x v Q; auto.
  - intros x q v Q; auto.
  - intros j. subst w'. reflexivity.
  - lia.
  - apply (yi_fun _ _ _ I).
  - rewrite G2. intros k x ct. apply (yi_c _ _ _ I).
  - rewrite G2. intros k x. apply (yi_r _ _ _ I).
  - subst w'. cbn [y_known]. assert (E : ylearned prim i r a = []) by (rewrite RP; auto). rewrite E.
    intros x v Q. apply (yi_known _ _ _ I). destruct heard; auto.
  - apply (yi_all _ _ _ I).
  - subst w'. cbn [y_try]. intros x Q. destruct (_ && _); auto. apply in_app_iff; auto.
  - rewrite G2. intros k l. apply (yi_lock _ _ _ I).
  - subst w'. cbn [y_ev]. intros x q m Q. destruct heard eqn:HD; auto. apply in_app_iff in Q. destruct Q as [Q|Q]; auto. right.
    rewrite RP in Q. unfold evidence in Q. destruct (_ && _) eqn:E in Q; [|destruct Q].
    rewrite !andb_true_iff, negb_true_iff, Z.ltb_lt in E. destruct E as ((E1 & E2) & E3).
    apply in_map_iff in Q. destruct Q as (k & Q1 & Q2). inversion Q1; subst x q m.
    destruct (CM eq_refl E1) as (ct & C1 & C2). assert (r_minc a = ct) by (destruct C2; [auto|lia]). subst ct.
    assert (IP := R5 k Q2).
    destruct (yi_fc _ _ _ I _ _ C1) as [(C3 & C4)|(_ & _ & C3 & _)].
    2:{ apply inZ_iff' in C3. congruence. }
    destruct (C3 _ IP) as (m0 & C5). exists m0. split; [auto|right]. split.
    + assert (Y := maxm_ge H st _ IP). unfold hval in Y. rewrite C5 in Y. lia.
    + destruct (maxm_at H st) as [Y|(q' & Y1 & Y2)]; [lia|]. destruct (C3 _ Y1) as (m1 & C6). exists q', true. split; auto.
      unfold hval in Y2. rewrite C6 in *. f_equal. f_equal. lia.
  - subst w'. cbn [y_done]. intros x q Q. destruct (_ && _) eqn:E in Q; auto. apply andb_true_iff in E. destruct E as [E1 E2].
    apply in_app_iff in Q. destruct Q as [Q|Q]; auto. right.
    eapply done_parts; eauto. intros k IK. apply (AH E1 E2). auto.
  - subst w'. cbn [y_sync]. intros x Q. destruct heard; auto. apply in_app_iff; auto.
  - subst w'. cbn [y_sync]. intros x Q. destruct heard eqn:HD; auto. apply in_app_iff in Q. destruct Q as [Q|Q]; auto.
    exfalso. rewrite RP in Q. unfold sync_signs in Q. destruct (_ && _) eqn:E in Q; [|destruct Q].
    rewrite !andb_true_iff, negb_true_iff in E. destruct E as (((E1 & E2) & E3) & E4).
    destruct (written p) as [|k ks] eqn:WR; [discriminate|].
    assert (IK : In k (written p)) by (rewrite WR; simpl; auto).
    assert (N := pw_fresh k E4 (written_muts k IK)).
    destruct (AH eq_refl E1 (i, k)) as (y & Y); [apply R5; rewrite WR in IK; auto|congruence].
  - subst w'. reflexivity.
  - subst w'. cbn [y_try]. intros x q Q1 Q2. destruct (_ && _); auto. apply in_app_iff in Q2. destruct Q2 as [Q2|Q2]; auto.
    exfalso. rewrite RP in Q2. simpl in Q2. apply in_map_iff in Q2. destruct Q2 as (k & E & _). inversion E; subst. auto.
Qed.

Section Moved.
Variable ls : list (bytes * lock).
Hypothesis LS : forall k l, In (k, l) ls -> lock_at s' k = Some l /\ prewrite_ok s p k /\
        (exists m, In m (pw_muts p) /\ m_key m = k /\ m_op m <> OpCheckNotExists) /\
        l_ts l = pw_start p /\ is_write (l_type l) /\
        (l_async l = true -> pw_secs p <> [] /\ (k = pw_primary p -> l_secs l = pw_secs p)).
Hypothesis LN : forall k, ~ In k (map fst ls) -> lock_at s' k = lock_at s k.
Hypothesis LM : forall m, In m (pw_muts p) -> m_op m <> OpCheckNotExists -> In (m_key m) (map fst ls) \/ prewritten s (m_key m) (pw_start p).

Definition H2 : hist := fun x q =>
  if (x =? st) && Nat.eqb (fst q) i
  then match find (fun kl => beqb (fst kl) (snd q)) ls with Some kl => Some (l_async (snd kl), l_minc (snd kl)) | None => H x q end
  else H x q.

Lemma H2_at k l : In (k, l) ls -> H2 st (i, k) = Some (l_async l, l_minc l).
Proof.
  intros Q. unfold H2. cbn [fst snd]. rewrite Z.eqb_refl, Nat.eqb_refl. cbn [andb].
  destruct (find _ ls) as [[k' l']|] eqn:E.
  - apply find_some in E. destruct E as [E1 E2]. cbn [fst snd] in *. apply beqb_true in E2. subst k'.
    apply LS in Q, E1. destruct Q as (Q & _), E1 as (E1 & _). congruence.
  - exfalso. assert (Y := find_none _ _ E _ Q). cbn [fst] in Y. assert (Z : beqb k k = true) by (apply beqb_true; auto). congruence.
Qed.
Lemma H2_inv x q y : H2 x q = Some y -> H x q = Some y \/
  exists k l, x = st /\ q = (i, k) /\ In (k, l) ls /\ y = (l_async l, l_minc l).
Proof.
  unfold H2. destruct (_ && _) eqn:E; auto. apply andb_true_iff in E. destruct E as [E1 E2].
  apply Z.eqb_eq in E1. apply Nat.eqb_eq in E2.
  destruct (find _ ls) as [[k' l']|] eqn:F1; auto. intros Q. right. apply find_some in F1. cbn [fst snd] in *.
  destruct F1 as [F1 F2]. apply beqb_true in F2. exists k', l'. destruct q as [j k]. cbn [fst snd] in *. subst.
  inversion Q. auto.
Qed.
Lemma ls_written k l : In (k, l) ls -> In k (written p) /\ In (i, k) (parts st).
Proof.
  intros Q. assert (K : In k (written p)) by (apply written_iff; apply LS in Q; tauto). split; auto. apply PRU. auto.
Qed.
Lemma ls_new k l : In (k, l) ls -> H st (i, k) = None.
Proof.
  intros Q. assert (HN := hist_none k st). rewrite RP in HN. destruct (ls_written k l Q) as (Q1 & Q2).
  destruct (LS k l Q) as (_ & PO & _). assert (AL' := AL). rewrite RP in AL'. destruct AL' as (A1 & _ & A2 & A3 & _).
  destruct (prewrite_ok_facts P HP s p k YOK (gi_k _ _ _ _ (yi_reg _ _ _ I i) k) (A1 _ (or_introl eq_refl)) PO A3) as (B1 & B2 & _).
  apply HN; auto.
  - simpl; auto.
  - intros (l0 & C1 & C2 & C3). destruct PO as (_ & j & m & _ & _ & [(_ & O & _)|(_ & [O|(l1 & O & _ & O1)])]); try congruence.
    rewrite C1 in O. inversion O; subst l1. destruct C3; congruence.
Qed.
Lemma H2_ext : hext H H2.
Proof.
  intros x q y Q. destruct (H2 x q) as [z|] eqn:E.
  - destruct (H2_inv _ _ _ E) as [E1|(k & l & -> & -> & E1 & E2)]; [congruence|]. rewrite (ls_new _ _ E1) in Q. discriminate.
  - unfold H2 in E. destruct (_ && _); [|congruence]. destruct (find _ ls); congruence.
Qed.
Lemma H2_blocked x q : H x q = None -> rolled_back (ystore w q) (snd q) x \/ ydead w x q \/ In x (y_quit w) -> H2 x q = None.
Proof.
  intros Q B. destruct (H2 x q) as [z|] eqn:E; auto. exfalso.
  destruct (H2_inv _ _ _ E) as [E1|(k & l & -> & -> & E1 & E2)]; [congruence|].
  destruct (ls_written _ _ E1) as (_ & IP). destruct B as [B|[B|B]].
  - destruct (LS _ _ E1) as (_ & PO & _). apply PO. exact B.
  - unfold ydead in B. apply PAV in IP. lia.
  - apply PRU; auto.
Qed.

Lemma pw_moved w' : good a = true -> ystep c prim w (YReq i r n heard) = Ok w' ->
  (0 < r_minc a -> (forall m, In m (pw_muts p) -> m_op m <> OpCheckNotExists -> In (m_key m) (map fst ls)) /\
        (forall k l, In (k, l) ls -> l_async l = true /\ l_minc l <= r_minc a) /\
        (ls <> [] -> exists k l, In (k, l) ls /\ l_minc l = r_minc a)) ->
  (r_minc a <= 0 -> pw_muts p = [] \/ pw_secs p = [] \/ (exists m, In m (pw_muts p) /\ prewritten s (m_key m) (pw_start p)) \/
        exists k l, In (k, l) ls /\ l_async l = false) ->
  exists F', yinv F' H2 w' /\ fext F F'.
Proof.
  intros GD W LP LZ.
  destruct ystep_facts as (g & G1 & G2 & G3 & G4 & G5 & G6).
  cbn [ystep] in W. rewrite SV in W. cbn [obind] in W. rewrite G1 in W. cbn [obind fst] in W.
  apply Ok_inj in W.
  destruct PRU as (R1 & R2 & R3 & R4 & R5 & R6). destruct pw_records as (RC & RR).
  assert (HX := H2_ext).
  assert (IK : forall k, In k (map fst ls) -> exists l, In (k, l) ls).
  { intros k Q. apply in_map_iff in Q. destruct Q as ([k' l] & E & Q). cbn [fst] in E. subst. eauto. }
  assert (WD : forall k, In k (written p) -> (exists l, In (k, l) ls) \/ prewritten s k st).
  { intros k Q. apply written_iff in Q. destruct Q as (m & A & <- & B). destruct (LM m A B); auto. }
  exists (fun x v => F x v \/ (allA H2 x /\ v = VCommitted (maxm H2 x))).
  split; [|intros x v Q; auto].
  eapply yinv_move with (F := F) (H := H) (w := w) (i := i) (g := g); auto.
  - intros x v Q; auto.
  - intros j. subst w'. reflexivity.
  - lia.
  - assert (OLD : forall x v, F x v -> allA H2 x -> v = VCommitted (maxm H2 x)).
    { intros x [ct|] Q AA.
      - destruct (yi_fc _ _ _ I _ _ Q) as [(Q1 & Q2)|(_ & Q1 & _)].
        + rewrite (hext_maxm H H2); auto; [congruence|apply allA_H; auto].
        + destruct (allA_S _ _ AA (hext_someS _ _ _ HX Q1)).
      - exfalso. destruct (yi_fr _ _ _ I _ Q) as [(q & Q1 & Q2 & Q3)|(Q1 & _)].
        + destruct (AA q Q1) as (m & Y). rewrite (H2_blocked _ _ Q2 Q3) in Y. discriminate.
        + destruct (allA_S _ _ AA (hext_someS _ _ _ HX Q1)). }
    intros x v v' [A|(A & ->)] [B|(B & ->)]; auto.
    + eapply (yi_fun _ _ _ I); eauto.
    + symmetry; auto.
  - rewrite G2. intros k x ct Q. left. apply (yi_c _ _ _ I i k). apply RC; auto.
  - rewrite G2. intros k x Q. left. apply (yi_r _ _ _ I i k). apply RR; auto.
  - subst w'. cbn [y_known]. assert (E : ylearned prim i r a = []) by (rewrite RP; auto). rewrite E.
    intros x v Q. left. apply (yi_known _ _ _ I). destruct heard; auto.
  - intros x ct [Q|(Q1 & Q2)]; auto. inversion Q2. auto.
  - intros x [Q|(Q1 & Q2)]; auto. discriminate.
  - apply H2_blocked.
  - intros x q y Q. destruct (H2_inv _ _ _ Q) as [Q1|(k & l & -> & -> & Q1 & Q2)]; auto. right.
    destruct (ls_written _ _ Q1) as (Q3 & Q4). split; [auto|split].
    + subst w'. cbn [y_try]. rewrite GD. cbn [negb]. rewrite andb_false_r. apply in_app_iff. left. rewrite RP. simpl.
      apply in_map_iff. eauto.
    + subst w'. unfold ystore. cbn [y_reg fst snd]. rewrite Nat.eqb_refl, G2. left. destruct (LS _ _ Q1) as (B1 & _ & _ & B2 & B3 & _).
      exists l. auto.
  - subst w'. cbn [y_try]. intros x Q. destruct (_ && _); auto. apply in_app_iff; auto.
  - rewrite G2. intros k l Q. destruct (in_dec (list_eq_dec Z.eq_dec) k (map fst ls)) as [IN|NI].
    + destruct (IK k IN) as (l1 & IN1). destruct (LS _ _ IN1) as (B1 & _ & _ & B2 & B3 & B4).
      rewrite B1 in Q. inversion Q; subst l1. split; [|split].
      * intros _. rewrite B2. split; [eapply ls_written; eauto|]. exists (l_minc l). rewrite (H2_at _ _ IN1). auto.
      * intros Z. destruct B3; congruence.
      * intros LA PE. rewrite B2 in *. destruct (B4 LA) as (B5 & B6). destruct R2 as [R2|R2]; [|tauto].
        rewrite <- R2. apply B6. rewrite R1, <- PE. auto.
    + rewrite LN in Q by auto. destruct (yi_lock _ _ _ I i k l Q) as (B1 & B2 & B3). split; [|split; auto].
      intros Z. destruct (B1 Z) as (B4 & m0 & B5 & B6). split; auto. exists m0. split; [auto|].
      destruct B6; [left; eapply hext_someS; eauto|auto].
  - subst w'. cbn [y_ev]. intros x q m Q. destruct heard eqn:HD; auto. apply in_app_iff in Q. destruct Q as [Q|Q]; auto. right.
    rewrite RP in Q. unfold evidence in Q. destruct (_ && _) eqn:E in Q; [|destruct Q].
    rewrite !andb_true_iff, negb_true_iff, Z.ltb_lt in E. destruct E as ((E1 & E2) & E3).
    apply in_map_iff in Q. destruct Q as (k & Q1 & Q2). inversion Q1; subst x q m.
    destruct (LP E2) as (L1 & L2 & L3). assert (KL : exists l, In (k, l) ls).
    { apply written_iff in Q2. destruct Q2 as (m & A & <- & B). apply IK. auto. }
    destruct KL as (l & KL). destruct (L2 _ _ KL) as (L4 & L5).
    exists (l_minc l). rewrite (H2_at _ _ KL), L4. split; [auto|right]. split; [auto|].
    destruct L3 as (k1 & l1 & L6 & L7); [intros Z; rewrite Z in KL; destruct KL|].
    exists (i, k1), (l_async l1). rewrite (H2_at _ _ L6), L7. split; auto. eapply ls_written; eauto.
  - subst w'. cbn [y_done]. intros x q Q. destruct (_ && _) eqn:E in Q; auto.
    apply in_app_iff in Q. destruct Q as [Q|Q]; auto. right.
    rewrite RP in Q. simpl in Q. apply in_map_iff in Q. destruct Q as (k & Q1 & Q2). inversion Q1; subst x q.
    destruct (WD k Q2) as [(l & Q)|Q]; [rewrite (H2_at _ _ Q); eauto|].
    destruct (pw_prewritten _ Q) as (y & Y). eauto.
  - subst w'. cbn [y_sync]. intros x Q. destruct heard; auto. apply in_app_iff; auto.
  - subst w'. cbn [y_sync]. intros x Q. destruct heard eqn:HD; auto. apply in_app_iff in Q. destruct Q as [Q|Q]; auto. right.
    rewrite RP in Q. unfold sync_signs in Q. destruct (_ && _) eqn:E in Q; [|destruct Q]. destruct Q as [<-|[]].
    rewrite !andb_true_iff, negb_true_iff, Z.leb_le in E. destruct E as (((E1 & E2) & E3) & E4).
    assert (SS : forall k l, In (k, l) ls -> l_async l = false -> someS H2 st).
    { intros k l Q1 Q2. exists (i, k), (l_minc l). rewrite (H2_at _ _ Q1), Q2. split; auto. eapply ls_written; eauto. }
    destruct (written p) as [|k ks] eqn:WR; [discriminate|].
    assert (IKW : In k (written p)) by (rewrite WR; simpl; auto).
    assert (N := pw_fresh k E4 (written_muts k IKW)).
    destruct (LZ E2) as [Z|[Z|[(m & Z1 & Z2)|(k1 & l1 & Z1 & Z2)]]].
    + unfold written in IKW. rewrite Z in IKW. destruct IKW.
    + destruct (WD k (or_introl eq_refl)) as [(l & Q)|Q].
      * apply (SS k l Q). destruct (l_async l) eqn:LA; auto. destruct (LS _ _ Q) as (_ & _ & _ & _ & _ & Q1).
        destruct (Q1 LA). tauto.
      * destruct (pw_prewritten _ Q) as (y & Y). congruence.
    + destruct (pw_prewritten _ Z2) as (y & Y). rewrite (pw_fresh (m_key m) E4) in Y; [discriminate|apply in_map; auto].
    + eauto.
  - subst w'. reflexivity.
  - subst w'. cbn [y_try]. intros x q Q1 Q2. destruct (_ && _); auto. apply in_app_iff in Q2. destruct Q2 as [Q2|Q2]; auto.
    exfalso. rewrite RP in Q2. simpl in Q2. apply in_map_iff in Q2. destruct Q2 as (k & E & _). inversion E; subst. auto.
Qed.
End Moved.

Lemma yreq_inv_prewrite w' : ystep c prim w (YReq i r n heard) = Ok w' ->
  exists F' H', yinv F' H' w' /\ fext F F' /\ hext H H'.
Proof.
  intros W. assert (SV' := SV). rewrite RP in SV'. unfold serve in SV'.
  assert (REFL : yinv F H w' -> exists F' H', yinv F' H' w' /\ fext F F' /\ hext H H').
  { intros Q. exists F, H. split; [auto|split; [intros ? ? ?; auto|intros ? ? ? ?; auto]]. }
  destruct PRU as (R1 & R2 & R3 & R4 & R5 & R6).
  destruct (succeeded_dec a) as [SU|NS].
  2:{ apply REFL. apply pw_still; auto.
      - assert (K : keyed (RPrewrite p)) by exact Logic.I.
        assert (SV2 := SV). rewrite RP in SV2.
        assert (RB := rejected_no_effect _ _ _ _ _ _ K SV2 NS). rewrite RB, firstn_nil. reflexivity.
      - intros _ Q. apply good_iff in Q. tauto. }
  destruct (prewrite_async _ _ _ _ _ _ YOK SV' SU R3 R4) as (P0 & [(B & m & ct & C1 & C2 & C3)|(ls & L1 & L2 & L3 & L4 & L5)]).
  { intros m l0 _ Q1 Q2. destruct (yi_lock _ _ _ I i _ _ Q1) as (_ & Q & _). auto. }
  - apply REFL. apply pw_still; auto.
    + rewrite B, firstn_nil. reflexivity.
    + intros _ _. exists ct. split; auto. apply (yi_c _ _ _ I i (m_key m)). auto.
  - assert (ALL : s' = apply_batches s bs \/ (s' = s /\ heard = false)).
    { assert (YH := YHD). destruct heard eqn:HD; [left; apply YH; auto|].
      assert (SV2 := SV). rewrite RP in SV2.
      destruct (all_or_nothing c s _ (RPrewrite p) a bs n Logic.I SV2) as [Q1|Q1]; auto. }
    destruct ALL as [ALL|(ALL & NH)].
    + rewrite <- ALL in *. destruct (pw_moved ls) with (w' := w') as (F' & Q1 & Q2); auto.
      { apply good_iff; auto. }
      exists F', (H2 ls). split; [auto|split; [auto|apply H2_ext; auto]].
    + apply REFL. apply pw_still; auto. congruence.
Qed.
End Prewrite.

End Request.

Lemma ystep_inv F H w e w' : yinv F H w -> yobeys c P prim secs w e -> ystep c prim w e = Ok w' ->
  exists F' H', yinv F' H' w' /\ fext F F' /\ hext H H'.
Proof.
  intros I O S. destruct e as [st|i r n heard|i e].
  - cbn [ystep] in S. apply Ok_inj in S. subst w'. destruct O as [(q & O1 & O2) _].
    assert (HN : H st q = None).
    { destruct (H st q) eqn:E; auto. apply (yi_h _ _ _ I) in E. tauto. }
    assert (NC : forall ct, ~ F st (VCommitted ct)).
    { intros ct Q. assert (AH : allH H st) by (destruct (yi_fc _ _ _ I _ _ Q) as [(Q1 & _)|(Q1 & _)]; [apply allA_H|]; auto).
      destruct (AH q O1) as (x & Y). congruence. }
    exists (fun x v => F x v \/ (x = st /\ v = VRolledBack)), H.
    split; [|split; [intros ? ? ?; auto|intros ? ? ? ?; auto]].
    constructor; cbn [y_reg y_known y_try y_done y_ev y_sync y_quit].
    + apply I.
    + intros x v v' [A|(-> & ->)] [B|(E & ->)]; auto.
      * eapply (yi_fun _ _ _ I); eauto.
      * subst x. destruct v as [ct|]; auto. destruct (NC ct A).
      * destruct v' as [ct|]; auto. destruct (NC ct B).
    + intros i k x ct Q. left. eapply (yi_c _ _ _ I); eauto.
    + intros i k x Q. left. eapply (yi_r _ _ _ I); eauto.
    + intros x v Q. left. eapply (yi_known _ _ _ I); eauto.
    + intros x ct [Q|(_ & Q)]; [|discriminate]. apply (yi_fc _ _ _ I); auto.
    + intros x [Q|(-> & _)].
      * destruct (yi_fr _ _ _ I x Q) as [(q' & A1 & A2 & A3)|A]; [left; exists q'|right; auto].
        split; [auto|split; [auto|]]. simpl. tauto.
      * left. exists q. split; [exact O1|split; [exact HN|right; right; left; reflexivity]].
    + intros x Q. left. apply (yi_all _ _ _ I). auto.
    + apply (yi_h _ _ _ I).
    + apply (yi_lock _ _ _ I).
    + apply (yi_ev _ _ _ I).
    + apply (yi_done _ _ _ I).
    + apply (yi_sync _ _ _ I).
    + intros x [->|Q]; [split; [auto|eauto]|]. destruct (yi_quit _ _ _ I x Q) as (A & B). auto.
  - destruct O as [(O1 & O2 & O4) O3].
    destruct (serve c (y_reg w i) r) as [[a bs]|] eqn:SV.
    2:{ cbn [ystep] in S. rewrite SV in S. discriminate. }
    assert (D : (exists p, r = RPrewrite p) \/ forall p, r <> RPrewrite p) by (destruct r; eauto; right; congruence).
    destruct D as [(p & E)|D].
    + eapply yreq_inv_prewrite with (a := a) (bs := bs) (p := p); eauto.
    + destruct (yreq_inv_other F H w i r n heard a bs) with (w' := w') as (F' & Q1 & Q2); eauto.
      exists F', H. split; [auto|split; [auto|intros ? ? ? ?; auto]].
  - cbn [ystep] in S. destruct (step c (y_reg w i) e) as [g|] eqn:ST; [|discriminate]. cbn [obind] in S.
    apply Ok_inj in S. subst w'. exists F, H. split; [|split; [intros ? ? ?; auto|intros ? ? ? ?; auto]].
    eapply yother_inv; eauto. apply O.
Qed.

Lemma yrun_inv : forall w es w', yrun c P prim secs w es w' -> forall F H, yinv F H w ->
  exists F' H', yinv F' H' w' /\ fext F F' /\ hext H H'.
Proof.
  intros w es w' R. induction R as [w|w e w1 es w2 O S R IH]; intros F H I.
  - exists F, H. split; [auto|split; [intros ? ? ?; auto|intros ? ? ? ?; auto]].
  - destruct (ystep_inv _ _ _ _ _ I O S) as (F1 & H1 & I1 & X1 & Y1). destruct (IH F1 H1 I1) as (F2 & H2 & I2 & X2 & Y2).
    exists F2, H2. split; auto. split; [intros st v Q; auto|intros st q x Q; auto].
Qed.
End World.

(** * The claims *)
Lemma async_runs c P prim secs es1 w1 es2 w2 : plan_ok P ->
  yrun c P prim secs init_yworld es1 w1 -> yrun c P prim secs w1 es2 w2 ->
  exists F1 H1 F2 H2, yinv P prim secs F1 H1 w1 /\ yinv P prim secs F2 H2 w2 /\ fext F1 F2 /\ hext H1 H2.
Proof.
  intros HP R1 R2.
  destruct (yrun_inv c P prim secs HP _ _ _ R1 _ _ (yinv_init P prim secs)) as (F1 & H1 & I1 & _).
  destruct (yrun_inv c P prim secs HP _ _ _ R2 _ _ I1) as (F2 & H2' & I2 & X & Y).
  exists F1, H1, F2, H2'. auto.
Qed.

Lemma async_atomic c P prim secs es1 w1 es2 w2 : plan_ok P ->
  yrun c P prim secs init_yworld es1 w1 -> yrun c P prim secs w1 es2 w2 ->
  forall i1 k1 i2 k2 st,
  (forall ct, ycommitted w1 i1 k1 st ct -> ~ yrolled_back w2 i2 k2 st) /\
  (forall ct, yrolled_back w1 i1 k1 st -> ~ ycommitted w2 i2 k2 st ct) /\
  (forall c1 c2, ycommitted w1 i1 k1 st c1 -> ycommitted w2 i2 k2 st c2 -> c1 = c2).
Proof.
  intros HP R1 R2 i1 k1 i2 k2 st. destruct (async_runs _ _ _ _ _ _ _ _ HP R1 R2) as (F1 & H1 & F2 & H2' & I1 & I2 & X & Y).
  split; [|split].
  - intros ct A B. apply (yi_c _ _ _ _ _ _ I1) in A. apply (yi_r _ _ _ _ _ _ I2) in B. apply X in A.
    assert (Q := yi_fun _ _ _ _ _ _ I2 _ _ _ A B). discriminate.
  - intros ct A B. apply (yi_r _ _ _ _ _ _ I1) in A. apply (yi_c _ _ _ _ _ _ I2) in B. apply X in A.
    assert (Q := yi_fun _ _ _ _ _ _ I2 _ _ _ A B). discriminate.
  - intros ca cb A B. apply (yi_c _ _ _ _ _ _ I1) in A. apply (yi_c _ _ _ _ _ _ I2) in B. apply X in A.
    assert (Q := yi_fun _ _ _ _ _ _ I2 _ _ _ A B). congruence.
Qed.

(** once decided for a commit timestamp, always *)
Lemma async_fate_commit P prim secs F H w st ct : yinv P prim secs F H w -> plan_ok P -> F st (VCommitted ct) ->
  (forall i k ct', ycommitted w i k st ct' -> ct' = ct) /\ (forall i k, ~ yrolled_back w i k st) /\
  (forall i k, In (i, k) (parts prim secs st) ->
     prewritten (rg_store (y_reg w i)) k st \/ ycommitted w i k st ct \/ st <= rg_safe (y_reg w i)).
Proof.
  intros I HP Q.
  assert (A1 : forall i k ct', ycommitted w i k st ct' -> ct' = ct).
  { intros i k ct' C. apply (yi_c _ _ _ _ _ _ I) in C. assert (E := yi_fun _ _ _ _ _ _ I _ _ _ C Q). congruence. }
  assert (A2 : forall i k, ~ yrolled_back w i k st).
  { intros i k C. apply (yi_r _ _ _ _ _ _ I) in C. assert (E := yi_fun _ _ _ _ _ _ I _ _ _ C Q). congruence. }
  split; [auto|split; [auto|]]. intros i k IP.
  assert (AH : allH prim secs H st).
  { destruct (yi_fc _ _ _ _ _ _ I _ _ Q) as [(Q1 & _)|(Q1 & _)]; auto. apply allA_H; auto. }
  destruct (AH _ IP) as (x & Y). destruct (yi_h _ _ _ _ _ _ I _ _ _ Y) as (_ & _ & [[B|[(ct' & B)|B]]|B]); auto.
  - unfold ystore in B. cbn [fst snd] in B. right; left. assert (E := A1 i k ct' B). subst. exact B.
  - destruct (A2 i k B).
Qed.

Lemma async_concluded c P prim secs es1 w1 es2 w2 : plan_ok P ->
  yrun c P prim secs init_yworld es1 w1 -> yrun c P prim secs w1 es2 w2 ->
  forall st ct, concluded prim secs w1 st ct ->
  (forall i k ct', ycommitted w2 i k st ct' -> ct' = ct) /\ (forall i k, ~ yrolled_back w2 i k st) /\
  (forall i k, In (i, k) (parts prim secs st) ->
     prewritten (rg_store (y_reg w2 i)) k st \/ ycommitted w2 i k st ct \/ st <= rg_safe (y_reg w2 i)).
Proof.
  intros HP R1 R2 st ct C. destruct (async_runs _ _ _ _ _ _ _ _ HP R1 R2) as (F1 & H1 & F2 & H2' & I1 & I2 & X & Y).
  destruct (concluded_fate _ _ _ _ _ _ _ _ I1 C) as (Q & _). eapply async_fate_commit; eauto.
Qed.

Lemma async_decided c P prim secs es1 w1 es2 w2 : plan_ok P ->
  yrun c P prim secs init_yworld es1 w1 -> yrun c P prim secs w1 es2 w2 ->
  forall st ls,
  Forall2 (fun q l => lock_at (rg_store (y_reg w1 (fst q))) (snd q) = Some l /\ l_ts l = st /\ l_async l = true)
    (parts prim secs st) ls ->
  let ct := fold_right Z.max 0 (map l_minc ls) in
  (forall i k ct', ycommitted w2 i k st ct' -> ct' = ct) /\ (forall i k, ~ yrolled_back w2 i k st) /\
  (forall i k, In (i, k) (parts prim secs st) ->
     prewritten (rg_store (y_reg w2 i)) k st \/ ycommitted w2 i k st ct \/ st <= rg_safe (y_reg w2 i)).
Proof.
  intros HP R1 R2 st ls A ct. destruct (async_runs _ _ _ _ _ _ _ _ HP R1 R2) as (F1 & H1 & F2 & H2' & I1 & I2 & X & Y).
  assert (G : forall q l, lock_at (rg_store (y_reg w1 (fst q))) (snd q) = Some l /\ l_ts l = st /\ l_async l = true ->
            exists m0, H1 st q = Some (true, m0) /\ (someS prim secs H1 st \/ l_minc l = m0)).
  { intros [i k] l (L1 & L2 & L3). cbn [fst snd] in *. destruct (yi_lock _ _ _ _ _ _ I1 _ _ _ L1) as (G1 & G2 & _).
    assert (IW : is_write (l_type l)).
    { destruct (ok_lock _ (gi_ok _ _ _ _ (yi_reg _ _ _ _ _ _ I1 i)) _ _ L1) as (_ & _ & _ & [Z|[Z|Z]] & _); unfold is_write; auto.
      rewrite G2 in L3; congruence. }
    destruct (G1 IW) as (_ & m0 & G4 & G5). rewrite L2, L3 in *. eauto. }
  assert (AA : allA prim secs H1 st).
  { intros q B. destruct (Forall2_in_l _ _ _ _ A B) as (l & Q). destruct (G _ _ Q) as (m0 & Q1 & _). eauto. }
  assert (E : ct = maxm prim secs H1 st).
  { unfold ct, maxm. f_equal. clear ct.
    assert (G' : forall q l, lock_at (rg_store (y_reg w1 (fst q))) (snd q) = Some l /\ l_ts l = st /\ l_async l = true -> l_minc l = hval H1 st q).
    { intros q l Q. destruct (G _ _ Q) as (m0 & Q1 & [Q2|Q2]); [destruct (allA_S _ _ _ _ AA Q2)|]. unfold hval. rewrite Q1. auto. }
    clear -A G'. induction A as [|q l qs ls' E A IH]; cbn [map]; auto. f_equal; auto. }
  assert (Q := yi_all _ _ _ _ _ _ I1 st AA). rewrite <- E in Q. apply X in Q. eapply async_fate_commit; eauto.
Qed.

Lemma async_verdict c P prim secs es1 w1 es2 w2 : plan_ok P ->
  yrun c P prim secs init_yworld es1 w1 -> yrun c P prim secs w1 es2 w2 ->
  forall st v, In (st, v) (y_known w1) -> forall i k,
  (forall ct, ycommitted w2 i k st ct -> v = VCommitted ct) /\
  (yrolled_back w2 i k st -> v = VRolledBack).
Proof.
  intros HP R1 R2 st v K i k. destruct (async_runs _ _ _ _ _ _ _ _ HP R1 R2) as (F1 & H1 & F2 & H2' & I1 & I2 & X & Y).
  apply (yi_known _ _ _ _ _ _ I1) in K. apply X in K. split.
  - intros ct A. apply (yi_c _ _ _ _ _ _ I2) in A. eapply (yi_fun _ _ _ _ _ _ I2); eauto.
  - intros A. apply (yi_r _ _ _ _ _ _ I2) in A. eapply (yi_fun _ _ _ _ _ _ I2); eauto.
Qed.

(** locks lead to the other keys *)
Definition ynamed (prim : Z -> part) (w : yworld) : Prop :=
  forall i k l, lock_at (rg_store (y_reg w i)) k = Some l -> l_primary l = snd (prim (l_ts l)).
Lemma ystep_named c P prim secs F H w e w' : yinv P prim secs F H w -> ynamed prim w ->
  yobeys c P prim secs w e -> ystep c prim w e = Ok w' -> ynamed prim w'.
Proof.
  intros I N O S. destruct e as [st|i r n heard|i e]; cbn [ystep] in S.
  - apply Ok_inj in S. subst w'. exact N.
  - destruct O as [(O1 & O2 & O4) O3].
    destruct (serve c (y_reg w i) r) as [[a bs]|] eqn:SV; [|discriminate].
    cbn [obind] in S. cbn [step] in S. rewrite SV in S. cbn [obind fst snd] in S. apply Ok_inj in S. subst w'.
    intros j k l. cbn [y_reg]. destruct (Nat.eqb j i); [|apply N]. cbn [rg_store with_store bump].
    apply (moves_primary prim r a).
    + intros p ->. apply O4.
    + intros p ->. apply O4.
    + apply moves_firstn. eapply serve_moves; eauto. apply (yi_reg _ _ _ _ _ _ I i).
    + apply N.
  - destruct O as [O _]. destruct (step c (y_reg w i) e) as [g|] eqn:ST; [|discriminate]. cbn [obind] in S.
    apply Ok_inj in S. subst w'. intros j k l. cbn [y_reg set_yreg]. destruct (Nat.eqb j i); [|apply N].
    destruct e as [r n|ts| |sp|st ct|n]; cbn [step] in ST; try (destruct O; fail);
      try (apply Ok_inj in ST; subst g; apply N).
    destruct (nth_error (rg_pool (y_reg w i)) n) as [b|] eqn:E; apply Ok_inj in ST; subst g; [|apply N].
    cbn [rg_store]. apply nth_error_In in E. assert (PS := pool_sub P _ _ _ b (yi_reg _ _ _ _ _ _ I i) E).
    intros Q. apply (N i k l). rewrite <- Q. symmetry. apply PS.
Qed.

Lemma async_locks c P prim secs es w : plan_ok P -> yrun c P prim secs init_yworld es w ->
  forall i k l, lock_at (rg_store (y_reg w i)) k = Some l ->
  l_primary l = snd (prim (l_ts l)) /\
  (l_async l = true -> In (i, k) (parts prim secs (l_ts l)) /\
     ((i, k) = prim (l_ts l) -> l_secs l = map snd (secs (l_ts l)))).
Proof.
  intros HP R.
  assert (G : forall w0 es w1, yrun c P prim secs w0 es w1 -> forall F H, yinv P prim secs F H w0 -> ynamed prim w0 ->
     ynamed prim w1 /\ exists F' H', yinv P prim secs F' H' w1).
  { intros w0 es0 w1 R0. induction R0 as [w0|w0 e w1 es0 w2 O S R0 IH]; intros F H I N; [split; eauto|].
    destruct (ystep_inv c P prim secs HP _ _ _ _ _ I O S) as (F1 & H1 & I1 & _).
    exact (IH F1 H1 I1 (ystep_named c P prim secs F H w0 e w1 I N O S)). }
  destruct (G _ _ _ R _ _ (yinv_init P prim secs)) as (N & F & H & I). { intros i k l Q. discriminate. }
  intros i k l L. split; [apply (N i k l L)|]. intros LA.
  destruct (yi_lock _ _ _ _ _ _ I _ _ _ L) as (G1 & G2 & G3). split; auto.
  assert (IW : is_write (l_type l)).
  { destruct (ok_lock _ (gi_ok _ _ _ _ (yi_reg _ _ _ _ _ _ I i)) _ _ L) as (_ & _ & _ & [Z|[Z|Z]] & _); unfold is_write; auto.
    rewrite G2 in LA; congruence. }
  apply G1; auto.
Qed.
