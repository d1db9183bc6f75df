(** The transactional iterator: it visits every key with a lock or a record once, in order. *)
From Coq Require Import ZArith List Lia Bool Sorted.
From Verif Require Import Bytes SMap Outcome TxnModel TxnSpec TxnBase TxnReadModel TxnReadSpec TxnReadProofs.
Import ListNotations.
Open Scope Z_scope.

Lemma bltb_iff a b : bltb a b = true <-> blt a b.
Proof. unfold bltb, blt. destruct (bcmp a b); split; congruence. Qed.
Lemma bltb_niff a b : bltb a b = false <-> ~ blt a b.
Proof. unfold bltb, blt. destruct (bcmp a b); split; congruence. Qed.
Lemma bleb_iff a b : bleb a b = true <-> ble a b.
Proof. unfold bleb, ble. destruct (bcmp a b); split; congruence. Qed.
Lemma bleb_niff a b : bleb a b = false <-> blt b a.
Proof. unfold bleb, blt. rewrite (bcmp_opp a b). destruct (bcmp a b); simpl; split; congruence. Qed.
Lemma blt_irrefl a : ~ blt a a.
Proof. unfold blt. rewrite bcmp_refl. discriminate. Qed.
Lemma blt_trans a b c : blt a b -> blt b c -> blt a c.
Proof. apply bcmp_trans. Qed.
Lemma ble_refl a : ble a a.
Proof. unfold ble. rewrite bcmp_refl. discriminate. Qed.
Lemma ble_cases a b : ble a b <-> blt a b \/ a = b.
Proof.
  unfold ble, blt. rewrite <- (bcmp_eq a b). destruct (bcmp a b); split; intros A; try tauto; try congruence; try (destruct A; congruence).
Qed.
Lemma blt_not_le a b : blt a b -> ~ ble b a.
Proof. intros A B. apply ble_cases in B. destruct B as [B|B]; [|subst; eapply blt_irrefl; eauto]. eapply blt_irrefl, blt_trans; eauto. Qed.
Lemma not_le_blt a b : ~ ble a b -> blt b a.
Proof. intros A. apply bleb_niff. destruct (bleb a b) eqn:E; auto. apply bleb_iff in E. tauto. Qed.
Lemma ble_blt a b c : ble a b -> blt b c -> blt a c.
Proof. intros A B. apply ble_cases in A. destruct A; [eapply blt_trans; eauto|subst; auto]. Qed.
Lemma blt_ble a b c : blt a b -> ble b c -> blt a c.
Proof. intros A B. apply ble_cases in B. destruct B; [eapply blt_trans; eauto|subst; auto]. Qed.
Lemma blt_le a b : blt a b -> ble a b.
Proof. unfold blt, ble. congruence. Qed.
Lemma ble_trans a b c : ble a b -> ble b c -> ble a c.
Proof. intros A B. apply ble_cases in A. destruct A; [apply blt_le; eapply blt_ble; eauto|subst; auto]. Qed.
Lemma blt_nil k : k <> [] -> blt [] k.
Proof. destruct k; [congruence|reflexivity]. Qed.
Lemma ble_nil_inv a b : ble a b -> a <> [] -> b <> [].
Proof. intros A N E. subst. destruct a; [congruence|]. apply A. reflexivity. Qed.
Lemma blt_neq a b : blt a b -> a <> b.
Proof. intros A E. subst. eapply blt_irrefl; eauto. Qed.

Section Walk.
Variable i : iso.
Variable ts : Z.
Variable rs : list Z.
Variable LK : bytes -> option lock.
Variable VS : bytes -> list (Z * wrec).
Variable V : bytes -> bytes.
Variable ALL : list bytes.

Definition lk1 (k : bytes) : list (bytes * lock) := match LK k with Some l => [(k, l)] | None => [] end.
Definition ws1 (k : bytes) : list (bytes * Z * wrec) := map (fun v => ((k, fst v), snd v)) (VS k).
Definition locks_of (R : list bytes) := flat_map lk1 R.
Definition writes_of (R : list bytes) := flat_map ws1 R.
Definition lhd (ls : list (bytes * lock)) : bytes := match ls with (k, _) :: _ => k | [] => [] end.

(** every key is non-empty and there *)
Definition there (k : bytes) : Prop := k <> [] /\ (LK k <> None \/ VS k <> []) /\ (forall t w, In (t, w) (VS k) -> three w).
Definition good (R : list bytes) : Prop := StronglySorted blt R /\ Forall there R /\ incl R ALL.
Definition vals (ds : smap (bytes * Z) bytes) : Prop :=
  forall k, In k ALL -> rv ds i ts k (VS k) = Some (V k).

Definition wk_ok (wk : bytes) (ws : list (bytes * Z * wrec)) (stale : bytes -> Prop) : Prop :=
  match ws with ((k, _), _) :: _ => wk = k | [] => stale wk end.

Definition Pre (x : tit) (R : list bytes) : Prop :=
  it_locks x = locks_of R /\ it_writes x = writes_of R /\ it_lkey x = lhd (locks_of R) /\
  wk_ok (it_wkey x) (writes_of R) (fun w => Forall (blt w) R) /\ it_value x = [] /\ it_conf x = None.

Definition Post (x : tit) (k : bytes) (R : list bytes) : Prop :=
  it_key x = k /\ it_locks x = locks_of (k :: R) /\ it_writes x = writes_of R /\
  it_lkey x = lhd (locks_of (k :: R)) /\ wk_ok (it_wkey x) (writes_of R) (fun w => ble w k) /\ it_conf x = None.

Lemma good_cons k R : good (k :: R) <-> there k /\ Forall (blt k) R /\ good R /\ In k ALL.
Proof.
  unfold good. split.
  - intros (S & F & I0). inversion S; inversion F; subst. split; [auto|split; [auto|split; [split; [auto|split; [auto|]]|]]].
    + intros z Iz. apply I0. right; auto.
    + apply I0. left; auto.
  - intros (T & F & (S & G & I0) & IK). split; [constructor; auto|split; [constructor; auto|]].
    intros z [<-|Iz]; auto.
Qed.

Lemma locks_of_In R k l : In (k, l) (locks_of R) <-> In k R /\ LK k = Some l.
Proof.
  unfold locks_of. rewrite in_flat_map. split.
  - intros (k0 & I & L). unfold lk1 in L. destruct (LK k0) eqn:E; [|destruct L]. destruct L as [L|[]]. inversion L; subst. auto.
  - intros [I L]. exists k. split; auto. unfold lk1. rewrite L. left; auto.
Qed.
Lemma writes_of_In R k t w : In ((k, t), w) (writes_of R) <-> In k R /\ In (t, w) (VS k).
Proof.
  unfold writes_of. rewrite in_flat_map. split.
  - intros (k0 & I & L). unfold ws1 in L. apply in_map_iff in L. destruct L as ([t0 w0] & E & L). simpl in E. inversion E; subst. auto.
  - intros [I L]. exists k. split; auto. unfold ws1. apply in_map_iff. exists (t, w). auto.
Qed.
Lemma lhd_In ls : ls = [] \/ exists l, In (lhd ls, l) ls.
Proof. destruct ls as [|[k l] r]; [auto|right; exists l; left; auto]. Qed.

Lemma both_nil R : Forall there R -> locks_of R = [] -> writes_of R = [] -> R = [].
Proof.
  intros F A B. destruct R as [|k R]; auto. exfalso. inversion F as [|? ? (N & [T|T] & _) F2]; subst.
  - destruct (LK k) as [l|] eqn:E; [|congruence]. assert (In (k, l) (locks_of (k :: R))) by (apply locks_of_In; simpl; auto). rewrite A in H; destruct H.
  - destruct (VS k) as [|[t w] v] eqn:E; [congruence|]. assert (In ((k, t), w) (writes_of (k :: R))) by (apply writes_of_In; rewrite E; simpl; auto).
    rewrite B in H; destruct H.
Qed.

Lemma lhd_gt k R : Forall (blt k) R -> locks_of R = [] \/ blt k (lhd (locks_of R)).
Proof.
  intros F. destruct (lhd_In (locks_of R)) as [E|[l L]]; auto. right. apply locks_of_In in L. rewrite Forall_forall in F. apply F. tauto.
Qed.
Lemma wk_gt k R wk st : Forall (blt k) R -> wk_ok wk (writes_of R) st -> writes_of R = [] /\ st wk \/ writes_of R <> [] /\ blt k wk.
Proof.
  intros F H. unfold wk_ok in H. destruct (writes_of R) as [|[[k0 t] w] r] eqn:E; [left; auto|right; split; [discriminate|]].
  subst wk. rewrite Forall_forall in F. apply F. assert (I : In ((k0, t), w) (writes_of R)) by (rewrite E; left; auto). apply writes_of_In in I. tauto.
Qed.

(** the write iterator *)
Lemma goto_next_spec k R : Forall (blt k) R -> forall vs e last,
  goto_next k (e :: map (fun v : Z * wrec => ((k, fst v), snd v)) vs ++ writes_of R) last =
  (writes_of R, match writes_of R with ((k0, _), _) :: _ => k0 | [] => match vs with [] => last | _ => k end end).
Proof.
  intros F. induction vs as [|[t w] vs IH]; intros e last; cbn [goto_next map app].
  - destruct (writes_of R) as [|[[k0 t] w] r] eqn:E; auto.
    assert (blt k k0).
    { rewrite Forall_forall in F. apply F. assert (I : In ((k0, t), w) (writes_of R)) by (rewrite E; left; auto). apply writes_of_In in I. tauto. }
    apply bltb_iff in H. rewrite H. auto.
  - cbn [fst snd]. destruct (bltb k k) eqn:B; [apply bltb_iff, blt_irrefl in B; destruct B|].
    change (goto_next k ((k, t, w) :: map (fun v : Z * wrec => (k, fst v, snd v)) vs ++ writes_of R) k = (writes_of R, match writes_of R with ((k0, _), _) :: _ => k0 | [] => k end)).
    rewrite IH. destruct (writes_of R) as [|[[k0 ?] ?] ?]; auto. destruct vs; auto.
Qed.

Lemma user_value_spec ds k R : Forall (blt k) R -> forall vs last found value,
  (forall t w, In (t, w) vs -> three w) -> rv ds i ts k vs <> None ->
  exists f v, user_value ds i ts k (map (fun v : Z * wrec => ((k, fst v), snd v)) vs ++ writes_of R) last found value =
    Some (f, v, writes_of R, match writes_of R with ((k0, _), _) :: _ => k0 | [] => match vs with [] => last | _ => k end end) /\
  (vs <> [] -> f = true /\ rv ds i ts k vs = Some v) /\ (vs = [] -> f = found /\ v = value).
Proof.
  intros F. induction vs as [|[t w] vs IH]; intros last found value T N.
  - cbn [map app]. exists found, value. split; [|split; [congruence|auto]].
    destruct (writes_of R) as [|[[k0 t] w] r] eqn:E; [reflexivity|]. cbn [user_value].
    assert (B : bltb k k0 = true).
    { apply bltb_iff. rewrite Forall_forall in F. apply F. assert (I : In ((k0, t), w) (writes_of R)) by (rewrite E; left; auto). apply writes_of_In in I. tauto. }
    rewrite B. auto.
  - cbn [map app user_value fst snd rv] in *. destruct (bltb k k) eqn:B; [apply bltb_iff, blt_irrefl in B; destruct B|].
    assert (T2 := fun t w I => T t w (or_intror I)).
    assert (REC : rv ds i ts k vs <> None ->
      exists f v, user_value ds i ts k (map (fun v : Z * wrec => ((k, fst v), snd v)) vs ++ writes_of R) k true [] =
        Some (f, v, writes_of R, match writes_of R with ((k0, _), _) :: _ => k0 | [] => k end) /\ f = true /\ rv ds i ts k vs = Some v).
    { intros N2. destruct (IH k true [] T2 N2) as (f & v & E & A1 & A2). exists f, v.
      assert (EE : match writes_of R with ((k0, _), _) :: _ => k0 | [] => match vs with [] => k | _ => k end end =
                   match writes_of R with ((k0, _), _) :: _ => k0 | [] => k end) by (destruct (writes_of R); destruct vs; auto).
      rewrite EE in E. split; auto. destruct vs as [|v0 vs]; [destruct (A2 eq_refl); subst; auto|apply A1; discriminate]. }
    assert (GN := goto_next_spec k R F vs ((k, t), w) k).
    assert (GE : match writes_of R with ((k0, _), _) :: _ => k0 | [] => match vs with [] => k | _ => k end end =
                   match writes_of R with ((k0, _), _) :: _ => k0 | [] => k end) by (destruct (writes_of R); destruct vs; auto).
    rewrite GE in GN. clear GE.
    destruct (match i with SI => ts <? t | RC => false end).
    { destruct (REC N) as (f & v & E & -> & E2). exists true, v. split; [exact E|split; [auto|discriminate]]. }
    destruct (T t w (or_introl eq_refl)) as [O|[O|O]]; rewrite O in *.
    + destruct (beqb (w_short w) []); cbn [negb] in *.
      * destruct (get vcmp ds (k, w_start w)) as [v|]; [|congruence]. exists true, v. rewrite GN. split; [auto|split; [auto|discriminate]].
      * exists true, (w_short w). rewrite GN. split; [auto|split; [auto|discriminate]].
    + exists true, []. rewrite GN. split; [auto|split; [auto|discriminate]].
    + destruct (REC N) as (f & v & E & -> & E2). exists true, v. split; [exact E|split; [auto|discriminate]].
Qed.

Definition conf1 (k : bytes) : option lock :=
  match LK k with Some l => if lock_conflict i ts rs l then Some l else None | None => None end.

(** GetCurrentValue at the first remaining key *)
Lemma current_value_spec ds x c R : good (c :: R) -> vals ds -> Pre x (c :: R) ->
  (exists l y, conf1 c = Some l /\ current_value ds i ts rs x = Ok (ItConflict y) /\ it_conf y = Some l) \/
  (exists y, conf1 c = None /\ current_value ds i ts rs x = Ok (ItOk y) /\ Post y c R /\ it_value y = V c).
Proof.
  intros G VV (P1 & P2 & P3 & P4 & P5 & P6). apply good_cons in G. destruct G as ((N & TH & T3) & F & G & IK).
  assert (RVc := VV c IK).
  assert (KC : beqb c [] = false) by (apply beqb_false; auto).
  (* the write key *)
  assert (WK : (VS c <> [] /\ it_wkey x = c) \/
               (VS c = [] /\ ((writes_of R = [] /\ blt (it_wkey x) c) \/ (writes_of R <> [] /\ blt c (it_wkey x))) /\
                writes_of (c :: R) = writes_of R)).
  { destruct (VS c) as [|[t w] vs] eqn:E.
    - right. split; auto. assert (EE : writes_of (c :: R) = writes_of R) by (unfold writes_of; simpl; unfold ws1; rewrite E; auto). split; auto.
      rewrite EE in P4. destruct (wk_gt c R _ _ F P4) as [[A B]|A]; [left|right; auto]. split; auto. inversion B; auto.
    - left. split; [discriminate|]. unfold writes_of in P4. simpl in P4. unfold ws1 in P4. rewrite E in P4. simpl in P4. auto. }
  assert (LKK : (exists l, LK c = Some l /\ it_lkey x = c /\ it_locks x = (c, l) :: locks_of R) \/
                (LK c = None /\ locks_of (c :: R) = locks_of R /\ (locks_of R = [] /\ it_lkey x = [] \/ locks_of R <> [] /\ blt c (it_lkey x)))).
  { destruct (LK c) as [l|] eqn:E.
    - left. exists l. split; auto. unfold locks_of in P1, P3. simpl in P1, P3. unfold lk1 in P1, P3 at 1. rewrite E in *. simpl in *. auto.
    - right. split; auto. assert (EE : locks_of (c :: R) = locks_of R) by (unfold locks_of; simpl; unfold lk1 at 1; rewrite E; auto). split; auto.
      rewrite EE in P3. rewrite P3. destruct (lhd_gt c R F) as [A|A]; [left; rewrite A; auto|].
      right. split; auto. intros Z. rewrite Z in A. simpl in A. destruct c; discriminate. }
  assert (FROM : VS c <> [] -> exists v lst,
     user_value ds i ts c (it_writes x) (it_wkey x) false (it_value x) = Some (true, v, writes_of R, lst) /\ v = V c /\
     wk_ok lst (writes_of R) (fun w => ble w c)).
  { intros NE. destruct (user_value_spec ds c R F (VS c) (it_wkey x) false (it_value x) T3 ltac:(congruence)) as (f & v & E & A & _).
    destruct (A NE) as [-> E2]. rewrite P2.
    change (writes_of (c :: R)) with (map (fun v : Z * wrec => ((c, fst v), snd v)) (VS c) ++ writes_of R).
    exists v. eexists. split; [exact E|]. split; [congruence|]. unfold wk_ok.
    destruct (writes_of R) as [|[[k0 ?] ?] ?]; auto. destruct (VS c); [congruence|]. apply ble_refl. }
  unfold current_value.
  destruct LKK as [(l & L1 & L2 & L3)|(L1 & L2 & L3)].
  - (* a lock on c *)
    assert (FIRST : (if beqb (it_wkey x) [] then true else if negb (beqb (it_lkey x) []) then bleb (it_lkey x) (it_wkey x) || is_nil (it_writes x) else false) = true).
    { destruct (beqb (it_wkey x) []); auto. rewrite L2, KC. simpl. destruct WK as [[_ W]|(_ & [[A B]|[A B]] & C)].
      - rewrite W. rewrite (proj2 (bleb_iff c c)); auto. apply ble_refl.
      - rewrite P2, C, A. simpl. apply orb_true_r.
      - rewrite (proj2 (bleb_iff c (it_wkey x))); auto. apply blt_le; auto. }
    rewrite FIRST, L2, KC, andb_false_r, L3.
    unfold conf1. rewrite L1. destruct (lock_conflict i ts rs l).
    + left. exists l. eexists. split; [auto|split; [reflexivity|auto]].
    + right. destruct WK as [[NE W]|(NE & WS & C)].
      * destruct (FROM NE) as (v & lst & E & -> & WO). rewrite W, beqb_refl. rewrite W in E. rewrite E. eexists. split; [auto|split; [reflexivity|]].
        split; [|reflexivity]. unfold Post. cbn [it_key it_locks it_writes it_lkey it_wkey it_conf]. 
        split; [auto|split; [|split; [auto|split; [|split; auto]]]].
        -- rewrite <- L3. auto.
        -- rewrite <- P3. auto.
      * destruct (beqb c (it_wkey x)) eqn:BE.
        { apply beqb_true in BE. rewrite <- BE in WS. destruct WS as [[_ WS]|[_ WS]]; apply blt_irrefl in WS; destruct WS. }
        eexists. split; [auto|split; [reflexivity|]]. rewrite NE in RVc. simpl in RVc. inversion RVc as [RV2].
        split; [|rewrite P5; auto]. unfold Post. cbn [it_key it_locks it_writes it_lkey it_wkey it_conf].
        split; [auto|split; [rewrite <- L3; auto|split; [rewrite P2; auto|split; [rewrite <- P3; auto|split; auto]]]].
        rewrite C in P4. unfold wk_ok in *. destruct (writes_of R) as [|[[k0 ?] ?] ?]; auto.
        apply blt_le. inversion P4; auto.
  - (* no lock on c: it has versions *)
    assert (NE : VS c <> []) by (destruct TH; [congruence|auto]).
    destruct WK as [[_ W]|(E & _)]; [|congruence].
    destruct (FROM NE) as (v & lst & E & -> & WO).
    assert (FIRST : (if beqb (it_wkey x) [] then true else if negb (beqb (it_lkey x) []) then bleb (it_lkey x) (it_wkey x) || is_nil (it_writes x) else false) = false).
    { rewrite W, KC. destruct L3 as [[_ A]|[_ A]].
      - rewrite A. auto.
      - destruct (beqb (it_lkey x) []); auto. simpl. rewrite (proj2 (bleb_niff (it_lkey x) c) A). simpl. rewrite P2.
        unfold writes_of. simpl. unfold ws1 at 1. destruct (VS c); [congruence|auto]. }
    rewrite FIRST. rewrite W in *. rewrite KC. cbn [andb]. rewrite E. right. eexists. unfold conf1. rewrite L1. split; [auto|split; [reflexivity|]].
    split; [|reflexivity]. unfold Post. cbn [it_key it_locks it_writes it_lkey it_wkey it_conf].
    split; [auto|split; [auto|split; [auto|split; [auto|split; auto]]]].
Qed.

(** the advance of the lock iterator *)
Lemma next_lock_spec k R x : good (k :: R) -> Post x k R ->
  (if negb (is_nil (it_locks x)) && bleb (it_lkey x) (it_key x)
   then next_lock (it_key x) (it_locks x) (it_lkey x) else (it_locks x, it_lkey x)) = (locks_of R, lhd (locks_of R)).
Proof.
  intros G (P1 & P2 & P3 & P4 & _). apply good_cons in G. destruct G as (T & F & G & _). rewrite P1, P2, P4. clear P1 P2 P3 P4.
  assert (H := lhd_gt k R F). change (locks_of (k :: R)) with (lk1 k ++ locks_of R).
  revert H. generalize (locks_of R) as LR. intros LR H. unfold lk1. destruct (LK k) as [l|]; cbn [app lhd is_nil negb andb].
  - rewrite (proj2 (bleb_iff k k) (ble_refl k)). cbn [next_lock]. destruct LR as [|[k0 l0] r]; cbn [lhd] in *; auto.
    destruct H as [H|H]; [discriminate|]. rewrite (proj2 (bltb_iff k k0) H). auto.
  - destruct H as [H|H]; [rewrite H; auto|]. rewrite (proj2 (bleb_niff _ _) H), andb_false_r. auto.
Qed.

(** InnerNext *)
Lemma inner_next_spec ds x k R : good (k :: R) -> vals ds -> Post x k R ->
  match R with
  | [] => exists y, inner_next ds i ts rs x = Ok (ItOk y) /\ it_key y = [] /\ it_value y = [] /\ it_conf y = None
  | c :: R' =>
      (exists l y, conf1 c = Some l /\ inner_next ds i ts rs x = Ok (ItConflict y) /\ it_conf y = Some l) \/
      (exists y, conf1 c = None /\ inner_next ds i ts rs x = Ok (ItOk y) /\ Post y c R' /\ it_value y = V c)
  end.
Proof.
  intros G VV P. assert (NL := next_lock_spec k R x G P). destruct P as (P1 & P2 & P3 & P4 & P5 & P6).
  assert (G' := G). apply good_cons in G'. destruct G' as ((N & _) & F & G2 & _).
  unfold inner_next. rewrite (proj2 (beqb_false (it_key x) [])) by congruence. rewrite P6. rewrite NL. clear NL.
  assert (W := wk_gt k R _ _ F P5). assert (L := lhd_gt k R F). rewrite P3, P1.
  assert (NC : bleb (it_wkey x) k && negb (is_nil (writes_of R)) = false).
  { destruct W as [[A _]|[A B]]; [rewrite A; apply andb_false_r|]. rewrite (proj2 (bleb_niff _ _) B). auto. }
  rewrite NC.
  destruct R as [|c R'].
  - simpl. destruct W as [[A B]|[A B]]; [|exfalso; apply A; auto].
    destruct (beqb (it_wkey x) []); [eexists; split; [reflexivity|cbn; auto]|].
    rewrite (proj2 (bleb_iff _ _) B). rewrite (proj2 (bleb_iff [] k)) by (destruct k; discriminate). cbn [andb].
    eexists; split; [reflexivity|cbn; auto].
  - assert (NE : ~ (locks_of (c :: R') = [] /\ writes_of (c :: R') = [])).
    { intros [A B]. assert (X := both_nil _ (proj1 (proj2 G2)) A B). discriminate. }
    remember (c :: R') as R eqn:ER.
    assert (E1 : beqb (lhd (locks_of R)) [] && beqb (it_wkey x) [] = false).
    { destruct L as [L|L]; destruct W as [[A B]|[A B]].
      - exfalso; apply NE; auto.
      - rewrite (proj2 (beqb_false (it_wkey x) [])); [apply andb_false_r|]. intros X. rewrite X in B. destruct k; discriminate.
      - rewrite (proj2 (beqb_false (lhd (locks_of R)) [])); auto. intros X. rewrite X in L. destruct k; discriminate.
      - rewrite (proj2 (beqb_false (lhd (locks_of R)) [])); auto. intros X. rewrite X in L. destruct k; discriminate. }
    assert (E2 : bleb (lhd (locks_of R)) k && bleb (it_wkey x) k = false).
    { destruct L as [L|L]; [|rewrite (proj2 (bleb_niff _ _) L); auto]. destruct W as [[A B]|[A B]]; [exfalso; apply NE; auto|].
      rewrite (proj2 (bleb_niff _ _) B). apply andb_false_r. }
    rewrite E1, E2. subst R.
    destruct (current_value_spec ds (mkIt (locks_of (c :: R')) (writes_of (c :: R')) (lhd (locks_of (c :: R'))) (it_wkey x) k [] None) c R' G2 VV) as [(l & y & A & B & C)|(y & A & B & C)].
    + unfold Pre. cbn [it_key it_locks it_writes it_lkey it_wkey it_conf it_value].
      split; [auto|split; [auto|split; [auto|split; [|auto]]]].
      unfold wk_ok in *. destruct (writes_of (c :: R')) as [|[[k0 ?] ?] ?]; auto.
      apply Forall_forall. intros z Iz. rewrite Forall_forall in F. eapply ble_blt; eauto.
    + left. exists l, y. auto.
    + right. exists y. auto.
Qed.

(** what is left to deliver *)
Fixpoint rows (R : list bytes) : list (bytes * bytes) * option lock :=
  match R with
  | [] => ([], None)
  | c :: R' =>
      match conf1 c with
      | Some l => ([], Some l)
      | None => let r := rows R' in (if beqb (V c) [] then fst r else (c, V c) :: fst r, snd r)
      end
  end.

(** the iterator stands in front of [res] *)
Definition Ready (x : tit) (res : list (bytes * bytes) * option lock) : Prop :=
  match res with
  | ([], None) => it_key x = [] /\ it_conf x = None
  | ([], Some l) => it_conf x = Some l
  | ((k, v) :: rest, oc) =>
      exists R, good (k :: R) /\ Post x k R /\ it_value x = v /\ v <> [] /\ rows R = (rest, oc)
  end.

Lemma next_loop_spec ds : forall R fuel x k, good (k :: R) -> vals ds -> Post x k R -> (length R + 1 < fuel)%nat ->
  match rows R with
  | ([], Some l) => exists y, next_loop fuel ds i ts rs x = Ok (ItConflict y) /\ it_conf y = Some l
  | r => exists y, next_loop fuel ds i ts rs x = Ok (ItOk y) /\ Ready y r
  end.
Proof.
  induction R as [|c R IH]; intros fuel x k G VV P LF; (destruct fuel as [|fuel]; [lia|]); cbn [next_loop].
  - destruct (inner_next_spec ds x k [] G VV P) as (y & E & A & B & C). rewrite E. cbn [obind]. rewrite B. cbn [rows].
    destruct fuel as [|fuel]; [simpl in LF; lia|]. cbn [next_loop]. unfold inner_next. rewrite A. exists y. cbn. auto.
  - assert (IN := inner_next_spec ds x k (c :: R) G VV P). cbn [rows]. apply good_cons in G. destruct G as (T & F & G & _).
    destruct IN as [(l & y & A & B & C)|(y & A & B & C & D)]; rewrite A, B; cbn [obind].
    + exists y. auto.
    + rewrite D. destruct (beqb (V c) []) eqn:BV.
      * 
        specialize (IH fuel y c G VV C ltac:(simpl in LF; lia)). destruct (rows R) as [r o]. cbn [fst snd]. exact IH.
      * cbn [fst snd]. exists y. split; auto. exists R. split; [auto|split; [auto|split; [auto|split; [apply beqb_false; auto|]]]].
        destruct (rows R); auto.
Qed.

Lemma size_locks R : Forall there R -> (length R <= length (locks_of R) + length (writes_of R))%nat.
Proof.
  induction 1 as [|k R (_ & T & _) F IH]; simpl; auto. unfold locks_of, writes_of in *. simpl. rewrite !app_length.
  assert (1 <= length (lk1 k) + length (ws1 k))%nat; [|lia]. unfold lk1, ws1. rewrite map_length.
  destruct T as [T|T]; [destruct (LK k); simpl; [lia|congruence]|destruct (VS k); simpl; [congruence|lia]].
Qed.

Lemma it_next_spec ds x k R : good (k :: R) -> vals ds -> Post x k R ->
  match rows R with
  | ([], Some l) => exists y, it_next ds i ts rs x = Ok (ItConflict y) /\ it_conf y = Some l
  | r => exists y, it_next ds i ts rs x = Ok (ItOk y) /\ Ready y r
  end.
Proof.
  intros G VV P. apply next_loop_spec with (k := k); auto. unfold turns. destruct P as (_ & P2 & P3 & _). rewrite P2, P3.
  apply good_cons in G. destruct G as (T & F & G & _). assert (S := size_locks R (proj1 (proj2 G))).
  change (locks_of (k :: R)) with (lk1 k ++ locks_of R). rewrite app_length. lia.
Qed.

(** Seek *)
Lemma it_seek_spec ds key x R : good R -> vals ds -> it_conf x = None ->
  filter (fun e => negb (bltb (fst e) key)) (it_locks x) = locks_of R ->
  filter (fun e => match vcmp (fst e) (key, seek_ts i ts) with Lt => false | _ => true end) (it_writes x) = writes_of R ->
  match rows R with
  | ([], Some l) => exists y, it_seek ds i ts rs key x = Ok (ItConflict y) /\ it_conf y = Some l
  | r => exists y, it_seek ds i ts rs key x = Ok (ItOk y) /\ Ready y r
  end.
Proof.
  intros G VV C0 EL EW. unfold it_seek, inner_seek. rewrite EL, EW, C0.
  change (match locks_of R with (k, _) :: _ => k | [] => [] end) with (lhd (locks_of R)).
  set (wk := match writes_of R with ((k, _), _) :: _ => k | [] => [] end).
  destruct R as [|c R].
  - simpl. unfold it_next, turns. cbn [next_loop length it_locks it_writes]. unfold inner_next. cbn [it_key beqb obind].
    eexists. split; [reflexivity|]. cbn. auto.
  - assert (NN : forall k, In k (c :: R) -> k <> []) by (intros k I; destruct G as (_ & G & _); rewrite Forall_forall in G; apply G; auto).
    assert (NE : beqb (lhd (locks_of (c :: R))) [] && beqb wk [] = false).
    { destruct (locks_of (c :: R)) as [|[k l] r] eqn:E1.
      - destruct (writes_of (c :: R)) as [|[[k t] w] r] eqn:E2; [assert (X := both_nil _ (proj1 (proj2 G)) E1 E2); discriminate|].
        simpl. apply beqb_false. apply NN. assert (I : In ((k, t), w) (writes_of (c :: R))) by (rewrite E2; left; auto). apply writes_of_In in I; tauto.
      - cbn [lhd]. rewrite (proj2 (beqb_false k [])); auto. apply NN.
        assert (I : In (k, l) (locks_of (c :: R))) by (rewrite E1; left; auto). apply locks_of_In in I; tauto. }
    rewrite NE.
    destruct (current_value_spec ds (mkIt (locks_of (c :: R)) (writes_of (c :: R)) (lhd (locks_of (c :: R))) wk [] [] None) c R G VV) as [(l & y & A & B & C)|(y & A & B & C & D)].
    + unfold Pre. cbn [it_key it_locks it_writes it_lkey it_wkey it_conf it_value].
      split; [auto|split; [auto|split; [auto|split; [|auto]]]]. unfold wk_ok, wk. destruct (writes_of (c :: R)) as [|[[k0 ?] ?] ?]; auto.
      apply Forall_forall. intros z Iz. apply blt_nil. auto.
    + rewrite B. cbn [rows]. rewrite A. cbn [obind]. exists y; auto.
    + rewrite B. cbn [rows obind]. rewrite A, D. destruct (beqb (V c) []) eqn:BV.
      * 
        assert (Q := it_next_spec ds y c R G VV C). destruct (rows R) as [r o]; cbn [fst snd]. exact Q.
      * cbn [fst snd]. exists y. split; auto. exists R. split; [auto|split; [auto|split; [auto|split; [apply beqb_false; auto|]]]].
        destruct (rows R); auto.
Qed.


Lemma rows_le R : (length (fst (rows R)) <= length R)%nat.
Proof. induction R as [|c R IH]; simpl; auto. destruct (conf1 c); simpl; [lia|]. destruct (beqb (V c) []); simpl; lia. Qed.

Lemma ready_turns x kvs oc : Ready x (kvs, oc) -> (length kvs < turns x)%nat.
Proof.
  unfold turns. destruct kvs as [|[k v] rest]; simpl; [lia|]. intros (R & G & (_ & P2 & P3 & _) & _ & _ & E).
  assert (L := rows_le R). rewrite E in L. simpl in L. rewrite P2, P3. apply good_cons in G. destruct G as (_ & _ & G & _).
  assert (S := size_locks R (proj1 (proj2 G))). change (locks_of (k :: R)) with (lk1 k ++ locks_of R). rewrite app_length. lia.
Qed.

Definition shown (ko : bool) (kv : bytes * bytes) : bytes * bytes := (fst kv, if ko then [] else snd kv).

(** one page *)
Lemma scan_loop_spec ds ko limit full : vals ds -> forall kvs oc fuel x acc, Ready x (kvs, oc) -> (length kvs < fuel)%nat ->
  exists p y n, scan_loop fuel ds i ts rs ko limit full x acc = Ok (p, y) /\ pg_err p = false /\
    pg_kvs p = acc ++ map (shown ko) (firstn n kvs) /\ Ready y (skipn n kvs, oc) /\ (n <= length kvs)%nat /\
    (pg_more p = false \/ pg_conf p <> None -> n = length kvs /\ pg_conf p = oc) /\
    (kvs <> [] -> 1 <= n)%nat /\
    (kvs = [] -> pg_more p = false) /\
    (forall m, (length acc < m < length acc + n)%nat -> stop limit full m = false) /\
    ((forall m, (length acc < m <= length acc + length kvs)%nat -> stop limit full m = false) ->
       n = length kvs /\ pg_conf p = oc /\ (oc = None -> pg_more p = false)).
Proof.
  intros VV. induction kvs as [|[k v] rest IH]; intros oc fuel x acc RD LF; (destruct fuel as [|fuel]; [simpl in LF; lia|]); cbn [scan_loop].
  - assert (NV : it_valid x = false) by (unfold it_valid; destruct oc; simpl in RD; [rewrite RD; auto|destruct RD as [A B]; rewrite A, B; auto]).
    rewrite NV. assert (C : it_conf x = oc) by (destruct oc; simpl in RD; tauto).
    exists (mkPage acc (it_conf x) false false), x, O. cbn [pg_kvs pg_conf pg_more pg_err firstn skipn map].
    rewrite app_nil_r. split; [auto|split; [auto|split; [auto|split; [auto|split; [auto|split; [auto|split; [congruence|split; [auto|split]]]]]]]].
    + intros; simpl in *; lia.
    + intros _. auto.
  - destruct RD as (R & G & P & EV & NV & ER).
    assert (VA : it_valid x = true).
    { unfold it_valid. destruct P as (P1 & _ & _ & _ & _ & P6). rewrite P6, P1. apply good_cons in G. destruct G as ((N & _) & _).
      rewrite (proj2 (beqb_false k [])); auto. }
    rewrite VA. assert (K : it_key x = k) by apply P. rewrite K, EV.
    assert (NX := it_next_spec ds x k R G VV P). rewrite ER in NX.
    set (acc' := acc ++ [(k, if ko then [] else v)]) in *.
    assert (LA : length acc' = S (length acc)) by (unfold acc'; rewrite app_length; simpl; lia).
    assert (CASE : (exists l y, rest = [] /\ oc = Some l /\ it_next ds i ts rs x = Ok (ItConflict y) /\ it_conf y = Some l) \/
                   (exists y, it_next ds i ts rs x = Ok (ItOk y) /\ Ready y (rest, oc) /\ (rest = [] -> oc = None))).
    { destruct rest as [|r0 rest]; [destruct oc as [l|]|].
      - left. destruct NX as (y & A & B). exists l, y. auto.
      - right. destruct NX as (y & A & B). exists y. auto.
      - right. destruct NX as (y & A & B). exists y. split; [auto|split; [auto|discriminate]]. }
    clear NX. destruct CASE as [(l & y & -> & -> & E & C)|(y & E & RY & RO)]; rewrite E; cbn [obind].
    + exists (mkPage acc' (it_conf y) true false), y, 1%nat. rewrite C. cbn [pg_kvs pg_conf pg_more pg_err firstn skipn map length].
      split; [auto|split; [auto|split; [reflexivity|split; [exact C|split; [lia|split; [auto|split; [lia|split; [discriminate|split]]]]]]]].
      * intros; lia.
      * intros _. split; [auto|split; [auto|discriminate]].
    + destruct (stop limit full (length acc')) eqn:ST.
      * assert (CN : rest = [] \/ rest <> []) by (destruct rest; [auto|right; discriminate]).
        assert (CY : it_conf y = None).
        { destruct rest as [|[k1 v1] rest1]; [rewrite (RO eq_refl) in RY; simpl in RY; tauto|]. destruct RY as (R1 & _ & P' & _). apply P'. }
        exists (mkPage acc' (it_conf y) true false), y, 1%nat. rewrite CY. cbn [pg_kvs pg_conf pg_more pg_err firstn skipn map length].
        split; [auto|split; [auto|split; [reflexivity|split; [exact RY|split; [lia|split; [|split; [lia|split; [discriminate|split]]]]]]]].
        -- intros [A|A]; [discriminate|congruence].
        -- intros; lia.
        -- intros A. rewrite LA in ST. rewrite A in ST; [discriminate|]. simpl. lia.
      * destruct (IH oc fuel y acc' RY ltac:(simpl in LF; lia)) as (p & z & n & A1 & A2 & A3 & A4 & A5 & A6 & A7 & A8 & A9 & A10).
        exists p, z, (S n). split; [auto|split; [auto|split; [|split; [auto|split; [simpl; lia|split; [|split; [lia|split; [discriminate|split]]]]]]]].
        -- rewrite A3. unfold acc'. rewrite <- app_assoc. reflexivity.
        -- intros H. destruct (A6 H). split; [simpl; lia|auto].
        -- intros m M. destruct (Nat.eq_dec m (length acc')) as [->|NE]; auto. apply A9. rewrite LA in *. lia.
        -- intros H. destruct A10 as (B1 & B2 & B3); [intros m M; apply H; rewrite LA in M; simpl; lia|]. split; [simpl; lia|auto].
Qed.

Lemma scan_next_spec ds ko limit full kvs oc x : vals ds -> Ready x (kvs, oc) ->
  exists p y n, scan_next ds i ts rs ko limit full x = Ok (p, y) /\ pg_err p = false /\
    pg_kvs p = map (shown ko) (firstn n kvs) /\ Ready y (skipn n kvs, oc) /\ (n <= length kvs)%nat /\
    (pg_more p = false \/ pg_conf p <> None -> n = length kvs /\ pg_conf p = oc) /\
    (kvs <> [] -> 1 <= n)%nat /\ (kvs = [] -> pg_more p = false) /\
    (forall m, (0 < m < n)%nat -> stop limit full m = false) /\
    ((forall m, (0 < m <= length kvs)%nat -> stop limit full m = false) ->
       n = length kvs /\ pg_conf p = oc /\ (oc = None -> pg_more p = false)).
Proof. intros VV RD. exact (scan_loop_spec ds ko limit full VV kvs oc (turns x) x [] RD (ready_turns _ _ _ RD)). Qed.

(** many pages *)
Lemma more_pages_spec : forall ps kvs oc x, Ready x (kvs, oc) -> (forall p, In p ps -> vals (snd p)) ->
  exists pages n, more_pages i ts rs x ps = Ok pages /\ concat (map pg_kvs pages) = firstn n kvs /\ (n <= length kvs)%nat /\
    (forall p, In p pages -> pg_err p = false /\ (pg_more p = true -> pg_kvs p <> []) /\
       (pg_more p = false \/ pg_conf p <> None -> n = length kvs /\ pg_conf p = oc)) /\
    (length pages < length ps -> exists p, In p pages /\ pg_more p = false)%nat.
Proof.
  induction ps as [|[[limit full] ds] ps IH]; intros kvs oc x RD VV; cbn [more_pages].
  - exists [], O. simpl. split; [auto|split; [auto|split; [lia|split; [tauto|lia]]]].
  - destruct (scan_next_spec ds false limit full kvs oc x (VV _ (or_introl eq_refl)) RD) as (p & y & n & A1 & A2 & A3 & A4 & A5 & A6 & A7 & A7' & _).
    rewrite A1. cbn [obind fst snd].
    assert (SH : forall l, map (shown false) l = l) by (induction l as [|[? ?] l IHl]; simpl; [auto|rewrite IHl; auto]).
    rewrite SH in A3.
    assert (NEP : pg_more p = true -> pg_kvs p <> []).
    { intros M. rewrite A3. destruct kvs as [|kv kvs]; [rewrite (A7' eq_refl) in M; discriminate|].
      specialize (A7 ltac:(discriminate)). destruct n; [lia|discriminate]. }
    destruct (pg_more p) eqn:M.
    + destruct (IH _ _ _ A4 (fun q I => VV q (or_intror I))) as (pages & n2 & B1 & B2 & B3 & B4 & B5). rewrite B1. cbn [obind].
      rewrite skipn_length in *.
      exists (p :: pages), (n + n2)%nat. split; [auto|split; [|split; [lia|split]]].
      * simpl. rewrite A3, B2. clear -A5. revert kvs A5. induction n as [|n IHn]; intros kvs L; simpl; auto. destruct kvs as [|kv kvs]; simpl in *; [lia|].
        f_equal. apply IHn. lia.
      * intros q [<-|I].
        -- split; [auto|split; [auto|]]. intros H. rewrite M in H. destruct (A6 H) as [X Y]. split; [lia|auto].
        -- destruct (B4 q I) as (C1 & C2 & C3). split; [auto|split; [auto|]]. intros H. destruct (C3 H). split; [lia|auto].
      * intros L. simpl in L. destruct B5 as (q & I & Q); [lia|]. exists q. split; [right; auto|auto].
    + exists [p], n. destruct (A6 (or_introl eq_refl)) as [X Y]. split; [auto|split; [simpl; rewrite app_nil_r; auto|split; [auto|split]]].
      * intros q [<-|[]]. split; [auto|split; [congruence|auto]].
      * intros _. exists p. split; [left; auto|auto].
Qed.

(** the rows, declaratively *)
Lemma rows_spec R : good R ->
  StronglySorted blt (map fst (fst (rows R))) /\
  (forall k v, In (k, v) (fst (rows R)) -> In k R) /\
  match snd (rows R) with
  | None => (forall k v, In (k, v) (fst (rows R)) <-> In k R /\ v = V k /\ v <> []) /\ (forall k, In k R -> conf1 k = None)
  | Some l => exists c, In c R /\ conf1 c = Some l /\
      (forall k v, In (k, v) (fst (rows R)) <-> In k R /\ blt k c /\ v = V k /\ v <> []) /\
      (forall k, In k R -> blt k c -> conf1 k = None)
  end.
Proof.
  induction R as [|c R IH]; intros G.
  - simpl. split; [constructor|split; [tauto|split; [intros; tauto|tauto]]].
  - apply good_cons in G. destruct G as (T & F & G & _). destruct (IH G) as (S & IN & M). cbn [rows].
    rewrite Forall_forall in F.
    destruct (conf1 c) as [l|] eqn:C; cbn [fst snd].
    + split; [constructor|split; [simpl; tauto|]]. exists c. split; [left; auto|split; [auto|split]].
      * intros k v. split; [intros []|]. intros ([<-|I] & B & _); [apply blt_irrefl in B; destruct B|].
        exfalso. apply F in I. eapply blt_irrefl, blt_trans; eauto.
      * intros k [<-|I] B; [apply blt_irrefl in B; destruct B|]. exfalso. apply F in I. eapply blt_irrefl, blt_trans; eauto.
    + assert (SS : StronglySorted blt (map fst (if beqb (V c) [] then fst (rows R) else (c, V c) :: fst (rows R)))).
      { destruct (beqb (V c) []); auto. simpl. constructor; auto. apply Forall_forall. intros k I. apply in_map_iff in I.
        destruct I as ([k1 v1] & <- & I). apply F. eapply IN; eauto. }
      assert (INN : forall k v, In (k, v) (if beqb (V c) [] then fst (rows R) else (c, V c) :: fst (rows R)) <->
                    In (k, v) (fst (rows R)) \/ k = c /\ v = V c /\ v <> []).
      { intros k v. destruct (beqb (V c) []) eqn:B.
        - apply beqb_true in B. split; [auto|]. intros [A|(-> & -> & A)]; [auto|congruence].
        - apply beqb_false in B. simpl. split; [intros [A|A]; [inversion A; subst; auto|auto]|intros [A|(-> & -> & A)]; auto]. }
      split; [auto|split; [intros k v I; apply INN in I; destruct I as [I|(-> & _)]; [right; eapply IN; eauto|left; auto]|]].
      destruct (snd (rows R)) as [l|].
      * destruct M as (c1 & M1 & M2 & M3 & M4). exists c1. split; [right; auto|split; [auto|split]].
        -- intros k v. rewrite INN, M3. split.
           ++ intros [(A & B)|(-> & A)]; [split; [right; auto|auto]|]. split; [left; auto|split; [apply F; auto|auto]].
           ++ intros ([<-|A] & B); [right; tauto|left; tauto].
        -- intros k [<-|A] B; [exact C|apply M4; auto].
      * destruct M as [M1 M2]. split.
        -- intros k v. rewrite INN, M1. split.
           ++ intros [(A & B)|(-> & A)]; [split; [right; auto|auto]|split; [left; auto|auto]].
           ++ intros ([<-|A] & B); [right; tauto|left; tauto].
        -- intros k [<-|A]; [exact C|apply M2; auto].
Qed.

End Walk.

(** * The keys of the range *)
Section Range.
Variable s : store.
Variable i : iso.
Variable ts : Z.
Variable rs : list Z.
Variable a b : bytes.
Hypothesis Hok : store_ok s.
Hypothesis Hvals : values_there s.
Hypothesis Hrc : i = RC -> bounded_commits s.
Hypothesis Ha : a <> [].

Definition sLK (k : bytes) : option lock := lock_at s k.
Definition sVS (k : bytes) : list (Z * wrec) :=
  filter (fun v => match bcmp k a with Eq => fst v <=? seek_ts i ts | _ => true end) (versions s k).
Definition sV (k : bytes) : bytes := match rv (datas s) i ts k (sVS k) with Some v => v | None => [] end.
Definition all_keys : smap bytes unit :=
  fold_right (fun k m => put bcmp m k tt) [] (map fst (locks s) ++ map (fun e => fst (fst e)) (writes s)).
Definition nonempty (k : bytes) : bool :=
  negb (is_nil (sVS k)) || match sLK k with Some _ => true | None => false end.
Definition sR : list bytes :=
  filter (fun k => bleb a k && bltb k b && nonempty k) (map fst all_keys).

Lemma all_keys_sorted : sorted bcmp all_keys.
Proof. unfold all_keys. induction (_ ++ _); simpl; [constructor|]. apply sorted_put; auto. apply bcmp_ok. Qed.
Lemma all_keys_In k : In k (map fst all_keys) <-> In k (map fst (locks s)) \/ In k (map (fun e => fst (fst e)) (writes s)).
Proof.
  rewrite <- in_app_iff. unfold all_keys. induction (_ ++ _) as [|x l IH]; simpl; [tauto|].
  assert (SO : sorted bcmp (fold_right (fun k m => put bcmp m k tt) [] l)).
  { clear. induction l; simpl; [constructor|]. apply sorted_put; auto. apply bcmp_ok. }
  rewrite in_map_iff. split.
  - intros ([k1 u] & <- & I). apply In_put in I; auto; [|apply bcmp_ok]. destruct I as [I|[I _]]; [inversion I; subst; auto|].
    right. apply IH. apply in_map_iff. exists (k1, u). auto.
  - intros I. destruct (bytes_eq_dec x k) as [->|N].
    + exists (k, tt). split; auto. apply In_put; auto. apply bcmp_ok.
    + destruct I as [I|I]; [congruence|]. apply IH in I. apply in_map_iff in I. destruct I as ([k1 u] & E & I). simpl in E. subst k1.
      exists (k, u). split; auto. apply (In_put bcmp bcmp_ok); auto.
Qed.

Lemma nonempty_spec k : nonempty k = true <-> sLK k <> None \/ sVS k <> [].
Proof.
  unfold nonempty. destruct (sVS k); simpl; destruct (sLK k); split; intros A; try discriminate; auto; try (left; discriminate); try (right; discriminate).
  destruct A; congruence.
Qed.

Lemma sVS_In k t w : In (t, w) (sVS k) <-> write_at s k t = Some w /\ (k = a -> t <= seek_ts i ts).
Proof.
  unfold sVS. rewrite filter_In, versions_In by auto. cbn [fst]. assert (E := bcmp_eq k a).
  destruct (bcmp k a); rewrite ?Z.leb_le.
  - destruct E as [E _]. specialize (E eq_refl). split; intros [A B]; split; auto.
  - split; intros [A B]; split; auto. intros ->. destruct E as [_ E]. discriminate E; auto.
  - split; intros [A B]; split; auto. intros ->. destruct E as [_ E]. discriminate E; auto.
Qed.

Lemma sR_In k : In k sR <-> in_range a b k /\ (sLK k <> None \/ sVS k <> []).
Proof.
  unfold sR, in_range. rewrite filter_In, !andb_true_iff, bleb_iff, bltb_iff, nonempty_spec, all_keys_In. split; [tauto|].
  intros [A N]. split; [|tauto]. destruct N as [N|N].
  - left. unfold sLK, lock_at in N. destruct (get bcmp (locks s) k) as [l|] eqn:E; [|congruence]. apply get_In in E; [|apply bcmp_ok].
    apply in_map_iff. exists (k, l). auto.
  - right. destruct (sVS k) as [|[t w] r] eqn:E; [congruence|]. assert (I : In (t, w) (sVS k)) by (rewrite E; left; auto).
    apply sVS_In in I. destruct I as [I _]. apply get_In in I; [|apply vcmp_ok]. apply in_map_iff. exists ((k, t), w). auto.
Qed.

Lemma sR_sorted : StronglySorted blt sR.
Proof.
  unfold sR. apply filter_ext_sorted. assert (S := all_keys_sorted). induction S as [|x l S IH F]; simpl; constructor; auto.
  apply Forall_forall. intros k I. apply in_map_iff in I. destruct I as (e & <- & I). rewrite Forall_forall in F. apply F in I. exact I.
Qed.

Lemma sR_good : good sLK sVS sR sR.
Proof.
  split; [apply sR_sorted|split; [|apply incl_refl]]. apply Forall_forall. intros k I. apply sR_In in I. destruct I as [[A _] N].
  split; [eapply ble_nil_inv; eauto|split; auto]. intros t w I. apply sVS_In in I. eapply three_ok; eauto. apply I.
Qed.

Lemma sVS_rv ds k : same_values s ds -> exists v, rv ds i ts k (sVS k) = Some v /\ reads s i ts k v.
Proof.
  intros SV. apply rv_reads; auto.
  - unfold sVS. apply filter_ext_sorted, versions_sorted, Hok.
  - intros t w I. apply sVS_In in I. tauto.
  - intros t w W L. apply sVS_In. split; [auto|intros _; exact L].
Qed.
Lemma same_self : same_values s (datas s).
Proof. intros ? ? ? ? ? ?. reflexivity. Qed.

Lemma sV_reads k : reads s i ts k (sV k).
Proof. destruct (sVS_rv (datas s) k same_self) as (v & A & B). unfold sV. rewrite A. auto. Qed.
Lemma sV_vals ds R : same_values s ds -> vals i ts sVS sV R ds.
Proof.
  intros SV k _. destruct (sVS_rv ds k SV) as (v & A & B). rewrite A. f_equal. eapply reads_unique; eauto. apply sV_reads.
Qed.

(** the two iterators hold exactly the blocks of the keys *)
Lemma locks_of_sorted : forall R, StronglySorted blt R -> sorted bcmp (locks_of sLK R).
Proof.
  induction 1 as [|k R S IH F]; [constructor|]. change (locks_of sLK (k :: R)) with (lk1 sLK k ++ locks_of sLK R). apply (sorted_app bcmp).
  split; [unfold lk1; destruct (sLK k); repeat constructor|split; [auto|]].
  intros [k1 l1] [k2 l2] A B. apply locks_of_In in B. rewrite Forall_forall in F. unfold lk1 in A. destruct (sLK k); [|destruct A].
  destruct A as [A|[]]. inversion A; subst. unfold klt. simpl. apply F. tauto.
Qed.
Lemma writes_of_sorted : forall R, StronglySorted blt R -> sorted vcmp (writes_of sVS R).
Proof.
  induction 1 as [|k R S IH F]; [constructor|]. change (writes_of sVS (k :: R)) with (ws1 sVS k ++ writes_of sVS R). apply (sorted_app vcmp).
  split; [|split; auto].
  - unfold ws1. assert (SS : StronglySorted newer (sVS k)) by (unfold sVS; apply filter_ext_sorted, versions_sorted, Hok).
    induction SS as [|[t w] l SS IH2 F2]; simpl; constructor; auto. apply Forall_forall. intros [[k1 t1] w1] A. apply in_map_iff in A.
    destruct A as ([t2 w2] & E & A). simpl in E. inversion E; subst. rewrite Forall_forall in F2. specialize (F2 _ A). unfold newer in F2. simpl in F2.
    unfold klt, vcmp. simpl. rewrite bcmp_refl. apply Z.compare_lt_iff. lia.
  - intros [[k1 t1] w1] [[k2 t2] w2] A B. apply writes_of_In in B. rewrite Forall_forall in F. unfold ws1 in A. apply in_map_iff in A.
    destruct A as ([t w] & E & A). simpl in E. inversion E; subst. unfold klt, vcmp. simpl. rewrite (F k2); tauto.
Qed.

Lemma seek_locks : filter (fun e => negb (bltb (fst e) a)) (it_locks (it_init s a b)) = locks_of sLK sR.
Proof.
  assert (H1 : sorted bcmp (filter (fun e => negb (bltb (fst e) a)) (it_locks (it_init s a b)))) by (apply sorted_filter, sorted_filter, Hok).
  assert (H2 := locks_of_sorted sR sR_sorted).
  apply (smap_ext bcmp bcmp_ok); auto. intros k.
  assert (EQ : forall l, get bcmp (filter (fun e => negb (bltb (fst e) a)) (it_locks (it_init s a b))) k = Some l <-> get bcmp (locks_of sLK sR) k = Some l).
  { intros l. rewrite (get_iff bcmp bcmp_ok _ k l H1), (get_iff bcmp bcmp_ok _ k l H2), locks_of_In, sR_In. unfold it_init. cbn [it_locks].
    rewrite !filter_In. simpl. rewrite andb_true_iff, negb_true_iff, bleb_iff, bltb_iff, bltb_niff.
    rewrite <- (get_iff bcmp bcmp_ok (locks s) k l) by apply Hok. unfold sLK, in_range, lock_at. split.
    - intros ((A & B & C) & D). rewrite A. split; [split; [auto|left; discriminate]|auto].
    - intros (((A & B) & _) & D). rewrite D. split; auto. intros X. eapply blt_not_le; eauto. }
  destruct (get bcmp (filter _ _) k) as [l|]; [symmetry; apply EQ; auto|].
  destruct (get bcmp (locks_of sLK sR) k) as [l|]; auto. assert (X := proj2 (EQ l) eq_refl). discriminate.
Qed.

Lemma seek_writes : filter (fun e => match vcmp (fst e) (a, seek_ts i ts) with Lt => false | _ => true end) (it_writes (it_init s a b)) = writes_of sVS sR.
Proof.
  set (f := fun e : bytes * Z * wrec => match vcmp (fst e) (a, seek_ts i ts) with Lt => false | _ => true end).
  assert (H1 : sorted vcmp (filter f (it_writes (it_init s a b)))) by (apply sorted_filter, sorted_filter, Hok).
  assert (H2 := writes_of_sorted sR sR_sorted).
  apply (smap_ext vcmp vcmp_ok); auto. intros [k t].
  assert (EQ : forall w, get vcmp (filter f (it_writes (it_init s a b))) (k, t) = Some w <-> get vcmp (writes_of sVS sR) (k, t) = Some w).
  { intros w. rewrite (get_iff vcmp vcmp_ok _ (k, t) w H1), (get_iff vcmp vcmp_ok _ (k, t) w H2), writes_of_In, sR_In. unfold it_init. cbn [it_writes].
    rewrite !filter_In. cbn [fst snd]. rewrite andb_true_iff, bleb_iff, bltb_iff, sVS_In.
    rewrite <- (get_iff vcmp vcmp_ok (writes s) (k, t) w) by apply Hok. change (get vcmp (writes s) (k, t)) with (write_at s k t).
    unfold in_range.
    assert (FE : ble a k -> (f ((k, t), w) = true <-> (k = a -> t <= seek_ts i ts))).
    { intros L. unfold f, vcmp. cbn [fst snd]. assert (E := bcmp_eq k a). apply ble_cases in L. destruct L as [L|L].
      - assert (G : bcmp k a = Gt) by (rewrite (bcmp_opp a k), L; auto). rewrite G. split; auto. intros _ ->. apply blt_irrefl in L; destruct L.
      - subst k. rewrite bcmp_refl. destruct (Z.compare_spec (seek_ts i ts) t); split; intros X; try discriminate; auto; try (intros; lia); try (specialize (X eq_refl); lia). }
    split.
    - intros ((A & B & C) & D). assert (D2 := proj1 (FE B) D).
      assert (Y : In (t, w) (sVS k)) by (apply sVS_In; auto).
      split; [split; [auto|right; intros X; rewrite X in Y; destruct Y]|auto].
    - intros (((A & B) & _) & C & D). split; [auto|apply (proj2 (FE A)); auto]. }
  destruct (get vcmp (filter f _) (k, t)) as [w|]; [symmetry; apply EQ; auto|].
  destruct (get vcmp (writes_of sVS sR) (k, t)) as [w|]; auto. assert (X := proj2 (EQ w) eq_refl). discriminate.
Qed.

Definition sRows := rows i ts rs sLK sV sR.

Lemma conf1_iff k l : conf1 i ts rs sLK k = Some l <-> lock_at s k = Some l /\ conflicting i ts rs l.
Proof.
  unfold conf1, sLK. destruct (lock_at s k) as [l0|]; [|split; [discriminate|intros [A _]; discriminate]].
  assert (C := lock_conflict_iff i ts rs l0). destruct (lock_conflict i ts rs l0).
  - split; [intros A; inversion A; subst; tauto|intros [A _]; auto].
  - split; [discriminate|]. intros [A B]. inversion A; subst. apply C in B. discriminate.
Qed.
Lemma conf1_none k : conf1 i ts rs sLK k = None <-> no_conflict s i ts rs k.
Proof.
  unfold no_conflict. split.
  - intros A l L C. assert (X : conf1 i ts rs sLK k = Some l) by (apply conf1_iff; auto). congruence.
  - intros A. destruct (conf1 i ts rs sLK k) as [l|] eqn:E; auto. apply conf1_iff in E. exfalso. eapply A; [apply E|apply E].
Qed.

Lemma reads_V k v : reads s i ts k v <-> v = sV k.
Proof. split; [intros A; eapply reads_unique; eauto; apply sV_reads|intros ->; apply sV_reads]. Qed.
Lemma V_in_R k : in_range a b k -> sV k <> [] -> In k sR.
Proof.
  intros A B. apply sR_In. split; auto. right. intros E. apply B. unfold sV. rewrite E. auto.
Qed.

Lemma sRows_spec :
  match snd sRows with
  | None => full_scan s i ts rs a b (fst sRows)
  | Some l => stopped_scan s i ts rs a b (fst sRows) l
  end.
Proof.
  unfold sRows. destruct (rows_spec i ts rs sLK sVS sV sR sR sR_good) as (S & _ & M).
  destruct (snd (rows i ts rs sLK sV sR)) as [l|].
  - destruct M as (c & M1 & M2 & M3 & M4). apply conf1_iff in M2. exists c.
    split; [apply sR_In in M1; tauto|split; [tauto|split; [tauto|split; [auto|split]]]].
    + intros k v. rewrite M3, reads_V. split; [intros (A & B & C & D); apply sR_In in A; tauto|]. intros (A & B & -> & D). split; [apply V_in_R; auto|auto].
    + intros k A B. destruct (sLK k) as [l0|] eqn:E.
      * apply conf1_none. apply M4; auto. apply sR_In. split; auto. left. congruence.
      * intros l1 L1. unfold sLK in E. congruence.
  - destruct M as [M1 M2]. split; [auto|split].
    + intros k v. rewrite M1, reads_V. split; [intros (A & C & D); apply sR_In in A; tauto|]. intros (A & -> & D). split; [apply V_in_R; auto|auto].
    + intros k A. destruct (sLK k) as [l0|] eqn:E.
      * apply conf1_none. apply M2; auto. apply sR_In. split; auto. left. congruence.
      * intros l1 L1. unfold sLK in E. congruence.
Qed.

Lemma scan_first_spec ko limit full :
  exists p ox n, scan_first s i ts rs ko limit full a b = Ok (p, ox) /\ pg_err p = false /\
    pg_kvs p = map (shown ko) (firstn n (fst sRows)) /\ (n <= length (fst sRows))%nat /\
    (forall y, ox = Some y -> Ready i ts rs sLK sVS sV sR y (skipn n (fst sRows), snd sRows)) /\
    (pg_more p = true /\ ox = None -> pg_conf p <> None) /\
    (pg_more p = false \/ pg_conf p <> None -> n = length (fst sRows) /\ pg_conf p = snd sRows) /\
    (pg_more p = true -> pg_kvs p <> [] \/ pg_conf p <> None) /\
    (forall m, (0 < m < n)%nat -> stop limit full m = false) /\
    ((forall m, (0 < m <= length (fst sRows))%nat -> stop limit full m = false) ->
       n = length (fst sRows) /\ pg_conf p = snd sRows /\ (snd sRows = None -> pg_more p = false)).
Proof.
  unfold scan_first.
  assert (SK := it_seek_spec i ts rs sLK sVS sV sR (datas s) a (it_init s a b) sR sR_good (sV_vals (datas s) sR same_self) eq_refl seek_locks seek_writes).
  fold sRows in SK. destruct sRows as [kvs oc] eqn:ER. cbn [fst snd].
  assert (CASE : (exists l y, kvs = [] /\ oc = Some l /\ it_seek (datas s) i ts rs a (it_init s a b) = Ok (ItConflict y) /\ it_conf y = Some l) \/
                 (exists y, it_seek (datas s) i ts rs a (it_init s a b) = Ok (ItOk y) /\ Ready i ts rs sLK sVS sV sR y (kvs, oc))).
  { destruct kvs; [destruct oc as [l|]|]; [left|right|right]; destruct SK as (y & A & B); [exists l, y|exists y|exists y]; auto. }
  clear SK. destruct CASE as [(l & y & -> & -> & E & C)|(y & E & RD)]; rewrite E; cbn [obind].
  - exists (mkPage [] (it_conf y) true false), None, O. cbn [pg_kvs pg_conf pg_more pg_err firstn skipn map length]. rewrite C.
    split; [auto|split; [auto|split; [auto|split; [auto|split; [discriminate|split; [intros _; discriminate|split; [auto|split; [right; discriminate|split]]]]]]]].
    + intros; lia.
    + intros _. split; [auto|split; [auto|discriminate]].
  - destruct (scan_next_spec i ts rs sLK sVS sV sR (datas s) ko limit full kvs oc y (sV_vals (datas s) sR same_self) RD)
      as (p & z & n & A1 & A2 & A3 & A4 & A5 & A6 & A7 & A7' & A8 & A9).
    unfold scan_next in A1. rewrite A1. cbn [obind fst snd]. exists p, (Some z), n.
    split; [auto|split; [auto|split; [auto|split; [auto|split; [intros q Q; inversion Q; subst; auto|split; [intros [_ X]; discriminate|split; [auto|split; [|split; auto]]]]]]]].
    intros M. left. rewrite A3. destruct kvs as [|kv kvs]; [rewrite (A7' eq_refl) in M; discriminate|].
    specialize (A7 ltac:(discriminate)). destruct n; [lia|discriminate].
Qed.

Lemma scan_pages_spec limit full ps : (forall p, In p ps -> same_values s (snd p)) ->
  exists pages n, scan_pages s i ts rs a b limit full ps = Ok pages /\
    concat (map pg_kvs pages) = firstn n (fst sRows) /\ (n <= length (fst sRows))%nat /\
    (forall p, In p pages -> pg_err p = false /\ (pg_more p = true -> pg_kvs p <> [] \/ pg_conf p <> None) /\
       (pg_more p = false \/ pg_conf p <> None -> n = length (fst sRows) /\ pg_conf p = snd sRows)) /\
    ((length pages <= length ps)%nat -> exists p, In p pages /\ (pg_more p = false \/ pg_conf p <> None)).
Proof.
  intros SV. unfold scan_pages.
  assert (SH : forall l, map (shown false) l = l) by (induction l as [|[? ?] l IHl]; simpl; [auto|rewrite IHl; auto]).
  destruct (scan_first_spec false limit full) as (p & ox & n & A1 & A2 & A3 & A4 & A5 & A6 & A7 & A8 & _). rewrite SH in A3.
  rewrite A1. cbn [obind fst snd].
  assert (STOP : pg_more p = false \/ pg_conf p <> None -> exists pages m, Ok [p] = Ok pages /\
    concat (map pg_kvs pages) = firstn m (fst sRows) /\ (m <= length (fst sRows))%nat /\
    (forall p, In p pages -> pg_err p = false /\ (pg_more p = true -> pg_kvs p <> [] \/ pg_conf p <> None) /\
       (pg_more p = false \/ pg_conf p <> None -> m = length (fst sRows) /\ pg_conf p = snd sRows)) /\
    ((length pages <= length ps)%nat -> exists p, In p pages /\ (pg_more p = false \/ pg_conf p <> None))).
  { intros H. exists [p], n. simpl. rewrite app_nil_r. split; [auto|split; [auto|split; [auto|split]]].
    - intros q [<-|[]]. auto.
    - intros _. exists p. auto. }
  destruct ox as [x|].
  - destruct (pg_more p) eqn:M; [|apply STOP; auto].
    destruct (more_pages_spec i ts rs sLK sVS sV sR ps _ _ x (A5 x eq_refl) (fun p I => sV_vals (snd p) sR (SV p I))) as (pages & n2 & B1 & B2 & B3 & B4 & B5).
    rewrite B1. cbn [obind]. rewrite skipn_length in *. exists (p :: pages), (n + n2)%nat. split; [auto|split; [|split; [lia|split]]].
    + simpl. rewrite A3, B2. generalize (fst sRows) A4. clear. induction n as [|n IHn]; intros kvs L; simpl; auto. destruct kvs as [|kv kvs]; simpl in *; [lia|].
      f_equal. apply IHn. lia.
    + intros q [<-|Iq].
      * rewrite M in *. split; [auto|split; [auto|]]. intros H. destruct (A7 H). split; [lia|auto].
      * destruct (B4 q Iq) as (C1 & C2 & C3). split; [auto|split; [auto|]]. intros H. destruct (C3 H). split; [lia|auto].
    + intros L. simpl in L. destruct B5 as (q & Q1 & Q2); [lia|]. exists q. split; [right; auto|auto].
  - destruct (pg_more p) eqn:M; [apply STOP; right; apply A6; auto|apply STOP; auto].
Qed.
End Range.
