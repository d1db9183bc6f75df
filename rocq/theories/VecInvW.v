(** Invariant of calm runs, second part: the indexes and the wrappers. *)
Require Import ZArith List Bool Permutation Lia.
Require Import Verif.VecModel Verif.VecSpec Verif.VecProofs Verif.VecInvL.
Import ListNotations.
Open Scope Z_scope.

(** [c] holds what is stored under [i] as soon as no entry from position [a] on
    has been stored. *)
Definition agree (log : list entry) (a : nat) (c : contents) (d : list version) (i : Z) : Prop :=
  (forall j e v, (a <= j)%nat -> nth_error log j = Some e -> ~ In (i, e_ts e, v) d) ->
  c i = stored d i.

Definition done (r : region) : nat :=
  match r_apc r with AMark | ADone => S (r_applied r) | _ => r_applied r end.

Definition bobj (b : bpc) : option nat :=
  match b with
  | BScan p | BCatch p | BPre p | BLast p | BSwitch p _ => Some p
  | BIdle | BUnlock => None
  end.

Definition ptr_ok (h : list obj) (x : option nat) : Prop :=
  forall p, x = Some p -> (p < length h)%nat.

Definition in_region (r : region) (i : Z) : Prop := r_lo r <= i < r_hi r.
Definition in_obj (o : obj) (i : Z) : Prop := o_lo o <= i < o_hi o.

Record WR (d : list version) (h : list obj) (r : region) : Prop := {
  W_own_ptr : ptr_ok h (w_own r);
  W_share_ptr : ptr_ok h (w_share r);
  W_sib_ptr : ptr_ok h (w_sib r);
  W_bld_ptr : ptr_ok h (bobj (r_bpc r));
  W_awr_ptr : forall p q, r_apc r = AWrite p q -> (p < length h)%nat /\ ptr_ok h q;
  W_priv : forall p, bobj (r_bpc r) = Some p ->
    w_own r <> Some p /\ w_share r <> Some p /\ w_sib r <> Some p /\
    forall a b, r_apc r = AWrite a b -> a <> p /\ b <> Some p;
  W_own : forall p, w_own r = Some p -> w_ready r = true /\ w_share r = None /\
    (r_alive r = true -> o_epoch (geto h p) <= r_epoch r /\
      (o_epoch (geto h p) = r_epoch r -> o_lo (geto h p) = r_lo r /\ o_hi (geto h p) = r_hi r));
  W_le : (w_meta r <= w_apply r)%nat /\ (w_apply r <= done r)%nat;
  W_rdy : r_alive r = true -> w_ready r = true -> exists p, cur_index r = Some p /\
    match w_sib r with
    | None => o_lo (geto h p) <= r_lo r /\ r_hi r <= o_hi (geto h p) /\
              forall i, in_region r i -> agree (r_log r) (done r) (o_has (geto h p)) d i
    | Some q => q <> p /\ w_share r = None /\
        o_lo (geto h p) < o_hi (geto h p) /\ o_lo (geto h q) < o_hi (geto h q) /\
        (o_hi (geto h p) = o_lo (geto h q) \/ o_hi (geto h q) = o_lo (geto h p)) /\
        r_lo r = Z.min (o_lo (geto h p)) (o_lo (geto h q)) /\
        r_hi r = Z.max (o_hi (geto h p)) (o_hi (geto h q)) /\
        (forall i, in_obj (geto h p) i -> agree (r_log r) (done r) (o_has (geto h p)) d i) /\
        (forall i, in_obj (geto h q) i -> agree (r_log r) (done r) (o_has (geto h q)) d i)
    end;
  W_sib : forall q, r_alive r = true -> w_sib r = Some q ->
    r_lo r <= o_lo (geto h q) /\ o_hi (geto h q) <= r_hi r;
  W_awr : forall p q, r_alive r = true -> r_apc r = AWrite p q ->
    (q = None -> o_lo (geto h p) <= r_lo r /\ r_hi r <= o_hi (geto h p)) /\
    (w_ready r = true -> cur_index r = Some p /\ w_sib r = q) /\ q <> Some p;
  W_bld : forall p, r_alive r = true -> bobj (r_bpc r) = Some p ->
    o_lo (geto h p) = r_lo r /\ o_hi (geto h p) = r_hi r /\ o_epoch (geto h p) = r_epoch r /\
    (o_apply (geto h p) <= done r)%nat /\
    (r_bpc r <> BScan p -> forall i, in_region r i ->
       agree (r_log r) (o_apply (geto h p)) (o_has (geto h p)) d i) /\
    (r_bpc r = BScan p -> forall i, o_has (geto h p) i = None) /\
    (forall en, r_bpc r = BSwitch p en -> (en <= r_applied r)%nat /\
       forall j e, (o_apply (geto h p) <= j)%nat -> (j < en - 1)%nat ->
         nth_error (r_log r) j = Some e -> ~ is_write e);
  W_snap : forall n, w_snap r = Some n ->
    (forall i, n_has n i <> None -> n_lo n <= i < n_hi n) /\
    (r_alive r = true -> (n_id n <= w_meta r)%nat /\ n_epoch n <= r_epoch r /\
     (n_epoch n = r_epoch r -> n_lo n = r_lo r /\ n_hi n = r_hi r /\
       forall i, in_region r i -> agree (r_log r) (n_id n) (n_has n) d i));
  W_pc : match r_apc r with
         | AWait | AWrite _ _ | AMark =>
             exists e, nth_error (r_log r) (r_applied r) = Some e /\
                       e_epoch e = r_epoch r /\ is_write e
         | _ => True
         end;
  W_dead : r_alive r = false -> r_apc r = AIdle /\ r_bpc r = BIdle
}.

Definition sub_heap (h : list obj) : Prop :=
  forall p i, o_has (geto h p) i <> None -> in_obj (geto h p) i.

Definition bld_dis (s : state) : Prop :=
  forall n1 r1 n2 r2 p, reg_at s n1 r1 -> reg_at s n2 r2 -> n1 <> n2 ->
    bobj (r_bpc r1) = Some p -> bobj (r_bpc r2) <> Some p.

Record Inv (s : state) : Prop := {
  I_log : LInv s;
  I_reg : forall n r, reg_at s n r -> WR (s_data s) (s_heap s) r;
  I_sub : sub_heap (s_heap s);
  I_dis : bld_dis s
}.

(** ** agree *)

Lemma agree_mono log a b c d i : (b <= a)%nat -> agree log a c d i -> agree log b c d i.
Proof. intros L H P. apply H. intros j e v J. apply P. lia. Qed.

Lemma agree_log log e0 a c d i : agree log a c d i -> agree (log ++ [e0]) a c d i.
Proof.
  intros H P. apply H. intros j e v J N. apply (P j e v J). apply nth_snoc_old. exact N.
Qed.

Lemma agree_ext log a c c' d i : c i = c' i -> agree log a c d i -> agree log a c' d i.
Proof. intros E H P. rewrite <- E. apply H. exact P. Qed.

Lemma agree_data log a c d d' i :
  functional d -> functional d' -> (forall t v, In (i, t, v) d <-> In (i, t, v) d') ->
  agree log a c d i -> agree log a c d' i.
Proof.
  intros F F' E H P. rewrite <- (stored_same d d' i F F' E). apply H.
  intros j e v J N I. apply (P j e v J N). apply E. exact I.
Qed.

(** Storing an entry at or beyond [a]. *)
Lemma agree_put s n r j0 e a c i :
  LInv s -> ent_at s n r j0 e -> (a <= j0)%nat ->
  functional (put_versions (s_data s) (versions_of e)) ->
  agree (r_log r) a c (s_data s) i ->
  agree (r_log r) a c (put_versions (s_data s) (versions_of e)) i.
Proof.
  intros L E A F' H P.
  destruct (in_dec Z.eq_dec i (op_ids (e_op e))) as [I|I].
  - exfalso. destruct (op_ids_versions _ (e_ts e) _ I) as [v V].
    apply (P j0 e v A (proj2 E)). apply put_versions_in. left. exact V.
  - rewrite <- (stored_same (s_data s) (put_versions (s_data s) (versions_of e)) i).
    + apply H. intros j e' v J N X. apply (P j e' v J N). apply put_versions_in. right. exact X.
    + apply data_functional. exact L.
    + exact F'.
    + intros t v. rewrite put_versions_in. split; [auto|]. intros [X|X]; [|exact X].
      exfalso. apply I. eapply op_versions_ids. exact X.
Qed.

(** One accepted entry. *)
Lemma agree_write s n r j e c i :
  LInv s -> ent_at s n r j e -> r_alive r = true -> e_epoch e = r_epoch r ->
  ((j < r_applied r)%nat \/ (j = r_applied r /\ r_apc r <> AIdle)) ->
  agree (r_log r) j c (s_data s) i -> agree (r_log r) (S j) (eff (e_op e) c) (s_data s) i.
Proof.
  intros L E AL EP J H P.
  destruct (in_dec Z.eq_dec i (op_ids (e_op e))) as [I|I].
  - destruct (op_ids_versions _ (e_ts e) _ I) as [v V].
    rewrite (eff_in (e_op e) c i (e_ts e) v); [|destruct (e_op e) eqn:O; auto; eapply L_nodup; eassumption|exact V].
    symmetry. apply (stored_by_max _ _ (e_ts e)).
    + apply data_functional. exact L.
    + eapply (L_acc s L); eassumption.
    + intros t' v' X. destruct (Z_le_gt_dec t' (e_ts e)) as [Y|Y]; [exact Y|exfalso].
      destruct (L_late s L _ _ _ _ _ _ _ E AL EP I X) as [j' [e' [J1 [J2 J3]]]]; [lia|].
      subst t'. apply (P j' e' v' J1 J2 X).
  - rewrite eff_notin by exact I. apply H. intros j' e' v J' N X.
    destruct (Nat.eq_dec j' j) as [->|NE].
    + destruct E as [E1 E2]. rewrite E2 in N. injection N as <-.
      apply I. eapply op_versions_ids. eapply (rec_entry s); [exact L|split; eassumption|exact X].
    + apply (P j' e' v); [lia|exact N|exact X].
Qed.

(** Entries without versions. *)
Lemma agree_skip s n r j e c i :
  LInv s -> ent_at s n r j e -> (forall v, ~ In (i, e_ts e, v) (s_data s)) ->
  agree (r_log r) j c (s_data s) i -> agree (r_log r) (S j) c (s_data s) i.
Proof.
  intros L E NV H P. apply H. intros j' e' v J N X.
  destruct (Nat.eq_dec j' j) as [->|NE].
  - destruct E as [E1 E2]. rewrite E2 in N. injection N as <-. apply (NV v X).
  - apply (P j' e' v); [lia|exact N|exact X].
Qed.

Lemma span_nth log a b k e :
  nth_error (span log a b) k = Some e <-> ((a + k < b)%nat /\ nth_error log (a + k) = Some e).
Proof.
  unfold span. revert a b k. induction log as [|x log IH]; intros a b k.
  - rewrite firstn_nil, skipn_nil. destruct k, (a + 0)%nat; simpl; split; intro H; try discriminate;
      destruct H as [_ H]; try discriminate; destruct (a + S k)%nat; discriminate.
  - destruct b as [|b].
    + simpl. rewrite skipn_nil. split; intro H; [destruct k; discriminate|lia].
    + destruct a as [|a].
      * simpl skipn. destruct k as [|k]; simpl.
        -- split; intro H; [split; [lia|exact H]|apply H].
        -- specialize (IH 0%nat b k). simpl in IH. rewrite IH. split; intros [H1 H2]; split; try exact H2; lia.
      * simpl. rewrite IH. simpl. split; intros [H1 H2]; split; try exact H2; lia.
Qed.

Lemma span_length log a b : (length (span log a b) <= b - a)%nat.
Proof. unfold span. rewrite skipn_length. pose proof (firstn_le_length b log). lia. Qed.

(** Replaying accepted entries. *)
Lemma agree_effs s n r i : forall es a c,
  LInv s -> reg_at s n r -> r_alive r = true ->
  (forall k e, nth_error es k = Some e -> nth_error (r_log r) (a + k) = Some e /\
      (a + k < r_applied r)%nat /\ e_epoch e = r_epoch r) ->
  agree (r_log r) a c (s_data s) i ->
  agree (r_log r) (a + length es) (effs es c) (s_data s) i.
Proof.
  induction es as [|e es IH]; intros a c L A AL H G; simpl.
  - rewrite Nat.add_0_r. exact G.
  - destruct (H O e eq_refl) as [H1 [H2 H3]]. rewrite Nat.add_0_r in *.
    rewrite <- plus_n_Sm. apply (IH (S a)); try assumption.
    + intros k e' N. destruct (H (S k) e' N) as [K1 [K2 K3]].
      replace (S a + k)%nat with (a + S k)%nat by lia. auto.
    + apply (agree_write s n r a e); try assumption; [split; assumption|left; exact H2].
Qed.

(** A catch-up round over an easy window. *)
Lemma replay_agree g s n r seed o en :
  any_order g -> LInv s -> reg_at s n r -> r_alive r = true -> en = r_applied r ->
  easy_window r (o_apply o) (en - 1) ->
  o_lo o = r_lo r -> o_hi o = r_hi r -> (o_apply o <= S (r_applied r))%nat ->
  (forall i, in_region r i -> agree (r_log r) (o_apply o) (o_has o) (s_data s) i) ->
  let o' := replay_wal g seed (r_log r) o (S (o_apply o)) en in
  o_lo o' = o_lo o /\ o_hi o' = o_hi o /\ o_epoch o' = o_epoch o /\
  (o_apply o' <= Nat.max (o_apply o) (r_applied r))%nat /\
  (forall i, in_region r i -> agree (r_log r) (o_apply o') (o_has o') (s_data s) i) /\
  (forall i, ~ in_region r i -> o_has o' i = o_has o i) /\
  (forall j e, (o_apply o' <= j)%nat -> (j < en - 1)%nat -> nth_error (r_log r) j = Some e -> ~ is_write e).
Proof.
  intros AO L A AL -> [EW1 EW2] LO HI LE AG o'. unfold o', replay_wal.
  destruct (Nat.leb_spec (r_applied r) (S (o_apply o))) as [C|C].
  - repeat (split; [first [reflexivity|lia|exact AG|auto]|]). intros; lia.
  - set (es := get_entries (r_log r) (S (o_apply o)) (r_applied r)).
    assert (ES : es = span (r_log r) (o_apply o) (r_applied r - 1)).
    { unfold es, get_entries, span. replace (S (o_apply o) - 1)%nat with (o_apply o) by lia. reflexivity. }
    pose proof (span_length (r_log r) (o_apply o) (r_applied r - 1)) as SL. rewrite <- ES in SL.
    simpl Nat.sub. rewrite Nat.sub_0_r.
    set (last := last_data es (o_apply o) (o_apply o)).
    assert (LB : (last <= o_apply o + length es)%nat).
    { unfold last. pose proof (last_data_bound es (o_apply o) (o_apply o)). lia. }
    assert (LG : (o_apply o <= last)%nat) by (apply last_data_ge; lia).
    assert (LV : (if (o_apply o <? last)%nat then last else o_apply o) = last).
    { destruct (Nat.ltb_spec (o_apply o) last); lia. }
    rewrite LV. cbn [set_oapply set_has o_lo o_hi o_epoch o_apply o_has].
    split; [reflexivity|]. split; [reflexivity|]. split; [reflexivity|]. split; [lia|]. split; [|split].
    + intros i IR.
      apply (agree_mono _ (o_apply o + length es)); [exact LB|].
      apply (agree_ext _ _ (effs es (o_has o))).
      * rewrite replay_loop_has; [reflexivity|exact AO| |apply pend_nil; rewrite ES; exact EW2|left; reflexivity].
        apply in_rng_spec. unfold in_region in IR. rewrite LO, HI. exact IR.
      * eapply agree_effs; try eassumption; [|apply AG; exact IR].
        intros k e N. rewrite ES in N. pose proof N as N0. apply span_nth in N. destruct N as [N1 N2].
        split; [exact N2|]. split; [lia|]. apply EW1. eapply nth_error_In. exact N0.
    + intros i IR. apply replay_loop_out; [exact AO| |intros []|intros []].
      destruct (in_rng (o_lo o) (o_hi o) i) eqn:E; [|reflexivity].
      exfalso. apply IR. apply in_rng_spec in E. unfold in_region. rewrite <- LO, <- HI. exact E.
    + intros j e J1 J2 N W.
      assert (K : nth_error es (j - o_apply o) = Some e).
      { rewrite ES. apply span_nth. replace (o_apply o + (j - o_apply o))%nat with j by lia. split; [exact J2|exact N]. }
      assert (D : is_data e = false).
      { eapply (last_data_after es (o_apply o) (o_apply o)); [lia|exact K|]. fold last. lia. }
      unfold is_data, is_write in *. destruct (e_op e); try discriminate; contradiction.
Qed.

(** ** Regions not concerned by a step *)

Lemma WR_frame d h d' h' r :
  functional d -> functional d' ->
  (length h <= length h')%nat ->
  (forall p, (p < length h)%nat -> o_lo (geto h' p) = o_lo (geto h p) /\
     o_hi (geto h' p) = o_hi (geto h p) /\ o_epoch (geto h' p) = o_epoch (geto h p)) ->
  (forall p i, (p < length h)%nat -> in_region r i -> o_has (geto h' p) i = o_has (geto h p) i) ->
  (forall p, bobj (r_bpc r) = Some p -> o_apply (geto h' p) = o_apply (geto h p) /\
     (r_bpc r = BScan p -> forall i, o_has (geto h p) i = None -> o_has (geto h' p) i = None)) ->
  (forall i t v, in_region r i -> In (i, t, v) d <-> In (i, t, v) d') ->
  WR d h r -> WR d' h' r.
Proof.
  intros F F' LEN RNG HAS BLD DAT W.
  assert (PT : forall x, ptr_ok h x -> ptr_ok h' x) by (intros x P p E; apply P in E; lia).
  assert (AG : forall p a i, (p < length h)%nat -> in_region r i ->
     agree (r_log r) a (o_has (geto h p)) d i -> agree (r_log r) a (o_has (geto h' p)) d' i).
  { intros p a i P IR G. apply (agree_ext _ _ (o_has (geto h p))); [symmetry; apply HAS; assumption|].
    eapply agree_data; [exact F|exact F'| |exact G]. intros t v. apply DAT. exact IR. }
  assert (CP : forall p, cur_index r = Some p -> (p < length h)%nat).
  { intros p C. unfold cur_index in C. destruct (w_share r) as [x|] eqn:E.
    - injection C as <-. apply (W_share_ptr _ _ _ W). exact E.
    - apply (W_own_ptr _ _ _ W). exact C. }
  constructor.
  - apply PT, W.
  - apply PT, W.
  - apply PT, W.
  - apply PT, W.
  - intros p q E. destruct (W_awr_ptr _ _ _ W p q E) as [H1 H2]. split; [lia|apply PT; exact H2].
  - apply W.
  - intros p E. destruct (W_own _ _ _ W p E) as [H1 [H2 H3]]. split; [exact H1|]. split; [exact H2|].
    destruct (RNG p (W_own_ptr _ _ _ W p E)) as [-> [-> ->]]. exact H3.
  - apply W.
  - intros AL RD. destruct (W_rdy _ _ _ W AL RD) as [p [C H]]. exists p. split; [exact C|].
    pose proof (CP p C) as P. destruct (RNG p P) as [R1 [R2 _]]. rewrite R1, R2.
    destruct (w_sib r) as [q|] eqn:S.
    + pose proof (W_sib_ptr _ _ _ W q S) as Q. destruct (RNG q Q) as [Q1 [Q2 _]]. rewrite Q1, Q2.
      unfold in_obj in *. rewrite R1, R2, Q1, Q2.
      destruct H as [H1 [H2 [H3 [H4 [H5 [H6 [H7 [H8 H9]]]]]]]].
      repeat (split; [assumption|]). split.
      * intros i IO. apply AG; [exact P|unfold in_region; lia|apply H8; exact IO].
      * intros i IO. apply AG; [exact Q|unfold in_region; lia|apply H9; exact IO].
    + destruct H as [H1 [H2 H3]]. split; [exact H1|]. split; [exact H2|].
      intros i IR. apply AG; [exact P|exact IR|apply H3; exact IR].
  - intros q AL E. destruct (RNG q (W_sib_ptr _ _ _ W q E)) as [-> [-> _]]. apply W; assumption.
  - intros p q AL E. destruct (W_awr_ptr _ _ _ W p q E) as [H1 _].
    destruct (RNG p H1) as [-> [-> _]]. apply W; assumption.
  - intros p AL E. destruct (W_bld _ _ _ W p AL E) as [H1 [H2 [H3 [H4 [H5 [H6 H7]]]]]].
    pose proof (W_bld_ptr _ _ _ W p E) as P. destruct (RNG p P) as [-> [-> ->]].
    destruct (BLD p E) as [-> B2].
    repeat (split; [assumption|]). split; [|split].
    + intros NB i IR. apply AG; [exact P|exact IR|apply H5; assumption].
    + intros SB i. apply B2; [exact SB|]. apply H6. exact SB.
    + exact H7.
  - intros n E. destruct (W_snap _ _ _ W n E) as [H1 H2]. split; [exact H1|].
    intro AL. destruct (H2 AL) as [H3 [H4 H5]]. split; [exact H3|]. split; [exact H4|].
    intro EP. destruct (H5 EP) as [H6 [H7 H8]]. split; [exact H6|]. split; [exact H7|].
    intros i IR. eapply agree_data; [exact F|exact F'| |apply H8; exact IR]. intros t v. apply DAT. exact IR.
  - apply W.
  - apply W.
Qed.

Lemma WR_same d h r : WR d h r -> WR d h r.
Proof. exact (fun x => x). Qed.

(** Changing one region. *)
Lemma Inv_on_reg s s' n r f :
  Inv s -> reg_at s n r -> LInv s' ->
  s_regs s' = upd (s_regs s) n f ->
  WR (s_data s') (s_heap s') (f r) ->
  (forall m r0, n <> m -> reg_at s m r0 -> WR (s_data s) (s_heap s) r0 -> WR (s_data s') (s_heap s') r0) ->
  sub_heap (s_heap s') ->
  (forall p, bobj (r_bpc (f r)) = Some p -> bobj (r_bpc r) = Some p \/ (length (s_heap s) <= p)%nat) ->
  Inv s'.
Proof.
  intros I A L R W O SU B.
  assert (RB : forall m r', reg_at s' m r' -> exists r0, reg_at s m r0 /\
    ((n = m /\ r0 = r /\ r' = f r) \/ (n <> m /\ r' = r0))).
  { intros m r' X. unfold reg_at in X. rewrite R in X.
    destruct (upd_at _ _ _ _ _ X) as [r0 [A' [[-> ->]|[N ->]]]]; exists r0; (split; [exact A'|]).
    - left. assert (r0 = r) by (unfold reg_at in *; congruence). subst. auto.
    - right. auto. }
  constructor.
  - exact L.
  - intros m r' X. destruct (RB _ _ X) as [r0 [X0 [[-> [-> ->]]|[N ->]]]]; [exact W|].
    eapply O; [exact N|exact X0|]. eapply (I_reg s I). exact X0.
  - exact SU.
  - intros n1 r1 n2 r2 p X1 X2 N B1 B2.
    destruct (RB _ _ X1) as [x [Y1 [[E1 [-> ->]]|[N1 ->]]]];
    destruct (RB _ _ X2) as [y [Y2 [[E2 [-> ->]]|[N2 ->]]]].
    + congruence.
    + destruct (B p B1) as [Z|Z].
      * eapply (I_dis s I n1 r n2 y); eassumption.
      * pose proof (W_bld_ptr _ _ _ (I_reg s I _ _ Y2) p B2). lia.
    + destruct (B p B2) as [Z|Z].
      * eapply (I_dis s I n1 x n2 r); eassumption.
      * pose proof (W_bld_ptr _ _ _ (I_reg s I _ _ Y1) p B1). lia.
    + eapply (I_dis s I n1 x n2 y); eassumption.
Qed.
