(** Runs of the vector index model: a checker for calm steps, a long calm run,
    and runs with one slip. *)
Require Import ZArith List Bool Permutation Lia.
Require Import Verif.VecModel Verif.VecSpec Verif.VecProofs Verif.VecInvL Verif.VecInvW.
Import ListNotations.
Open Scope Z_scope.

(** ** A checker for calm steps *)

Fixpoint once_b (seen : list Z) (es : list entry) : bool :=
  match es with
  | [] => true
  | e :: r =>
      match e_op e with
      | OAdd l => ids_distinct (seen ++ map fst l) && once_b (seen ++ map fst l) r
      | ODel _ => once_b [] r
      | _ => once_b seen r
      end
  end.

Lemma once_b_tail : forall pre seen rest, NoDup seen -> once_b seen (pre ++ rest) = true ->
  exists seen', NoDup seen' /\ once_b seen' rest = true.
Proof.
  induction pre as [|e pre IH]; intros seen rest ND H; simpl in H; [exists seen; auto|].
  destruct (e_op e).
  - apply andb_true_iff in H. destruct H as [H1 H2]. apply ids_distinct_spec in H1. eapply IH; eassumption.
  - eapply IH; [|exact H]. constructor.
  - eapply IH; eassumption.
  - eapply IH; eassumption.
  - eapply IH; eassumption.
Qed.

Lemma once_b_mid : forall mid seen post, NoDup seen -> once_b seen (mid ++ post) = true ->
  (forall e, In e mid -> match e_op e with ODel _ => False | _ => True end) ->
  NoDup (seen ++ flat_map (fun e => match e_op e with OAdd l => map fst l | _ => [] end) mid).
Proof.
  induction mid as [|e mid IH]; intros seen post ND H F; simpl; [rewrite app_nil_r; exact ND|].
  simpl in H. pose proof (F e (or_introl eq_refl)) as FE. destruct (e_op e).
  - apply andb_true_iff in H. destruct H as [H1 H2]. apply ids_distinct_spec in H1.
    rewrite app_assoc. eapply IH; [exact H1|exact H2|]. intros x X. apply F. right. exact X.
  - contradiction.
  - simpl. eapply IH; [exact ND|exact H|]. intros x X. apply F. right. exact X.
  - simpl. eapply IH; [exact ND|exact H|]. intros x X. apply F. right. exact X.
  - simpl. eapply IH; [exact ND|exact H|]. intros x X. apply F. right. exact X.
Qed.

Lemma once_b_sound es : once_b [] es = true -> added_once es.
Proof.
  intros H pre mid post E F. subst es.
  destruct (once_b_tail pre [] (mid ++ post)) as [seen [N K]]; [constructor|exact H|].
  pose proof (once_b_mid mid seen post N K F) as M. eapply NoDup_app_r. exact M.
Qed.

Definition easy_b (r : region) (a b : nat) : bool :=
  forallb (fun e => e_epoch e =? r_epoch r) (span (r_log r) a b) && once_b [] (span (r_log r) a b).

Lemma easy_b_sound r a b : easy_b r a b = true -> easy_window r a b.
Proof.
  intro H. apply andb_true_iff in H. destruct H as [H1 H2]. split; [|apply once_b_sound; exact H2].
  rewrite forallb_forall in H1. intros e X. apply Z.eqb_eq. apply H1. exact X.
Qed.

Definition settled_b (s : state) (r : region) : bool :=
  match r_bpc r, w_share r, w_sib r with
  | BIdle, None, None =>
      if w_ready r then
        match w_own r with
        | Some p => (o_lo (geto (s_heap s) p) =? r_lo r) && (o_hi (geto (s_heap s) p) =? r_hi r)
        | None => false
        end
      else true
  | _, _, _ => false
  end.

Lemma settled_b_sound s r : settled_b s r = true -> settled s r.
Proof.
  unfold settled_b, settled. destruct (r_bpc r); try discriminate. destruct (w_share r); try discriminate.
  destruct (w_sib r); try discriminate. intro H. split; [reflexivity|]. split; [reflexivity|]. split; [reflexivity|].
  intro RD. rewrite RD in H. destruct (w_own r) as [p|]; [|discriminate]. exists p.
  apply andb_true_iff in H. rewrite !Z.eqb_eq in H. destruct H. auto.
Qed.

Definition none_b {A} (l : list A) : bool := match l with [] => true | _ => false end.

Definition is_write_b (e : entry) : bool :=
  match e_op e with OAdd _ | ODel _ => true | _ => false end.

Definition calm_b (g : cfg) (s : state) (a : action) : bool :=
  match a with
  | Propose n o ts =>
      (match o with OAdd l => ids_distinct (map fst l) | _ => true end) &&
      forallb (fun r => forallb (fun e => e_ts e <? ts) (r_log r)) (s_regs s)
  | ApplyData n =>
      match nth_error (s_regs s) n with
      | None => true
      | Some r =>
          match nth_error (r_log r) (r_applied r) with
          | None => true
          | Some e =>
              if e_epoch e =? r_epoch r then
                match e_op e with
                | OSplit _ => settled_b s r
                | OMerge m => settled_b s r &&
                    match nth_error (s_regs s) m with
                    | None => true
                    | Some src => settled_b s src && (negb (w_ready r) || w_ready src)
                    end
                | _ => true
                end
              else true
          end
      end
  | ApplyWrite n _ =>
      match nth_error (s_regs s) n with
      | None => true
      | Some r =>
          match nth_error (r_log r) (r_applied r), r_apc r with
          | Some e, AWrite p (Some q) =>
              match e_op e with
              | OAdd l => negb (c_hnsw g) || (negb (none_b (keep_pairs (geto (s_heap s) q) l)) &&
                                             negb (none_b (keep_pairs (geto (s_heap s) p) l)))
              | _ => true
              end
          | _, _ => true
          end
      end
  | CatchUp n _ =>
      match nth_error (s_regs s) n with
      | None => true
      | Some r => match r_bpc r with
                  | BCatch p => easy_b r (o_apply (geto (s_heap s) p)) (r_applied r - 1)
                  | _ => true
                  end
      end
  | LastRound n _ =>
      match nth_error (s_regs s) n with
      | None => true
      | Some r => match r_bpc r with
                  | BLast p => easy_b r (o_apply (geto (s_heap s) p)) (r_applied r - 1)
                  | _ => true
                  end
      end
  | SwitchIndex n true =>
      match nth_error (s_regs s) n with
      | None => true
      | Some r => match r_bpc r with
                  | BSwitch p en =>
                      match r_apc r with AIdle | AWait => true | _ => false end &&
                      forallb (fun e => negb (is_write_b e))
                        (span (r_log r) (Nat.max (o_apply (geto (s_heap s) p)) (en - 1)) (r_applied r))
                  | _ => true
                  end
      end
  | Crashed bs =>
      forallb (fun x : nat * region => let '(n, r) := x in
        (w_meta r <=? Nat.min (nth n bs O) (r_applied r))%nat &&
        forallb (fun e => (e_epoch e =? r_epoch r) ||
                          negb (existsb (fun y : version => snd (fst y) =? e_ts e) (s_data s)))
                (skipn (nth n bs O) (r_log r)))
        (combine (seq 0 (length (s_regs s))) (s_regs s))
  | _ => true
  end.

Lemma nth_combine_seq {A} (l : list A) : forall k n x, nth_error l n = Some x -> In ((k + n)%nat, x) (combine (seq k (length l)) l).
Proof.
  induction l as [|y l IH]; intros k [|n] x H; simpl in H; try discriminate.
  - injection H as <-. left. f_equal. lia.
  - right. replace (k + S n)%nat with (S k + n)%nat by lia. apply IH. exact H.
Qed.

Lemma nth_skipn_in {A} (l : list A) : forall b j x, (b <= j)%nat -> nth_error l j = Some x -> In x (skipn b l).
Proof.
  induction l as [|y l IH]; intros b j x L H; [destruct j; discriminate|].
  destruct b as [|b]; [eapply nth_error_In; exact H|]. destruct j as [|j]; [lia|]. simpl. eapply IH; [|exact H]. lia.
Qed.

Lemma calm_b_sound g s a : calm_b g s a = true -> calm_step g s a.
Proof.
  destruct a; simpl; intro H; try exact I.
  - apply andb_true_iff in H. destruct H as [H1 H2]. split.
    + destruct o; try exact I. apply ids_distinct_spec. exact H1.
    + intros m r j e A N. rewrite forallb_forall in H2. apply nth_error_In in A, N.
      specialize (H2 r A). rewrite forallb_forall in H2. apply Z.ltb_lt. apply H2. exact N.
  - intros r e A N EP. rewrite A, N in H. rewrite EP, Z.eqb_refl in H. destruct (e_op e); try exact I.
    + apply settled_b_sound. exact H.
    + apply andb_true_iff in H. destruct H as [H1 H2]. split; [apply settled_b_sound; exact H1|].
      intros rs B. rewrite B in H2. apply andb_true_iff in H2. destruct H2 as [H2 H3].
      split; [apply settled_b_sound; exact H2|]. intro RD. rewrite RD in H3. exact H3.
  - intros r e p q l A N PC O HN. rewrite A, N, PC, O, HN in H. simpl in H.
    apply andb_true_iff in H. destruct H as [H1 H2].
    split; intro X; [rewrite X in H1; discriminate|rewrite X in H2; discriminate].
  - intros r p A PB. rewrite A, PB in H. apply easy_b_sound. exact H.
  - intros r p A PB. rewrite A, PB in H. apply easy_b_sound. exact H.
  - destruct hold; [|exact I]. intros r p en A PB. rewrite A, PB in H.
    apply andb_true_iff in H. destruct H as [H1 H2]. split.
    + destruct (r_apc r); try discriminate; auto.
    + intros j e J1 J2 N W. rewrite forallb_forall in H2.
      assert (K : In e (span (r_log r) (Nat.max (o_apply (geto (s_heap s) p)) (en - 1)) (r_applied r))).
      { set (a := Nat.max (o_apply (geto (s_heap s) p)) (en - 1)) in *.
        apply (nth_error_In _ (j - a)). apply span_nth. replace (a + (j - a))%nat with j by lia. split; [lia|exact N]. }
      apply H2 in K. unfold is_write, is_write_b in *. destruct (e_op e); try discriminate; contradiction.
  - intros n r A. rewrite forallb_forall in H. pose proof (nth_combine_seq (s_regs s) 0 n r A) as K.
    apply H in K. simpl in K. apply andb_true_iff in K. destruct K as [K1 K2]. split; [apply Nat.leb_le; exact K1|].
    intros j e i v J N EP X. rewrite forallb_forall in K2.
    specialize (K2 e (nth_skipn_in _ _ _ _ J N)). apply orb_true_iff in K2. destruct K2 as [K2|K2].
    + apply Z.eqb_eq in K2. congruence.
    + apply negb_true_iff in K2. assert (Y : existsb (fun y : version => snd (fst y) =? e_ts e) (s_data s) = true).
      { apply existsb_exists. exists (i, e_ts e, v). split; [exact X|]. simpl. apply Z.eqb_refl. }
      congruence.
Qed.

(** Runs all of whose steps pass the checker. *)
Fixpoint calm_exec (g : cfg) (s : state) (acts : list action) : option state :=
  match acts with
  | [] => Some s
  | a :: r => if calm_b g s a then match step g s a with Some s1 => calm_exec g s1 r | None => None end else None
  end.

Lemma calm_exec_sound g : forall acts s s', calm_exec g s acts = Some s' -> calm_run g s acts s'.
Proof.
  induction acts as [|a acts IH]; intros s s' H; simpl in H.
  - injection H as <-. constructor.
  - destruct (calm_b g s a) eqn:C; [|discriminate]. destruct (step g s a) as [s1|] eqn:S; [|discriminate].
    econstructor; [apply calm_b_sound; exact C|exact S|apply IH; exact H].
Qed.

(** ** Configurations and small scripts *)

Definition flat_cfg : cfg :=
  {| c_hnsw := false; c_chunk := 8; c_batch := 64; c_gap := 16; c_order := fun _ l => l |}.
Definition hnsw_cfg : cfg :=
  {| c_hnsw := true; c_chunk := 1; c_batch := 64; c_gap := 16; c_order := fun _ l => rev l |}.

Lemma flat_any : any_order flat_cfg.
Proof. intros seed l. apply Permutation_refl. Qed.
Lemma hnsw_any : any_order hnsw_cfg.
Proof. intros seed l. apply Permutation_sym, Permutation_rev. Qed.

(** A write through the whole handler, with and without an index. *)
Definition put_i n o ts := [Propose n o ts; ApplyData n; ApplyPick n; ApplyWrite n 0; ApplyMark n; ApplyDone n].
Definition put_n n o ts := [Propose n o ts; ApplyData n; ApplyDone n].
Definition build n k := [BuildStart n k true; BuildScan n 0; CatchUp n 0; LockSwitch n; LastRound n 0;
                         SwitchIndex n true; UnlockSwitch n].

(** Additions, a build, deletions, a save, a split, both halves rebuilt, a
    merge, writes to both siblings, a restart, a load, a rebuild. *)
Definition calm_script : list action :=
  put_n 0 (OAdd [(10, 1); (60, 2)]) 1 ++ build 0 1 ++
  put_i 0 (OAdd [(10, 3); (20, 4); (70, 5)]) 2 ++ put_i 0 (ODel [60]) 3 ++ [SaveIndex 0] ++
  put_n 0 (OSplit 50) 4 ++ put_i 0 (OAdd [(80, 6)]) 5 ++ put_i 1 (OAdd [(30, 7)]) 6 ++
  build 0 5 ++ build 1 1 ++
  put_n 0 (OMerge 1) 7 ++ put_i 0 (OAdd [(15, 8); (85, 9)]) 8 ++
  build 0 7 ++ [SaveIndex 0; Crashed [7%nat; 1%nat]; LoadIndex 0] ++
  [CatchUp 0 0; LockSwitch 0; LastRound 0 0; SwitchIndex 0 true; UnlockSwitch 0] ++
  put_i 0 (ODel [20]) 9.


(** ** Runs with one slip *)

Definition slip_exec (g : cfg) (pre : list action) (a : action) (post : list action) : option (state * state) :=
  match calm_exec g (init 0 100) pre with
  | Some s1 => match step g s1 a with
               | Some s2 => match calm_exec g s2 post with Some s => Some (s1, s) | None => None end
               | None => None
               end
  | None => None
  end.

Lemma slip_exec_sound g pre a post s1 s : slip_exec g pre a post = Some (s1, s) -> one_slip g pre a post s1 s.
Proof.
  unfold slip_exec. destruct (calm_exec g (init 0 100) pre) as [x1|] eqn:E1; [|discriminate].
  destruct (step g x1 a) as [x2|] eqn:E2; [|discriminate].
  destruct (calm_exec g x2 post) as [x|] eqn:E3; [|discriminate]. intro H. injection H as <- <-.
  exists x2. split; [apply calm_exec_sound; exact E1|]. split; [exact E2|apply calm_exec_sound; exact E3].
Qed.

Definition rest_b (r : region) : bool :=
  match r_apc r, r_bpc r with AIdle, BIdle => (r_applied r =? length (r_log r))%nat | _, _ => false end.

(** The value [v] under [i]: found although not stored, or stored in the region
    and not found. *)
Definition wrong_b (s : state) (n : nat) (i v : Z) : bool :=
  match nth_error (s_regs s) n with
  | None => false
  | Some r =>
      r_alive r && w_ready r && rest_b r &&
      negb (Bool.eqb (match searchable s n i v with Some b => b | None => false end)
                     (in_rng (r_lo r) (r_hi r) i &&
                      match stored (s_data s) i with Some w => w =? v | None => false end))
  end.

Lemma wrong_b_sound s n i v : wrong_b s n i v = true -> index_wrong s n.
Proof.
  unfold wrong_b. destruct (nth_error (s_regs s) n) as [r|] eqn:A; [|discriminate]. intro H.
  apply andb_true_iff in H. destruct H as [H H4]. apply andb_true_iff in H. destruct H as [H H3].
  apply andb_true_iff in H. destruct H as [H1 H2].
  exists r, i. split; [split; [exact A|split; assumption]|]. split.
  - unfold rest_b in H3. destruct (r_apc r) eqn:E1; try discriminate. destruct (r_bpc r) eqn:E2; try discriminate.
    apply Nat.eqb_eq in H3. split; [exact E1|]. split; [exact E2|exact H3].
  - intro F. specialize (F v). destruct F as [F1 F2].
    apply negb_true_iff in H4. apply Bool.eqb_false_iff in H4. apply H4.
    destruct (searchable s n i v) as [[|]|] eqn:S.
    + destruct (F1 eq_refl) as [R X]. rewrite X, Z.eqb_refl, andb_true_r. symmetry. apply in_rng_spec. exact R.
    + symmetry. apply not_true_iff_false. intro Y. apply andb_true_iff in Y. destruct Y as [Y1 Y2].
      apply in_rng_spec in Y1. destruct (stored (s_data s) i) as [w|]; [|discriminate].
      apply Z.eqb_eq in Y2. subst w. discriminate (F2 (conj Y1 eq_refl)).
    + symmetry. apply not_true_iff_false. intro Y. apply andb_true_iff in Y. destruct Y as [Y1 Y2].
      apply in_rng_spec in Y1. destruct (stored (s_data s) i) as [w|]; [|discriminate].
      apply Z.eqb_eq in Y2. subst w. discriminate (F2 (conj Y1 eq_refl)).
Qed.

Definition slip_wrong (g : cfg) pre a post n i v (P : state -> bool) : bool :=
  match slip_exec g pre a post with
  | Some (s1, s) => P s1 && wrong_b s n i v
  | None => false
  end.

Lemma slip_wrong_sound g pre a post n i v P :
  slip_wrong g pre a post n i v P = true ->
  exists s1 s, one_slip g pre a post s1 s /\ P s1 = true /\ index_wrong s n.
Proof.
  unfold slip_wrong. destruct (slip_exec g pre a post) as [[s1 s]|] eqn:E; [|discriminate].
  intro H. apply andb_true_iff in H. destruct H as [H1 H2]. exists s1, s.
  split; [apply slip_exec_sound; exact E|]. split; [exact H1|eapply wrong_b_sound; exact H2].
Qed.

Definition any_state (s : state) : bool := true.

Lemma slip_any g pre a post n i v : slip_wrong g pre a post n i v any_state = true ->
  exists s1 s, one_slip g pre a post s1 s /\ index_wrong s n.
Proof.
  intro H. apply slip_wrong_sound in H. destruct H as [s1 [s [O [_ W]]]]. exists s1, s. split; assumption.
Qed.

(** A write applied while the index is being built, the last entry applied when
    the last round begins: the round does not read it. *)
Definition b1_pre := put_n 0 (OAdd [(1, 10)]) 1 ++ [BuildStart 0 1 true; BuildScan 0 0] ++
  put_n 0 (OAdd [(2, 20)]) 2 ++ [CatchUp 0 0; LockSwitch 0; LastRound 0 0].
Definition b1_post := [UnlockSwitch 0].
Lemma b1 : slip_wrong flat_cfg b1_pre (SwitchIndex 0 true) b1_post 0 2 20 any_state = true.
Proof. vm_compute. reflexivity. Qed.

(** The same, and the region is saved, restarted and its index loaded. *)
Definition b1s_post := [UnlockSwitch 0] ++ put_i 0 (OAdd [(3, 30)]) 3 ++
  [SaveIndex 0; Crashed [3%nat]; LoadIndex 0; CatchUp 0 0; LockSwitch 0; LastRound 0 0; SwitchIndex 0 true; UnlockSwitch 0].
Lemma b1s : slip_wrong flat_cfg b1_pre (SwitchIndex 0 true) b1s_post 0 2 20 any_state = true.
Proof. vm_compute. reflexivity. Qed.

(** A write whose handler has fetched the old index when the new one is put in place. *)
Definition b2_pre := put_n 0 (OAdd [(1, 10)]) 1 ++ build 0 1 ++ [BuildStart 0 1 true; BuildScan 0 0] ++
  [Propose 0 (OAdd [(2, 20)]) 2; ApplyData 0; ApplyPick 0; CatchUp 0 0; LockSwitch 0; LastRound 0 0].
Definition b2_post := [ApplyWrite 0 0; ApplyMark 0; ApplyDone 0; UnlockSwitch 0].
Definition b2_at (s : state) : bool :=
  match nth_error (s_regs s) 0 with
  | Some r => match r_apc r with AWrite _ _ => true | _ => false end
  | None => false end.
Lemma b2 : slip_wrong flat_cfg b2_pre (SwitchIndex 0 true) b2_post 0 2 20 b2_at = true.
Proof. vm_compute. reflexivity. Qed.

(** A region without an index: a write applied after the last round, before the switch. *)
Definition b14_pre := put_n 0 (OAdd [(1, 10)]) 1 ++
  [BuildStart 0 1 true; BuildScan 0 0; CatchUp 0 0; LockSwitch 0; LastRound 0 0] ++ put_n 0 (OAdd [(2, 20)]) 2.
Lemma b14 : slip_wrong flat_cfg b14_pre (SwitchIndex 0 true) b1_post 0 2 20 any_state = true.
Proof. vm_compute. reflexivity. Qed.

(** An id added twice in the replayed part of the log: the replayed batch is
    refused as a whole. *)
Definition b3_pre := put_n 0 (OAdd [(1, 10)]) 1 ++ [BuildStart 0 1 true; BuildScan 0 0; CatchUp 0 0; LockSwitch 0] ++
  put_n 0 (OAdd [(2, 20)]) 2 ++ put_n 0 (OAdd [(2, 21); (3, 30)]) 3 ++ put_n 0 OConf 4.
Definition b3_post := [SwitchIndex 0 true; UnlockSwitch 0].
Lemma b3 : slip_wrong flat_cfg b3_pre (LastRound 0 0) b3_post 0 3 30 any_state = true.
Proof. vm_compute. reflexivity. Qed.

(** A write proposed before a split was applied, refused by its handler, and
    replayed into the index. *)
Definition b16_pre := [Propose 0 (OSplit 50) 1; Propose 0 (OAdd [(70, 7)]) 2; ApplyData 0; ApplyDone 0] ++
  [BuildStart 0 1 true; BuildScan 0 0; CatchUp 0 0; LockSwitch 0; ApplyData 0; ApplyDone 0] ++ put_n 0 OConf 3.
Lemma b16 : slip_wrong flat_cfg b16_pre (LastRound 0 0) b3_post 0 70 7 any_state = true.
Proof. vm_compute. reflexivity. Qed.

(** Two siblings, and an addition that falls to one of them only. *)
Definition siblings := build 0 0 ++ put_n 0 (OSplit 50) 1 ++ build 0 1 ++ build 1 0 ++ put_n 0 (OMerge 1) 2.
Definition b4_pre := siblings ++ [Propose 0 (OAdd [(10, 1)]) 3; ApplyData 0; ApplyPick 0].
Definition b4_post := [ApplyDone 0].
Lemma b4 : slip_wrong hnsw_cfg b4_pre (ApplyWrite 0 0) b4_post 0 10 1 any_state = true.
Proof. vm_compute. reflexivity. Qed.

(** A split while the index is being built. *)
Definition b5_pre := put_n 0 (OAdd [(10, 1)]) 1 ++ [BuildStart 0 1 true; BuildScan 0 0; Propose 0 (OSplit 50) 2].
Definition b5_post := [ApplyDone 0; CatchUp 0 0; LockSwitch 0; LastRound 0 0; SwitchIndex 0 true; UnlockSwitch 0].
Lemma b5 : slip_wrong flat_cfg b5_pre (ApplyData 0) b5_post 0 10 1 any_state = true.
Proof. vm_compute. reflexivity. Qed.

(** One request that names an id twice. *)
Definition b6_post := [ApplyData 0; ApplyPick 0; ApplyWrite 0 0; ApplyDone 0].
Definition b13_post := [ApplyData 0; ApplyPick 0; ApplyWrite 0 0; ApplyMark 0; ApplyDone 0].
Lemma b6 : slip_wrong flat_cfg (build 0 0) (Propose 0 (OAdd [(1, 1); (1, 2); (3, 3)]) 1) b6_post 0 3 3 any_state = true.
Proof. vm_compute. reflexivity. Qed.

(** A restart that resumes behind the entry up to which the index is marked. *)
Definition b7_pre := put_n 0 (OAdd [(1, 10)]) 1 ++ build 0 1 ++ [SaveIndex 0] ++
  put_i 0 (OAdd [(2, 20)]) 2 ++ put_i 0 (OAdd [(3, 30)]) 3 ++ build 0 3.
Definition b7_post := [LoadIndex 0; CatchUp 0 0; LockSwitch 0; LastRound 0 0; SwitchIndex 0 true; UnlockSwitch 0;
  ApplyData 0; ApplyDone 0; ApplyData 0; ApplyDone 0].
Lemma b7 : slip_wrong flat_cfg b7_pre (Crashed [1%nat]) b7_post 0 2 20 any_state = true.
Proof. vm_compute. reflexivity. Qed.

(** A write whose timestamp is older than that of the write before it in the log. *)
Definition b13_pre := build 0 0 ++ put_i 0 (OAdd [(1, 10)]) 5.
Lemma b13 : slip_wrong flat_cfg b13_pre (Propose 0 (OAdd [(1, 11)]) 3) b13_post 0 1 10 any_state = true.
Proof. vm_compute. reflexivity. Qed.

(** A merge whose source has no index. *)
Definition b18_pre := build 0 0 ++ put_n 0 (OSplit 50) 1 ++ build 0 1 ++ build 1 0 ++ put_i 1 (OAdd [(10, 1)]) 2 ++
  [ClearIndex 1; Propose 0 (OMerge 1) 3].
Lemma b18 : slip_wrong flat_cfg b18_pre (ApplyData 0) [ApplyDone 0] 0 10 1 any_state = true.
Proof. vm_compute. reflexivity. Qed.

(** ** The calm run *)

Definition calm_ok (g : cfg) (acts : list action) : bool :=
  match calm_exec g (init 0 100) acts with
  | Some s => match nth_error (s_regs s) 0 with
              | Some r => rest_b r && w_ready r && r_alive r &&
                          match searchable s 0 10 3, searchable s 0 20 4, stored (s_data s) 10 with
                          | Some true, Some false, Some 3 => true
                          | _, _, _ => false
                          end
              | None => false end
  | None => false
  end.

Lemma calm_meets g acts : any_order g -> calm_ok g acts = true ->
  exists s r, any_order g /\ calm_run g (init 0 100) acts s /\ serving s 0 r /\ at_rest r /\
    searchable s 0 10 3 = Some true /\ stored (s_data s) 10 = Some 3 /\ searchable s 0 20 4 = Some false.
Proof.
  intros O H. unfold calm_ok in H. destruct (calm_exec g (init 0 100) acts) as [s|] eqn:E; [|discriminate].
  assert (CR : calm_run g (init 0 100) acts s) by (exact (calm_exec_sound g acts (init 0 100) s E)).
  clear E. destruct (nth_error (s_regs s) 0) as [r|] eqn:A; [|discriminate].
  apply andb_true_iff in H. destruct H as [H H4]. apply andb_true_iff in H. destruct H as [H H3].
  apply andb_true_iff in H. destruct H as [H1 H2].
  destruct (searchable s 0 10 3) as [[|]|] eqn:S1; try discriminate.
  destruct (searchable s 0 20 4) as [[|]|] eqn:S2; try discriminate.
  destruct (stored (s_data s) 10) as [z|] eqn:S3; [|discriminate].
  assert (Z : z = 3) by (destruct z as [|[[| |]|[| |]|]|]; congruence || discriminate).
  exists s, r. split; [exact O|]. split; [exact CR|]. clear CR.
  split; [split; [exact A|split; assumption]|]. split.
  { unfold rest_b in H1. destruct (r_apc r) eqn:E1; try discriminate. destruct (r_bpc r) eqn:E2; try discriminate.
    apply Nat.eqb_eq in H1. split; [exact E1|]. split; [exact E2|exact H1]. }
  split; [exact S1|]. split; [rewrite S3, Z; reflexivity|exact S2].
Qed.

Lemma b1s_wrong : exists pre post s1 s,
  In (SaveIndex 0) post /\ In (LoadIndex 0) post /\
  one_slip flat_cfg pre (SwitchIndex 0 true) post s1 s /\ index_wrong s 0.
Proof.
  destruct (slip_wrong_sound _ _ _ _ _ _ _ _ b1s) as [s1 [s [O [_ W]]]].
  exists b1_pre, b1s_post, s1, s.
  split; [simpl; tauto|]. split; [simpl; tauto|]. split; assumption.
Qed.

Lemma b2_wrong : exists pre post s1 s r p q,
  one_slip flat_cfg pre (SwitchIndex 0 true) post s1 s /\
  nth_error (s_regs s1) 0 = Some r /\ r_apc r = AWrite p q /\ index_wrong s 0.
Proof.
  destruct (slip_wrong_sound _ _ _ _ _ _ _ _ b2) as [s1 [s [O [P W]]]].
  unfold b2_at in P. destruct (nth_error (s_regs s1) 0) as [r|] eqn:A; [|discriminate].
  destruct (r_apc r) eqn:E; try discriminate.
  exists b2_pre, b2_post, s1, s, r. eexists. eexists.
  split; [exact O|]. split; [exact A|]. split; [exact E|exact W].
Qed.

Lemma calm_ok_flat : calm_ok flat_cfg calm_script = true.
Proof. vm_compute. reflexivity. Qed.
Lemma calm_ok_hnsw : calm_ok hnsw_cfg calm_script = true.
Proof. vm_compute. reflexivity. Qed.
