(** A session in use is kept; proofs. *)
From Coq Require Import ZArith List Bool Lia Sorted PeanoNat.
From Verif Require Import Bytes Outcome CodecModel CodecSpec MvccModel MvccSpec MvccProofs SessModel SessSpec SessProofs SessInv SessStep SessStep2.
Import ListNotations.
Open Scope Z_scope.

Definition uses_at (p : nat) (log : list (Z * event)) : list Z := map fst (filter (use_at p) log).

Definition running (c : ctx) : Prop := x_state c = SBegun \/ x_state c = SContinued.

Definition active (g : cfg) (own : nat -> Z) (s : state) : Prop :=
  forall p c, nth_error (s_heap s) p = Some c -> filter (begin_at p) (s_log s) <> [] ->
    ~ failed (own p) (s_log s) -> ~ released (own p) (s_log s) ->
    used_within (c_timeout g) (uses_at p (s_log s)) (s_now s) ->
    running c /\ x_last c = last (uses_at p (s_log s)) 0.

Lemma used_within_now T l : forall now now', now <= now' -> used_within T l now' -> used_within T l now.
Proof.
  induction l as [|t l IH]; intros now now' L H; cbn in *; auto.
  destruct H as [H1 H2]. split; [destruct l; lia|eapply IH; eauto].
Qed.

Lemma used_within_snoc T l : forall now now', used_within T (l ++ [now]) now' -> used_within T l now.
Proof.
  induction l as [|t l IH]; intros now now' H; cbn in *; auto.
  destruct H as [H1 H2]. split; [destruct l; cbn in H1; auto|eapply IH; eauto].
Qed.

Lemma used_within_last T l now : l <> [] -> used_within T l now -> now - last l 0 < T.
Proof.
  induction l as [|t l IH]; intros N H; [congruence|]. cbn in H. destruct H as [H1 H2].
  destruct l as [|t' l]; [cbn; auto|]. change (last (t :: t' :: l) 0) with (last (t' :: l) 0). apply IH; auto. discriminate.
Qed.

Lemma begin_uses p log : filter (begin_at p) log <> [] -> uses_at p log <> [].
Proof.
  intros H X. apply map_eq_nil in X. apply H. clear H. revert X.
  induction log as [|te log IH]; auto. cbn. destruct (use_at p te) eqn:U; [discriminate|]. intros X.
  replace (begin_at p te) with false; auto. unfold use_at, begin_at in *. destruct (snd te); auto.
Qed.

Lemma uses_mutes es p log : Forall (fun te => mute_all (snd te)) es -> uses_at p (log ++ es) = uses_at p log.
Proof.
  intros F. unfold uses_at. rewrite filter_app. replace (filter (use_at p) es) with (@nil (Z * event)); [now rewrite app_nil_r|].
  induction F as [|[t e] es M F IH]; auto. cbn. unfold use_at at 1. cbn. destruct e; cbn in M; try tauto.
Qed.

Lemma active_soft g own s now' store' heap' alive' reqs' es dead' : active g own s ->
  s_now s <= now' -> Forall (fun te => mute_all (snd te)) es ->
  (forall p c', nth_error heap' p = Some c' ->
     (exists c, nth_error (s_heap s) p = Some c /\
        (running c -> s_now s - x_last c < c_timeout g -> ~ failed (own p) (s_log s ++ es) -> ~ released (own p) (s_log s ++ es) ->
         running c' /\ x_last c' = x_last c)) \/ filter (begin_at p) (s_log s) = []) ->
  active g own {| s_now := now'; s_store := store'; s_heap := heap'; s_alive := alive'; s_reqs := reqs';
                  s_log := s_log s ++ es; s_dead := dead' |}.
Proof.
  intros A L M HP p c' H B NF NR U. cbn [s_now s_heap s_log] in *.
  rewrite begin_mutes in B by auto. rewrite uses_mutes in * by auto.
  destruct (HP _ _ H) as [(c & Hc & X)|X]; [|congruence].
  pose proof (used_within_now _ _ _ _ L U) as U0.
  destruct (A p c Hc B) as [R E]; auto.
  { intros (t & F). apply NF. exists t. apply in_or_app; auto. }
  { intros (t & q & F). apply NR. exists t, q. apply in_or_app; auto. }
  destruct X as [R' E']; auto.
  { rewrite E. apply used_within_last; auto. apply begin_uses; auto. }
  split; auto. congruence.
Qed.

Lemma active_deliver g own s p f tid e : active g own s ->
  use_at p (s_now s, e) = true -> (forall c, running (f c) /\ x_last (f c) = s_now s) ->
  active g own (emit e (set_pc tid PDone (on_ctx p f s))).
Proof.
  intros A U F q c' H B NF NR W. unfold emit, set_pc, on_ctx, with_reqs, with_heap in *. cbn [s_now s_heap s_log] in *.
  rewrite nth_upd in H. unfold uses_at in *. rewrite filter_snoc, map_app in *.
  destruct (Nat.eqb p q) eqn:Q.
  - apply Nat.eqb_eq in Q. subst q. rewrite U in *. cbn [map app fst] in *. rewrite last_last.
    destruct (nth_error (s_heap s) p) as [c|]; [|discriminate]. cbn in H. injection H as <-. apply F.
  - apply Nat.eqb_neq in Q.
    assert (M : use_at q (s_now s, e) = false /\ begin_at q (s_now s, e) = false).
    { unfold use_at, begin_at in *. cbn in *. destruct e; cbn in *; auto; apply Nat.eqb_eq in U; subst; split; auto; apply Nat.eqb_neq; auto. }
    destruct M as [M1 M2]. rewrite M1 in *. rewrite M2 in B. cbn [map] in *. rewrite app_nil_r in *.
    apply A; auto.
    + intros (t & X). apply NF. exists t. apply in_or_app; auto.
    + intros (t & q' & X). apply NR. exists t, q'. apply in_or_app; auto.
Qed.

Lemma recycle_running g now c : running c -> now - x_last c < c_timeout g -> recycle g now c = c.
Proof.
  intros R L. unfold recycle. replace (c_timeout g <=? now - x_last c) with false by (symmetry; apply Z.leb_gt; lia).
  destruct (x_state c); auto.
Qed.

Lemma not_failed_snoc id log t : ~ failed id (log ++ [(t, EFailed id)]) -> False.
Proof. intros H. apply H. apply failed_snoc. Qed.

Ltac same_heap A := apply (active_soft _ _ _ _ _ _ _ _ _ _ A); [lia|repeat constructor|intros q c' Hq; left; exists c'; auto].

Lemma active_fail g own s tid id : active g own s -> active g own (fail tid id s).
Proof. intros A. unroll. same_heap A. Qed.

Lemma active_refuse g own s tid id : active g own s -> active g own (emit (EFailed id) (set_pc tid PDone s)).
Proof. intros A. unroll. same_heap A. Qed.

Lemma active_pc g own s tid k : active g own s -> active g own (set_pc tid k s).
Proof. intros A. unroll. rewrite (app_nil_log s). same_heap A. Qed.

Lemma active_upd g own s p f now' store' alive' reqs' es dead' : active g own s ->
  s_now s <= now' -> Forall (fun te => mute_all (snd te)) es ->
  (forall c, nth_error (s_heap s) p = Some c ->
        (running c -> s_now s - x_last c < c_timeout g -> ~ failed (own p) (s_log s ++ es) -> ~ released (own p) (s_log s ++ es) ->
         running (f c) /\ x_last (f c) = x_last c)) ->
  active g own {| s_now := now'; s_store := store'; s_heap := upd (s_heap s) p f; s_alive := alive'; s_reqs := reqs';
                  s_log := s_log s ++ es; s_dead := dead' |}.
Proof.
  intros A L M F. apply active_soft; auto. intros q c' H. left. rewrite nth_upd in H. destruct (Nat.eqb p q) eqn:Q.
  - apply Nat.eqb_eq in Q. subst q. destruct (nth_error (s_heap s) p) as [c|] eqn:E; [|discriminate].
    cbn in H. injection H as <-. exists c. split; auto.
  - exists c'. auto.
Qed.

Lemma active_fail_error g own s tid p id : active g own s -> id = own p ->
  active g own (fail tid id (on_ctx p (set_state SError) s)).
Proof.
  intros A ->. unroll. apply active_upd; auto; [lia|repeat constructor|].
  intros c E R L NF. exfalso. eapply not_failed_snoc; eauto.
Qed.

Theorem active_step g own own' s a s' : ask_ok g -> inv g own s ->
  (forall p, (p < length (s_heap s))%nat -> own' p = own p) ->
  (match a with Clock t => s_now s <= t | _ => True end) ->
  active g own s -> step g s a = Some s' -> active g own' s'.
Proof.
  intros G I OW CK A0 ST.
  assert (A : active g own' s).
  { intros p c H B. rewrite OW by (eapply nth_lt; eauto). apply A0; auto. }
  clear A0. revert ST. unfold step. rewrite (i_dead _ _ _ I). destruct a as [r|tid busy|busy|t|st].
  - intros H; injection H as <-. unroll. rewrite (app_nil_log s). same_heap A.
  - destruct (nth_error (s_reqs s) tid) as [k|] eqn:K; [|discriminate].
    pose proof (i_req _ _ _ I) as R. rewrite Forall_forall in R. pose proof (R _ (nth_error_In _ _ K)) as RK.
    destruct k as [b|p b|p b|id max|p id max|id|p id|id|id|]; cbn [go].
    + destruct (find_scan (b_id b) (s_alive s)) eqn:F; intros H; injection H as <-.
      * apply active_refuse; auto.
      * unroll. rewrite (app_nil_log s). apply active_soft; auto; [lia|].
        intros q c' H. apply nth_snoc in H. destruct H as [H|[-> ->]]; [left; exists c'; auto|right].
        apply (begin_none_beyond _ _ _ _ I). auto.
    + destruct (nth_error (s_heap s) p) as [c|] eqn:E; [|discriminate]. destruct RK as (_ & O & L).
      assert (O' : b_id b = own' p) by (rewrite OW; auto).
      destruct (x_state c) eqn:X; intros H; injection H as <-; try (apply active_fail_error; auto).
      unroll. rewrite (app_nil_log s). apply active_upd; auto; [lia|].
      intros c1 E1 [Y|Y]; congruence.
    + destruct (nth_error (s_heap s) p) as [c|] eqn:E; [|discriminate]. destruct RK as (BO & O & L).
      assert (O' : b_id b = own' p) by (rewrite OW; auto).
      intros H; injection H as <-. unfold do_begin.
      destruct (bad_range b); [apply active_fail; auto|].
      destruct (x_state c) eqn:X; try (apply active_fail_error; auto).
      destruct (i_store _ _ _ I) as (vs & RS). destruct BO as (B1 & B2 & B3).
      destruct (first_page_ok g b (s_store s) vs (s_now s) RS B1 B2 G B3) as (l & page & more & it & rem & SN & FP & _).
      rewrite FP. apply active_deliver; auto.
      * unfold use_at; cbn. apply Nat.eqb_refl.
      * intros c0. split; [left|]; reflexivity.
    + destruct (max =? 0); [intros H; injection H as <-; apply active_refuse; auto|].
      destruct (find_scan id (s_alive s)); intros H; injection H as <-; [apply active_pc|apply active_refuse]; auto.
    + destruct (nth_error (s_heap s) p) as [c|] eqn:E; [|discriminate]. destruct RK as (BO & O & L).
      assert (O' : id = own' p) by (rewrite OW; auto).
      intros H; injection H as <-. 
      pose proof (inv_continue g own s tid p id max c G I K E) as IC. apply i_dead in IC. revert IC.
      unfold do_continue. destruct (negb _); [intros _; apply active_fail; auto|].
      destruct (max =? 0); [intros _; apply active_fail; auto|].
      assert (D : forall it, s_dead match fetch (S (length (snd it))) (count_limit max (c_count g)) (c_bytes g)
                (x_key_only c) (x_ts c) (x_now c) 0 0 it with
        | Crash => kill s
        | Ok (page, more, it') =>
            emit (EPage p id max page more) (set_pc tid PDone (on_ctx p (set_continued it' (s_now s)) s))
        end = false ->
        active g own' match fetch (S (length (snd it))) (count_limit max (c_count g)) (c_bytes g)
                (x_key_only c) (x_ts c) (x_now c) 0 0 it with
        | Crash => kill s
        | Ok (page, more, it') =>
            emit (EPage p id max page more) (set_pc tid PDone (on_ctx p (set_continued it' (s_now s)) s))
        end).
      { intros it. destruct (fetch _ _ _ _ _ _ _ _ it) as [[[pg m] it']|]; [|discriminate].
        intros _. apply active_deliver; auto.
        - unfold use_at; cbn. apply Nat.eqb_refl.
        - intros c0. split; [right|]; reflexivity. }
      destruct (x_state c), (x_it c) as [it|]; try (intros _; apply active_fail_error; auto); apply D.
    + destruct (find_scan id (s_alive s)); intros H; injection H as <-; [apply active_pc|apply active_refuse]; auto.
    + destruct (nth_error (s_heap s) p) as [c|] eqn:E; [|discriminate]. destruct RK as (O & L).
      assert (O' : id = own' p) by (rewrite OW; auto).
      intros H; injection H as <-. unfold do_release. destruct (negb _); [apply active_fail; auto|].
      assert (D : active g own' (emit (EReleased p id) (set_pc tid (PTry id) (on_ctx p (set_released (s_now s)) s)))).
      { unroll. apply active_upd; [exact A|lia|repeat constructor|]. intros c1 _ _ _ _ NR. exfalso. apply NR.
        exists (s_now s), p. rewrite <- O'. apply in_or_app. cbn. auto. }
      destruct (x_state c); try (apply active_fail_error; auto); apply D.
    + destruct busy; [intros H; injection H as <-; apply active_pc; auto|].
      destruct (find_scan id (s_alive s)) as [p|] eqn:F; [|intros H; injection H as <-; apply active_pc; auto].
      destruct (nth_error (s_heap s) p) as [c|] eqn:E; [|discriminate]. intros H; injection H as <-.
      replace (set_pc tid PDone _) with
        {| s_now := s_now s; s_store := s_store s; s_heap := upd (s_heap s) p (recycle g (s_now s));
           s_alive := if recyclable g (s_now s) c then delete_scan id (s_alive s) else s_alive s;
           s_reqs := upd (s_reqs s) tid (fun _ => PDone); s_log := s_log s ++ []; s_dead := s_dead s |}
        by (rewrite app_nil_r; destruct (recyclable g (s_now s) c); reflexivity).
      apply active_upd; auto; [lia|]. intros c1 _ RN L _ _. rewrite recycle_running; auto.
    + intros H; injection H as <-. unroll. rewrite (app_nil_log s). same_heap A.
    + discriminate.
  - destruct (clean g (s_now s) busy (s_alive s) (s_heap s)) as [a' h'] eqn:C. intros H; injection H as <-.
    destruct (clean_facts _ _ _ _ _ _ _ C) as (H1 & H2 & _).
    unroll. rewrite (app_nil_log s). apply active_soft; auto; [lia|].
    intros q c' X. left. destruct (H2 _ _ X) as (c & Y & Z). exists c. split; auto.
    intros RN L _ _. destruct Z as [-> | ->]; auto. rewrite recycle_running; auto.
  - intros H; injection H as <-. unroll. rewrite (app_nil_log s). apply active_soft; auto.
    intros q c' Hq; left; exists c'; auto.
  - intros H; injection H as <-. unroll. rewrite (app_nil_log s). same_heap A.
Qed.

Lemma step_now g s a s' : step g s a = Some s' -> s_now s' = match a with Clock t => t | _ => s_now s end.
Proof.
  unfold step. destruct (s_dead s); [discriminate|]. destruct a as [r|tid busy|busy|t|st]; try (intros H; injection H as <-; reflexivity).
  - destruct (nth_error (s_reqs s) tid) as [k|]; [|discriminate]. destruct k; cbn [go].
    + destruct (find_scan _ _); intros H; injection H as <-; reflexivity.
    + destruct (nth_error _ _) as [c|]; [|discriminate]. destruct (x_state c); intros H; injection H as <-; reflexivity.
    + destruct (nth_error _ _) as [c|]; [|discriminate]. intros H; injection H as <-. unfold do_begin.
      destruct (bad_range b); auto. destruct (x_state c); auto. destruct (first_page _ _ _ _) as [[[? ?] ?]|]; auto.
    + destruct (max =? 0); [intros H; injection H as <-; reflexivity|]. destruct (find_scan _ _); intros H; injection H as <-; reflexivity.
    + destruct (nth_error _ _) as [c|]; [|discriminate]. intros H; injection H as <-. unfold do_continue.
      destruct (negb _); auto. destruct (max =? 0); auto.
      destruct (x_state c), (x_it c) as [it|]; auto; destruct (fetch _ _ _ _ _ _ _ _ it) as [[[? ?] ?]|]; auto.
    + destruct (find_scan _ _); intros H; injection H as <-; reflexivity.
    + destruct (nth_error _ _) as [c|]; [|discriminate]. intros H; injection H as <-. unfold do_release.
      destruct (negb _); auto. destruct (x_state c); auto.
    + destruct busy; [intros H; injection H as <-; reflexivity|]. destruct (find_scan _ _); [|intros H; injection H as <-; reflexivity].
      destruct (nth_error _ _) as [c|]; [|discriminate]. destruct (recyclable _ _ _); intros H; injection H as <-; reflexivity.
    + intros H; injection H as <-; reflexivity.
    + discriminate.
  - destruct (clean _ _ _ _ _) as [a' h']. intros H; injection H as <-; reflexivity.
Qed.

Theorem active_run g acts : ask_ok g -> Forall action_ok acts -> forall own s s', inv g own s -> active g own s ->
  clock_forward (s_now s) acts -> run g s acts = Some s' -> exists own', inv g own' s' /\ active g own' s'.
Proof.
  intros G. induction acts as [|a acts IH]; intros F own s s' I A C H; cbn [run] in H.
  - injection H as <-. eauto.
  - inversion F; subst. destruct (step g s a) as [s1|] eqn:E; [|discriminate].
    destruct (inv_step _ _ _ _ _ G I ltac:(eassumption) E) as (own1 & I1 & OW & _).
    assert (CK : match a with Clock t => s_now s <= t | _ => True end) by (destruct a; cbn in C; tauto).
    apply (IH ltac:(eassumption) own1 s1 s'); auto.
    + eapply (active_step g own own1 s a s1); eauto.
    + rewrite (step_now _ _ _ _ E). destruct a; cbn in C; tauto.
Qed.

Lemma init_active g own now st : active g own (init now st).
Proof. intros p c H. cbn in H. destruct p; discriminate. Qed.
