From Coq Require Import ZArith List Bool Arith Lia.
From Verif Require Import Bytes SMap TxnModel TxnReadModel ConcModel ConcSpec ConcProofs.
From Verif Require LatchModel LatchProofs.
Import ListNotations.
Open Scope Z_scope.

(** ** a prewrite that has ended refuses nobody *)

Definition distinct_keys (s : cstate) : Prop := forall i w, nth_error (wrs s) i = Some w -> NoDup (item_keys (wq w)).

Definition before (w : writer) (k : bytes) : Prop :=
  match wph w with
  | WPub j => exists j', (j' < j)%nat /\ nth_error (item_keys (wq w)) j' = Some k
  | WTs j _ | WRel j _ _ => exists j', (j' <= j)%nat /\ nth_error (item_keys (wq w)) j' = Some k
  | _ => True
  end.

Definition live (s : cstate) : Prop := forall e x, nth_error (heap (tb s)) e = Some x ->
  (e_dead x = false -> get bcmp (tab (tb s)) (l_key (e_lock x)) = Some e) /\
  forall w, nth_error (wrs s) (e_owner x) = Some w -> before w (l_key (e_lock x)).

Lemma step_wq s c s' : cstep s c = Some s' -> forall i w', nth_error (wrs s') i = Some w' ->
  exists w, nth_error (wrs s) i = Some w /\ wq w = wq w'.
Proof.
  intros E i w' Hw'.
  assert (U : forall k w p f, nth_error (wrs s) k = Some w -> wrs s' = upd (wrs s) k (mkWt (wq w) p f) -> exists w0, nth_error (wrs s) i = Some w0 /\ wq w0 = wq w').
  { intros k w p f Hk Eq. rewrite Eq, (nupd _ _ _ _ _ Hk) in Hw'. destruct (Nat.eq_dec i k) as [->|]; [injection Hw' as <-; eauto|eauto]. }
  destruct c as [k|k|k|ts]; cbn [cstep] in E.
  - destruct (nth_error (rds s) k) as [r|]; [|discriminate]. exists w'. split; [|reflexivity]. rewrite <- Hw'.
    destruct (reader_step s r) as [f [p|]] eqn:RS; [|discriminate]. injection E as <-. unfold set_reader. cbn [wrs].
    unfold reader_step in RS. destruct (rph r) as [| |[|e es]|e es| | |]; try (injection RS as <- <-; reflexivity); try discriminate.
    + destruct (nth_error (heap (tb s)) e) as [x|]; [|discriminate]. destruct (e_dead x); injection RS as <- <-; reflexivity.
    + destruct (nth_error (heap (tb s)) e) as [x|]; [|discriminate]. destruct (e_busy x); [discriminate|].
      destruct (lock_conflict SI (r_ts (rq r)) (r_resolved (rq r)) (e_lock x)); injection RS as <- <-; reflexivity.
  - destruct (nth_error (wrs s) k) as [w|] eqn:Hw; [|discriminate].
    destruct (wph w) as [|j|j e|j e m| | |]; try discriminate.
    + destruct (latches_free s (wq w)); [|discriminate]. injection E as <-. eapply U; [exact Hw|reflexivity].
    + destruct (nth_error (w_items (wq w)) j); injection E as <-; (eapply U; [exact Hw|reflexivity]).
    + destruct (nth_error (w_items (wq w)) j); [|discriminate]. injection E as <-. eapply U; [exact Hw|reflexivity].
    + destruct (m =? 0); injection E as <-; (eapply U; [exact Hw|reflexivity]).
    + injection E as <-. eapply U; [exact Hw|reflexivity].
    + injection E as <-. eapply U; [exact Hw|reflexivity].
  - destruct (nth_error (wrs s) k) as [w|] eqn:Hw; [|discriminate].
    destruct (wph w); try discriminate; injection E as <-; (eapply U; [exact Hw|reflexivity]).
  - injection E as <-. exists w'. auto.
Qed.

Lemma unlock_dead keys : forall t, sorted bcmp (tab t) -> forall e x', nth_error (heap (unlock_keys t keys)) e = Some x' ->
  exists x, nth_error (heap t) e = Some x /\ e_lock x' = e_lock x /\ e_owner x' = e_owner x /\
    (e_dead x' = false -> e_dead x = false /\ forall k, In k keys -> get bcmp (tab t) k <> Some e).
Proof.
  induction keys as [|k0 keys IH]; intros t S e x' H; cbn [unlock_keys] in H.
  - exists x'. split; [exact H|]. split; [reflexivity|]. split; [reflexivity|]. intros D. split; [exact D|intros k []].
  - destruct (get bcmp (tab t) k0) as [e0|] eqn:G.
    + cbv zeta in H. set (t1 := mkTab _ _) in H.
      assert (S1 : sorted bcmp (tab t1)).
      { unfold t1. cbn [tab]. apply sorted_del. unfold set_entry. destruct (nth_error (heap t) e0); exact S. }
      destruct (IH t1 S1 e x' H) as [x1 [X1 [X2 [X3 X4]]]].
      assert (T1 : forall k, get bcmp (tab t1) k = if bytes_eq_dec k k0 then None else get bcmp (tab t) k).
      { intros k. unfold t1. cbn [tab]. assert (Et : tab (set_entry t e0 (fun x => mkE (e_lock x) (e_busy x) true (e_owner x))) = tab t).
        { unfold set_entry. destruct (nth_error (heap t) e0); reflexivity. }
        rewrite Et. destruct (bytes_eq_dec k k0) as [->|N]; [apply (get_del_same bcmp bcmp_ok _ _ S)|apply (get_del_other bcmp bcmp_ok); [exact S|congruence]]. }
      unfold t1 in X1. cbn [heap] in X1. unfold set_entry in X1. destruct (nth_error (heap t) e0) as [x0|] eqn:H0.
      * cbn [heap] in X1. rewrite (nupd _ _ _ _ _ H0) in X1. destruct (Nat.eq_dec e e0) as [->|Ne].
        -- injection X1 as <-. cbn [e_lock e_owner e_dead] in *. exists x0. split; [exact H0|]. split; [exact X2|]. split; [exact X3|].
           intros D. destruct (X4 D). discriminate.
        -- exists x1. split; [exact X1|]. split; [exact X2|]. split; [exact X3|]. intros D. destruct (X4 D) as [D1 D2]. split; [exact D1|].
           intros k [<-|I] E'; [rewrite G in E'; congruence|]. apply (D2 k I). rewrite T1. destruct (bytes_eq_dec k k0) as [->|]; [rewrite G in E'; congruence|exact E'].
      * exists x1. split; [exact X1|]. split; [exact X2|]. split; [exact X3|]. intros D. destruct (X4 D) as [D1 D2]. split; [exact D1|].
        intros k [<-|I] E'; [rewrite G in E'; injection E' as ->; congruence|]. apply (D2 k I). rewrite T1. destruct (bytes_eq_dec k k0) as [->|]; [|exact E'].
        rewrite G in E'. injection E' as ->. congruence.
    + destruct (IH t S e x' H) as [x1 [X1 [X2 [X3 X4]]]]. exists x1. split; [exact X1|]. split; [exact X2|]. split; [exact X3|].
      intros D. destruct (X4 D) as [D1 D2]. split; [exact D1|]. intros k [<-|I] E'; [congruence|exact (D2 k I E')].
Qed.

Lemma step_live s c s' : cinv s -> held s -> distinct_keys s -> live s -> cstep s c = Some s' -> live s'.
Proof.
  intros H B D L E.
  assert (PH : forall i w p f ap ts rs, nth_error (wrs s) i = Some w ->
    (forall k, before w k -> before (mkWt (wq w) p f) k) -> live (mkC ts (tb s) rs (upd (wrs s) i (mkWt (wq w) p f)) ap)).
  { intros i w p f ap ts rs Hw F e x Hx. cbn [tb wrs] in *. destruct (L e x Hx) as [L1 L2]. split; [exact L1|]. intros v Hv.
    rewrite (nupd _ _ _ _ _ Hw) in Hv. destruct (Nat.eq_dec (e_owner x) i) as [Eo|]; [|apply L2, Hv]. injection Hv as <-. apply F, L2. now rewrite Eo. }
  destruct c as [i|i|i|ts].
  - cbn [cstep] in E. destruct (nth_error (rds s) i) as [r|]; [|discriminate].
    assert (T : tb s' = tb s /\ wrs s' = wrs s).
    { destruct (reader_step s r) as [f [p|]] eqn:RS; [|discriminate]. injection E as <-. unfold set_reader. cbn [tb wrs].
      unfold reader_step in RS. destruct (rph r) as [| |[|e es]|e es| | |]; try (injection RS as <- <-; split; reflexivity); try discriminate.
      - destruct (nth_error (heap (tb s)) e) as [x|]; [|discriminate]. destruct (e_dead x); injection RS as <- <-; split; reflexivity.
      - destruct (nth_error (heap (tb s)) e) as [x|]; [|discriminate]. destruct (e_busy x); [discriminate|].
        destruct (lock_conflict SI (r_ts (rq r)) (r_resolved (rq r)) (e_lock x)); injection RS as <- <-; split; reflexivity. }
    destruct T as [T1 T2]. unfold live. rewrite T1, T2. exact L.
  - cbn [cstep] in E. destruct (nth_error (wrs s) i) as [w|] eqn:Hw; [|discriminate].
    assert (N : forall w' m, nth_error (upd (wrs s) i w') m = if Nat.eq_dec m i then Some w' else nth_error (wrs s) m) by (intros w' m; eapply nupd; exact Hw).
    destruct (wph w) as [|j|j e|j e m| | |] eqn:P; try discriminate.
    + destruct (latches_free s (wq w)); [|discriminate]. injection E as <-. unfold set_writer. intros e x Hx. cbn [tb wrs] in *.
      destruct (L e x Hx) as [L1 L2]. split; [exact L1|]. intros v Hv. rewrite N in Hv.
      destruct (Nat.eq_dec (e_owner x) i) as [Eo|]; [|apply L2, Hv]. exfalso.
      (* a writer that has not started owns nothing *)
      destruct (e_dead x) eqn:Dx.
      * destruct (c_heap s H e x Hx) as [w1 [H1 [_ [H2 _]]]]. specialize (H2 Dx). rewrite Eo in H1. congruence.
      * destruct (c_tab s H _ _ (L1 eq_refl)) as [x1 [w1 [H1 [_ [_ [H2 [H3 _]]]]]]]. rewrite Hx in H1. injection H1 as <-. rewrite Eo, Hw in H2. injection H2 as <-.
        unfold active in H3. rewrite P in H3. discriminate.
    + destruct (nth_error (w_items (wq w)) j) as [it|] eqn:Hit; injection E as <-;
        [|unfold set_writer; apply PH; [exact Hw|intros; exact Logic.I]].
      assert (Hk := item_key_in _ _ _ Hit). set (k := l_key (i_lock it)) in *.
      unfold set_table, set_writer, lock_key. cbn [tb maxts rds wrs applied]. intros e x Hx. cbn [tb wrs heap tab] in *.
      rewrite nth_app_new in Hx. destruct (Nat.eq_dec e (length (heap (tb s)))) as [->|Ne].
      * injection Hx as <-. cbn [e_dead e_lock e_owner]. split; [intros _; apply (get_put_same bcmp bcmp_ok)|].
        intros v Hv. rewrite N in Hv. destruct (Nat.eq_dec i i); [|congruence]. injection Hv as <-. exists j. split; [apply le_n|exact Hk].
      * destruct (L e x Hx) as [L1 L2]. split.
        -- intros Dx. specialize (L1 Dx). rewrite (get_put_other bcmp bcmp_ok); [exact L1|]. intros Eq. 
           destruct (c_tab s H _ _ L1) as [x1 [w1 [H1 [_ [_ [H2 [H3 H4]]]]]]]. rewrite Hx in H1. injection H1 as <-.
           assert (Eo : e_owner x = i).
           { eapply (active_keys s (e_owner x) w1 w k); [exact H|exact H2|exact H3| |exact Hw|unfold active; now rewrite P|].
             - unfold all_keys. apply in_or_app. left. unfold k. rewrite Eq. exact H4.
             - unfold all_keys. apply in_or_app. left. eapply nth_error_In. exact Hk. }
           rewrite Eo, Hw in H2. injection H2 as <-. assert (Bf := L2 w). rewrite Eo in Bf. specialize (Bf Hw). unfold before in Bf. rewrite P in Bf.
           destruct Bf as [j' [J1 J2]]. assert (j' = j); [|lia].
           apply (proj1 (NoDup_nth_error (item_keys (wq w))) (D i w Hw)); [apply nth_error_Some; congruence|]. fold k in Eq. congruence.
        -- intros v Hv. rewrite N in Hv. destruct (Nat.eq_dec (e_owner x) i) as [Eo|]; [|apply L2, Hv]. injection Hv as <-.
           assert (Bf := L2 w). rewrite Eo in Bf. specialize (Bf Hw). unfold before in Bf |- *. rewrite P in Bf. cbn [wph wq]. destruct Bf as [j' [J1 J2]]. exists j'. split; [lia|exact J2].
    + destruct (nth_error (w_items (wq w)) j) as [it|] eqn:Hit; [|discriminate]. injection E as <-. unfold set_writer. apply PH; [exact Hw|].
      intros k Bf. unfold before in *. rewrite P in Bf. exact Bf.
    + assert (Bi := B i w Hw). rewrite P in Bi. destruct Bi as [x0 [Hx0 [Ow Bs]]].
      set (t' := set_entry _ _ _) in E. assert (T' : tab t' = tab (tb s) /\ exists x1, heap t' = upd (heap (tb s)) e x1 /\ l_key (e_lock x1) = l_key (e_lock x0) /\ e_owner x1 = e_owner x0 /\ e_dead x1 = e_dead x0).
      { unfold t', set_entry. rewrite Hx0. split; [reflexivity|]. eexists. split; [reflexivity|]. cbn [e_lock e_owner e_dead]. destruct (0 <? m); auto. }
      destruct T' as [T0 [x1 [T1 [T2 [T3 T4]]]]].
      assert (Hh : forall e', nth_error (heap t') e' = if Nat.eq_dec e' e then Some x1 else nth_error (heap (tb s)) e') by (intros e'; rewrite T1; eapply nupd; exact Hx0).
      assert (Q : tb s' = t' /\ exists p f, wrs s' = upd (wrs s) i (mkWt (wq w) p f) /\ forall k, before w k -> before (mkWt (wq w) p f) k).
      { destruct (m =? 0); injection E as <-; (split; [reflexivity|]); do 2 eexists; (split; [reflexivity|]); intros k Bf; unfold before in *; rewrite P in Bf; cbn [wph wq]; auto.
        destruct Bf as [j' [J1 J2]]. exists j'. split; [lia|exact J2]. }
      destruct Q as [Q1 [p [f [Q2 Q3]]]]. intros e' x Hx. rewrite Q1 in *. rewrite T0.
      assert (X : exists y, nth_error (heap (tb s)) e' = Some y /\ l_key (e_lock x) = l_key (e_lock y) /\ e_owner x = e_owner y /\ e_dead x = e_dead y).
      { rewrite Hh in Hx. destruct (Nat.eq_dec e' e) as [->|]; [injection Hx as <-; exists x0; auto|exists x; auto]. }
      destruct X as [y [Y1 [Y2 [Y3 Y4]]]]. destruct (L e' y Y1) as [L1 L2]. rewrite Y2, Y3, Y4. split; [exact L1|].
      intros v Hv. rewrite Q2, N in Hv. destruct (Nat.eq_dec (e_owner y) i) as [Eo|]; [|apply L2, Hv]. injection Hv as <-. apply Q3, L2. now rewrite Eo.
    + injection E as <-. unfold set_writer. cbn [maxts tb rds wrs applied]. apply PH; [exact Hw|intros; exact Logic.I].
    + destruct (c_ok s H i w Hw) as [[_ [Un _]] _]. rewrite Un in E. injection E as <-.
      destruct (unlock_spec (all_keys (wq w)) (tb s) (c_sorted s H) (fun k e => tab_bound s k e H)) as [_ [_ [U3 _]]].
      unfold set_table, set_writer. intros e x Hx. cbn [tb wrs] in *.
      destruct (unlock_dead (all_keys (wq w)) (tb s) (c_sorted s H) e x Hx) as [y [Y1 [Y2 [Y3 Y4]]]]. destruct (L e y Y1) as [L1 L2]. rewrite Y2, Y3. split.
      * intros Dx. destruct (Y4 Dx) as [Dy F]. specialize (L1 Dy). rewrite U3. destruct (in_dec bytes_eq_dec (l_key (e_lock y)) (all_keys (wq w))) as [I|]; [|exact L1].
        destruct (F _ I L1).
      * intros v Hv. rewrite N in Hv. destruct (Nat.eq_dec (e_owner y) i) as [Eo|]; [|apply L2, Hv]. injection Hv as <-. exact Logic.I.
  - cbn [cstep] in E. destruct (nth_error (wrs s) i) as [w|] eqn:Hw; [|discriminate].
    assert (Q : s' = set_writer s i (mkWt (wq w) WUnpub (w_final w))) by (destruct (wph w); try discriminate; injection E as <-; reflexivity).
    rewrite Q. unfold set_writer. apply PH; [exact Hw|intros; exact Logic.I].
  - injection E as <-. exact L.
Qed.

Lemma run_live sched : forall s, cinv s -> held s -> distinct_keys s -> live s -> live (crun s sched).
Proof.
  induction sched as [|c sched IH]; intros s H B D L; [exact L|]. cbn [crun].
  destruct (cstep s c) as [s'|] eqn:E; [|apply IH; assumption].
  apply IH; [eapply step_inv; eassumption|eapply step_kept; eassumption| |eapply step_live; eassumption].
  intros i w' Hw'. destruct (step_wq s c s' E i w' Hw') as [w [Hw Eq]]. rewrite <- Eq. exact (D i w Hw).
Qed.

Lemma init_live ts rs ws : Forall (fun q => NoDup (item_keys q)) ws -> distinct_keys (cinit ts rs ws) /\ live (cinit ts rs ws).
Proof.
  intros F. rewrite Forall_forall in F. split.
  - intros i w Hw. cbn in Hw. apply nth_error_In in Hw. apply in_map_iff in Hw. destruct Hw as [q [<- Iq]]. exact (F q Iq).
  - intros e x Hx. cbn in Hx. destruct e; discriminate.
Qed.

Lemma over s i r e es x w : cinv s -> live s -> nth_error (rds s) i = Some r -> rph r = RCheck (e :: es) ->
  nth_error (heap (tb s)) e = Some x -> nth_error (wrs s) (e_owner x) = Some w -> wph w = WEnd ->
  exists s', cstep s (CReader i) = Some s' /\ nth_error (rds s') i = Some (mkRd (rq r) (RCheck es)).
Proof.
  intros H L Hr Pr Hx Hw Pw. assert (Dx : e_dead x = true).
  { destruct (e_dead x) eqn:Dx; [reflexivity|]. destruct (L e x Hx) as [L1 _].
    destruct (c_tab s H _ _ (L1 Dx)) as [x1 [w1 [H1 [_ [_ [H2 [H3 _]]]]]]]. rewrite Hx in H1. injection H1 as <-. rewrite Hw in H2. injection H2 as <-.
    unfold active in H3. rewrite Pw in H3. discriminate. }
  cbn [cstep]. rewrite Hr. unfold reader_step. rewrite Pr, Hx, Dx. eexists. split; [reflexivity|]. unfold set_reader. cbn [rds].
  rewrite (nupd _ _ _ _ _ Hr). destruct (Nat.eq_dec i i); [reflexivity|congruence].
Qed.
