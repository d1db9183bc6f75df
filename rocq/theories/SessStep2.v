(** Every step keeps the invariant of scan sessions: begin, continue, release. *)
From Coq Require Import ZArith List Bool Lia Sorted PeanoNat.
From Verif Require Import Bytes Outcome CodecModel CodecSpec MvccModel MvccSpec MvccProofs SessModel SessSpec SessProofs SessInv SessStep.
Import ListNotations.
Open Scope Z_scope.

Definition ask_ok (g : cfg) : Prop := 0 < c_count g < 2 ^ 63.

Lemma nth_lt {A} (l : list A) p c : nth_error l p = Some c -> (p < length l)%nat.
Proof. intros H. apply nth_error_Some. congruence. Qed.

(** ** Creating a session *)

Lemma begin_none_beyond g own s p : inv g own s -> (length (s_heap s) <= p)%nat ->
  filter (begin_at p) (s_log s) = [] /\ given p (s_log s) = [] /\ filter (use_at p) (s_log s) = [].
Proof.
  intros I L.
  assert (M : Forall (fun te => mute p (snd te)) (s_log s)).
  { apply Forall_forall. intros [t e] H. cbn. destruct e; cbn; auto; intros ->;
      destruct (i_log _ _ _ I _ _ p H eq_refl) as [_ X]; lia. }
  induction M as [|[t e] log M F IH]; auto. cbn [snd] in M. destruct (mute_facts p t e M) as (A & B & C).
  destruct IH as (X & Y & Z). cbn [filter given flat_map snd]. rewrite A, B, C. auto.
Qed.

Lemma nth_snoc {A} (l : list A) x p y : nth_error (l ++ [x]) p = Some y ->
  nth_error l p = Some y \/ (p = length l /\ y = x).
Proof.
  intros H. destruct (Nat.lt_ge_cases p (length l)).
  - rewrite nth_error_app1 in H by auto. auto.
  - rewrite nth_error_app2 in H by auto. right.
    destruct (p - length l)%nat as [|n] eqn:E; [|destruct n; discriminate]. cbn in H. injection H as <-. split; auto. lia.
Qed.

Lemma inv_create g own s tid b : inv g own s -> nth_error (s_reqs s) tid = Some (PCreate b) ->
  find_scan (b_id b) (s_alive s) = None ->
  inv g (fun p => if Nat.eqb p (length (s_heap s)) then b_id b else own p)
    (set_pc tid (POpen (length (s_heap s)) b)
       (with_alive ((b_id b, length (s_heap s)) :: s_alive s) (with_heap (s_heap s ++ [new_ctx (s_now s)]) s))).
Proof.
  intros I K FN. set (n := length (s_heap s)). set (own' := fun p => if Nat.eqb p n then b_id b else own p).
  assert (OW : forall p, (p < n)%nat -> own' p = own p).
  { intros p H. unfold own'. destruct (Nat.eqb p n) eqn:E; auto. apply Nat.eqb_eq in E. lia. }
  assert (ON : own' n = b_id b) by (unfold own'; rewrite Nat.eqb_refl; auto).
  assert (LN : length (s_heap s ++ [new_ctx (s_now s)]) = S n) by (rewrite app_length; cbn; unfold n; lia).
  unroll. constructor; cbn [s_now s_store s_heap s_alive s_reqs s_log s_dead].
  - cbn. constructor; [|apply (i_nodup _ _ _ I)]. intros H. apply in_map_iff in H. destruct H as ([i q] & E & H).
    cbn in E. subst i. eapply find_scan_None; eauto.
  - rewrite LN. intros id p [H|H].
    + injection H as <- <-. auto.
    + destruct (i_alive _ _ _ I _ _ H) as [A B]. fold n in B. rewrite OW by auto. split; auto.
  - rewrite LN. apply Forall_upd.
    + eapply Forall_impl; [|apply (i_req _ _ _ I)]. intros k. apply req_ok_mono; auto.
    + cbn. pose proof (i_req _ _ _ I) as R. rewrite Forall_forall in R. apply nth_error_In in K. apply R in K.
      split; [exact K|]. auto.
  - intros p c id H X. apply nth_snoc in H. destruct H as [H|[-> ->]]; [|discriminate].
    rewrite OW by (eapply nth_lt; eauto). eapply i_xid; eauto.
  - intros t e p H T. rewrite LN. destruct (i_log _ _ _ I _ _ _ H T) as [A B]. fold n in B. rewrite OW by auto. auto.
  - intros p c H N. apply nth_snoc in H. destruct H as [H|[-> ->]].
    + assert (L : (p < n)%nat) by (eapply nth_lt; eauto). rewrite OW by auto.
      destruct (i_keep _ _ _ I _ _ H N); auto. left. right. auto.
    + left. left. fold n. rewrite ON. auto.
  - apply (i_store _ _ _ I).
  - apply (i_dead _ _ _ I).
  - intros p c H. apply nth_snoc in H. destruct H as [H|[-> ->]].
    + apply (i_sess _ _ _ I _ _ H).
    + left. split; [reflexivity|]. apply (begin_none_beyond _ _ _ _ I). lia.
  - apply (i_pages _ _ _ I).
  - intros id p [H|H].
    + injection H as <- <-. right. left. exists b. left. eapply In_upd_new; eauto.
    + destruct (i_open _ _ _ I _ _ H) as [A|[(b' & [A|A])|A]]; auto.
      * right. left. exists b'. left. eapply In_upd_other; eauto. discriminate.
      * right. left. exists b'. right. eapply In_upd_other; eauto. discriminate.
      * right. right. eapply In_upd_other; eauto. discriminate.
  - intros p c H B. apply nth_snoc in H. destruct H as [H|[-> ->]].
    + destruct (i_begun _ _ _ I _ _ H B) as [X Y]. split; auto. rewrite OW by (eapply nth_lt; eauto). auto.
    + destruct B; discriminate.
  - intros p b' c H Hc. apply In_upd in H. destruct H as [H|H]; [discriminate|].
    pose proof (i_req _ _ _ I) as R. rewrite Forall_forall in R. destruct (R _ H) as (_ & _ & L). fold n in L.
    apply nth_snoc in Hc. destruct Hc as [Hc|[-> ->]]; [|fold n in L; lia].
    rewrite OW by auto. eapply i_begin; eauto.
  - intros t p id c H Hc. destruct (i_log _ _ _ I _ _ p H eq_refl) as [_ L].
    apply nth_snoc in Hc. destruct Hc as [Hc|[-> ->]]; [|lia]. eapply i_rel; eauto.
Qed.

(** ** An event that delivers a page *)

Lemma deliver g own s tid k0 p f c e :
  inv g own s -> nth_error (s_reqs s) tid = Some k0 -> nth_error (s_heap s) p = Some c ->
  (forall q b, k0 = POpen q b \/ k0 = PBegin q b -> q = p) -> (forall i, k0 <> PDel i) ->
  use_at p (s_now s, e) = true -> event_id e = own p -> page_ok g e ->
  ~ gone c -> x_state c <> SReleased -> ~ gone (f c) ->
  x_id (f c) = Some (own p) -> x_it (f c) <> None -> 
  sess_ok (s_log s ++ [(s_now s, e)]) p (f c) ->
  inv g own (emit e (set_pc tid PDone (on_ctx p f s))).
Proof.
  intros I K E KO KD U EI PO NG NR NG' XI XT SO. unroll.
  assert (TO : touches p e /\ (forall q, q <> p -> mute q e) /\ (forall q, touches q e -> q = p)
               /\ (forall q id, e <> EReleased q id)).
  { unfold use_at in U. cbn in U. destruct e; try discriminate; apply Nat.eqb_eq in U; subst;
      (split; [reflexivity|split; [|split]]); cbn; try congruence; intros; discriminate. }
  destruct TO as (T & MU & TU & NREL).
  assert (Inl : forall x, In x (s_log s) -> In x (s_log s ++ [(s_now s, e)])) by (intros; apply in_or_app; auto).
  assert (HP : forall q c', nth_error (upd (s_heap s) p f) q = Some c' ->
     (q = p /\ c' = f c) \/ (q <> p /\ nth_error (s_heap s) q = Some c')).
  { intros q c' H. rewrite nth_upd in H. destruct (Nat.eqb p q) eqn:Q.
    - apply Nat.eqb_eq in Q. subst q. rewrite E in H. cbn in H. injection H as <-. auto.
    - apply Nat.eqb_neq in Q. right. auto. }
  constructor; cbn [s_now s_store s_heap s_alive s_reqs s_log s_dead]; rewrite ?upd_length.
  - apply (i_nodup _ _ _ I).
  - apply (i_alive _ _ _ I).
  - apply Forall_upd; [|exact Logic.I]. apply (inv_reqs_mono _ _ _ _ I).
  - intros q c' id H X. destruct (HP _ _ H) as [(-> & ->)|(_ & H')]; [congruence|]. eapply i_xid; eauto.
  - intros t e' q H T'. apply in_app_or in H. destruct H as [H|[H|[]]]; [eapply i_log; eauto|].
    injection H as <- <-. apply TU in T'. subst q. split; auto. eapply nth_lt; eauto.
  - intros q c' H N. destruct (HP _ _ H) as [(-> & ->)|(_ & H')].
    + destruct (i_keep _ _ _ I _ _ E NG) as [A|(t & A)]; auto. right. exists t; auto.
    + destruct (i_keep _ _ _ I _ _ H' N) as [A|(t & A)]; auto. right. exists t; auto.
  - apply (i_store _ _ _ I).
  - apply (i_dead _ _ _ I).
  - intros q c' H. destruct (HP _ _ H) as [(-> & ->)|(Q & H')]; auto.
    apply sess_ok_mute; auto. apply (i_sess _ _ _ I _ _ H').
  - intros t e' H. apply in_app_or in H. destruct H as [H|[H|[]]]; [eapply i_pages; eauto|]. injection H as <- <-. auto.
  - intros id q H. destruct (Nat.eq_dec q p) as [->|Q].
    + left. destruct SO as [(X & _)|(t & b & st & page & vs & l & rem & it & X & _)]; [congruence|]. rewrite X. discriminate.
    + destruct (i_open _ _ _ I _ _ H) as [A|[(b' & [A|A])|A]].
      * left. rewrite filter_snoc. intros X. apply app_eq_nil in X. tauto.
      * right. left. exists b'. left. eapply In_upd_other; eauto; intros X; apply Q; eapply (KO q b'); left; auto.
      * right. left. exists b'. right. eapply In_upd_other; eauto; intros X; apply Q; eapply (KO q b'); right; auto.
      * right. right. eapply In_upd_other; eauto.
  - intros q c' H B. destruct (HP _ _ H) as [(-> & ->)|(_ & H')]; auto. eapply i_begun; eauto.
  - intros q b' c' H Hc. apply In_upd in H. destruct H as [H|H]; [discriminate|].
    destruct (HP _ _ Hc) as [(-> & ->)|(_ & H')]; auto. eapply i_begin; eauto.
  - intros t q id c' H Hc. apply in_app_or in H. destruct H as [H|[H|[]]]; [|injection H as <- X; exfalso; eapply NREL; eauto].
    destruct (HP _ _ Hc) as [(-> & ->)|(_ & H')]; [|eapply i_rel; eauto].
    exfalso. destruct (i_rel _ _ _ I _ _ _ _ H E) as [_ [X|(X & _)]]; tauto.
Qed.

Lemma inv_begin g own s tid p b c : ask_ok g -> inv g own s -> nth_error (s_reqs s) tid = Some (PBegin p b) ->
  nth_error (s_heap s) p = Some c -> inv g own (do_begin g tid p b c s).
Proof.
  intros G I K E. unfold do_begin.
  pose proof (i_req _ _ _ I) as R. rewrite Forall_forall in R. destruct (R _ (nth_error_In _ _ K)) as ((B1 & B2 & B3) & O & L).
  assert (KO : forall q b', PBegin p b = POpen q b' \/ PBegin p b = PBegin q b' -> q = p) by (intros q b' [X|X]; congruence).
  assert (KF : forall q b', PBegin p b = POpen q b' \/ PBegin p b = PBegin q b' -> b_id b = own q).
  { intros q b' X. rewrite (KO _ _ X). auto. }
  destruct (bad_range b); [eapply inv_fail; eauto; discriminate|].
  destruct (x_state c) eqn:X; try (eapply inv_fail_error; eauto; discriminate).
  destruct (i_store _ _ _ I) as (vs & RS).
  destruct (first_page_ok g b (s_store s) vs (s_now s) RS B1 B2 G B3) as (l & page & more & it & rem & SN & FP & MP & AP & PF).
  rewrite FP.
  destruct (i_sess _ _ _ I _ _ E) as [(S1 & S2 & S3 & S4)|(t & b' & st & page' & vs' & l' & rem' & it' & SS)].
  2:{ exfalso. destruct SS as (_ & _ & _ & _ & _ & _ & _ & _ & _ & _ & _ & _ & SS & _). congruence. }
  eapply deliver; eauto; cbn [x_state x_id x_it set_begun].
  - discriminate.
  - unfold use_at; cbn. apply Nat.eqb_refl.
  - unfold gone. rewrite X. intros [Y|Y]; discriminate.
  - rewrite X. discriminate.
  - unfold gone; cbn. intros [Y|Y]; discriminate.
  - eapply i_begin; eauto. eapply nth_error_In; eauto.
  - discriminate.
  - right. exists (s_now s), b, (s_store s), page, vs, l, rem, it.
    rewrite filter_snoc, S2, given_snoc, S3. unfold begin_at. cbn [snd given_by]. rewrite Nat.eqb_refl.
    cbn [app set_begun x_it x_ts x_now x_key_only x_no_auto x_last x_state].
    split; [reflexivity|]. split; [exact RS|]. split; [exact SN|]. split; [reflexivity|]. split; [reflexivity|].
    split; [reflexivity|]. split; [reflexivity|]. split; [reflexivity|]. split; [exact AP|]. split; [exact MP|].
    split. { intros (t' & id & max & pg & mr & H & _). apply in_app_or in H. destruct H as [H|[H|[]]]; [|discriminate].
             exfalso. assert (Q : In (t', EPage p id max pg mr) (filter (use_at p) (s_log s))).
             { apply filter_In. split; auto. unfold use_at; cbn. apply Nat.eqb_refl. }
             rewrite S4 in Q. destruct Q. }
    split; [discriminate|]. split; [discriminate|].
    exists (EBegin p b (s_store s) page). split; [apply in_or_app; cbn; auto|reflexivity].
Qed.

Lemma inv_continue g own s tid p id max c : ask_ok g -> inv g own s -> nth_error (s_reqs s) tid = Some (PCont p id max) ->
  nth_error (s_heap s) p = Some c -> inv g own (do_continue g tid p id max c s).
Proof.
  intros G I K E. unfold do_continue.
  pose proof (i_req _ _ _ I) as R. rewrite Forall_forall in R. destruct (R _ (nth_error_In _ _ K)) as (B & O & L).
  assert (KO : forall q b', PCont p id max = POpen q b' \/ PCont p id max = PBegin q b' -> q = p) by (intros q b' [X|X]; congruence).
  assert (KF : forall q b', PCont p id max = POpen q b' \/ PCont p id max = PBegin q b' -> id = own q).
  { intros q b' [X|X]; discriminate. }
  destruct (negb (is_scan_id c id)) eqn:XI; [eapply inv_fail; eauto; discriminate|].
  destruct (max =? 0) eqn:M0; [eapply inv_fail; eauto; discriminate|]. apply Z.eqb_neq in M0.
  assert (D : x_state c = SBegun \/ x_state c = SContinued -> forall it, x_it c = Some it ->
    inv g own match fetch (S (length (snd it))) (count_limit max (c_count g)) (c_bytes g)
                (x_key_only c) (x_ts c) (x_now c) 0 0 it with
        | Crash => kill s
        | Ok (page, more, it') =>
            emit (EPage p id max page more) (set_pc tid PDone (on_ctx p (set_continued it' (s_now s)) s))
        end).
  { intros XS it XT.
    destruct (i_sess _ _ _ I _ _ E) as [(S1 & _)|(t & b & st & page & vs & l & rem & it0 & S1 & S2 & S3 & S4 & S5 & S6 & S7 & S8 & S9 & S10 & S11 & S12 & S13 & S14)]; [congruence|].
    assert (it0 = it) by congruence. subst it0. rewrite S5, S6, S7.
    destruct (fetch_ok (count_limit max (c_count g)) (c_bytes g) (b_key_only b) (read_ts (b_ts b)) t (S (length (snd it))) 0 0 it rem S9)
      as (pg & more & it' & rem' & FE & R1 & R2 & R3 & R4 & R5 & R6 & R7); [lia|split; [lia|apply count_limit_pos; auto]|].
    rewrite FE. destruct (i_begun _ _ _ I _ _ E XS) as [_ XD].
    eapply deliver; eauto; cbn [x_state x_id x_it set_continued].
    - discriminate.
    - unfold use_at; cbn. apply Nat.eqb_refl.
    - cbn. split; [split|].
      + lia.
      + destruct R6; auto.
      + intros MT. unfold page_full. destruct (R7 MT); [left|right]; lia.
    - unfold gone. intros [Y|Y]; rewrite Y in XS; destruct XS; discriminate.
    - intros Y; rewrite Y in XS; destruct XS; discriminate.
    - unfold gone; cbn. intros [Y|Y]; discriminate.
    - discriminate.
    - right. exists t, b, st, page, vs, l, rem', it'.
      rewrite filter_snoc, S1, given_snoc. unfold begin_at. cbn [snd given_by]. rewrite Nat.eqb_refl, app_nil_r.
      cbn [set_continued x_it x_ts x_now x_key_only x_no_auto x_last x_state].
      split; [reflexivity|]. split; [exact S2|]. split; [exact S3|]. split; [reflexivity|]. split; [exact S5|].
      split; [exact S6|]. split; [exact S7|]. split; [exact S8|]. split; [exact R2|].
      split; [rewrite S10, R1, app_assoc; reflexivity|].
      split. { intros (t' & i' & m' & pg' & mr' & H & D). apply in_app_or in H. destruct H as [H|[H|[]]].
               - assert (Z : rem = []) by (apply S11; exists t', i', m', pg', mr'; auto). rewrite Z in R1. cbn in R1.
                 symmetry in R1. apply app_eq_nil in R1. destruct R1 as [_ R1]. apply map_eq_nil in R1. auto.
               - injection H as <- <- <- <- <-. destruct D as [D|D]; [auto|].
                 specialize (R4 D). rewrite R4 in R1. cbn in R1. symmetry in R1. apply app_eq_nil in R1.
                 destruct R1 as [_ R1]. apply map_eq_nil in R1. auto. }
      split; [discriminate|]. split; [discriminate|].
      exists (EPage p id max pg more). split; [apply in_or_app; cbn; auto|reflexivity]. }
  destruct (x_state c) eqn:X; try (eapply inv_fail_error; eauto; discriminate).
  - destruct (x_it c) as [it|] eqn:XT; [apply D; auto|]. eapply inv_fail_error; eauto; discriminate.
  - destruct (x_it c) as [it|] eqn:XT; [apply D; auto|]. eapply inv_fail_error; eauto; discriminate.
Qed.

Lemma inv_release g own s tid p id c : inv g own s -> nth_error (s_reqs s) tid = Some (PRel p id) ->
  nth_error (s_heap s) p = Some c -> inv g own (do_release tid p id c s).
Proof.
  intros I K E. unfold do_release.
  pose proof (i_req _ _ _ I) as R. rewrite Forall_forall in R. destruct (R _ (nth_error_In _ _ K)) as (O & L).
  assert (KF : forall q b', PRel p id = POpen q b' \/ PRel p id = PBegin q b' -> id = own q).
  { intros q b' [X|X]; discriminate. }
  destruct (negb (is_scan_id c id)) eqn:XI; [eapply inv_fail; eauto; discriminate|].
  assert (D : x_state c = SBegun \/ x_state c = SContinued ->
    inv g own (emit (EReleased p id) (set_pc tid (PTry id) (on_ctx p (set_released (s_now s)) s)))).
  { intros XS. unroll. eapply inv_go; eauto.
    - apply upd_length.
    - eapply soft_upd; eauto; [repeat constructor|]. constructor; cbn; auto.
      + destruct (x_no_auto c); auto. right. exists (EReleased p id). split; [apply in_or_app; cbn; auto|reflexivity].
      + intros _. destruct (x_no_auto c); split; discriminate.
      + intros [Y|Y]; rewrite Y in XS; destruct XS; discriminate.
      + intros Y; rewrite Y in XS; destruct XS; discriminate.
    - repeat constructor.
    - intros t e q [H|[]] T. injection H as <- <-. cbn in T. subst q. cbn [event_id]. split; [auto|]. split; [auto|].
      exists (set_released (s_now s) c). rewrite nth_upd, Nat.eqb_refl, E. split; [reflexivity|].
      split; [apply (i_begun _ _ _ I _ _ E XS)|].
      unfold gone, set_released; cbn. destruct (x_no_auto c); auto.
    - cbn. exists (s_now s), p. apply in_or_app. cbn. auto.
    - discriminate.
    - intros q b [X|X]; discriminate.
    - discriminate. }
  destruct (x_state c) eqn:X; try (eapply inv_fail_error; eauto; discriminate); apply D; auto.
Qed.

Lemma inv_open g own s tid p b c : inv g own s -> nth_error (s_reqs s) tid = Some (POpen p b) ->
  nth_error (s_heap s) p = Some c -> x_state c = SUninit ->
  inv g own (set_pc tid (PBegin p b) (on_ctx p (set_open (b_id b)) s)).
Proof.
  intros I K E X. pose proof (i_req _ _ _ I) as R. rewrite Forall_forall in R.
  destruct (R _ (nth_error_In _ _ K)) as (B & O & L).
  unroll. rewrite (app_nil_log s). eapply inv_go; eauto.
  - apply upd_length.
  - eapply soft_upd; eauto. constructor; cbn; auto.
    + intros N. destruct (i_sess _ _ _ I _ _ E) as [(S1 & _)|(t & b' & st & page' & vs' & l' & rem' & it' & SS)]; [congruence|].
      exfalso. destruct SS as (_ & _ & _ & _ & _ & _ & _ & _ & _ & _ & _ & SS & _). congruence.
    + intros [Y|Y]; congruence.
    + right. congruence.
    + intros [Y|Y]; discriminate.
    + congruence.
  - intros t e q [].
  - cbn. auto.
  - intros q b' H. injection H as <- <-. exists (set_open (b_id b) c). rewrite nth_upd, Nat.eqb_refl, E.
    split; [reflexivity|]. cbn. congruence.
  - intros q b' [H|H]; [|discriminate]. injection H as <- <-. eauto.
  - discriminate.
Qed.

Lemma inv_try g own s tid id p c : inv g own s -> nth_error (s_reqs s) tid = Some (PTry id) ->
  find_scan id (s_alive s) = Some p -> nth_error (s_heap s) p = Some c ->
  inv g own (set_pc tid PDone
    (if recyclable g (s_now s) c then with_alive (delete_scan id (s_alive s)) (on_ctx p (recycle g (s_now s)) s)
     else on_ctx p (recycle g (s_now s)) s)).
Proof.
  intros I K FS E. apply find_scan_In in FS. destruct (i_alive _ _ _ I _ _ FS) as [O L].
  replace (set_pc tid PDone _) with
    {| s_now := s_now s; s_store := s_store s; s_heap := upd (s_heap s) p (recycle g (s_now s));
       s_alive := if recyclable g (s_now s) c then delete_scan id (s_alive s) else s_alive s;
       s_reqs := upd (s_reqs s) tid (fun _ => PDone); s_log := s_log s ++ []; s_dead := s_dead s |}
    by (rewrite app_nil_r; destruct (recyclable g (s_now s) c); reflexivity).
  apply inv_soft; auto.
  - apply (i_store _ _ _ I).
  - apply upd_length.
  - eapply soft_upd; eauto. eapply recycle_soft; eauto.
  - destruct (recyclable g (s_now s) c); [apply NoDup_map_filter|]; apply (i_nodup _ _ _ I).
  - intros [i q]. destruct (recyclable g (s_now s) c); auto. rewrite delete_scan_In. tauto.
  - intros q c' H A N. destruct (recyclable g (s_now s) c) eqn:RC; auto. left. apply delete_scan_In. split; auto.
    intros X. apply N. rewrite X in A. assert (q = p).
    { pose proof (find_scan_uniq _ _ _ (i_nodup _ _ _ I) A). pose proof (find_scan_uniq _ _ _ (i_nodup _ _ _ I) FS). congruence. }
    subst q. rewrite nth_upd, Nat.eqb_refl, E in H. injection H as <-. apply recyclable_gone; auto.
  - intros t e q [].
  - apply Forall_upd; [apply (inv_reqs_mono _ _ _ _ I)|exact Logic.I].
  - intros q b H. apply In_upd in H. destruct H as [H|H]; [discriminate|auto].
  - intros i q b _ H. left. exists b. destruct H as [H|H]; [left|right]; eapply In_upd_other; eauto; discriminate.
  - intros i q _ H. eapply In_upd_other; eauto. discriminate.
Qed.

Lemma inv_del g own s tid id : inv g own s -> nth_error (s_reqs s) tid = Some (PDel id) ->
  inv g own (set_pc tid PDone (with_alive (delete_scan id (s_alive s)) s)).
Proof.
  intros I K. pose proof (i_req _ _ _ I) as R. rewrite Forall_forall in R. pose proof (R _ (nth_error_In _ _ K)) as FL.
  unroll. rewrite (app_nil_log s). apply inv_soft; auto.
  - apply (i_store _ _ _ I).
  - eapply soft_refl; eauto.
  - apply NoDup_map_filter. apply (i_nodup _ _ _ I).
  - intros [i q]. rewrite delete_scan_In. tauto.
  - intros q c' H A N. destruct (Z.eq_dec (own q) id) as [->|X].
    + right. rewrite app_nil_r. exact FL.
    + left. apply delete_scan_In. auto.
  - intros t e q [].
  - apply Forall_upd; [apply (inv_reqs_mono _ _ _ _ I)|exact Logic.I].
  - intros q b H. apply In_upd in H. destruct H as [H|H]; [discriminate|auto].
  - intros i q b _ H. left. exists b. destruct H as [H|H]; [left|right]; eapply In_upd_other; eauto; discriminate.
  - intros i q A H. apply delete_scan_In in A. eapply In_upd_other; eauto. intros X. injection X as ->. tauto.
Qed.

Lemma inv_same_heap g own s now' store' reqs' : inv g own s -> store_ok store' ->
  (exists r, reqs' = s_reqs s ++ r /\ Forall (req_ok own (length (s_heap s)) (s_log s)) r /\ (forall p b, ~ In (PBegin p b) r)) ->
  inv g own {| s_now := now'; s_store := store'; s_heap := s_heap s; s_alive := s_alive s; s_reqs := reqs';
               s_log := s_log s; s_dead := s_dead s |}.
Proof.
  intros I ST (r & -> & RO & NB). rewrite (app_nil_log s). apply inv_soft; auto.
  - eapply soft_refl; eauto.
  - apply (i_nodup _ _ _ I).
  - intros t e q [].
  - apply Forall_app. split; [apply (inv_reqs_mono _ _ _ _ I)|]. rewrite app_nil_r. auto.
  - intros p b H. apply in_app_or in H. destruct H as [H|H]; auto. exfalso. eapply NB; eauto.
  - intros i q b _ H. left. exists b. destruct H as [H|H]; [left|right]; apply in_or_app; auto.
  - intros i q _ H. apply in_or_app; auto.
Qed.

Theorem inv_step g own s a s' : ask_ok g -> inv g own s -> action_ok a -> step g s a = Some s' ->
  exists own', inv g own' s' /\ (forall p, (p < length (s_heap s))%nat -> own' p = own p) /\
    (length (s_heap s) <= length (s_heap s'))%nat.
Proof.
  intros G I AO. unfold step. rewrite (i_dead _ _ _ I). destruct a as [r|tid busy|busy|t|st].
  - intros H; injection H as <-. exists own. split; [|cbn; auto]. unroll. apply inv_same_heap; auto.
    + apply (i_store _ _ _ I).
    + exists [start r]. split; auto. split.
      * repeat constructor. destruct r; cbn in *; auto.
      * intros p b [H|[]]. destruct r; discriminate.
  - destruct (nth_error (s_reqs s) tid) as [k|] eqn:K; [|discriminate].
    assert (Same : forall s1, inv g own s1 -> length (s_heap s1) = length (s_heap s) -> Some s1 = Some s' ->
      exists own', inv g own' s' /\ (forall p, (p < length (s_heap s))%nat -> own' p = own p) /\ (length (s_heap s) <= length (s_heap s'))%nat).
    { intros s1 I1 L1 H. injection H as <-. exists own. split; auto. split; auto. lia. }
    pose proof (i_req _ _ _ I) as R. rewrite Forall_forall in R. pose proof (R _ (nth_error_In _ _ K)) as RK.
    destruct k as [b|p b|p b|id max|p id max|id|p id|id|id|]; cbn [go].
    + destruct (find_scan (b_id b) (s_alive s)) eqn:F.
      * apply Same; [|reflexivity]. eapply inv_refuse; eauto; discriminate.
      * intros H; injection H as <-. exists (fun p => if Nat.eqb p (length (s_heap s)) then b_id b else own p).
        split; [apply inv_create; auto|]. split.
        -- intros p L. destruct (Nat.eqb p (length (s_heap s))) eqn:Q; auto. apply Nat.eqb_eq in Q. lia.
        -- unroll. rewrite app_length. lia.
    + destruct (nth_error (s_heap s) p) as [c|] eqn:E; [|discriminate]. destruct RK as (_ & O & _).
      assert (KF : forall q b', POpen p b = POpen q b' \/ POpen p b = PBegin q b' -> b_id b = own q).
      { intros q b' [X|X]; [|discriminate]. injection X as <- <-. auto. }
      destruct (x_state c) eqn:X;
        try (apply Same; [eapply inv_fail_error; eauto; discriminate|unroll; apply upd_length]).
      apply Same; [eapply inv_open; eauto|unroll; apply upd_length].
    + destruct (nth_error (s_heap s) p) as [c|] eqn:E; [|discriminate]. apply Same; [apply inv_begin; auto|].
      unfold do_begin. destruct (bad_range b); [reflexivity|]. destruct (x_state c); try (unroll; apply upd_length).
      destruct (first_page g b (s_store s) (s_now s)) as [[[pg m] it]|]; unroll; [apply upd_length|reflexivity].
    + destruct (max =? 0); [apply Same; [eapply inv_refuse; eauto; discriminate|reflexivity]|].
      destruct (find_scan id (s_alive s)) as [p|] eqn:F.
      * apply Same; [|reflexivity]. apply find_scan_In in F. destruct (i_alive _ _ _ I _ _ F) as [A B].
        eapply inv_pc; eauto; try discriminate. cbn. auto.
      * apply Same; [|reflexivity]. eapply inv_refuse; eauto; discriminate.
    + destruct (nth_error (s_heap s) p) as [c|] eqn:E; [|discriminate]. apply Same; [apply inv_continue; auto|].
      unfold do_continue. destruct (negb _); [reflexivity|]. destruct (max =? 0); [reflexivity|].
      destruct (x_state c), (x_it c) as [it|]; try (unroll; apply upd_length);
        destruct (fetch _ _ _ _ _ _ _ _ it) as [[[pg m] it']|]; unroll; try apply upd_length; reflexivity.
    + destruct (find_scan id (s_alive s)) as [p|] eqn:F.
      * apply Same; [|reflexivity]. apply find_scan_In in F. destruct (i_alive _ _ _ I _ _ F) as [A B].
        eapply inv_pc; eauto; try discriminate. cbn. auto.
      * apply Same; [|reflexivity]. eapply inv_refuse; eauto; discriminate.
    + destruct (nth_error (s_heap s) p) as [c|] eqn:E; [|discriminate]. apply Same; [apply inv_release; auto|].
      unfold do_release. destruct (negb _); [reflexivity|]. destruct (x_state c); unroll; apply upd_length.
    + assert (N : inv g own (set_pc tid PDone s)) by (eapply inv_pc; eauto; try discriminate; exact Logic.I).
      destruct busy; [apply Same; auto|]. destruct (find_scan id (s_alive s)) as [p|] eqn:F; [|apply Same; auto].
      destruct (nth_error (s_heap s) p) as [c|] eqn:E; [|discriminate].
      apply Same; [eapply inv_try; eauto|]. destruct (recyclable _ _ _); unroll; apply upd_length.
    + apply Same; [apply inv_del; auto|reflexivity].
    + discriminate.
  - destruct (clean g (s_now s) busy (s_alive s) (s_heap s)) as [a' h'] eqn:C. intros H; injection H as <-.
    exists own. split; [eapply inv_clean; eauto|]. split; auto. unroll. apply clean_facts in C. lia.
  - intros H; injection H as <-. exists own. split; [|cbn; auto]. unroll. apply inv_same_heap; auto.
    + apply (i_store _ _ _ I).
    + exists []. rewrite app_nil_r. split; auto.
  - intros H; injection H as <-. exists own. split; [|cbn; auto]. unroll. apply inv_same_heap; auto.
    exists []. rewrite app_nil_r. split; auto.
Qed.

Theorem inv_run g acts : ask_ok g -> Forall action_ok acts -> forall own s s', inv g own s -> run g s acts = Some s' ->
  exists own', inv g own' s'.
Proof.
  intros G. induction acts as [|a acts IH]; intros F own s s' I H; cbn in H.
  - injection H as <-. eauto.
  - inversion F; subst. destruct (step g s a) as [s1|] eqn:E; [|discriminate].
    destruct (inv_step _ _ _ _ _ G I ltac:(eassumption) E) as (own1 & I1 & _). eapply IH; eauto.
Qed.
