(** Lemmas for C83-C87: the invariant of calm histories; applying, losing, becoming leader. *)
From Coq Require Import ZArith List Bool Lia Permutation.
From Verif Require Import Bytes SMap Outcome LogProofs2 NmModel NmSpec NmProofs1 NmProofs2 NmProofs3 NmProofs4.
Import ListNotations.
Open Scope Z_scope.

Fixpoint pairwise {A} (P : A -> A -> Prop) (l : list A) : Prop :=
  match l with [] => True | x :: r => Forall (P x) r /\ pairwise P r end.

Lemma pairwise_app_one {A} (P : A -> A -> Prop) l x : pairwise P l -> Forall (fun y => P y x) l -> pairwise P (l ++ [x]).
Proof.
  induction l as [|a l IH]; simpl; auto. intros [H1 H2] H3. inversion H3; subst. split; auto.
  apply Forall_app; split; auto.
Qed.
Lemma Forall_remove_nth {A} (P : A -> Prop) k : forall l, Forall P l -> Forall P (remove_nth k l).
Proof. induction k; intros [|a l] H; simpl; auto; inversion H; subst; auto. Qed.
Lemma pairwise_remove_nth {A} (P : A -> A -> Prop) k : forall l, pairwise P l -> pairwise P (remove_nth k l).
Proof.
  induction k; intros [|a l] H; simpl in *; auto; destruct H; auto. split; auto. apply Forall_remove_nth; auto.
Qed.
Lemma pairwise_nth {A} (P : A -> A -> Prop) (Hs : forall a b, P a b -> P b a) k : forall l e, pairwise P l -> nth_error l k = Some e ->
  Forall (P e) (remove_nth k l).
Proof.
  induction k; intros [|a l] e H He; simpl in *; try discriminate; destruct H as [H1 H2].
  - inversion He; subst. auto.
  - constructor; auto. rewrite Forall_forall in H1. apply Hs, H1. apply nth_error_In in He. auto.
Qed.
Lemma flat_map_remove_nth {A B} (f : A -> list B) k : forall l e, nth_error l k = Some e ->
  Permutation (flat_map f l) (f e ++ flat_map f (remove_nth k l)).
Proof.
  induction k; intros [|a l] e He; simpl in *; try discriminate.
  - inversion He; subst. auto.
  - rewrite (IHk _ _ He). rewrite !app_assoc. apply Permutation_app_tail. apply Permutation_app_comm.
Qed.

(** the increment takes the table for itself *)
Definition excl (t : Z) (e : entry) : Prop := In (IXDel t) (e_incs e) \/ exists l, In (IXPut t l) (e_incs e).
Definition apart (e f : entry) : Prop :=
  (forall t i, excl t e -> In i (e_incs f) -> ~ about_table i t) /\
  (forall t i, excl t f -> In i (e_incs e) -> ~ about_table i t).
Lemma apart_sym e f : apart e f -> apart f e.
Proof. unfold apart. tauto. Qed.

Definition bk (i : inc) : list (kind * Z * Z) :=
  match i with ITPut k _ t => [(k, t_schema t, t_name t)] | _ => [] end.
Definition creates (i : inc) : Prop := is_x i = true \/ exists k id t, i = ITPut k id t.
Definition back_ok (e : entry) : Prop :=
  e_back e <> [] -> Forall creates (e_incs e) /\ Permutation (flat_map bk (e_incs e)) (e_back e).

Definition pincs (s : state) : list inc := flat_map e_incs (s_pend s).
Record J (s : state) : Prop := {
  j_is : IS s (pincs s);
  j_ix : indexes_exact s;
  j_shape : Forall (shape s) (s_pend s);
  j_apart : pairwise apart (s_pend s);
  j_back : Forall back_ok (s_pend s) }.

Lemma waiting_pincs s i : waiting s i <-> In i (pincs s).
Proof.
  unfold waiting, pincs. rewrite in_flat_map. tauto.
Qed.

Lemma IS_ext s s' R : s_sch s' = s_sch s -> s_tab s' = s_tab s -> s_ind s' = s_ind s -> s_tix s' = s_tix s ->
  s_sn s' = s_sn s -> s_tn s' = s_tn s -> s_in s' = s_in s -> IS s R -> IS s' R.
Proof.
  destruct s, s'; simpl; intros; subst. destruct H6 as [I S]. split.
  - eapply Inv_ext; [| | | |exact I]; intros; try reflexivity; destruct k; reflexivity.
  - destruct S; constructor; auto.
Qed.

Lemma shape_ext s s' e : (forall k x, get_ent s' k x = get_ent s k x) -> (forall x, get_tix s' x = get_tix s x) -> shape s e -> shape s' e.
Proof.
  intros HE HT [P1 P2 P3 P4|t sid name ixs Ei ND Tn|t i sid name l0 tb0 Ei Tb Ts Tl|t i sid l0 x0 Ei Tl Ex Et|t sid l0 Ei Tl].
  - apply sh_plain; auto. intros i sid Q. rewrite HE. eauto.
  - eapply sh_create; eauto. rewrite HT; auto.
  - eapply sh_add; eauto; rewrite ?HE, ?HT; eauto.
  - eapply sh_rem; eauto; rewrite ?HE, ?HT; eauto.
  - eapply sh_drop; eauto. rewrite HT; auto.
Qed.
Lemma exact_ext s s' : (forall k x, get_ent s' k x = get_ent s k x) -> (forall x, get_tix s' x = get_tix s x) -> indexes_exact s -> indexes_exact s'.
Proof.
  intros HE HT [X1 X2]. split.
  - intros t l Hl. rewrite HT in Hl. destruct (X1 _ _ Hl) as (A & B & tb & C & D). split; auto. split.
    + intros i. rewrite B. split; intros (x & Q1 & Q2); exists x; [rewrite HE|rewrite <- HE]; auto.
    + exists tb. rewrite HE. split; auto. intros i x. rewrite HE. eauto.
  - intros i x. rewrite HE, HT. eauto.
Qed.

(** an increment about tables and lists of indexes changes them only where it is about them *)
Lemma tix_frame l : forall s s' x, Sorted s -> apply_incs s l = Ok s' -> (forall i, In i l -> is_x i = true -> ~ about_table i x) ->
  get_tix s' x = get_tix s x.
Proof.
  induction l as [|i l IH]; intros s s' x S H Hx; simpl in H.
  - injection H as <-. auto.
  - destruct (apply_inc s i) as [s1|] eqn:E1; [|discriminate].
    rewrite (IH _ _ x (apply_inc_sorted _ _ _ S E1) H) by (intros; apply Hx; auto; right; auto).
    rewrite (apply_inc_tix _ _ _ x S E1). assert (Q := Hx i (or_introl eq_refl)).
    destruct i; simpl in *; auto; destruct (Z.eqb_spec x t); auto; subst; destruct (Q eq_refl); auto.
Qed.
Lemma tix_some l : forall s s' x v, Sorted s -> apply_incs s l = Ok s' -> ~ In (IXDel x) l ->
  get_tix s x = Some v -> exists w, get_tix s' x = Some w.
Proof.
  induction l as [|i l IH]; intros s s' x v S H Hx Hv; simpl in H.
  - injection H as <-. eauto.
  - destruct (apply_inc s i) as [s1|] eqn:E1; [|discriminate].
    assert (Q : exists w, get_tix s1 x = Some w).
    { rewrite (apply_inc_tix _ _ _ x S E1). destruct i; simpl; eauto; destruct (Z.eqb_spec x t); eauto; subst; rewrite ?Hv; eauto.
      destruct Hx. left; auto. }
    destruct Q as [w Hw]. apply (IH s1 s' x w (apply_inc_sorted _ _ _ S E1) H); auto. intros Q; apply Hx; right; auto.
Qed.

Lemma shape_drop_index s e i sid : shape s e -> In (ITDel KTable i sid) (e_incs e) -> In (IXDel i) (e_incs e).
Proof.
  intros [P1 P2 P3 P4|t sid0 name ixs Ei ND Tn|t j sid0 name l0 tb0 Ei Tb Ts Tl|t j sid0 l0 x0 Ei Tl Ex Et|t sid0 l0 Ei Tl] H.
  - destruct (P4 _ _ H).
  - rewrite Ei in H. destruct H as [H|H]; [discriminate|]. apply in_app_or in H. destruct H as [H|[H|[]]]; [|discriminate].
    apply in_map_iff in H. destruct H as (? & H & _). discriminate.
  - rewrite Ei in H. destruct H as [H|[H|[]]]; discriminate.
  - rewrite Ei in H. destruct H as [H|[H|[]]]; discriminate.
  - rewrite Ei in *. destruct H as [H|H]; [discriminate|]. apply in_app_or in H. destruct H as [H|[H|[]]].
    + apply in_map_iff in H. destruct H as (? & H & _). discriminate.
    + inversion H; subst. left; auto.
Qed.

Lemma set_pend_ent s p k x : get_ent (set_pend s p) k x = get_ent s k x.
Proof. destruct k; reflexivity. Qed.

(** a proposed increment is applied *)
Lemma J_apply s k e : J s -> nth_error (s_pend s) k = Some e ->
  exists s', apply_incs (set_pend s (remove_nth k (s_pend s))) (e_incs e) = Ok s' /\ J s'.
Proof.
  intros [HI HX HS HA HB] He. set (rest := remove_nth k (s_pend s)) in *. set (s0 := set_pend s rest).
  assert (I0 : IS s0 (e_incs e ++ flat_map e_incs rest)).
  { apply IS_perm with (R := pincs s). apply flat_map_remove_nth; auto.
    eapply IS_ext; [| | | | | | |exact HI]; reflexivity. }
  assert (S0 := proj2 I0).
  destruct (apply_incs_ok _ _ _ I0) as (s' & Ea & I' & P'). exists s'. split; auto.
  assert (X0 : indexes_exact s0) by (eapply exact_ext; [| |exact HX]; intros; [apply set_pend_ent|reflexivity]).
  assert (Sh : forall f, In f (s_pend s) -> shape s0 f).
  { intros f Hf. rewrite Forall_forall in HS. eapply shape_ext; [| |apply HS; auto]; intros; [apply set_pend_ent|reflexivity]. }
  assert (Se : shape s0 e) by (apply Sh; eapply nth_error_In; eauto).
  assert (HAp : Forall (apart e) rest) by (eapply pairwise_nth; eauto; apply apart_sym).
  assert (Pr : s_pend s' = rest) by (rewrite P'; reflexivity).
  constructor.
  - unfold pincs. rewrite Pr. auto.
  - eapply shape_apply; eauto.
  - rewrite Pr. apply Forall_forall. intros f Hf.
    assert (Ap : apart e f) by (rewrite Forall_forall in HAp; auto).
    assert (Hf' : In f (s_pend s)).
    { assert (Q : Forall (fun x => In x (s_pend s)) rest) by (apply Forall_remove_nth, Forall_forall; auto).
      rewrite Forall_forall in Q; auto. }
    destruct Ap as [Ap1 Ap2].
    assert (F := fun k x => ent_cases s0 (e_incs e) _ s' k x I0 Ea).
    assert (ND : NoDup (tags (e_incs e ++ flat_map e_incs rest))) by apply I0.
    assert (Keep : forall i sid x, In (ITDel KIndex i sid) (e_incs f) -> get_ent s0 KIndex i = Some x -> get_ent s' KIndex i = Some x).
    { intros i sid x Hi Hx. destruct (F KIndex i) as [(v & V1 & V2 & V3)|[(v & V1 & _)|(V1 & _ & V2)]]; [congruence| |congruence].
      exfalso. rewrite tags_app in ND. apply tag_in_X in V1.
      assert (Q : In (dtag KIndex, i) (tags (flat_map e_incs rest))).
      { apply tag_in_X with (t := sid). apply in_flat_map. eauto. }
      apply in_split in V1. destruct V1 as (l1 & l2 & V1). rewrite V1 in ND.
      rewrite <- app_assoc in ND. simpl in ND. apply NoDup_remove_2 in ND. apply ND. apply in_or_app. right. apply in_or_app. right. auto. }
    assert (KeepT : forall t x, ~ excl t e -> get_ent s0 KTable t = Some x -> get_ent s' KTable t = Some x).
    { intros t x Hn Hx. destruct (F KTable t) as [(v & V1 & V2 & V3)|[(v & V1 & _)|(V1 & _ & V2)]]; [congruence| |congruence].
      destruct Hn. left. eapply shape_drop_index; eauto. }
    destruct (Sh _ Hf') as [P1 P2 P3 P4|t sid0 name ixs Ei ND1 Tn|t j sid0 name l0 tb0 Ei Tb Ts Tl|t j sid0 l0 x0 Ei Tl Ex Et|t sid0 l0 Ei Tl].
    + apply sh_plain; auto. intros i sid Q. destruct (P3 _ _ Q) as (x & Q1 & Q2). exists x. split; auto. eapply Keep; eauto.
    + eapply sh_create; eauto. rewrite (tix_frame _ _ _ t S0 Ea); auto.
      intros i Hi _. apply (Ap2 t i); auto. right. rewrite Ei. eexists. left; reflexivity.
    + assert (Ne : ~ excl t e).
      { intros Q. apply (Ap1 t (IXAdd t j)); auto. rewrite Ei; left; auto. simpl; auto. }
      destruct (tix_some _ _ _ _ _ S0 Ea (fun Q => Ne (or_introl Q)) Tl) as [w Hw].
      eapply sh_add; [exact Ei|eapply KeepT; eauto|auto|exact Hw].
    + assert (Ne : ~ excl t e).
      { intros Q. apply (Ap1 t (IXRem t j)); auto. rewrite Ei; left; auto. simpl; auto. }
      destruct (tix_some _ _ _ _ _ S0 Ea (fun Q => Ne (or_introl Q)) Tl) as [w Hw].
      eapply sh_rem; [exact Ei|exact Hw| |exact Et]. eapply Keep; eauto. rewrite Ei. right; left; auto.
    + eapply sh_drop; eauto. rewrite (tix_frame _ _ _ t S0 Ea); auto.
      intros i Hi _. apply (Ap2 t i); auto. left. rewrite Ei. left; reflexivity.
  - rewrite Pr. apply pairwise_remove_nth; auto.
  - rewrite Pr. apply Forall_remove_nth; auto.
Qed.

(** names given up *)
Definition same_maps (s s' : state) : Prop :=
  s_sch s' = s_sch s /\ s_tab s' = s_tab s /\ s_ind s' = s_ind s /\ s_tix s' = s_tix s /\ s_pend s' = s_pend s.
Lemma same_refl s : same_maps s s.
Proof. repeat split. Qed.
Lemma same_trans a b c : same_maps a b -> same_maps b c -> same_maps a c.
Proof. unfold same_maps. intuition congruence. Qed.
Lemma same_ent s s' k x : same_maps s s' -> get_ent s' k x = get_ent s k x.
Proof. intros (A & B & C & D & F). destruct k; unfold get_ent; rewrite ?B, ?C; auto. Qed.
Lemma same_tix s s' x : same_maps s s' -> get_tix s' x = get_tix s x.
Proof. intros (A & B & C & D & F). unfold get_tix; rewrite D; auto. Qed.
Lemma same_sch s s' x : same_maps s s' -> get_sch s' x = get_sch s x.
Proof. intros (A & B & C & D & F). unfold get_sch; rewrite A; auto. Qed.
Lemma same_sorted s s' : same_maps s s' -> Sorted s -> Sorted s'.
Proof. intros (A & B & C & D & F) []. constructor; congruence. Qed.
Lemma same_set_nm s k f : same_maps s (set_nm s k f).
Proof. destruct k; repeat split. Qed.
Lemma same_give_up l : forall s, same_maps s (give_up s l) /\ s_sn (give_up s l) = s_sn s.
Proof.
  induction l as [|[[k a] b] l IH]; intros s; simpl; [split; [apply same_refl|auto]|].
  destruct (IH (set_nm s k (nm_del (nm s k) a b))) as [A B]. split.
  - eapply same_trans; [apply same_set_nm|exact A].
  - rewrite B. destruct k; auto.
Qed.
Lemma nm_set_nm s k f k' : nm (set_nm s k f) k' = if kind_eqb k' k then f else nm s k'.
Proof. destruct k, k'; reflexivity. Qed.
Lemma sn_set_nm s k f : s_sn (set_nm s k f) = s_sn s.
Proof. destruct k; reflexivity. Qed.

Lemma give_up_nm l : forall s k a b,
  (In (k, a, b) l -> nm (give_up s l) k a b = None) /\ (~ In (k, a, b) l -> nm (give_up s l) k a b = nm s k a b).
Proof.
  induction l as [|[[k1 a1] b1] l IH]; intros s k a b; simpl; [split; [intros []|auto]|].
  destruct (IH (set_nm s k1 (nm_del (nm s k1) a1 b1)) k a b) as [A B].
  assert (D : {In (k, a, b) l} + {~ In (k, a, b) l}).
  { apply in_dec. intros x y. decide equality; [apply Z.eq_dec|]. decide equality; [apply Z.eq_dec|apply kind_dec]. }
  rewrite nm_set_nm in B. split.
  - intros [Q|Q]; auto. inversion Q; subst. destruct D as [D|D]; auto. rewrite (B D).
    destruct (kind_eqb k k) eqn:Ek; [|destruct k; discriminate]. unfold nm_del. rewrite !Z.eqb_refl. auto.
  - intros Q. assert (Q1 : ~ In (k, a, b) l) by tauto. rewrite (B Q1).
    destruct (kind_eqb k k1) eqn:Ek; auto. apply kind_eqb_eq in Ek. subst.
    destruct (nm_del_cases (nm s k1) a1 b1 a b) as [(-> & -> & _)|(_ & Z)]; auto. tauto.
Qed.

Lemma lose_all l : forall s R, Forall creates l -> IS s (l ++ R) -> IS (give_up s (flat_map bk l)) R.
Proof.
  induction l as [|i l IH]; intros s R Hc HI; auto.
  inversion Hc; subst. cbn [app] in HI. destruct H1 as [Hx|(k & id & t & ->)].
  - apply IS_x in HI; auto. assert (bk i = []) as Eb by (destruct i; auto; discriminate). cbn [flat_map]. rewrite Eb. apply IH; auto.
  - cbn [flat_map bk app give_up]. apply IH; auto.
    destruct HI as [I S]. split; [|eapply same_sorted; [apply same_set_nm|auto]].
    eapply Inv_ext; [| | | |exact (lose_put _ _ _ _ _ _ _ _ I)]; intros.
    + apply same_sch, same_set_nm.
    + apply same_ent, same_set_nm.
    + rewrite sn_set_nm. auto.
    + rewrite nm_set_nm. unfold updN. auto.
Qed.

Lemma J_lose s k e : J s -> nth_error (s_pend s) k = Some e -> e_back e <> [] ->
  J (give_up (set_pend s (remove_nth k (s_pend s))) (e_back e)).
Proof.
  intros [HI HX HS HA HB] He Hb. set (rest := remove_nth k (s_pend s)) in *. set (s0 := set_pend s rest).
  assert (I0 : IS s0 (e_incs e ++ flat_map e_incs rest)).
  { apply IS_perm with (R := pincs s). apply flat_map_remove_nth; auto.
    eapply IS_ext; [| | | | | | |exact HI]; reflexivity. }
  assert (Bo : back_ok e) by (rewrite Forall_forall in HB; apply HB; eapply nth_error_In; eauto).
  destruct (Bo Hb) as [C P].
  destruct (same_give_up (e_back e) s0) as [Sm Sn].
  assert (Pr : s_pend (give_up s0 (e_back e)) = rest).
  { destruct Sm as (_ & _ & _ & _ & F). rewrite F. reflexivity. }
  assert (HE : forall k x, get_ent (give_up s0 (e_back e)) k x = get_ent s k x).
  { intros. rewrite (same_ent _ _ _ _ Sm). apply set_pend_ent. }
  assert (HT : forall x, get_tix (give_up s0 (e_back e)) x = get_tix s x).
  { intros. rewrite (same_tix _ _ _ Sm). reflexivity. }
  constructor.
  - unfold pincs. rewrite Pr. assert (L := lose_all _ _ _ C I0). destruct L as [L1 L2]. split; [|eapply same_sorted; [exact Sm|apply I0]].
    destruct (same_give_up (flat_map bk (e_incs e)) s0) as [Sm2 Sn2].
    eapply Inv_ext; [| | | |exact L1]; intros.
    + rewrite (same_sch _ _ _ Sm), (same_sch _ _ _ Sm2). auto.
    + rewrite (same_ent _ _ _ _ Sm), (same_ent _ _ _ _ Sm2). auto.
    + congruence.
    + destruct (give_up_nm (e_back e) s0 k0 a b) as [A1 A2], (give_up_nm (flat_map bk (e_incs e)) s0 k0 a b) as [B1 B2].
      assert (D : {In (k0, a, b) (e_back e)} + {~ In (k0, a, b) (e_back e)}).
      { apply in_dec. intros x y. decide equality; [apply Z.eq_dec|]. decide equality; [apply Z.eq_dec|apply kind_dec]. }
      destruct D as [D|D].
      * rewrite A1, B1; auto. apply (Permutation_in _ (Permutation_sym P)); auto.
      * rewrite A2, B2; auto. intros Q. apply D. apply (Permutation_in _ P); auto.
  - eapply exact_ext; [exact HE|exact HT|exact HX].
  - rewrite Pr. apply Forall_remove_nth. eapply Forall_impl; [|exact HS]. intros f. apply shape_ext; auto.
  - rewrite Pr. apply pairwise_remove_nth; auto.
  - rewrite Pr. apply Forall_remove_nth; auto.
Qed.

(** the name maps are built again *)
Lemma Inv_leader G E SN N R SN' N' : Inv G E SN N R ->
  (forall k i sid, ~ In (ITDel k i sid) R) -> (forall id, ~ In (ISDel id) R) ->
  (forall k a b i, N' k a b = Some i -> exists t, E k i = Some t /\ t_schema t = a /\ t_name t = b) ->
  (forall k i t, E k i = Some t -> exists j, N' k (t_schema t) (t_name t) = Some j) ->
  (forall a b i, SN' a b = Some i -> exists c, G i = Some c /\ sc_tenant c = a /\ sc_name c = b) ->
  (forall i c, G i = Some c -> exists j, SN' (sc_tenant c) (sc_name c) = Some j) ->
  Inv G E SN' N' [].
Proof.
  intros [Ilist Isch Ipos Iput Idel Iname Ifound Isput Isdel Isname Isfound Inodup] ND NS N1 N2 S1 S2.
  constructor; auto; try (intros; contradiction).
  - intros k i t Hi _. destruct (N2 _ _ _ Hi) as [j Hj]. rewrite Hj. f_equal.
    destruct (N1 _ _ _ _ Hj) as (u & U1 & U2 & U3).
    assert (A := Iname _ _ _ Hi (fun sid => ND k i sid)). assert (B := Iname _ _ _ U1 (fun sid => ND k j sid)).
    rewrite U2, U3 in B. congruence.
  - intros k a b i Hi. left. destruct (N1 _ _ _ _ Hi) as (t & A & B & C). exists t. auto.
  - intros id c Hc _. destruct (S2 _ _ Hc) as [j Hj]. rewrite Hj. f_equal.
    destruct (S1 _ _ _ Hj) as (u & U1 & U2 & U3).
    assert (A := Isname _ _ Hc (NS id)). assert (B := Isname _ _ U1 (NS j)). rewrite U2, U3 in B. congruence.
  - intros a b id Hi. left. destruct (S1 _ _ _ Hi) as (c & A & B & C). exists c. auto.
  - constructor.
Qed.

Lemma fold_names {V} (fa fb : V -> Z) (m : list (Z * V)) : forall f a b,
  (fold_left (fun f e => nm_put f (fa (snd e)) (fb (snd e)) (fst e)) m f a b = f a b /\ (forall e, In e m -> ~ (fa (snd e) = a /\ fb (snd e) = b)))
  \/ exists e, In e m /\ fa (snd e) = a /\ fb (snd e) = b /\ fold_left (fun f e => nm_put f (fa (snd e)) (fb (snd e)) (fst e)) m f a b = Some (fst e).
Proof.
  induction m as [|x m IH]; intros f a b; simpl; [left; split; auto; intros ? []|].
  destruct (IH (nm_put f (fa (snd x)) (fb (snd x)) (fst x)) a b) as [(A & B)|(e & A & B & C & D)].
  - rewrite A. destruct (nm_put_cases f (fa (snd x)) (fb (snd x)) (fst x) a b) as [(-> & -> & Q)|(Q1 & Q)]; rewrite Q.
    + right. exists x. auto.
    + left. split; auto. intros e [<-|He]; auto. intros [? ?]. apply Q1; auto.
  - right. exists e. auto.
Qed.
Lemma name_all_spec m : zsorted m -> forall a b,
  (forall i, name_all m a b = Some i -> exists t, get Z.compare m i = Some t /\ t_schema t = a /\ t_name t = b) /\
  (forall i t, get Z.compare m i = Some t -> t_schema t = a -> t_name t = b -> exists j, name_all m a b = Some j).
Proof.
  intros Hs a b. unfold name_all. destruct (fold_names t_schema t_name m no_names a b) as [(A & B)|(e & A & B & C & D)].
  - rewrite A. split; [discriminate|]. intros i t Hi Ha Hb. destruct (B (i, t)); auto. apply (get_In _ zcmp_ok); auto.
  - rewrite D. split; eauto. intros i Hi. inversion Hi; subst. exists (snd e). split; auto.
    apply (In_get _ zcmp_ok); auto. destruct e; auto.
Qed.
Lemma name_schemas_spec m : zsorted m -> forall a b,
  (forall i, name_schemas m a b = Some i -> exists t, get Z.compare m i = Some t /\ sc_tenant t = a /\ sc_name t = b) /\
  (forall i t, get Z.compare m i = Some t -> sc_tenant t = a -> sc_name t = b -> exists j, name_schemas m a b = Some j).
Proof.
  intros Hs a b. unfold name_schemas. destruct (fold_names sc_tenant sc_name m no_names a b) as [(A & B)|(e & A & B & C & D)].
  - rewrite A. split; [discriminate|]. intros i t Hi Ha Hb. destruct (B (i, t)); auto. apply (get_In _ zcmp_ok); auto.
  - rewrite D. split; eauto. intros i Hi. inversion Hi; subst. exists (snd e). split; auto.
    apply (In_get _ zcmp_ok); auto. destruct e; auto.
Qed.

Lemma J_leader s : J s -> (forall k id, ~ dropping s k id) -> (forall id, ~ dropping_schema s id) -> J (become_leader s).
Proof.
  intros [[I S] HX HS HA HB] H1 H2. constructor.
  - split; [|destruct S; constructor; auto].
    apply Inv_leader with (SN := s_sn s) (N := nm s) (R := pincs s).
    + eapply Inv_ext; [| | | |exact I]; intros; auto; destruct k; auto.
    + intros k i sid Q. apply (H1 k i). exists sid. apply waiting_pincs; auto.
    + intros id Q. apply (H2 id). apply waiting_pincs; auto.
    + intros k a b i Hi. destruct k; [apply (name_all_spec (s_tab s) (so_tab _ S) a b)|apply (name_all_spec (s_ind s) (so_ind _ S) a b)]; auto.
    + intros k i t Hi. destruct k.
      * eapply (name_all_spec (s_tab s) (so_tab _ S)); eauto.
      * eapply (name_all_spec (s_ind s) (so_ind _ S)); eauto.
    + intros a b i Hi. apply (name_schemas_spec (s_sch s) (so_sch _ S) a b); auto.
    + intros i c Hc. eapply (name_schemas_spec (s_sch s) (so_sch _ S)); eauto.
  - eapply exact_ext; [| |exact HX]; intros; auto; destruct k; auto.
  - constructor.
  - constructor.
  - constructor.
Qed.
