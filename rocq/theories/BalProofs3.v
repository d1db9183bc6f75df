(** Region plans, launching and hours. *)
From Coq Require Import ZArith QArith Qabs List Bool Lia Lqa Permutation.
From Verif Require Import BalModel BalSpec BalProofs1.
Import ListNotations.
Local Open Scope Z_scope.

(** ** Scores *)

Lemma inject_pos z : 0 < z -> Qsign (inject_Z z) = Gt.
Proof. intros H. unfold Qsign, Qcompare. cbn. destruct z; try lia. reflexivity. Qed.

Lemma div_pos a b : 0 < a -> 0 < b -> Qsign (inject_Z a / inject_Z b) = Gt.
Proof.
  intros Ha Hb. unfold Qsign. apply Qgt_alt. apply Qlt_shift_div_l.
  - unfold Qlt. cbn. lia.
  - unfold Qlt. cbn. lia.
Qed.

Lemma rscore_fin c m : 0 < c_region_size c -> 0 < sm_total_cap m -> rscore c m = Fin (fullness c m).
Proof.
  intros Hc Hm. unfold rscore, fullness, e_of. cbn [e_div].
  rewrite !(inject_pos _ Hm), (inject_pos _ Hc). cbn [e_div e_mul].
  rewrite (div_pos _ _ Hm Hc). cbn [e_mul e_add]. reflexivity.
Qed.

(** ** The order of the candidates *)

Fixpoint chain {A} (R : A -> A -> Prop) (l : list A) : Prop :=
  match l with
  | a :: ((b :: _) as r) => R a b /\ chain R r
  | _ => True
  end.

Lemma insert_chain {A} (lt : A -> A -> bool) x l :
  (forall a b, lt a b = true -> lt b a = false) ->
  chain (fun a b => lt b a = false) l -> chain (fun a b => lt b a = false) (insert lt x l).
Proof.
  intros As. induction l as [|y l IH]; intros H; [exact I|]. cbn [insert].
  destruct (lt y x) eqn:E.
  - destruct l as [|z l]; cbn [insert] in *.
    + split; [apply As; exact E | exact I].
    + destruct H as [H1 H2]. specialize (IH H2). destruct (lt z x) eqn:E2.
      * split; [exact H1 | exact IH].
      * split; [apply As; exact E | exact IH].
  - split; [exact E | exact H].
Qed.

Lemma isort_chain {A} (lt : A -> A -> bool) l : (forall a b, lt a b = true -> lt b a = false) ->
  chain (fun a b => lt b a = false) (isort lt l).
Proof.
  intros As. induction l as [|x l IH]; [exact I|]. unfold isort in *. cbn [fold_right].
  apply insert_chain; assumption.
Qed.

Definition eps : Q := 1 # 1000000.

Lemma e_lt_fin x y : e_lt (Fin x) (Fin y) = true <-> (x < y)%Q.
Proof.
  unfold e_lt. cbn. rewrite negb_true_iff, <- not_true_iff_false, Qle_bool_iff. split.
  - apply Qnot_le_lt.
  - apply Qlt_not_le.
Qed.

Lemma rclose_fin a b x y : q_score a = Fin x -> q_score b = Fin y ->
  (rclose a b = true <-> (Qabs (x - y) < eps)%Q).
Proof. intros Ea Eb. unfold rclose. rewrite Ea, Eb. cbn [e_sub e_neg e_add e_abs]. apply e_lt_fin. Qed.

Definition scores_fin (l : list rentry) : Prop := forall e, In e l -> exists x, q_score e = Fin x.

Lemma rclose_sym a b : rclose a b = rclose b a.
Proof.
  unfold rclose. destruct (q_score a) as [| | |x], (q_score b) as [| | |y]; try reflexivity.
  cbn [e_sub e_neg e_add e_abs e_lt].
  assert (E : Qabs (x + - y) == Qabs (y + - x)).
  { setoid_replace (y + - x)%Q with (- (x + - y))%Q by ring. symmetry. apply Qabs_opp. }
  cbn [e_le]. f_equal. destruct (Qle_bool (1 # 1000000) (Qabs (x + - y))) eqn:E1.
  - symmetry. apply Qle_bool_iff. apply Qle_bool_iff in E1. rewrite <- E. exact E1.
  - symmetry. apply not_true_iff_false. intros E2. apply not_true_iff_false in E1. apply E1.
    apply Qle_bool_iff. apply Qle_bool_iff in E2. rewrite E. exact E2.
Qed.

Lemma e_lt_asym a b : e_lt a b = true -> e_lt b a = false.
Proof.
  destruct a as [| | |x], b as [| | |y]; cbn; try discriminate; try reflexivity.
  intros H. apply negb_true_iff, not_true_iff_false in H. apply negb_false_iff.
  apply Qle_bool_iff. destruct (Qlt_le_dec y x) as [L | L]; [|exact L].
  exfalso. apply H. apply Qle_bool_iff. apply Qlt_le_weak. exact L.
Qed.

Lemma rgreater_asym a b : rgreater a b = true -> rgreater b a = false.
Proof.
  unfold rgreater. rewrite (rclose_sym b a). destruct (rclose a b).
  - intros H. apply Z.ltb_lt in H. apply Z.ltb_ge. lia.
  - apply e_lt_asym.
Qed.

Lemma rgreater_le a b x y : q_score a = Fin x -> q_score b = Fin y -> rgreater b a = false -> (y <= x + eps)%Q.
Proof.
  intros Ea Eb H. unfold rgreater in H. destruct (rclose b a) eqn:C.
  - apply (rclose_fin _ _ _ _ Eb Ea) in C. apply Qabs_Qlt_condition in C. lra.
  - rewrite Ea, Eb in H. unfold eps. apply not_true_iff_false in H. rewrite e_lt_fin in H.
    apply Qnot_lt_le in H. lra.
Qed.

Definition nq (n : nat) : Q := inject_Z (Z.of_nat n).

Lemma nq_S n : nq (S n) == nq n + 1.
Proof. unfold nq. rewrite Nat2Z.inj_succ. unfold Z.succ. rewrite inject_Z_plus. reflexivity. Qed.

(** In a list sorted by Greater the last one is at most [n] millionths above
    any other. *)
Lemma chain_last l z : scores_fin (l ++ [z]) -> chain (fun a b => rgreater b a = false) (l ++ [z]) ->
  forall e x y, In e (l ++ [z]) -> q_score e = Fin x -> q_score z = Fin y -> (y <= x + nq (length l) * eps)%Q.
Proof.
  induction l as [|a l IH]; intros F C e x y He Ex Ey.
  - destruct He as [<- | []]. assert (x = y) by congruence. subst. assert (E0 : (nq 0 == 0)%Q) by reflexivity. cbn [length]. rewrite E0. lra.
  - assert (F' : scores_fin (l ++ [z])) by (intros w Hw; apply F; right; exact Hw).
    assert (C' : chain (fun a b => rgreater b a = false) (l ++ [z])).
    { cbn [app chain] in C. destruct (l ++ [z]); [exact I | apply C]. }
    specialize (IH F' C').
    assert (Hs : nq (length (a :: l)) == nq (length l) + 1) by (cbn [length]; apply nq_S).
    assert (0 <= nq (length l))%Q by (unfold nq, Qle; cbn; lia).
    destruct He as [<- | He].
    + destruct (l ++ [z]) as [|b r] eqn:El; [destruct l; discriminate|].
      cbn [app chain] in C. rewrite El in C. destruct C as [C _].
      destruct (F' b (or_introl eq_refl)) as (w & Ew).
      assert (L1 := rgreater_le _ _ _ _ Ex Ew C).
      assert (L2 := IH b w y (or_introl eq_refl) Ew Ey). rewrite Hs. unfold eps in *. lra.
    + specialize (IH e x y He Ex Ey). rewrite Hs. unfold eps in *. lra.
Qed.

(** ** No crash *)

Lemma rloop_safe c views src z tgt : forall n,
  (forall t, In t tgt -> exists x y, q_score z = Fin x /\ q_score t = Fin y /\ (x <= y + c_limit c)%Q) ->
  rloop c views n (src ++ [z]) tgt <> Crashed.
Proof.
  revert tgt. induction src as [|s src IH]; intros tgt n H.
  - cbn [app rloop]. destruct tgt as [|t tgt]; [discriminate|].
    destruct (H t (or_introl eq_refl)) as (x & y & Ex & Ey & L). rewrite Ex, Ey.
    destruct (e_le (Fin x) (Fin y)); [discriminate|]. cbn [e_sub e_neg e_add e_le].
    replace (Qle_bool (x + - y) (c_limit c)) with true; [discriminate|].
    symmetry. apply Qle_bool_iff. lra.
  - cbn [app rloop]. destruct tgt as [|t tgt]; [discriminate|].
    destruct (e_le (q_score s) (q_score t)); [discriminate|].
    destruct (e_le (e_sub _ _) _); [discriminate|].
    destruct (gen_change (views n) s t); [discriminate|].
    destruct (src ++ [z]) as [|s' r] eqn:E; [destruct src; discriminate|].
    destruct (gen_change (views (S n)) s' t); [discriminate|].
    apply IH. intros u Hu. apply H. right. exact Hu.
Qed.

Lemma gen_rentries_ok c v rs ss e : In e (gen_rentries c v rs ss) ->
  exists s m, In s ss /\ q_id e = s_id s /\ s_id s <> 0 /\ s_normal s = true /\
    v_store v (s_id s) = Some m /\ q_score e = rscore c m /\ q_foll e = followers_of rs (s_id s).
Proof.
  unfold gen_rentries. intros H. apply in_flat_map in H. destruct H as (s & Hs & H).
  destruct (s_id s =? 0) eqn:E0; [contradiction|]. apply Z.eqb_neq in E0.
  destruct (s_normal s) eqn:En; [|contradiction]. cbn in H.
  destruct (v_store v (s_id s)) as [m|] eqn:M; [|contradiction]. destruct H as [<- | []].
  exists s, m. cbn. auto 10.
Qed.

Lemma gen_rentries_length c v rs ss : (length (gen_rentries c v rs ss) <= length ss)%nat.
Proof.
  unfold gen_rentries. induction ss as [|s ss IH]; [cbn; lia|]. cbn [flat_map]. rewrite app_length. cbn [length].
  destruct (s_id s =? 0); [cbn; lia|]. destruct (negb (s_normal s)); [cbn; lia|].
  destruct (v_store v (s_id s)); cbn; lia.
Qed.

Lemma rschedule_safe c views rs ss : finite c (views 0%nat) ss ->
  (nq (length ss) * eps <= c_limit c)%Q -> rschedule c views rs ss <> Crashed.
Proof.
  intros [Hc Hf] Hl. unfold rschedule. destruct (map_stores rs) as [|ms0 ms]; [discriminate|].
  set (es := gen_rentries c (views 0%nat) rs ss). assert (Hfin : scores_fin es).
  { intros e He. apply gen_rentries_ok in He. destruct He as (s & m & Hs & _ & _ & _ & M & Sc & _).
    exists (fullness c m). rewrite Sc. apply rscore_fin; [exact Hc | exact (Hf s m Hs M)]. }
  assert (Hlen : (length es <= length ss)%nat) by apply gen_rentries_length.
  clearbody es. destruct es as [|e0 es'] eqn:Ees; [discriminate|]. rewrite <- Ees in *.
  assert (Hne : isort rgreater es <> []).
  { intros E. assert (P := isort_perm rgreater es). rewrite E in P. apply Permutation_nil in P. congruence. }
  destruct (exists_last Hne) as (l & z & El).
  assert (Pg := isort_perm rgreater es). rewrite El in *.
  assert (Hin : forall e, In e es <-> In e (l ++ [z])).
  { intros e. split; [apply Permutation_in; symmetry; exact Pg | apply Permutation_in; exact Pg]. }
  assert (Hlast : (length l <= length ss)%nat).
  { apply Permutation_length in Pg. rewrite app_length in Pg. cbn in Pg. lia. }
  apply rloop_safe. intros t Ht.
  apply (Permutation_in _ (isort_perm rless es)) in Ht.
  destruct (Hfin z) as (x & Ex); [apply Hin; apply in_or_app; right; left; reflexivity|].
  destruct (Hfin t Ht) as (y & Ey). exists x, y. split; [exact Ex|]. split; [exact Ey|].
  assert (Q := chain_last l z). 
  assert (L : (x <= y + nq (length l) * eps)%Q).
  { apply (Q) with (e := t); try assumption.
    - intros e He. apply Hfin. apply Hin. exact He.
    - rewrite <- El. apply isort_chain. apply rgreater_asym.
    - apply Hin. exact Ht. }
  assert (nq (length l) <= nq (length ss))%Q by (unfold nq, Qle; cbn; lia).
  unfold eps in *. lra.
Qed.

(** ** What a move is *)

Definition made_of (c : rcfg) (views : nat -> view) (es : list rentry) (k : rtask) : Prop :=
  exists n s t m, In s es /\ In t es /\ k_src k = q_id s /\ k_dst k = q_id t /\
    e_le (q_score s) (q_score t) = false /\ In (k_region k) (q_foll s) /\
    v_region (views n) (k_region k) = Some m /\
    rresource_check (views n) (q_id t) (k_region k) = true /\
    placement_check (views n) (q_id t) (k_region k) = true /\
    k_new k = new_stores (rm_peers m) (q_id s) (q_id t).

Lemma gen_change_ok c views n es s t k : In s es -> In t es -> gen_change (views n) s t = Some k ->
  made_of c views es k.
Proof.
  intros Hs Ht. unfold gen_change. destruct (e_le (q_score s) (q_score t)) eqn:E; [discriminate|].
  destruct (find _ _) as [[id m]|] eqn:F; [|discriminate]. intros H.
  assert (k = mkRtask id (q_id s) (q_id t) (new_stores (rm_peers m) (q_id s) (q_id t))) as -> by congruence.
  apply find_some in F. destruct F as [F1 F2]. apply (Permutation_in _ (isort_perm _ _)) in F1.
  apply in_flat_map in F1. destruct F1 as (id' & Hid & F1).
  destruct (v_region (views n) id') as [m'|] eqn:M; [|contradiction]. destruct F1 as [F1 | []].
  assert (id' = id) by congruence. assert (m' = m) by congruence. subst.
  unfold rfilter_region in Hid. apply filter_In in Hid. destruct Hid as [Hid _].
  cbn [fst] in F2. apply andb_true_iff in F2. destruct F2 as [F2 F3].
  exists n, s, t, m. cbn. auto 12.
Qed.

Lemma rloop_made c views es src tgt k : forall n,
  (forall e, In e src -> In e es) -> (forall e, In e tgt -> In e es) ->
  rloop c views n src tgt = Planned (Some k) -> made_of c views es k.
Proof.
  revert tgt. induction src as [|s src IH]; intros tgt n Hs Ht; cbn [rloop]; [discriminate|].
  destruct tgt as [|t tgt]; [discriminate|].
  destruct (e_le (q_score s) (q_score t)); [discriminate|].
  destruct (e_le (e_sub _ _) _); [discriminate|].
  assert (In s es) by (apply Hs; left; reflexivity). assert (In t es) by (apply Ht; left; reflexivity).
  destruct (gen_change (views n) s t) as [k'|] eqn:G1.
  { intros Hk. assert (k' = k) as -> by congruence. eapply gen_change_ok; [| |exact G1]; assumption. }
  destruct src as [|s' src]; [discriminate|].
  assert (In s' es) by (apply Hs; right; left; reflexivity).
  destruct (gen_change (views (S n)) s' t) as [k'|] eqn:G2.
  { intros Hk. assert (k' = k) as -> by congruence. eapply gen_change_ok; [| |exact G2]; assumption. }
  apply IH; intros e He; [apply Hs | apply Ht]; right; exact He.
Qed.

Lemma rschedule_made c views rs ss k : rschedule c views rs ss = Planned (Some k) ->
  made_of c views (gen_rentries c (views 0%nat) rs ss) k.
Proof.
  unfold rschedule. destruct (map_stores rs) as [|ms0 ms]; [discriminate|].
  destruct (gen_rentries c (views 0%nat) rs ss) as [|e0 es'] eqn:E; [discriminate|]. rewrite <- E.
  apply rloop_made; intros e; apply Permutation_in; apply isort_perm.
Qed.

Lemma remove1_filter x l : NoDup l -> remove1 x l = filter (fun y => negb (x =? y)) l.
Proof.
  induction l as [|y l IH]; intros N; [reflexivity|]. inversion N as [|? ? Hx Hn]. subst. cbn.
  destruct (x =? y) eqn:E; cbn [negb].
  - apply Z.eqb_eq in E. subst. clear IH N Hn. induction l as [|z l IH]; [reflexivity|]. cbn.
    destruct (y =? z) eqn:E; [apply Z.eqb_eq in E; subst; exfalso; apply Hx; left; reflexivity|].
    cbn. f_equal. apply IH. intros H. apply Hx. right. exact H.
  - f_equal. apply IH. exact Hn.
Qed.

Lemma NoDup_filt {A} (f : A -> bool) l : NoDup l -> NoDup (filter f l).
Proof.
  induction l as [|x l IH]; intros N; [constructor|]. inversion N as [|? ? Hx Hn]. subst. cbn.
  destruct (f x); [constructor; [rewrite filter_In; tauto | auto] | auto].
Qed.

Lemma filter_filter' {A} (f g : A -> bool) l : filter f (filter g l) = filter (fun x => g x && f x) l.
Proof.
  induction l as [|x l IH]; [reflexivity|]. cbn. destruct (g x); cbn; [|exact IH].
  destruct (f x); rewrite IH; reflexivity.
Qed.

Lemma set_difference_filter b : forall a, NoDup a ->
  set_difference a b = filter (fun x => negb (memZ x b)) a.
Proof.
  unfold set_difference. induction b as [|x b IH]; intros a N; cbn [fold_left].
  - cbn.
    induction a as [|y a IHa]; [reflexivity|]. cbn. f_equal. apply IHa. inversion N. assumption.
  - rewrite IH by (rewrite remove1_filter by exact N; apply NoDup_filt; exact N).
    rewrite remove1_filter by exact N. rewrite filter_filter'. apply filter_ext. intros y.
    cbn. rewrite (Z.eqb_sym y x), negb_orb. reflexivity.
Qed.

Lemma new_stores_replaces old src dst : NoDup old -> In src old -> ~ In dst old ->
  replaces old (new_stores old src dst) src dst /\
  pair_accepts old (new_stores old src dst) = Some (dst, src).
Proof.
  intros N Hs Hd.
  assert (Nf : NoDup (filter (fun s => negb (s =? src)) old)) by (apply NoDup_filt; exact N).
  assert (Hf : forall s, In s (filter (fun s => negb (s =? src)) old) <-> In s old /\ s <> src).
  { intros s. rewrite filter_In, negb_true_iff, Z.eqb_neq. tauto. }
  assert (Nn : NoDup (new_stores old src dst)).
  { unfold new_stores. constructor; [rewrite Hf; tauto | exact Nf]. }
  assert (E1 : filter (fun s => s =? src) old = [src]).
  { clear Nf Hf Nn Hd. induction old as [|x old IH]; [contradiction|]. inversion N as [|? ? Hx Hn]. subst. cbn.
    destruct (x =? src) eqn:E.
    - apply Z.eqb_eq in E. subst. f_equal. clear IH N Hn Hs. induction old as [|y l IH]; [reflexivity|]. cbn.
      destruct (y =? src) eqn:E; [apply Z.eqb_eq in E; subst; exfalso; apply Hx; left; reflexivity|].
      apply IH. intros H. apply Hx. right. exact H.
    - apply Z.eqb_neq in E. apply IH; [exact Hn|]. destruct Hs; [congruence | assumption]. }
  split.
  - repeat split; try assumption.
    + unfold new_stores. cbn [length].
      assert (P : length old = (length (filter (fun s => (s =? src)%Z) old) +
                  length (filter (fun s => negb (s =? src)%Z) old))%nat).
      { clear. induction old as [|x old IH]; [reflexivity|]. cbn. destruct (x =? src); cbn; lia. }
      rewrite E1 in P. cbn in P. lia.
    + unfold new_stores. cbn [In]. rewrite Hf. intros [H | H]; [left; congruence | right; exact H].
    + unfold new_stores. cbn [In]. rewrite Hf. intros [H | H]; [left; congruence | right; exact H].
  - unfold pair_accepts. rewrite (set_difference_filter old _ Nn), (set_difference_filter _ _ N).
    assert (E2 : filter (fun x => negb (memZ x old)) (new_stores old src dst) = [dst]).
    { unfold new_stores. cbn [filter]. apply memZ_false in Hd. rewrite Hd. cbn [negb]. f_equal.
      rewrite filter_filter'. clear. assert (forall l, (forall x, In x l -> In x old) ->
        filter (fun x => negb (x =? src) && negb (memZ x old)) l = []) as G.
      { induction l as [|x l IH]; intros H; [reflexivity|]. cbn.
        assert (memZ x old = true) as -> by (apply memZ_In; apply H; left; reflexivity).
        rewrite andb_false_r. apply IH. intros y Hy. apply H. right. exact Hy. }
      apply G. auto. }
    assert (E3 : filter (fun x => negb (memZ x (new_stores old src dst))) old = [src]).
    { rewrite <- E1. apply filter_ext_in. intros x Hx. destruct (x =? src) eqn:E.
      - apply Z.eqb_eq in E. subst. apply negb_true_iff. apply memZ_false. unfold new_stores. cbn [In].
        rewrite Hf. intros [H | H]; [subst; contradiction | tauto].
      - apply Z.eqb_neq in E. apply negb_false_iff. apply memZ_In. unfold new_stores. right. apply Hf. auto. }
    rewrite E2, E3. reflexivity.
Qed.

Lemma rresource_ok v s r : rresource_check v s r = true ->
  exists sm m, v_store v s = Some sm /\ v_region v r = Some m /\ 0 < rm_size m < sm_free_cap sm.
Proof.
  unfold rresource_check. destruct (v_store v s) as [sm|]; [|discriminate].
  destruct (v_region v r) as [m|]; [|discriminate]. intros H. exists sm, m.
  split; [reflexivity|]. split; [reflexivity|].
  destruct (Z.leb_spec (sm_free_cap sm) 0); [discriminate|].
  destruct (Z.leb_spec (rm_size m) 0); [discriminate|].
  destruct (Z.leb_spec (sm_free_cap sm) (rm_size m)); [discriminate|]. lia.
Qed.

Lemma e_le_self_fin x : e_le (Fin x) (Fin x) = true.
Proof. cbn. apply Qle_bool_iff. apply Qle_refl. Qed.

(** ** Launching *)

Lemma launches_app l1 l2 st : launches st (l1 ++ l2) =
  match launches st l1 with None => None | Some st' => launches st' l2 end.
Proof.
  revert st. induction l1 as [|a l1 IH]; intros st; cbn; [reflexivity|].
  destruct (launch_step st a); [apply IH | reflexivity].
Qed.

Definition active (st : lstate) (i : nat) : Prop := l_pc st i = LTested \/ l_pc st i = LRunning.

Definition linv (st : lstate) : Prop :=
  (forall i j, active st i -> active st j -> i = j) /\
  (l_flag st = false -> forall i, l_pc st i <> LRunning) /\
  (l_flag st = true -> exists i, l_pc st i = LRunning).

Lemma l_set_eq f i x j : l_set f i x j = if Nat.eqb j i then x else f j.
Proof. reflexivity. Qed.

Lemma launches_inv l : one_at_a_time l -> forall st, launches l_init l = Some st -> linv st.
Proof.
  induction l as [|[i s] l IH] using rev_ind; intros O st H.
  - cbn in H. assert (st = l_init) as -> by congruence. repeat split.
    + intros i j [H1 | H1]; discriminate.
    + intros _ i. discriminate.
    + discriminate.
  - rewrite launches_app in H. destruct (launches l_init l) as [st0|] eqn:L; [|discriminate].
    assert (O' : one_at_a_time l).
    { intros pre k post st1 E. apply (O pre k (post ++ [(i, s)])). rewrite E, <- app_assoc. reflexivity. }
    destruct (IH O' _ eq_refl) as (I1 & I2 & I3). clear IH.
    cbn [launches] in H. destruct (launch_step st0 (i, s)) as [st1|] eqn:S; [|discriminate].
    assert (st1 = st) as -> by congruence. unfold launch_step in S.
    destruct (l_pc st0 i) eqn:P; destruct s; try discriminate.
    + assert (NT : forall j, l_pc st0 j <> LTested).
      { apply (O l i []); [reflexivity | exact L]. }
      destruct (l_flag st0) eqn:F; assert (E : st = mkL _ _) by (symmetry; injection S as <-; reflexivity); subst st.
      * repeat split; cbn.
        -- intros a b Ha Hb. apply I1; [revert Ha | revert Hb]; unfold active; cbn; rewrite l_set_eq.
           ++ destruct (Nat.eqb_spec a i); [intros [?|?]; discriminate | auto].
           ++ destruct (Nat.eqb_spec b i); [intros [?|?]; discriminate | auto].
        -- discriminate.
        -- intros _. destruct (I3 eq_refl) as (k & Hk). exists k. rewrite l_set_eq.
           destruct (Nat.eqb_spec k i); [subst; congruence | exact Hk].
      * repeat split; cbn.
        -- assert (A : forall a, active (mkL false (l_set (l_pc st0) i LTested)) a -> a = i).
           { intros a [Ha | Ha]; cbn in Ha; rewrite l_set_eq in Ha; destruct (Nat.eqb_spec a i); auto.
             - exfalso. exact (NT a Ha).
             - exfalso. exact (I2 eq_refl a Ha). }
           intros a b Ha Hb. rewrite (A a Ha), (A b Hb). reflexivity.
        -- intros _ a. rewrite l_set_eq. destruct (Nat.eqb_spec a i); [discriminate | apply I2; reflexivity].
        -- discriminate.
    + injection S as <-. repeat split; cbn.
      * assert (A : forall a, active (mkL true (l_set (l_pc st0) i LRunning)) a -> a = i).
        { intros a Ha. unfold active in Ha. cbn in Ha. rewrite l_set_eq in Ha.
          destruct (Nat.eqb_spec a i); auto. apply I1; [exact Ha | left; exact P]. }
        intros a b Ha Hb. rewrite (A a Ha), (A b Hb). reflexivity.
      * discriminate.
      * intros _. exists i. rewrite l_set_eq, Nat.eqb_refl. reflexivity.
    + injection S as <-. repeat split; cbn.
      * assert (A : forall a, ~ active (mkL false (l_set (l_pc st0) i (LBack true))) a).
        { intros a Ha. unfold active in Ha. cbn in Ha. rewrite l_set_eq in Ha.
          destruct (Nat.eqb_spec a i); [destruct Ha; discriminate|].
          apply n. apply I1; [exact Ha | right; exact P]. }
        intros a b Ha. exfalso. exact (A a Ha).
      * intros _ a. rewrite l_set_eq. destruct (Nat.eqb_spec a i); [discriminate|].
        intros Ha. apply n. apply I1; right; assumption.
      * discriminate.
Qed.

(** ** Hours *)

Lemma pieces_last c p : ~ In c p -> pieces c p = [p].
Proof.
  induction p as [|x p IH]; intros H; [reflexivity|]. cbn.
  destruct (x =? c) eqn:E; [apply Z.eqb_eq in E; subst; exfalso; apply H; left; reflexivity|].
  rewrite IH; [reflexivity|]. intros Hi. apply H. right. exact Hi.
Qed.

Lemma pieces_cons c p r : ~ In c p -> pieces c (p ++ c :: r) = p :: pieces c r.
Proof.
  induction p as [|x p IH]; intros H; cbn.
  - rewrite Z.eqb_refl. reflexivity.
  - destruct (x =? c) eqn:E; [apply Z.eqb_eq in E; subst; exfalso; apply H; left; reflexivity|].
    rewrite IH; [reflexivity|]. intros Hi. apply H. right. exact Hi.
Qed.

Lemma drop_none s : (forall c, In c s -> is_space c = false) -> drop_spaces s = s.
Proof. destruct s as [|c s]; intros H; [reflexivity|]. cbn. rewrite (H c (or_introl eq_refl)). reflexivity. Qed.

Lemma trim_none s : (forall c, In c s -> is_space c = false) -> trim s = s.
Proof.
  intros H. unfold trim. rewrite (drop_none s H). rewrite drop_none, rev_involutive; [reflexivity|].
  intros c Hc. apply H. apply in_rev. exact Hc.
Qed.

Definition hour_list : list Z := map Z.of_nat (seq 0 24).

Lemma hour_in a : 0 <= a < 24 -> In a hour_list.
Proof.
  intros H. unfold hour_list. apply in_map_iff. exists (Z.to_nat a). split; [lia|]. apply in_seq. lia.
Qed.

Lemma dec_hour a : 0 <= a < 24 ->
  dec a <> [] /\ strtol_all (dec a) = Some a /\ forall c, In c (dec a) -> 48 <= c <= 57.
Proof.
  intros H. apply hour_in in H. revert a H.
  assert (forall a, In a hour_list -> negb (Nat.eqb (length (dec a)) 0) &&
     match strtol_all (dec a) with Some b => b =? a | None => false end &&
     forallb (fun c => (48 <=? c) && (c <=? 57)) (dec a) = true) as G.
  { apply forallb_forall. vm_compute. reflexivity. }
  intros a Ha. specialize (G a Ha). apply andb_true_iff in G. destruct G as [G G3].
  apply andb_true_iff in G. destruct G as [G1 G2]. split.
  - intros E. rewrite E in G1. discriminate.
  - split.
    + destruct (strtol_all (dec a)) as [b|]; [|discriminate]. apply Z.eqb_eq in G2. congruence.
    + intros c Hc. rewrite forallb_forall in G3. specialize (G3 c Hc). apply andb_true_iff in G3.
      rewrite !Z.leb_le in G3. lia.
Qed.

Definition hours_ok (w : Z * Z) : Prop := 0 <= fst w < 24 /\ 0 <= snd w < 24.

Lemma window_chars w c : hours_ok w -> In c (window w) -> c = 44 \/ 48 <= c <= 57.
Proof.
  intros [H1 H2] H. unfold window in H. apply in_app_or in H. destruct H as [H | [H | H]].
  - right. apply (dec_hour _ H1). exact H.
  - left. congruence.
  - right. apply (dec_hour _ H2). exact H.
Qed.

Lemma digits_not_space c : c = 44 \/ 48 <= c <= 57 -> is_space c = false.
Proof.
  intros H. unfold is_space. apply orb_false_iff. split; [apply Z.eqb_neq; lia|].
  apply andb_false_iff. right. apply Z.leb_gt. lia.
Qed.

Lemma parse_window w : hours_ok w -> parse_period (window w) = [w].
Proof.
  intros [H1 H2]. destruct (dec_hour _ H1) as (N1 & S1 & D1). destruct (dec_hour _ H2) as (N2 & S2 & D2).
  unfold parse_period, split_string, window.
  rewrite pieces_cons by (intros H; apply D1 in H; lia).
  rewrite pieces_last by (intros H; apply D2 in H; lia). cbn [map].
  rewrite !trim_none by (intros c Hc; apply digits_not_space; right; auto).
  destruct (dec (fst w)) as [|x1 r1] eqn:E1; [congruence|]. cbn [hour_or]. unfold hour_or. rewrite S1.
  destruct (dec (snd w)) as [|x2 r2] eqn:E2; [congruence|]. rewrite S2. destruct w; reflexivity.
Qed.

Lemma pieces_render ws : ws <> [] -> Forall hours_ok ws -> pieces 59 (render ws) = map window ws.
Proof.
  intros Hn F. induction ws as [|w ws IH]; [congruence|]. inversion F as [|? ? Hw Fs]. subst.
  assert (Nc : ~ In 59 (window w)) by (intros H; apply (window_chars _ _ Hw) in H; lia).
  destruct ws as [|w2 ws].
  - cbn. apply pieces_last. exact Nc.
  - change (render (w :: w2 :: ws)) with (window w ++ 59 :: render (w2 :: ws)). rewrite pieces_cons by exact Nc. rewrite IH; [reflexivity | discriminate | exact Fs].
Qed.

Lemma parse_render ws : Forall hours_ok ws -> parse_periods (render ws) = ws.
Proof.
  intros F. destruct ws as [|w ws]; [reflexivity|]. unfold parse_periods, split_string.
  rewrite pieces_render by (discriminate || exact F).
  assert (M : map trim (map window (w :: ws)) = map window (w :: ws)).
  { rewrite map_map. apply map_ext_in. intros x Hx. apply trim_none. intros c Hc. apply digits_not_space.
    rewrite Forall_forall in F. exact (window_chars _ _ (F x Hx) Hc). }
  rewrite M. assert (Hnw : window w <> []) by (unfold window; destruct (dec (fst w)); discriminate).
  assert (E : match map window (w :: ws) with [[]] => [] | ps => ps end = map window (w :: ws)).
  { cbn. destruct (window w); [congruence|]. reflexivity. }
  rewrite E. clear M E Hnw. induction (w :: ws) as [|x l IH]; [reflexivity|].
  inversion F as [|? ? Hx Fl]. subst. cbn [map flat_map]. rewrite (parse_window _ Hx), (IH Fl). reflexivity.
Qed.
