(** Prewrite (two-phase and one-phase) makes only the moves of TxnMoves; the whole service. *)
From Coq Require Import ZArith List Lia Bool.
From Verif Require Import Bytes SMap Outcome TxnModel TxnSpec TxnBase TxnMoves TxnHandlers TxnHandlers2.
Import ListNotations.
Open Scope Z_scope.

Definition pw_entry (s : store) (p : prewrite_req) (data : list (bytes * bytes)) (k : bytes) (l : lock) : Prop :=
  l_ts l = pw_start p /\ is_write (l_type l) /\ lock_wf k l /\ prewrite_ok s p k /\
  (l_type l = OpPut -> l_short l = [] -> exists v, In (k, v) data) /\ l_primary l = pw_primary p.

Record acc_ok (s : store) (p : prewrite_req) (a : pw_acc) : Prop := {
  ao_locks : forall k l, In (k, l) (a_locks a) -> pw_entry s p (a_data a) k l;
  ao_1pc : forall k v l b, In (k, v, l, b) (a_1pc a) ->
     pw_entry s p (a_data a) k l /\ (b = true \/ lock_at s k = None) /\ (l_type l = OpPut -> v <> []);
  ao_data : forall k v, In (k, v) (a_data a) -> v <> [] /\
     ((exists l, In (k, l) (a_locks a)) \/ (exists v' l b, In (k, v', l, b) (a_1pc a)));
  ao_try : a_try1 a = true -> a_locks a = [];
  ao_fin : a_try1 a = true -> a_1pc a <> [] -> pw_start p < a_final a }.

Lemma pw_entry_mono s p d d' k l : (forall x, In x d -> In x d') -> pw_entry s p d k l -> pw_entry s p d' k l.
Proof.
  intros M (A & B & C & D & E & G). split; [auto|split; [auto|split; [auto|split; [auto|split; auto]]]].
  intros X Y. destruct (E X Y) as (v & V). eauto.
Qed.

Lemma gen_final_gt mx minc st fut maxc :
  gen_final_min_commit mx minc st fut maxc <> 0 -> st < gen_final_min_commit mx minc st fut maxc.
Proof. unfold gen_final_min_commit. destruct (_ && _); lia. Qed.

Lemma with_minc_entry s p d k l f : pw_entry s p d k l -> pw_entry s p d k (with_minc l f).
Proof. intros (A & B & (C1 & C2 & C3 & C4 & C5) & D & E & G). repeat split; auto. all: apply D. Qed.
Lemma without_async_entry s p d k l : pw_entry s p d k l -> pw_entry s p d k (without_async l).
Proof. intros (A & B & (C1 & C2 & C3 & C4 & C5) & D & E & G). repeat split; auto. all: apply D. Qed.

Lemma in_snoc {A} (x : A) l y : In x (l ++ [y]) <-> In x l \/ x = y.
Proof. rewrite in_app_iff. simpl. intuition congruence. Qed.

(** adding one entry, with its data when there is some *)
Lemma push_lock_ok mx s p fut np l v a d :
  acc_ok s p a -> 0 < pw_start p ->
  (d = [] \/ d = [(l_key l, v)]) -> (l_type l = OpPut \/ d <> [] -> v <> []) ->
  pw_entry s p (a_data a ++ d) (l_key l) l -> (np = true \/ lock_at s (l_key l) = None) ->
  acc_ok s p (push_lock mx p fut np l v
                (mkAcc (a_res a) (a_exist a) (a_data a ++ d) (a_locks a) (a_1pc a) (a_try1 a) (a_async a) (a_final a))).
Proof.
  intros [L O D T F] P Hd Hv E N.
  assert (DM : forall k v', In (k, v') (a_data a ++ d) -> v' <> [] /\
            (k = l_key l \/ (exists l, In (k, l) (a_locks a)) \/ (exists v' l b, In (k, v', l, b) (a_1pc a)))).
  { intros k v'. rewrite in_app_iff. intros [X|X].
    - destruct (D _ _ X) as [X1 X2]. auto.
    - destruct Hd as [-> | ->]; [destruct X|]. destruct X as [X|[]]. inversion X; subst.
      split; auto. apply Hv. right. discriminate. }
  assert (EM : forall k l', pw_entry s p (a_data a) k l' -> pw_entry s p (a_data a ++ d) k l').
  { intros k l'. apply pw_entry_mono. intros x. rewrite in_app_iff. auto. }
  unfold push_lock. cbn [a_res a_exist a_data a_locks a_1pc a_try1 a_async a_final].
  destruct (a_try1 a || a_async a) eqn:TA.
  - set (f := gen_final_min_commit _ _ _ _ _). destruct (f =? 0) eqn:Ef.
    + constructor; cbn [a_data a_locks a_1pc a_try1 a_final]; try discriminate.
      * intros k l'. rewrite in_snoc. intros [X|X]; [auto|]. inversion X; subst. apply without_async_entry; auto.
      * intros k v' l' b X. destruct (O _ _ _ _ X) as (O1 & O2 & O3). auto.
      * intros k v' X. destruct (DM _ _ X) as (X1 & [->|[(l' & X2)|X2]]); split; auto.
        -- left. eexists. rewrite in_snoc. eauto.
        -- left. exists l'. rewrite in_snoc. auto.
    + apply Z.eqb_neq in Ef. assert (G := gen_final_gt mx (l_minc l) (pw_start p) fut (pw_maxc p) Ef). fold f in G.
      set (l' := if 0 <? f then with_minc l f else l).
      assert (E' : pw_entry s p (a_data a ++ d) (l_key l) l').
      { unfold l'. destruct (0 <? f); [apply with_minc_entry|]; exact E. }
      assert (T' : l_type l' = l_type l) by (unfold l'; destruct (0 <? f); auto).
      destruct (a_try1 a) eqn:T1.
      * constructor; cbn [a_data a_locks a_1pc a_try1 a_final].
        -- intros k l0 X. auto.
        -- intros k v' l0 b. rewrite in_snoc. intros [X|X].
           ++ destruct (O _ _ _ _ X) as (O1 & O2 & O3). auto.
           ++ inversion X; subst. split; [auto|split; [auto|]]. rewrite T'. auto.
        -- intros k v' X. destruct (DM _ _ X) as (X1 & [->|[(l0 & X2)|(v0 & l0 & b0 & X2)]]); split; auto.
           ++ right. exists v, l', np. rewrite in_snoc. auto.
           ++ left; eauto.
           ++ right. exists v0, l0, b0. rewrite in_snoc. auto.
        -- auto.
        -- intros _ _. destruct (Z.ltb_spec (a_final a) f); lia.
      * constructor; cbn [a_data a_locks a_1pc a_try1 a_final]; try discriminate.
        -- intros k l0. rewrite in_snoc. intros [X|X]; [auto|]. inversion X; subst; auto.
        -- intros k v' l0 b X. destruct (O _ _ _ _ X) as (O1 & O2 & O3). auto.
        -- intros k v' X. destruct (DM _ _ X) as (X1 & [->|[(l0 & X2)|X2]]); split; auto.
           ++ left. exists l'. rewrite in_snoc. auto.
           ++ left. exists l0. rewrite in_snoc. auto.
  - apply orb_false_iff in TA. destruct TA as [TA _].
    constructor; cbn [a_data a_locks a_1pc a_try1 a_final]; try (rewrite TA; discriminate).
    + intros k l0. rewrite in_snoc. intros [X|X]; [auto|]. inversion X; subst; auto.
    + intros k v' l0 b X. destruct (O _ _ _ _ X) as (O1 & O2 & O3). auto.
    + intros k v' X. destruct (DM _ _ X) as (X1 & [->|[(l0 & X2)|X2]]); split; auto.
      * left. exists l. rewrite in_snoc. auto.
      * left. exists l0. rewrite in_snoc. auto.
Qed.

Lemma acc_same a : mkAcc (a_res a) (a_exist a) (a_data a ++ []) (a_locks a) (a_1pc a) (a_try1 a) (a_async a) (a_final a) = a.
Proof. destruct a; simpl. rewrite app_nil_r. auto. Qed.

Lemma gen_prewrite_ok c mx s p m prev w fut extra np a a' :
  acc_ok s p a -> 0 < pw_start p -> pw_primary p <> [] ->
  prewrite_ok s p (m_key m) -> (np = true \/ lock_at s (m_key m) = None) ->
  gen_prewrite c mx p m prev w fut extra np a = inr a' ->
  (m_op m = OpPutIfAbsent -> w <> OpPut) -> acc_ok s p a'.
Proof.
  intros A P P1 K N. unfold gen_prewrite.
  set (big := max_short_value c <? _).
  assert (LW : forall ty short, is_write ty -> lock_wf (m_key m) (gen_lock p prev (m_key m) ty short extra (a_async a))).
  { intros ty short T. split; [|split; [|split; [|split]]]; simpl; auto.
    - destruct T; auto. - intros ->. destruct T; discriminate. }
  assert (PUT : (if beqb (m_value m) [] then inl EVALUE_EMPTY else
      let a1 := if big then add_data a (m_key m) (m_value m) else a in
      inr (push_lock mx p fut np (gen_lock p prev (m_key m) OpPut (if big then None else Some (m_value m)) extra (a_async a))
             (m_value m) a1)) = inr a' -> acc_ok s p a').
  { destruct (beqb (m_value m) []) eqn:EV; [discriminate|]. apply beqb_false in EV. cbv zeta.
    intros X; inversion X; subst a'; clear X. destruct big.
    - unfold add_data. apply push_lock_ok; auto.
      split; [auto|split; [left; auto|split; [apply LW; left; auto|split; [auto|split; [|reflexivity]]]]].
      intros _ _. exists (m_value m). apply in_snoc. auto.
    - rewrite <- (acc_same a) at 2. apply push_lock_ok; auto.
      split; [auto|split; [left; auto|split; [apply LW; left; auto|split; [auto|split; [|reflexivity]]]]].
      intros _ Q. simpl in Q. congruence. }
  destruct (m_op m); try discriminate.
  - intros X _. auto.
  - intros X _. inversion X; subst a'; clear X.
    rewrite <- (acc_same a) at 2. apply push_lock_ok; auto.
    + simpl. intros [Q|Q]. discriminate. exfalso; apply Q; reflexivity.
    + split; [auto|split; [right; auto|split; [apply LW; right; auto|split; [auto|split; [discriminate|reflexivity]]]]].
  - intros X Q. destruct (op_eqb w OpPut) eqn:E; [apply op_eqb_eq in E; exfalso; apply Q; auto|]. auto.
  - intros X _. inversion X; subst a'; clear X. destruct A as [L O D T F].
    destruct (a_try1 a || a_async a) eqn:TA; constructor; cbn [set_final a_data a_locks a_1pc a_try1 a_final]; auto.
    + intros _ _. destruct (Z.ltb_spec (a_final a) (pw_start p + 1)); lia.
    + apply orb_false_iff in TA. destruct TA as [-> _]. discriminate.
Qed.

Lemma found_below s st k : store_ok s -> 0 <= st ->
  found_ts (get_write_info s 0 kMaxVer 0 k false true true) < st -> commits_before s k st.
Proof.
  intros H P F t w W1 W2 W3.
  assert (X := found_ts_le s 0 0 k t w H ltac:(lia) W1 W2 ltac:(lia) (or_introl (Z.le_refl 0))). lia.
Qed.

Lemma acc_ok_res s p a x : acc_ok s p a -> acc_ok s p (add_res a x).
Proof. intros [L O D T F]; constructor; auto. Qed.
Lemma acc_ok_exist s p a x : acc_ok s p a -> acc_ok s p (add_exist a x).
Proof. intros [L O D T F]; constructor; auto. Qed.
Lemma acc_ok_nofast s p a : acc_ok s p a -> acc_ok s p (no_fast_path a).
Proof. intros [L O D T F]; constructor; auto; simpl; discriminate. Qed.

Lemma prewrite_loop_spec c s mx p : store_ok s -> 0 < pw_start p -> pw_primary p <> [] ->
  forall ms i a o, 0 <= i ->
  (forall j, nth_error ms j = nth_error (pw_muts p) (Z.to_nat i + j)%nat) ->
  acc_ok s p a -> prewrite_loop c s mx p i ms a = Ok o ->
  match o with PwEnd a' => acc_ok s p a' | PwCommitted _ a' => True | PwError _ => True end.
Proof.
  intros H P P1. induction ms as [|m ms IH]; intros i a o Pi N A; cbn [prewrite_loop].
  - intros X; apply Ok_inj in X; subst; auto.
  - assert (N0 := N 0%nat). simpl in N0. rewrite Nat.add_0_r in N0. symmetry in N0.
    assert (N' : forall j, nth_error ms j = nth_error (pw_muts p) (Z.to_nat (i + 1) + j)%nat).
    { intros j. specialize (N (S j)). simpl in N. rewrite N. f_equal. lia. }
    assert (Pi' : 0 <= i + 1) by lia.
    set (np := nth (Z.to_nat i) (pw_checks p) 0 =? 1).
    assert (NP : np = true <-> pess_checked p (Z.to_nat i)).
    { unfold np, pess_checked. apply Z.eqb_eq. }
    destruct (prewrite_check_lock s (pw_start p) (m_key m) (get_lock s (m_key m)) np (zassoc i (pw_futs p)))
      as [rep| |ct] eqn:LK.
    + destruct (get_rollback_ok s (pw_start p) (m_key m) H) as (b & B & Bi). rewrite B. cbn [obind].
      destruct b.
      { intros X; apply Ok_inj in X; subst. apply acc_ok_res; auto. }
      set (w := get_write_info s 0 kMaxVer 0 (m_key m) false true true).
      destruct ((pw_start p <=? found_ts w) && negb np) eqn:C1.
      { destruct (check_committed s (pw_start p) (m_key m)); intros X; apply Ok_inj in X; subst; auto.
        apply acc_ok_res; auto. }
      destruct (op_eqb (m_op m) OpPutIfAbsent && op_eqb (found_op w) OpPut) eqn:C2.
      { intros X; apply Ok_inj in X; subst. apply acc_ok_exist; auto. }
      destruct (op_eqb (m_op m) OpCheckNotExists && np) eqn:C3.
      { intros X; apply Ok_inj in X; subst. auto. }
      set (a1 := if op_eqb (m_op m) OpCheckNotExists && op_eqb (found_op w) OpPut then add_exist a (m_key m) else a).
      assert (A1 : acc_ok s p a1) by (unfold a1; destruct (op_eqb (m_op m) OpCheckNotExists && op_eqb (found_op w) OpPut); [apply acc_ok_exist|]; exact A).
      destruct rep.
      { intros X. eapply (IH (i + 1)); [| | |exact X]; auto. apply acc_ok_nofast; auto. }
      destruct (gen_prewrite c mx p m (get_lock s (m_key m)) (found_op w)
                (match zassoc i (pw_futs p) with Some f => f | None => 0 end)
                (match zassoc i (pw_extra p) with Some e => e | None => [] end) np a1) as [e|a2] eqn:G.
      { intros X; apply Ok_inj in X; subst. auto. }
      intros X. eapply (IH (i + 1)); [| | |exact X]; auto.
      assert (NR : ~ rolled_back s (m_key m) (pw_start p)).
      { intros Q. apply Bi in Q. discriminate. }
      assert (K : (np = false /\ lock_at s (m_key m) = None) \/
                  (np = true /\ (lock_at s (m_key m) = None \/
                     exists l0, lock_at s (m_key m) = Some l0 /\ l_ts l0 = pw_start p /\ l_type l0 = OpLock))).
      { unfold prewrite_check_lock in LK.
        destruct (get_lock_spec s (m_key m) H) as [(l & G1 & G2 & G3 & G4)|(G1 & G2)]; rewrite G2 in LK.
        - rewrite G3 in LK. destruct np; simpl in LK.
          + right. split; auto. right. exists l.
            destruct (l_ts l =? pw_start p) eqn:E1; [|destruct (check_committed _ _ _); discriminate].
            destruct (op_eqb (l_type l) OpLock) eqn:E2; simpl in LK; [|discriminate].
            apply Z.eqb_eq in E1. apply op_eqb_eq in E2. auto.
          + destruct (op_eqb (l_type l) OpLock); [destruct (check_committed _ _ _); discriminate|].
            destruct (l_ts l =? pw_start p); [discriminate|destruct (check_committed _ _ _); discriminate].
        - destruct np; [right|left]; auto. }
      eapply gen_prewrite_ok; [exact A1|auto|auto| | |exact G|].
      * split; [auto|]. exists (Z.to_nat i), m. split; [auto|split; [auto|]].
        destruct K as [(K1 & K2)|(K1 & K2)].
        -- left. split; [|split; [auto|]].
           ++ intros Q. apply NP in Q. congruence.
           ++ apply found_below; auto; [lia|]. fold w. rewrite K1 in C1. simpl in C1.
              rewrite andb_true_r in C1. apply Z.leb_gt in C1. auto.
        -- right. split; [apply NP; auto|auto].
      * destruct K as [(K1 & K2)|(K1 & K2)]; auto.
      * intros Q. rewrite Q in C2. simpl in C2. apply op_eqb_neq in C2. auto.
    + intros X. eapply (IH (i + 1)); [| | |exact X]; auto. apply acc_ok_res; auto.
    + intros X; apply Ok_inj in X; subst; auto.
Qed.

Lemma prewrite_loop_ok c s mx p : store_ok s -> forall ms i a, exists o, prewrite_loop c s mx p i ms a = Ok o.
Proof.
  intros H. induction ms as [|m ms IH]; intros i a; cbn [prewrite_loop]; [eauto|].
  destruct (prewrite_check_lock _ _ _ _ _ _) as [rep| |ct]; [|apply IH|eauto].
  destruct (get_rollback_ok s (pw_start p) (m_key m) H) as (b & -> & _). cbn [obind].
  destruct b; [eauto|]. destruct (_ && _); [destruct (check_committed _ _ _); eauto|].
  destruct (_ && _); [eauto|]. destruct (_ && _); [eauto|]. destruct rep; [apply IH|].
  destruct (gen_prewrite _ _ _ _ _ _ _ _ _ _); [eauto|apply IH].
Qed.

(** ** two-phase prewrite *)
Lemma in_prewrite_batch st data all o :
  In o (map (fun kv => PutData (fst kv) st (snd kv)) data ++
        map (fun kl : bytes * lock => PutLock (fst kl) (snd kl)) all) <->
  (exists k v, In (k, v) data /\ o = PutData k st v) \/ (exists k l, In (k, l) all /\ o = PutLock k l).
Proof.
  rewrite in_app_iff, put_locks_in, in_map_iff. split; (intros [X|X]; [left|right; auto]).
  - destruct X as ([k v] & <- & X). eauto.
  - destruct X as (k & v & X & ->). exists (k, v). auto.
Qed.

Lemma do_prewrite_moves a0 s p a : store_ok s -> acc_ok s p a ->
  moves (RPrewrite p) a0 s (do_prewrite (pw_start p) (a_data a) (a_locks a) (a_1pc a)).
Proof.
  intros H [L O D T F]. unfold do_prewrite.
  set (all := a_locks a ++ map (fun e => let '(k, _, l, _) := e in (k, l)) (a_1pc a)).
  assert (EA : forall k l, In (k, l) all -> pw_entry s p (a_data a) k l).
  { intros k l. unfold all. rewrite in_app_iff, in_map_iff. intros [X|([[[k' v] l'] b] & X & Y)]; auto.
    inversion X; subst. apply (O _ _ _ _ Y). }
  assert (DA : forall k v, In (k, v) (a_data a) -> v <> [] /\ exists l, In (k, l) all).
  { intros k v X. destruct (D _ _ X) as (V & [(l & Y)|(v' & l & b & Y)]); split; auto; exists l; unfold all;
      rewrite in_app_iff; auto. right. apply in_map_iff. exists (k, v', l, b). auto. }
  clearbody all. set (b := map _ (a_data a) ++ map _ all).
  assert (M : moves (RPrewrite p) a0 s [b]).
  { cbn [moves]. split; [|split; [|exact I]].
    - apply Forall_forall. intros o Ho. apply in_prewrite_batch in Ho.
      destruct Ho as [(k & v & _ & ->)|(k & l & X & ->)]; simpl; auto. apply (EA _ _ X).
    - intros k.
      assert (W : writes_same s (apply_batch s b) k).
      { intros t. destruct (batch_write b s k t H) as [(w & Q & G)|[(Q & G)|(Q1 & Q2 & G)]]; auto;
          apply in_prewrite_batch in Q; destruct Q as [(? & ? & _ & Q)|(? & ? & _ & Q)]; discriminate. }
      assert (DB : data_but s (apply_batch s b) k (pw_start p)).
      { intros t Nt. destruct (batch_data b s k t H) as [(v & Q & G)|[(Q & G)|(Q1 & Q2 & G)]]; auto;
          apply in_prewrite_batch in Q; destruct Q as [(? & ? & _ & Q)|(? & ? & _ & Q)]; try discriminate.
        inversion Q; subst; congruence. }
      destruct (batch_lock b s k H) as [(l & Q & G)|[(Q & G)|(Q1 & Q2 & G)]].
      + apply in_prewrite_batch in Q. destruct Q as [(? & ? & _ & Q)|(k' & l' & X & Q)]; [discriminate|].
        inversion Q; subst k' l'. destruct (EA _ _ X) as (E1 & E2 & E3 & E4 & E5 & E6).
        apply KPrewrite with (p := p) (l := l); auto.
        intros T1 T2. destruct (E5 T1 T2) as (v & V).
        destruct (batch_data b s k (pw_start p) H) as [(v' & Q' & G')|[(Q' & G')|(Q1 & Q2 & G')]].
        * exists v'. split; auto. apply in_prewrite_batch in Q'.
          destruct Q' as [(k2 & v2 & X2 & Q2)|(? & ? & _ & Q2)]; [|discriminate]. inversion Q2; subst.
          apply (DA _ _ X2).
        * apply in_prewrite_batch in Q'. destruct Q' as [(? & ? & _ & Q')|(? & ? & _ & Q')]; discriminate.
        * exfalso. apply (Q1 v). apply in_prewrite_batch. left; eauto.
      + apply in_prewrite_batch in Q. destruct Q as [(? & ? & _ & Q)|(? & ? & _ & Q)]; discriminate.
      + apply KStay; auto. intros t.
        destruct (batch_data b s k t H) as [(v & Q & G')|[(Q & G')|(Q1' & Q2' & G')]]; auto.
        * exfalso. apply in_prewrite_batch in Q. destruct Q as [(k2 & v2 & X2 & Q')|(? & ? & _ & Q')]; [|discriminate].
          inversion Q'; subst. destruct (DA _ _ X2) as (_ & l & X). apply (Q1 l). apply in_prewrite_batch. right; eauto.
        * apply in_prewrite_batch in Q. destruct Q as [(? & ? & _ & Q)|(? & ? & _ & Q)]; discriminate. }
  destruct b; [exact I|exact M].
Qed.

(** ** one-phase commit *)
Definition opc_batch (st final : Z) (entries : list (bytes * bytes * lock * bool)) (data : list (bytes * bytes)) : batch :=
  map (fun kv => PutData (fst kv) st (snd kv)) data ++
  flat_map (fun e => let '(k, v, l, _) := e in
              if op_eqb (l_type l) OpPutIfAbsent then []
              else [PutWrite k final (mkW st (l_type l) (if beqb (l_short l) [] then [] else v))]) entries ++
  flat_map (fun e => let '(k, _, _, pess) := e in if pess : bool then [DelLock k] else []) entries.

Lemma in_opc_batch st final entries data o :
  In o (opc_batch st final entries data) <->
  (exists k v, In (k, v) data /\ o = PutData k st v) \/
  (exists k v l b, In (k, v, l, b) entries /\ l_type l <> OpPutIfAbsent /\
     o = PutWrite k final (mkW st (l_type l) (if beqb (l_short l) [] then [] else v))) \/
  (exists k v l, In (k, v, l, true) entries /\ o = DelLock k).
Proof.
  unfold opc_batch. rewrite !in_app_iff, in_map_iff, !in_flat_map. split.
  - intros [([k v] & <- & X)|[([[[k v] l] b] & X & Y)|([[[k v] l] b] & X & Y)]].
    + left; eauto.
    + right; left. destruct (op_eqb _ _) eqn:E; [destruct Y|]. destruct Y as [<-|[]]. apply op_eqb_neq in E. eauto 10.
    + right; right. destruct b; [|destruct Y]. destruct Y as [<-|[]]. eauto.
  - intros [(k & v & X & ->)|[(k & v & l & b & X & E & ->)|(k & v & l & X & ->)]].
    + left. exists (k, v). auto.
    + right; left. exists (k, v, l, b). split; auto. apply op_eqb_neq in E. rewrite E. simpl; auto.
    + right; right. exists (k, v, l, true). simpl; auto.
Qed.

Lemma one_pc_moves a0 s p a : store_ok s -> 0 < pw_start p -> acc_ok s p a -> a_try1 a = true -> r_1pc a0 = a_final a ->
  moves (RPrewrite p) a0 s (one_pc (pw_start p) (a_final a) (a_1pc a) (a_data a)).
Proof.
  intros H P [L O D T F] T1 R. specialize (T T1). specialize (F T1).
  change (one_pc (pw_start p) (a_final a) (a_1pc a) (a_data a)) with
    (match opc_batch (pw_start p) (a_final a) (a_1pc a) (a_data a) with [] => [] | _ =>
      [opc_batch (pw_start p) (a_final a) (a_1pc a) (a_data a)] end).
  set (b := opc_batch _ _ _ _).
  assert (M : moves (RPrewrite p) a0 s [b]).
  { cbn [moves]. split; [|split; [|exact I]].
    - apply Forall_forall. intros o Ho. apply in_opc_batch in Ho.
      destruct Ho as [(k & v & _ & ->)|[(k & v & l & bb & X & _ & ->)|(k & v & l & _ & ->)]]; simpl; auto.
      destruct (O _ _ _ _ X) as ((E1 & E2 & E3 & _) & _).
      assert (FF : pw_start p < a_final a) by (apply F; intros Q; rewrite Q in X; destruct X).
      split; [simpl; auto|right; split; [exact E2|simpl; lia]].
    - intros k.
      assert (KI : {exists v l bb, In (k, v, l, bb) (a_1pc a)} + {forall v l bb, ~ In (k, v, l, bb) (a_1pc a)}).
      { destruct (in_dec_b k (map (fun e => fst (fst (fst e))) (a_1pc a))) as [i|n].
        - left. apply in_map_iff in i. destruct i as ([[[k' v] l] bb] & Q & X). simpl in Q; subst. eauto.
        - right. intros v l bb X. apply n. apply in_map_iff. exists (k, v, l, bb). auto. }
      assert (NODEL : forall t, ~ In (DelWrite k t) b).
      { intros t Q. apply in_opc_batch in Q.
        destruct Q as [(? & ? & _ & Q)|[(? & ? & ? & ? & _ & _ & Q)|(? & ? & ? & _ & Q)]]; discriminate. }
      assert (DB : data_but s (apply_batch s b) k (pw_start p)).
      { intros t Nt. destruct (batch_data b s k t H) as [(v & Q & G)|[(Q & G)|(Q1 & Q2 & G)]]; auto;
          apply in_opc_batch in Q;
          destruct Q as [(? & ? & _ & Q)|[(? & ? & ? & ? & _ & _ & Q)|(? & ? & ? & _ & Q)]]; try discriminate.
        inversion Q; subst; congruence. }
      destruct KI as [(v & l & bb & X)|N].
      + destruct (O _ _ _ _ X) as ((E1 & E2 & E3 & E4 & E5 & _) & E6 & E7).
        assert (FF : pw_start p < a_final a) by (apply F; intros Q; rewrite Q in X; destruct X).
        destruct (batch_write b s k (a_final a) H) as [(w & Q & G)|[(Q & G)|(Q1 & Q2 & G)]].
        * apply in_opc_batch in Q.
          destruct Q as [(? & ? & _ & Q)|[(k2 & v2 & l2 & b2 & X2 & NT & Q)|(? & ? & ? & _ & Q)]]; try discriminate.
          inversion Q; subst k2 w. clear Q.
          destruct (O _ _ _ _ X2) as ((E1' & E2' & E3' & E4' & E5') & E6' & E7').
          apply KOnePC with (p := p) (w := mkW (pw_start p) (l_type l2) (if beqb (l_short l2) [] then [] else v2)); auto; try (rewrite R; lia).
          -- destruct (batch_lock b s k H) as [(l' & Q & G')|[(Q & G')|(Q1 & Q2 & G')]]; auto.
             ++ apply in_opc_batch in Q.
                destruct Q as [(? & ? & _ & Q)|[(? & ? & ? & ? & _ & _ & Q)|(? & ? & ? & _ & Q)]]; discriminate.
             ++ rewrite G'. destruct E6 as [->|E6]; auto. exfalso. apply Q2. apply in_opc_batch. right; right. eauto.
          -- rewrite R. split; [exact G|]. intros t' Nt.
             destruct (batch_write b s k t' H) as [(w & Q & G')|[(Q & G')|(Q1 & Q2 & G')]]; auto.
             ++ apply in_opc_batch in Q.
                destruct Q as [(? & ? & _ & Q)|[(? & ? & ? & ? & _ & _ & Q)|(? & ? & ? & _ & Q)]]; try discriminate.
                inversion Q; subst; congruence.
             ++ exfalso; eapply NODEL; eauto.
          -- simpl. intros T2 T3.
             assert (SH : l_short l2 = []).
             { destruct (beqb (l_short l2) []) eqn:EB; [apply beqb_true in EB; auto|]. specialize (E7' T2). congruence. }
             destruct (proj1 E5' T2 SH) as (v3 & V3).
             destruct (batch_data b s k (pw_start p) H) as [(v' & Q' & G')|[(Q' & G')|(Q1 & Q2 & G')]].
             ++ exists v'. split; auto. apply in_opc_batch in Q'.
                destruct Q' as [(? & ? & X3 & Q')|[(? & ? & ? & ? & _ & _ & Q')|(? & ? & ? & _ & Q')]]; try discriminate.
                inversion Q'; subst. apply (D _ _ X3).
             ++ apply in_opc_batch in Q'.
                destruct Q' as [(? & ? & X3 & Q')|[(? & ? & ? & ? & _ & _ & Q')|(? & ? & ? & _ & Q')]]; discriminate.
             ++ exfalso. apply (Q1 v3). apply in_opc_batch. left; eauto.
        * exfalso; eapply NODEL; eauto.
        * exfalso. eapply Q1. apply in_opc_batch. right; left. exists k, v, l, bb. split; [eauto|split; [|reflexivity]].
          destruct E2; congruence.
      + apply KStay.
        * destruct (batch_lock b s k H) as [(l' & Q & G')|[(Q & G')|(Q1 & Q2 & G')]]; auto;
            apply in_opc_batch in Q;
            destruct Q as [(? & ? & _ & Q)|[(? & ? & ? & ? & _ & _ & Q)|(? & ? & ? & X & Q)]]; try discriminate.
          inversion Q; subst. exfalso; eapply N; eauto.
        * intros t. destruct (batch_write b s k t H) as [(w & Q & G')|[(Q & G')|(Q1 & Q2 & G')]]; auto.
          -- apply in_opc_batch in Q.
             destruct Q as [(? & ? & _ & Q)|[(? & ? & ? & ? & X & _ & Q)|(? & ? & ? & X & Q)]]; try discriminate.
             inversion Q; subst. exfalso; eapply N; eauto.
          -- exfalso; eapply NODEL; eauto.
        * intros t. destruct (batch_data b s k t H) as [(w & Q & G')|[(Q & G')|(Q1 & Q2 & G')]]; auto;
            apply in_opc_batch in Q;
            destruct Q as [(? & ? & X & Q)|[(? & ? & ? & ? & _ & _ & Q)|(? & ? & ? & _ & Q)]]; try discriminate.
          inversion Q; subst. exfalso. destruct (D _ _ X) as (_ & [(l & Y)|(? & ? & ? & Y)]).
          -- rewrite T in Y. destruct Y.
          -- eapply N; eauto. }
  destruct b; [exact I|exact M].
Qed.

Lemma prewrite_moves c s mx p a0 bs : store_ok s -> 0 < pw_start p -> pw_primary p <> [] ->
  prewrite c s mx p = Ok (a0, bs) -> moves (RPrewrite p) a0 s bs.
Proof.
  intros H P P1. unfold prewrite.
  destruct (_ <? _); [intros X; apply Ok_inj in X; inversion X; subst a0 bs; exact I|].
  destruct (_ && _); [intros X; apply Ok_inj in X; inversion X; subst a0 bs; exact I|].
  set (ac := mkAcc _ _ _ _ _ _ _ _).
  destruct (prewrite_loop_ok c s mx p H (pw_muts p) 0 ac) as (o & OO). rewrite OO. cbn [obind].
  assert (S : match o with PwEnd a' => acc_ok s p a' | PwCommitted _ _ => True | PwError _ => True end).
  { eapply prewrite_loop_spec with (i := 0) (a := ac); eauto; [lia|].
    unfold ac. constructor; simpl; try tauto. }
  destruct o as [a|ct a|e]; [|intros X; apply Ok_inj in X; inversion X; subst a0 bs; exact I
                            |intros X; apply Ok_inj in X; inversion X; subst a0 bs; exact I].
  destruct (negb (is_nil (a_res a))); [intros X; apply Ok_inj in X; inversion X; subst a0 bs; exact I|].
  destruct (negb (is_nil (a_exist a))); [intros X; apply Ok_inj in X; inversion X; subst a0 bs; exact I|].
  destruct (a_try1 a) eqn:T1; intros X; apply Ok_inj in X; inversion X; subst a0 bs.
  - apply one_pc_moves; auto.
  - apply do_prewrite_moves; auto.
Qed.

(** * The service *)
Lemma handle_moves c s mx r a bs : store_ok s -> handle c s mx r = Ok (a, bs) -> moves r a s bs.
Proof.
  intros H. unfold handle. destruct (validate r) as [e|] eqn:V.
  { intros X; apply Ok_inj in X; inversion X; subst; exact I. }
  destruct (existsb _ _) eqn:T; [discriminate|].
  assert (TS : forall t, In t (encoded_ts r) -> 0 <= t).
  { intros t I1. destruct (Z.ltb_spec t 0) as [Q|Q]; [|lia].
    assert (X : existsb (fun t => t <? 0) (encoded_ts r) = true).
    { apply existsb_exists. exists t. split; auto. apply Z.ltb_lt; auto. }
    congruence. }
  destruct r as [p|st ct keys|st keys|p|st fut keys|k lk cl cu fs rm|st keys|st ct keys txns|k st adv];
    cbn [encoded_ts] in TS; cbn [validate] in V.
  - destruct (_ || _) eqn:V1 in V; [discriminate|]. rewrite !orb_false_iff in V1.
    destruct V1 as ((((_ & V1) & V2) & _) & _). apply beqb_false in V1. apply Z.eqb_neq in V2.
    specialize (TS _ (or_introl eq_refl)). apply prewrite_moves; auto. lia.
  - destruct (_ || _) eqn:V1 in V; [discriminate|]. rewrite !orb_false_iff in V1.
    destruct V1 as ((V1 & _) & _). apply Z.eqb_neq in V1.
    specialize (TS _ (or_introl eq_refl)). apply commit_moves; auto. lia.
  - destruct (_ || _) eqn:V1 in V; [discriminate|]. rewrite !orb_false_iff in V1.
    destruct V1 as (_ & V1). apply Z.eqb_neq in V1.
    specialize (TS _ (or_introl eq_refl)). apply batch_rollback_moves; auto. lia.
  - destruct (_ || _) eqn:V1 in V; [discriminate|]. rewrite !orb_false_iff in V1.
    destruct V1 as ((((_ & V1) & V2) & _) & V3). apply beqb_false in V1. apply Z.eqb_neq in V2. apply Z.eqb_neq in V3.
    specialize (TS _ (or_introl eq_refl)). apply pess_lock_moves; auto. lia.
  - apply pess_rollback_moves; auto.
  - destruct (_ || _) eqn:V1 in V; [discriminate|]. rewrite !orb_false_iff in V1.
    destruct V1 as (((_ & V1) & _) & _). apply Z.eqb_neq in V1.
    specialize (TS _ (or_introl eq_refl)). apply check_status_moves; auto. lia.
  - destruct (_ || _) eqn:V1 in V; [discriminate|]. rewrite !orb_false_iff in V1.
    destruct V1 as (V1 & _). apply Z.eqb_neq in V1.
    specialize (TS _ (or_introl eq_refl)). apply check_secondary_moves; auto. lia.
  - apply resolve_moves; auto.
  - apply heartbeat_moves; auto.
Qed.
