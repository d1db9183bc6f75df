(** Concrete histories for the transaction theorems: a boolean form of [allowed], so that a
    history over literals can be checked by computation. *)
From Coq Require Import ZArith List Lia Bool.
From Verif Require Import Bytes SMap Outcome TxnModel TxnSpec.
Import ListNotations.
Open Scope Z_scope.

(** start timestamps, and (commit, start) pairs; every transaction is optimistic or locks at the
    timestamp in the third list *)
Definition plan_of (starts : list Z) (commits : list (Z * Z)) (futs : list (Z * Z)) : plan :=
  mkPlan (fun s => In s starts) (fun ct s => In (ct, s) commits)
         (fun s => match zassoc s futs with Some f => f | None => s end).

Definition plan_okb (starts : list Z) (commits : list (Z * Z)) (futs : list (Z * Z)) : bool :=
  let lp s := match zassoc s futs with Some f => f | None => s end in
  forallb (fun s => (0 <? s) && (s <=? lp s)) starts &&
  forallb (fun e => existsb (Z.eqb (snd e)) starts && (lp (snd e) <? fst e) && (fst e <=? kMaxVer) &&
                    negb (existsb (Z.eqb (fst e)) starts)) commits &&
  forallb (fun e => forallb (fun e' => negb (fst e =? fst e') || (snd e =? snd e')) commits) commits.

Lemma inZ_iff x l : existsb (Z.eqb x) l = true <-> In x l.
Proof.
  rewrite existsb_exists. split.
  - intros (y & I & E). apply Z.eqb_eq in E. subst; auto.
  - intros I. exists x. split; auto. apply Z.eqb_refl.
Qed.

Lemma plan_okb_ok starts commits futs : plan_okb starts commits futs = true -> plan_ok (plan_of starts commits futs).
Proof.
  unfold plan_okb. rewrite !andb_true_iff, !forallb_forall. intros ((A & B) & C). split; [|split]; simpl.
  - intros s I. apply A in I. rewrite andb_true_iff, Z.ltb_lt, Z.leb_le in I. lia.
  - intros ct s I. apply B in I. simpl in I.
    rewrite !andb_true_iff, negb_true_iff, Z.ltb_lt, Z.leb_le, inZ_iff in I. destruct I as (((I1 & I2) & I3) & I4).
    split; [auto|split; [lia|]]. intros Q. apply inZ_iff in Q. congruence.
  - intros ct s s' I J. specialize (C _ I). rewrite forallb_forall in C. specialize (C _ J). simpl in C.
    rewrite orb_true_iff, negb_true_iff, Z.eqb_eq, Z.eqb_neq in C. destruct C; congruence.
Qed.

Definition holdsb (s : store) (k : bytes) (st : Z) : bool :=
  match lock_at s k with Some l => l_ts l =? st | None => false end.

Definition allowedb (c : cfg) (starts : list Z) (commits futs : list (Z * Z)) (g : region) (e : event) : bool :=
  match e with
  | EReq r _ =>
      forallb (fun st => existsb (Z.eqb st) starts) (txns_of r) &&
      forallb (fun e => existsb (fun x => (fst x =? snd e) && (snd x =? fst e)) commits) (commits_of r) &&
      match r with
      | RPrewrite p =>
          (rg_safe g <? pw_start p) &&
          forallb (fun x => negb (nth (fst x) (pw_checks p) 0 =? 1) || holdsb (rg_store g) (m_key (snd x)) (pw_start p))
                  (combine (seq 0 (length (pw_muts p))) (pw_muts p)) &&
          match serve c g r with
          | Ok (a, _) => (r_1pc a =? 0) || existsb (fun x => (fst x =? r_1pc a) && (snd x =? pw_start p)) commits
          | _ => true
          end
      | RPessLock p => (rg_safe g <? pl_start p) &&
          (pl_fut p <=? match zassoc (pl_start p) futs with Some f => f | None => pl_start p end)
      | _ => true
      end
  | EUnlatched _ _ => false
  | _ => true
  end.

Lemma pair_iff a b (l : list (Z * Z)) : existsb (fun x => (fst x =? a) && (snd x =? b)) l = true <-> In (a, b) l.
Proof.
  rewrite existsb_exists. split.
  - intros ([x y] & I & E). simpl in E. rewrite andb_true_iff, !Z.eqb_eq in E. destruct E; subst; auto.
  - intros I. exists (a, b). simpl. rewrite !Z.eqb_refl. auto.
Qed.

Lemma nth_combine {A} : forall (l : list A) n i m, nth_error l i = Some m -> In ((n + i)%nat, m) (combine (seq n (length l)) l).
Proof.
  induction l as [|x l IH]; intros n i m E; [destruct i; discriminate|]. destruct i as [|i]; simpl in *.
  - inversion E; subst. left. f_equal. lia.
  - right. replace (n + S i)%nat with (S n + i)%nat by lia. auto.
Qed.

Lemma allowedb_ok c starts commits futs g e : allowedb c starts commits futs g e = true ->
  allowed c (plan_of starts commits futs) g e.
Proof.
  destruct e as [r n|ts| |sp|st ct|n]; simpl; auto; [|discriminate].
  rewrite !andb_true_iff, !forallb_forall. intros ((A & B) & C). split; [|split].
  - intros st I. apply inZ_iff, A; auto.
  - intros st ct I. apply B in I. simpl in I. apply pair_iff; auto.
  - destruct r; auto.
    + rewrite !andb_true_iff, forallb_forall in C. destruct C as ((C1 & C2) & C3). apply Z.ltb_lt in C1.
      split; [auto|split].
      * intros i m E P. specialize (C2 _ (nth_combine _ 0%nat _ _ E)). simpl in C2. unfold pess_checked in P. rewrite P in C2.
        simpl in C2. unfold holdsb in C2. destruct (lock_at _ _) as [l|] eqn:L; [|discriminate].
        exists l. split; auto. apply Z.eqb_eq; auto.
      * intros a bs S N. rewrite S in C3. rewrite orb_true_iff, Z.eqb_eq in C3. destruct C3 as [C3|C3]; [congruence|].
        apply pair_iff; auto.
    + rewrite andb_true_iff, Z.ltb_lt, Z.leb_le in C. auto.
Qed.

Fixpoint all_allowedb (c : cfg) (starts : list Z) (commits futs : list (Z * Z)) (g : region) (es : list event) : bool :=
  match es with
  | [] => true
  | e :: r => allowedb c starts commits futs g e &&
              match step c g e with Ok g' => all_allowedb c starts commits futs g' r | _ => false end
  end.

Lemma all_allowedb_run c starts commits futs : forall es g g', all_allowedb c starts commits futs g es = true ->
  steps c g es = Ok g' -> run c (plan_of starts commits futs) g es g'.
Proof.
  induction es as [|e es IH]; simpl; intros g g' A S.
  - apply Ok_inj in S. subst. constructor.
  - rewrite andb_true_iff in A. destruct A as [A B]. destruct (step c g e) as [g1|] eqn:E; [|discriminate].
    cbn [obind] in S. econstructor; eauto. apply allowedb_ok; auto.
Qed.

(** the state after a history; [init_region] stands for an aborted one *)
Definition after (g : region) (es : list event) : region :=
  match steps default_cfg g es with Ok g' => g' | _ => init_region end.

Definition checks (starts : list Z) (commits futs : list (Z * Z)) (g : region) (es : list event) : bool :=
  all_allowedb default_cfg starts commits futs g es &&
  match steps default_cfg g es with Ok _ => true | _ => false end.

Lemma checks_run starts commits futs g es : checks starts commits futs g es = true ->
  run default_cfg (plan_of starts commits futs) g es (after g es).
Proof.
  unfold checks, after. rewrite andb_true_iff. intros [A B]. destruct (steps default_cfg g es) eqn:E; [|discriminate].
  eapply all_allowedb_run; eauto.
Qed.

Lemma checks_reachable starts commits futs es : checks starts commits futs init_region es = true ->
  reachable default_cfg (plan_of starts commits futs) (after init_region es).
Proof. intros C. exists es. apply checks_run; auto. Qed.

(** decidable forms *)
Definition committedb (s : store) (k : bytes) (st ct : Z) : bool :=
  match write_at s k ct with Some w => (w_start w =? st) && negb (op_eqb (w_op w) OpRollback) | None => false end.
Lemma committedb_ok s k st ct : committedb s k st ct = true -> committed s k st ct.
Proof.
  unfold committedb. destruct (write_at s k ct) as [w|] eqn:E; [|discriminate]. rewrite andb_true_iff, negb_true_iff, Z.eqb_eq.
  intros [A B]. exists w. split; [auto|split; [auto|]]. intros Q. rewrite Q in B. discriminate.
Qed.
Definition rolled_backb (s : store) (k : bytes) (st : Z) : bool :=
  match write_at s k st with Some w => (w_start w =? st) && op_eqb (w_op w) OpRollback | None => false end.
Lemma rolled_backb_ok s k st : rolled_backb s k st = true -> rolled_back s k st.
Proof.
  unfold rolled_backb. destruct (write_at s k st) as [w|] eqn:E; [|discriminate]. rewrite andb_true_iff, Z.eqb_eq.
  intros [A B]. exists w. split; [auto|split; [auto|]]. destruct (w_op w); auto; discriminate.
Qed.
Definition prewrittenb (s : store) (k : bytes) (st : Z) : bool :=
  match lock_at s k with Some l => (l_ts l =? st) && (op_eqb (l_type l) OpPut || op_eqb (l_type l) OpDelete) | None => false end.
Lemma prewrittenb_ok s k st : prewrittenb s k st = true -> prewritten s k st.
Proof.
  unfold prewrittenb. destruct (lock_at s k) as [l|] eqn:E; [|discriminate]. rewrite andb_true_iff, orb_true_iff, Z.eqb_eq.
  intros [A B]. exists l. split; [auto|split; [auto|]]. destruct (l_type l); auto; destruct B; discriminate.
Qed.
Lemma holdsb_ok s k st : holdsb s k st = true -> holds s k st.
Proof.
  unfold holdsb. destruct (lock_at s k) as [l|] eqn:E; [|discriminate]. intros A. exists l. split; auto. apply Z.eqb_eq; auto.
Qed.

(** * Requests over literals *)
Definition kA : bytes := [97]. Definition kB : bytes := [98].
Definition put (k : bytes) (v : Z) : mutation := mkMut OpPut k [v].
Definition prewrite_of (st : Z) (primary : bytes) (ms : list mutation) : req :=
  RPrewrite (mkPW st primary ms 1000 1 false 0 0 [] [] [] []).
Definition one_phase_of (st : Z) (primary : bytes) (ms : list mutation) : req :=
  RPrewrite (mkPW st primary ms 1000 1 true 0 0 [] [] [] []).
(** every key is sent with the pessimistic check *)
Definition pess_prewrite_of (one : bool) (st : Z) (primary : bytes) (ms : list mutation) : req :=
  RPrewrite (mkPW st primary ms 1000 1 one 0 0 (map (fun _ => 1) ms) [] [] []).
Definition pess_lock_of (st fut : Z) (primary k : bytes) : req :=
  RPessLock (mkPess st primary [mkMut OpLock k []] 1000 fut false).
Definition full (r : req) : event := EReq r 100.
