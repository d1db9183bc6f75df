(** * Jobs: concrete histories for the theorems of C117-C124 *)

From Coq Require Import ZArith List Bool Arith Lia.
From Verif Require Import JbModel JbSpec.
Import ListNotations.
Local Open Scope Z_scope.

(** ** Checking that a history is one of those asked for *)

Fixpoint nodupb (l : list Z) : bool :=
  match l with [] => true | x :: r => negb (inb x r) && nodupb r end.

Lemma inb_In x l : inb x l = true <-> In x l.
Proof.
  unfold inb. rewrite existsb_exists. split.
  - intros (y & H & E). apply Z.eqb_eq in E. congruence.
  - intros H. exists x. split; [exact H | apply Z.eqb_refl].
Qed.

Lemma nodupb_ok l : nodupb l = true -> NoDup l.
Proof.
  induction l as [|x l IH]; [constructor|]. cbn. intros H. apply andb_true_iff in H. destruct H as [H1 H2].
  constructor; [|exact (IH H2)]. intros Hin. apply inb_In in Hin. rewrite Hin in H1. discriminate.
Qed.

Definition fresh_b (j : job) : bool :=
  (0 <? j_id j) && Nat.eqb (j_next j) 0 && nodupb (map c_id (job_cmds j))
  && forallb (fun t =>
       forallb (fun o => negb (o_ok o) && Nat.eqb (o_tries o) 0 && Nat.leb (length (o_cmds o)) 1) (t_ops t)
       && (negb (existsb (fun c => leader_kind (c_kind c)) (task_cmds t)) || Nat.eqb (length (task_cmds t)) 1)) (j_tasks j).

Lemma fresh_ok j : fresh_b j = true -> fresh_job j.
Proof.
  unfold fresh_b. intros H. apply andb_true_iff in H. destruct H as [H H4]. apply andb_true_iff in H. destruct H as [H H3].
  apply andb_true_iff in H. destruct H as [H1 H2]. apply Z.ltb_lt in H1. apply Nat.eqb_eq in H2.
  split; [exact H1|]. split; [exact H2|]. split; [exact (nodupb_ok _ H3)|]. intros t Ht. rewrite forallb_forall in H4.
  specialize (H4 t Ht). apply andb_true_iff in H4. destruct H4 as [H4 H5]. split.
  - intros o Ho. rewrite forallb_forall in H4. specialize (H4 o Ho). apply andb_true_iff in H4. destruct H4 as [H4 H6].
    apply andb_true_iff in H4. destruct H4 as [H4 H7]. split; [destruct (o_ok o); [discriminate | reflexivity]|].
    split; [apply Nat.eqb_eq; exact H7 | apply Nat.leb_le; exact H6].
  - intros (c & Hc & Hk). apply orb_true_iff in H5. destruct H5 as [H5 | H5]; [|apply Nat.eqb_eq; exact H5]. exfalso.
    assert (Hx : existsb (fun c => leader_kind (c_kind c)) (task_cmds t) = true) by (apply existsb_exists; exists c; split; assumption).
    rewrite Hx in H5. discriminate.
Qed.

Definition pair_in (p : Z * Z) (l : list (Z * Z)) : bool := existsb (fun q => (fst p =? fst q) && (snd p =? snd q)) l.

Lemma pair_in_In p l : pair_in p l = true <-> In p l.
Proof.
  unfold pair_in. rewrite existsb_exists. split.
  - intros ([a b] & H & E). apply andb_true_iff in E. destruct E as [E1 E2]. apply Z.eqb_eq in E1, E2. destruct p. cbn in E1, E2. congruence.
  - intros H. exists p. split; [exact H | rewrite !Z.eqb_refl; reflexivity].
Qed.

Definition fits_b (s : sys) (e : event) : bool :=
  match e with
  | ENew j => fresh_b j && negb (inb (j_id j) (map j_id (y_born s)))
  | EReport id cid => pair_in (id, cid) (y_sent s)
  | ESend r =>
      match y_round s, r with
      | Sending _ ((_, xs) :: _) _, RReply rs =>
          forallb (fun p => match snd p with NotLeader _ => leader_kind (c_kind (i_cmd (fst p))) | _ => true end) (combine xs rs)
      | _, RWrong => false
      | _, _ => true
      end
  | _ => true
  end.

Lemma fits_ok s e : fits_b s e = true -> fits s e.
Proof.
  destruct e as [j|id cid|id|v cap|r| | |n]; cbn; try (intros _; exact I).
  - intros H. apply andb_true_iff in H. destruct H as [H1 H2]. split; [exact (fresh_ok j H1)|].
    intros Hin. apply inb_In in Hin. rewrite Hin in H2. discriminate.
  - apply pair_in_In.
  - destruct (y_round s) as [|stores [|[st xs] todo] incs|]; destruct r as [| |rs]; try discriminate; try (intros _; exact I).
    intros H x st' Hin. rewrite forallb_forall in H. exact (H _ Hin).
Qed.

Definition holds_b (id cid : Z) (s : sys) (e : event) : bool :=
  match e with
  | EReport id' _ => negb (id' =? id)
  | EClean _ => false
  | ESend r => match y_round s with
               | Sending _ ((_, xs) :: _) _ => negb (pair_in (id, cid) (acks_of xs r))
               | _ => true
               end
  | _ => true
  end.

Lemma holds_ok id cid s e : holds_b id cid s e = true -> holds_back id cid s e.
Proof.
  destruct e as [j|id' cid'|id'|v cap|r| | |n]; cbn; try (intros _; exact I).
  - intros H E. subst id'. rewrite Z.eqb_refl in H. discriminate.
  - discriminate.
  - destruct (y_round s) as [|stores [|[st xs] todo] incs|]; try (intros _; exact I).
    intros H Hin. apply pair_in_In in Hin. rewrite Hin in H. discriminate.
Qed.

Definition clean_b (e : event) : bool := match e with EClean _ => false | _ => true end.

Lemma clean_ok e : clean_b e = true -> no_clean e.
Proof. destruct e; cbn; intros H; try exact I; discriminate. Qed.

(** Run a history, checking each event. *)
Fixpoint go (limit : nat) (f : sys -> event -> bool) (s : sys) (l : list event) : option sys :=
  match l with
  | [] => Some s
  | e :: r => if f s e then match step limit s e with None => None | Some s' => go limit f s' r end else None
  end.

Lemma go_reach limit f (P : sys -> event -> Prop) l : (forall s e, f s e = true -> P s e) -> forall s s',
  reach limit P s -> go limit f s l = Some s' -> reach limit P s'.
Proof.
  intros HP. induction l as [|e l IH]; intros s s' R H; cbn in H; [congruence|].
  destruct (f s e) eqn:Ef; [|discriminate]. destruct (step limit s e) as [s1|] eqn:Es; [|discriminate].
  exact (IH s1 s' (reach_step limit P s e s1 R (HP s e Ef) Es) H).
Qed.

Lemma go_star limit f (P : sys -> event -> Prop) l : (forall s e, f s e = true -> P s e) -> forall s s',
  go limit f s l = Some s' -> star limit P s s'.
Proof.
  intros HP. induction l as [|e l IH]; intros s s' H; cbn in H; [assert (s = s') by congruence; subst s'; constructor|].
  destruct (f s e) eqn:Ef; [|discriminate]. destruct (step limit s e) as [s1|] eqn:Es; [|discriminate].
  exact (star_step limit P s e s1 s' (HP s e Ef) Es (IH s1 s' H)).
Qed.

Lemma go_fits limit l s : go limit fits_b init l = Some s -> reach limit fits s.
Proof. exact (go_reach limit fits_b fits l fits_ok init s (reach_init limit fits)). Qed.

Lemma go_calm limit l s :
  go limit (fun s e => fits_b s e && clean_b e) init l = Some s -> reach limit (fun s e => fits s e /\ no_clean e) s.
Proof.
  apply (go_reach limit _ (fun s e => fits s e /\ no_clean e)); [|constructor]. intros s' e H. apply andb_true_iff in H.
  destruct H as [H1 H2]. split; [exact (fits_ok _ _ H1) | exact (clean_ok _ H2)].
Qed.

Lemma go_held limit id cid l s s' :
  go limit (fun s e => fits_b s e && holds_b id cid s e) s l = Some s' ->
  star limit (fun s e => fits s e /\ holds_back id cid s e) s s'.
Proof.
  apply (go_star limit _ (fun s e => fits s e /\ holds_back id cid s e)). intros s1 e H. apply andb_true_iff in H.
  destruct H as [H1 H2]. split; [exact (fits_ok _ _ H1) | exact (holds_ok _ _ _ _ H2)].
Qed.

(** ** Jobs *)

Definition well : pview := mkPview (fun _ => true) (fun _ => true) (fun _ => true).
Definition unchecked : pview := mkPview (fun _ => false) (fun _ => true) (fun _ => true).
Definition undropped : pview := mkPview (fun _ => true) (fun _ => true) (fun _ => false).

Lemma well_ok : all_well well.
Proof. repeat split. Qed.

Definition mk (s : Z) (chk : nat) (cs : list cmd) : op := mkOp s chk cs false 0.

(** Split a region in three steps: create the new region on three stores,
    split, check the result; then drop a region. *)
Definition split_job : job :=
  mkJob 1 0 [ mkTask [mk 11 0 [mkCmd 101 KCreate false]; mk 12 0 [mkCmd 102 KCreate false]; mk 13 0 [mkCmd 103 KCreate false]] [];
              mkTask [mk 11 1 [mkCmd 104 KSplit false]] [];
              mkTask [mk 11 2 []] [];
              mkTask [] [77] ].

(** Delete two replicas, then purge. *)
Definition delete_job : job :=
  mkJob 2 0 [ mkTask [mk 11 0 [mkCmd 201 KDelete false]; mk 12 0 [mkCmd 202 KDelete false]] [];
              mkTask [mk 11 0 [mkCmd 203 KPurge false]] [];
              mkTask [mk 12 3 []] [] ].

Definition one_job (k : kind) : job := mkJob 3 0 [ mkTask [mk 11 0 [mkCmd 301 k false]] []; mkTask [mk 11 4 []] [] ].

Definition short_job : job := mkJob 4 0 [ mkTask [mk 11 0 [mkCmd 401 KDelete false]] [] ].

Definition good (rs : list (list result)) : list event := EBegin well 100 :: map (fun r => ESend (RReply r)) rs ++ [EEnd; EApply].

Lemma good_ok rs : (forall r x, In r rs -> In x r -> x = Accepted) -> good_round (good rs).
Proof. intros H. exists well, 100%nat, rs. split; [reflexivity|]. split; [exact well_ok|]. split; [exact H | reflexivity]. Qed.

Definition born : list event := [ENew split_job; EApply].

(** The state after a history. *)
Definition st (limit : nat) (l : list event) : sys := match run limit init l with Some s => s | None => init end.

(** ** Stores *)

(** Histories of at most two handlers, numbered 0 and 1, in which every recovered
    command finds its executor. *)
Inductive devent := De (e : sevent) | Dstart.

Definition ev (d : devent) : sevent := match d with De e => e | Dstart => SStart (fun _ => true) end.

Definition calm_b (s : sstate) (d : devent) : bool :=
  match d with
  | De (SPush h c) =>
      Nat.ltb h 2
      && forallb (fun h' => match p_handlers s h' with Some x => negb (m_id (hpc_cmd x) =? m_id c) | None => true end) [0%nat; 1%nat]
      && (m_retry c || match m_status c with SNone => true | _ => false end)
  | De (SStart _) => false
  | _ => true
  end.

Definition quiet_b (s : sstate) (d : devent) : bool :=
  calm_b s d
  && match d with
     | De (SPush _ c) => negb (m_retry c)
     | De SCrash => match p_running s with [] => true | _ => false end
     | _ => true
     end.

Definition two (s : sstate) : Prop := forall h, (2 <= h)%nat -> p_handlers s h = None.

Lemma calm_ok s d : two s -> calm_b s d = true -> calm s (ev d).
Proof.
  intros T. destruct d as [e|]; cbn; [|intros _ id; reflexivity]. destruct e as [h c| | | | | | |]; cbn; try (intros _; exact I); [|discriminate].
  intros H. apply andb_true_iff in H. destruct H as [H H3]. apply andb_true_iff in H. destruct H as [_ H2].
  apply andb_true_iff in H2. destruct H2 as [H0 H2]. apply andb_true_iff in H2. destruct H2 as [H1 _]. split.
  - intros h' x E. destruct h' as [|[|h']].
    + rewrite E in H0. intros Ex. rewrite Ex, Z.eqb_refl in H0. discriminate.
    + rewrite E in H1. intros Ex. rewrite Ex, Z.eqb_refl in H1. discriminate.
    + rewrite T in E; [discriminate | lia].
  - intros Hr. rewrite Hr in H3. cbn in H3. destruct (m_status c); [reflexivity | discriminate | discriminate].
Qed.

Lemma quiet_ok s d : two s -> quiet_b s d = true -> quiet s (ev d).
Proof.
  intros T H. apply andb_true_iff in H. destruct H as [H1 H2]. split; [exact (calm_ok s d T H1)|].
  destruct d as [e|]; [|exact I]. destruct e; cbn in *; try exact I.
  - destruct (m_retry c); [discriminate | reflexivity].
  - destruct (p_running s); [reflexivity | discriminate].
Qed.

Lemma set_two f h x : (forall h, (2 <= h)%nat -> f h = None) -> (h < 2)%nat -> forall h', (2 <= h')%nat -> set_handler f h x h' = None.
Proof. intros T Hh h' Hh'. unfold set_handler. destruct (Nat.eqb h' h) eqn:E; [apply Nat.eqb_eq in E; lia | exact (T h' Hh')]. Qed.

Lemma two_step s d s' a : two s -> calm_b s d = true -> sstep s (ev d) = Some (s', a) -> two s'.
Proof.
  intros T Hc H.
  assert (L : forall h x, p_handlers s h = Some x -> (h < 2)%nat).
  { intros h x E. destruct (Nat.lt_ge_cases h 2) as [G | G]; [exact G|]. rewrite (T h G) in E. discriminate. }
  destruct d as [e|]; cbn [ev] in H.
  - destruct e as [h c|h|h|h ok|n|n ok| |ok]; unfold sstep in H.
    + destruct (negb (p_up s)); [discriminate|]. cbn in Hc. apply andb_true_iff in Hc. destruct Hc as [Hc _]. apply andb_true_iff in Hc.
      destruct Hc as [Hc _]. apply Nat.leb_le in Hc. assert (Hc2 : (h < 2)%nat) by lia. destruct (p_handlers s h); [discriminate|].
      destruct (negb (m_retry c) && inb (m_id c) (p_mem s)).
      * assert (s' = s) by congruence. subst s'. exact T.
      * match type of H with Some (?x, _) = _ => assert (E : s' = x) by congruence end. subst s'. exact (set_two _ _ _ T Hc2).
    + destruct (negb (p_up s)); [discriminate|]. destruct (p_handlers s h) as [[c|c|c]|] eqn:Eh; try discriminate.
      destruct (inb (m_id c) (p_mem s)); match type of H with Some (?x, _) = _ => assert (E : s' = x) by congruence end; subst s';
        exact (set_two _ _ _ T (L _ _ Eh)).
    + destruct (negb (p_up s)); [discriminate|]. destruct (p_handlers s h) as [[c|c|c]|] eqn:Eh; try discriminate.
      match type of H with Some (?x, _) = _ => assert (E : s' = x) by congruence end; subst s'; exact (set_two _ _ _ T (L _ _ Eh)).
    + destruct (negb (p_up s)); [discriminate|]. destruct (p_handlers s h) as [[c|c|c]|] eqn:Eh; try discriminate.
      destruct ok; match type of H with Some (?x, _) = _ => assert (E : s' = x) by congruence end; subst s';
        exact (set_two _ _ _ T (L _ _ Eh)).
    + destruct (negb (p_up s)); [discriminate|]. destruct (nth_error (p_queue s) n); [|discriminate].
      match type of H with Some (?x, _) = _ => assert (E : s' = x) by congruence end; subst s'; exact T.
    + destruct (negb (p_up s)); [discriminate|]. destruct (nth_error (p_running s) n); [|discriminate].
      match type of H with Some (?x, _) = _ => assert (E : s' = x) by congruence end; subst s'; exact T.
    + match type of H with Some (?x, _) = _ => assert (E : s' = x) by congruence end; subst s'. intros h _. reflexivity.
    + discriminate.
  - unfold sstep in H. destruct (p_up s); [discriminate|].
    match type of H with Some (?x, _) = _ => assert (E : s' = x) by congruence end; subst s'. intros h _. reflexivity.
Qed.

Fixpoint sgo (f : sstate -> devent -> bool) (s : sstate) (l : list devent) : option sstate :=
  match l with
  | [] => Some s
  | d :: r => if f s d then match sstep s (ev d) with None => None | Some (s', _) => sgo f s' r end else None
  end.

Lemma sgo_calm l : forall s s', sreach calm s -> two s -> sgo calm_b s l = Some s' -> sreach calm s'.
Proof.
  induction l as [|d l IH]; intros s s' R T E; cbn in E; [congruence|].
  destruct (calm_b s d) eqn:Ed; [|discriminate]. destruct (sstep s (ev d)) as [[s1 a]|] eqn:Es; [|discriminate].
  exact (IH s1 s' (sreach_step calm s _ s1 a R (calm_ok s d T Ed) Es) (two_step _ _ _ _ T Ed Es) E).
Qed.

Lemma sgo_quiet l : forall s s', sreach quiet s -> two s -> sgo quiet_b s l = Some s' -> sreach quiet s'.
Proof.
  induction l as [|d l IH]; intros s s' R T E; cbn in E; [congruence|].
  destruct (quiet_b s d) eqn:Ed; [|discriminate]. destruct (sstep s (ev d)) as [[s1 a]|] eqn:Es; [|discriminate].
  apply (IH s1 s' (sreach_step quiet s _ s1 a R (quiet_ok s d T Ed) Es)); [|exact E].
  apply andb_true_iff in Ed. exact (two_step _ _ _ _ T (proj1 Ed) Es).
Qed.

Lemma two_init : two p_init.
Proof. intros h _. reflexivity. Qed.

(** The states after such histories. *)
Definition sst (f : sstate -> devent -> bool) (l : list devent) : sstate := match sgo f p_init l with Some s => s | None => p_init end.

Lemma sst_calm l : match sgo calm_b p_init l with Some _ => true | None => false end = true -> sreach calm (sst calm_b l).
Proof.
  unfold sst. destruct (sgo calm_b p_init l) as [s|] eqn:E; [|discriminate]. intros _.
  exact (sgo_calm l p_init s (sreach_init calm) two_init E).
Qed.

Lemma sst_quiet l : match sgo quiet_b p_init l with Some _ => true | None => false end = true -> sreach quiet (sst quiet_b l).
Proof.
  unfold sst. destruct (sgo quiet_b p_init l) as [s|] eqn:E; [|discriminate]. intros _.
  exact (sgo_quiet l p_init s (sreach_init quiet) two_init E).
Qed.

Definition plain (id : Z) : scmd := mkScmd id false SNone.
Definition retried (id : Z) : scmd := mkScmd id true SNone.

Definition handle (h : nat) (c : scmd) (ok : bool) : list devent := [De (SPush h c); De (SMem h); De (SDisk h); De (SDispatch h ok)].
