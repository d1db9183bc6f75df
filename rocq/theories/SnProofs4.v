(** Concrete transfers, logs and runs. *)
From Coq Require Import ZArith List Bool Arith Lia.
From Verif Require Import Bytes SnModel SnSpec SnProofs1 SnProofs2 SnProofs3.
Import ListNotations.
Open Scope nat_scope.

(** ** Deciding gentleness *)

Definition may_stopb (s : replica) : bool :=
  match sn_meta (r_snap s) with
  | None => true
  | Some m => match sn_gone (r_snap s) with [] => true | _ => m_index m <=? r_saved s end
  end.

Lemma may_stopb_ok s : may_stopb s = true -> may_stop s.
Proof.
  unfold may_stopb, may_stop. destruct (sn_meta (r_snap s)); auto.
  destruct (sn_gone (r_snap s)); auto. intro H. right. apply Nat.leb_le. exact H.
Qed.

Fixpoint gentleb (ncf : nat) (log : list entry) (ls : list label) (s : replica) : option replica :=
  match ls with
  | [] => Some s
  | l :: r =>
      if match l with LCrash => may_stopb s | _ => true end then
        match step ncf log l s with Some s1 => gentleb ncf log r s1 | None => None end
      else None
  end.

Lemma gentleb_ok ncf log ls : forall s s', gentleb ncf log ls s = Some s' -> gentle ncf log s ls s'.
Proof.
  induction ls as [|l ls IH]; intros s s' H; cbn [gentleb] in H.
  - injection H as <-. constructor.
  - destruct (match l with LCrash => may_stopb s | _ => true end) eqn:B; [|discriminate].
    destruct (step ncf log l s) as [s1|] eqn:E; [|discriminate].
    econstructor; eauto. intros ->. apply may_stopb_ok. exact B.
Qed.

Definition not_newerb (s : replica) (l : label) : bool :=
  match l, r_pc s, sn_meta (r_snap s) with
  | LLoad, Loading SMeta, Some m => g_ver (m_region m) <=? g_ver (r_region s)
  | _, _, _ => true
  end.
Lemma not_newerb_ok s l : not_newerb s l = true -> not_newer s l.
Proof.
  unfold not_newerb, not_newer. destruct l; auto. destruct (r_pc s) as [|st|]; auto.
  destruct st; auto. destruct (sn_meta (r_snap s)); auto. apply Nat.leb_le.
Qed.
Fixpoint no_skipb (ncf : nat) (log : list entry) (ls : list label) (s : replica) : option replica :=
  match ls with
  | [] => Some s
  | l :: r =>
      if not_newerb s l then
        match step ncf log l s with Some s1 => no_skipb ncf log r s1 | None => None end
      else None
  end.
Lemma no_skipb_ok ncf log ls : forall s s', no_skipb ncf log ls s = Some s' -> no_skip ncf log s ls s'.
Proof.
  induction ls as [|l ls IH]; intros s s' H; cbn [no_skipb] in H.
  - injection H as <-. constructor.
  - destruct (not_newerb s l) eqn:B; [|discriminate].
    destruct (step ncf log l s) as [s1|] eqn:E; [|discriminate].
    econstructor; eauto. apply not_newerb_ok. exact B.
Qed.

(** ** Streams *)

Definition xcf : list kv :=
  [([1%Z], [9%Z]); ([2%Z], []); ([3%Z; 0%Z], [7%Z; 7%Z]); ([4%Z], [5%Z])].

Lemma xcf_ok : increasing xcf /\ Forall fits xcf.
Proof.
  split; [cbn; repeat split; reflexivity|].
  repeat constructor; cbn; lia.
Qed.

Definition xls : list xlabel :=
  [XReply 20 false; XLost 20 false; XReply 20 false; XStray 0 20 false; XStray 5 20 false;
   XReply 20 false].

Lemma xls_ok : Forall (asks 20) xls.
Proof. repeat constructor. Qed.

Lemma xls_result :
  snd (xrun xls (open_fresh (seek [2%Z] xcf), Copying 0 [])) = Copied (pairs_from [2%Z] xcf).
Proof. vm_compute. reflexivity. Qed.

(** Opening the file again in the middle of a transfer. *)
Lemma reopened_empty :
  exists all sz r,
    all <> [] /\ r = fst (xrun [XReply sz false] (open_fresh all, Copying 0 [])) /\
    snd (xstep (XReply sz false) (open_again r, Copying 0 [])) = Copied [].
Proof.
  exists xcf, 20. eexists. split; [discriminate|]. split; [reflexivity|]. vm_compute. reflexivity.
Qed.

(** Asking again for more than the first time. *)
Lemma other_size_short :
  exists cf got,
    increasing cf /\ Forall fits cf /\
    snd (xrun [XLost 1 false; XReply 1000 false] (open_fresh cf, Copying 0 [])) = Copied got /\
    got <> cf.
Proof.
  exists xcf, [([1%Z], [9%Z])]. split; [apply xcf_ok|]. split; [apply xcf_ok|].
  split; [vm_compute; reflexivity|]. discriminate.
Qed.

(** ** A log *)

Definition kA : bytes := [97%Z].
Definition kB : bytes := [98%Z].
Definition kC : bytes := [99%Z].
Definition kM : bytes := [109%Z].
Definition kZ : bytes := [122%Z].

Definition rg : region := mkRegion 1 kA kZ.
Definition v1 : bytes := [1%Z].
Definition v2 : bytes := [2%Z].

Definition put (v : nat) (k x : bytes) : entry := mkEntry v (CWrite [OPut 0 k x]).

Ltac one_put :=
  intros c k (o & [<- | []] & W); cbn [op_at] in W;
  destruct (c =? 0); cbn [andb] in W; try congruence;
  match type of W with context [beqb k ?k0] =>
    let B := fresh "B" in destruct (beqb k k0) eqn:B;
    [apply beqb_true in B; subst; split; reflexivity | congruence] end.
Ltac one_entry :=
  split; [vm_compute; repeat constructor
         | intros _; split;
           [first [one_put | intros c k []]
           | intros m Em; first [discriminate | injection Em as <-; split; reflexivity]]].

(** Two puts. *)
Definition log2 : list entry := [put 1 kB v1; put 1 kC v1].
Lemma log2_ok : proper_log rg log2.
Proof.
  intros n e H.
  do 2 (destruct n as [|n]; [injection H as <-; one_entry|]).
  destruct n; discriminate.
Qed.

Definition meta_of (g : region) (log : list entry) (i : nat) : smeta :=
  mkSmeta i (region_after g log i).
Definition install (g : region) (log : list entry) (j i : nat) : label :=
  LInstall j (meta_of g log i) (data_after g log i).

Lemma install_ok ncf g log j i : j <= i -> i <= length log ->
  proper_install ncf g log (install g log j i).
Proof. intros A B. cbn. auto. Qed.

Definition nodata : db := fun _ _ => None.
Lemma nodata_ok ncf g : empty_inside ncf g nodata.
Proof. intros c k _ _. reflexivity. Qed.

Definition loads : list label := repeat LLoad 8.

(** Installed, loaded, caught up, stopped, started. *)
Definition lossy : list label :=
  install rg log2 1 2 :: loads ++ [LApply; LCrash; LStart] ++ loads ++ [LApply].
(** Installed at the leader's very position, stopped before the position is recorded. *)
Definition lossy2 : list label :=
  install rg log2 2 2 :: repeat LLoad 7 ++ [LCrash; LStart] ++ loads.

Ltac props := repeat (apply Forall_cons; [first [exact I | apply install_ok; cbn; lia] |]); apply Forall_nil.

Lemma restart_loses :
  exists g0 log d ls s c k,
    proper_log g0 log /\ empty_inside 1 g0 d /\ Forall (proper_install 1 g0 log) ls /\
    run 1 log ls (fresh g0 d) = Some s /\ caught_up log s /\
    c < 1 /\ inside (r_region s) k /\
    r_db s c k = None /\ data_after g0 log (length log) c k = Some v1.
Proof.
  exists rg, log2, nodata, lossy. eexists. exists 0, kB.
  split; [apply log2_ok|]. split; [apply nodata_ok|]. split; [unfold lossy; props|].
  split; [vm_compute; reflexivity|]. split; [split; reflexivity|].
  split; [lia|]. split; [split; reflexivity|]. split; reflexivity.
Qed.

Lemma stop_before_record_loses :
  exists g0 log d ls s c k,
    proper_log g0 log /\ empty_inside 1 g0 d /\ Forall (proper_install 1 g0 log) ls /\
    Forall (fun l => match l with LInstall j m _ => j = m_index m | _ => True end) ls /\
    run 1 log ls (fresh g0 d) = Some s /\ caught_up log s /\
    c < 1 /\ inside (r_region s) k /\
    r_db s c k = None /\ data_after g0 log (length log) c k = Some v1.
Proof.
  exists rg, log2, nodata, lossy2. eexists. exists 0, kB.
  split; [apply log2_ok|]. split; [apply nodata_ok|]. split; [unfold lossy2; props|].
  split; [repeat (apply Forall_cons; [first [exact I | reflexivity]|]); apply Forall_nil|].
  split; [vm_compute; reflexivity|]. split; [split; reflexivity|].
  split; [lia|]. split; [split; reflexivity|]. split; reflexivity.
Qed.

(** A gentle run: applied from the log, saved a local snapshot, received one, stopped in the
    middle of the ingestion, started, loaded, caught up. *)
Definition log5 : list entry :=
  [put 1 kB v1; put 1 kC v1; put 1 kB v2; mkEntry 1 (CWrite [ODel 0 kC; OPut 1 kC v2]); put 1 kM v1].
Lemma log5_ok : proper_log rg log5.
Proof.
  intros n e H.
  do 3 (destruct n as [|n]; [injection H as <-; one_entry|]).
  destruct n as [|n].
  { injection H as <-. split; [vm_compute; repeat constructor|]. intros _. split.
    - intros c k (o & [<- | [<- | []]] & W); cbn [op_at] in W.
      + destruct (c =? 0); cbn [andb] in W; try congruence.
        destruct (beqb k kC) eqn:B; [apply beqb_true in B; subst; split; reflexivity | congruence].
      + destruct (c =? 1); cbn [andb] in W; try congruence.
        destruct (beqb k kC) eqn:B; [apply beqb_true in B; subst; split; reflexivity | congruence].
    - intros m Em. discriminate. }
  destruct n as [|n]; [injection H as <-; one_entry|].
  destruct n; discriminate.
Qed.

Definition kind : list label :=
  [LApply; LSnapSave; LSnapSaved; install rg log5 3 4; LLoad; LLoad; LLoad; LLoad; LLoad; LCrash;
   LStart] ++ repeat LLoad 11 ++ [LApply; LApply].

Lemma kind_ok : exists s, gentle 2 log5 (fresh rg nodata) kind s /\ caught_up log5 s /\
  Forall (proper_install 2 rg log5) kind /\
  r_db s 0 kB = Some v2 /\ r_db s 0 kC = None /\ r_db s 1 kC = Some v2 /\ r_db s 0 kM = Some v1.
Proof.
  eexists. split; [apply gentleb_ok; vm_compute; reflexivity|].
  split; [split; reflexivity|]. split; [unfold kind; props|].
  split; [reflexivity|]. split; [reflexivity|]. split; reflexivity.
Qed.

(** ** Neighbours *)

(** The leader's store also holds a later region's key. *)
Definition Lbeyond : db := fun c k => if beqb k kZ then Some v1 else data_after rg log2 2 c k.
Definition newer : db := fun c k => if beqb k kZ then Some v2 else None.

Lemma neighbour_hit :
  exists g0 log d ls s c k,
    proper_log g0 log /\ empty_inside 1 g0 d /\ Forall (proper_install 1 g0 log) ls /\
    gentle 1 log (fresh g0 d) ls s /\ ~ inside g0 k /\
    r_db (fresh g0 d) c k = Some v2 /\ r_db s c k = Some v1.
Proof.
  exists rg, log2, newer, (LInstall 2 (meta_of rg log2 2) Lbeyond :: loads). eexists. exists 0, kZ.
  split; [apply log2_ok|]. split.
  { intros c k _ [_ H]. unfold newer. destruct (beqb k kZ) eqn:B; auto.
    apply beqb_true in B. subst. cbn in H. discriminate. }
  split.
  { apply Forall_cons.
    - cbn. repeat split; auto. intros c k _ [_ H]. unfold Lbeyond.
      destruct (beqb k kZ) eqn:B; auto. apply beqb_true in B. subst.
      change (bltb kZ kZ = true) in H. vm_compute in H. discriminate.
    - unfold loads. cbn. props. }
  split; [apply gentleb_ok; vm_compute; reflexivity|].
  split; [intros [_ H]; vm_compute in H; discriminate|]. split; reflexivity.
Qed.

(** An install from a store that holds nothing beyond the region. *)
Definition within : list label := install rg log2 2 2 :: loads.
Lemma within_ok : exists s, run 1 log2 within (fresh rg newer) = Some s /\
  Forall (proper_install 1 rg log2) within /\ Forall (nothing_beyond 1) within /\
  ~ inside rg kZ /\ r_db s 0 kZ = Some v2 /\ r_db s 0 kB = Some v1.
Proof.
  eexists. split; [vm_compute; reflexivity|]. split; [unfold within; cbn; props|].
  split.
  { apply Forall_cons; [|unfold loads; cbn; repeat (apply Forall_cons; [exact I|]); apply Forall_nil].
    intros c k _ H. cbn [install meta_of m_region] in H.
    change (g_hi (region_after rg log2 2)) with kZ in H.
    change (data_after rg log2 2) with (do_op (do_op nothing (OPut 0 kB v1)) (OPut 0 kC v1)).
    unfold do_op, op_at. destruct (c =? 0); cbn [andb]; auto.
    destruct (beqb k kC) eqn:B1; [apply beqb_true in B1; subst; vm_compute in H; discriminate|].
    destruct (beqb k kB) eqn:B2; [apply beqb_true in B2; subst; vm_compute in H; discriminate|].
    reflexivity. }
  split; [intros [_ H]; vm_compute in H; discriminate|]. split; reflexivity.
Qed.

(** ** Splits *)

Definition logS : list entry := [put 1 kB v1; mkEntry 1 (CSplit kM); put 2 kC v1].
Lemma logS_ok : proper_log rg logS.
Proof.
  intros n e H.
  do 3 (destruct n as [|n]; [injection H as <-; one_entry|]).
  destruct n; discriminate.
Qed.

(** Installed past the split. *)
Lemma split_passed_over :
  exists g0 log d ls s v,
    proper_log g0 log /\ empty_inside 1 g0 d /\ Forall (proper_install 1 g0 log) ls /\
    gentle 1 log (fresh g0 d) ls s /\ caught_up log s /\
    In v (snd (after g0 log (length log))) /\
    forall log' ls' s', run 1 log' ls' s = Some s' -> ~ In v (r_opened s').
Proof.
  exists rg, logS, nodata, (install rg logS 2 2 :: loads ++ [LApply]). eexists. exists 1.
  split; [apply logS_ok|]. split; [apply nodata_ok|]. split; [cbn; props|].
  split; [apply gentleb_ok; vm_compute; reflexivity|].
  split; [split; reflexivity|]. split; [left; reflexivity|].
  intros log' ls' s' R. eapply run_never; [exact R | vm_compute; lia | intros []].
Qed.

(** Installed before the split, which is then applied from the log. *)
Lemma split_applied :
  exists s, no_skip 1 logS (fresh rg nodata)
                    (install rg logS 1 1 :: loads ++ [LApply; LApply; LCrash; LStart; LApply; LApply]) s /\
    caught_up logS s /\ r_opened s = [1] /\
    Forall (proper_install 1 rg logS)
           (install rg logS 1 1 :: loads ++ [LApply; LApply; LCrash; LStart; LApply; LApply]).
Proof.
  eexists. split; [apply no_skipb_ok; vm_compute; reflexivity|].
  split; [split; reflexivity|]. split; [reflexivity|]. cbn; props.
Qed.
