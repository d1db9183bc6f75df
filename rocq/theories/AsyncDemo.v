(** Concrete worlds for C65: a boolean form of the protocol, so that a history over literals can be
    checked by computation. *)
From Coq Require Import ZArith List Lia Bool.
From Verif Require Import Bytes SMap Outcome TxnModel TxnSpec TxnDemo AtomSpec AtomDemo AsyncSpec.
Import ListNotations.
Open Scope Z_scope.

Definition part_eqb (a b : part) : bool := Nat.eqb (fst a) (fst b) && beqb (snd a) (snd b).
Lemma part_eqb_ok a b : part_eqb a b = true -> a = b.
Proof.
  unfold part_eqb. rewrite andb_true_iff, Nat.eqb_eq. intros [A B]. apply beqb_true in B.
  destruct a, b; simpl in *; subst; auto.
Qed.
Lemma part_eqb_refl a : part_eqb a a = true.
Proof. unfold part_eqb. rewrite Nat.eqb_refl. apply beqb_true. auto. Qed.
Definition in_part (q : part) (l : list part) : bool := existsb (part_eqb q) l.
Lemma in_part_ok q l : in_part q l = true -> In q l.
Proof. unfold in_part. rewrite existsb_exists. intros (x & A & B). apply part_eqb_ok in B. subst; auto. Qed.
Definition in_zpart (st : Z) (q : part) (l : list (Z * part)) : bool :=
  existsb (fun x => (fst x =? st) && part_eqb (snd x) q) l.
Lemma in_zpart_ok st q l : in_zpart st q l = true -> In (st, q) l.
Proof.
  unfold in_zpart. rewrite existsb_exists. intros ([x y] & A & B). cbn [fst snd] in B.
  rewrite andb_true_iff, Z.eqb_eq in B. destruct B as [-> B]. apply part_eqb_ok in B. subst; auto.
Qed.
Lemma not_in_zpart st q l : in_zpart st q l = false -> ~ In (st, q) l.
Proof.
  intros A B. assert (C : in_zpart st q l = true); [|congruence]. unfold in_zpart. rewrite existsb_exists.
  exists (st, q). cbn [fst snd]. rewrite Z.eqb_refl, part_eqb_refl. auto.
Qed.
Definition yknownb (w : yworld) (st : Z) (v : verdict) : bool :=
  existsb (fun x => (fst x =? st) && verdict_eqb (snd x) v) (y_known w).
Lemma yknownb_ok w st v : yknownb w st v = true -> In (st, v) (y_known w).
Proof.
  unfold yknownb. rewrite existsb_exists. intros ([x y] & A & B). simpl in B.
  rewrite andb_true_iff, Z.eqb_eq in B. destruct B as [-> B].
  destruct y, v; simpl in B; try discriminate; [apply Z.eqb_eq in B; subst|]; auto.
Qed.
Fixpoint nodupb (l : list bytes) : bool :=
  match l with [] => true | x :: r => negb (existsb (beqb x) r) && nodupb r end.
Lemma nodupb_ok l : nodupb l = true -> NoDup l.
Proof.
  induction l as [|x l IH]; [constructor|]. cbn [nodupb]. rewrite andb_true_iff, negb_true_iff. intros [A B].
  constructor; auto. intros Q. assert (Z : existsb (beqb x) l = true); [|congruence].
  apply existsb_exists. exists x. split; auto. apply beqb_true. auto.
Qed.
Definition blist_eqb (a b : list bytes) : bool := if list_eq_dec (list_eq_dec Z.eq_dec) a b then true else false.
Lemma blist_eqb_ok a b : blist_eqb a b = true -> a = b.
Proof. unfold blist_eqb. destruct (list_eq_dec (list_eq_dec Z.eq_dec) a b); auto; discriminate. Qed.

Section Demo.
Variables (starts : list Z) (commits futs : list (Z * Z)) (prim : Z -> part) (secs : Z -> list part).
Notation parts := (parts prim secs).

(** the min_commit_ts first told of for each key *)
Definition told (w : yworld) (st : Z) (q : part) : option Z :=
  match find (fun x => (fst (fst x) =? st) && part_eqb (snd (fst x)) q) (y_ev w) with
  | Some x => Some (snd x)
  | None => None
  end.
Fixpoint all_told (w : yworld) (st : Z) (qs : list part) : option (list Z) :=
  match qs with
  | [] => Some []
  | q :: r => match told w st q, all_told w st r with Some m, Some ms => Some (m :: ms) | _, _ => None end
  end.
Definition concludedb (w : yworld) (st ct : Z) : bool :=
  match all_told w st (parts st) with Some ms => fold_right Z.max 0 ms =? ct | None => false end.
Lemma concludedb_ok w st ct : concludedb w st ct = true -> concluded prim secs w st ct.
Proof.
  unfold concludedb. destruct (all_told w st (parts st)) as [ms|] eqn:E; [|discriminate]. intros A. apply Z.eqb_eq in A.
  exists ms. split; auto. clear A. revert ms E. generalize (parts st). induction l as [|q qs IH]; intros ms E; cbn [all_told] in E.
  - inversion E. constructor.
  - destruct (told w st q) as [m|] eqn:T; [|discriminate]. destruct (all_told w st qs) as [ms'|]; [|discriminate].
    inversion E; subst. constructor; auto. unfold told in T. destruct (find _ _) as [[[a b] m']|] eqn:F; [|discriminate].
    inversion T; subst. apply find_some in F. cbn [fst snd] in F. destruct F as [F1 F2].
    rewrite andb_true_iff, Z.eqb_eq in F2. destruct F2 as [F2 F3]. apply part_eqb_ok in F3. subst. exact F1.
Qed.
Definition saysb (w : yworld) (st : Z) (ct : Z) : bool := yknownb w st (VCommitted ct) || concludedb w st ct.
Lemma saysb_ok w st ct : saysb w st ct = true -> says prim secs w st (VCommitted ct).
Proof.
  unfold saysb. rewrite orb_true_iff. intros [A|A]; [left; apply yknownb_ok; auto|right].
  exists ct. split; auto. apply concludedb_ok; auto.
Qed.

Definition yruleb (w : yworld) (i : nat) (r : req) : bool :=
  match r with
  | RPrewrite p =>
      let st := pw_start p in
      beqb (pw_primary p) (snd (prim st)) && (blist_eqb (pw_secs p) (map snd (secs st)) || blist_eqb (pw_secs p) []) &&
      negb (pw_try1 p) && nodupb (map m_key (pw_muts p)) &&
      forallb (fun k => in_part (i, k) (parts st)) (written p) && negb (inb st (y_quit w))
  | RCommit st ct keys =>
      saysb w st ct ||
      (inb st (y_sync w) && forallb (fun q => in_zpart st q (y_done w)) (parts st) &&
       Nat.eqb i (fst (prim st)) && existsb (beqb (snd (prim st))) keys)
  | RBatchRollback st _ => inb st (y_quit w) || yknownb w st VRolledBack
  | RPessLock p => beqb (pl_primary p) (snd (prim (pl_start p))) && negb (existsb (fun x => fst x =? pl_start p) (y_try w))
  | RPessRollback _ _ _ | RHeartBeat _ _ _ => true
  | RCheckStatus k lock_ts _ _ force_sync _ =>
      part_eqb (prim lock_ts) (i, k) && (negb force_sync || inb lock_ts (y_sync w))
  | RCheckSecondary st keys => forallb (fun k => in_part (i, k) (parts st)) keys
  | RResolve st ct keys txns =>
      forallb (fun x => if 0 <? snd x then saysb w (fst x) (snd x) else yknownb w (fst x) VRolledBack)
        (match keys with [] => txns | _ => [(st, ct)] end)
  end.

Lemma yruleb_ok w i r : yruleb w i r = true -> yrule prim secs w i r.
Proof.
  destruct r as [p|st0 ct0 keys|st0 keys|p|st0 fut keys|k0 lk cl cu fs rm|st0 keys|st0 ct0 keys txns|k0 st0 adv]; cbn [yruleb yrule]; auto.
  - cbv zeta. rewrite !andb_true_iff, orb_true_iff, negb_true_iff, forallb_forall.
    intros (((((A & B) & C) & D) & E) & G). apply beqb_true in A.
    split; [auto|split; [|split; [auto|split; [apply nodupb_ok; auto|split; [|apply not_inb; auto]]]]].
    + destruct B as [B|B]; apply blist_eqb_ok in B; auto.
    + intros k Q. apply in_part_ok; auto.
  - rewrite orb_true_iff, !andb_true_iff, Nat.eqb_eq, forallb_forall, existsb_exists.
    intros [A|(((A & B) & C) & k & D & E)]; [left; apply saysb_ok; auto|right]. apply beqb_true in E. subst k.
    split; [split|split; auto]; [apply inb_ok; auto|]. intros q Q. apply in_zpart_ok; auto.
  - rewrite orb_true_iff. intros [A|A]; [left; apply inb_ok; auto|right; apply yknownb_ok; auto].
  - rewrite andb_true_iff, negb_true_iff. intros [A B]. apply beqb_true in A. split; auto. intros q Q.
    assert (Z : existsb (fun x => fst x =? pl_start p) (y_try w) = true); [|congruence].
    apply existsb_exists. exists (pl_start p, q). cbn [fst]. rewrite Z.eqb_refl. auto.
  - rewrite andb_true_iff, orb_true_iff, negb_true_iff. intros [A B]. apply part_eqb_ok in A. split; auto.
    intros ->. destruct B as [B|B]; [discriminate|apply inb_ok; auto].
  - rewrite forallb_forall. intros A k Q. apply in_part_ok; auto.
  - rewrite forallb_forall. intros A st ct Q. specialize (A _ Q). cbn [fst snd] in A.
    destruct (0 <? ct); [apply saysb_ok|apply yknownb_ok]; auto.
Qed.

Notation P := (plan_of starts commits futs).
Definition yobeysb (w : yworld) (e : yevent) : bool :=
  match e with
  | YQuit st => existsb (fun q => negb (in_zpart st q (y_try w))) (parts st)
  | YReq i r n heard =>
      allowedb default_cfg starts commits futs (y_reg w i) (EReq r n) &&
      (negb heard || match serve default_cfg (y_reg w i) r with Ok (_, bs) => Nat.leb (length bs) n | _ => true end) &&
      yruleb w i r &&
      forallb (fun st => forallb (fun q => rg_safe (y_reg w (fst q)) <? st) (parts st)) (txns_of r)
  | YOther i e => match e with EReq _ _ => false | _ => allowedb default_cfg starts commits futs (y_reg w i) e end
  end.

Lemma yobeysb_ok w e : yobeysb w e = true -> yobeys default_cfg P prim secs w e.
Proof.
  destruct e as [st|i r n heard|i e]; unfold yobeysb, yobeys, yprotocol, ygc_waits.
  - rewrite existsb_exists. intros (q & A & B). split; auto. exists q. split; auto. apply negb_true_iff in B. apply not_in_zpart; auto.
  - rewrite !andb_true_iff, orb_true_iff, negb_true_iff, forallb_forall. intros (((A & B) & C) & D).
    split; [split; [apply allowedb_ok; auto|split; [|apply yruleb_ok; auto]]|].
    + intros -> a bs E. rewrite E in B. destruct B as [B|B]; [discriminate|]. apply Nat.leb_le; auto.
    + intros st q Q1 Q2. specialize (D st Q1). rewrite forallb_forall in D. apply Z.ltb_lt; auto.
  - intros A. split; auto. destruct e; try discriminate; apply allowedb_ok; auto.
Qed.

Fixpoint ycheck (w : yworld) (es : list yevent) : bool :=
  match es with
  | [] => true
  | e :: r => yobeysb w e && match ystep default_cfg prim w e with Ok w' => ycheck w' r | _ => false end
  end.
Fixpoint yafter (w : yworld) (es : list yevent) : yworld :=
  match es with
  | [] => w
  | e :: r => match ystep default_cfg prim w e with Ok w' => yafter w' r | _ => w end
  end.
Lemma ycheck_run : forall es w, ycheck w es = true -> yrun default_cfg P prim secs w es (yafter w es).
Proof.
  induction es as [|e es IH]; intros w; cbn [ycheck yafter]; [constructor|].
  rewrite andb_true_iff. intros (A & C).
  destruct (ystep default_cfg prim w e) as [w1|] eqn:E; [|discriminate].
  econstructor; [apply yobeysb_ok; auto|exact E|apply IH; auto].
Qed.
End Demo.

(** an asynchronous prewrite *)
Definition async_of (st : Z) (primary : bytes) (ms : list mutation) (minc : Z) (sec : list bytes) : req :=
  RPrewrite (mkPW st primary ms 1000 1 false minc 0 [] [] [] sec).
