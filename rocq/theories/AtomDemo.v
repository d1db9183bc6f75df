(** Concrete worlds for C18: a boolean form of the protocol, so that a history over literals can be
    checked by computation. *)
From Coq Require Import ZArith List Lia Bool.
From Verif Require Import Bytes SMap Outcome TxnModel TxnSpec TxnDemo AtomSpec.
Import ListNotations.
Open Scope Z_scope.

Definition verdict_eqb (a b : verdict) : bool :=
  match a, b with
  | VCommitted x, VCommitted y => x =? y
  | VRolledBack, VRolledBack => true
  | _, _ => false
  end.
Definition knownb (w : world) (st : Z) (v : verdict) : bool :=
  existsb (fun x => (fst x =? st) && verdict_eqb (snd x) v) (w_known w).
Lemma knownb_ok w st v : knownb w st v = true -> In (st, v) (w_known w).
Proof.
  unfold knownb. rewrite existsb_exists. intros ([x y] & A & B). simpl in B.
  rewrite andb_true_iff, Z.eqb_eq in B. destruct B as [-> B].
  destruct y, v; simpl in B; try discriminate; [apply Z.eqb_eq in B; subst|]; auto.
Qed.
Definition inb (x : Z) (l : list Z) : bool := existsb (Z.eqb x) l.

Lemma inb_ok x l : inb x l = true -> In x l.
Proof. apply inZ_iff. Qed.

Section Demo.
Variables (starts : list Z) (commits futs : list (Z * Z)) (prim : Z -> nat * bytes).

Definition ruleb (w : world) (i : nat) (r : req) : bool :=
  match r with
  | RPrewrite p =>
      beqb (pw_primary p) (snd (prim (pw_start p))) &&
      (negb (pw_try1 p) ||
       (inb (pw_start p) (w_sent w) && Nat.eqb i (fst (prim (pw_start p))) &&
        existsb (fun m => beqb (m_key m) (snd (prim (pw_start p))) && negb (op_eqb (m_op m) OpCheckNotExists)) (pw_muts p)))
  | RCommit st ct keys =>
      match attempt prim i r with Some _ => inb st (w_sent w) | None => knownb w st (VCommitted ct) end
  | RBatchRollback st _ => inb st (w_quit w) || knownb w st VRolledBack
  | RPessLock p => beqb (pl_primary p) (snd (prim (pl_start p)))
  | RPessRollback _ _ _ | RHeartBeat _ _ _ => true
  | RCheckStatus k lock_ts _ _ _ _ => Nat.eqb (fst (prim lock_ts)) i && beqb (snd (prim lock_ts)) k
  | RCheckSecondary _ _ => false
  | RResolve st ct keys txns =>
      forallb (fun x => if 0 <? snd x then knownb w (fst x) (VCommitted (snd x)) else knownb w (fst x) VRolledBack)
        (match keys with [] => txns | _ => [(st, ct)] end)
  end.

Lemma ruleb_ok w i r : ruleb w i r = true -> rule prim w i r.
Proof.
  destruct r as [p|st0 ct0 keys|st0 keys|p|st0 fut keys|k0 lk cl cu fs rm|st0 keys|st0 ct0 keys txns|k0 st0 adv]; cbn [ruleb rule]; auto.
  - rewrite andb_true_iff, orb_true_iff, negb_true_iff. intros [A B]. apply beqb_true in A. split; auto.
    intros T. destruct B as [B|B]; [congruence|]. rewrite !andb_true_iff, Nat.eqb_eq, existsb_exists in B.
    destruct B as ((B1 & B2) & m & B3 & B4). apply inb_ok in B1. split; [auto|split; [auto|]]. exists m.
    rewrite andb_true_iff, negb_true_iff in B4. destruct B4 as [B4 B5]. apply beqb_true in B4.
    split; [auto|split; [auto|]]. intros Q. rewrite Q in B5. discriminate.
  - destruct (attempt _ _ _); [apply inb_ok|apply knownb_ok].
  - rewrite orb_true_iff. intros [A|A]; [left; apply inb_ok; auto|right; apply knownb_ok; auto].
  - apply beqb_true.
  - rewrite andb_true_iff, Nat.eqb_eq. intros [A B]. apply beqb_true in B. destruct (prim lk); simpl in *; subst; auto.
  - discriminate.
  - rewrite forallb_forall. intros A st ct I. specialize (A _ I). simpl in A.
    destruct (0 <? ct); apply knownb_ok; auto.
Qed.

Definition protocolb (w : world) (e : wevent) : bool :=
  match e with
  | WSend st => negb (inb st (w_quit w))
  | WQuit st => negb (inb st (w_sent w)) && negb (inb st (w_open w))
  | WReq i r n heard =>
      allowedb default_cfg starts commits futs (w_reg w i) (EReq r n) &&
      (negb heard || match serve default_cfg (w_reg w i) r with Ok (_, bs) => Nat.leb (length bs) n | _ => true end) &&
      ruleb w i r
  | WOther i e => match e with EReq _ _ => false | _ => allowedb default_cfg starts commits futs (w_reg w i) e end
  end.
Definition gcb (w : world) (e : wevent) : bool :=
  match e with
  | WReq _ r _ _ => forallb (fun st => rg_safe (w_reg w (fst (prim st))) <? st) (txns_of r)
  | _ => true
  end.
Notation P := (plan_of starts commits futs).

Lemma not_inb x l : negb (inb x l) = true -> ~ In x l.
Proof. unfold inb. rewrite negb_true_iff. intros A B. apply inZ_iff in B. congruence. Qed.

Lemma protocolb_ok w e : protocolb w e = true -> protocol default_cfg P prim w e.
Proof.
  destruct e as [st|st|i r n heard|i e]; unfold protocolb, protocol.
  - apply not_inb.
  - rewrite andb_true_iff. intros [A B]. split; apply not_inb; auto.
  - rewrite !andb_true_iff, orb_true_iff, negb_true_iff. intros ((A & B) & C).
    split; [apply allowedb_ok; auto|split; [|apply ruleb_ok; auto]].
    intros -> a bs E. rewrite E in B. destruct B as [B|B]; [discriminate|]. apply Nat.leb_le; auto.
  - destruct e; try discriminate; apply allowedb_ok.
Qed.
Lemma gcb_ok w e : gcb w e = true -> gc_waits prim w e.
Proof.
  destruct e as [st|st|i r n heard|i e]; simpl; auto. rewrite forallb_forall. intros A st I. apply A in I.
  apply Z.ltb_lt; auto.
Qed.

Fixpoint wcheck (gc : bool) (w : world) (es : list wevent) : bool :=
  match es with
  | [] => true
  | e :: r => protocolb w e && (negb gc || gcb w e) &&
              match wstep default_cfg prim w e with Ok w' => wcheck gc w' r | _ => false end
  end.
Fixpoint wafter (w : world) (es : list wevent) : world :=
  match es with
  | [] => w
  | e :: r => match wstep default_cfg prim w e with Ok w' => wafter w' r | _ => w end
  end.

Lemma wcheck_run : forall es w, wcheck true w es = true -> wrun default_cfg P prim w es (wafter w es).
Proof.
  induction es as [|e es IH]; intros w; cbn [wcheck wafter]; [constructor|].
  rewrite !andb_true_iff, orb_true_iff, negb_true_iff. intros ((A & B) & C).
  destruct B as [B|B]; [discriminate|].
  destruct (wstep default_cfg prim w e) as [w1|] eqn:E; [|discriminate].
  econstructor; [split; [apply protocolb_ok|apply gcb_ok]; auto|exact E|apply IH; auto].
Qed.
Lemma wcheck_run_nogc : forall es w, wcheck false w es = true ->
  wrun_with default_cfg prim (protocol default_cfg P prim) w es (wafter w es).
Proof.
  induction es as [|e es IH]; intros w; cbn [wcheck wafter]; [constructor|].
  rewrite !andb_true_iff. intros ((A & B) & C).
  destruct (wstep default_cfg prim w e) as [w1|] eqn:E; [|discriminate].
  econstructor; [apply protocolb_ok; auto|exact E|apply IH; auto].
Qed.
End Demo.
