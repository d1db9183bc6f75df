(** The invariant of scan sessions. *)
From Coq Require Import ZArith List Bool Lia Sorted PeanoNat.
From Verif Require Import Bytes Outcome CodecModel CodecSpec MvccModel MvccSpec MvccProofs SessModel SessSpec SessProofs.
Import ListNotations.
Open Scope Z_scope.

(** ** Lists *)

Lemma upd_length {A} (l : list A) : forall n f, length (upd l n f) = length l.
Proof. induction l as [|x l IH]; intros [|n] f; cbn; auto. Qed.

Lemma nth_upd {A} (l : list A) : forall n m f,
  nth_error (upd l n f) m = if Nat.eqb n m then option_map f (nth_error l m) else nth_error l m.
Proof.
  induction l as [|x l IH]; intros [|n] [|m] f; cbn; auto.
  - destruct (Nat.eqb n m); auto.
Qed.

Lemma In_upd {A} (l : list A) : forall n (k x : A), In x (upd l n (fun _ => k)) -> x = k \/ In x l.
Proof.
  induction l as [|y l IH]; intros [|n] k x; cbn; auto.
  - intros [H|H]; auto.
  - intros [H|H]; auto. apply IH in H. tauto.
Qed.

Lemma In_upd_other {A} (l : list A) : forall n (k x y : A), nth_error l n = Some y -> In x l -> x <> y -> In x (upd l n (fun _ => k)).
Proof.
  induction l as [|z l IH]; intros [|n] k x y; cbn; try tauto; try discriminate.
  - intros E [H|H] D; [congruence|auto].
  - intros E [H|H] D; [auto|right; eapply IH; eauto].
Qed.

Lemma In_upd_new {A} (l : list A) : forall n (k y : A), nth_error l n = Some y -> In k (upd l n (fun _ => k)).
Proof. induction l as [|z l IH]; intros [|n] k y; cbn; try discriminate; auto. intros E; right; eauto. Qed.

Lemma find_scan_In id a p : find_scan id a = Some p -> In (id, p) a.
Proof.
  unfold find_scan. destruct (find _ a) as [[i q]|] eqn:E; [|discriminate].
  intros H; injection H as ->. apply find_some in E. destruct E as [E1 E2]. cbn in E2. apply Z.eqb_eq in E2. subst. auto.
Qed.

Lemma find_scan_None id a : find_scan id a = None -> forall p, ~ In (id, p) a.
Proof.
  unfold find_scan. destruct (find _ a) as [[i q]|] eqn:E; [discriminate|]. intros _ p H.
  apply (find_none _ _ E) in H. cbn in H. apply Z.eqb_neq in H. congruence.
Qed.

Lemma find_scan_uniq id a p : NoDup (map fst a) -> In (id, p) a -> find_scan id a = Some p.
Proof.
  intros N H. destruct (find_scan id a) as [q|] eqn:E; [|exfalso; eapply find_scan_None; eauto].
  apply find_scan_In in E. f_equal.
  induction a as [|[i r] a IH]; [destruct H|]. cbn in N. inversion N as [|? ? N1 N2]; subst.
  destruct H as [H|H], E as [E|E].
  - congruence.
  - exfalso. apply N1. injection H as -> ->. apply in_map_iff. exists (id, q); auto.
  - exfalso. apply N1. injection E as -> ->. apply in_map_iff. exists (id, p); auto.
  - auto.
Qed.

Lemma delete_scan_In id a i p : In (i, p) (delete_scan id a) <-> In (i, p) a /\ i <> id.
Proof.
  unfold delete_scan. rewrite filter_In. cbn. rewrite negb_true_iff, Z.eqb_neq. tauto.
Qed.

Lemma NoDup_map_filter {A B} (f : A -> B) g l : NoDup (map f l) -> NoDup (map f (filter g l)).
Proof.
  induction l as [|x l IH]; cbn; auto. intros N. inversion N as [|? ? N1 N2]; subst.
  destruct (g x); auto. cbn. constructor; auto. intros H. apply N1.
  apply in_map_iff in H. destruct H as (y & E & H). apply filter_In in H. apply in_map_iff. exists y; tauto.
Qed.

(** ** Events of a session object *)

Definition begin_at (p : nat) (te : Z * event) : bool :=
  match snd te with EBegin q _ _ _ => Nat.eqb q p | _ => false end.
Definition given_by (p : nat) (e : event) : list (bytes * bytes) :=
  match e with
  | EBegin q _ _ page => if Nat.eqb q p then page else []
  | EPage q _ _ page _ => if Nat.eqb q p then page else []
  | _ => []
  end.
Definition given (p : nat) (log : list (Z * event)) := flat_map (fun te => given_by p (snd te)) log.
Definition use_at (p : nat) (te : Z * event) : bool :=
  match snd te with EBegin q _ _ _ => Nat.eqb q p | EPage q _ _ _ _ => Nat.eqb q p | _ => false end.
Definition touches (p : nat) (e : event) : Prop :=
  match e with EBegin q _ _ _ => q = p | EPage q _ _ _ _ => q = p | EReleased q _ => q = p | EFailed _ => False end.
Definition event_id (e : event) : Z :=
  match e with EBegin _ b _ _ => b_id b | EPage _ i _ _ _ => i | EReleased _ i => i | EFailed i => i end.
Definition ended (p : nat) (log : list (Z * event)) : Prop :=
  exists t id max page more, In (t, EPage p id max page more) log /\ (more = false \/ page = []).

(** ** The invariant *)

Definition breq_ok (b : begin_req) : Prop := bytes_ok (b_start b) /\ bytes_ok (b_end b) /\ int64 (b_max b).

Definition req_ok (own : nat -> Z) (n : nat) (log : list (Z * event)) (k : pc) : Prop :=
  match k with
  | PCreate b => breq_ok b
  | POpen p b | PBegin p b => breq_ok b /\ own p = b_id b /\ (p < n)%nat
  | PFindC _ max => int64 max
  | PCont p id max => int64 max /\ own p = id /\ (p < n)%nat
  | PRel p id => own p = id /\ (p < n)%nat
  | PTry id => released id log
  | PDel id => failed id log
  | PFindR _ | PDone => True
  end.

Definition gone (c : ctx) : Prop := x_state c = SRecycle \/ x_state c = SError.

Definition sess_ok (log : list (Z * event)) (p : nat) (c : ctx) : Prop :=
  (x_it c = None /\ filter (begin_at p) log = [] /\ given p log = [] /\ filter (use_at p) log = []) \/
  (exists t b st page vs l rem it,
     filter (begin_at p) log = [(t, EBegin p b st page)] /\ represents st vs /\
     snapshot_of vs (b_ts b) t (b_start b) (b_end b) l /\
     x_it c = Some it /\ x_ts c = read_ts (b_ts b) /\ x_now c = t /\
     x_key_only c = b_key_only b /\ x_no_auto c = b_no_auto b /\
     at_pos (read_ts (b_ts b)) t it rem /\
     map (reported (b_key_only b)) l = given p log ++ map (reported (b_key_only b)) rem /\
     (ended p log -> rem = []) /\
     x_state c <> SUninit /\ x_state c <> SOpened /\
     (exists e, In (x_last c, e) log /\ touches p e)).

Definition page_ok (g : cfg) (e : event) : Prop :=
  match e with
  | EBegin _ b _ page =>
      if 0 <? b_max b then page_fits (Z.min (b_max b) (c_count g)) (c_bytes g) page else page = []
  | EPage _ _ max page more =>
      page_fits (count_limit max (c_count g)) (c_bytes g) page /\
      (more = true -> page_full (count_limit max (c_count g)) (c_bytes g) page)
  | _ => True
  end.

Record inv (g : cfg) (own : nat -> Z) (s : state) : Prop := {
  i_nodup : NoDup (map fst (s_alive s));
  i_alive : forall id p, In (id, p) (s_alive s) -> own p = id /\ (p < length (s_heap s))%nat;
  i_req : Forall (req_ok own (length (s_heap s)) (s_log s)) (s_reqs s);
  i_xid : forall p c id, nth_error (s_heap s) p = Some c -> x_id c = Some id -> own p = id;
  i_log : forall t e p, In (t, e) (s_log s) -> touches p e -> event_id e = own p /\ (p < length (s_heap s))%nat;
  i_keep : forall p c, nth_error (s_heap s) p = Some c -> ~ gone c -> In (own p, p) (s_alive s) \/ failed (own p) (s_log s);
  i_store : store_ok (s_store s);
  i_dead : s_dead s = false;
  i_sess : forall p c, nth_error (s_heap s) p = Some c -> sess_ok (s_log s) p c;
  i_pages : forall t e, In (t, e) (s_log s) -> page_ok g e;
  i_open : forall id p, In (id, p) (s_alive s) ->
             filter (begin_at p) (s_log s) <> [] \/
             (exists b, In (POpen p b) (s_reqs s) \/ In (PBegin p b) (s_reqs s)) \/ In (PDel id) (s_reqs s);
  i_begun : forall p c, nth_error (s_heap s) p = Some c -> x_state c = SBegun \/ x_state c = SContinued -> x_it c <> None /\ x_id c = Some (own p);
  i_begin : forall p b c, In (PBegin p b) (s_reqs s) -> nth_error (s_heap s) p = Some c -> x_id c = Some (own p);
  i_rel : forall t p id c, In (t, EReleased p id) (s_log s) -> nth_error (s_heap s) p = Some c ->
            x_it c <> None /\ (gone c \/ (x_state c = SReleased /\ x_no_auto c = true))
}.

Lemma init_inv g now st : store_ok st -> inv g (fun _ => 0) (init now st).
Proof.
  intros H. constructor; cbn; try tauto; try (intros; now destruct p); auto.
  constructor.
Qed.

(** ** Growing the log by one event *)

Lemma filter_snoc {A} (f : A -> bool) l x : filter f (l ++ [x]) = filter f l ++ (if f x then [x] else []).
Proof. rewrite filter_app. reflexivity. Qed.

Lemma given_snoc p log x : given p (log ++ [x]) = given p log ++ given_by p (snd x).
Proof. unfold given. rewrite flat_map_app. cbn. rewrite app_nil_r. reflexivity. Qed.

(** An event of another session, or one that delivers nothing. *)
Definition mute (p : nat) (e : event) : Prop :=
  match e with EBegin q _ _ _ => q <> p | EPage q _ _ _ _ => q <> p | _ => True end.

Lemma mute_facts p t e : mute p e -> begin_at p (t, e) = false /\ use_at p (t, e) = false /\ given_by p e = [].
Proof.
  unfold begin_at, use_at, given_by; cbn. destruct e; cbn; auto; intros H; apply Nat.eqb_neq in H; rewrite H; auto.
Qed.

Lemma ended_snoc_mute p log t e : mute p e -> ended p (log ++ [(t, e)]) -> ended p log.
Proof.
  intros M (t' & id & max & page & more & H & D). apply in_app_or in H. destruct H as [H|[H|[]]].
  - exists t', id, max, page, more. auto.
  - injection H as -> ->. cbn in M. congruence.
Qed.

Lemma sess_ok_mute log p c t e : mute p e -> sess_ok log p c -> sess_ok (log ++ [(t, e)]) p c.
Proof.
  intros M H. destruct (mute_facts p t e M) as (M1 & M2 & M3).
  destruct H as [(H1 & H2 & H3 & H4)|(t0 & b & st & page & vs & l & rem & it & H1 & H2 & H3 & H4 & H5 & H6 & H7 & H8 & H9 & H10 & H11 & H12 & H13 & (e' & H14 & H15))].
  - left. rewrite !filter_snoc, M1, M2, given_snoc, H2, H3, H4. cbn [snd]. rewrite M3. auto.
  - right. exists t0, b, st, page, vs, l, rem, it. rewrite filter_snoc, M1, given_snoc. cbn [snd]. rewrite M3, !app_nil_r.
    split; [auto|]. split; [auto|]. split; [auto|]. split; [auto|]. split; [auto|]. split; [auto|]. split; [auto|].
    split; [auto|]. split; [auto|]. split; [auto|]. split; [intros D; apply H11; eapply ended_snoc_mute; eauto|].
    split; [auto|]. split; [auto|]. exists e'. split; [apply in_or_app; auto|auto].
Qed.

(** A change of a session object that leaves the iterator alone. *)
Lemma sess_ok_ctx log p c c' : x_it c' = x_it c -> x_ts c' = x_ts c -> x_now c' = x_now c ->
  x_key_only c' = x_key_only c -> x_no_auto c' = x_no_auto c ->
  (x_last c' = x_last c \/ exists e, In (x_last c', e) log /\ touches p e) ->
  (x_it c <> None -> x_state c' <> SUninit /\ x_state c' <> SOpened) ->
  sess_ok log p c -> sess_ok log p c'.
Proof.
  intros E1 E2 E3 E4 E5 E6 E7 H.
  destruct H as [(H1 & H2 & H3 & H4)|(t0 & b & st & page & vs & l & rem & it & H1 & H2 & H3 & H4 & H5 & H6 & H7 & H8 & H9 & H10 & H11 & H12 & H13 & H14)].
  - left. rewrite E1. auto.
  - right. destruct E7 as [E7 E8]; [congruence|]. exists t0, b, st, page, vs, l, rem, it. rewrite E1, E2, E3, E4, E5.
    split; [auto|]. split; [auto|]. split; [auto|]. split; [auto|]. split; [auto|]. split; [auto|]. split; [auto|].
    split; [auto|]. split; [auto|]. split; [auto|]. split; [auto|]. split; [auto|]. split; [auto|].
    destruct E6 as [->|E6]; auto.
Qed.

Lemma req_ok_mono own own' n n' log log' k : (forall p, (p < n)%nat -> own' p = own p) -> (n <= n')%nat ->
  (forall x, In x log -> In x log') -> req_ok own n log k -> req_ok own' n' log' k.
Proof.
  intros O N L. destruct k; cbn; auto.
  - intros (A & B & C). rewrite O by auto. repeat split; auto; try apply A. lia.
  - intros (A & B & C). rewrite O by auto. repeat split; auto; try apply A. lia.
  - intros (A & B & C). rewrite O by auto. repeat split; auto; try apply A. lia.
  - intros (B & C). rewrite O by auto. split; auto. lia.
  - intros (t & p & H). exists t, p. auto.
  - intros (t & H). exists t. auto.
Qed.

(** A change of a session object other than by begin and continue. *)
Record soft (own : nat -> Z) (log : list (Z * event)) (p : nat) (c c' : ctx) : Prop := {
  f_it : x_it c' = x_it c; f_ts : x_ts c' = x_ts c; f_now : x_now c' = x_now c;
  f_ko : x_key_only c' = x_key_only c; f_na : x_no_auto c' = x_no_auto c;
  f_last : x_last c' = x_last c \/ exists e, In (x_last c', e) log /\ touches p e;
  f_new : x_it c <> None -> x_state c' <> SUninit /\ x_state c' <> SOpened;
  f_gone : gone c -> gone c';
  f_id : x_id c' = x_id c \/ x_id c' = Some (own p);
  f_begun : x_state c' = SBegun \/ x_state c' = SContinued -> x_state c = SBegun \/ x_state c = SContinued;
  f_rel : x_state c = SReleased -> x_state c' = SReleased \/ gone c'
}.

Lemma soft_same own log p c : sess_ok log p c -> soft own log p c c.
Proof.
  intros H. constructor; auto.
  intros N. destruct H as [(H & _)|(t & b & st & page & vs & l & rem & it & H)]; [congruence|].
  destruct H as (_ & _ & _ & _ & _ & _ & _ & _ & _ & _ & _ & H1 & H2 & _). auto.
Qed.

Definition mute_all (e : event) : Prop := match e with EFailed _ | EReleased _ _ => True | _ => False end.
Lemma mute_all_mute p e : mute_all e -> mute p e.
Proof. destruct e; cbn; tauto. Qed.

Lemma sess_ok_mutes es : Forall (fun te => mute_all (snd te)) es -> forall log p c,
  sess_ok log p c -> sess_ok (log ++ es) p c.
Proof.
  induction 1 as [|[t e] es M F IH]; intros log p c H; [rewrite app_nil_r; auto|].
  change ((t, e) :: es) with ([(t, e)] ++ es). rewrite app_assoc. apply IH.
  apply sess_ok_mute; auto. apply mute_all_mute; auto.
Qed.

Lemma begin_mutes es p log : Forall (fun te => mute_all (snd te)) es ->
  filter (begin_at p) (log ++ es) = filter (begin_at p) log.
Proof.
  intros F. rewrite filter_app. replace (filter (begin_at p) es) with (@nil (Z * event)); [apply app_nil_r|].
  induction F as [|[t e] es M F IH]; auto. cbn. unfold begin_at at 1. cbn. destruct e; cbn in M; try tauto.
Qed.

Lemma gone_dec c : gone c \/ ~ gone c.
Proof. unfold gone. destruct (x_state c); (left; auto; fail) || (right; intros [H|H]; discriminate). Qed.

Lemma inv_soft g own s now' store' heap' alive' reqs' es :
  inv g own s ->
  store_ok store' ->
  length heap' = length (s_heap s) ->
  (forall q c', nth_error heap' q = Some c' -> exists c, nth_error (s_heap s) q = Some c /\ soft own (s_log s ++ es) q c c') ->
  NoDup (map fst alive') ->
  (forall x, In x alive' -> In x (s_alive s)) ->
  (forall q c', nth_error heap' q = Some c' -> In (own q, q) (s_alive s) -> ~ gone c' -> In (own q, q) alive' \/ failed (own q) (s_log s ++ es)) ->
  Forall (fun te => mute_all (snd te)) es ->
  (forall t e p, In (t, e) es -> touches p e -> event_id e = own p /\ (p < length (s_heap s))%nat /\
     exists c', nth_error heap' p = Some c' /\ x_it c' <> None /\ (gone c' \/ (x_state c' = SReleased /\ x_no_auto c' = true))) ->
  Forall (req_ok own (length (s_heap s)) (s_log s ++ es)) reqs' ->
  (forall p b, In (PBegin p b) reqs' -> In (PBegin p b) (s_reqs s) \/
     (exists c', nth_error heap' p = Some c' /\ x_id c' = Some (own p))) ->
  (forall id p b, In (id, p) alive' -> In (POpen p b) (s_reqs s) \/ In (PBegin p b) (s_reqs s) ->
     (exists b, In (POpen p b) reqs' \/ In (PBegin p b) reqs') \/ In (PDel id) reqs') ->
  (forall id p, In (id, p) alive' -> In (PDel id) (s_reqs s) -> In (PDel id) reqs') ->
  inv g own {| s_now := now'; s_store := store'; s_heap := heap'; s_alive := alive'; s_reqs := reqs';
               s_log := s_log s ++ es; s_dead := s_dead s |}.
Proof.
  intros I ST LN HP ND AL RM MU EV RQ RB RO RD.
  assert (Inl : forall x, In x (s_log s) -> In x (s_log s ++ es)) by (intros; apply in_or_app; auto).
  constructor; cbn [s_now s_store s_heap s_alive s_reqs s_log s_dead].
  - exact ND.
  - intros id p H. apply AL in H. rewrite LN. eapply i_alive; eauto.
  - rewrite LN. exact RQ.
  - intros p c' id H X. destruct (HP _ _ H) as (c & Hc & F). destruct (f_id _ _ _ _ _ F) as [E|E].
    + rewrite E in X. eapply i_xid; eauto.
    + congruence.
  - intros t e p H T. rewrite LN. apply in_app_or in H. destruct H as [H|H].
    + eapply i_log; eauto.
    + destruct (EV _ _ _ H T) as (A & B & _). auto.
  - intros p c' H N. destruct (HP _ _ H) as (c & Hc & F).
    assert (N0 : ~ gone c) by (intros G; apply N; eapply f_gone; eauto).
    destruct (i_keep _ _ _ I _ _ Hc N0) as [A|(t & A)].
    + eapply RM; eauto.
    + right. exists t. auto.
  - exact ST.
  - apply (i_dead _ _ _ I).
  - intros p c' H. destruct (HP _ _ H) as (c & Hc & F).
    pose proof (sess_ok_mutes es MU _ _ _ (i_sess _ _ _ I _ _ Hc)) as S0.
    eapply sess_ok_ctx; [apply F|apply F|apply F|apply F|apply F|apply F|apply F|exact S0].
  - intros t e H. apply in_app_or in H. destruct H as [H|H]; [eapply i_pages; eauto|].
    rewrite Forall_forall in MU. apply MU in H. cbn in H. destruct e; cbn in *; tauto.
  - intros id p H. rewrite begin_mutes by auto. destruct (i_open _ _ _ I _ _ (AL _ H)) as [A|[(b & A)|A]]; auto.
    + right. eapply RO; eauto.
    + right. right. eapply RD; eauto.
  - intros p c' H B. destruct (HP _ _ H) as (c & Hc & F).
    destruct (i_begun _ _ _ I _ _ Hc (f_begun _ _ _ _ _ F B)) as [X Y]. rewrite (f_it _ _ _ _ _ F). split; auto.
    destruct (f_id _ _ _ _ _ F) as [E|E]; congruence.
  - intros p b c' H Hc'. destruct (HP _ _ Hc') as (c & Hc & F). destruct (RB _ _ H) as [A|(c2 & A & B)]; [|congruence].
    pose proof (i_begin _ _ _ I _ _ _ A Hc) as X. destruct (f_id _ _ _ _ _ F) as [E|E]; congruence.
  - intros t p id c' H Hc'. destruct (HP _ _ Hc') as (c & Hc & F). apply in_app_or in H. destruct H as [H|H].
    + destruct (i_rel _ _ _ I _ _ _ _ H Hc) as [XT G]. rewrite (f_it _ _ _ _ _ F). split; auto. destruct G as [G|(G & G2)].
      * left. eapply f_gone; eauto.
      * destruct (f_rel _ _ _ _ _ F G) as [X|X]; auto. right. split; auto. rewrite (f_na _ _ _ _ _ F). auto.
    + destruct (EV _ _ p H eq_refl) as (_ & _ & c2 & A & B). assert (c2 = c') by congruence. subst. auto.
Qed.
