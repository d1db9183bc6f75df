(** Proofs about the stream of one column family. *)
From Coq Require Import ZArith List Bool Arith Lia.
From Verif Require Import Bytes SnModel SnSpec.
Import ListNotations.
Open Scope nat_scope.

#[local] Arguments ser : simpl never.
#[local] Arguments ser1 : simpl never.
#[local] Arguments le64 : simpl never.

(** ** Lengths and parsing *)

Lemma le64_length x : length (le64 x) = 8.
Proof. unfold le64. rewrite rev_length. apply be_length. Qed.

Lemma unle64_le64 x : (0 <= x < 2 ^ 64)%Z -> unle64 (le64 x) = x.
Proof.
  intro H. unfold unle64, le64. rewrite rev_involutive, unbe_be.
  apply Z.mod_small. change (256 ^ Z.of_nat 8)%Z with (2 ^ 64)%Z. exact H.
Qed.

Lemma ser1_length b : length (ser1 b) = 8 + length b.
Proof. unfold ser1. rewrite app_length, le64_length. reflexivity. Qed.

Lemma ser_length p : length (ser p) = 16 + length (fst p) + length (snd p).
Proof. unfold ser. rewrite app_length, !ser1_length. lia. Qed.

Lemma firstn_exact {A} (a b : list A) n : length a = n -> firstn n (a ++ b) = a.
Proof.
  intros <-. rewrite firstn_app, Nat.sub_diag, firstn_O, app_nil_r. apply firstn_all.
Qed.
Lemma skipn_exact {A} (a b : list A) n : length a = n -> skipn n (a ++ b) = b.
Proof.
  intros <-. rewrite skipn_app, Nat.sub_diag, skipn_all. reflexivity.
Qed.

Lemma take1_ser1 b r :
  (Z.of_nat (length b) < 2 ^ 64)%Z -> take1 (ser1 b ++ r) = Some (b, r).
Proof.
  intro H. unfold take1, ser1.
  rewrite <- app_assoc.
  rewrite (firstn_exact _ _ 8 (le64_length _)), (skipn_exact _ _ 8 (le64_length _)).
  rewrite unle64_le64 by lia. rewrite Nat2Z.id.
  rewrite app_length, le64_length.
  destruct (Nat.ltb_spec (8 + length (b ++ r)) 8) as [L | _]; [lia|].
  rewrite app_length.
  destruct (Nat.ltb_spec (length b + length r) (length b)) as [L | _]; [lia|].
  rewrite (firstn_exact b r _ eq_refl), (skipn_exact b r _ eq_refl). reflexivity.
Qed.

Definition sers (l : list kv) : bytes := concat (map ser l).

Lemma sers_app a b : sers (a ++ b) = sers a ++ sers b.
Proof. unfold sers. rewrite map_app, concat_app. reflexivity. Qed.
Lemma sers_cons p l : sers (p :: l) = ser p ++ sers l.
Proof. reflexivity. Qed.

Lemma sers_length_ge l : length l <= length (sers l).
Proof.
  induction l as [|p l IH]; [apply Nat.le_refl|].
  rewrite sers_cons, app_length, ser_length. cbn [length]. lia.
Qed.

Lemma parse_sers l : Forall fits l -> forall f, length l <= f -> parse f (sers l) = Some l.
Proof.
  induction 1 as [|[k v] l [Hk Hv] Hl IH]; intros f Lf.
  - destruct f; reflexivity.
  - destruct f as [|f]; [cbn in Lf; lia|]. cbn [length] in Lf.
    rewrite sers_cons. unfold ser. cbn [fst snd] in *.
    assert (NE : (ser1 k ++ ser1 v) ++ sers l <> []).
    { intro E. apply (f_equal (@length Z)) in E. rewrite !app_length, !ser1_length in E. cbn in E. lia. }
    remember ((ser1 k ++ ser1 v) ++ sers l) as d eqn:Ed.
    destruct d as [|x d]; [congruence|].
    cbn [parse]. rewrite Ed, <- app_assoc.
    rewrite (take1_ser1 k _ Hk), (take1_ser1 v _ Hv), (IH f) by lia. reflexivity.
Qed.

(** ** The loop *)

Lemma fill_spec size : forall l count out rest d,
  fill size count l = (out, rest, d) ->
  exists a, l = a ++ rest /\ out = sers a /\
            (d = true -> rest = []) /\
            (d = false -> size <= count + length out) /\
            (d = true -> count + length out < size) /\
            (a = [] -> d = false -> size <= count).
Proof.
  induction l as [|p l IH]; intros count out rest d E; cbn [fill] in E.
  - destruct (Nat.ltb_spec count size) as [C | C]; injection E as <- <- <-.
    + exists []. cbn. repeat split; auto; try discriminate; intros; lia.
    + exists []. cbn. repeat split; auto; try discriminate; intros; lia.
  - destruct (Nat.ltb_spec count size) as [C | C].
    + destruct (fill size (count + length (ser p)) l) as [[out' rest'] d'] eqn:F.
      assert (E1 : out = ser p ++ out') by congruence.
      assert (E2 : rest = rest') by congruence. assert (E3 : d = d') by congruence.
      clear E. subst out rest d.
      destruct (IH _ _ _ _ F) as (a & -> & -> & A & B & B' & _).
      exists (p :: a). rewrite sers_cons, app_length.
      repeat split; auto; try discriminate.
      * intro D. specialize (B D). lia.
      * intro D. specialize (B' D). lia.
    + injection E as <- <- <-. exists []. cbn. repeat split; auto; try discriminate; intros; lia.
Qed.

(** ** The reader's invariant: everything it ever shows is a run of whole pairs *)

Record rok (all : list kv) (sz : nat) (r : reader) : Prop := {
  k_all : rd_all r = all;
  k_split : exists a b, all = a ++ b ++ rd_left r /\
              rd_last_off r = length (sers a) /\ rd_last r = sers b /\
              rd_off r = length (sers (a ++ b)) /\
              (rd_last_off r < rd_off r -> rd_left r = [] \/ sz <= length (rd_last r));
  k_done : rd_done r = true -> rd_left r = []
}.

Lemma rok_fresh all sz : rok all sz (open_fresh all).
Proof.
  split; cbn; auto; try discriminate.
  exists [], []. cbn. repeat split; auto. lia.
Qed.

(** A cut of the stream at a pair boundary is determined by its offset. *)
Lemma cut_unique : forall a a' b b' : list kv,
  a ++ b = a' ++ b' -> length (sers a) = length (sers a') -> a = a' /\ b = b'.
Proof.
  induction a as [|p a IH]; intros [|p' a'] b b' E L; cbn [app] in E.
  - auto.
  - exfalso. rewrite sers_cons, app_length, ser_length in L. cbn in L. lia.
  - exfalso. rewrite sers_cons, app_length, ser_length in L. cbn in L. lia.
  - injection E as -> E. rewrite !sers_cons, !app_length in L.
    destruct (IH a' b b' E ltac:(lia)) as [-> ->]. auto.
Qed.

Lemma cut_mono : forall a a' b b' : list kv,
  a ++ b = a' ++ b' -> length (sers a) <= length (sers a') -> exists c, a' = a ++ c.
Proof.
  induction a as [|p a IH]; intros [|p' a'] b b' E L; cbn [app] in E.
  - exists []. auto.
  - exists (p' :: a'). reflexivity.
  - exfalso. rewrite sers_cons, app_length, ser_length in L. cbn in L. lia.
  - injection E as -> E. rewrite !sers_cons, !app_length in L.
    destruct (IH a' b b' E ltac:(lia)) as [c ->]. exists c. reflexivity.
Qed.

(** What an answer at a pair boundary contains. *)
Lemma read_on_spec all sz r a :
  0 < sz -> rd_all r = all -> all = a ++ rd_left r -> rd_off r = length (sers a) ->
  (rd_done r = true -> rd_left r = []) ->
  exists b r', read_on r (rd_off r) sz = (Some (sers b), r') /\ rok all sz r' /\
    all = a ++ b ++ rd_left r' /\ rd_off r' = length (sers (a ++ b)) /\
    (rd_left r' = [] \/ sz <= length (sers b)).
Proof.
  intros P A C O D. unfold read_on.
  destruct (fill sz 0 (rd_left r)) as [[out rest] d] eqn:F.
  destruct (fill_spec _ _ _ _ _ _ F) as (b & Eb & -> & D1 & D2 & D3 & _).
  eexists b, _. split; [reflexivity|]. cbn [rd_left rd_off].
  assert (S1 : all = a ++ b ++ rest) by (rewrite C, Eb; reflexivity).
  assert (S2 : rest = [] \/ sz <= length (sers b)).
  { destruct d; [left; auto | right; specialize (D2 eq_refl); lia]. }
  split; [|split; [exact S1|split; [rewrite sers_app, app_length; lia | exact S2]]].
  split; cbn; auto.
  - exists a, b. repeat split; auto. rewrite sers_app, app_length. lia.
  - intro T. apply orb_prop in T. destruct T as [T|T]; auto.
    specialize (D T). rewrite D in Eb. destruct b; cbn in Eb; [congruence|discriminate].
Qed.

Lemma read_spec all sz r off late a b0 :
  0 < sz -> rok all sz r -> all = a ++ b0 -> off = length (sers a) ->
  match read r off sz late with
  | (None, r') => rok all sz r' /\ (late = false -> r' = r)
  | (Some out, r') =>
      rok all sz r' /\
      exists b, out = sers b /\ all = a ++ b ++ rd_left r' /\
        rd_off r' = length (sers (a ++ b)) /\
        (rd_left r' = [] \/ sz <= length (sers b))
  end.
Proof.
  intros P R E O. pose proof R as [A (x & y & X & LO & LP & RO & LS) D].
  unfold read.
  destruct (Nat.ltb_spec (rd_off r) off) as [G | G]; [auto|].
  destruct (Nat.ltb_spec off (rd_off r)) as [G2 | G2].
  - destruct (Nat.eqb_spec (rd_last_off r) off) as [Q | Q].
    + split; [exact R|]. exists y.
      assert (U : a = x /\ b0 = y ++ rd_left r).
      { apply cut_unique; [rewrite <- E, X; reflexivity | lia]. }
      destruct U as [-> ->]. repeat split; auto.
      rewrite <- LP. apply LS. lia.
    + destruct ((off =? 0) && late) eqn:Z0; [|auto].
      apply andb_prop in Z0. destruct Z0 as [Z0 _]. apply Nat.eqb_eq in Z0.
      assert (a = []) as ->.
      { destruct a as [|p a]; auto. exfalso. rewrite sers_cons, app_length, ser_length in O. lia. }
      destruct (read_on_spec all sz
                  (mkReader (rd_all r) (rd_all r) 0 false 0 (rd_last r)) [] P)
        as (b & r' & E1 & K & S1 & S2 & S3); cbn; auto; try discriminate.
      cbn [rd_off] in E1. rewrite Z0, E1. split; [exact K|]. exists b. auto.
  - assert (off = rd_off r) as -> by lia.
    assert (U : a = x ++ y /\ b0 = rd_left r).
    { apply cut_unique; [rewrite <- E, X, app_assoc; reflexivity | lia]. }
    destruct U as [-> ->].
    destruct (read_on_spec all sz r (x ++ y) P) as (b & r' & E1 & K & S1 & S2 & S3); auto.
    rewrite E1. split; [exact K|]. exists b. auto.
Qed.

(** A stray request may carry an offset that is no boundary: it is refused. *)
Lemma read_rok all sz r off late : 0 < sz -> rok all sz r -> rok all sz (snd (read r off sz late)).
Proof.
  intros P R. pose proof R as [A (x & y & X & LO & LP & RO & LS) D].
  unfold read.
  destruct (Nat.ltb_spec (rd_off r) off) as [G | G]; [auto|].
  destruct (Nat.ltb_spec off (rd_off r)) as [G2 | G2].
  - destruct (Nat.eqb_spec (rd_last_off r) off) as [Q | Q]; [exact R|].
    destruct ((off =? 0) && late) eqn:Z0; [|auto].
    apply andb_prop in Z0. destruct Z0 as [Z0 _]. apply Nat.eqb_eq in Z0.
    destruct (read_on_spec all sz
                (mkReader (rd_all r) (rd_all r) 0 false 0 (rd_last r)) [] P)
      as (b & r' & E1 & K & _); cbn; auto; try discriminate.
    cbn [rd_off] in E1. rewrite Z0, E1. exact K.
  - assert (off = rd_off r) as -> by lia.
    destruct (read_on_spec all sz r (x ++ y) P) as (b & r' & E1 & K & _); auto.
    + rewrite X, app_assoc. reflexivity.
    + rewrite E1. exact K.
Qed.

(** ** The writer *)

Lemma increasing_app_order : forall a p b q, increasing (a ++ p :: b ++ [q]) ->
  bltb (fst p) (fst q) = true.
Proof.
  induction a as [|x a IH]; intros p b q H.
  - cbn [app] in H. revert p H. induction b as [|y b IHb]; intros p H; cbn in H.
    + tauto.
    + destruct H as [H1 H2]. specialize (IHb y H2).
      unfold bltb in *. destruct (bcmp (fst p) (fst y)) eqn:E1; try discriminate.
      destruct (bcmp (fst y) (fst q)) eqn:E2; try discriminate.
      rewrite (bcmp_trans _ _ _ E1 E2). reflexivity.
  - apply IH with (b := b). exact (proj2 H).
Qed.

Lemma increasing_prefix : forall a b, increasing (a ++ b) -> increasing a.
Proof.
  induction a as [|p a IH]; intros b H; cbn; auto.
  cbn in H. destruct H as [H1 H2]. split; [|eauto].
  destruct a; cbn in *; auto.
Qed.

Lemma put_all_ok : forall new got, increasing (got ++ new) -> put_all got new = Some (got ++ new).
Proof.
  induction new as [|p new IH]; intros got H; cbn [put_all].
  - rewrite app_nil_r. reflexivity.
  - assert (H' : increasing ((got ++ [p]) ++ new)) by (rewrite <- app_assoc; exact H).
    specialize (IH (got ++ [p]) H'). rewrite <- app_assoc in IH. cbn [app] in IH.
    destruct (rev got) as [|q t] eqn:Er.
    + exact IH.
    + assert (got = rev t ++ [q]) as Eg.
      { rewrite <- (rev_involutive got), Er. reflexivity. }
      assert (bltb (fst q) (fst p) = true) as ->; [|exact IH].
      apply increasing_app_order with (a := rev t) (b := []).
      apply increasing_prefix with (b := new). cbn [app].
      rewrite <- app_assoc. cbn [app]. rewrite Eg, <- app_assoc in H. exact H.
Qed.

(** ** The transfer *)

Definition xok (all : list kv) (sz : nat) (s : reader * copy) : Prop :=
  rok all sz (fst s) /\
  match snd s with
  | Copying next got => exists rest, all = got ++ rest /\ next = length (sers got)
  | Copied got => got = all
  | CopyFailed => True
  end.

Lemma Forall_mid {A} (P : A -> Prop) a b c : Forall P (a ++ b ++ c) -> Forall P b.
Proof. rewrite !Forall_app. tauto. Qed.

Lemma xstep_ok all sz l s :
  0 < sz -> Forall fits all -> increasing all -> asks sz l -> xok all sz s -> xok all sz (xstep l s).
Proof.
  intros P F I A [R C]. destruct s as [r c]. cbn [fst snd] in *.
  destruct l as [s0 late | s0 late | off s0 late]; cbn [asks] in A; subst s0; cbn [xstep].
  - destruct c as [next got | got | ]; [| split; assumption | split; assumption].
    destruct C as (rest & E & N).
    pose proof (read_spec all sz r next late got rest P R E N) as H.
    destruct (read r next sz late) as [[out|] r'].
    + destruct H as (R' & b & -> & E' & O' & S').
      assert (Fb : Forall fits b) by (rewrite E' in F; eapply Forall_mid; eauto).
      rewrite (parse_sers b Fb) by apply sers_length_ge.
      assert (Ib : increasing (got ++ b)).
      { rewrite E', app_assoc in I. eapply increasing_prefix; eauto. }
      rewrite (put_all_ok _ _ Ib).
      split; [exact R'|]. cbn [snd].
      destruct (at_end r' next sz (sers b)) eqn:AE.
      * unfold at_end in AE. apply orb_prop in AE. destruct AE as [AE | AE].
        -- apply Nat.ltb_lt in AE. destruct S' as [S' | S']; [|lia].
           rewrite S', app_nil_r in E'. auto.
        -- unfold file_size in AE. destruct (rd_done r') eqn:Dn; [|discriminate].
           rewrite (k_done _ _ _ R' Dn), app_nil_r in E'. auto.
      * exists (rd_left r'). split; [rewrite E', app_assoc; reflexivity|].
        rewrite sers_app, app_length. lia.
    + split; [tauto | exact Logic.I].
  - destruct c as [next got | got | ]; cbn [fst snd]; (split; [|assumption]); auto.
    apply (read_rok all sz r next late P R).
  - destruct c; cbn [fst snd]; (split; [|assumption]); cbn [fst]; apply (read_rok all sz r off late P R).
Qed.

Lemma xrun_ok all sz ls : forall s,
  0 < sz -> Forall fits all -> increasing all -> Forall (asks sz) ls -> xok all sz s ->
  xok all sz (xrun ls s).
Proof.
  induction ls as [|l ls IH]; intros s P F I A O; [exact O|].
  inversion A; subst. unfold xrun in *. cbn [fold_left]. apply IH; auto. apply xstep_ok; auto.
Qed.

(** ** Seeking *)

Lemma bleb_ltb a b : bleb a b = negb (bltb b a).
Proof. unfold bleb, bltb. rewrite (bcmp_opp a b). destruct (bcmp a b); reflexivity. Qed.

Lemma increasing_ge lo : forall l, increasing l ->
  match l with [] => True | p :: _ => bleb lo (fst p) = true end ->
  filter (fun p => bleb lo (fst p)) l = l.
Proof.
  induction l as [|p l IH]; intros H G; cbn [filter]; auto.
  rewrite G. f_equal. cbn in H. destruct H as [H1 H2]. apply IH; auto.
  destruct l as [|q l]; auto.
  unfold bleb, bltb in *.
  destruct (bcmp lo (fst p)) eqn:E1; try discriminate;
  destruct (bcmp (fst p) (fst q)) eqn:E2; try discriminate.
  - apply bcmp_eq in E1. rewrite E1, E2. reflexivity.
  - rewrite (bcmp_trans _ _ _ E1 E2). reflexivity.
Qed.

Lemma seek_filter lo : forall l, increasing l -> seek lo l = pairs_from lo l.
Proof.
  unfold pairs_from. induction l as [|p l IH]; intro H; cbn [seek]; auto.
  destruct (bltb (fst p) lo) eqn:E.
  - cbn [filter]. rewrite bleb_ltb, E. cbn [negb]. apply IH. cbn in H. tauto.
  - symmetry. apply increasing_ge; auto. cbn. rewrite bleb_ltb, E. reflexivity.
Qed.

Lemma increasing_seek lo : forall l, increasing l -> increasing (seek lo l).
Proof.
  induction l as [|p l IH]; intro H; cbn [seek]; auto.
  destruct (bltb (fst p) lo); auto. apply IH. cbn in H; tauto.
Qed.
Lemma Forall_seek (P : kv -> Prop) lo : forall l, Forall P l -> Forall P (seek lo l).
Proof.
  induction 1 as [|p l Hp Hl IH]; cbn [seek]; auto.
  destruct (bltb (fst p) lo); auto.
Qed.

(** ** The claims *)

Lemma transfer_exact : forall lo cf sz ls,
  0 < sz -> increasing cf -> Forall fits cf -> Forall (asks sz) ls ->
  match snd (xrun ls (open_fresh (seek lo cf), Copying 0 [])) with
  | Copied got => got = pairs_from lo cf
  | Copying _ got => exists rest, pairs_from lo cf = got ++ rest
  | CopyFailed => True
  end.
Proof.
  intros lo cf sz ls P I F A.
  assert (O : xok (seek lo cf) sz (open_fresh (seek lo cf), Copying 0 [])).
  { split; [apply rok_fresh|]. cbn. exists (seek lo cf). auto. }
  pose proof (xrun_ok _ sz ls _ P (Forall_seek _ lo _ F) (increasing_seek lo _ I) A O) as [_ H].
  rewrite <- (seek_filter lo cf I).
  destruct (snd (xrun ls (open_fresh (seek lo cf), Copying 0 []))); auto.
  destruct H as (rest & H & _). eauto.
Qed.

(** Without restarts of the iterator nothing fails and the copy ends. *)
Definition live (all : list kv) (sz : nat) (s : reader * copy) (n : nat) : Prop :=
  xok all sz s /\
  match snd s with
  | Copying next got => n <= length got /\
      exists a b, all = a ++ b ++ rd_left (fst s) /\
        rd_last_off (fst s) = length (sers a) /\ rd_off (fst s) = length (sers (a ++ b)) /\
        (got = a \/ got = a ++ b)
  | Copied _ => True
  | CopyFailed => False
  end.

Lemma read_live all sz r got rest :
  0 < sz -> rok all sz r -> all = got ++ rest ->
  (exists a b, all = a ++ b ++ rd_left r /\
     rd_last_off r = length (sers a) /\ rd_off r = length (sers (a ++ b)) /\
     (got = a \/ got = a ++ b)) ->
  exists out r', read r (length (sers got)) sz false = (Some out, r') /\
    exists b, all = got ++ b ++ rd_left r' /\
     rd_last_off r' = length (sers got) /\ rd_off r' = length (sers (got ++ b)) /\ out = sers b.
Proof.
  intros P R E (a & b & X & LO & RO & G).
  pose proof (read_spec all sz r (length (sers got)) false got rest P R E eq_refl) as H.
  unfold read in *.
  assert (LT : length (sers a) <= length (sers (a ++ b))) by (rewrite sers_app, app_length; lia).
  destruct (Nat.ltb_spec (rd_off r) (length (sers got))) as [C | C].
  { exfalso. destruct G as [-> | ->]; lia. }
  destruct (Nat.ltb_spec (length (sers got)) (rd_off r)) as [C2 | C2].
  - assert (got = a) as -> by (destruct G as [-> | ->]; [auto | lia]).
    rewrite LO, Nat.eqb_refl in *.
    destruct H as (_ & b' & Eb & E' & O' & _).
    eexists _, r. split; [reflexivity|]. exists b'. auto.
  - unfold read_on in *. destruct (fill sz 0 (rd_left r)) as [[out rest'] d] eqn:Fi.
    destruct H as (_ & b' & Eb & E' & O' & _). cbn [rd_left rd_off] in *.
    eexists _, _. split; [reflexivity|]. exists b'. cbn [rd_left rd_off rd_last_off]. auto.
Qed.

Lemma xstep_live all sz l s n :
  0 < sz -> Forall fits all -> increasing all -> asks sz l -> own l = true -> in_time l = true ->
  live all sz s n -> live all sz (xstep l s) (if is_reply l then S n else n).
Proof.
  intros P F I A OW T [O L]. pose proof (xstep_ok all sz l s P F I A O) as O'.
  destruct s as [r c]. destruct O as [R C]. cbn [fst snd] in *.
  destruct l as [s0 late | s0 late | off s0 late]; cbn [asks own in_time is_reply] in *; subst;
    try discriminate; destruct late; try discriminate; cbn [xstep] in *.
  - destruct c as [next got | got | ]; [| split; assumption | contradiction].
    destruct C as (rest & E & ->). destruct L as [Ln L].
    destruct (read_live all sz r got rest P R E L) as (out & r' & Er & b & E' & LO' & RO' & ->).
    rewrite Er in *.
    assert (Fb : Forall fits b) by (rewrite E' in F; eapply Forall_mid; eauto).
    rewrite (parse_sers b Fb) in * by apply sers_length_ge.
    assert (Ib : increasing (got ++ b)).
    { rewrite E', app_assoc in I. eapply increasing_prefix; eauto. }
    rewrite (put_all_ok _ _ Ib) in *.
    split; [exact O'|]. cbn [snd fst].
    destruct (at_end r' (length (sers got)) sz (sers b)) eqn:AE; [exact Logic.I|].
    split.
    + rewrite app_length. unfold at_end in AE. apply orb_false_elim in AE. destruct AE as [AE _].
      apply Nat.ltb_ge in AE. destruct b; [cbn in AE; lia | cbn; lia].
    + exists got, b. repeat split; auto.
  - destruct c as [next got | got | ]; [| split; assumption | contradiction].
    destruct C as (rest & E & ->). destruct L as [Ln L].
    destruct (read_live all sz r got rest P R E L) as (out & r' & Er & b & E' & LO' & RO' & ->).
    rewrite Er in *. split; [exact O'|]. cbn [snd fst]. split; [lia|].
    exists got, b. repeat split; auto.
Qed.

Lemma xrun_live all sz ls : forall s n,
  0 < sz -> Forall fits all -> increasing all -> Forall (asks sz) ls ->
  forallb own ls = true -> forallb in_time ls = true ->
  live all sz s n -> live all sz (xrun ls s) (n + length (filter is_reply ls)).
Proof.
  induction ls as [|l ls IH]; intros s n P F I A OW T L.
  - cbn. rewrite Nat.add_0_r. exact L.
  - inversion A; subst. cbn in OW, T. apply andb_prop in OW, T.
    unfold xrun in *. cbn [fold_left filter].
    pose proof (xstep_live all sz l s n P F I ltac:(auto) (proj1 OW) (proj1 T) L) as L'.
    specialize (IH (xstep l s) _ P F I ltac:(auto) (proj2 OW) (proj2 T) L').
    destruct (is_reply l); cbn [length]; [rewrite Nat.add_succ_r; exact IH | exact IH].
Qed.

Lemma transfer_ends : forall lo cf sz ls,
  0 < sz -> increasing cf -> Forall fits cf -> Forall (asks sz) ls ->
  forallb own ls = true -> forallb in_time ls = true ->
  length (pairs_from lo cf) < length (filter is_reply ls) ->
  snd (xrun ls (open_fresh (seek lo cf), Copying 0 [])) = Copied (pairs_from lo cf).
Proof.
  intros lo cf sz ls P I F A OW T LE.
  assert (L0 : live (seek lo cf) sz (open_fresh (seek lo cf), Copying 0 []) 0).
  { split.
    - split; [apply rok_fresh|]. cbn. exists (seek lo cf). auto.
    - cbn. split; [lia|]. exists [], []. cbn. auto. }
  pose proof (xrun_live _ sz ls _ 0 P (Forall_seek _ lo _ F) (increasing_seek lo _ I) A OW T L0)
    as [[_ O] L].
  rewrite <- (seek_filter lo cf I) in *.
  destruct (snd (xrun ls (open_fresh (seek lo cf), Copying 0 []))) as [next got | got | ].
  - exfalso. destruct O as (rest & E & _). destruct L as [L _].
    rewrite E, app_length in LE. cbn in L. lia.
  - subst. reflexivity.
  - contradiction.
Qed.
