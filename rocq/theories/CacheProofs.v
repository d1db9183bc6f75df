(** Proofs about the timestamp cache. *)
From Coq Require Import ZArith List Bool Arith Lia.
From Verif Require LatchModel LatchProofs.
From Verif Require Import CacheModel CacheSpec ConcProofs.
Import ListNotations.
Open Scope Z_scope.

(** * The shape of the list *)

Definition linked (s : cache) : Prop := forall i b, (hd s <= i)%nat -> nth_error (heap s) i = Some b ->
  b_next b = if Nat.eqb (S i) (length (heap s)) then None else Some (S i).

Definition nxok (s : cache) (h t : nat) (nx : option nat) : Prop :=
  (h <= hd s)%nat /\ (h <= t)%nat /\ (t <= tl s)%nat /\
  (h = hd s -> match nx with Some x => x = S h /\ (S h < length (heap s))%nat | None => True end).

Definition gok (s : cache) (g : getter) : Prop :=
  match g_ph g with
  | GStart | GDone _ => True
  | GHead h => (h <= hd s)%nat
  | GTail h t => (h <= hd s)%nat /\ (h <= t)%nat /\ (t <= tl s)%nat
  | GNext h t nx | GTake h t nx | GGot h t nx _ | GMove h t nx => nxok s h t nx
  | GDead h | GLink h => (h < hd s)%nat
  end.

Definition bok (b : batch) : Prop := b_next b = None /\ b_start b <= b_cur b.

Definition pok (s : cache) : Prop :=
  match push s with
  | PIdle | PLast _ => True
  | PLoad b => bok b
  | PTail b t => bok b /\ (t <= tl s)%nat
  | PNext b t nx => bok b /\ (t <= tl s)%nat /\
      (t = tl s -> match nx with Some x => x = S t /\ (S t < length (heap s))%nat | None => S t = length (heap s) end)
  | PSwing b t x => bok b /\ (t <= tl s)%nat /\ (t = tl s -> x = S t /\ (S t < length (heap s))%nat)
  | PCas b t => bok b /\ t = tl s /\ S t = length (heap s)
  end.

Record Inv (s : cache) : Prop := mkInv {
  i_ht : (hd s <= tl s)%nat;
  i_tn : (tl s < length (heap s))%nat;
  i_link : linked s;
  i_get : forall i g, nth_error (gets s) i = Some g -> gok s g;
  i_push : pok s;
  i_cur : forall k b, nth_error (heap s) k = Some b -> b_start b <= b_cur b }.

(** how a step changes the shared variables *)
Record evolves (s s' : cache) : Prop := mkEv {
  e_hd : (hd s <= hd s')%nat;
  e_tl : (tl s <= tl s')%nat;
  e_len : (length (heap s) <= length (heap s'))%nat;
  e_cell : forall k b, nth_error (heap s) k = Some b -> exists b', nth_error (heap s') k = Some b' /\
             b_start b' = b_start b /\ b_end b' = b_end b /\ b_cur b <= b_cur b' }.

Lemma evolves_refl s : evolves s s.
Proof. split; try lia. intros k b H. exists b. repeat split; auto; lia. Qed.
Lemma evolves_trans a b c : evolves a b -> evolves b c -> evolves a c.
Proof.
  intros [A1 A2 A3 A4] [B1 B2 B3 B4]. split; try lia. intros k x H. destruct (A4 k x H) as (y & Y & Y1 & Y2 & Y3).
  destruct (B4 k y Y) as (z & Z & Z1 & Z2 & Z3). exists z. repeat split; [exact Z|congruence|congruence|lia].
Qed.

Lemma init_inv now afters mins : Inv (cinit now afters mins).
Proof.
  split; cbn; try lia; try exact I.
  - intros [|i] b L H; cbn in H; [inversion H; subst; reflexivity|destruct i; discriminate].
  - intros i g H. rewrite nth_error_map in H. destruct (nth_error afters i); cbn in H; [|discriminate]. inversion H; subst. exact I.
  - intros [|k] b H; cbn in H; [inversion H; subst; cbn; lia|destruct k; discriminate].
Qed.

Lemma nth_len {A} (l : list A) n x : nth_error l n = Some x -> (n < length l)%nat.
Proof. intros H. apply nth_error_Some. congruence. Qed.

(** phases of getters stay valid when head, tail only advance, and the head's successor stays *)
Lemma gok_mono s s' g : gok s g -> (hd s <= hd s')%nat -> (tl s <= tl s')%nat -> (length (heap s) <= length (heap s'))%nat -> gok s' g.
Proof.
  unfold gok, nxok. intros H A B C. destruct (g_ph g); auto; try lia; destruct H as (H1 & H2 & H3 & H4); repeat split; try lia;
    intros E; assert (E' : h = hd s) by lia; specialize (H4 E'); destruct nx; auto; lia.
Qed.

Lemma gets_upd s s' i g g' : nth_error (gets s) i = Some g ->
  (forall j x, nth_error (gets s) j = Some x -> gok s x) ->
  (hd s <= hd s')%nat -> (tl s <= tl s')%nat -> (length (heap s) <= length (heap s'))%nat ->
  gok s' g' -> forall j x, nth_error (upd (gets s) i g') j = Some x -> gok s' x.
Proof.
  intros H G A B C O j x X. rewrite (nupd _ _ _ _ _ H) in X. destruct (Nat.eq_dec j i) as [->|N].
  - inversion X; subst; exact O.
  - eapply gok_mono; eauto.
Qed.

(** a cell below the head, or the counter of any cell, may change *)
Lemma link_upd s h b b' : linked s -> nth_error (heap s) h = Some b ->
  ((h < hd s)%nat \/ b_next b' = b_next b) -> linked (set_heap s (upd (heap s) h b')).
Proof.
  intros L H D i x I X. cbn in *. rewrite LatchProofs.upd_length. rewrite (nupd _ _ _ _ _ H) in X.
  destruct (Nat.eq_dec i h) as [->|N]; [|now apply L]. inversion X; subst x.
  destruct D as [D|D]; [lia|]. rewrite D. now apply L.
Qed.

Lemma cur_upd s h b b' : (forall k b, nth_error (heap s) k = Some b -> b_start b <= b_cur b) -> nth_error (heap s) h = Some b ->
  b_start b' <= b_cur b' -> forall k x, nth_error (upd (heap s) h b') k = Some x -> b_start x <= b_cur x.
Proof.
  intros G H O k x X. rewrite (nupd _ _ _ _ _ H) in X. destruct (Nat.eq_dec k h); [inversion X; subst; auto|eauto].
Qed.

Lemma cell_upd l h b b' : nth_error l h = Some b -> b_start b' = b_start b -> b_end b' = b_end b -> b_cur b <= b_cur b' ->
  forall k x, nth_error l k = Some x -> exists x', nth_error (upd l h b') k = Some x' /\
             b_start x' = b_start x /\ b_end x' = b_end x /\ b_cur x <= b_cur x'.
Proof.
  intros H A B C k x X. rewrite (nupd _ _ _ _ _ H). destruct (Nat.eq_dec k h) as [->|N].
  - assert (x = b) by congruence. subst. exists b'. auto.
  - exists x. repeat split; auto. lia.
Qed.

(** * Every step keeps the shape *)

Lemma pok_same s s' : push s' = push s -> tl s' = tl s -> length (heap s') = length (heap s) -> pok s -> pok s'.
Proof. unfold pok. intros -> -> ->. auto. Qed.

Ltac gu s := eapply (gets_upd s); cbn; rewrite ?LatchProofs.upd_length; eauto; try lia; try exact I;
  try (unfold gok, nxok in *; cbn; rewrite ?LatchProofs.upd_length; solve [auto | lia]).

Lemma get_step_inv s i g now ok d s' : Inv s -> nth_error (gets s) i = Some g -> get_step s i g now ok d = Some s' -> Inv s' /\ evolves s s'.
Proof.
  intros V H E. destruct V as [HT TN LK GT PS CU]. pose proof (GT i g H) as G.
  unfold get_step in E. unfold gok in G. destruct (g_ph g) as [|h|h t|h t nx|h t nx|h t nx ts|h t nx|h|h|ts] eqn:P.
  - inversion E; subst s'. split; [|split; cbn; try lia; intros k b K; exists b; repeat split; auto; lia].
    split; cbn; auto. gu s.
  - inversion E; subst s'. split; [|split; cbn; try lia; intros k b K; exists b; repeat split; auto; lia].
    split; cbn; auto. gu s.
  - destruct (nth_error (heap s) h) as [b|] eqn:B; [|discriminate]. inversion E; subst s'.
    split; [|split; cbn; try lia; intros k x K; exists x; repeat split; auto; lia].
    split; cbn; auto. gu s. unfold gok, nxok; cbn.
    destruct G as (G1 & G2 & G3). repeat split; auto. intros Eh. rewrite (LK h b); [|lia|exact B].
    pose proof (nth_len _ _ _ B). destruct (Nat.eqb_spec (S h) (length (heap s))); auto. split; auto. lia.
  - destruct (nth_error (heap s) h) as [b|] eqn:B; [|discriminate].
    assert (K : s' = set_get s i (g_after g) (GMove h t nx) \/ s' = set_get s i (g_after g) (GTake h t nx)).
    { destruct (stale b now (lastp s)); inversion E; auto. }
    split.
    + destruct K as [->| ->]; split; cbn; auto; gu s.
    + destruct K as [->| ->]; split; cbn; try lia; intros k x K; exists x; repeat split; auto; lia.
  - destruct (nth_error (heap s) h) as [b|] eqn:B; [|discriminate]. inversion E; subst s'. clear E.
    split.
    + split; cbn; rewrite ?LatchProofs.upd_length; auto.
      * eapply link_upd; [exact LK|exact B|]. right. reflexivity.
      * gu s.
      * eapply pok_same with (s := s); cbn; rewrite ?LatchProofs.upd_length; auto.
      * eapply cur_upd; [exact CU|exact B|]. cbn. specialize (CU h b B). lia.
    + split; cbn; rewrite ?LatchProofs.upd_length; auto. eapply cell_upd; [exact B|..]; cbn; auto; lia.
  - assert (K : s' = set_get s i (g_after g) (GMove h t nx) \/ s' = set_get s i (g_after g) (GDone ts)).
    { destruct (_ && _); inversion E; auto. }
    split.
    + destruct K as [->| ->]; split; cbn; auto; gu s.
    + destruct K as [->| ->]; split; cbn; try lia; intros k x K; exists x; repeat split; auto; lia.
  - destruct G as (G1 & G2 & G3 & G4). destruct nx as [x|].
    2:{ inversion E; subst s'. split; [|split; cbn; try lia; intros k b K; exists b; repeat split; auto; lia].
        split; cbn; auto. gu s. }
    destruct (Nat.eqb_spec h t) as [->|N].
    + destruct (ok && Nat.eqb (tl s) t) eqn:C; inversion E; subst s'; clear E.
      * apply andb_prop in C. destruct C as [_ C]. apply Nat.eqb_eq in C.
        assert (Eh : t = hd s) by lia. destruct (G4 Eh) as (-> & L).
        split; [|split; cbn; try lia; intros k b K; exists b; repeat split; auto; lia].
        split; cbn; auto; try lia.
        -- gu s.
        -- unfold pok in *. cbn. destruct (push s); auto; try lia.
           ++ destruct PS as (PS1 & PS2). split; auto; lia.
           ++ destruct PS as (PS1 & PS2 & PS3). split; [auto|split; [lia|intros; exfalso; lia]].
           ++ destruct PS as (PS1 & PS2 & PS3). split; [auto|split; [lia|intros; exfalso; lia]].
      * split; [|split; cbn; try lia; intros k b K; exists b; repeat split; auto; lia].
        split; cbn; auto. gu s.
    + destruct (ok && Nat.eqb (hd s) h) eqn:C; inversion E; subst s'; clear E.
      * apply andb_prop in C. destruct C as [_ C]. apply Nat.eqb_eq in C. symmetry in C. destruct (G4 C) as (-> & L).
        split; [|split; cbn; try lia; intros k b K; exists b; repeat split; auto; lia].
        split; cbn; auto; try lia.
        -- intros j b J. cbn in J. apply LK. lia.
        -- gu s.
      * split; [|split; cbn; try lia; intros k b K; exists b; repeat split; auto; lia].
        split; cbn; auto. gu s.
  - destruct (nth_error (heap s) h) as [b|] eqn:B; [|discriminate]. inversion E; subst s'. clear E.
    split.
    + split; cbn; rewrite ?LatchProofs.upd_length; auto.
      * eapply link_upd; [exact LK|exact B|]. now left.
      * gu s.
      * eapply pok_same with (s := s); cbn; rewrite ?LatchProofs.upd_length; auto.
      * eapply cur_upd; [exact CU|exact B|]. cbn. specialize (CU h b B). lia.
    + split; cbn; rewrite ?LatchProofs.upd_length; auto. eapply cell_upd; [exact B|..]; cbn; auto; lia.
  - destruct (Nat.ltb_spec d (hd s)) as [L|L].
    2:{ inversion E; subst s'. split; [|split; cbn; try lia; intros k b K; exists b; repeat split; auto; lia].
        split; cbn; auto. gu s. }
    destruct (nth_error (heap s) d) as [b|] eqn:B; [|discriminate]. destruct (b_next b) eqn:NB; inversion E; subst s'. clear E.
    split.
    + split; cbn; rewrite ?LatchProofs.upd_length; auto.
      * eapply link_upd; [exact LK|exact B|]. now left.
      * gu s.
      * eapply pok_same with (s := s); cbn; rewrite ?LatchProofs.upd_length; auto.
      * eapply cur_upd; [exact CU|exact B|]. cbn. specialize (CU d b B). lia.
    + split; cbn; rewrite ?LatchProofs.upd_length; auto. eapply cell_upd; [exact B|..]; cbn; auto; lia.
  - discriminate.
Qed.

Lemma push_step_inv s ok s' : Inv s -> push_step s ok = Some s' -> Inv s' /\ evolves s s'.
Proof.
  intros V E. destruct V as [HT TN LK GT PS CU]. unfold push_step in E. unfold pok in PS.
  destruct (push s) as [|b|b t|b t nx|b t x|b t|p] eqn:P.
  - discriminate.
  - inversion E; subst s'. split; [|split; cbn; try lia; intros k x K; exists x; repeat split; auto; lia].
    split; cbn; auto. 
  - destruct (nth_error (heap s) t) as [c|] eqn:B; [|discriminate]. inversion E; subst s'.
    split; [|split; cbn; try lia; intros k x K; exists x; repeat split; auto; lia].
    split; cbn; auto. unfold pok; cbn. destruct PS as (P1 & P2). repeat split; try apply P1; auto. intros ->.
    rewrite (LK (tl s) c); [|lia|exact B]. destruct (Nat.eqb_spec (S (tl s)) (length (heap s))); auto. split; auto. lia.
  - destruct PS as (P1 & P2 & P3).
    destruct (Nat.eqb_spec (tl s) t) as [T|T]; inversion E; subst s'.
    + split; [|split; cbn; try lia; intros k x K; exists x; repeat split; auto; lia].
      split; cbn; auto. unfold pok; cbn. symmetry in T. specialize (P3 T). destruct nx; split; auto.
    + split; [|split; cbn; try lia; intros k x K; exists x; repeat split; auto; lia].
      split; cbn; auto.
  - destruct PS as (P1 & P2 & P3). inversion E; subst s'. clear E.
    destruct (ok && Nat.eqb (tl s) t) eqn:C.
    + apply andb_prop in C. destruct C as [_ C]. apply Nat.eqb_eq in C. symmetry in C. destruct (P3 C) as (-> & L).
      split; [|split; cbn; try lia; intros k z K; exists z; repeat split; auto; lia].
      split; cbn; auto; try lia. intros i g H. eapply gok_mono; [eapply GT; exact H|..]; cbn; lia.
    + split; [|split; cbn; try lia; intros k z K; exists z; repeat split; auto; lia]. split; cbn; auto.
  - destruct PS as ((P1 & P1') & P2 & P3).
    destruct (nth_error (heap s) t) as [c|] eqn:B; [|discriminate].
    destruct (b_next c) eqn:NC; [inversion E; subst s'; split; [split; cbn; auto; unfold pok; cbn; split; auto|
      split; cbn; try lia; intros k x K; exists x; repeat split; auto; lia]|].
    destruct ok; inversion E; subst s'; clear E;
      [|split; [split; cbn; auto; unfold pok; cbn; split; auto|split; cbn; try lia; intros k x K; exists x; repeat split; auto; lia]].
    set (c' := with_next c (Some (length (heap s)))).
    assert (LN : length (upd (heap s) t c' ++ [b]) = S (length (heap s))) by (rewrite app_length, LatchProofs.upd_length; cbn; lia).
    split.
    + split; cbn; rewrite ?LN; try lia; try exact I.
      * intros i x I X. cbn in I, X. cbn [heap set_heap set_push]. rewrite LN. rewrite nth_app_new, LatchProofs.upd_length in X.
        destruct (Nat.eq_dec i (length (heap s))) as [->|N].
        -- inversion X; subst x. rewrite P1. now rewrite Nat.eqb_refl.
        -- rewrite (nupd _ _ _ _ _ B) in X. destruct (Nat.eq_dec i t) as [->|N'].
           ++ inversion X; subst x. cbn. rewrite <- P3. destruct (Nat.eqb_spec t (S t)); [lia|reflexivity].
           ++ rewrite (LK i x I X). pose proof (nth_len _ _ _ X).
              destruct (Nat.eqb_spec (S i) (length (heap s))); [lia|]. destruct (Nat.eqb_spec (S i) (S (length (heap s)))); [lia|reflexivity].
      * intros i g H. eapply gok_mono; [eapply GT; exact H|..]; cbn; rewrite ?LN; lia.
      * intros k x X. rewrite nth_app_new, LatchProofs.upd_length in X. destruct (Nat.eq_dec k (length (heap s))); [inversion X; subst; auto|].
        eapply cur_upd; [exact CU|exact B| |exact X]. cbn. eapply CU; exact B.
    + split; cbn; rewrite ?LN; try lia. intros k x X. rewrite nth_app_new, LatchProofs.upd_length.
      destruct (Nat.eq_dec k (length (heap s))) as [->|N]; [apply nth_len in X; lia|].
      eapply cell_upd; [exact B|..]; cbn; auto; lia.
  - inversion E; subst s'. split; [|split; cbn; try lia; intros k x K; exists x; repeat split; auto; lia].
    split; cbn; auto.
Qed.

Lemma cstep_inv s c s' : Inv s -> cstep s c = Some s' -> Inv s' /\ evolves s s'.
Proof.
  intros V E. destruct c as [i now ok d|i|p l count now|ok]; cbn [cstep] in E.
  - destruct (nth_error (gets s) i) as [g|] eqn:H; [|discriminate]. eapply get_step_inv; eauto.
  - destruct V as [HT TN LK GT PS CU].
    destruct (nth_error (sets s) i) as [[v []]|] eqn:H; inversion E; subst s';
      (split; [split; cbn; auto|split; cbn; try lia; intros k x K; exists x; repeat split; auto; lia]).
  - destruct V as [HT TN LK GT PS CU]. destruct (push s) eqn:P; inversion E; subst s'.
    split; [split; cbn; auto|split; cbn; try lia; intros k x K; exists x; repeat split; auto; lia].
    unfold pok, bok; cbn. split; [reflexivity|lia].
  - eapply push_step_inv; eauto.
Qed.

Lemma crun_inv sched : forall s, Inv s -> Inv (crun s sched) /\ evolves s (crun s sched).
Proof.
  induction sched as [|c r IH]; intros s V; cbn; [split; [auto|apply evolves_refl]|].
  destruct (cstep s c) as [s'|] eqn:E; [|now apply IH].
  destruct (cstep_inv _ _ _ V E) as [V' EV]. destruct (IH s' V') as [A B]. split; auto. eapply evolves_trans; eauto.
Qed.
