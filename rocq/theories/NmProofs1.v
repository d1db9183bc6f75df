(** Lemmas for C83-C86: the invariant over views of the state and its preservation. *)
From Coq Require Import ZArith List Bool Lia Permutation.
From Verif Require Import Bytes SMap Outcome NmModel NmSpec.
Import ListNotations.
Open Scope Z_scope.

Lemma kind_eqb_eq a b : kind_eqb a b = true <-> a = b.
Proof. destruct a, b; simpl; split; congruence. Qed.
Lemma kind_dec (a b : kind) : {a = b} + {a <> b}.
Proof. decide equality. Qed.

(** what an increment creates or deletes, with its class *)
Definition tag (i : inc) : list (Z * Z) :=
  match i with
  | ISPut id _ _ => [(0, id)]
  | ISDel id => [(1, id)]
  | ITPut KTable id _ => [(2, id)]
  | ITPut KIndex id _ => [(3, id)]
  | ITDel KTable id _ => [(4, id)]
  | ITDel KIndex id _ => [(5, id)]
  | _ => []
  end.
Definition tags (R : list inc) : list (Z * Z) := flat_map tag R.

Definition gview := Z -> option schema.
Definition eview := kind -> Z -> option tbl.
Definition nview := kind -> names.

Record Inv (G : gview) (E : eview) (SN : names) (N : nview) (R : list inc) : Prop := {
  i_list : forall k sid c, G sid = Some c ->
    NoDup (sc_ids k c) /\ forall i, In i (sc_ids k c) <-> exists t, E k i = Some t /\ t_schema t = sid;
  i_sch : forall k i t, E k i = Some t -> exists c, G (t_schema t) = Some c;
  i_pos : forall k i t, E k i = Some t -> 0 < i /\ 0 < t_schema t;
  i_put : forall k i t, In (ITPut k i t) R ->
    E k i = None /\ 0 < i /\ 0 < t_schema t /\ (exists c, G (t_schema t) = Some c) /\
    ~ In (ISDel (t_schema t)) R /\ N k (t_schema t) (t_name t) = Some i;
  i_del : forall k i sid, In (ITDel k i sid) R ->
    (exists t, E k i = Some t /\ t_schema t = sid) /\ ~ In (ISDel sid) R;
  i_name : forall k i t, E k i = Some t -> (forall sid, ~ In (ITDel k i sid) R) ->
    N k (t_schema t) (t_name t) = Some i;
  i_found : forall k a b i, N k a b = Some i ->
    (exists t, E k i = Some t /\ t_schema t = a /\ t_name t = b /\ forall sid, ~ In (ITDel k i sid) R) \/
    (exists t, In (ITPut k i t) R /\ t_schema t = a /\ t_name t = b);
  i_sput : forall id a b, In (ISPut id a b) R -> G id = None /\ SN a b = Some id;
  i_sdel : forall id, In (ISDel id) R -> exists c, G id = Some c /\ forall k, sc_ids k c = [];
  i_sname : forall id c, G id = Some c -> ~ In (ISDel id) R -> SN (sc_tenant c) (sc_name c) = Some id;
  i_sfound : forall a b id, SN a b = Some id ->
    (exists c, G id = Some c /\ sc_tenant c = a /\ sc_name c = b /\ ~ In (ISDel id) R) \/ In (ISPut id a b) R;
  i_nodup : NoDup (tags R) }.

Lemma tag_in_S id a b R : In (ISPut id a b) R -> In (0, id) (tags R).
Proof. intros H. apply in_flat_map. exists (ISPut id a b). simpl. auto. Qed.
Lemma tag_in_D id R : In (ISDel id) R -> In (1, id) (tags R).
Proof. intros H. apply in_flat_map. exists (ISDel id). simpl. auto. Qed.
Definition ctag (k : kind) : Z := match k with KTable => 2 | KIndex => 3 end.
Definition dtag (k : kind) : Z := match k with KTable => 4 | KIndex => 5 end.
Lemma tag_put k id t : tag (ITPut k id t) = [(ctag k, id)].
Proof. destruct k; reflexivity. Qed.
Lemma tag_del k id t : tag (ITDel k id t) = [(dtag k, id)].
Proof. destruct k; reflexivity. Qed.
Lemma tag_in_P k id t R : In (ITPut k id t) R -> In (ctag k, id) (tags R).
Proof. intros H. apply in_flat_map. exists (ITPut k id t). rewrite tag_put. simpl; auto. Qed.
Lemma tag_in_X k id t R : In (ITDel k id t) R -> In (dtag k, id) (tags R).
Proof. intros H. apply in_flat_map. exists (ITDel k id t). rewrite tag_del. simpl; auto. Qed.

Lemma in_tags p R : In p (tags R) -> exists i, In i R /\ In p (tag i).
Proof. intros H. apply in_flat_map in H. exact H. Qed.
Lemma in_tags_S id R : In (0, id) (tags R) -> exists a b, In (ISPut id a b) R.
Proof.
  intros H. apply in_tags in H. destruct H as (i & H1 & H2).
  destruct i as [| | | | | |k ? ?|k ? ?]; try destruct k; simpl in H2; try contradiction; destruct H2 as [H2|[]]; inversion H2; subst. eauto.
Qed.
Lemma in_tags_D id R : In (1, id) (tags R) -> In (ISDel id) R.
Proof.
  intros H. apply in_tags in H. destruct H as (i & H1 & H2).
  destruct i as [| | | | | |k ? ?|k ? ?]; try destruct k; simpl in H2; try contradiction; destruct H2 as [H2|[]]; inversion H2; subst. eauto.
Qed.
Lemma in_tags_P k id R : In (ctag k, id) (tags R) -> exists t, In (ITPut k id t) R.
Proof.
  intros H. apply in_tags in H. destruct H as (i & H1 & H2).
  destruct k, i as [| | | | | |k ? ?|k ? ?]; try destruct k; simpl in H2; try contradiction; destruct H2 as [H2|[]]; inversion H2; subst; eauto.
Qed.
Lemma in_tags_X k id R : In (dtag k, id) (tags R) -> exists t, In (ITDel k id t) R.
Proof.
  intros H. apply in_tags in H. destruct H as (i & H1 & H2).
  destruct k, i as [| | | | | |k ? ?|k ? ?]; try destruct k; simpl in H2; try contradiction; destruct H2 as [H2|[]]; inversion H2; subst; eauto.
Qed.

Lemma Permutation_tags R R' : Permutation R R' -> Permutation (tags R) (tags R').
Proof. intros H. unfold tags. apply Permutation_flat_map. exact H. Qed.

Lemma Inv_same G E SN N R R' : Permutation (tags R) (tags R') -> (forall x, is_x x = false -> (In x R' <-> In x R)) ->
  Inv G E SN N R -> Inv G E SN N R'.
Proof.
  intros P H [Ilist Isch Ipos Iput Idel Iname Ifound Isput Isdel Isname Isfound Inodup].
  assert (HP : forall k a t, In (ITPut k a t) R' <-> In (ITPut k a t) R) by (intros; apply H; auto).
  assert (HX : forall k a t, In (ITDel k a t) R' <-> In (ITDel k a t) R) by (intros; apply H; auto).
  assert (HS : forall a b c, In (ISPut a b c) R' <-> In (ISPut a b c) R) by (intros; apply H; auto).
  assert (HD : forall a, In (ISDel a) R' <-> In (ISDel a) R) by (intros; apply H; auto).
  constructor; auto.
  - intros k i t Hi. apply HP in Hi. rewrite HD. auto.
  - intros k i sid Hi. apply HX in Hi. rewrite HD. auto.
  - intros k i t Hi Hn. apply Iname; auto. intros sid. rewrite <- HX. auto.
  - intros k a b i Hi. destruct (Ifound _ _ _ _ Hi) as [(t & A & B & C & D)|(t & A & B & C)].
    + left. exists t. repeat (split; auto). intros sid. rewrite HX. auto.
    + right. exists t. rewrite HP. auto.
  - intros id a b Hi. apply HS in Hi. auto.
  - intros id Hi. apply HD in Hi. auto.
  - intros id c Hc Hn. apply Isname; auto. rewrite <- HD. auto.
  - intros a b id Hi. rewrite HS. destruct (Isfound _ _ _ Hi) as [(c & A & B & C & D)|A]; [left|right; auto].
    exists c. rewrite HD. auto.
  - eapply Permutation_NoDup; [exact P|auto].
Qed.

Lemma Inv_perm G E SN N R R' : Permutation R R' -> Inv G E SN N R -> Inv G E SN N R'.
Proof.
  intros P. apply Inv_same. apply Permutation_tags; auto.
  intros x _. split; apply Permutation_in; auto. apply Permutation_sym; auto.
Qed.

Lemma Inv_ext G E SN N R G' E' SN' N' :
  (forall x, G' x = G x) -> (forall k x, E' k x = E k x) -> (forall a b, SN' a b = SN a b) ->
  (forall k a b, N' k a b = N k a b) -> Inv G E SN N R -> Inv G' E' SN' N' R.
Proof.
  intros HG HE HS HN I. destruct I. constructor; intros; repeat rewrite ?HG, ?HE, ?HS, ?HN in *; eauto.
  - destruct (i_list0 k _ _ H) as [A B]. split; auto. intros i. rewrite B.
    split; intros (t & ? & ?); exists t; [rewrite HE|rewrite <- HE]; auto.
Qed.

(** an increment that is about the lists of indexes is not seen *)
Lemma Inv_x G E SN N R i : is_x i = true -> (Inv G E SN N (i :: R) <-> Inv G E SN N R).
Proof.
  intros Hx.
  assert (T : tags (i :: R) = tags R) by (destruct i; simpl in *; try congruence; reflexivity).
  assert (H : forall x, is_x x = false -> (In x (i :: R) <-> In x R)).
  { intros x Hf. simpl. split; auto. intros [->|]; auto. congruence. }
  split; apply Inv_same; try (rewrite T; auto); auto. intros x Hf. rewrite H; tauto.
Qed.
