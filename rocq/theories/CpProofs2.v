(** Aggregates, row by row. *)
From Coq Require Import ZArith List Lia Bool Sorted.
From Verif Require Import Bytes SMap Outcome TxnModel TxnReadModel TxnReadSpec CpModel CpSpec CpProofs1.
Import ListNotations.
Open Scope Z_scope.

Lemma ints_app a b : ints (a ++ b) = ints a ++ ints b. Proof. apply flat_map_app. Qed.
Lemma bools_app a b : bools (a ++ b) = bools a ++ bools b. Proof. apply flat_map_app. Qed.
Lemma doubles_app a b : doubles (a ++ b) = doubles a ++ doubles b. Proof. apply flat_map_app. Qed.
Lemma strings_app a b : strings (a ++ b) = strings a ++ strings b. Proof. apply flat_map_app. Qed.
Lemma sum_app a b : sum (a ++ b) = sum a + sum b.
Proof. induction a as [|x a IH]; simpl; auto. rewrite IH. lia. Qed.

Lemma null_is c : c = null (type_of c) <-> is_null c = true.
Proof. destruct c as [[x|]|[x|]|[x|]|[x|]|[x|]]; simpl; split; congruence. Qed.
Lemma non_null_is c : non_null c = negb (is_null c).
Proof. destruct c as [[x|]|[x|]|[x|]|[x|]|[x|]]; auto. Qed.
Lemma nulls_app cs p : nulls (cs ++ [p]) <-> nulls cs /\ is_null p = true.
Proof.
  unfold nulls. split.
  - intros H. split; [intros c I; apply H; apply in_or_app; auto|]. apply null_is, H, in_or_app. right. left. auto.
  - intros [A B] c I. apply in_app_or in I. destruct I as [I|[<-|[]]]; [auto|]. apply null_is. auto.
Qed.
Lemma nulls_nil : nulls []. Proof. intros c []. Qed.

Lemma nulls_empty cs : nulls cs -> ints cs = [] /\ bools cs = [] /\ doubles cs = [] /\ strings cs = [].
Proof.
  induction cs as [|c cs IH]; intros H; [auto|].
  assert (N := proj1 (null_is c) (H c (or_introl eq_refl))).
  destruct IH as (A & B & C & D); [intros x I; apply H; right; auto|].
  unfold ints, bools, doubles, strings in *. simpl. rewrite A, B, C, D.
  destruct c as [[x|]|[x|]|[x|]|[x|]|[x|]]; simpl in N; try discriminate; auto.
Qed.
Lemma null_empty p : is_null p = true -> ints [p] = [] /\ bools [p] = [] /\ doubles [p] = [] /\ strings [p] = [].
Proof. destruct p as [[x|]|[x|]|[x|]|[x|]|[x|]]; simpl; try discriminate; auto. Qed.

Lemma largest_one {A} (le : A -> A -> Prop) x : le x x -> largest le [x] x.
Proof. intros R. split; [left; auto|]. intros y [<-|[]]. auto. Qed.
Lemma largest_step {A} (le : A -> A -> Prop) (lt : bool) l x y :
  (forall a, le a a) -> (forall a b c, le a b -> le b c -> le a c) ->
  (lt = true -> le x y) -> (lt = false -> le y x) ->
  largest le l x -> largest le (l ++ [y]) (if lt then y else x).
Proof.
  intros R T H1 H2 [I M]. destruct lt.
  - split; [apply in_or_app; right; left; auto|]. intros z J. apply in_app_or in J. destruct J as [J|[<-|[]]]; eauto.
  - split; [apply in_or_app; auto|]. intros z J. apply in_app_or in J. destruct J as [J|[<-|[]]]; eauto.
Qed.

Lemma ble_refl' a : ble a a. Proof. unfold ble. rewrite bcmp_refl. discriminate. Qed.
Lemma ble_trans' a b c : ble a b -> ble b c -> ble a c.
Proof.
  unfold ble. intros A B. destruct (bcmp a b) eqn:E1; [apply bcmp_eq in E1; subst; auto| |congruence].
  destruct (bcmp b c) eqn:E2; [apply bcmp_eq in E2; subst; congruence| |congruence].
  rewrite (bcmp_trans _ _ _ E1 E2). discriminate.
Qed.
Lemma bltb_le a b : bltb a b = true -> ble a b.
Proof. unfold bltb, ble. destruct (bcmp a b); congruence. Qed.
Lemma bltb_ge a b : bltb a b = false -> ble b a.
Proof. unfold bltb, ble. rewrite (bcmp_opp a b). destruct (bcmp a b); simpl; congruence. Qed.
Lemma bool_le_refl a : Bool.le a a. Proof. destruct a; simpl; auto. Qed.
Lemma bool_le_trans a b c : Bool.le a b -> Bool.le b c -> Bool.le a c.
Proof. destruct a, b, c; simpl; auto. Qed.

Ltac app_all := rewrite ?ints_app, ?bools_app, ?doubles_app, ?strings_app.

(** MAX and MIN *)
Lemma extreme_step L t max cs p c : type_of p = t ->
  (nulls cs /\ c = null t) \/ (~ nulls cs /\ extreme_is L t max cs c) ->
  exists c', extreme_cell L max p c = Some c' /\
    ((nulls (cs ++ [p]) /\ c' = null t) \/ (~ nulls (cs ++ [p]) /\ extreme_is L t max (cs ++ [p]) c')).
Proof.
  intros TP H.
  assert (TC : type_of c = t).
  { destruct H as [[_ ->]|[_ X]]; [destruct t; auto|]. unfold extreme_is in X. destruct t.
    - destruct X as (x & -> & _). auto.
    - destruct X as (x & -> & _). auto.
    - destruct X as (x & -> & _). auto.
    - destruct X as (x & r & _ & ->). auto.
    - destruct X as (x & -> & _). auto. }
  unfold extreme_cell. rewrite TP, TC. replace (ctype_eqb t t) with true by (destruct t; auto).
  destruct (is_null p) eqn:NP.
  - exists c. split; [auto|]. destruct (null_empty p NP) as (E1 & E2 & E3 & E4).
    rewrite nulls_app. destruct H as [[A B]|[A B]]; [left; auto|right]. split; [tauto|].
    unfold extreme_is in *. app_all. rewrite E1, E2, E3, E4, !app_nil_r. auto.
  - assert (NN : ~ nulls (cs ++ [p])) by (rewrite nulls_app; intros [_ ?]; congruence).
    destruct H as [[A ->]|[A B]].
    + replace (is_null (null t)) with true by (destruct t; auto). exists p. split; [auto|]. right. split; [auto|].
      destruct (nulls_empty cs A) as (E1 & E2 & E3 & E4). unfold extreme_is. app_all. rewrite E1, E2, E3, E4.
      destruct p as [[x|]|[x|]|[x|]|[x|]|[x|]]; try discriminate; simpl in TP; subst t; cbn [ctype_eqb]; simpl.
      * exists x. split; [auto|]. apply largest_one. destruct max; apply bool_le_refl.
      * exists x. split; [auto|]. apply largest_one. destruct max; lia.
      * exists x. split; [auto|]. apply largest_one. destruct max; lia.
      * exists x, []. auto.
      * exists x. split; [auto|]. apply largest_one. destruct max; apply ble_refl'.
    + assert (NC : is_null c = false).
      { unfold extreme_is in B. destruct t.
        - destruct B as (x & -> & _). auto.
        - destruct B as (x & -> & _). auto.
        - destruct B as (x & -> & _). auto.
        - destruct B as (x & r & _ & ->). auto.
        - destruct B as (x & -> & _). auto. }
      rewrite NC.
      exists (if (if max then less_cell L c p else less_cell L p c) then p else c).
      split; [destruct (if max then less_cell L c p else less_cell L p c); auto|]. right. split; [auto|].
      unfold extreme_is in *.
      destruct p as [[y|]|[y|]|[y|]|[y|]|[y|]]; try discriminate; simpl in TP; subst t; cbn [ctype_eqb] in *; app_all.
      * destruct B as (x & -> & B). cbn [less_cell].
        exists (if (if max then negb x && y else negb y && x) then y else x).
        split; [destruct (if max then negb x && y else negb y && x); auto|].
        apply largest_step; auto.
        -- intros a. destruct max; apply bool_le_refl.
        -- intros a b d. destruct max; intros; eapply bool_le_trans; eauto.
        -- destruct max, x, y; simpl; auto; discriminate.
        -- destruct max, x, y; simpl; auto; discriminate.
      * destruct B as (x & -> & B). cbn [less_cell].
        exists (if (if max then x <? y else y <? x) then y else x).
        split; [destruct (if max then x <? y else y <? x); auto|].
        apply largest_step; auto.
        -- intros a. destruct max; lia.
        -- intros a b d. destruct max; lia.
        -- destruct max; intros Q; apply Z.ltb_lt in Q; lia.
        -- destruct max; intros Q; apply Z.ltb_ge in Q; lia.
      * destruct B as (x & -> & B). cbn [less_cell].
        exists (if (if max then x <? y else y <? x) then y else x).
        split; [destruct (if max then x <? y else y <? x); auto|].
        apply largest_step; auto.
        -- intros a. destruct max; lia.
        -- intros a b d. destruct max; lia.
        -- destruct max; intros Q; apply Z.ltb_lt in Q; lia.
        -- destruct max; intros Q; apply Z.ltb_ge in Q; lia.
      * destruct B as (x & r & B & ->). cbn [less_cell]. rewrite B. exists x, (r ++ [y]). split; [auto|].
        rewrite fold_left_app. cbn [fold_left].
        match goal with |- (if ?b then _ else _) = _ => destruct b end; auto.
      * destruct B as (x & -> & B). cbn [less_cell].
        exists (if (if max then bltb x y else bltb y x) then y else x).
        split; [destruct (if max then bltb x y else bltb y x); auto|].
        apply largest_step; auto.
        -- intros a. destruct max; apply ble_refl'.
        -- intros a b d. destruct max; intros; eapply ble_trans'; eauto.
        -- destruct max; apply bltb_le.
        -- destruct max; apply bltb_ge.
Qed.

Lemma count_step (all : bool) t cs p n : all = true \/ type_of p = t ->
  n = Z.of_nat (length (if all then cs else filter non_null cs)) ->
  count_cell all t p (CLong (Some n)) =
  Some (CLong (Some (Z.of_nat (length (if all then cs ++ [p] else filter non_null (cs ++ [p])))))).
Proof.
  intros T ->. unfold count_cell. destruct all; simpl.
  - rewrite app_length. simpl. do 3 f_equal. lia.
  - destruct T as [T|T]; [discriminate|]. rewrite T. replace (ctype_eqb t t) with true by (destruct t; auto).
    rewrite filter_app, app_length. simpl. rewrite non_null_is. destruct (is_null p); simpl; do 3 f_equal; lia.
Qed.

Lemma fits_int32 z : fits TyInt z -> in_int32 z = true.
Proof. unfold fits, in_int32. intros H. apply andb_true_iff. split; [apply Z.leb_le|apply Z.ltb_lt]; lia. Qed.
Lemma fits_int64 z : fits TyLong z -> in_int64 z = true.
Proof. unfold fits, in_int64. intros H. apply andb_true_iff. split; [apply Z.leb_le|apply Z.ltb_lt]; lia. Qed.

Lemma existsb_app1 l (y : bool) : existsb (fun b => b) (l ++ [y]) = orb (existsb (fun b => b) l) y.
Proof. rewrite existsb_app. simpl. rewrite orb_false_r. auto. Qed.

Lemma sum_step L op t cs p c : op = OSum \/ op = OSum0 -> t <> TyStr -> type_of p = t ->
  fits t (sum (ints (cs ++ [p]))) ->
  aggregate_is L op t cs c ->
  exists c', add_cell L p c = Ok (Some c') /\ aggregate_is L op t (cs ++ [p]) c'.
Proof.
  intros OP NS TP FT H.
  assert (TC : type_of c = t).
  { destruct OP; subst op; simpl in H; destruct t; try congruence;
      repeat match goal with
             | H : _ \/ _ |- _ => destruct H
             | H : _ /\ _ |- _ => destruct H
             | H : exists _, _ |- _ => destruct H
             end; subst; auto. }
  destruct (is_null p) eqn:NP.
  - exists c. split.
    + destruct p as [[x|]|[x|]|[x|]|[x|]|[x|]]; try discriminate; simpl in TP; subst t;
        destruct c; simpl in TC; try discriminate; auto. congruence.
    + destruct (null_empty p NP) as (E1 & E2 & E3 & E4).
      destruct OP; subst op; cbn [aggregate_is] in *.
      * rewrite nulls_app. app_all. rewrite E1, E2, E3, !app_nil_r. tauto.
      * app_all. rewrite E1, E2, E3, !app_nil_r. auto.
  - assert (NN : ~ nulls (cs ++ [p])) by (rewrite nulls_app; intros [_ ?]; congruence).
    rewrite ints_app, sum_app in FT.
    destruct OP; subst op; cbn [aggregate_is] in H |- *.
    + destruct H as [[A ->]|[A B]].
      * exists p. destruct (nulls_empty cs A) as (E1 & E2 & E3 & E4).
        destruct p as [[x|]|[x|]|[x|]|[x|]|[x|]]; try discriminate; simpl in TP; subst t; try congruence;
          (split; [reflexivity|right; split; [exact NN|]]); app_all; rewrite ?E1, ?E2, ?E3; simpl.
        -- rewrite orb_false_r. auto.
        -- do 2 f_equal. lia.
        -- do 2 f_equal. lia.
        -- exists x, []. auto.
      * destruct p as [[y|]|[y|]|[y|]|[y|]|[y|]]; try discriminate; simpl in TP; subst t; try congruence; app_all.
        -- subst c. simpl. eexists. split; [reflexivity|right; split; [exact NN|]]. rewrite existsb_app1. auto.
        -- subst c. cbn [add_cell]. cbn [ints flat_map app sum fold_right] in FT. rewrite Z.add_0_r in FT.
           rewrite (fits_int32 _ FT). eexists. split; [reflexivity|right; split; [exact NN|]].
           rewrite sum_app. simpl. do 2 f_equal. lia.
        -- subst c. cbn [add_cell]. cbn [ints flat_map app sum fold_right] in FT. rewrite Z.add_0_r in FT.
           rewrite (fits_int64 _ FT). eexists. split; [reflexivity|right; split; [exact NN|]].
           rewrite sum_app. simpl. do 2 f_equal. lia.
        -- destruct B as (x & r & B & ->). cbn [add_cell]. eexists. split; [reflexivity|right; split; [exact NN|]].
           rewrite B. exists x, (r ++ [y]). split; [auto|]. rewrite fold_left_app. auto.
    + destruct p as [[y|]|[y|]|[y|]|[y|]|[y|]]; try discriminate; simpl in TP; subst t; try congruence; app_all; subst c.
      * simpl. eexists. split; [reflexivity|]. rewrite existsb_app1. auto.
      * cbn [add_cell]. cbn [ints flat_map app sum fold_right] in FT. rewrite Z.add_0_r in FT.
        rewrite (fits_int32 _ FT). eexists. split; [reflexivity|]. rewrite sum_app. simpl. do 2 f_equal. lia.
      * cbn [add_cell]. cbn [ints flat_map app sum fold_right] in FT. rewrite Z.add_0_r in FT.
        rewrite (fits_int64 _ FT). eexists. split; [reflexivity|]. rewrite sum_app. simpl. do 2 f_equal. lia.
      * cbn [add_cell]. eexists. split; [reflexivity|]. rewrite fold_left_app. auto.
Qed.

(** what an operator needs of the next value *)
Definition value_ok (op : oper) (pt t : ctype) (cs : list cell) (p : cell) : Prop :=
  type_of p = pt /\
  match op with
  | OSum | OSum0 => pt = t /\ t <> TyStr /\ fits t (sum (ints (cs ++ [p])))
  | OMax | OMin => pt = t
  | OCount | OCountNull => t = TyLong
  end.

Lemma apply_step L op pt t cs p c : value_ok op pt t cs p -> aggregate_is L op t cs c ->
  exists c', apply_fun L (mkFun op pt t) p c = Ok (Some c') /\ aggregate_is L op t (cs ++ [p]) c'.
Proof.
  intros (TP & V) H. unfold apply_fun. cbn [f_op f_col f_res]. destruct op.
  - destruct V as (-> & NS & FT). apply (sum_step L OSum t cs p c); auto.
  - destruct V as (-> & NS & FT). apply (sum_step L OSum0 t cs p c); auto.
  - simpl in H. subst c. rewrite (count_step false pt cs p _ (or_intror TP) eq_refl). eexists. split; [reflexivity|]. reflexivity.
  - simpl in H. subst c. rewrite (count_step true pt cs p _ (or_introl eq_refl) eq_refl). eexists. split; [reflexivity|]. reflexivity.
  - subst pt. destruct (extreme_step L t true cs p c V H) as (c' & E & X). exists c'. rewrite E. auto.
  - subst pt. destruct (extreme_step L t false cs p c V H) as (c' & E & X). exists c'. rewrite E. auto.
Qed.

Lemma start_is L o t : (match op_of o with OSum0 => t <> TyStr | OCount | OCountNull => t = TyLong | _ => True end) ->
  aggregate_is L (op_of o) t [] (start_cell L (fst o) t).
Proof.
  destruct o as [op i]. unfold op_of. cbn [fst].
  destruct op; simpl; intros H.
  - left. split; [apply nulls_nil|]. destruct t; auto.
  - destruct t; auto.
  - destruct (i =? -1); simpl in *; subst t; auto.
  - subst t. auto.
  - left. split; [apply nulls_nil|]. destruct t; auto.
  - left. split; [apply nulls_nil|]. destruct t; auto.
Qed.
