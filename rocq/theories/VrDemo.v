(** A concrete serialization, a flat index and a region with some history. *)
From Coq Require Import ZArith List Lia Bool Sorted Permutation PeanoNat ZifyNat ZifyBool.
From Verif Require Import Bytes SMap Outcome CodecModel CodecSpec MvccModel MvccSpec RawModel VqModel VqSpec VrModel VrSpec VrProofs5.
Import ListNotations.
Open Scope Z_scope.

(** ** serialization: counted lists; what is empty serializes to the empty string, as in protobuf *)
Definition code (t : ftype) : Z :=
  match t with TNone => 0 | TBool => 1 | TInt8 => 2 | TInt16 => 3 | TInt32 => 4 | TInt64 => 5 | TFloat => 6
             | TDouble => 7 | TString => 8 | TBytes => 9 | TDatetime => 10 end.
Definition uncode (z : Z) : ftype :=
  match z with 1 => TBool | 2 => TInt8 | 3 => TInt16 | 4 => TInt32 | 5 => TInt64 | 6 => TFloat
             | 7 => TDouble | 8 => TString | 9 => TBytes | 10 => TDatetime | _ => TNone end.
Definition e_bytes (s : bytes) : bytes := Z.of_nat (length s) :: s.
Definition e_field (f : field) : bytes :=
  match f with
  | FNone => [0] | FBool b => [1; if b then 1 else 0] | FInt z => [2; z] | FLong z => [3; z] | FFloat z => [4; z]
  | FDouble z => [5; z] | FString s => 6 :: e_bytes s | FBytes s => 7 :: e_bytes s
  end.
Definition e_val (v : sval) : bytes :=
  code (s_type v) :: Z.of_nat (length (s_fields v)) :: flat_map e_field (s_fields v).
Definition e_pair (kv : bytes * sval) : bytes := e_bytes (fst kv) ++ e_val (snd kv).
Definition e_map (m : scalars) : bytes := match m with [] => [] | _ => Z.of_nat (length m) :: flat_map e_pair m end.

Definition parser A := bytes -> option (A * bytes).
Definition p_bytes : parser bytes := fun l =>
  match l with [] => None | n :: r => Some (firstn (Z.to_nat n) r, skipn (Z.to_nat n) r) end.
Definition p_field : parser field := fun l =>
  match l with
  | 0 :: r => Some (FNone, r)
  | 1 :: b :: r => Some (FBool (b =? 1), r)
  | 2 :: z :: r => Some (FInt z, r)
  | 3 :: z :: r => Some (FLong z, r)
  | 4 :: z :: r => Some (FFloat z, r)
  | 5 :: z :: r => Some (FDouble z, r)
  | 6 :: r => match p_bytes r with Some (s, r') => Some (FString s, r') | None => None end
  | 7 :: r => match p_bytes r with Some (s, r') => Some (FBytes s, r') | None => None end
  | _ => None
  end.
Fixpoint p_times {A} (p : parser A) (n : nat) (l : bytes) : option (list A * bytes) :=
  match n with
  | O => Some ([], l)
  | S n' => match p l with
            | None => None
            | Some (a, r) => match p_times p n' r with Some (x, r') => Some (a :: x, r') | None => None end
            end
  end.
Definition p_val : parser sval := fun l =>
  match l with
  | t :: n :: r => match p_times p_field (Z.to_nat n) r with Some (fs, r') => Some (mkS (uncode t) fs, r') | None => None end
  | _ => None
  end.
Definition p_pair : parser (bytes * sval) := fun l =>
  match p_bytes l with
  | Some (k, r) => match p_val r with Some (v, r') => Some ((k, v), r') | None => None end
  | None => None
  end.
Definition p_map (l : bytes) : option scalars :=
  match l with [] => Some [] | n :: r => option_map fst (p_times p_pair (Z.to_nat n) r) end.

Definition W0 : wire := {|
  ser_vec := fun d => d;     par_vec := Some;
  ser_map := e_map;          par_map := p_map;
  ser_tab := fun b => b;     par_tab := Some;
  ser_val := e_val;          par_val := fun l => option_map fst (p_val l) |}.

Lemma p_bytes_ok s r : p_bytes (e_bytes s ++ r) = Some (s, r).
Proof.
  unfold p_bytes, e_bytes. cbn [app]. rewrite Nat2Z.id.
  rewrite firstn_app, skipn_app, Nat.sub_diag, firstn_all, skipn_all. cbn. rewrite app_nil_r. auto.
Qed.
Lemma p_field_ok f r : p_field (e_field f ++ r) = Some (f, r).
Proof.
  destruct f as [|[]| | | | |s|s]; auto.
  - change (p_field (e_field (FString s) ++ r)) with (match p_bytes (e_bytes s ++ r) with Some (s, r') => Some (FString s, r') | None => None end).
    rewrite p_bytes_ok. auto.
  - change (p_field (e_field (FBytes s) ++ r)) with (match p_bytes (e_bytes s ++ r) with Some (s, r') => Some (FBytes s, r') | None => None end).
    rewrite p_bytes_ok. auto.
Qed.
Lemma p_times_ok {A} (p : parser A) (e : A -> bytes) : (forall a r, p (e a ++ r) = Some (a, r)) ->
  forall l r, p_times p (length l) (flat_map e l ++ r) = Some (l, r).
Proof.
  intros H. induction l as [|a l IH]; intros r; auto. cbn [length p_times flat_map]. rewrite <- app_assoc, H, IH. auto.
Qed.
Lemma p_val_ok v r : p_val (e_val v ++ r) = Some (v, r).
Proof.
  destruct v as [t fs]. unfold p_val, e_val. cbn [app s_type s_fields]. rewrite Nat2Z.id.
  rewrite (p_times_ok p_field e_field p_field_ok). destruct t; auto.
Qed.
Lemma p_pair_ok kv r : p_pair (e_pair kv ++ r) = Some (kv, r).
Proof. destruct kv as [k v]. unfold p_pair, e_pair. cbn [fst snd]. rewrite <- app_assoc, p_bytes_ok, p_val_ok. auto. Qed.
Lemma W0_ok : wire_ok W0.
Proof.
  split; [|split; [|split]]; auto.
  - intros [|kv m]; auto. cbn [ser_map par_map W0 e_map p_map]. rewrite Nat2Z.id.
    rewrite <- (app_nil_r (flat_map e_pair (kv :: m))), (p_times_ok p_pair e_pair p_pair_ok). auto.
  - intros v. cbn [ser_val par_val W0]. rewrite <- (app_nil_r (e_val v)), p_val_ok. auto.
Qed.

(** ** a flat index *)
Fixpoint hit_insert (x : hit) (l : list hit) : list hit :=
  match l with [] => [x] | y :: r => if snd x <=? snd y then x :: l else y :: hit_insert x r end.
Definition hit_sort (l : list hit) : list hit := fold_right hit_insert [] l.
Definition flat0 (dist : list Z -> list Z -> Z) : flat_search := fun batch q keep k =>
  firstn k (hit_sort (map (fun x => (fst x, dist q (snd x))) (filter (fun x => keep (fst x)) batch))).

Lemma hit_insert_perm x l : Permutation (hit_insert x l) (x :: l).
Proof. induction l as [|y r IH]; cbn [hit_insert]; auto. destruct (snd x <=? snd y); auto. rewrite IH. apply perm_swap. Qed.
Lemma hit_sort_perm l : Permutation (hit_sort l) l.
Proof. induction l as [|x l IH]; cbn; auto. rewrite hit_insert_perm. auto. Qed.
Lemma hit_sort_sorted l : nearest_first (hit_sort l).
Proof.
  unfold nearest_first. induction l as [|x l IH]; cbn [hit_sort fold_right]; [constructor|]. fold (hit_sort l).
  induction IH as [|y r S1 IH F]; cbn [hit_insert]; [constructor; constructor|]. destruct (Z.leb_spec (snd x) (snd y)).
  - constructor; [constructor; auto|]. constructor; auto. eapply Forall_impl; [|exact F]. cbv beta. lia.
  - constructor; auto. eapply Permutation_Forall; [symmetry; apply hit_insert_perm|]. constructor; auto. lia.
Qed.
Lemma flat0_ok dist : flat_ok dist (flat0 dist).
Proof.
  intros batch q keep k. unfold flat0. set (l := map _ _). split; [|split].
  - rewrite firstn_length, (Permutation_length (hit_sort_perm l)). auto.
  - apply sorted_firstn. apply hit_sort_sorted.
  - exists (skipn k (hit_sort l)). split; [rewrite firstn_skipn; apply hit_sort_perm|].
    intros x y. apply (sorted_cut (fun x y : hit => snd x <= snd y)). apply hit_sort_sorted.
Qed.

(** sum of the absolute differences *)
Fixpoint dist0 (q d : list Z) : Z :=
  match q, d with x :: q', y :: d' => Z.abs (x - y) + dist0 q' d' | _, _ => 0 end.

(** ** a region *)
Definition color : bytes := [99].
Definition size : bytes := [115].
Definition g0 : region :=
  mkG [119; 0; 0; 0; 0; 0; 0; 0; 5] [119; 0; 0; 0; 0; 0; 0; 0; 6] 5 [mkF color TString true; mkF size TInt64 false].
Definition lit (s : bytes) : sval := mkS TString [FString s].
Definition num (z : Z) : sval := mkS TInt64 [FLong z].
Definition vec0 (i x : Z) (c : bytes) : vec := mkV i [x; 0] [(color, lit c); (size, num x)] [1; i].
Definition red : bytes := [114].
Definition blue : bytes := [98].
(** 1..4 are added; 2 changes color; 3 is deleted; 5 expires at time 100 *)
Definition h0 : list op :=
  [ OAdd 10 0 [vec0 1 10 red; vec0 2 20 red; vec0 3 30 blue; vec0 4 40 blue];
    OAdd 20 0 [vec0 2 25 blue]; ODel 30 [3]; OAdd 40 100 [vec0 5 50 blue] ].
Definition c0 : cfs := match apply_ops W0 g0 h0 with Ok c => c | Crash => cfs0 end.

Lemma serves0 : serves g0 119 5 0 (2 ^ 63 - 1).
Proof.
  split; [unfold comp_ok; lia|]. split; auto. split; [left; split; auto; vm_compute; auto|].
  right. exists 6. split; [lia|]. split; auto.
Qed.
Lemma schema0 : schema_ok (g_schema g0).
Proof.
  split.
  - cbn. constructor; [cbn; intros [E|[]]; discriminate|]. constructor; [intros []|constructor].
  - cbn. intros f [<-|[<-|[]]]; split; try discriminate; repeat constructor; unfold byte_ok; lia.
Qed.
Lemma vec0_ok ttl i x c : 1 <= i < 2 ^ 63 - 1 -> vec_ok W0 (g_schema g0) ttl (vec0 i x c).
Proof.
  intros I. split; auto. split; auto. intros _. split; [discriminate|]. split; [discriminate|]. split; [discriminate|].
  intros k y _. discriminate.
Qed.
Lemma h0_ok : Forall (op_ok W0 (g_schema g0)) h0.
Proof.
  assert (P: 2 ^ 63 = 9223372036854775808) by reflexivity.
  assert (T: forall t, 0 < t < 100 -> ts_ok t) by (intros t H; unfold ts_ok; lia).
  unfold h0. apply Forall_cons; [|apply Forall_cons; [|apply Forall_cons; [|apply Forall_cons; [|constructor]]]].
  - split; [apply T; lia|]. split; [lia|]. repeat (apply Forall_cons; [apply vec0_ok; lia|]). constructor.
  - split; [apply T; lia|]. split; [lia|]. repeat (apply Forall_cons; [apply vec0_ok; lia|]). constructor.
  - split; [apply T; lia|]. apply Forall_cons; [lia|constructor].
  - split; [apply T; lia|]. split; [lia|]. repeat (apply Forall_cons; [apply vec0_ok; lia|]). constructor.
Qed.
Lemma c0_ok : apply_ops W0 g0 h0 = Ok c0.
Proof. vm_compute. reflexivity. Qed.
Lemma state0 : region_state W0 g0 0 (2 ^ 63 - 1) h0 c0.
Proof.
  split; [apply W0_ok|]. split; [apply schema0|]. split; [exists 119, 5; apply serves0|]. split; [apply h0_ok|apply c0_ok].
Qed.
Lemma typed0 i x c : all_typed (v_scalar (vec0 i x c)).
Proof.
  intros k y I. cbn in I. destruct I as [E|[E|[]]]; apply (f_equal snd) in E; cbn [snd] in E; subst y;
    (split; [discriminate|]; split; [discriminate|]; repeat constructor).
Qed.
Lemma h0_typed : typed_history h0.
Proof.
  intros ts ttl vs v I1 I2. unfold h0 in I1. cbn [In] in I1.
  destruct I1 as [E|[E|[E|[E|[]]]]]; inversion E; subst; cbn [In] in I2;
    repeat match goal with H : _ \/ _ |- _ => destruct H end; subst; try contradiction; apply typed0.
Qed.
Definition blue_filter : scalars := [(color, lit blue)].
Lemma blue_typed : all_typed blue_filter.
Proof.
  intros k y I. cbn in I. destruct I as [E|[]]. apply (f_equal snd) in E. cbn [snd] in E. subst y.
  split; [discriminate|]. split; [discriminate|]. repeat constructor.
Qed.

(** twelve vectors, the farthest is the only red one *)
Definition h1 : list op :=
  [ OAdd 10 0 (map (fun i => vec0 i (10 * i) (if i =? 12 then red else blue)) [1; 2; 3; 4; 5; 6; 7; 8; 9; 10; 11; 12]) ].
Definition c1 : cfs := match apply_ops W0 g0 h1 with Ok c => c | Crash => cfs0 end.
Lemma h1_ok : Forall (op_ok W0 (g_schema g0)) h1.
Proof.
  assert (P: 2 ^ 63 = 9223372036854775808) by reflexivity.
  constructor; [|constructor]. split; [unfold ts_ok; lia|]. split; [lia|].
  rewrite Forall_map. repeat (constructor; [apply vec0_ok; lia|]). constructor.
Qed.
Lemma state1 : region_state W0 g0 0 (2 ^ 63 - 1) h1 c1.
Proof.
  split; [apply W0_ok|]. split; [apply schema0|]. split; [exists 119, 5; apply serves0|]. split; [apply h1_ok|vm_compute; reflexivity].
Qed.
Lemma h1_typed : typed_history h1.
Proof.
  intros ts ttl vs v I1 I2. destruct I1 as [E|[]]. inversion E; subst. cbn [In] in I2.
  repeat match goal with H : _ \/ _ |- _ => destruct H end; subst; try contradiction; apply typed0.
Qed.
Definition red_filter : scalars := [(color, lit red)].
Lemma red_typed : all_typed red_filter.
Proof.
  intros k y I. cbn in I. destruct I as [E|[]]. apply (f_equal snd) in E. cbn [snd] in E. subst y.
  split; [discriminate|]. split; [discriminate|]. repeat constructor.
Qed.
Lemma h1_stored : stored h1 0 0 12 (vec0 12 120 red).
Proof.
  exists 10, 0. split; [vm_compute; discriminate|]. split; [|split; [auto|]].
  - exists (firstn 11 (events h1)), []. split; [reflexivity|]. intros y [].
  - intros t' x L _. apply VrProofs1.last_at_in in L. unfold h1, events in L. cbn [flat_map events_of app] in L.
    rewrite app_nil_r in L. apply in_map_iff in L. destruct L as (v & E & _). assert (t' = 10) by congruence. lia.
Qed.

(** a vector with an expiry time and without table data *)
Definition h2 : list op := [ OAdd 10 100 [mkV 1 [10; 0] [(color, lit red)] []] ].
(** an attribute of type DATETIME *)
Definition dg : region := mkG (g_start g0) (g_end g0) 5 [].
Definition stamp : sval := mkS TDatetime [FLong 5].
Definition h3 : list op := [ OAdd 10 0 [mkV 1 [10; 0] [(size, stamp)] []] ].
