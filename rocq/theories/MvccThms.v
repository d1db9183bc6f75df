(** Theorems C05-C07: reads of the multi-version store. *)
From Coq Require Import ZArith List Bool Sorted.
From Verif Require Import Bytes Outcome CodecModel CodecSpec MvccModel MvccSpec MvccProofs.
Import ListNotations.
Open Scope Z_scope.

(** An example store: "a" put at 5 and 20, "b" put at 7 and deleted at 9, "c" with an expiry
    time, "d" put at 30. *)
Definition ex_vs : list version :=
  [ {| vkey := [97]; vts := 20; vflag := kPut; vttl := 0; vval := [2] |};
    {| vkey := [97]; vts := 5; vflag := kPut; vttl := 0; vval := [1] |};
    {| vkey := [98]; vts := 9; vflag := kDelete; vttl := 0; vval := [] |};
    {| vkey := [98]; vts := 7; vflag := kPut; vttl := 0; vval := [3] |};
    {| vkey := [99]; vts := 6; vflag := kPutTTL; vttl := 1000; vval := [4] |};
    {| vkey := [100]; vts := 30; vflag := kPut; vttl := 0; vval := [5] |} ].
Definition ex_st : store :=
  map (fun v => (match encode_key (vkey v) (vts v) with Ok k => k | Crash => [] end,
                 package_value (vflag v) (vttl v) (vval v))) ex_vs.
Example ex_represents : represents ex_st ex_vs.
Proof.
  split; [|split].
  - repeat (constructor; [|repeat constructor; vm_compute; reflexivity]). constructor.
  - repeat constructor; vm_compute; try (intros; discriminate); reflexivity.
  - repeat constructor.
Qed.

(** ** C05 *)
Theorem C05_get st vs ts now k : represents st vs -> bytes_ok k -> k <> [] ->
  (forall v, visible vs k ts now v -> kv_get st ts now k = Ok (ROk (vval v))) /\
  ((forall v, ~ visible vs k ts now v) -> kv_get st ts now k = Ok RNotFound).
Proof. exact (kv_get_spec st vs ts now k). Qed.
Print Assumptions C05_get.

Theorem C05_get_total st vs ts now k : represents st vs -> bytes_ok k -> k <> [] ->
  (exists v, visible vs k ts now v /\ kv_get st ts now k = Ok (ROk (vval v))) \/
  ((forall v, ~ visible vs k ts now v) /\ kv_get st ts now k = Ok RNotFound).
Proof. exact (kv_get_total st vs ts now k). Qed.
Print Assumptions C05_get_total.

Theorem C05_get_empty_key st ts now : kv_get st ts now [] = Ok RKeyEmpty.
Proof. exact eq_refl. Qed.
Print Assumptions C05_get_empty_key.

Example C05_example :
  kv_get ex_st 19 500 [97] = Ok (ROk [1]) /\ kv_get ex_st 20 500 [97] = Ok (ROk [2]) /\
  kv_get ex_st 8 500 [98] = Ok (ROk [3]) /\ kv_get ex_st 9 500 [98] = Ok RNotFound /\
  kv_get ex_st 0 1000 [99] = Ok (ROk [4]) /\ kv_get ex_st 0 1001 [99] = Ok RNotFound /\
  kv_get ex_st 0 500 [100] = Ok (ROk [5]) /\ kv_get ex_st 29 500 [100] = Ok RNotFound.
Proof. vm_compute. repeat split. Qed.

(** ** C06 *)
Theorem C06_scan st vs ts now a b : represents st vs -> bytes_ok a -> bytes_ok b -> a <> [] -> b <> [] ->
  exists l, snapshot_of vs ts now a b l /\
    kv_scan st ts now a b = Ok (ROk (map kv_of l)) /\
    kv_count st ts now a b = Ok (ROk (Z.of_nat (length l))) /\
    (forall p, kv_min_key st ts now a b p = Ok (ROk (hd p (map vkey l)))) /\
    (forall S f s, @kv_scan_func S f s st ts now a b = Ok (ROk (fold_stop f s l))).
Proof. exact (scan_forward st vs ts now a b). Qed.
Print Assumptions C06_scan.

Theorem C06_get_agrees_with_scan st vs ts now a b k x :
  represents st vs -> bytes_ok a -> bytes_ok b -> bytes_ok k ->
  a <> [] -> b <> [] -> k <> [] -> in_range (a, b) k ->
  (kv_get st ts now k = Ok (ROk x) <->
   exists l t, kv_scan st ts now a b = Ok (ROk l) /\ In (k, t, x) l).
Proof. exact (get_scan st vs ts now a b k x). Qed.
Print Assumptions C06_get_agrees_with_scan.

Theorem C06_empty_bounds st ts now a b : a = [] \/ b = [] ->
  kv_scan st ts now a b = Ok RKeyEmpty /\ kv_count st ts now a b = Ok RKeyEmpty.
Proof. exact (scan_empty_bounds st ts now a b). Qed.
Print Assumptions C06_empty_bounds.

Example C06_example :
  kv_scan ex_st 10 500 [97] [100; 1] = Ok (ROk [([97], 5, [1]); ([99], 6, [4])]) /\
  kv_count ex_st 8 500 [97] [99] = Ok (ROk 2) /\
  kv_min_key ex_st 10 500 [98] [101] [] = Ok (ROk [99]).
Proof. vm_compute. repeat split. Qed.

(** ** C07 *)
Theorem C07_reverse st vs ts now a b : represents st vs -> bytes_ok a -> bytes_ok b -> a <> [] -> b <> [] ->
  exists l, forward_entries st ts now a b = Ok l /\ reverse_entries st ts now a b = Ok (rev l) /\
    exists vl, snapshot_of vs ts now a b vl /\ omap_list kv_of_entry l = Ok (map kv_of vl).
Proof. exact (scan_reverse st vs ts now a b). Qed.
Print Assumptions C07_reverse.

Theorem C07_max_key st vs ts now a b p : represents st vs -> bytes_ok a -> bytes_ok b -> a <> [] -> b <> [] ->
  exists l, snapshot_of vs ts now a b l /\ kv_max_key st ts now a b p = Ok (ROk (last (map vkey l) p)).
Proof. exact (scan_max st vs ts now a b p). Qed.
Print Assumptions C07_max_key.

Example C07_example :
  kv_max_key ex_st 29 500 [97] [101] [] = Ok (ROk [99]) /\
  kv_max_key ex_st 29 1500 [97] [101] [] = Ok (ROk [97]) /\
  omap (@length _) (reverse_entries ex_st 8 500 [97] [101]) = Ok 3%nat.
Proof. vm_compute. repeat split. Qed.
