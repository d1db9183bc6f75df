(** Concrete scan sessions. *)
From Coq Require Import ZArith List Bool Lia Sorted.
From Verif Require Import Bytes Outcome CodecModel CodecSpec MvccModel MvccSpec MvccProofs SessModel SessSpec.
Import ListNotations.
Open Scope Z_scope.

Definition put (k : Z) (t : Z) : version := {| vkey := [k]; vts := t; vflag := kPut; vttl := 0; vval := [k; t] |}.
Definition del (k : Z) (t : Z) : version := {| vkey := [k]; vts := t; vflag := kDelete; vttl := 0; vval := [] |}.

(** five keys, one of them deleted *)
Definition vs1 : list version := [put 97 10; put 98 12; put 98 11; del 99 13; put 99 9; put 100 10; put 101 10].
(** later: everything deleted *)
Definition vs2 : list version := [del 97 20; put 97 10; del 98 20; put 98 12; put 98 11; del 99 13; put 99 9; del 100 20; put 100 10; del 101 20; put 101 10].
Definition st1 : store := map enc vs1.
Definition st2 : store := map enc vs2.

Ltac sorted := repeat (apply SSorted_cons; [|repeat (apply Forall_cons; [vm_compute; reflexivity|]); apply Forall_nil]); apply SSorted_nil.
Ltac versions := repeat (apply Forall_cons; [repeat split; try (vm_compute; congruence); repeat (apply Forall_cons; [cbv; split; congruence|]); try apply Forall_nil; discriminate|]); apply Forall_nil.

Lemma st1_ok : store_ok st1.
Proof. exists vs1. apply enc_represents; [versions|sorted]. Qed.
Lemma st2_ok : store_ok st2.
Proof. exists vs2. apply enc_represents; [versions|sorted]. Qed.

Definition g0 : cfg := {| c_timeout := 100; c_bytes := 1000; c_count := 3 |}.

Definition b0 : begin_req :=
  {| b_id := 7; b_start := [97]; b_end := [110]; b_ts := 15; b_max := 1; b_key_only := false; b_no_auto := false |}.

(** Begin with a page of one, everything is deleted, two pages follow. *)
Definition script : list action :=
  [Arrive (RBegin b0); Go 0 false; Go 0 false; Go 0 false;
   Clock 1050; Write st2; Clean [];
   Arrive (RContinue 7 2); Go 1 false; Go 1 false;
   Clock 1100; Clean [];
   Arrive (RContinue 7 2); Go 2 false; Go 2 false].

Lemma script_ok : Forall action_ok script.
Proof.
  repeat (apply Forall_cons; [cbn [action_ok]; try exact Logic.I|]); try apply Forall_nil; try apply st2_ok;
    try (split; [repeat constructor; cbv; congruence|split; [repeat constructor; cbv; congruence|]]);
    unfold int64; try (cbv; split; congruence).
Qed.

Lemma script_clock : clock_forward 1000 script.
Proof. cbn. lia. Qed.

Notation final := (run g0 (init 1000 st1) script).

Notation answers s := (option_map s_log s).

Lemma script_answers : answers final = Some
  [(1000, EBegin 0 b0 st1 [([97], [97; 10])]);
   (1050, EPage 0 7 2 [([98], [98; 12]); ([100], [100; 10])] true);
   (1100, EPage 0 7 2 [([101], [101; 10])] false)].
Proof. vm_compute. reflexivity. Qed.

(** Then the session is released. *)
Definition script_rel : list action := script ++ [Arrive (RRelease 7); Go 3 false; Go 3 false; Go 3 true].
Lemma script_rel_answers : exists s s', run g0 (init 1000 st1) script_rel = Some s /\ quiet s /\ released 7 (s_log s) /\
  find_scan 7 (s_alive s) = Some 0%nat /\
  step g0 s (Clean []) = Some s' /\ find_scan 7 (s_alive s') = None.
Proof.
  eexists. eexists. split; [vm_compute; reflexivity|]. split; [repeat constructor|].
  split; [exists 1100, 0%nat; cbn; tauto|]. split; [reflexivity|]. split; [vm_compute; reflexivity|reflexivity].
Qed.

(** ** Version 2: two clients choose the same id *)

Definition b1 : begin_req :=
  {| b_id := 7; b_start := [97]; b_end := [99]; b_ts := 15; b_max := 1; b_key_only := false; b_no_auto := false |}.
Definition b2 : begin_req :=
  {| b_id := 7; b_start := [100]; b_end := [110]; b_ts := 15; b_max := 0; b_key_only := false; b_no_auto := false |}.

Definition script_two : list action :=
  [Arrive (RBegin b1); Go 0 false; Go 0 false; Go 0 false;
   Clock 1200; Clean [];
   Arrive (RBegin b2); Go 1 false; Go 1 false; Go 1 false;
   Arrive (RContinue 7 2); Go 2 false; Go 2 false].

Lemma script_two_ok : Forall action_ok script_two.
Proof.
  repeat (apply Forall_cons; [cbn [action_ok]; try exact Logic.I|]); try apply Forall_nil;
    try (split; [repeat constructor; cbv; congruence|split; [repeat constructor; cbv; congruence|]]);
    unfold int64; try (cbv; split; congruence).
Qed.

Lemma script_two_answers : answers (run g0 (init 1000 st1) script_two) = Some
  [(1000, EBegin 0 b1 st1 [([97], [97; 10])]);
   (1200, EBegin 1 b2 st1 []);
   (1200, EPage 1 7 2 [([100], [100; 10]); ([101], [101; 10])] true)].
Proof. vm_compute. reflexivity. Qed.

(** ** A negative page size *)

Definition script_neg : list action :=
  [Arrive (RBegin b0); Go 0 false; Go 0 false; Go 0 false; Arrive (RContinue 7 (-1)); Go 1 false; Go 1 false].
Definition g1 : cfg := {| c_timeout := 100; c_bytes := 1000; c_count := 2 |}.

Lemma script_neg_ok : Forall action_ok script_neg.
Proof.
  repeat (apply Forall_cons; [cbn [action_ok]; try exact Logic.I|]); try apply Forall_nil;
    try (split; [repeat constructor; cbv; congruence|split; [repeat constructor; cbv; congruence|]]);
    unfold int64; try (cbv; split; congruence).
Qed.

Lemma script_neg_answers : answers (run g1 (init 1000 st1) script_neg) = Some
  [(1000, EBegin 0 b0 st1 [([97], [97; 10])]);
   (1000, EPage 0 7 (-1) [([98], [98; 12]); ([100], [100; 10]); ([101], [101; 10])] false)].
Proof. vm_compute. reflexivity. Qed.

(** ** A stale request of another session takes the new one away (version 2) *)

(** The first session has timed out while a Continue on it is under way; the id is
    begun again; the failing Continue then removes the new session. *)
Definition script_stale : list action :=
  [Arrive (RBegin b1); Go 0 false; Go 0 false; Go 0 false;
   Arrive (RContinue 7 2); Go 1 false;
   Clock 1200; Clean [];
   Arrive (RBegin b2); Go 2 false; Go 2 false; Go 2 false;
   Go 1 false; Go 1 false;
   Arrive (RContinue 7 2); Go 3 false].

Lemma script_stale_answers : answers (run g0 (init 1000 st1) script_stale) = Some
  [(1000, EBegin 0 b1 st1 [([97], [97; 10])]);
   (1200, EBegin 1 b2 st1 []); (1200, EFailed 7); (1200, EFailed 7)].
Proof. vm_compute. reflexivity. Qed.
Lemma script_stale_ok : Forall action_ok script_stale.
Proof.
  repeat (apply Forall_cons; [cbn [action_ok]; try exact Logic.I|]); try apply Forall_nil;
    try (split; [repeat constructor; cbv; congruence|split; [repeat constructor; cbv; congruence|]]);
    unfold int64; try (cbv; split; congruence).
Qed.
Lemma Some_inj {A} (a b : A) : Some a = Some b -> a = b.
Proof. congruence. Qed.
Lemma b1_excludes : ~ in_range (b_start b1, b_end b1) (fst ([100], [100; 10])).
Proof. intros [_ H]. vm_compute in H. discriminate. Qed.
