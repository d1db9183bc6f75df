(** Model of automatic splits and merges: the merged iterator over column families, the three
    split policies, the split check and what precedes it, the merge check and what precedes it.
    Sources: src/split/split_checker.cc and .h, src/merge/merge_checker.cc and .h,
    src/meta/store_meta_manager.cc:249-252, src/common/helper.cc:339-359,
    src/coordinator/coordinator_control_coor.cc:2748-2761.
    Simplifications: sizes and counts are unbounded; the position of a split key, a product of an
    integer and a float, and the limits of a merge are given as integers; a column family is the
    sorted list of its keys and values. *)
From Coq Require Import ZArith List Bool.
From Verif Require Import Bytes SMap Outcome CodecModel.
Import ListNotations.
Open Scope Z_scope.

(* ------------------------------------------------------------------------------------ *)
(** * The merged iterator *)

Definition cf : Type := list (bytes * bytes).

(** a key and the size of its value *)
Definition item : Type := bytes * Z.

(** an iterator with an upper bound after Seek(start): what it has still to deliver *)
Definition seek_cf (start stop : bytes) (c : cf) : list item :=
  map (fun kv => (fst kv, Z.of_nat (length (snd kv))))
      (filter (fun kv => bleb start (fst kv) && bltb (fst kv) stop) c).

(** MergedIterator::Entry, split_checker.h:37-44 *)
Record hentry := mkE { e_pos : nat; e_item : item }.
Definition e_key (e : hentry) : bytes := fst (e_item e).

Record mit := mkMit { m_iters : list (list item); m_heap : list hentry }.

Fixpoint set_nth {A} (l : list A) (n : nat) (x : A) : list A :=
  match l, n with
  | [], _ => []
  | _ :: r, O => x :: r
  | y :: r, S k => y :: set_nth r k x
  end.

(** MergedIterator::Next(iter, iter_pos), split_checker.cc:92-101 *)
Definition push (m : mit) (p : nat) : mit :=
  match nth p (m_iters m) [] with
  | [] => m
  | x :: r => mkMit (set_nth (m_iters m) p r) (mkE p x :: m_heap m)
  end.

(** MergedIterator::Seek, 61-67, after the constructor 48-59 *)
Definition merged (iters : list (list item)) : mit :=
  fold_left push (seq 0 (length iters)) (mkMit iters []).

(** min_heap_.top(): an entry with the least key.  Which of several the library takes is not
    specified: [tb] decides. *)
Definition least (h : list hentry) : list hentry :=
  filter (fun e => forallb (fun e' => bleb (e_key e) (e_key e')) h) h.
Definition top (tb : list hentry -> nat) (h : list hentry) : option hentry :=
  let l := least h in nth_error l (Nat.modulo (tb h) (length l)).

(** MergedIterator::Next(), 71-80: every iterator has at most one entry in the heap *)
Definition next (m : mit) (e : hentry) : mit :=
  push (mkMit (m_iters m) (filter (fun e' => negb (Nat.eqb (e_pos e') (e_pos e))) (m_heap m))) (e_pos e).

(** MergedIterator::Key and KeyValueSize, 82-90 *)
Definition key_value_size (x : item) : Z := Z.of_nat (length (fst x)) + snd x.

(** what a loop over the iterator sees; the bodies of the loops use Key and KeyValueSize only *)
Fixpoint visit (fuel : nat) (tb : list hentry -> nat) (m : mit) : list item :=
  match fuel with
  | O => []
  | S f => match top tb (m_heap m) with
           | None => []
           | Some e => e_item e :: visit f tb (next m e)
           end
  end.
Definition total_items (iters : list (list item)) : nat := length (concat iters).
Definition walk (tb : list hentry -> nat) (cfs : list cf) (start stop : bytes) : list item :=
  let iters := map (seek_cf start stop) cfs in
  visit (S (total_items iters)) tb (merged iters).

(* ------------------------------------------------------------------------------------ *)
(** * Policies *)

(** [PHalf threshold chunk], [PSize size position], [PKeys number position] *)
Inductive policy := PHalf (threshold chunk : Z) | PSize (size pos : Z) | PKeys (number pos : Z).

(** split key (empty: none), number of keys, size *)
Record verdict := mkV { v_key : bytes; v_count : Z; v_size : Z }.

Definition no_key (k : bytes) : bool := match k with [] => true | _ => false end.
Definition same_key (prev k : bytes) : bool := match bcmp prev k with Eq => true | _ => false end.

(** HalfSplitChecker::SplitKey, split_checker.cc:103-138 *)
Fixpoint half_loop (thr chunk : Z) (l : list item) (size csize : Z) (keys : list bytes) (hit : bool)
         (prev : bytes) (count : Z) : verdict :=
  match l with
  | [] => mkV (if hit then nth (length keys / 2) keys [] else []) count size
  | x :: r =>
      let s := key_value_size x in
      let size' := size + s in
      let c := csize + s in
      let keys' := if chunk <=? c then keys ++ [fst x] else keys in
      let c' := if chunk <=? c then 0 else c in
      let hit' := hit || (thr <=? size') in
      if same_key prev (fst x) then half_loop thr chunk r size' c' keys' hit' prev count
      else half_loop thr chunk r size' c' keys' hit' (fst x) (count + 1)
  end.

(** SizeSplitChecker::SplitKey, 140-168 *)
Fixpoint size_loop (ssize pos : Z) (l : list item) (size : Z) (key : bytes) (hit : bool)
         (prev : bytes) (count : Z) : verdict :=
  match l with
  | [] => mkV (if hit then key else []) count size
  | x :: r =>
      let size' := size + key_value_size x in
      let here := no_key key && (pos <=? size') in
      let key' := if here then fst x else key in
      let hit' := hit || (negb here && (ssize <=? size')) in
      if same_key prev (fst x) then size_loop ssize pos r size' key' hit' prev count
      else size_loop ssize pos r size' key' hit' (fst x) (count + 1)
  end.

(** KeysSplitChecker::SplitKey, 170-206 *)
Fixpoint keys_loop (number pos : Z) (l : list item) (size : Z) (key : bytes) (hit : bool)
         (prev : bytes) (count : Z) : verdict :=
  match l with
  | [] => mkV (if hit then key else []) count size
  | x :: r =>
      let count' := if same_key prev (fst x) then count else count + 1 in
      let prev' := if same_key prev (fst x) then prev else fst x in
      let here := no_key key && (pos <=? count') in
      let key' := if here then fst x else key in
      let hit' := hit || (negb here && (count' =? number)) in
      keys_loop number pos r (size + key_value_size x) key' hit' prev' count'
  end.

Definition split_key (p : policy) (l : list item) : verdict :=
  match p with
  | PHalf thr chunk => half_loop thr chunk l 0 0 [] false [] 0
  | PSize ssize pos => size_loop ssize pos l 0 [] false [] 0
  | PKeys number pos => keys_loop number pos l 0 [] false [] 0
  end.

(* ------------------------------------------------------------------------------------ *)
(** * The split check *)

(** what the check reads of the region before and after the scan, and of the rest *)
Record env := mkEnv {
  n_version0 : Z; n_range0 : bytes * bytes;
  n_version1 : Z; n_range1 : bytes * bytes;
  n_disabled : bool; n_temp_disabled : bool; n_normal : bool; n_leader : bool;
  n_mono : bool; n_lite : bool; n_busy : bool }.

(** what it leaves behind: key count and size for the metrics (when set), the key of a SplitRegion
    request (when sent) *)
Record effect := mkEff { f_count : option Z; f_size : option Z; f_split : option bytes }.

(** Region::CheckKeyInRange, store_meta_manager.cc:249-252 *)
Definition key_in_range (k : bytes) (r : bytes * bytes) : bool := bleb (fst r) k && bltb k (snd r).

(** SplitCheckTask::SplitCheck, split_checker.cc:242-365; LOG(FATAL) ends the process *)
Definition split_check (tb : list hentry -> nat) (p : policy) (cfs : list cf) (n : env) : outcome effect :=
  let '(start, stop) := encode_range (n_range0 n) in
  let v := split_key p (walk tb cfs start stop) in
  olet plain :=
    (if no_key (v_key v) then Ok []
     else olet d := decode_key (v_key v) in
          match d with Some (k, _) => Ok k | None => Crash end) in
  let ask :=
    negb (no_key plain) && (n_version1 n =? n_version0 n) && key_in_range plain (n_range1 n) &&
    negb (n_disabled n) && negb (n_temp_disabled n) && n_normal n && n_leader n &&
    negb (n_mono n && negb (n_lite n)) && negb (n_busy n) in
  Ok (mkEff (if 0 <? v_count v then Some (v_count v) else None)
            (if 0 <? v_size v then Some (v_size v) else None)
            (if ask then Some plain else None)).

(** the check of the key in CoordinatorControl::SplitRegionWithJob, coordinator_control_coor.cc:2748-2761
    (and the same in SplitRegionTask::ValidateSplitRegion, region_controller.cc:455-461) *)
Definition watershed_ok (r : bytes * bytes) (k : bytes) : bool :=
  negb (no_key k) && bltb (fst r) k && bltb k (snd r).

(* ------------------------------------------------------------------------------------ *)
(** * Which regions are being checked *)

(** checking_regions_, the checks handed to the workers and not finished, and the region for which
    the single thread of PreSplitCheck has yet to call AddRegionChecking *)
Record desk := mkDesk { d_checking : list Z; d_tasks : list Z; d_adding : option Z }.
Definition no_checks : desk := mkDesk [] [] None.

(** [DStart]: IsExistRegionChecking is false and Execute succeeds, split_checker.cc:480-484, 535;
    [DAdd]: AddRegionChecking, 536; [DEnd]: the task ends with DeleteRegionChecking, split_checker.h:199-204 *)
Inductive dev := DStart (r : Z) | DAdd | DEnd (r : Z).
Fixpoint remove_one (r : Z) (l : list Z) : list Z :=
  match l with [] => [] | x :: t => if x =? r then t else x :: remove_one r t end.
Definition memz (r : Z) (l : list Z) : bool := existsb (Z.eqb r) l.
Definition dstep (d : desk) (e : dev) : option desk :=
  match e with
  | DStart r =>
      match d_adding d with
      | Some _ => None
      | None => if memz r (d_checking d) then None
                else Some (mkDesk (d_checking d) (r :: d_tasks d) (Some r))
      end
  | DAdd =>
      match d_adding d with
      | None => None
      | Some r => Some (mkDesk (if memz r (d_checking d) then d_checking d else r :: d_checking d) (d_tasks d) None)
      end
  | DEnd r =>
      if memz r (d_tasks d)
      then Some (mkDesk (filter (fun x => negb (x =? r)) (d_checking d)) (remove_one r (d_tasks d)) (d_adding d))
      else None
  end.
Fixpoint drun (d : desk) (es : list dev) : option desk :=
  match es with
  | [] => Some d
  | e :: r => match dstep d e with Some d' => drun d' r | None => None end
  end.

(* ------------------------------------------------------------------------------------ *)
(** * Merges *)

(** what the merge check reads of a region: definition, state, metrics (None: no metrics), and the
    size and count a scan of the region finds, UpdateActualSizeAndCount merge_checker.cc:321-368 *)
Record mregion := mkMR {
  g_id : Z; g_start : bytes; g_stop : bytes; g_part : Z; g_engine : Z; g_raw : Z; g_peers : list Z;
  g_normal : bool; g_disabled : bool; g_leader : bool; g_recent_split : bool;
  g_metrics : option (Z * Z); g_fresh : bool; g_scan : Z * Z }.

(** the limits: merge_check_size, merge_check_keys_count, the size and the keys after a merge *)
Record limits := mkLim { l_size : Z; l_keys : Z; l_sum_size : Z; l_sum_keys : Z }.

(** Helper::IsDifferencePeers, helper.cc:339-359 *)
Definition different_peers (a b : list Z) : bool :=
  negb (Nat.eqb (length a) (length b)) || existsb (fun x => negb (existsb (Z.eqb x) b)) a.

(** ValidRegion, merge_checker.cc:96-123; [busy]: too many vector index tasks *)
Definition valid_region (busy : bool) (r : mregion) : bool :=
  g_normal r && negb (g_disabled r) && negb busy.

Definition size_and_count (r : mregion) (m : Z * Z) : Z * Z := if g_fresh r then m else g_scan r.

(** PreMergeCheckTask::NeedMerge, 248-319 *)
Definition need_merge (l : limits) (a b : mregion) (ma mb : Z * Z) : bool :=
  let '(sa, ka) := size_and_count a ma in
  if (l_size l <? sa) || (l_keys l <? ka) then false
  else let '(sb, kb) := size_and_count b mb in
       negb (l_sum_size l <? sa + sb) && negb (l_sum_keys l <? ka + kb).

(** the checks of PreMergeCheck for the pair of neighbours [a], [b] of the sorted list, 404-497;
    [seqn]: ascending order *)
Definition pre_merge (l : limits) (busy seqn : bool) (checking : list Z) (a b : mregion) : bool :=
  match g_metrics a, g_metrics b with
  | Some ma, Some mb =>
      valid_region busy a && valid_region busy b && negb (memz (g_id a) checking) &&
      negb (l_size l <? fst ma) && negb (l_keys l <? snd ma) && g_leader a &&
      negb (g_recent_split a) && negb (g_recent_split b) && (g_part a =? g_part b) &&
      (if seqn then same_key (g_stop a) (g_start b) else same_key (g_start a) (g_stop b)) &&
      (g_engine a =? g_engine b) && (g_raw a =? g_raw b) && negb (different_peers (g_peers a) (g_peers b)) &&
      need_merge l a b ma mb
  | _, _ => false
  end.

(** the loop over the sorted regions, 396-514: [left] is how many rounds remain, the index stops at
    size - 2; a pair that is taken is stepped over *)
Fixpoint merge_loop (l : limits) (busy seqn : bool) (checking : list Z) (left : nat) (rs : list mregion)
  : list (mregion * mregion) :=
  match left, rs with
  | S n, a :: ((b :: rest) as t) =>
      if pre_merge l busy seqn checking a b then
        (a, b) :: merge_loop l busy seqn (g_id a :: g_id b :: checking) (pred n) rest
      else merge_loop l busy seqn checking n t
  | _, _ => []
  end.
Definition pre_merge_check (l : limits) (busy seqn : bool) (checking : list Z) (sorted : list mregion)
  : list (mregion * mregion) :=
  if Nat.ltb (length sorted) 2 then [] else merge_loop l busy seqn checking (length sorted - 2) sorted.

(** MergeCheckTask::MergeCheck, 163-246: the checks that are made again; what they read may have
    changed *)
Definition merge_check (busy : bool) (a b : mregion) : bool :=
  valid_region busy a && valid_region busy b && g_leader a && (g_engine a =? g_engine b) &&
  (g_raw a =? g_raw b) && (g_part a =? g_part b) && negb (different_peers (g_peers a) (g_peers b)).
