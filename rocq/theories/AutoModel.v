(** Auto-increment ids (coordinator/auto_increment_control.cc), replicated by a raft group.

    A node checks a request against its own map, proposes an increment, and every node applies the
    committed increments in order; the proposing node answers when it applies its own increment.  The
    raft log is one list of committed increments.  A check and its proposal are separate steps, so
    anything can be committed in between.  Tables are int64 numbers; FlatMap is a partial function.
    Sums that leave int64 are undefined behaviour ([Crash]). *)
From Coq Require Import ZArith List Bool Arith.
From Verif Require Import Outcome IdModel.
Import ListNotations.
Open Scope Z_scope.

(** auto_increment_control.h: kAutoIncrementGenerateCountMax, kAutoIncrementOffsetMax *)
Definition kCountMax : Z := 100000.
Definition kOffsetMax : Z := 65535.

Definition add64 (a b : Z) : outcome Z :=
  if (- 2 ^ 63 <=? a + b) && (a + b <? 2 ^ 63) then Ok (a + b) else Crash.

(** GetRealStartId, 409-419.  int64 % uint32 is computed in int64 and rounds toward zero. *)
Definition real_start (start inc off : Z) : outcome Z :=
  let r := Z.rem start inc in
  if r <? off then add64 (start - r) off
  else if off <? r then olet x := add64 (start - r) inc in add64 x off
  else Ok start.

(** GetGenerateEndId, 390-407.  count * increment is a product of two uint32. *)
Definition end_id (start count inc off : Z) : outcome Z :=
  let inc := if (inc =? 0) || (kOffsetMax <? inc) then 1 else inc in
  let off := if (off =? 0) || (kOffsetMax <? off) || (inc <? off) then 1 else off in
  if (inc =? 1) && (off =? 1) then add64 start count
  else olet r := real_start start inc off in add64 r ((count * inc) mod 2 ^ 32).

(** pb::coordinator_internal::AutoIncrement *)
Inductive entry :=
| ECreate (t s : Z)
| EUpdate (t s : Z)
| EGen (t count inc off : Z)
| EDelete (t : Z).

Definition fdel (m : fmap) (k : Z) : fmap := fun x => if x =? k then None else m x.

(** ApplyMetaIncrement, 338-388, one element; the second component is what it puts into the response *)
Definition apply_entry (m : fmap) (e : entry) : outcome (fmap * option (Z * Z)) :=
  match e with
  | ECreate t s => Ok (fput m t s, None)
  | EUpdate t s => match m t with None => Ok (m, None) | Some _ => Ok (fput m t s, None) end
  | EGen t count inc off =>
      match m t with
      | None => Ok (m, None)
      | Some s => olet e := end_id s count inc off in Ok (fput m t e, Some (s, e))
      end
  | EDelete t => Ok (fdel m t, None)
  end.

Fixpoint apply_all (m : fmap) (es : list entry) (resp : Z * Z) : outcome (fmap * (Z * Z)) :=
  match es with
  | [] => Ok (m, resp)
  | e :: r =>
      match apply_entry m e with
      | Ok (m', o) => apply_all m' r (match o with Some p => p | None => resp end)
      | Crash => Crash
      end
  end.

(** requests (server/meta_service.cc:785-1000, auto_increment_control.cc) *)
Inductive request :=
| QCreates (l : list (Z * Z))          (* CreateAutoIncrement(s), and the coordinator's own requests *)
| QUpdate (t s : Z) (force : bool)
| QGen (t count inc off : Z)
| QDelete (t : Z)
| QRestore (t s : Z).                  (* CreateOrUpdateAutoIncrement, 258-298 *)

(** CreateAutoIncrement, 78-103 (and 105-143); [None]: EAUTO_INCREMENT_EXIST *)
Definition check_create (m : fmap) (t s : Z) : option (list entry) :=
  match m t with
  | Some c => if c =? s then Some [] else None
  | None => Some [ECreate t s]
  end.

Fixpoint check_creates (m : fmap) (l : list (Z * Z)) : option (list entry) :=
  match l with
  | [] => Some []
  | (t, s) :: r => match check_create m t s, check_creates m r with Some a, Some b => Some (a ++ b) | _, _ => None end
  end.

(** the fields of a generate request are converted to uint32 (meta_service.cc:930) *)
Definition u32 (x : Z) : Z := x mod 2 ^ 32.

(** what the node checks before it proposes; [None]: an error is answered *)
Definition check (m : fmap) (q : request) : option (list entry) :=
  match q with
  | QCreates l => check_creates m l
  | QUpdate t s force =>                (* UpdateAutoIncrement, 169-191 *)
      match m t with
      | None => None
      | Some c => if (s <=? c) && negb force then None else Some [EUpdate t s]
      end
  | QGen t count0 inc0 off0 =>          (* GenerateAutoIncrement, 193-223 *)
      let count := u32 count0 in let inc := u32 inc0 in let off := u32 off0 in
      match m t with
      | None => None
      | Some _ =>
          if (count =? 0) || (kCountMax <? count) || (inc =? 0) || (kOffsetMax <? inc) || (off =? 0) || (kOffsetMax <? off)
          then None else Some [EGen t count inc off]
      end
  | QDelete t => match m t with None => Some [] | Some _ => Some [EDelete t] end   (* 225-241 *)
  | QRestore t s =>
      match m t with
      | None => Some [ECreate t s]
      | Some c => if s <? c then None else if s =? c then Some [] else Some [EUpdate t s]
      end
  end.

(** a node: its map, the number of increments applied, the log indexes whose requests wait for it *)
Record anode := mkAn { a_map : outcome fmap; a_app : nat; a_open : list (nat * request) }.
Record group := mkG { anodes : nat -> anode; alog : list (list entry); apend : list (nat * request * list entry) }.

Inductive aev :=
| ACheck (i : nat) (q : request)
| ASubmit (n : nat)                 (* the n-th checked request is committed *)
| AApply (i : nat)
| AStop (i : nat)                   (* node i loses the leadership: open requests are answered with an error *)
| ARestart (i : nat) (from : option nat)   (* restart from nothing or a snapshot of a node, 421-497 *)
| AInstall (i j : nat).             (* node i installs a snapshot of node j *)

(** the answer to the request committed at index [r_idx]: pb::meta::GenerateAutoIncrementResponse *)
Record resp := mkResp { r_idx : nat; r_req : request; r_start : Z; r_end : Z }.

Definition aset (f : nat -> anode) (i : nat) (n : anode) : nat -> anode := fun j => if Nat.eqb j i then n else f j.

Definition astep (s : group) (e : aev) : group * option resp :=
  match e with
  | ACheck i q =>
      match a_map (anodes s i) with
      | Ok m => match check m q with
                | Some es => (mkG (anodes s) (alog s) (apend s ++ [(i, q, es)]), None)
                | None => (s, None)
                end
      | Crash => (s, None)
      end
  | ASubmit n =>
      match nth_error (apend s) n with
      | None => (s, None)
      | Some (i, q, es) =>
          let nd := anodes s i in
          (mkG (aset (anodes s) i (mkAn (a_map nd) (a_app nd) ((length (alog s), q) :: a_open nd)))
               (alog s ++ [es]) (firstn n (apend s) ++ skipn (S n) (apend s)), None)
      end
  | AApply i =>
      let nd := anodes s i in
      match nth_error (alog s) (a_app nd), a_map nd with
      | Some es, Ok m =>
          match apply_all m es (0, 0) with
          | Crash => (mkG (aset (anodes s) i (mkAn Crash (a_app nd) [])) (alog s) (apend s), None)
          | Ok (m', (a, b)) =>
              (mkG (aset (anodes s) i (mkAn (Ok m') (S (a_app nd)) (a_open nd))) (alog s) (apend s),
               match find (fun p => Nat.eqb (fst p) (a_app nd)) (a_open nd) with
               | Some (_, q) => Some (mkResp (a_app nd) q a b)
               | None => None
               end)
          end
      | _, _ => (s, None)
      end
  | AStop i => (mkG (aset (anodes s) i (mkAn (a_map (anodes s i)) (a_app (anodes s i)) [])) (alog s) (apend s), None)
  | ARestart i from =>
      (mkG (aset (anodes s) i (match from with
                               | None => mkAn (Ok (fun _ => None)) 0 []
                               | Some j => mkAn (a_map (anodes s j)) (a_app (anodes s j)) []
                               end)) (alog s) (apend s), None)
  | AInstall i j =>
      if Nat.ltb (a_app (anodes s i)) (a_app (anodes s j))
      then (mkG (aset (anodes s) i (mkAn (a_map (anodes s j)) (a_app (anodes s j)) (a_open (anodes s i)))) (alog s) (apend s), None)
      else (s, None)
  end.

Fixpoint arun (s : group) (es : list aev) : group * list resp :=
  match es with
  | [] => (s, [])
  | e :: r => let '(s', a) := astep s e in
              let '(s'', l) := arun s' r in
              (s'', match a with Some a => a :: l | None => l end)
  end.

Definition ainit : group := mkG (fun _ => mkAn (Ok (fun _ => None)) 0 []) [] [].
