(** The DiskANN server's item: import of a region's vectors in numbered batches, build, load, search,
    reset, and the files that survive a restart; and the store's side that cuts the vectors into batches.
    Sources: src/diskann/diskann_item.cc, src/diskann/diskann_core.cc, src/diskann/diskann_utils.cc,
    src/vector/vector_index_diskann.cc.

    Simplifications.  One item (the table of items by index id is not modelled).  A vector's content is
    one integer.  Dimension, metric and value type are fixed and agreed by all parts.  The index built by
    the library is represented by the rows it was built from.  A crash between two file operations is a
    failure of the later operation followed by a stop. *)
Require Import ZArith List Bool.
Import ListNotations.
Open Scope Z_scope.

(** DiskANNCoreState: the states of the item and of its core, diskann_utils.h; CInit and CUninit stand for
    kInitialized and kUninitialized, which only a core has (diskann_core.cc:61-63, 375-376). *)
Inductive dst :=
| Unknown | Importing | Imported | Building | Builded | UpdatingPath | UpdatedPath
| Loading | Loaded | FakeBuilded | NoData | CInit.

(** The error codes the item and its core answer with (pb::error::Errno). *)
Inductive err :=
| EStateWrong | ETsMismatch | ETsoMismatch | EQuantity | ETimeout | EImportFailed | EIdCount | EIdDup
| ETooManyV | ETooFew | ERename | ENotImport | EIsBuilding | EIsLoading | ENotInit | EInternal
| ENotBuild | ENotLoad | ENotUpdate | EIsNoData | EIsImporting | EIdBin.

(** Constant::kDiskannMinCount and kDiskannMaxCount, src/common/constant.h:265-267. *)
Definition kmin : Z := 2.
Definition kmax : Z := 2147483647.

(** How DiskANNUtils::Rename ends (diskann_utils.cc, RenameFile and RenameDir): done; failed with the
    target as it was; failed after the old target was removed. *)
Inductive ren := RenOk | RenFail | RenGone.

(** The files of the index below normal/ and tmp/: the vectors (header count, rows), the ids (header
    count, timestamp, ids), the built index, the index being built in tmp/, the no-data mark.
    diskann_item.cc:747-770 (which files make a built index), 1370-1393 (the mark). *)
Record disk := mkDisk {
  ddata : option (Z * list Z);
  did : option (Z * Z * list Z);
  didx : option (list Z);
  dtmp : option (list Z);
  dnod : bool }.

(** DiskANNCore's fields that matter, diskann_core.h; [cgen] tells one core object from the next;
    [crows] is the loaded index. *)
Record core := mkCore {
  cgen : nat;
  cst : dst;
  cbuilt : bool;
  cupd : bool;
  cload : bool;
  ccount : Z;
  crows : list Z }.

(** index_path_prefix_ of the item: empty, below tmp/, below normal/. *)
Inductive prefix := PNone | PTmp | PNormal.

(** DiskANNItem's fields, diskann_item.h:103-150.  [wrows] and [wids] are the rows in the files being
    written in tmp/; [ids] is diskann_to_vector_ids_. *)
Record item := mkItem {
  st : dst;
  lerr : option err;
  imp : bool;
  wopen : bool;
  wrows : list Z;
  wids : list Z;
  ids : list Z;
  recv : Z;
  its : Z;
  itso : Z;
  tlast : Z;
  pre : prefix;
  icore : option core }.

(** Where a build or load under way stands; the item's lock is not held.
    JB0..JB3: before diskann_core_->Build; inside it, core kBuilding; before the rename, with the state the
    core reported; before UpdateIndexPathPrefix (diskann_item.cc:962-1013).
    JL0..JL2: before diskann_core_->Load or TryLoad (the flag); inside it; before the ids are read
    (1052-1080, 1119-1209).  JEnd: before the scope-exit function stores the state. *)
Inductive job :=
| JB0 (force : bool)
| JB1 (g : nat)
| JB2 (s : dst)
| JB3
| JL0 (try : bool)
| JL1 (g : nat) (try : bool)
| JL2 (s : dst) (try : bool)
| JEnd (s : dst) (e : option err) (np : bool) (nts : option Z).

(** The server process: files, item, builds and loads under way, number of cores made, crashed. *)
Record world := mkWorld {
  wd : disk;
  wi : item;
  wjobs : list job;
  wgen : nat;
  wdead : bool }.

(** A VectorPushData request (fields of pb::diskann::VectorPushDataRequest), the time it is handled, and
    the environment: does writing throw, how the two renames end. *)
Record push := mkPush {
  pvecs : list Z;
  pids : list Z;
  pmore : bool;
  poff : Z;
  pts : Z;
  ptso : Z;
  pnow : Z;
  pthrow : bool;
  pren1 : ren;
  pren2 : ren }.

Inductive rep := ROk | RErr (e : err) | RPend.

(** IsBuildedFilesExist, diskann_item.cc:747-770. *)
Definition files_exist (d : disk) : bool :=
  match ddata d, did d, didx d with Some _, Some _, Some _ => true | _, _, _ => false end.

(** NoDataSymbolDelete and NoDataSymbolCreate on the mark, diskann_item.cc:1370-1384. *)
Definition set_nod (b : bool) (d : disk) : disk := mkDisk (ddata d) (did d) (didx d) (dtmp d) b.

(** An item with nothing in memory: the constructor (diskann_item.cc:56-71) and DoClose's resets
    (1227-1252).  The timestamps' minimum is written -1. *)
Definition blank (s : dst) : item :=
  mkItem s None false false [] [] [] 0 (-1) (-1) 0 PNone None.

(** The constructor's and DoClose's look at the files: diskann_item.cc:75-83 and 1288-1297. *)
Definition look (d : disk) : disk * item :=
  if files_exist d then (set_nod false d, blank FakeBuilded)
  else if dnod d then (d, blank NoData) else (d, blank Unknown).

(** std::map / std::set sizes differ when an id comes twice: diskann_item.cc:851-862. *)
Definition has_dup (l : list Z) : bool :=
  negb (Nat.eqb (length (nodup Z.eq_dec l)) (length l)).

(** Scope-exit function with is_error_occurred: the error is kept in last_error_
    (diskann_item.cc:106-115). *)
Definition fail_item (i : item) (e : err) : item :=
  mkItem (st i) (Some e) (imp i) (wopen i) (wrows i) (wids i) (ids i) (recv i) (its i) (itso i) (tlast i)
    (pre i) (icore i).

(** Opening the two files of an import: diskann_item.cc:800-834. *)
Definition open_writers (i : item) (ts tso : Z) : item :=
  mkItem Importing (lerr i) (imp i) true [] [] (ids i) (recv i) ts tso (tlast i) (pre i) (icore i).

(** last_import_time_ms_ = current_time_ms, diskann_item.cc:798. *)
Definition set_tlast (i : item) (t : Z) : item :=
  mkItem (st i) (lerr i) (imp i) (wopen i) (wrows i) (wids i) (ids i) (recv i) (its i) (itso i) t
    (pre i) (icore i).

(** The vectors, then the ids, are appended: diskann_item.cc:836-855; the count: 865-866. *)
Definition add_rows (i : item) (vs : list Z) : item :=
  mkItem (st i) (lerr i) (imp i) (wopen i) (wrows i ++ vs) (wids i) (ids i) (recv i) (its i) (itso i)
    (tlast i) (pre i) (icore i).
Definition add_ids (i : item) (l : list Z) : item :=
  mkItem (st i) (lerr i) (imp i) (wopen i) (wrows i) (wids i ++ l) (ids i ++ l) (recv i) (its i) (itso i)
    (tlast i) (pre i) (icore i).
Definition add_count (i : item) (n : Z) : item :=
  mkItem (st i) (lerr i) (imp i) (wopen i) (wrows i) (wids i) (ids i) (recv i + n) (its i) (itso i)
    (tlast i) (pre i) (icore i).

(** writer_.close(), diskann_item.cc:887. *)
Definition close_writer (i : item) : item :=
  mkItem (st i) (lerr i) (imp i) false (wrows i) (wids i) (ids i) (recv i) (its i) (itso i) (tlast i)
    (pre i) (icore i).

(** state_ = kImported, is_import_ = true: diskann_item.cc:918-920. *)
Definition set_imported (i : item) : item :=
  mkItem Imported (lerr i) true (wopen i) (wrows i) (wids i) (ids i) (recv i) (its i) (itso i) (tlast i)
    (pre i) (icore i).

(** The renames of tmp/ files onto normal/ files: diskann_item.cc:888-916. *)
Definition put_data (d : disk) (r : ren) (x : Z * list Z) : disk :=
  match r with
  | RenOk => mkDisk (Some x) (did d) (didx d) (dtmp d) (dnod d)
  | RenFail => d
  | RenGone => mkDisk None (did d) (didx d) (dtmp d) (dnod d)
  end.
Definition put_id (d : disk) (r : ren) (x : Z * Z * list Z) : disk :=
  match r with
  | RenOk => mkDisk (ddata d) (Some x) (didx d) (dtmp d) (dnod d)
  | RenFail => d
  | RenGone => mkDisk (ddata d) None (didx d) (dtmp d) (dnod d)
  end.

(** The last batch's files are closed and moved: diskann_item.cc:876-921. *)
Definition finish_import (d : disk) (i : item) (r1 r2 : ren) : disk * item * rep :=
  if recv i <? kmin then (d, fail_item i ETooFew, RErr ETooFew)
  else
    let i1 := close_writer i in
    let d1 := put_data d r1 (recv i, wrows i) in
    match r1 with
    | RenOk =>
        let d2 := put_id d1 r2 (recv i, its i, wids i) in
        match r2 with
        | RenOk => (d2, set_imported i1, ROk)
        | _ => (d2, fail_item i1 ERename, RErr ERename)
        end
    | _ => (d1, fail_item i1 ERename, RErr ERename)
    end.

(** DiskANNItem::DoImport, diskann_item.cc:772-924; [tmo] is import_timeout_s in milliseconds.  The
    id file is open exactly when the vector file is. *)
Definition do_import (tmo : Z) (d : disk) (i : item) (q : push) : disk * item * rep :=
  if negb (poff q =? recv i) then (d, fail_item i EQuantity, RErr EQuantity)
  else if wopen i && (tmo <? pnow q - tlast i) then (d, fail_item i ETimeout, RErr ETimeout)
  else
    let i1 := set_tlast i (pnow q) in
    let i2 := if wopen i1 then i1 else open_writers i1 (pts q) (ptso q) in
    if pthrow q then (d, fail_item i2 EImportFailed, RErr EImportFailed)
    else
      let i3 := add_rows i2 (pvecs q) in
      if negb (Nat.eqb (length (pvecs q)) (length (pids q))) then (d, fail_item i3 EIdCount, RErr EIdCount)
      else
        let i4 := add_ids i3 (pids q) in
        if has_dup (ids i4) then (d, fail_item i4 EIdDup, RErr EIdDup)
        else
          let i5 := add_count i4 (Z.of_nat (length (pvecs q))) in
          if kmax <? recv i5 then (d, fail_item i5 ETooManyV, RErr ETooManyV)
          else if pmore q then (d, i5, ROk)
          else finish_import d i5 (pren1 q) (pren2 q).

(** DiskANNItem::Import, diskann_item.cc:94-185. *)
Definition import (tmo : Z) (d : disk) (i : item) (q : push) : disk * item * rep :=
  match lerr i with
  | Some e => (d, i, RErr e)
  | None =>
      match st i with
      | FakeBuilded | NoData => (d, i, RErr EStateWrong)
      | s =>
          if imp i then (d, i, ROk)
          else
            match s with
            | Importing | Unknown =>
                if wopen i && negb (pts q =? its i) then (d, i, RErr ETsMismatch)
                else if wopen i && negb (ptso q =? itso i) then (d, i, RErr ETsoMismatch)
                else do_import tmo d i q
            | _ => (d, i, RErr EStateWrong)
            end
      end
  end.

(** Changes of the item by Build, Load and TryLoad: state, core, prefix. *)
Definition set_run (i : item) (s : dst) (p : prefix) (c : option core) : item :=
  mkItem s (lerr i) (imp i) (wopen i) (wrows i) (wids i) (ids i) (recv i) (its i) (itso i) (tlast i) p c.
Definition set_core (i : item) (c : option core) : item := set_run i (st i) (pre i) c.

(** DiskANNCore's constructor, diskann_core.cc:42-64. *)
Definition new_core (g : nat) : core := mkCore g CInit false false false 0 [].

Definition set_item (w : world) (i : item) : world := mkWorld (wd w) i (wjobs w) (wgen w) (wdead w).
Definition set_disk (w : world) (d : disk) : world := mkWorld d (wi w) (wjobs w) (wgen w) (wdead w).
Definition add_job (w : world) (j : job) : world :=
  mkWorld (wd w) (wi w) (wjobs w ++ [j]) (wgen w) (wdead w).
Definition new_gen (w : world) : world := mkWorld (wd w) (wi w) (wjobs w) (S (wgen w)) (wdead w).

(** The core is made when there is none: diskann_item.cc:258-267, 524-543. *)
Definition with_core (w : world) (s : dst) (p : prefix) : world :=
  match icore (wi w) with
  | Some c => set_item w (set_run (wi w) s (pre (wi w)) (Some c))
  | None => set_item (new_gen w) (set_run (wi w) s p (Some (new_core (wgen w))))
  end.

(** DiskANNItem::Build up to the release of the lock, diskann_item.cc:187-284 (services pass
    is_sync = true, diskann_service_handle.cc). *)
Definition build (w : world) (force : bool) : world * rep :=
  let i := wi w in
  match lerr i with
  | Some e => (w, RErr e)
  | None =>
      match st i with
      | FakeBuilded | NoData => (w, RErr EStateWrong)
      | UpdatedPath => (w, ROk)
      | s =>
          if negb (imp i) then (w, RErr ENotImport)
          else
            match s with
            | Building => (w, RErr EIsBuilding)
            | Imported => (add_job (with_core w Building PTmp) (JB0 force), RPend)
            | _ => (w, RErr EStateWrong)
            end
      end
  end.

(** DiskANNItem::Load up to the release of the lock, diskann_item.cc:289-366. *)
Definition load (w : world) : world * rep :=
  let i := wi w in
  match lerr i with
  | Some e => (w, RErr e)
  | None =>
      match st i with
      | FakeBuilded | NoData => (w, RErr EStateWrong)
      | Loaded => (w, ROk)
      | Loading => (w, RErr EIsLoading)
      | UpdatedPath => (add_job (set_item w (set_run i Loading (pre i) (icore i))) (JL0 false), RPend)
      | _ => (w, RErr EStateWrong)
      end
  end.

(** DiskANNItem::TryLoad up to the release of the lock, diskann_item.cc:462-569. *)
Definition try_load (w : world) : world * rep :=
  let i := wi w in
  match lerr i with
  | Some e => (w, RErr e)
  | None =>
      match st i with
      | NoData => (w, RErr EStateWrong)
      | Loaded => (w, ROk)
      | Loading => (w, RErr EIsLoading)
      | Unknown | FakeBuilded =>
          if files_exist (wd w) then (add_job (with_core w Loading PNormal) (JL0 true), RPend)
          else (w, RErr ENotBuild)
      | _ => (w, RErr EStateWrong)
      end
  end.

(** DoClose's three renames into destroyed/, whose results are ignored: diskann_item.cc:1281-1286.  A flag
    tells whether the rename of the data, the index, the ids took place. *)
Definition destroy_files (d : disk) (f1 f2 f3 : bool) : disk :=
  mkDisk (if f1 then None else ddata d) (if f3 then None else did d) (if f2 then None else didx d)
    (dtmp d) (dnod d).

(** DiskANNItem::DoClose, diskann_item.cc:1211-1300, and DiskANNCore::Reset's refusal,
    diskann_core.cc:314-332. *)
Definition core_busy (i : item) : option err :=
  match icore i with
  | None => None
  | Some c =>
      match lerr i with
      | Some _ => None
      | None =>
          match cst c with Building => Some EIsBuilding | Loading => Some EIsLoading | _ => None end
      end
  end.
Definition do_close (d : disk) (i : item) (destroy : option (bool * bool * bool)) : disk * item * rep :=
  match core_busy i with
  | Some e => (d, i, RErr e)
  | None =>
      match destroy with
      | Some (f1, f2, f3) => (set_nod false (destroy_files d f1 f2 f3), blank Unknown, ROk)
      | None => let '(d', i') := look d in (d', i', ROk)
      end
  end.

(** DiskANNItem::SetNoData, diskann_item.cc:647-695; the mark is made by opening the member writer_
    (1375), which stays open. *)
Definition set_no_data (d : disk) (i : item) : disk * item * rep :=
  match lerr i with
  | Some e => (d, i, RErr e)
  | None =>
      match st i with
      | NoData => (d, i, ROk)
      | Unknown =>
          (set_nod true d,
           mkItem NoData (lerr i) (imp i) true [] [] (ids i) (recv i) (its i) (itso i) (tlast i) (pre i)
             (icore i), ROk)
      | _ => (d, i, RErr EStateWrong)
      end
  end.

(** DiskANNItem::SetImportTooMany, diskann_item.cc:697-745. *)
Definition set_too_many (i : item) : item * rep :=
  match st i, lerr i with
  | Importing, Some ETooManyV => (i, ROk)
  | _, Some e => (i, RErr e)
  | Unknown, None => (fail_item (set_run i Importing (pre i) (icore i)) ETooManyV, ROk)
  | _, None => (i, RErr EStateWrong)
  end.

(** What the environment decides about one step of a build or load: the library call succeeds; how the
    rename ends. *)
Record env := mkEnv { eok : bool; eren : ren }.

Definition upd_core (c : core) (s : dst) (b u l : bool) (n : Z) (rows : list Z) : core :=
  mkCore (cgen c) s b u l n rows.

Inductive jres := JNext (w : world) (j : job) | JDone (w : world) | JCrash.

(** DiskANNCore::Build's locked part, diskann_core.cc:71-133. *)
Definition core_build (w : world) (c : core) (force : bool) : jres :=
  let i := wi w in
  if negb force && cbuilt c then JNext w (JB2 (cst c))
  else
    match cbuilt c, cst c with
    | false, Building => JNext w (JEnd (cst c) (Some EIsBuilding) false None)
    | true, Loading => JNext w (JEnd (cst c) (Some EIsLoading) false None)
    | _, _ =>
        let ok := match cst c with CInit => true | Builded => force | _ => false end in
        if ok then
          JNext (set_item w (set_core i (Some (upd_core c Building false (cupd c) false 0 (crows c)))))
            (JB1 (cgen c))
        else JNext w (JEnd (cst c) (Some ENotInit) false None)
    end.

Definition set_tmp (d : disk) (x : option (list Z)) : disk := mkDisk (ddata d) (did d) (didx d) x (dnod d).
Definition set_idx (d : disk) (x : option (list Z)) : disk := mkDisk (ddata d) (did d) x (dtmp d) (dnod d).

(** DiskANNCore::DoBuild, diskann_core.cc:464-636: the index is made of the rows the header counts. *)
Definition core_do_build (w : world) (c : core) (ok : bool) : jres :=
  let i := wi w in
  match ddata (wd w) with
  | None => JNext w (JEnd Building (Some EInternal) false None)
  | Some (n, rows) =>
      if n <? kmin then JNext (set_disk w (set_tmp (wd w) None)) (JEnd Building (Some ETooFew) false None)
      else if negb ok then
        JNext (set_disk w (set_tmp (wd w) None)) (JEnd Building (Some EInternal) false None)
      else
        JNext
          (set_item (set_disk w (set_tmp (wd w) (Some (firstn (Z.to_nat n) rows))))
             (set_core i (Some (upd_core c Builded true (cupd c) (cload c) n (crows c)))))
          (JB2 Builded)
  end.

(** The rename of the built index, diskann_item.cc:988-997: from index_path_prefix_ as it is now. *)
Definition rename_index (d : disk) (p : prefix) (r : ren) : disk * bool :=
  match p with
  | PNone => (d, false)
  | PNormal => (set_idx d None, false)
  | PTmp =>
      match r with
      | RenOk => (set_tmp (set_idx d (dtmp d)) None, true)
      | RenFail => (d, false)
      | RenGone => (set_idx d None, false)
      end
  end.

(** DiskANNCore::UpdateIndexPathPrefix, diskann_core.cc:135-204, and the mark's removal,
    diskann_item.cc:1005. *)
Definition core_update (w : world) (c : core) : jres :=
  let i := wi w in
  let good := JNext (set_disk w (set_nod false (wd w))) (JEnd UpdatedPath None true None) in
  match cst c with
  | UpdatedPath => good
  | Building => JNext w (JEnd Building (Some EIsBuilding) false None)
  | Builded =>
      if negb (cbuilt c) then JNext w (JEnd Builded (Some ENotBuild) false None)
      else
        match didx (wd w) with
        | None =>
            JNext (set_item w (set_core i (Some (upd_core c UpdatingPath (cbuilt c) (cupd c) (cload c)
                                                   (ccount c) (crows c)))))
              (JEnd UpdatingPath (Some EInternal) false None)
        | Some _ =>
            JNext
              (set_disk (set_item w (set_core i (Some (upd_core c UpdatedPath (cbuilt c) true (cload c)
                                                         (ccount c) (crows c)))))
                 (set_nod false (wd w)))
              (JEnd UpdatedPath None true None)
        end
  | s => JNext w (JEnd s (Some EInternal) false None)
  end.

(** DiskANNCore::Load's and TryLoad's locked parts, diskann_core.cc:206-245 and 393-437. *)
Definition core_load (w : world) (c : core) (try : bool) : jres :=
  let i := wi w in
  if cload c then JNext w (JL2 (cst c) try)
  else
    match cst c with
    | Loading => JNext w (JEnd Loading (Some EIsLoading) false None)
    | s =>
        let ok := if try then (match s with CInit => true | _ => false end) else cupd c in
        if ok then
          JNext (set_item w (set_core i (Some (upd_core c Loading (cbuilt c) (cupd c) (cload c) (ccount c)
                                                 (crows c)))))
            (JL1 (cgen c) try)
        else JNext w (JEnd s (Some (if try then EInternal else ENotUpdate)) false None)
    end.

(** DiskANNCore::DoLoad and DoPrepareTryLoad, diskann_core.cc:638-814, 816-878.  Where is_update_ holds the
    core's path is below normal/, and a core made by TryLoad has that path from the start. *)
Definition core_do_load (w : world) (c : core) (try ok : bool) : jres :=
  let i := wi w in
  let bad := JNext w (JEnd Loading (Some EInternal) false None) in
  let count :=
    if try then match ddata (wd w) with Some (n, _) => if n <? kmin then None else Some n | None => None end
    else Some (ccount c) in
  match count, didx (wd w) with
  | Some n, Some rows =>
      if negb ok then bad
      else if negb (n =? Z.of_nat (length rows)) then bad
      else
        JNext
          (set_item w (set_core i (Some (upd_core c Loaded (cbuilt c || try) (cupd c || try) true n rows))))
          (JL2 Loaded try)
  | _, _ => bad
  end.

(** diskann_to_vector_ids_ is refilled, diskann_item.cc:1163-1180. *)
Definition set_ids (i : item) (l : list Z) : item :=
  mkItem (st i) (lerr i) (imp i) (wopen i) (wrows i) (wids i) l (recv i) (its i) (itso i) (tlast i) (pre i)
    (icore i).

(** The ids are read after a TryLoad: diskann_item.cc:1144-1204 (a missing file reads as dimension 0). *)
Definition read_ids (w : world) (s : dst) (try : bool) : jres :=
  if negb try then JNext w (JEnd s None false None)
  else
    match did (wd w) with
    | None => JNext w (JEnd s (Some EIdBin) false None)
    | Some (n, ts, l) =>
        let w1 := set_item w (set_ids (wi w) l) in
        if n =? Z.of_nat (length l) then JNext w1 (JEnd s None false (Some ts))
        else JNext w1 (JEnd s (Some EIdBin) false None)
    end.

(** The scope-exit functions of DoBuildInternal, DoLoadInternal and DoTryLoadInternal:
    diskann_item.cc:968-980, 1058-1068, 1127-1139. *)
Definition job_end (i : item) (s : dst) (e : option err) (np : bool) (nts : option Z) : item :=
  mkItem s (match e with Some _ => e | None => lerr i end) (imp i) (wopen i) (wrows i) (wids i) (ids i)
    (recv i) (match e, nts with None, Some t => t | _, _ => its i end) (itso i) (tlast i)
    (match e with None => if np then PNormal else pre i | Some _ => pre i end) (icore i).

(** One step of a build or load: diskann_item.cc:982-1012, 1070-1079, 1141-1208.  A missing core is a null
    pointer; a core other than the one entered has been freed under the call. *)
Definition job_step (w : world) (j : job) (v : env) : jres :=
  let i := wi w in
  match j with
  | JB0 force => match icore i with None => JCrash | Some c => core_build w c force end
  | JB1 g =>
      match icore i with
      | Some c => if Nat.eqb (cgen c) g then core_do_build w c (eok v) else JCrash
      | None => JCrash
      end
  | JB2 s =>
      let '(d, ok) := rename_index (wd w) (pre i) (eren v) in
      if ok then JNext (set_disk w d) JB3
      else JNext (set_disk w d) (JEnd s (Some ERename) false None)
  | JB3 => match icore i with None => JCrash | Some c => core_update w c end
  | JL0 try => match icore i with None => JCrash | Some c => core_load w c try end
  | JL1 g try =>
      match icore i with
      | Some c => if Nat.eqb (cgen c) g then core_do_load w c try (eok v) else JCrash
      | None => JCrash
      end
  | JL2 s try => read_ids w s try
  | JEnd s e np nts => JDone (set_item w (job_end i s e np nts))
  end.

Fixpoint set_nth (l : list job) (n : nat) (o : option job) : list job :=
  match l, n with
  | [], _ => []
  | _ :: l, O => match o with Some j => j :: l | None => l end
  | x :: l, S n => x :: set_nth l n o
  end.
Definition set_jobs (w : world) (l : list job) : world := mkWorld (wd w) (wi w) l (wgen w) (wdead w).
Definition kill (w : world) : world := mkWorld (wd w) (wi w) (wjobs w) (wgen w) true.

Definition run_job (w : world) (n : nat) (v : env) : world :=
  match nth_error (wjobs w) n with
  | None => w
  | Some j =>
      match job_step w j v with
      | JNext w' j' => set_jobs w' (set_nth (wjobs w') n (Some j'))
      | JDone w' => set_jobs w' (set_nth (wjobs w') n None)
      | JCrash => kill w
      end
  end.

(** A search's answer: rows (id told to the client, vector the index holds there) and timestamp; an error;
    an access outside the id table. *)
Inductive sres := SAns (rows : list (Z * Z)) (ts : Z) | SErr (e : err) | SBad.

Fixpoint map_ids (l : list Z) (rows : list Z) (ps : list nat) : option (list (Z * Z)) :=
  match ps with
  | [] => Some []
  | p :: ps =>
      match nth_error l p, nth_error rows p, map_ids l rows ps with
      | Some a, Some b, Some r => Some ((a, b) :: r)
      | _, _, _ => None
      end
  end.

(** DiskANNItem::Search, diskann_item.cc:371-460; [ps] are the positions the library answers with, all
    inside the loaded index (those outside are dropped here; the library's sentinel is skipped in
    diskann_core.cc:881-883). *)
Definition search (w : world) (ps : list nat) : sres :=
  let i := wi w in
  match lerr i with
  | Some e => SErr e
  | None =>
      match st i with
      | NoData => SErr EIsNoData
      | Loaded =>
          match icore i with
          | None => SBad
          | Some c =>
              if negb (cload c) then SErr ENotLoad
              else
                match map_ids (ids i) (crows c) (filter (fun p => Nat.ltb p (length (crows c))) ps) with
                | Some rows => SAns rows (its i)
                | None => SBad
                end
          end
      | Builded | UpdatingPath | UpdatedPath | FakeBuilded => SErr ENotLoad
      | Building => SErr EIsBuilding
      | Loading => SErr EIsLoading
      | Importing => SErr EIsImporting
      | Imported => SErr ENotBuild
      | _ => if files_exist (wd w) then SErr ENotLoad else SErr ENotBuild
      end
  end.

Inductive event :=
| EPush (q : push)
| EBuild (force : bool)
| ELoad
| ETryLoad
| EClose
| EDestroy (f1 f2 f3 : bool)
| ESetNoData
| ESetTooMany
| EJob (n : nat) (v : env)
| EStop.

Definition put (w : world) (x : disk * item * rep) : world * rep :=
  let '(d, i, r) := x in (mkWorld d i (wjobs w) (wgen w) (wdead w), r).

(** One request handled under the item's lock, one step of a build or load, or a stop and restart of the
    process (which loses everything but the files). *)
Definition act (tmo : Z) (w : world) (e : event) : world * rep :=
  match e with
  | EStop => let '(d, i) := look (wd w) in (mkWorld d i [] (wgen w) false, ROk)
  | _ =>
      if wdead w then (w, RErr EInternal)
      else
        match e with
        | EPush q => put w (import tmo (wd w) (wi w) q)
        | EBuild force => build w force
        | ELoad => load w
        | ETryLoad => try_load w
        | EClose => put w (do_close (wd w) (wi w) None)
        | EDestroy f1 f2 f3 => put w (do_close (wd w) (wi w) (Some (f1, f2, f3)))
        | ESetNoData => put w (set_no_data (wd w) (wi w))
        | ESetTooMany => let '(i, r) := set_too_many (wi w) in (set_item w i, r)
        | EJob n v => (run_job w n v, ROk)
        | EStop => (w, ROk)
        end
  end.

Definition start : world := mkWorld (mkDisk None None None None false) (blank Unknown) [] 0 false.

Definition run (tmo : Z) (w : world) (es : list event) : world :=
  fold_left (fun w e => fst (act tmo w e)) es w.

(** The store's side: VectorIndexDiskANN::DoBuild, vector_index_diskann.cc:739-886.  Rows (id, vector) are
    added to a request until its estimated size reaches the limit; [full n] says whether n rows reach it.
    [acc] is the request being filled, [sent] is last_count. *)
Fixpoint batches (full : nat -> bool) (acc : list (Z * Z)) (sent : Z) (rows : list (Z * Z))
  : list (list (Z * Z) * Z * bool) :=
  match rows with
  | [] => [(acc, sent, false)]
  | r :: rows =>
      let acc' := acc ++ [r] in
      if full (length acc')
      then (acc', sent, true) :: batches full [] (sent + Z.of_nat (length acc')) rows
      else batches full acc' sent rows
  end.

Definition to_push (ts tso now : Z) (b : list (Z * Z) * Z * bool) : push :=
  let '(l, off, more) := b in
  mkPush (map snd l) (map fst l) more off ts tso now false RenOk RenOk.

Inductive plan := PlanNoData | PlanTooMany | PlanPush (ps : list push).

(** The choice by the region's count: vector_index_diskann.cc:764-790, constant.h:265-267. *)
Definition client_plan (full : nat -> bool) (ts tso now : Z) (rows : list (Z * Z)) : plan :=
  let n := Z.of_nat (length rows) in
  if n <? kmin then PlanNoData
  else if kmax <? n then PlanTooMany
  else PlanPush (map (to_push ts tso now) (batches full [] 0 rows)).
