(** Model of the in-memory (LRU) and on-disk (SQLite) caches of compiled code.
    Source: /repo/src/llvm_state_cache.cpp. *)
From Coq Require Import List NArith ZArith Ascii Bool.
From Verif Require Import M_Blob.
Import ListNotations.

(** include/heyoka/detail/llvm_state_mem_cache: llvm_mc_value. *)
Record mval := MkVal { opt_bc : list bytes; opt_ir : list bytes; obj : list bytes }.

(** Key: bitcode of the modules and compilation flag
    (llvm_state_cache.cpp:99 lru_queue_t). *)
Definition mkey := (list bytes * N)%type.

Definition vec_eqb (a b : list bytes) : bool :=
  if list_eq_dec (list_eq_dec ascii_dec) a b then true else false.

Definition key_eqb (a b : mkey) : bool := vec_eqb (fst a) (fst b) && N.eqb (snd a) (snd b).

Definition bytes_size (v : list bytes) : N :=
  fold_right (fun s acc => (N.of_nat (length s) + acc)%N) 0%N v.

(** llvm_state_cache.cpp:60-75 llvm_mc_value::total_size.
    Simplification: the overflow check of safe<size_t> is not modelled. *)
Definition val_size (v : mval) : N :=
  (bytes_size (opt_bc v) + bytes_size (opt_ir v) + bytes_size (obj v))%N.

(** llvm_state_cache.cpp:185-194 llvm_state_memcache_bc_size. *)
Definition key_size (k : mkey) : N := bytes_size (fst k).

(** ** In-memory cache *)

(** llvm_state_cache.cpp:97-150: lru_queue, lru_map, memcache_size, memcache_limit.
    The map is keyed by iterators into the queue and compares the pointed-to keys;
    here it is an association list keyed by the keys themselves. *)
Record mem := MkMem {
  m_queue : list mkey;
  m_map   : list (mkey * mval);
  m_size  : N;
  m_limit : N
}.

(** llvm_state_cache.cpp:86 default_memcache_size. *)
Definition mem_init : mem := MkMem [] [] 0 2147483648.

(** lru_map.find / llvm_state_memcache_hl (lines 156-182). *)
Fixpoint map_find (k : mkey) (m : list (mkey * mval)) : option mval :=
  match m with
  | [] => None
  | (k', v) :: m' => if key_eqb k k' then Some v else map_find k m'
  end.

Fixpoint map_erase (k : mkey) (m : list (mkey * mval)) : list (mkey * mval) :=
  match m with
  | [] => []
  | (k', v) :: m' => if key_eqb k k' then m' else (k', v) :: map_erase k m'
  end.

(** llvm_state_cache.cpp:227-253, the eviction loop.  Returns the cache and
    new_cache_size.  [fuel] is the length of the queue; [UB] stands for the
    dereference of an end iterator (assert at line 236). *)
Fixpoint mem_evict (fuel : nat) (c : mem) (new_size : N) : res (mem * N) :=
  if (m_limit c <? new_size)%N then
    match m_queue c with
    | [] => Ok (c, new_size)
    | _ =>
      match fuel with
      | O => UB
      | S fuel' =>
        let last_key := last (m_queue c) ([], 0%N) in
        match map_find last_key (m_map c) with
        | None => UB
        | Some v =>
          let cur_size := (val_size v + key_size last_key)%N in
          mem_evict fuel'
            (MkMem (removelast (m_queue c)) (map_erase last_key (m_map c))
                   (m_size c - cur_size)%N (m_limit c))
            (new_size - cur_size)%N
        end
      end
    end
  else Ok (c, new_size).

(** llvm_state_cache.cpp:221-283 llvm_state_memcache_insert_impl. *)
Definition mem_insert_impl (c : mem) (k : mkey) (v : mval) : res mem :=
  let new_size := (m_size c + val_size v + key_size k)%N in
  match mem_evict (length (m_queue c)) c new_size with
  | UB => UB
  | Ok (c', new_size') =>
    if (m_limit c' <? new_size')%N then Ok c'                       (* lines 255-261 *)
    else Ok (MkMem (k :: m_queue c') ((k, v) :: m_map c') new_size' (m_limit c'))
  end.

(** list::splice of one element to the front (line 1243). *)
Definition move_front (k : mkey) (q : list mkey) : list mkey :=
  k :: filter (fun k' => negb (key_eqb k k')) q.

(** llvm_state_cache.cpp:1236-1248, the hit branch of the lookup. *)
Definition mem_lookup (c : mem) (k : mkey) : option (mval * mem) :=
  match map_find k (m_map c) with
  | Some v => Some (v, MkMem (move_front k (m_queue c)) (m_map c) (m_size c) (m_limit c))
  | None => None
  end.

(** ** On-disk cache *)

(** llvm_state_cache.cpp:474-504: a row of the "cache" table. *)
Record row := MkRow {
  r_hash : Z; r_bc : bytes; r_flag : N; r_fp : bytes;
  r_optbc : bytes; r_optir : bytes; r_obj : bytes;
  r_size : Z; r_access : Z
}.

(** The database: the "cache" table and the two mutable rows of "config"
    (lines 506-519). *)
Record db := MkDb { d_rows : list row; d_total : Z; d_limit : Z }.

(** llvm_state_cache.cpp:88,514-519: a freshly created database. *)
Definition db_init : db := MkDb [] 0 21474836480.

(** COALESCE(MAX(last_access), 0) + 1 (lines 529, 539). *)
Definition next_access (rs : list row) : Z :=
  match rs with
  | [] => 1
  | r :: rs' => fold_left (fun acc r' => Z.max acc (r_access r')) rs' (r_access r) + 1
  end.

Definition set_access (r : row) (a : Z) : row :=
  MkRow (r_hash r) (r_bc r) (r_flag r) (r_fp r) (r_optbc r) (r_optir r) (r_obj r) (r_size r) a.

Fixpoint find_hash (h : Z) (rs : list row) : option row :=
  match rs with
  | [] => None
  | r :: rs' => if Z.eqb h (r_hash r) then Some r else find_hash h rs'
  end.

(** UPDATE cache SET last_access = ... WHERE hash = ? (lines 529-531). *)
Definition bump (h : Z) (rs : list row) : list row :=
  let a := next_access rs in
  map (fun r => if Z.eqb h (r_hash r) then set_access r a else r) rs.

(** SELECT rowid ... ORDER BY last_access ASC LIMIT 1 (lines 542-543). *)
Fixpoint min_access (r : row) (rs : list row) : row :=
  match rs with
  | [] => r
  | r' :: rs' => if (r_access r' <? r_access r)%Z then min_access r' rs' else min_access r rs'
  end.

(** DELETE ... WHERE rowid = ...: the rowid is the INTEGER PRIMARY KEY, i.e. the hash. *)
Definition delete_hash (h : Z) (rs : list row) : list row :=
  filter (fun r => negb (Z.eqb h (r_hash r))) rs.

Definition evict_row (rs : list row) : list row :=
  match rs with
  | [] => []
  | r :: rs' => delete_hash (r_hash (min_access r rs')) rs
  end.

(** SQL statements issued by the cache, and a connection: the committed database
    and, inside a transaction, the uncommitted copy.  SQLite's guarantee that a
    crash or a ROLLBACK discards exactly the uncommitted copy is trusted. *)
Inductive stmt :=
| SBegin                       (* BEGIN IMMEDIATE *)
| SEvict                       (* m_evict_stmt, lines 542-543 *)
| SInsert (r : row)            (* m_insert_stmt, lines 536-539; r_access is ignored *)
| SSetTotal (z : Z)            (* UPDATE config SET value = z WHERE key = 'total_size' *)
| SSetLimit (z : Z)            (* UPDATE config SET value = z WHERE key = 'size_limit' *)
| SBump (h : Z)                (* m_lookup_stmt, lines 529-531 *)
| SDeleteAll                   (* DELETE FROM cache *)
| SCommit.                     (* COMMIT *)

Record conn := MkConn { c_db : db; c_txn : option db }.

Definition stmt_db (s : stmt) (d : db) : db :=
  match s with
  | SEvict => MkDb (evict_row (d_rows d)) (d_total d) (d_limit d)
  | SInsert r =>                                      (* INSERT OR IGNORE: hash is the primary key *)
    match find_hash (r_hash r) (d_rows d) with
    | Some _ => d
    | None => MkDb (set_access r (next_access (d_rows d)) :: d_rows d) (d_total d) (d_limit d)
    end
  | SSetTotal z => MkDb (d_rows d) z (d_limit d)
  | SSetLimit z => MkDb (d_rows d) (d_total d) z
  | SBump h => MkDb (bump h (d_rows d)) (d_total d) (d_limit d)
  | SDeleteAll => MkDb [] (d_total d) (d_limit d)
  | SBegin | SCommit => d
  end.

Definition exec (c : conn) (s : stmt) : conn :=
  match s, c_txn c with
  | SBegin, _ => MkConn (c_db c) (Some (c_db c))
  | SCommit, Some d => MkConn d None
  | SCommit, None => c
  | _, Some d => MkConn (c_db c) (Some (stmt_db s d))
  | _, None => MkConn (stmt_db s (c_db c)) None
  end.

(** The database found by the next process after executing [prog] on [d] up to its
    end (or up to a crash, if [prog] is a prefix). *)
Definition exec_prog (d : db) (prog : list stmt) : db :=
  c_db (fold_left exec prog (MkConn d None)).

(** Eviction loop, lines 879-908: the statements issued, the remaining rows, the
    updated total size.  [fuel]: number of rows. *)
Fixpoint evict_loop (fuel : nat) (rs : list row) (total entry limit : Z) : list stmt * list row * Z :=
  if (limit <? total + entry)%Z then
    match fuel, rs with
    | S fuel', r :: rs' =>
      let v := min_access r rs' in
      let '(p, rs2, t2) := evict_loop fuel' (evict_row rs) (total - r_size v)%Z entry limit in
      (SEvict :: p, rs2, t2)
    | _, _ => ([], rs, total)
    end
  else ([], rs, total).

Definition blob_len (b : bytes) : Z := Z.of_nat (length b).

Section Disk.

(** compute_hash (lines 1073-1088): the theorems hold for every hash function,
    including constant ones. *)
Variable hash : list bytes -> N -> bytes -> Z.

(** llvm_state_cache.cpp:704-821 lookup, for an enabled cache in a process whose
    environment fingerprint is [fp].  The result is the value, the new database.
    [UB]: a violated assertion of the blob readers. *)
Definition db_lookup (fp : bytes) (d : db) (k : mkey) : res (option mval * db) :=
  let h := hash (fst k) (snd k) fp in
  match find_hash h (d_rows d) with
  | None => Ok (None, d)                                             (* lines 737-742 *)
  | Some r =>
    let d' := exec_prog d [SBump h] in
    if negb (N.eqb (r_flag r) (snd k)) then Ok (None, d')            (* lines 775-788 *)
    else if negb (bytes_eqb (r_fp r) fp) then Ok (None, d')
    else
      match vec_str_matches_blob (r_bc r) (fst k) with
      | UB => UB
      | Ok false => Ok (None, d')
      | Ok true =>
        match deserialize_vec_str (r_optbc r), deserialize_vec_str (r_optir r), deserialize_vec_str (r_obj r) with
        | Ok a, Ok b, Ok c => Ok (Some (MkVal a b c), d')             (* lines 790-808 *)
        | _, _, _ => UB
        end
      end
  end.

(** llvm_state_cache.cpp:824-978 insert: the statements issued.  [None] is an
    exception before BEGIN (a blob longer than INT_MAX), which is swallowed. *)
Definition db_insert_prog (fp : bytes) (d : db) (k : mkey) (v : mval) : option (list stmt) :=
  match serialize_vec_str (fst k), serialize_vec_str (opt_bc v),
        serialize_vec_str (opt_ir v), serialize_vec_str (obj v) with
  | Some b0, Some b1, Some b2, Some b3 =>
    let h := hash (fst k) (snd k) fp in
    let entry := (blob_len b0 + blob_len b1 + blob_len b2 + blob_len b3)%Z in   (* line 853 *)
    let '(ev, rs, total) := evict_loop (length (d_rows d)) (d_rows d) (d_total d) entry (d_limit d) in
    let fits := (total + entry <=? d_limit d)%Z in                               (* line 911 *)
    let changed := fits && match find_hash h rs with None => true | Some _ => false end in
    Some (SBegin :: ev
          ++ (if fits then [SInsert (MkRow h b0 (snd k) fp b1 b2 b3 entry 0)] else [])
          ++ [SSetTotal (if changed then total + entry else total)%Z; SCommit])
  | _, _, _, _ => None
  end.

(** The insertion, executed up to its [n]-th statement ([None]: completely). *)
Definition db_insert (n : option nat) (fp : bytes) (d : db) (k : mkey) (v : mval) : db :=
  match db_insert_prog fp d k v with
  | None => d
  | Some prog => exec_prog d (match n with None => prog | Some n => firstn n prog end)
  end.

(** llvm_state_cache.cpp:1028-1047 clear. *)
Definition clear_prog : list stmt := [SBegin; SDeleteAll; SSetTotal 0; SCommit].

Definition db_clear (n : option nat) (d : db) : db :=
  exec_prog d (match n with None => clear_prog | Some n => firstn n clear_prog end).

(** llvm_state_cache.cpp:996-1010 set_limit; [None] is the exception. *)
Definition db_set_limit (d : db) (l : Z) : option db :=
  if (l <? 0)%Z then None else Some (exec_prog d [SSetLimit l]).

(** ** Processes sharing databases *)

(** A running process: its memory cache, its disk cache switch and directory
    (diskcache_state, lines 690-699) and its compile-time fingerprint (line 306). *)
Record proc := MkProc { p_mem : mem; p_enabled : bool; p_dir : N; p_fp : bytes }.

Record world := MkWorld { w_procs : N -> proc; w_dbs : N -> db }.

(** The API.  [OpCrashInsert n k v fp] ([OpCrashClear n fp]) is a call of try_insert
    (clear_diskcache) in a process killed after [n] database statements, which then
    restarts with fingerprint [fp]; [OpRestart] is a kill between calls. *)
Inductive op :=
| OpLookup (k : mkey)
| OpTryInsert (k : mkey) (v : mval)
| OpSetMemLimit (l : N)
| OpClearMem
| OpSetEnabled (b : bool)
| OpSetDir (d : N)
| OpSetDiskLimit (l : Z)
| OpClearDisk
| OpCrashInsert (n : nat) (k : mkey) (v : mval) (fp : bytes)
| OpCrashClear (n : nat) (fp : bytes)
| OpRestart (fp : bytes).

Inductive answer := AUnit | AVal (v : option mval) | AError.

Definition upd {A} (f : N -> A) (i : N) (a : A) : N -> A :=
  fun j => if N.eqb j i then a else f j.

Definition with_mem (p : proc) (m : mem) : proc := MkProc m (p_enabled p) (p_dir p) (p_fp p).
Definition put_proc (w : world) (i : N) (p : proc) : world := MkWorld (upd (w_procs w) i p) (w_dbs w).
Definition put_db (w : world) (i : N) (d : db) : world := MkWorld (w_procs w) (upd (w_dbs w) i d).

(** One API call of process [i] (each call holds the global mutex, and each
    database statement sequence is a transaction, so calls are atomic). *)
Definition step (w : world) (i : N) (o : op) : res (answer * world) :=
  let p := w_procs w i in
  let d := w_dbs w (p_dir p) in
  match o with
  | OpLookup k =>                                                  (* lines 1219-1248 *)
    match mem_lookup (p_mem p) k with
    | Some (v, m') => Ok (AVal (Some v), put_proc w i (with_mem p m'))
    | None =>
      if p_enabled p then
        match db_lookup (p_fp p) d k with
        | UB => UB
        | Ok (None, d') => Ok (AVal None, put_db w (p_dir p) d')
        | Ok (Some v, d') =>
          match mem_insert_impl (p_mem p) k v with
          | UB => UB
          | Ok m' => Ok (AVal (Some v), put_proc (put_db w (p_dir p) d') i (with_mem p m'))
          end
        end
      else Ok (AVal None, w)
    end
  | OpTryInsert k v =>                                             (* lines 1250-1274 *)
    let w1 := if p_enabled p then put_db w (p_dir p) (db_insert None (p_fp p) d k v) else w in
    match map_find k (m_map (p_mem p)) with
    | Some _ => Ok (AUnit, w1)
    | None =>
      match mem_insert_impl (p_mem p) k v with
      | UB => UB
      | Ok m' => Ok (AUnit, put_proc w1 i (with_mem p m'))
      end
    end
  | OpSetMemLimit l =>                                             (* lines 1294-1300 *)
    let m := p_mem p in
    Ok (AUnit, put_proc w i (with_mem p (MkMem (m_queue m) (m_map m) (m_size m) l)))
  | OpClearMem =>                                                  (* lines 1302-1313 *)
    Ok (AUnit, put_proc w i (with_mem p (MkMem [] [] 0 (m_limit (p_mem p)))))
  | OpSetEnabled b =>                                              (* lines 1347-1353 *)
    Ok (AUnit, put_proc w i (MkProc (p_mem p) b (p_dir p) (p_fp p)))
  | OpSetDir dir =>                                                (* lines 1323-1338 *)
    Ok (AUnit, put_proc w i (MkProc (p_mem p) (p_enabled p) dir (p_fp p)))
  | OpSetDiskLimit l =>
    match db_set_limit d l with
    | None => Ok (AError, w)
    | Some d' => Ok (AUnit, put_db w (p_dir p) d')
    end
  | OpClearDisk => Ok (AUnit, put_db w (p_dir p) (db_clear None d))
  | OpCrashInsert n k v fp =>
    let w1 := if p_enabled p then put_db w (p_dir p) (db_insert (Some n) (p_fp p) d k v) else w in
    Ok (AUnit, put_proc w1 i (MkProc mem_init false 0 fp))
  | OpCrashClear n fp =>
    Ok (AUnit, put_proc (put_db w (p_dir p) (db_clear (Some n) d)) i (MkProc mem_init false 0 fp))
  | OpRestart fp => Ok (AUnit, put_proc w i (MkProc mem_init false 0 fp))
  end.

(** A history: calls with the calling process. *)
Fixpoint run (w : world) (h : list (N * op)) : res (list answer * world) :=
  match h with
  | [] => Ok ([], w)
  | (i, o) :: h' =>
    match step w i o with
    | UB => UB
    | Ok (a, w') =>
      match run w' h' with
      | UB => UB
      | Ok (l, w'') => Ok (a :: l, w'')
      end
    end
  end.

End Disk.

(** Processes just started, databases just created. *)
Definition world_init (fps : N -> bytes) : world :=
  MkWorld (fun i => MkProc mem_init false 0 (fps i)) (fun _ => db_init).
