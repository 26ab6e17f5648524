(** Specification vocabulary for the code caches (C30, C31). *)
From Coq Require Import List NArith ZArith Ascii Bool Permutation.
From Verif Require Import M_Blob M_Cache.
Import ListNotations.
Local Open Scope N_scope.

(** ** In-memory cache *)

(** Size of an entry, and of a list of entries. *)
Definition entry_size (e : mkey * mval) : N := val_size (snd e) + key_size (fst e).
Definition total_size (l : list (mkey * mval)) : N := fold_right (fun e acc => entry_size e + acc) 0 l.

(** Contents of the cache, most recently used first. *)
Fixpoint collect (q : list mkey) (m : list (mkey * mval)) : list (mkey * mval) :=
  match q with
  | [] => []
  | k :: q' => match map_find k m with
               | Some v => (k, v) :: collect q' m
               | None => collect q' m
               end
  end.
Definition mem_entries (c : mem) : list (mkey * mval) := collect (m_queue c) (m_map c).

(** The LRU insertion specification, on the contents (most recently used first). *)
Definition lru_insert (old : list (mkey * mval)) (e : mkey * mval) (limit : N) (new : list (mkey * mval)) : Prop :=
  (limit < entry_size e /\ new = []) \/
  (exists kept evicted,
     old = kept ++ evicted /\ new = e :: kept /\ total_size new <= limit /\
     (forall x l, evicted = x :: l -> limit < total_size (e :: kept ++ [x]))).

(** Specification of a hit: the entry moves to the front, the others keep their order. *)
Definition lru_touch (old : list (mkey * mval)) (k : mkey) (v : mval) (new : list (mkey * mval)) : Prop :=
  exists before after, old = before ++ (k, v) :: after /\ new = (k, v) :: before ++ after.

(** ** On-disk cache *)

(** Sum of the sizes recorded with the rows. *)
Definition rows_size (rs : list row) : Z := fold_right (fun r acc => (r_size r + acc)%Z) 0%Z rs.

(** ** Histories *)


(** The environment fingerprint of each process after a history: the initial one
    unless the process was restarted. *)
Fixpoint fp_of (fps : N -> bytes) (h : list (N * op)) : N -> bytes :=
  match h with
  | [] => fps
  | (i, OpCrashInsert _ _ _ fp) :: h' => fp_of (upd fps i fp) h'
  | (i, OpCrashClear _ fp) :: h' => fp_of (upd fps i fp) h'
  | (i, OpRestart fp) :: h' => fp_of (upd fps i fp) h'
  | _ :: h' => fp_of fps h'
  end.

(** Some process with fingerprint [fp] asked to store [v] for key [k] during [h]. *)
Definition inserted (fps : N -> bytes) (h : list (N * op)) (fp : bytes) (k : mkey) (v : mval) : Prop :=
  exists h1 i o h2, h = h1 ++ (i, o) :: h2 /\
    (o = OpTryInsert k v \/ exists n fp', o = OpCrashInsert n k v fp') /\
    fp_of fps h1 i = fp.

(** Worlds reachable by the API calls of any number of processes, including crashes. *)
Definition reachable (hash : list bytes -> N -> bytes -> Z) (w : world) : Prop :=
  exists fps h answers, run hash (world_init fps) h = Ok (answers, w).
