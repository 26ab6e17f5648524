(** C30 and C31: the in-memory and on-disk caches of compiled code. *)
From Coq Require Import List NArith ZArith Ascii Bool Lia Arith Permutation.
From Verif Require Import M_Blob P_Blob M_Cache S_Cache P_MemCache P_DiskCache P_Cache.
Import ListNotations.

Lemma reachable_inv : forall hash w, reachable hash w ->
  exists I fps, winv hash I fps w.
Proof.
  intros hash w (fps & h & answers & E).
  destruct (run_inv hash h _ fps _ (winv_init hash fps)) as (a' & w' & E' & Hw & _).
  rewrite E in E'. inversion E'; subst. eauto.
Qed.

(** No history of API calls, by any number of processes sharing any number of cache
    directories, with crashes at any database statement and with any (possibly
    colliding) hash function, ever violates an internal assertion. *)
Theorem cache_no_ub : forall hash fps h, exists answers w, run hash (world_init fps) h = Ok (answers, w).
Proof.
  intros. destruct (run_inv hash h _ fps _ (winv_init hash fps)) as (a' & w' & E' & _). eauto.
Qed.

(** Soundness of both caches: if a lookup of key [k] by process [i] returns [v], then
    [v] was handed to the cache for exactly that key (same bitcode, same flags) by a
    process with the same environment fingerprint earlier in the history. *)
Theorem cache_lookup_sound : forall hash fps h1 i k h2 answers w v,
  run hash (world_init fps) (h1 ++ (i, OpLookup k) :: h2) = Ok (answers, w) ->
  nth_error answers (length h1) = Some (AVal (Some v)) ->
  inserted fps h1 (fp_of fps h1 i) k v.
Proof.
  intros hash fps h1 i k h2 answers w v E Hn.
  destruct (run_inv hash (h1 ++ (i, OpLookup k) :: h2) _ fps _ (winv_init hash fps)) as (a' & w' & E' & _ & H).
  rewrite E in E'. inversion E'; subst. destruct (H h1 i k h2 v eq_refl Hn) as [[]|]; auto.
Qed.

(** ** In-memory cache (C30) *)

(** get_memcache_size is always the exact total size of the contents. *)
Theorem memcache_size_exact : forall hash w i, reachable hash w ->
  let m := p_mem (w_procs w i) in
  m_size m = total_size (mem_entries m) /\ NoDup (map fst (mem_entries m)).
Proof.
  intros hash w i Hr m. destruct (reachable_inv hash w Hr) as (I & fps & [H _]). destruct (H i) as (_ & Hm & _).
  fold m in Hm. split; [apply mem_size_entries; auto|].
  destruct Hm as (I1 & I2 & I3 & I4). unfold mem_entries. rewrite collect_fst; auto. intros. apply I3; auto.
Qed.

(** Inserting a key that is not in memory: the new entry becomes the most recently
    used one and exactly the least recently used entries that do not fit any more
    are dropped; the size is within the limit. *)
Theorem memcache_insert_lru : forall hash w i k v, reachable hash w ->
  let m := p_mem (w_procs w i) in
  ~ In k (map fst (mem_entries m)) ->
  exists w', step hash w i (OpTryInsert k v) = Ok (AUnit, w') /\
    let m' := p_mem (w_procs w' i) in
    lru_insert (mem_entries m) (k, v) (m_limit m) (mem_entries m') /\
    m_limit m' = m_limit m /\ (m_size m' <= m_limit m')%N.
Proof.
  intros hash w i k v Hr m Hni. destruct (reachable_inv hash w Hr) as (I & fps & [H _]). destruct (H i) as (_ & Hm & _).
  fold m in Hm.
  assert (Hn : map_find k (m_map m) = None).
  { destruct (map_find k (m_map m)) eqn:E; auto. apply mem_entries_find in E; auto. apply (in_map fst) in E. contradiction. }
  destruct (insert_impl_spec m k v Hm Hn) as (m' & Em & Hm' & Hl & HL).
  cbn [step]. fold m. rewrite Hn, Em. eexists. split; [reflexivity|].
  cbn zeta. unfold put_proc. cbn [w_procs]. rewrite upd_same. cbn [with_mem p_mem].
  split; auto. split; auto. rewrite Hl, mem_size_entries by auto.
  destruct HL as [[_ ->]|(kept & ev & _ & -> & Ht & _)]; auto. simpl. lia.
Qed.

(** A hit returns the stored value, moves the entry to the front and changes nothing
    else in memory. *)
Theorem memcache_hit_lru : forall hash w i k v, reachable hash w ->
  let m := p_mem (w_procs w i) in
  In (k, v) (mem_entries m) ->
  exists w', step hash w i (OpLookup k) = Ok (AVal (Some v), w') /\
    lru_touch (mem_entries m) k v (mem_entries (p_mem (w_procs w' i))) /\
    (forall j, w_dbs w' j = w_dbs w j).
Proof.
  intros hash w i k v Hr m Hin. destruct (reachable_inv hash w Hr) as (I & fps & [H _]). destruct (H i) as (_ & Hm & _).
  fold m in Hm. pose proof (lookup_spec m k Hm) as HL. cbn [step]. fold m.
  apply mem_entries_find in Hin; auto. unfold mem_lookup in *. rewrite Hin in *.
  destruct HL as (_ & _ & HL).
  eexists. split; [reflexivity|]. split; [|reflexivity].
  unfold put_proc. cbn [w_procs]. rewrite upd_same. cbn [with_mem p_mem]. exact HL.
Qed.

(** Consequence: an entry that fits in the limit is found by the next lookup. *)
Theorem memcache_insert_then_hit : forall hash w i k v, reachable hash w ->
  let m := p_mem (w_procs w i) in
  ~ In k (map fst (mem_entries m)) -> (entry_size (k, v) <= m_limit m)%N ->
  exists w' w'', step hash w i (OpTryInsert k v) = Ok (AUnit, w') /\
    step hash w' i (OpLookup k) = Ok (AVal (Some v), w'').
Proof.
  intros hash w i k v Hr m Hni Hsz.
  destruct (memcache_insert_lru hash w i k v Hr Hni) as (w' & E & HL & _ & _). fold m in HL.
  assert (Hr' : reachable hash w').
  { destruct Hr as (fps & h & ans & Eh). exists fps, (h ++ [(i, OpTryInsert k v)]), (ans ++ [AUnit]).
    revert ans Eh. generalize (world_init fps). induction h as [|[j o] h IH]; intros w0 ans Eh; cbn in Eh.
    - inversion Eh; subst. cbn [run app]. rewrite E. reflexivity.
    - cbn [run app]. destruct (step hash w0 j o) as [[a w1]|]; [|discriminate].
      destruct (run hash w1 h) as [[l w2]|] eqn:E1; [|discriminate]. inversion Eh; subst.
      rewrite (IH _ _ E1). reflexivity. }
  destruct HL as [[HL _]|(kept & ev & _ & Hnew & _ & _)]; [lia|].
  destruct (memcache_hit_lru hash w' i k v Hr') as (w'' & E2 & _); [rewrite Hnew; simpl; auto|].
  exists w', w''. auto.
Qed.

(** ** On-disk cache (C31) *)

(** In every reachable world (crashes included) get_diskcache_size of every database is
    the exact sum of the sizes of its entries, and each entry's size is the number
    of bytes it stores. *)
Theorem diskcache_size_exact : forall hash w j, reachable hash w ->
  let d := w_dbs w j in
  d_total d = rows_size (d_rows d) /\
  Forall (fun r => r_size r = Z.of_nat (length (r_bc r) + length (r_optbc r) + length (r_optir r) + length (r_obj r))) (d_rows d) /\
  NoDup (map r_hash (d_rows d)).
Proof.
  intros hash w j Hr d. destruct (reachable_inv hash w Hr) as (I & fps & [_ H]). destruct (H j) as [(W1 & W2 & W3 & W4 & W5) Hrows].
  fold d in W1, W3, Hrows. split; auto. split; auto. apply Forall_forall. intros r Hin.
  destruct (Hrows r Hin) as (fp & k & v & _ & Hrow). destruct Hrow as (_ & _ & _ & _ & _ & _ & _ & Hs).
  rewrite Hs. unfold blob_len. lia.
Qed.

(** Crash atomicity: killing the process after any number [n] of database statements of
    an insertion (or of a clear) leaves every database either as before the call or as
    after the complete call. *)
Theorem diskcache_crash_atomic : forall hash w i n k v fp, reachable hash w ->
  exists w1 w2 w3 w4,
    step hash w i (OpCrashInsert n k v fp) = Ok (AUnit, w1) /\
    step hash w i (OpTryInsert k v) = Ok (AUnit, w2) /\
    ((forall j, w_dbs w1 j = w_dbs w j) \/ (forall j, w_dbs w1 j = w_dbs w2 j)) /\
    step hash w i (OpCrashClear n fp) = Ok (AUnit, w3) /\
    step hash w i OpClearDisk = Ok (AUnit, w4) /\
    ((forall j, w_dbs w3 j = w_dbs w j) \/ (forall j, w_dbs w3 j = w_dbs w4 j)).
Proof.
  intros hash w i n k v fp Hr. destruct (reachable_inv hash w Hr) as (I & fps & [HP HD]).
  destruct (HP i) as (Hfp & Hm & _).
  set (p := w_procs w i) in *. set (d := w_dbs w (p_dir p)) in *.
  assert (Hins : exists w2, step hash w i (OpTryInsert k v) = Ok (AUnit, w2) /\
     forall j, w_dbs w2 j = w_dbs (if p_enabled p then put_db w (p_dir p) (db_insert hash None (p_fp p) d k v) else w) j).
  { cbn [step]. fold p. fold d. destruct (map_find k (m_map (p_mem p))) eqn:E.
    - eexists; split; [reflexivity|]. reflexivity.
    - destruct (insert_impl_spec (p_mem p) k v Hm E) as (m' & Em & _). rewrite Em.
      eexists; split; [reflexivity|]. reflexivity. }
  destruct Hins as (w2 & E2 & Hw2).
  eexists _, w2, _, _. split; [cbn [step]; fold p; fold d; reflexivity|].
  split; [exact E2|]. split; [|split; [cbn [step]; fold p; fold d; reflexivity|split; [cbn [step]; fold p; fold d; reflexivity|]]].
  - destruct (p_enabled p).
    + destruct (db_insert_atomic hash (p_fp p) d k v n) as [E|E]; [apply HD| |].
      * left. intros j. cbn [put_proc put_db w_dbs]. rewrite E. unfold upd. destruct (N.eqb_spec j (p_dir p)); subst; auto.
      * right. intros j. rewrite Hw2. cbn [put_proc put_db w_dbs]. rewrite E. reflexivity.
    + left. reflexivity.
  - destruct (db_clear_atomic d n) as [E|E].
    + left. intros j. cbn [put_proc put_db w_dbs]. rewrite E. unfold upd. destruct (N.eqb_spec j (p_dir p)); subst; auto.
    + right. intros j. cbn [put_proc put_db w_dbs]. rewrite E, db_clear_full. reflexivity.
Qed.

(** A completed insertion: the surviving rows are those used more recently than every
    evicted row; something is evicted only if keeping it would exceed the limit; the
    new entry is stored unless it does not fit at all or its hash is taken; the
    resulting total is within the limit. *)
Theorem diskcache_insert_lru : forall hash w i k v w', reachable hash w ->
  step hash w i (OpTryInsert k v) = Ok (AUnit, w') ->
  p_enabled (w_procs w i) = true ->
  let d := w_dbs w (p_dir (w_procs w i)) in
  let d' := w_dbs w' (p_dir (w_procs w i)) in
  forall b0 b1 b2 b3,
  serialize_vec_str (fst k) = Some b0 -> serialize_vec_str (opt_bc v) = Some b1 ->
  serialize_vec_str (opt_ir v) = Some b2 -> serialize_vec_str (obj v) = Some b3 ->
  let sz := Z.of_nat (length b0 + length b1 + length b2 + length b3) in
  (d_total d' <= d_limit d')%Z /\ d_limit d' = d_limit d /\
  exists kept evicted,
    Permutation (d_rows d) (kept ++ evicted) /\
    (forall a b, In a kept -> In b evicted -> (r_access b < r_access a)%Z) /\
    (evicted <> [] -> exists x, In x evicted /\ (forall b, In b evicted -> (r_access b <= r_access x)%Z) /\
        (d_limit d < rows_size kept + r_size x + sz)%Z) /\
    ((exists r, d_rows d' = r :: kept /\ r_bc r = b0 /\ r_flag r = snd k /\ r_fp r = p_fp (w_procs w i) /\
        r_optbc r = b1 /\ r_optir r = b2 /\ r_obj r = b3 /\ r_size r = sz /\
        (forall a, In a kept -> (r_access a < r_access r)%Z))
     \/ (d_rows d' = kept /\ In (hash (fst k) (snd k) (p_fp (w_procs w i))) (map r_hash kept))
     \/ (d_rows d' = [] /\ kept = [] /\ (d_limit d < sz)%Z)).
Proof.
  intros hash w i k v w' Hr E Hen d d' b0 b1 b2 b3 S0 S1 S2 S3 sz.
  destruct (reachable_inv hash w Hr) as (I & fps & [HP HD]). destruct (HP i) as (Hfp & Hm & _).
  set (p := w_procs w i) in *.
  assert (Hd' : d' = db_insert hash None (p_fp p) d k v).
  { unfold d'. cbn [step] in E. fold p in E. rewrite Hen in E. fold d in E.
    destruct (map_find k (m_map (p_mem p))) eqn:Ef.
    - inversion E; subst. cbn [put_db w_dbs]. apply upd_same.
    - destruct (mem_insert_impl (p_mem p) k v); [|discriminate]. inversion E; subst. cbn [put_proc put_db w_dbs]. apply upd_same. }
  assert (Hwf : db_wf d) by apply HD.
  assert (Hprog : exists prog, db_insert_prog hash (p_fp p) d k v = Some prog).
  { unfold db_insert_prog. rewrite S0, S1, S2, S3. destruct (evict_loop _ _ _ _ _) as [[? ?] ?]. eauto. }
  destruct Hprog as (prog & Hprog).
  unfold db_insert in Hd'. rewrite Hprog in Hd'.
  destruct (exec_insert_spec hash (p_fp p) d k v prog Hwf Hprog) as (body & row0 & rs' & Hrow & _ & _ & Hx & kept & ev & P & Ha & Hev & Hc).
  rewrite Hx in Hd'.
  destruct Hrow as (q1 & q2 & q3 & q4 & q5 & q6 & q7 & q8).
  rewrite S0 in q2. rewrite S1 in q5. rewrite S2 in q6. rewrite S3 in q7.
  assert (Hsz : r_size row0 = sz). { rewrite q8. inversion q2; inversion q5; inversion q6; inversion q7; subst. unfold blob_len, sz. lia. }
  rewrite Hsz in *. destruct Hwf as (W1 & W2 & W3 & W4 & W5).
  rewrite Hd'. cbn [d_total d_limit d_rows].
  assert (Hsz0 : (0 <= sz)%Z) by (unfold sz; lia).
  split; [|split; [reflexivity|]].
  - destruct Hc as [(Hf & _ & ->)|[(Hf & _ & ->)|(_ & _ & ->)]]; simpl; try lia.

  - exists kept, ev. split; auto. split; auto. split; auto.
    destruct Hc as [(Hf & Hni & ->)|[(Hf & Hin & ->)|(Hf & -> & ->)]].
    + left. eexists. split; [reflexivity|]. simpl. inversion q2; inversion q5; inversion q6; inversion q7; subst.
      repeat split; auto. intros a Hin. apply next_access_gt. auto.
    + right; left. split; auto. rewrite <- q1. auto.
    + right; right. auto.
Qed.

(** Persistence: a value stored under a hash not used by a surviving row is returned to
    any process with the same fingerprint using the same directory, e.g. after a
    restart, as long as nothing else happened to that database. *)
Theorem diskcache_insert_then_lookup : forall hash w i k v w' , reachable hash w ->
  step hash w i (OpTryInsert k v) = Ok (AUnit, w') ->
  p_enabled (w_procs w i) = true ->
  let p := w_procs w i in
  let d := w_dbs w (p_dir p) in
  forall b0 b1 b2 b3,
  serialize_vec_str (fst k) = Some b0 -> serialize_vec_str (opt_bc v) = Some b1 ->
  serialize_vec_str (opt_ir v) = Some b2 -> serialize_vec_str (obj v) = Some b3 ->
  (Z.of_nat (length b0 + length b1 + length b2 + length b3) <= d_limit d)%Z ->
  ~ In (hash (fst k) (snd k) (p_fp p)) (map r_hash (d_rows d)) ->
  exists d'', db_lookup hash (p_fp p) (w_dbs w' (p_dir p)) k = Ok (Some v, d'').
Proof.
  intros hash w i k v w' Hr E Hen p d b0 b1 b2 b3 S0 S1 S2 S3 Hfit Hni.
  destruct (diskcache_insert_lru hash w i k v w' Hr E Hen b0 b1 b2 b3 S0 S1 S2 S3) as (_ & _ & kept & ev & P & _ & _ & Hc).
  fold p d in P, Hc.
  assert (Hk : ~ In (hash (fst k) (snd k) (p_fp p)) (map r_hash kept)).
  { intros Hin. apply Hni. apply in_map_iff in Hin as (r & Hr1 & Hr2). rewrite <- Hr1. apply in_map.
    apply (Permutation_in _ (Permutation_sym P)). apply in_or_app. auto. }
  assert (Hh : exists r, d_rows (w_dbs w' (p_dir p)) = r :: kept /\ r_hash r = hash (fst k) (snd k) (p_fp p) /\
     r_bc r = b0 /\ r_flag r = snd k /\ r_fp r = p_fp p /\ r_optbc r = b1 /\ r_optir r = b2 /\ r_obj r = b3).
  { destruct Hc as [(r & Hrows & q1 & q2 & q3 & q4 & q5 & q6 & q7 & q8)|[(_ & Hin)|(_ & _ & Hlt)]]; [|contradiction|lia].
    exists r. split; auto. split; [|auto 10].
    assert (Hr' : reachable hash w').
    { destruct Hr as (fps & h & ans & Eh). exists fps, (h ++ [(i, OpTryInsert k v)]), (ans ++ [AUnit]).
      revert ans Eh. generalize (world_init fps). induction h as [|[j o] h IH]; intros w0 ans Eh; cbn in Eh.
      - inversion Eh; subst. cbn [run app]. rewrite E. reflexivity.
      - cbn [run app]. destruct (step hash w0 j o) as [[a w1]|]; [|discriminate].
        destruct (run hash w1 h) as [[l w2]|] eqn:E1; [|discriminate]. inversion Eh; subst.
        rewrite (IH _ _ E1). reflexivity. }
    destruct (reachable_inv hash w' Hr') as (I & fps & [_ HD]).
    destruct (HD (p_dir p)) as [_ Hrs]. destruct (Hrs r) as (fp' & k' & v' & _ & Hrow); [rewrite Hrows; simpl; auto|].
    destruct Hrow as (h1 & h2 & h3 & h4 & _). rewrite h1. f_equal; try congruence.
    rewrite q1 in h2. apply serialize_inv in S0 as [-> Hok0]. apply serialize_inv in h2 as [h2 Hok'].
    pose proof (deser_ser (fst k) (length (ser_buf (fst k))) Hok0 (le_n _)) as D1.
    pose proof (deser_ser (fst k') (length (ser_buf (fst k'))) Hok' (le_n _)) as D2.
    rewrite <- h2 in D2. congruence. }
  destruct Hh as (r & Hrows & q1 & q2 & q3 & q4 & q5 & q6 & q7).
  unfold db_lookup. rewrite Hrows. cbn [find_hash]. rewrite q1, Z.eqb_refl, q3, N.eqb_refl, q4.
  assert (Hfp : bytes_eqb (p_fp p) (p_fp p) = true) by (apply bytes_eqb_eq; reflexivity). rewrite Hfp. cbn [negb].
  rewrite q2, q5, q6, q7.
  apply serialize_inv in S0 as [-> ?]. apply serialize_inv in S1 as [-> ?].
  apply serialize_inv in S2 as [-> ?]. apply serialize_inv in S3 as [-> ?].
  destruct (matches_ser (fst k) (fst k)) as (b & -> & Hb); auto.
  assert (b = true) by (apply Hb; reflexivity). subst b.
  unfold deserialize_vec_str. rewrite !deser_ser by auto. destruct v. eauto.
Qed.

(** ** A concrete history meeting the hypotheses: two processes, a colliding hash
    function, a crash in the middle of an insertion, a restart. *)
Definition ex_hash (_ : list bytes) (_ : N) (_ : bytes) : Z := 7%Z.
Definition ex_b (n : nat) : list bytes := [repeat Ascii.zero n].
Definition ex_fps (_ : N) : bytes := [].
Definition ex_key1 : mkey := (ex_b 3, 1%N).
Definition ex_key2 : mkey := (ex_b 4, 1%N).
Definition ex_val : mval := MkVal (ex_b 5) (ex_b 6) (ex_b 7).
Definition ex_hist : list (N * op) :=
  [(0%N, OpSetEnabled true); (1%N, OpSetEnabled true);
   (0%N, OpTryInsert ex_key1 ex_val); (0%N, OpLookup ex_key1);
   (1%N, OpLookup ex_key2); (1%N, OpLookup ex_key1);
   (1%N, OpClearDisk);
   (0%N, OpCrashInsert 2 ex_key2 ex_val []); (0%N, OpSetEnabled true); (0%N, OpLookup ex_key2);
   (0%N, OpCrashInsert 4 ex_key2 ex_val []); (0%N, OpSetEnabled true); (0%N, OpLookup ex_key2)].
Example cache_history : exists w,
  run ex_hash (world_init ex_fps) ex_hist =
    Ok ([AUnit; AUnit; AUnit; AVal (Some ex_val); AVal None; AVal (Some ex_val); AUnit;
         AUnit; AUnit; AVal None; AUnit; AUnit; AVal (Some ex_val)], w)
  /\ d_total (w_dbs w 0%N) = 54%Z.
Proof. eexists. split; [vm_compute; reflexivity|]. vm_compute. reflexivity. Qed.
(** Eviction in memory: with a limit of 60 bytes the third entry of 21+ bytes drops the oldest. *)
Example memcache_eviction : exists answers w,
  run ex_hash (world_init ex_fps)
    [(0%N, OpSetMemLimit 50); (0%N, OpTryInsert (ex_b 1, 0%N) ex_val); (0%N, OpTryInsert (ex_b 2, 0%N) ex_val);
     (0%N, OpLookup (ex_b 1, 0%N)); (0%N, OpTryInsert (ex_b 3, 0%N) ex_val)] = Ok (answers, w) /\
  map fst (mem_entries (p_mem (w_procs w 0%N))) = [(ex_b 3, 0%N); (ex_b 1, 0%N)] /\
  m_size (p_mem (w_procs w 0%N)) = 40%N.
Proof. eexists _, _. split; [vm_compute; reflexivity|]. vm_compute. auto. Qed.

Print Assumptions cache_no_ub.
Print Assumptions cache_lookup_sound.
Print Assumptions memcache_size_exact.
Print Assumptions memcache_insert_lru.
Print Assumptions memcache_hit_lru.
Print Assumptions memcache_insert_then_hit.
Print Assumptions diskcache_size_exact.
Print Assumptions diskcache_crash_atomic.
Print Assumptions diskcache_insert_lru.
Print Assumptions diskcache_insert_then_lookup.
