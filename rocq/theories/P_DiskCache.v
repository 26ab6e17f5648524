(** Proofs about the on-disk cache. *)
From Coq Require Import List NArith ZArith Ascii Bool Lia Arith Permutation.
From Verif Require Import M_Blob P_Blob M_Cache S_Cache P_MemCache.
Import ListNotations.
Local Open Scope Z_scope.

(** ** Structural invariant of a database *)
Definition db_wf (d : db) : Prop :=
  NoDup (map r_hash (d_rows d)) /\ NoDup (map r_access (d_rows d)) /\
  d_total d = rows_size (d_rows d) /\ 0 <= d_limit d /\
  Forall (fun r => 0 <= r_size r) (d_rows d).

(** ** The provenance of a row: it encodes some inserted key and value. *)
Definition row_of (hash : list bytes -> N -> bytes -> Z) (fp : bytes) (k : mkey) (v : mval) (r : row) : Prop :=
  r_hash r = hash (fst k) (snd k) fp /\
  serialize_vec_str (fst k) = Some (r_bc r) /\ r_flag r = snd k /\ r_fp r = fp /\
  serialize_vec_str (opt_bc v) = Some (r_optbc r) /\
  serialize_vec_str (opt_ir v) = Some (r_optir r) /\
  serialize_vec_str (obj v) = Some (r_obj r) /\
  r_size r = blob_len (r_bc r) + blob_len (r_optbc r) + blob_len (r_optir r) + blob_len (r_obj r).

Lemma row_of_access : forall hash fp k v r a, row_of hash fp k v r -> row_of hash fp k v (set_access r a).
Proof. intros. unfold row_of in *. simpl. tauto. Qed.

Lemma find_hash_In : forall h rs r, find_hash h rs = Some r -> In r rs /\ r_hash r = h.
Proof.
  induction rs as [|r0 rs IH]; simpl; intros r H; [discriminate|].
  destruct (Z.eqb_spec h (r_hash r0)).
  - inversion H; subst; auto.
  - apply IH in H. tauto.
Qed.
Lemma find_hash_none : forall h rs, find_hash h rs = None <-> ~ In h (map r_hash rs).
Proof.
  induction rs as [|r0 rs IH]; simpl; [tauto|].
  destruct (Z.eqb_spec h (r_hash r0)); [split; [discriminate|intros H; exfalso; apply H; auto]|].
  rewrite IH. split; intros H; [intros [?|?]; [congruence|tauto]|tauto].
Qed.
Lemma find_hash_unique : forall h rs r, NoDup (map r_hash rs) -> In r rs -> r_hash r = h -> find_hash h rs = Some r.
Proof.
  induction rs as [|r0 rs IH]; simpl; intros r HN Hin Hh; [tauto|].
  inversion HN; subst. destruct (Z.eqb_spec (r_hash r) (r_hash r0)).
  - destruct Hin as [->|Hin]; auto. exfalso. apply H1. rewrite <- e. apply in_map. auto.
  - destruct Hin as [->|Hin]; [congruence|]. apply IH; auto.
Qed.

Lemma fold_max_ge : forall rs a, a <= fold_left (fun acc r' => Z.max acc (r_access r')) rs a /\
  forall r, In r rs -> r_access r <= fold_left (fun acc r' => Z.max acc (r_access r')) rs a.
Proof.
  induction rs as [|r rs IH]; simpl; intros a; [split; [lia|tauto]|].
  destruct (IH (Z.max a (r_access r))) as [H1 H2]. split; [lia|].
  intros r' [->|H]; [lia|auto].
Qed.
Lemma next_access_gt : forall rs r, In r rs -> r_access r < next_access rs.
Proof.
  intros [|r0 rs] r H; [destruct H|]. unfold next_access.
  destruct (fold_max_ge rs (r_access r0)) as [H1 H2]. destruct H as [->|H]; [lia|]. specialize (H2 r H). lia.
Qed.

Lemma min_access_spec : forall rs r, In (min_access r rs) (r :: rs) /\
  forall r', In r' (r :: rs) -> r_access (min_access r rs) <= r_access r'.
Proof.
  induction rs as [|r1 rs IH]; simpl; intros r.
  - split; auto. intros r' [->|[]]. lia.
  - destruct (Z.ltb_spec (r_access r1) (r_access r)).
    + destruct (IH r1) as [H1 H2]. split; [right; exact H1|].
      intros r' [->|H']; [|apply H2; exact H'].
      specialize (H2 r1 (or_introl eq_refl)). lia.
    + destruct (IH r) as [H1 H2]. split; [destruct H1 as [H1|H1]; auto|].
      intros r' [->|[->|H']]; [apply H2; simpl; auto| |apply H2; simpl; auto].
      specialize (H2 r (or_introl eq_refl)). lia.
Qed.

Lemma delete_hash_In : forall h rs r, In r (delete_hash h rs) <-> In r rs /\ r_hash r <> h.
Proof.
  intros. unfold delete_hash. rewrite filter_In. rewrite negb_true_iff, Z.eqb_neq. intuition congruence.
Qed.
Lemma delete_hash_notin : forall h rs, ~ In h (map r_hash rs) -> delete_hash h rs = rs.
Proof.
  induction rs as [|r rs IH]; simpl; intros H; auto.
  destruct (Z.eqb_spec h (r_hash r)); simpl; [exfalso; apply H; auto|]. f_equal. apply IH. tauto.
Qed.
Lemma delete_hash_split : forall r rs, NoDup (map r_hash rs) -> In r rs ->
  exists l1 l2, rs = l1 ++ r :: l2 /\ delete_hash (r_hash r) rs = l1 ++ l2.
Proof.
  intros r rs HN Hin. destruct (in_split _ _ Hin) as (l1 & l2 & ->).
  exists l1, l2. split; auto. rewrite map_app in HN. simpl in HN.
  pose proof (NoDup_remove_2 _ _ _ HN) as Hni. rewrite in_app_iff in Hni.
  unfold delete_hash. rewrite filter_app. simpl. rewrite Z.eqb_refl. simpl.
  change (delete_hash (r_hash r) l1 ++ delete_hash (r_hash r) l2 = l1 ++ l2).
  rewrite !delete_hash_notin; auto.
Qed.

Lemma rows_size_app : forall a b, rows_size (a ++ b) = rows_size a + rows_size b.
Proof. induction a as [|r a IH]; simpl; intros; auto. rewrite IH. lia. Qed.

Lemma evict_row_spec : forall r rs, NoDup (map r_hash (r :: rs)) ->
  let v := min_access r rs in
  In v (r :: rs) /\
  exists l1 l2, r :: rs = l1 ++ v :: l2 /\ evict_row (r :: rs) = l1 ++ l2.
Proof.
  intros r rs HN v. destruct (min_access_spec rs r) as [H1 H2]. fold v in H1, H2.
  split; auto. unfold evict_row. fold v. apply delete_hash_split; auto.
Qed.

(** ** The eviction loop *)
Lemma evict_loop_spec : forall fuel rs total entry limit p rs' total',
  NoDup (map r_hash rs) -> NoDup (map r_access rs) -> (length rs <= fuel)%nat -> total = rows_size rs ->
  evict_loop fuel rs total entry limit = (p, rs', total') ->
  total' = rows_size rs' /\
  (forall d, d_rows d = rs -> forall c, c_txn c = Some d ->
     fold_left exec p c = MkConn (c_db c) (Some (MkDb rs' (d_total d) (d_limit d)))) /\
  (total' + entry <= limit \/ rs' = []) /\
  exists evicted, Permutation rs (rs' ++ evicted) /\
    (forall a b, In a rs' -> In b evicted -> r_access b < r_access a) /\
    (evicted <> [] -> exists x, In x evicted /\ (forall b, In b evicted -> r_access b <= r_access x) /\
        limit < total' + r_size x + entry).
Proof.
  induction fuel as [|fuel IH]; intros rs total entry limit p rs' total' HN HA Hf Ht E.
  - assert (rs = []) by (destruct rs; auto; simpl in Hf; lia). subst rs.
    assert (E' : ([], [], total) = (p, rs', total')) by (cbn in E; destruct (limit <? total + entry); exact E).
    inversion E'; subst. split; [reflexivity|]. split.
    { intros d Hd c Hc. simpl. destruct c, d; simpl in *; subst; reflexivity. }
    split; auto. exists []. split; [constructor|]. split; [intros ? ? []|]. intros HH; contradiction HH; reflexivity.
  - cbn [evict_loop] in E. destruct (Z.ltb_spec limit (total + entry)).
    2:{ inversion E; subst. split; [reflexivity|]. split.
        { intros d Hd c Hc. simpl. destruct c, d; simpl in *; subst; reflexivity. }
        split; [lia|]. exists []. rewrite app_nil_r. split; [apply Permutation_refl|]. split; [intros ? ? ? []|]. intros HH; contradiction HH; reflexivity. }
    destruct rs as [|r rs].
    { inversion E; subst. split; [reflexivity|]. split.
      { intros d Hd c Hc. simpl. destruct c, d; simpl in *; subst; reflexivity. }
      split; auto. exists []. split; [constructor|]. split; [intros ? ? []|]. intros HH; contradiction HH; reflexivity. }
    destruct (evict_row_spec r rs HN) as (Hv & l1 & l2 & Hs1 & Hs2).
    destruct (min_access_spec rs r) as [_ Hmin].
    set (v := min_access r rs) in *.
    destruct (evict_loop fuel (evict_row (r :: rs)) (total - r_size v) entry limit) as [[p1 rs1] t1] eqn:E1.
    inversion E; subst p rs' total'; clear E.
    rewrite Hs1 in HN, HA. rewrite map_app in HN, HA. simpl in HN, HA.
    assert (A1 : NoDup (map r_hash (evict_row (r :: rs)))) by (rewrite Hs2, map_app; apply (NoDup_remove_1 _ _ _ HN)).
    assert (A2 : NoDup (map r_access (evict_row (r :: rs)))) by (rewrite Hs2, map_app; apply (NoDup_remove_1 _ _ _ HA)).
    assert (A3 : (length (evict_row (r :: rs)) <= fuel)%nat).
    { rewrite Hs2. apply (f_equal (@length row)) in Hs1. rewrite app_length in *. simpl in *. lia. }
    assert (A4 : total - r_size v = rows_size (evict_row (r :: rs))).
    { rewrite Hs2, Ht, Hs1, !rows_size_app. simpl. lia. }
    destruct (IH _ _ _ _ _ _ _ A1 A2 A3 A4 E1) as (R1 & R2 & R3 & ev & R4 & R5 & R6).
    assert (Hmin' : forall a, In a (l1 ++ l2) -> r_access v < r_access a).
    { intros a Ha. assert (Hne : r_access a <> r_access v).
      { intros Heq. apply (NoDup_remove_2 _ _ _ HA). rewrite <- Heq, <- map_app. apply in_map. exact Ha. }
      assert (r_access v <= r_access a). { apply Hmin. rewrite Hs1. rewrite in_app_iff in *. simpl. tauto. }
      lia. }
    rewrite Hs2 in R4.
    split; [exact R1|]. split; [|split; [exact R3|]].
    + intros d Hd c Hc. cbn [fold_left].
      replace (exec c SEvict) with (MkConn (c_db c) (Some (MkDb (evict_row (r :: rs)) (d_total d) (d_limit d)))).
      2:{ unfold exec. rewrite Hc. simpl. rewrite Hd. reflexivity. }
      pose proof (R2 (MkDb (evict_row (r :: rs)) (d_total d) (d_limit d)) eq_refl (MkConn (c_db c) (Some (MkDb (evict_row (r :: rs)) (d_total d) (d_limit d)))) eq_refl) as R2'.
      rewrite R2'. reflexivity.
    + exists (v :: ev). split; [|split].
      * rewrite Hs1. apply Permutation_sym. apply Permutation_trans with (v :: rs1 ++ ev).
        { apply Permutation_sym, Permutation_middle. }
        apply Permutation_trans with (v :: l1 ++ l2). { constructor. apply Permutation_sym. exact R4. }
        apply Permutation_middle.
      * intros a b Ha [<-|Hb]; [|apply R5; auto]. apply Hmin'.
        apply (Permutation_in _ (Permutation_sym R4)). apply in_or_app. auto.
      * intros _. destruct ev as [|e ev].
        { exists v. split; [simpl; auto|]. split; [intros b [<-|[]]; lia|].
          assert (rows_size rs1 = rows_size (l1 ++ l2)).
          { rewrite app_nil_r in R4. clear -R4. induction R4; simpl; lia. }
          rewrite R1, H0. rewrite Hs1, !rows_size_app in Ht. simpl in Ht. rewrite rows_size_app. lia. }
        { destruct (R6 ltac:(discriminate)) as (x & Hx1 & Hx2 & Hx3).
          exists x. split; [simpl; right; exact Hx1|]. split; [|exact Hx3].
          intros b [<-|Hb]; [|apply Hx2; exact Hb].
          apply Z.lt_le_incl, Hmin'. apply (Permutation_in _ (Permutation_sym R4)). apply in_or_app. auto. }
Qed.

Lemma evict_loop_no_commit : forall f rs0 t entry l p rs total s,
  evict_loop f rs0 t entry l = (p, rs, total) -> In s p -> s <> SCommit.
Proof.
  induction f as [|f IH]; intros rs0 t entry l p rs total s EL Hs; cbn [evict_loop] in EL.
  - destruct (l <? t + entry); inversion EL; subst; destruct Hs.
  - destruct (l <? t + entry); [|inversion EL; subst; destruct Hs].
    destruct rs0 as [|r rs0]; [inversion EL; subst; destruct Hs|].
    destruct (evict_loop f (evict_row (r :: rs0)) (t - r_size (min_access r rs0)) entry l) as [[p1 rs1] t1] eqn:E1.
    inversion EL; subst. destruct Hs as [<-|Hs]; [discriminate|]. eapply IH; eauto.
Qed.

Section WithHash.
Variable hash : list bytes -> N -> bytes -> Z.

Lemma exec_insert_spec : forall fp d k v prog,
  db_wf d -> db_insert_prog hash fp d k v = Some prog ->
  exists ev row0 rs' (Hrow : row_of hash fp k v row0),
    (* decomposition of the program *)
    prog = SBegin :: ev ++ [SCommit] /\
    (forall s, In s ev -> s <> SCommit) /\
    exec_prog d prog = MkDb rs' (rows_size rs') (d_limit d) /\
    (exists kept evicted, Permutation (d_rows d) (kept ++ evicted) /\
       (forall a b, In a kept -> In b evicted -> r_access b < r_access a) /\
       (evicted <> [] -> exists x, In x evicted /\ (forall b, In b evicted -> r_access b <= r_access x) /\
           d_limit d < rows_size kept + r_size x + r_size row0) /\
       ((rows_size kept + r_size row0 <= d_limit d /\ ~ In (r_hash row0) (map r_hash kept) /\
           rs' = set_access row0 (next_access kept) :: kept) \/
        (rows_size kept + r_size row0 <= d_limit d /\ In (r_hash row0) (map r_hash kept) /\ rs' = kept) \/
        (d_limit d < r_size row0 /\ kept = [] /\ rs' = []))).
Proof.
  intros fp d k v prog (W1 & W2 & W3 & W4 & W5) E. unfold db_insert_prog in E.
  destruct (serialize_vec_str (fst k)) as [b0|] eqn:S0; [|discriminate].
  destruct (serialize_vec_str (opt_bc v)) as [b1|] eqn:S1; [|discriminate].
  destruct (serialize_vec_str (opt_ir v)) as [b2|] eqn:S2; [|discriminate].
  destruct (serialize_vec_str (obj v)) as [b3|] eqn:S3; [|discriminate].
  set (entry := blob_len b0 + blob_len b1 + blob_len b2 + blob_len b3) in *.
  set (h := hash (fst k) (snd k) fp) in *.
  destruct (evict_loop (length (d_rows d)) (d_rows d) (d_total d) entry (d_limit d)) as [[p rs] total] eqn:EL.
  destruct (evict_loop_spec _ _ _ _ _ _ _ _ W1 W2 (le_n _) W3 EL) as (R1 & R2 & R3 & evicted & R4 & R5 & R6).
  assert (Hp : forall s, In s p -> s <> SCommit).
  { intros s Hs. eapply evict_loop_no_commit; eauto. }
  set (row0 := MkRow h b0 (snd k) fp b1 b2 b3 entry 0) in *.
  assert (Hrow : row_of hash fp k v row0) by (unfold row_of, row0; simpl; repeat split; auto).
  set (tail := if total + entry <=? d_limit d then [SInsert row0] else []) in *.
  set (tot' := if (total + entry <=? d_limit d) && match find_hash h rs with Some _ => false | None => true end
               then total + entry else total) in *.
  inversion E; subst prog; clear E.
  exists (p ++ tail ++ [SSetTotal tot']), row0.
  assert (Hexec : forall rs', fold_left exec tail (MkConn d (Some (MkDb rs (d_total d) (d_limit d)))) = MkConn d (Some (MkDb rs' (d_total d) (d_limit d))) ->
     exec_prog d (SBegin :: p ++ tail ++ [SSetTotal tot'; SCommit]) = MkDb rs' tot' (d_limit d)).
  { intros rs' Hx. unfold exec_prog. cbn [fold_left]. rewrite fold_left_app, fold_left_app.
    change (exec (MkConn d None) SBegin) with (MkConn d (Some d)).
    rewrite (R2 d eq_refl (MkConn d (Some d)) eq_refl). cbn [c_db]. rewrite Hx. reflexivity. }
  assert (Hdec : SBegin :: p ++ tail ++ [SSetTotal tot'; SCommit] = SBegin :: (p ++ tail ++ [SSetTotal tot']) ++ [SCommit]).
  { f_equal. rewrite <- !app_assoc. reflexivity. }
  assert (Hnc : forall s, In s (p ++ tail ++ [SSetTotal tot']) -> s <> SCommit).
  { intros s Hs. apply in_app_or in Hs as [Hs|Hs]; [apply Hp; auto|]. apply in_app_or in Hs as [Hs|Hs].
    - unfold tail in Hs. destruct (total + entry <=? d_limit d); [destruct Hs as [<-|[]]; discriminate|destruct Hs].
    - destruct Hs as [<-|[]]. discriminate. }
  assert (Hb : forall b, 0 <= blob_len b) by (intros; unfold blob_len; lia).
  assert (He : 0 <= entry) by (unfold entry; pose proof (Hb b0); pose proof (Hb b1); pose proof (Hb b2); pose proof (Hb b3); lia).
  destruct (Z.leb_spec (total + entry) (d_limit d)) as [Hfit|Hfit].
  - destruct (find_hash h rs) as [r|] eqn:Fh.
    + exists rs, Hrow. split; [exact Hdec|]. split; [exact Hnc|]. split.
      * rewrite Hexec with (rs' := rs); [unfold tot'; simpl; now rewrite R1|].
        unfold tail. simpl. unfold exec; simpl. rewrite Fh. reflexivity.
      * exists rs, evicted. split; [exact R4|]. split; [exact R5|].
        split; [intros Hne; destruct (R6 Hne) as (x & Hx1 & Hx2 & Hx3); exists x; repeat split; auto; simpl; lia|].
        right; left. split; [simpl; lia|]. split; auto. simpl.
        destruct (find_hash_In _ _ _ Fh) as [H1 H2]. rewrite <- H2. apply in_map. auto.
    + exists (set_access row0 (next_access rs) :: rs), Hrow. split; [exact Hdec|]. split; [exact Hnc|]. split.
      * rewrite Hexec with (rs' := set_access row0 (next_access rs) :: rs); [unfold tot'; simpl; rewrite R1; f_equal; lia|].
        unfold tail. simpl. unfold exec; simpl. rewrite Fh. reflexivity.
      * exists rs, evicted. split; [exact R4|]. split; [exact R5|].
        split; [intros Hne; destruct (R6 Hne) as (x & Hx1 & Hx2 & Hx3); exists x; repeat split; auto; simpl; lia|].
        left. split; [simpl; lia|]. split; auto. simpl. apply find_hash_none. auto.
  - destruct R3 as [R3|R3]; [lia|]. subst rs. simpl in R1. subst total.
    exists [], Hrow. split; [exact Hdec|]. split; [exact Hnc|]. split.
    + rewrite Hexec with (rs' := []); [reflexivity|]. unfold tail. simpl. reflexivity.
    + exists [], evicted. split; [exact R4|]. split; [intros ? ? []|].
      split; [intros Hne; destruct (R6 Hne) as (x & Hx1 & Hx2 & Hx3); exists x; repeat split; auto; simpl; lia|].
      right; right. split; [simpl; lia|]. split; auto.
Qed.

(** Crash points: after any number of statements the committed database is the old
    one or the new one. *)
Lemma exec_no_commit : forall ss c, (forall s, In s ss -> s <> SCommit) -> c_txn c <> None ->
  c_db (fold_left exec ss c) = c_db c /\ c_txn (fold_left exec ss c) <> None.
Proof.
  induction ss as [|s ss IH]; simpl; intros c Hs Hc; auto.
  assert (H1 : c_db (exec c s) = c_db c /\ c_txn (exec c s) <> None).
  { destruct c as [d [t|]]; simpl in *; [|congruence]. destruct s; simpl; split; auto; try discriminate.
    - exfalso. apply (Hs SCommit); auto.
    - intros _. apply (Hs SCommit); auto. }
  destruct H1 as [H1 H2]. destruct (IH (exec c s)) as [H3 H4]; auto.
  split; [congruence|auto].
Qed.

Lemma exec_prefix_atomic : forall d body n,
  (forall s, In s body -> s <> SCommit) ->
  exec_prog d (firstn n (SBegin :: body ++ [SCommit])) = d \/
  exec_prog d (firstn n (SBegin :: body ++ [SCommit])) = exec_prog d (SBegin :: body ++ [SCommit]).
Proof.
  intros d body n Hb. destruct n as [|n]; [left; reflexivity|].
  cbn [firstn]. destruct (Nat.le_gt_cases n (length body)).
  - left. rewrite firstn_app. replace (n - length body)%nat with 0%nat by lia. simpl firstn at 2. rewrite app_nil_r.
    unfold exec_prog. cbn [fold_left]. change (exec (MkConn d None) SBegin) with (MkConn d (Some d)).
    apply (exec_no_commit (firstn n body) (MkConn d (Some d))).
    + intros s Hs. apply Hb. rewrite <- (firstn_skipn n body). apply in_or_app. auto.
    + discriminate.
  - right. rewrite firstn_all2; auto. rewrite app_length. simpl. lia.
Qed.

Lemma db_insert_atomic : forall fp d k v n, db_wf d ->
  db_insert hash (Some n) fp d k v = d \/ db_insert hash (Some n) fp d k v = db_insert hash None fp d k v.
Proof.
  intros fp d k v n Hwf. unfold db_insert. destruct (db_insert_prog hash fp d k v) as [prog|] eqn:E; auto.
  destruct (exec_insert_spec _ _ _ _ _ Hwf E) as (body & row0 & rs' & Hrow & -> & Hnc & _).
  apply exec_prefix_atomic; auto.
Qed.

Lemma db_clear_full : forall d, db_clear None d = MkDb [] 0 (d_limit d).
Proof. intros d. destruct d; reflexivity. Qed.
Lemma db_clear_atomic : forall d n, db_clear (Some n) d = d \/ db_clear (Some n) d = MkDb [] 0 (d_limit d).
Proof.
  intros d n. unfold db_clear. rewrite <- db_clear_full. unfold db_clear, clear_prog.
  apply (exec_prefix_atomic d [SDeleteAll; SSetTotal 0] n). intros s [<-|[<-|[]]]; discriminate.
Qed.

Lemma perm_map_NoDup : forall {B} (f : row -> B) a b, Permutation a b -> NoDup (map f a) -> NoDup (map f b).
Proof. intros B f a b H. apply Permutation_NoDup. apply Permutation_map. exact H. Qed.

Lemma NoDup_app_l : forall {A} (a b : list A), NoDup (a ++ b) -> NoDup a.
Proof.
  intros A a b H. induction a as [|x a IH]; constructor.
  - simpl in H. inversion H; subst. intros Hin. apply H2. apply in_or_app. auto.
  - apply IH. simpl in H. inversion H; auto.
Qed.

(** The database invariant relative to the set of insertions performed so far. *)
Definition db_ok (Ins : bytes -> mkey -> mval -> Prop) (d : db) : Prop :=
  db_wf d /\ forall r, In r (d_rows d) -> exists fp k v, Ins fp k v /\ row_of hash fp k v r.

Lemma db_ok_mono : forall (I J : bytes -> mkey -> mval -> Prop) d, (forall fp k v, I fp k v -> J fp k v) -> db_ok I d -> db_ok J d.
Proof.
  intros I J d H [H1 H2]. split; auto. intros r Hr. destruct (H2 r Hr) as (fp & k & v & ? & ?). eauto 6.
Qed.

Lemma row_size_nonneg : forall fp k v r, row_of hash fp k v r -> 0 <= r_size r.
Proof.
  intros fp k v r (_ & _ & _ & _ & _ & _ & _ & H). rewrite H. unfold blob_len. lia.
Qed.

Lemma db_insert_ok : forall (I : bytes -> mkey -> mval -> Prop) fp d k v n,
  db_ok I d -> I fp k v -> db_ok I (db_insert hash n fp d k v).
Proof.
  intros I fp d k v n [Hwf Hrows] HI.
  assert (Hfull : db_ok I (db_insert hash None fp d k v)).
  { unfold db_insert. destruct (db_insert_prog hash fp d k v) as [prog|] eqn:E; [|split; auto].
    destruct (exec_insert_spec _ _ _ _ _ Hwf E) as (body & row0 & rs' & Hrow & _ & _ & Hx & kept & ev & P & Hacc & _ & Hc).
    rewrite Hx. destruct Hwf as (W1 & W2 & W3 & W4 & W5).
    assert (K1 : NoDup (map r_hash kept)).
    { apply (perm_map_NoDup r_hash _ _ P) in W1. rewrite map_app in W1. eapply NoDup_app_l; eauto. }
    assert (K2 : NoDup (map r_access kept)).
    { apply (perm_map_NoDup r_access _ _ P) in W2. rewrite map_app in W2. eapply NoDup_app_l; eauto. }
    assert (K3 : forall r, In r kept -> In r (d_rows d)).
    { intros r Hr. apply (Permutation_in _ (Permutation_sym P)). apply in_or_app. auto. }
    assert (K4 : Forall (fun r => 0 <= r_size r) kept).
    { apply Forall_forall. intros r Hr. rewrite Forall_forall in W5. auto. }
    assert (Hkept : db_ok I (MkDb kept (rows_size kept) (d_limit d))).
    { split; [repeat split; simpl; auto|]. simpl. auto. }
    destruct Hc as [(_ & Hni & ->)|[(_ & _ & ->)|(_ & -> & ->)]]; auto.
    split.
    - repeat split; auto; cbn [d_rows d_total d_limit map].
      + constructor; auto.
      + constructor; auto. simpl. intros Hin. apply in_map_iff in Hin as (r & Hr1 & Hr2).
        pose proof (next_access_gt _ _ Hr2). lia.
      + constructor; auto. simpl. eapply row_size_nonneg; eauto.
    - cbn [d_rows]. intros r [<-|Hr]; auto. exists fp, k, v. split; [exact HI|]. apply row_of_access. exact Hrow. }
  destruct n as [n|]; auto.
  destruct (db_insert_atomic fp d k v n Hwf) as [->| ->]; auto. split; auto.
Qed.

Lemma db_clear_ok : forall I d n, db_ok I d -> db_ok I (db_clear n d).
Proof.
  intros I d n H.
  assert (db_ok I (MkDb [] 0 (d_limit d))).
  { destruct H as [(W1 & W2 & W3 & W4 & W5) _]. split; [repeat split; simpl; auto; constructor|]. intros r []. }
  destruct n as [n|]; [|rewrite db_clear_full; auto].
  destruct (db_clear_atomic d n) as [->| ->]; auto.
Qed.

Lemma bump_map_hash : forall h rs a, map r_hash (map (fun r => if h =? r_hash r then set_access r a else r) rs) = map r_hash rs.
Proof. intros. rewrite map_map. apply map_ext. intros r. destruct (h =? r_hash r); reflexivity. Qed.

Lemma bump_NoDup_access : forall h rs a, NoDup (map r_hash rs) -> NoDup (map r_access rs) ->
  (forall r, In r rs -> r_access r <> a) ->
  NoDup (map r_access (map (fun r => if h =? r_hash r then set_access r a else r) rs)).
Proof.
  induction rs as [|r rs IH]; simpl; intros a W1 W2 Ha; constructor.
  - inversion W1; inversion W2; subst. intros Hin. apply in_map_iff in Hin as (r' & Hr1 & Hr2).
    apply in_map_iff in Hr2 as (r2 & Hr3 & Hr4). destruct (Z.eqb_spec h (r_hash r2)); destruct (Z.eqb_spec h (r_hash r)); subst r'.
    + apply H1. rewrite <- e0, e. apply in_map. auto.
    + simpl in Hr1. apply (Ha r); auto.
    + simpl in Hr1. apply (Ha r2); auto.
    + apply H5. rewrite <- Hr1. apply in_map. auto.
  - inversion W1; inversion W2; subst. apply IH; auto.
Qed.

Lemma bump_size : forall h rs a, rows_size (map (fun r => if h =? r_hash r then set_access r a else r) rs) = rows_size rs.
Proof. induction rs as [|r rs IH]; simpl; intros; auto. rewrite IH. destruct (h =? r_hash r); reflexivity. Qed.

Lemma bump_wf : forall h d, db_wf d -> db_wf (MkDb (bump h (d_rows d)) (d_total d) (d_limit d)).
Proof.
  intros h d (W1 & W2 & W3 & W4 & W5). unfold db_wf, bump; simpl.
  split; [rewrite bump_map_hash; auto|]. split; [|split; [rewrite bump_size; auto|split; [exact W4|]]].
  - apply bump_NoDup_access; auto. intros r Hr. pose proof (next_access_gt _ _ Hr). lia.
  - apply Forall_forall. intros r Hr. apply in_map_iff in Hr as (r2 & <- & Hr2).
    rewrite Forall_forall in W5. specialize (W5 _ Hr2). destruct (h =? r_hash r2); auto.
Qed.

Lemma bump_ok : forall I h d, db_ok I d -> db_ok I (exec_prog d [SBump h]).
Proof.
  intros I h d [H1 H2]. change (exec_prog d [SBump h]) with (MkDb (bump h (d_rows d)) (d_total d) (d_limit d)).
  split; [apply bump_wf; auto|]. simpl. intros r Hr. unfold bump in Hr. apply in_map_iff in Hr as (r2 & <- & Hr2).
  destruct (H2 r2 Hr2) as (fp & k & v & HI & Hrow). exists fp, k, v. split; [exact HI|].
  destruct (h =? r_hash r2); [apply row_of_access; exact Hrow|exact Hrow].
Qed.

(** A lookup never hits undefined behaviour, keeps the invariant, and returns only
    values inserted for that key under the same fingerprint. *)
Lemma db_lookup_ok : forall I fp d k, db_ok I d ->
  exists a d', db_lookup hash fp d k = Ok (a, d') /\ db_ok I d' /\
    match a with Some v => I fp k v | None => True end.
Proof.
  intros I fp d k Hok. unfold db_lookup.
  destruct (find_hash (hash (fst k) (snd k) fp) (d_rows d)) as [r|] eqn:Fh; [|eauto 6].
  pose proof (bump_ok I (hash (fst k) (snd k) fp) d Hok) as Hb.
  destruct (find_hash_In _ _ _ Fh) as [Hin Hh].
  destruct Hok as [_ Hrows]. destruct (Hrows r Hin) as (fp' & k' & v' & HI & Hr).
  destruct Hr as (r1 & r2 & r3 & r4 & r5 & r6 & r7 & r8).
  destruct (N.eqb_spec (r_flag r) (snd k)) as [Ef|Ef]; [|simpl; eauto 6].
  destruct (bytes_eqb (r_fp r) fp) eqn:Efp; [|simpl; eauto 6]. simpl negb. cbv iota.
  apply bytes_eqb_eq in Efp. 
  apply serialize_inv in r2 as [Hb2 Hok2]. apply serialize_inv in r5 as [Hb5 Hok5].
  apply serialize_inv in r6 as [Hb6 Hok6]. apply serialize_inv in r7 as [Hb7 Hok7].
  destruct (matches_ser (fst k') (fst k) Hok2) as (b & Hm & Hiff). rewrite Hb2, Hm.
  destruct b; [|eauto 6].
  assert (Hk : fst k' = fst k) by (apply Hiff; reflexivity).
  unfold deserialize_vec_str. rewrite Hb5, Hb6, Hb7, !deser_ser by auto.
  eexists _, _. split; [reflexivity|]. split; [exact Hb|].
  destruct k as [ka kb], k' as [ka' kb']. simpl in *. subst. destruct v'; simpl in *. exact HI.
Qed.

End WithHash.

Lemma db_init_ok : forall hash I, db_ok hash I db_init.
Proof.
  intros. split.
  - repeat split; simpl; try constructor; lia.
  - simpl. tauto.
Qed.
