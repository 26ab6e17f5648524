(** Proofs about the in-memory cache. *)
From Coq Require Import List NArith ZArith Ascii Bool Lia Arith Permutation.
From Verif Require Import M_Blob M_Cache S_Cache.
Import ListNotations.
Local Open Scope N_scope.

Lemma key_eqb_eq : forall a b, key_eqb a b = true <-> a = b.
Proof.
  intros [a1 a2] [b1 b2]. unfold key_eqb, vec_eqb; simpl.
  destruct (list_eq_dec (list_eq_dec ascii_dec) a1 b1); simpl.
  - rewrite N.eqb_eq. split; [intros ->; congruence| intros H; inversion H; auto].
  - split; [discriminate|]. intros H; inversion H; congruence.
Qed.
Lemma key_eqb_refl : forall a, key_eqb a a = true.
Proof. intros. apply key_eqb_eq. reflexivity. Qed.
Lemma key_eqb_neq : forall a b, key_eqb a b = false <-> a <> b.
Proof. intros. rewrite <- key_eqb_eq. destruct (key_eqb a b); split; congruence. Qed.

Definition mem_inv (c : mem) : Prop :=
  NoDup (m_queue c) /\ NoDup (map fst (m_map c)) /\
  (forall k, In k (m_queue c) <-> In k (map fst (m_map c))) /\
  m_size c = total_size (m_map c).

Lemma map_find_In : forall m k v, map_find k m = Some v -> In (k, v) m.
Proof.
  induction m as [|[k' v'] m IH]; simpl; intros k v H; [discriminate|].
  destruct (key_eqb k k') eqn:E.
  - apply key_eqb_eq in E; subst. inversion H; subst. auto.
  - right; auto.
Qed.
Lemma map_find_none : forall m k, map_find k m = None <-> ~ In k (map fst m).
Proof.
  induction m as [|[k' v'] m IH]; simpl; intros k; [tauto|].
  destruct (key_eqb k k') eqn:E.
  - apply key_eqb_eq in E; subst. split; [discriminate|tauto].
  - apply key_eqb_neq in E. rewrite IH. split; intros H; [intros [->|?]; tauto|tauto].
Qed.
Lemma map_find_some : forall m k, In k (map fst m) -> exists v, map_find k m = Some v.
Proof.
  intros m k H. destruct (map_find k m) eqn:E; eauto. apply map_find_none in E. contradiction.
Qed.

Lemma map_erase_fst : forall m k, NoDup (map fst m) ->
  NoDup (map fst (map_erase k m)) /\ forall k', In k' (map fst (map_erase k m)) <-> In k' (map fst m) /\ k' <> k.
Proof.
  induction m as [|[k' v'] m IH]; simpl; intros k HN; [split; [auto|tauto]|].
  inversion HN as [|? ? Hni HN']; subst.
  destruct (key_eqb k k') eqn:E.
  - apply key_eqb_eq in E; subst. split; auto. intros k2. split; [intros H; split; auto; intros ->; contradiction|].
    intros [[->|?] ?]; congruence.
  - apply key_eqb_neq in E. destruct (IH k HN') as [H1 H2]. simpl. split.
    + constructor; auto. rewrite H2. tauto.
    + intros k2. rewrite H2. split; [intros [->|[? ?]]; auto|tauto].
Qed.

Lemma map_erase_find : forall m k k', k <> k' -> map_find k' (map_erase k m) = map_find k' m.
Proof.
  induction m as [|[k1 v1] m IH]; simpl; intros k k' H; auto.
  destruct (key_eqb k k1) eqn:E.
  - apply key_eqb_eq in E; subst. destruct (key_eqb k' k1) eqn:E2; auto. apply key_eqb_eq in E2. congruence.
  - simpl. destruct (key_eqb k' k1); auto.
Qed.

Lemma map_erase_total : forall m k v, NoDup (map fst m) -> map_find k m = Some v ->
  total_size m = entry_size (k, v) + total_size (map_erase k m).
Proof.
  induction m as [|[k1 v1] m IH]; simpl; intros k v HN H; [discriminate|].
  inversion HN; subst.
  destruct (key_eqb k k1) eqn:E.
  - apply key_eqb_eq in E; subst. inversion H; subst. reflexivity.
  - simpl. rewrite (IH k v) by auto. unfold entry_size; simpl. lia.
Qed.

Lemma collect_ext : forall q m m', (forall k, In k q -> map_find k m = map_find k m') -> collect q m = collect q m'.
Proof.
  induction q as [|k q IH]; simpl; intros m m' H; auto.
  rewrite (H k) by auto. rewrite (IH m m') by auto. reflexivity.
Qed.
Lemma collect_app : forall q1 q2 m, collect (q1 ++ q2) m = collect q1 m ++ collect q2 m.
Proof.
  induction q1 as [|k q IH]; simpl; intros; auto. rewrite IH. destruct (map_find k m); reflexivity.
Qed.

Lemma collect_fst : forall q m, (forall k, In k q -> In k (map fst m)) -> map fst (collect q m) = q.
Proof.
  induction q as [|k q IH]; simpl; intros m H; auto.
  destruct (map_find_some m k) as [v Hv]; auto. rewrite Hv. simpl. rewrite IH; auto.
Qed.
Lemma collect_In : forall q m k v, In (k, v) (collect q m) -> In k q /\ map_find k m = Some v.
Proof.
  induction q as [|k0 q IH]; simpl; intros m k v H; [tauto|].
  destruct (map_find k0 m) eqn:E.
  - destruct H as [H|H]; [inversion H; subst; auto|]. destruct (IH _ _ _ H); auto.
  - destruct (IH _ _ _ H); auto.
Qed.
Lemma collect_total : forall q m, NoDup q -> NoDup (map fst m) -> (forall k, In k q <-> In k (map fst m)) ->
  total_size (collect q m) = total_size m.
Proof.
  induction q as [|k q IH]; simpl; intros m H1 H2 H3.
  - destruct m as [|[k v] m]; auto. exfalso. apply (H3 k). simpl. auto.
  - inversion H1; subst. destruct (map_find_some m k) as [v Hv]; [apply H3; auto|]. rewrite Hv.
    cbn [total_size fold_right]. change (fold_right _ 0 (collect q m)) with (total_size (collect q m)).
    rewrite (map_erase_total m k v) by auto. f_equal.
    destruct (map_erase_fst m k H2) as [He1 He2].
    rewrite <- (IH (map_erase k m)); auto.
    + f_equal. apply collect_ext. intros k' Hk'. symmetry. apply map_erase_find. intros ->. contradiction.
    + intros k'. rewrite He2, <- H3. split; [intros Hk; split; [auto|intros ->; contradiction]|].
      intros [[->|?] ?]; tauto.
Qed.

Lemma removelast_last : forall (q : list mkey) d, q <> [] -> q = removelast q ++ [last q d].
Proof. intros. apply app_removelast_last. assumption. Qed.

Lemma NoDup_app_last : forall (q : list mkey) x, NoDup (q ++ [x]) -> NoDup q /\ ~ In x q.
Proof.
  intros q x H. apply NoDup_remove in H. rewrite app_nil_r in H. exact H.
Qed.

Lemma removelast_length : forall (q : list mkey) n, (length q <= S n)%nat -> (length (removelast q) <= n)%nat.
Proof.
  intros q n H. destruct q as [|a q]; simpl; [lia|].
  destruct (@exists_last _ (a :: q)) as [q' [x E]]; [discriminate|].
  change (match q with [] => [] | _ :: _ => a :: removelast q end) with (removelast (a :: q)).
  rewrite E in *. rewrite removelast_app by discriminate. simpl. rewrite app_nil_r. rewrite app_length in H; simpl in H. lia.
Qed.

Lemma evict_spec : forall fuel c s ns,
  mem_inv c -> ns = m_size c + s -> (length (m_queue c) <= fuel)%nat ->
  exists c' ns' ev,
    mem_evict fuel c ns = Ok (c', ns') /\ mem_inv c' /\ ns' = m_size c' + s /\
    m_limit c' = m_limit c /\ mem_entries c = mem_entries c' ++ ev /\
    (ns' <= m_limit c \/ m_queue c' = []) /\
    (forall x l, ev = x :: l -> m_limit c < m_size c' + entry_size x + s).
Proof.
  induction fuel as [|fuel IH]; intros c s ns Hinv Hns Hf.
  - assert (Hq : m_queue c = []) by (destruct (m_queue c); auto; simpl in Hf; lia).
    exists c, ns, []. cbn [mem_evict]. rewrite Hq.
    repeat split; auto; try apply Hinv; try (intros; discriminate).
    + destruct (m_limit c <? ns); reflexivity.
    + now rewrite app_nil_r.
  - cbn [mem_evict]. destruct (m_limit c <? ns) eqn:El.
    2:{ apply N.ltb_ge in El. exists c, ns, []. rewrite app_nil_r. repeat split; auto; try apply Hinv; try (intros; discriminate). }
    apply N.ltb_lt in El.
    destruct (m_queue c) as [|k0 q0] eqn:Eq.
    { exists c, ns, []. rewrite app_nil_r. repeat split; auto; try apply Hinv; try (intros; discriminate). }
    rewrite <- Eq in *.
    assert (Hne : m_queue c <> []) by (rewrite Eq; discriminate).
    pose proof (removelast_last (m_queue c) ([], 0) Hne) as HL.
    set (lk := last (m_queue c) ([], 0)) in *. set (q' := removelast (m_queue c)) in *.
    destruct Hinv as (I1 & I2 & I3 & I4).
    assert (Hlk : In lk (map fst (m_map c))). { apply I3. rewrite HL. apply in_or_app. simpl; auto. }
    destruct (map_find_some _ _ Hlk) as [v Hv]. rewrite Hv.
    assert (Hq' : NoDup q' /\ ~ In lk q') by (apply NoDup_app_last; rewrite <- HL; exact I1).
    destruct (map_erase_fst (m_map c) lk I2) as [E1 E2].
    pose proof (map_erase_total _ _ _ I2 Hv) as Et. unfold entry_size in Et; simpl in Et.
    set (c1 := MkMem q' (map_erase lk (m_map c)) (m_size c - (val_size v + key_size lk)) (m_limit c)).
    assert (Hc1 : mem_inv c1).
    { unfold c1; repeat split; simpl; auto.
      - apply Hq'.
      - intros Hk. apply E2. split; [apply I3; rewrite HL; apply in_or_app; auto|]. intros ->. apply Hq'; auto.
      - intros Hk. apply E2 in Hk as [Hk1 Hk2]. apply I3 in Hk1. rewrite HL in Hk1. apply in_app_or in Hk1 as [?|[?|[]]]; auto. congruence.
      - rewrite I4, Et. lia. }
    assert (Hent : mem_entries c = mem_entries c1 ++ [(lk, v)]).
    { unfold mem_entries, c1; simpl. rewrite HL, collect_app. simpl. rewrite Hv. f_equal.
      apply collect_ext. intros k Hk. symmetry. apply map_erase_find. intros <-. apply Hq'; auto. }
    destruct (IH c1 s (ns - (val_size v + key_size lk)) Hc1) as (c' & ns' & ev & R1 & R2 & R3 & R4 & R5 & R6 & R7).
    + unfold c1; simpl. rewrite Hns, I4, Et. lia.
    + unfold c1; simpl. unfold q'. apply removelast_length. exact Hf.
    + exists c', ns', (ev ++ [(lk, v)]).
      split; [exact R1|]. split; [exact R2|]. split; [exact R3|]. split; [exact R4|].
      split; [rewrite Hent, R5; now rewrite app_assoc|]. split; [exact R6|].
      intros x l Hx. destruct ev as [|e ev].
      * simpl in Hx. inversion Hx; subst. rewrite app_nil_r in R5.
        assert (Hsz : m_size c' = m_size c1).
        { destruct R2 as (J1 & J2 & J3 & J4). destruct Hc1 as (K1 & K2 & K3 & K4).
          rewrite J4, K4, <- (collect_total (m_queue c') (m_map c')), <- (collect_total (m_queue c1) (m_map c1)) by auto.
          unfold mem_entries in R5. now rewrite R5. }
        rewrite Hsz. unfold c1, entry_size; simpl. rewrite I4, Et in El. rewrite I4, Et. lia.
      * simpl in Hx. inversion Hx; subst. apply (R7 x ev). reflexivity.
Qed.

Lemma total_app : forall a b, total_size (a ++ b) = total_size a + total_size b.
Proof. induction a as [|e a IH]; simpl; intros; auto. rewrite IH. lia. Qed.

Lemma mem_size_entries : forall c, mem_inv c -> m_size c = total_size (mem_entries c).
Proof. intros c (I1 & I2 & I3 & I4). unfold mem_entries. rewrite collect_total; auto. Qed.

Lemma insert_impl_spec : forall c k v,
  mem_inv c -> map_find k (m_map c) = None ->
  exists c', mem_insert_impl c k v = Ok c' /\ mem_inv c' /\ m_limit c' = m_limit c /\
    lru_insert (mem_entries c) (k, v) (m_limit c) (mem_entries c').
Proof.
  intros c k v Hinv Hk. unfold mem_insert_impl.
  destruct (evict_spec (length (m_queue c)) c (entry_size (k, v)) (m_size c + val_size v + key_size k) Hinv)
    as (c' & ns' & ev & R1 & R2 & R3 & R4 & R5 & R6 & R7); [unfold entry_size; simpl; lia|lia|].
  rewrite R1. rewrite R4. destruct (m_limit c <? ns') eqn:El.
  - apply N.ltb_lt in El. exists c'. split; [reflexivity|]. split; [exact R2|]. split; [exact R4|].
    left. destruct R6 as [R6|R6]; [lia|].
    assert (mem_entries c' = []) by (unfold mem_entries; rewrite R6; reflexivity).
    split; auto. pose proof (mem_size_entries c' R2) as Hs. rewrite H in Hs. simpl in Hs. lia.
  - apply N.ltb_ge in El.
    eexists. split; [reflexivity|].
    destruct R2 as (J1 & J2 & J3 & J4).
    assert (Hni : ~ In k (m_queue c')).
    { intros Hin. apply map_find_none in Hk. apply Hk. destruct Hinv as (I1 & I2 & I3 & I4).
      apply I3. assert (In k (map fst (mem_entries c))).
      { rewrite R5, map_app. apply in_or_app. left. unfold mem_entries. rewrite collect_fst; auto. intros. apply J3. auto. }
      unfold mem_entries in H. rewrite collect_fst in H; auto. intros. apply I3; auto. }
    assert (Hent : mem_entries (MkMem (k :: m_queue c') ((k, v) :: m_map c') ns' (m_limit c)) = (k, v) :: mem_entries c').
    { unfold mem_entries; simpl. rewrite key_eqb_refl. f_equal. apply collect_ext. intros k' Hk'. simpl.
      destruct (key_eqb k' k) eqn:E; auto. apply key_eqb_eq in E. subst. contradiction. }
    split; [|split; [reflexivity|]].
    + repeat split; simpl.
      * constructor; auto.
      * constructor; auto. rewrite <- J3. auto.
      * intros [->|H]; auto. right. apply J3; auto.
      * intros [->|H]; auto. right. apply J3; auto.
      * rewrite R3, J4. lia.
    + right. exists (mem_entries c'), ev. rewrite Hent.
      assert (Hs : m_size c' = total_size (mem_entries c')) by (apply mem_size_entries; repeat split; auto; apply J3).
      split; [exact R5|]. split; [reflexivity|]. split.
      * cbn [total_size fold_right]. fold (total_size (mem_entries c')). lia.
      * intros x l Hx. specialize (R7 x l Hx). cbn [total_size fold_right]. fold (total_size (mem_entries c' ++ [x])).
        rewrite total_app. simpl. lia.
Qed.

Lemma filter_not_in : forall k q, ~ In k q -> filter (fun k' => negb (key_eqb k k')) q = q.
Proof.
  induction q as [|a q IH]; simpl; intros H; auto.
  destruct (key_eqb k a) eqn:E; simpl.
  - apply key_eqb_eq in E; subst. tauto.
  - f_equal. apply IH. tauto.
Qed.

Lemma lookup_spec : forall c k,
  mem_inv c ->
  match mem_lookup c k with
  | Some (v, c') => mem_inv c' /\ m_limit c' = m_limit c /\ lru_touch (mem_entries c) k v (mem_entries c')
  | None => ~ In k (map fst (mem_entries c))
  end.
Proof.
  intros c k (I1 & I2 & I3 & I4). unfold mem_lookup.
  destruct (map_find k (m_map c)) as [v|] eqn:E.
  - assert (Hin : In k (m_queue c)). { apply I3. apply map_find_In in E. apply (in_map fst) in E. exact E. }
    destruct (in_split _ _ Hin) as (q1 & q2 & Hq).
    assert (Hf : move_front k (m_queue c) = k :: q1 ++ q2).
    { unfold move_front. f_equal. rewrite Hq in I1 |- *. rewrite filter_app. simpl. rewrite key_eqb_refl. simpl.
      pose proof (NoDup_remove_2 _ _ _ I1) as Hni. rewrite in_app_iff in Hni.
      rewrite !filter_not_in; tauto. }
    rewrite Hf. split; [|split; [reflexivity|]].
    + repeat split; simpl; auto.
      * rewrite Hq in I1. constructor; [apply NoDup_remove_2 in I1; auto | apply NoDup_remove_1 in I1; auto].
      * intros H. apply I3. rewrite Hq. rewrite in_app_iff in *. simpl. tauto.
      * intros H. apply I3 in H. rewrite Hq in H. rewrite in_app_iff in *. simpl in H. tauto.
    + exists (collect q1 (m_map c)), (collect q2 (m_map c)). unfold mem_entries; simpl.
      rewrite Hq, collect_app. simpl. rewrite E, collect_app. auto.
  - apply map_find_none in E. unfold mem_entries. rewrite collect_fst.
    + rewrite I3. exact E.
    + intros. apply I3; auto.
Qed.

Lemma mem_entries_find : forall c k v, mem_inv c -> (map_find k (m_map c) = Some v <-> In (k, v) (mem_entries c)).
Proof.
  intros c k v (I1 & I2 & I3 & I4). unfold mem_entries. split.
  - intros H. assert (Hin : In k (m_queue c)). { apply I3. apply map_find_In in H. apply (in_map fst) in H. exact H. }
    destruct (in_split _ _ Hin) as (q1 & q2 & Hq). rewrite Hq, collect_app. simpl. rewrite H. apply in_or_app. simpl; auto.
  - intros H. apply collect_In in H. tauto.
Qed.

Lemma mem_init_inv : mem_inv mem_init.
Proof. repeat split; simpl; auto; constructor. Qed.
