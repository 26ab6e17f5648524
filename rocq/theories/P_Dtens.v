From Coq Require Import List NArith Bool Arith Lia Sorted FinFun.
From Verif Require Import M_Dtens S_Dtens.
Import ListNotations.
Local Open Scope N_scope.

(** * The comparator *)


Lemma sum_orders_ok : forall l acc, acc + total l <= u32_max -> sum_orders acc l = Some (acc + total l).
Proof.
  induction l as [|[i n] l IH]; intros acc H; cbn [sum_orders total] in *.
  - f_equal; lia.
  - destruct (N.leb_spec (acc + n) u32_max); [|lia]. rewrite IH by lia. f_equal; lia.
Qed.

Lemma sum_orders_none : forall l acc, acc <= u32_max -> u32_max < acc + total l -> sum_orders acc l = None.
Proof.
  induction l as [|[i n] l IH]; intros acc Ha H; cbn [sum_orders total] in *.
  - lia.
  - destruct (N.leb_spec (acc + n) u32_max); auto. apply IH; lia.
Qed.

Lemma sv_sane_tail_iff : forall l p, sv_sane_tail p l = true <->
  (Forall (fun q => p < fst q) l /\ StronglySorted (fun p q => fst p < fst q) l /\ Forall (fun p => 0 < snd p) l).
Proof.
  induction l as [|[i n] l IH]; intros p; cbn [sv_sane_tail].
  - split; auto. intros _. repeat split; constructor.
  - rewrite !andb_true_iff, negb_true_iff, N.ltb_lt, N.eqb_neq, IH. split.
    + intros [[H1 H2] [H3 [H4 H5]]]. repeat split.
      * constructor; cbn; auto. eapply Forall_impl; [|apply H3]. cbn; intros; lia.
      * constructor; auto.
      * constructor; cbn; auto; lia.
    + intros [H1 [H2 H3]]. inversion H1; inversion H2; inversion H3; subst; cbn in *.
      repeat split; auto; lia.
Qed.

Lemma sv_sane_iff : forall v, sv_sane v = true <-> canonical v.
Proof.
  intros [c l]. unfold sv_sane, canonical; cbn [snd]. destruct l as [|[i n] l].
  - split; auto. intros _; split; constructor.
  - rewrite andb_true_iff, negb_true_iff, N.eqb_neq, sv_sane_tail_iff. split.
    + intros [H1 [H2 [H3 H4]]]. split; constructor; cbn; auto; lia.
    + intros [H1 H2]. inversion H1; inversion H2; subst; cbn in *. repeat split; auto; lia.
Qed.

Lemma ord_of_lt : forall l i, Forall (fun q => i < fst q) l -> ord_of l i = 0.
Proof.
  induction l as [|[j n] l IH]; intros i H; cbn [ord_of]; auto.
  inversion H; subst; cbn in *. destruct (N.eqb_spec j i); [lia|]. auto.
Qed.

Definition canon_l (l : list (N * N)) :=
  StronglySorted (fun p q => fst p < fst q) l /\ Forall (fun p : N * N => 0 < snd p) l.

Lemma canon_inv : forall i n l, canon_l ((i, n) :: l) -> Forall (fun q => i < fst q) l /\ 0 < n /\ canon_l l.
Proof. intros i n l [H1 H2]. inversion H1; inversion H2; subst; cbn in *. repeat split; auto. Qed.

Lemma ord_of_below : forall i n l j, canon_l ((i,n)::l) -> j < i -> ord_of ((i,n)::l) j = 0.
Proof.
  intros i n l j H Hj. apply ord_of_lt. apply canon_inv in H as [H _]. constructor; cbn; auto.
  eapply Forall_impl; [|apply H]. cbn; intros; lia.
Qed.

Lemma total_pos : forall i n l, canon_l ((i,n)::l) -> 0 < total ((i,n)::l).
Proof. intros i n l H. apply canon_inv in H as [_ [H _]]. cbn [total]; lia. Qed.

Definition lexb (l1 l2 : list (N*N)) : Prop :=
  exists i, (forall j, j < i -> ord_of l1 j = ord_of l2 j) /\ ord_of l2 i < ord_of l1 i.

Lemma ord_of_head : forall i n l, ord_of ((i,n)::l) i = n.
Proof. intros; cbn [ord_of]; rewrite N.eqb_refl; auto. Qed.
Lemma ord_of_other : forall i n l j, i <> j -> ord_of ((i,n)::l) j = ord_of l j.
Proof. intros; cbn [ord_of]. destruct (N.eqb_spec i j); congruence. Qed.

Lemma cmp_loop_iff : forall l1 l2, canon_l l1 -> canon_l l2 -> total l1 = total l2 ->
  (cmp_loop l1 l2 = true <-> lexb l1 l2).
Proof.
  induction l1 as [|[a n] l1 IH]; intros l2 H1 H2 Ht.
  - destruct l2 as [|[b m] l2].
    + cbn. split; [discriminate|]. intros [i [_ H]]. cbn in H. lia.
    + apply total_pos in H2. cbn [total] in *. lia.
  - destruct l2 as [|[b m] l2].
    { apply total_pos in H1. cbn [total] in *. lia. }
    pose proof (canon_inv _ _ _ H1) as [F1 [P1 C1]]. pose proof (canon_inv _ _ _ H2) as [F2 [P2 C2]].
    cbn [cmp_loop]. destruct (N.ltb_spec a b).
    { split; auto. intros _. exists a. split.
      - intros j Hj. rewrite !ord_of_below; auto; lia.
      - rewrite ord_of_head, ord_of_below; auto. }
    destruct (N.ltb_spec b a).
    { split; [discriminate|]. intros [i [Ha Hi]]. destruct (N.lt_trichotomy i b) as [K|[K|K]].
      - rewrite !ord_of_below in Hi by (auto; lia). lia.
      - subst. rewrite ord_of_head, ord_of_below in Hi by (auto; lia). lia.
      - specialize (Ha b K). rewrite ord_of_head, ord_of_below in Ha by (auto; lia). lia. }
    assert (a = b) by lia; subst b.
    destruct (N.ltb_spec m n).
    { split; auto. intros _. exists a. split.
      - intros j Hj. rewrite !ord_of_below; auto; lia.
      - rewrite !ord_of_head; auto. }
    destruct (N.ltb_spec n m).
    { split; [discriminate|]. intros [i [Ha Hi]]. destruct (N.lt_trichotomy i a) as [K|[K|K]].
      - rewrite !ord_of_below in Hi by (auto; lia). lia.
      - subst. rewrite !ord_of_head in Hi. lia.
      - specialize (Ha a K). rewrite !ord_of_head in Ha. lia. }
    assert (n = m) by lia; subst m. rewrite IH; auto.
    2:{ cbn [total] in Ht; lia. }
    split; intros [i [Ha Hi]].
    + exists i. split.
      * intros j Hj. cbn [ord_of]. destruct (a =? j); auto.
      * cbn [ord_of]. destruct (N.eqb_spec a i); auto. subst.
        rewrite !ord_of_lt in Hi; auto; lia.
    + exists i. assert (a <> i) by (intros ->; rewrite !ord_of_head in Hi; lia). split.
      * intros j Hj. specialize (Ha j Hj). destruct (N.eq_dec a j).
        -- subst. rewrite !ord_of_lt; auto.
        -- rewrite !ord_of_other in Ha; auto.
      * rewrite !ord_of_other in Hi; auto.
Qed.

Definition fits (v : sidx) : Prop := total (snd v) <= u32_max.

Lemma sv_cmp_some : forall v w, canonical v -> canonical w -> fits v -> fits w ->
  exists b, sv_cmp v w = Some b /\ (b = true <-> before v w).
Proof.
  intros v w Hv Hw Fv Fw. unfold sv_cmp.
  rewrite !sum_orders_ok by (unfold fits in *; lia). rewrite !N.add_0_l.
  eexists; split; [reflexivity|]. unfold before.
  destruct (N.ltb_spec (total (snd v)) (total (snd w))).
  { split; auto. }
  destruct (N.ltb_spec (total (snd w)) (total (snd v))).
  { split; [discriminate|]. intros [K|[K _]]; lia. }
  assert (E : total (snd v) = total (snd w)) by lia.
  destruct (N.ltb_spec (fst v) (fst w)).
  { split; auto. }
  destruct (N.ltb_spec (fst w) (fst v)).
  { split; [discriminate|]. intros [K|[_ [K|[K _]]]]; lia. }
  rewrite cmp_loop_iff by auto. unfold lexb. split; intros K.
  - right; split; auto. right; split; auto; lia.
  - destruct K as [K|[_ [K|[_ K]]]]; try lia; auto.
Qed.

Lemma sv_cmp_overflow : forall v w, u32_max < total (snd v) -> sv_cmp v w = None /\ sv_cmp w v = None.
Proof.
  intros v w H. unfold sv_cmp. rewrite (sum_orders_none (snd v)) by (unfold u32_max in *; lia).
  split; auto. destruct sum_orders; auto.
Qed.

(** * The order is strict and total *)

Lemma before_irrefl : forall v, ~ before v v.
Proof. intros v [H|[_ [H|[_ [i [_ H]]]]]]; lia. Qed.

Lemma before_trans : forall u v w, before u v -> before v w -> before u w.
Proof.
  intros u v w H1 H2. unfold before in *.
  destruct H1 as [H1|[E1 H1]]; destruct H2 as [H2|[E2 H2]]; try (left; lia).
  right; split; [lia|].
  destruct H1 as [H1|[F1 H1]]; destruct H2 as [H2|[F2 H2]]; try (left; lia).
  right; split; [lia|].
  destruct H1 as [i [A1 B1]]; destruct H2 as [j [A2 B2]].
  destruct (N.lt_trichotomy i j) as [K|[K|K]].
  - exists i; split.
    + intros k Hk. rewrite A1 by auto. apply A2; lia.
    + rewrite <- A2; auto.
  - subst j. exists i; split.
    + intros k Hk. rewrite A1; auto.
    + lia.
  - exists j; split.
    + intros k Hk. rewrite A1 by lia. auto.
    + rewrite A1; auto.
Qed.

Lemma canon_ext : forall l1 l2, canon_l l1 -> canon_l l2 -> (forall i, ord_of l1 i = ord_of l2 i) -> l1 = l2.
Proof.
  induction l1 as [|[a n] l1 IH]; intros [|[b m] l2] H1 H2 E; auto.
  - specialize (E b). rewrite ord_of_head in E. apply canon_inv in H2 as [_ [H2 _]]. cbn in E; lia.
  - specialize (E a). rewrite ord_of_head in E. apply canon_inv in H1 as [_ [H1 _]]. cbn in E; lia.
  - pose proof (canon_inv _ _ _ H1) as [F1 [P1 C1]]. pose proof (canon_inv _ _ _ H2) as [F2 [P2 C2]].
    assert (a = b).
    { destruct (N.lt_trichotomy a b) as [K|[K|K]]; auto.
      - specialize (E a). rewrite ord_of_head, ord_of_below in E; auto; lia.
      - specialize (E b). rewrite ord_of_head, ord_of_below in E; auto; lia. }
    subst b. assert (n = m) by (specialize (E a); rewrite !ord_of_head in E; auto). subst m.
    f_equal. apply IH; auto. intros i. destruct (N.eq_dec a i).
    + subst. rewrite !ord_of_lt; auto.
    + specialize (E i). rewrite !ord_of_other in E; auto.
Qed.

Lemma cmp_loop_trich : forall l1 l2, canon_l l1 -> canon_l l2 -> total l1 = total l2 ->
  cmp_loop l1 l2 = true \/ l1 = l2 \/ cmp_loop l2 l1 = true.
Proof.
  induction l1 as [|[a n] l1 IH]; intros l2 H1 H2 Ht.
  - destruct l2 as [|[b m] l2]; auto. apply total_pos in H2. cbn [total] in *. lia.
  - destruct l2 as [|[b m] l2].
    { apply total_pos in H1. cbn [total] in *. lia. }
    pose proof (canon_inv _ _ _ H1) as [F1 [P1 C1]]. pose proof (canon_inv _ _ _ H2) as [F2 [P2 C2]].
    cbn [cmp_loop].
    destruct (N.ltb_spec a b); auto. destruct (N.ltb_spec b a); auto.
    assert (a = b) by lia; subst b.
    destruct (N.ltb_spec m n); auto. destruct (N.ltb_spec n m); auto.
    assert (n = m) by lia; subst m.
    destruct (IH l2) as [K|[K|K]]; auto.
    + cbn [total] in Ht; lia.
    + subst; auto.
Qed.

Lemma before_total : forall v w, canonical v -> canonical w -> before v w \/ v = w \/ before w v.
Proof.
  intros [c l] [d m] H1 H2. unfold before; cbn [fst snd].
  destruct (N.lt_trichotomy (total l) (total m)) as [K|[K|K]]; auto.
  destruct (N.lt_trichotomy c d) as [L|[L|L]]; auto.
  - subst d. destruct (cmp_loop_trich l m H1 H2 K) as [J|[J|J]].
    + left. right. split; auto. right; split; auto. apply cmp_loop_iff; auto.
    + subst; auto.
    + right; right. right. split; auto. right; split; auto. apply cmp_loop_iff; auto.
  - right; right; right; split; auto.
Qed.

(** * Binary search *)
Section Find.
Context {A : Type}.
Implicit Types l : list (sidx * A).

Definition ok_keys l := Forall (fun kv => canonical (fst kv) /\ fits (fst kv)) l.

Lemma StronglySorted_nth : forall (B : Type) (R : B -> B -> Prop) (l : list B) i j x y, StronglySorted R l ->
  (i < j)%nat -> nth_error l i = Some x -> nth_error l j = Some y -> R x y.
Proof.
  intros B R l i j x y H. revert i j. induction H; intros i j Hij Hx Hy.
  - destruct i; discriminate.
  - destruct j; [lia|]. destruct i.
    + inversion Hx; subst. cbn in Hy. rewrite Forall_forall in H0. apply H0. eapply nth_error_In; eauto.
    + cbn in Hx, Hy. eapply (IHStronglySorted i j); eauto. lia.
Qed.

Lemma nth_map_fst : forall l i kv, nth_error l i = Some kv -> nth_error (map fst l) i = Some (fst kv).
Proof. intros. rewrite nth_error_map, H; auto. Qed.

Lemma div2_lt : forall n, (0 < n)%nat -> (Nat.div2 n < n)%nat.
Proof. intros n H. apply Nat.lt_div2; auto. Qed.

Lemma lb_loop_ok : forall l k, StronglySorted before (map fst l) -> ok_keys l -> canonical k -> fits k ->
  forall fuel first len, (len < fuel)%nat -> (first + len <= length l)%nat ->
  (forall i kv, (i < first)%nat -> nth_error l i = Some kv -> before (fst kv) k) ->
  (forall i kv, (first + len <= i)%nat -> nth_error l i = Some kv -> ~ before (fst kv) k) ->
  exists r, lb_loop fuel l k first len = Some r /\ (r <= length l)%nat /\
    (forall i kv, (i < r)%nat -> nth_error l i = Some kv -> before (fst kv) k) /\
    (forall i kv, (r <= i)%nat -> nth_error l i = Some kv -> ~ before (fst kv) k).
Proof.
  intros l k Hs Hk Ck Fk. induction fuel as [|fuel IH]; intros first len Hf Hb Hlo Hhi; [lia|].
  cbn [lb_loop]. destruct (Nat.eqb_spec len 0).
  { subst. exists first. rewrite Nat.add_0_r in *. repeat split; auto. }
  pose proof (div2_lt len ltac:(lia)) as Hd. set (step := Nat.div2 len) in *.
  destruct (nth_error l (first + step)) as [kv|] eqn:E.
  2:{ apply nth_error_None in E. lia. }
  assert (Hkv : canonical (fst kv) /\ fits (fst kv)).
  { unfold ok_keys in Hk. rewrite Forall_forall in Hk. apply Hk. eapply nth_error_In; eauto. }
  destruct (sv_cmp_some (fst kv) k) as [b [Eb Hbb]]; try tauto. rewrite Eb.
  destruct b.
  - assert (B : before (fst kv) k) by tauto. apply IH; try lia.
    + intros i kv' Hi E'. destruct (Nat.eq_dec i (first + step)).
      * subst. congruence.
      * assert (i < first + step)%nat by lia.
        eapply before_trans; [|apply B]. eapply StronglySorted_nth; [apply Hs| |eapply nth_map_fst; eauto|eapply nth_map_fst; eauto]. auto.
    + intros i kv' Hi. apply Hhi. lia.
  - assert (B : ~ before (fst kv) k) by (intros B; apply Hbb in B; discriminate).
    apply IH; try lia; auto.
    intros i kv' Hi E' B'. apply B. destruct (Nat.eq_dec i (first + step)).
    + subst. congruence.
    + eapply before_trans; [|apply B']. eapply StronglySorted_nth; [apply Hs| |eapply nth_map_fst; eauto|eapply nth_map_fst; eauto]. lia.
Qed.

Lemma map_find_ok : forall l k, StronglySorted before (map fst l) -> ok_keys l -> canonical k -> fits k ->
  exists r, map_find l k = Some r /\
    ((exists kv, nth_error l r = Some kv /\ fst kv = k) \/ (r = length l /\ ~ In k (map fst l))).
Proof.
  intros l k Hs Hk Ck Fk. unfold map_find.
  destruct (lb_loop_ok l k Hs Hk Ck Fk (S (length l)) 0 (length l)) as [r [E [Hr [Hlo Hhi]]]]; try lia.
  { intros i kv Hi Hn. assert (i < length l)%nat by (apply nth_error_Some; congruence). lia. }
  rewrite E. destruct (nth_error l r) as [kv|] eqn:En.
  2:{ eexists; split; [reflexivity|]. right; split; auto. intros Hin.
      apply In_nth_error in Hin as [i Hi]. rewrite nth_error_map in Hi.
      destruct (nth_error l i) as [kv|] eqn:Ei; [|discriminate]. inversion Hi; subst.
      apply (before_irrefl (fst kv)). apply (Hlo i); auto.
      apply nth_error_None in En. assert (i < length l)%nat by (apply nth_error_Some; congruence). lia. }
  assert (Hkv : canonical (fst kv) /\ fits (fst kv)).
  { unfold ok_keys in Hk. rewrite Forall_forall in Hk. apply Hk. eapply nth_error_In; eauto. }
  destruct (sv_cmp_some k (fst kv)) as [b [Eb Hbb]]; try tauto. rewrite Eb.
  assert (N1 : ~ before (fst kv) k) by (apply (Hhi r); auto).
  destruct b.
  - eexists; split; [reflexivity|]. right; split; auto. intros Hin.
    assert (B : before k (fst kv)) by tauto.
    apply In_nth_error in Hin as [i Hi]. rewrite nth_error_map in Hi.
    destruct (nth_error l i) as [kv'|] eqn:Ei; [|discriminate]. inversion Hi; subst.
    destruct (lt_eq_lt_dec i r) as [[K|K]|K].
    + apply (before_irrefl (fst kv')). apply (Hlo i); auto.
    + subst. rewrite En in Ei. inversion Ei; subst. apply (before_irrefl (fst kv')); auto.
    + apply (before_irrefl (fst kv)). eapply before_trans; [|exact B].
      eapply StronglySorted_nth; [apply Hs|apply K|eapply nth_map_fst; eauto|eapply nth_map_fst; eauto].
  - eexists; split; [reflexivity|]. left. exists kv; split; auto.
    destruct (before_total (fst kv) k) as [K|[K|K]]; try tauto. apply Hbb in K; discriminate.
Qed.

Lemma map_find_overflow : forall l k, l <> [] -> u32_max < total (snd k) -> map_find l k = None.
Proof.
  intros l k Hl H. unfold map_find. destruct l as [|kv l]; [congruence|].
  cbn [lb_loop]. remember (length (kv :: l)) as len eqn:El. destruct (Nat.eqb_spec len 0); [cbn in El; lia|].
  cbn [Nat.add]. destruct (nth_error (kv :: l) (Nat.div2 len)); auto.
  destruct (sv_cmp_overflow k (fst p) H) as [_ ->]. auto.
Qed.

Lemma keys_nodup : forall (l : list sidx), StronglySorted before l -> NoDup l.
Proof.
  induction 1; constructor; auto. intros Hin. rewrite Forall_forall in H0.
  apply (before_irrefl a). auto.
Qed.

Lemma map_find_nth : forall l i kv, StronglySorted before (map fst l) -> ok_keys l ->
  nth_error l i = Some kv -> map_find l (fst kv) = Some i.
Proof.
  intros l i kv Hs Hk Hi.
  assert (Hkv : canonical (fst kv) /\ fits (fst kv)).
  { unfold ok_keys in Hk. rewrite Forall_forall in Hk. apply Hk. eapply nth_error_In; eauto. }
  destruct (map_find_ok l (fst kv)) as [r [E [[kv' [Hr Ek]]|[_ Hn]]]]; try tauto.
  - rewrite E. f_equal. apply (proj1 (NoDup_nth_error (map fst l)) (keys_nodup _ Hs)).
    + rewrite map_length. apply nth_error_Some; congruence.
    + rewrite !nth_error_map, Hr, Hi. cbn; congruence.
  - exfalso; apply Hn. apply in_map. eapply nth_error_In; eauto.
Qed.

Lemma map_find_absent : forall l k, StronglySorted before (map fst l) -> ok_keys l -> canonical k -> fits k ->
  ~ In k (map fst l) -> map_find l k = Some (length l).
Proof.
  intros l k Hs Hk Ck Fk Hn. destruct (map_find_ok l k) as [r [E [[kv' [Hr Ek]]|[-> _]]]]; auto.
  exfalso; apply Hn. subst. apply in_map. eapply nth_error_In; eauto.
Qed.

(** A contiguous range of a sorted list is a filter. *)
Lemma subrange_filter : forall (B:Type) (P : B -> bool) (l : list B) b e,
  (b <= e <= length l)%nat ->
  (forall i x, nth_error l i = Some x -> (P x = true <-> (b <= i < e)%nat)) ->
  firstn (e - b) (skipn b l) = filter P l.
Proof.
  intros B P l. induction l as [|x l IH]; intros b e Hb H.
  - rewrite skipn_nil, firstn_nil; auto.
  - cbn [filter]. cbn [length] in Hb. destruct b as [|b].
    + destruct e as [|e].
      * cbn. destruct (P x) eqn:E; [apply (H O x) in E; [lia|reflexivity]|].
        specialize (IH O O ltac:(lia)). cbn in IH. apply IH. intros i y Hy. specialize (H (S i) y Hy). split; intros K; [apply H in K|]; lia.
      * cbn [skipn Nat.sub firstn]. assert (E : P x = true) by (apply (H O x); [reflexivity|lia]). rewrite E. f_equal.
        specialize (IH O e ltac:(lia)). rewrite Nat.sub_0_r in IH. cbn [skipn] in IH. apply IH.
        intros i y Hy. rewrite (H (S i) y Hy). lia.
    + destruct e as [|e]; [lia|]. cbn [skipn Nat.sub]. destruct (P x) eqn:E; [apply (H O x) in E; [lia|reflexivity]|].
      apply IH; [lia|]. intros i y Hy. rewrite (H (S i) y Hy). lia.
Qed.

End Find.

(** * Complete tensors *)
Lemma canon_single : forall i n, n <> 0 -> canon_l [(i, n)].
Proof. intros; split; repeat constructor; cbn; lia. Qed.
Lemma canon_nil : canon_l [].
Proof. split; constructor. Qed.

(** Among the canonical multiindices with arguments below [nargs] and a given
    total order, the pure derivative in the first argument comes first and the
    pure derivative in the last argument comes last. *)
Lemma first_is_first : forall l o, canon_l l -> total l = o -> o <> 0 -> l = [(0, o)] \/ lexb [(0, o)] l.
Proof.
  intros l o Hc Ht Ho. destruct (cmp_loop_trich [(0,o)] l) as [K|[K|K]]; auto.
  - apply canon_single; auto.
  - cbn; lia.
  - right. apply cmp_loop_iff; auto. apply canon_single; auto. cbn; lia.
  - exfalso. destruct l as [|[a n] l]; [discriminate|]. cbn [cmp_loop] in K.
    destruct (N.ltb_spec a 0); [lia|]. destruct (N.ltb_spec 0 a); [discriminate|].
    destruct (N.ltb_spec o n); [cbn [total] in Ht; lia|]. destruct (N.ltb_spec n o); [discriminate|].
    destruct l as [|[? ?] l]; discriminate.
Qed.

Lemma total_sorted_upper : forall l nargs, canon_l l -> Forall (fun p : N * N => fst p < nargs) l ->
  forall o, total l = o -> o <> 0 -> l = [(nargs - 1, o)] \/ lexb l [(nargs - 1, o)].
Proof.
  intros l nargs Hc Hf o Ht Ho. destruct (cmp_loop_trich l [(nargs - 1,o)]) as [K|[K|K]]; auto.
  - apply canon_single; auto.
  - cbn; lia.
  - right. apply cmp_loop_iff; auto. apply canon_single; auto. cbn; lia.
  - exfalso. destruct l as [|[a n] l]; [discriminate|].
    pose proof (canon_inv _ _ _ Hc) as [F1 [P1 C1]].
    inversion Hf as [|? ? Ha Hf']; subst; cbn [fst] in Ha. cbn [cmp_loop] in K.
    destruct (N.ltb_spec (nargs - 1) a); [lia|]. destruct (N.ltb_spec a (nargs - 1)); [discriminate|].
    assert (l = []).
    { destruct l as [|[b m] l]; auto. inversion F1; inversion Hf'; subst; cbn in *; lia. }
    subst. cbn [total] in K. destruct (N.ltb_spec n (n + 0)); [lia|]. destruct (N.ltb_spec (n+0) n); [discriminate|discriminate].
Qed.

Lemma nseq_in : forall k s x, In x (nseq s k) <-> s <= x < s + N.of_nat k.
Proof.
  induction k; intros s x; cbn [nseq].
  - cbn. lia.
  - cbn [In]. rewrite IHk. lia.
Qed.
Lemma nseq_length : forall k s, length (nseq s k) = k.
Proof. induction k; intros; cbn; auto. Qed.
Lemma nseq_nodup : forall k s, NoDup (nseq s k).
Proof. induction k; intros; cbn [nseq]; constructor; auto. rewrite nseq_in. lia. Qed.

Lemma total_zero : forall v, canonical v -> total (snd v) = 0 -> snd v = [].
Proof.
  intros [c m] Hc Ht. cbn in *. destruct m as [|[i n] m]; auto.
  pose proof (total_pos i n m Hc). lia.
Qed.

Lemma forallb_filter_id : forall (B : Type) (P : B -> bool) (m : list B), forallb P m = true -> filter P m = m.
Proof.
  induction m as [|x m IH]; cbn; auto. intros H. apply andb_prop in H as [H1 H2]. rewrite H1, IH; auto.
Qed.

Lemma in_zero : forall nouts nargs order c, c < nouts -> in_tensor nouts nargs order (c, []).
Proof. intros nouts nargs order c H. repeat split; cbn; auto; try constructor; lia. Qed.
Lemma in_pure : forall nouts nargs order c i o, c < nouts -> i < nargs -> 0 < o <= order -> in_tensor nouts nargs order (c, [(i, o)]).
Proof.
  intros nouts nargs order c i o H1 H2 H3. split; [apply canon_single; lia|]. cbn; repeat split; auto. lia.
Qed.


Section Complete.
Context {A : Type}.
Variables (nouts nargs order : N) (l : list (sidx * A)).
Hypothesis Hnouts : 0 < nouts.
Hypothesis Hnargs : 0 < nargs.
Hypothesis Horder : order <= u32_max.
Hypothesis Hcomp : complete_tensor nouts nargs order l.
Let d : dtens A := {| dt_map := l; dt_nargs := nargs |}.

Lemma ct_sorted : StronglySorted before (map fst l).
Proof. apply Hcomp. Qed.
Lemma ct_in : forall v, In v (map fst l) <-> in_tensor nouts nargs order v.
Proof. apply Hcomp. Qed.
Lemma ct_ok : ok_keys l.
Proof.
  clear Hnouts Hnargs. unfold ok_keys. apply Forall_forall. intros kv Hin.
  assert (H : In (fst kv) (map fst l)) by (apply in_map; auto).
  apply ct_in in H as [H1 [_ [_ H2]]]. split; auto. unfold fits; lia.
Qed.

Lemma in_nth : forall v, in_tensor nouts nargs order v -> exists i kv, nth_error l i = Some kv /\ fst kv = v.
Proof.
  intros v H. apply ct_in in H. apply In_nth_error in H as [i Hi]. rewrite nth_error_map in Hi.
  destruct (nth_error l i) as [kv|] eqn:E; [|discriminate]. inversion Hi; subst. eauto.
Qed.

Lemma nth_in : forall i kv, nth_error l i = Some kv -> in_tensor nouts nargs order (fst kv).
Proof. intros i kv H. apply ct_in. apply in_map. eapply nth_error_In; eauto. Qed.

Lemma nth_before : forall i j x y, nth_error l i = Some x -> nth_error l j = Some y ->
  (before (fst x) (fst y) <-> (i < j)%nat).
Proof.
  intros i j x y Hi Hj. split; intros H.
  - destruct (lt_eq_lt_dec i j) as [[K|K]|K]; auto.
    + subst. rewrite Hi in Hj. inversion Hj; subst. exfalso; eapply before_irrefl; eauto.
    + exfalso. apply (before_irrefl (fst x)). eapply before_trans; eauto.
      eapply StronglySorted_nth; [apply ct_sorted|apply K|eapply nth_map_fst; eauto|eapply nth_map_fst; eauto].
  - eapply StronglySorted_nth; [apply ct_sorted|apply H|eapply nth_map_fst; eauto|eapply nth_map_fst; eauto].
Qed.

(** Entries between two keys. *)
Lemma range_between_ok : forall k0 k1 (P : sidx * A -> bool),
  in_tensor nouts nargs order k0 -> in_tensor nouts nargs order k1 ->
  (forall kv, in_tensor nouts nargs order (fst kv) ->
     (P kv = true <-> ((fst kv = k0 \/ before k0 (fst kv)) /\ (fst kv = k1 \/ before (fst kv) k1)))) ->
  (k0 = k1 \/ before k0 k1) ->
  range_between d k0 k1 = Some (filter P l).
Proof.
  intros k0 k1 P H0 H1 HP H01. unfold range_between; cbn [dt_map d].
  destruct (in_nth k0 H0) as [b [kb [Hb Eb]]]. destruct (in_nth k1 H1) as [e [ke [He Ee]]].
  rewrite <- Eb, <- Ee. rewrite (map_find_nth l b kb), (map_find_nth l e ke); auto using ct_sorted, ct_ok.
  assert (Le : (e < length l)%nat) by (apply nth_error_Some; congruence).
  destruct (Nat.eqb_spec e (length l)); [lia|]. f_equal. unfold subrange.
  assert (Hbe : (b <= e)%nat).
  { destruct H01 as [K|K].
    - subst k0 k1. assert (b = e); [|lia].
      apply (proj1 (NoDup_nth_error (map fst l)) (keys_nodup _ ct_sorted)).
      + rewrite map_length. apply nth_error_Some; congruence.
      + rewrite !nth_error_map, Hb, He. cbn; congruence.
    - rewrite <- Eb, <- Ee in K. apply (nth_before b e kb ke Hb He) in K. lia. }
  apply subrange_filter; [lia|].
  intros i x Hx. rewrite HP by (eapply nth_in; eauto). rewrite <- Eb, <- Ee.
  rewrite (nth_before b i kb x Hb Hx), (nth_before i e x ke Hx He).
  assert (X1 : fst x = fst kb <-> i = b).
  { split; intros K; [|subst; congruence].
    apply (proj1 (NoDup_nth_error (map fst l)) (keys_nodup _ ct_sorted)).
    - rewrite map_length. apply nth_error_Some; congruence.
    - rewrite !nth_error_map, Hx, Hb. cbn; congruence. }
  assert (X2 : fst x = fst ke <-> i = e).
  { split; intros K; [|subst; congruence].
    apply (proj1 (NoDup_nth_error (map fst l)) (keys_nodup _ ct_sorted)).
    - rewrite map_length. apply nth_error_Some; congruence.
    - rewrite !nth_error_map, Hx, He. cbn; congruence. }
  rewrite X1, X2. lia.
Qed.

Lemma l_nonempty : l <> [].
Proof. intros E. destruct (in_nth (0,[])) as [i [kv [H _]]]; [apply in_zero; auto|]. rewrite E in H. destruct i; discriminate. Qed.

Lemma match_l : forall (X : Type) (a b : X), (match l with [] => a | _ :: _ => b end) = b.
Proof. intros. pose proof l_nonempty. destruct l; congruence. Qed.

(** First, the degree-zero entries occupy the first [nouts] positions. *)
Lemma zero_entries_length : length (filter (fun kv : sidx * A => total (snd (fst kv)) =? 0) l) = N.to_nat nouts.
Proof.
  rewrite <- (map_length fst).
  assert (E : length (map fst (filter (fun kv : sidx * A => total (snd (fst kv)) =? 0) l)) =
              length (map (fun c : N => (c, @nil (N*N))) (nseq 0 (N.to_nat nouts)))).
  { apply Nat.le_antisymm; apply NoDup_incl_length.
    - assert (ND : NoDup (map fst l)) by (apply keys_nodup, ct_sorted).
      clear -ND. induction l as [|kv m IH]; cbn; [constructor|].
      inversion ND; subst. destruct (total (snd (fst kv)) =? 0); cbn; auto. constructor; auto.
      intros Hin. apply H1. apply in_map_iff in Hin as [x [Ex Hx]]. apply filter_In in Hx as [Hx _].
      rewrite <- Ex. apply in_map; auto.
    - intros v Hv. apply in_map_iff in Hv as [kv [<- Hkv]]. apply filter_In in Hkv as [Hkv Ht].
      apply N.eqb_eq in Ht. assert (Hin : In (fst kv) (map fst l)) by (apply in_map; auto).
      apply ct_in in Hin as [Hc [Hl _]]. apply in_map_iff. exists (fst (fst kv)). split.
      + destruct (fst kv) as [c m] eqn:E; cbn in *. pose proof (total_zero (c,m) Hc Ht). cbn in H; subst; auto.
      + apply nseq_in. lia.
    - apply Injective_map_NoDup; [|apply nseq_nodup]. intros x y K; inversion K; auto.
    - intros v Hv. apply in_map_iff in Hv as [c [<- Hc]]. apply nseq_in in Hc.
      assert (Hin : In (c, []) (map fst l)) by (apply ct_in, in_zero; lia).
      apply in_map_iff in Hin as [kv [E Hkv]]. apply in_map_iff. exists kv; split; auto.
      apply filter_In; split; auto. rewrite E; auto. }
  rewrite E, map_length, nseq_length; auto.
Qed.

Lemma get_nouts_ok : get_nouts d = Some nouts.
Proof.
  unfold get_nouts; cbn [dt_map d]. rewrite match_l.
  destruct (N.eq_dec order 0) as [Ho|Ho].
  - assert (E : filter (fun kv : sidx * A => total (snd (fst kv)) =? 0) l = l).
    { apply forallb_filter_id. apply forallb_forall. intros x Hx. apply N.eqb_eq.
      assert (Hin : In (fst x) (map fst l)) by (apply in_map; auto). apply ct_in in Hin as [_ [_ [_ H]]]. lia. }
    rewrite map_find_absent; auto using ct_sorted, ct_ok.
    + f_equal. rewrite <- E, zero_entries_length. lia.
    + apply canon_single; lia.
    + unfold fits; cbn. unfold u32_max; lia.
    + intros Hin. apply ct_in in Hin as [_ [_ [_ H]]]. cbn in H. lia.
  - destruct (in_nth (0,[(0,1)])) as [b [kb [Hb Eb]]]; [apply in_pure; lia|].
    rewrite <- Eb, (map_find_nth l b kb); auto using ct_sorted, ct_ok. f_equal.
    rewrite <- (N2Nat.id nouts). f_equal. rewrite <- zero_entries_length.
    assert (Lb : (b < length l)%nat) by (apply nth_error_Some; congruence).
    assert (E : firstn (b - 0) (skipn 0 l) = filter (fun kv : sidx * A => total (snd (fst kv)) =? 0) l).
    { apply subrange_filter; [lia|]. intros i x Hx. rewrite N.eqb_eq.
      pose proof (nth_in i x Hx) as [Hc [Hl [Hf Ht]]].
      pose proof (nth_before i b x kb Hx Hb) as NB. rewrite Eb in NB. split.
      - intros K. split; [lia|]. apply NB. left. cbn. lia.
      - intros [_ K]. apply NB in K. destruct K as [K|[K1 K2]]; cbn in *; [lia|].
        exfalso. destruct K2 as [K2|[_ K2]]; [lia|].
        destruct (first_is_first (snd (fst x)) 1 Hc) as [K|K]; try lia.
        + destruct K2 as [j [_ K2]]. rewrite K in K2. cbn in K2. lia.
        + apply (before_irrefl (0, snd (fst x))). apply (before_trans _ (0,[(0,1)])); right; cbn; split; auto. }
    rewrite <- E, Nat.sub_0_r. cbn [skipn]. rewrite firstn_length. lia.
Qed.

Lemma get_derivatives_co_ok : forall c o, o <= u32_max ->
  get_derivatives_co d c o = Some (filter (fun kv => (fst (fst kv) =? c) && (total (snd (fst kv)) =? o)) l).
Proof.
  intros c o Ho. unfold get_derivatives_co; cbn [dt_map d dt_nargs]. rewrite match_l.
  destruct (N.lt_ge_cases c nouts) as [Hc|Hc]; [destruct (N.le_gt_cases o order) as [Hoo|Hoo]|].
  - destruct (N.eqb_spec o 0) as [->|Hz].
    + apply range_between_ok; auto using in_zero. intros kv [Hk [Hl [Hf Ht]]].
      rewrite andb_true_iff, !N.eqb_eq. split.
      * intros [K1 K2]. pose proof (total_zero _ Hk K2) as Z. assert (fst kv = (c, [])) by (destruct (fst kv); cbn in *; congruence). auto.
      * intros [[K1|K1] [K2|K2]].
        -- rewrite K1; auto.
        -- rewrite K1; auto.
        -- rewrite K2; auto.
        -- exfalso. apply (before_irrefl (c,[])). eapply before_trans; eauto.
    + assert (T0 : in_tensor nouts nargs order (c, [(0, o)])) by (apply in_pure; lia).
      assert (T1 : in_tensor nouts nargs order (c, [(nargs - 1, o)])) by (apply in_pure; lia).
      apply range_between_ok; auto.
      * intros kv [Hk [Hl [Hf Ht]]]. rewrite andb_true_iff, !N.eqb_eq. split.
        -- intros [K1 K2]. split.
           ++ destruct (first_is_first (snd (fst kv)) o) as [K|K]; auto.
              ** left. destruct (fst kv); cbn in *; congruence.
              ** right. right. cbn. split; [lia|]. right; split; auto.
           ++ destruct (total_sorted_upper (snd (fst kv)) nargs Hk Hf o) as [K|K]; auto.
              ** left. destruct (fst kv); cbn in *; congruence.
              ** right. right. cbn. split; [lia|]. right; split; auto.
        -- intros [K1 K2].
           assert (L1 : o <= total (snd (fst kv)) /\ (o = total (snd (fst kv)) -> c <= fst (fst kv))).
           { destruct K1 as [->|[K|[K1 K]]]; cbn in *; lia. }
           assert (L2 : total (snd (fst kv)) <= o /\ (o = total (snd (fst kv)) -> fst (fst kv) <= c)).
           { destruct K2 as [->|[K|[K2 K]]]; cbn in *; lia. }
           lia.
      * destruct (first_is_first [(nargs-1,o)] o) as [K|K]; auto; try (cbn; lia).
        -- apply canon_single; auto.
        -- inversion K as [E]. left. rewrite E. auto.
        -- right; right; cbn; auto.
  - assert (E : filter (fun kv : sidx * A => (fst (fst kv) =? c) && (total (snd (fst kv)) =? o)) l = []).
    {
      assert (G : forall m, incl m l -> filter (fun kv : sidx * A => (fst (fst kv) =? c) && (total (snd (fst kv)) =? o)) m = []).
      { induction m as [|x m IH]; intros Hm; cbn [filter]; auto.
        assert (Hin : In (fst x) (map fst l)) by (apply in_map, Hm; left; auto).
        apply ct_in in Hin as [_ [_ [_ H]]].
        destruct (N.eqb_spec (total (snd (fst x))) o); [lia|]. rewrite andb_false_r. apply IH. intros y Hy; apply Hm; right; auto. }
      apply G, incl_refl. }
    rewrite E. destruct (N.eqb_spec o 0); [lia|]. unfold range_between; cbn [dt_map d].
    rewrite !map_find_absent; auto using ct_sorted, ct_ok.
    + rewrite Nat.eqb_refl. unfold subrange. rewrite Nat.sub_diag; auto.
    + apply canon_single; auto.
    + unfold fits; cbn; lia.
    + intros K; apply ct_in in K as [_ [_ [_ K]]]; cbn in K; lia.
    + apply canon_single; auto.
    + unfold fits; cbn; lia.
    + intros K; apply ct_in in K as [_ [_ [_ K]]]; cbn in K; lia.
  - assert (E : filter (fun kv : sidx * A => (fst (fst kv) =? c) && (total (snd (fst kv)) =? o)) l = []).
    { assert (G : forall m, incl m l -> filter (fun kv : sidx * A => (fst (fst kv) =? c) && (total (snd (fst kv)) =? o)) m = []).
      { induction m as [|x m IH]; intros Hm; cbn [filter]; auto.
        assert (Hin : In (fst x) (map fst l)) by (apply in_map, Hm; left; auto).
        apply ct_in in Hin as [_ [H _]].
        destruct (N.eqb_spec (fst (fst x)) c); [lia|]. apply IH. intros y Hy; apply Hm; right; auto. }
      apply G, incl_refl. }
    rewrite E. unfold range_between; cbn [dt_map d]. destruct (N.eqb_spec o 0).
    + rewrite !map_find_absent; auto using ct_sorted, ct_ok.
      * rewrite Nat.eqb_refl. unfold subrange. rewrite Nat.sub_diag; auto.
      * apply canon_nil.
      * unfold fits; cbn; unfold u32_max; lia.
      * intros K; apply ct_in in K as [_ [K _]]; cbn in K; lia.
    + rewrite !map_find_absent; auto using ct_sorted, ct_ok.
      * rewrite Nat.eqb_refl. unfold subrange. rewrite Nat.sub_diag; auto.
      * apply canon_single; auto.
      * unfold fits; cbn; lia.
      * intros K; apply ct_in in K as [_ [K _]]; cbn in K; lia.
      * apply canon_single; auto.
      * unfold fits; cbn; lia.
      * intros K; apply ct_in in K as [_ [K _]]; cbn in K; lia.
Qed.

Lemma get_derivatives_o_ok : forall o, o <= u32_max ->
  get_derivatives_o d o = Some (filter (fun kv => total (snd (fst kv)) =? o) l).
Proof.
  intros o Ho. unfold get_derivatives_o. rewrite get_nouts_ok. cbn [dt_map d dt_nargs]. rewrite match_l.
  destruct (N.le_gt_cases o order) as [Hoo|Hoo].
  - destruct (N.eqb_spec o 0) as [->|Hz].
    + apply range_between_ok; try (apply in_zero; lia).
      * intros kv [Hk [Hl [Hf Ht]]]. rewrite N.eqb_eq. split.
        -- intros K. pose proof (total_zero _ Hk K) as E. destruct (fst kv) as [c m]; cbn in *; subst m. split.
           ++ destruct (N.eq_dec c 0); [subst; auto|]. right; right; cbn; split; auto; left; lia.
           ++ destruct (N.eq_dec c (nouts - 1)); [subst; auto|]. right; right; cbn; split; auto; left; lia.
        -- intros [_ [K|K]]; [rewrite K; auto|]. destruct K as [K|[K _]]; cbn in *; lia.
      * destruct (N.eq_dec 0 (nouts - 1)) as [K|K]; [rewrite <- K; auto|]. right; right; cbn; split; auto; left; lia.
    + assert (T0 : in_tensor nouts nargs order (0, [(0, o)])) by (apply in_pure; lia).
      assert (T1 : in_tensor nouts nargs order (nouts - 1, [(nargs - 1, o)])) by (apply in_pure; lia).
      assert (B0 : forall v, in_tensor nouts nargs order v -> total (snd v) = o -> v = (0,[(0,o)]) \/ before (0,[(0,o)]) v).
      { intros [c m] [Hk [Hl [Hf Ht]]] K; cbn in *.
        destruct (N.eq_dec c 0); [|right; right; cbn; split; [lia|]; left; lia]. subst c.
        destruct (first_is_first m o) as [J|J]; auto; [subst m; auto|]. right; right; cbn; split; [lia|]; right; split; auto. }
      assert (B1 : forall v, in_tensor nouts nargs order v -> total (snd v) = o -> v = (nouts - 1,[(nargs-1,o)]) \/ before v (nouts - 1,[(nargs-1,o)])).
      { intros [c m] [Hk [Hl [Hf Ht]]] K; cbn in *.
        destruct (N.eq_dec c (nouts - 1)); [|right; right; cbn; split; [lia|]; left; lia]. subst c.
        destruct (total_sorted_upper m nargs Hk Hf o) as [J|J]; auto; [subst m; auto|]. right; right; cbn; split; [lia|]; right; split; auto. }
      apply range_between_ok; auto.
      * intros kv Hkv. rewrite N.eqb_eq. split; [auto|]. intros [[->|K1] K2]; [cbn; lia|].
        destruct K2 as [->|K2]; [cbn; lia|].
        destruct K1 as [K1|[K1 _]]; destruct K2 as [K2|[K2 _]]; cbn in *; lia.
      * destruct (B0 _ T1) as [K|K]; [cbn; lia| |]; auto.
  - assert (E : filter (fun kv : sidx * A => total (snd (fst kv)) =? o) l = []).
    { assert (G : forall m, incl m l -> filter (fun kv : sidx * A => total (snd (fst kv)) =? o) m = []).
      { induction m as [|x m IH]; intros Hm; cbn [filter]; auto.
        assert (Hin : In (fst x) (map fst l)) by (apply in_map, Hm; left; auto).
        apply ct_in in Hin as [_ [_ [_ H]]].
        destruct (N.eqb_spec (total (snd (fst x))) o); [lia|]. apply IH. intros y Hy; apply Hm; right; auto. }
      apply G, incl_refl. }
    rewrite E. destruct (N.eqb_spec o 0); [lia|]. unfold range_between; cbn [dt_map d].
    rewrite !map_find_absent; auto using ct_sorted, ct_ok.
    + rewrite Nat.eqb_refl. unfold subrange. rewrite Nat.sub_diag; auto.
    + apply canon_single; auto.
    + unfold fits; cbn; lia.
    + intros K; apply ct_in in K as [_ [_ [_ K]]]; cbn in K; lia.
    + apply canon_single; auto.
    + unfold fits; cbn; lia.
    + intros K; apply ct_in in K as [_ [_ [_ K]]]; cbn in K; lia.
Qed.

Lemma get_order_ok : get_order d = order.
Proof.
  unfold get_order; cbn [dt_map d].
  destruct (rev l) as [|kv r] eqn:Er.
  { exfalso. apply l_nonempty. rewrite <- (rev_involutive l), Er; auto. }
  assert (El : l = rev r ++ [kv]) by (rewrite <- (rev_involutive l), Er; auto).
  assert (Hlast : nth_error l (length (rev r)) = Some kv).
  { rewrite El, nth_error_app2, Nat.sub_diag; auto. }
  assert (Hmax : forall v, in_tensor nouts nargs order v -> ~ before (fst kv) v).
  { intros v Hv Hb. destruct (in_nth v Hv) as [i [x [Hx Ex]]]. subst v.
    apply (nth_before _ _ _ _ Hlast Hx) in Hb.
    assert (i < length l)%nat by (apply nth_error_Some; congruence).
    rewrite El, app_length in H; cbn in H; lia. }
  pose proof (nth_in _ _ Hlast) as Hkv. pose proof Hkv as [Hk [Hl [Hf Ht]]].
  destruct (N.eq_dec order 0) as [Ho|Ho].
  - rewrite (total_zero (fst kv)); auto; lia.
  - assert (T1 : in_tensor nouts nargs order (nouts - 1, [(nargs - 1, order)])) by (apply in_pure; lia).
    destruct (before_total (fst kv) (nouts - 1, [(nargs - 1, order)])) as [K|[K|K]].
    + auto. + apply T1.
    + exfalso; eapply Hmax; eauto.
    + rewrite K; auto.
    + exfalso. destruct K as [K|[K1 [K2|[K2 K3]]]]; cbn [fst snd total] in *; try lia.
      destruct (total_sorted_upper _ _ Hk Hf order) as [J|J]; try lia.
      * rewrite J in K3. destruct K3 as [j [_ K3]]. lia.
      * apply (before_irrefl (0, [(nargs - 1, order)])). apply (before_trans _ (0, snd (fst kv))).
        -- right; cbn; split; [lia|]; right; split; auto.
        -- right; cbn; split; [lia|]; right; split; auto.
Qed.

End Complete.

(** * Dense lookups *)
Lemma to_sparse_low : forall v i, Forall (fun p => i <= fst p) (to_sparse i v).
Proof.
  induction v as [|n v IH]; intros i; cbn [to_sparse]; [constructor|].
  assert (Forall (fun p => i <= fst p) (to_sparse (i + 1) v)).
  { eapply Forall_impl; [|apply IH]. cbn; intros; lia. }
  destruct (n =? 0); auto. constructor; cbn; auto; lia.
Qed.

Lemma to_sparse_canon : forall v i, canon_l (to_sparse i v).
Proof.
  induction v as [|n v IH]; intros i; cbn [to_sparse]; [apply canon_nil|].
  destruct (N.eqb_spec n 0); auto. destruct (IH (i+1)) as [H1 H2]. split; constructor; auto.
  - eapply Forall_impl; [|apply to_sparse_low]. cbn; intros; lia.
  - cbn; lia.
Qed.

Lemma to_sparse_ord : forall v i j, nth_error v j = nth_error v j ->
  (j < length v)%nat -> nth_error v j = Some (ord_of (to_sparse i v) (i + N.of_nat j)).
Proof.
  induction v as [|n v IH]; intros i j _ Hj; cbn [length] in Hj; [lia|].
  destruct j as [|j].
  - cbn [nth_error to_sparse]. rewrite N.add_0_r. destruct (N.eqb_spec n 0).
    + subst. rewrite ord_of_lt; auto. eapply Forall_impl; [|apply to_sparse_low]. cbn; intros; lia.
    + rewrite ord_of_head; auto.
  - cbn [nth_error]. rewrite (IH (i + 1) j) by (auto; lia). f_equal.
    replace (i + 1 + N.of_nat j) with (i + N.of_nat (S j)) by lia.
    cbn [to_sparse]. destruct (n =? 0); auto. rewrite ord_of_other; auto; lia.
Qed.

Lemma to_sparse_high : forall v i, Forall (fun p => fst p < i + N.of_nat (length v)) (to_sparse i v).
Proof.
  induction v as [|n v IH]; intros i; cbn [to_sparse]; [constructor|].
  assert (Forall (fun p => fst p < i + N.of_nat (length (n :: v))) (to_sparse (i + 1) v)).
  { eapply Forall_impl; [|apply IH]. cbn [length]; intros; lia. }
  destruct (n =? 0); auto. constructor; cbn [fst length]; auto; lia.
Qed.

Lemma ord_of_high : forall l n, Forall (fun p : N*N => fst p < n) l -> forall i, n <= i -> ord_of l i = 0.
Proof.
  induction l as [|[j m] l IH]; intros n H i Hi; cbn [ord_of]; auto.
  inversion H; subst; cbn in *. destruct (N.eqb_spec j i); [lia|]. eauto.
Qed.

Lemma dense_sparse : forall nargs v dv, canonical v -> Forall (fun p => fst p < nargs) (snd v) ->
  dense_of nargs v dv -> exists os, dv = fst v :: os /\ N.of_nat (length os) = nargs /\ to_sparse 0 os = snd v.
Proof.
  intros nargs v dv Hc Hf [os [E [Hl H]]]. exists os; repeat split; auto.
  apply canon_ext; auto; [apply to_sparse_canon|]. intros i.
  destruct (N.lt_ge_cases i nargs) as [K|K].
  - specialize (H (N.to_nat i) ltac:(lia)). rewrite N2Nat.id in H.
    rewrite (to_sparse_ord os 0) in H by (auto; lia). rewrite N.add_0_l, N2Nat.id in H. congruence.
  - rewrite (ord_of_high _ _ Hf) by auto. apply (ord_of_high _ nargs); auto.
    subst nargs. pose proof (to_sparse_high os 0) as TH; rewrite N.add_0_l in TH; exact TH.
Qed.

(** Sorted lists with the same elements are equal. *)
Lemma sorted_unique : forall l1 l2, StronglySorted before l1 -> StronglySorted before l2 ->
  (forall v, In v l1 <-> In v l2) -> l1 = l2.
Proof.
  induction l1 as [|a l1 IH]; intros [|b l2] S1 S2 H; auto.
  - destruct (proj2 (H b)); left; auto.
  - destruct (proj1 (H a)); left; auto.
  - inversion S1 as [|? ? S1' F1]; inversion S2 as [|? ? S2' F2]; subst.
    rewrite Forall_forall in F1, F2.
    assert (a = b).
    { destruct (proj1 (H a)) as [K|K]; [left; auto|auto|].
      destruct (proj2 (H b)) as [J|J]; [left; auto|auto|].
      exfalso. apply (before_irrefl a). eapply before_trans; eauto. }
    subst b. f_equal. apply IH; auto. intros v. specialize (H v). cbn in H. split; intros K.
    + destruct (proj1 H) as [J|J]; auto. subst. exfalso; apply (before_irrefl v); auto.
    + destruct (proj2 H) as [J|J]; auto. subst. exfalso; apply (before_irrefl v); auto.
Qed.

Lemma filter_sorted : forall (B : Type) (R : B -> B -> Prop) P (l : list B), StronglySorted R l -> StronglySorted R (filter P l).
Proof.
  induction 1; cbn; [constructor|]. destruct (P a); auto. constructor; auto.
  rewrite Forall_forall in *. intros x Hx. apply filter_In in Hx as [Hx _]. auto.
Qed.
