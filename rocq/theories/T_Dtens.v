(** C08: the storage order of derivative tensors is a strict total order and
    lookups are exact. *)
From Coq Require Import List NArith Bool Arith Lia Sorted.
From Verif Require Import M_Dtens S_Dtens P_Dtens.
Import ListNotations.
Local Open Scope N_scope.

(** The comparator decides the documented order on canonical multiindices
    whose total order fits in 32 bits. *)
Theorem dtens_cmp_is_documented_order : forall v w,
  canonical v -> canonical w -> total (snd v) <= u32_max -> total (snd w) <= u32_max ->
  exists b, sv_cmp v w = Some b /\ (b = true <-> before v w).
Proof. intros; apply sv_cmp_some; auto. Qed.

(** The documented order is a strict total order on canonical multiindices. *)
Theorem dtens_order_strict_total :
  (forall v, ~ before v v) /\
  (forall u v w, before u v -> before v w -> before u w) /\
  (forall v w, canonical v -> canonical w -> before v w \/ v = w \/ before w v).
Proof. split; [apply before_irrefl|split; [apply before_trans|apply before_total]]. Qed.

Section Lookup.
Context {A : Type}.

(** Sparse lookup: finds exactly the entry stored under the multiindex. *)
Theorem dtens_lookup_sparse : forall nouts nargs order (l : list (mi * A)) v,
  order <= u32_max -> complete_tensor nouts nargs order l ->
  let d := {| dt_map := l; dt_nargs := nargs |} in
  forall a, op_index_sparse d v = Some a <-> In (v, a) l.
Proof.
  intros nouts nargs order l v Ho Hc d a.
  pose proof (ct_sorted _ _ _ _ Hc) as Hs. pose proof (ct_ok _ _ _ _ Ho Hc) as Hk.
  unfold op_index_sparse, find_sparse, index_impl; cbn [dt_map d]. split.
  - destruct (sv_sane v) eqn:E.
    + apply sv_sane_iff in E. destruct (N.le_gt_cases (total (snd v)) u32_max) as [F|F].
      * destruct (map_find_ok l v Hs Hk E F) as [r [-> [[kv [Hr <-]]|[-> _]]]].
        -- rewrite Hr. cbn. intros H; inversion H; subst. destruct kv; apply nth_error_In in Hr; auto.
        -- replace (nth_error l (length l)) with (@None (mi * A)); [discriminate|].
           symmetry; apply nth_error_None; lia.
      * destruct l as [|kv l']; [discriminate|]. rewrite map_find_overflow; auto; discriminate.
    + replace (nth_error l (length l)) with (@None (mi * A)); [discriminate|].
      symmetry; apply nth_error_None; lia.
  - intros Hin. assert (Hv : In v (map fst l)) by (apply in_map_iff; exists (v, a); auto).
    apply (ct_in _ _ _ _ Hc) in Hv as [Hcan _].
    apply sv_sane_iff in Hcan. rewrite Hcan. apply In_nth_error in Hin as [i Hi].
    pose proof (map_find_nth l i (v, a) Hs Hk Hi) as E. cbn [fst] in E. rewrite E, Hi. auto.
Qed.

(** Dense lookup: a dense multiindex finds the entry of the corresponding
    sparse multiindex, and nothing else is found. *)
Theorem dtens_lookup_dense : forall nouts nargs order (l : list (mi * A)) dv,
  order <= u32_max -> complete_tensor nouts nargs order l ->
  let d := {| dt_map := l; dt_nargs := nargs |} in
  forall a, op_index_dense d dv = Some a <-> exists v, dense_of nargs v dv /\ In (v, a) l.
Proof.
  intros nouts nargs order l dv Ho Hc d a.
  pose proof (ct_sorted _ _ _ _ Hc) as Hs. pose proof (ct_ok _ _ _ _ Ho Hc) as Hk.
  unfold op_index_dense, find_dense, index_impl; cbn [dt_map dt_nargs d].
  assert (Hend : nth_error l (length l) = None) by (apply nth_error_None; lia).
  split.
  - destruct dv as [|c os]; [rewrite Hend; discriminate|].
    destruct (N.eqb_spec (N.of_nat (length os)) nargs) as [E|E]; [|rewrite Hend; discriminate].
    assert (Cn : canonical (c, to_sparse 0 os)) by apply to_sparse_canon.
    destruct (N.le_gt_cases (total (to_sparse 0 os)) u32_max) as [F|F].
    + destruct (map_find_ok l (c, to_sparse 0 os) Hs Hk Cn F) as [r [-> [[kv [Hr Ek]]|[-> _]]]].
      * rewrite Hr. cbn. intros H; inversion H; subst. exists (c, to_sparse 0 os). split.
        -- exists os. cbn. repeat split; auto. intros i Hi. rewrite (to_sparse_ord os 0) by auto. auto.
        -- rewrite <- Ek. destruct kv; apply nth_error_In in Hr; auto.
      * rewrite Hend; discriminate.
    + destruct l as [|kv l']; [discriminate|]. rewrite map_find_overflow; auto; discriminate.
  - intros [v [Hd Hin]]. assert (Hv : In v (map fst l)) by (apply in_map_iff; exists (v, a); auto).
    apply (ct_in _ _ _ _ Hc) in Hv as [Hcan [_ [Hf _]]].
    destruct (dense_sparse _ _ _ Hcan Hf Hd) as [os [-> [E2 E3]]].
    rewrite <- E2, N.eqb_refl, E3.
    replace (fst v, snd v) with v by (destruct v; auto).
    apply In_nth_error in Hin as [i Hi].
    pose proof (map_find_nth l i (v, a) Hs Hk Hi) as E. cbn [fst] in E. rewrite E, Hi. auto.
Qed.

(** Shape queries recover the shape of the tensor. *)
Theorem dtens_shape : forall nouts nargs order (l : list (mi * A)),
  0 < nouts -> 0 < nargs -> order <= u32_max -> complete_tensor nouts nargs order l ->
  let d := {| dt_map := l; dt_nargs := nargs |} in
  get_order d = order /\ get_nouts d = Some nouts.
Proof. intros nouts nargs order l H1 H2 H3 H4 d. split; [apply (get_order_ok nouts nargs order)|apply (get_nouts_ok nouts nargs order)]; auto. Qed.

(** get_derivatives(order): exactly the entries of that order, in storage order. *)
Theorem dtens_get_derivatives_order : forall nouts nargs order (l : list (mi * A)) o,
  0 < nouts -> 0 < nargs -> order <= u32_max -> complete_tensor nouts nargs order l -> o <= u32_max ->
  let d := {| dt_map := l; dt_nargs := nargs |} in
  get_derivatives_o d o = Some (filter (fun kv => total (snd (fst kv)) =? o) l).
Proof. intros nouts nargs order l o H1 H2 H3 H4 H5 d. apply (get_derivatives_o_ok nouts nargs order); auto. Qed.

(** get_derivatives(component, order): exactly the entries of that component and order. *)
Theorem dtens_get_derivatives_component : forall nouts nargs order (l : list (mi * A)) c o,
  0 < nouts -> 0 < nargs -> order <= u32_max -> complete_tensor nouts nargs order l -> o <= u32_max ->
  let d := {| dt_map := l; dt_nargs := nargs |} in
  get_derivatives_co d c o =
  Some (filter (fun kv => (fst (fst kv) =? c) && (total (snd (fst kv)) =? o)) l).
Proof. intros nouts nargs order l c o H1 H2 H3 H4 H5 d. apply (get_derivatives_co_ok nouts nargs order); auto. Qed.

(** The Jacobian is row-major: for each output, the derivatives with respect to
    each argument, in argument order. *)
Lemma nseq_sorted : forall k s, StronglySorted N.lt (nseq s k).
Proof.
  induction k; intros s; cbn [nseq]; constructor; auto.
  apply Forall_forall. intros x Hx. apply nseq_in in Hx. lia.
Qed.

Lemma sorted_app : forall (B : Type) (R : B -> B -> Prop) l1 l2, StronglySorted R l1 -> StronglySorted R l2 ->
  (forall x y, In x l1 -> In y l2 -> R x y) -> StronglySorted R (l1 ++ l2).
Proof.
  induction 1; intros S2 H3; cbn; auto. constructor.
  - apply IHStronglySorted; auto. intros; apply H3; auto. right; auto.
  - rewrite Forall_forall in *. intros x Hx. apply in_app_iff in Hx as [Hx|Hx]; auto. apply H3; auto. left; auto.
Qed.

Lemma sorted_map : forall (B C : Type) (R : B -> B -> Prop) (Q : C -> C -> Prop) (f : B -> C) l,
  (forall x y, R x y -> Q (f x) (f y)) -> StronglySorted R l -> StronglySorted Q (map f l).
Proof.
  induction 2; cbn; constructor; auto. rewrite Forall_forall in *. intros y Hy.
  apply in_map_iff in Hy as [x [<- Hx]]. auto.
Qed.

Lemma jac_row_before : forall c i j, i < j -> before (c, [(i, 1)]) (c, [(j, 1)]).
Proof.
  intros c i j H. right; cbn; split; auto. right; split; auto. exists i. split.
  - intros k Hk. destruct (N.eqb_spec i k); [lia|]. destruct (N.eqb_spec j k); [lia|auto].
  - rewrite N.eqb_refl. destruct (N.eqb_spec j i); lia.
Qed.

Lemma sorted_flat_map : forall (f : N -> list mi) l, StronglySorted N.lt l ->
  (forall c, StronglySorted before (f c)) ->
  (forall c d x y, c < d -> In x (f c) -> In y (f d) -> before x y) ->
  StronglySorted before (flat_map f l).
Proof.
  induction 1; intros H1 H2; cbn; [constructor|]. apply sorted_app; auto.
  intros x y Hx Hy. apply in_flat_map in Hy as [e [He Hy]]. rewrite Forall_forall in H0.
  eapply H2; [apply H0; eauto|eauto|eauto].
Qed.

Lemma jac_keys_sorted : forall nouts nargs, StronglySorted before (jac_keys nouts nargs).
Proof.
  intros. apply sorted_flat_map; [apply nseq_sorted| |].
  - intros c. eapply sorted_map; [|apply nseq_sorted]. intros; apply jac_row_before; auto.
  - intros c e x y H Hx Hy. apply in_map_iff in Hx as [i [<- _]]. apply in_map_iff in Hy as [j [<- _]].
    right; cbn; split; auto.
Qed.

Lemma total_one : forall l, canon_l l -> total l = 1 -> exists i, l = [(i, 1)].
Proof.
  intros [|[i n] l] Hc Ht; [discriminate|]. destruct (canon_inv _ _ _ Hc) as [_ [Hp Hc']]. cbn [total] in Ht.
  destruct l as [|[j m] l].
  - exists i. do 2 f_equal. cbn in Ht. lia.
  - pose proof (total_pos _ _ _ Hc'). lia.
Qed.

Lemma jac_keys_in : forall nouts nargs order v, 1 <= order ->
  (In v (jac_keys nouts nargs) <-> (in_tensor nouts nargs order v /\ total (snd v) = 1)).
Proof.
  intros nouts nargs order v Ho. unfold jac_keys. rewrite in_flat_map. split.
  - intros [c [Hc Hv]]. apply in_map_iff in Hv as [i [<- Hi]]. apply nseq_in in Hc, Hi. cbn [snd total]. split; auto.
    apply in_pure; lia.
  - intros [[Hk [Hl [Hf _]]] Ht]. destruct v as [c m]; cbn in *.
    destruct (total_one m Hk Ht) as [i ->]. inversion Hf; subst; cbn in *. exists c. split.
    + apply nseq_in; lia.
    + apply in_map_iff. exists i. split; auto. apply nseq_in; lia.
Qed.

Lemma filter_keys_in : forall (l : list (mi * A)) P v,
  In v (map fst (filter (fun kv => P (fst kv)) l)) <-> In v (map fst l) /\ P v = true.
Proof.
  intros l P v. rewrite !in_map_iff. split.
  - intros [kv [<- H]]. apply filter_In in H as [H1 H2]. split; eauto.
  - intros [[kv [<- H]] H2]. exists kv. split; auto. apply filter_In; auto.
Qed.

Lemma filter_keys_sorted : forall (l : list (mi * A)) P, StronglySorted before (map fst l) ->
  StronglySorted before (map fst (filter P l)).
Proof.
  induction l as [|x l IH]; intros P H; cbn in *; auto. inversion H; subst. destruct (P x); cbn; auto.
  constructor; auto. rewrite Forall_forall in *. intros y Hy. apply in_map_iff in Hy as [kv [<- Hkv]].
  apply filter_In in Hkv as [Hkv _]. apply H3. apply in_map; auto.
Qed.

Theorem dtens_jacobian_row_major : forall nouts nargs order (l : list (mi * A)),
  0 < nouts -> 0 < nargs -> 1 <= order <= u32_max -> complete_tensor nouts nargs order l ->
  let d := {| dt_map := l; dt_nargs := nargs |} in
  exists es, get_jacobian d = Some es /\
    Forall2 (fun k e => In (k, e) l) (jac_keys nouts nargs) es.
Proof.
  intros nouts nargs order l H1 H2 H3 Hc d.
  destruct (dtens_shape nouts nargs order l) as [E1 E2]; auto; [lia|].
  unfold get_jacobian. fold d in E1, E2. rewrite E1, E2.
  destruct (N.eqb_spec nouts 0); [lia|]. destruct (N.eqb_spec order 0); [lia|].
  unfold d. rewrite (dtens_get_derivatives_order nouts nargs order) by (auto; lia || (unfold u32_max; lia)).
  cbn [option_map]. eexists; split; [reflexivity|].
  assert (E : map fst (filter (fun kv => total (snd (fst kv)) =? 1) l) = jac_keys nouts nargs).
  { apply sorted_unique.
    - apply filter_keys_sorted, Hc.
    - apply jac_keys_sorted.
    - intros v. rewrite (filter_keys_in l (fun v => total (snd v) =? 1)), (proj2 Hc v), (jac_keys_in _ _ order) by lia.
      rewrite N.eqb_eq. tauto. }
  rewrite <- E. assert (I : incl (filter (fun kv => total (snd (fst kv)) =? 1) l) l).
  { intros x Hx. apply filter_In in Hx; tauto. }
  revert I. clear. induction (filter _ l) as [|[k e] m IH]; intros I; cbn; constructor; auto.
  - apply I; left; auto.
  - apply IH. intros x Hx; apply I; right; auto.
Qed.

(** The Hessian of a component lists the upper triangle row by row. *)
Lemma hess_total : forall i j, total (hess_key i j) = 2.
Proof. intros; unfold hess_key; destruct (i =? j); auto. Qed.

Lemma hess_canon : forall i j, i <= j -> canon_l (hess_key i j).
Proof.
  intros i j H. unfold hess_key. destruct (N.eqb_spec i j).
  - apply canon_single; lia.
  - split; repeat constructor; cbn; lia.
Qed.

Lemma hess_lex : forall i j i' j', i <= j -> i' <= j' -> (i < i' \/ (i = i' /\ j < j')) ->
  lexb (hess_key i j) (hess_key i' j').
Proof.
  intros. apply cmp_loop_iff; auto using hess_canon; [rewrite !hess_total; auto|].
  unfold hess_key. destruct (N.eqb_spec i j); destruct (N.eqb_spec i' j'); subst; cbn [cmp_loop];
    repeat match goal with |- context[?a <? ?b] => destruct (N.ltb_spec a b); try lia; auto end.
Qed.

Lemma total_two : forall l, canon_l l -> total l = 2 -> exists i j, i <= j /\ l = hess_key i j.
Proof.
  intros [|[i n] l] Hc Ht; [discriminate|]. destruct (canon_inv _ _ _ Hc) as [Hf [Hp Hc']]. cbn [total] in Ht.
  destruct l as [|[j m] l].
  - exists i, i. split; [lia|]. unfold hess_key. rewrite N.eqb_refl. do 2 f_equal. cbn in Ht; lia.
  - destruct (canon_inv _ _ _ Hc') as [_ [Hp2 Hc2]]. cbn [total] in Ht. inversion Hf; subst; cbn in *.
    destruct l as [|[k o] l]; [|pose proof (total_pos _ _ _ Hc2); cbn [total] in *; lia].
    exists i, j. split; [lia|]. unfold hess_key. destruct (N.eqb_spec i j); [lia|]. cbn in Ht.
    assert (n = 1) by lia. assert (m = 1) by lia. subst; auto.
Qed.

Lemma sorted_flat_map_guard : forall (f : N -> list mi) l, StronglySorted N.lt l ->
  (forall c, StronglySorted before (f c)) ->
  (forall c d x y, c < d -> In x (f c) -> In y (f d) -> before x y) ->
  StronglySorted before (flat_map f l).
Proof. exact sorted_flat_map. Qed.

Lemma hess_keys_sorted : forall c nargs, StronglySorted before (hess_keys c nargs).
Proof.
  intros. apply sorted_flat_map; [apply nseq_sorted| |].
  - intros i. generalize (N.to_nat (nargs - i)). intros k.
    assert (G : forall k s, i <= s -> StronglySorted before (map (fun j => (c, hess_key i j)) (nseq s k))).
    { induction k0; intros s Hs; cbn; constructor.
      - apply IHk0; lia.
      - apply Forall_forall. intros y Hy. apply in_map_iff in Hy as [j [<- Hj]]. apply nseq_in in Hj.
        right; cbn; rewrite !hess_total; split; auto. right; split; auto. apply hess_lex; lia. }
    apply G; lia.
  - intros i i' x y H Hx Hy. apply in_map_iff in Hx as [j [<- Hj]]. apply in_map_iff in Hy as [j' [<- Hj']].
    apply nseq_in in Hj, Hj'.
    right; cbn; rewrite !hess_total; split; auto. right; split; auto. apply hess_lex; lia.
Qed.

Lemma hess_keys_in : forall nouts nargs order c v, 2 <= order -> c < nouts ->
  (In v (hess_keys c nargs) <-> (in_tensor nouts nargs order v /\ fst v = c /\ total (snd v) = 2)).
Proof.
  intros nouts nargs order c v Ho Hc. unfold hess_keys. rewrite in_flat_map. split.
  - intros [i [Hi Hv]]. apply in_map_iff in Hv as [j [<- Hj]]. apply nseq_in in Hi, Hj. cbn [fst snd].
    rewrite hess_total. repeat split; auto.
    + apply (hess_canon i j); lia.
    + apply (hess_canon i j); lia.
    + cbn [snd]. unfold hess_key. destruct (i =? j); repeat constructor; cbn; lia.
    + cbn [snd]. rewrite hess_total; lia.
  - intros [[Hk [Hl [Hf _]]] [Hc' Ht]]. destruct v as [e m]; cbn in *; subst e.
    destruct (total_two m Hk Ht) as [i [j [Hij ->]]].
    assert (Hj : j < nargs).
    { unfold hess_key in Hf. destruct (N.eqb_spec i j); [subst; inversion Hf; auto|].
      inversion Hf as [|? ? ? Hf']; inversion Hf'; auto. }
    exists i. split.
    + apply nseq_in; lia.
    + apply in_map_iff. exists j. split; auto. apply nseq_in; lia.
Qed.

Theorem dtens_hessian_upper_triangle : forall nouts nargs order (l : list (mi * A)) c,
  0 < nargs -> 2 <= order <= u32_max -> c < nouts -> complete_tensor nouts nargs order l ->
  let d := {| dt_map := l; dt_nargs := nargs |} in
  exists es, get_hessian d c = Some es /\
    Forall2 (fun k e => In (k, e) l) (hess_keys c nargs) es.
Proof.
  intros nouts nargs order l c H2 H3 H4 Hc d.
  destruct (dtens_shape nouts nargs order l) as [E1 E2]; auto; [lia|lia|].
  unfold get_hessian. fold d in E1, E2. rewrite E1, E2.
  destruct (N.leb_spec nouts c); [lia|]. destruct (N.ltb_spec order 2); [lia|].
  unfold d. rewrite (dtens_get_derivatives_component nouts nargs order) by (auto; lia || (unfold u32_max; lia)).
  cbn [option_map]. eexists; split; [reflexivity|].
  assert (E : map fst (filter (fun kv => (fst (fst kv) =? c) && (total (snd (fst kv)) =? 2)) l) = hess_keys c nargs).
  { apply sorted_unique.
    - apply filter_keys_sorted, Hc.
    - apply hess_keys_sorted.
    - intros v. rewrite (filter_keys_in l (fun v => (fst v =? c) && (total (snd v) =? 2))), (proj2 Hc v), (hess_keys_in nouts _ order) by lia.
      rewrite andb_true_iff, !N.eqb_eq. tauto. }
  rewrite <- E. assert (I : incl (filter (fun kv => (fst (fst kv) =? c) && (total (snd (fst kv)) =? 2)) l) l).
  { intros x Hx. apply filter_In in Hx; tauto. }
  revert I. clear. induction (filter _ l) as [|[k e] m IH]; intros I; cbn; constructor; auto.
  - apply I; left; auto.
  - apply IH. intros x Hx; apply I; right; auto.
Qed.

End Lookup.

(** A concrete complete tensor: 2 outputs, 2 arguments, order 2. *)
Definition ex_keys : list mi :=
  [(0,[]); (1,[]);
   (0,[(0,1)]); (0,[(1,1)]); (1,[(0,1)]); (1,[(1,1)]);
   (0,[(0,2)]); (0,[(0,1);(1,1)]); (0,[(1,2)]);
   (1,[(0,2)]); (1,[(0,1);(1,1)]); (1,[(1,2)])].
Definition ex_tensor : list (mi * nat) := combine ex_keys (seq 0 12).

Example ex_tensor_complete : complete_tensor 2 2 2 ex_tensor.
Proof.
  split.
  - cbn. repeat apply SSorted_cons; try apply SSorted_nil; repeat apply Forall_cons; try apply Forall_nil;
      (match goal with |- before ?v ?w =>
         destruct (sv_cmp_some v w) as [b [E H]];
         [apply sv_sane_iff; reflexivity|apply sv_sane_iff; reflexivity|unfold fits, u32_max; cbn; lia|unfold fits, u32_max; cbn; lia|
          vm_compute in E; injection E as E; apply H; auto] end).
  - intros v. change (map fst ex_tensor) with ex_keys. split.
    + intros H. cbn in H.
      repeat (destruct H as [<-|H]; [split; [apply sv_sane_iff; reflexivity|]; cbn; repeat split; repeat constructor; cbn; lia|]).
      destruct H.
    + intros [Hc [Hl [Hf Ht]]]. destruct v as [c m]; cbn [fst snd] in *.
      assert (Hc01 : c = 0 \/ c = 1) by lia.
      assert (Hm : total m = 0 \/ total m = 1 \/ total m = 2) by lia.
      destruct Hm as [Hm|[Hm|Hm]].
      * pose proof (total_zero (c, m) Hc Hm) as E. cbn in E; subst m. destruct Hc01; subst; cbn; auto.
      * destruct (total_one m Hc Hm) as [i ->]. inversion Hf; subst; cbn in *.
        assert (Hi : i = 0 \/ i = 1) by lia. destruct Hi, Hc01; subst; tauto.
      * destruct (total_two m Hc Hm) as [i [j [Hij ->]]].
        assert (Hj : j < 2).
        { unfold hess_key in Hf. destruct (N.eqb_spec i j); [subst; inversion Hf; auto|].
          inversion Hf as [|? ? ? Hf']; inversion Hf'; auto. }
        assert (Hi : i = 0 \/ i = 1) by lia. assert (Hj' : j = 0 \/ j = 1) by lia.
        destruct Hi, Hj', Hc01; subst; try lia; cbn; tauto.
Qed.
Example ex_lookup : op_index_dense {| dt_map := ex_tensor; dt_nargs := 2 |} [1; 1; 1] = Some 10%nat
  /\ op_index_dense {| dt_map := ex_tensor; dt_nargs := 2 |} [1; 2; 1] = None
  /\ get_jacobian {| dt_map := ex_tensor; dt_nargs := 2 |} = Some [2; 3; 4; 5]%nat
  /\ get_hessian {| dt_map := ex_tensor; dt_nargs := 2 |} 1 = Some [9; 10; 11]%nat.
Proof. repeat split; reflexivity. Qed.

Print Assumptions dtens_cmp_is_documented_order.
Print Assumptions dtens_order_strict_total.
Print Assumptions dtens_lookup_sparse.
Print Assumptions dtens_lookup_dense.
Print Assumptions dtens_shape.
Print Assumptions dtens_get_derivatives_order.
Print Assumptions dtens_get_derivatives_component.
Print Assumptions dtens_jacobian_row_major.
Print Assumptions dtens_hessian_upper_triangle.
