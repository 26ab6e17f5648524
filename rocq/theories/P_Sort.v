(* The topological sort of a decomposition. *)
From Coq Require Import String Bool ZArith Arith List Lia Permutation.
From Verif Require Import M_Expr M_Dag M_Dec S_Expr S_Dec P_Subs P_Dec P_Cse P_Kahn.
Import ListNotations.
Local Open Scope nat_scope.
Set Bullet Behavior "Strict Subproofs".

Section Sort.
Context (o : nops).
Local Notation ex := (expr (num o)).
Local Notation elt := (expr (num o) * list nat)%type.

Lemma elt_vars k (e : ex) s : elt_ok k e -> occurs (EVar s) e -> exists j, j < k /\ s = uname j.
Proof.
  intros He Ho. destruct e as [x|t|i|f args]; cbn in He; try contradiction; [inversion Ho|].
  inversion Ho as [|? ? a Ha Hoa]; subst. rewrite Forall_forall in He. specialize (He a Ha).
  destruct a as [x|t|i|g l]; cbn in He; try contradiction; inversion Hoa; subst. exact He.
Qed.
Lemma vars_indices k (e : ex) : elt_ok k e ->
  exists ids, oseq (map uname_to_index (get_variables o [e])) = Some ids /\ NoDup ids /\
    (forall j, In j ids <-> occurs (EVar (uname j)) e) /\ (forall j, In j ids -> j < k).
Proof.
  intros He. destruct (get_variables_ok [e]) as (HG & _ & HN).
  assert (HV : forall s, In s (get_variables o [e]) <-> occurs (EVar s) e).
  { intros s. rewrite HG. split; [intros (e' & [<-|[]] & H); exact H | intros H; exists e; cbn; auto]. }
  assert (HU : forall s, In s (get_variables o [e]) -> exists j, j < k /\ s = uname j).
  { intros s Hs. apply HV in Hs. now apply (elt_vars k e). }
  assert (HX : exists ids, get_variables o [e] = map uname ids).
  { clear HV HN HG. induction (get_variables o [e]) as [|s l IH]; [exists []; reflexivity|].
    destruct (HU s (or_introl eq_refl)) as (j & _ & ->). destruct IH as (ids & ->); [intros; apply HU; now right|].
    exists (j :: ids). reflexivity. }
  destruct HX as (ids & Eids). rewrite Eids in *. exists ids. split; [|split; [|split]].
  - rewrite map_map. rewrite (oseq_map_some _ (fun j => j)); [now rewrite map_id|]. intros j _. apply uname_index.
  - now apply NoDup_map_inv in HN.
  - intros j. rewrite <- HV. split; [apply in_map|]. intros H. apply in_map_iff in H. destruct H as (i & E & Hi).
    apply uname_inj in E. now subst.
  - intros j Hj. destruct (HU (uname j) (in_map uname _ _ Hj)) as (i & Hi & E). apply uname_inj in E. now subst.
Qed.

(* The edges which end in the elements. *)
Lemma mid_edges_ok : forall mid i, (forall k e, nth_error (map fst mid) k = Some e -> elt_ok (i + k) e) ->
  exists es, mid_edges o i mid = Some es /\ NoDup es /\
    (forall s t, In (s, t) es -> s < t /\ S i <= t <= i + length mid) /\
    (forall k, k < length mid -> exists s, In (s, S (i + k)) es) /\
    (forall k e j, nth_error (map fst mid) k = Some e -> occurs (EVar (uname j)) e -> In (S j, S (i + k)) es).
Proof.
  induction mid as [|[e d] mid IH]; intros i HB.
  - exists []. cbn. split; [reflexivity|]. split; [constructor|]. split; [intros s t []|]. split; [intros k Hk; lia|].
    intros [|k]; discriminate.
  - cbn [mid_edges].
    assert (He : elt_ok i e) by (rewrite <- (Nat.add_0_r i); now apply (HB 0)).
    destruct (vars_indices i e He) as (ids & -> & HN & Hids & Hlt).
    destruct (IH (S i)) as (es & -> & HNes & Hst & Hsrc & Hocc).
    { intros k e' Hk. specialize (HB (S k) e' Hk). now rewrite <- plus_n_Sm in HB. }
    set (new := match ids with [] => [(0, S i)] | _ => map (fun j => (S j, S i)) ids end).
    assert (Enew : match ids with [] => Some ((0, S i) :: es) | _ => Some (map (fun j => (S j, S i)) ids ++ es) end = Some (new ++ es)).
    { unfold new. destruct ids; reflexivity. }
    exists (new ++ es). split; [rewrite <- Enew; destruct ids; reflexivity|].
    assert (Hnew : forall s t, In (s, t) new -> t = S i /\ s < S i).
    { unfold new. intros s t H. destruct ids as [|j0 ids'].
      - cbn in H. destruct H as [[= <- <-]|[]]. lia.
      - apply in_map_iff in H. destruct H as (j & [= <- <-] & Hj). specialize (Hlt j Hj). lia. }
    assert (HNn : NoDup new).
    { unfold new. destruct ids as [|j0 ids']; [constructor; [intros []|constructor]|].
      apply FinFun.Injective_map_NoDup; [intros a b [= ->]; reflexivity | exact HN]. }
    split; [|split; [|split]].
    + clear - HNn HNes Hnew Hst. induction HNn as [|[s t] l Hni HNl IHl]; cbn; [exact HNes|]. constructor.
      * rewrite in_app_iff. intros [H|H]; [auto|]. destruct (Hnew s t (or_introl eq_refl)) as [-> _].
        destruct (Hst _ _ H). lia.
      * apply IHl. intros; apply Hnew; now right.
    + intros s t H. apply in_app_or in H. cbn [length]. destruct H as [H|H].
      * destruct (Hnew s t H). lia.
      * destruct (Hst s t H). lia.
    + intros [|k] Hk.
      * rewrite Nat.add_0_r. unfold new. destruct ids as [|j ids']; [exists 0 | exists (S j)]; now left.
      * destruct (Hsrc k) as (s & Hs); [cbn in Hk; lia|]. exists s. rewrite <- plus_n_Sm. apply in_or_app. now right.
    + intros [|k] e' j Hk Ho.
      * injection Hk as <-. rewrite Nat.add_0_r. apply in_or_app. left. apply Hids in Ho. unfold new.
        destruct ids as [|j0 ids']; [contradiction|]. apply in_map_iff. eauto.
      * apply in_or_app. right. rewrite <- plus_n_Sm. now apply (Hocc k e').
Qed.

Context (n : nat).
Lemma sort_order_ok (d : dcmp o) : length (dc_in o d) = n -> backward n (map fst (dc_mid o d)) ->
  exists idxs, sort_order o d = Some (seq 0 n ++ idxs) /\ Permutation idxs (seq n (length (dc_mid o d))) /\
    (forall l1 i l2 e j, idxs = l1 ++ i :: l2 -> nth_error (map fst (dc_mid o d)) (i - n) = Some e ->
       occurs (EVar (uname j)) e -> j < n \/ In j l1).
Proof.
  intros Hn HB. unfold sort_order, dc_edges. rewrite Hn.
  destruct (mid_edges_ok (dc_mid o d) n HB) as (es & -> & HN & Hst & Hsrc & Hocc).
  set (nv := n + length (dc_mid o d)).
  set (E0 := map (fun i => (0, S i)) (seq 0 n) ++ es).
  assert (Hin0 : forall s t, In (s, t) (map (fun i => (0, S i)) (seq 0 n)) <-> s = 0 /\ 1 <= t <= n).
  { intros s t. rewrite in_map_iff. split.
    - intros (i & [= <- <-] & Hi). apply in_seq in Hi. lia.
    - intros [-> Ht]. exists (pred t). split; [f_equal; lia|]. apply in_seq. lia. }
  assert (H1 : NoDup E0).
  { unfold E0. assert (HN0 : NoDup (map (fun i => (0, S i)) (seq 0 n))).
    { apply FinFun.Injective_map_NoDup; [intros a b [= ->]; reflexivity | apply seq_NoDup]. }
    assert (HD : forall p, In p (map (fun i => (0, S i)) (seq 0 n)) -> ~ In p es).
    { intros [s t] Hp He. apply Hin0 in Hp. destruct (Hst _ _ He). lia. }
    revert HN0 HD. generalize (map (fun i => (0, S i)) (seq 0 n)). intros l HN0 HD.
    induction HN0 as [|p l Hni HNl IHl]; cbn; [exact HN|]. constructor.
    - rewrite in_app_iff. intros [H|H]; [auto|]. apply (HD p); [now left | exact H].
    - apply IHl. intros q Hq. apply HD. now right. }
  assert (H2 : forall s t, In (s, t) E0 -> s < t <= nv).
  { intros s t H. apply in_app_or in H. destruct H as [H|H]; [apply Hin0 in H; unfold nv; lia|].
    destruct (Hst _ _ H). unfold nv. lia. }
  assert (H3 : forall t, 0 < t <= nv -> exists s, In (s, t) E0).
  { intros t Ht. destruct (Nat.le_gt_cases t n) as [Hl|Hl].
    - exists 0. apply in_or_app. left. apply Hin0. lia.
    - destruct (Hsrc (t - S n)) as (s & Hs); [unfold nv in Ht; lia|]. exists s. apply in_or_app. right.
      replace (S (n + (t - S n))) with t in Hs by lia. exact Hs. }
  destruct (kahn_sorts nv E0 H1 H2 H3 (S nv) (le_n _)) as (vs & -> & HP & Hord & more & Hvs).
  assert (Hl : length vs = nv) by (rewrite (Permutation_length HP); apply seq_length).
  rewrite Hl, Nat.eqb_refl.
  (* the variables come first *)
  assert (HT : exists rest, filter (ready E0 [0]) (sort_nat (map snd (filter (fun e => Nat.eqb (fst e) 0) E0))) = seq 1 n ++ rest).
  { unfold E0 at 2. rewrite filter_app, map_app.
    assert (E1 : map snd (filter (fun e : nat * nat => Nat.eqb (fst e) 0) (map (fun i => (0, S i)) (seq 0 n))) = seq 1 n).
    { rewrite <- seq_shift. generalize (seq 0 n) as l. induction l as [|x l IHl]; cbn; [reflexivity | now rewrite IHl]. }
    rewrite E1, sort_seq_app.
    2:{ intros y Hy. apply in_map_iff in Hy. destruct Hy as ([s t] & <- & Hy). apply filter_In in Hy. destruct Hy as [Hy _].
        destruct (Hst _ _ Hy). cbn. lia. }
    rewrite filter_app. eexists. f_equal.
    assert (Hr : forall t, In t (seq 1 n) -> ready E0 [0] t = true).
    { intros t Ht. apply in_seq in Ht. apply ready_spec. intros s Hs. apply in_app_or in Hs. destruct Hs as [Hs|Hs].
      - apply Hin0 in Hs. left. lia.
      - destruct (Hst _ _ Hs). lia. }
    revert Hr. generalize (seq 1 n) as l. induction l as [|x l IHl]; cbn; intros Hr; [reflexivity|].
    rewrite Hr by now left. f_equal. apply IHl. intros; apply Hr; now right. }
  destruct HT as (rest & HT). rewrite HT, <- app_assoc in Hvs. set (tl := rest ++ more) in *. clearbody tl.
  exists (map Nat.pred tl).
  assert (HPt : Permutation tl (seq (S n) (length (dc_mid o d)))).
  { apply (Permutation_app_inv_l (seq 1 n)). rewrite <- Hvs, HP. unfold nv. rewrite seq_app. reflexivity. }
  split; [|split].
  - rewrite Hvs, map_app. rewrite <- seq_shift, map_map. cbn. now rewrite map_id.
  - rewrite HPt. rewrite <- seq_shift, map_map. cbn. now rewrite map_id.
  - intros l1 i l2 e j Hl1 He Hj. apply map_eq_app in Hl1. destruct Hl1 as (t1 & t2 & Et & Et1 & Et2).
    destruct t2 as [|t t2]; [discriminate|]. cbn in Et2. injection Et2 as Et2 _.
    assert (Ht : In t tl) by (rewrite Et; apply in_or_app; right; now left).
    apply (Permutation_in _ HPt) in Ht. apply in_seq in Ht.
    assert (HE : In (S j, t) E0).
    { apply in_or_app. right. replace t with (S (n + (i - n))) by lia. now apply (Hocc _ e). }
    destruct (Hord (seq 1 n ++ t1) t t2 (S j)) as [H|H]; [now rewrite Hvs, Et, <- app_assoc | exact HE | discriminate|].
    apply in_app_or in H. destruct H as [H|H]; [apply in_seq in H; left; lia|].
    right. rewrite <- Et1. apply in_map_iff. exists (S j). auto.
Qed.

(* The position of an index. *)
Fixpoint pos (j : nat) (l : list nat) : nat :=
  match l with [] => 0 | x :: r => if Nat.eqb j x then 0 else S (pos j r) end.
Lemma pos_nth j l : In j l -> nth_error l (pos j l) = Some j.
Proof. induction l as [|x l IH]; cbn; [contradiction|]. intros H. destruct (Nat.eqb_spec j x) as [->|Hne]; [reflexivity|]. cbn. apply IH. destruct H; [congruence | assumption]. Qed.
Lemma pos_lt j l : In j l -> pos j l < length l.
Proof. intros H. apply nth_error_Some. rewrite pos_nth by exact H. discriminate. Qed.
Lemma nth_pos l k j : NoDup l -> nth_error l k = Some j -> pos j l = k.
Proof.
  intros HN Hk. assert (Hin : In j l) by (eapply nth_error_In; eauto). pose proof (pos_nth j l Hin) as Hp.
  apply (proj1 (NoDup_nth_error l) HN); [now apply pos_lt | congruence].
Qed.
Lemma pos_app j l1 l2 : In j l1 -> pos j (l1 ++ l2) < length l1.
Proof. induction l1 as [|x l1 IH]; cbn; [contradiction|]. intros H. destruct (Nat.eqb_spec j x); [lia|]. destruct H as [H|H]; [congruence|]. specialize (IH H). lia. Qed.

Definition srho (idxs : list nat) (j : nat) : nat := if Nat.ltb j n then j else n + pos j idxs.
Lemma assoc_combine idxs j : forall b, In j idxs ->
  assoc (uname j) (map (fun p => (uname (fst p), uname (snd p))) (combine idxs (seq b (length idxs)))) = Some (uname (b + pos j idxs)).
Proof.
  induction idxs as [|x idxs IH]; intros b H; [contradiction|]. cbn [length seq combine map assoc pos fst snd]. rewrite uname_eqb.
  destruct (Nat.eqb_spec j x) as [->|Hne]; [now rewrite Nat.add_0_r|]. rewrite IH by (destruct H; [congruence | assumption]). f_equal. f_equal. lia.
Qed.
Lemma assoc_combine_none idxs j : forall b, ~ In j idxs ->
  assoc (uname j) (map (fun p => (uname (fst p), uname (snd p))) (combine idxs (seq b (length idxs)))) = None.
Proof.
  induction idxs as [|x idxs IH]; intros b H; [reflexivity|]. cbn [length seq combine map assoc fst snd]. rewrite uname_eqb.
  destruct (Nat.eqb_spec j x) as [->|Hne]; [exfalso; apply H; now left|]. apply IH. cbn in H. tauto.
Qed.
Lemma assoc_app {A} s (m m' : list (string * A)) : assoc s (m ++ m') = match assoc s m with Some v => Some v | None => assoc s m' end.
Proof. induction m as [|[k v] m IH]; cbn; [reflexivity|]. destruct (String.eqb s k); [reflexivity | exact IH]. Qed.
Lemma assoc_ident_none j k m : j < k \/ k + m <= j -> assoc (uname j) (map (fun i => (uname i, uname i)) (seq k m)) = None.
Proof.
  revert k. induction m as [|m IH]; intros k Hj; [reflexivity|]. cbn [seq map assoc]. rewrite uname_eqb.
  destruct (Nat.eqb_spec j k) as [->|Hne]; [lia|]. apply IH. lia.
Qed.

Section Perm.
Context (mid : list elt) (idxs : list nat).
Hypothesis HP : Permutation idxs (seq n (length mid)).
Let HN : NoDup idxs := Permutation_NoDup (Permutation_sym HP) (seq_NoDup _ _).
Lemma idxs_in j : In j idxs <-> n <= j < n + length mid.
Proof.
  split; intros H.
  - apply (Permutation_in _ HP) in H. now apply in_seq in H.
  - apply (Permutation_in _ (Permutation_sym HP)). now apply in_seq.
Qed.
Lemma idxs_len : length idxs = length mid.
Proof. rewrite (Permutation_length HP). apply seq_length. Qed.
Lemma remap_map b : rmap (sort_remap b n idxs) (srho idxs) (n + length mid).
Proof.
  intros j Hj. unfold sort_remap, srho. rewrite assoc_app. destruct (Nat.ltb_spec j n) as [Hl|Hl].
  - destruct b; [rewrite assoc_ident by lia; reflexivity|]. cbn [assoc]. rewrite assoc_combine_none; [reflexivity|].
    rewrite idxs_in. lia.
  - assert (E : assoc (uname j) (if b then map (fun i => (uname i, uname i)) (seq 0 n) else []) = None).
    { destruct b; [apply assoc_ident_none; lia | reflexivity]. }
    rewrite E, assoc_combine by (apply idxs_in; lia). reflexivity.
Qed.
Lemma remap_true j : j < n + length mid -> assoc (uname j) (sort_remap true n idxs) = Some (uname (srho idxs j)).
Proof.
  intros Hj. unfold sort_remap, srho. rewrite assoc_app. destruct (Nat.ltb_spec j n) as [Hl|Hl].
  - rewrite assoc_ident by lia. reflexivity.
  - rewrite assoc_ident_none by lia. now rewrite assoc_combine by (apply idxs_in; lia).
Qed.
Definition at_ (i : nat) : elt := nth (i - n) mid (EPar 0, []).
Lemma at_nth i : n <= i < n + length mid -> nth_error mid (i - n) = Some (at_ i).
Proof. intros H. unfold at_. destruct (nth_error_some mid (i - n)) as (p & Hp); [lia|]. rewrite Hp. f_equal. symmetry. now apply nth_error_nth'. Qed.
Lemma fetch_ok ins outs : length ins = n ->
  oseq (map (fetch o (mkDC o ins mid outs)) idxs) = Some (map at_ idxs).
Proof.
  intros Hi. apply oseq_map_some. intros i Hin. apply idxs_in in Hin. unfold fetch. cbn.
  rewrite nth_error_app2, Hi by lia. now apply at_nth.
Qed.
Lemma srho_rng j : n <= j < n + length mid -> n <= srho idxs j < n + length mid.
Proof.
  intros H. unfold srho. destruct (Nat.ltb_spec j n); [lia|]. pose proof (pos_lt j idxs (proj2 (idxs_in j) H)) as H1. rewrite idxs_len in H1. lia.
Qed.
Lemma srho_inv k j : nth_error idxs k = Some j -> srho idxs j = n + k.
Proof.
  intros H. assert (Hj : n <= j < n + length mid) by (apply idxs_in; eapply nth_error_In; eauto).
  unfold srho. destruct (Nat.ltb_spec j n); [lia|]. f_equal. now apply nth_pos.
Qed.
Definition put (p : elt) : elt := (renumber (srho idxs) (fst p), map (srho idxs) (snd p)).
Lemma sort_moved : moved o n eq mid (map (fun i => put (at_ i)) idxs) (srho idxs).
Proof.
  split.
  - intros j Hj. unfold srho. destruct (Nat.ltb_spec j n); [reflexivity | lia].
  - intros j Hj. rewrite map_length, idxs_len. now apply srho_rng.
  - intros k p Hp. assert (Hk : k < length mid) by (apply nth_error_Some; congruence).
    assert (Hin : In (n + k) idxs) by (apply idxs_in; lia).
    exists (put p). split; [|reflexivity]. rewrite nth_error_map.
    assert (Ep : srho idxs (n + k) - n = pos (n + k) idxs) by (unfold srho; destruct (Nat.ltb_spec (n + k) n); lia).
    rewrite Ep, pos_nth by exact Hin. cbn. f_equal. f_equal. pose proof (at_nth (n + k) ltac:(lia)) as E.
    replace (n + k - n) with k in E by lia. congruence.
  - intros k q Hq. rewrite nth_error_map in Hq. destruct (nth_error idxs k) as [i|] eqn:Ei; [|discriminate].
    injection Hq as <-. assert (Hin : n <= i < n + length mid) by (apply idxs_in; eapply nth_error_In; eauto).
    exists (i - n), (at_ i). split; [now apply at_nth|]. replace (n + (i - n)) with i by lia.
    split; [now apply srho_inv | auto].
Qed.
Lemma sort_backward : backward n (map fst mid) ->
  (forall l1 i l2 e j, idxs = l1 ++ i :: l2 -> nth_error (map fst mid) (i - n) = Some e ->
     occurs (EVar (uname j)) e -> j < n \/ In j l1) ->
  backward n (map fst (map (fun i => put (at_ i)) idxs)).
Proof.
  intros HB Hord k e He. rewrite map_map, nth_error_map in He. destruct (nth_error idxs k) as [i|] eqn:Ei; [|discriminate].
  injection He as <-. assert (Hin : n <= i < n + length mid) by (apply idxs_in; eapply nth_error_In; eauto).
  assert (Hat : nth_error (map fst mid) (i - n) = Some (fst (at_ i))) by (apply map_nth_error; now apply at_nth).
  destruct (nth_error_split idxs k Ei) as (l1 & l2 & El & Hl1).
  assert (Hvars : forall j, occurs (EVar (uname j)) (fst (at_ i)) -> srho idxs j < n + k).
  { intros j Hj. destruct (Hord l1 i l2 _ j El Hat Hj) as [H|H].
    - unfold srho. destruct (Nat.ltb_spec j n); lia.
    - unfold srho. destruct (Nat.ltb_spec j n); [lia|]. rewrite El. pose proof (pos_app j l1 (i :: l2) H). lia. }
  pose proof (HB _ _ Hat) as Hok. cbn [put fst]. destruct (fst (at_ i)) as [x|s|p|f args]; cbn in Hok |- *; try contradiction; auto.
  rewrite Forall_forall in *. intros a Ha. apply in_map_iff in Ha. destruct Ha as (b & <- & Hb). specialize (Hok b Hb).
  destruct b as [x|s|p|g l]; cbn in *; auto. destruct Hok as (j & Hj & ->). rewrite uname_index. cbn. exists (srho idxs j).
  split; [|reflexivity]. apply Hvars. apply occ_arg with (a := EVar (uname j)); [exact Hb | constructor].
Qed.
End Perm.

Lemma natlist_eqb_refl l : natlist_eqb l l = true.
Proof. unfold natlist_eqb. destruct (list_eq_dec Nat.eq_dec l l); [reflexivity | congruence]. Qed.
Lemma firstn_seq_app l : firstn n (seq 0 n ++ l) = seq 0 n.
Proof. rewrite firstn_app, seq_length, Nat.sub_diag. cbn. rewrite app_nil_r. rewrite firstn_all2; [reflexivity | now rewrite seq_length]. Qed.
Lemma skipn_seq_app l : skipn n (seq 0 n ++ l) = l.
Proof. rewrite <- (seq_length n 0) at 1. apply skipn_ins. Qed.

Lemma function_sort_spec' (d : dcmp o) : length (dc_in o d) = n ->
  well_formed n (map fst (dc_mid o d)) (map fst (dc_out o d)) -> Forall (fun p => snd p = []) (dc_mid o d) ->
  exists idxs mid', function_sort o d =
      Some (mkDC o (dc_in o d) mid' (map (fun p => (renumber (srho idxs) (fst p), snd p)) (dc_out o d))) /\
    moved o n eq (dc_mid o d) mid' (srho idxs) /\ backward n (map fst mid') /\
    Permutation idxs (seq n (length (dc_mid o d))) /\ mid' = map (fun i => put idxs (at_ (dc_mid o d) i)) idxs.
Proof.
  intros Hn [HB HO] Hd. destruct (sort_order_ok d Hn HB) as (idxs & E & HP & Hord).
  unfold function_sort. rewrite Hn, E, firstn_seq_app, skipn_seq_app, natlist_eqb_refl.
  destruct d as [ins mid outs]. cbn [dc_in dc_mid dc_out] in *. rewrite (fetch_ok mid idxs HP ins outs Hn).
  exists idxs, (map (fun i => put idxs (at_ mid i)) idxs).
  split; [|split; [now apply sort_moved | split; [now apply sort_backward | auto]]].
  pose proof (remap_map mid idxs HP false) as HR. f_equal. f_equal.
  - rewrite map_map. apply map_ext_in. intros i Hi. apply (idxs_in mid idxs HP) in Hi.
    pose proof (at_nth mid i Hi) as Hat. unfold put. f_equal.
    + apply (rename_elt o i).
      * pose proof (HB _ _ (map_nth_error fst _ _ Hat)) as Hok. replace (n + (i - n)) with i in Hok by lia. exact Hok.
      * intros j Hj. apply HR. lia.
    + rewrite Forall_forall in Hd. rewrite (Hd (at_ mid i)) by (eapply nth_error_In; eauto). reflexivity.
  - apply (rename_outs o (n + length mid)); [|exact HR]. rewrite map_length in HO. exact HO.
Qed.
Lemma function_sort_spec (d : dcmp o) : length (dc_in o d) = n ->
  well_formed n (map fst (dc_mid o d)) (map fst (dc_out o d)) -> Forall (fun p => snd p = []) (dc_mid o d) ->
  exists rho mid', function_sort o d =
      Some (mkDC o (dc_in o d) mid' (map (fun p => (renumber rho (fst p), snd p)) (dc_out o d))) /\
    moved o n eq (dc_mid o d) mid' rho /\ backward n (map fst mid') /\
    (exists idxs, Permutation idxs (seq n (length (dc_mid o d))) /\ mid' = map (fun i => put idxs (at_ (dc_mid o d) i)) idxs).
Proof.
  intros Hn HW Hd. destruct (function_sort_spec' d Hn HW Hd) as (idxs & mid' & H1 & H2 & H3 & H4 & H5). exists (srho idxs), mid'. eauto 8.
Qed.

Lemma taylor_sort_spec' (d : dcmp o) sv : length (dc_in o d) = n ->
  well_formed n (map fst (dc_mid o d)) (map fst (dc_out o d)) -> deps_ok n (dc_mid o d) ->
  Forall (fun p => snd p = []) (dc_out o d) -> Forall (fun i => i < n + length (dc_mid o d)) sv ->
  exists idxs mid', taylor_sort o d sv =
      Some (mkDC o (dc_in o d) mid' (map (fun p => (renumber (srho idxs) (fst p), snd p)) (dc_out o d)), map (srho idxs) sv) /\
    moved o n eq (dc_mid o d) mid' (srho idxs) /\ backward n (map fst mid') /\
    Permutation idxs (seq n (length (dc_mid o d))) /\ mid' = map (fun i => put idxs (at_ (dc_mid o d) i)) idxs.
Proof.
  intros Hn [HB HO] Hd Hdo Hsv. destruct (sort_order_ok d Hn HB) as (idxs & E & HP & Hord).
  unfold taylor_sort. rewrite Hn, E, firstn_seq_app, skipn_seq_app, natlist_eqb_refl.
  destruct d as [ins mid outs]. cbn [dc_in dc_mid dc_out] in *. rewrite (fetch_ok mid idxs HP ins outs Hn).
  exists idxs, (map (fun i => put idxs (at_ mid i)) idxs).
  split; [|split; [now apply sort_moved | split; [now apply sort_backward | auto]]].
  pose proof (remap_map mid idxs HP true) as HR. pose proof (remap_true mid idxs HP) as HT.
  set (f := fun p : elt => remap_deps o (sort_remap true n idxs) (rename o (sort_remap true n idxs) (fst p), snd p)).
  assert (H1 : oseq (map f (map (at_ mid) idxs)) = Some (map (fun i => put idxs (at_ mid i)) idxs)).
  { rewrite map_map. apply oseq_map_some. intros i Hi. apply (idxs_in mid idxs HP) in Hi.
    pose proof (at_nth mid i Hi) as Hat. unfold f, remap_deps, put. cbn [fst snd].
    rewrite (oseq_map_some _ (srho idxs)).
    - f_equal. f_equal. apply (rename_elt o i).
      + pose proof (HB _ _ (map_nth_error fst _ _ Hat)) as Hok. replace (n + (i - n)) with i in Hok by lia. exact Hok.
      + intros j Hj. apply HR. lia.
    - intros j Hj. apply remap_idx_some, HT. specialize (Hd _ _ _ Hat Hj). lia. }
  assert (H2 : oseq (map f outs) = Some (map (fun p => (renumber (srho idxs) (fst p), snd p)) outs)).
  { apply oseq_map_some. intros p Hp. unfold f, remap_deps. cbn [fst snd]. rewrite Forall_forall in Hdo. rewrite (Hdo p Hp). cbn.
    f_equal. f_equal. apply (rename_arg o (n + length mid)); [|exact HR]. rewrite map_length in HO. rewrite Forall_forall in HO. apply HO. now apply in_map. }
  rewrite H1, H2. rewrite (oseq_map_some _ (srho idxs)); [reflexivity|].
  intros j Hj. apply remap_idx_some, HT. rewrite Forall_forall in Hsv. now apply Hsv.
Qed.
Lemma taylor_sort_spec (d : dcmp o) sv : length (dc_in o d) = n ->
  well_formed n (map fst (dc_mid o d)) (map fst (dc_out o d)) -> deps_ok n (dc_mid o d) ->
  Forall (fun p => snd p = []) (dc_out o d) -> Forall (fun i => i < n + length (dc_mid o d)) sv ->
  exists rho mid', taylor_sort o d sv =
      Some (mkDC o (dc_in o d) mid' (map (fun p => (renumber rho (fst p), snd p)) (dc_out o d)), map rho sv) /\
    moved o n eq (dc_mid o d) mid' rho /\ backward n (map fst mid') /\
    (exists idxs, Permutation idxs (seq n (length (dc_mid o d))) /\ mid' = map (fun i => put idxs (at_ (dc_mid o d) i)) idxs).
Proof.
  intros Hn HW Hd Ho Hs. destruct (taylor_sort_spec' d sv Hn HW Hd Ho Hs) as (idxs & mid' & H1 & H2 & H3 & H4 & H5). exists (srho idxs), mid'. eauto 8.
Qed.
End Sort.
