(* C03: sharing of subexpressions and of argument vectors never changes the
   result of an operation. *)
From Coq Require Import String Bool ZArith QArith Reals Arith List Lia Sorted.
From Verif Require Import M_Expr S_Expr M_Dag S_Dag P_ExprSem P_Str P_Subs P_Dag X_Expr.
Import ListNotations.
Local Open Scope nat_scope.

Section Facts.
Context {N : Type} (es : list (dag N)) (HC : consistent es).
Definition reach (d : dag N) : Prop := exists e, In e es /\ within d e.
Lemma reach_arg a f s l x : reach (DFn a f s l) -> In x l -> reach x.
Proof.
  intros (e & He & Hw) Hx. exists e. split; [exact He|]. eapply within_trans; [|exact Hw].
  eapply w_arg; [exact Hx | apply w_here].
Qed.
Lemma reach_fun a f1 s1 l1 f2 s2 l2 : reach (DFn a f1 s1 l1) -> reach (DFn a f2 s2 l2) -> f1 = f2 /\ s1 = s2 /\ l1 = l2.
Proof. intros (e1 & H1 & W1) (e2 & H2 & W2). exact (one_function es HC e1 e2 a f1 s1 l1 f2 s2 l2 H1 H2 W1 W2). Qed.
Lemma reach_vec a1 f1 s l1 a2 f2 l2 : reach (DFn a1 f1 (Some s) l1) -> reach (DFn a2 f2 (Some s) l2) -> l1 = l2.
Proof. intros (e1 & H1 & W1) (e2 & H2 & W2). exact (one_vector es HC e1 e2 a1 f1 s l1 a2 f2 l2 H1 H2 W1 W2). Qed.
Lemma reach_es : Forall reach es.
Proof. apply Forall_forall. intros e He. exists e. split; [exact He | apply w_here]. Qed.
End Facts.

Lemma oseq_all_some {A B} (f : A -> option B) (g : A -> B) l : Forall (fun a => f a = Some (g a)) l ->
  oseq (map f l) = Some (map g l).
Proof. induction 1 as [|a l Ha Hl IH]; [reflexivity|]. cbn [map]. now rewrite oseq_cons, Ha, IH. Qed.
Lemma oseq_map_ext {A A' B} (f : A -> option B) (g : A' -> option B) (h : A -> A') l :
  Forall (fun a => f a = g (h a)) l -> oseq (map f l) = oseq (map g (map h l)).
Proof. induction 1 as [|a l Ha Hl IH]; [reflexivity|]. cbn [map]. now rewrite !oseq_cons, Ha, IH. Qed.

Lemma drec_hash {N H} (h0 : H) hc (hleaf : expr N -> H) hname (e : dag N) :
  drec (fun d => hleaf (erase d)) (fun _ => None) (fun l => fold_left hc l h0)
       (fun d b => match d with DFn _ f _ _ => Some (hc b (hname f)) | _ => None end) e
  = Some (tree_hash h0 hc hleaf hname (erase e)).
Proof.
  induction e as [n|v|i|a f s args IH] using dag_ind'; try reflexivity.
  cbn [drec]. rewrite (oseq_all_some _ _ _ IH). cbn [erase tree_hash]. now rewrite map_map.
Qed.
Theorem sharing_hash {N H} (h0 : H) hc hleaf (hname : fid N -> H) fuel e : consistent [e] -> enough fuel [e] ->
  hash_dag h0 hc hleaf hname fuel e = MDone (tree_hash h0 hc hleaf hname (erase e)).
Proof.
  intros HC HF. unfold hash_dag.
  assert (HU : reach [e] e) by (exists e; split; [now left | apply w_here]).
  match goal with |- match traverse ?lf ?pr ?cb ?nd ?lz _ _ _ with _ => _ end = _ =>
    destruct (traverse_ok (reach [e]) (reach_arg [e]) (reach_fun [e] HC) (reach_vec [e] HC) lf pr cb nd lz
                fuel [] [] e HU (valid_empty _ _ _ _ _) (HF e (or_introl eq_refl)))
      as [(Hn & _)|(a & [fm sm] & Ha & _ & Ht)] end.
  - rewrite drec_hash in Hn. discriminate.
  - rewrite drec_hash in Ha. injection Ha as <-.
    match goal with |- match ?t with _ => _ end = _ => rewrite (Ht : t = _) end. reflexivity.
Qed.

Section Ops.
Context (o : nops).
Local Notation dg := (dag (num o)).
Local Notation ex := (expr (num o)).
Local Notation er := (@erase (num o)).

Lemma drec_transform leaf branch (e : dg) :
  drec (fun d => leaf (er d)) (fun _ => None) (fun l => l) (transform_node o branch) e
  = Some (transform o leaf branch (er e)).
Proof.
  induction e as [n|v|i|a f s args IH] using dag_ind'; try reflexivity.
  cbn [drec]. rewrite (oseq_all_some _ _ _ IH). cbn [transform_node erase transform]. now rewrite map_map.
Qed.
Lemma drec_subs_ex look (e : dg) :
  drec (fun d => er d) (fun d => look (er d)) (fun l => l) (transform_node o (fun e => e)) e
  = Some (subs_ex o look (er e)).
Proof.
  induction e as [n|v|i|a f s args IH] using dag_ind'; rewrite subs_ex_unfold; cbn [drec];
    try (destruct (look _); reflexivity).
  destruct (look (er (DFn a f s args))); [reflexivity|].
  rewrite (oseq_all_some _ _ _ IH). cbn [transform_node erase]. now rewrite map_map.
Qed.
Lemma drec_diff ug x (e : dg) :
  drec (fun d => diff_leaf o x (er d)) (fun _ => None) (fun l => l) (diff_dag_node o ug) e = diff o ug x (er e).
Proof.
  induction e as [n|v|i|a f s args IH] using dag_ind'; try reflexivity.
  cbn [drec erase diff]. rewrite (oseq_map_ext _ (diff o ug x) er _ IH). reflexivity.
Qed.
Lemma erase_size (e : dg) : n_nodes o (er e) = dsize e.
Proof.
  induction e as [n|v|i|a f s args IH] using dag_ind'; try reflexivity.
  cbn [erase n_nodes dsize]. f_equal. induction IH as [|x l Hx Hl IHl]; [reflexivity|].
  cbn [map fold_right]. now rewrite Hx, IHl.
Qed.
Lemma erase_within (d e : dg) : within d e -> occurs (er d) (er e).
Proof.
  induction 1 as [|d a f s args x Hx Hw IH]; [constructor|]. cbn [erase]. econstructor; [|exact IH]. now apply in_map.
Qed.
Lemma occurs_within (e : dg) : forall x, occurs x (er e) -> exists d, within d e /\ er d = x.
Proof.
  induction e as [n|v|i|a f s args IH] using dag_ind'; intros x Hx.
  1-3: inversion Hx; subst; eexists; split; [apply w_here | reflexivity].
  cbn [erase] in Hx. inversion Hx as [|? ? y Hy Ho]; subst; [exists (DFn a f s args); split; [apply w_here | reflexivity]|].
  apply in_map_iff in Hy. destruct Hy as (d & <- & Hd). rewrite Forall_forall in IH.
  destruct (IH d Hd x Ho) as (d' & Hw & <-). exists d'. split; [eapply w_arg; eauto | reflexivity].
Qed.

Section Traverse.
Context {A B : Type} (leaf : dg -> A) (pre : dg -> option A) (comb : list A -> B) (node : dg -> B -> option A) (lazy : bool).
Lemma traverse_es fuel es : consistent es -> enough fuel es ->
  traverse_vec leaf pre comb node lazy fuel ([], []) es =
  match oseq (map (drec leaf pre comb node) es) with Some l => MDone l | None => MThrow end.
Proof.
  intros HC HF. apply (traverse_vec_ok (reach es) (reach_arg es) (reach_fun es HC) (reach_vec es HC)).
  - apply reach_es.
  - apply valid_empty.
  - exact HF.
Qed.
End Traverse.

(* C03. On any graph with consistent sharing, every operation returns what it
   returns on the unshared copy of the expressions: er e is e with the sharing
   forgotten. No assertion of the traversal fails, and it terminates. *)
Theorem sharing_transform leaf branch fuel es : consistent es -> enough fuel es ->
  transform_dag o leaf branch fuel es = MDone (map (fun e => transform o leaf branch (er e)) es).
Proof.
  intros HC HF. unfold transform_dag. rewrite traverse_es by assumption.
  now rewrite (oseq_all_some _ (fun e => transform o leaf branch (er e)) es)
    by (apply Forall_forall; intros; apply drec_transform).
Qed.
Theorem sharing_rename m fuel es : consistent es -> enough fuel es ->
  rename_dag o m fuel es = MDone (map (fun e => rename o m (er e)) es).
Proof. apply sharing_transform. Qed.
Theorem sharing_subs m fuel es : consistent es -> enough fuel es ->
  subs_dag o m fuel es = MDone (map (fun e => subs o m (er e)) es).
Proof. apply sharing_transform. Qed.
Theorem sharing_copy fuel es : consistent es -> enough fuel es -> copy_dag o fuel es = MDone (map er es).
Proof.
  intros HC HF. unfold copy_dag. rewrite sharing_transform by assumption. f_equal. apply map_ext.
  intros e. apply copy_id.
Qed.
Theorem sharing_subs_map look fuel es : consistent es -> enough fuel es ->
  subs_ex_dag o look fuel es = MDone (map (fun e => subs_ex o look (er e)) es).
Proof.
  intros HC HF. unfold subs_ex_dag. rewrite traverse_es by assumption.
  now rewrite (oseq_all_some _ (fun e => subs_ex o look (er e)) es)
    by (apply Forall_forall; intros; apply drec_subs_ex).
Qed.
Theorem sharing_diff ug x fuel es : consistent es -> enough fuel es ->
  diff_dag o ug x fuel es =
  match oseq (map (fun e => diff o ug x (er e)) es) with Some l => MDone l | None => MThrow end.
Proof.
  intros HC HF. unfold diff_dag. rewrite traverse_es by assumption.
  now rewrite (map_ext _ (fun e => diff o ug x (er e)) (drec_diff ug x)).
Qed.
Lemma visit_es fuel (es : list dg) : consistent es -> enough fuel es ->
  exists l, visit_vec fuel [] [] [] es = MDone l /\
    forall x, In x l <-> isleaf x /\ exists e, In e es /\ within x e.
Proof.
  intros HC HF.
  destruct (visit_vec_ok (reach es) (reach_arg es) (reach_fun es HC) (reach_vec es HC) fuel es [] [] []
              (reach_es es) (vvalid_empty _ _) HF) as (l & Hl & Hx).
  exists l. split; [exact Hl|]. intros x. rewrite Hx. simpl. tauto.
Qed.
Lemma leaf_var_iff es v : (exists e : dg, In e es /\ within (DVr v) e) <-> exists e, In e (map er es) /\ occurs (EVar v) e.
Proof.
  split.
  - intros (e & He & Hw). exists (er e). split; [now apply in_map|]. now apply (erase_within (DVr v)).
  - intros (e & He & Ho). apply in_map_iff in He. destruct He as (d & <- & Hd).
    destruct (occurs_within d _ Ho) as (x & Hw & Ex). exists d. split; [exact Hd|].
    destruct x; cbn [erase] in Ex; try discriminate. injection Ex as ->. exact Hw.
Qed.
Lemma leaf_par_iff es i : (exists e : dg, In e es /\ within (DPr i) e) <-> exists e, In e (map er es) /\ occurs (EPar i) e.
Proof.
  split.
  - intros (e & He & Hw). exists (er e). split; [now apply in_map|]. now apply (erase_within (DPr i)).
  - intros (e & He & Ho). apply in_map_iff in He. destruct He as (d & <- & Hd).
    destruct (occurs_within d _ Ho) as (x & Hw & Ex). exists d. split; [exact Hd|].
    destruct x; cbn [erase] in Ex; try discriminate. injection Ex as ->. exact Hw.
Qed.

Lemma sorted_unique {A} (lt : A -> A -> bool) (Hirr : forall x, lt x x = false)
  (Htr : forall x y z, lt x y = true -> lt y z = true -> lt x z = true) :
  forall l1 l2, sorted lt l1 -> sorted lt l2 -> (forall x, In x l1 <-> In x l2) -> l1 = l2.
Proof.
  induction l1 as [|a l1 IH]; intros [|b l2] H1 H2 Hi.
  - reflexivity.
  - exfalso. apply (proj2 (Hi b)). now left.
  - exfalso. apply (proj1 (Hi a)). now left.
  - apply StronglySorted_inv in H1. destruct H1 as [S1 F1].
    apply StronglySorted_inv in H2. destruct H2 as [S2 F2].
    rewrite Forall_forall in F1, F2.
    assert (Eab : a = b).
    { destruct (proj1 (Hi a) (or_introl eq_refl)) as [E|Ha]; [now symmetry|].
      destruct (proj2 (Hi b) (or_introl eq_refl)) as [E|Hb]; [exact E|].
      pose proof (Htr _ _ _ (F1 b Hb) (F2 a Ha)) as Hc. rewrite Hirr in Hc. discriminate. }
    subst b. f_equal. apply IH; auto. intros x. split; intros Hx.
    + destruct (proj1 (Hi x) (or_intror Hx)) as [E|H]; [|exact H]. subst x.
      pose proof (F1 a Hx) as Hc. rewrite Hirr in Hc. discriminate.
    + destruct (proj2 (Hi x) (or_intror Hx)) as [E|H]; [|exact H]. subst x.
      pose proof (F2 a Hx) as Hc. rewrite Hirr in Hc. discriminate.
Qed.

Theorem sharing_get_variables fuel es : consistent es -> enough fuel es ->
  get_variables_dag o fuel es = MDone (get_variables o (map er es)).
Proof.
  intros HC HF. unfold get_variables_dag. destruct (visit_es fuel es HC HF) as (l & -> & Hl). cbn [mmap]. f_equal.
  set (g := fun d : dg => match d with DVr v => Some v | _ => None end).
  rewrite (fold_left_ext _ (fun s e => match g e with Some x => sins String.ltb x s | None => s end))
    by (intros a [| | |]; reflexivity).
  destruct (fold_sins String.ltb str_ltb_trans str_ltb_total g l []) as [H1 H2].
  destruct (get_variables_ok (map er es)) as (G1 & G2 & _).
  apply (sorted_unique String.ltb str_ltb_irrefl str_ltb_trans); [apply H2; constructor | exact G2|].
  intros v. rewrite H1, G1, <- leaf_var_iff. split.
  - intros [[]|(d & Hd & Hg)]. destruct d; try discriminate. injection Hg as ->. now apply Hl in Hd.
  - intros H. right. exists (DVr v). split; [|reflexivity]. apply Hl. split; [intros ? ? ? ?; discriminate | exact H].
Qed.
Theorem sharing_get_params fuel es : consistent es -> enough fuel es ->
  get_params_dag o fuel es = MDone (get_params o (map er es)).
Proof.
  intros HC HF. unfold get_params_dag. destruct (visit_es fuel es HC HF) as (l & -> & Hl). cbn [mmap]. f_equal.
  set (g := fun d : dg => match d with DPr v => Some v | _ => None end).
  rewrite (fold_left_ext _ (fun s e => match g e with Some x => sins Nat.ltb x s | None => s end))
    by (intros a [| | |]; reflexivity).
  assert (T1 : forall x y z, Nat.ltb x y = true -> Nat.ltb y z = true -> Nat.ltb x z = true)
    by (intros x y z; rewrite !Nat.ltb_lt; lia).
  assert (T2 : forall x y, Nat.ltb x y = false -> Nat.ltb y x = false -> x = y)
    by (intros x y; rewrite !Nat.ltb_ge; lia).
  destruct (fold_sins Nat.ltb T1 T2 g l []) as [H1 H2].
  destruct (get_params_ok (map er es)) as (G1 & G2 & _).
  apply (sorted_unique Nat.ltb Nat.ltb_irrefl T1); [apply H2; constructor | exact G2|].
  intros v. rewrite H1, G1, <- leaf_par_iff. split.
  - intros [[]|(d & Hd & Hg)]. destruct d; try discriminate. injection Hg as ->. now apply Hl in Hd.
  - intros H. right. exists (DPr v). split; [|reflexivity]. apply Hl. split; [intros ? ? ? ?; discriminate | exact H].
Qed.
Lemma fold_max_dag (l : list dg) : forall m0,
  fold_left (fun m (d : dg) => match d with DPr i => Nat.max m (i + 1) | _ => m end) l m0 =
  fold_left (fun m (e : ex) => match e with EPar i => Nat.max m (i + 1) | _ => m end) (map er l) m0.
Proof. induction l as [|d l IH]; intros m0; [reflexivity|]. cbn [fold_left map]. rewrite IH. now destruct d. Qed.
Theorem sharing_get_param_size fuel es : consistent es -> enough fuel es ->
  get_param_size_dag o fuel es = MDone (get_param_size o (map er es)).
Proof.
  intros HC HF. unfold get_param_size_dag. destruct (visit_es fuel es HC HF) as (l & -> & Hl). cbn [mmap]. f_equal.
  rewrite fold_max_dag.
  destruct (fold_max (map er l) 0) as (_ & B & C). cbv zeta in *.
  set (r := fold_left _ (map er l) 0) in *.
  destruct (get_param_size_ok (map er es)) as (G1 & G2).
  assert (Hin : forall i, In (EPar i) (map er l) <-> exists e, In e (map er es) /\ occurs (EPar i) e).
  { intros i. rewrite <- leaf_par_iff. split.
    - intros H. apply in_map_iff in H. destruct H as (d & E & Hd). destruct d; try discriminate. injection E as ->.
      now apply Hl in Hd.
    - intros H. change (EPar i) with (er (DPr i)). apply in_map. apply Hl. split; [intros ? ? ? ?; discriminate | exact H]. }
  assert (L1 : r <= get_param_size o (map er es)).
  { destruct C as [->|(i & Hi & ->)]; [lia|]. apply Hin in Hi. destruct Hi as (e & He & Ho).
    specialize (G1 e i He Ho). lia. }
  assert (L2 : get_param_size o (map er es) <= r).
  { destruct G2 as [->|(e & i & He & Ho & ->)]; [lia|].
    assert (H : In (EPar i) (map er l)) by (apply Hin; eauto). specialize (B i H). lia. }
  lia.
Qed.
Theorem sharing_test_any p fuel es : consistent es -> enough fuel es ->
  test_any_dag o p fuel es = MDone (existsb (test_any o p) (map er es)).
Proof.
  intros HC HF. unfold test_any_dag.
  destruct (test_vec_ok (reach es) (reach_arg es) (reach_fun es HC) (reach_vec es HC) (fun d => p (er d)) fuel es [] []
              (reach_es es) (qvalid_empty _ _) HF) as (b & -> & Hb). f_equal.
  destruct (existsb (test_any o p) (map er es)) eqn:E.
  - destruct b; [reflexivity|]. exfalso. apply existsb_exists in E. destruct E as (e & He & Ht).
    apply in_map_iff in He. destruct He as (d & <- & Hd). apply test_any_spec in Ht. destruct Ht as (x & Hx & Hp).
    destruct (occurs_within d x Hx) as (d' & Hw & <-).
    pose proof (proj1 Hb eq_refl d Hd d' Hw) as Hc. cbv beta in Hc. congruence.
  - apply Hb. intros d Hd x Hw. destruct (p (er x)) eqn:Ep; [|reflexivity]. exfalso.
    assert (Ht : test_any o p (er d) = true) by (apply test_any_spec; exists (er x); split; [now apply erase_within | exact Ep]).
    assert (Ht' : existsb (test_any o p) (map er es) = true)
      by (apply existsb_exists; exists (er d); split; [now apply in_map | exact Ht]).
    congruence.
Qed.
(* The number of nodes of the unshared copy, or zero if it does not fit in a
   std::size_t (of maximum maxv). *)
Theorem sharing_n_nodes maxv fuel e : consistent [e] -> enough fuel [e] ->
  get_n_nodes maxv fuel e = MDone (if Nat.leb (n_nodes o (er e)) maxv then n_nodes o (er e) else 0).
Proof.
  intros HC HF. rewrite erase_size.
  apply (get_n_nodes_ok (reach [e]) (reach_arg [e]) (reach_fun [e] HC) (reach_vec [e] HC)).
  - exists e. split; [now left | apply w_here].
  - apply HF. now left.
Qed.
End Ops.

(* --- A graph with shared nodes and shared vectors of arguments ------------------------- *)
Definition ex_s : dag Q := DFn 1 Fsum None [DVr "x"%string; DPr 0].
(* sin(s) and cos(s) share s; f(v) and g(v) share the vector v. *)
Definition ex_v : list (dag Q) := [DFn 2 (Fu Usin) None [ex_s]; ex_s].
Definition ex_f : dag Q := DFn 3 Fprod (Some 100) ex_v.
Definition ex_g : dag Q := DFn 4 Fsum (Some 100) ex_v.
Definition ex_r : dag Q := DFn 5 Fsum None [ex_f; ex_g; ex_f].

Ltac win H := inversion H as [|? ? ? ? ? ? Hin Hw]; subst; clear H;
  [| simpl in Hin; repeat (destruct Hin as [<-|Hin]); try destruct Hin].
(* The functions reachable from the example. *)
Lemma ex_nodes a f s l : within (DFn a f s l) ex_r ->
  In (DFn a f s l) [ex_r; ex_f; ex_g; DFn 2 (Fu Usin) None [ex_s]; ex_s].
Proof.
  assert (Hs : forall d, within d ex_s -> d = ex_s \/ d = DVr "x"%string \/ d = DPr 0).
  { intros d Hd. inversion Hd as [|? ? ? ? ? x Hx Hw]; subst; [auto|].
    destruct Hx as [<-|[<-|[]]]; inversion Hw; subst; auto. }
  assert (Hv : forall d x, In x ex_v -> within d x -> d = DFn 2 (Fu Usin) None [ex_s] \/ within d ex_s).
  { intros d x [<-|[<-|[]]] Hd; [|auto]. inversion Hd as [|? ? ? ? ? y Hy Hw]; subst; [auto|].
    destruct Hy as [<-|[]]; auto. }
  assert (Hfg : forall d y, y = ex_f \/ y = ex_g -> within d y -> d = y \/ exists x, In x ex_v /\ within d x).
  { intros d y [->| ->] Hd; inversion Hd as [|? ? ? ? ? x Hx Hw]; subst; eauto. }
  intros H. inversion H as [|? ? ? ? ? y Hy Hw]; subst; [now left|].
  assert (Ey : y = ex_f \/ y = ex_g) by (destruct Hy as [<-|[<-|[<-|[]]]]; auto).
  destruct (Hfg _ _ Ey Hw) as [E|(x & Hx & Hwx)].
  - destruct Ey as [-> | ->]; rewrite E; simpl; auto.
  - destruct (Hv _ _ Hx Hwx) as [E|Hws]; [rewrite E; simpl; auto|].
    destruct (Hs _ Hws) as [E|[E|E]]; [rewrite E; simpl; auto 6 | discriminate | discriminate].
Qed.
Example ex_consistent : consistent [ex_r].
Proof.
  split.
  - intros e1 e2 a f1 s1 l1 f2 s2 l2 [<-|[]] [<-|[]] H1 H2. apply ex_nodes in H1. apply ex_nodes in H2.
    cbn [In] in H1, H2. unfold ex_r, ex_f, ex_g, ex_s in *.
    destruct H1 as [H1|[H1|[H1|[H1|[H1|[]]]]]]; destruct H2 as [H2|[H2|[H2|[H2|[H2|[]]]]]];
      injection H1 as <- <- <- <-; try discriminate H2; injection H2 as <- <- <-; auto.
  - intros e1 e2 a1 f1 s l1 a2 f2 l2 [<-|[]] [<-|[]] H1 H2. apply ex_nodes in H1. apply ex_nodes in H2.
    cbn [In] in H1, H2. unfold ex_r, ex_f, ex_g, ex_s in *.
    destruct H1 as [H1|[H1|[H1|[H1|[H1|[]]]]]]; try discriminate H1;
      destruct H2 as [H2|[H2|[H2|[H2|[H2|[]]]]]]; try discriminate H2; congruence.
Qed.
Example ex_enough : enough 60 [ex_r].
Proof. intros e [<-|[]]. vm_compute. lia. Qed.
(* Substitution, differentiation and counting on the shared graph. *)
Example ex_dag_subs :
  subs_dag qnum [("x"%string, ENum 2%Q)] 60 [ex_r]
  = MDone [subs qnum [("x"%string, ENum 2%Q)] (@erase (num qnum) ex_r)] /\
  subs qnum [("x"%string, ENum 2%Q)] (@erase (num qnum) ex_r) <> erase ex_r.
Proof. split; [apply (sharing_subs qnum _ 60 [ex_r] ex_consistent ex_enough) | discriminate]. Qed.
Example ex_dag_count : get_n_nodes 100 60 ex_r = MDone 25 /\ get_n_nodes 20 60 ex_r = MDone 0.
Proof. split; reflexivity. Qed.
Example ex_dag_vars : get_variables_dag qnum 60 [ex_r] = MDone ["x"%string] /\
  get_params_dag qnum 60 [ex_r] = MDone [0] /\ get_param_size_dag qnum 60 [ex_r] = MDone 1.
Proof. repeat split; reflexivity. Qed.
Example ex_dag_diff : exists d, diff_dag qnum (fun _ _ => None) (DVar "x"%string) 60 [ex_r] = MDone [d] /\
  diff qnum (fun _ _ => None) (DVar "x"%string) (@erase (num qnum) ex_r) = Some d.
Proof.
  destruct (diff qnum (fun _ _ => None) (DVar "x"%string) (@erase (num qnum) ex_r)) as [d|] eqn:E.
  - exists d. split; [|reflexivity]. rewrite (sharing_diff qnum _ _ 60 [ex_r] ex_consistent ex_enough).
    cbn [map]. rewrite oseq_cons, E. reflexivity.
  - exfalso. vm_compute in E. discriminate.
Qed.
(* Without consistency the caches give the wrong answer: two different functions
   with the same address. *)
Example ex_inconsistent :
  subs_dag qnum [] 60 [DFn 1 (Fu Usin) None [DVr "x"%string]; DFn 1 (Fu Ucos) None [DVr "y"%string]]
  = MDone [EFun (Fu Usin) [EVar "x"%string]; EFun (Fu Usin) [EVar "x"%string]].
Proof. reflexivity. Qed.

Print Assumptions sharing_transform.
Print Assumptions sharing_rename.
Print Assumptions sharing_subs.
Print Assumptions sharing_copy.
Print Assumptions sharing_subs_map.
Print Assumptions sharing_diff.
Print Assumptions sharing_hash.
Print Assumptions sharing_get_variables.
Print Assumptions sharing_get_params.
Print Assumptions sharing_get_param_size.
Print Assumptions sharing_test_any.
Print Assumptions sharing_n_nodes.
