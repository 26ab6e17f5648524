(* Equality and ordering of expressions come from one three-way comparison. *)
From Coq Require Import String Bool ZArith Arith List Lia.
From Verif Require Import M_Expr M_Dag S_Dag M_Cmp P_ExprSem P_Str P_Dag.
Import ListNotations.

(* Three-way comparisons. *)
Record tot {A} (cmp : A -> A -> comparison) : Prop := {
  t_sym : forall a b, cmp b a = CompOpp (cmp a b);
  t_lt : forall a b c, cmp a b = Lt -> cmp b c = Lt -> cmp a c = Lt;
  t_eq : forall a b c, cmp a b = Eq -> cmp a c = cmp b c
}.
Lemma t_refl {A} (cmp : A -> A -> comparison) : tot cmp -> forall a, cmp a a = Eq.
Proof. intros T a. pose proof (t_sym _ T a a) as H. destruct (cmp a a); simpl in H; congruence. Qed.
Lemma t_eq_r {A} (cmp : A -> A -> comparison) : tot cmp -> forall a b c, cmp a b = Eq -> cmp c a = cmp c b.
Proof. intros T a b c H. rewrite (t_sym _ T a c), (t_sym _ T b c). f_equal. now apply t_eq. Qed.

Definition clex (a b : comparison) : comparison := match a with Eq => b | _ => a end.
Lemma tot_lex {A} (c1 c2 : A -> A -> comparison) : tot c1 -> tot c2 -> tot (fun a b => clex (c1 a b) (c2 a b)).
Proof.
  intros T1 T2. split.
  - intros a b. rewrite (t_sym _ T1 a b), (t_sym _ T2 a b). now destruct (c1 a b).
  - intros a b c. destruct (c1 a b) eqn:E1; destruct (c1 b c) eqn:E2; simpl; try discriminate.
    + intros H1 H2. rewrite (t_eq _ T1 a b c E1), E2. simpl. eapply t_lt; eauto.
    + intros _ _. rewrite (t_eq _ T1 a b c E1), E2. reflexivity.
    + intros _ _. rewrite <- (t_eq_r _ T1 b c a E2), E1. reflexivity.
    + intros _ _. rewrite (t_lt _ T1 a b c E1 E2). reflexivity.
  - intros a b c. destruct (c1 a b) eqn:E1; simpl; try discriminate. intros E2.
    now rewrite (t_eq _ T1 a b c E1), (t_eq _ T2 a b c E2).
Qed.
Lemma tot_by {A B} (f : A -> B) (cmp : B -> B -> comparison) : tot cmp -> tot (fun a b => cmp (f a) (f b)).
Proof.
  intros T. split; intros.
  - apply (t_sym _ T).
  - eapply (t_lt _ T); eauto.
  - now apply (t_eq _ T).
Qed.
Lemma tot_ext {A} (c1 c2 : A -> A -> comparison) : (forall a b, c1 a b = c2 a b) -> tot c1 -> tot c2.
Proof.
  intros E T. split; intros *; rewrite <- !E.
  - apply (t_sym _ T).
  - apply (t_lt _ T).
  - apply (t_eq _ T).
Qed.
Lemma tot_nat : tot Nat.compare.
Proof.
  split.
  - intros a b. apply Nat.compare_antisym.
  - intros a b c. rewrite !Nat.compare_lt_iff. lia.
  - intros a b c H. apply Nat.compare_eq_iff in H. now subst.
Qed.
Lemma tot_Z : tot Z.compare.
Proof.
  split.
  - intros a b. apply Z.compare_antisym.
  - intros a b c. rewrite !Z.compare_lt_iff. lia.
  - intros a b c H. apply Z.compare_eq_iff in H. now subst.
Qed.
Lemma str_cmp_sym s t : String.compare t s = CompOpp (String.compare s t).
Proof. apply String.compare_antisym. Qed.
Lemma tot_str : tot String.compare.
Proof.
  split.
  - intros a b. apply str_cmp_sym.
  - apply str_cmp_trans.
  - intros a b c H. apply str_cmp_eq in H. now subst.
Qed.

(* Dyadic numbers. *)
Definition zc (a b : Z * Z) : comparison := zcmp (fst a) (snd a) (fst b) (snd b).
Lemma zcmp_any k m1 e1 m2 e2 : (k <= e1 -> k <= e2 ->
  zcmp m1 e1 m2 e2 = Z.compare (m1 * 2 ^ (e1 - k)) (m2 * 2 ^ (e2 - k)))%Z.
Proof.
  intros H1 H2. unfold zcmp. set (e := Z.min e1 e2). set (d := (e - k)%Z).
  assert (Hd : (0 <= d)%Z) by (unfold d, e; lia).
  replace (e1 - k)%Z with ((e1 - e) + d)%Z by (unfold d; lia).
  replace (e2 - k)%Z with ((e2 - e) + d)%Z by (unfold d; lia).
  rewrite !Z.pow_add_r by (unfold e; lia). rewrite !Z.mul_assoc.
  symmetry. assert (Hp : (0 < 2 ^ d)%Z) by (apply Z.pow_pos_nonneg; lia).
  set (x := (m1 * 2 ^ (e1 - e))%Z). set (y := (m2 * 2 ^ (e2 - e))%Z).
  destruct (Z.compare_spec x y) as [->|H|H].
  - apply Z.compare_refl.
  - apply Z.compare_lt_iff. nia.
  - apply Z.compare_gt_iff. nia.
Qed.
Lemma tot_zc : tot zc.
Proof.
  split.
  - intros [m1 e1] [m2 e2]. unfold zc. simpl. set (k := Z.min e1 e2).
    rewrite !(zcmp_any k) by (unfold k; lia). apply Z.compare_antisym.
  - intros [m1 e1] [m2 e2] [m3 e3]. unfold zc. simpl. set (k := Z.min e1 (Z.min e2 e3)).
    rewrite !(zcmp_any k) by (unfold k; lia). apply (t_lt _ tot_Z).
  - intros [m1 e1] [m2 e2] [m3 e3]. unfold zc. simpl. set (k := Z.min e1 (Z.min e2 e3)).
    rewrite !(zcmp_any k) by (unfold k; lia). apply (t_eq _ tot_Z).
Qed.

(* Values: minus infinity, finite, plus infinity, NaN. *)
Definition vkind (v : fval) : Z :=
  match v with Fnan _ => 2 | Finf true => -1 | Finf false => 1 | _ => 0 end%Z.
Definition vdy (v : fval) : Z * Z :=
  match v with Ffin s m e => (signed s m, e) | _ => (0, 0)%Z end.
Definition vc (a b : fval) : comparison := clex (Z.compare (vkind a) (vkind b)) (zc (vdy a) (vdy b)).
Lemma tot_vc : tot vc.
Proof. apply tot_lex; [apply (tot_by vkind _ tot_Z) | apply (tot_by vdy _ tot_zc)]. Qed.
Lemma fcmp_vc a b : isnan a = false -> isnan b = false -> fcmp a b = Some (vc a b).
Proof.
  destruct a as [p|s|s|s m e], b as [p'|t|t|t m' e']; simpl; try discriminate; intros _ _;
    try destruct s; try destruct t; reflexivity.
Qed.
Definition nc (a b : number) : comparison := clex (Nat.compare (n_idx a) (n_idx b)) (vc (n_val a) (n_val b)).
Lemma tot_nc : tot nc.
Proof. apply tot_lex; [apply (tot_by n_idx _ tot_nat) | apply (tot_by n_val _ tot_vc)]. Qed.

Definition is_eq (c : comparison) : bool := match c with Eq => true | _ => false end.
Definition is_lt (c : comparison) : bool := match c with Lt => true | _ => false end.
Lemma number_eq_nc a b : number_eq a b = is_eq (nc a b).
Proof.
  destruct a as [i v], b as [j w]. unfold number_eq, nc. simpl.
  destruct (Nat.eqb_spec i j) as [->|Hij].
  - rewrite (t_refl _ tot_nat). simpl.
    destruct (isnan v) eqn:Ev; destruct (isnan w) eqn:Ew; simpl.
    + destruct v; try discriminate. destruct w; try discriminate. reflexivity.
    + destruct v; try discriminate. destruct w as [|[]| |]; try discriminate; reflexivity.
    + destruct w; try discriminate. destruct v as [|[]| |]; try discriminate; reflexivity.
    + unfold v_eq. rewrite (fcmp_vc v w Ev Ew). now destruct (vc v w).
  - destruct (Nat.compare_spec i j); [contradiction | reflexivity | reflexivity].
Qed.
Lemma number_lt_nc a b : number_lt a b = is_lt (nc a b).
Proof.
  destruct a as [i v], b as [j w]. unfold number_lt, nc. simpl.
  destruct (Nat.eqb_spec i j) as [->|Hij].
  - rewrite (t_refl _ tot_nat). simpl.
    destruct (isnan v) eqn:Ev; [|destruct (isnan w) eqn:Ew].
    + destruct v; try discriminate. destruct w as [|[]| |]; reflexivity.
    + destruct w; try discriminate. destruct v as [|[]| |]; try discriminate; reflexivity.
    + unfold v_lt. rewrite (fcmp_vc v w Ev Ew). now destruct (vc v w).
  - destruct (Nat.compare_spec i j) as [H|H|H]; [contradiction | |]; simpl.
    + now apply Nat.ltb_lt.
    + apply Nat.ltb_ge. lia.
Qed.

(* --- Expressions ------------------------------------------------------------------- *)
Section Trees.
Context {N : Type} (ncmp : N -> N -> comparison) (HN : tot ncmp) (name : fid N -> string).
Local Notation ex := (expr N).

Definition rank (e : ex) : nat := match e with ENum _ => 0 | EPar _ => 1 | EVar _ => 2 | EFun _ _ => 3 end.
Fixpoint lcmp {A} (c : A -> A -> comparison) (l l' : list A) : comparison :=
  match l, l' with
  | [], [] => Eq
  | [], _ => Lt
  | _, [] => Gt
  | x :: r, y :: r' => clex (c x y) (lcmp c r r')
  end.
Fixpoint tcmp (a b : ex) {struct a} : comparison :=
  match a, b with
  | ENum x, ENum y => ncmp x y
  | EPar i, EPar j => Nat.compare i j
  | EVar s, EVar t => String.compare s t
  | EFun f l, EFun g l' =>
      clex (String.compare (name f) (name g))
        ((fix go (l l' : list ex) {struct l} :=
            match l, l' with
            | [], [] => Eq
            | [], _ => Lt
            | _, [] => Gt
            | x :: r, y :: r' => clex (tcmp x y) (go r r')
            end) l l')
  | _, _ => Nat.compare (rank a) (rank b)
  end.
Lemma tcmp_fun f l g l' : tcmp (EFun f l) (EFun g l') = clex (String.compare (name f) (name g)) (lcmp tcmp l l').
Proof.
  cbn [tcmp]. f_equal. revert l'. induction l as [|x r IH]; intros [|y r']; try reflexivity.
  cbn [lcmp]. now rewrite <- IH.
Qed.
Lemma tcmp_sym a : forall b, tcmp b a = CompOpp (tcmp a b).
Proof.
  induction a as [n|s|i|f args IH] using expr_ind'; intros [m|t|j|g l]; try reflexivity.
  - apply (t_sym _ HN).
  - apply str_cmp_sym.
  - apply Nat.compare_antisym.
  - rewrite !tcmp_fun, (str_cmp_sym (name f)). destruct (String.compare (name f) (name g)); simpl; try reflexivity.
    revert l. induction IH as [|x r Hx Hr IHr]; intros [|y l]; try reflexivity.
    cbn [lcmp]. rewrite (Hx y), (IHr l). now destruct (tcmp x y).
Qed.
Lemma tcmp_eq a : forall b c, tcmp a b = Eq -> tcmp a c = tcmp b c.
Proof.
  induction a as [n|s|i|f args IH] using expr_ind'; intros [m|t|j|g l] c H; try discriminate H.
  - destruct c; try reflexivity. now apply (t_eq _ HN).
  - apply str_cmp_eq in H. now subst.
  - apply Nat.compare_eq_iff in H. now subst.
  - destruct c as [| | |h l2]; try reflexivity. rewrite tcmp_fun in H |- *. rewrite tcmp_fun.
    destruct (String.compare (name f) (name g)) eqn:E; simpl in H; try discriminate.
    apply str_cmp_eq in E. rewrite E. f_equal. clear E f g h.
    revert l l2 H. induction IH as [|x r Hx Hr IHr]; intros [|y l] l2 H; try discriminate; [reflexivity|].
    cbn [lcmp] in H. destruct (tcmp x y) eqn:E; simpl in H; try discriminate.
    destruct l2 as [|z l2]; [reflexivity|]. cbn [lcmp]. now rewrite (Hx y z E), (IHr l l2 H).
Qed.
Lemma tcmp_lt a : forall b c, tcmp a b = Lt -> tcmp b c = Lt -> tcmp a c = Lt.
Proof.
  induction a as [n|s|i|f args IH] using expr_ind'; intros [m|t|j|g l] [p|u|k|h l2] H1 H2;
    try reflexivity; try discriminate H1; try discriminate H2.
  - eapply (t_lt _ HN); eauto.
  - eapply str_cmp_trans; eauto.
  - eapply (t_lt _ tot_nat); eauto.
  - rewrite tcmp_fun in H1, H2 |- *.
    destruct (String.compare (name f) (name g)) eqn:E1; simpl in H1; try discriminate.
    + apply str_cmp_eq in E1. rewrite E1. destruct (String.compare (name g) (name h)) eqn:E2; simpl in H2 |- *; try discriminate; [|reflexivity].
      clear E1 E2 f g h. revert l l2 H1 H2.
      induction IH as [|x r Hx Hr IHr]; intros [|y l] [|z l2] H1 H2; try discriminate; try reflexivity.
      cbn [lcmp] in *. destruct (tcmp x y) eqn:E1; simpl in H1; try discriminate.
      * rewrite (tcmp_eq _ _ z E1). destruct (tcmp y z) eqn:E2; simpl in H2 |- *; try discriminate; [|reflexivity].
        eapply IHr; eauto.
      * destruct (tcmp y z) eqn:E2; simpl in H2; try discriminate.
        -- assert (E3 : tcmp x z = tcmp x y).
           { rewrite (tcmp_sym z x), (tcmp_sym y x). f_equal. symmetry. now apply tcmp_eq. }
           now rewrite E3, E1.
        -- now rewrite (Hx y z E1 E2).
    + destruct (String.compare (name g) (name h)) eqn:E2; simpl in H2; try discriminate.
      * apply str_cmp_eq in E2. rewrite <- E2, E1. reflexivity.
      * now rewrite (str_cmp_trans _ _ _ E1 E2).
Qed.
Lemma tot_tcmp : tot tcmp.
Proof. split; [intros a b; apply tcmp_sym | intros a b c; apply tcmp_lt | intros a b c; apply tcmp_eq]. Qed.

Lemma tcmp_hash {H} (h0 : H) hc hleaf hname : (forall x y, ncmp x y = Eq -> hleaf (ENum x) = hleaf (ENum y)) ->
  (forall f g, name f = name g -> hname f = hname g) ->
  forall a b, tcmp a b = Eq -> tree_hash h0 hc hleaf hname a = tree_hash h0 hc hleaf hname b.
Proof.
  intros Hl Hn. induction a as [n|s|i|f args IH] using expr_ind'; intros [m|t|j|g l] E; try discriminate E.
  - now apply Hl.
  - apply str_cmp_eq in E. now subst.
  - apply Nat.compare_eq_iff in E. now subst.
  - rewrite tcmp_fun in E. destruct (String.compare (name f) (name g)) eqn:E1; simpl in E; try discriminate.
    apply str_cmp_eq in E1. cbn [tree_hash]. rewrite (Hn f g E1). f_equal. f_equal. clear E1 f g.
    revert l E. induction IH as [|x r Hx Hr IHr]; intros [|y l] E; try discriminate; [reflexivity|].
    cbn [lcmp] in E. destruct (tcmp x y) eqn:E1; simpl in E; try discriminate.
    cbn [map]. f_equal; auto.
Qed.

(* --- The code against the three-way comparison ------------------------------------------ *)
Context (neq nlt : N -> N -> bool).
Hypothesis Hneq : forall a b, neq a b = is_eq (ncmp a b).
Hypothesis Hnlt : forall a b, nlt a b = is_lt (ncmp a b).
Context (U : dag N -> Prop).
Hypothesis Uarg : forall a f s l x, U (DFn a f s l) -> In x l -> U x.
Hypothesis Ufun : forall a f1 s1 l1 f2 s2 l2, U (DFn a f1 s1 l1) -> U (DFn a f2 s2 l2) -> f1 = f2 /\ s1 = s2 /\ l1 = l2.
Hypothesis Uvec : forall a1 f1 s l1 a2 f2 l2, U (DFn a1 f1 (Some s) l1) -> U (DFn a2 f2 (Some s) l2) -> l1 = l2.

Lemma str_eqb_is s t : String.eqb s t = is_eq (String.compare s t).
Proof.
  destruct (String.eqb_spec s t) as [->|H]; [now rewrite str_cmp_refl|].
  destruct (String.compare s t) eqn:E; [|reflexivity|reflexivity]. apply str_cmp_eq in E. contradiction.
Qed.
Lemma lcmp_refl {A} (c : A -> A -> comparison) : (forall x, c x x = Eq) -> forall l, lcmp c l l = Eq.
Proof. intros H. induction l as [|x l IH]; [reflexivity|]. cbn [lcmp]. now rewrite H. Qed.
Lemma same_args_inv s t : same_args s t = true -> exists i, s = Some i /\ t = Some i.
Proof. destruct s as [i|], t as [j|]; try discriminate. simpl. intros H. apply Nat.eqb_eq in H. subst. eauto. Qed.

Lemma dag_eq_ok a : forall b, U a -> U b -> dag_eq neq name a b = is_eq (tcmp (erase a) (erase b)).
Proof.
  induction a as [n|s|i|ad f s args IH] using dag_ind'; intros [m|t|j|ad' g s' l] Ua Ub; try reflexivity.
  - apply Hneq.
  - apply str_eqb_is.
  - cbn [dag_eq erase tcmp]. destruct (Nat.eqb_spec i j) as [->|H]; [now rewrite Nat.compare_refl|].
    destruct (Nat.compare_spec i j); [contradiction | reflexivity | reflexivity].
  - cbn [dag_eq erase]. rewrite tcmp_fun.
    destruct (Nat.eqb_spec ad ad') as [->|Had].
    { destruct (Ufun _ _ _ _ _ _ _ Ua Ub) as (<- & <- & <-). rewrite str_cmp_refl. simpl.
      now rewrite lcmp_refl by apply (t_refl _ tot_tcmp). }
    rewrite str_eqb_is. destruct (String.compare (name f) (name g)) eqn:E; simpl; [|reflexivity|reflexivity].
    destruct (same_args s s') eqn:Es.
    { apply same_args_inv in Es. destruct Es as (k & -> & ->).
      rewrite (Uvec _ _ _ _ _ _ _ Ua Ub). now rewrite lcmp_refl by apply (t_refl _ tot_tcmp). }
    assert (Ua' : Forall U args) by (apply Forall_forall; intros x Hx; exact (Uarg _ _ _ _ _ Ua Hx)).
    assert (Ub' : Forall U l) by (apply Forall_forall; intros x Hx; exact (Uarg _ _ _ _ _ Ub Hx)).
    clear - HN Hneq IH Ua' Ub'. revert l Ub'. induction IH as [|x r Hx Hr IHr]; intros [|y l] Ub'; try reflexivity.
    inversion Ua'; subst. inversion Ub'; subst. cbn [map lcmp]. rewrite (Hx y) by assumption.
    destruct (tcmp (erase x) (erase y)); simpl; [|reflexivity|reflexivity]. now apply IHr.
Qed.

Lemma lexcmp_ok lt : forall l l', (forall x y, In x l -> In y l' ->
    lt x y = is_lt (tcmp (erase x) (erase y)) /\ lt y x = is_lt (tcmp (erase y) (erase x))) ->
  lexcmp lt l l' = is_lt (lcmp tcmp (map erase l) (map erase l')).
Proof.
  induction l as [|x l IH]; intros [|y l'] H; try reflexivity.
  cbn [lexcmp map lcmp]. destruct (H x y (or_introl eq_refl) (or_introl eq_refl)) as (-> & ->).
  rewrite (tcmp_sym (erase x) (erase y)). destruct (tcmp (erase x) (erase y)); simpl; [|reflexivity|reflexivity].
  apply IH. intros. apply H; now right.
Qed.
Lemma dag_lt_go_ok fuel : forall a b, U a -> U b -> dsize a + dsize b <= fuel ->
  dag_lt_go nlt name fuel a b = is_lt (tcmp (erase a) (erase b)).
Proof.
  induction fuel as [|fuel IH]; intros a b Ua Ub Hf.
  { destruct a; simpl in Hf; lia. }
  destruct a as [n|s|i|ad f s args], b as [m|t|j|ad' g s' l]; try reflexivity.
  - apply Hnlt.
  - cbn [dag_lt_go erase tcmp]. destruct (Nat.compare_spec i j) as [->|H|H]; simpl.
    + apply Nat.ltb_irrefl.
    + now apply Nat.ltb_lt.
    + apply Nat.ltb_ge. lia.
  - cbn [dag_lt_go erase]. rewrite tcmp_fun.
    destruct (Nat.eqb_spec ad ad') as [->|Had].
    { destruct (Ufun _ _ _ _ _ _ _ Ua Ub) as (<- & <- & <-). rewrite str_cmp_refl. simpl.
      now rewrite lcmp_refl by apply (t_refl _ tot_tcmp). }
    unfold String.ltb. rewrite (str_cmp_sym (name f) (name g)).
    destruct (String.compare (name f) (name g)) eqn:E; simpl; [|reflexivity|reflexivity].
    destruct (same_args s s') eqn:Es.
    { apply same_args_inv in Es. destruct Es as (k & -> & ->).
      rewrite (Uvec _ _ _ _ _ _ _ Ua Ub). now rewrite lcmp_refl by apply (t_refl _ tot_tcmp). }
    rewrite lexcmp_ok; [now destruct (lcmp _ _ _)|].
    intros x y Hx Hy. rewrite !dsize_fn in Hf.
    pose proof (asize_in _ _ Hx). pose proof (asize_in _ _ Hy).
    assert (U x) by (exact (Uarg _ _ _ _ _ Ua Hx)). assert (U y) by (exact (Uarg _ _ _ _ _ Ub Hy)).
    split; apply IH; auto; lia.
Qed.
Lemma dag_lt_ok a b : U a -> U b -> dag_lt nlt name a b = is_lt (tcmp (erase a) (erase b)).
Proof. intros. apply dag_lt_go_ok; auto. Qed.
End Trees.
