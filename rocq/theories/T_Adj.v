(* C07: derivative tensors, by forward and by reverse accumulation. *)
From Coquelicot Require Import Coquelicot.
From Coq Require Import String Bool ZArith NArith QArith Qreals Reals List Lra Lia Arith Sorted.
From Verif Require Import M_Expr M_Dag M_Dec M_Taylor S_Expr S_Dag S_Dec P_Subs S_Diff P_Deriv M_Dtens S_Dtens P_Dtens M_Adj S_Adj P_Adj1 P_Adj2 P_Adj9 P_Adj10 P_Adj11 P_Adj12.
From Verif Require Import X_Expr X_Dec T_Diff T_Dec T_Dtens.
Import ListNotations.
Local Open Scope nat_scope.
Set Bullet Behavior "Strict Subproofs".

Section Args.
Context {o : nops} (neq : num o -> num o -> bool) (feq : fid (num o) -> fid (num o) -> bool).
Local Notation ex := (expr (num o)).
Definition dt_args (es : list ex) (da : diff_args o) : option (list ex) :=
  match da with
  | DAll => Some (map EVar (get_variables o es) ++ map EPar (get_params o es))
  | DVars => Some (map EVar (get_variables o es))
  | DParams => Some (map EPar (get_params o es))
  | DInvalid => None
  | DList l => Some l
  end.
Lemma sorted_unique {A} (ltb : A -> A -> Prop) : (forall x, ~ ltb x x) -> (forall x y z, ltb x y -> ltb y z -> ltb x z) ->
  forall l l', StronglySorted ltb l -> StronglySorted ltb l' -> (forall x, In x l <-> In x l') -> l = l'.
Proof.
  intros Hi Ht. induction l as [|x l IH]; intros [|y l'] H H' HE; auto.
  - exfalso. apply (HE y). now left.
  - exfalso. apply (HE x). now left.
  - inversion H as [|? ? Hs Hf]; inversion H' as [|? ? Hs' Hf']; subst. rewrite Forall_forall in Hf, Hf'.
    assert (E : x = y).
    { destruct (proj1 (HE x) (or_introl eq_refl)) as [E|E]; [now symmetry|]. destruct (proj2 (HE y) (or_introl eq_refl)) as [E2|E2]; [assumption|].
      exfalso. apply (Hi x). eapply Ht; [apply Hf; exact E2 | apply Hf'; exact E]. }
    subst y. f_equal. apply IH; auto. intros z. split; intros Hz.
    + destruct (proj1 (HE z) (or_intror Hz)) as [<-|E]; [|exact E]. exfalso. apply (Hi x). now apply Hf.
    + destruct (proj2 (HE z) (or_intror Hz)) as [<-|E]; [|exact E]. exfalso. apply (Hi x). now apply Hf'.
Qed.
Lemma get_vars_all (es : list ex) : all_vars o es (get_variables o es).
Proof. destruct (get_variables_ok es) as (A & B & _). split; assumption. Qed.
Lemma get_pars_all (es : list ex) : all_pars o es (get_params o es).
Proof.
  destruct (get_params_ok es) as (A & B & _). split; [|exact A].
  revert B. generalize (get_params o es). clear. induction l as [|x l IH]; intros H; constructor; inversion H as [|? ? Hs Hf]; subst; [now apply IH|].
  eapply Forall_impl; [|exact Hf]. intros y Hy. now apply Nat.ltb_lt.
Qed.
Lemma all_vars_unique (es : list ex) vs : all_vars o es vs -> vs = get_variables o es.
Proof.
  intros [H1 H2]. destruct (get_vars_all es) as [G1 G2]. eapply sorted_unique; eauto.
  - intros x. cbv beta. rewrite P_Str.str_ltb_irrefl. discriminate.
  - intros x y z. apply P_Str.str_ltb_trans.
  - intros x. rewrite H2, G2. reflexivity.
Qed.
Lemma all_pars_unique (es : list ex) ps : all_pars o es ps -> ps = get_params o es.
Proof.
  intros [H1 H2]. destruct (get_pars_all es) as [G1 G2]. eapply (sorted_unique lt); eauto; intros; try lia. rewrite H2, G2. reflexivity.
Qed.
Lemma dt_args_ok (es : list ex) da args : dt_args es da = Some args <-> requested o es da args.
Proof.
  destruct da; cbn; split.
  - intros [= <-]. exists (get_variables o es), (get_params o es). split; [apply get_vars_all | split; [apply get_pars_all | reflexivity]].
  - intros (vs & ps & H1 & H2 & ->). now rewrite (all_vars_unique _ _ H1), (all_pars_unique _ _ H2).
  - intros [= <-]. exists (get_variables o es). split; [apply get_vars_all | reflexivity].
  - intros (vs & H1 & ->). now rewrite (all_vars_unique _ _ H1).
  - intros [= <-]. exists (get_params o es). split; [apply get_pars_all | reflexivity].
  - intros (ps & H1 & ->). now rewrite (all_pars_unique _ _ H1).
  - discriminate.
  - intros [].
  - intros [= <-]. reflexivity.
  - intros ->. reflexivity.
Qed.
Lemma leaf_eqb (a b : ex) : var_or_par o a = true -> ex_eqb o neq feq a b = true <-> a = b.
Proof.
  destruct a as [|s|i|]; try discriminate; intros _; destruct b; cbn; split; try discriminate; intros H.
  - apply String.eqb_eq in H. now subst.
  - injection H as ->. apply String.eqb_refl.
  - apply Nat.eqb_eq in H. now subst.
  - injection H as ->. apply Nat.eqb_refl.
Qed.
Lemma ex_nodup_ok (l : list ex) : forallb (var_or_par o) l = true -> ex_nodup o neq feq l = true <-> NoDup l.
Proof.
  induction l as [|a l IH]; cbn [forallb ex_nodup]; intros H.
  - split; [constructor | reflexivity].
  - apply andb_true_iff in H. destruct H as [H1 H2]. rewrite andb_true_iff, IH by exact H2. rewrite negb_true_iff, <- not_true_iff_false, existsb_exists. split.
    + intros [A B]. constructor; [|exact B]. intros Hin. apply A. exists a. split; [exact Hin|]. now apply leaf_eqb.
    + intros HN. inversion HN as [|? ? A B]; subst. split; [|exact B]. intros (x & Hx & E). apply leaf_eqb in E; [|exact H1]. now subst.
Qed.
Lemma var_or_par_ok (l : list ex) : forallb (var_or_par o) l = true <-> forall a, In a l -> exists d, a = dex d.
Proof.
  rewrite forallb_forall. split; intros H a Ha; specialize (H a Ha).
  - destruct a as [|s|i|]; try discriminate; [exists (DVar s) | exists (DPar i)]; reflexivity.
  - destruct H as (d & ->). destruct d; reflexivity.
Qed.
Context (ug : string -> list ex -> option (list ex)) (share : list ex -> list (dag (num o))) (mode : nat -> nat -> bool).
Lemma dt_cases fuel es da order :
  (exists args, valid_request o es da /\ requested o es da args /\ es <> [] /\ args <> [] /\
     diff_tensors o neq feq ug share mode fuel es da order =
     mbind (diff_tensors_impl o neq feq ug share mode fuel es args order) (fun m => MDone ({| dt_map := m; dt_nargs := N.of_nat (length args) |}, args))) \/
  (~ valid_request o es da /\ diff_tensors o neq feq ug share mode fuel es da order = MThrow).
Proof.
  assert (N1 : forall args args', requested o es da args -> requested o es da args' -> args = args').
  { intros args args' H H'. apply dt_args_ok in H, H'. congruence. }
  unfold diff_tensors. fold (dt_args es da). destruct es as [|e0 es0] eqn:Ees; [right; split; [intros [[] _]; reflexivity | reflexivity]|]. rewrite <- Ees in *.
  assert (Hne : es <> []) by (rewrite Ees; discriminate). clear Ees e0 es0.
  destruct (dt_args es da) as [args|] eqn:E.
  - apply dt_args_ok in E. destruct args as [|a0 args0] eqn:Ea.
    + right. split; [|reflexivity]. intros (_ & args' & R & Hn & _). apply Hn. now rewrite (N1 _ _ R E).
    + rewrite <- Ea in *. assert (Hna : args <> []) by (rewrite Ea; discriminate). clear Ea a0 args0. destruct (forallb (var_or_par o) args) eqn:Ev; cbn [negb].
      * destruct (ex_nodup o neq feq args) eqn:End; cbn [negb].
        -- left. exists args. split; [|auto]. split; [exact Hne|]. exists args. split; [exact E|]. split; [exact Hna|]. split; [now apply ex_nodup_ok | now apply var_or_par_ok].
        -- right. split; [|reflexivity]. intros (_ & args' & R & _ & Hn & _). rewrite (N1 _ _ R E) in Hn. apply ex_nodup_ok in Hn; [congruence | exact Ev].
      * right. split; [|reflexivity]. intros (_ & args' & R & _ & _ & Hn). rewrite (N1 _ _ R E) in Hn. apply var_or_par_ok in Hn. congruence.
  - right. split; [|reflexivity]. intros (_ & args' & R & _). apply dt_args_ok in R. congruence.
Qed.
End Args.

Lemma hasd_unique G t0 v v' : hasd G t0 v -> hasd G t0 v' -> v = v'.
Proof.
  intros (g & N1 & D1) (g' & N2 & D2). assert (HL : locally t0 (fun t => g t = g' t)).
  { generalize (filter_and _ _ N1 N2). apply filter_imp. intros t [E1 E2]. congruence. }
  apply is_derive_unique in D2. rewrite <- D2. symmetry. apply is_derive_unique. apply (is_derive_ext_loc g g'); assumption.
Qed.

Section Tensors.
Context {o : nops} {nval : num o -> R} (L : nlaws o nval).
Local Notation ex := (expr (num o)).
(* == on numbers and functions, the gradients of the user-defined functions, the
   sharing of nodes, and the choice of the mode. *)
Context (neq : num o -> num o -> bool) (feq : fid (num o) -> fid (num o) -> bool)
  (ug : string -> list ex -> option (list ex)) (share : list ex -> list (dag (num o))).
Hypothesis Hneq : forall x y, neq x y = true -> nval x = nval y.
Hypothesis Hfeq : forall f g, feq f g = true -> f = g.
Hypothesis Hun : user_gradients_uniform o ug.
Hypothesis Hsh : forall l, map erase (share l) = l /\ consistent (share l).

(* Whatever the mode, what diff_tensors() returns is a tensor of derivatives with
   respect to what was asked for. *)
Theorem diff_tensors_correct mode fuel es da order dt args : (N.of_nat order <= u32_max)%N ->
  diff_tensors o neq feq ug share mode fuel es da order = MDone (dt, args) ->
  requested o es da args /\ dt_nargs dt = N.of_nat (length args) /\
  derivative_tensor o nval ug es args (N.of_nat order) (dt_map dt).
Proof.
  intros Hu H. destruct (dt_cases neq feq ug share mode fuel es da order) as [(args' & _ & R & He & Ha & E)|[_ E]]; rewrite E in H; [|discriminate].
  apply mbind_done in H. destruct H as (m & Hm & H). injection H as <- <-. split; [exact R|]. split; [reflexivity|]. cbn [dt_map].
  destruct (impl_ok L neq feq ug share mode Hneq Hfeq Hun Hsh fuel es args' order m He Ha Hu Hm) as (A1 & A2 & A3). split; [exact A1|]. split; [exact A3 | exact A2].
Qed.
(* In particular the first order derivatives are those of the outputs, whatever the
   mode, and they are the ones found by the lookup. *)
Theorem diff_tensors_first_order mode fuel es da order dt args c e j a : (1 <= order)%nat -> (N.of_nat order <= u32_max)%N ->
  diff_tensors o neq feq ug share mode fuel es da order = MDone (dt, args) ->
  nth_error es c = Some e -> nth_error args j = Some a ->
  exists e', op_index_sparse dt (N.of_nat c, [(N.of_nat j, 1%N)]) = Some e' /\ derivative_of o nval ug e a e'.
Proof.
  intros Ho Hu H He Hj. destruct (diff_tensors_correct mode fuel es da order dt args Hu H) as (_ & Hna & Hc & H0 & Hs).
  assert (Hk : In (N.of_nat c, [(N.of_nat j, 1%N)]) (map fst (dt_map dt))).
  { apply (proj2 Hc). assert (c < length es) by (apply nth_error_Some; congruence). assert (j < length args) by (apply nth_error_Some; congruence).
    unfold in_tensor. cbn [fst snd]. split; [split; cbn [snd]; repeat constructor; cbn; lia|]. split; [lia|]. split; [repeat constructor; cbn; lia|]. cbn [total]. lia. }
  apply in_map_iff in Hk. destruct Hk as ([k e'] & Ek & Hin). cbn [fst] in Ek. subst k. exists e'. split.
  - destruct dt as [m na]. cbn [dt_map dt_nargs] in *. subst na. apply (dtens_lookup_sparse _ _ _ m _ Hu Hc e'). exact Hin.
  - destruct (Hs _ _ _ Hin ltac:(discriminate)) as (j' & a' & idx & e0 & O & A & I0 & D).
    assert (Ej : j' = j). { pose proof (O (N.of_nat j')) as K. cbn [ord_of] in K. rewrite N.eqb_refl in K. destruct (N.eqb_spec (N.of_nat j) (N.of_nat j')); lia. }
    subst j'. assert (a' = a) by congruence. subst a'.
    assert (Ei : idx = []).
    { destruct idx as [|[i n] l]; [reflexivity|]. exfalso. assert (Hi : In (N.of_nat c, (i, n) :: l) (map fst (dt_map dt))) by (apply in_map_iff; eexists; split; [|exact I0]; reflexivity).
      apply (proj2 Hc) in Hi. destruct Hi as ([_ Hp] & _). cbn [snd] in Hp. inversion Hp as [|? ? Hp1 _]; subst. cbn [snd] in Hp1.
      pose proof (O i) as K. cbn [ord_of] in K. rewrite N.eqb_refl in K. rewrite (N.eqb_sym (N.of_nat j) i) in K. destruct (N.eqb i (N.of_nat j)); lia. }
    subst idx. apply H0 in I0. rewrite Nat2N.id in I0. assert (e0 = e) by congruence. now subst e0.
Qed.
(* The mode cannot be observed: the arguments and the entries are the same, and the
   first derivatives have the same values wherever the parts of the output are
   differentiable. *)
Theorem diff_tensors_modes_agree mode mode' fuel fuel' es da order dt args dt' args' : (N.of_nat order <= u32_max)%N ->
  diff_tensors o neq feq ug share mode fuel es da order = MDone (dt, args) ->
  diff_tensors o neq feq ug share mode' fuel' es da order = MDone (dt', args') ->
  args = args' /\ map fst (dt_map dt) = map fst (dt_map dt') /\
  forall c e j d e1 e2 rho t0, nth_error es c = Some e -> nth_error args j = Some (dex d) ->
    op_index_sparse dt (N.of_nat c, [(N.of_nat j, 1%N)]) = Some e1 -> op_index_sparse dt' (N.of_nat c, [(N.of_nat j, 1%N)]) = Some e2 ->
    dval d rho = Some t0 -> user_gradients_correct o nval ug rho -> smooth o nval ug d rho t0 e ->
    exists v, eval o nval rho e1 = Some v /\ eval o nval rho e2 = Some v.
Proof.
  intros Hu H H'. destruct (diff_tensors_correct mode fuel es da order dt args Hu H) as (R & Hna & Hc & H0 & Hs).
  destruct (diff_tensors_correct mode' fuel' es da order dt' args' Hu H') as (R' & Hna' & Hc' & H0' & Hs').
  assert (E : args = args') by (apply dt_args_ok in R, R'; congruence). subst args'. split; [reflexivity|]. split.
  { apply (sorted_unique before); [apply before_irrefl | apply before_trans | apply Hc | apply Hc'|]. intros x. rewrite (proj2 Hc), (proj2 Hc'). reflexivity. }
  intros c e j d e1 e2 rho t0 He Hj L1 L2 Ht HU Hsm.
  assert (Ho : (1 <= order)%nat).
  { destruct order; [|lia]. exfalso. destruct dt as [m na]. cbn [dt_map dt_nargs] in *. subst na.
    apply (dtens_lookup_sparse _ _ _ m _ Hu Hc e1) in L1. apply (in_map fst) in L1. apply (proj2 Hc) in L1. destruct L1 as (_ & _ & _ & K). cbn in K. lia. }
  destruct (diff_tensors_first_order mode fuel es da order dt args c e j (dex d) Ho Hu H He Hj) as (x1 & X1 & D1).
  destruct (diff_tensors_first_order mode' fuel' es da order dt' args c e j (dex d) Ho Hu H' He Hj) as (x2 & X2 & D2).
  assert (x1 = e1) by congruence. assert (x2 = e2) by congruence. subst x1 x2.
  destruct (D1 rho t0 d eq_refl Ht HU Hsm) as (v1 & V1 & G1 & N1 & P1). destruct (D2 rho t0 d eq_refl Ht HU Hsm) as (v2 & V2 & G2 & N2 & P2).
  exists v1. split; [exact V1|]. rewrite V2. f_equal.
  pose proof (proj2 (hasd_has _ _ _) (ex_intro _ G1 (conj N1 P1))) as Q1. pose proof (proj2 (hasd_has _ _ _) (ex_intro _ G2 (conj N2 P2))) as Q2.
  symmetry. exact (hasd_unique _ _ _ _ Q1 Q2).
Qed.
(* diff_tensors() succeeds on all valid requests about functions with a gradient... *)
Theorem diff_tensors_total mode es da order : (N.of_nat order <= u32_max)%N ->
  valid_request o es da -> gradients_differentiable o ug -> Forall (differentiable o ug) es ->
  exists fuel0 r, forall fuel, (fuel0 <= fuel)%nat -> diff_tensors o neq feq ug share mode fuel es da order = MDone r.
Proof.
  intros Hu HV Hg Hd. destruct HV as (Hne & args & R & Ha & Hrest).
  destruct (impl_total L neq feq ug share mode Hneq Hfeq Hun Hsh Hg es args order Hne Ha Hu Hd) as (f0 & m & E). exists f0. eexists. intros fuel Hf.
  destruct (dt_cases neq feq ug share mode fuel es da order) as [(args' & _ & R' & _ & _ & E')|[NV _]].
  - assert (args' = args) by (apply dt_args_ok in R, R'; congruence). subst args'. rewrite E', E by exact Hf. cbn [mbind]. reflexivity.
  - exfalso. apply NV. split; [exact Hne|]. exists args. auto.
Qed.
(* ... and throws on the invalid ones: no expressions, an invalid enumerator, no
   arguments, repeated arguments, arguments other than variables and parameters. *)
Theorem diff_tensors_rejects mode fuel es da order :
  ~ valid_request o es da -> diff_tensors o neq feq ug share mode fuel es da order = MThrow.
Proof. intros NV. destruct (dt_cases neq feq ug share mode fuel es da order) as [(args & V & _)|[_ E]]; [contradiction | exact E]. Qed.
End Tensors.

(* --- Examples ---------------------------------------------------------------------------- *)
(* Two outputs, two variables and a parameter, on the rationals. *)
Definition noug_q : string -> list (expr Q) -> option (list (expr Q)) := fun _ _ => None.
Definition adj_es : list (expr Q) :=
  [EFun Fsum [EFun Fprod [xq; yq; xq]; EFun (Fu Usin) [EFun Fprod [xq; yq]]]; EFun Fprod [EPar 0; yq]].
Definition fwd_mode (_ _ : nat) : bool := true.
Definition rev_mode (_ _ : nat) : bool := false.
Local Notation qdt mode order := (diff_tensors qnum (num_eqb q_dec) (fid_eqb q_dec) noug_q unshared mode 1000 adj_es (DAll qnum) order).
Example adj_request : valid_request qnum adj_es (DAll qnum) /\ requested qnum adj_es (DAll qnum) [xq; yq; EPar 0].
Proof.
  assert (R : requested qnum adj_es (DAll qnum) [xq; yq; EPar 0]) by (apply dt_args_ok; vm_compute; reflexivity).
  split; [|exact R]. split; [discriminate|]. exists [xq; yq; EPar 0]. split; [exact R|]. split; [discriminate|]. split.
  - repeat constructor; cbn; intuition discriminate.
  - intros a [<-|[<-|[<-|[]]]]; [exists (DVar "x"%string) | exists (DVar "y"%string) | exists (DPar 0)]; reflexivity.
Qed.
(* The same keys from the two modes, and the derivatives of the second output. *)
Example adj_demo : exists f r, qdt fwd_mode 2 = MDone (f, [xq; yq; EPar 0]) /\ qdt rev_mode 2 = MDone (r, [xq; yq; EPar 0]) /\
  map fst (dt_map f) = map fst (dt_map r) /\ length (dt_map f) = 20%nat /\
  op_index_sparse f (1%N, [(1%N, 1%N)]) = Some (EPar 0) /\ op_index_sparse r (1%N, [(1%N, 1%N)]) = Some (EPar 0) /\
  op_index_sparse f (1%N, [(2%N, 1%N)]) = Some yq /\ op_index_sparse r (1%N, [(2%N, 1%N)]) = Some yq /\
  op_index_sparse f (1%N, [(1%N, 1%N); (2%N, 1%N)]) = Some (ENum 1%Q) /\ op_index_sparse r (1%N, [(1%N, 1%N); (2%N, 1%N)]) = Some (ENum 1%Q).
Proof. do 2 eexists. split; [vm_compute; reflexivity|]. split; [vm_compute; reflexivity|]. vm_compute. repeat split. Qed.
(* The two modes return different expressions for the derivative of the first output
   with respect to x. *)
Example adj_modes_differ : exists f r e1 e2, qdt fwd_mode 1 = MDone (f, [xq; yq; EPar 0]) /\ qdt rev_mode 1 = MDone (r, [xq; yq; EPar 0]) /\
  op_index_sparse f (0%N, [(0%N, 1%N)]) = Some e1 /\ op_index_sparse r (0%N, [(0%N, 1%N)]) = Some e2 /\ e1 <> e2.
Proof. do 4 eexists. split; [vm_compute; reflexivity|]. split; [vm_compute; reflexivity|]. split; [vm_compute; reflexivity|]. split; [vm_compute; reflexivity|]. discriminate. Qed.
Example adj_rejects : qdt fwd_mode 1 <> MThrow /\
  diff_tensors qnum (num_eqb q_dec) (fid_eqb q_dec) noug_q unshared code_mode 1000 adj_es (DList qnum [xq; xq]) 1 = MThrow /\
  diff_tensors qnum (num_eqb q_dec) (fid_eqb q_dec) noug_q unshared code_mode 1000 adj_es (DList qnum [ENum 1%Q]) 1 = MThrow /\
  diff_tensors qnum (num_eqb q_dec) (fid_eqb q_dec) noug_q unshared code_mode 1000 adj_es (DList qnum []) 1 = MThrow /\
  diff_tensors qnum (num_eqb q_dec) (fid_eqb q_dec) noug_q unshared code_mode 1000 adj_es (DInvalid qnum) 1 = MThrow /\
  diff_tensors qnum (num_eqb q_dec) (fid_eqb q_dec) noug_q unshared code_mode 1000 [] (DVars qnum) 1 = MThrow.
Proof. split; [vm_compute; discriminate|]. repeat split. Qed.
(* On the real numbers, where all the hypotheses of the theorems hold: the expression
   of the examples of C06 has a tensor, whose first entry of order 1 has the value of the
   derivative. *)
Lemma r_hyps : (forall x y : R, num_eqb Req_EM_T x y = true -> x = y) /\ (forall f g : fid R, fid_eqb Req_EM_T f g = true -> f = g) /\
  user_gradients_uniform rnum noug /\ gradients_differentiable rnum noug.
Proof.
  split; [intros x y; unfold num_eqb; destruct (Req_EM_T x y); [auto | discriminate]|]. split.
  - intros f g. unfold fid_eqb. destruct (fid_dec Req_EM_T f g); [auto | discriminate].
  - split; [intros s args args' _ H; exfalso; now apply H | intros s args g H; discriminate].
Qed.
Example adj_holds : exists fuel dt args e' v,
  diff_tensors rnum (num_eqb Req_EM_T) (fid_eqb Req_EM_T) noug unshared code_mode fuel [dx1] (DList rnum [EVar "x"%string; EPar 0]) 3 = MDone (dt, args) /\
  op_index_sparse dt (0%N, [(0%N, 1%N)]) = Some e' /\ eval rnum (fun x => x) xenv e' = Some v /\
  has_derivative (fun t => eval rnum (fun x => x) (upd (DVar "x"%string) t xenv) dx1) 3 v.
Proof.
  destruct r_hyps as (H1 & H2 & H3 & H4).
  assert (HV : valid_request rnum [dx1] (DList rnum [EVar "x"%string; EPar 0])).
  { split; [discriminate|]. exists [EVar "x"%string; EPar 0]. split; [reflexivity|]. split; [discriminate|]. split; [repeat constructor; cbn; intuition discriminate|].
    intros a [<-|[<-|[]]]; [exists (DVar "x"%string) | exists (DPar 0)]; reflexivity. }
  assert (HDf : Forall (differentiable rnum noug) [dx1]).
  { constructor; [|constructor]. repeat (apply df_fun; split; [intros [|? [|? [|? [|? ?]]]] E; try discriminate E; discriminate|]; repeat (apply Forall_cons || apply Forall_nil)); apply df_leaf; exact I. }
  destruct (diff_tensors_total rnum_laws (num_eqb Req_EM_T) (fid_eqb Req_EM_T) noug unshared H1 H2 H3 unshared_ok code_mode [dx1] _ 3 ltac:(vm_compute; discriminate) HV H4 HDf) as (f0 & [dt args] & E).
  specialize (E f0 (le_n _)).
  destruct (diff_tensors_correct rnum_laws (num_eqb Req_EM_T) (fid_eqb Req_EM_T) noug unshared H1 H2 H3 unshared_ok code_mode f0 _ _ 3 dt args ltac:(vm_compute; discriminate) E) as (R & _). cbn in R. subst args.
  destruct (diff_tensors_first_order rnum_laws (num_eqb Req_EM_T) (fid_eqb Req_EM_T) noug unshared H1 H2 H3 unshared_ok code_mode f0 _ _ 3 dt _ 0 dx1 0 (EVar "x"%string) ltac:(lia) ltac:(vm_compute; discriminate) E eq_refl eq_refl) as (e' & Le & D).
  destruct (D xenv 3%R (DVar "x"%string) eq_refl eq_refl) as (v & V & HD).
  - intros vv s args vs gs g H. discriminate.
  - exact ex_diff_smooth.
  - exists f0, dt, [EVar "x"%string; EPar 0], e', v. auto.
Qed.

Print Assumptions diff_tensors_correct.
Print Assumptions diff_tensors_first_order.
Print Assumptions diff_tensors_modes_agree.
Print Assumptions diff_tensors_total.
Print Assumptions diff_tensors_rejects.
