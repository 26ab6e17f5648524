(* C07, tensors at regular points: mixed derivatives, and the agreement of the modes at
   all orders. *)
From Coquelicot Require Import Coquelicot.
From Coq Require Import String Bool ZArith NArith Reals List Lra Lia Permutation.
From Verif Require Import M_Expr S_Expr X_Expr X_Dec S_Dag S_Dec P_ExprSem P_Build P_Subs S_Diff P_Deriv P_Diff T_Diff S_Dtens M_Dtens T_Dtens M_Dag S_Adj P_Adj1 P_Adj2 P_Adj9 P_Adj10 P_Adj11 P_Adj12 T_Adj S_Reg P_Reg1 P_Reg2 P_Reg3 P_Reg4 P_Reg5 P_Reg6 M_Taylor M_Adj.
Import ListNotations.
Local Open Scope R_scope.
Set Bullet Behavior "Strict Subproofs".

Section Tensors.
Context {o : nops} {nval : num o -> R} (L : nlaws o nval).
Local Notation ex := (expr (num o)).
Context (neq : num o -> num o -> bool) (feq : fid (num o) -> fid (num o) -> bool)
  (ug : string -> list ex -> option (list ex)) (share : list ex -> list (dag (num o))).
Hypothesis Hneq : forall x y, neq x y = true -> nval x = nval y.
Hypothesis Hfeq : forall f g, feq f g = true -> f = g.
Hypothesis Hun : user_gradients_uniform o ug.
Hypothesis Hsh : forall l, map erase (share l) = l /\ consistent (share l).

Lemma dts_setup mode fuel es da order dt args : (N.of_nat order <= u32_max)%N ->
  diff_tensors o neq feq ug share mode fuel es da order = MDone (dt, args) ->
  exists ds, args = map dex ds /\ NoDup ds /\ derivative_tensor o nval ug es (map dex ds) (N.of_nat order) (dt_map dt) /\
    (forall rho, Forall (regular o nval rho) es -> forall p, In p (dt_map dt) -> regular o nval rho (snd p)) /\
    (forall k e, op_index_sparse dt k = Some e <-> In (k, e) (dt_map dt)).
Proof.
  intros Hu H. destruct (diff_tensors_correct L neq feq ug share Hneq Hfeq Hun Hsh mode fuel es da order dt args Hu H) as (R & Hna & HT).
  destruct (dt_cases neq feq ug share mode fuel es da order) as [(args' & V & R' & He & Ha & E)|[_ E]]; rewrite E in H; [|discriminate].
  apply mbind_done in H. destruct H as (m & Hm & H). injection H as <- <-.
  destruct V as (_ & a2 & R2 & _ & HN & HD). assert (a2 = args') by (apply dt_args_ok in R2, R'; congruence). subst a2.
  assert (Hds : exists ds, args' = map dex ds).
  { clear - HD. induction args' as [|a l IH]; [now exists []|]. destruct (HD a (or_introl eq_refl)) as [d ->]. destruct IH as [ds ->]; [intros x Hx; apply HD; now right|]. now exists (d :: ds). }
  destruct Hds as [ds ->]. exists ds. split; [reflexivity|]. split; [now apply NoDup_map_inv in HN|]. split; [exact HT|]. split.
  - intros rho Hr. cbn [dt_map]. exact (impl_reg L neq feq ug share mode Hneq Hfeq Hsh rho fuel es (map dex ds) order m Hr Hm).
  - intros k e. cbn [dt_map dt_nargs] in *. subst. exact (dtens_lookup_sparse _ _ _ m _ Hu (proj1 HT) e).
Qed.
Lemma pt_of es ds rho : Forall (regular o nval rho) es -> (forall a, In a (map dex ds) -> eval o nval rho a <> None) -> pt (o := o) (nval := nval) es ds (nouser rho).
Proof.
  intros Hr Ha. split; [|split; [|reflexivity]].
  - apply Forall_forall. intros e He. rewrite Forall_forall in Hr. now apply reg_nouser, Hr.
  - intros d Hd. specialize (Ha (dex d) (in_map dex _ _ Hd)). destruct d; exact Ha.
Qed.
Lemma key_c (es args : list ex) order (m : list ((N * list (N * N)) * ex)) c idx e : complete_tensor (N.of_nat (length es)) (N.of_nat (length args)) order m -> In ((c, idx), e) m -> exists e0, nth_error es (N.to_nat c) = Some e0.
Proof.
  intros HC Hin. apply (in_map fst) in Hin. apply (proj2 HC) in Hin. destruct Hin as (_ & Hc & _). cbn [fst] in Hc. destruct (nth_error es (N.to_nat c)) as [e0|] eqn:E; [now exists e0|]. apply nth_error_None in E. lia.
Qed.

(* At a regular point all the entries of the tensor have a value, and an entry is the
   derivative of any other which has one derivative less, whatever the argument: the
   derivatives can be taken in any order. *)
Theorem diff_tensors_mixed mode fuel es da order dt args rho : (N.of_nat order <= u32_max)%N ->
  diff_tensors o neq feq ug share mode fuel es da order = MDone (dt, args) ->
  Forall (regular o nval rho) es -> (forall a, In a args -> eval o nval rho a <> None) ->
  (forall k e, op_index_sparse dt k = Some e -> regular o nval rho e /\ eval o nval rho e <> None) /\
  forall c idx idx' j d e e' t0,
    op_index_sparse dt (c, idx) = Some e -> op_index_sparse dt (c, idx') = Some e' ->
    one_more idx idx' j -> nth_error args j = Some (dex d) -> dval d rho = Some t0 ->
    exists v, eval o nval rho e' = Some v /\ has_derivative (fun t => eval o nval (upd d t rho) e) t0 v.
Proof.
  intros Hu H Hr Ha. destruct (dts_setup mode fuel es da order dt args Hu H) as (ds & -> & HN & HT & HR & HL). split.
  - intros k e Hk. apply HL in Hk. pose proof (HR rho Hr _ Hk) as Re. cbn [snd] in Re. split; [exact Re|]. destruct (reg_value rho e Re) as (v & ->). discriminate.
  - intros c idx idx' j d e e' t0 K K' HO Hj Hd. apply HL in K, K'. destruct (key_c es _ _ _ c idx e (proj1 HT) K) as (e0 & He0). rewrite <- (N2Nat.id c) in K, K'.
    rewrite nth_error_map in Hj. destruct (nth_error ds j) as [d'|] eqn:Hj'; [|discriminate]. assert (d' = d) by (destruct d, d'; cbn in Hj; congruence). subst d'.
    pose proof (pt_of es ds rho Hr Ha) as HP. assert (Hd' : dval d (nouser rho) = Some t0) by (destruct d; exact Hd).
    destruct (entry_der L ug es ds HN (N.to_nat c) e0 He0 (N.of_nat order) (dt_map dt) HT HR idx idx' e e' j d (nouser rho) t0 K K' HO Hj' HP Hd') as (v & V & D).
    pose proof (HR rho Hr _ K) as Re. pose proof (HR rho Hr _ K') as Re'. cbn [snd] in Re, Re'. exists v. split; [rewrite <- V; symmetry; now apply reg_nouser|]. apply hasd_has.
    revert D. apply hasd_ext. generalize (reg_open rho d t0 e Hd Re). apply filter_imp. intros t Rt. rewrite <- (proj2 (reg_nouser _ _ Rt)). destruct d; reflexivity.
Qed.
(* At a regular point the derivatives of all orders have the same values in the two
   modes. *)
Theorem diff_tensors_modes_agree_all mode mode' fuel fuel' es da order dt args dt' args' rho : (N.of_nat order <= u32_max)%N ->
  diff_tensors o neq feq ug share mode fuel es da order = MDone (dt, args) ->
  diff_tensors o neq feq ug share mode' fuel' es da order = MDone (dt', args') ->
  Forall (regular o nval rho) es -> (forall a, In a args -> eval o nval rho a <> None) ->
  forall k e e', op_index_sparse dt k = Some e -> op_index_sparse dt' k = Some e' ->
  exists v, eval o nval rho e = Some v /\ eval o nval rho e' = Some v.
Proof.
  intros Hu H H' Hr Ha [c idx] e e' K K'. destruct (diff_tensors_modes_agree L neq feq ug share Hneq Hfeq Hun Hsh _ _ _ _ _ _ _ _ _ _ _ Hu H H') as (<- & _).
  destruct (dts_setup mode fuel es da order dt args Hu H) as (ds & -> & HN & HT & HR & HL). destruct (dts_setup mode' fuel' es da order dt' _ Hu H') as (ds' & Ed & _ & HT' & HR' & HL').
  rewrite <- Ed in HT'. clear Ed ds'. apply HL in K. apply HL' in K'. destruct (key_c es _ _ _ c idx e (proj1 HT) K) as (e0 & He0). rewrite <- (N2Nat.id c) in K, K'.
  pose proof (pt_of es ds rho Hr Ha) as HP. destruct (counts_ex ds HN idx) as (l & Hl). destruct (diffs_reg L ug es ds (N.to_nat c) e0 He0 _ HP l (proj1 Hl)) as (f & Hf & _).
  destruct (entry_same L ug es ds HN (N.to_nat c) e0 He0 (N.of_nat order) (dt_map dt) HT HR _ l idx e f eq_refl K Hl Hf _ HP) as (_ & _ & E).
  destruct (entry_same L ug es ds HN (N.to_nat c) e0 He0 (N.of_nat order) (dt_map dt') HT' HR' _ l idx e' f eq_refl K' Hl Hf _ HP) as (_ & _ & E').
  pose proof (HR rho Hr _ K) as Re. pose proof (HR' rho Hr _ K') as Re'. cbn [snd] in Re, Re'. destruct (reg_value rho e Re) as (v & V). exists v. split; [exact V|].
  rewrite <- (proj2 (reg_nouser rho e' Re')), E', <- E, (proj2 (reg_nouser rho e Re)). exact V.
Qed.
End Tensors.

(* --- Examples ---------------------------------------------------------------------------- *)
(* x y x + sin(x y) at x = 1, y = 2: the mixed derivative is the derivative with respect
   to x of the derivative with respect to y, and the other way round. *)
Definition rg_env : env := mkEnv (fun s => if String.eqb s "x" then Some 1 else if String.eqb s "y" then Some 2 else None) (fun _ => None) None (fun _ _ _ => None) (fun _ _ => None).
Definition rg_e : expr R := let x := EVar "x"%string in let y := EVar "y"%string in EFun Fsum [EFun Fprod [x; y; x]; EFun (Fu Usin) [EFun Fprod [x; y]]].
Lemma rg_e_regular : regular rnum (fun x => x) rg_env rg_e.
Proof.
  assert (Hx : regular rnum (fun x => x) rg_env (EVar "x"%string) /\ eval rnum (fun x => x) rg_env (EVar "x"%string) = Some 1) by (split; [apply rg_var with 1; reflexivity | reflexivity]).
  assert (Hy : regular rnum (fun x => x) rg_env (EVar "y"%string) /\ eval rnum (fun x => x) rg_env (EVar "y"%string) = Some 2) by (split; [apply rg_var with 2; reflexivity | reflexivity]).
  assert (Hp : forall l vs, Forall2 (fun a v => regular rnum (fun x => x) rg_env a /\ eval rnum (fun x => x) rg_env a = Some v) l vs -> exists v, regular rnum (fun x => x) rg_env (EFun Fprod l) /\ eval rnum (fun x => x) rg_env (EFun Fprod l) = Some v).
  { intros l vs HF. pose proof (rg_fun rnum (fun x => x) rg_env Fprod l vs HF I) as R. destruct (reg_value _ _ R) as (v & V). now exists v. }
  destruct (Hp [EVar "x"%string; EVar "y"%string; EVar "x"%string] [1; 2; 1]) as (a & Ha); [repeat constructor; tauto|].
  destruct (Hp [EVar "x"%string; EVar "y"%string] [1; 2]) as (b & Hb); [repeat constructor; tauto|].
  assert (Hs : regular rnum (fun x => x) rg_env (EFun (Fu Usin) [EFun Fprod [EVar "x"%string; EVar "y"%string]])) by (apply rg_fun with [b]; [constructor; [exact Hb | constructor] | exact I]).
  destruct (reg_value _ _ Hs) as (s & Vs). apply rg_fun with [a; s]; [|exact I]. constructor; [exact Ha|]. constructor; [split; assumption | constructor].
Qed.
Example mixed_holds : exists fuel dt args e ex ey v,
  diff_tensors rnum (num_eqb Req_EM_T) (fid_eqb Req_EM_T) noug unshared code_mode fuel [rg_e] (DList rnum [EVar "x"%string; EVar "y"%string]) 2 = MDone (dt, args) /\
  op_index_sparse dt (0%N, [(0%N, 1%N)]) = Some ex /\ op_index_sparse dt (0%N, [(1%N, 1%N)]) = Some ey /\ op_index_sparse dt (0%N, [(0%N, 1%N); (1%N, 1%N)]) = Some e /\
  eval rnum (fun x => x) rg_env e = Some v /\
  has_derivative (fun t => eval rnum (fun x => x) (upd (DVar "y"%string) t rg_env) ex) 2 v /\
  has_derivative (fun t => eval rnum (fun x => x) (upd (DVar "x"%string) t rg_env) ey) 1 v.
Proof.
  destruct r_hyps as (H1 & H2 & H3 & H4).
  assert (HV : valid_request rnum [rg_e] (DList rnum [EVar "x"%string; EVar "y"%string])).
  { split; [discriminate|]. exists [EVar "x"%string; EVar "y"%string]. split; [reflexivity|]. split; [discriminate|]. split; [repeat constructor; cbn; intuition discriminate|].
    intros a [<-|[<-|[]]]; [exists (DVar "x"%string) | exists (DVar "y"%string)]; reflexivity. }
  assert (HDf : Forall (differentiable rnum noug) [rg_e]).
  { constructor; [|constructor]. repeat (apply df_fun; split; [intros [|? [|? [|? [|? ?]]]] E; try discriminate E; discriminate|]; repeat (apply Forall_cons || apply Forall_nil)); apply df_leaf; exact I. }
  assert (Hu : (N.of_nat 2 <= u32_max)%N) by (vm_compute; discriminate).
  destruct (diff_tensors_total rnum_laws (num_eqb Req_EM_T) (fid_eqb Req_EM_T) noug unshared H1 H2 H3 unshared_ok code_mode [rg_e] _ 2 Hu HV H4 HDf) as (f0 & [dt args] & E).
  specialize (E f0 (le_n _)).
  destruct (diff_tensors_correct rnum_laws (num_eqb Req_EM_T) (fid_eqb Req_EM_T) noug unshared H1 H2 H3 unshared_ok code_mode f0 _ _ 2 dt args Hu E) as (R & Hna & HC & _). cbn in R. subst args.
  assert (K : forall idx, canonical (0%N, idx) -> Forall (fun p => (fst p < 2)%N) idx -> (S_Dtens.total idx <= 2)%N -> exists e, op_index_sparse dt (0%N, idx) = Some e).
  { intros idx A B C. assert (Hk : In (0%N, idx) (map fst (dt_map dt))) by (apply (proj2 HC); split; [exact A|]; split; [reflexivity|]; split; [exact B | exact C]).
    apply in_map_iff in Hk. destruct Hk as ([k e] & Ek & Hk). cbn [fst] in Ek. subst k. exists e. destruct dt as [m na]. cbn [dt_nargs dt_map] in *. subst na. now apply (dtens_lookup_sparse _ _ _ m _ Hu HC e). }
  destruct (K [(0%N, 1%N)]) as (ex & Kx); [split; repeat constructor | repeat constructor | cbn; lia|].
  destruct (K [(1%N, 1%N)]) as (ey & Ky); [split; repeat constructor | repeat constructor | cbn; lia|].
  destruct (K [(0%N, 1%N); (1%N, 1%N)]) as (e & Ke); [split; repeat constructor | repeat constructor | cbn; lia|].
  assert (Hr : Forall (regular rnum (fun x => x) rg_env) [rg_e]) by (constructor; [exact rg_e_regular | constructor]).
  assert (Hv : forall a, In a [EVar "x"%string; EVar "y"%string] -> eval rnum (fun x => x) rg_env a <> None) by (intros a [<-|[<-|[]]]; discriminate).
  destruct (diff_tensors_mixed rnum_laws (num_eqb Req_EM_T) (fid_eqb Req_EM_T) noug unshared H1 H2 H3 unshared_ok code_mode f0 _ _ 2 dt _ rg_env Hu E Hr Hv) as (_ & HM).
  destruct (HM 0%N [(0%N, 1%N)] [(0%N, 1%N); (1%N, 1%N)] 1%nat (DVar "y"%string) ex e 2 Kx Ke) as (v & V & D); [|reflexivity | reflexivity|].
  { intros k. cbn. destruct (N.eqb_spec 0 k) as [<-|]; [reflexivity|]. rewrite (N.eqb_sym 1 k). destruct (N.eqb k 1); reflexivity. }
  destruct (HM 0%N [(1%N, 1%N)] [(0%N, 1%N); (1%N, 1%N)] 0%nat (DVar "x"%string) ey e 1 Ky Ke) as (v' & V' & D'); [|reflexivity | reflexivity|].
  { intros k. cbn. rewrite (N.eqb_sym k 0). destruct (N.eqb_spec 0 k) as [<-|]; [reflexivity|]. destruct (N.eqb 1 k); reflexivity. }
  assert (v' = v) by congruence. subst v'. exists f0, dt, [EVar "x"%string; EVar "y"%string], e, ex, ey, v. auto 10.
Qed.

Print Assumptions diff_tensors_mixed.
Print Assumptions diff_tensors_modes_agree_all.
