(* Property C33: construction of integrators. *)
From Coq Require Import Reals Lra String Bool ZArith QArith Lia List.
From Verif Require Import M_Expr S_Expr M_Dag M_Dec M_Float M_Ctor S_Ctor P_Ctor X_Expr X_Dec.
Import ListNotations.
Local Open Scope nat_scope.
Set Bullet Behavior "Strict Subproofs".

Section Thms.
Context (o : nops) (neq : num o -> num o -> bool) (fideq : fid (num o) -> fid (num o) -> bool).
Local Notation ex := (expr (num o)).
Context (fp : fops) (L : flaws fp) (one eps : F fp) (value : (string -> F fp) -> (nat -> F fp) -> F fp -> ex -> F fp).
(* The comparison of functions recognises heyoka::time. *)
Context (Htime : forall f, fideq f Ftime = true <-> f = Ftime).
Context (codegen : list (ex * ex) -> list ex -> list ex -> F fp -> bool -> bool -> bool -> bool).
Local Notation construct := (construct o neq fideq fp one eps value codegen).
Local Notation construct_batch := (construct_batch o neq fideq fp one eps value codegen).
Definition init_time (a : cargs o fp) : F fp := match a_time _ _ a with Some t => t | None => f0 fp end.

(* C33: a successful construction has valid arguments, and gives the data described by
   [constructed]: zeros for an empty state or for missing parameters, the given values
   otherwise. *)
Theorem constructor_validates a ig : system_ok value (a_sys _ _ a) -> construct a = MDone ig ->
  valid_args L 1 a /\ time_order_ok 1 a /\ constructed L one value eps 1 a [init_time a] ig.
Proof.
  intros OK. rewrite construct_is_batch. match goal with |- M_Ctor.construct_batch _ _ _ _ _ _ _ _ _ ?b = _ -> _ => set (a1 := b) end. intros E.
  destruct (construct_batch_spec o neq fideq fp L one eps value Htime codegen 1 a1 OK) as [[[A1 [A2 _]] [_ [_ (ig' & E' & C)]]]|[_ E']]; [|congruence].
  assert (ig' = ig) by congruence. subst ig'. split; [exact A1|]. split; [exact A2|]. destruct C. constructor; auto.
Qed.
(* Valid arguments are accepted, if the code can be generated. *)
Theorem constructor_accepts a : system_ok value (a_sys _ _ a) -> valid_args L 1 a -> time_order_ok 1 a ->
  (forall t, effective_tol L eps a t ->
     codegen (equations _ (a_sys _ _ a)) (a_tes _ _ a) (a_ntes _ _ a) t (a_ha _ _ a) (a_compact _ _ a) (a_parallel _ _ a) = true) ->
  exists ig, construct a = MDone ig.
Proof.
  intros OK A1 A2 A3. rewrite construct_is_batch. match goal with |- exists _, M_Ctor.construct_batch _ _ _ _ _ _ _ _ _ ?b = _ => set (a1 := b) end.
  destruct (construct_batch_spec o neq fideq fp L one eps value Htime codegen 1 a1 OK) as [[_ [_ [_ (ig' & E' & C)]]]|[N _]]; [eauto|].
  exfalso. apply N. split; [|split; [lia|auto]]. split; [exact A1|]. split; [exact A2|exact A3].
Qed.
(* No access out of bounds: a construction succeeds or throws. *)
Theorem constructor_total a : system_ok value (a_sys _ _ a) -> (exists ig, construct a = MDone ig) \/ construct a = MThrow.
Proof.
  intros OK. rewrite construct_is_batch. match goal with |- context [M_Ctor.construct_batch _ _ _ _ _ _ _ _ _ ?b] => set (a1 := b) end.
  destruct (construct_batch_spec o neq fideq fp L one eps value Htime codegen 1 a1 OK) as [[_ [_ [_ (ig' & E' & C)]]]|[_ E]]; eauto.
Qed.
(* The same for batch integrators. *)
Theorem batch_constructor_validates bs a ig : system_ok value (a_sys _ _ a) -> construct_batch bs a = MDone ig ->
  0 < bs /\ length (a_times _ _ a) = bs /\ valid_args L bs a /\ time_order_ok bs a /\ constructed L one value eps bs a (a_times _ _ a) ig.
Proof.
  intros OK E. destruct (construct_batch_spec o neq fideq fp L one eps value Htime codegen bs a OK) as [[[A1 [A2 _]] [H1 [H2 (ig' & E' & C)]]]|[_ E']]; [|congruence].
  assert (ig' = ig) by congruence. subst ig'. auto.
Qed.
Theorem batch_constructor_accepts bs a : system_ok value (a_sys _ _ a) -> 0 < bs -> length (a_times _ _ a) = bs -> valid_args L bs a -> time_order_ok bs a ->
  (forall t, effective_tol L eps a t ->
     codegen (equations _ (a_sys _ _ a)) (a_tes _ _ a) (a_ntes _ _ a) t (a_ha _ _ a) (a_compact _ _ a) (a_parallel _ _ a) = true) ->
  exists ig, construct_batch bs a = MDone ig.
Proof.
  intros OK H1 H2 A1 A2 A3. destruct (construct_batch_spec o neq fideq fp L one eps value Htime codegen bs a OK) as [[_ [_ [_ (ig' & E' & C)]]]|[N _]]; [eauto|].
  exfalso. apply N. split; [|auto]. split; auto.
Qed.
Theorem batch_constructor_total bs a : system_ok value (a_sys _ _ a) -> (exists ig, construct_batch bs a = MDone ig) \/ construct_batch bs a = MThrow.
Proof.
  intros OK. destruct (construct_batch_spec o neq fideq fp L one eps value Htime codegen bs a OK) as [[_ [_ [_ (ig' & E' & C)]]]|[_ E]]; eauto.
Qed.
End Thms.

(* --- Examples -------------------------------------------------------------------------- *)
Definition q_dec (a b : Q) : {a = b} + {a <> b}.
Proof. decide equality; [apply Pos.eq_dec|apply Z.eq_dec]. Defined.
Local Notation qx := (expr (num qnum)).
Definition zmul (a b : F zops) : F zops :=
  let inf (z : Z) := match z with Zpos _ => PInf | Zneg _ => NInf | Z0 => NaN end in
  match a, b with
  | Fin x, Fin y => Fin (x * y)%Z
  | NaN, _ | _, NaN => NaN
  | Fin x, PInf | PInf, Fin x => inf x
  | Fin x, NInf | NInf, Fin x => inf (- x)%Z
  | PInf, PInf | NInf, NInf => PInf
  | PInf, NInf | NInf, PInf => NInf
  end.
(* Evaluation in the integers, for sums and products. *)
Definition zval (env : string -> F zops) (p : nat -> F zops) (t : F zops) : qx -> F zops :=
  fix go e := match e with
  | ENum q => Fin (Qnum q)
  | EVar s => env s
  | EPar i => p i
  | EFun Fsum l => fold_right (fun a acc => fadd zops (go a) acc) (Fin 0%Z) l
  | EFun Fprod l => fold_right (fun a acc => zmul (go a) acc) (Fin 1%Z) l
  | EFun Ftime _ => t
  | _ => NaN
  end.
Definition cg : list (qx * qx) -> list qx -> list qx -> F zops -> bool -> bool -> bool -> bool := fun _ _ _ _ _ _ _ => true.
Definition e_construct := construct qnum (num_eqb q_dec) (fid_eqb q_dec) zops (Fin 1%Z) (Fin 7%Z) zval cg.
Definition e_construct_batch := construct_batch qnum (num_eqb q_dec) (fid_eqb q_dec) zops (Fin 1%Z) (Fin 7%Z) zval cg.
Lemma e_time (f : fid (num qnum)) : fid_eqb q_dec f Ftime = true <-> f = Ftime.
Proof. unfold fid_eqb. destruct (fid_dec q_dec f Ftime); split; auto; discriminate. Qed.
(* x' = par[0] + t, with the derivatives with respect to x_0, par[0], t_0. *)
Definition e_x : qx := EVar "x".
Definition e_f : qx := EFun Fsum [EPar 0; EFun Ftime []].
Definition e_vsys : vsys qnum := mkVsys qnum
  [(e_x, e_f); (EVar "dx0", ENum 0%Q); (EVar "dx1", ENum 1%Q); (EVar "dx2", ENum 0%Q)]
  [(0, []); (0, [(0, 1)]); (0, [(1, 1)]); (0, [(2, 1)])] 1 1 [e_x; EPar 0; EFun Ftime []].
Definition e_args state pars times tol : cargs qnum zops :=
  mkArgs qnum zops (Variational qnum e_vsys) state (Some (Fin 3%Z)) times tol false false pars [] [EFun Fsum [e_x; EPar 2]] false.
Lemma e_system_ok : system_ok zval (Variational qnum e_vsys).
Proof.
  split.
  - constructor; cbn.
    + reflexivity.
    + repeat constructor; cbn; intuition discriminate.
    + repeat constructor; cbn; intuition discriminate.
    + intros c l [E|[E|[E|[E|[]]]]]; injection E as <- <-; (split; [lia|]); cbn; intros j k H; try (destruct H as [E|[]]; injection E as <- <-); try contradiction; lia.
    + intros [|c] [|[|[|j]]] Hc Hj; try lia; reflexivity.
    + lia.
  - intros env p t e [<-|[<-|[<-|[<-|[]]]]]; try reflexivity.
    cbn. destruct (p 0) as [x| | |], t as [y| | |]; try reflexivity.
    unfold zmul, ext_add, ext_neg. f_equal. rewrite Z.mul_1_r. destruct (x + (y + 0))%Z; reflexivity.
Qed.
Example ex_validates : exists ig, e_construct (e_args [Fin 5%Z] [Fin 2%Z; Fin 0%Z; Fin 4%Z] [] None) = MDone ig /\
  i_state _ _ ig = [Fin 5%Z; Fin 1%Z; Fin 0%Z; Fin (-5)%Z] /\ i_tol _ _ ig = Fin 7%Z.
Proof. eexists. split; [vm_compute; reflexivity|]. split; reflexivity. Qed.
(* Empty state and parameters; the function of the event has the parameter with the highest index. *)
Example ex_defaults : exists ig, e_construct (e_args [] [] [] (Some (Fin 2%Z))) = MDone ig /\
  i_state _ _ ig = [Fin 0%Z; Fin 1%Z; Fin 0%Z; Fin (-3)%Z] /\ i_pars _ _ ig = [Fin 0%Z; Fin 0%Z; Fin 0%Z] /\ i_tol _ _ ig = Fin 2%Z.
Proof. eexists. split; [vm_compute; reflexivity|]. repeat split; reflexivity. Qed.
(* Two lanes. *)
Example ex_batch : exists ig, e_construct_batch 2 (e_args [Fin 5%Z; Fin 6%Z] [Fin 2%Z; Fin 3%Z; Fin 0%Z; Fin 0%Z; Fin 0%Z; Fin 0%Z] [Fin 3%Z; Fin 9%Z] None) = MDone ig /\
  i_state _ _ ig = [Fin 5%Z; Fin 6%Z; Fin 1%Z; Fin 1%Z; Fin 0%Z; Fin 0%Z; Fin (-5)%Z; Fin (-12)%Z].
Proof. eexists. split; [vm_compute; reflexivity|]. reflexivity. Qed.
(* Refused: a state of the wrong size; too few parameters; a negative and an infinite tolerance. *)
Example ex_refused : e_construct (e_args [Fin 5%Z; Fin 5%Z] [] [] None) = MThrow /\ e_construct (e_args [] [Fin 2%Z] [] None) = MThrow /\
  e_construct (e_args [] [] [] (Some (Fin (-1)%Z))) = MThrow /\ e_construct (e_args [] [] [] (Some PInf)) = MThrow.
Proof. repeat split; vm_compute; reflexivity. Qed.

Print Assumptions constructor_validates.
Print Assumptions constructor_accepts.
Print Assumptions constructor_total.
Print Assumptions batch_constructor_validates.
Print Assumptions batch_constructor_accepts.
Print Assumptions batch_constructor_total.
