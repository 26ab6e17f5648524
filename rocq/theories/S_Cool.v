(* Specification vocabulary for the cooldown of terminal events. *)
From Coq Require Import Reals List ZArith.
From Verif Require Import M_Float M_Step S_Step M_Dag M_Event S_Event.
Import ListNotations.
Local Open Scope R_scope.

Section Cool.
Context {o : fops} (L : flaws o) {St En : Type}.
Notation F := (F o).
Notation world := (world o St (list F) En).
Notation cfg := (cfg o St (list F) En).

(* The root finding library, in exact arithmetic: the final bracket is in [lb, ub). *)
Definition solver_in (e : eops o) (solve : root_finder) : Prop :=
  forall f lb ub p1 p2, ffin o lb = true -> ffin o ub = true -> fval L lb < fval L ub ->
  root_found solve f lb (e_next e ub lb) p1 p2 ->
  ffin o p1 = true /\ ffin o p2 = true /\ fval L lb <= fval L p1 < fval L ub /\ fval L lb <= fval L p2 < fval L ub.

(* The detector of the integrator is the one that is modelled in M_Event.v, for
   [length tdirs] terminal events. *)
Definition uses_detector (e : eops o) (solve : (F -> F) -> F -> F -> F * F * Z * bool) (tdirs ndirs : list Z) (order dim : nat) (cf : cfg) : Prop :=
  exists fuel, forall jet h geps cd, c_detect _ _ _ _ cf jet h geps cd =
    match detect_events o e solve fuel tdirs cd ndirs jet h order dim geps with
    | MDone r => (d_tes r, d_ntes r)
    | _ => ([], [])
    end.
(* The callbacks do not reset the cooldowns. *)
Definition keeps_cooldowns (cf : cfg) : Prop :=
  (forall i w t s w', c_nte_cb _ _ _ _ cf i w t s = Ret w' -> ig_cd (fst w') = ig_cd (fst w)) /\
  (forall i cb w s w' b, c_te_cb _ _ _ _ cf i = Some cb -> cb w s = Ret (w', b) -> ig_cd (fst w') = ig_cd (fst w)).
(* The cooldown of an event: the one given by the user, or a deduced one. *)
Definition cooldown_of (cf : cfg) (i : nat) (c : F) : Prop :=
  if fle o (f0 o) (c_cooldown _ _ _ _ cf i) then c = c_cooldown _ _ _ _ cf i else exists g d, c = c_deduce _ _ _ _ cf g d.

(* A sequence of steps that are not interrupted by non-finite values: outcomes and
   sizes of the steps. *)
Inductive steps (cf : cfg) : list (Z * F) -> world -> world -> Prop :=
| steps_nil : forall w, steps cf [] w w
| steps_cons : forall lim wtc w oc h w1 l w', step_impl _ _ _ _ cf lim wtc w = Ret (oc, h, w1) -> oc <> oc_err_nf_state ->
    steps cf l w1 w' -> steps cf ((oc, h) :: l) w w'.
(* The outcome of a step that ends at the i-th terminal event: continuing or stopping. *)
Definition triggers (i : nat) (oc : Z) : Prop := oc = Z.of_nat i \/ oc = (- Z.of_nat i - 1)%Z.
(* The total length of steps. *)
Definition total (l : list (Z * F)) : R := fold_right (fun p s => fval L (snd p) + s) 0 l.
(* The time elapsed since the beginning of the steps has reached c at the end of
   one of them. *)
Definition elapsed (c : R) (l : list (Z * F)) : Prop := exists l1 l2, l = l1 ++ l2 /\ l1 <> [] /\ c <= Rabs (total l1).
End Cool.
