(** Model of the ensemble propagations.
    Source: /repo/src/ensemble_propagate.cpp (all of it),
    /repo/include/heyoka/detail/tbb_isolated.hpp:35-44.
    The scheduler (TBB) is not part of the repository: it is modelled by a
    transition system which allows every division of the range into chunks and
    every interleaving of the chunks. *)
From Coq Require Import List Arith Bool.
From Verif Require Import M_Dag M_Taylor M_Stepper M_Float M_Step M_Prop.
Import ListNotations.
Local Open Scope nat_scope.

(** [Obj]: integrators, [Cb]: step callbacks, [Res]: the values returned by a
    propagation, [Err]: exceptions. The generator, the copy of the callback and the
    propagation can throw ([inr]); the propagation may also never end ([None]).
    Simplification: generator and callbacks are functions of what they are given, that
    is, they do not communicate through memory shared between iterations. *)
Section Ens.
Context {Obj Cb Res Err : Type}.
Context (ta : Obj) (cb : Cb) (gen : Obj -> nat -> Obj + Err) (copy : Cb -> Cb + Err)
        (propagate : Obj -> Cb -> option ((Obj * Res) + Err)).

(** ensemble_propagate.cpp:69-84 (and 103-118, 135-149, 207-222, 240-255, 288-302):
    where the body of the loop is. *)
Inductive phase :=
| AtGen                          (* before gen(ta, i) *)
| AtCopy (local_ta : Obj)        (* before the copy of cb *)
| AtProp (local_ta : Obj) (local_cb : Cb)
| AtAssign (local_ta : Obj) (loc_ret : Res).
(** A chunk being executed: i, range.end(). *)
Record task := MkTask { tk_i : nat; tk_end : nat; tk_ph : phase }.
Definition slot := option (Obj * Res).   (* None: value-initialised tuple *)
Inductive bres := BEnd | BGo (t : task) (ret : list slot) | BThrow (e : Err) | BHang | BUB.

Definition body (t : task) (ret : list slot) : bres :=
  match tk_ph t with
  | AtGen =>
      if tk_i t =? tk_end t then BEnd
      else match gen ta (tk_i t) with
           | inl x => BGo (MkTask (tk_i t) (tk_end t) (AtCopy x)) ret
           | inr e => BThrow e
           end
  | AtCopy x =>
      match copy cb with
      | inl c => BGo (MkTask (tk_i t) (tk_end t) (AtProp x c)) ret
      | inr e => BThrow e
      end
  | AtProp x c =>
      match propagate x c with
      | None => BHang
      | Some (inr e) => BThrow e
      | Some (inl (x', r)) => BGo (MkTask (tk_i t) (tk_end t) (AtAssign x' r)) ret
      end
  | AtAssign x r =>
      match aset ret (tk_i t) (Some (x, r)) with
      | MDone ret' => BGo (MkTask (S (tk_i t)) (tk_end t) AtGen) ret'
      | _ => BUB
      end
  end.

(** tbb::parallel_for: chunks waiting, chunks being executed, the shared array, the
    first exception, and (ghost) the arguments of the invocations of the generator. *)
Record sys := MkSys {
  waiting : list (nat * nat); running : list task; retval : list slot; exc : option Err; gens : list nat }.

(** lines 66-68: resize() and the range [0, n_iter). Not modelled: failure of
    boost::numeric_cast and of the allocation. *)
Definition start (n : nat) : sys := MkSys (if n =? 0 then [] else [(0, n)]) [] (repeat None n) None [].

Definition new_gen (t : task) : list nat := match tk_ph t with AtGen => if tk_i t =? tk_end t then [] else [tk_i t] | _ => [] end.

Inductive sched : sys -> sys -> Prop :=
(* a waiting range is split into two non-empty ones *)
| sc_split : forall l1 b m e l2 run ret ex g, b < m < e ->
    sched (MkSys (l1 ++ (b, e) :: l2) run ret ex g) (MkSys (l1 ++ (b, m) :: (m, e) :: l2) run ret ex g)
(* a worker takes a range *)
| sc_take : forall l1 b e l2 run ret ex g,
    sched (MkSys (l1 ++ (b, e) :: l2) run ret ex g) (MkSys (l1 ++ l2) (MkTask b e AtGen :: run) ret ex g)
(* after an exception ranges can be skipped (cancellation) *)
| sc_skip : forall l1 b e l2 run ret x g,
    sched (MkSys (l1 ++ (b, e) :: l2) run ret (Some x) g) (MkSys (l1 ++ l2) run ret (Some x) g)
(* a worker executes a statement *)
| sc_go : forall w l1 t l2 ret t' ret' ex g, body t ret = BGo t' ret' ->
    sched (MkSys w (l1 ++ t :: l2) ret ex g) (MkSys w (l1 ++ t' :: l2) ret' ex (new_gen t ++ g))
| sc_end : forall w l1 t l2 ret ex g, body t ret = BEnd ->
    sched (MkSys w (l1 ++ t :: l2) ret ex g) (MkSys w (l1 ++ l2) ret ex g)
(* the first exception is kept *)
| sc_throw : forall w l1 t l2 ret e ex g, body t ret = BThrow e ->
    sched (MkSys w (l1 ++ t :: l2) ret ex g)
          (MkSys w (l1 ++ l2) ret (match ex with None => Some e | Some e' => Some e' end) (new_gen t ++ g)).

Inductive execution : sys -> sys -> Prop :=
| ex_refl : forall s, execution s s
| ex_step : forall s s' s'', execution s s' -> sched s' s'' -> execution s s''.

(** parallel_for() ends when there is nothing left to do; it rethrows the exception,
    if any, otherwise retval is returned (line 87). *)
Definition ended (s : sys) : Prop := waiting s = [] /\ running s = [].
Definition returned (s : sys) : list slot + Err :=
  match exc s with None => inl (retval s) | Some e => inr e end.
End Ens.

(** The propagations of the three functions (lines 76-79, 110-113, 142-143) for scalar integrators. *)
Section Scalar.
Context (o : fops) (St Jt En Row : Type).
Notation world := (world o St Jt En).
Notation scb := (scb o St Jt En).
Definition wrap {A R : Type} (wd : A -> world) (f : A -> R) (p : pres o St Jt En A) : option ((world * R) + world) :=
  match p with
  | PRet a => Some (inl (wd a, f a))
  | PExn w => Some (inr w)
  | PFuel => None
  end.
Definition with_cb (a : pargs o St Jt En) (c : option scb) : pargs o St Jt En :=
  {| a_t := a_t a; a_max_steps := a_max_steps a; a_max_dt := a_max_dt a; a_cb := c; a_wtc := a_wtc a; a_cout := a_cout a |}.
Definition until_body fuel cf (a : pargs o St Jt En) (w : world) (c : option scb) :=
  wrap (p_world (o := o)) (fun r => (r, c)) (propagate_until o St Jt En fuel cf (with_cb a c) w).
Definition for_body fuel cf (delta_t : F o) (a : pargs o St Jt En) (w : world) (c : option scb) :=
  wrap (p_world (o := o)) (fun r => (r, c)) (propagate_for o St Jt En fuel cf delta_t (with_cb a c) w).
Definition grid_body fuel (cf : gcfg o St Jt En Row) (grid : list (F o)) max_steps max_dt (w : world) (c : option scb) :=
  wrap (q_world o St Jt En Row) (fun r => (r, c)) (propagate_grid o St Jt En Row fuel cf grid max_steps max_dt c w).
End Scalar.

(** ensemble_propagate.cpp:274-281: the time grid of the batch version. *)
Definition splat_grid {A} (batch_size : nat) (grid : list A) : list A :=
  fold_left (fun g x => g ++ repeat x batch_size) grid [].
