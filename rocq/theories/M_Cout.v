(** Model of the continuous output of the scalar integrator.
    Source: /repo/src/continuous_output.cpp:71-297 (add_c_out_function), 338-396
    (call_impl), 404-409 (operator()), 466-486 (get_bounds, get_n_steps),
    /repo/src/taylor_adaptive.cpp:1190-1216 (make_c_out),
    /repo/src/detail/llvm_helpers_dl.cpp:60-101, 285-322. *)
From Coq Require Import List Arith NArith Bool.
From Verif Require Import M_Dag M_Taylor M_Stepper M_Float.
Import ListNotations.
Local Open Scope nat_scope.

Section Cout.
Context (o : fops) (S0 : sops (F o)).
Notation F := (F o).

(** llvm_helpers_dl.cpp:60-93 llvm_dl_add *)
Definition dl_add (x y : dfl o) : dfl o :=
  let S_ := fadd o (hi x) (hi y) in
  let T_ := fadd o (lo x) (lo y) in
  let e := fsub o S_ (hi x) in
  let f := fsub o T_ (lo x) in
  let t1 := fsub o (hi x) (fsub o S_ e) in
  let s := fadd o (fsub o (hi y) e) t1 in
  let t1 := fsub o (lo x) (fsub o T_ f) in
  let t := fadd o (fsub o (lo y) f) t1 in
  let s := fadd o s T_ in
  let H := fadd o S_ s in
  let h := fadd o (fsub o S_ H) s in
  let h := fadd o h t in
  let e := fadd o H h in
  let f := fadd o (fsub o H e) h in
  DFL e f.
(** 97-101 llvm_dl_sub *)
Definition dl_sub (x y : dfl o) : dfl o := dl_add x (DFL (fneg o (hi y)) (fneg o (lo y))).
(** 285-300 llvm_dl_lt, 304-319 llvm_dl_gt. x > y on scalars is y < x. *)
Definition dl_lt (x y : dfl o) : bool :=
  flt o (hi x) (hi y) || (feq o (hi x) (hi y) && flt o (lo x) (lo y)).
Definition dl_gt (x y : dfl o) : bool :=
  flt o (hi y) (hi x) || (feq o (hi x) (hi y) && flt o (lo y) (lo x)).

(** The object: Taylor coefficients of all steps one after the other, times,
    output, and the compiled function (m_f_ptr) as the constants baked into it:
    direction, number of times, order, dimension, accuracy mode. The absence of
    the latter is the null pointer of a default-constructed object.
    Simplification: the two vectors of the high and low parts of the times are a
    list of pairs. *)
Record c_fn := MkFn { fn_dir : bool; fn_n : nat; fn_order : nat; fn_dim : nat; fn_ha : bool }.
Record co := MkCo { co_tcs : list F; co_times : list (dfl o); co_out : list F; co_fn : option c_fn }.
Definition co_default : co := MkCo [] [] [] None.

(** continuous_output.cpp:188-239: the search loop of the compiled function. *)
Fixpoint ub_loop (fuel : nat) (dir : bool) (tm : F) (times : list (dfl o)) (first count : nat) : mres nat :=
  match fuel with
  | O => MFuel
  | S fuel' =>
      if count =? 0 then MDone first
      else
        let step := Nat.div count 2 in
        let tidx := first + step in
        mbind (aget times tidx) (fun v =>
        let cond := negb (if dir then dl_lt (DFL tm (f0 o)) v else dl_gt (DFL tm (f0 o)) v) in
        if cond then ub_loop fuel' dir tm times (tidx + 1) (count - (step + 1))
        else ub_loop fuel' dir tm times first step)
  end.

(** lines 241-290: selection of the coefficients and dense output. *)
Definition c_out (f : c_fn) (out tcs : list F) (times : list (dfl o)) (tm : F) : mres (list F) :=
  mbind (ub_loop (S (fn_n f)) (fn_dir f) tm times 0 (fn_n f)) (fun first =>
  let tc_idx := if first =? 0 then first else if first =? fn_n f then first - 2 else first - 1 in
  mbind (aget times tc_idx) (fun start =>
  let h := hi (dl_sub (DFL tm (f0 o)) start) in
  d_out_f S0 1 (fn_ha f) (fn_dim f) (fn_order f) out (skipn (tc_idx * (fn_dim f * (fn_order f + 1))) tcs) [h])).

(** lines 338-396 call_impl and 404-409 operator(): the object afterwards. *)
Definition co_call (c : co) (t : F) : mres co :=
  match co_fn c with
  | None => MThrow
  | Some f =>
      if negb (ffin o t) then MThrow
      else mbind (c_out f (co_out c) (co_tcs c) (co_times c) t) (fun out =>
           MDone (MkCo (co_tcs c) (co_times c) out (co_fn c)))
  end.

(** lines 466-474 and 477-485 *)
Definition get_bounds (c : co) : mres (F * F) :=
  match co_fn c with
  | None => MThrow
  | Some _ => mbind (aget (co_times c) 0) (fun a => mbind (aget (co_times c) (length (co_times c) - 1)) (fun b => MDone (hi a, hi b)))
  end.
Definition get_n_steps (c : co) : mres nat :=
  match co_fn c with None => MThrow | Some _ => MDone (length (co_times c) - 1) end.

(** taylor_adaptive.cpp:1190-1216 make_c_out, the construction of the object, with
    add_c_out_function (continuous_output.cpp:94-100: overflow check, 125-127:
    direction). [times] and [tcs]: what was recorded, one array of coefficients
    per step. *)
Definition make_co (ha : bool) (dim order : nat) (times : list (dfl o)) (tcs : list (list F)) : mres co :=
  let all := concat tcs in
  if (N.ltb 4294967295 (N.of_nat (length all)) || N.ltb 4294967295 (N.of_nat (length times)))%bool then MThrow
  else
    mbind (aget times 0) (fun a =>
    mbind (aget times (length times - 1)) (fun b =>
    MDone (MkCo all times (repeat (f0 o) dim) (Some (MkFn (d_lt a b) (length times) order dim ha))))).
End Cout.
Arguments co_tcs {o}. Arguments co_times {o}. Arguments co_out {o}. Arguments co_fn {o}.
