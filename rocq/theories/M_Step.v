(** Model of a single integration step, with and without events.
    Source: /repo/src/taylor_adaptive.cpp:704-1028 (step_impl),
    /repo/include/heyoka/taylor.hpp:142-155 (taylor_outcome). *)
From Coq Require Import List ZArith Bool.
From Verif Require Import M_Float M_Search.
Import ListNotations.

(** taylor.hpp:142-155: taylor_outcome is an int64 enumeration. Values in
    [-2^32, -1] signal stopping terminal events, values >= 0 continuing ones. *)
Definition oc_success : Z := (-4294967296 - 1)%Z.
Definition oc_step_limit : Z := (-4294967296 - 2)%Z.
Definition oc_time_limit : Z := (-4294967296 - 3)%Z.
Definition oc_err_nf_state : Z := (-4294967296 - 4)%Z.
Definition oc_cb_stop : Z := (-4294967296 - 5)%Z.

Section Step.
Context (o : fops).
Notation F := (F o).
(** [St]: state vector and parameters; [Jt]: array of Taylor coefficients;
    [En]: everything else that user callbacks can read or change. *)
Context (St Jt En : Type).

(** The integrator data touched by a step (i_data: m_state/m_pars, m_time,
    m_last_h, m_tc, m_ed_data->m_te_cooldowns). *)
Record integ := MkInteg {
  ig_state : St;
  ig_time : dfl o;
  ig_last_h : F;
  ig_tc : Jt;
  ig_cd : list (option (F * F))
}.
Definition world : Type := integ * En.
Definition w_time (w : world) : dfl o := ig_time (fst w).

(** Result of code that can throw; the world at the throw point is kept. *)
Inductive out (A : Type) := Ret (a : A) | Exn (w : world).
Arguments Ret {A} a.
Arguments Exn {A} w.

(** Detected events (event_detection.hpp: m_d_tes, m_d_ntes): index, time
    relative to the beginning of the step, sign of the derivative and, for
    terminal events, absolute value of the derivative. *)
Record dte := MkTe { te_idx : nat; te_time : F; te_sgn : Z; te_der : F }.
Record dnte := MkNte { nte_idx : nat; nte_time : F; nte_sgn : Z }.

(** The parts of the integrator that are fixed at construction: the compiled
    steppers (as arbitrary functions), the event detector, the events.
    Simplifications: compiled code and event detection are arbitrary functions
    here (they are modelled elsewhere); std::sort is an arbitrary function on
    lists, constrained by hypotheses where needed. *)
Record cfg := {
  c_events : bool;                                      (* m_ed_data present *)
  c_step : St -> F -> F -> St * F * Jt;                 (* m_step_f, vanilla: state, time.hi, max h *)
  c_estep : St -> F -> F -> Jt * F * F;                 (* m_step_f, events: jet, h, max_abs_state *)
  c_dout : St -> Jt -> F -> St;                         (* m_d_out_f: overwrite the state *)
  c_fin : St -> bool;                                   (* all state components finite *)
  c_geps : F -> F;                                      (* lines 806-842 *)
  c_detect : Jt -> F -> F -> list (option (F * F)) -> list dte * list dnte; (* detect_events *)
  c_sort_te : list dte -> list dte;                     (* std::sort by abs time *)
  c_sort_nte : list dnte -> list dnte;
  c_cooldown : nat -> F;                                (* te.get_cooldown() *)
  c_deduce : F -> F -> F;                               (* taylor_deduce_cooldown *)
  c_nte_cb : nat -> world -> F -> Z -> out world;
  c_te_cb : nat -> option (world -> Z -> out (world * bool))
}.

Definition set_step (g : integ) (s : St) (t : dfl o) (h : F) (tc : Jt) : integ :=
  MkInteg s t h tc (ig_cd g).
Definition set_cd (g : integ) (cd : list (option (F * F))) : integ :=
  MkInteg (ig_state g) (ig_time g) (ig_last_h g) (ig_tc g) cd.

(** taylor_common.hpp:196-203 abs_lt *)
Definition abs_lt (a b : F) : bool := flt o (fabs o a) (fabs o b).

(** num_utils: cmp_nan_eq *)
Definition cmp_nan_eq (a b : F) : bool := feq o a b || (fnan o a && fnan o b).

(** taylor_adaptive.cpp:769-804: step without events. *)
Definition step_vanilla (cf : cfg) (max_delta_t : F) (wtc : bool) (w : world) : Z * F * world :=
  let g := fst w in
  let '(s', h, tc') := c_step cf (ig_state g) (hi (ig_time g)) max_delta_t in
  let t' := d_addf (ig_time g) h in
  let g' := set_step g s' t' h (if wtc then tc' else ig_tc g) in
  let oc := if negb (d_fin t') || negb (c_fin cf s') then oc_err_nf_state
            else if feq o h max_delta_t then oc_time_limit else oc_success in
  (oc, h, (g', snd w)).

(** taylor_adaptive.cpp:908-926: cooldown update after a step of length [h]. *)
Definition update_cd (h : F) (cd : option (F * F)) : option (F * F) :=
  match cd with
  | None => None
  | Some (first, second) =>
      let tmp := fadd o first h in
      if fle o second (fabs o tmp) then None else Some (tmp, second)
  end.

(** taylor_adaptive.cpp:943-969: invocation of the non-terminal callbacks. *)
Fixpoint run_ntes (cf : cfg) (new_time : dfl o) (last_h : F) (l : list dnte) (w : world) : out world :=
  match l with
  | [] => Ret w
  | ev :: l' =>
      match c_nte_cb cf (nte_idx ev) w (hi (d_addf (d_subf new_time last_h) (nte_time ev))) (nte_sgn ev) with
      | Exn w' => Exn w'
      | Ret w' => run_ntes cf new_time last_h l' w'
      end
  end.

(** Assignment to an element of a vector. *)
Fixpoint set_nth {A} (l : list A) (i : nat) (a : A) : list A :=
  match l, i with
  | [], _ => []
  | _ :: l', O => a :: l'
  | x :: l', S i' => x :: set_nth l' i' a
  end.

(** taylor_adaptive.cpp:786-1027: step with events. *)
Definition step_events (cf : cfg) (max_delta_t : F) (w : world) : out (Z * F * world) :=
  let g := fst w in
  let '(jet, h0, max_abs_state) := c_estep cf (ig_state g) (hi (ig_time g)) max_delta_t in
  let g_eps := c_geps cf max_abs_state in
  let '(tes0, ntes0) := c_detect cf jet h0 g_eps (ig_cd g) in        (* line 858 *)
  let tes := c_sort_te cf tes0 in                                     (* lines 872-874 *)
  let ntes := c_sort_nte cf ntes0 in
  let h := match tes with [] => h0 | e :: _ => te_time e end in       (* lines 878-890 *)
  let s' := c_dout cf (ig_state g) jet h in                           (* line 893 *)
  let t' := d_addf (ig_time g) h in                                   (* line 896 *)
  let g1 := set_step g s' t' h jet in
  if negb (d_fin t') || negb (c_fin cf s') then Ret (oc_err_nf_state, h, (g1, snd w))
  else
    let g2 := set_cd g1 (map (update_cd h) (ig_cd g)) in
    let nend := match tes with                                        (* lines 932-936 *)
                | [] => length ntes
                | _ => partition_point (fun ev => abs_lt (nte_time ev) h) ntes
                end in
    match run_ntes cf t' h (firstn nend ntes) (g2, snd w) with
    | Exn w' => Exn w'
    | Ret w2 =>
        let fin (w3 : world) (oc : Z) :=
          (* lines 1003-1006 *)
          if negb (cmp_nan_eq (hi (w_time w3)) (hi t')) || negb (cmp_nan_eq (lo (w_time w3)) (lo t'))
          then Exn w3 else Ret (oc, h, w3) in
        match tes with
        | [] => fin w2 (if feq o h max_delta_t then oc_time_limit else oc_success)
        | e :: _ =>
            (* lines 980-990; emplace(0, cooldown) *)
            let cdv := if fle o (f0 o) (c_cooldown cf (te_idx e)) then c_cooldown cf (te_idx e)
                       else c_deduce cf g_eps (te_der e) in
            let w2' := (set_cd (fst w2) (set_nth (ig_cd (fst w2)) (te_idx e) (Some (f0 o, cdv))), snd w2) in
            match c_te_cb cf (te_idx e) with
            | None => fin w2' (- Z.of_nat (te_idx e) - 1)%Z
            | Some cb =>
                match cb w2' (te_sgn e) with
                | Exn w' => Exn w'
                | Ret (w3, b) => fin w3 (if b then Z.of_nat (te_idx e) else (- Z.of_nat (te_idx e) - 1)%Z)
                end
            end
        end
    end.

(** taylor_adaptive.cpp:727-1028 step_impl. *)
Definition step_impl (cf : cfg) (max_delta_t : F) (wtc : bool) (w : world) : out (Z * F * world) :=
  if c_events cf then step_events cf max_delta_t w else Ret (step_vanilla cf max_delta_t wtc w).

(** taylor_adaptive.cpp:1030-1080: step(), step_backward(), step(max_delta_t).
    [None]: invalid_argument. *)
Definition step_fwd (cf : cfg) (wtc : bool) (w : world) := step_impl cf (finf o) wtc w.
Definition step_bwd (cf : cfg) (wtc : bool) (w : world) := step_impl cf (fneg o (finf o)) wtc w.
Definition step_max (cf : cfg) (max_delta_t : F) (wtc : bool) (w : world) :=
  if fnan o max_delta_t then Exn w else step_impl cf max_delta_t wtc w.

End Step.
Arguments Ret {o St Jt En A} a.
Arguments Exn {o St Jt En A} w.
Arguments MkInteg {o St Jt} _ _ _ _ _.
Arguments ig_state {o St Jt} _.
Arguments ig_time {o St Jt} _.
Arguments ig_last_h {o St Jt} _.
Arguments ig_tc {o St Jt} _.
Arguments ig_cd {o St Jt} _.
Arguments w_time {o St Jt En} _.
Arguments MkTe {o} _ _ _ _.
Arguments MkNte {o} _ _ _.
Arguments te_idx {o} _.
Arguments te_time {o} _.
Arguments te_sgn {o} _.
Arguments te_der {o} _.
Arguments nte_idx {o} _.
Arguments nte_time {o} _.
Arguments nte_sgn {o} _.
Arguments abs_lt {o} _ _.
Arguments update_cd {o} _ _.
