(** Model of the propagate functions and of step callback sets.
    Source: /repo/src/taylor_adaptive.cpp:1082-1724 (propagate_until_impl,
    propagate_for_impl, propagate_grid_impl), 1924-1956 (update_d_output),
    /repo/src/step_callback.cpp:107-127. *)
From Coq Require Import List ZArith NArith Bool.
From Verif Require Import M_Float M_Step.
Import ListNotations.

Section Prop_.
Context (o : fops).
Notation F := (F o).
Context (St Jt En : Type).
Notation integ := (integ o St Jt).
Notation world := (world o St Jt En).
Notation out := (out o St Jt En).
Notation cfg := (cfg o St Jt En).

(** step_callback: pre_hook() and the call operator; either can throw. *)
Record scb := { cb_pre : world -> out world; cb_call : world -> out (world * bool) }.

(** step_callback.cpp:107-127 step_callback_set: operator() and pre_hook(). *)
Fixpoint set_call (l : list scb) (retval : bool) (w : world) : out (world * bool) :=
  match l with
  | [] => Ret (w, retval)
  | cb :: l' =>
      match cb_call cb w with
      | Exn w' => Exn w'
      | Ret (w', b) => set_call l' (b && retval) w'
      end
  end.
Fixpoint set_pre (l : list scb) (w : world) : out world :=
  match l with
  | [] => Ret w
  | cb :: l' => match cb_pre cb w with Exn w' => Exn w' | Ret w' => set_pre l' w' end
  end.
Definition callback_set (l : list scb) : scb := {| cb_pre := set_pre l; cb_call := set_call l true |}.

(** Continuous output data: times (first the starting time) and one set of
    Taylor coefficients per step. *)
Definition cout : Type := list (dfl o) * list Jt.

(** What propagate_until returns (lines 1101-1104), with the final world. *)
Record pret := MkPret {
  p_oc : Z; p_min : F; p_max : F; p_steps : N; p_cout : option cout; p_world : world }.

(** [PExn]: exception; [PFuel]: the loop has not ended within the fuel (the
    loops of the code are unbounded when max_steps is zero). *)
Inductive pres (A : Type) := PRet (r : A) | PExn (w : world) | PFuel.
Arguments PRet {A} r.
Arguments PExn {A} w.
Arguments PFuel {A}.

(** lines 1293-1294 and 1654-1655: dt_limit. *)
Definition dt_limit (t_dir : bool) (max_delta_t : F) (rem : dfl o) : F :=
  hi (if t_dir then d_min (d_of max_delta_t) rem else d_max (d_of (fneg o max_delta_t)) rem).

(** line 1362: stopping terminal event. *)
Definition is_ste (oc : Z) : bool := (oc_success <? oc)%Z && (oc <? 0)%Z.

(** Arguments of the loop that do not change. *)
Record pargs := {
  a_t : dfl o; a_max_steps : N; a_max_dt : F; a_cb : option scb; a_wtc : bool; a_cout : bool }.

(** Loop state: iter_counter, step_counter, min_h, max_h, rem_time, continuous output. *)
Record lstate := MkL {
  l_iter : N; l_steps : N; l_min : F; l_max : F; l_rem : dfl o; l_times : list (dfl o); l_tcs : list Jt }.

(** lines 1185-1212 make_c_out. *)
Definition make_c_out (a : pargs) (times : list (dfl o)) (tcs : list Jt) : option cout :=
  if a_cout a then (if (length times <? 2)%nat then None else Some (times, tcs)) else None.

(** Invocation of the step callback with the check on the time coordinate
    (lines 1334-1360). [inl]: exception. *)
Definition run_cb (cb : option scb) (w : world) : out (world * bool) :=
  match cb with
  | None => Ret (w, true)
  | Some c =>
      match cb_call c w with
      | Exn w' => Exn w'
      | Ret (w', b) => if d_eq (w_time w') (w_time w) then Ret (w', b) else Exn w'
      end
  end.

Definition run_pre (cb : option scb) (w : world) : out world :=
  match cb with
  | None => Ret w
  | Some c =>
      match cb_pre c w with
      | Exn w' => Exn w'
      | Ret w' => if d_eq (w_time w') (w_time w) then Ret w' else Exn w'
      end
  end.

(** taylor_adaptive.cpp:1284-1401: the loop of propagate_until_impl. *)
Fixpoint until_loop (fuel : nat) (cf : cfg) (a : pargs) (t_dir : bool) (w : world) (s : lstate) : pres pret :=
  match fuel with
  | O => PFuel
  | S fuel' =>
      match step_impl o St Jt En cf (dt_limit t_dir (a_max_dt a) (l_rem s)) (a_wtc a || a_cout a) w with
      | Exn w' => PExn w'
      | Ret (oc, h, w1) =>
          if (oc =? oc_err_nf_state)%Z
          then PRet (MkPret oc (l_min s) (l_max s) (l_steps s) (make_c_out a (l_times s) (l_tcs s)) w1)
          else
            let steps := (l_steps s + (if feq o h (f0 o) then 0 else 1))%N in
            let ok := (oc =? oc_success)%Z in
            let mn := if ok then f_min (l_min s) (fabs o h) else l_min s in
            let mx := if ok then f_max (l_max s) (fabs o h) else l_max s in
            let times := if a_cout a then l_times s ++ [w_time w1] else l_times s in
            let tcs := if a_cout a then l_tcs s ++ [ig_tc (fst w1)] else l_tcs s in
            let iter := (l_iter s + 1)%N in
            match run_cb (a_cb a) w1 with
            | Exn w' => PExn w'
            | Ret (w2, false) => PRet (MkPret oc_cb_stop mn mx steps (make_c_out a times tcs) w2)
            | Ret (w2, true) =>
                if feq o h (hi (l_rem s)) || is_ste oc
                then PRet (MkPret oc mn mx steps (make_c_out a times tcs) w2)
                else if (iter =? a_max_steps a)%N
                then PRet (MkPret oc_step_limit mn mx steps (make_c_out a times tcs) w2)
                else until_loop fuel' cf a t_dir w2
                       (MkL iter steps mn mx (d_sub (a_t a) (w_time w2)) times tcs)
            end
      end
  end.

(** taylor_adaptive.cpp:1082-1402 propagate_until_impl. *)
Definition propagate_until (fuel : nat) (cf : cfg) (a : pargs) (w : world) : pres pret :=
  if negb (d_fin (w_time w)) then PExn w
  else if negb (d_fin (a_t a)) then PExn w
  else if fnan o (a_max_dt a) then PExn w
  else if fle o (a_max_dt a) (f0 o) then PExn w
  else
    let rem := d_sub (a_t a) (w_time w) in
    if negb (d_fin rem) then PExn w
    else
      let t_dir := d_ge rem (d_of (f0 o)) in
      match run_pre (a_cb a) w with
      | Exn w' => PExn w'
      | Ret w1 =>
          until_loop fuel cf a t_dir w1
            (MkL 0 0 (finf o) (f0 o) rem (if a_cout a then [w_time w] else []) [])
      end.

(** taylor_adaptive.cpp:1404-1411 propagate_for_impl. *)
Definition propagate_for (fuel : nat) (cf : cfg) (delta_t : F) (a : pargs) (w : world) : pres pret :=
  propagate_until fuel cf
    {| a_t := d_addf (w_time w) delta_t; a_max_steps := a_max_steps a; a_max_dt := a_max_dt a;
       a_cb := a_cb a; a_wtc := a_wtc a; a_cout := a_cout a |} w.

(** ** propagate_grid *)

(** Rows of the result: the first row is the state vector, the others come from
    dense output. [Row] is what the user sees of either. *)
Context (Row : Type).
Record gcfg := {
  g_cfg :> cfg;
  g_row : St -> Row;              (* m_state *)
  g_dout : Jt -> F -> Row         (* m_d_out_f into m_d_out *)
}.

(** taylor_adaptive.cpp:1924-1956 update_d_output(time), absolute time. *)
Definition dense_out (cf : gcfg) (g : integ) (t : F) : Row :=
  g_dout cf (ig_tc g) (hi (f_subd t (d_subf (ig_time g) (ig_last_h g)))).

(** lines 1447-1475: the grid must be finite and strictly monotone. *)
Fixpoint grid_mono (dir : bool) (prev : F) (l : list F) : bool :=
  match l with
  | [] => true
  | x :: l' => ffin o x && Bool.eqb (flt o prev x) dir && grid_mono dir x l'
  end.
Definition grid_ok (grid : list F) : bool :=
  match grid with
  | [] => false
  | [x] => ffin o x
  | x :: y :: l => ffin o x && ffin o y && negb (feq o y x) && grid_mono (flt o x y) y l
  end.

(** lines 1577-1627: dense output for as many grid points as possible: the rows
    and the remaining grid points. *)
Fixpoint dense_rows (cf : gcfg) (g : integ) (t0 t1 : dfl o) (last : bool) (grid : list F) : list Row * list F :=
  match grid with
  | [] => ([], [])
  | x :: grid' =>
      if (d_ge (d_of x) t0 && d_le (d_of x) t1) || last
      then let '(rs, rest) := dense_rows cf g t0 t1 last grid' in (dense_out cf g x :: rs, rest)
      else ([], grid)
  end.

Record gret := MkGret { q_oc : Z; q_min : F; q_max : F; q_steps : N; q_rows : list Row; q_world : world }.

Record gargs := { b_max_steps : N; b_max_dt : F; b_cb : option scb; b_last : F (* grid.back() *) }.

(** lines 1568-1715: the loop over the grid points. *)
Fixpoint grid_loop (fuel : nat) (cf : gcfg) (a : gargs) (t_dir : bool) (w : world)
    (iter steps : N) (mn mx : F) (rem : dfl o) (interrupt : Z) (rows : list Row) (grid : list F) : pres gret :=
  let finish (w : world) (rows : list Row) :=
    PRet (MkGret (if (interrupt =? oc_success)%Z then oc_time_limit else interrupt) mn mx steps rows w) in
  match grid with
  | [] => finish w rows
  | _ =>
    match fuel with
    | O => PFuel
    | S fuel' =>
      let g := fst w in
      let tb := d_subf (ig_time g) (ig_last_h g) in
      let t0 := d_min (ig_time g) tb in
      let t1 := d_max (ig_time g) tb in
      let '(rs, rest) := dense_rows cf g t0 t1 (d_eq rem (d_of (f0 o))) grid in
      let rows' := rows ++ rs in
      match rest with
      | [] => finish w rows'
      | _ =>
        if negb (interrupt =? oc_success)%Z then finish w rows'
        else
          match step_impl o St Jt En cf (dt_limit t_dir (b_max_dt a) rem) true w with
          | Exn w' => PExn w'
          | Ret (oc, h, w1) =>
              if (oc =? oc_err_nf_state)%Z then PRet (MkGret oc mn mx steps rows' w1)
              else
                let steps' := (steps + (if feq o h (f0 o) then 0 else 1))%N in
                let ok := (oc =? oc_success)%Z in
                let mn' := if ok then f_min mn (fabs o h) else mn in
                let mx' := if ok then f_max mx (fabs o h) else mx in
                let iter' := (iter + 1)%N in
                match run_cb (b_cb a) w1 with
                | Exn w' => PExn w'
                | Ret (w2, b) =>
                    let interrupt' :=
                      if negb b then oc_cb_stop
                      else if is_ste oc then oc
                      else if (iter' =? b_max_steps a)%N then oc_step_limit
                      else oc_success in
                    let rem' := if feq o h (hi rem) then d_of (f0 o)
                                else f_subd (b_last a) (w_time w2) in
                    grid_loop fuel' cf a t_dir w2 iter' steps' mn' mx' rem' interrupt' rows' rest
                end
          end
      end
    end
  end.

(** taylor_adaptive.cpp:1413-1724 propagate_grid_impl. *)
Definition propagate_grid (fuel : nat) (cf : gcfg) (grid : list F) (max_steps : N) (max_dt : F)
    (cb : option scb) (w : world) : pres gret :=
  if negb (d_fin (w_time w)) then PExn w
  else if fnan o max_dt then PExn w
  else if fle o max_dt (f0 o) then PExn w
  else if negb (grid_ok grid) then PExn w
  else
    match grid with
    | [] => PExn w
    | x0 :: rest =>
        if negb (feq o (hi (w_time w)) x0) then PExn w
        else
          match propagate_until fuel cf
                  {| a_t := d_of x0; a_max_steps := max_steps; a_max_dt := max_dt; a_cb := None;
                     a_wtc := true; a_cout := false |} w with
          | PFuel => PFuel
          | PExn w' => PExn w'
          | PRet r =>
              let w1 := p_world r in
              if negb (p_oc r =? oc_time_limit)%Z
              then PRet (MkGret (p_oc r) (finf o) (f0 o) 0 [] w1)
              else
                let rows := [g_row cf (ig_state (fst w1))] in
                let lst := last grid x0 in
                let rem := f_subd lst (w_time w1) in
                if negb (d_fin rem) then PExn w1
                else
                  let t_dir := d_ge rem (d_of (f0 o)) in
                  match run_pre cb w1 with
                  | Exn w' => PExn w'
                  | Ret w2 =>
                      grid_loop fuel cf
                        {| b_max_steps := max_steps; b_max_dt := max_dt; b_cb := cb; b_last := lst |}
                        t_dir w2 0 0 (finf o) (f0 o) rem oc_success rows rest
                  end
          end
    end.

End Prop_.
Arguments PRet {o St Jt En A} r.
Arguments PExn {o St Jt En A} w.
Arguments PFuel {o St Jt En A}.
Arguments cb_pre {o St Jt En} _.
Arguments cb_call {o St Jt En} _.
Arguments p_oc {o St Jt En} _.
Arguments p_min {o St Jt En} _.
Arguments p_max {o St Jt En} _.
Arguments p_steps {o St Jt En} _.
Arguments p_cout {o St Jt En} _.
Arguments p_world {o St Jt En} _.
Arguments a_t {o St Jt En} _.
Arguments a_max_steps {o St Jt En} _.
Arguments a_max_dt {o St Jt En} _.
Arguments a_cb {o St Jt En} _.
Arguments a_wtc {o St Jt En} _.
Arguments a_cout {o St Jt En} _.
