(* The compiled stepper: selection of the timestep, propagation of the state with
   the Taylor polynomials, output of the Taylor coefficients, dense output.
   Source: /repo/src/taylor_00.cpp, /repo/src/taylor_01.cpp:1010-1190.
   The code is modelled for an arbitrary batch size: an LLVM vector is a function
   from lanes to numbers, and external memory is a list of numbers. *)
From Coq Require Import Arith List Bool.
From Verif Require Import M_Expr M_Dag M_Dec M_Taylor.
Import ListNotations.
Local Open Scope nat_scope.

(* The floating-point operations used by the stepper besides those used for the
   jet of derivatives. The comparisons are ordered (false on NaN). *)
Record sops (E : Type) := mkSops {
  s_t : tops E;
  s_abs : E -> E; s_pow : E -> E -> E; s_exp : E -> E;
  s_lt : E -> E -> bool; s_le : E -> E -> bool
}.
Arguments mkSops {E}. Arguments s_t {E}. Arguments s_abs {E}. Arguments s_pow {E}. Arguments s_exp {E}.
Arguments s_lt {E}. Arguments s_le {E}.

(* llvm_loop_u32(i, i + n, f) / for loops, with a state. *)
Fixpoint for_ {A} (n i : nat) (f : nat -> A -> mres A) (a : A) : mres A :=
  match n with O => MDone a | S k => mbind (f i a) (for_ k (S i) f) end.
(* Elements of arrays. *)
Definition aget {A} (arr : list A) (i : nat) : mres A :=
  match nth_error arr i with Some v => MDone v | None => MUB end.
Definition aset {A} (arr : list A) (i : nat) (v : A) : mres (list A) :=
  if Nat.ltb i (length arr) then MDone (firstn i arr ++ v :: skipn (S i) arr) else MUB.

(* --- Vectors -------------------------------------------------------------------- *)
Definition vec (E : Type) := nat -> E.
Section Lanes.
Context {E : Type}.
Definition splat (x : E) : vec E := fun _ => x.
Definition lift1 (f : E -> E) (a : vec E) : vec E := fun l => f (a l).
Definition lift2 (f : E -> E -> E) (a b : vec E) : vec E := fun l => f (a l) (b l).
(* Vector operations act on every lane. *)
Definition lane_tops (T : tops E) : tops (vec E) :=
  mkTops (lift2 (t_add T)) (lift2 (t_sub T)) (lift2 (t_mul T)) (lift2 (t_div T)) (lift1 (t_neg T))
    (fun n => splat (t_nat T n)) (splat (t_hsp T)) (fun c a b l => t_pos T (c l) (a l) (b l)).
(* The numbers, parameters, time and functions of every lane. *)
Definition lane_alg {N} (A : nat -> alg N E) : alg N (vec E) :=
  mkAlg (fun n l => a_num (A l) n) (fun i l => a_par (A l) i) (fun f args l => a_fun (A l) f (map (fun v => v l) args)).
End Lanes.

Section Stepper.
Context {E : Type} (S0 : sops E) (bs : nat).
Local Notation T := (s_t S0).
Local Notation V := (vec E).
Local Notation num_ n := (t_nat T n).

(* ext_load_vector_from_memory and ext_store_vector_to_memory
   (src/detail/llvm_helpers.cpp) on external memory, at an index. *)
Definition vload (m : list E) (idx : nat) : mres V :=
  if Nat.leb (idx + bs) (length m) then MDone (fun l => nth (idx + l) m (num_ 0)) else MUB.
Definition vstore (m : list E) (idx : nat) (v : V) : mres (list E) :=
  if Nat.leb (idx + bs) (length m) then MDone (firstn idx m ++ map v (seq 0 bs) ++ skipn (idx + bs) m) else MUB.

(* llvm_min and llvm_max, src/detail/llvm_helpers_cmp.cpp:315-329; llvm_abs;
   llvm_fcmp_ole and CreateSelect. *)
Definition vmin (a b : V) : V := fun l => if s_lt S0 (b l) (a l) then b l else a l.
Definition vmax (a b : V) : V := fun l => if s_lt S0 (a l) (b l) then b l else a l.
Definition vabs (a : V) : V := lift1 (s_abs S0) a.
(* taylor_step_maxabs, taylor_step_minabs, taylor_00.cpp:71-80. *)
Definition step_maxabs (x y : V) : V := vmax x (vabs y).
Definition step_minabs (x y : V) : V := vmin x (vabs y).

(* --- Timestep --------------------------------------------------------------------- *)
(* taylor_determine_h_rhofac, taylor_00.cpp:84-94. *)
Definition rhofac (order : nat) : E :=
  let m7_10 := t_div T (t_neg T (num_ 7)) (num_ 10) in
  let e2 := t_mul T (s_exp S0 (num_ 1)) (s_exp S0 (num_ 1)) in
  t_div T (s_exp S0 (t_div T m7_10 (num_ (order - 1)))) e2.
(* The norm of the derivatives of order m, compact mode: taylor_00.cpp:141-196. The
   three norms are computed in the same loops in the code. ld is taylor_c_load_diff;
   ne variables, then the functions of the state with indices sv. *)
Definition norm_compact (ld : nat -> nat -> mres V) (ne : nat) (sv : list nat) (m : nat) : mres V :=
  mbind (ld m 0) (fun v0 =>
  mbind (for_ (ne - 1) 1 (fun i acc => mbind (ld m i) (fun v => MDone (step_maxabs acc v))) (vabs v0)) (fun acc =>
  for_ (length sv) 0 (fun a acc => mbind (aget sv a) (fun i => mbind (ld m i) (fun v => MDone (step_maxabs acc v)))) acc)).
(* Default mode: taylor_00.cpp:202-229, with pairwise_reduce and llvm_max. *)
Definition max_tops : tops V :=
  mkTops vmax vmax vmax vmax (fun x => x) (fun _ => splat (num_ 0)) (splat (num_ 0)) (fun x _ _ => x).
Definition norm_default (jet : list V) (ne nsv m : nat) : mres V :=
  mbind (mseq (map (fun i => mbind (aget jet (m * (ne + nsv) + i)) (fun v => MDone (vabs v))) (seq 0 (ne + nsv))))
    (fun vs => pairwise max_tops (length vs) vs).
(* The timestep from the norms: taylor_00.cpp:237-272. *)
Definition timestep (order : nat) (nstate no nom1 maxh : V) : V :=
  let num_rho : V := fun l => if s_le S0 (nstate l) (num_ 1) then num_ 1 else nstate l in
  let rho_o := lift2 (s_pow S0) (lift2 (t_div T) num_rho no) (splat (t_div T (num_ 1) (num_ order))) in
  let rho_om1 := lift2 (s_pow S0) (lift2 (t_div T) num_rho nom1) (splat (t_div T (num_ 1) (num_ (order - 1)))) in
  let rho_m := vmin rho_o rho_om1 in
  let h := lift2 (t_mul T) rho_m (splat (rhofac order)) in
  let h := step_minabs h maxh in
  let fac : V := fun l => if s_lt S0 (maxh l) (num_ 0) then t_neg T (num_ 1) else num_ 1 in
  lift2 (t_mul T) fac h.
(* taylor_determine_h, taylor_00.cpp:102-273: norm m is the norm of the derivatives
   of order m. Returns the timestep and the norm of the state. *)
Definition determine_h (order : nat) (norm : nat -> mres V) (maxh : V) : mres (V * V) :=
  mbind (norm 0) (fun ns => mbind (norm order) (fun no => mbind (norm (order - 1)) (fun nom1 =>
  MDone (timestep order ns no nom1 maxh, ns)))).

(* --- Evaluation of the polynomials ------------------------------------------------ *)
(* taylor_run_multihorner, taylor_00.cpp:279-351. The two modes differ only in the
   way in which the derivative of order m of the variable j is read (rd m j). *)
Definition multihorner (rd : nat -> nat -> mres V) (h : V) (ne order : nat) : mres (list V) :=
  mbind (mseq (map (rd order) (seq 0 ne))) (fun res =>
  for_ order 1 (fun k res =>
    for_ ne 0 (fun j res =>
      mbind (rd (order - k) j) (fun cf => mbind (aget res j) (fun r =>
      aset res j (lift2 (t_add T) cf (lift2 (t_mul T) r h))))) res) res).
(* taylor_run_ceval, taylor_00.cpp:355-460. *)
Definition ceval (rd : nat -> nat -> mres V) (h : V) (ne order : nat) : mres (list V) :=
  mbind (mseq (map (rd 0) (seq 0 ne))) (fun res0 =>
  mbind (for_ order 1 (fun k (s : list V * list V * V) => let '(res, comp, ch) := s in
      mbind (for_ ne 0 (fun j (s : list V * list V) => let '(res, comp) := s in
          mbind (rd k j) (fun cf =>
          let tmp := lift2 (t_mul T) cf ch in
          mbind (aget comp j) (fun c =>
          let y := lift2 (t_sub T) tmp c in
          mbind (aget res j) (fun r =>
          let t := lift2 (t_add T) r y in
          mbind (aset comp j (lift2 (t_sub T) (lift2 (t_sub T) t r) y)) (fun comp' =>
          mbind (aset res j t) (fun res' => MDone (res', comp'))))))) (res, comp)) (fun rc =>
      MDone (fst rc, snd rc, lift2 (t_mul T) ch h))) (res0, repeat (splat (num_ 0)) ne, h)) (fun s =>
  MDone (fst (fst s)))).

(* --- Output of the Taylor coefficients --------------------------------------------- *)
(* taylor_write_tc, taylor_00.cpp:467-584. Compact mode: *)
Definition write_row (rd : nat -> mres V) (order row : nat) (tc : list E) : mres (list E) :=
  for_ (order + 1) 0 (fun k tc => mbind (rd k) (fun v => vstore tc ((order + 1) * bs * row + k * bs) v)) tc.
Definition write_tc_compact (ld : nat -> nat -> mres V) (ne : nat) (sv : list nat) (order : nat) (tc : list E) : mres (list E) :=
  mbind (for_ ne 0 (fun j tc => write_row (fun k => ld k j) order j tc) tc) (fun tc =>
  for_ (length sv) 0 (fun a tc => mbind (aget sv a) (fun i => write_row (fun k => ld k i) order (ne + a) tc)) tc).
(* Default mode: *)
Definition write_tc_default (jet : list V) (ne nsv order : nat) (tc : list E) : mres (list E) :=
  for_ (ne + nsv) 0 (fun j tc => write_row (fun k => aget jet (k * (ne + nsv) + j)) order j tc) tc.

(* --- The stepper --------------------------------------------------------------------- *)
Section Jet.
Context (o : nops) (A : nat -> alg (num o) E).
Local Notation LA := (lane_alg A).
Local Notation LT := (lane_tops T).
(* taylor_load_values, taylor_02.cpp:1266-1286: the state. *)
Definition load_state (st : list E) (ne : nat) : mres (list V) := mseq (map (fun i => vload st (i * bs)) (seq 0 ne)).
(* taylor_00.cpp:799-829. *)
Definition store_state (new : list V) (ne : nat) (st : list E) : mres (list E) :=
  for_ ne 0 (fun i st => mbind (aget new i) (fun v => vstore st (i * bs) v)) st.
(* taylor_00.cpp:789-855, after the computation of the jet: timestep, new state and
   timestep written to memory, Taylor coefficients if requested (None: null pointer).
   ha: high accuracy. *)
Definition finish_step (norm : nat -> mres V) (rd : nat -> nat -> mres V) (wtc : list E -> mres (list E))
    (ne order : nat) (ha : bool) (st hm : list E) (tc : option (list E)) : mres (list E * list E * option (list E)) :=
  mbind (vload hm 0) (fun maxh =>
  mbind (determine_h order norm maxh) (fun hs =>
  mbind (if ha then ceval rd (fst hs) ne order else multihorner rd (fst hs) ne order) (fun new =>
  mbind (store_state new ne st) (fun st' =>
  mbind (vstore hm 0 (fst hs)) (fun hm' =>
  match tc with
  | None => MDone (st', hm', None)
  | Some tc => mbind (wtc tc) (fun tc' => MDone (st', hm', Some tc'))
  end))))).
(* taylor_add_adaptive_step, taylor_00.cpp:714-865. *)
Definition step_default (d : dcmp o) (order : nat) (ha : bool) (st hm : list E) (tc : option (list E))
    : mres (list E * list E * option (list E)) :=
  let ne := length (dc_in o d) in
  mbind (load_state st ne) (fun sts =>
  mbind (taylor_jet o LA LT d [] order sts) (fun jet =>
  finish_step (norm_default jet ne 0) (fun m j => aget jet (m * ne + j)) (write_tc_default jet ne 0 order) ne order ha st hm tc)).
(* In compact mode: tp0 is the tape before the step, and the result res is one of
   those allowed by the concurrent workers. *)
Definition step_compact (d : dcmp o) (order : nat) (ha : bool) (st hm : list E) (tc : option (list E)) (tp0 : tape (V := V))
    (res : mres (list E * list E * option (list E))) : Prop :=
  let ne := length (dc_in o d) in
  let nu := ne + length (dc_mid o d) in
  exists sts tp, load_state st ne = MDone sts /\ compact_jet o LA LT d [] order sts tp0 tp /\
    let ld := load (tape_size ne nu order []) nu tp in
    res = finish_step (norm_compact ld ne []) ld (write_tc_compact ld ne [] order) ne order ha st hm tc.
(* taylor_add_adaptive_step_with_events, taylor_00.cpp:593-710: writes the jet, the
   timestep and the norm of the state; the state is not changed. *)
Definition finish_estep (norm : nat -> mres V) (wtc : list E -> mres (list E)) (order : nat) (jm hm mm : list E)
    : mres (list E * list E * list E) :=
  mbind (vload hm 0) (fun maxh =>
  mbind (determine_h order norm maxh) (fun hs =>
  mbind (vstore mm 0 (snd hs)) (fun mm' =>
  mbind (vstore hm 0 (fst hs)) (fun hm' =>
  mbind (wtc jm) (fun jm' => MDone (jm', hm', mm')))))).
Definition estep_default (d : dcmp o) (sv : list nat) (order : nat) (st jm hm mm : list E) : mres (list E * list E * list E) :=
  let ne := length (dc_in o d) in
  mbind (load_state st ne) (fun sts =>
  mbind (taylor_jet o LA LT d sv order sts) (fun jet =>
  finish_estep (norm_default jet ne (length sv)) (write_tc_default jet ne (length sv) order) order jm hm mm)).
Definition estep_compact (d : dcmp o) (sv : list nat) (order : nat) (st jm hm mm : list E) (tp0 : tape (V := V))
    (res : mres (list E * list E * list E)) : Prop :=
  let ne := length (dc_in o d) in
  let nu := ne + length (dc_mid o d) in
  exists sts tp, load_state st ne = MDone sts /\ compact_jet o LA LT d sv order sts tp0 tp /\
    let ld := load (tape_size ne nu order sv) nu tp in
    res = finish_estep (norm_compact ld ne sv) (write_tc_compact ld ne sv order) order jm hm mm.
End Jet.

(* --- Dense output ---------------------------------------------------------------------- *)
(* taylor_add_d_out_function, taylor_01.cpp:1015-1190. out: memory for the output, tc:
   Taylor coefficients, hm: times. *)
Definition d_out_f (ha : bool) (ne order : nat) (out tc hm : list E) : mres (list E) :=
  mbind (vload hm 0) (fun h =>
  if ha then
    mbind (for_ ne 0 (fun j out => mbind (vload tc (bs * (order + 1) * j)) (fun v => vstore out (bs * j) v)) out) (fun out =>
    mbind (for_ order 1 (fun k (s : list E * list V * V) => let '(out, comp, ch) := s in
        mbind (for_ ne 0 (fun j (s : list E * list V) => let '(out, comp) := s in
            mbind (vload tc (bs * (order + 1) * j + bs * k)) (fun cf =>
            let tmp := lift2 (t_mul T) cf ch in
            mbind (aget comp j) (fun c =>
            let y := lift2 (t_sub T) tmp c in
            mbind (vload out (bs * j)) (fun r =>
            let t := lift2 (t_add T) r y in
            mbind (aset comp j (lift2 (t_sub T) (lift2 (t_sub T) t r) y)) (fun comp' =>
            mbind (vstore out (bs * j) t) (fun out' => MDone (out', comp'))))))) (out, comp)) (fun oc =>
        MDone (fst oc, snd oc, lift2 (t_mul T) ch h))) (out, repeat (splat (num_ 0)) ne, h)) (fun s =>
    MDone (fst (fst s))))
  else
    mbind (for_ ne 0 (fun j out => mbind (vload tc (bs * (order + 1) * j + bs * order)) (fun v => vstore out (bs * j) v)) out) (fun out =>
    for_ order 1 (fun k out =>
      for_ ne 0 (fun j out =>
        mbind (vload tc (bs * (order + 1) * j + bs * (order - k))) (fun cf =>
        mbind (vload out (bs * j)) (fun r =>
        vstore out (bs * j) (lift2 (t_add T) cf (lift2 (t_mul T) r h))))) out) out)).
End Stepper.

(* --- Dense output: the time --------------------------------------------------------------- *)
(* update_d_output, taylor_adaptive.cpp:1925-1957: the time passed to the function
   above, relative to the beginning of the last step. m_time: current time, last_h:
   last timestep. *)
From Verif Require Import M_Float.
Definition d_out_time (o : fops) (rel_time : bool) (time : F o) (m_time : dfl o) (last_h : F o) : F o :=
  if rel_time then fadd o last_h time else hi (f_subd time (d_subf m_time last_h)).
