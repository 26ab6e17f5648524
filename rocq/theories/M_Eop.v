(** Earth orientation parameters (EOP) and space weather (SW) tables: construction and
    validation, the JIT-compiled lookup (bisection, interpolation, scalar and batch), the
    caching of tables and functions by name in a module, and the Taylor derivatives.
    Sources: /repo/src/eop_data.cpp, /repo/src/sw_data.cpp, /repo/src/detail/eop_sw_helpers.cpp,
    /repo/src/detail/eop_sw_impl.cpp, /repo/src/detail/llvm_helpers_algo.cpp,
    /repo/src/model/eop.cpp, /repo/src/model/sw.cpp.

    Not modelled: the download and parsing of the files, the builtin tables, the ERFA routines
    (their result is the parameter [utc2tt]), the double-length variant used by era and gmst82
    (model/eop.cpp:54-302). *)
From Coq Require Import Bool ZArith Ascii String List DecimalString.
From Verif Require Import M_Float M_Dag M_Taylor M_Dec.
Import ListNotations.
Local Open Scope Z_scope.

(** 32-bit unsigned arithmetic of the generated code. *)
Definition w32 (x : Z) : Z := x mod 2 ^ 32.

(** A load at an offset into an array; outside of the array the behaviour is undefined. *)
Definition ld {A} (a : list A) (i : Z) : mres A :=
  if i <? 0 then MUB else match nth_error a (Z.to_nat i) with Some x => MDone x | None => MUB end.

(** The operations of the scalar type used by the interpolation besides those of [fops]. *)
Record lops (o : fops) := mkLops { lmul : F o -> F o -> F o; ldiv : F o -> F o -> F o; lnan : F o }.
Arguments lmul {o}. Arguments ldiv {o}. Arguments lnan {o}.

Section Lookup.
Context {o : fops} (l : lops o).
Notation F := (F o).

(** llvm_fcmp_ule (src/detail/llvm_helpers.cpp): FCMP_ULE, true if unordered or x <= y. *)
Definition fule (x y : F) : bool := fnan o x || fnan o y || fle o x y.

(** *** llvm_upper_bound, src/detail/llvm_helpers_algo.cpp:83-262 *)

(** One iteration of the loop in scalar mode, lines 165-237: the state is (first, count). *)
Definition ub_body (a : list F) (v : F) (st : Z * Z) : mres (Z * Z) :=
  let '(first, count) := st in
  let step := count / 2 in
  let it := w32 (first + step) in
  mbind (ld a it) (fun cur =>
  MDone (if fule cur v then (w32 (it + 1), w32 (count - w32 (step + 1))) else (first, step))).

(** The loop, lines 156-258, and the return value, line 261. *)
Fixpoint ub_loop (fuel : nat) (a : list F) (v : F) (st : Z * Z) : mres Z :=
  if 0 <? snd st then
    match fuel with
    | O => MFuel
    | S k => mbind (ub_body a v st) (ub_loop k a v)
    end
  else MDone (fst st).

(** Scalar mode. The bound on the iterations is a device of the model; it is never reached. *)
Definition upper_bound (a : list F) (n : Z) (v : F) : mres Z :=
  ub_loop (S (Z.to_nat n)) a v (0, n).

(** One lane of one iteration in vector mode, lines 190-256: lanes whose iterator is one past the
    end are masked out of the gather, take the passthru value, and compare false. *)
Definition ubb_lane (a : list F) (n : Z) (p : F * (Z * Z)) : mres (Z * Z) :=
  let '(v, (first, count)) := p in
  let step := count / 2 in
  let it := w32 (first + step) in
  let mask := negb (it =? n) in
  mbind (if mask then ld a it else MDone v) (fun cur =>
  let cmp := fule cur v && mask in
  MDone (if cmp then w32 (it + 1) else first, if cmp then w32 (count - w32 (step + 1)) else step)).

(** The loop in vector mode: until no lane has a positive count (or-reduction, lines 158-163). *)
Fixpoint ubb_loop (fuel : nat) (a : list F) (n : Z) (vs : list F) (sts : list (Z * Z)) : mres (list Z) :=
  if existsb (fun st => 0 <? snd st) sts then
    match fuel with
    | O => MFuel
    | S k => mbind (mseq (map (ubb_lane a n) (combine vs sts))) (ubb_loop k a n vs)
    end
  else MDone (map fst sts).

Definition upper_bound_batch (a : list F) (n : Z) (vs : list F) : mres (list Z) :=
  ubb_loop (S (Z.to_nat n)) a n vs (map (fun _ => (0, n)) vs).

(** *** llvm_eop_sw_data_locate_date, src/detail/eop_sw_helpers.cpp:234-337 *)

(** Lines 308-313, the same in scalar and vector mode. *)
Definition locate_sel (n idx : Z) : Z :=
  let ret := if idx =? 0 then n else idx in
  if ret =? n then ret else w32 (ret - 1).

Definition locate_date (a : list F) (n : Z) (v : F) : mres Z :=
  mbind (upper_bound a n v) (fun idx => MDone (locate_sel n idx)).
Definition locate_date_batch (a : list F) (n : Z) (vs : list F) : mres (list Z) :=
  mbind (upper_bound_batch a n vs) (fun ix => MDone (map (locate_sel n) ix)).

(** *** The body of llvm_get_eop_sw_func, eop_sw_helpers.cpp:444-550 *)

(** Lines 525-543: the quantity and its derivative. *)
Definition interp (t t0 t1 y0 y1 : F) : F * F :=
  let t1_m_t0 := fsub o t1 t0 in
  let t1_m_t := fsub o t1 t in
  let t_m_t0 := fsub o t t0 in
  let tmp1 := lmul l y0 t1_m_t in
  let tmp2 := lmul l y1 t_m_t0 in
  let tmp3 := fadd o tmp1 tmp2 in
  let tmp4 := fsub o y1 y0 in
  (ldiv l tmp3 t1_m_t0, ldiv l tmp4 t1_m_t0).

(** Scalar mode, lines 457-494. [ds]: the dates, [ys]: the values, [n]: the number of rows. *)
Definition eop_eval (ds ys : list F) (n : Z) (t : F) : mres (F * F) :=
  mbind (locate_date ds n t) (fun idx =>
  if idx =? n then MDone (interp t (lnan l) (lnan l) (lnan l) (lnan l))
  else
    let idxp1 := w32 (idx + 1) in
    mbind (ld ds idx) (fun t0 => mbind (ld ds idxp1) (fun t1 =>
    mbind (ld ys idx) (fun y0 => mbind (ld ys idxp1) (fun y1 =>
    MDone (interp t t0 t1 y0 y1)))))).

(** Vector mode, lines 495-522: masked gathers. *)
Definition gather (a : list F) (mask : bool) (i : Z) : mres F := if mask then ld a i else MDone (lnan l).
Definition eop_lane (ds ys : list F) (n : Z) (p : F * Z) : mres (F * F) :=
  let '(t, idx) := p in
  let mask := negb (idx =? n) in
  let idxp1 := w32 (idx + (if mask then 1 else 0)) in
  mbind (gather ds mask idx) (fun t0 => mbind (gather ds mask idxp1) (fun t1 =>
  mbind (gather ys mask idx) (fun y0 => mbind (gather ys mask idxp1) (fun y1 =>
  MDone (interp t t0 t1 y0 y1))))).
Definition eop_eval_batch (ds ys : list F) (n : Z) (ts : list F) : mres (list (F * F)) :=
  mbind (locate_date_batch ds n ts) (fun ix => mseq (map (eop_lane ds ys n) (combine ts ix))).

(** *** eop_sw_impl::taylor_diff, src/detail/eop_sw_impl.cpp:235-283: the normalised derivative of the given
    order of an EOP/SW quantity of a u variable whose normalised derivatives are [b]; the
    derivative of the quantity is itself a u variable, whose value (order 0) is read back. *)
Definition eop_taylor_diff (ds ys : list F) (n : Z) (b : nat -> F) (order : nat) : mres F :=
  match order with
  | O => mbind (eop_eval ds ys n (b O)) (fun r => MDone (fst r))
  | S _ => mbind (eop_eval ds ys n (b O)) (fun r => MDone (lmul l (snd r) (b order)))
  end.
(** eop_sw_p_impl::taylor_diff, eop_sw_impl.cpp:474-516: the same for the derivative of the quantity. *)
Definition eopp_taylor_diff (ds ys : list F) (n : Z) (b : nat -> F) (order : nat) : mres F :=
  match order with
  | O => mbind (eop_eval ds ys n (b O)) (fun r => MDone (snd r))
  | S _ => MDone (f0 o)
  end.
End Lookup.

(** ** Construction *)
Section Tables.
Context (d : fops).
Notation D := (F d).

(** include/heyoka/eop_data.hpp, eop_data_row; include/heyoka/sw_data.hpp, sw_data_row. *)
Record eop_row := mkEop { e_mjd : D; e_dut1 : D; e_pm_x : D; e_pm_y : D; e_dX : D; e_dY : D }.
Record sw_row := mkSw { s_mjd : D; s_Ap : D; s_f107 : D; s_f107a : D }.

(** The loop of validate_eop_data_table, src/eop_data.cpp:94-142: true if an exception is thrown. *)
Fixpoint eop_bad (rows : list eop_row) : bool :=
  match rows with
  | [] => false
  | r :: rest =>
      if negb (ffin d (e_mjd r)) then true
      else if match rest with [] => false | r' :: _ => fle d (e_mjd r') (e_mjd r) end then true
      else if negb (ffin d (e_dut1 r)) then true
      else if negb (ffin d (e_pm_x r)) then true
      else if negb (ffin d (e_pm_y r)) then true
      else if negb (ffin d (e_dX r)) then true
      else if negb (ffin d (e_dY r)) then true
      else eop_bad rest
  end.

(** The loop of validate_sw_data_table, src/sw_data.cpp:91-131. *)
Fixpoint sw_bad (rows : list sw_row) : bool :=
  match rows with
  | [] => false
  | r :: rest =>
      if negb (ffin d (s_mjd r)) then true
      else if match rest with [] => false | r' :: _ => fle d (s_mjd r') (s_mjd r) end then true
      else if negb (ffin d (s_Ap r)) || flt d (s_Ap r) (f0 d) then true
      else if negb (ffin d (s_f107 r)) || flt d (s_f107 r) (f0 d) then true
      else if negb (ffin d (s_f107a r)) || flt d (s_f107a r) (f0 d) then true
      else sw_bad rest
  end.

(** std::string::contains(char) *)
Fixpoint contains (c : ascii) (s : string) : bool :=
  match s with EmptyString => false | String a r => Ascii.eqb a c || contains c r end.

(** eop_sw_check_ts_id, eop_sw_helpers.cpp:340-377: true if an exception is thrown. *)
Definition bad_ts_id (ts id : string) (allow : bool) (prefixes : list string) : bool :=
  if String.eqb ts "" then true
  else if String.eqb id "" then true
  else if contains "." ts || contains "-" ts then true
  else if contains "." id || contains "-" id then true
  else negb allow && existsb (fun p => prefix p id) prefixes.

(** eop_data.cpp:190, sw_data.cpp:179 *)
Definition eop_reserved : list string := ["celestrak_"; "iers_rapid_"; "iers_long_term_"]%string.
Definition sw_reserved : list string := ["celestrak_"]%string.

(** The state of an eop_data/sw_data object: eop_data.cpp:149-165, sw_data.cpp:138-154. *)
Record data (Row : Type) := mkData { d_table : list Row; d_ts : string; d_id : string }.

(** eop_data.cpp:197-207; allow = false for the user's constructor (eop_data.cpp:177-180 and
    include/heyoka/eop_data.hpp), true for downloaded data. *)
Definition eop_make (rows : list eop_row) (ts id : string) (allow : bool) : mres (data eop_row) :=
  if (length rows <? 2)%nat then MThrow
  else if eop_bad rows then MThrow
  else if bad_ts_id ts id allow eop_reserved then MThrow
  else MDone (mkData _ rows ts id).
(** sw_data.cpp:186-195 *)
Definition sw_make (rows : list sw_row) (ts id : string) (allow : bool) : mres (data sw_row) :=
  if (length rows <? 2)%nat then MThrow
  else if sw_bad rows then MThrow
  else if bad_ts_id ts id allow sw_reserved then MThrow
  else MDone (mkData _ rows ts id).
End Tables.
Arguments mkEop {d}. Arguments mkSw {d}.
Arguments e_mjd {d}. Arguments e_dut1 {d}. Arguments e_pm_x {d}. Arguments e_pm_y {d}.
Arguments e_dX {d}. Arguments e_dY {d}. Arguments s_mjd {d}. Arguments s_Ap {d}.
Arguments s_f107 {d}. Arguments s_f107a {d}. Arguments eop_bad {d}. Arguments sw_bad {d}.
Arguments eop_make {d}. Arguments sw_make {d}.
Arguments mkData {Row}. Arguments d_table {Row}. Arguments d_ts {Row}. Arguments d_id {Row}.

(** ** Names *)
(** fmt::format("{}", size) *)
Definition fmt_size (n : nat) : string := NilEmpty.string_of_uint (Nat.to_uint n).

Local Open Scope string_scope.
(** eop_sw_helpers.cpp:107-108: the name of a global array. *)
Definition global_name (descr arr : string) (size : nat) (ts id ty : string) : string :=
  "heyoka." ++ descr ++ "_data_" ++ arr ++ "." ++ fmt_size size ++ "." ++ ts ++ "-" ++ id ++ "." ++ ty.
(** eop_sw_helpers.cpp:410-411: the name of a function. *)
Definition func_name (descr name : string) (size : nat) (ts id ty : string) : string :=
  "heyoka." ++ descr ++ "_get_" ++ name ++ "_" ++ name ++ "p." ++ fmt_size size ++ "." ++ ts ++ "-" ++ id ++ "." ++ ty.
(** eop_sw_impl.cpp:76-85 (the constructor of eop_sw_impl_base): the name of the function in an expression. *)
Definition ex_name (descr name : string) (size : nat) (ts id : string) : string :=
  descr ++ "_" ++ name ++ "_" ++ fmt_size size ++ "_" ++ ts ++ "-" ++ id.
Local Close Scope string_scope.

(** The quantities: model/eop.cpp:335-340 and model/sw.cpp:48-50; [QP q]: the derivative of [q]
    (eop_sw_impl.hpp:283, the name with a "p" appended). *)
Inductive quant := Qera | Qgmst82 | Qpm_x | Qpm_y | QdX | QdY | QAp_avg | Qf107 | Qf107a.
Definition q_descr (q : quant) : string :=
  match q with QAp_avg | Qf107 | Qf107a => "sw" | _ => "eop" end%string.
Definition q_name (q : quant) : string :=
  match q with
  | Qera => "era" | Qgmst82 => "gmst82" | Qpm_x => "pm_x" | Qpm_y => "pm_y" | QdX => "dX" | QdY => "dY"
  | QAp_avg => "Ap_avg" | Qf107 => "f107" | Qf107a => "f107a_center81"
  end%string.
Definition q_ex_name (q : quant) (p : bool) (size : nat) (ts id : string) : string :=
  ex_name (q_descr q) (if p then q_name q ++ "p" else q_name q)%string size ts id.

(** The scalar types (mppp::real is not modelled) and llvm_mangle_type, src/detail/llvm_helpers_type.cpp:181-196,
    on the scalar type (batch size 1: make_vector_type() returns the type itself) and on vectors. *)
Inductive stype := TFloat | TDouble | TX86 | TFp128.
Definition type_name (t : stype) : string :=
  match t with TFloat => "float" | TDouble => "double" | TX86 => "x86_fp80" | TFp128 => "fp128" end%string.
Definition mangle_type (t : stype) (batch : nat) : string :=
  if Nat.eqb batch 1 then type_name t else (type_name t ++ "_" ++ fmt_size batch)%string.

(** ** The module: arrays and functions cached by name *)
Section Module.
Context {d : fops}.             (* the type double of the tables *)
Context {o : fops} (l : lops o). (* the type of the generated code *)
Notation D := (F d).
Notation F := (F o).
Context (cst : stype -> D -> F)   (* llvm_codegen(s, scal_t, number{x}): a constant of the given type *)
        (dl : lops d) (asec masec : D) (* one arcsecond and one milliarcsecond in radians, eop_data.cpp:429-432 *)
        (utc2tt : D -> option D).  (* eop_sw_helpers.cpp:165-193: eraUtctai, eraTaitt and the division; None: error *)

(** The globals of an LLVM module, and its functions. A function is represented by the two arrays its body
    refers to (the rest of the body depends only on the type and on the number of rows). *)
Record module := mkMod { m_globals : list (string * list F); m_funcs : list (string * (list F * list F * Z)) }.

Fixpoint lookup {A} (k : string) (m : list (string * A)) : option A :=
  match m with [] => None | (k', a) :: r => if String.eqb k k' then Some a else lookup k r end.

(** llvm_get_eop_sw_data, eop_sw_helpers.cpp:84-148 *)
Definition get_array {Row} (m : module) (dt : data Row) (ty : stype) (arr descr : string) (getter : Row -> mres F)
  : mres (module * list F) :=
  let name := global_name descr arr (length (d_table dt)) (d_ts dt) (d_id dt) (mangle_type ty 1) in
  match lookup name (m_globals m) with
  | Some a => MDone (m, a)
  | None =>
      if 2 ^ 32 <=? Z.of_nat (length (d_table dt)) then MThrow
      else mbind (mseq (map getter (d_table dt))) (fun a => MDone (mkMod ((name, a) :: m_globals m) (m_funcs m), a))
  end.

(** llvm_get_eop_sw_data_date_tt_cy_j2000, eop_sw_helpers.cpp:160-210 *)
Definition date_getter {Row} (mjd : Row -> D) (ty : stype) (r : Row) : mres F :=
  match utc2tt (mjd r) with
  | None => MThrow
  | Some c => if ffin d c then MDone (cst ty c) else MThrow
  end.
(** HEYOKA_LLVM_GET_EOP_DATA_IMPL (eop_data.cpp:415-432), HEYOKA_LLVM_GET_SW_DATA_IMPL (sw_data.cpp:226-235) *)
Definition value_getter {Row} (col : Row -> D) (ty : stype) (r : Row) : mres F := MDone (cst ty (col r)).

(** llvm_get_eop_sw_func, eop_sw_helpers.cpp:386-553. The generated function works on vectors of [batch]
    values of type [ty]. *)
Definition get_func {Row} (m : module) (dt : data Row) (ty : stype) (batch : nat) (descr name : string) (mjd col : Row -> D)
  : mres (module * (list F * list F * Z)) :=
  let fname := func_name descr name (length (d_table dt)) (d_ts dt) (d_id dt) (mangle_type ty batch) in
  match lookup fname (m_funcs m) with
  | Some f => MDone (m, f)
  | None =>
      mbind (get_array m dt ty "date_tt_cy_j2000" descr (date_getter mjd ty)) (fun '(m1, ds) =>
      mbind (get_array m1 dt ty name descr (value_getter col ty)) (fun '(m2, ys) =>
      if 2 ^ 32 <=? Z.of_nat (length (d_table dt)) then MThrow
      else
        let f := (ds, ys, Z.of_nat (length (d_table dt))) in
        MDone (mkMod (m_globals m2) ((fname, f) :: m_funcs m2), f)))
  end.

(** The functions of model/eop.cpp:315-325 and model/sw.cpp:29-37: one per quantity; the C++ types ensure that
    the data is of the right kind. *)
Inductive request :=
| ReqPmX (dt : data (eop_row d)) | ReqPmY (dt : data (eop_row d)) | ReqDX (dt : data (eop_row d)) | ReqDY (dt : data (eop_row d))
| ReqAp (dt : data (sw_row d)) | ReqF107 (dt : data (sw_row d)) | ReqF107a (dt : data (sw_row d)).

Definition serve (m : module) (rq : request) (ty : stype) (batch : nat) : mres (module * (list F * list F * Z)) :=
  match rq with
  | ReqPmX dt => get_func m dt ty batch "eop" (q_name Qpm_x) e_mjd (fun r => lmul dl (e_pm_x r) asec)
  | ReqPmY dt => get_func m dt ty batch "eop" (q_name Qpm_y) e_mjd (fun r => lmul dl (e_pm_y r) asec)
  | ReqDX dt => get_func m dt ty batch "eop" (q_name QdX) e_mjd (fun r => lmul dl (e_dX r) masec)
  | ReqDY dt => get_func m dt ty batch "eop" (q_name QdY) e_mjd (fun r => lmul dl (e_dY r) masec)
  | ReqAp dt => get_func m dt ty batch "sw" (q_name QAp_avg) s_mjd s_Ap
  | ReqF107 dt => get_func m dt ty batch "sw" (q_name Qf107) s_mjd s_f107
  | ReqF107a dt => get_func m dt ty batch "sw" (q_name Qf107a) s_mjd s_f107a
  end.

(** A history of requests made on one module, from an empty one; the answers in order. *)
Fixpoint serve_all (m : module) (rqs : list (request * (stype * nat))) : mres (list (list F * list F * Z)) :=
  match rqs with
  | [] => MDone []
  | (rq, (ty, batch)) :: rest =>
      mbind (serve m rq ty batch) (fun '(m', f) => mbind (serve_all m' rest) (fun fs => MDone (f :: fs)))
  end.
Definition mod0 : module := mkMod [] [].

(** A call to the function obtained, in scalar and in batch mode. *)
Definition call (f : list F * list F * Z) (t : F) : mres (F * F) := let '(ds, ys, n) := f in eop_eval l ds ys n t.
Definition call_batch (f : list F * list F * Z) (ts : list F) : mres (list (F * F)) :=
  let '(ds, ys, n) := f in eop_eval_batch l ds ys n ts.
End Module.
