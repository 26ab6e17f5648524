(* Event detection in a step: fast exclusion check, isolation of the roots of the
   Taylor polynomials of the event equations, cooldowns.
   Source: /repo/src/detail/event_detection.cpp, /repo/src/detail/llvm_helpers_ed.cpp
   (scalar integrators: batch size 1).
   Polynomials are lists of order + 1 coefficients; all the indices used by the code
   to access them are at most order. *)
From Coq Require Import List Bool ZArith Arith.
From Verif Require Import M_Float M_Step M_Dag M_Taylor.
Import ListNotations.

(* The arithmetic used besides the operations of M_Float.v. *)
Record eops (o : fops) := mkEops {
  e_mul : F o -> F o -> F o;
  e_div : F o -> F o -> F o;
  e_nat : nat -> F o;              (* static_cast<T>(n), and literals *)
  e_bin : nat -> nat -> F o;       (* binomial(i, j), src/number.cpp:453-509 *)
  e_next : F o -> F o -> F o       (* nextafter() *)
}.
Arguments mkEops {o}. Arguments e_mul {o}. Arguments e_div {o}. Arguments e_nat {o}.
Arguments e_bin {o}. Arguments e_next {o}.

Section Poly.
Context (o : fops) (e : eops o).
Notation F := (F o).
Local Notation add := (fadd o).
Local Notation mul := (e_mul e).
Local Notation zero := (f0 o).
Local Notation get a i := (nth i a zero).

(* poly_rescale, event_detection.cpp:167-191. *)
Fixpoint rescale_from (cur scal : F) (a : list F) : list F :=
  match a with [] => [] | x :: r => mul x cur :: rescale_from (mul cur scal) scal r end.
Definition poly_rescale (a : list F) (scal : F) : list F := rescale_from (e_nat e 1) scal a.
(* poly_rescale_p2, event_detection.cpp:194-220: the loop runs over the reversed
   array. (mppp::real: mul_2ui, the same values.) *)
Fixpoint p2_from (cur : F) (a : list F) : list F :=
  match a with [] => [] | x :: r => mul cur x :: p2_from (mul cur (e_nat e 2)) r end.
Definition poly_rescale_p2 (a : list F) : list F := rev (p2_from (e_nat e 1) (rev a)).
(* sgn, event_detection.cpp:223-245; llvm_sgn, llvm_helpers_cmp.cpp:358-388. *)
Definition sgn (x : F) : Z := ((if flt o zero x then 1 else 0) - (if flt o x zero then 1 else 0))%Z.
(* poly_eval_1, event_detection.cpp:248-264. *)
Definition poly_eval_1 (a : list F) (x : F) (n : nat) : F :=
  fold_left (fun ret i => add (mul (get a (n - i)) (e_nat e (n - i))) (mul ret x)) (seq 1 (n - 1))
    (mul (get a n) (e_nat e n)).
(* poly_eval, event_detection.cpp:267-281. *)
Definition poly_eval (a : list F) (x : F) (n : nat) : F :=
  fold_left (fun ret i => add (get a (n - i)) (mul ret x)) (seq 1 n) (get a n).
(* add_poly_translator_1, event_detection.cpp:413-508. *)
Definition poly_translate_1 (a : list F) (n : nat) : list F :=
  fold_left (fun out i =>
    fold_left (fun out k => set_nth out k (add (get out k) (mul (get a i) (e_bin e i k)))) (seq 0 (i + 1)) out)
    (seq 0 (n + 1)) (repeat zero (n + 1)).
(* llvm_add_csc, llvm_helpers_ed.cpp:55-206: the state is (last_nz_idx, retval). *)
Definition csc (cf : list F) (n : nat) : nat :=
  snd (fold_left (fun (s : nat * nat) cur_n => let '(last, ret) := s in
    let cur_sgn := sgn (get cf cur_n) in
    let last_nz_sgn := sgn (get cf last) in
    let cmp := if Z.eqb last_nz_sgn 0 then false else Z.eqb (cur_sgn + last_nz_sgn) 0 in
    (if Z.eqb cur_sgn 0 then last else cur_n, ret + (if cmp then 1 else 0))) (seq 1 n) (0, 0)).
(* llvm_add_poly_rtscc, event_detection.cpp:592-695. *)
Definition poly_rtscc (cf : list F) (n : nat) : nat := csc (poly_translate_1 (rev cf) n) n.

(* llvm_min and llvm_max, llvm_helpers_cmp.cpp:315-329. *)
Definition vmin (a b : F) : F := if flt o b a then b else a.
Definition vmax (a b : F) : F := if flt o a b then b else a.
(* llvm_penc_interval, llvm_helpers_ed.cpp:208-320. *)
Definition ival_sum (a b : F * F) : F * F := (add (fst a) (fst b), add (snd a) (snd b)).
Definition ival_prod (a b : F * F) : F * F :=
  let tmp1 := mul (fst a) (fst b) in let tmp2 := mul (fst a) (snd b) in
  let tmp3 := mul (snd a) (fst b) in let tmp4 := mul (snd a) (snd b) in
  (vmin (vmin tmp1 tmp2) (vmin tmp3 tmp4), vmax (vmax tmp1 tmp2) (vmax tmp3 tmp4)).
Definition penc_interval (cf : list F) (n : nat) (h : F * F) : F * F :=
  fold_left (fun acc i => ival_sum (get cf (n - i), get cf (n - i)) (ival_prod acc h)) (seq 1 n)
    (get cf n, get cf n).
(* llvm_penc_cargo_shisha, llvm_helpers_ed.cpp:322-415: the state is the series,
   the power of h, the minimum and the maximum. *)
Definition sum_tops : tops F :=
  mkTops add (fsub o) mul (e_div e) (fneg o) (e_nat e) zero (fun c a b => if flt o zero c then a else b).
Fixpoint mul_each (f : nat -> F) (i : nat) (l : list F) : list F :=
  match l with [] => [] | x :: r => mul x (f i) :: mul_each f (S i) r end.
Definition cs_step (cf : list F) (n : nat) (h : F) (j : nat) (s : list F * F * F * F) : mres (list F * F * F * F) :=
  let '(series, hpow, mn, mx) := s in
  let new_term := e_div e (mul (get cf j) hpow) (e_bin e n j) in
  let series := mul_each (fun i => e_div e (e_nat e j) (e_nat e (j - i))) 0 series ++ [new_term] in
  mbind (pairwise sum_tops (length series) series) (fun bj =>
  MDone (series, if Nat.eqb j n then hpow else mul hpow h, vmin mn bj, vmax mx bj)).
Fixpoint cs_loop (cf : list F) (n : nat) (h : F) (js : list nat) (s : list F * F * F * F) : mres (list F * F * F * F) :=
  match js with [] => MDone s | j :: r => mbind (cs_step cf n h j s) (cs_loop cf n h r) end.
Definition penc_cargo_shisha (cf : list F) (n : nat) (h : F) : mres (F * F) :=
  let b0 := get cf 0 in
  mbind (cs_loop cf n h (seq 1 n) ([b0], h, b0, b0)) (fun s => let '(_, _, mn, mx) := s in MDone (mn, mx)).
(* llvm_add_fex_check, event_detection.cpp:698-815. *)
Definition fex_check (use_cs : bool) (cf : list F) (n : nat) (h : F) (back : bool) : mres bool :=
  mbind (if use_cs then penc_cargo_shisha cf n h
         else MDone (penc_interval cf n (if back then (h, zero) else (zero, h)))) (fun enc =>
  let s_lo := sgn (fst enc) in let s_hi := sgn (snd enc) in
  MDone (Z.eqb s_lo s_hi && negb (Z.eqb s_lo 0))).

(* bracketed_root_find, event_detection.cpp:306-381. [solve] is Boost's
   toms748_solve (or bisect), on a closed interval: it returns the final bracket,
   the value of errno and whether the limit on the number of iterations was not
   reached. *)
Section Brf.
Context (solve : (F -> F) -> F -> F -> F * F * Z * bool).
Definition bracketed_root_find (poly : list F) (order : nat) (lb ub : F) : F * Z :=
  let ub' := if ffin o lb && ffin o ub && flt o lb ub then e_next e ub lb else ub in
  let '(p1, p2, errno, within) := solve (fun x => poly_eval poly x order) lb ub' in
  let ret := add (e_div e p1 (e_nat e 2)) (e_div e p2 (e_nat e 2)) in
  if (0 <? errno)%Z then (zero, errno) else if within then (ret, 0%Z) else (ret, (-1)%Z).

(* --- Detection for a single event ------------------------------------------------ *)
(* event_direction, include/heyoka/detail/fwd_decl.hpp:60: negative = -1, any = 0,
   positive = 1. *)
Section Event.
(* Construction of the record of a detected event: index, time, sign and absolute
   value of the derivative (the latter for terminal events only). *)
Context {Ev : Type} (emit : nat -> F -> Z -> F -> Ev).
(* [term]: terminal event; [i]: its index; [dir]: its direction; [a]: its polynomial. *)
Context (term : bool) (i : nat) (dir : Z) (a : list F) (order : nat) (h : F).

(* add_d_event, event_detection.cpp:1156-1233. *)
Definition add_d_event (root0 : F) (out : list Ev) : list Ev :=
  if negb (ffin o root0) then out else
  let root := if fle o (fabs o h) (fabs o root0) then e_next e h zero else root0 in
  let der := poly_eval_1 a root order in
  if negb (ffin o der) then out else
  let d_sgn := sgn der in
  if Z.eqb dir 0 then out ++ [emit i root d_sgn (fabs o der)]
  else if Z.eqb d_sgn dir then out ++ [emit i root d_sgn (fabs o der)] else out.

(* lb_offset, event_detection.cpp:1235-1261. *)
Definition lb_offset (cd : option (F * F)) : F :=
  match (if term then cd else None) with
  | Some (first, second) =>
      if fle o zero h then e_div e (fsub o second first) (fabs o h) else e_div e (add second first) (fabs o h)
  | None => zero
  end.

(* The do-while loop, event_detection.cpp:1300-1411. The head of the list is the
   back of m_wlist. Returns loop_failed, m_isol and the detected events. *)
Fixpoint isolate (fuel : nat) (off : F) (wl : list (F * F * list F)) (isol : list (F * F)) (out : list Ev) :
    mres (bool * list (F * F) * list Ev) :=
  match fuel with
  | O => MFuel
  | S fuel =>
      match wl with
      | [] => MUB
      | (lb, ub, q) :: wl =>
          let out := if feq o (get q 0) zero && forallb (ffin o) (tl q)
                     then if term && flt o lb off then out else add_d_event (mul lb h) out
                     else out in
          let n_sc := poly_rtscc q order in
          let '(wl, isol) :=
            if Nat.eqb n_sc 1 then (wl, isol ++ [(lb, ub)])
            else if Nat.ltb 1 n_sc then
              let tmp1 := poly_rescale_p2 q in
              let tmp2 := poly_translate_1 tmp1 order in
              let mid := add (e_div e lb (e_nat e 2)) (e_div e ub (e_nat e 2)) in
              ((mid, ub, tmp2) :: (if flt o off mid then (lb, mid, tmp1) :: wl else wl), isol)
            else (wl, isol) in
          if Nat.ltb 250 (length wl) || Nat.ltb order (length isol) then MDone (true, isol, out)
          else match wl with [] => MDone (false, isol, out) | _ => isolate fuel off wl isol out end
      end
  end.

(* Root finding in the isolating intervals, event_detection.cpp:1433-1510. *)
Fixpoint find_roots (off : F) (p1 : list F) (isol : list (F * F)) (out : list Ev) : list Ev :=
  match isol with
  | [] => out
  | (lb0, ub) :: isol =>
      let clip := term && flt o lb0 off in
      let lb := if clip then off else lb0 in
      if clip && negb (flt o (mul (poly_eval p1 lb order) (poly_eval p1 ub order)) zero) then find_roots off p1 isol out
      else
        let '(root, cflag) := bracketed_root_find p1 order lb ub in
        find_roots off p1 isol (if Z.eqb cflag 0 then add_d_event (mul root h) out else out)
  end.

(* The body of the loop on the events, event_detection.cpp:1145-1511. The flag is
   true if the isolation of the roots failed (with a warning). *)
Definition detect_one (fuel : nat) (cd : option (F * F)) (out : list Ev) : mres (bool * list Ev) :=
  mbind (fex_check false a order h (flt o h zero)) (fun fex =>
  if fex then MDone (false, out) else
  let off := lb_offset cd in
  if fle o (e_nat e 1) off then MDone (false, out) else
  let tmp := poly_rescale a h in
  mbind (isolate fuel off [(zero, e_nat e 1, tmp)] [] out) (fun r => let '(failed, isol, out) := r in
  if (match isol with [] => true | _ => false end) || failed then MDone (failed, out)
  else MDone (false, find_roots off (poly_rescale a h) isol out))).
End Event.

(* The coefficients starting at ptr, event_detection.cpp:1132-1135. *)
Definition event_poly (jet : list F) (row order : nat) : mres (list F) :=
  if Nat.leb ((row + 1) * (order + 1)) (length jet) then MDone (firstn (order + 1) (skipn (row * (order + 1)) jet)) else MUB.

(* run_detection, event_detection.cpp:1124-1512: the events are given by their
   directions and cooldowns. Returns the failures too. *)
Fixpoint run_detection {Ev} (emit : nat -> F -> Z -> F -> Ev) (term : bool) (fuel : nat) (jet : list F) (base order : nat) (h : F)
    (i : nat) (evs : list (Z * option (F * F))) (fails : list nat) (out : list Ev) : mres (list nat * list Ev) :=
  match evs with
  | [] => MDone (fails, out)
  | (dir, cd) :: evs =>
      mbind (event_poly jet (i + base) order) (fun a =>
      mbind (detect_one emit term i dir a order h fuel cd out) (fun r =>
      run_detection emit term fuel jet base order h (S i) evs (if fst r then fails ++ [i] else fails) (snd r)))
  end.

(* ed_data::detect_events, event_detection.cpp:1069-1516. [tdirs], [ndirs]: the
   directions of the terminal and non-terminal events; [cds]: m_te_cooldowns, one
   for each terminal event. The results: the detected events, and the indices of
   the events for which the isolation of the roots failed. *)
Record detected := mkDet { d_tes : list (dte o); d_ntes : list (dnte o); d_tfails : list nat; d_nfails : list nat }.
Definition detect_events (fuel : nat) (tdirs : list Z) (cds : list (option (F * F))) (ndirs : list Z)
    (jet : list F) (h : F) (order dim : nat) (g_eps : F) : mres detected :=
  if negb (ffin o h) then MDone (mkDet [] [] [] [])
  else if negb (ffin o g_eps) then MDone (mkDet [] [] [] [])
  else if feq o h zero then MDone (mkDet [] [] [] [])
  else
    mbind (run_detection (fun i t s d => MkTe i t s d) true fuel jet dim order h 0 (combine tdirs cds) [] []) (fun rt =>
    mbind (run_detection (fun i t s _ => MkNte i t s) false fuel jet (dim + length tdirs) order h 0
             (map (fun d => (d, None)) ndirs) [] []) (fun rn =>
    MDone (mkDet (snd rt) (snd rn) (fst rt) (fst rn)))).
End Brf.

(* taylor_deduce_cooldown_impl, event_detection.cpp:511-548. *)
Definition deduce_cooldown (g_eps abs_der : F) : F :=
  let ret := mul (e_div e g_eps abs_der) (e_nat e 10) in if ffin o ret then ret else zero.
(* The maximum error on the Taylor series of the event equations,
   src/taylor_adaptive.cpp:814-842; eps is the epsilon of the type. *)
Definition max_error (tol eps max_abs_state : F) : F :=
  if ffin o max_abs_state then
    let abs_or_rel := flt o max_abs_state (e_nat e 1) in
    let max_r_size := if abs_or_rel then tol else mul tol max_abs_state in
    let tmp := mul eps max_abs_state in
    if flt o max_r_size tmp then tmp else max_r_size
  else finf o.
End Poly.
Arguments mkDet {o}. Arguments d_tes {o}. Arguments d_ntes {o}. Arguments d_tfails {o}. Arguments d_nfails {o}.
