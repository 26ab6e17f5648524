(* The Taylor method: the code generated for the derivatives of every function
   and the two ways in which it is run, default mode and compact mode.
   Modelled from src/taylor_01.cpp, src/taylor_02.cpp, src/math/*.cpp,
   src/detail/{sub,div,sum_sq,num_identity}.cpp. All derivatives are normalised:
   the derivative of order n divided by n!. *)
From Coq Require Import String Bool ZArith Arith List.
From Verif Require Import M_Expr M_Dag M_Dec.
Import ListNotations.

(* --- The generated code ------------------------------------------------------------ *)
(* The LLVM instructions generated for one derivative, as an expression. *)
Inductive tex (N : Type) :=
| TLd (ord idx : nat)              (* load the derivative of order ord of u variable idx *)
| TNum (x : N)                     (* a number (llvm_codegen) *)
| TPar (i : nat)                   (* a parameter (taylor_codegen_numparam, taylor_01.cpp:225-262) *)
| TNat (n : nat)                   (* the integer n as a floating-point value *)
| THsp                             (* sqrt(pi) / 2 (erf.cpp) *)
| TAdd (a b : tex N) | TSub (a b : tex N) | TMul (a b : tex N) | TDiv (a b : tex N) | TNeg (a : tex N)
| TApp (f : fid N) (l : list (tex N))      (* the value of a function, or of select() *)
| TPos (c a b : tex N)             (* select(c > 0, a, b) *)
| TPSum (l : list (tex N))         (* pairwise_sum() *)
| TLoop (lo hi : nat) (f : nat -> tex N).  (* acc = 0; for (j = lo; j < hi; ++j) acc += f(j) *)
Arguments TLd {N}. Arguments TNum {N}. Arguments TPar {N}. Arguments TNat {N}. Arguments THsp {N}.
Arguments TAdd {N}. Arguments TSub {N}. Arguments TMul {N}. Arguments TDiv {N}. Arguments TNeg {N}.
Arguments TApp {N}. Arguments TPos {N}. Arguments TPSum {N}. Arguments TLoop {N}.

(* The arithmetic of the values at run time. *)
Record tops (V : Type) := mkTops {
  t_add : V -> V -> V; t_sub : V -> V -> V; t_mul : V -> V -> V; t_div : V -> V -> V; t_neg : V -> V;
  t_nat : nat -> V; t_hsp : V; t_pos : V -> V -> V -> V
}.
Arguments mkTops {V}. Arguments t_add {V}. Arguments t_sub {V}. Arguments t_mul {V}. Arguments t_div {V}.
Arguments t_neg {V}. Arguments t_nat {V}. Arguments t_hsp {V}. Arguments t_pos {V}.

Definition mbind {A B} (m : mres A) (f : A -> mres B) : mres B :=
  match m with MDone a => f a | MThrow => MThrow | MUB => MUB | MFuel => MFuel end.
Fixpoint mseq {A} (l : list (mres A)) : mres (list A) :=
  match l with
  | [] => MDone []
  | m :: r => mbind m (fun a => mbind (mseq r) (fun l' => MDone (a :: l')))
  end.

Section Exec.
Context {N V : Type} (A : alg N V) (T : tops V).
(* pairwise_reduce, src/detail/llvm_helpers_algo.cpp:271-299. *)
Fixpoint pair_up (l : list V) : list V :=
  match l with a :: b :: r => t_add T a b :: pair_up r | _ => l end.
Fixpoint pairwise (fuel : nat) (l : list V) : mres V :=
  match l with
  | [] => MUB
  | [x] => MDone x
  | _ => match fuel with O => MFuel | S k => pairwise k (pair_up l) end
  end.
(* llvm_loop_u32, src/detail/llvm_helpers.cpp, with an accumulator. *)
Fixpoint loop (steps : nat) (j : nat) (acc : V) (f : nat -> mres V) : mres V :=
  match steps with
  | O => MDone acc
  | S k => mbind (f j) (fun v => loop k (S j) (t_add T acc v) f)
  end.
Fixpoint trun (rd : nat -> nat -> mres V) (e : tex N) : mres V :=
  let bin op a b := mbind (trun rd a) (fun x => mbind (trun rd b) (fun y => MDone (op x y))) in
  match e with
  | TLd m j => rd m j
  | TNum x => MDone (a_num A x)
  | TPar i => MDone (a_par A i)
  | TNat n => MDone (t_nat T n)
  | THsp => MDone (t_hsp T)
  | TAdd a b => bin (t_add T) a b
  | TSub a b => bin (t_sub T) a b
  | TMul a b => bin (t_mul T) a b
  | TDiv a b => bin (t_div T) a b
  | TNeg a => mbind (trun rd a) (fun x => MDone (t_neg T x))
  | TApp f l => mbind (mseq (map (trun rd) l)) (fun vs => MDone (a_fun A f vs))
  | TPos c a b => mbind (trun rd c) (fun x => mbind (trun rd a) (fun y => mbind (trun rd b) (fun z => MDone (t_pos T x y z))))
  | TPSum l => mbind (mseq (map (trun rd) l)) (fun vs => pairwise (List.length vs) vs)
  | TLoop lo hi f => loop (hi - lo) lo (t_nat T 0) (fun j => trun rd (f j))
  end.
End Exec.

Section Gen.
Context (o : nops).
Local Notation nm := (num o).
Local Notation ex := (expr (num o)).
Local Notation code := (tex (num o)).
Local Notation elt := (expr (num o) * list nat)%type.

(* The arguments of the functions in a decomposition: u variables, numbers and
   parameters (std::visit on the value of the argument). None: an exception. *)
Inductive targ := AU (j : nat) | AC (c : code).
Definition resolve (a : ex) : option targ :=
  match a with
  | EVar s => match uname_to_index s with Some j => Some (AU j) | None => None end
  | ENum x => Some (AC (TNum x))
  | EPar i => Some (AC (TPar i))
  | EFun _ _ => None
  end.
(* The order-n derivative of an argument. *)
Definition at_ord (n : nat) (a : targ) : code :=
  match a with
  | AU j => TLd n j
  | AC c => if Nat.eqb n 0 then c else TNat 0
  end.
Definition resolve_all (args : list ex) : option (list targ) := oseq (map resolve args).
Definition is_m1 (a : ex) : bool := match a with ENum x => n_isz o (-1)%Z x | _ => false end.
(* get_pow_eval_algo, src/math/pow.cpp:290-346: the exponents with formulas of
   their own. *)
Definition is_square (a : ex) : bool := match a with ENum x => match n_int o x with Some 2%Z => true | _ => false end | _ => false end.
Definition is_sqrt (a : ex) : bool := match a with ENum x => match n_oddhalf o x with Some 1%Z => true | _ => false end | _ => false end.

Definition ld (m j : nat) : code := TLd m j.
Definition fac (j : nat) (c : code) : code := TMul (TNat j) c.
Definition zero : code := TNat 0.

(* ===== Default mode: the taylor_diff() member functions ===== *)
(* Pairwise sums over j = lo, ..., hi. *)
Definition psum (lo hi : nat) (f : nat -> code) : code := TPSum (map f (seq lo (S hi - lo))).

(* Functions of one argument: their value at order 0 (and zeros) for numbers and
   parameters, for u variables their value at order 0 and a formula. *)
Definition tunary (f : fid nm) (x : ex) (n : nat) (formula : nat -> code) : option code :=
  match resolve x with
  | Some (AU b) => Some (if Nat.eqb n 0 then TApp f [ld 0 b] else formula b)
  | Some (AC c) => Some (if Nat.eqb n 0 then TApp f [c] else zero)
  | None => None
  end.
(* The formulas with a single hidden dependency. *)
Definition dep1 (deps : list nat) (k : nat -> option code) : option code :=
  match deps with [c] => k c | _ => None end.
Definition dep0 (deps : list nat) (k : option code) : option code :=
  match deps with [] => k | _ => None end.

(* exp.cpp:82-115. *)
Definition d_exp (n i b : nat) : code :=
  TDiv (psum 1 n (fun j => fac j (TMul (ld (n - j) i) (ld j b)))) (TNat n).
(* log.cpp:85-129. *)
Definition d_log (n i b : nat) : code :=
  let ret := TMul (TNat n) (ld n b) in
  TDiv (if Nat.ltb 1 n then TSub ret (psum 1 (n - 1) (fun j => fac j (TMul (ld (n - j) b) (ld j i)))) else ret)
       (TMul (TNat n) (ld 0 b)).
(* sin.cpp:152-188, sinh.cpp:113-149, cosh.cpp:112-147. *)
Definition d_trig (n b c : nat) : code :=
  TDiv (psum 1 n (fun j => fac j (TMul (ld (n - j) c) (ld j b)))) (TNat n).
(* cos.cpp:152-188: the divisor is the constant -n. *)
Definition d_cos (n b c : nat) : code :=
  TDiv (psum 1 n (fun j => fac j (TMul (ld (n - j) c) (ld j b)))) (TNeg (TNat n)).
(* tan.cpp:103-140. *)
Definition d_tan (n b c : nat) : code :=
  TAdd (ld n b) (TDiv (psum 1 n (fun j => fac j (TMul (ld (n - j) c) (ld j b)))) (TNat n)).
(* tanh.cpp:111-148. *)
Definition d_tanh (n b c : nat) : code :=
  TSub (ld n b) (TDiv (psum 1 n (fun j => fac j (TMul (ld (n - j) c) (ld j b)))) (TNat n)).
(* sigmoid.cpp:138-179. *)
Definition d_sigmoid (n i b c : nat) : code :=
  TDiv (psum 1 n (fun j => TMul (TMul (TSub (ld (n - j) i) (ld (n - j) c)) (ld j b)) (TNat j))) (TNat n).
(* asin.cpp:127-178, asinh.cpp:120-171, acosh.cpp:120-171. *)
Definition d_asin (n i b c : nat) : code :=
  if Nat.eqb n 1 then TDiv (ld 1 b) (ld 0 c)
  else TDiv (TSub (TMul (TNat n) (ld n b)) (psum 1 (n - 1) (fun j => fac j (TMul (ld (n - j) c) (ld j i)))))
            (TMul (TNat n) (ld 0 c)).
(* acos.cpp:127-179. *)
Definition d_acos (n i b c : nat) : code :=
  if Nat.eqb n 1 then TNeg (TDiv (ld 1 b) (ld 0 c))
  else TDiv (TAdd (TMul (TNat n) (ld n b)) (psum 1 (n - 1) (fun j => fac j (TMul (ld (n - j) c) (ld j i)))))
            (TNeg (TMul (TNat n) (ld 0 c))).
(* atan.cpp:110-165. *)
Definition d_atan (n i b c : nat) : code :=
  if Nat.eqb n 1 then TDiv (ld 1 b) (TAdd (ld 0 c) (TNat 1))
  else TDiv (TSub (TMul (TNat n) (ld n b)) (psum 1 (n - 1) (fun j => fac j (TMul (ld (n - j) c) (ld j i)))))
            (TMul (TNat n) (TAdd (ld 0 c) (TNat 1))).
(* atanh.cpp:110-165. *)
Definition d_atanh (n i b c : nat) : code :=
  if Nat.eqb n 1 then TDiv (ld 1 b) (TSub (TNat 1) (ld 0 c))
  else TDiv (TAdd (TMul (TNat n) (ld n b)) (psum 1 (n - 1) (fun j => fac j (TMul (ld (n - j) c) (ld j i)))))
            (TMul (TNat n) (TSub (TNat 1) (ld 0 c))).
(* erf.cpp:157-196. *)
Definition d_erf (n b c : nat) : code :=
  TDiv (psum 1 n (fun j => fac j (TMul (ld (n - j) c) (ld j b)))) (TMul (TNat n) THsp).

(* The functions of one argument, with the checks on the hidden dependencies in
   the taylor_diff() of each of them. *)
Definition t_unary (u : ufun) (x : ex) (deps : list nat) (n i : nat) : option code :=
  let f := Fu u in
  let with1 F := dep1 deps (fun c => tunary f x n (fun b => F b c)) in
  match u with
  | Uexp => dep0 deps (tunary f x n (d_exp n i))
  | Ulog => dep0 deps (tunary f x n (d_log n i))
  | Usin | Ucsin | Usinh | Ucosh => with1 (d_trig n)
  | Ucos | Uccos => with1 (d_cos n)
  | Utan => with1 (d_tan n)
  | Utanh => with1 (d_tanh n)
  | Usigmoid => with1 (d_sigmoid n i)
  | Uasin | Uasinh | Uacosh => with1 (d_asin n i)
  | Uacos => with1 (d_acos n i)
  | Uatan => with1 (d_atan n i)
  | Uatanh => with1 (d_atanh n i)
  | Uerf => with1 (d_erf n)
  end.

(* sum.cpp:185-236. *)
Definition t_sum (args : list ex) (n : nat) : option code :=
  match resolve_all args with Some l => Some (TPSum (map (at_ord n) l)) | None => None end.
(* prod.cpp:315-437. *)
Definition t_prod (x y : ex) (n : nat) : option code :=
  match resolve x, resolve y with
  | Some (AC c), Some (AC d) =>
      Some (if Nat.eqb n 0 then (if is_m1 x then TNeg d else TMul c d) else zero)
  | Some (AC c), Some (AU j) => Some (if is_m1 x then TNeg (ld n j) else TMul c (ld n j))
  | Some (AU j), Some (AC c) => Some (TMul c (ld n j))
  | Some (AU a), Some (AU b) => Some (psum 0 n (fun j => TMul (ld (n - j) a) (ld j b)))
  | _, _ => None
  end.
(* pow.cpp:371-385 (constants), 387-425 (square), 427-480 (sqrt), 482-551 (general case). *)
Definition d_square (n b : nat) : code :=
  if Nat.odd n
  then let s := psum 0 ((n - 1) / 2) (fun j => TMul (ld (n - j) b) (ld j b)) in TAdd s s
  else let s := psum 0 ((n - 2) / 2) (fun j => TMul (ld (n - j) b) (ld j b)) in
       TAdd (TAdd s s) (TMul (ld (n / 2) b) (ld (n / 2) b)).
Definition d_sqrt (n i b : nat) : code :=
  let fac1 := if Nat.odd n then ld n b else TSub (ld n b) (TMul (ld (n / 2) i) (ld (n / 2) i)) in
  let hi := if Nat.odd n then (n - 1) / 2 else (n - 2) / 2 in
  let fac2 := if Nat.leb 1 hi
              then let s := psum 1 hi (fun j => TMul (ld (n - j) i) (ld j i)) in TSub fac1 (TAdd s s)
              else fac1 in
  TDiv fac2 (TAdd (ld 0 i) (ld 0 i)).
Definition d_pow (n i b : nat) (alpha : code) : code :=
  TDiv (psum 0 (n - 1) (fun j => TMul (TSub (TMul (TNat n) alpha) (TMul (TNat j) (TAdd alpha (TNat 1))))
                                      (TMul (ld (n - j) b) (ld j i))))
       (TMul (TNat n) (ld 0 b)).
Definition t_pow (x y : ex) (n i : nat) : option code :=
  match resolve x, resolve y with
  | Some (AC c), Some (AC d) => Some (if Nat.eqb n 0 then TApp Fpow [c; d] else zero)
  | Some (AU b), Some (AC d) =>
      Some (if Nat.eqb n 0 then TApp Fpow [ld 0 b; d]
            else if is_sqrt y then d_sqrt n i b
            else if is_square y then d_square n b
            else d_pow n i b d)
  | _, _ => None
  end.
(* src/detail/sub.cpp:60-160. *)
Definition t_sub_ (x y : ex) (n : nat) : option code :=
  match resolve x, resolve y with
  | Some (AC c), Some (AC d) => Some (if Nat.eqb n 0 then TSub c d else zero)
  | Some (AC c), Some (AU j) => Some (if Nat.eqb n 0 then TSub c (ld 0 j) else TNeg (ld n j))
  | Some (AU j), Some (AC c) => Some (if Nat.eqb n 0 then TSub (ld 0 j) c else ld n j)
  | Some (AU a), Some (AU b) => Some (TSub (ld n a) (ld n b))
  | _, _ => None
  end.
(* src/detail/div.cpp:64-181. *)
Definition t_div_ (x y : ex) (n i : nat) : option code :=
  match resolve x, resolve y with
  | Some (AC c), Some (AC d) => Some (if Nat.eqb n 0 then TDiv c d else zero)
  | Some (AU j), Some (AC c) => Some (TDiv (ld n j) c)
  | Some a, Some (AU b) =>
      Some (if Nat.eqb n 0 then TDiv (at_ord 0 a) (ld 0 b)
            else let s := psum 1 n (fun j => TMul (ld (n - j) i) (ld j b)) in
                 TDiv (match a with AC _ => TNeg s | AU j => TSub (ld n j) s end) (ld 0 b))
  | _, _ => None
  end.
(* src/detail/sum_sq.cpp:100-234. *)
Definition sq_terms (n hi : nat) (a : targ) : code :=
  match a with
  | AU b => psum 0 hi (fun j => TMul (ld (n - j) b) (ld j b))
  | AC _ => TPSum [zero]
  end.
Definition sq_mid (n : nat) (a : targ) : code :=
  match a with
  | AU b => TMul (ld (n / 2) b) (ld (n / 2) b)
  | AC c => if Nat.eqb n 0 then TMul c c else zero
  end.
Definition t_sumsq (args : list ex) (n : nat) : option code :=
  match resolve_all args with
  | Some l =>
      Some (if Nat.odd n
            then let s := TPSum (map (sq_terms n ((n - 1) / 2)) l) in TAdd s s
            else TPSum (map (fun a => if Nat.ltb 0 n
                                      then let s := sq_terms n ((n - 2) / 2) a in TAdd (TAdd s s) (sq_mid n a)
                                      else sq_mid n a) l))
  | None => None
  end.
(* atan2.cpp:115-313: number(-j) is written TNeg (TNat j). *)
Definition t_atan2 (y x : ex) (deps : list nat) (n i : nat) : option code :=
  dep1 deps (fun d =>
    match resolve y, resolve x with
    | Some a, Some b =>
        Some (if Nat.eqb n 0 then TApp Fatan2 [at_ord 0 a; at_ord 0 b]
              else
                let nd j := TMul (TNeg (TNat j)) (TMul (ld (n - j) d) (ld j i)) in
                let more c f := if Nat.ltb 1 n then TAdd c (psum 1 (n - 1) f) else c in
                match a, b with
                | AC _, AC _ => zero
                | AU jy, AC cx => TDiv (more (TMul (TNat n) (TMul cx (ld n jy))) nd) (TMul (TNat n) (ld 0 d))
                | AC cy, AU jx => TDiv (more (TMul (TNeg (TNat n)) (TMul cy (ld n jx))) nd) (TMul (TNat n) (ld 0 d))
                | AU jy, AU jx =>
                    TDiv (more (TMul (TNat n) (TSub (TMul (ld 0 jx) (ld n jy)) (TMul (ld 0 jy) (ld n jx))))
                               (fun j => fac j (TSub (TSub (TMul (ld (n - j) jx) (ld j jy)) (TMul (ld (n - j) jy) (ld j jx)))
                                                     (TMul (ld (n - j) d) (ld j i)))))
                         (TMul (TNat n) (ld 0 d))
                end)
    | _, _ => None
    end).
(* kepE.cpp:144-393: c = e cos E, s = sin E. *)
Definition t_kepE (e M : ex) (deps : list nat) (n i : nat) : option code :=
  match deps with
  | [c; s] =>
      match resolve e, resolve M with
      | Some a, Some b =>
          Some (if Nat.eqb n 0 then TApp FkepE [at_ord 0 a; at_ord 0 b]
                else
                  let div := TMul (TNat n) (TSub (TNat 1) (ld 0 c)) in
                  let more t f := if Nat.ltb 1 n then TAdd t (psum 1 (n - 1) f) else t in
                  let ca j := TMul (ld (n - j) c) (ld j i) in
                  match a, b with
                  | AC _, AC _ => zero
                  | AU je, AC _ => TDiv (more (fac n (TMul (ld n je) (ld 0 s)))
                                              (fun j => fac j (TAdd (ca j) (TMul (ld (n - j) s) (ld j je))))) div
                  | AC _, AU jM => TDiv (more (fac n (ld n jM)) (fun j => fac j (ca j))) div
                  | AU je, AU jM => TDiv (more (fac n (TAdd (TMul (ld n je) (ld 0 s)) (ld n jM)))
                                               (fun j => fac j (TAdd (ca j) (TMul (ld (n - j) s) (ld j je))))) div
                  end)
      | _, _ => None
      end
  | _ => None
  end.
(* kepF.cpp:163-745: c = h sin F, d = k cos F, e = sin F, f = cos F. *)
Definition t_kepF (h k lam : ex) (deps : list nat) (n i : nat) : option code :=
  match deps with
  | [c; d; e; f] =>
      match resolve h, resolve k, resolve lam with
      | Some ah, Some ak, Some al =>
          Some (if Nat.eqb n 0 then TApp FkepF [at_ord 0 ah; at_ord 0 ak; at_ord 0 al]
                else
                  let div := TMul (TNat n) (TSub (TSub (TNat 1) (ld 0 c)) (ld 0 d)) in
                  let more t g := if Nat.ltb 1 n then TAdd t (psum 1 (n - 1) g) else t in
                  let cd j := TAdd (ld (n - j) c) (ld (n - j) d) in
                  let acd j := TMul (ld j i) (cd j) in
                  let ke j jk := TMul (ld j jk) (ld (n - j) e) in
                  let hf j jh := TMul (ld j jh) (ld (n - j) f) in
                  match ah, ak, al with
                  | AC _, AC _, AC _ => zero
                  | AC _, AC _, AU jl => TDiv (more (fac n (ld n jl)) (fun j => TMul (cd j) (fac j (ld j i)))) div
                  | AC _, AU jk, AC _ => TDiv (more (TMul (fac n (ld n jk)) (ld 0 e))
                                                    (fun j => fac j (TAdd (acd j) (ke j jk)))) div
                  | AU jh, AC _, AC _ => TDiv (more (TNeg (TMul (fac n (ld n jh)) (ld 0 f)))
                                                    (fun j => fac j (TSub (acd j) (hf j jh)))) div
                  | AC _, AU jk, AU jl => TDiv (more (fac n (TAdd (TMul (ld n jk) (ld 0 e)) (ld n jl)))
                                                     (fun j => fac j (TAdd (acd j) (ke j jk)))) div
                  | AU jh, AC _, AU jl => TDiv (more (fac n (TSub (ld n jl) (TMul (ld n jh) (ld 0 f))))
                                                     (fun j => fac j (TSub (acd j) (hf j jh)))) div
                  | AU jh, AU jk, AC _ => TDiv (more (fac n (TSub (TMul (ld n jk) (ld 0 e)) (TMul (ld n jh) (ld 0 f))))
                                                     (fun j => fac j (TAdd (acd j) (TSub (ke j jk) (hf j jh))))) div
                  | AU jh, AU jk, AU jl =>
                      TDiv (more (fac n (TAdd (TSub (TMul (ld n jk) (ld 0 e)) (TMul (ld n jh) (ld 0 f))) (ld n jl)))
                                 (fun j => fac j (TAdd (acd j) (TSub (ke j jk) (hf j jh))))) div
                  end)
      | _, _, _ => None
      end
  | _ => None
  end.
(* relu.cpp:144-175. *)
Definition t_relu (sl : nm) (x : ex) (n : nat) : option code :=
  match resolve x with
  | Some (AU b) => Some (TPos (ld 0 b) (ld n b) (if n_isz o 0%Z sl then zero else TMul (TNum sl) (ld n b)))
  | Some (AC c) => Some (if Nat.eqb n 0 then TApp (Frelu sl) [c] else zero)
  | None => None
  end.
(* select.cpp:89-142. *)
Definition t_select (c a b : ex) (n : nat) : option code :=
  match resolve c, resolve a, resolve b with
  | Some rc, Some ra, Some rb => Some (TApp Fselect [at_ord 0 rc; at_ord n ra; at_ord n rb])
  | _, _, _ => None
  end.
(* relu.cpp:392-418, relational.cpp:199-235, logical.cpp:95-131 and 268-304,
   constants.cpp:258-273, src/detail/num_identity.cpp:42-57: constant
   functions, or functions whose derivative is zero. *)
Definition t_flat (f : fid nm) (args : list ex) (n : nat) : option code :=
  match resolve_all args with
  | Some l => Some (if Nat.eqb n 0 then TApp f (map (at_ord 0) l) else zero)
  | None => None
  end.
(* time.cpp:82-100. *)
Definition t_time (n : nat) : code :=
  if Nat.eqb n 0 then TApp Ftime [] else if Nat.eqb n 1 then TNat 1 else zero.

(* taylor_diff(), src/func.cpp:424-460, taylor_02.cpp: the code computing the
   derivative of order n of the element of index i. A number of arguments which
   the constructors of the functions exclude gives None here. kepDE() and dfun()
   do not implement the Taylor derivative: an exception; so do here the
   user-defined functions, whose implementations are not modelled. *)
Definition tdiff (f : fid nm) (args : list ex) (deps : list nat) (n i : nat) : option code :=
  match f, args with
  | Fsum, _ => dep0 deps (t_sum args n)
  | Fprod, [x; y] => dep0 deps (t_prod x y n)
  | Fpow, [x; y] => dep0 deps (t_pow x y n i)
  | Fsub, [x; y] => dep0 deps (t_sub_ x y n)
  | Fdiv, [x; y] => dep0 deps (t_div_ x y n i)
  | Fsumsq, _ => dep0 deps (t_sumsq args n)
  | Fu u, [x] => t_unary u x deps n i
  | Fatan2, [y; x] => t_atan2 y x deps n i
  | FkepE, [e; M] => t_kepE e M deps n i
  | FkepF, [h; k; lam] => t_kepF h k lam deps n i
  | Frelu sl, [x] => dep0 deps (t_relu sl x n)
  | Fselect, [c; a; b] => dep0 deps (t_select c a b n)
  | Frelup _, [_] | Frel _, [_; _] | Fland, _ | Flor, _ | Fpi, [] => dep0 deps (t_flat f args n)
  | Fnumid, [ENum _] => dep0 deps (t_flat f args n)
  | Ftime, [] => dep0 deps (Some (t_time n))
  | _, _ => None
  end.

(* ===== Compact mode: the taylor_c_diff_func() member functions ===== *)
(* One LLVM function per kind of function, called with the order and the indices. *)
Definition cunary (f : fid nm) (x : ex) (n : nat) (formula : nat -> code) : option code :=
  match resolve x with
  | Some (AU b) => Some (if Nat.eqb n 0 then TApp f [ld 0 b] else formula b)
  | Some (AC c) => Some (if Nat.eqb n 0 then TApp f [c] else zero)
  | None => None
  end.
(* exp.cpp:180-263. *)
Definition c_exp (n i b : nat) : code :=
  TDiv (TLoop 1 (n + 1) (fun j => fac j (TMul (ld (n - j) i) (ld j b)))) (TNat n).
(* log.cpp:194-283. *)
Definition c_log (n i b : nat) : code :=
  TDiv (TSub (TMul (TNat n) (ld n b)) (TLoop 1 n (fun j => fac j (TMul (ld (n - j) b) (ld j i))))) (TMul (TNat n) (ld 0 b)).
(* sin.cpp:258-335, sinh.cpp:214-293, cosh.cpp:212-292. *)
Definition c_trig (n b c : nat) : code :=
  TDiv (TLoop 1 (n + 1) (fun j => fac j (TMul (ld (n - j) c) (ld j b)))) (TNat n).
(* cos.cpp:258-335. *)
Definition c_cos (n b c : nat) : code :=
  TDiv (TLoop 1 (n + 1) (fun j => fac j (TMul (ld (n - j) c) (ld j b)))) (TNeg (TNat n)).
(* tan.cpp:204-287. *)
Definition c_tan (n b c : nat) : code :=
  TAdd (ld n b) (TDiv (TLoop 1 (n + 1) (fun j => fac j (TMul (ld (n - j) c) (ld j b)))) (TNat n)).
(* tanh.cpp:213-296. *)
Definition c_tanh (n b c : nat) : code :=
  TSub (ld n b) (TDiv (TLoop 1 (n + 1) (fun j => fac j (TMul (ld (n - j) c) (ld j b)))) (TNat n)).
(* sigmoid.cpp:244-332. *)
Definition c_sigmoid (n i b c : nat) : code :=
  TDiv (TLoop 1 (n + 1) (fun j => TMul (TMul (TSub (ld (n - j) i) (ld (n - j) c)) (ld j b)) (TNat j))) (TNat n).
(* asin.cpp:243-340, asinh.cpp:236-333, acosh.cpp:236-333. *)
Definition c_asin (n i b c : nat) : code :=
  TDiv (TSub (TMul (TNat n) (ld n b)) (TLoop 1 n (fun j => fac j (TMul (ld (n - j) c) (ld j i))))) (TMul (TNat n) (ld 0 c)).
(* acos.cpp:244-342. *)
Definition c_acos (n i b c : nat) : code :=
  TDiv (TAdd (TMul (TNat n) (ld n b)) (TLoop 1 n (fun j => fac j (TMul (ld (n - j) c) (ld j i))))) (TNeg (TMul (TNat n) (ld 0 c))).
(* atan.cpp:230-331. *)
Definition c_atan (n i b c : nat) : code :=
  TDiv (TSub (TMul (TNat n) (ld n b)) (TLoop 1 n (fun j => fac j (TMul (ld (n - j) c) (ld j i)))))
       (TMul (TNat n) (TAdd (ld 0 c) (TNat 1))).
(* atanh.cpp:230-331. *)
Definition c_atanh (n i b c : nat) : code :=
  TDiv (TAdd (TMul (TNat n) (ld n b)) (TLoop 1 n (fun j => fac j (TMul (ld (n - j) c) (ld j i)))))
       (TMul (TNat n) (TSub (TNat 1) (ld 0 c))).
(* erf.cpp:260-345. *)
Definition c_erf (n b c : nat) : code :=
  TDiv (TLoop 1 (n + 1) (fun j => fac j (TMul (ld (n - j) c) (ld j b)))) (TMul THsp (TNat n)).
(* The hidden dependencies are passed as arguments; those with a variable
   argument only are used. The number of dependencies is checked by
   func_taylor_c_diff_func and taylor_c_diff_get_n_hidden_deps (taylor_02.cpp). *)
Definition c_unary (u : ufun) (x : ex) (deps : list nat) (n i : nat) : option code :=
  let f := Fu u in
  let with1 F := dep1 deps (fun c => cunary f x n (fun b => F b c)) in
  match u with
  | Uexp => dep0 deps (cunary f x n (c_exp n i))
  | Ulog => dep0 deps (cunary f x n (c_log n i))
  | Usin | Ucsin | Usinh | Ucosh => with1 (c_trig n)
  | Ucos | Uccos => with1 (c_cos n)
  | Utan => with1 (c_tan n)
  | Utanh => with1 (c_tanh n)
  | Usigmoid => with1 (c_sigmoid n i)
  | Uasin | Uasinh | Uacosh => with1 (c_asin n i)
  | Uacos => with1 (c_acos n i)
  | Uatan => with1 (c_atan n i)
  | Uatanh => with1 (c_atanh n i)
  | Uerf => with1 (c_erf n)
  end.
(* sum.cpp:250-363. *)
Definition c_sum (args : list ex) (n : nat) : option code :=
  match resolve_all args with Some l => Some (TPSum (map (at_ord n) l)) | None => None end.
(* prod.cpp:443-737. *)
Definition c_prod (x y : ex) (n : nat) : option code :=
  match resolve x, resolve y with
  | Some (AC c), Some (AC d) =>
      Some (if Nat.eqb n 0 then (if is_m1 x then TNeg d else TMul c d) else zero)
  | Some (AC c), Some (AU j) => Some (if is_m1 x then TNeg (ld n j) else TMul (ld n j) c)
  | Some (AU j), Some (AC c) => Some (TMul (ld n j) c)
  | Some (AU a), Some (AU b) => Some (TLoop 0 (n + 1) (fun j => TMul (ld (n - j) a) (ld j b)))
  | _, _ => None
  end.
(* pow.cpp:603-980. *)
Definition c_square (n b : nat) : code :=
  if Nat.odd n
  then let s := TLoop 0 ((n - 1) / 2 + 1) (fun j => TMul (ld (n - j) b) (ld j b)) in TAdd s s
  else let s := TLoop 0 ((n - 2) / 2 + 1) (fun j => TMul (ld (n - j) b) (ld j b)) in
       TAdd (TAdd s s) (TMul (ld (n / 2) b) (ld (n / 2) b)).
Definition c_sqrt (n i b : nat) : code :=
  let upper := (n - (if Nat.even n then 2 else 1)) / 2 in
  let acc := TLoop 1 (upper + 1) (fun j => TMul (ld (n - j) i) (ld j i)) in
  let ret := if Nat.even n then TSub (ld n b) (TMul (ld (n / 2) i) (ld (n / 2) i)) else ld n b in
  TDiv (TSub ret (TAdd acc acc)) (TAdd (ld 0 i) (ld 0 i)).
Definition c_pow_ (n i b : nat) (alpha : code) : code :=
  TDiv (TLoop 0 n (fun j => TMul (TSub (TMul (TNat n) alpha) (TMul (TNat j) (TAdd alpha (TNat 1))))
                                 (TMul (ld (n - j) b) (ld j i))))
       (TMul (TNat n) (ld 0 b)).
Definition c_pow (x y : ex) (n i : nat) : option code :=
  match resolve x, resolve y with
  | Some (AC c), Some (AC d) => Some (if Nat.eqb n 0 then TApp Fpow [c; d] else zero)
  | Some (AU b), Some (AC d) =>
      Some (if Nat.eqb n 0 then TApp Fpow [ld 0 b; d]
            else if is_sqrt y then c_sqrt n i b
            else if is_square y then c_square n b
            else c_pow_ n i b d)
  | _, _ => None
  end.
(* src/detail/sub.cpp:163-405. *)
Definition c_sub_ (x y : ex) (n : nat) : option code :=
  match resolve x, resolve y with
  | Some (AC c), Some (AC d) => Some (if Nat.eqb n 0 then TSub c d else zero)
  | Some (AC c), Some (AU j) => Some (if Nat.eqb n 0 then TSub c (ld 0 j) else TNeg (ld n j))
  | Some (AU j), Some (AC c) => Some (if Nat.eqb n 0 then TSub (ld 0 j) c else ld n j)
  | Some (AU a), Some (AU b) => Some (TSub (ld n a) (ld n b))
  | _, _ => None
  end.
(* src/detail/div.cpp:189-436: var/var has no special case for order 0. *)
Definition c_div_ (x y : ex) (n i : nat) : option code :=
  match resolve x, resolve y with
  | Some (AC c), Some (AC d) => Some (if Nat.eqb n 0 then TDiv c d else zero)
  | Some (AU j), Some (AC c) => Some (TDiv (ld n j) c)
  | Some (AC c), Some (AU b) =>
      Some (if Nat.eqb n 0 then TDiv c (ld 0 b)
            else TDiv (TNeg (TLoop 1 (n + 1) (fun j => TMul (ld j b) (ld (n - j) i)))) (ld 0 b))
  | Some (AU a), Some (AU b) =>
      Some (TDiv (TSub (ld n a) (TLoop 1 (n + 1) (fun j => TMul (ld j b) (ld (n - j) i)))) (ld 0 b))
  | _, _ => None
  end.
(* src/detail/sum_sq.cpp:250-465: one accumulator per argument. *)
Definition csq_acc (n hi : nat) (a : targ) : code :=
  match a with
  | AU b => TLoop 0 hi (fun j => TMul (ld (n - j) b) (ld j b))
  | AC _ => zero
  end.
Definition csq_mid (n : nat) (a : targ) : code :=
  match a with
  | AU b => TMul (ld (n / 2) b) (ld (n / 2) b)
  | AC c => let v := if Nat.eqb n 0 then c else zero in TMul v v
  end.
Definition c_sumsq (args : list ex) (n : nat) : option code :=
  match resolve_all args with
  | Some l =>
      Some (if Nat.odd n
            then let s := TPSum (map (csq_acc n ((n - 1) / 2 + 1)) l) in TAdd s s
            else TPSum (map (fun a => let acc := if Nat.eqb n 0 then zero else csq_acc n ((n - 2) / 2 + 1) a in
                                      TAdd (TAdd acc acc) (csq_mid n a)) l))
  | None => None
  end.
(* atan2.cpp:369-705. *)
Definition c_atan2 (y x : ex) (deps : list nat) (n i : nat) : option code :=
  dep1 deps (fun d =>
    match resolve y, resolve x with
    | Some a, Some b =>
        Some (if Nat.eqb n 0 then TApp Fatan2 [at_ord 0 a; at_ord 0 b]
              else
                let da := TLoop 1 n (fun j => fac j (TMul (ld (n - j) d) (ld j i))) in
                let div := TMul (TNat n) (ld 0 d) in
                match a, b with
                | AC _, AC _ => zero
                | AU jy, AC cx => TDiv (TSub (TMul (TMul (TNat n) cx) (ld n jy)) da) div
                | AC cy, AU jx => TDiv (TSub (TMul (TMul (TNeg (TNat n)) cy) (ld n jx)) da) div
                | AU jy, AU jx =>
                    TDiv (TAdd (TMul (TNat n) (TSub (TMul (ld 0 jx) (ld n jy)) (TMul (ld 0 jy) (ld n jx))))
                               (TLoop 1 n (fun j => fac j (TSub (TSub (TMul (ld (n - j) jx) (ld j jy)) (TMul (ld (n - j) jy) (ld j jx)))
                                                                (TMul (ld (n - j) d) (ld j i))))))
                         div
                end)
    | _, _ => None
    end).
(* kepE.cpp:409-780. *)
Definition c_kepE (e M : ex) (deps : list nat) (n i : nat) : option code :=
  match deps with
  | [c; s] =>
      match resolve e, resolve M with
      | Some a, Some b =>
          Some (if Nat.eqb n 0 then TApp FkepE [at_ord 0 a; at_ord 0 b]
                else
                  let div := TMul (TNat n) (TSub (TNat 1) (ld 0 c)) in
                  let ca j := TMul (ld (n - j) c) (ld j i) in
                  match a, b with
                  | AC _, AC _ => zero
                  | AU je, AC _ => TDiv (TAdd (TMul (fac n (ld n je)) (ld 0 s))
                                              (TLoop 1 n (fun j => fac j (TAdd (ca j) (TMul (ld (n - j) s) (ld j je)))))) div
                  | AC _, AU jM => TDiv (TAdd (fac n (ld n jM)) (TLoop 1 n (fun j => fac j (ca j)))) div
                  | AU je, AU jM => TDiv (TAdd (fac n (TAdd (TMul (ld n je) (ld 0 s)) (ld n jM)))
                                               (TLoop 1 n (fun j => fac j (TAdd (ca j) (TMul (ld (n - j) s) (ld j je)))))) div
                  end)
      | _, _ => None
      end
  | _ => None
  end.
(* kepF.cpp:790-1700. *)
Definition c_kepF (h k lam : ex) (deps : list nat) (n i : nat) : option code :=
  match deps with
  | [c; d; e; f] =>
      match resolve h, resolve k, resolve lam with
      | Some ah, Some ak, Some al =>
          Some (if Nat.eqb n 0 then TApp FkepF [at_ord 0 ah; at_ord 0 ak; at_ord 0 al]
                else
                  let div := TMul (TNat n) (TSub (TSub (TNat 1) (ld 0 c)) (ld 0 d)) in
                  let more t g := TAdd t (TLoop 1 n g) in
                  let cd j := TAdd (ld (n - j) c) (ld (n - j) d) in
                  let acd j := TMul (ld j i) (cd j) in
                  let ke j jk := TMul (ld j jk) (ld (n - j) e) in
                  let hf j jh := TMul (ld j jh) (ld (n - j) f) in
                  match ah, ak, al with
                  | AC _, AC _, AC _ => zero
                  | AC _, AC _, AU jl => TDiv (more (fac n (ld n jl)) (fun j => TMul (fac j (ld j i)) (cd j))) div
                  | AC _, AU jk, AC _ => TDiv (more (TMul (fac n (ld n jk)) (ld 0 e))
                                                    (fun j => fac j (TAdd (acd j) (ke j jk)))) div
                  | AU jh, AC _, AC _ => TDiv (more (TNeg (TMul (fac n (ld n jh)) (ld 0 f)))
                                                    (fun j => fac j (TSub (acd j) (hf j jh)))) div
                  | AC _, AU jk, AU jl => TDiv (more (fac n (TAdd (TMul (ld n jk) (ld 0 e)) (ld n jl)))
                                                     (fun j => fac j (TAdd (acd j) (ke j jk)))) div
                  | AU jh, AC _, AU jl => TDiv (more (fac n (TSub (ld n jl) (TMul (ld n jh) (ld 0 f))))
                                                     (fun j => fac j (TSub (acd j) (hf j jh)))) div
                  | AU jh, AU jk, AC _ => TDiv (more (fac n (TSub (TMul (ld n jk) (ld 0 e)) (TMul (ld n jh) (ld 0 f))))
                                                     (fun j => fac j (TAdd (acd j) (TSub (ke j jk) (hf j jh))))) div
                  | AU jh, AU jk, AU jl =>
                      TDiv (more (fac n (TAdd (TSub (TMul (ld n jk) (ld 0 e)) (TMul (ld n jh) (ld 0 f))) (ld n jl)))
                                 (fun j => fac j (TAdd (acd j) (TSub (ke j jk) (hf j jh))))) div
                  end)
      | _, _, _ => None
      end
  | _ => None
  end.
(* relu.cpp:221-300. *)
Definition c_relu (sl : nm) (x : ex) (n : nat) : option code :=
  match resolve x with
  | Some (AU b) => Some (TPos (ld 0 b) (ld n b) (if n_isz o 0%Z sl then zero else TMul (TNum sl) (ld n b)))
  | Some (AC c) => Some (if Nat.eqb n 0 then TApp (Frelu sl) [c] else zero)
  | None => None
  end.
(* select.cpp:144-260. *)
Definition c_select (c a b : ex) (n : nat) : option code :=
  match resolve c, resolve a, resolve b with
  | Some rc, Some ra, Some rb => Some (TApp Fselect [at_ord 0 rc; at_ord n ra; at_ord n rb])
  | _, _, _ => None
  end.
(* relu.cpp:465-548, relational.cpp:237-335, logical.cpp:136-240, constants.cpp:
   275-335, src/detail/num_identity.cpp:59-76. *)
Definition c_flat (f : fid nm) (args : list ex) (n : nat) : option code :=
  match resolve_all args with
  | Some l => Some (if Nat.eqb n 0 then TApp f (map (at_ord 0) l) else zero)
  | None => None
  end.
(* time.cpp:119-190. *)
Definition c_time (n : nat) : code :=
  if Nat.eqb n 0 then TApp Ftime [] else if Nat.eqb n 1 then TNat 1 else zero.

Definition cdiff (f : fid nm) (args : list ex) (deps : list nat) (n i : nat) : option code :=
  match f, args with
  | Fsum, _ => dep0 deps (c_sum args n)
  | Fprod, [x; y] => dep0 deps (c_prod x y n)
  | Fpow, [x; y] => dep0 deps (c_pow x y n i)
  | Fsub, [x; y] => dep0 deps (c_sub_ x y n)
  | Fdiv, [x; y] => dep0 deps (c_div_ x y n i)
  | Fsumsq, _ => dep0 deps (c_sumsq args n)
  | Fu u, [x] => c_unary u x deps n i
  | Fatan2, [y; x] => c_atan2 y x deps n i
  | FkepE, [e; M] => c_kepE e M deps n i
  | FkepF, [h; k; lam] => c_kepF h k lam deps n i
  | Frelu sl, [x] => dep0 deps (c_relu sl x n)
  | Fselect, [c; a; b] => dep0 deps (c_select c a b n)
  | Frelup _, [_] | Frel _, [_; _] | Fland, _ | Flor, _ | Fpi, [] => dep0 deps (c_flat f args n)
  | Fnumid, [ENum _] => dep0 deps (c_flat f args n)
  | Ftime, [] => dep0 deps (Some (c_time n))
  | _, _ => None
  end.

(* taylor_compute_sv_diff, taylor_02.cpp:245-285, and taylor_c_compute_sv_diffs in
   compact mode: the derivative of order n of a state variable, from the first
   derivative out. *)
Definition sv_code (out : ex) (n : nat) : option code :=
  match resolve out with
  | Some (AU j) => Some (TDiv (TLd (n - 1) j) (TNat n))
  | Some (AC c) => Some (if Nat.eqb n 1 then c else zero)
  | None => None
  end.
(* The element p of index i at order n: an element which is not a function is an
   exception (taylor_diff, taylor_01.cpp). *)
Definition elt_code (p : elt) (n i : nat) : option code :=
  match fst p with EFun f args => tdiff f args (snd p) n i | _ => None end.
Definition celt_code (p : elt) (n i : nat) : option code :=
  match fst p with EFun f args => cdiff f args (snd p) n i | _ => None end.

(* ===== Running the code, default mode: taylor_compute_jet, taylor_02.cpp:1306-1420 ===== *)
Section Jet.
Context {V : Type} (A : alg nm V) (T : tops V).
(* max_svf_idx: zero if there are no functions of the state. *)
Definition max_svf (sv : list nat) : nat := fold_right Nat.max 0 sv.

(* taylor_fetch_diff, taylor_01.cpp:265-276. *)
Definition fetch_diff (nu : nat) (arr : list V) (m j : nat) : mres V :=
  if Nat.ltb j nu then match nth_error arr (m * nu + j) with Some v => MDone v | None => MUB end else MUB.
(* Run a piece of code and append its value to diff_arr. *)
Definition push_code (nu : nat) (c : option code) (arr : list V) : mres (list V) :=
  match c with
  | Some c => mbind (trun A T (fetch_diff nu arr) c) (fun v => MDone (arr ++ [v]))
  | None => MThrow
  end.
Fixpoint push_elts (nu n i : nat) (mid : list elt) (arr : list V) : mres (list V) :=
  match mid with
  | [] => MDone arr
  | p :: r => mbind (push_code nu (elt_code p n i) arr) (push_elts nu n (S i) r)
  end.
Fixpoint push_svs (nu n : nat) (outs : list elt) (arr : list V) : mres (list V) :=
  match outs with
  | [] => MDone arr
  | p :: r => mbind (push_code nu (sv_code (fst p) n) arr) (push_svs nu n r)
  end.
(* The orders n, n + 1, ..., n + steps - 1. *)
Fixpoint push_orders (nu ne n steps : nat) (mid outs : list elt) (arr : list V) : mres (list V) :=
  match steps with
  | O => MDone arr
  | S k => mbind (push_svs nu n outs arr) (fun arr1 =>
           mbind (push_elts nu n ne mid arr1) (push_orders nu ne (S n) k mid outs))
  end.
Definition taylor_jet (d : dcmp o) (sv : list nat) (order : nat) (st : list V) : mres (list V) :=
  let ne := List.length (dc_in o d) in
  let mid := dc_mid o d in
  let nu := ne + List.length mid in
  mbind (push_elts nu 0 ne mid st) (fun arr0 =>
  mbind (push_orders nu ne 1 (order - 1) mid (dc_out o d) arr0) (fun arr1 =>
  mbind (push_svs nu order (dc_out o d) arr1) (fun arr2 =>
  mbind (push_elts nu order ne (firstn (S (max_svf sv) - ne) mid) arr2) (fun arr3 =>
  mseq (flat_map (fun m => map (fetch_diff nu arr3 m) (seq 0 ne ++ sv)) (seq 0 (S order))))))).

(* ===== Running the code, compact mode ===== *)
(* taylor_compute_jet_multi, taylor_02.cpp:983-1190, taylor_compute_jet_compact_mode,
   taylor_02.cpp:1194-1262. The derivatives are stored in a tape of size elements,
   whose contents at the beginning are arbitrary: None when the tape is too small. *)
Definition tape := nat -> V.
Definition tape_size (ne nu order : nat) (sv : list nat) : nat :=
  if Nat.ltb (max_svf sv) ne then nu * order + ne else nu * (order + 1).
(* taylor_c_load_diff, taylor_01.cpp:280-291. *)
Definition load (size nu : nat) (tp : tape) (m j : nat) : mres V :=
  if Nat.ltb (m * nu + j) size then MDone (tp (m * nu + j)) else MUB.
(* A group of derivatives of order n of the u variables i, i + 1, ... computed
   by concurrent workers: the elements of a segment, or the state variables. tp
   and tp' are the tapes before and after. Every load of every worker reads a
   value stored before, or by a worker of the same group: rds k is what the k-th
   worker reads. Whatever the order of the operations, the result is one of those
   described by this relation. *)
Definition group_step (size nu n i : nat) (codes : list (option code)) (tp tp' : tape) : Prop :=
  (forall l, ~ (n * nu + i <= l < n * nu + i + List.length codes) -> tp' l = tp l) /\
  (forall k, k < List.length codes -> n * nu + i + k < size) /\
  forall k c, nth_error codes k = Some c ->
    exists e rd, c = Some e /\
      (forall m j, rd m j = load size nu tp m j \/ rd m j = load size nu tp' m j) /\
      trun A T rd e = MDone (tp' (n * nu + i + k)).
(* The segments one after the other. *)
Inductive segs_step (size nu n : nat) : nat -> list (list elt) -> tape -> tape -> Prop :=
| ss_nil i tp : segs_step size nu n i [] tp tp
| ss_cons i seg segs tp tp1 tp2 :
    group_step size nu n i (map (fun k => match nth_error seg k with
                                          | Some p => celt_code p n (i + k)
                                          | None => None
                                          end) (seq 0 (List.length seg))) tp tp1 ->
    segs_step size nu n (i + List.length seg) segs tp1 tp2 ->
    segs_step size nu n i (seg :: segs) tp tp2.
Inductive orders_step (size nu ne : nat) (segs : list (list elt)) (outs : list elt) : nat -> nat -> tape -> tape -> Prop :=
| os_nil n tp : orders_step size nu ne segs outs n 0 tp tp
| os_cons n k tp tp1 tp2 tp3 :
    group_step size nu n 0 (map (fun p => sv_code (fst p) n) outs) tp tp1 ->
    segs_step size nu n ne segs tp1 tp2 ->
    orders_step size nu ne segs outs (S n) k tp2 tp3 ->
    orders_step size nu ne segs outs n (S k) tp tp3.
(* The segments up to the one which contains index idx. *)
Fixpoint segs_until (i idx : nat) (segs : list (list elt)) : list (list elt) :=
  match segs with
  | [] => []
  | seg :: r => if Nat.ltb idx (i + List.length seg) then [seg] else seg :: segs_until (i + List.length seg) idx r
  end.
(* The tape after the computation of the jet, from any initial contents tp0. *)
Definition compact_jet (d : dcmp o) (sv : list nat) (order : nat) (st : list V) (tp0 tp : tape) : Prop :=
  let ne := List.length (dc_in o d) in
  let nu := ne + List.length (dc_mid o d) in
  let size := tape_size ne nu order sv in
  exists segs tp1 tp2 tp3 tp4, segment_dc o d = Some segs /\
    (forall l, tp1 l = match nth_error st l with Some v => v | None => tp0 l end) /\
    segs_step size nu 0 ne segs tp1 tp2 /\
    orders_step size nu ne segs (dc_out o d) 1 (order - 1) tp2 tp3 /\
    group_step size nu order 0 (map (fun p => sv_code (fst p) order) (dc_out o d)) tp3 tp4 /\
    segs_step size nu order ne (if Nat.leb ne (max_svf sv) then segs_until ne (max_svf sv) segs else []) tp4 tp.
(* The derivatives are read from the tape where the jet is (taylor_c_load_diff). *)
Definition tape_jet (d : dcmp o) (sv : list nat) (order : nat) (tp : tape) : mres (list V) :=
  let ne := List.length (dc_in o d) in
  let nu := ne + List.length (dc_mid o d) in
  mseq (flat_map (fun m => map (load (tape_size ne nu order sv) nu tp m) (seq 0 ne ++ sv)) (seq 0 (S order))).
End Jet.
End Gen.
Arguments AU {o}. Arguments AC {o}.
