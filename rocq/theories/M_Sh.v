(* Spherical harmonics gravity: the list of coefficients, the degree and the order,
   and the table of the solid harmonics, src/model/sh_gravity.cpp.

   The entries of the table (pairs of expressions) are of any type, and the formulas for them
   any functions: what is modelled is which entries are computed from which ones. *)
From Coq Require Import Bool ZArith List.
From Verif Require Import M_Dag M_Taylor.
Import ListNotations.
Local Open Scope Z_scope.

Definition u32 : Z := 2 ^ 32.
Definition u64 : Z := 2 ^ 64.
Section Sh.
(* std::array<expression, 2>. *)
Context {cs : Type}.

(* isqrt(), sh_gravity.cpp:45-64: on std::uint64_t, whose operations wrap. *)
Fixpoint isqrt_loop (fuel : nat) (y l r : Z) : mres Z :=
  if Z.eqb l ((r - 1) mod u64) then MDone (l mod u32)
  else match fuel with
       | O => MFuel
       | S fuel =>
         let m := ((l + r) mod u64) / 2 in
         if Z.leb ((m * m) mod u64) y then isqrt_loop fuel y m r else isqrt_loop fuel y l m
       end.
Definition isqrt (fuel : nat) (y : Z) : mres Z := isqrt_loop fuel y 0 ((y + 1) mod u64).

(* boost::safe_numerics::safe<std::uint32_t>: throws if the value does not fit. *)
Definition safe32 (z : Z) : mres Z := if Z.leb 0 z && Z.ltb z u32 then MDone z else MThrow.

(* sh_gravity_cs_getter_from_list(), sh_gravity.cpp:79-130: the maximum degree. *)
Definition max_degree_of_list (fuel : nat) (l : list cs) : mres Z :=
  let size := Z.of_nat (length l) in
  if Z.eqb size 0 then MThrow
  else
    mbind (safe32 size) (fun s => mbind (safe32 (8 * s)) (fun e => mbind (safe32 (e + 1)) (fun discr =>
    mbind (isqrt fuel discr) (fun i =>
    if negb (Z.eqb ((i * i) mod u32) discr) then MThrow
    else MDone ((((i - 1) mod u32) / 2 - 1) mod u32))))).
(* The function returned, sh_gravity.cpp:114-127: safe arithmetic on std::size_t (64 bits), and an access to
   the list without a check of the range. *)
Definition safe64 (z : Z) : mres Z := if Z.leb 0 z && Z.ltb z u64 then MDone z else MThrow.
Definition cs_get (l : list cs) (n m : Z) : mres cs :=
  mbind (safe64 (n + 1)) (fun n1 => mbind (safe64 (n * n1)) (fun p => mbind (safe64 (p / 2 + m)) (fun idx =>
  match nth_error l (Z.to_nat idx) with Some c => MDone c | None => MUB end))).

(* sh_gravity_resolve_n_m(), sh_gravity.cpp:146-173. *)
Definition resolve_n_m (max_degree max_order : option Z) (max_cs_n : Z) : mres (Z * Z) :=
  match max_degree with
  | None => match max_order with Some _ => MThrow | None => MDone (max_cs_n, max_cs_n) end
  | Some d =>
    if Z.ltb max_cs_n d then MThrow
    else match max_order with Some m => MDone (d, m) | None => MDone (d, d) end
  end.
(* sh_gravity_impl_common_checks(), sh_gravity.cpp:181-195: true if nothing is thrown. *)
Definition common_checks (n m : Z) : bool := if Z.eqb n (u32 - 1) then false else if Z.ltb n m then false else true.

(* --- the table --- *)
Context {vw : Type}.
(* The formulas: the entry (0, 0); an entry from the one above it (n = m + 1, sh_gravity.cpp:238-247);
   an entry from the two above it (:238-261); the next entry of the diagonal (:268-275). *)
Context (seed : vw) (rec1 : Z -> Z -> vw -> vw) (rec2 : Z -> Z -> vw -> vw -> vw) (diag : Z -> vw -> vw).
Definition smap : Type := list (Z * Z * vw).
Definition key_eqb (k k' : Z * Z) : bool := Z.eqb (fst k) (fst k') && Z.eqb (snd k) (snd k').
Fixpoint sfind (k : Z * Z) (t : smap) : option vw :=
  match t with [] => None | (k', v) :: t => if key_eqb k k' then Some v else sfind k t end.
(* at() throws if there is no such key; try_emplace() does not overwrite. *)
Definition sat (t : smap) (k : Z * Z) : mres vw := match sfind k t with Some v => MDone v | None => MThrow end.
Definition semplace (k : Z * Z) (v : vw) (t : smap) : smap := match sfind k t with Some _ => t | None => (k, v) :: t end.
(* sh_gravity_impl_make_rec_map(), sh_gravity.cpp:217-298: the loops, by the number of remaining iterations. *)
Fixpoint rec_inner (count : nat) (m n : Z) (t : smap) : mres smap :=
  match count with
  | O => MDone t
  | S count =>
    mbind (sat t (n - 1, m)) (fun p =>
    mbind (if Z.eqb n (m + 1) then MDone (rec1 n m p) else mbind (sat t (n - 2, m)) (fun p2 => MDone (rec2 n m p p2))) (fun v =>
    rec_inner count m (n + 1) (semplace (n, m) v t)))
  end.
Fixpoint rec_outer (count : nat) (max_n m : Z) (t : smap) : mres smap :=
  match count with
  | O => MDone t
  | S count =>
    mbind (rec_inner (Z.to_nat (max_n - m)) m (m + 1) t) (fun t =>
    mbind (sat t (m, m)) (fun v => rec_outer count max_n (m + 1) (semplace (m + 1, m + 1) (diag m v) t)))
  end.
Definition make_rec_map (max_n : Z) : mres smap :=
  if Z.eqb max_n (u32 - 1) then MThrow else rec_outer (Z.to_nat max_n) max_n 0 (semplace (0, 0) seed []).

(* The loops over i in [0, n] and j in [0, min(m, i)], sh_gravity.cpp:326-335 and :378-414. *)
Fixpoint mseq {A B} (f : A -> mres B) (l : list A) : mres (list B) :=
  match l with [] => MDone [] | a :: l => mbind (f a) (fun b => mbind (mseq f l) (fun bs => MDone (b :: bs))) end.
Definition zseq (k : Z) : list Z := map Z.of_nat (seq 0 (Z.to_nat k)).
Definition degrees (n m : Z) : list (Z * Z) := flat_map (fun i => map (fun j => (i, j)) (zseq (Z.min m i + 1))) (zseq (n + 1)).
(* sh_gravity_pot (sh_gravity.hpp:145-158) with sh_gravity_pot_impl(), sh_gravity.cpp:302-338: the terms of the sum, each
   with its degree, its order, its coefficients and the entry of the table. *)
Definition sh_pot_terms (fuel : nat) (l : list cs) (max_degree max_order : option Z) : mres (list (Z * Z * cs * vw)) :=
  mbind (max_degree_of_list fuel l) (fun max_n =>
  mbind (resolve_n_m max_degree max_order max_n) (fun nm =>
  let '(n, m) := nm in
  if common_checks n m then
    mbind (make_rec_map n) (fun t =>
    mseq (fun ij => mbind (cs_get l (fst ij) (snd ij)) (fun c => mbind (sat t ij) (fun v => MDone (ij, c, v)))) (degrees n m))
  else MThrow)).
(* sh_gravity_acc (sh_gravity.hpp:160-174) with sh_gravity_acc_impl(), sh_gravity.cpp:350-417: the entries used for a degree
   and an order: (i + 1, j + 1), (i + 1, j - 1) unless j = 0, and (i + 1, j). *)
Definition sh_acc_terms (fuel : nat) (l : list cs) (max_degree max_order : option Z) : mres (list (Z * Z * cs * (vw * option vw * vw))) :=
  mbind (max_degree_of_list fuel l) (fun max_n =>
  mbind (resolve_n_m max_degree max_order max_n) (fun nm =>
  let '(n, m) := nm in
  if common_checks n m then
    mbind (make_rec_map ((n + 1) mod u32)) (fun t =>
    mseq (fun ij =>
      let '(i, j) := ij in
      mbind (cs_get l i j) (fun c =>
      mbind (sat t (i + 1, j + 1)) (fun vp =>
      mbind (if Z.eqb j 0 then MDone None else mbind (sat t (i + 1, j - 1)) (fun v => MDone (Some v))) (fun vm =>
      mbind (sat t (i + 1, j)) (fun v => MDone (ij, c, (vp, vm, v))))))) (degrees n m))
  else MThrow)).
End Sh.
