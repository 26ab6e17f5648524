(* Hamiltonian and Lagrangian mechanics: src/hamiltonian.cpp, src/lagrangian.cpp. *)
From Coq Require Import String Bool ZArith NArith List.
From Verif Require Import M_Expr M_Dag M_Dec M_Taylor M_Dtens M_Var M_Adj.
Import ListNotations.
Local Open Scope nat_scope.

Section Mech.
Context (o : nops) (neq : num o -> num o -> bool) (feq : fid (num o) -> fid (num o) -> bool).
Local Notation ex := (expr (num o)).
Context (ug : string -> list ex -> option (list ex)) (share : list ex -> list (dag (num o))) (mode : nat -> nat -> bool).

(* The checks on one coordinate, momentum or velocity: hamiltonian.cpp:46-58, 60-72;
   lagrangian.cpp:51-63, 65-77. *)
Definition gen_name (e : ex) : mres string :=
  mbind (var_name o e) (fun s => if String.prefix "__" s then MThrow else MDone s).
(* The checks on the two lists: hamiltonian.cpp:36-92, lagrangian.cpp:41-97. All the
   elements are variables once the sets of expressions of lines 75-76 (80-81) are made: they
   are compared by name. *)
Definition state_names (qs ps : list ex) : mres (list string * list string) :=
  if negb (Nat.eqb (List.length qs) (List.length ps)) then MThrow
  else match qs with
  | [] => MThrow
  | _ =>
    mbind (mmap gen_name qs) (fun q =>
    mbind (mmap gen_name ps) (fun p =>
    if negb (nodupb q) then MThrow
    else if negb (nodupb p) then MThrow
    else if existsb (fun s => existsb (String.eqb s) p) q then MThrow
    else MDone (q, p)))
  end.
(* hamiltonian.cpp:95-100, lagrangian.cpp:100-105, 108-113. *)
Definition vars_within (e : ex) (l : list string) : bool := forallb (fun v => existsb (String.eqb v) l) (get_variables o [e]).

(* hamiltonian(), hamiltonian.cpp:104-144. The accesses to grad (lines 135, 140) are not
   checked by the code: those out of range are undefined behaviour. The overflow checks on
   the sizes are not modelled. *)
Definition hamiltonian (fuel : nat) (H : ex) (qs ps : list ex) : mres (list (ex * ex)) :=
  mbind (state_names qs ps) (fun '(q, p) =>
  if negb (vars_within H (q ++ p)) then MThrow
  else
  mbind (diff_tensors o neq feq ug share mode fuel [H] (DList o (qs ++ ps)) 1) (fun '(dt, _) =>
  match get_gradient dt with
  | None => MThrow
  | Some grad =>
    let n := List.length qs in
    mbind (mmap (fun '(i, x) => match nth_error grad (n + i) with Some g => MDone (x, g) | None => MUB end) (combine (seq 0 n) qs)) (fun l1 =>
    mbind (mmap (fun '(i, x) => match nth_error grad i with Some g => MDone (x, mk_neg o g) | None => MUB end) (combine (seq 0 n) ps)) (fun l2 =>
    MDone (l1 ++ l2)))
  end)).

(* --- Lagrangian ------------------------------------------------------------------------- *)
(* dtens::operator[] on an index of component 0. *)
Definition at_idx (dt : @dtens ex) (idx : list (N * N)) : mres ex :=
  match op_index_sparse dt (0%N, idx) with Some e => MDone e | None => MThrow end.
Definition ix (j : nat) (k : N) : N * N := (N.of_nat j, k).
(* One iteration of the outer loop of build_linmat(), lagrangian.cpp:170-217: the
   coefficients and the right-hand side of equation i. *)
Definition lin_row (n : nat) (ldt ddt : @dtens ex) (qdots : list ex) (i : nat) : mres (list ex) :=
  mbind (at_idx ldt [ix i 1]) (fun lq =>
  mbind (at_idx ldt [ix (n + i) 1; ix (n * 2) 1]) (fun lvt =>
  mbind (at_idx ddt [ix i 1]) (fun dv =>
  mbind (mmap (fun j =>
    mbind (at_idx ldt (if Nat.eqb i j then [ix (n + i) 2]
                       else if Nat.ltb i j then [ix (n + i) 1; ix (n + j) 1]
                       else [ix (n + j) 1; ix (n + i) 1])) (fun h =>
    mbind (at_idx ldt [ix j 1; ix (n + i) 1]) (fun lqv =>
    match nth_error qdots j with
    | None => MUB
    | Some qd => MDone (h, mk_mul o (mk_neg o lqv) qd)
    end))) (seq 0 n)) (fun cols =>
  MDone (map fst cols ++ [mk_sum o ([lq; mk_neg o lvt; mk_neg o dv] ++ map snd cols)]))))).
(* build_linmat(), lagrangian.cpp:153-220. A linmat (lines 120-144) is the list of its
   rows. *)
Definition build_linmat (n : nat) (ldt ddt : @dtens ex) (qdots : list ex) : mres (list (list ex)) :=
  mmap (lin_row n ldt ddt qdots) (seq 0 n).
(* linmat::operator(), lagrangian.cpp:126-131. The indices are in range (assertions of lines
   128-129); the model returns zero otherwise. *)
Definition col (r : list ex) (j : nat) : ex := nth j r (dbl o 0).
Definition cell (m : list (list ex)) (i j : nat) : ex := col (nth i m []) j.
(* ex_zero(), lagrangian.cpp:223-230. *)
Definition ex_zero (e : ex) : bool := match e with ENum n => n_isz o 0 n | _ => false end.
(* The search of the pivot, lagrangian.cpp:252-255, from row i; the number of rows if there
   is none. *)
Fixpoint pivot (l : list (list ex)) (k i : nat) : nat :=
  match l with
  | [] => i
  | r :: l' => if ex_zero (col r k) then pivot l' k (S i) else i
  end.
(* lagrangian.cpp:264. *)
Definition swap_rows (m : list (list ex)) (h i : nat) : list (list ex) := lset (lset m h (nth i m [])) i (nth h m []).
(* The body of the loop over the rows below the pivot, lagrangian.cpp:268-276; p is the row
   of the pivot, k its column. *)
Definition reduce (k : nat) (p r : list ex) : list ex :=
  let f := mk_div o (col r k) (col p k) in
  map (fun j => if Nat.ltb j k then col r j
                else if Nat.eqb j k then dbl o 0
                else mk_sub o (col r j) (mk_mul o (col p j) f)) (seq 0 (List.length r)).
(* The loop of the elimination, lagrangian.cpp:250-281. Every iteration moves to the next
   column: nk is the number of those left. *)
Fixpoint elim (nk : nat) (m : list (list ex)) (h k : nat) : list (list ex) :=
  match nk with
  | O => m
  | S nk' =>
    if Nat.ltb h (List.length m) then
      let i := pivot (skipn h m) k h in
      if Nat.eqb i (List.length m) then elim nk' m h (S k)
      else
        let m1 := swap_rows m h i in
        elim nk' (firstn (S h) m1 ++ map (reduce k (nth h m1 [])) (skipn (S h) m1)) (S h) (S k)
    else m
  end.
(* The back-substitution, lagrangian.cpp:284-302; i is the number of rows left, the last of
   them is the next. The last column is number m, as there are m + 1 (line 243). *)
Fixpoint back_subst (i : nat) (m : list (list ex)) : list (list ex) :=
  match i with
  | O => m
  | S i' =>
    let c := List.length m in
    let rhs := mk_sum o (cell m i' c :: map (fun j => mk_mul o (mk_neg o (cell m i' j)) (cell m j c)) (seq i (c - i))) in
    back_subst i' (lset m i' (lset (nth i' m []) c (mk_div o rhs (cell m i' i'))))
  end.
(* solve_linmat(), lagrangian.cpp:237-303. *)
Definition solve_linmat (m : list (list ex)) : list (list ex) :=
  back_subst (List.length m) (elim (List.length (nth 0 m [])) m 0 0).

(* lagrangian.cpp:321. *)
Definition tm_name : string := "__tm".
(* subs() with a map of one element, lagrangian.cpp:322, 358. *)
Definition subs1 (k v : ex) (e : ex) : ex := subs_ex o (look o neq feq [(k, v)]) e.
(* lagrangian(), lagrangian.cpp:309-373. *)
Definition lagrangian (fuel : nat) (L : ex) (qs qdots : list ex) (D : ex) : mres (list (ex * ex)) :=
  mbind (state_names qs qdots) (fun '(q, v) =>
  if negb (vars_within L (q ++ v)) then MThrow
  else if negb (vars_within D v) then MThrow
  else
  let n := List.length qs in
  let tm := EVar tm_name in
  let L' := subs1 (EFun Ftime []) tm L in
  mbind (diff_tensors o neq feq ug share mode fuel [L'] (DList o (qs ++ qdots ++ [tm])) 2) (fun '(ldt, _) =>
  mbind (diff_tensors o neq feq ug share mode fuel [D] (DList o qdots) 1) (fun '(ddt, _) =>
  mbind (build_linmat n ldt ddt qdots) (fun m =>
  let m' := solve_linmat m in
  let rhs := map (subs1 tm (EFun Ftime [])) (qdots ++ map (fun i => cell m' i n) (seq 0 n)) in
  MDone (combine (qs ++ qdots) rhs))))).
End Mech.
