(** Model of the derivative tensor container.
    Source: /repo/src/dtens.cpp (comparator 41-115, lookups 306-535,
    gradient/Jacobian/Hessian 537-609, get_nargs/get_nouts 611-671) and
    /repo/src/expression_diff.cpp:1243-1266 (sv_sanity_check). *)
From Coq Require Import List NArith Bool Arith.
Import ListNotations.
Local Open Scope N_scope.

(** dtens_sv_idx_t: (function component, list of (argument index, derivative order)).
    include/heyoka/expression.hpp: std::pair<std::uint32_t, std::vector<std::pair<std::uint32_t, std::uint32_t>>>. *)
Notation sidx := (N * list (N * N))%type.

Definition u32_max : N := 4294967295.

(** dtens.cpp:51-57: std::accumulate with boost safe_numerics uint32;
    [None] is the overflow exception. *)
Fixpoint sum_orders (acc : N) (l : list (N * N)) : option N :=
  match l with
  | [] => Some acc
  | (_, n) :: l' => if acc + n <=? u32_max then sum_orders (acc + n) l' else None
  end.

(** dtens.cpp:82-104: the loop over the two index/order lists. *)
Fixpoint cmp_loop (l1 l2 : list (N * N)) : bool :=
  match l1, l2 with
  | (idx1, n1) :: l1', (idx2, n2) :: l2' =>
      if idx1 <? idx2 then true
      else if idx2 <? idx1 then false
      else if n2 <? n1 then true
      else if n1 <? n2 then false
      else cmp_loop l1' l2'
  | _, _ => false
  end.

(** dtens.cpp:42-118 dtens_sv_idx_cmp_impl. [None]: exception from the degree computation.
    Simplification: the sanity-check assertions are not represented; the
    callers establish them. *)
Definition sv_cmp (v1 v2 : sidx) : option bool :=
  match sum_orders 0 (snd v1), sum_orders 0 (snd v2) with
  | Some deg1, Some deg2 =>
      Some (if deg1 <? deg2 then true
            else if deg2 <? deg1 then false
            else if fst v1 <? fst v2 then true
            else if fst v2 <? fst v1 then false
            else cmp_loop (snd v1) (snd v2))
  | _, _ => None
  end.

(** expression_diff.cpp:1243-1266 sv_sanity_check. *)
Fixpoint sv_sane_tail (prev : N) (l : list (N * N)) : bool :=
  match l with
  | [] => true
  | (i, n) :: l' => (prev <? i) && negb (n =? 0) && sv_sane_tail i l'
  end.
Definition sv_sane (v : sidx) : bool :=
  match snd v with
  | [] => true
  | (i, n) :: l' => negb (n =? 0) && sv_sane_tail i l'
  end.

Section Dtens.
Context {A : Type}.

(** dtens::impl: the flat map (a sorted sequence of key/value pairs) and the
    differentiation arguments, of which only the number matters here.
    Simplification: the payload is an arbitrary type instead of expression. *)
Record dtens := { dt_map : list (sidx * A); dt_nargs : N }.

(** boost::container::flat_map::lower_bound: binary search on the sequence.
    [None]: exception from the comparator. *)
Fixpoint lb_loop (fuel : nat) (l : list (sidx * A)) (k : sidx) (first len : nat) : option nat :=
  match fuel with
  | O => None
  | S fuel' =>
      if (len =? 0)%nat then Some first
      else
        let step := Nat.div2 len in
        match nth_error l (first + step) with
        | None => None
        | Some kv =>
            match sv_cmp (fst kv) k with
            | None => None
            | Some true => lb_loop fuel' l k (first + step + 1)%nat (len - (step + 1))%nat
            | Some false => lb_loop fuel' l k first step
            end
        end
  end.

(** boost::container::flat_map::find. [Some (length l)] is the end iterator. *)
Definition map_find (l : list (sidx * A)) (k : sidx) : option nat :=
  match lb_loop (S (length l)) l k 0 (length l) with
  | None => None
  | Some i =>
      match nth_error l i with
      | None => Some (length l)
      | Some kv =>
          match sv_cmp k (fst kv) with
          | None => None
          | Some true => Some (length l)
          | Some false => Some i
          end
      end
  end.

(** dtens.cpp:359-365: conversion of the orders vector to sparse format. *)
Fixpoint to_sparse (i : N) (v : list N) : list (N * N) :=
  match v with
  | [] => []
  | n :: v' => if n =? 0 then to_sparse (i + 1) v' else (i, n) :: to_sparse (i + 1) v'
  end.

(** dtens.cpp:343-369 dtens::find(const v_idx_t &). *)
Definition find_dense (d : dtens) (vidx : list N) : option nat :=
  match vidx with
  | [] => Some (length (dt_map d))
  | c :: v =>
      if N.of_nat (length v) =? dt_nargs d
      then map_find (dt_map d) (c, to_sparse 0 v)
      else Some (length (dt_map d))
  end.

(** dtens.cpp:371-380 dtens::find(const sv_idx_t &). *)
Definition find_sparse (d : dtens) (v : sidx) : option nat :=
  if sv_sane v then map_find (dt_map d) v else Some (length (dt_map d)).

(** dtens.cpp:382-404 index_impl/operator[]: [None] is an exception
    (out_of_range, or the overflow one). *)
Definition index_impl (d : dtens) (it : option nat) : option A :=
  match it with
  | None => None
  | Some i => option_map snd (nth_error (dt_map d) i)
  end.
Definition op_index_dense (d : dtens) (v : list N) : option A := index_impl d (find_dense d v).
Definition op_index_sparse (d : dtens) (v : sidx) : option A := index_impl d (find_sparse d v).

(** dtens.cpp:306-341 get_order. *)
Definition get_order (d : dtens) : N :=
  match rev (dt_map d) with
  | [] => 0
  | kv :: _ =>
      match rev (snd (fst kv)) with
      | [] => 0
      | (_, n) :: _ => n
      end
  end.

(** dtens.cpp:646-671 get_nouts. *)
Definition get_nouts (d : dtens) : option N :=
  match dt_map d with
  | [] => Some 0
  | _ =>
      match map_find (dt_map d) (0, [(0, 1)]) with
      | None => None
      | Some i => Some (N.of_nat i)
      end
  end.

(** The half-open iterator range [b, e). *)
Definition subrange (l : list (sidx * A)) (b e : nat) : list (sidx * A) :=
  firstn (e - b) (skipn b l).

(** dtens.cpp:420-481: the common tail: look up the first and the last key and
    return the range between them. *)
Definition range_between (d : dtens) (k0 k1 : sidx) : option (list (sidx * A)) :=
  match map_find (dt_map d) k0, map_find (dt_map d) k1 with
  | Some b, Some e =>
      let e' := if (e =? length (dt_map d))%nat then e else S e in
      Some (subrange (dt_map d) b e')
  | _, _ => None
  end.

(** dtens.cpp:421-481 get_derivatives(order). *)
Definition get_derivatives_o (d : dtens) (order : N) : option (list (sidx * A)) :=
  match dt_map d with
  | [] => Some []
  | _ =>
      match get_nouts d with
      | None => None
      | Some nouts =>
          if order =? 0
          then range_between d (0, []) (nouts - 1, [])
          else range_between d (0, [(0, order)]) (nouts - 1, [(dt_nargs d - 1, order)])
      end
  end.

(** dtens.cpp:484-534 get_derivatives(component, order). *)
Definition get_derivatives_co (d : dtens) (component order : N) : option (list (sidx * A)) :=
  match dt_map d with
  | [] => Some []
  | _ =>
      if order =? 0
      then range_between d (component, []) (component, [])
      else range_between d (component, [(0, order)]) (component, [(dt_nargs d - 1, order)])
  end.

(** dtens.cpp:537-563 get_gradient; [None] is an exception. *)
Definition get_gradient (d : dtens) : option (list A) :=
  match get_nouts d with
  | Some 1 =>
      if get_order d =? 0 then None
      else option_map (map snd) (get_derivatives_co d 0 1)
  | _ => None
  end.

(** dtens.cpp:565-583 get_jacobian. *)
Definition get_jacobian (d : dtens) : option (list A) :=
  match get_nouts d with
  | None => None
  | Some n =>
      if n =? 0 then None
      else if get_order d =? 0 then None
      else option_map (map snd) (get_derivatives_o d 1)
  end.

(** dtens.cpp:585-607 get_hessian. *)
Definition get_hessian (d : dtens) (component : N) : option (list A) :=
  match get_nouts d with
  | None => None
  | Some n =>
      if n <=? component then None
      else if get_order d <? 2 then None
      else option_map (map snd) (get_derivatives_co d component 2)
  end.

End Dtens.
Arguments dtens : clear implicits.
