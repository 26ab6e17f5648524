(** Specification vocabulary for derivative tensors: what a multiindex means
    and in which order a complete tensor lists its entries. *)
From Coq Require Import List NArith Sorted.
Import ListNotations.
Local Open Scope N_scope.

(** A multiindex in sparse form: output component and (argument, order) pairs. *)
Notation mi := (N * list (N * N))%type.

(** Derivative order with respect to argument [i]. *)
Fixpoint ord_of (l : list (N * N)) (i : N) : N :=
  match l with
  | [] => 0
  | (j, n) :: l' => if j =? i then n else ord_of l' i
  end.

(** Total derivative order. *)
Fixpoint total (l : list (N * N)) : N :=
  match l with [] => 0 | (_, n) :: l' => n + total l' end.

(** Canonical sparse form: arguments strictly ascending, orders positive. *)
Definition canonical (v : mi) : Prop :=
  StronglySorted (fun p q => fst p < fst q) (snd v) /\ Forall (fun p => 0 < snd p) (snd v).

(** The documented storage order: total order first, then component, then
    the multiindex with the larger order in the first differing argument. *)
Definition before (v w : mi) : Prop :=
  total (snd v) < total (snd w) \/
  (total (snd v) = total (snd w) /\
   (fst v < fst w \/
    (fst v = fst w /\
     exists i, (forall j, j < i -> ord_of (snd v) j = ord_of (snd w) j) /\
               ord_of (snd w) i < ord_of (snd v) i))).

(** The multiindices a tensor of [nouts] outputs, [nargs] arguments and
    maximum order [order] must contain. *)
Definition in_tensor (nouts nargs order : N) (v : mi) : Prop :=
  canonical v /\ fst v < nouts /\ Forall (fun p => fst p < nargs) (snd v) /\ total (snd v) <= order.

(** A complete tensor: each required multiindex exactly once, in storage order. *)
Definition complete_tensor {A} (nouts nargs order : N) (l : list (mi * A)) : Prop :=
  StronglySorted before (map fst l) /\
  forall v, In v (map fst l) <-> in_tensor nouts nargs order v.

(** The dense form of a multiindex lists the component and then the order with
    respect to each of the [nargs] arguments. *)
Definition dense_of (nargs : N) (v : mi) (dv : list N) : Prop :=
  exists os, dv = fst v :: os /\ N.of_nat (length os) = nargs /\
    forall i, (i < length os)%nat -> nth_error os i = Some (ord_of (snd v) (N.of_nat i)).

(** [s, s+1, ..., s+k-1]. *)
Fixpoint nseq (s : N) (k : nat) : list N := match k with O => [] | S k' => s :: nseq (s + 1) k' end.

(** Row-major order of the first derivatives. *)
Definition jac_keys (nouts nargs : N) : list mi :=
  flat_map (fun c => map (fun i => (c, [(i, 1)])) (nseq 0 (N.to_nat nargs))) (nseq 0 (N.to_nat nouts)).

(** Row-by-row order of the upper triangle of second derivatives. *)
Definition hess_key (i j : N) : list (N * N) := if i =? j then [(i, 2)] else [(i, 1); (j, 1)].
Definition hess_keys (c nargs : N) : list mi :=
  flat_map (fun i => map (fun j => (c, hess_key i j)) (nseq i (N.to_nat (nargs - i)))) (nseq 0 (N.to_nat nargs)).

