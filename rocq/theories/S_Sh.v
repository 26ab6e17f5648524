(* Spherical harmonics gravity: the layout of the coefficients, and the solid harmonics. *)
From Coq Require Import ZArith List.
From Verif Require Import M_Dag M_Taylor M_Sh.
Import ListNotations.
Local Open Scope Z_scope.

(* The list of coefficients is complete up to the degree d: it has 1 + 2 + ... + (d + 1)
   elements, and not too many for 32 bits. *)
Definition complete {cs} (l : list cs) (d : Z) : Prop :=
  0 <= d /\ 2 * Z.of_nat (length l) = (d + 1) * (d + 2) /\ 8 * Z.of_nat (length l) + 1 < 2 ^ 32.
(* By rows: the coefficient of degree n and order m comes after those of the degrees less than
   n (which are n (n + 1) / 2) and those of the degree n and the orders less than m. *)
Definition position (n m : Z) : Z := n * (n + 1) / 2 + m.
(* The degree and the order which are asked for: at most those of the list, the order at most
   the degree. *)
Definition asked (max_degree max_order : option Z) (d n m : Z) : Prop :=
  match max_degree, max_order with
  | None, None => n = d /\ m = d
  | Some a, None => n = a /\ m = a
  | Some a, Some b => n = a /\ m = b
  | None, Some _ => False
  end /\ n <= d /\ m <= n.
Definition opt_u32 (x : option Z) : Prop := match x with Some z => 0 <= z < 2 ^ 32 | None => True end.

Section Harm.
Context {vw : Type} (seed : vw) (rec1 : Z -> Z -> vw -> vw) (rec2 : Z -> Z -> vw -> vw -> vw) (diag : Z -> vw -> vw).
(* The entry (m, m) and the entry (m + k, m) according to the formulas. *)
Fixpoint diagonal (m : nat) : vw := match m with O => seed | S m => diag (Z.of_nat m) (diagonal m) end.
Fixpoint column (m k : nat) : vw :=
  match k with
  | O => diagonal m
  | S k' => match k' with
            | O => rec1 (Z.of_nat m + 1) (Z.of_nat m) (diagonal m)
            | S k'' => rec2 (Z.of_nat (m + k)) (Z.of_nat m) (column m k') (column m k'')
            end
  end.
Definition harmonic (n m : Z) : vw := column (Z.to_nat m) (Z.to_nat (n - m)).
End Harm.
