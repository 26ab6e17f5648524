(* Feed-forward neural networks, as functions of real numbers. *)
From Coq Require Import ZArith Reals List.
From Verif Require Import M_Expr S_Expr S_Mech.
Import ListNotations.
Local Open Scope R_scope.

(* A network whose input has n components x 0, ..., x (n - 1): the layers have the given sizes
   and activation functions. The weights w of the first layer come first, row by row: w (i * n + j)
   is the weight of input j in neuron i. The biases b of the first layer come first. *)
Fixpoint network (sizes : list nat) (phis : list (R -> R)) (w b : nat -> R) (n : nat) (x : nat -> R) : nat -> R :=
  match sizes, phis with
  | m :: ms, phi :: ps =>
      network ms ps (fun k => w (m * n + k)%nat) (fun k => b (m + k)%nat) m
        (fun i => phi (sumn n (fun j => w (i * n + j)%nat * x j) + b i))
  | _, _ => x
  end.
(* How many weights and biases. *)
Fixpoint n_weights (n : nat) (sizes : list nat) : nat := match sizes with [] => 0%nat | m :: ms => (m * n + n_weights m ms)%nat end.
Definition n_biases (sizes : list nat) : nat := list_sum sizes.
(* The sizes of the layers after the input. *)
Definition sizes_of (hidden : list Z) (n_out : Z) : list nat := map Z.to_nat (hidden ++ [n_out]).
(* The activation f computes the function phi. *)
Definition computes (o : nops) (nval : num o -> R) (rho : env) (f : expr (num o) -> expr (num o)) (phi : R -> R) : Prop :=
  forall e x, eval o nval rho e = Some x -> eval o nval rho (f e) = Some (phi x).
