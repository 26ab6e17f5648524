(* Feed-forward neural networks: src/model/ffnn.cpp.

   An activation function is any function on expressions; None is an empty
   std::function. Indices and sizes are checked 32-bit integers in the code
   (boost::safe_numerics): an operation whose result does not fit throws. *)
From Coq Require Import Bool ZArith List.
From Verif Require Import M_Expr M_Dag M_Taylor.
Import ListNotations.
Local Open Scope Z_scope.

(* safe<std::uint32_t>: the result of an operation on non-negative numbers. *)
Definition su32 (z : Z) : mres Z := if z <? 2 ^ 32 then MDone z else MThrow.
(* std::vector: v[i]. *)
Definition at_ {A} (v : list A) (i : Z) : mres A := match nth_error v (Z.to_nat i) with Some x => MDone x | None => MUB end.

Section Net.
Context (o : nops).
Local Notation ex := (expr (num o)).

(* The terms of one neuron, ffnn.cpp:53-58. *)
Fixpoint weighted (inputs nn_wb : list ex) (wcounter : Z) : mres (list ex * Z) :=
  match inputs with
  | [] => MDone ([], wcounter)
  | x :: r =>
      mbind (at_ nn_wb wcounter) (fun w =>
      mbind (su32 (wcounter + 1)) (fun wc =>
      mbind (weighted r nn_wb wc) (fun '(ts, wc') => MDone (mk_mul o w x :: ts, wc'))))
  end.
(* The neurons of a layer, ffnn.cpp:49-66: k of them. *)
Fixpoint neurons (k : nat) (inputs : list ex) (activation : ex -> ex) (nn_wb : list ex) (n_net_w wcounter bcounter : Z)
  : mres (list ex * Z * Z) :=
  match k with
  | O => MDone ([], wcounter, bcounter)
  | S k' =>
      mbind (weighted inputs nn_wb wcounter) (fun '(ts, wc) =>
      mbind (su32 (bcounter + n_net_w)) (fun ib =>
      mbind (at_ nn_wb ib) (fun b =>
      mbind (su32 (bcounter + 1)) (fun bc =>
      mbind (neurons k' inputs activation nn_wb n_net_w wc bc) (fun '(r, wc', bc') =>
      MDone (activation (mk_sum o (ts ++ [b])) :: r, wc', bc'))))))
  end.
(* compute_layer(), ffnn.cpp:36-69. *)
Definition compute_layer (layer_id : nat) (inputs : list ex) (n_neurons : list Z) (activation : ex -> ex) (nn_wb : list ex)
    (n_net_w wcounter bcounter : Z) : mres (list ex * Z * Z) :=
  mbind (su32 (Z.of_nat (length inputs))) (fun _ =>
  mbind (at_ n_neurons (Z.of_nat layer_id)) (fun n =>
  neurons (Z.to_nat n) inputs activation nn_wb n_net_w wcounter bcounter)).

(* The number of parameters and of weights, ffnn.cpp:121-126: the loop from layer i, with k
   iterations left. *)
Fixpoint count_params (k i : nat) (n_neurons : list Z) (n_net_wb n_net_w : Z) : mres (Z * Z) :=
  match k with
  | O => MDone (n_net_wb, n_net_w)
  | S k' =>
      mbind (at_ n_neurons (Z.of_nat i - 1)) (fun p => mbind (at_ n_neurons (Z.of_nat i)) (fun c =>
      mbind (su32 (p * c)) (fun pc =>
      mbind (su32 (n_net_wb + pc)) (fun wb => mbind (su32 (n_net_w + pc)) (fun w =>
      mbind (su32 (wb + c)) (fun wb' => count_params k' (S i) n_neurons wb' w))))))
  end.
(* ffnn.cpp:136-140. *)
Fixpoint layers (k i : nat) (retval : list ex) (n_neurons : list Z) (activations : list (option (ex -> ex))) (nn_wb : list ex)
    (n_net_w wcounter bcounter : Z) : mres (list ex) :=
  match k with
  | O => MDone retval
  | S k' =>
      mbind (at_ activations (Z.of_nat i - 1)) (fun a =>
      match a with
      | None => MThrow (* std::bad_function_call *)
      | Some f =>
          mbind (compute_layer i retval n_neurons f nn_wb n_net_w wcounter bcounter) (fun '(r, wc, bc) =>
          layers k' (S i) r n_neurons activations nn_wb n_net_w wc bc)
      end)
  end.

(* ffnn_impl(), ffnn.cpp:79-142. nn_hidden and n_out are 32-bit numbers. *)
Definition ffnn (ins : list ex) (nn_hidden : list Z) (n_out : Z) (activations : list (option (ex -> ex))) (nn_wb : list ex)
    : mres (list ex) :=
  if match activations with [] => true | _ => false end then MThrow
  else if negb (length nn_hidden =? length activations - 1)%nat then MThrow
  else if match ins with [] => true | _ => false end then MThrow
  else if n_out =? 0 then MThrow
  else if negb (forallb (fun i => 0 <? i) nn_hidden) then MThrow
  else if existsb (fun f => match f with None => true | Some _ => false end) activations then MThrow
  else
    mbind (su32 (Z.of_nat (length nn_hidden))) (fun n_hidden_layers =>
    mbind (su32 (n_hidden_layers + 2)) (fun n_layers =>
    mbind (su32 (Z.of_nat (length ins))) (fun n_in =>
    let n_neurons := n_in :: nn_hidden ++ [n_out] in
    mbind (count_params (Z.to_nat n_layers - 1) 1 n_neurons 0 0) (fun '(n_net_wb, n_net_w) =>
    if negb (Z.of_nat (length nn_wb) =? n_net_wb) then MThrow
    else layers (Z.to_nat n_layers - 1) 1 ins n_neurons activations nn_wb n_net_w 0 0)))).
End Net.
