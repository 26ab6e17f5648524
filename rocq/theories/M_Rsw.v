(* The RSW (radial, along-track, cross-track) frames: src/model/frame_transformations_rsw.cpp. *)
From Coq Require Import Bool ZArith List.
From Verif Require Import M_Expr M_Model.
Import ListNotations.
Local Open Scope Z_scope.

Section Rsw.
Context (o : nops).
Local Notation ex := (expr (num o)).
Local Notation "a *' b" := (mk_mul o a b) (at level 40, left associativity).
Local Notation "a /' b" := (mk_div o a b) (at level 40, left associativity).
Local Notation "a +' b" := (mk_add o a b) (at level 50, left associativity).
Local Notation "a -' b" := (mk_sub o a b) (at level 50, left associativity).
(* std::array<expression, 3>, indexed by the axes. *)
Definition avec : Type := axis -> ex.

(* norm(), frame_transformations_rsw.cpp:30-33. *)
Definition rnorm (u : avec) : ex := mk_sqrt o (mk_sum o [mk_pow o (u AX) (dbl o 2); mk_pow o (u AY) (dbl o 2); mk_pow o (u AZ) (dbl o 2)]).
(* cross_product(), frame_transformations_rsw.cpp:36-39. *)
Definition cross_product (a b : avec) : avec := fun c =>
  match c with
  | AX => a AY *' b AZ -' a AZ *' b AY
  | AY => a AZ *' b AX -' a AX *' b AZ
  | AZ => a AX *' b AY -' a AY *' b AX
  end.
(* to_rsw_rotation_matrix(), frame_transformations_rsw.cpp:45-61: the rows. *)
Definition to_rsw_rotation_matrix (r v : avec) : axis -> avec :=
  let r_norm := rnorm r in
  let unit_r := fun c => r c /' r_norm in
  let r_cross_v := cross_product r v in
  let rcv_norm := rnorm r_cross_v in
  let unit_w := fun c => r_cross_v c /' rcv_norm in
  let unit_s := cross_product unit_w unit_r in
  fun i => match i with AX => unit_r | AY => unit_s | AZ => unit_w end.
(* rsw_keplerian_omega(), frame_transformations_rsw.cpp:67-75. *)
Definition rsw_keplerian_omega (r v : avec) : avec :=
  let rcv_norm := rnorm (cross_product r v) in
  let r2 := mk_sum o [mk_pow o (r AX) (dbl o 2); mk_pow o (r AY) (dbl o 2); mk_pow o (r AZ) (dbl o 2)] in
  fun c => match c with AZ => rcv_norm /' r2 | _ => dbl o 0 end.

(* The rotations, :100-107, :140-149 (the matrix) and :173-181, :202-210 (the transpose). *)
Definition rotate (m : axis -> avec) (u : avec) : avec := fun i => mk_sum o [m i AX *' u AX; m i AY *' u AY; m i AZ *' u AZ].
Definition rotate_back (m : axis -> avec) (u : avec) : avec := fun i => mk_sum o [m AX i *' u AX; m AY i *' u AY; m AZ i *' u AZ].
(* The position, :173-176 and :202-204: the reference position is the fourth term of the sum. *)
Definition rotate_back_to (m : axis -> avec) (u r : avec) : avec := fun i => mk_sum o [m AX i *' u AX; m AY i *' u AY; m AZ i *' u AZ; r i].

(* state_to_rsw(), frame_transformations_rsw.cpp:85-117. *)
Definition state_to_rsw (pos vel r v : avec) : avec * avec :=
  let m := to_rsw_rotation_matrix r v in
  let omega := rsw_keplerian_omega r v in
  let p := rotate m (fun c => pos c -' r c) in
  let v1 := rotate m (fun c => vel c -' v c) in
  let v2 := cross_product omega p in
  (p, fun c => v1 c -' v2 c).
(* state_to_rsw_inertial(), frame_transformations_rsw.cpp:128-151. *)
Definition state_to_rsw_inertial (pos vel r v : avec) : avec * avec :=
  let m := to_rsw_rotation_matrix r v in
  (rotate m (fun c => pos c -' r c), rotate m vel).
(* state_from_rsw(), frame_transformations_rsw.cpp:158-182. *)
Definition state_from_rsw (pos vel r v : avec) : avec * avec :=
  let m := to_rsw_rotation_matrix r v in
  let omega := rsw_keplerian_omega r v in
  let omega_pos := cross_product omega pos in
  let u := rotate_back m (fun c => vel c +' omega_pos c) in
  (rotate_back_to m pos r, fun c => u c +' v c).
(* state_from_rsw_inertial(), frame_transformations_rsw.cpp:190-209. *)
Definition state_from_rsw_inertial (pos vel r v : avec) : avec * avec :=
  let m := to_rsw_rotation_matrix r v in
  (rotate_back_to m pos r, rotate_back m vel).
End Rsw.
