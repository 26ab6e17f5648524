(* Transformations of reference frames: src/model/frame_transformations.cpp.

   The orientation of the Earth at the time of the transformation - pm_x, pm_y, era, gmst82,
   dX, dY (src/model/eop.cpp) and the three quantities X, Y, s of the theory of precession and
   nutation (src/model/iau2006.cpp) - is given by arbitrary expressions. A decimal literal is
   the quotient of two integers. *)
From Coq Require Import Bool ZArith List.
From Verif Require Import M_Expr.
Import ListNotations.
Local Open Scope Z_scope.

Section Frame.
Context (o : nops).
Local Notation ex := (expr (num o)).
Local Notation "a *' b" := (mk_mul o a b) (at level 40, left associativity).
Local Notation "a +' b" := (mk_add o a b) (at level 50, left associativity).
Local Notation "a -' b" := (mk_sub o a b) (at level 50, left associativity).
Local Notation "-' a" := (mk_neg o a) (at level 35, right associativity).
(* std::array<expression, 3>, and matrices by rows. *)
Definition v3 : Type := (ex * ex * ex).
Definition m3 : Type := (v3 * v3 * v3).
(* The literal m * 10^-k, and boost's pi<double>(). *)
Definition lit (m k : Z) : num o := n_div o (n_lit o m) (n_lit o (10 ^ k)).
Context (npi : num o).
Record orientation := mkOr { q_pm_x : ex; q_pm_y : ex; q_era : ex; q_gmst82 : ex; q_dX : ex; q_dY : ex; q_X : ex; q_Y : ex; q_s : ex }.

(* sum({a, b, c}). *)
Definition sum3 (a b c : ex) : ex := mk_sum o [a; b; c].
Definition row (r u : v3) : ex := let '(a, b, c) := r in let '(x, y, z) := u in sum3 (a *' x) (b *' y) (c *' z).
(* The matrix times the vector, as in frame_transformations.cpp:53-55, 135, 210-211, 359; and the
   transpose, :256-258, 288, 370. *)
Definition mat_apply (m : m3) (u : v3) : v3 := let '(r0, r1, r2) := m in (row r0 u, row r1 u, row r2 u).
Definition transpose (m : m3) : m3 := let '((a, b, c), (d, e, f), (g, h, i)) := m in ((a, d, g), (b, e, h), (c, f, i)).

(* fk5j2000_icrs_rot, frame_transformations.cpp:40-42. *)
Definition fk5j2000_icrs_rot : m3 :=
  let n m k := ENum (lit m k) in
  ((n 99999999999999278 17, n 11102233723050031 23, n 44118034269763241 24),
   (n (-11102233297408340) 23, n 99999999999998912 17, n (-96477927438885170) 24),
   (n (-44118044980967761) 24, n 96477922540797404 24, n 99999999999999434 17)).
(* rot_fk5j2000_icrs(), rot_icrs_fk5j2000(), frame_transformations.cpp:74-83: the layout selects the
   matrix or its transpose. *)
Definition rot_fk5j2000_icrs (u : v3) : v3 := mat_apply fk5j2000_icrs_rot u.
Definition rot_icrs_fk5j2000 (u : v3) : v3 := mat_apply (transpose fk5j2000_icrs_rot) u.

(* build_rot_itrs_tirs(), frame_transformations.cpp:92-125, and build_rot_itrs_teme(), :314-347:
   the same, from the sines and cosines of the third angle. *)
Definition polar (q : orientation) (c3 s3 : ex) : m3 :=
  let cxp := mk_fun o Ucos (q_pm_x q) in let sxp := mk_fun o Usin (q_pm_x q) in
  let cyp := mk_fun o Ucos (q_pm_y q) in let syp := mk_fun o Usin (q_pm_y q) in
  ((cxp *' c3, -' cyp *' s3 +' syp *' sxp *' c3, -' syp *' s3 -' cyp *' sxp *' c3),
   (cxp *' s3, cyp *' c3 +' syp *' sxp *' s3, syp *' c3 -' cyp *' sxp *' s3),
   (sxp, -' syp *' cxp, cyp *' cxp)).
Definition sp : num o := n_div o (n_mul o (lit (-47) 6) npi) (n_lit o (180 * 3600)).
Definition build_rot_itrs_tirs (q : orientation) : m3 := polar q (ENum (n_fun o Ucos sp)) (ENum (n_fun o Usin sp)).
Definition build_rot_itrs_teme (q : orientation) : m3 := polar q (mk_fun o Ucos (q_gmst82 q)) (mk_fun o Usin (q_gmst82 q)).

(* frame_transformations.cpp:127-136. *)
Definition rot_itrs_tirs (q : orientation) (u : v3) : v3 := mat_apply (build_rot_itrs_tirs q) u.
(* frame_transformations.cpp:138-149. *)
Definition rot_tirs_cirs (q : orientation) (u : v3) : v3 :=
  let alpha := -' q_era q in let calpha := mk_fun o Ucos alpha in let salpha := mk_fun o Usin alpha in
  let '(x, y, z) := u in (calpha *' x +' salpha *' y, calpha *' y -' salpha *' x, z).
(* build_cirs_icrs_pn(), frame_transformations.cpp:152-191. *)
Definition build_cirs_icrs_pn (q : orientation) : m3 * ex :=
  let X := q_X q +' q_dX q in let Y := q_Y q +' q_dY q in
  let s := q_s q -' ENum (n_hlf o 1) *' sum3 (q_X q *' q_dY q) (q_Y q *' q_dX q) (q_dX q *' q_dY q) in
  let X2 := mk_pow o X (dbl o 2) in let Y2 := mk_pow o Y (dbl o 2) in
  let X2_p_Y2 := X2 +' Y2 in let XY := X *' Y in
  let a := ENum (n_hlf o 1) +' ENum (lit 125 3) *' X2_p_Y2 in
  let R01 := -' a *' XY in
  (((dbl o 1 -' a *' X2, R01, X), (R01, dbl o 1 -' a *' Y2, Y), (-' X, -' Y, dbl o 1 -' a *' X2_p_Y2)), s).
(* frame_transformations.cpp:193-212. *)
Definition rot_cirs_icrs (q : orientation) (u : v3) : v3 :=
  let '(R_mat, s) := build_cirs_icrs_pn q in
  let cos_s := mk_fun o Ucos s in let sin_s := mk_fun o Usin s in
  let '(x, y, z) := u in
  mat_apply R_mat (cos_s *' x +' sin_s *' y, cos_s *' y -' sin_s *' x, z).
(* rot_itrs_icrs_impl(), frame_transformations.cpp:228-239. *)
Definition rot_itrs_icrs (q : orientation) (u : v3) : v3 :=
  let xyz_tirs := rot_itrs_tirs q u in let xyz_cirs := rot_tirs_cirs q xyz_tirs in rot_cirs_icrs q xyz_cirs.

(* frame_transformations.cpp:244-265. *)
Definition rot_icrs_cirs (q : orientation) (u : v3) : v3 :=
  let '(R_mat, s) := build_cirs_icrs_pn q in
  let '(x_tmp, y_tmp, z_tmp) := mat_apply (transpose R_mat) u in
  let cos_s := mk_fun o Ucos s in let sin_s := mk_fun o Usin s in
  (cos_s *' x_tmp -' sin_s *' y_tmp, sin_s *' x_tmp +' cos_s *' y_tmp, z_tmp).
(* frame_transformations.cpp:267-278. *)
Definition rot_cirs_tirs (q : orientation) (u : v3) : v3 :=
  let alpha := -' q_era q in let calpha := mk_fun o Ucos alpha in let salpha := mk_fun o Usin alpha in
  let '(x, y, z) := u in (calpha *' x -' salpha *' y, salpha *' x +' calpha *' y, z).
(* frame_transformations.cpp:280-289. *)
Definition rot_tirs_itrs (q : orientation) (u : v3) : v3 := mat_apply (transpose (build_rot_itrs_tirs q)) u.
(* rot_icrs_itrs_impl(), frame_transformations.cpp:294-305. *)
Definition rot_icrs_itrs (q : orientation) (u : v3) : v3 :=
  let xyz_cirs := rot_icrs_cirs q u in let xyz_tirs := rot_cirs_tirs q xyz_cirs in rot_tirs_itrs q xyz_tirs.
(* rot_itrs_teme_impl(), rot_teme_itrs_impl(), frame_transformations.cpp:351-371. *)
Definition rot_itrs_teme (q : orientation) (u : v3) : v3 := mat_apply (build_rot_itrs_teme q) u.
Definition rot_teme_itrs (q : orientation) (u : v3) : v3 := mat_apply (transpose (build_rot_itrs_teme q)) u.
End Frame.
Arguments mkOr {o}.
