(** Specification vocabulary for the EOP/SW tables. Independent of the algorithms in M_Eop.v: only
    the records of rows and the operations of the scalar types are mentioned. *)
From Coq Require Import Bool ZArith Reals Ascii String List.
From Verif Require Import M_Float M_Dag M_Eop.
Import ListNotations.

(** ** Scalar types *)
(** The order of a floating-point type: comparisons with a NaN are false, the others form a total preorder. *)
Record olaws (o : fops) := {
  ol_nan : forall x y, fnan o x = true \/ fnan o y = true -> fle o x y = false /\ flt o x y = false;
  ol_lt : forall x y, fnan o x = false -> fnan o y = false -> flt o x y = negb (fle o y x);
  ol_trans : forall x y z, fle o x y = true -> fle o y z = true -> fle o x z = true;
  ol_refl : forall x, fnan o x = false -> fle o x x = true
}.
(** NaNs propagate through the arithmetic. *)
Record nanlaws {o : fops} (l : lops o) := {
  nl_nan : fnan o (lnan l) = true;
  nl_sub : forall x y, fnan o x = true \/ fnan o y = true -> fnan o (fsub o x y) = true;
  nl_add : forall x y, fnan o x = true \/ fnan o y = true -> fnan o (fadd o x y) = true;
  nl_mul : forall x y, fnan o x = true \/ fnan o y = true -> fnan o (lmul l x y) = true;
  nl_div : forall x y, fnan o x = true \/ fnan o y = true -> fnan o (ldiv l x y) = true
}.

(** ** Tables *)
(** Dates in ascending order, none of them NaN. *)
Definition ascending (o : fops) (ds : list (F o)) : Prop :=
  (forall i t, nth_error ds i = Some t -> fnan o t = false) /\
  (forall i t t', nth_error ds i = Some t -> nth_error ds (S i) = Some t' -> fle o t t' = true).

(** The date [t] falls on row [i], or after it and before row [i + 1]. *)
Definition in_row (o : fops) (ds : list (F o)) (t : F o) (i : nat) : Prop :=
  exists t0 t1, nth_error ds i = Some t0 /\ nth_error ds (S i) = Some t1 /\ fle o t0 t = true /\ flt o t t1 = true.

(** The date is not covered by the table: a NaN, before the first row, or not before the last one. *)
Definition not_covered (o : fops) (ds : list (F o)) (t : F o) : Prop :=
  fnan o t = true \/
  (exists t0, nth_error ds 0 = Some t0 /\ flt o t t0 = true) \/
  (exists t1, nth_error ds (length ds - 1) = Some t1 /\ fle o t1 t = true).

(** ** Valid objects *)
Definition eop_row_ok (d : fops) (r : eop_row d) : Prop :=
  ffin d (e_mjd r) = true /\ ffin d (e_dut1 r) = true /\ ffin d (e_pm_x r) = true /\ ffin d (e_pm_y r) = true /\
  ffin d (e_dX r) = true /\ ffin d (e_dY r) = true.
Definition sw_row_ok (d : fops) (r : sw_row d) : Prop :=
  ffin d (s_mjd r) = true /\
  forall x, In x [s_Ap r; s_f107 r; s_f107a r] -> ffin d x = true /\ flt d x (f0 d) = false.
(** Each row dated strictly before the next one. *)
Definition dated {Row} (d : fops) (mjd : Row -> F d) (rows : list Row) : Prop :=
  forall i r r', nth_error rows i = Some r -> nth_error rows (S i) = Some r' -> flt d (mjd r) (mjd r') = true.

(** A string with a given character. *)
Definition has_char (c : ascii) (s : string) : Prop := exists i, String.get i s = Some c.
Definition tag_ok (s : string) : Prop := s <> EmptyString /\ ~ has_char "."%char s /\ ~ has_char "-"%char s.
Definition starts_with (p s : string) : Prop := exists r, s = (p ++ r)%string.

(** ** The arrays a request must be answered with *)
Section Own.
Context {d o : fops} (cst : stype -> F d -> F o) (utc2tt : F d -> option (F d)).
Definition own_arrays {Row} (mjd col : Row -> F d) (ty : stype) (rows : list Row) (f : list (F o) * list (F o) * Z) : Prop :=
  let '(ds, ys, n) := f in
  n = Z.of_nat (length rows) /\ (n < 2 ^ 32)%Z /\
  Forall2 (fun r t => exists c, utc2tt (mjd r) = Some c /\ ffin d c = true /\ t = cst ty c) rows ds /\
  Forall2 (fun r y => y = cst ty (col r)) rows ys.

(** Polar motion is tabulated in arcseconds, dX and dY in milliarcseconds; the quantities are in radians. *)
Definition own (dl : lops d) (asec masec : F d) (rq : @request d) (ty : stype) (f : list (F o) * list (F o) * Z) : Prop :=
  match rq with
  | ReqPmX dt => own_arrays e_mjd (fun r => lmul dl (e_pm_x r) asec) ty (d_table dt) f
  | ReqPmY dt => own_arrays e_mjd (fun r => lmul dl (e_pm_y r) asec) ty (d_table dt) f
  | ReqDX dt => own_arrays e_mjd (fun r => lmul dl (e_dX r) masec) ty (d_table dt) f
  | ReqDY dt => own_arrays e_mjd (fun r => lmul dl (e_dY r) masec) ty (d_table dt) f
  | ReqAp dt => own_arrays s_mjd s_Ap ty (d_table dt) f
  | ReqF107 dt => own_arrays s_mjd s_f107 ty (d_table dt) f
  | ReqF107a dt => own_arrays s_mjd s_f107a ty (d_table dt) f
  end.
End Own.

(** The dates (UTC MJD) and the values behind a request, row by row. *)
Definition req_rows {d} (dl : lops d) (asec masec : F d) (rq : @request d) : list (F d * F d) :=
  match rq with
  | ReqPmX dt => map (fun r => (e_mjd r, lmul dl (e_pm_x r) asec)) (d_table dt)
  | ReqPmY dt => map (fun r => (e_mjd r, lmul dl (e_pm_y r) asec)) (d_table dt)
  | ReqDX dt => map (fun r => (e_mjd r, lmul dl (e_dX r) masec)) (d_table dt)
  | ReqDY dt => map (fun r => (e_mjd r, lmul dl (e_dY r) masec)) (d_table dt)
  | ReqAp dt => map (fun r => (s_mjd r, s_Ap r)) (d_table dt)
  | ReqF107 dt => map (fun r => (s_mjd r, s_f107 r)) (d_table dt)
  | ReqF107a dt => map (fun r => (s_mjd r, s_f107a r)) (d_table dt)
  end.

(** The data of a request. *)
Definition req_data {d} (rq : @request d) : data (eop_row d) + data (sw_row d) :=
  match rq with
  | ReqPmX dt | ReqPmY dt | ReqDX dt | ReqDY dt => inl dt
  | ReqAp dt | ReqF107 dt | ReqF107a dt => inr dt
  end.
Definition tags_ok {d} (x : data (eop_row d) + data (sw_row d)) : Prop :=
  match x with inl dt => tag_ok (d_ts dt) /\ tag_ok (d_id dt) | inr dt => tag_ok (d_ts dt) /\ tag_ok (d_id dt) end.
(** A data set obtained from a constructor. *)
Definition constructed {d} (x : data (eop_row d) + data (sw_row d)) : Prop :=
  match x with
  | inl dt => exists rows ts id allow, eop_make rows ts id allow = MDone dt
  | inr dt => exists rows ts id allow, sw_make rows ts id allow = MDone dt
  end.
(** Two data sets of the same kind with the same size, timestamp and identifier hold the same table: the
    timestamp identifies the version of the data and the identifier its source. *)
Definition coherent {d} (x y : data (eop_row d) + data (sw_row d)) : Prop :=
  match x, y with
  | inl a, inl b => length (d_table a) = length (d_table b) -> d_ts a = d_ts b -> d_id a = d_id b -> d_table a = d_table b
  | inr a, inr b => length (d_table a) = length (d_table b) -> d_ts a = d_ts b -> d_id a = d_id b -> d_table a = d_table b
  | _, _ => True
  end.
