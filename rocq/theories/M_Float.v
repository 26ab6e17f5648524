(** Floating-point operations as a record, and double-length arithmetic on top.
    Source: /repo/include/heyoka/detail/dfloat.hpp.

    The control-flow models (steps, propagation, continuous output) are
    parametric in [fops]; the record is instantiated below with exact arithmetic
    extended with infinities and NaN, and in M_Dfloat.v with IEEE arithmetic
    (Flocq). *)
From Coq Require Import Bool ZArith Reals Lra.
Local Open Scope bool_scope.

(** The operations of the scalar type T used by the integrator's control flow.
    Comparison operators are those of C++: all false on NaN. *)
Record fops := {
  F : Type;
  fadd : F -> F -> F;
  fsub : F -> F -> F;
  fneg : F -> F;
  fabs : F -> F;
  flt : F -> F -> bool;
  fle : F -> F -> bool;
  feq : F -> F -> bool;
  ffin : F -> bool;          (* isfinite *)
  fnan : F -> bool;          (* isnan *)
  f0 : F;
  finf : F                   (* +infinity *)
}.

Section DF.
Context {o : fops}.
Notation F := (F o).

(** dfloat.hpp:36-45 *)
Record dfl := DFL { hi : F; lo : F }.

(** dfloat.hpp:40 explicit dfloat(F x) *)
Definition d_of (x : F) : dfl := DFL x (f0 o).

(** dfloat.hpp:90-96 isfinite *)
Definition d_fin (x : dfl) : bool := ffin o (hi x) && ffin o (lo x).

(** dfloat.hpp:103-110 eft_add_dekker *)
Definition eft_add_dekker (a b : F) : F * F :=
  let x := fadd o a b in
  let y := fadd o (fsub o a x) b in
  (x, y).

(** dfloat.hpp:117-125 eft_add_knuth *)
Definition eft_add_knuth (a b : F) : F * F :=
  let x := fadd o a b in
  let z := fsub o x a in
  let y := fadd o (fsub o a (fsub o x z)) (fsub o b z) in
  (x, y).

(** dfloat.hpp:131-149 normalise *)
Definition d_normalise (x : dfl) : dfl :=
  let '(u, v) := eft_add_dekker (hi x) (lo x) in DFL u v.

(** dfloat.hpp:152-174 operator+ *)
Definition d_add (a b : dfl) : dfl :=
  let '(x_hi, y_hi) := eft_add_knuth (hi a) (hi b) in
  let '(x_lo, y_lo) := eft_add_knuth (lo a) (lo b) in
  let '(u, v) := eft_add_dekker x_hi (fadd o y_hi x_lo) in
  let '(u', v') := eft_add_dekker u (fadd o v y_lo) in
  DFL u' v'.

(** dfloat.hpp:177-181 operator- *)
Definition d_sub (x y : dfl) : dfl := d_add x (DFL (fneg o (hi y)) (fneg o (lo y))).

(** dfloat.hpp:184-214 mixed overloads *)
Definition d_addf (x : dfl) (y : F) : dfl := d_add x (d_of y).
Definition d_subf (x : dfl) (y : F) : dfl := d_sub x (d_of y).
Definition f_subd (x : F) (y : dfl) : dfl := d_sub (d_of x) y.

(** dfloat.hpp:217-283 comparisons *)
Definition d_eq (x y : dfl) : bool := feq o (hi x) (hi y) && feq o (lo x) (lo y).
Definition d_lt (x y : dfl) : bool :=
  flt o (hi x) (hi y) || (feq o (hi x) (hi y) && flt o (lo x) (lo y)).
Definition d_gt (x y : dfl) : bool :=
  flt o (hi y) (hi x) || (feq o (hi x) (hi y) && flt o (lo y) (lo x)).
Definition d_le (x y : dfl) : bool :=
  flt o (hi x) (hi y) || (feq o (hi x) (hi y) && fle o (lo x) (lo y)).
Definition d_ge (x y : dfl) : bool :=
  flt o (hi y) (hi x) || (feq o (hi x) (hi y) && fle o (lo y) (lo x)).

(** std::min(a, b): b if b < a, otherwise a; std::max(a, b): b if a < b, otherwise a. *)
Definition d_min (a b : dfl) : dfl := if d_lt b a then b else a.
Definition d_max (a b : dfl) : dfl := if d_lt a b then b else a.
Definition f_min (a b : F) : F := if flt o b a then b else a.
Definition f_max (a b : F) : F := if flt o a b then b else a.

End DF.
Arguments dfl o : clear implicits.

(** ** Laws *)

(** The order of finite values is the order of the real numbers they represent. *)
Record flaws (o : fops) := {
  fval : F o -> R;
  fl_lt : forall x y, ffin o x = true -> ffin o y = true -> (flt o x y = true <-> (fval x < fval y)%R);
  fl_le : forall x y, ffin o x = true -> ffin o y = true -> (fle o x y = true <-> (fval x <= fval y)%R);
  fl_eq : forall x y, ffin o x = true -> ffin o y = true -> (feq o x y = true <-> fval x = fval y);
  fl_neg : forall x, ffin o x = true -> ffin o (fneg o x) = true /\ fval (fneg o x) = (- fval x)%R;
  fl_abs : forall x, ffin o x = true -> ffin o (fabs o x) = true /\ fval (fabs o x) = Rabs (fval x);
  fl_0 : ffin o (f0 o) = true /\ fval (f0 o) = 0%R;
  fl_inf : ffin o (finf o) = false;
  fl_nan : forall x, ffin o x = true -> fnan o x = false;
  fl_eqsym : forall x y, feq o x y = feq o y x;
  fl_eqfin : forall x y, feq o x y = true -> ffin o y = true -> ffin o x = true;
  (* comparisons with +inf, the only non-finite value the control flow compares with *)
  fl_lt_inf : forall x, ffin o x = true -> flt o x (finf o) = true /\ flt o (finf o) x = false;
  fl_eq_inf : forall x, ffin o x = true -> feq o x (finf o) = false /\ feq o (finf o) x = false;
  fl_neginf : forall x, ffin o x = true ->
     flt o (fneg o (finf o)) x = true /\ flt o x (fneg o (finf o)) = false /\ feq o (fneg o (finf o)) x = false /\
     fle o (fneg o (finf o)) x = true;
  fl_cls : forall x, ffin o x = false -> fnan o x = true \/ x = finf o \/ x = fneg o (finf o)
}.
Arguments fval {o} _ _.

(** Exact arithmetic: addition and subtraction of finite values are those of the reals. *)
Record exact_laws {o : fops} (L : flaws o) := {
  ex_add : forall x y, ffin o x = true -> ffin o y = true ->
     ffin o (fadd o x y) = true /\ fval L (fadd o x y) = (fval L x + fval L y)%R;
  ex_sub : forall x y, ffin o x = true -> ffin o y = true ->
     ffin o (fsub o x y) = true /\ fval L (fsub o x y) = (fval L x - fval L y)%R;
  (* infinities and NaN propagate *)
  ex_prop : forall x y, ffin o (fadd o x y) = true -> ffin o x = true /\ ffin o y = true
}.

(** ** Instances: exact arithmetic on an ordered ring, extended with infinities and NaN *)
Inductive ext (A : Type) := Fin (a : A) | PInf | NInf | NaN.
Arguments Fin {A} a.
Arguments PInf {A}.
Arguments NInf {A}.
Arguments NaN {A}.

Section Ext.
Context {A : Type} (zero : A) (add sub : A -> A -> A) (neg abs : A -> A) (lt le eq : A -> A -> bool).

Definition ext_neg (x : ext A) : ext A :=
  match x with Fin a => Fin (neg a) | PInf => NInf | NInf => PInf | NaN => NaN end.
Definition ext_abs (x : ext A) : ext A :=
  match x with Fin a => Fin (abs a) | PInf => PInf | NInf => PInf | NaN => NaN end.
Definition ext_add (x y : ext A) : ext A :=
  match x, y with
  | Fin a, Fin b => Fin (add a b)
  | NaN, _ | _, NaN => NaN
  | PInf, NInf | NInf, PInf => NaN
  | PInf, _ | _, PInf => PInf
  | NInf, _ | _, NInf => NInf
  end.
Definition ext_sub (x y : ext A) : ext A :=
  match x, y with
  | Fin a, Fin b => Fin (sub a b)
  | _, _ => ext_add x (ext_neg y)
  end.
Definition ext_lt (x y : ext A) : bool :=
  match x, y with
  | Fin a, Fin b => lt a b
  | NaN, _ | _, NaN => false
  | NInf, NInf => false | NInf, _ => true
  | PInf, _ => false
  | Fin _, PInf => true | Fin _, NInf => false
  end.
Definition ext_eq (x y : ext A) : bool :=
  match x, y with
  | Fin a, Fin b => eq a b
  | PInf, PInf | NInf, NInf => true
  | _, _ => false
  end.
Definition ext_le (x y : ext A) : bool :=
  match x, y with
  | Fin a, Fin b => le a b
  | NaN, _ | _, NaN => false
  | NInf, _ => true
  | _, PInf => true
  | _, _ => false
  end.
Definition ext_fin (x : ext A) : bool := match x with Fin _ => true | _ => false end.
Definition ext_nan (x : ext A) : bool := match x with NaN => true | _ => false end.

Definition ext_ops : fops := {|
  F := ext A; fadd := ext_add; fsub := ext_sub; fneg := ext_neg; fabs := ext_abs;
  flt := ext_lt; fle := ext_le; feq := ext_eq; ffin := ext_fin; fnan := ext_nan;
  f0 := Fin zero; finf := PInf |}.

Context (val : A -> R)
  (v_lt : forall x y, lt x y = true <-> (val x < val y)%R)
  (v_le : forall x y, le x y = true <-> (val x <= val y)%R)
  (v_eq : forall x y, eq x y = true <-> val x = val y)
  (v_neg : forall x, val (neg x) = (- val x)%R)
  (v_abs : forall x, val (abs x) = Rabs (val x))
  (v_eqsym : forall x y, eq x y = eq y x)
  (v_0 : val zero = 0%R)
  (v_add : forall x y, val (add x y) = (val x + val y)%R)
  (v_sub : forall x y, val (sub x y) = (val x - val y)%R).

Definition ext_laws : flaws ext_ops.
Proof.
  refine {| fval := fun x : F ext_ops => match x with Fin a => val a | _ => 0%R end |}; cbn;
    try (intros [a| | |] [b| | |]; cbn; try discriminate; auto);
    try (intros [a| | |]; cbn; try discriminate; auto); auto.
Defined.

Definition ext_exact : exact_laws ext_laws.
Proof.
  constructor; intros [a| | |] [b| | |]; cbn; try discriminate; auto.
Qed.
End Ext.

(** Exact integer times (used in the examples, because it computes). *)
Definition zops : fops := ext_ops 0%Z Z.add Z.sub Z.opp Z.abs Z.ltb Z.leb Z.eqb.
Definition zlaws : flaws zops.
Proof.
  refine (ext_laws _ _ _ _ _ _ _ _ IZR _ _ _ _ _ _ _).
  - intros x y. rewrite Z.ltb_lt. split; [apply IZR_lt|apply lt_IZR].
  - intros x y. rewrite Z.leb_le. split; [apply IZR_le|apply le_IZR].
  - intros x y. rewrite Z.eqb_eq. split; [intros ->; auto|apply eq_IZR].
  - apply opp_IZR.
  - apply abs_IZR.
  - apply Z.eqb_sym.
  - auto.
Defined.
Definition zexact : exact_laws zlaws.
Proof.
  refine (ext_exact _ _ _ _ _ _ _ _ _ _ _ _ _ _ _ _ _ _).
  - apply plus_IZR.
  - apply minus_IZR.
Qed.

(** Exact real times. *)
Definition rltb (x y : R) : bool := if Rlt_dec x y then true else false.
Definition rleb (x y : R) : bool := if Rle_dec x y then true else false.
Definition reqb (x y : R) : bool := if Req_EM_T x y then true else false.
Definition rops : fops := ext_ops 0%R Rplus Rminus Ropp Rabs rltb rleb reqb.
Definition rlaws : flaws rops.
Proof.
  refine (ext_laws _ _ _ _ _ _ _ _ (fun x => x) _ _ _ _ _ _ _); auto.
  - intros x y; unfold rltb; destruct (Rlt_dec x y); split; auto; discriminate.
  - intros x y; unfold rleb; destruct (Rle_dec x y); split; auto; discriminate.
  - intros x y; unfold reqb; destruct (Req_EM_T x y); split; auto; discriminate.
  - intros x y; unfold reqb; destruct (Req_EM_T x y), (Req_EM_T y x); congruence.
Defined.
Definition rexact : exact_laws rlaws.
Proof. refine (ext_exact _ _ _ _ _ _ _ _ _ _ _ _ _ _ _ _ _ _); auto. Qed.
