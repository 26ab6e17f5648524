(* The meaning of expressions: the real number denoted by an expression, where
   it is defined. Nothing in this file refers to how the library builds or
   transforms expressions. None stands for an undefined value (a NaN or an
   infinity at run time). *)
From Coq Require Import String Bool ZArith Reals List Lra Lia.
From Coquelicot Require Import Coquelicot.
From Verif Require Import M_Expr.
Import ListNotations.
Local Open Scope R_scope.

Definition rsum (l : list R) : R := fold_right Rplus 0 l.
Definition rprod (l : list R) : R := fold_right Rmult 1 l.

(* x when it is an integer. *)
Definition rint (x : R) : option Z :=
  if Req_EM_T (IZR (Int_part x)) x then Some (Int_part x) else None.

(* b to the power e: any base for integral exponents (except 0 to a negative
   power), nonnegative bases otherwise. *)
Definition rpow (b e : R) : option R :=
  match rint e with
  | Some z => if Req_EM_T b 0
              then if Z_lt_dec z 0 then None else Some (powerRZ b z)
              else Some (powerRZ b z)
  | None => if Rlt_dec 0 b then Some (Rpower b e)
            else if Req_EM_T b 0 then (if Rlt_dec 0 e then Some 0 else None)
            else None
  end.

Definition guard (P : Prop) (d : {P} + {~ P}) (x : R) : option R := if d then Some x else None.
Arguments guard {P}.

Definition in11_dec (x : R) : {-1 <= x <= 1} + {~ (-1 <= x <= 1)}.
Proof.
  destruct (Rle_dec (-1) x); [destruct (Rle_dec x 1)|]; [left|right|right]; lra.
Defined.
Definition oin11_dec (x : R) : {-1 < x < 1} + {~ (-1 < x < 1)}.
Proof.
  destruct (Rlt_dec (-1) x); [destruct (Rlt_dec x 1)|]; [left|right|right]; lra.
Defined.
Definition nz_dec (x : R) : {x <> 0} + {~ (x <> 0)}.
Proof. destruct (Req_EM_T x 0); [right|left]; auto. Defined.

(* The error function. *)
Definition rerf (x : R) : R := 2 / sqrt PI * RInt (fun t => exp (- t ^ 2)) 0 x.
Definition rsigmoid (x : R) : R := / (1 + exp (- x)).
Definition racosh (x : R) : R := ln (x + sqrt (x ^ 2 - 1)).
Definition ratanh (x : R) : R := / 2 * ln ((1 + x) / (1 - x)).

(* The unary functions, with their domains. *)
Definition usem (u : ufun) (x : R) : option R :=
  match u with
  | Usin | Ucsin => Some (sin x)
  | Ucos | Uccos => Some (cos x)
  | Utan => guard (nz_dec (cos x)) (tan x)
  | Usinh => Some (sinh x)
  | Ucosh => Some (cosh x)
  | Utanh => Some (tanh x)
  | Uasin => guard (in11_dec x) (asin x)
  | Uacos => guard (in11_dec x) (acos x)
  | Uatan => Some (atan x)
  | Uasinh => Some (arcsinh x)
  | Uacosh => guard (Rle_dec 1 x) (racosh x)
  | Uatanh => guard (oin11_dec x) (ratanh x)
  | Uexp => Some (exp x)
  | Ulog => guard (Rlt_dec 0 x) (ln x)
  | Uerf => Some (rerf x)
  | Usigmoid => Some (rsigmoid x)
  end.

Definition ratan2 (y x : R) : R :=
  if Rlt_dec 0 x then atan (y / x)
  else if Rlt_dec x 0
       then if Rle_dec 0 y then atan (y / x) + PI else atan (y / x) - PI
       else if Rlt_dec 0 y then PI / 2
            else if Rlt_dec y 0 then - (PI / 2) else 0.

Definition b2r (b : bool) : R := if b then 1 else 0.
Definition rrel (op : relop) (a b : R) : bool :=
  match op with
  | REq => if Req_EM_T a b then true else false
  | RNeq => if Req_EM_T a b then false else true
  | RLt => if Rlt_dec a b then true else false
  | RGt => if Rlt_dec b a then true else false
  | RLte => if Rle_dec a b then true else false
  | RGte => if Rle_dec b a then true else false
  end.
Definition rtrue (x : R) : bool := if Req_EM_T x 0 then false else true.

(* --- Kepler's equation --------------------------------------------------- *)
(* For p^2 + q^2 < 1 the equation  E + p cos E + q sin E = r  has exactly one
   solution (kep_unique in P_ExprSem.v); kep_sol is that solution. *)
Definition kepfun (p q r E : R) : R := E + p * cos E + q * sin E - r.

Lemma kep_bound p q E : p ^ 2 + q ^ 2 < 1 -> -1 < p * cos E + q * sin E < 1.
Proof.
  intros H.
  assert (Hs : (p * cos E + q * sin E) ^ 2 < 1).
  { pose proof (sin2_cos2 E) as Hsc. unfold Rsqr in Hsc.
    assert (0 <= (p * sin E - q * cos E) ^ 2) by apply pow2_ge_0.
    assert ((p * cos E + q * sin E) ^ 2 + (p * sin E - q * cos E) ^ 2
            = (p ^ 2 + q ^ 2) * (sin E * sin E + cos E * cos E)) by ring.
    rewrite Hsc in H1. lra. }
  split; nra.
Qed.

Definition kep_root (p q r : R) (H : p ^ 2 + q ^ 2 < 1) : { E : R | kepfun p q r E = 0 }.
Proof.
  destruct (IVT (kepfun p q r) (r - 1) (r + 1)) as [z Hz].
  - unfold kepfun. intros x.
    apply (continuity_pt_minus (fun E => E + p * cos E + q * sin E) (fun _ => r));
      [| apply continuity_pt_const; intros ? ?; reflexivity].
    apply (continuity_pt_plus (fun E => E + p * cos E) (fun E => q * sin E)).
    + apply (continuity_pt_plus (fun E => E) (fun E => p * cos E)).
      * apply derivable_continuous_pt, derivable_pt_id.
      * apply continuity_pt_scal, continuity_cos.
    + apply continuity_pt_scal, continuity_sin.
  - lra.
  - unfold kepfun. pose proof (kep_bound p q (r - 1) H). lra.
  - unfold kepfun. pose proof (kep_bound p q (r + 1) H). lra.
  - exists z. apply Hz.
Defined.

Definition kep_sol (p q r : R) : option R :=
  match Rlt_dec (p ^ 2 + q ^ 2) 1 with
  | left H => Some (proj1_sig (kep_root p q r H))
  | right _ => None
  end.

(* --- Environments and the meaning of an expression ------------------------ *)
(* The values of variables, parameters and time, and the meaning of the
   functions which the library does not define: the abstract functions of
   dfun() with their partial derivatives, and user-defined functions. *)
Record env := mkEnv {
  v_var : string -> option R;
  v_par : nat -> option R;
  v_time : option R;
  v_dfun : string -> list (nat * nat) -> list R -> option R;
  v_user : string -> list R -> option R
}.

Section Sem.
Context (o : nops) (nval : num o -> R).

(* Functions defined as soon as all their arguments are. *)
Definition ssem (rho : env) (f : fid (num o)) (vs : list R) : option R :=
  match f, vs with
  | Fsum, _ => Some (rsum vs)
  | Fprod, _ => Some (rprod vs)
  | Fpow, [b; e] => rpow b e
  | Fsub, [a; b] => Some (a - b)
  | Fdiv, [a; b] => guard (nz_dec b) (a / b)
  | Fsumsq, _ => Some (rsum (map (fun x => x * x) vs))
  | Fnumid, [a] => Some a
  | Fu u, [x] => usem u x
  | Fatan2, [y; x] => Some (ratan2 y x)
  | Frelu sl, [x] => Some (if Rlt_dec 0 x then x else nval sl * x)
  | Frelup sl, [x] => Some (if Rlt_dec 0 x then 1 else nval sl)
  | Frel op, [a; b] => Some (b2r (rrel op a b))
  | Fland, _ => Some (b2r (forallb rtrue vs))
  | Flor, _ => Some (b2r (existsb rtrue vs))
  | FkepE, [e; M] => if Rle_dec 0 e then kep_sol 0 (- e) M else None
  | FkepF, [h; k; lam] => kep_sol h (- k) lam
  | FkepDE, [s0; c0; DM] => kep_sol (- s0) (- c0) (DM - s0)
  | Ftime, [] => v_time rho
  | Fpi, [] => Some PI
  | Fdfun id d, _ => v_dfun rho id d vs
  | Fother s, _ => v_user rho s vs
  | _, _ => None
  end.

(* All functions but select() need all their arguments. *)
Definition fsem (rho : env) (f : fid (num o)) (vs : list (option R)) : option R :=
  match f, vs with
  | Fselect, [c; t; e] => match c with
                          | Some x => if rtrue x then t else e
                          | None => None
                          end
  | _, _ => match oseq vs with Some l => ssem rho f l | None => None end
  end.

Fixpoint eval (rho : env) (e : expr (num o)) : option R :=
  match e with
  | ENum n => Some (nval n)
  | EVar s => v_var rho s
  | EPar i => v_par rho i
  | EFun f args => fsem rho f (map (eval rho) args)
  end.

(* --- Numbers --------------------------------------------------------------- *)
(* Numbers denote reals, and arithmetic on them is exact: the rounding of the
   constants folded by the library is outside of the model. *)
Record nring := mkNring {
  l_lit : forall z, nval (n_lit o z) = IZR z;
  l_hlf : forall z, nval (n_hlf o z) = IZR z / 2;
  l_add : forall a b, nval (n_add o a b) = nval a + nval b;
  l_sub : forall a b, nval (n_sub o a b) = nval a - nval b;
  l_mul : forall a b, nval (n_mul o a b) = nval a * nval b;
  l_neg : forall a, nval (n_neg o a) = - nval a;
  l_isz : forall z a, n_isz o z a = true <-> nval a = IZR z;
  l_isneg : forall a, n_isneg o a = true <-> nval a < 0;
  l_gt0 : forall a, n_gt0 o a = true <-> 0 < nval a;
  l_int : forall a z, n_int o a = Some z -> nval a = IZR z;
  l_oddhalf : forall a z, n_oddhalf o a = Some z -> nval a = IZR z / 2;
  l_zero : forall a, nval (n_zero_of o a) = 0
}.
Record nfun := mkNfun {
  l_div : forall a b, nval b <> 0 -> nval (n_div o a b) = nval a / nval b;
  l_pow : forall a b v, rpow (nval a) (nval b) = Some v -> nval (n_pow o a b) = v;
  l_fun : forall u a v, usem u (nval a) = Some v -> nval (n_fun o u a) = v;
  l_atan2 : forall a b, nval (n_atan2 o a b) = ratan2 (nval a) (nval b)
}.
Record nlaws := mkNlaws { l_ring : nring; l_trans : nfun }.
End Sem.
Arguments l_lit {o nval}. Arguments l_hlf {o nval}. Arguments l_add {o nval}.
Arguments l_sub {o nval}. Arguments l_mul {o nval}. Arguments l_neg {o nval}.
Arguments l_isz {o nval}. Arguments l_isneg {o nval}. Arguments l_gt0 {o nval}.
Arguments l_int {o nval}. Arguments l_oddhalf {o nval}. Arguments l_zero {o nval}.
Arguments l_div {o nval}. Arguments l_pow {o nval}. Arguments l_fun {o nval}.
Arguments l_atan2 {o nval}. Arguments l_ring {o nval}. Arguments l_trans {o nval}.

(* e occurs in e', as e' itself or inside of one of its arguments. *)
Inductive occurs {N} (e : expr N) : expr N -> Prop :=
| occ_here : occurs e e
| occ_arg f args a : In a args -> occurs e a -> occurs e (EFun f args).

(* "Refines": wherever a has a value, b has the same value. *)
Definition refines (a b : option R) : Prop := forall v, a = Some v -> b = Some v.
