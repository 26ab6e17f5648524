(* Equality, ordering and hashing of numbers and expressions. *)
From Coq Require Import String Bool ZArith Arith List.
From Verif Require Import M_Expr M_Dag S_Dag.
Import ListNotations.

(* A floating-point value of one of the types of number::value_type
   (include/heyoka/number.hpp: float, double, long double, real128, real):
   NaNs with a payload, infinities, zeros with a sign, and (-1)^s * m * 2^e.
   The multiprecision type has values of different precisions: the same value
   can be represented with different m and e. *)
Inductive fval :=
| Fnan (payload : positive)
| Finf (s : bool)
| Fzero (s : bool)
| Ffin (s : bool) (m : positive) (e : Z).
Definition isnan (v : fval) : bool := match v with Fnan _ => true | _ => false end.

(* m1 * 2^e1 against m2 * 2^e2. *)
Definition zcmp (m1 e1 m2 e2 : Z) : comparison :=
  let e := Z.min e1 e2 in
  Z.compare (m1 * 2 ^ (e1 - e))%Z (m2 * 2 ^ (e2 - e))%Z.
Definition signed (s : bool) (m : positive) : Z := if s then Zneg m else Zpos m.
(* The comparison of floating-point values (IEEE 754): unordered with NaN,
   zeros are equal. *)
Definition fcmp (a b : fval) : option comparison :=
  match a, b with
  | Fnan _, _ | _, Fnan _ => None
  | Finf s, Finf t => Some (if Bool.eqb s t then Eq else if s then Lt else Gt)
  | Finf s, _ => Some (if s then Lt else Gt)
  | _, Finf t => Some (if t then Gt else Lt)
  | Fzero _, Fzero _ => Some Eq
  | Fzero _, Ffin t m e => Some (zcmp 0 0 (signed t m) e)
  | Ffin s m e, Fzero _ => Some (zcmp (signed s m) e 0 0)
  | Ffin s m e, Ffin t m' e' => Some (zcmp (signed s m) e (signed t m') e')
  end.
(* The operators == and < of the floating-point types. *)
Definition v_eq (a b : fval) : bool := match fcmp a b with Some Eq => true | _ => false end.
Definition v_lt (a b : fval) : bool := match fcmp a b with Some Lt => true | _ => false end.

(* number: the index of the type in the variant, and the value. *)
Record number := mkN { n_idx : nat; n_val : fval }.

(* src/number.cpp:386-403. *)
Definition number_eq (a b : number) : bool :=
  if Nat.eqb (n_idx a) (n_idx b)
  then if isnan (n_val a) && isnan (n_val b) then true else v_eq (n_val a) (n_val b)
  else false.
(* src/number.cpp:416-440. *)
Definition number_lt (a b : number) : bool :=
  if Nat.eqb (n_idx a) (n_idx b)
  then if isnan (n_val a) then false
       else if isnan (n_val b) then true
       else v_lt (n_val a) (n_val b)
  else Nat.ltb (n_idx a) (n_idx b).

Section Cmp.
Context {N : Type} (neq nlt : N -> N -> bool).
(* func::get_name(). *)
Context (name : fid N -> string).
Local Notation dg := (dag N).

(* &a.args() == &b.args() for distinct functions: the same shared vector. *)
Definition same_args (s t : option nat) : bool :=
  match s, t with Some i, Some j => Nat.eqb i j | _, _ => false end.

(* operator==: src/expression_ops.cpp:246-260, src/func.cpp:499-519,
   src/variable.cpp:81, src/param.cpp:65. *)
Fixpoint dag_eq (a b : dg) {struct a} : bool :=
  match a, b with
  | DNum x, DNum y => neq x y
  | DVr s, DVr t => String.eqb s t
  | DPr i, DPr j => Nat.eqb i j
  | DFn ad1 f1 s1 l1, DFn ad2 f2 s2 l2 =>
      if Nat.eqb ad1 ad2 then true
      else if negb (String.eqb (name f1) (name f2)) then false
      else if same_args s1 s2 then true
      else (fix go (l l' : list dg) {struct l} : bool :=
              match l, l' with
              | [], [] => true
              | x :: r, y :: r' => dag_eq x y && go r r'
              | _, _ => false
              end) l1 l2
  | _, _ => false
  end.

(* std::lexicographical_compare. *)
Fixpoint lexcmp (lt : dg -> dg -> bool) (l l' : list dg) : bool :=
  match l, l' with
  | [], [] => false
  | [], _ :: _ => true
  | _ :: _, [] => false
  | x :: r, y :: r' => if lt x y then true else if lt y x then false else lexcmp lt r r'
  end.
(* ex_less_than: src/expression_basic.cpp:1236-1281; operator< on functions:
   src/func.cpp:532-575. The recursion is bounded by fuel; dag_lt supplies
   enough of it. *)
Fixpoint dag_lt_go (fuel : nat) (a b : dg) : bool :=
  match fuel with
  | O => false
  | S k =>
      match a, b with
      | DNum x, DNum y => nlt x y
      | DVr s, DVr t => String.ltb s t
      | DPr i, DPr j => Nat.ltb i j
      | DFn ad1 f1 s1 l1, DFn ad2 f2 s2 l2 =>
          if Nat.eqb ad1 ad2 then false
          else if String.ltb (name f1) (name f2) then true
          else if String.ltb (name f2) (name f1) then false
          else if same_args s1 s2 then false
          else if lexcmp (dag_lt_go k) l1 l2 then true
          else false
      | DNum _, _ => true
      | DFn _ _ _ _, _ => false
      | DVr _, DFn _ _ _ _ => true
      | DVr _, _ => false
      | DPr _, DNum _ => false
      | DPr _, _ => true
      end
  end.
Definition dag_lt (a b : dg) : bool := dag_lt_go (dsize a + dsize b) a b.
End Cmp.

(* src/number.cpp:154-170, src/variable.cpp:69, src/param.cpp:53: the hash of a
   leaf. hv is std::hash on the type of a given index. *)
Definition number_hash {H} (hidx : nat -> H) (hv : nat -> fval -> H) (n : number) : H :=
  if isnan (n_val n) then hidx (n_idx n) else hv (n_idx n) (n_val n).
Definition leaf_hash {H} (hidx : nat -> H) (hv : nat -> fval -> H) (hstr : string -> H) (hu32 : nat -> H)
  (e : expr number) : H :=
  match e with
  | ENum n => number_hash hidx hv n
  | EVar s => hstr s
  | EPar i => hu32 i
  | EFun _ _ => hidx 0
  end.
