(* Expressions, numbers and the functions which build and transform them.
   Modelled from include/heyoka/expression.hpp, src/expression_basic.cpp,
   src/expression_ops.cpp, src/func.cpp, src/math/*.cpp, src/detail/*.cpp.

   An expression is here the tree of its nodes: pointers to functions, shared
   argument vectors and the traversal caches keyed on them are added back in
   M_Dag.v, where they are proved invisible. *)
From Coq Require Import String Bool ZArith Lia List.
Import ListNotations.

(* The unary functions of the library: src/math/{sin,cos,tan,sinh,cosh,tanh,
   asin,acos,atan,asinh,acosh,atanh,exp,log,erf,sigmoid}.cpp. Ucsin and Uccos
   are the "combined" variants of sin.cpp:97 and cos.cpp:98, which compute the
   same functions. *)
Inductive ufun :=
  Usin | Ucos | Utan | Usinh | Ucosh | Utanh | Uasin | Uacos | Uatan
| Uasinh | Uacosh | Uatanh | Uexp | Ulog | Uerf | Usigmoid | Ucsin | Uccos.

(* include/heyoka/math/relational.hpp, rel_op. *)
Inductive relop := REq | RNeq | RLt | RGt | RLte | RGte.

(* Operations on numbers (src/number.cpp). A number holds a value of one of the
   supported floating-point types; the type promotion rules are part of the
   operations. *)
Record nops := mkNops {
  num : Type;
  n_lit : Z -> num;               (* a literal such as 0_dbl, 1_dbl, -1_dbl, 2_dbl *)
  n_hlf : Z -> num;               (* the literal z/2: .5, -.5 *)
  n_add : num -> num -> num;      (* number.cpp operator+ *)
  n_sub : num -> num -> num;
  n_mul : num -> num -> num;
  n_div : num -> num -> num;
  n_neg : num -> num;             (* number.cpp unary operator- *)
  n_pow : num -> num -> num;      (* std::pow and friends, pow.cpp:1031-1045 *)
  n_fun : ufun -> num -> num;     (* std::sin and friends on number values *)
  n_atan2 : num -> num -> num;
  n_isz : Z -> num -> bool;       (* is_zero, is_one, is_negative_one, v == 2 *)
  n_isneg : num -> bool;          (* number.cpp is_negative *)
  n_gt0 : num -> bool;            (* x > 0 *)
  n_int : num -> option Z;        (* pow.cpp:158-209 on a number *)
  n_oddhalf : num -> option Z;    (* pow.cpp:214-287 on a number *)
  n_zero_of : num -> num;         (* static_cast<U>(0) for the type of a number *)
  n_show : num -> string          (* fmt::format("{:a}", x) *)
}.

(* The functions which can appear in an expression. The user-defined functions
   and the functions of the library not listed are Fother, identified by name. *)
Inductive fid (N : Type) :=
| Fsum | Fprod | Fpow | Fsub | Fdiv | Fsumsq | Fnumid
| Fu (u : ufun)
| Fatan2
| Frelu (slope : N) | Frelup (slope : N)
| Fselect | Frel (op : relop) | Fland | Flor
| FkepE | FkepF | FkepDE
| Ftime | Fpi
| Fdfun (id : string) (didx : list (nat * nat))
| Fother (name : string).
Arguments Fsum {N}. Arguments Fprod {N}. Arguments Fpow {N}. Arguments Fsub {N}.
Arguments Fdiv {N}. Arguments Fsumsq {N}. Arguments Fnumid {N}. Arguments Fu {N}.
Arguments Fatan2 {N}. Arguments Frelu {N}. Arguments Frelup {N}.
Arguments Fselect {N}. Arguments Frel {N}. Arguments Fland {N}. Arguments Flor {N}.
Arguments FkepE {N}. Arguments FkepF {N}. Arguments FkepDE {N}.
Arguments Ftime {N}. Arguments Fpi {N}. Arguments Fdfun {N}. Arguments Fother {N}.

(* include/heyoka/expression.hpp, class expression: a variant of number,
   variable, func and param. *)
Inductive expr (N : Type) :=
| ENum (n : N)
| EVar (s : string)
| EPar (i : nat)
| EFun (f : fid N) (args : list (expr N)).
Arguments ENum {N}. Arguments EVar {N}. Arguments EPar {N}. Arguments EFun {N}.

(* Induction over expressions with a hypothesis for every argument. *)
Section ExprInd.
  Context {N : Type} (P : expr N -> Prop).
  Hypothesis Hn : forall n, P (ENum n).
  Hypothesis Hv : forall s, P (EVar s).
  Hypothesis Hp : forall i, P (EPar i).
  Hypothesis Hf : forall f args, Forall P args -> P (EFun f args).
  Fixpoint expr_ind' (e : expr N) : P e :=
    match e with
    | ENum n => Hn n
    | EVar s => Hv s
    | EPar i => Hp i
    | EFun f args =>
        Hf f args ((fix go l : Forall P l :=
                      match l with
                      | [] => Forall_nil P
                      | a :: r => Forall_cons a (expr_ind' a) (go r)
                      end) args)
    end.
End ExprInd.

Section Builders.
Context (o : nops).
Local Notation nm := (num o).
Local Notation ex := (expr (num o)).

(* std::holds_alternative<number>(ex.value()). *)
Definition is_num (e : ex) : bool := match e with ENum _ => true | _ => false end.

(* The numbers among the arguments, in order (std::get<number>). *)
Fixpoint nums (l : list ex) : list nm :=
  match l with
  | [] => []
  | ENum n :: r => n :: nums r
  | _ :: r => nums r
  end.

(* std::stable_partition(p): the elements satisfying p, then the others. *)
Definition part {A} (p : A -> bool) (l : list A) : list A * list A :=
  (filter p l, filter (fun x => negb (p x)) l).

Definition dbl (z : Z) : ex := ENum (n_lit o z).

(* src/math/sum.cpp:584-600, after constant folding. *)
Definition sum_tail (args : list ex) : ex :=
  match args with
  | [] => dbl 0
  | [e] => e
  | _ => let (ns, others) := part is_num args in EFun Fsum (ns ++ others)
  end.

(* src/math/sum.cpp:548-601. *)
Definition mk_sum (args : list ex) : ex :=
  let others := fst (part (fun e => negb (is_num e)) args) in
  match nums args with
  | [] => sum_tail others
  | n0 :: rest =>
      let n := fold_left (n_add o) rest n0 in
      if n_isz o 0 n
      then match others with
           | [] => ENum n
           | _ => sum_tail others
           end
      else sum_tail (others ++ [ENum n])
  end.

(* src/math/prod.cpp:955-972. *)
Definition prod_tail (args : list ex) : ex :=
  match args with
  | [] => dbl 1
  | [e] => e
  | _ => let (ns, others) := part is_num args in EFun Fprod (ns ++ others)
  end.

(* src/math/prod.cpp:913-973. *)
Definition mk_prod (args : list ex) : ex :=
  let others := fst (part (fun e => negb (is_num e)) args) in
  match nums args with
  | [] => prod_tail others
  | n0 :: rest =>
      let n := fold_left (n_mul o) rest n0 in
      if n_isz o 1 n
      then match others with
           | [] => ENum n
           | _ => prod_tail others
           end
      else if n_isz o 0 n then ENum n
      else prod_tail (others ++ [ENum n])
  end.

(* src/math/pow.cpp:1024-1063 and 1070-1073. *)
Definition mk_pow (b e : ex) : ex :=
  match b, e with
  | ENum x, ENum y => ENum (n_pow o x y)
  | _, ENum y => if n_isz o 0 y then dbl 1
                 else if n_isz o 1 y then b
                 else EFun Fpow [b; e]
  | _, _ => EFun Fpow [b; e]
  end.

(* src/math/sqrt.cpp: sqrt(e) = pow(e, .5). *)
Definition mk_sqrt (e : ex) : ex := mk_pow e (ENum (n_hlf o 1)).

(* src/expression_ops.cpp:45-52, unary minus. *)
Definition mk_neg (e : ex) : ex :=
  match e with
  | ENum n => ENum (n_neg o n)
  | _ => mk_prod [dbl (-1); e]
  end.

(* src/expression_ops.cpp:55-62. *)
Definition mk_add (a b : ex) : ex :=
  match a, b with
  | ENum x, ENum y => ENum (n_add o x y)
  | _, _ => mk_sum [a; b]
  end.

(* src/expression_ops.cpp:65-72. *)
Definition mk_sub (a b : ex) : ex :=
  match a, b with
  | ENum x, ENum y => ENum (n_sub o x y)
  | _, _ => mk_add a (mk_neg b)
  end.

(* src/expression_ops.cpp:75-82. *)
Definition mk_mul (a b : ex) : ex :=
  match a, b with
  | ENum x, ENum y => ENum (n_mul o x y)
  | _, _ => mk_prod [a; b]
  end.

(* src/expression_ops.cpp:85-92. *)
Definition mk_div (a b : ex) : ex :=
  match a, b with
  | ENum x, ENum y => ENum (n_div o x y)
  | _, _ => mk_prod [a; mk_pow b (dbl (-1))]
  end.

(* The unary builders fold numbers and otherwise create the node:
   sin.cpp:381-409, cos.cpp:381-409, tan.cpp:324, sinh.cpp:323, cosh.cpp:322,
   tanh.cpp:326, asin.cpp:370, acos.cpp:372, atan.cpp:361, asinh.cpp:363,
   acosh.cpp:363, atanh.cpp:361, exp.cpp:299, log.cpp:320, erf.cpp:382,
   sigmoid.cpp:369. *)
Definition mk_fun (u : ufun) (e : ex) : ex :=
  match e with
  | ENum n => ENum (n_fun o u n)
  | _ => EFun (Fu u) [e]
  end.

(* src/math/atan2.cpp:763-785. *)
Definition mk_atan2 (y x : ex) : ex :=
  match y, x with
  | ENum a, ENum b => ENum (n_atan2 o a b)
  | _, _ => EFun Fatan2 [y; x]
  end.

(* src/math/relu.cpp:580-602; relu_slope_check (relu.cpp:52-59) is not
   modelled. *)
Definition mk_relu (sl : nm) (e : ex) : ex :=
  match e with
  | ENum n => ENum (if n_gt0 o n then n else n_mul o sl n)
  | _ => EFun (Frelu sl) [e]
  end.
Definition mk_relup (sl : nm) (e : ex) : ex :=
  match e with
  | ENum n => ENum (if n_gt0 o n then n_lit o 1 else sl)
  | _ => EFun (Frelup sl) [e]
  end.

(* src/math/select.cpp:267-270. *)
Definition mk_select (c t f : ex) : ex := EFun Fselect [c; t; f].

(* src/math/logical.cpp:314-338. *)
Definition mk_and (args : list ex) : ex :=
  match args with [] => dbl 1 | [e] => e | _ => EFun Fland args end.
Definition mk_or (args : list ex) : ex :=
  match args with [] => dbl 0 | [e] => e | _ => EFun Flor args end.

(* src/math/kepE.cpp:801-809, kepF.cpp:1689-1699, kepDE.cpp:113-123. *)
Definition mk_kepE (e M : ex) : ex :=
  match e with
  | ENum n => if n_isz o 0 n then M else EFun FkepE [e; M]
  | _ => EFun FkepE [e; M]
  end.
Definition mk_kepF (h k lam : ex) : ex :=
  match h, k with
  | ENum a, ENum b => if n_isz o 0 a && n_isz o 0 b then lam else EFun FkepF [h; k; lam]
  | _, _ => EFun FkepF [h; k; lam]
  end.
Definition mk_kepDE (s0 c0 DM : ex) : ex :=
  match s0, c0 with
  | ENum a, ENum b => if n_isz o 0 a && n_isz o 0 b then DM else EFun FkepDE [s0; c0; DM]
  | _, _ => EFun FkepDE [s0; c0; DM]
  end.

(* --- Transformations ---------------------------------------------------- *)

(* src/detail/ex_traversal.cpp:37-168 seen on the tree: transform the leaves,
   rebuild every function over its transformed arguments with
   make_copy_with_new_args() (which does not simplify), then apply the branch
   function. *)
Fixpoint transform (leaf branch : ex -> ex) (e : ex) : ex :=
  match e with
  | EFun f args => branch (EFun f (map (transform leaf branch) args))
  | _ => leaf e
  end.

(* std::unordered_map lookup. *)
Fixpoint assoc {A} (s : string) (m : list (string * A)) : option A :=
  match m with
  | [] => None
  | (k, v) :: r => if String.eqb s k then Some v else assoc s r
  end.

(* src/expression_basic.cpp:336-359, rename_variables. *)
Definition rename (m : list (string * string)) : ex -> ex :=
  transform (fun e => match e with
                      | EVar s => match assoc s m with Some t => EVar t | None => e end
                      | _ => e
                      end) (fun e => e).

(* src/expression_basic.cpp:161-190, copy: the same traversal with nothing to
   change. *)
Definition copy : ex -> ex := transform (fun e => e) (fun e => e).

(* src/expression_basic.cpp:730-758, subs by variable name. *)
Definition subs (m : list (string * ex)) : ex -> ex :=
  transform (fun e => match e with
                      | EVar s => match assoc s m with Some t => t | None => e end
                      | _ => e
                      end) (fun e => e).

(* src/expression_basic.cpp:779-952, subs by expression: every node is looked
   up in the map on the way down, before its arguments are considered. The map
   is represented by its lookup function. *)
Fixpoint subs_ex (look : ex -> option ex) (e : ex) : ex :=
  match look e with
  | Some t => t
  | None => match e with
            | EFun f args => EFun f (map (subs_ex look) args)
            | _ => e
            end
  end.

(* include/heyoka/detail/udf_split.hpp:50-94. chunk is the loop which
   accumulates tmp and ret_seq (lines 68-92). The recursion of line 95 is on
   fuel; udf_split supplies enough of it (udf_split_short). *)
Fixpoint chunk (f : fid nm) (split : nat) (tmp : list ex) (args : list ex) : list ex :=
  match args with
  | [] => match tmp with
          | [] => []
          | [a] => [a]
          | _ => [EFun f tmp]
          end
  | a :: r =>
      let tmp' := (tmp ++ [a])%list in
      if Nat.eqb (List.length tmp') split
      then EFun f tmp' :: chunk f split [] r
      else chunk f split tmp' r
  end.
Fixpoint split_go (fuel : nat) (f : fid nm) (split : nat) (args : list ex) : ex :=
  match fuel with
  | O => EFun f args
  | S k => if Nat.leb (List.length args) split then EFun f args
           else split_go k f split (chunk f split [] args)
  end.
Definition sum_split (split : nat) (e : ex) : ex :=
  match e with
  | EFun Fsum args => split_go (List.length args) Fsum split args
  | _ => e
  end.
Definition prod_split (split : nat) (e : ex) : ex :=
  match e with
  | EFun Fprod args => split_go (List.length args) Fprod split args
  | _ => e
  end.

(* src/expression_basic.cpp:1177-1197 (split 8) and 1199-1215. *)
Definition split_sums : ex -> ex := transform (fun e => e) (sum_split 8).
Definition split_prods (split : nat) : ex -> ex := transform (fun e => e) (prod_split split).

(* src/math/sum.cpp:387-421. *)
Definition is_square (e : ex) : option ex :=
  match e with
  | EFun Fpow [b; ENum n] => if n_isz o 2 n then Some b else None
  | _ => None
  end.
Fixpoint all_squares (l : list ex) : option (list ex) :=
  match l with
  | [] => Some []
  | a :: r => match is_square a with
              | Some b => match all_squares r with Some bs => Some (b :: bs) | None => None end
              | None => None
              end
  end.
(* src/math/sum.cpp:428-455. *)
Definition sum_to_sum_sq (e : ex) : ex :=
  match e with
  | EFun Fsum args => match all_squares args with
                      | Some bs => EFun Fsumsq bs
                      | None => e
                      end
  | _ => e
  end.
(* src/expression_basic.cpp:1217-1234. *)
Definition sums_to_sum_sqs : ex -> ex := transform (fun e => e) sum_to_sum_sq.

(* src/math/sum.cpp:481-489 (false for the terms -1 * a * ...). *)
Definition not_negation (e : ex) : bool :=
  match e with
  | EFun Fprod (ENum n :: _ :: _) => negb (n_isz o (-1) n)
  | _ => true
  end.
(* src/math/sum.cpp:504-518: the arguments of the product without the -1. *)
Definition drop_neg (e : ex) : ex :=
  match e with
  | EFun Fprod (_ :: r) => mk_prod r
  | _ => e
  end.
(* src/math/sum.cpp:466-534. *)
Definition sum_to_sub_node (e : ex) : ex :=
  match e with
  | EFun Fsum args =>
      let (keep, negs) := part not_negation args in
      match negs with
      | [] => e
      | _ => let st := mk_sum (map drop_neg negs) in
             match keep with
             | [] => mk_prod [dbl (-1); st]
             | _ => EFun Fsub [mk_sum keep; st]
             end
      end
  | _ => e
  end.
(* src/math/sum.cpp:461-544. *)
Definition sum_to_sub : ex -> ex := transform (fun e => e) sum_to_sub_node.

(* The evaluation algorithm of pow(): src/math/pow.cpp:292-365. *)
Inductive pow_algo := PosInt (n : Z) | NegInt (n : Z) | PosHalf (n : Z) | NegHalf (n : Z) | PowGen.
Definition pow_eval_algo (expo : ex) : pow_algo :=
  match expo with
  | ENum n =>
      let half := match n_oddhalf o n with
                  | Some z => if (0 <=? z)%Z && (z <=? 16)%Z then PosHalf z
                              else if (z <? 0)%Z && (- z <=? 16)%Z then NegHalf (- z)
                              else PowGen
                  | None => PowGen
                  end in
      match n_int o n with
      | Some z => if (0 <=? z)%Z && (z <=? 16)%Z then PosInt z
                  else if (z <? 0)%Z && (- z <=? 16)%Z then NegInt (- z)
                  else half
      | None => half
      end
  | _ => PowGen
  end.

(* src/math/prod.cpp:822-842. *)
Definition fpart_eval (e : ex) : bool :=
  match e with
  | EFun Fpow [_; x] => match pow_eval_algo x with
                        | NegInt _ | NegHalf _ => false
                        | _ => true
                        end
  | _ => true
  end.
(* src/math/prod.cpp:870-896. *)
Definition fpart_taylor (e : ex) : bool :=
  match e with
  | EFun Fpow [_; ENum n] => negb (n_isz o (-1) n)
  | _ => true
  end.
(* src/math/prod.cpp:784-794. *)
Definition inv_pow (e : ex) : ex :=
  match e with
  | EFun Fpow [b; ENum n] => mk_pow b (ENum (n_neg o n))
  | _ => e
  end.
(* src/math/prod.cpp:754-807. *)
Definition prod_to_div_node (fpart : ex -> bool) (e : ex) : ex :=
  match e with
  | EFun Fprod args =>
      let (keep, dens) := part fpart args in
      match dens with
      | [] => e
      | _ => EFun Fdiv [mk_prod keep; mk_prod (map inv_pow dens)]
      end
  | _ => e
  end.
(* src/math/prod.cpp:812-854 and 857-908. *)
Definition prod_to_div_eval : ex -> ex := transform (fun e => e) (prod_to_div_node fpart_eval).
Definition prod_to_div_taylor : ex -> ex := transform (fun e => e) (prod_to_div_node fpart_taylor).

(* src/taylor_01.cpp:806-840. The logarithm node is created without constant
   folding. *)
Definition explog_node (e : ex) : ex :=
  match e with
  | EFun Fpow [b; x] => if is_num x then e
                        else mk_fun Uexp (mk_mul x (EFun (Fu Ulog) [b]))
  | _ => e
  end.
Definition pow_to_explog : ex -> ex := transform (fun e => e) explog_node.

(* The rewriting passes applied before a Taylor decomposition:
   src/taylor_01.cpp:870-888. *)
Definition taylor_passes (e : ex) : ex :=
  split_prods 2 (prod_to_div_taylor (sums_to_sum_sqs (split_sums (sum_to_sub (pow_to_explog e))))).

(* --- Queries ------------------------------------------------------------ *)

(* src/detail/ex_traversal.cpp:172-246 seen on the tree: the leaves in the
   order in which they are visited (the last argument first). *)
Fixpoint leaves (e : ex) : list ex :=
  match e with
  | EFun _ args => concat (rev (map leaves args))
  | _ => [e]
  end.

(* Insertion in a std::set<std::string>: sorted, without repetitions. *)
Fixpoint sins {A} (lt : A -> A -> bool) (x : A) (l : list A) : list A :=
  match l with
  | [] => [x]
  | y :: r => if lt x y then x :: l
              else if lt y x then y :: sins lt x r
              else l
  end.
(* src/expression_basic.cpp:286-331. *)
Definition get_variables (es : list ex) : list string :=
  fold_left (fun s e => match e with EVar v => sins String.ltb v s | _ => s end)
            (concat (map leaves es)) [].
(* src/expression_basic.cpp:1011-1054: one past the largest index. The overflow
   of the index arithmetic (a checked exception) is not modelled. *)
Definition get_param_size (es : list ex) : nat :=
  fold_left (fun m e => match e with EPar i => Nat.max m (i + 1) | _ => m end)
            (concat (map leaves es)) 0.
(* src/expression_basic.cpp:1062-1123. *)
Definition get_params (es : list ex) : list nat :=
  fold_left (fun s e => match e with EPar i => sins Nat.ltb i s | _ => s end)
            (concat (map leaves es)) [].

(* src/detail/ex_traversal.cpp:252-366 seen on the tree. *)
Fixpoint test_any (p : ex -> bool) (e : ex) : bool :=
  p e || match e with
         | EFun _ args => existsb (test_any p) args
         | _ => false
         end.
(* src/expression_basic.cpp:1131-1172; is_time_dependent() of a function is
   true for time (time.cpp) and false by default (func.hpp); user-defined
   functions and eop/sw quantities may override it. *)
Definition is_time_dependent (td : string -> bool) : ex -> bool :=
  test_any (fun e => match e with
                     | EFun Ftime _ => true
                     | EFun (Fother s) _ => td s
                     | _ => false
                     end).

(* src/math/dfun.cpp:332-355. *)
Definition contains_dfun (es : list ex) : bool :=
  existsb (test_any (fun e => match e with EFun (Fdfun _ _) _ => true | _ => false end)) es.

(* src/expression_basic.cpp:587-723: the number of nodes of the tree (0 is
   returned when it overflows a std::size_t, handled in M_Dag.v). *)
Fixpoint n_nodes (e : ex) : nat :=
  match e with
  | EFun _ args => S (fold_right (fun a n => n_nodes a + n) 0 args)
  | _ => 1
  end.

(* --- Derivatives -------------------------------------------------------- *)

(* src/math/dfun.cpp:282-319: add one derivative with respect to argument i. *)
Fixpoint bump (i : nat) (d : list (nat * nat)) : list (nat * nat) :=
  match d with
  | [] => [(i, 1)]
  | (j, k) :: r => if Nat.ltb j i then (j, k) :: bump i r
                   else if Nat.eqb j i then (j, k + 1) :: r
                   else (i, 1) :: d
  end.

(* src/math/prod.cpp:260-281: the product of the other arguments. *)
Definition drop_nth {A} (i : nat) (l : list A) : list A := firstn i l ++ skipn (S i) l.

(* gradient() of the unary functions: sin.cpp:372, cos.cpp:372, tan.cpp:315,
   sinh.cpp:63, cosh.cpp:63, tanh.cpp:63, asin.cpp:65, acos.cpp:65, atan.cpp:63,
   asinh.cpp:64, acosh.cpp:64, atanh.cpp:63, exp.cpp:291, log.cpp:311,
   erf.cpp:374, sigmoid.cpp:361. *)
Definition ugrad (u : ufun) (x : ex) : ex :=
  let sq e := mk_pow e (dbl 2) in
  let mh e := mk_pow e (ENum (n_hlf o (-1))) in
  let inv e := mk_pow e (dbl (-1)) in
  match u with
  | Usin => mk_fun Ucos x
  | Ucsin => mk_fun Uccos x
  | Ucos => mk_neg (mk_fun Usin x)
  | Uccos => mk_neg (mk_fun Ucsin x)
  | Utan => mk_add (dbl 1) (sq (mk_fun Utan x))
  | Usinh => mk_fun Ucosh x
  | Ucosh => mk_fun Usinh x
  | Utanh => mk_sub (dbl 1) (sq (mk_fun Utanh x))
  | Uasin => mh (mk_sub (dbl 1) (sq x))
  | Uacos => mk_neg (mh (mk_sub (dbl 1) (sq x)))
  | Uatan => inv (mk_add (dbl 1) (sq x))
  | Uasinh => mh (mk_add (sq x) (dbl 1))
  | Uacosh => mh (mk_sub (sq x) (dbl 1))
  | Uatanh => inv (mk_sub (dbl 1) (sq x))
  | Uexp => mk_fun Uexp x
  | Ulog => inv x
  | Uerf => mk_mul (mk_div (dbl 2) (mk_sqrt (EFun Fpi []))) (mk_fun Uexp (mk_neg (sq x)))
  | Usigmoid => mk_mul (mk_sub (dbl 1) (mk_fun Usigmoid x)) (mk_fun Usigmoid x)
  end.

(* func::gradient(), src/func.cpp: None when the function does not implement
   it (sub, div, sum_sq and num_identity, which never reach the user) or the
   number of arguments is wrong. The gradients of user-defined functions are
   given by ug. pow.cpp:998-1002, sum.cpp (all ones), prod.cpp:260-281,
   atan2.cpp:73-83, relu.cpp:108 and 350 (zero), select.cpp:64,
   relational.cpp:143, logical.cpp:53, kepE.cpp:71, kepF.cpp:80, kepDE.cpp:78,
   time.cpp:60, constants.cpp:185, dfun.cpp:251-330. *)
Definition gradient (ug : string -> list ex -> option (list ex)) (f : fid nm) (args : list ex) : option (list ex) :=
  let inv e := mk_pow e (dbl (-1)) in
  match f, args with
  | Fsum, _ => Some (map (fun _ => dbl 1) args)
  | Fprod, _ => Some (map (fun i => mk_prod (drop_nth i args)) (seq 0 (List.length args)))
  | Fpow, [b; e] => Some [mk_mul e (mk_pow b (mk_sub e (dbl 1)));
                          mk_mul (mk_pow b e) (mk_fun Ulog b)]
  | Fu u, [x] => Some [ugrad u x]
  | Fatan2, [y; x] =>
      let den := inv (mk_add (mk_pow x (dbl 2)) (mk_pow y (dbl 2))) in
      Some [mk_mul x den; mk_mul (mk_neg y) den]
  | Frelu sl, [x] => Some [mk_relup sl x]
  | Frelup _, [_] => Some [dbl 0]
  | Fselect, [c; _; _] => Some [dbl 0; mk_select c (dbl 1) (dbl 0); mk_select c (dbl 0) (dbl 1)]
  | Frel _, [_; _] => Some [dbl 0; dbl 0]
  | Fland, _ => Some (map (fun _ => dbl 0) args)
  | Flor, _ => Some (map (fun _ => dbl 0) args)
  | FkepE, [e; _] =>
      let E := EFun FkepE args in
      let den := inv (mk_sub (dbl 1) (mk_mul e (mk_fun Ucos E))) in
      Some [mk_mul (mk_fun Usin E) den; den]
  | FkepF, [h; k; _] =>
      let F := EFun FkepF args in
      let den := inv (mk_sub (mk_sub (dbl 1) (mk_mul h (mk_fun Usin F))) (mk_mul k (mk_fun Ucos F))) in
      Some [mk_mul (mk_neg (mk_fun Ucos F)) den; mk_mul (mk_fun Usin F) den; den]
  | FkepDE, [s0; c0; _] =>
      let DE := EFun FkepDE args in
      let den := inv (mk_sub (mk_add (dbl 1) (mk_mul s0 (mk_fun Usin DE))) (mk_mul c0 (mk_fun Ucos DE))) in
      Some [mk_mul (mk_sub (mk_fun Ucos DE) (dbl 1)) den; mk_mul (mk_fun Usin DE) den; den]
  | Ftime, [] => Some []
  | Fpi, [] => Some []
  | Fdfun id d, _ => Some (map (fun i => EFun (Fdfun id (bump i d)) args) (seq 0 (List.length args)))
  | Fother s, _ => match ug s args with
                   | Some g => if Nat.eqb (List.length g) (List.length args) then Some g else None
                   | None => None
                   end
  | _, _ => None
  end.

(* What a derivative is taken with respect to. *)
Inductive darg := DVar (s : string) | DPar (i : nat).

(* src/expression_diff.cpp:74-108, the derivative of a leaf. *)
Definition diff_leaf (d : darg) (e : ex) : ex :=
  match e, d with
  | ENum n, _ => ENum (n_zero_of o n)
  | EVar s, DVar t => if String.eqb s t then dbl 1 else dbl 0
  | EPar i, DPar j => if Nat.eqb i j then dbl 1 else dbl 0
  | _, _ => dbl 0
  end.

(* src/expression_diff.cpp:161-182: the chain rule at a function node. *)
Definition diff_node (ug : string -> list ex -> option (list ex)) (f : fid nm) (args : list ex) (dargs : list ex) : option ex :=
  match gradient ug f args with
  | Some g => Some (mk_sum (map (fun p => mk_mul (fst p) (snd p)) (combine g dargs)))
  | None => None
  end.

Definition oseq {A} : list (option A) -> option (list A) :=
  fix go l := match l with
              | [] => Some []
              | a :: r => match a, go r with
                          | Some x, Some xs => Some (x :: xs)
                          | _, _ => None
                          end
              end.

(* src/expression_diff.cpp:70-256 seen on the tree. *)
Fixpoint diff (ug : string -> list ex -> option (list ex)) (d : darg) (e : ex) : option ex :=
  match e with
  | EFun f args => match oseq (map (diff ug d) args) with
                   | Some dargs => diff_node ug f args dargs
                   | None => None
                   end
  | _ => Some (diff_leaf d e)
  end.

(* src/expression_diff.cpp:299-314: derivatives are taken only with respect to
   variables and parameters, anything else throws. *)
Definition diff_ex (ug : string -> list ex -> option (list ex)) (e x : ex) : option ex :=
  match x with
  | EVar s => diff ug (DVar s) e
  | EPar i => diff ug (DPar i) e
  | _ => None
  end.

End Builders.
