(* What decompositions are expected to satisfy. *)
From Coq Require Import String Bool ZArith Arith List.
From Verif Require Import M_Expr M_Dec.
Import ListNotations.

(* The value of an expression whose variables have the values given by vars, for
   any interpretation of numbers, parameters and functions: real numbers,
   floating-point numbers, functions of time, ... *)
Fixpoint gval {N V} (A : alg N V) (vars : string -> V) (e : expr N) : V :=
  match e with
  | ENum n => a_num A n
  | EVar s => vars s
  | EPar i => a_par A i
  | EFun f args => a_fun A f (map (gval A vars) args)
  end.
(* The values ins of the variables vs. *)
Fixpoint bind {V} (dflt : V) (vs : list string) (ins : list V) (s : string) : V :=
  match vs, ins with
  | v :: vs', x :: ins' => if String.eqb s v then x else bind dflt vs' ins' s
  | _, _ => dflt
  end.

(* An argument which reads only the u variables before index k. *)
Definition arg_ok {N} (k : nat) (a : expr N) : Prop :=
  match a with
  | EVar s => exists j, j < k /\ s = uname j
  | EFun _ _ => False
  | _ => True
  end.
(* An elementary operation which reads only the u variables before index k (or
   a constant). *)
Definition elt_ok {N} (k : nat) (e : expr N) : Prop :=
  match e with
  | EFun _ args => Forall (arg_ok k) args
  | ENum _ => True
  | _ => False
  end.
(* All references point backwards: n variables followed by mid. *)
Definition backward {N} (n : nat) (mid : list (expr N)) : Prop :=
  forall i e, nth_error mid i = Some e -> elt_ok (n + i) e.
Definition well_formed {N} (n : nat) (mid outs : list (expr N)) : Prop :=
  backward n mid /\ Forall (arg_ok (n + length mid)) outs.
(* The hidden dependencies are elements. *)
Definition deps_ok {N} (n : nat) (mid : list (expr N * list nat)) : Prop :=
  forall i p j, nth_error mid i = Some p -> In j (snd p) -> n <= j < n + length mid.

(* e with u variable j replaced by u variable f j. *)
Fixpoint renumber {N} (f : nat -> nat) (e : expr N) : expr N :=
  match e with
  | EVar s => match uname_to_index s with Some j => EVar (uname (f j)) | None => e end
  | EFun g args => EFun g (map (renumber f) args)
  | _ => e
  end.

(* e is the expression which the argument a of a decomposition stands for:
   following the u variables from a leads back to e. The variables of e are the
   first n u variables. *)
Definition all2 {A B} (P : A -> B -> Prop) : list A -> list B -> Prop :=
  fix go l l' := match l, l' with
                 | [], [] => True
                 | x :: r, y :: r' => P x y /\ go r r'
                 | _, _ => False
                 end.
Fixpoint stands {N} (n : nat) (dc : list (expr N)) (e a : expr N) : Prop :=
  match e with
  | EFun f args => exists i args', n <= i /\ a = EVar (uname i) /\ nth_error dc i = Some (EFun f args') /\
                                   all2 (stands n dc) args args'
  | _ => a = e
  end.

(* == on numbers and functions (compared by name) implies equal meanings. *)
Record respects {N V} (A : alg N V) (neq : N -> N -> bool) (feq : fid N -> fid N -> bool) : Prop := {
  resp_num : forall x y, neq x y = true -> a_num A x = a_num A y;
  resp_fun : forall f g l, feq f g = true -> a_fun A f l = a_fun A g l
}.
(* The combined sin and cos are sin and cos. *)
Record sincos {N V} (A : alg N V) : Prop := {
  sc_sin : forall l, a_fun A (Fu Ucsin) l = a_fun A (Fu Usin) l;
  sc_cos : forall l, a_fun A (Fu Uccos) l = a_fun A (Fu Ucos) l
}.

(* --- Taylor decompositions ---------------------------------------------------------- *)
(* The literals 2, 1/2, 1 and -1 are neither 0 nor 1, except for 1. *)
Record lits (o : nops) : Prop := {
  li_2 : n_isz o 0%Z (n_lit o 2%Z) = false /\ n_isz o 1%Z (n_lit o 2%Z) = false;
  li_h : n_isz o 0%Z (n_hlf o 1%Z) = false /\ n_isz o 1%Z (n_hlf o 1%Z) = false;
  li_1 : n_isz o 0%Z (n_lit o 1%Z) = false;
  li_m1 : n_isz o 0%Z (n_lit o (-1)%Z) = false /\ n_isz o 1%Z (n_lit o (-1)%Z) = false;
  li_n1 : n_isz o 0%Z (n_neg o (n_lit o 1%Z)) = false
}.
(* The quantities which the derivatives of a function are computed from, in
   addition to its arguments and to itself (self): cos x for sin x, and so on.
   None: not specified (user-defined functions). *)
Definition hidden (o : nops) (f : fid (num o)) (args : list (expr (num o))) (self : expr (num o))
  : option (list (expr (num o))) :=
  let sq x := mk_pow o x (dbl o 2%Z) in
  let root x := EFun Fpow [x; ENum (n_hlf o 1%Z)] in
  match f, args with
  | Fu Usin, [x] => Some [mk_fun o Ucos x]
  | Fu Ucos, [x] => Some [mk_fun o Usin x]
  | Fu Ucsin, [x] => Some [mk_fun o Uccos x]
  | Fu Uccos, [x] => Some [mk_fun o Ucsin x]
  | Fu Usinh, [x] => Some [mk_fun o Ucosh x]
  | Fu Ucosh, [x] => Some [mk_fun o Usinh x]
  | Fu Utan, [x] | Fu Utanh, [x] | Fu Usigmoid, [x] => Some [sq self]
  | Fu Uasin, [x] | Fu Uacos, [x] => Some [root (EFun Fsub [dbl o 1%Z; sq x])]
  | Fu Uasinh, [x] => Some [root (EFun Fsum [dbl o 1%Z; sq x])]
  | Fu Uacosh, [x] => Some [root (EFun Fsum [ENum (n_neg o (n_lit o 1%Z)); sq x])]
  | Fu Uatan, [x] | Fu Uatanh, [x] => Some [sq x]
  | Fu Uerf, [x] => Some [EFun (Fu Uexp) [EFun Fprod [dbl o (-1)%Z; sq x]]]
  | Fatan2, [y; x] => Some [EFun Fsumsq [y; x]]
  | FkepE, [e; M] => Some [mk_mul o e (EFun (Fu Ucos) [self]); EFun (Fu Usin) [self]]
  | FkepF, [h; k; lam] => Some [mk_mul o h (EFun (Fu Usin) [self]); mk_mul o k (EFun (Fu Ucos) [self]);
                                EFun (Fu Usin) [self]; EFun (Fu Ucos) [self]]
  | Fother _, _ => None
  | _, _ => Some []
  end.
(* kepE() and kepF() applied to the literal 1 (outside of their domains). *)
Definition kep_fine (o : nops) (f : fid (num o)) (args : list (expr (num o))) : Prop :=
  let not1 (e : expr (num o)) := match e with ENum x => n_isz o 1%Z x = false | _ => True end in
  match f, args with
  | FkepE, [e; _] => not1 e
  | FkepF, [h; k; _] => not1 h /\ not1 k
  | _, _ => True
  end.
Inductive all_nodes {N} (P : fid N -> list (expr N) -> Prop) : expr N -> Prop :=
| an_num x : all_nodes P (ENum x)
| an_var s : all_nodes P (EVar s)
| an_par i : all_nodes P (EPar i)
| an_fun f args : P f args -> Forall (all_nodes P) args -> all_nodes P (EFun f args).
(* Following some of the u variables of a leads to h. *)
Inductive reads {N} (n : nat) (dc : list (expr N)) : expr N -> expr N -> Prop :=
| rd_same a : reads n dc a a
| rd_u j a h : n <= j -> nth_error dc j = Some a -> reads n dc a h -> reads n dc (EVar (uname j)) h
| rd_fun f args hs : Forall2 (reads n dc) args hs -> reads n dc (EFun f args) (EFun f hs).
(* The hidden dependencies of the element p of index i are the quantities above. *)
Definition hid_ok (o : nops) (n : nat) (dc : list (expr (num o) * list nat)) (i : nat) (p : expr (num o) * list nat) : Prop :=
  match fst p with
  | EFun f args => match hidden o f args (EVar (uname i)) with
                   | Some hs => Forall2 (fun d h => reads n (map fst dc) (EVar (uname d)) h) (snd p) hs
                   | None => True
                   end
  | _ => True
  end.
(* The hidden dependencies of every element have the values of those quantities. *)
Definition hidden_values {V} (o : nops) (A : alg (num o) V) (dflt : V) (ins : list V)
  (mid : list (expr (num o) * list nat)) : Prop :=
  let vals := run_mid A dflt ins (map fst mid) in
  forall i f args deps hs, nth_error mid i = Some (EFun f args, deps) ->
    hidden o f args (EVar (uname (length ins + i))) = Some hs ->
    map (fun d => nth d vals dflt) deps = map (elt_val A dflt vals) hs.
(* What user-defined functions append: elements which read earlier ones, among
   them the function itself, at the index returned. *)
Definition appends (o : nops) (n : nat) (f : fid (num o)) (args : list (expr (num o)))
  (dc dc' : list (expr (num o) * list nat)) (i : nat) : Prop :=
  exists new deps, dc' = dc ++ new /\ length dc <= i < length dc' /\ nth_error dc' i = Some (EFun f args, deps) /\
    forall j p, nth_error new j = Some p ->
      elt_ok (length dc + j) (fst p) /\
      (forall d, In d (snd p) -> length dc <= d < length dc' /\ d <> length dc + j) /\
      hid_ok o n dc' (length dc + j) p.

(* --- Segments ------------------------------------------------------------------------- *)
(* No element of a segment reads another one: every argument is read from before
   index b, where the segment begins. *)
Fixpoint independent {N} (b : nat) (segs : list (list (expr N * list nat))) : Prop :=
  match segs with
  | [] => True
  | seg :: r => Forall (fun p => elt_ok b (fst p)) seg /\ independent (b + length seg) r
  end.

(* An execution of the elements by concurrent workers: element i loads its k-th
   argument from memory into a register of its own; element i applies its
   function to its registers and stores the result in memory. *)
Inductive event := Load (i k : nat) | Store (i : nat).
Definition subject (e : event) : nat := match e with Load i _ => i | Store i => i end.
Record memory (V : Type) := mkMem { m_arr : nat -> V; m_reg : nat -> nat -> V }.
Arguments m_arr {V}. Arguments m_reg {V}. Arguments mkMem {V}.
Definition mem_vars {V} (dflt : V) (arr : nat -> V) (s : string) : V :=
  match uname_to_index s with Some j => arr j | None => dflt end.
Definition exec {N V} (A : alg N V) (dflt : V) (n : nat) (mid : list (expr N)) (m : memory V) (e : event) : memory V :=
  match e with
  | Load i k =>
      match nth_error mid i with
      | Some (EFun f args) =>
          match nth_error args k with
          | Some a => let v := gval A (mem_vars dflt (m_arr m)) a in
                      mkMem (m_arr m) (fun i' k' => if Nat.eqb i' i && Nat.eqb k' k then v else m_reg m i' k')
          | None => m
          end
      | _ => m
      end
  | Store i =>
      match nth_error mid i with
      | Some (EFun f args) =>
          let v := a_fun A f (map (m_reg m i) (seq 0 (length args))) in
          mkMem (fun j => if Nat.eqb j (n + i) then v else m_arr m j) (m_reg m)
      | _ => m
      end
  end.
(* A schedule of the elements b, ..., b + len - 1: every one of them is stored,
   after all its arguments have been loaded; nothing else happens. *)
Definition schedule {N} (mid : list (expr N)) (b len : nat) (tr : list event) : Prop :=
  (forall e, In e tr -> b <= subject e < b + len) /\
  (forall i, b <= i < b + len -> In (Store i) tr) /\
  (forall i l1 l2, tr = l1 ++ Store i :: l2 ->
     forall f args k, nth_error mid i = Some (EFun f args) -> k < length args -> In (Load i k) l1).
(* The segments one after the other, each with a schedule of its own. *)
Fixpoint schedules {N} (mid : list (expr N)) (b : nat) (segs : list (list (expr N * list nat))) (trs : list (list event)) : Prop :=
  match segs, trs with
  | [], [] => True
  | seg :: r, tr :: r' => schedule mid b (length seg) tr /\ schedules mid (b + length seg) r r'
  | _, _ => False
  end.

(* The library computes with the combined sin and cos of numbers as with the
   others, and the identity on numbers is the identity. *)
Record tlaws {V} (o : nops) (A : alg (num o) V) : Prop := {
  tl_csin : forall x, a_num A (n_fun o Ucsin x) = a_num A (n_fun o Usin x);
  tl_ccos : forall x, a_num A (n_fun o Uccos x) = a_num A (n_fun o Ucos x);
  tl_numid : forall v, a_fun A Fnumid [v] = v
}.
(* The taylor_decompose() member functions of the user-defined functions. *)
Definition user_ok (o : nops) (n : nat)
  (ug : string -> list (expr (num o)) -> list (expr (num o) * list nat) -> option (nat * list (expr (num o) * list nat))) : Prop :=
  forall s args dc, n <= length dc -> Forall (arg_ok (length dc)) args ->
    match ug s args dc with Some (i, dc') => appends o n (Fother s) args dc dc' i | None => True end.
Definition constant {N} (e : expr N) : Prop := match e with ENum _ | EPar _ => True | _ => False end.
