(* Compiled functions: src/cfunc_class.cpp, src/expression_cfunc.cpp,
   src/detail/composite_function.cpp and the evaluation of pow()
   (src/math/pow.cpp). The generated code is modelled by its effect: the loads
   from the arrays passed by the user (an access outside of them is undefined
   behaviour), the operations on vectors of lanes and the list of stores.
   Not modelled: the translation to machine code, the alignment of the tape, the
   range of the integer types, the precision checks for mppp::real and
   high-accuracy mode. *)
From Coq Require Import String Ascii DecimalString Bool ZArith Arith List.
From Verif Require Import M_Expr M_Dag M_Dec M_Taylor M_Adj.
Import ListNotations.
Local Open Scope nat_scope.

Section Cfunc.
Context (o : nops).
Local Notation nm := (num o).
Local Notation ex := (expr (num o)).
Local Notation elt := (expr (num o) * list nat)%type.

(* --- Functions whose code depends on their arguments ------------------------------------- *)
(* How pow() (get_pow_eval_algo, src/math/pow.cpp:290-346) and products
   (prod_is_negation_impl, src/math/prod.cpp:108-118) are evaluated. PGen: in
   general. *)
Inductive palgo := PPosInt (n : nat) | PNegInt (n : nat) | PPosHalf (n : nat) | PNegHalf (n : nat) | PNegation | PGen.
Definition small_pow (pos neg : nat -> palgo) (z : Z) : option palgo :=
  if ((0 <=? z) && (z <=? 16))%Z then Some (pos (Z.to_nat z))
  else if ((z <? 0) && (- z <=? 16))%Z then Some (neg (Z.to_nat (- z)))
  else None.
Definition pow_algo (e : ex) : palgo :=
  match e with
  | ENum x =>
      match match n_int o x with Some z => small_pow PPosInt PNegInt z | None => None end with
      | Some a => a
      | None => match match n_oddhalf o x with Some z => small_pow PPosHalf PNegHalf z | None => None end with
                | Some a => a
                | None => PGen
                end
      end
  | _ => PGen
  end.
Definition dec_string (n : nat) : string := NilEmpty.string_of_uint (Nat.to_uint n).
Definition suffix (a : palgo) : string :=
  match a with
  | PPosInt n => "_pos_small_int_" ++ dec_string n
  | PNegInt n => "_neg_small_int_" ++ dec_string n
  | PPosHalf n => "_pos_small_half_" ++ dec_string n
  | PNegHalf n => "_neg_small_half_" ++ dec_string n
  | _ => ""
  end%string.
(* The algorithm chosen when the code of a function is generated, from the
   arguments stored in the function (pow_impl::llvm_evaluate, pow.cpp:349-372,
   prod_impl::llvm_evaluate, prod.cpp:284-312). *)
Definition is_neg1 (e : ex) : bool := match e with ENum x => n_isz o (-1)%Z x | _ => false end.
Definition algo_of (f : fid nm) (args : list ex) : palgo :=
  match f, args with
  | Fpow, [_; e] => pow_algo e
  | Fprod, x :: _ :: _ => if is_neg1 x then PNegation else PGen
  | _, _ => PGen
  end.
(* The llvm name a function gets when it is created: base_name for most
   functions (func_base::func_base), with a suffix for pow() (pow.cpp:82-88) and
   for negations (prod.cpp:127-130). *)
Definition fresh_name (base_name : fid nm -> string) (f : fid nm) (args : list ex) : string :=
  match f, algo_of f args with
  | Fpow, a => "pow" ++ suffix a
  | Fprod, PNegation => "prod_neg"
  | _, _ => base_name f
  end%string.

(* --- Arithmetic -------------------------------------------------------------------------- *)
(* The floating-point type: constants, functions (which may use the time),
   multiplication, division, square root, negation and the number 1. *)
Record arith (T : Type) := mkArith {
  r_num : nm -> T; r_fun : fid nm -> option T -> list T -> T;
  r_mul : T -> T -> T; r_div : T -> T -> T; r_sqrt : T -> T; r_neg : T -> T; r_one : T
}.
Arguments r_num {T}. Arguments r_fun {T}. Arguments r_mul {T}. Arguments r_div {T}. Arguments r_sqrt {T}. Arguments r_neg {T}. Arguments r_one {T}.

(* The functions which use the time (func_base::is_time_dependent). *)
Context (td : string -> bool).
Definition fid_td (f : fid nm) : bool :=
  match f with Ftime => true | Fother s => td s | _ => false end.

Section Eval.
Context {T : Type} (A : arith T) (dflt : T).

(* pow_ebs, pow.cpp:134-151. *)
Fixpoint pow_ebs (fuel : nat) (b : T) (e : nat) : T :=
  match fuel with
  | O => r_one A
  | S k => match e with
           | 0 => r_one A
           | 1 => b
           | _ => if Nat.even e then pow_ebs k (r_mul A b b) (Nat.div2 e)
                  else r_mul A b (pow_ebs k (r_mul A b b) (Nat.div2 (e - 1)))
           end
  end.
(* The code of a function on one lane: pow.cpp:290-346 for pow(), prod.cpp:284-312
   for products, otherwise llvm_evaluate() of the function. *)
Definition lane_fun (f : fid nm) (a : palgo) (t : option T) (vs : list T) : T :=
  match f, vs with
  | Fpow, [x; _] =>
      match a with
      | PPosInt n => pow_ebs (S n) x n
      | PNegInt n => r_div A (r_one A) (pow_ebs (S n) x n)
      | PPosHalf n => pow_ebs (S n) (r_sqrt A x) n
      | PNegHalf n => r_div A (r_one A) (pow_ebs (S n) (r_sqrt A x) n)
      | _ => r_fun A f t vs
      end
  | Fprod, _ :: rest =>
      match a with PNegation => r_neg A (r_fun A Fprod t rest) | _ => r_fun A f t vs end
  | _, _ => r_fun A f t vs
  end.

(* --- Memory ---------------------------------------------------------------------------------- *)
(* A pointer to an element of an array (None: a null pointer). *)
Definition ptr := option (list T * nat).
(* ext_load_vector_from_memory at the given offset. *)
Definition vload (p : ptr) (off batch : nat) : mres (list T) :=
  match p with
  | None => MUB
  | Some (a, base) => if Nat.leb (base + off + batch) (List.length a) then MDone (firstn batch (skipn (base + off) a)) else MUB
  end.
(* ext_store_vector_to_memory. *)
Definition store := (nat * list T)%type.
Definition vstore (a : list T) (s : store) : mres (list T) :=
  let '(off, v) := s in
  if Nat.leb (off + List.length v) (List.length a)
  then MDone (firstn off a ++ v ++ skipn (off + List.length v) a) else MUB.

(* llvm_evaluate() on vectors of lanes. The functions of time read the time
   array (src/math/time.cpp). *)
Definition lane (l : nat) (vs : list (list T)) : list T := map (fun v => nth l v dflt) vs.
Definition vfun (batch : nat) (tp : ptr) (f : fid nm) (a : palgo) (vs : list (list T)) : mres (list T) :=
  if fid_td f
  then mbind (vload tp 0 batch) (fun ts => MDone (map (fun l => lane_fun f a (Some (nth l ts dflt)) (lane l vs)) (seq 0 batch)))
  else MDone (map (fun l => lane_fun f a None (lane l vs)) (seq 0 batch)).

(* --- Default mode ------------------------------------------------------------------------------ *)
Section Call.
(* The batch size, the stride and the pointers to inputs, parameters and time. *)
Context (batch stride : nat) (ip pp tp : ptr).
(* The values of u variables, numbers and parameters: llvm_eval
   (expression_cfunc.cpp:913-955), cfunc_nc_param_codegen (886-908). *)
Definition nc_arg (vals : list (list T)) (a : ex) : mres (list T) :=
  match a with
  | EVar s => match uname_to_index s with
              | Some i => match nth_error vals i with Some v => MDone v | None => MThrow end
              | None => MThrow
              end
  | ENum n => MDone (repeat (r_num A n) batch)
  | EPar p => vload pp (stride * p) batch
  | EFun _ _ => MUB
  end.
Definition nc_elt (vals : list (list T)) (e : ex) : mres (list (list T)) :=
  match e with
  | EFun f args => mbind (mmap (nc_arg vals) args) (fun vs =>
                   mbind (vfun batch tp f (algo_of f args) vs) (fun v => MDone (vals ++ [v])))
  | _ => MUB
  end.
(* add_cfunc_nc_mode, expression_cfunc.cpp:961-1020: the list of stores
   (relative to out_ptr). *)
Definition nc_call (d : dcmp o) : mres (list store) :=
  mbind (mmap (fun i => vload ip (stride * i) batch) (seq 0 (List.length (dc_in o d)))) (fun ins =>
  mbind (mfold nc_elt ins (map fst (dc_mid o d))) (fun vals =>
  mmap (fun p : nat * elt => mbind (nc_arg vals (fst (snd p))) (fun v => MDone (stride * fst p, v)))
       (combine (seq 0 (List.length (dc_out o d))) (dc_out o d)))).
End Call.
End Eval.

(* --- Compact mode: inlining ------------------------------------------------------------------------ *)
(* The llvm names stored in the functions (func_base::get_llvm_name), and their
   names (get_name). *)
Context (lname : fid nm -> list ex -> string) (fname : fid nm -> string).

(* is_nested_func, expression_cfunc.cpp:490-504. *)
Definition is_fun_ex (e : ex) : bool := match e with EFun _ _ => true | _ => false end.
Definition is_nested (e : ex) : bool := match e with EFun _ args => existsb is_fun_ex args | _ => false end.
(* The leaves in the order of a depth-first traversal. *)
Fixpoint dleaves (e : ex) : list ex :=
  match e with
  | EFun _ args => concat (map dleaves args)
  | _ => [e]
  end.
(* construct_composite_function_impl, src/detail/composite_function.cpp:44-110:
   the name; k is the index of the next argument. *)
Fixpoint comp_str (e : ex) (k : nat) : string * nat :=
  match e with
  | EFun f args =>
      let '(s, k') :=
        (fix go (l : list ex) (k : nat) {struct l} : string * nat :=
           match l with
           | [] => (""%string, k)
           | a :: r => let '(s1, k1) := comp_str a k in
                       match r with
                       | [] => (s1, k1)
                       | _ => let '(s2, k2) := go r k1 in ((s1 ++ "," ++ s2)%string, k2)
                       end
           end) args k in
      ((lname f args ++ "(" ++ s ++ ")")%string, k')
  | _ => (("#" ++ dec_string k)%string, S k)
  end.
Fixpoint has_char (p : ascii -> bool) (s : string) : bool :=
  match s with EmptyString => false | String a r => p a || has_char p r end.
(* The characters ( ) and # are forbidden in the names of the functions. *)
Definition forbidden (a : ascii) : bool := (Ascii.eqb a "(" || Ascii.eqb a ")" || Ascii.eqb a "#")%char.
Fixpoint comp_ok (e : ex) : bool :=
  match e with
  | EFun f args => negb (has_char forbidden (fname f)) && negb (has_char forbidden (lname f args)) && forallb comp_ok args
  | _ => true
  end.

(* An element of the decomposition: the expression which is evaluated, the
   arguments and the llvm name. For composite functions
   (composite_function.cpp:112-170) the expression has other leaves than the
   arguments: it is not renumbered. *)
Record celt := mkCE { ce_ex : ex; ce_args : list ex; ce_name : string }.

(* The lambda u_remap, expression_cfunc.cpp:560-585 (std::lower_bound). *)
Definition u_remap (inl : list nat) (a : ex) : ex :=
  match a with
  | EVar s => match uname_to_index s with
              | Some i => let diff := List.length (filter (fun j => Nat.ltb j i) inl) in
                          if Nat.eqb diff 0 then a else EVar (uname (i - diff))
              | None => a
              end
  | _ => a
  end.
(* The elements which depend on the u variable i: expression_cfunc.cpp:530-552. *)
Definition dependees (nv : nat) (els : list ex) (i : nat) : list nat :=
  map fst (filter (fun p => existsb (String.eqb (uname i)) (get_variables o [snd p])) (combine (seq nv (List.length els)) els)).
Fixpoint update {X} (l : list X) (i : nat) (g : X -> X) : list X :=
  match l, i with
  | [], _ => []
  | x :: r, 0 => g x :: r
  | x :: r, S k => x :: update r k g
  end.
(* The end of the loop: expression_cfunc.cpp:626-645. *)
Definition emit (inl : list nat) (e : ex) : mres celt :=
  if is_nested e
  then if comp_ok e
       then MDone (mkCE e (map (u_remap inl) (dleaves e)) ("composite|" ++ fst (comp_str e 0))%string)
       else MThrow
  else match e with
       | EFun f args => MDone (mkCE (EFun f (map (u_remap inl) args)) (map (u_remap inl) args) (lname f args))
       | _ => MUB
       end.
(* The loop over the elements: expression_cfunc.cpp:592-645. todo: the current
   elements from index i on, lim: the index of the first output, deps: the
   dependees. (The count of nodes returns 0 when it overflows a std::size_t: not
   modelled.) *)
Fixpoint inl_loop (deps : nat -> list nat) (lim i fuel : nat) (todo : list ex) (inl : list nat) (out : list celt)
  : mres (list nat * list celt) :=
  match todo, fuel with
  | [], _ => MDone (inl, out)
  | _, O => MFuel
  | e :: r, S k =>
      let keep := mbind (emit inl e) (fun c => inl_loop deps lim (S i) k r inl (out ++ [c])) in
      match deps i with
      | [j] => match nth_error r (j - S i) with
               | Some ej =>
                   if Nat.ltb j lim && Nat.ltb (n_nodes o ej + n_nodes o e) 200
                   then inl_loop deps lim (S i) k (update r (j - S i) (subs o [(uname i, e)])) (inl ++ [i]) out
                   else keep
               | None => keep
               end
      | _ => keep
      end
  end.
(* function_dc_inline, expression_cfunc.cpp:516-712. *)
Definition dc_inline (d : dcmp o) : mres (list celt * list ex) :=
  let nv := List.length (dc_in o d) in
  let mid := map fst (dc_mid o d) in
  let outs := map fst (dc_out o d) in
  mbind (inl_loop (dependees nv (mid ++ outs)) (nv + List.length mid) nv (List.length mid) mid [] []) (fun r =>
  MDone (snd r, map (u_remap (fst r)) outs)).

(* --- Compact mode: code generation --------------------------------------------------------------------- *)
(* function_segment_dc (expression_cfunc.cpp:1026-1128) on these elements; cf.
   segment_go in M_Dec.v. *)
Definition ce_indices (c : celt) : mres (list nat) :=
  mbind (mmap (fun a => match a with
                        | EVar s => match uname_to_index s with Some i => MDone [i] | None => MThrow end
                        | ENum _ | EPar _ => MDone []
                        | EFun _ _ => MUB
                        end) (ce_args c)) (fun l => MDone (concat l)).
Fixpoint cseg_go (i lim : nat) (els : list celt) (done : list (list celt)) (cur : option (list celt))
  : mres (list (list celt)) :=
  match els with
  | [] => MDone (done ++ match cur with Some c => [c] | None => [] end)
  | p :: r =>
      let c := match cur with Some c => c | None => [] end in
      mbind (ce_indices p) (fun idx =>
      if existsb (fun j => Nat.leb lim j) idx
      then cseg_go (S i) i r (done ++ [c]) (Some [p])
      else cseg_go (S i) lim r done (Some (c ++ [p])))
  end.

(* cm_mangle (src/detail/cm_utils.cpp) and llvm_c_eval_func_name_args,
   expression_cfunc.cpp:1541-1614. ty: the mangled type. *)
Definition kind_str (a : ex) : string :=
  match a with EVar _ => "var" | ENum _ => "num" | EPar _ => "par" | EFun _ _ => "" end%string.
Fixpoint join (l : list string) : string :=
  match l with [] => "" | [s] => s | s :: r => s ++ "_" ++ join r end%string.
Definition mangle (ty : string) (c : celt) : mres string :=
  if has_char (Ascii.eqb ".") (ce_name c) then MThrow
  else MDone ("heyoka.llvm_c_eval." ++ ce_name c ++ "." ++ join (map kind_str (ce_args c)) ++ "." ++ ty)%string.

(* A call: the function whose code is run (body), the index of the u variable
   and the arguments. *)
Record ccall := mkCC { cc_body : celt; cc_u : nat; cc_args : list ex }.
(* The functions of the current module, by name: llvm_c_eval_func,
   expression_cfunc.cpp:1617-1715 returns the existing one, if any. *)
Definition get_func (tab : list (string * celt)) (key : string) (c : celt) : list (string * celt) * celt :=
  match assoc key tab with
  | Some b => (tab, b)
  | None => ((key, c) :: tab, c)
  end.
(* tmp_map: the calls of a segment by function, in the order of the names
   (expression_cfunc.cpp:1868-1920). *)
Fixpoint add_call (key : string) (c : ccall) (m : list (string * list ccall)) : list (string * list ccall) :=
  match m with
  | [] => [(key, [c])]
  | (k, l) :: r => if String.eqb key k then (k, l ++ [c]) :: r
                   else if String.ltb key k then (key, [c]) :: m
                   else (k, l) :: add_call key c r
  end.
Fixpoint gen_seg (ty : string) (u : nat) (seg : list celt) (tab : list (string * celt)) (m : list (string * list ccall))
  : mres (list (string * celt) * list (string * list ccall)) :=
  match seg with
  | [] => MDone (tab, m)
  | c :: r => mbind (mangle ty c) (fun key =>
              let '(tab', b) := get_func tab key c in
              gen_seg ty (S u) r tab' (add_call key (mkCC b u (ce_args c)) m))
  end.
(* multi_cfunc_evaluate_segments, expression_cfunc.cpp:1733-2120: a new module
   after more than 100 calls; within a segment, one loop per function. n: the
   number of calls in the current module. *)
Fixpoint gen_segs (ty : string) (u n : nat) (segs : list (list celt)) (tab : list (string * celt)) : mres (list ccall) :=
  match segs with
  | [] => MDone []
  | s :: r =>
      let '(tab0, n0) := if Nat.ltb 100 n then ([], 0) else (tab, n) in
      mbind (gen_seg ty u s tab0 []) (fun p =>
      let calls := concat (map snd (snd p)) in
      mbind (gen_segs ty (u + List.length s) (n0 + List.length calls) r (fst p)) (fun cs => MDone (calls ++ cs)))
  end.
(* The code of a compiled function in compact mode: the number of variables and
   of u variables, the calls and the outputs (add_multi_cfunc_impl,
   expression_cfunc.cpp:2125-2180). *)
Record cprog := mkCP { cp_nv : nat; cp_nu : nat; cp_calls : list ccall; cp_outs : list ex }.
Definition compile_cm (ty : string) (d : dcmp o) : mres cprog :=
  let nv := List.length (dc_in o d) in
  mbind (dc_inline d) (fun p =>
  mbind (cseg_go nv nv (fst p) [] None) (fun segs =>
  mbind (gen_segs ty nv 0 segs []) (fun calls =>
  MDone (mkCP nv (nv + List.length (fst p)) calls (snd p))))).

(* --- Compact mode: execution ----------------------------------------------------------------------------- *)
Section Run.
Context {T : Type} (A : arith T) (dflt : T).
Context (batch stride : nat) (ip pp tp : ptr (T := T)).
(* composite_function_llvm_evaluate_impl, composite_function.cpp:130-170: the
   values of the arguments are consumed in the order of the leaves. For the other
   functions this is llvm_evaluate() on the values. *)
Fixpoint tmpl_eval (e : ex) (vs : list (list T)) : mres (list T * list (list T)) :=
  match e with
  | EFun f args =>
      mbind ((fix go (l : list ex) (vs : list (list T)) {struct l} : mres (list (list T) * list (list T)) :=
                match l with
                | [] => MDone ([], vs)
                | a :: r => mbind (tmpl_eval a vs) (fun p =>
                            mbind (go r (snd p)) (fun q => MDone (fst p :: fst q, snd q)))
                end) args vs) (fun p =>
      mbind (vfun A dflt batch tp f (algo_of f args) (fst p)) (fun v => MDone (v, snd p)))
  | _ => match vs with v :: r => MDone (v, r) | [] => MThrow end
  end.
(* The arguments of the body, expression_cfunc.cpp:1668-1705: indices of u
   variables, numbers or indices of parameters, as in the function the code was
   generated for (proto). Arguments of another kind are undefined behaviour. *)
Definition body_arg (tape : list (list T)) (p : ex * ex) : mres (list T) :=
  match p with
  | (EVar _, EVar s) => match uname_to_index s with
                        | Some i => match nth_error tape i with Some v => MDone v | None => MUB end
                        | None => MThrow
                        end
  | (ENum _, ENum n) => MDone (repeat (r_num A n) batch)
  | (EPar _, EPar i) => vload pp (stride * i) batch
  | _ => MUB
  end.
Definition run_call (tape : list (list T)) (c : ccall) : mres (list (list T)) :=
  if Nat.eqb (List.length (ce_args (cc_body c))) (List.length (cc_args c)) then
    mbind (mmap (body_arg tape) (combine (ce_args (cc_body c)) (cc_args c))) (fun vs =>
    mbind (tmpl_eval (ce_ex (cc_body c)) vs) (fun r =>
    match snd r with
    | [] => if Nat.ltb (cc_u c) (List.length tape) then MDone (lset tape (cc_u c) (fst r)) else MUB
    | _ => MUB
    end))
  else MUB.
(* cfunc_c_make_output_globals and cfunc_c_write_outputs,
   expression_cfunc.cpp:1166-1340: first the outputs which are u variables, then
   the numbers, then the parameters. *)
Definition is_var_ex (e : ex) : bool := match e with EVar _ => true | _ => false end.
Definition is_num_ex (e : ex) : bool := match e with ENum _ => true | _ => false end.
Definition is_par_ex (e : ex) : bool := match e with EPar _ => true | _ => false end.
Definition group (p : ex -> bool) (outs : list ex) : list (nat * ex) :=
  filter (fun q => p (snd q)) (combine (seq 0 (List.length outs)) outs).
Definition write_outputs (tape : list (list T)) (outs : list ex) : mres (list (store (T := T))) :=
  let gv := group is_var_ex outs in
  let all_out_vars := Nat.eqb (List.length gv) (List.length outs) in
  mbind (mmap (fun p : nat * (nat * ex) =>
                 mbind (body_arg tape (snd (snd p), snd (snd p))) (fun v =>
                 MDone (stride * (if all_out_vars then fst p else fst (snd p)), v)))
              (combine (seq 0 (List.length gv)) gv)) (fun s1 =>
  mbind (mmap (fun q : nat * ex => mbind (body_arg tape (snd q, snd q)) (fun v => MDone (stride * fst q, v)))
              (group is_num_ex outs)) (fun s2 =>
  mbind (mmap (fun q : nat * ex => mbind (body_arg tape (snd q, snd q)) (fun v => MDone (stride * fst q, v)))
              (group is_par_ex outs)) (fun s3 =>
  MDone (s1 ++ s2 ++ s3)))).
(* tape: the contents of the tape at the beginning of the call. *)
Definition cm_call (p : cprog) (tape : list (list T)) : mres (list (store (T := T))) :=
  mbind (mmap (fun i => vload ip (stride * i) batch) (seq 0 (cp_nv p))) (fun ins =>
  mbind (mfold (fun t q => if Nat.ltb (fst q) (List.length t) then MDone (lset t (fst q) (snd q)) else MUB)
               tape (combine (seq 0 (cp_nv p)) ins)) (fun tape1 =>
  mbind (mfold run_call tape1 (cp_calls p)) (fun tape2 =>
  write_outputs tape2 (cp_outs p)))).
End Run.

(* --- The class cfunc ----------------------------------------------------------------------------------------- *)
Inductive ccode := NC (d : dcmp o) | CM (p : cprog).
Record cfunc := mkCF {
  cf_nvars : nat; cf_nouts : nat; cf_nparams : nat; cf_td : bool; cf_batch : nat; cf_code : ccode
}.
Context (neq : nm -> nm -> bool) (feq : fid nm -> fid nm -> bool) (share : list ex -> list (dag nm)).
(* cfunc::impl::impl, src/cfunc_class.cpp:236-320, make_multi_cfunc_impl,
   expression_cfunc.cpp:2182-2210. simd: recommended_simd_size<T>(), bs: the batch
   size (0 if not given). The three compiled functions (scalar, strided scalar,
   strided batch) have the same code, run with other batch sizes and strides. *)
Definition make_cfunc (ty : string) (simd fuel : nat) (es vars : list ex) (bs : nat) (compact parallel : bool) : mres cfunc :=
  let batch := if Nat.eqb bs 0 then simd else bs in
  let mk c := MDone (mkCF (List.length vars) (List.length es) (get_param_size o es)
                          (existsb (is_time_dependent o td) es) batch c) in
  if compact
  then if parallel then MThrow
       else mbind (function_decompose o neq feq share fuel es vars) (fun d => mbind (compile_cm ty d) (fun p => mk (CM p)))
  else mbind (function_decompose o neq feq share fuel es vars) (fun d => mk (NC d)).

Section Class.
Context {T : Type} (A : arith T) (dflt : T).
Definition call (c : ccode) (batch stride : nat) (ip pp tp : ptr (T := T)) (tape : list (list T)) : mres (list (store (T := T))) :=
  match c with
  | NC d => nc_call A dflt batch stride ip pp tp d
  | CM p => cm_call A dflt batch stride ip pp tp p tape
  end.
Definition data (a : option (list T)) : ptr (T := T) := match a with Some l => Some (l, 0) | None => None end.
Definition bump_store (off : nat) (s : store (T := T)) : store := (off + fst s, snd s).

(* cfunc::single_eval, cfunc_class.cpp:545-626: the outputs afterwards. tape: the
   contents of the tape from the cache. *)
Definition single_eval (c : cfunc) (tape : list (list T)) (outputs inputs : list T) (pars : option (list T)) (time : option T)
  : mres (list T) :=
  if negb (Nat.eqb (List.length outputs) (cf_nouts c)) then MThrow
  else if negb (Nat.eqb (List.length inputs) (cf_nvars c)) then MThrow
  else if negb (Nat.eqb (cf_nparams c) 0) && match pars with None => true | Some _ => false end then MThrow
  else if match pars with Some p => negb (Nat.eqb (List.length p) (cf_nparams c)) | None => false end then MThrow
  else if cf_td c && match time with None => true | Some _ => false end then MThrow
  else mbind (call (cf_code c) 1 1 (Some (inputs, 0)) (data pars) (data (match time with Some t => Some [t] | None => None end)) tape)
             (fun ss => mfold vstore outputs ss).

(* A two-dimensional array (mdspan): rows, columns, and the elements by rows. *)
Record mat := mkMat { m_rows : nat; m_cols : nat; m_data : list T }.
Definition off_ptr (rd : bool) (a : option (list T)) (off : nat) : ptr (T := T) :=
  if rd then match a with Some l => Some (l, off) | None => None end else None.

Section Multi.
Context (c : cfunc) (tapes : nat -> nat -> list (list T)) (nevals : nat) (inputs : list T) (pars times : option (list T)).
(* One invocation of a strided function starting at column off; tapes batch off:
   the contents of the tape. *)
Definition invoke (batch off : nat) : mres (list (store (T := T))) :=
  mbind (call (cf_code c) batch nevals (off_ptr (Nat.ltb 0 (cf_nvars c)) (Some inputs) off)
              (off_ptr (Nat.ltb 0 (cf_nparams c)) pars off) (off_ptr (cf_td c) times off) (tapes batch off))
        (fun ss => MDone (map (bump_store off) ss)).
Definition n_blocks : nat := nevals / cf_batch c.
Definition blocks : mres (list (list (store (T := T)))) :=
  mmap (fun k => invoke (cf_batch c) (k * cf_batch c)) (seq 0 n_blocks).
Definition remainder : mres (list (list (store (T := T)))) :=
  mmap (fun k => invoke 1 k) (seq (n_blocks * cf_batch c) (nevals - n_blocks * cf_batch c)).
(* multi_eval_st, cfunc_class.cpp:629-722. *)
Definition multi_st (outputs : list T) : mres (list T) :=
  mbind blocks (fun b => mbind remainder (fun r => mfold vstore outputs (concat b ++ concat r))).
(* multi_eval_mt, cfunc_class.cpp:726-870: the blocks and the remainder run
   concurrently; each has its own tape. sched gives the order in which the stores
   of the tasks are performed. Two tasks which write the same element are a data
   race: undefined behaviour. *)
Definition overlap (s s' : store (T := T)) : bool :=
  Nat.ltb (fst s) (fst s' + List.length (snd s')) && Nat.ltb (fst s') (fst s + List.length (snd s)).
Fixpoint race (tasks : list (list (store (T := T)))) : bool :=
  match tasks with
  | [] => false
  | t :: r => existsb (fun s => existsb (existsb (overlap s)) r) t || race r
  end.
Definition multi_mt (sched : list (list (store (T := T))) -> list (store (T := T))) (outputs : list T) : mres (list T) :=
  mbind blocks (fun b => mbind remainder (fun r =>
  let tasks := b ++ [concat r] in
  if race tasks then MUB else mfold vstore outputs (sched tasks))).
End Multi.

(* cfunc::multi_eval, cfunc_class.cpp:873-1025: the outputs afterwards. bp:
   batch_parallel, heur: the choice made by the cost model when it is not given. *)
Definition multi_eval (c : cfunc) (tapes : nat -> nat -> list (list T)) (sched : list (list (store (T := T))) -> list (store (T := T)))
  (heur : bool) (outputs inputs : mat) (pars : option mat) (times : option (list T)) (bp : option bool) : mres (list T) :=
  if negb (Nat.eqb (m_rows outputs) (cf_nouts c)) then MThrow
  else let ncols := m_cols outputs in
  if negb (Nat.eqb (m_rows inputs) (cf_nvars c)) then MThrow
  else if negb (Nat.eqb (m_cols inputs) ncols) then MThrow
  else if negb (Nat.eqb (cf_nparams c) 0) && match pars with None => true | Some _ => false end then MThrow
  else if match pars with Some p => negb (Nat.eqb (m_rows p) (cf_nparams c)) || negb (Nat.eqb (m_cols p) ncols) | None => false end then MThrow
  else if cf_td c && match times with None => true | Some _ => false end then MThrow
  else if match times with Some t => negb (Nat.eqb (List.length t) ncols) | None => false end then MThrow
  else
    let pd := match pars with Some p => Some (m_data p) | None => None end in
    let par := match bp with Some b => b | None => heur end in
    if par then multi_mt c tapes ncols (m_data inputs) pd times sched (m_data outputs)
    else multi_st c tapes ncols (m_data inputs) pd times (m_data outputs).
End Class.
End Cfunc.
Arguments r_num o {T}. Arguments r_fun o {T}. Arguments r_mul o {T}. Arguments r_div o {T}. Arguments r_sqrt o {T}. Arguments r_neg o {T}.
Arguments r_one o {T}. Arguments mkArith o {T}.
Arguments m_rows {T}. Arguments m_cols {T}. Arguments m_data {T}. Arguments mkMat {T}.
