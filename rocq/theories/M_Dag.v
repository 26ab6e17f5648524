(* Expressions as graphs, and the traversals of src/detail/ex_traversal.cpp,
   src/expression_basic.cpp and src/expression_diff.cpp: loops over an explicit
   stack with caches keyed on the addresses of functions and of shared argument
   vectors. *)
From Coq Require Import String Bool Arith List.
From Verif Require Import M_Expr.
Import ListNotations.

(* include/heyoka/expression.hpp: an expression holding a function holds a
   pointer to it (func::get_ptr(), addr); a function either owns its arguments
   or refers to a shared vector of them (func_args, include/heyoka/func_args.hpp;
   func::shared_args(), sargs: the address of the vector, if any). *)
Inductive dag (N : Type) :=
| DNum (n : N)
| DVr (s : string)
| DPr (i : nat)
| DFn (addr : nat) (f : fid N) (sargs : option nat) (args : list (dag N)).
Arguments DNum {N}. Arguments DVr {N}. Arguments DPr {N}. Arguments DFn {N}.

(* Outcome of a loop: a value, an exception, or a violated assertion (undefined
   behaviour); Fuel when the bound on the number of iterations is reached. *)
Inductive mres (A : Type) := MDone (a : A) | MThrow | MUB | MFuel.
Arguments MDone {A}. Arguments MThrow {A}. Arguments MUB {A}. Arguments MFuel {A}.

(* void_ptr_map and sargs_ptr_map (include/heyoka/detail/ex_traversal.hpp):
   hash maps keyed on addresses. emplace() does not overwrite. *)
Definition pmap (A : Type) := list (nat * A).
Fixpoint pfind {A} (k : nat) (m : pmap A) : option A :=
  match m with
  | [] => None
  | (j, a) :: r => if Nat.eqb k j then Some a else pfind k r
  end.
Definition pemplace {A} (k : nat) (a : A) (m : pmap A) : pmap A :=
  match pfind k m with Some _ => m | None => (k, a) :: m end.
Definition pcontains {A} (k : nat) (m : pmap A) : bool :=
  match pfind k m with Some _ => true | None => false end.

Section Machine.
Context {N : Type}.
Local Notation dg := (dag N).

(* --- The transforming traversals ---------------------------------------------------
   ex_traverse_transform_nodes (ex_traversal.cpp:37-168), diff_impl
   (expression_diff.cpp:70-256), hash (expression_basic.cpp:391-535) and the
   substitution by expression (expression_basic.cpp:779-922) are the same loop.
   They differ in:
   - leaf: the result for a non-function;
   - pre: a result available before looking at the arguments (the lookup in smap
     of subs_impl, expression_basic.cpp:811-826; never available in the others);
   - comb: what is stored for the arguments in sargs_map (the vector of the
     results, or their combined hash);
   - node: the result for a function whose arguments have results comb (None:
     an exception, from gradient());
   - lazy: hash() does not fill the caches when the stack is empty
     (expression_basic.cpp:459-471). *)
Context {A B : Type}.
Context (leaf : dg -> A) (pre : dg -> option A) (comb : list A -> B) (node : dg -> B -> option A) (lazy : bool).

(* The loop's variables; the back of the vectors is the head of the lists. *)
Record tstate := mkT {
  t_stack : list (dg * bool);
  t_out : list (option A);
  t_fmap : pmap A;
  t_smap : pmap B
}.

(* ex_traversal.cpp:80-89: pop the results of n arguments. *)
Fixpoint pop_args (n : nat) (out : list (option A)) : option (list A * list (option A)) :=
  match n with
  | O => Some ([], out)
  | S k => match out with
           | Some a :: r => match pop_args k r with
                            | Some (l, r') => Some (a :: l, r')
                            | None => None
                            end
           | _ => None
           end
  end.

(* One iteration: ex_traversal.cpp:53-161. *)
Definition tstep (st : tstate) : mres tstate :=
  let '(mkT stack out fm sm) := st in
  match stack with
  | [] => MUB
  | (cur, visited) :: rest =>
      match cur with
      | DFn addr f sargs args =>
          if visited then
            if pcontains addr fm then MUB
            else match pop_args (length args) out with
                 | None => MUB
                 | Some (rs, out') =>
                     let b := comb rs in
                     if match sargs with Some s => pcontains s sm | None => false end then MUB
                     else match node cur b with
                          | None => MThrow
                          | Some a =>
                              let keep := negb lazy || negb (match rest with [] => true | _ => false end) in
                              let fm' := if keep then pemplace addr a fm else fm in
                              let sm' := match sargs with
                                         | Some s => if keep then pemplace s b sm else sm
                                         | None => sm
                                         end in
                              match out' with
                              | None :: out'' => MDone (mkT rest (Some a :: out'') fm' sm')
                              | _ => MUB
                              end
                          end
                 end
          else match pfind addr fm with
               | Some a => MDone (mkT rest (Some a :: out) fm sm)
               | None =>
                   match pre cur with
                   | Some a => MDone (mkT rest (Some a :: out) (pemplace addr a fm) sm)
                   | None =>
                       let first := MDone (mkT (rev (map (fun a => (a, false)) args) ++ (cur, true) :: rest)
                                               (None :: out) fm sm) in
                       match sargs with
                       | Some s =>
                           match pfind s sm with
                           | Some b => match node cur b with
                                       | None => MThrow
                                       | Some a => MDone (mkT rest (Some a :: out) (pemplace addr a fm) sm)
                                       end
                           | None => first
                           end
                       | None => first
                       end
                   end
               end
      | _ => if visited then MUB
             else match pre cur with
                  | Some a => MDone (mkT rest (Some a :: out) fm sm)
                  | None => MDone (mkT rest (Some (leaf cur) :: out) fm sm)
                  end
      end
  end.

(* The loop, and what follows it: ex_traversal.cpp:163-167. The caches outlive
   the traversal: the vectorised functions use them for all their elements. *)
Fixpoint trun (fuel : nat) (st : tstate) : mres (A * (pmap A * pmap B)) :=
  match t_stack st with
  | [] => match t_out st with
          | [Some a] => MDone (a, (t_fmap st, t_smap st))
          | _ => MUB
          end
  | _ => match fuel with
         | O => MFuel
         | S k => match tstep st with
                  | MDone st' => trun k st'
                  | MThrow => MThrow
                  | MUB => MUB
                  | MFuel => MFuel
                  end
         end
  end.
Definition traverse (fuel : nat) (c : pmap A * pmap B) (e : dg) : mres (A * (pmap A * pmap B)) :=
  trun fuel (mkT [(e, false)] [] (fst c) (snd c)).

(* The overloads on vectors: e.g. expression_basic.cpp:760-774,
   expression_diff.cpp:283-296. *)
Fixpoint traverse_vec (fuel : nat) (c : pmap A * pmap B) (es : list dg) : mres (list A) :=
  match es with
  | [] => MDone []
  | e :: r => match traverse fuel c e with
              | MDone (a, c') => match traverse_vec fuel c' r with
                                 | MDone l => MDone (a :: l)
                                 | MThrow => MThrow
                                 | MUB => MUB
                                 | MFuel => MFuel
                                 end
              | MThrow => MThrow
              | MUB => MUB
              | MFuel => MFuel
              end
  end.
End Machine.

Section Sets.
Context {N : Type}.
Local Notation dg := (dag N).

(* void_ptr_set, sargs_ptr_set. *)
Definition pset := list nat.
Definition smem (k : nat) (s : pset) : bool := existsb (Nat.eqb k) s.
Definition sadd (k : nat) (s : pset) : pset := if smem k s then s else k :: s.

(* ex_traverse_visit_leaves (ex_traversal.cpp:172-246); seen: the leaves vfunc
   has been invoked on, last first. *)
Record vstate := mkV { v_stack : list (dg * bool); v_fset : pset; v_sset : pset; v_seen : list dg }.

Definition vstep (st : vstate) : mres vstate :=
  let '(mkV stack fs ss seen) := st in
  match stack with
  | [] => MUB
  | (cur, visited) :: rest =>
      match cur with
      | DFn addr f sargs args =>
          if visited then
            if smem addr fs then MUB
            else match sargs with
                 | Some s => if smem s ss then MUB
                             else MDone (mkV rest (sadd addr fs) (sadd s ss) seen)
                 | None => MDone (mkV rest (sadd addr fs) ss seen)
                 end
          else if smem addr fs then MDone (mkV rest fs ss seen)
          else
            let first := MDone (mkV (rev (map (fun a => (a, false)) args) ++ (cur, true) :: rest) fs ss seen) in
            match sargs with
            | Some s => if smem s ss then MDone (mkV rest (sadd addr fs) ss seen) else first
            | None => first
            end
      | _ => if visited then MUB else MDone (mkV rest fs ss (cur :: seen))
      end
  end.
Fixpoint vrun (fuel : nat) (st : vstate) : mres vstate :=
  match v_stack st with
  | [] => MDone st
  | _ => match fuel with
         | O => MFuel
         | S k => match vstep st with
                  | MDone st' => vrun k st'
                  | MThrow => MThrow
                  | MUB => MUB
                  | MFuel => MFuel
                  end
         end
  end.
(* expression_basic.cpp:286-331, 1011-1054, 1062-1123: the elements of a vector
   are visited one after the other with the same sets. The leaves in the order
   of the visit. *)
Fixpoint visit_vec (fuel : nat) (fs ss : pset) (seen : list dg) (es : list dg) : mres (list dg) :=
  match es with
  | [] => MDone (rev seen)
  | e :: r => match vrun fuel (mkV [(e, false)] fs ss seen) with
              | MDone st => visit_vec fuel (v_fset st) (v_sset st) (v_seen st) r
              | MThrow => MThrow
              | MUB => MUB
              | MFuel => MFuel
              end
  end.

(* ex_traverse_test_any (ex_traversal.cpp:252-366): Some true after the break. *)
Context (p : dg -> bool).
Definition qstep (st : vstate) : mres (vstate + unit) :=
  let '(mkV stack fs ss seen) := st in
  match stack with
  | [] => MUB
  | (cur, visited) :: rest =>
      match cur with
      | DFn addr f sargs args =>
          if visited && smem addr fs then MUB
          else if negb visited && smem addr fs then MDone (inl (mkV rest fs ss seen))
          else if negb visited && p cur then MDone (inr tt)
          else if visited then
            match sargs with
            | Some s => if smem s ss then MUB
                        else MDone (inl (mkV rest (sadd addr fs) (sadd s ss) seen))
            | None => MDone (inl (mkV rest (sadd addr fs) ss seen))
            end
          else
            let first := MDone (inl (mkV (rev (map (fun a => (a, false)) args) ++ (cur, true) :: rest) fs ss seen)) in
            match sargs with
            | Some s => if smem s ss then MDone (inl (mkV rest (sadd addr fs) ss seen)) else first
            | None => first
            end
      | _ => if visited then MUB
             else if p cur then MDone (inr tt)
             else MDone (inl (mkV rest fs ss seen))
      end
  end.
Fixpoint qrun (fuel : nat) (st : vstate) : mres (vstate + unit) :=
  match v_stack st with
  | [] => MDone (inl st)
  | _ => match fuel with
         | O => MFuel
         | S k => match qstep st with
                  | MDone (inl st') => qrun k st'
                  | MDone (inr tt) => MDone (inr tt)
                  | MThrow => MThrow
                  | MUB => MUB
                  | MFuel => MFuel
                  end
         end
  end.
(* expression_basic.cpp:1160-1172. *)
Fixpoint test_vec (fuel : nat) (fs ss : pset) (es : list dg) : mres bool :=
  match es with
  | [] => MDone false
  | e :: r => match qrun fuel (mkV [(e, false)] fs ss []) with
              | MDone (inl st) => test_vec fuel (v_fset st) (v_sset st) r
              | MDone (inr tt) => MDone true
              | MThrow => MThrow
              | MUB => MUB
              | MFuel => MFuel
              end
  end.
End Sets.

Section Count.
Context {N : Type} (maxv : nat).
Local Notation dg := (dag N).

(* get_n_nodes (expression_basic.cpp:587-723). The counters are
   safe<std::size_t>: an addition exceeding maxv throws. *)
Definition safe_add (a b : nat) : option nat := if Nat.leb (a + b) maxv then Some (a + b) else None.
Record cstate := mkC { c_stack : list (dg * bool); c_fmap : pmap nat; c_smap : pmap nat; c_ret : nat }.

(* Lines 625-639: UB when the count of an argument is not in the cache. *)
Fixpoint count_args (fm : pmap nat) (args : list dg) (n : nat) : mres nat :=
  match args with
  | [] => MDone n
  | DFn addr _ _ _ :: r => match pfind addr fm with
                           | None => MUB
                           | Some k => match safe_add n k with
                                       | Some n' => count_args fm r n'
                                       | None => MThrow
                                       end
                           end
  | _ :: r => match safe_add n 1 with
              | Some n' => count_args fm r n'
              | None => MThrow
              end
  end.
Definition cstep (st : cstate) : mres cstate :=
  let '(mkC stack fm sm ret) := st in
  match stack with
  | [] => MUB
  | (cur, visited) :: rest =>
      match cur with
      | DFn addr f sargs args =>
          if visited then
            if pcontains addr fm then MUB
            else match count_args fm args 1 with
                 | MDone n =>
                     if match sargs with Some s => pcontains s sm | None => false end then MUB
                     else match safe_add ret 1 with
                          | Some ret' =>
                              MDone (mkC rest (pemplace addr n fm)
                                       (match sargs with Some s => pemplace s (n - 1) sm | None => sm end) ret')
                          | None => MThrow
                          end
                 | MThrow => MThrow
                 | MUB => MUB
                 | MFuel => MFuel
                 end
          else match pfind addr fm with
               | Some k => match safe_add ret k with
                           | Some ret' => MDone (mkC rest fm sm ret')
                           | None => MThrow
                           end
               | None =>
                   let first := MDone (mkC (rev (map (fun a => (a, false)) args) ++ (cur, true) :: rest) fm sm ret) in
                   match sargs with
                   | Some s =>
                       match pfind s sm with
                       | Some k => match safe_add 1 k with
                                   | Some n => match safe_add ret n with
                                               | Some ret' => MDone (mkC rest (pemplace addr n fm) sm ret')
                                               | None => MThrow
                                               end
                                   | None => MThrow
                                   end
                       | None => first
                       end
                   | None => first
                   end
               end
      | _ => if visited then MUB
             else match safe_add ret 1 with
                  | Some ret' => MDone (mkC rest fm sm ret')
                  | None => MThrow
                  end
      end
  end.
Fixpoint crun (fuel : nat) (st : cstate) : mres nat :=
  match c_stack st with
  | [] => MDone (c_ret st)
  | _ => match fuel with
         | O => MFuel
         | S k => match cstep st with
                  | MDone st' => crun k st'
                  | MThrow => MThrow
                  | MUB => MUB
                  | MFuel => MFuel
                  end
         end
  end.
(* Lines 700-722: the exception is caught and zero returned. *)
Definition get_n_nodes (fuel : nat) (e : dg) : mres nat :=
  match crun fuel (mkC [(e, false)] [] [] 0) with
  | MThrow => MDone 0
  | r => r
  end.
End Count.

(* --- The functions of the API as traversals ------------------------------------------ *)
(* The results of the transformations are expressions built bottom up; only
   their structure is kept here, not the addresses of their nodes. *)
Fixpoint erase {N} (d : dag N) : expr N :=
  match d with
  | DNum n => ENum n
  | DVr s => EVar s
  | DPr i => EPar i
  | DFn _ f _ args => EFun f (map erase args)
  end.

(* expression_basic.cpp:391-535. hc is boost::hash_combine, hleaf std::hash on
   numbers, variables and parameters, hname the hash of the name of a function. *)
Definition hash_dag {N H : Type} (h0 : H) (hc : H -> H -> H) (hleaf : expr N -> H) (hname : fid N -> H)
  (fuel : nat) (e : dag N) : mres H :=
  match traverse (fun d => hleaf (erase d)) (fun _ => None) (fun l => fold_left hc l h0)
          (fun d b => match d with DFn _ f _ _ => Some (hc b (hname f)) | _ => None end) true fuel ([], []) e with
  | MDone (h, _) => MDone h
  | MThrow => MThrow
  | MUB => MUB
  | MFuel => MFuel
  end.

Section Api.
Context (o : nops).
Local Notation nm := (num o).
Local Notation dg := (dag (num o)).
Local Notation ex := (expr (num o)).


(* ex_traversal.cpp:92-116: make_copy_with_new_args() (func.cpp), then the
   branch function. *)
Definition transform_node (branch : ex -> ex) (d : dg) (rs : list ex) : option ex :=
  match d with
  | DFn _ f _ _ => Some (branch (EFun f rs))
  | _ => None
  end.
Definition transform_dag (leaf branch : ex -> ex) (fuel : nat) (es : list dg) : mres (list ex) :=
  traverse_vec (fun d => leaf (erase d)) (fun _ => None) (fun l => l) (transform_node branch) false fuel ([], []) es.

(* expression_basic.cpp:336-383, 730-774, 161-190. *)
Definition rename_dag (m : list (string * string)) (fuel : nat) (es : list dg) : mres (list ex) :=
  transform_dag (fun e => match e with
                          | EVar s => match assoc s m with Some t => EVar t | None => e end
                          | _ => e
                          end) (fun e => e) fuel es.
Definition subs_dag (m : list (string * ex)) (fuel : nat) (es : list dg) : mres (list ex) :=
  transform_dag (fun e => match e with
                          | EVar s => match assoc s m with Some t => t | None => e end
                          | _ => e
                          end) (fun e => e) fuel es.
Definition copy_dag (fuel : nat) (es : list dg) : mres (list ex) :=
  transform_dag (fun e => e) (fun e => e) fuel es.

(* expression_basic.cpp:779-960. *)
Definition subs_ex_dag (look : ex -> option ex) (fuel : nat) (es : list dg) : mres (list ex) :=
  traverse_vec (fun d => erase d) (fun d => look (erase d)) (fun l => l) (transform_node (fun e => e)) false
    fuel ([], []) es.

(* expression_diff.cpp:70-296: the gradient is that of the original function. *)
Definition diff_dag_node (ug : string -> list ex -> option (list ex)) (d : dg) (dargs : list ex) : option ex :=
  match d with
  | DFn _ f _ args => diff_node o ug f (map erase args) dargs
  | _ => None
  end.
Definition diff_dag (ug : string -> list ex -> option (list ex)) (x : darg) (fuel : nat) (es : list dg) : mres (list ex) :=
  traverse_vec (fun d => diff_leaf o x (erase d)) (fun _ => None) (fun l => l) (diff_dag_node ug) false
    fuel ([], []) es.

(* expression_basic.cpp:286-331, 1011-1054, 1062-1123 on graphs. *)
Definition mmap {A B} (f : A -> B) (r : mres A) : mres B :=
  match r with MDone a => MDone (f a) | MThrow => MThrow | MUB => MUB | MFuel => MFuel end.
Definition get_variables_dag (fuel : nat) (es : list dg) : mres (list string) :=
  mmap (fun l => fold_left (fun s d => match d with DVr v => sins String.ltb v s | _ => s end) l [])
       (visit_vec fuel [] [] [] es).
Definition get_params_dag (fuel : nat) (es : list dg) : mres (list nat) :=
  mmap (fun l => fold_left (fun s d => match d with DPr i => sins Nat.ltb i s | _ => s end) l [])
       (visit_vec fuel [] [] [] es).
Definition get_param_size_dag (fuel : nat) (es : list dg) : mres nat :=
  mmap (fun l => fold_left (fun m d => match d with DPr i => Nat.max m (i + 1) | _ => m end) l 0)
       (visit_vec fuel [] [] [] es).
(* expression_basic.cpp:1131-1172, dfun.cpp:332-355. *)
Definition test_any_dag (p : ex -> bool) (fuel : nat) (es : list dg) : mres bool :=
  test_vec (fun d => p (erase d)) fuel [] [] es.
End Api.
