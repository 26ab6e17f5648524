(* Decompositions: how an expression is turned into a list of elementary
   operations on numbered intermediate results (u variables), and the
   simplifications applied to that list. *)
From Coq Require Import String Ascii Decimal DecimalString Bool ZArith Arith List.
From Verif Require Import M_Expr M_Dag.
Import ListNotations.

(* --- The names of the u variables ------------------------------------------------ *)
(* fmt::format("u_{}", i). *)
Definition uname (i : nat) : string := String "u" (String "_" (NilEmpty.string_of_uint (Nat.to_uint i))).
(* std::from_chars on an unsigned integer: the digits at the beginning. *)
Definition digit (a : ascii) : option (uint -> uint) :=
  match a with
  | "0" => Some D0 | "1" => Some D1 | "2" => Some D2 | "3" => Some D3 | "4" => Some D4
  | "5" => Some D5 | "6" => Some D6 | "7" => Some D7 | "8" => Some D8 | "9" => Some D9
  | _ => None
  end%char.
Fixpoint from_chars (s : string) : uint :=
  match s with
  | EmptyString => Nil
  | String a r => match digit a with Some d => d (from_chars r) | None => Nil end
  end.
(* src/detail/string_conv.cpp, uname_to_index (None: an exception). The range of
   the index type (std::uint32_t) is not modelled. *)
Definition uname_to_index (s : string) : option nat :=
  match s with
  | String "u" (String "_" r) => match from_chars r with
                                 | Nil => None
                                 | d => Some (Nat.of_uint d)
                                 end
  | _ => None
  end.

(* --- Decomposing one expression ---------------------------------------------------- *)
Section Decompose.
Context {N D : Type}.
Local Notation dg := (dag N).
Local Notation ex := (expr N).
(* What is appended for a function whose arguments have been decomposed, and the
   index of the result (None: an exception). *)
Context (fdc : fid N -> list ex -> list D -> option (nat * list D)).

(* The variables of the loop of expression_decompose_impl,
   src/expression_decompose.cpp:43-206. The results are indices of u variables
   (None for the leaves); an empty slot of out_stack is None. *)
Record dstate := mkDS {
  d_stack : list (dg * bool);
  d_out : list (option (option nat));
  d_fmap : pmap nat;
  d_smap : pmap (list ex);
  d_dc : list D
}.

(* The leaves, as arguments of a decomposed function. *)
Definition dleaf (d : dg) : option ex :=
  match d with DNum n => Some (ENum n) | DVr s => Some (EVar s) | DPr i => Some (EPar i) | DFn _ _ _ _ => None end.

(* expression_decompose.cpp:84-116: the new arguments from the top of out_stack. *)
Fixpoint dpop (args : list dg) (out : list (option (option nat))) : option (list ex * list (option (option nat))) :=
  match args with
  | [] => Some ([], out)
  | a :: r =>
      match out with
      | Some oi :: out' =>
          let x := match oi with
                   | Some i => match dleaf a with None => Some (EVar (uname i)) | Some _ => None end
                   | None => dleaf a
                   end in
          match x, dpop r out' with
          | Some y, Some (l, out'') => Some (y :: l, out'')
          | _, _ => None
          end
      | _ => None
      end
  end.

(* One iteration: expression_decompose.cpp:55-187. *)
Definition dstep (st : dstate) : mres dstate :=
  let '(mkDS stack out fm sm dc) := st in
  match stack with
  | [] => MUB
  | (cur, visited) :: rest =>
      match cur with
      | DFn addr f sargs args =>
          if visited then
            if pcontains addr fm then MUB
            else match dpop args out with
                 | None => MUB
                 | Some (new_args, out') =>
                     if match sargs with Some s => pcontains s sm | None => false end then MUB
                     else
                       let sm' := match sargs with Some s => pemplace s new_args sm | None => sm end in
                       match fdc f new_args dc with
                       | None => MThrow
                       | Some (i, dc') =>
                           match out' with
                           | None :: out'' => MDone (mkDS rest (Some (Some i) :: out'') (pemplace addr i fm) sm' dc')
                           | _ => MUB
                           end
                       end
                 end
          else match pfind addr fm with
               | Some i => MDone (mkDS rest (Some (Some i) :: out) fm sm dc)
               | None =>
                   let first := MDone (mkDS (rev (map (fun a => (a, false)) args) ++ (cur, true) :: rest)
                                            (None :: out) fm sm dc) in
                   match sargs with
                   | Some s =>
                       match pfind s sm with
                       | Some new_args =>
                           match fdc f new_args dc with
                           | None => MThrow
                           | Some (i, dc') => MDone (mkDS rest (Some (Some i) :: out) (pemplace addr i fm) sm dc')
                           end
                       | None => first
                       end
                   | None => first
                   end
               end
      | _ => if visited then MUB else MDone (mkDS rest (Some None :: out) fm sm dc)
      end
  end.

(* The loop and what follows it: expression_decompose.cpp:50-206. *)
Fixpoint drun (fuel : nat) (st : dstate) : mres (option nat * (pmap nat * pmap (list ex) * list D)) :=
  match d_stack st with
  | [] => match d_out st with
          | [Some oi] => MDone (oi, (d_fmap st, d_smap st, d_dc st))
          | _ => MUB
          end
  | _ => match fuel with
         | O => MFuel
         | S k => match dstep st with
                  | MDone st' => drun k st'
                  | MThrow => MThrow
                  | MUB => MUB
                  | MFuel => MFuel
                  end
         end
  end.
Definition decompose (fuel : nat) (c : pmap nat * pmap (list ex) * list D) (e : dg)
  : mres (option nat * (pmap nat * pmap (list ex) * list D)) :=
  let '(fm, sm, dc) := c in drun fuel (mkDS [(e, false)] [] fm sm dc).

(* The loops over the components: expression_cfunc.cpp:829-851,
   expression_diff.cpp:424-441, taylor_01.cpp:934-957. The output of a component
   is a u variable or, for a leaf, the component itself. *)
Fixpoint decompose_vec (fuel : nat) (c : pmap nat * pmap (list ex) * list D) (es : list dg)
  : mres (list ex * (pmap nat * pmap (list ex) * list D)) :=
  match es with
  | [] => MDone ([], c)
  | e :: r =>
      match decompose fuel c e with
      | MDone (oi, c') =>
          match (match oi with Some i => Some (EVar (uname i)) | None => dleaf e end) with
          | None => MUB
          | Some out => match decompose_vec fuel c' r with
                        | MDone (outs, c'') => MDone (out :: outs, c'')
                        | MThrow => MThrow
                        | MUB => MUB
                        | MFuel => MFuel
                        end
          end
      | MThrow => MThrow
      | MUB => MUB
      | MFuel => MFuel
      end
  end.

(* taylor_01.cpp:959-985: the extra functions (events) of a Taylor decomposition
   are given by the index of a u variable. *)
Fixpoint decompose_sv (fuel : nat) (c : pmap nat * pmap (list ex) * list D) (es : list dg)
  : mres (list nat * (pmap nat * pmap (list ex) * list D)) :=
  match es with
  | [] => MDone ([], c)
  | e :: r =>
      match (match e with
             | DVr s => match uname_to_index s with Some i => MDone (i, c) | None => MThrow end
             | _ => match decompose fuel c e with
                    | MDone (Some i, c') => MDone (i, c')
                    | MDone (None, _) => MThrow
                    | MThrow => MThrow
                    | MUB => MUB
                    | MFuel => MFuel
                    end
             end) with
      | MDone (i, c') => match decompose_sv fuel c' r with
                         | MDone (is, c'') => MDone (i :: is, c'')
                         | MThrow => MThrow
                         | MUB => MUB
                         | MFuel => MFuel
                         end
      | MThrow => MThrow
      | MUB => MUB
      | MFuel => MFuel
      end
  end.
End Decompose.

Section Passes.
Context (o : nops).
Local Notation nm := (num o).
Local Notation ex := (expr (num o)).
(* An element of a Taylor decomposition: an expression and the indices of its
   hidden dependencies (taylor_dc_t, include/heyoka/expression.hpp). The elements
   of the decomposition of a function have none. *)
Local Notation elt := (expr (num o) * list nat)%type.
Local Notation uv i := (EVar (uname i)).

(* expression_decompose.cpp:213-226, func.cpp:399-405: append the function. *)
Definition fdc_plain (f : fid nm) (args : list ex) (dc : list elt) : option (nat * list elt) :=
  Some (List.length dc, dc ++ [(EFun f args, [])]).

(* The member functions taylor_decompose(): src/math/{sin,cos}.cpp (the
   combined variants append combined variants), {sinh,cosh,tan,tanh,sigmoid,asin,
   acos,asinh,acosh,atan,atanh,erf,atan2,kepE,kepF}.cpp. Each appends elements
   and gives the index of the function itself; the added elements are built with
   the simplifying functions, so that an element may be a number. ug gives what
   the user-defined functions and the eop/sw functions append (eop_sw_impl.cpp):
   None for the default. *)
Definition tdc (ug : string -> list ex -> list elt -> option (nat * list elt))
  (f : fid nm) (args : list ex) (dc : list elt) : option (nat * list elt) :=
  let n := List.length dc in
  let pair g h x := Some (n + 1, dc ++ [(mk_fun o h x, [n + 1]); (EFun (Fu g) [x], [n])]) in
  let square x := mk_pow o x (dbl o 2) in
  match f, args with
  | Fu Usin, [x] => pair Usin Ucos x
  | Fu Ucos, [x] => pair Ucos Usin x
  | Fu Ucsin, [x] => pair Ucsin Uccos x
  | Fu Uccos, [x] => pair Uccos Ucsin x
  | Fu Usinh, [x] => pair Usinh Ucosh x
  | Fu Ucosh, [x] => pair Ucosh Usinh x
  | Fu Utan, [x] | Fu Utanh, [x] | Fu Usigmoid, [x] =>
      Some (n, dc ++ [(EFun f args, [n + 1]); (square (uv n), [])])
  | Fu Uasin, [x] | Fu Uacos, [x] =>
      Some (n + 3, dc ++ [(square x, []); (EFun Fsub [dbl o 1; uv n], []); (mk_sqrt o (uv (n + 1)), []);
                          (EFun f args, [n + 2])])
  | Fu Uasinh, [x] =>
      Some (n + 3, dc ++ [(square x, []); (mk_add o (dbl o 1) (uv n), []); (mk_sqrt o (uv (n + 1)), []);
                          (EFun f args, [n + 2])])
  | Fu Uacosh, [x] =>
      Some (n + 3, dc ++ [(square x, []); (mk_sub o (uv n) (dbl o 1), []); (mk_sqrt o (uv (n + 1)), []);
                          (EFun f args, [n + 2])])
  | Fu Uatan, [x] | Fu Uatanh, [x] => Some (n + 1, dc ++ [(square x, []); (EFun f args, [n])])
  | Fu Uerf, [x] =>
      Some (n + 3, dc ++ [(square x, []); (mk_neg o (uv n), []); (mk_fun o Uexp (uv (n + 1)), []);
                          (EFun f args, [n + 2])])
  | Fatan2, [y; x] => Some (n + 1, dc ++ [(EFun Fsumsq args, []); (EFun f args, [n])])
  | FkepE, [e; M] =>
      Some (n, dc ++ [(EFun f args, [n + 3; n + 1]); (mk_fun o Usin (uv n), [n + 2]); (mk_fun o Ucos (uv n), [n + 1]);
                      (mk_mul o e (uv (n + 2)), [])])
  | FkepF, [h; k; lam] =>
      Some (n, dc ++ [(EFun f args, [n + 3; n + 4; n + 1; n + 2]); (mk_fun o Usin (uv n), [n + 2]);
                      (mk_fun o Ucos (uv n), [n + 1]); (mk_mul o h (uv (n + 1)), []); (mk_mul o k (uv (n + 2)), [])])
  | Fother s, _ => match ug s args dc with Some r => Some r | None => fdc_plain f args dc end
  | _, _ => fdc_plain f args dc
  end.
(* func_taylor_decompose_impl: src/func.cpp:392-420, with the checks on the
   returned index. *)
Definition fdc_taylor (ug : string -> list ex -> list elt -> option (nat * list elt))
  (f : fid nm) (args : list ex) (dc : list elt) : option (nat * list elt) :=
  match tdc ug f args dc with
  | Some (i, dc') => if Nat.eqb i 0 then None else if Nat.leb (List.length dc') i then None else Some (i, dc')
  | None => None
  end.

(* --- Common subexpressions --------------------------------------------------------- *)
(* operator== on the trees (src/expression_ops.cpp:246-260, func.cpp:499-519; see
   M_Cmp.v for the graphs). neq: == on numbers; feq: whether two functions have
   the same name. *)
Context (neq : nm -> nm -> bool) (feq : fid nm -> fid nm -> bool).
Fixpoint ex_eqb (a b : ex) {struct a} : bool :=
  match a, b with
  | ENum x, ENum y => neq x y
  | EVar s, EVar t => String.eqb s t
  | EPar i, EPar j => Nat.eqb i j
  | EFun f l, EFun g l' =>
      feq f g &&
      (fix go (l l' : list ex) {struct l} : bool :=
         match l, l' with
         | [], [] => true
         | x :: r, y :: r' => ex_eqb x y && go r r'
         | _, _ => false
         end) l l'
  | _, _ => false
  end.

(* std::map<expression, idx_t>::find(). *)
Fixpoint ex_find (e : ex) (m : list (ex * nat)) : option nat :=
  match m with
  | [] => None
  | (k, i) :: r => if ex_eqb e k then Some i else ex_find e r
  end.

(* The loop over the elements after the variables: expression_cfunc.cpp:245-282
   and taylor_01.cpp:365-401. i: the index of the element in the original
   decomposition, new: the new decomposition. *)
Fixpoint cse_loop (i : nat) (els new : list elt) (emap : list (ex * nat)) (ren : list (string * string))
  : list elt * list (string * string) :=
  match els with
  | [] => (new, ren)
  | (e, deps) :: r =>
      let e' := rename o ren e in
      match ex_find e' emap with
      | None => cse_loop (S i) r (new ++ [(e', deps)]) ((e', List.length new) :: emap)
                         ((uname i, uname (List.length new)) :: ren)
      | Some j => cse_loop (S i) r new emap ((uname i, uname j) :: ren)
      end
  end.

(* A decomposition: the variables, the elements, the outputs. (The code keeps
   the three in one vector and passes the sizes along.) *)
Record dcmp := mkDC { dc_in : list elt; dc_mid : list elt; dc_out : list elt }.

(* function_decompose_cse, expression_cfunc.cpp:198-305 (also used by
   diff_decompose, expression_diff.cpp:451). *)
Definition function_cse (d : dcmp) : dcmp :=
  let n := List.length (dc_in d) in
  let '(new, ren) := cse_loop n (dc_mid d) (dc_in d) [] [] in
  mkDC (dc_in d) (skipn n new) (map (fun p => (rename o ren (fst p), snd p)) (dc_out d)).

(* taylor_01.cpp:425-430, 606-611: remap an index through the renaming of the
   variables (None: a failed lookup). *)
Definition remap_idx (ren : list (string * string)) (i : nat) : option nat :=
  match assoc (uname i) ren with Some s => uname_to_index s | None => None end.
Definition remap_deps (ren : list (string * string)) (p : elt) : option elt :=
  match oseq (map (remap_idx ren) (snd p)) with Some l => Some (fst p, l) | None => None end.

(* taylor_decompose_cse, taylor_01.cpp:313-443. *)
Definition taylor_cse (d : dcmp) (sv : list nat) : option (dcmp * list nat) :=
  let n := List.length (dc_in d) in
  let ren0 := map (fun i => (uname i, uname i)) (seq 0 n) in
  let '(new, ren) := cse_loop n (dc_mid d) (dc_in d) [] ren0 in
  let outs := map (fun p => (rename o ren (fst p), snd p)) (dc_out d) in
  match oseq (map (remap_deps ren) (skipn n new)), oseq (map (remap_idx ren) sv) with
  | Some mid, Some sv' => Some (mkDC (dc_in d) mid outs, sv')
  | _, _ => None
  end.

(* --- Topological sort ---------------------------------------------------------------- *)
Local Open Scope nat_scope.
(* The graph: expression_cfunc.cpp:341-386, taylor_01.cpp:473-516. Vertex 0 is
   the root and vertex i + 1 the u variable of index i; an edge goes from a
   vertex to one which depends on it. i: the index of the first element. *)
Fixpoint mid_edges (i : nat) (mid : list elt) : option (list (nat * nat)) :=
  match mid with
  | [] => Some []
  | (e, _) :: r =>
      match oseq (map uname_to_index (get_variables o [e])), mid_edges (S i) r with
      | Some [], Some es => Some ((0, S i) :: es)
      | Some ids, Some es => Some (map (fun j => (S j, S i)) ids ++ es)
      | _, _ => None
      end
  end.
Definition dc_edges (d : dcmp) : option (list (nat * nat)) :=
  let n := List.length (dc_in d) in
  match mid_edges n (dc_mid d) with
  | Some es => Some (map (fun i => (0, S i)) (seq 0 n) ++ es)
  | None => None
  end.

(* boost::remove_edge on an edge descriptor: one edge. *)
Fixpoint remove_edge (s t : nat) (es : list (nat * nat)) : list (nat * nat) :=
  match es with
  | [] => []
  | (a, b) :: r => if Nat.eqb a s && Nat.eqb b t then r else (a, b) :: remove_edge s t r
  end.
(* std::ranges::sort on the targets of the edges. *)
Fixpoint insert_nat (x : nat) (l : list nat) : list nat :=
  match l with
  | [] => [x]
  | y :: r => if Nat.leb x y then x :: l else y :: insert_nat x r
  end.
Definition sort_nat (l : list nat) : list nat := fold_right insert_nat [] l.
(* expression_cfunc.cpp:425-439: remove an edge of v, and queue its target when
   no other edge points to it. *)
Definition visit_edge (v : nat) (st : list (nat * nat) * list nat) (t : nat) : list (nat * nat) * list nat :=
  let es := remove_edge v t (fst st) in
  (es, if existsb (fun e => Nat.eqb (snd e) t) es then snd st else snd st ++ [t]).
(* Kahn's algorithm: expression_cfunc.cpp:391-440, taylor_01.cpp:521-574. None:
   the fuel ran out. *)
Fixpoint kahn (fuel : nat) (es : list (nat * nat)) (queue res : list nat) : option (list nat * list (nat * nat)) :=
  match queue with
  | [] => Some (res, es)
  | v :: q =>
      match fuel with
      | O => None
      | S k =>
          let targets := sort_nat (map snd (filter (fun e => Nat.eqb (fst e) v) es)) in
          let '(es', q') := fold_left (visit_edge v) targets (es, q) in
          kahn k es' q' (res ++ [v])
      end
  end.
(* expression_cfunc.cpp:442-451, taylor_01.cpp:576-585: the order of the u
   variables. The assertions are part of the model. *)
Definition sort_order (d : dcmp) : option (list nat) :=
  let nv := List.length (dc_in d) + List.length (dc_mid d) in
  match dc_edges d with
  | None => None
  | Some es =>
      match kahn (S nv) es [0] [] with
      | Some (0 :: vs, []) => if Nat.eqb (List.length vs) nv then Some (map Nat.pred vs) else None
      | _ => None
      end
  end.
(* The renaming: expression_cfunc.cpp:453-469, taylor_01.cpp:587-602 (which also
   has the variables). idxs: the order of the elements after the variables. *)
Definition sort_remap (ins : bool) (n : nat) (idxs : list nat) : list (string * string) :=
  (if ins then map (fun i => (uname i, uname i)) (seq 0 n) else []) ++
  map (fun p => (uname (fst p), uname (snd p))) (combine idxs (seq n (List.length idxs))).
(* dc[idx] *)
Definition fetch (d : dcmp) (idx : nat) : option elt := nth_error (dc_in d ++ dc_mid d) idx.
Definition natlist_eqb (l l' : list nat) : bool := if list_eq_dec Nat.eq_dec l l' then true else false.

(* function_sort_dc: expression_cfunc.cpp:316-497. *)
Definition function_sort (d : dcmp) : option dcmp :=
  let n := List.length (dc_in d) in
  match sort_order d with
  | None => None
  | Some v_idx =>
      if natlist_eqb (firstn n v_idx) (seq 0 n) then
        let ren := sort_remap false n (skipn n v_idx) in
        let f (p : elt) : elt := (rename o ren (fst p), snd p) in
        match oseq (map (fetch d) (skipn n v_idx)) with
        | Some mid => Some (mkDC (dc_in d) (map f mid) (map f (dc_out d)))
        | None => None
        end
      else None
  end.
(* taylor_sort_dc: taylor_01.cpp:453-645. *)
Definition taylor_sort (d : dcmp) (sv : list nat) : option (dcmp * list nat) :=
  let n := List.length (dc_in d) in
  match sort_order d with
  | None => None
  | Some v_idx =>
      if natlist_eqb (firstn n v_idx) (seq 0 n) then
        let ren := sort_remap true n (skipn n v_idx) in
        let f (p : elt) : option elt := remap_deps ren (rename o ren (fst p), snd p) in
        match oseq (map (fetch d) (skipn n v_idx)) with
        | Some mid =>
            match oseq (map f mid), oseq (map f (dc_out d)), oseq (map (remap_idx ren) sv) with
            | Some mid', Some out', Some sv' => Some (mkDC (dc_in d) mid' out', sv')
            | _, _, _ => None
            end
        | None => None
        end
      else None
  end.

(* --- sin and cos of the same argument --------------------------------------------------- *)
(* src/detail/sincos_combine.cpp:36-82; the sets are lists, looked up with ==.
   Only the elements and the outputs can contain functions. *)
Definition arg_of (us : list ufun) (p : elt) : list ex :=
  match fst p with
  | EFun (Fu u) [x] => if existsb (fun v => match u, v with
                                             | Usin, Usin | Ucos, Ucos | Ucsin, Ucsin | Uccos, Uccos => true
                                             | _, _ => false
                                             end) us then [x] else []
  | _ => []
  end.
Definition mem_ex (e : ex) (l : list ex) : bool := existsb (ex_eqb e) l.
(* extract<sin_impl>() is non-null for the combined variant too. *)
Definition combine_elt (sins coss : list ex) (p : elt) : elt :=
  match fst p with
  | EFun (Fu Usin) [x] | EFun (Fu Ucsin) [x] => if mem_ex x coss then (EFun (Fu Ucsin) [x], snd p) else p
  | EFun (Fu Ucos) [x] | EFun (Fu Uccos) [x] => if mem_ex x sins then (EFun (Fu Uccos) [x], snd p) else p
  | _ => p
  end.
Definition sincos_combine (d : dcmp) : dcmp :=
  let sins := concat (map (arg_of [Usin; Ucsin]) (dc_mid d)) in
  let coss := concat (map (arg_of [Ucos; Uccos]) (dc_mid d)) in
  mkDC (dc_in d) (map (combine_elt sins coss) (dc_mid d)) (dc_out d).

(* taylor_decompose_replace_numbers, taylor_01.cpp:783-800. *)
Definition replace_numbers (d : dcmp) : dcmp :=
  mkDC (dc_in d)
       (map (fun p : elt => match fst p with ENum _ => (EFun Fnumid [fst p], []) | _ => p end) (dc_mid d))
       (dc_out d).

(* --- Whole decompositions ------------------------------------------------------------------ *)
(* expression_cfunc.cpp:791-808: the passes before the decomposition of a
   function. *)
Definition cfunc_passes (e : ex) : ex :=
  split_prods o 8 (prod_to_div_eval o (sums_to_sum_sqs o (split_sums o (sum_to_sub o e)))).

(* expression_cfunc.cpp:740-775: the checks on the list of variables. *)
Fixpoint var_names (vars : list ex) : option (list string) :=
  match vars with
  | [] => Some []
  | EVar s :: r => match var_names r with Some l => Some (s :: l) | None => None end
  | _ :: _ => None
  end.
Fixpoint nodupb (l : list string) : bool :=
  match l with
  | [] => true
  | s :: r => negb (existsb (String.eqb s) r) && nodupb r
  end.
Definition check_vars (es vars : list ex) : option (list string) :=
  match es with
  | [] => None
  | _ => match var_names vars with
         | Some vs => if nodupb vs && forallb (fun s => existsb (String.eqb s) vs) (get_variables o es)
                      then Some vs else None
         | None => None
         end
  end.
Definition urename (vs : list string) : list (string * string) :=
  map (fun p => (fst p, uname (snd p))) (combine vs (seq 0 (List.length vs))).

(* function_decompose, expression_cfunc.cpp:722-905, without the inlining of
   compact mode (M_Cfunc.v). share gives the graph of nodes of the expressions
   after the passes and the renaming (its sharing depends on that of the
   arguments). *)
Definition function_decompose (share : list ex -> list (dag nm)) (fuel : nat) (es vars : list ex) : mres dcmp :=
  match check_vars es vars with
  | None => MThrow
  | Some vs =>
      let es' := map (rename o (urename vs)) (map cfunc_passes es) in
      let ins := map (fun s => (EVar s, [])) vs in
      match decompose_vec fdc_plain fuel ([], [], ins) (share es') with
      | MDone (outs, (_, _, dc)) =>
          let d := mkDC ins (skipn (List.length ins) dc) (map (fun e => (e, [])) outs) in
          match function_sort (function_cse d) with
          | Some d' => MDone (sincos_combine d')
          | None => MUB
          end
      | MThrow => MThrow
      | MUB => MUB
      | MFuel => MFuel
      end
  end.

(* taylor_decompose_sys, taylor_01.cpp:848-1005. The left-hand sides are given by
   their names (validated beforehand: validate_ode_sys). *)
Definition taylor_decompose_sys (ug : string -> list ex -> list elt -> option (nat * list elt))
  (share : list ex -> list (dag nm)) (fuel : nat) (sys : list (string * ex)) (svf : list ex)
  : mres (dcmp * list nat) :=
  let vs := map fst sys in
  let all := map (rename o (urename vs)) (map (taylor_passes o) (map snd sys ++ svf)) in
  let gs := share all in
  let n := List.length sys in
  let ins := map (fun s => (EVar s, [])) vs in
  match decompose_vec (fdc_taylor ug) fuel ([], [], ins) (firstn n gs) with
  | MDone (outs, c) =>
      match decompose_sv (fdc_taylor ug) fuel c (skipn n gs) with
      | MDone (sv, (_, _, dc)) =>
          let d := mkDC ins (skipn n dc) (map (fun e => (e, [])) outs) in
          match taylor_cse d sv with
          | Some (d1, sv1) =>
              match taylor_sort d1 sv1 with
              | Some (d2, sv2) => MDone (replace_numbers (sincos_combine d2), sv2)
              | None => MUB
              end
          | None => MUB
          end
      | MThrow => MThrow
      | MUB => MUB
      | MFuel => MFuel
      end
  | MThrow => MThrow
  | MUB => MUB
  | MFuel => MFuel
  end.

(* --- Segments -------------------------------------------------------------------------------- *)
(* expression_cfunc.cpp:1034-1067, taylor_02.cpp:113-139: the indices of the
   arguments (None: an exception). *)
Definition args_indices (e : ex) : option (list nat) :=
  match e with
  | EFun _ args =>
      match oseq (map (fun a => match a with
                                | EVar s => match uname_to_index s with Some i => Some [i] | None => None end
                                | ENum _ | EPar _ => Some []
                                | EFun _ _ => None
                                end) args) with
      | Some l => Some (concat l)
      | None => None
      end
  | _ => None
  end.
(* function_segment_dc, expression_cfunc.cpp:1026-1128, and taylor_segment_dc,
   taylor_02.cpp:105-205. i: the index of the element, lim: cur_limit_idx, done:
   the segments already closed, cur: the last segment (None before the first). *)
Fixpoint segment_go (i lim : nat) (mid : list elt) (done : list (list elt)) (cur : option (list elt))
  : option (list (list elt)) :=
  match mid with
  | [] => Some (done ++ match cur with Some c => [c] | None => [] end)
  | p :: r =>
      let c := match cur with Some c => c | None => [] end in
      match args_indices (fst p) with
      | None => None
      | Some idx =>
          if existsb (fun j => Nat.leb lim j) idx
          then segment_go (S i) i r (done ++ [c]) (Some [p])
          else segment_go (S i) lim r done (Some (c ++ [p]))
      end
  end.
Definition segment_dc (d : dcmp) : option (list (list elt)) :=
  let n := List.length (dc_in d) in segment_go n n (dc_mid d) [] None.
End Passes.

(* --- Evaluation --------------------------------------------------------------------------------- *)
(* The values computed at run time: numbers, parameters and functions of a
   floating-point type (or any other interpretation). *)
Record alg (N V : Type) := mkAlg { a_num : N -> V; a_par : nat -> V; a_fun : fid N -> list V -> V }.
Arguments a_num {N V}. Arguments a_par {N V}. Arguments a_fun {N V}. Arguments mkAlg {N V}.

Section Run.
Context {N V : Type} (A : alg N V) (dflt : V).
Local Notation ex := (expr N).
(* llvm_eval on an element: the u variables are read from eval_arr. *)
Definition uval (vals : list V) (s : string) : V :=
  match uname_to_index s with Some i => nth i vals dflt | None => dflt end.
Fixpoint elt_val (vals : list V) (e : ex) : V :=
  match e with
  | ENum n => a_num A n
  | EVar s => uval vals s
  | EPar i => a_par A i
  | EFun f args => a_fun A f (map (elt_val vals) args)
  end.
(* add_cfunc_nc_mode, expression_cfunc.cpp:951-1020: the code of a compiled
   function (default mode) evaluates the elements in order. *)
Definition run_mid (ins : list V) (mid : list ex) : list V :=
  fold_left (fun vals e => vals ++ [elt_val vals e]) mid ins.
Definition run_dc (ins : list V) (mid outs : list ex) : list V :=
  let vals := run_mid ins mid in map (elt_val vals) outs.
End Run.
