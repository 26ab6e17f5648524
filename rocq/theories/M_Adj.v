(* Derivative tensors: src/expression_diff.cpp:342-1523. The decomposition of the
   functions, the derivatives of the elementary operations, the forward and the
   reverse accumulation, and the loop over the orders. *)
From Coq Require Import String Bool ZArith NArith Arith List.
From Verif Require Import M_Expr M_Dag M_Dec M_Taylor M_Dtens.
Import ListNotations.
Local Open Scope nat_scope.

Section Lists.
Context {A B : Type}.
(* A loop over a list; the first exception ends it. *)
Fixpoint mmap (f : A -> mres B) (l : list A) : mres (list B) :=
  match l with
  | [] => MDone []
  | x :: r => mbind (f x) (fun y => mbind (mmap f r) (fun ys => MDone (y :: ys)))
  end.
Fixpoint mfold (f : A -> B -> mres A) (a : A) (l : list B) : mres A :=
  match l with
  | [] => MDone a
  | x :: r => mbind (f a x) (fun a' => mfold f a' r)
  end.
(* v[i] = x. *)
Fixpoint lset (l : list A) (i : nat) (x : A) : list A :=
  match l, i with
  | [], _ => []
  | _ :: r, O => x :: r
  | y :: r, S k => y :: lset r k x
  end.
(* The position of the first element with the property. *)
Fixpoint index_of (p : A -> bool) (l : list A) : option nat :=
  match l with
  | [] => None
  | x :: r => if p x then Some 0 else option_map S (index_of p r)
  end.
End Lists.
Definition memb (i : nat) (l : list nat) : bool := existsb (Nat.eqb i) l.

Section Adj.
Context (o : nops) (neq : num o -> num o -> bool) (feq : fid (num o) -> fid (num o) -> bool).
Local Notation nm := (num o).
Local Notation ex := (expr (num o)).
Local Notation elt := (expr (num o) * list nat)%type.
(* The gradients of the user-defined functions. *)
Context (ug : string -> list ex -> option (list ex)).
(* The graph of nodes of the expressions after splitting and renaming. *)
Context (share : list ex -> list (dag (num o))).

(* --- The decomposition ------------------------------------------------------------- *)
(* expression_diff.cpp:358-377: the map from variables and params to u variables. *)
Definition repl (vars : list string) (pars : list nat) (e : ex) : option ex :=
  match e with
  | EVar s => option_map (fun i => EVar (uname i)) (index_of (String.eqb s) vars)
  | EPar p => option_map (fun i => EVar (uname (List.length vars + i))) (index_of (Nat.eqb p) pars)
  | _ => None
  end.
(* expression_diff.cpp:344-475, diff_decompose. *)
Definition diff_decompose (fuel : nat) (es : list ex) : mres (dcmp o) :=
  let vars := get_variables o es in
  let pars := get_params o es in
  let es' := map (subs_ex o (repl vars pars)) (map (split_prods o 2) es) in
  let ins : list elt := map (fun s => (EVar s, [])) vars ++ map (fun i => (EPar i, [])) pars in
  match decompose_vec (fdc_plain o) fuel ([], [], ins) (share es') with
  | MDone (outs, (_, _, dc)) =>
      MDone (function_cse o neq feq
               (mkDC o ins (skipn (List.length ins) dc) (map (fun e => (e, [])) outs)))
  | MThrow => MThrow
  | MUB => MUB
  | MFuel => MFuel
  end.

(* --- The derivatives of the elementary operations ---------------------------------- *)
(* std::map<std::string, std::vector<expression>>: grad_map[s].push_back(g). *)
Fixpoint gm_push (s : string) (g : ex) (m : list (string * list ex)) : list (string * list ex) :=
  match m with
  | [] => [(s, [g])]
  | (k, l) :: r => if String.eqb s k then (k, l ++ [g]) :: r
                   else if String.ltb s k then (s, [g]) :: m
                   else (k, l) :: gm_push s g r
  end.
(* expression_diff.cpp:550-560: the partial derivatives with respect to each
   variable among the arguments. *)
Fixpoint grad_map (args grad : list ex) (m : list (string * list ex)) : list (string * list ex) :=
  match args, grad with
  | EVar s :: r, g :: gr => grad_map r gr (gm_push s g m)
  | _ :: r, _ :: gr => grad_map r gr m
  | _, _ => m
  end.
(* expression_diff.cpp:536-575: adj[i], as the list of its entries in the order
   in which they are added; dep[i] is the list of their keys. *)
Definition elt_adj (e : ex) : mres (list (nat * ex)) :=
  match e with
  | EFun f args =>
      match gradient o ug f args with
      | None => MThrow
      | Some grad =>
          mmap (fun p => match uname_to_index (fst p) with
                         | Some j => MDone (j, mk_sum o (snd p))
                         | None => MThrow
                         end) (grad_map args grad [])
      end
  | _ => MThrow
  end.
(* expression_diff.cpp:585-615: the outputs. *)
Definition out_adj (e : ex) : mres (list (nat * ex)) :=
  match e with
  | EVar s => match uname_to_index s with Some j => MDone [(j, dbl o 1)] | None => MThrow end
  | _ => MDone []
  end.
(* expression_diff.cpp:502-615: adj for the whole decomposition. *)
Definition make_adj (d : dcmp o) : mres (list (list (nat * ex))) :=
  mbind (mmap (fun p => elt_adj (fst p)) (dc_mid o d)) (fun am =>
  mbind (mmap (fun p => out_adj (fst p)) (dc_out o d)) (fun ao =>
  MDone (map (fun _ => []) (dc_in o d) ++ am ++ ao))).
(* expression_diff.cpp:511-521, 577-581, 604-613: the map from the u variables to
   the expressions they stand for. The elements are added one by one, i being the
   index of the next one. *)
Fixpoint mid_map (i : nat) (sm : list (string * ex)) (mid : list elt) : list (string * ex) :=
  match mid with
  | [] => sm
  | p :: r => mid_map (S i) (sm ++ [(uname i, subs o sm (fst p))]) r
  end.
(* None: reading an entry which does not exist. *)
Fixpoint out_map (i : nat) (sm : list (string * ex)) (outs : list elt) : option (list (string * ex)) :=
  match outs with
  | [] => Some sm
  | p :: r =>
      match fst p with
      | EVar s => match assoc s sm with
                  | Some t => out_map (S i) (sm ++ [(uname i, t)]) r
                  | None => None
                  end
      | e => out_map (S i) (sm ++ [(uname i, e)]) r
      end
  end.
Definition make_subs (d : dcmp o) : option (list (string * ex)) :=
  let n := List.length (dc_in o d) in
  let sm0 := map (fun p : nat * elt => (uname (fst p), fst (snd p))) (combine (seq 0 n) (dc_in o d)) in
  out_map (n + List.length (dc_mid o d)) (mid_map n sm0 (dc_mid o d)) (dc_out o d).

(* dep[i] and revdep[j]. The loops add to revdep[j] in increasing order, so that
   sorting it (expression_diff.cpp:624-629) does not change it. *)
Definition dep (adj : list (list (nat * ex))) (i : nat) : list nat := map fst (nth i adj []).
Definition revdep (adj : list (list (nat * ex))) (j : nat) : list nat :=
  filter (fun i => memb j (dep adj i)) (seq 0 (List.length adj)).
(* adj[i].find(j). *)
Definition adj_at (adj : list (list (nat * ex))) (i j : nat) : option ex :=
  option_map snd (find (fun p => Nat.eqb (fst p) j) (nth i adj [])).

(* --- The traversal of the dependencies ----------------------------------------------- *)
(* expression_diff.cpp:872-890 and 1100-1118: a queue and the set of the indices
   found so far (in the order in which they are found). *)
Fixpoint walk (nb : nat -> list nat) (fuel : nat) (queue found : list nat) : mres (list nat) :=
  match queue with
  | [] => MDone found
  | c :: q =>
      match fuel with
      | O => MFuel
      | S k =>
          let '(q', found') := fold_left (fun st x => if memb x (snd st) then st else (fst st ++ [x], snd st ++ [x]))
                                         (nb c) (q, found) in
          walk nb k q' found'
      end
  end.

(* --- Forward mode --------------------------------------------------------------------- *)
(* expression_diff.cpp:917-939: one term of the sum at index cur. *)
Definition fwd_term (adj : list (list (nat * ex))) (input : nat) (deps : list nat) (diffs : list ex) (cur j : nat) : mres ex :=
  if negb (Nat.eqb j input) && negb (memb j deps) then MDone (dbl o 0)
  else match nth_error diffs j, adj_at adj cur j with
       | Some x, Some a => MDone (mk_mul o x a)
       | _, _ => MUB
       end.
Definition fwd_step (adj : list (list (nat * ex))) (input : nat) (deps : list nat) (diffs : list ex) (cur : nat) : mres (list ex) :=
  mbind (mmap (fwd_term adj input deps diffs cur) (dep adj cur)) (fun ts => MDone (lset diffs cur (mk_sum o ts))).
(* std::fill on [b, b + n). *)
Definition fill (diffs : list ex) (b n : nat) (x : ex) : list ex :=
  fold_left (fun l i => lset l i x) (seq b n) diffs.
(* expression_diff.cpp:860-943: the derivatives of the outputs with respect to the
   input; diffs is kept from one input to the next. *)
Definition fwd_pass (fuel : nat) (adj : list (list (nat * ex))) (nouts input : nat) (diffs : list ex) : mres (list ex) :=
  let start := revdep adj input in
  mbind (walk (revdep adj) fuel start start) (fun deps =>
  let b := List.length diffs - nouts in
  mfold (fwd_step adj input deps) (fill (lset diffs input (dbl o 1)) b nouts (dbl o 0)) (sort_nat deps)).
(* The indices of the previous derivatives, with one more derivative with respect
   to argument j: vidx_v2s, += 1, vidx_s2v (expression_diff.cpp:706-731). *)
Fixpoint bump_idx (j : N) (l : list (N * N)) : list (N * N) :=
  match l with
  | [] => [(j, 1%N)]
  | (i, n) :: r => if N.eqb i j then (i, (n + 1)%N) :: r
                   else if N.ltb j i then (j, 1%N) :: l
                   else (i, n) :: bump_idx j r
  end.
Definition bump_key (j : nat) (k : sidx) : sidx := (fst k, bump_idx (N.of_nat j) (snd k)).
(* expression_diff.cpp:836-981, without the collection into local_dvec/local_dmap:
   the derivatives with respect to the arguments, in the order in which they are
   computed. j: the index of the first argument. *)
Definition find_input (d : dcmp o) (a : ex) : option nat :=
  index_of (fun p : elt => ex_eqb o neq feq a (fst p)) (dc_in o d).
Fixpoint fwd_args (fuel : nat) (d : dcmp o) (adj : list (list (nat * ex))) (keys : list sidx) (j : nat) (args : list ex)
  (diffs : list ex) : mres (list (sidx * ex)) :=
  match args with
  | [] => MDone []
  | a :: r =>
      match find_input d a with
      | None =>
          mbind (fwd_args fuel d adj keys (S j) r diffs) (fun es =>
          MDone (map (fun k => (bump_key j k, dbl o 0)) keys ++ es))
      | Some input =>
          mbind (fwd_pass fuel adj (List.length keys) input diffs) (fun diffs' =>
          mbind (fwd_args fuel d adj keys (S j) r diffs') (fun es =>
          MDone (combine (map (bump_key j) keys) (skipn (List.length diffs' - List.length keys) diffs') ++ es)))
      end
  end.

(* --- Reverse mode ---------------------------------------------------------------------- *)
(* expression_diff.cpp:1146-1172. *)
Definition rev_term (adj : list (list (nat * ex))) (out : nat) (deps : list nat) (diffs : list ex) (cur i : nat) : mres ex :=
  if negb (Nat.eqb i out) && negb (memb i deps) then MDone (dbl o 0)
  else match nth_error diffs i, adj_at adj i cur with
       | Some x, Some a => MDone (mk_mul o x a)
       | _, _ => MUB
       end.
Definition rev_step (adj : list (list (nat * ex))) (out : nat) (deps : list nat) (diffs : list ex) (cur : nat) : mres (list ex) :=
  mbind (mmap (rev_term adj out deps diffs cur) (revdep adj cur)) (fun ts => MDone (lset diffs cur (mk_sum o ts))).
(* expression_diff.cpp:1080-1174: the derivatives of one output with respect to all
   the u variables; ni: the number of inputs. *)
Definition rev_pass (fuel : nat) (adj : list (list (nat * ex))) (ni out : nat) (diffs : list ex) : mres (list ex) :=
  let start := dep adj out in
  mbind (walk (dep adj) fuel start start) (fun deps =>
  mfold (rev_step adj out deps) (fill (lset diffs out (dbl o 1)) 0 ni (dbl o 0)) (rev (sort_nat deps))).
(* expression_diff.cpp:1076-1225; i: the index of the first key among the outputs. *)
Definition rev_entry (d : dcmp o) (diffs : list ex) (a : ex) : ex :=
  match find_input d a with Some x => nth x diffs (dbl o 0) | None => dbl o 0 end.
Fixpoint rev_outs (fuel : nat) (d : dcmp o) (adj : list (list (nat * ex))) (args : list ex) (i : nat) (keys : list sidx)
  (diffs : list ex) : mres (list (sidx * ex)) :=
  match keys with
  | [] => MDone []
  | k :: r =>
      let out := List.length (dc_in o d) + List.length (dc_mid o d) + i in
      mbind (rev_pass fuel adj (List.length (dc_in o d)) out diffs) (fun diffs' =>
      mbind (rev_outs fuel d adj args (S i) r diffs') (fun es =>
      MDone (map (fun p : nat * ex => (bump_key (fst p) k, rev_entry d diffs' (snd p)))
                 (combine (seq 0 (List.length args)) args) ++ es)))
  end.

(* --- One more order -------------------------------------------------------------------- *)
(* std::ranges::sort, tbb_isolated_parallel_sort with dtens_sv_idx_cmp (None: the
   exception of the comparator). The keys are distinct, so that all sorting
   algorithms have the same result. *)
Fixpoint insert_key (p : sidx * ex) (l : list (sidx * ex)) : option (list (sidx * ex)) :=
  match l with
  | [] => Some [p]
  | q :: r => match sv_cmp (fst p) (fst q) with
              | None => None
              | Some true => Some (p :: l)
              | Some false => option_map (cons q) (insert_key p r)
              end
  end.
Fixpoint sort_keys (l : list (sidx * ex)) : option (list (sidx * ex)) :=
  match l with
  | [] => Some []
  | p :: r => match sort_keys r with Some s => insert_key p s | None => None end
  end.
Definition sidx_eqb (k k' : sidx) : bool :=
  N.eqb (fst k) (fst k') &&
  (fix go (l l' : list (N * N)) : bool :=
     match l, l' with
     | [], [] => true
     | (i, n) :: r, (i', n') :: r' => N.eqb i i' && N.eqb n n' && go r r'
     | _, _ => false
     end) (snd k) (snd k').
(* local_dmap().try_emplace() for every derivative computed: the first one with a
   given key is kept. The order of the entries of the map is unspecified; they
   are sorted afterwards. *)
Fixpoint emplace_all (acc l : list (sidx * ex)) : list (sidx * ex) :=
  match l with
  | [] => acc
  | p :: r => if existsb (fun q => sidx_eqb (fst q) (fst p)) acc then emplace_all acc r
              else emplace_all (acc ++ [p]) r
  end.
(* search_diff_map, expression_diff.cpp:1299-1310: std::lower_bound and ==. *)
Definition search_map (m : list (sidx * ex)) (k : sidx) : option nat :=
  match lb_loop (S (List.length m)) m k 0 (List.length m) with
  | None => None
  | Some i => match nth_error m i with
              | Some kv => if sidx_eqb (fst kv) k then Some i else Some (List.length m)
              | None => Some (List.length m)
              end
  end.
(* One iteration of the loop over the orders, expression_diff.cpp:1331-1424. mode:
   whether forward mode is used, given the numbers of outputs and of arguments
   (the code: whether there are at least as many outputs as arguments). *)
Context (mode : nat -> nat -> bool).
Definition next_order (fuel : nat) (args : list ex) (cur : nat) (m : list (sidx * ex)) : mres (list (sidx * ex)) :=
  match search_map m (0%N, match cur with O => [] | _ => [(0%N, N.of_nat cur)] end) with
  | None => MThrow
  | Some b =>
      let prev := skipn b m in
      match prev with
      | [] => MUB
      | _ =>
          let keys := map fst prev in
          mbind (diff_decompose fuel (map snd prev)) (fun d =>
          mbind (make_adj d) (fun adj =>
          match make_subs d with
          | None => MUB
          | Some sm =>
              let diffs0 := map (fun _ => dbl o 0) adj in
              mbind (if mode (List.length keys) (List.length args)
                     then fwd_args fuel d adj keys 0 args diffs0
                     else rev_outs fuel d adj args 0 keys diffs0) (fun raw =>
              match sort_keys (match cur with O => raw | _ => emplace_all [] raw end) with
              | None => MThrow
              | Some new => MDone (m ++ map (fun p => (fst p, subs o sm (snd p))) new)
              end)
          end))
      end
  end.
(* The loop, expression_diff.cpp:1331-1424. *)
Fixpoint orders (fuel : nat) (args : list ex) (cur n : nat) (m : list (sidx * ex)) : mres (list (sidx * ex)) :=
  match n with
  | O => MDone m
  | S k => mbind (next_order fuel args cur m) (orders fuel args (S cur) k)
  end.
(* diff_tensors_impl, expression_diff.cpp:1276-1448. The casts of the sizes to
   32-bit integers are not modelled. *)
Definition order0 (es : list ex) : list (sidx * ex) :=
  map (fun p : nat * ex => ((N.of_nat (fst p), []), snd p)) (combine (seq 0 (List.length es)) es).
Definition diff_tensors_impl (fuel : nat) (es args : list ex) (order : nat) : mres (list (sidx * ex)) :=
  orders fuel args 0 order (order0 es).

(* --- diff_tensors ------------------------------------------------------------------------ *)
(* include/heyoka/expression.hpp, enum class diff_args, or an explicit list;
   DInvalid: another value of the enumeration. *)
Inductive diff_args := DAll | DVars | DParams | DInvalid | DList (l : list ex).
Definition var_or_par (e : ex) : bool := match e with EVar _ | EPar _ => true | _ => false end.
(* boost::unordered_flat_set of the arguments: the size is smaller when there are
   duplicates. *)
Fixpoint ex_nodup (l : list ex) : bool :=
  match l with
  | [] => true
  | e :: r => negb (existsb (ex_eqb o neq feq e) r) && ex_nodup r
  end.
(* expression_diff.cpp:1452-1521. *)
Definition diff_tensors (fuel : nat) (es : list ex) (da : diff_args) (order : nat) : mres (@dtens ex * list ex) :=
  match es with
  | [] => MThrow
  | _ =>
      match (match da with
             | DAll => Some (map EVar (get_variables o es) ++ map EPar (get_params o es))
             | DVars => Some (map EVar (get_variables o es))
             | DParams => Some (map EPar (get_params o es))
             | DInvalid => None
             | DList l => Some l
             end) with
      | None => MThrow
      | Some [] => MThrow
      | Some args =>
          if negb (forallb var_or_par args) then MThrow
          else if negb (ex_nodup args) then MThrow
          else mbind (diff_tensors_impl fuel es args order) (fun m =>
               MDone ({| dt_map := m; dt_nargs := N.of_nat (List.length args) |}, args))
      end
  end.
End Adj.
(* The choice of the mode, expression_diff.cpp:1376-1388. *)
Definition code_mode (nouts nargs : nat) : bool := Nat.leb nargs nouts.
