(* Well-formed sharing. *)
From Coq Require Import String Bool Arith List.
From Verif Require Import M_Expr M_Dag.
Import ListNotations.

(* d occurs in e. *)
Inductive within {N} : dag N -> dag N -> Prop :=
| w_here d : within d d
| w_arg d a f s args x : In x args -> within d x -> within d (DFn a f s args).

(* An address identifies one function, and the address of a shared vector of
   arguments identifies one vector, among all the nodes reachable from es. *)
Record consistent {N} (es : list (dag N)) : Prop := {
  one_function : forall e1 e2 a f1 s1 l1 f2 s2 l2,
    In e1 es -> In e2 es -> within (DFn a f1 s1 l1) e1 -> within (DFn a f2 s2 l2) e2 ->
    f1 = f2 /\ s1 = s2 /\ l1 = l2;
  one_vector : forall e1 e2 a1 f1 s l1 a2 f2 l2,
    In e1 es -> In e2 es -> within (DFn a1 f1 (Some s) l1) e1 -> within (DFn a2 f2 (Some s) l2) e2 ->
    l1 = l2
}.

(* The size of the unshared copy, and a number of iterations sufficient for a
   traversal of es. *)
Fixpoint dsize {N} (d : dag N) : nat :=
  match d with
  | DFn _ _ _ args => S (fold_right Nat.add 0 (map dsize args))
  | _ => 1
  end.
Definition enough {N} (fuel : nat) (es : list (dag N)) : Prop := forall e, In e es -> 2 * dsize e <= fuel.

(* The hash of an expression as a function of its structure only. *)
Fixpoint tree_hash {N H} (h0 : H) (hc : H -> H -> H) (hleaf : expr N -> H) (hname : fid N -> H) (e : expr N) : H :=
  match e with
  | EFun f args => hc (fold_left hc (map (tree_hash h0 hc hleaf hname) args) h0) (hname f)
  | _ => hleaf e
  end.
