(* A representation of any list of expressions as graphs (without sharing), and
   a decidable == for the examples. *)
From Coq Require Import String Bool ZArith Arith List Lia.
From Verif Require Import M_Expr S_Expr M_Dag S_Dag P_Dag.
Import ListNotations.
Local Open Scope nat_scope.
Set Bullet Behavior "Strict Subproofs".

Section Number.
Context {N : Type}.
Fixpoint number (k : nat) (e : expr N) {struct e} : nat * dag N :=
  match e with
  | ENum x => (k, DNum x)
  | EVar s => (k, DVr s)
  | EPar i => (k, DPr i)
  | EFun f args =>
      let '(k', l) := (fix go (k : nat) (l : list (expr N)) {struct l} : nat * list (dag N) :=
         match l with
         | [] => (k, [])
         | a :: r => let '(k1, d) := number k a in let '(k2, ds) := go k1 r in (k2, d :: ds)
         end) k args in
      (S k', DFn k' f None l)
  end.
Fixpoint number_list (k : nat) (l : list (expr N)) : nat * list (dag N) :=
  match l with
  | [] => (k, [])
  | a :: r => let '(k1, d) := number k a in let '(k2, ds) := number_list k1 r in (k2, d :: ds)
  end.
Lemma number_fun k f args : number k (EFun f args) = let '(k', l) := number_list k args in (S k', DFn k' f None l).
Proof.
  cbn. assert (E : forall k, (fix go (k : nat) (l : list (expr N)) {struct l} : nat * list (dag N) :=
         match l with
         | [] => (k, [])
         | a :: r => let '(k1, d) := number k a in let '(k2, ds) := go k1 r in (k2, d :: ds)
         end) k args = number_list k args); [|now rewrite E].
  induction args as [|a r IH]; intros k'; [reflexivity|]. cbn. destruct (number k' a) as [k1 d]. now rewrite IH.
Qed.
Definition good (k k' : nat) (l : list (dag N)) : Prop :=
  k <= k' /\
  (forall a f s r e, In e l -> within (DFn a f s r) e -> k <= a < k' /\ s = None) /\
  (forall e1 e2 a f1 s1 l1 f2 s2 l2, In e1 l -> In e2 l -> within (DFn a f1 s1 l1) e1 -> within (DFn a f2 s2 l2) e2 ->
     f1 = f2 /\ s1 = s2 /\ l1 = l2).
Lemma good_cons k k1 k2 d l : good k k1 [d] -> good k1 k2 l -> good k k2 (d :: l).
Proof.
  intros (H1 & H2 & H3) (G1 & G2 & G3). split; [lia|]. split.
  - intros a f s r e [<-|He] Hw.
    + destruct (H2 a f s r d (or_introl eq_refl) Hw). split; [lia | assumption].
    + destruct (G2 a f s r e He Hw). split; [lia | assumption].
  - intros e1 e2 a f1 s1 l1 f2 s2 l2 [<-|I1] [<-|I2] W1 W2.
    + exact (H3 d d a f1 s1 l1 f2 s2 l2 (or_introl eq_refl) (or_introl eq_refl) W1 W2).
    + destruct (H2 _ _ _ _ _ (or_introl eq_refl) W1) as [? _]. destruct (G2 _ _ _ _ _ I2 W2) as [? _]. lia.
    + destruct (H2 _ _ _ _ _ (or_introl eq_refl) W2) as [? _]. destruct (G2 _ _ _ _ _ I1 W1) as [? _]. lia.
    + exact (G3 _ _ _ _ _ _ _ _ _ I1 I2 W1 W2).
Qed.
Lemma number_list_ok : forall args, Forall (fun e => forall k, good k (fst (number k e)) [snd (number k e)] /\ erase (snd (number k e)) = e) args ->
  forall k, good k (fst (number_list k args)) (snd (number_list k args)) /\ map erase (snd (number_list k args)) = args.
Proof.
  induction 1 as [|e r He Hr IH]; intros k.
  - cbn. split; [|reflexivity]. split; [lia|]. split; [intros ? ? ? ? ? [] | intros ? ? ? ? ? ? ? ? ? []].
  - cbn. destruct (He k) as [G E]. destruct (number k e) as [k1 d]. destruct (IH k1) as [G' E'].
    destruct (number_list k1 r) as [k2 ds]. cbn in *. split; [now apply (good_cons k k1) | congruence].
Qed.
Lemma number_ok e : forall k, good k (fst (number k e)) [snd (number k e)] /\ erase (snd (number k e)) = e.
Proof.
  induction e as [x|s|i|f args IH] using expr_ind'; intros k.
  1-3: split; [|reflexivity]; split; [cbn; lia|]; split;
    [intros a g t r e [<-|[]] Hw; inversion Hw | intros e1 e2 a f1 s1 l1 f2 s2 l2 [<-|[]] _ Hw; inversion Hw].
  rewrite number_fun. destruct (number_list_ok args IH k) as [(G1 & G2 & G3) E]. destruct (number_list k args) as [k' l]. cbn in *.
  split; [|now rewrite E]. split; [lia|]. split.
  - intros a g t r e [<-|[]] Hw. inversion Hw as [|? ? ? ? ? x Hx Hwx]; subst; [split; [lia | reflexivity]|].
    destruct (G2 _ _ _ _ _ Hx Hwx). split; [lia | assumption].
  - intros e1 e2 a f1 s1 l1 f2 s2 l2 [<-|[]] [<-|[]] W1 W2.
    inversion W1 as [|? ? ? ? ? x1 Hx1 Hw1]; inversion W2 as [|? ? ? ? ? x2 Hx2 Hw2]; subst; auto.
    + destruct (G2 _ _ _ _ _ Hx2 Hw2). lia.
    + destruct (G2 _ _ _ _ _ Hx1 Hw1). lia.
    + exact (G3 _ _ _ _ _ _ _ _ _ Hx1 Hx2 Hw1 Hw2).
Qed.
Definition unshared (l : list (expr N)) : list (dag N) := snd (number_list 0 l).
Lemma unshared_ok l : map erase (unshared l) = l /\ consistent (unshared l).
Proof.
  destruct (number_list_ok l (proj2 (Forall_forall _ _) (fun e _ => number_ok e)) 0) as [(G1 & G2 & G3) E]. fold (unshared l) in *.
  split; [exact E|]. split; [exact G3|]. intros e1 e2 a1 f1 s l1 a2 f2 l2 I1 _ W1 _. destruct (G2 _ _ _ _ _ I1 W1). discriminate.
Qed.

(* == on functions: decided by any decidable equality of numbers. *)
Context (deq : forall a b : N, {a = b} + {a <> b}).
Definition fid_dec (f g : fid N) : {f = g} + {f <> g}.
Proof.
  decide equality; try apply string_dec; try apply deq; try decide equality; try (decide equality; apply Nat.eq_dec).
Defined.
Definition fid_eqb (f g : fid N) : bool := if fid_dec f g then true else false.
Definition num_eqb (a b : N) : bool := if deq a b then true else false.
End Number.
