(* C05: equality, hashing and ordering of expressions are coherent. *)
From Coq Require Import String Bool ZArith Arith List Lia.
From Verif Require Import M_Expr M_Dag S_Dag M_Cmp P_ExprSem P_Str P_Dag T_Dag P_Cmp.
Import ListNotations.
Local Open Scope nat_scope.

Section Cmp.
(* The names of the functions, and any hash functions in which equal values of a
   type have equal hashes (as std::hash has to). *)
Context (name : fid number -> string).
Local Notation eq := (dag_eq number_eq name).
Local Notation lt := (dag_lt number_lt name).

Lemma eq_tcmp es a b : consistent es -> reach es a -> reach es b ->
  eq a b = is_eq (tcmp nc name (erase a) (erase b)).
Proof.
  intros HC. apply (dag_eq_ok nc tot_nc name number_eq number_eq_nc (reach es) (reach_arg es)
                      (reach_fun es HC) (reach_vec es HC)).
Qed.
Lemma lt_tcmp es a b : consistent es -> reach es a -> reach es b ->
  lt a b = is_lt (tcmp nc name (erase a) (erase b)).
Proof.
  intros HC. apply (dag_lt_ok nc tot_nc name number_lt number_lt_nc (reach es) (reach_arg es)
                      (reach_fun es HC) (reach_vec es HC)).
Qed.
Lemma in_reach {N} (es : list (dag N)) a : In a es -> reach es a.
Proof. intros H. exists a. split; [exact H | apply w_here]. Qed.

Theorem equality_is_equivalence es : consistent es ->
  (forall a, In a es -> eq a a = true) /\
  (forall a b, In a es -> In b es -> eq a b = true -> eq b a = true) /\
  (forall a b c, In a es -> In b es -> In c es -> eq a b = true -> eq b c = true -> eq a c = true).
Proof.
  intros HC. pose proof (tot_tcmp nc tot_nc name) as T. split; [|split].
  - intros a Ha. rewrite (eq_tcmp es) by (auto using in_reach). now rewrite (t_refl _ T).
  - intros a b Ha Hb. rewrite !(eq_tcmp es) by (auto using in_reach). rewrite (t_sym _ T (erase a)).
    now destruct (tcmp nc name (erase a) (erase b)).
  - intros a b c Ha Hb Hc. rewrite !(eq_tcmp es) by (auto using in_reach).
    destruct (tcmp nc name (erase a) (erase b)) eqn:E; try discriminate.
    intros _. now rewrite (t_eq _ T _ _ (erase c) E).
Qed.

Theorem equal_expressions_equal_hashes {H} (h0 : H) hc hidx hv hstr hu32 es fuel a b :
  (forall i v w, v_eq v w = true -> hv i v = hv i w) ->
  consistent es -> In a es -> In b es -> enough fuel es -> eq a b = true ->
  exists h, hash_dag h0 hc (leaf_hash hidx hv hstr hu32) (fun f => hstr (name f)) fuel a = MDone h /\
            hash_dag h0 hc (leaf_hash hidx hv hstr hu32) (fun f => hstr (name f)) fuel b = MDone h.
Proof.
  intros Hv HC Ha Hb HF E.
  assert (sub : forall x, In x es -> consistent [x] /\ enough fuel [x]).
  { intros x Hx. split; [split|].
    - intros e1 e2 ad f1 s1 l1 f2 s2 l2 [<-|[]] [<-|[]]. now apply (one_function _ HC).
    - intros e1 e2 a1 f1 s l1 a2 f2 l2 [<-|[]] [<-|[]]. now apply (one_vector _ HC).
    - intros e [<-|[]]. now apply HF. }
  destruct (sub a Ha) as [Ca Fa], (sub b Hb) as [Cb Fb].
  rewrite !sharing_hash by assumption.
  rewrite (eq_tcmp es) in E by (auto using in_reach).
  destruct (tcmp nc name (erase a) (erase b)) eqn:Et; try discriminate.
  eexists. split; [reflexivity|]. f_equal. symmetry.
  apply (tcmp_hash nc name h0 hc (leaf_hash hidx hv hstr hu32) (fun f => hstr (name f))).
  - intros x y Hxy. cbn [leaf_hash]. assert (Hn : number_eq x y = true) by (rewrite number_eq_nc, Hxy; reflexivity).
    unfold number_eq in Hn. destruct (Nat.eqb_spec (n_idx x) (n_idx y)) as [Ei|]; [|discriminate].
    unfold number_hash. rewrite Ei. destruct (isnan (n_val x)) eqn:Ex, (isnan (n_val y)) eqn:Ey; simpl in Hn.
    + reflexivity.
    + exfalso. destruct (n_val x); discriminate.
    + exfalso. destruct (n_val y), (n_val x); try discriminate.
    + now apply Hv.
  - intros f g Hfg. now rewrite Hfg.
  - exact Et.
Qed.

Theorem order_is_strict_weak es : consistent es ->
  (forall a, In a es -> lt a a = false) /\
  (forall a b c, In a es -> In b es -> In c es -> lt a b = true -> lt b c = true -> lt a c = true) /\
  (forall a b, In a es -> In b es -> (lt a b = false /\ lt b a = false <-> eq a b = true)) /\
  (forall a b c, In a es -> In b es -> In c es -> eq a b = true -> lt a c = lt b c /\ lt c a = lt c b).
Proof.
  intros HC. pose proof (tot_tcmp nc tot_nc name) as T. split; [|split; [|split]].
  - intros a Ha. rewrite (lt_tcmp es) by (auto using in_reach). now rewrite (t_refl _ T).
  - intros a b c Ha Hb Hc. rewrite !(lt_tcmp es) by (auto using in_reach).
    destruct (tcmp nc name (erase a) (erase b)) eqn:E1; try discriminate.
    destruct (tcmp nc name (erase b) (erase c)) eqn:E2; try discriminate.
    now rewrite (t_lt _ T _ _ _ E1 E2).
  - intros a b Ha Hb. rewrite !(lt_tcmp es), (eq_tcmp es) by (auto using in_reach). rewrite (t_sym _ T (erase a)).
    destruct (tcmp nc name (erase a) (erase b)); simpl; intuition discriminate.
  - intros a b c Ha Hb Hc. rewrite !(lt_tcmp es), (eq_tcmp es) by (auto using in_reach).
    destruct (tcmp nc name (erase a) (erase b)) eqn:E; try discriminate. intros _.
    now rewrite (t_eq _ T _ _ (erase c) E), (t_eq_r _ T _ _ (erase c) E).
Qed.
End Cmp.

(* The constants alone, including NaN: equality of numbers of the same type is
   that of their values, any NaN being equal to any other. *)
Theorem number_equality a b : number_eq a b = true <->
  n_idx a = n_idx b /\ ((isnan (n_val a) = true /\ isnan (n_val b) = true) \/ fcmp (n_val a) (n_val b) = Some Eq).
Proof.
  unfold number_eq, v_eq. destruct (Nat.eqb_spec (n_idx a) (n_idx b)) as [E|E].
  - destruct (isnan (n_val a)) eqn:Ea, (isnan (n_val b)) eqn:Eb; simpl;
      destruct (fcmp (n_val a) (n_val b)) as [[]|]; intuition congruence.
  - intuition discriminate.
Qed.

(* --- Examples ---------------------------------------------------------------------- *)
Definition xn (e : fid number) : string :=
  match e with Fsum => "sum" | Fprod => "prod" | Fu Usin => "sin" | _ => "other" end%string.
Definition d_nan : dag number := DNum (mkN 1 (Fnan 1)).
Definition d_nan2 : dag number := DNum (mkN 1 (Fnan 2)).
Definition d_two : dag number := DNum (mkN 1 (Ffin false 1 1)).
Definition d_two' : dag number := DNum (mkN 1 (Ffin false 2 0)).
Definition d_f (ad : nat) (c : dag number) : dag number := DFn ad Fsum (Some (ad + 100)) [DVr "x"; c]%string.
Definition xes := [d_f 1 d_nan; d_f 2 d_nan2; d_f 3 d_two; d_f 4 d_two'; DVr "x"%string; d_nan].
Lemma xes_within d e : In e xes -> within d e ->
  d = DVr "x"%string \/ d = d_nan \/ d = d_nan2 \/ d = d_two \/ d = d_two' \/
  d = d_f 1 d_nan \/ d = d_f 2 d_nan2 \/ d = d_f 3 d_two \/ d = d_f 4 d_two'.
Proof.
  assert (Hf : forall k c, (forall d, within d c -> d = c) -> within d (d_f k c) -> d = d_f k c \/ d = DVr "x"%string \/ d = c).
  { intros k c Hc H. inversion H as [|? ? ? ? ? x Hx Hw]; subst; [auto|].
    destruct Hx as [<-|[<-|[]]]; [inversion Hw; subst; auto | right; right; auto]. }
  assert (Hn : forall (n : number) d', within d' (DNum n) -> d' = DNum n) by (intros n d' H; inversion H; auto).
  intros He Hw. cbn [In xes] in He.
  repeat (destruct He as [<-|He]; [try (apply Hf in Hw; [|intros; now apply Hn]); try (inversion Hw; subst); tauto|]).
  destruct He.
Qed.
Example xes_consistent : consistent xes.
Proof.
  split.
  - intros e1 e2 a f1 s1 l1 f2 s2 l2 I1 I2 H1 H2. apply (xes_within _ _ I1) in H1. apply (xes_within _ _ I2) in H2.
    unfold d_f, d_nan, d_nan2, d_two, d_two' in *.
    repeat (destruct H1 as [H1|H1]); try discriminate H1;
      repeat (destruct H2 as [H2|H2]); try discriminate H2; injection H1; injection H2; intros; subst;
      try discriminate; auto.
  - intros e1 e2 a1 f1 s l1 a2 f2 l2 I1 I2 H1 H2. apply (xes_within _ _ I1) in H1. apply (xes_within _ _ I2) in H2.
    unfold d_f, d_nan, d_nan2, d_two, d_two' in *.
    repeat (destruct H1 as [H1|H1]); try discriminate H1;
      repeat (destruct H2 as [H2|H2]); try discriminate H2; injection H1; injection H2; intros; subst;
      try discriminate; auto.
Qed.
Example xes_compare :
  dag_eq number_eq xn (d_f 1 d_nan) (d_f 2 d_nan2) = true /\
  dag_eq number_eq xn (d_f 3 d_two) (d_f 4 d_two') = true /\
  dag_eq number_eq xn (d_f 1 d_nan) (d_f 3 d_two) = false /\
  dag_lt number_lt xn (d_f 3 d_two) (d_f 1 d_nan) = true /\
  dag_lt number_lt xn d_nan (DVr "x"%string) = true.
Proof. repeat split. Qed.
Example xes_enough : enough 10 xes.
Proof. intros e He. cbn [In xes] in He. repeat (destruct He as [<-|He]; [simpl; lia|]). destruct He. Qed.

Print Assumptions equality_is_equivalence.
Print Assumptions equal_expressions_equal_hashes.
Print Assumptions order_is_strict_weak.
Print Assumptions number_equality.
