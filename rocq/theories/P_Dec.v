(* Proofs about decompositions: names, straight-line evaluation, renumberings. *)
From Coq Require Import String Ascii Decimal DecimalString DecimalNat Bool ZArith Arith List Lia.
From Verif Require Import M_Expr M_Dag M_Dec S_Expr S_Dec P_ExprSem.
Import ListNotations.
Local Open Scope nat_scope.

(* --- Names --------------------------------------------------------------------------- *)
Lemma from_chars_string d : from_chars (NilEmpty.string_of_uint d) = d.
Proof. induction d as [|d IH|d IH|d IH|d IH|d IH|d IH|d IH|d IH|d IH|d IH]; cbn; try reflexivity; now rewrite IH. Qed.
Lemma to_uint_nonnil i : Nat.to_uint i <> Nil.
Proof.
  intros E. pose proof (Unsigned.of_to i) as H. rewrite E in H. cbn in H. subst i. discriminate E.
Qed.
Lemma uname_index i : uname_to_index (uname i) = Some i.
Proof.
  unfold uname_to_index, uname. rewrite from_chars_string.
  pose proof (to_uint_nonnil i). pose proof (Unsigned.of_to i) as H'.
  destruct (Nat.to_uint i); try congruence; now rewrite H'.
Qed.
Lemma uname_inj i j : uname i = uname j -> i = j.
Proof. intros E. pose proof (uname_index i) as H. rewrite E, uname_index in H. congruence. Qed.
Lemma uname_eqb i j : String.eqb (uname i) (uname j) = Nat.eqb i j.
Proof.
  destruct (Nat.eqb_spec i j) as [->|H]; [apply String.eqb_refl|].
  apply String.eqb_neq. intros E. now apply uname_inj in E.
Qed.

(* --- Lists ------------------------------------------------------------------------------ *)
Lemma nth_error_nth' {A} (l : list A) i d x : nth_error l i = Some x -> nth i l d = x.
Proof. revert i. induction l as [|y l IH]; intros [|i]; simpl; try discriminate; [congruence | apply IH]. Qed.
Lemma nth_error_some {A} (l : list A) i : i < length l -> exists x, nth_error l i = Some x.
Proof. intros H. destruct (nth_error l i) eqn:E; [eauto|]. apply nth_error_None in E. lia. Qed.
Lemma nth_error_app_l {A} (l l' : list A) i x : nth_error l i = Some x -> nth_error (l ++ l') i = Some x.
Proof. intros H. rewrite nth_error_app1; [exact H|]. apply nth_error_Some. congruence. Qed.

(* --- Evaluation --------------------------------------------------------------------------- *)
Section Eval.
Context {N V : Type} (A : alg N V) (dflt : V).
Local Notation ex := (expr N).
Local Notation ev := (elt_val A dflt).
Local Notation run := (run_mid A dflt).

Lemma elt_val_gval vals e : ev vals e = gval A (uval dflt vals) e.
Proof. induction e as [n|s|i|f args IH] using expr_ind'; [reflexivity..|]. cbn. f_equal. now apply map_ext_Forall. Qed.
Lemma uval_uname vals i : uval dflt vals (uname i) = nth i vals dflt.
Proof. unfold uval. now rewrite uname_index. Qed.

Lemma arg_ok_le k k' (a : ex) : k <= k' -> arg_ok k a -> arg_ok k' a.
Proof. destruct a; simpl; auto. intros H (j & Hj & ->). exists j. split; [lia | reflexivity]. Qed.
Lemma elt_ok_le k k' (e : ex) : k <= k' -> elt_ok k e -> elt_ok k' e.
Proof. destruct e; simpl; auto. intros H. apply Forall_impl. intros a. now apply arg_ok_le. Qed.

(* Values which agree before k give the same value. *)
Lemma arg_val_ext k vals vals' (a : ex) :
  (forall i, i < k -> nth i vals dflt = nth i vals' dflt) -> arg_ok k a -> ev vals a = ev vals' a.
Proof. intros H. destruct a; simpl; auto; [intros (j & Hj & ->); rewrite !uval_uname; auto | intros []]. Qed.
Lemma elt_val_ext k vals vals' (e : ex) :
  (forall i, i < k -> nth i vals dflt = nth i vals' dflt) -> elt_ok k e -> ev vals e = ev vals' e.
Proof.
  intros H. destruct e; simpl; auto; [intros []|]. intros HF. f_equal. apply map_ext_in. intros a Ha.
  rewrite Forall_forall in HF. apply (arg_val_ext k); auto.
Qed.

Lemma run_app ins m1 m2 : run ins (m1 ++ m2) = run (run ins m1) m2.
Proof. unfold run_mid. now rewrite fold_left_app. Qed.
Lemma run_length ins mid : length (run ins mid) = length ins + length mid.
Proof.
  revert ins. induction mid as [|e mid IH]; intros ins; simpl; [lia|].
  change (length (run (ins ++ [ev ins e]) mid) = length ins + S (length mid)).
  rewrite IH, app_length. simpl. lia.
Qed.
Lemma run_prefix ins mid i : i < length ins -> nth i (run ins mid) dflt = nth i ins dflt.
Proof.
  revert ins. induction mid as [|e mid IH]; intros ins Hi; [reflexivity|].
  change (nth i (run (ins ++ [ev ins e]) mid) dflt = nth i ins dflt).
  rewrite IH by (rewrite app_length; simpl; lia). now rewrite app_nth1 by exact Hi.
Qed.

(* The values of a decomposition are the solution of its equations. *)
Definition solves (ins : list V) (mid : list ex) (vals : list V) : Prop :=
  (forall i, i < length ins -> nth i vals dflt = nth i ins dflt) /\
  (forall i e, nth_error mid i = Some e -> nth (length ins + i) vals dflt = ev vals e).

Lemma run_nth ins mid i e : backward (length ins) mid -> nth_error mid i = Some e ->
  nth (length ins + i) (run ins mid) dflt = ev (run ins mid) e.
Proof.
  intros HB He. destruct (nth_error_split mid i He) as (m1 & m2 & -> & Hl).
  change (e :: m2) with ([e] ++ m2). rewrite !run_app.
  set (v1 := run ins m1). assert (L1 : length v1 = length ins + i) by (unfold v1; rewrite run_length, Hl; reflexivity).
  change (run v1 [e]) with (v1 ++ [ev v1 e]).
  rewrite run_prefix by (rewrite app_length, L1; simpl; lia).
  rewrite app_nth2, L1, Nat.sub_diag by lia. cbn [nth].
  apply (elt_val_ext (length ins + i)); [|now apply HB].
  intros j Hj. rewrite run_prefix by (rewrite app_length, L1; simpl; lia).
  symmetry. apply app_nth1. lia.
Qed.
Lemma run_solves ins mid : backward (length ins) mid -> solves ins mid (run ins mid).
Proof. intros HB. split; [intros i Hi; now apply run_prefix | intros i e; now apply run_nth]. Qed.
(* ... and the only one. *)
Lemma solves_unique ins mid vals : backward (length ins) mid -> solves ins mid vals ->
  forall i, i < length ins + length mid -> nth i vals dflt = nth i (run ins mid) dflt.
Proof.
  intros HB HS. pose proof (run_solves ins mid HB) as HR.
  induction i as [i IH] using lt_wf_ind. intros Hi.
  destruct (Nat.lt_ge_cases i (length ins)) as [H|H].
  - rewrite (proj1 HS) by exact H. symmetry. now apply HR.
  - destruct (nth_error_some mid (i - length ins)) as (e & He); [lia|].
    pose proof (proj2 HS _ _ He) as E1. pose proof (proj2 HR _ _ He) as E2.
    replace (length ins + (i - length ins)) with i in E1, E2 by lia. rewrite E1, E2.
    apply (elt_val_ext i); [intros j Hj; apply IH; lia|].
    replace i with (length ins + (i - length ins)) by lia. now apply HB.
Qed.

(* --- Renumbering ------------------------------------------------------------------------ *)
Lemma renumber_val rho vals vals' (k : nat) (a : ex) : arg_ok k a ->
  (forall j, j < k -> nth (rho j) vals' dflt = nth j vals dflt) -> ev vals' (renumber rho a) = ev vals a.
Proof.
  intros Ha H. destruct a as [n|s|i|f args]; simpl in *; auto; [|contradiction].
  destruct Ha as (j & Hj & ->). rewrite uname_index. cbn. rewrite !uval_uname. auto.
Qed.
Lemma renumber_elt_val rho vals vals' (k : nat) (e : ex) : elt_ok k e ->
  (forall j, j < k -> nth (rho j) vals' dflt = nth j vals dflt) -> ev vals' (renumber rho e) = ev vals e.
Proof.
  intros He H. destruct e as [n|s|i|f args]; simpl in *; auto; [contradiction|].
  rewrite map_map. f_equal. apply map_ext_in. intros a Ha. rewrite Forall_forall in He.
  apply (renumber_val rho vals vals' k); auto.
Qed.
Lemma renumber_arg_ok rho k k' (a : ex) : arg_ok k a -> (forall j, j < k -> rho j < k') -> arg_ok k' (renumber rho a).
Proof.
  destruct a as [n|s|i|f args]; simpl; auto. intros (j & Hj & ->) H. rewrite uname_index. simpl. eauto.
Qed.
Lemma renumber_elt_ok rho k k' (e : ex) : elt_ok k e -> (forall j, j < k -> rho j < k') -> elt_ok k' (renumber rho e).
Proof.
  destruct e as [n|s|i|f args]; simpl; auto; [contradiction|]. intros HF H. rewrite Forall_forall in *.
  intros a Ha. apply in_map_iff in Ha. destruct Ha as (b & <- & Hb). apply (renumber_arg_ok rho k); auto.
Qed.
Lemma renumber_id k (a : ex) : arg_ok k a -> renumber (fun j => j) a = a.
Proof. destruct a as [n|s|i|f args]; simpl; auto; [intros (j & Hj & ->); now rewrite uname_index | intros []]. Qed.

(* A renumbering of the u variables which maps every element to an element with
   the same value. *)
Definition carries (ins : list V) (mid mid' : list ex) (rho : nat -> nat) : Prop :=
  (forall i, i < length ins -> rho i = i) /\
  (forall i e, nth_error mid i = Some e ->
     exists e', nth_error mid' (rho (length ins + i) - length ins) = Some e' /\
                length ins <= rho (length ins + i) /\
                (forall vals, ev vals e' = ev vals (renumber rho e))).
Lemma carries_values ins mid mid' rho : backward (length ins) mid -> backward (length ins) mid' ->
  carries ins mid mid' rho ->
  forall i, i < length ins + length mid -> nth (rho i) (run ins mid') dflt = nth i (run ins mid) dflt.
Proof.
  intros HB HB' [H1 H2]. induction i as [i IH] using lt_wf_ind. intros Hi.
  destruct (Nat.lt_ge_cases i (length ins)) as [H|H].
  - rewrite H1 by exact H. now rewrite !run_prefix by exact H.
  - destruct (nth_error_some mid (i - length ins)) as (e & He); [lia|].
    destruct (H2 _ _ He) as (e' & He' & Hge & Hev).
    pose proof (run_nth _ _ _ _ HB He) as E1. pose proof (run_nth _ _ _ _ HB' He') as E2.
    replace (length ins + (i - length ins)) with i in * by lia.
    replace (length ins + (rho i - length ins)) with (rho i) in E2 by lia.
    rewrite E1, E2, Hev. apply (renumber_elt_val rho _ _ i).
    + replace i with (length ins + (i - length ins)) by lia. now apply HB.
    + intros j Hj. apply IH; lia.
Qed.
Lemma carries_out ins mid mid' rho (a : ex) : backward (length ins) mid -> backward (length ins) mid' ->
  carries ins mid mid' rho -> arg_ok (length ins + length mid) a ->
  ev (run ins mid') (renumber rho a) = ev (run ins mid) a.
Proof.
  intros HB HB' HC Ha. eapply renumber_val; [exact Ha|]. now apply carries_values.
Qed.
End Eval.

(* --- Expansion --------------------------------------------------------------------------------- *)
Section Stands.
Context {N : Type}.
Local Notation ex := (expr N).

Lemma all2_forall2 {A B} (P : A -> B -> Prop) l l' : all2 P l l' <-> Forall2 P l l'.
Proof.
  revert l'. induction l as [|x l IH]; intros [|y l']; simpl; split; intros H; try contradiction; try (now constructor);
    try (now inversion H).
  - constructor; [apply H | now apply IH].
  - inversion H; subst. split; [assumption | now apply IH].
Qed.
Lemma stands_app n (dc new : list ex) e : forall a, stands n dc e a -> stands n (dc ++ new) e a.
Proof.
  induction e as [x|s|i|f args IH] using expr_ind'; intros a; [exact (fun H => H)..|].
  cbn. intros (i & args' & Hi & -> & Hn & HA). exists i, args'. split; [exact Hi|]. split; [reflexivity|].
  split; [now apply nth_error_app_l|].
  clear Hn Hi. revert args' HA. induction args as [|x args IHl]; intros [|y args']; simpl; auto.
  inversion IH; subst. intros [Hx Hr]. split; auto.
Qed.

(* The value of what stands for e is the value of e. *)
Lemma stands_val {V} (A : alg N V) dflt ins (dc mid : list ex) e : forall a,
  backward (length ins) mid -> length dc = length ins ->
  (forall s, occurs (EVar s) e -> exists j, j < length ins /\ s = uname j) ->
  stands (length ins) (dc ++ mid) e a ->
  arg_ok (length ins + length mid) a ->
  elt_val A dflt (run_mid A dflt ins mid) a = gval A (uval dflt ins) e.
Proof.
  induction e as [x|s|i|f args IH] using expr_ind'; intros a HB HL Hocc HS Hok; cbn in HS.
  - now subst.
  - subst a. cbn. destruct (Hocc s) as (j & Hj & ->); [constructor|]. rewrite !uval_uname. now apply run_prefix.
  - now subst.
  - destruct HS as (i & args' & Hi & -> & Hn & HA). cbn. rewrite uval_uname.
    rewrite nth_error_app2, HL in Hn by lia.
    pose proof (run_nth A dflt ins mid _ _ HB Hn) as E.
    replace (length ins + (i - length ins)) with i in E by lia. rewrite E. cbn. f_equal.
    pose proof (HB _ _ Hn) as Hargs. cbn in Hargs.
    assert (Hi' : i - length ins < length mid) by (apply nth_error_Some; congruence).
    clear Hn E Hok Hi. revert args' HA Hargs.
    induction args as [|x args IHl]; intros [|y args']; cbn; try contradiction; [reflexivity|].
    intros [Hx Hr] HF. inversion IH; subst. inversion HF; subst. f_equal.
    + apply H1; auto.
      * intros s Hs. apply Hocc. eapply occ_arg; [now left | exact Hs].
      * eapply arg_ok_le; [|eassumption]. lia.
    + apply IHl; auto. intros s Hs. apply Hocc. inversion Hs; subst. eapply occ_arg; [right; eassumption | assumption].
Qed.
End Stands.
