(* C46: feed-forward neural networks. *)
From Coq Require Import String Bool ZArith NArith Reals List Lra Lia.
From Verif Require Import M_Expr S_Expr P_ExprSem P_Build X_Expr M_Dag M_Taylor S_Mech P_Mech1 S_Model P_Model1 M_Net S_Net P_Net.
Import ListNotations.
Local Open Scope nat_scope.
Set Bullet Behavior "Strict Subproofs".

Section Net.
Context {o : nops} {nval : num o -> R} (L : nlaws o nval).
Local Notation ex := (expr (num o)).

(* The call succeeds if and only if there is one activation for every layer, all of them
   present, no layer is empty, and there are exactly as many parameters as the layers need,
   fewer than 2^32. Otherwise it throws. *)
Theorem ffnn_accepts : forall (ins : list ex) hidden n_out acts wb, (0 <= n_out)%Z ->
  guarded (length acts = S (length hidden) /\ ins <> [] /\ (0 < n_out)%Z /\ (forall h, In h hidden -> (0 < h)%Z) /\ (forall a, In a acts -> a <> None) /\
           length wb = n_weights (length ins) (sizes_of hidden n_out) + n_biases (sizes_of hidden n_out) /\ (Z.of_nat (length wb) < 2 ^ 32)%Z)
    (ffnn o ins hidden n_out acts wb).
Proof.
  intros ins hidden n_out acts wb Hn. destruct (ffnn_run L ins hidden n_out acts wb Hn) as [A B]. split; [|exact A].
  intros C. destruct (B C) as (out & fs & _ & E & _). eauto.
Qed.

(* The expressions returned compute the network: the parameters are all the weights, layer by
   layer and row by row, and then all the biases. *)
Theorem ffnn_values : forall (ins : list ex) hidden n_out acts wb out, (0 <= n_out)%Z -> ffnn o ins hidden n_out acts wb = MDone out ->
  let sizes := sizes_of hidden n_out in
  length out = Z.to_nat n_out /\
  forall rho x v phis, Forall2 (fun a phi => exists f, a = Some f /\ computes o nval rho f phi) acts phis ->
    values o nval rho ins x -> values o nval rho wb v ->
    values o nval rho out (network sizes phis v (fun k => v (n_weights (length ins) sizes + k)) (length ins) x).
Proof.
  intros ins hidden n_out acts wb out Hn E sizes. destruct (ffnn_run L ins hidden n_out acts wb Hn) as [A B].
  match type of A with ~ ?C -> _ => assert (HC : ~ ~ C) by (intros X; rewrite (A X) in E; discriminate) end.
  match type of HC with ~ ~ ?C => assert (HD : C) end.
  { clear - HC.
    assert (D : forall P : Prop, {P} + {~ P} -> ~ ~ P -> P) by tauto.
    assert (D1 : length acts = S (length hidden)) by (destruct (Nat.eq_dec (length acts) (S (length hidden))); [auto|tauto]).
    assert (D2 : ins <> []) by (intros ->; tauto).
    assert (D3 : (0 < n_out)%Z) by (destruct (Z_lt_le_dec 0 n_out); [auto|exfalso; apply HC; intros (_ & _ & X & _); lia]).
    assert (D4 : forall h, In h hidden -> (0 < h)%Z) by (intros h Hh; destruct (Z_lt_le_dec 0 h); [auto|exfalso; apply HC; intros (_ & _ & _ & X & _); specialize (X h Hh); lia]).
    assert (D5 : forall a, In a acts -> a <> None) by (intros a Ha ->; apply HC; intros (_ & _ & _ & _ & X & _); apply (X None Ha); auto).
    repeat split; auto.
    - destruct (Nat.eq_dec (length wb) (n_weights (length ins) (sizes_of hidden n_out) + n_biases (sizes_of hidden n_out))) as [Q|Q]; [auto|exfalso; apply HC; intros (_ & _ & _ & _ & _ & X & _); auto].
    - destruct (Z_lt_le_dec (Z.of_nat (length wb)) (2 ^ 32)); [auto|exfalso; apply HC; intros (_ & _ & _ & _ & _ & _ & X); lia]. }
  destruct (B HD) as (out' & fs & Ef & E' & Lo & V). rewrite E' in E. assert (out' = out) by congruence. subst out'. split; [exact Lo|].
  intros rho x v phis F Hx Hv. apply V; auto. subst acts. clear - F. revert phis F. induction fs as [|f fs IH]; intros phis F; inversion F as [|? phi ? phis' (f' & E & Hf) F']; subst; constructor; auto.
  injection E as <-. exact Hf.
Qed.
End Net.

(* --- Examples ------------------------------------------------------------------------------ *)
(* A network with two inputs, a hidden layer of two neurons and one output. *)
Definition tn (e : expr R) : expr R := mk_fun rnum Utanh e.
Definition wnet : list (expr R) := map (fun k => EPar k) (seq 0 9).
Definition netrho (x y : R) (v : nat -> R) : env := mkEnv (fun s => if String.eqb s "x" then Some x else if String.eqb s "y" then Some y else None) (fun k => Some (v k)) None (fun _ _ _ => None) (fun _ _ => None).
Example ffnn_holds : forall x y v, exists out,
  ffnn rnum [EVar "x"; EVar "y"] [2%Z] 1 [Some tn; Some (fun e => e)] wnet = MDone [out] /\
  eval rnum (fun r => r) (netrho x y v) out =
    Some (v 4%nat * tanh (v 0%nat * x + v 1%nat * y + v 6%nat) + v 5%nat * tanh (v 2%nat * x + v 3%nat * y + v 7%nat) + v 8%nat)%R.
Proof.
  intros x y v.
  destruct (ffnn_accepts rnum_laws [EVar "x"; EVar "y"] [2%Z] 1 [Some tn; Some (fun e => e)] wnet ltac:(lia)) as [[out E] _].
  { repeat split; try discriminate; auto; try lia.
    - intros h [<-|[]]. lia.
    - intros a [<-|[<-|[]]]; discriminate. }
  destruct (ffnn_values rnum_laws _ _ 1%Z _ _ _ ltac:(lia) E) as [Lo V].
  destruct out as [|o0 [|? ?]]; [discriminate| |discriminate]. exists o0. split; [exact E|].
  rewrite (V (netrho x y v) (fun k => match k with 0 => x | _ => y end) v [tanh; fun r => r]) with (i := 0); auto.
  - change (sizes_of [2%Z] 1) with [2; 1]. cbn. rewrite !Rplus_0_l. reflexivity.
  - constructor; [exists tn; split; [auto|]|constructor; [exists (fun e => e); split; [auto|]|constructor]].
    + intros e r He. apply (mk_fun_ok _ Utanh e r); auto. apply rnum_laws.
    + intros e r He. exact He.
  - intros [|[|[|?]]] e Ee; cbn in Ee; try discriminate; injection Ee as <-; reflexivity.
  - intros i e Ee. unfold wnet in Ee. rewrite nth_error_map in Ee. destruct (nth_error (seq 0 9) i) as [k|] eqn:Ek; [|discriminate]. injection Ee as <-.
    assert (i < 9) by (rewrite <- (seq_length 9 0); apply nth_error_Some; congruence). rewrite (nth_error_nth' _ 0) in Ek by (rewrite seq_length; auto).
    rewrite seq_nth in Ek by auto. injection Ek as <-. reflexivity.
Qed.

Print Assumptions ffnn_accepts.
Print Assumptions ffnn_values.
