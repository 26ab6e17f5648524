(** Correctness of the binary search. *)
From Coq Require Import List Arith Bool Lia.
From Verif Require Import M_Search.
Import ListNotations.

Section P.
Context {A : Type} (p : A -> bool).

(** [p] holds on a prefix of [l] only. *)
Fixpoint partitioned (l : list A) : Prop :=
  match l with
  | [] => True
  | x :: l' => (p x = false -> Forall (fun y => p y = false) l') /\ partitioned l'
  end.

Lemma partitioned_nth : forall l i j x y, partitioned l -> (i <= j)%nat ->
  nth_error l i = Some x -> nth_error l j = Some y -> p y = true -> p x = true.
Proof.
  induction l as [|a l IH]; intros i j x y H Hij Hi Hj Hp.
  - destruct i; discriminate.
  - destruct H as [H1 H2]. destruct i as [|i].
    + cbn in Hi. injection Hi as ->. destruct (p x) eqn:E; auto.
      destruct j as [|j]; cbn in Hj.
      * injection Hj as ->. congruence.
      * apply nth_error_In in Hj. specialize (H1 eq_refl). rewrite Forall_forall in H1. rewrite H1 in Hp; auto.
    + destruct j as [|j]; [lia|]. cbn in *. eapply IH; [auto| |eauto|eauto|auto]. lia.
Qed.

Lemma bs_loop_ok : forall fuel l first len, partitioned l -> (len < fuel)%nat -> (first + len <= length l)%nat ->
  (forall i x, (i < first)%nat -> nth_error l i = Some x -> p x = true) ->
  (forall i x, (first + len <= i)%nat -> nth_error l i = Some x -> p x = false) ->
  let k := bs_loop fuel p l first len in
  (k <= length l)%nat /\
  (forall i x, (i < k)%nat -> nth_error l i = Some x -> p x = true) /\
  (forall i x, (k <= i)%nat -> nth_error l i = Some x -> p x = false).
Proof.
  induction fuel as [|fuel IH]; intros l first len Hp Hf Hb H1 H2; [lia|].
  cbn [bs_loop]. destruct (Nat.eqb_spec len 0) as [->|Hlen].
  - cbn. rewrite Nat.add_0_r in *. auto.
  - assert (Hd : (Nat.div2 len < len)%nat) by (apply Nat.lt_div2; lia).
    destruct (nth_error l (first + Nat.div2 len)) as [x|] eqn:Ex.
    2:{ apply nth_error_None in Ex. lia. }
    destruct (p x) eqn:Epx.
    + apply IH; auto; try lia.
      * intros i y Hi Hy. apply (partitioned_nth l i (first + Nat.div2 len) y x); auto. lia.
      * intros i y Hi. apply H2. lia.
    + apply IH; auto; try lia.
      intros i y Hi Hy. destruct (p y) eqn:E; auto.
      rewrite (partitioned_nth l (first + Nat.div2 len) i x y) in Epx; auto.
Qed.

Lemma partition_point_ok : forall l, partitioned l ->
  let k := partition_point p l in
  (k <= length l)%nat /\
  (forall i x, (i < k)%nat -> nth_error l i = Some x -> p x = true) /\
  (forall i x, (k <= i)%nat -> nth_error l i = Some x -> p x = false).
Proof.
  intros l H. apply bs_loop_ok; auto; try lia. intros i x Hi Hx.
  cbn in Hi. assert (i < length l)%nat by (apply nth_error_Some; congruence). lia.
Qed.

Lemma split_filter : forall l k,
  (forall i x, (i < k)%nat -> nth_error l i = Some x -> p x = true) ->
  (forall i x, (k <= i)%nat -> nth_error l i = Some x -> p x = false) ->
  firstn k l = filter p l.
Proof.
  induction l as [|a l IH]; intros k H1 H2.
  - destruct k; auto.
  - destruct k as [|k]; cbn.
    + rewrite (H2 0%nat a) by (auto; lia).
      rewrite <- (IH 0%nat); auto; [intros; lia|]. intros i x _ Hx. apply (H2 (S i)); auto; lia.
    + rewrite (H1 0%nat a) by (auto; lia). f_equal. apply IH.
      * intros i x Hi Hx. apply (H1 (S i)); auto; lia.
      * intros i x Hi Hx. apply (H2 (S i)); auto; lia.
Qed.

Lemma partition_point_firstn : forall l, partitioned l -> firstn (partition_point p l) l = filter p l.
Proof. intros l H. destruct (partition_point_ok l H) as [_ [H1 H2]]. apply split_filter; auto. Qed.

End P.
