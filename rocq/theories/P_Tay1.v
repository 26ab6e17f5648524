(* Running the generated code: what it reads, and the table of the derivatives. *)
From Coq Require Import String Bool ZArith Arith List Lia.
From Verif Require Import M_Expr M_Dag M_Dec S_Dec P_Dec M_Taylor.
Import ListNotations.
Set Bullet Behavior "Strict Subproofs".

Section TexInd.
Context {N : Type} (P : tex N -> Prop).
Hypothesis H1 : forall m j, P (TLd m j).
Hypothesis H2 : forall x, P (TNum x).
Hypothesis H3 : forall i, P (TPar i).
Hypothesis H4 : forall n, P (TNat n).
Hypothesis H5 : P THsp.
Hypothesis H6 : forall a b, P a -> P b -> P (TAdd a b).
Hypothesis H7 : forall a b, P a -> P b -> P (TSub a b).
Hypothesis H8 : forall a b, P a -> P b -> P (TMul a b).
Hypothesis H9 : forall a b, P a -> P b -> P (TDiv a b).
Hypothesis H10 : forall a, P a -> P (TNeg a).
Hypothesis H11 : forall f l, Forall P l -> P (TApp f l).
Hypothesis H12 : forall c a b, P c -> P a -> P b -> P (TPos c a b).
Hypothesis H13 : forall l, Forall P l -> P (TPSum l).
Hypothesis H14 : forall lo hi f, (forall j, P (f j)) -> P (TLoop lo hi f).
Fixpoint tex_ind' (e : tex N) : P e :=
  let all := fix all l : Forall P l := match l with [] => Forall_nil P | x :: r => Forall_cons x (tex_ind' x) (all r) end in
  match e with
  | TLd m j => H1 m j | TNum x => H2 x | TPar i => H3 i | TNat n => H4 n | THsp => H5
  | TAdd a b => H6 a b (tex_ind' a) (tex_ind' b)
  | TSub a b => H7 a b (tex_ind' a) (tex_ind' b)
  | TMul a b => H8 a b (tex_ind' a) (tex_ind' b)
  | TDiv a b => H9 a b (tex_ind' a) (tex_ind' b)
  | TNeg a => H10 a (tex_ind' a)
  | TApp f l => H11 f l (all l)
  | TPos c a b => H12 c a b (tex_ind' c) (tex_ind' a) (tex_ind' b)
  | TPSum l => H13 l (all l)
  | TLoop lo hi f => H14 lo hi f (fun j => tex_ind' (f j))
  end.
End TexInd.

Definition allof {A} (P : A -> Prop) (l : list A) : Prop := fold_right (fun x acc => P x /\ acc) True l.
Lemma allof_Forall {A} (P : A -> Prop) l : allof P l <-> Forall P l.
Proof. induction l as [|x l IH]; cbn; split; auto; [intros [H1 H2]; constructor; [exact H1 | now apply IH] | inversion 1; split; [assumption | now apply IH]]. Qed.

Section Code.
Context {N V : Type} (A : alg N V) (T : tops V).

(* Every load of the code satisfies P and no pairwise sum is empty. *)
Fixpoint code_ok (P : nat -> nat -> Prop) (e : tex N) : Prop :=
  match e with
  | TLd m j => P m j
  | TNum _ | TPar _ | TNat _ | THsp => True
  | TAdd a b | TSub a b | TMul a b | TDiv a b => code_ok P a /\ code_ok P b
  | TNeg a => code_ok P a
  | TApp _ l => allof (code_ok P) l
  | TPos c a b => code_ok P c /\ code_ok P a /\ code_ok P b
  | TPSum l => l <> [] /\ allof (code_ok P) l
  | TLoop lo hi f => forall j, lo <= j < hi -> code_ok P (f j)
  end.
Lemma code_ok_impl (P Q : nat -> nat -> Prop) : (forall m j, P m j -> Q m j) -> forall e, code_ok P e -> code_ok Q e.
Proof.
  intros H e. induction e using tex_ind'; cbn [code_ok]; auto; try tauto.
  - rewrite !allof_Forall. intros HF. rewrite Forall_forall in *. auto.
  - rewrite !allof_Forall. intros [Hn HF]. split; [exact Hn|]. rewrite Forall_forall in *. auto.
Qed.

(* The value of the code when the loads give rd. *)
Definition pairv (l : list V) : V := match pairwise T (length l) l with MDone v => v | _ => t_nat T 0 end.
Fixpoint loopv (steps j : nat) (acc : V) (f : nat -> V) : V :=
  match steps with O => acc | S k => loopv k (S j) (t_add T acc (f j)) f end.
Fixpoint tval (rd : nat -> nat -> V) (e : tex N) : V :=
  match e with
  | TLd m j => rd m j
  | TNum x => a_num A x
  | TPar i => a_par A i
  | TNat n => t_nat T n
  | THsp => t_hsp T
  | TAdd a b => t_add T (tval rd a) (tval rd b)
  | TSub a b => t_sub T (tval rd a) (tval rd b)
  | TMul a b => t_mul T (tval rd a) (tval rd b)
  | TDiv a b => t_div T (tval rd a) (tval rd b)
  | TNeg a => t_neg T (tval rd a)
  | TApp f l => a_fun A f (map (tval rd) l)
  | TPos c a b => t_pos T (tval rd c) (tval rd a) (tval rd b)
  | TPSum l => pairv (map (tval rd) l)
  | TLoop lo hi f => loopv (hi - lo) lo (t_nat T 0) (fun j => tval rd (f j))
  end.

Lemma pair_up_length : forall l : list V, length (pair_up T l) <= length l /\ (2 <= length l -> length (pair_up T l) < length l).
Proof.
  assert (G : forall n l, length l <= n -> length (pair_up T l) <= length l /\ (2 <= length l -> length (pair_up T l) < length l)).
  { induction n as [|n IH]; intros l Hl; [destruct l; cbn in *; [split; lia | lia]|].
    destruct l as [|a [|b r]]; [cbn; split; lia .. |]. cbn [pair_up length] in *.
    destruct (IH r ltac:(lia)) as [H1 _]. split; lia. }
  intros l. apply (G (length l)). lia.
Qed.
Lemma pair_up_nonempty (l : list V) : l <> [] -> pair_up T l <> [].
Proof. destruct l as [|a [|b r]]; cbn; congruence. Qed.
Lemma pairwise_done : forall fuel (l : list V), length l <= fuel -> l <> [] -> exists v, pairwise T fuel l = MDone v.
Proof.
  induction fuel as [|k IH]; intros l Hl Hn; [destruct l; [congruence | cbn in Hl; lia]|].
  destruct l as [|a [|b r]]; [congruence | cbn; eauto |].
  change (pairwise T (S k) (a :: b :: r)) with (pairwise T k (pair_up T (a :: b :: r))). apply IH.
  - pose proof (proj2 (pair_up_length (a :: b :: r))). cbn [length] in *. lia.
  - now apply pair_up_nonempty.
Qed.
Lemma pairwise_pairv (l : list V) : l <> [] -> pairwise T (length l) l = MDone (pairv l).
Proof. intros H. unfold pairv. destruct (pairwise_done (length l) l (le_n _) H) as [v ->]. reflexivity. Qed.

Lemma mseq_done {B} (l : list B) (f : B -> mres V) (g : B -> V) : Forall (fun x => f x = MDone (g x)) l ->
  mseq (map f l) = MDone (map g l).
Proof. induction 1 as [|x l H _ IH]; [reflexivity|]. cbn. now rewrite H, IH. Qed.
Lemma loop_done (f : nat -> mres V) (g : nat -> V) : forall k j acc,
  (forall i, j <= i < j + k -> f i = MDone (g i)) -> loop T k j acc f = MDone (loopv k j acc g).
Proof.
  induction k as [|k IH]; intros j acc H; [reflexivity|]. cbn. rewrite (H j) by lia. cbn. apply IH. intros i Hi. apply H. lia.
Qed.
Lemma loopv_ext (f g : nat -> V) : forall k j acc, (forall i, j <= i < j + k -> f i = g i) -> loopv k j acc f = loopv k j acc g.
Proof. induction k as [|k IH]; intros j acc H; [reflexivity|]. cbn. rewrite (H j) by lia. apply IH. intros i Hi. apply H. lia. Qed.

Lemma trun_tval (P : nat -> nat -> Prop) rd rv : (forall m j, P m j -> rd m j = MDone (rv m j)) ->
  forall e, code_ok P e -> trun A T rd e = MDone (tval rv e).
Proof.
  intros Hrd e. induction e using tex_ind'; cbn [code_ok trun tval]; intros Hok; auto.
  1-4: destruct Hok as [Ha Hb]; rewrite IHe1, IHe2 by assumption; reflexivity.
  - rewrite IHe by assumption. reflexivity.
  - apply allof_Forall in Hok. rewrite (mseq_done l (trun A T rd) (tval rv)); [reflexivity|].
    rewrite Forall_forall in *. auto.
  - destruct Hok as (Hc & Ha & Hb). rewrite IHe1, IHe2, IHe3 by assumption. reflexivity.
  - destruct Hok as [Hn Hok]. apply allof_Forall in Hok. rewrite (mseq_done l (trun A T rd) (tval rv)).
    + cbn [mbind]. apply pairwise_pairv. destruct l; [congruence | discriminate].
    + rewrite Forall_forall in *. auto.
  - apply loop_done. intros i Hi. apply H. apply Hok. lia.
Qed.
Lemma tval_ext (P : nat -> nat -> Prop) rv rv' : (forall m j, P m j -> rv m j = rv' m j) ->
  forall e, code_ok P e -> tval rv e = tval rv' e.
Proof.
  intros Hrd e Hok.
  assert (E : MDone (tval rv e) = MDone (tval rv' e)); [|congruence].
  rewrite <- (trun_tval P (fun m j => MDone (rv m j)) rv) by auto.
  apply (trun_tval P); [|exact Hok]. intros m j H. now rewrite Hrd.
Qed.
End Code.

(* --- What the code of the elements reads ------------------------------------------------- *)
Section Reads.
Context (o : nops).
Local Notation ex := (expr (num o)).
Local Notation elt := (expr (num o) * list nat)%type.

(* The derivatives available to the element i at order n. *)
Definition avail (nu n i m j : nat) : Prop := j < nu /\ (m < n \/ (m = n /\ j < i)).
Lemma avail_key nu n i m j : i <= nu -> avail nu n i m j -> m * nu + j < n * nu + i.
Proof. intros Hi (Hj & [H|[-> H]]); [nia | lia]. Qed.

Definition targ_ok (nu i : nat) (a : targ o) : Prop := match a with AU j => j < nu /\ j < i | AC c => code_ok (fun _ _ => False) c end.
Lemma resolve_ok nu i (a : ex) r : i <= nu -> arg_ok i a -> resolve o a = Some r -> targ_ok nu i r.
Proof.
  intros Hi. destruct a as [x|s|k|f l]; cbn; intros Ha.
  - intros [= <-]. exact I.
  - destruct Ha as (j & Hj & ->). rewrite uname_index. intros [= <-]. cbn. lia.
  - intros [= <-]. exact I.
  - discriminate.
Qed.
Lemma resolve_all_ok nu i (args : list ex) l : i <= nu -> Forall (arg_ok i) args -> resolve_all o args = Some l ->
  Forall (targ_ok nu i) l /\ length l = length args.
Proof.
  intros Hi. unfold resolve_all. revert l. induction args as [|a args IH]; cbn; intros l HF.
  - intros [= <-]. split; [constructor | reflexivity].
  - inversion HF as [|? ? Ha Hr]; subst. destruct (resolve o a) as [r|] eqn:E; [|discriminate].
    destruct (oseq (map (resolve o) args)) as [l'|]; [|discriminate]. intros [= <-].
    destruct (IH l' Hr eq_refl) as [H1 H2]. split; [constructor; [now apply (resolve_ok nu i a) | exact H1] | cbn; congruence].
Qed.

Lemma psum_ok P lo hi (f : nat -> tex (num o)) : lo <= hi -> (forall j, lo <= j <= hi -> code_ok P (f j)) -> code_ok P (psum o lo hi f).
Proof.
  intros Hl Hf. cbn [psum code_ok]. split.
  - destruct (S hi - lo) eqn:E; [lia | discriminate].
  - apply allof_Forall, Forall_map, Forall_forall. intros j Hj. apply in_seq in Hj. apply Hf. lia.
Qed.
Lemma at_ord_ok nu n i m a : targ_ok nu i a -> m <= n -> code_ok (avail nu n i) (at_ord o m a).
Proof.
  destruct a as [j|c]; cbn; intros Ha Hm.
  - unfold avail. lia.
  - destruct (m =? 0); [|exact I]. apply (code_ok_impl (fun _ _ => False)); [contradiction | exact Ha].
Qed.
Lemma const_ok nu i P (c : tex (num o)) : targ_ok nu i (AC c) -> code_ok P c.
Proof. intros H. apply (code_ok_impl (fun _ _ => False)); [contradiction | exact H]. Qed.
End Reads.
