(* The linear system of the Lagrangian: the solver on expressions. *)
From Coq Require Import Reals Lra String Bool ZArith NArith Lia List.
From Verif Require Import M_Expr S_Expr P_ExprSem P_Build P_Subs S_Diff P_Adj1 S_Reg P_Reg1 M_Dag M_Taylor M_Var M_Adj M_Mech S_Mech P_Mech1.
Import ListNotations.
Local Open Scope R_scope.
Set Bullet Behavior "Strict Subproofs".

Lemma nth_lset {A} (d : A) : forall l i j x, (i < length l)%nat -> nth j (lset l i x) d = if Nat.eqb j i then x else nth j l d.
Proof.
  induction l as [|a l IH]; intros i j x Hi; cbn in Hi; [lia|]. destruct i as [|i]; destruct j as [|j]; cbn; try reflexivity. rewrite IH by lia. reflexivity.
Qed.
Lemma lset_len {A} : forall (l : list A) i x, length (lset l i x) = length l.
Proof. induction l as [|a l IH]; intros [|i] x; cbn; auto. Qed.
Lemma lset_same {A} (d : A) : forall l i, lset l i (nth i l d) = l.
Proof. induction l as [|a l IH]; intros [|i]; cbn; try reflexivity. now rewrite IH. Qed.
Lemma skipn_nth {A} (d : A) : forall l i, (i < length l)%nat -> skipn i l = nth i l d :: skipn (S i) l.
Proof. induction l as [|a l IH]; intros [|i] H; cbn in *; try lia; [reflexivity|]. apply IH. lia. Qed.
Lemma nth_skipn {A} (d : A) : forall l i j, nth j (skipn i l) d = nth (i + j) l d.
Proof. induction l as [|a l IH]; intros [|i] j; cbn; try reflexivity; [destruct j; reflexivity | apply IH]. Qed.
Lemma nth_firstn {A} (d : A) : forall l i j, (j < i)%nat -> nth j (firstn i l) d = nth j l d.
Proof. induction l as [|a l IH]; intros [|i] [|j] H; cbn; try reflexivity; try lia. apply IH. lia. Qed.
Lemma rsum_seq f : forall k a, rsum (map f (seq a k)) = sumn (a + k) (fun j => if Nat.leb a j then f j else 0).
Proof.
  induction k as [|k IH]; intros a.
  - rewrite Nat.add_0_r. cbn. symmetry. apply sumn_zero. intros i Hi. destruct (Nat.leb_spec a i); [lia | reflexivity].
  - rewrite seq_S, map_app, rsum_app, IH. rewrite Nat.add_succ_r. cbn [sumn map]. destruct (Nat.leb_spec a (a + k)); [|lia]. f_equal. cbn. ring.
Qed.

Lemma Forall2_map_seq {A B} (P : A -> B -> Prop) f g : forall k a, (forall j, (a <= j)%nat -> (j < a + k)%nat -> P (f j) (g j)) -> Forall2 P (map f (seq a k)) (map g (seq a k)).
Proof. induction k as [|k IH]; intros a H; cbn; [constructor|]. constructor; [apply H; lia|]. apply IH. intros j H1 H2. apply H; lia. Qed.

Section Solve.
Context {o : nops} {nval : num o -> R} (L : nlaws o nval) (rho : env).
Local Notation ex := (expr (num o)).
Local Notation rv := (rval (o := o) (nval := nval) rho).

Lemma ex_zero_val (e : ex) v : ex_zero o e = true -> rv e v -> v = 0.
Proof.
  destruct e; try discriminate. cbn. intros Hz [_ Hv]. cbn in Hv. apply some_inj in Hv. subst v. apply (l_isz (l_ring L)) in Hz. exact Hz.
Qed.
Definition shape (n : nat) (m : list (list ex)) : Prop := length m = n /\ forall i, (i < n)%nat -> length (nth i m []) = S n.
Definition vals (n : nat) (m : list (list ex)) (A : nat -> nat -> R) : Prop :=
  shape n m /\ forall i j, (i < n)%nat -> (j <= n)%nat -> rv (cell o m i j) (A i j).
Lemma pivot_here m k i : (i < length m)%nat -> ex_zero o (cell o m i k) = false -> pivot o (skipn i m) k i = i.
Proof. intros Hi Hz. rewrite (skipn_nth [] m i Hi). cbn [pivot]. unfold cell in Hz. now rewrite Hz. Qed.
Lemma swap_same m i : swap_rows o m i i = m.
Proof. unfold swap_rows. rewrite lset_same. apply lset_same. Qed.
Lemma reduce_val n h m A i j : vals n m A -> upper h A -> A h h <> 0 -> (h < n)%nat -> (h < i)%nat -> (i < n)%nat -> (j <= n)%nat ->
  rv (col o (reduce o h (nth h m []) (nth i m [])) j) (rowop h A i j).
Proof.
  intros ((Hl & Hr) & Hv) (U & D) Hd Hh Hi Hin Hj. unfold reduce, col. cbn zeta. rewrite Hr by exact Hin.
  rewrite (nth_indep _ _ ((fun j => if Nat.ltb j h then col o (nth i m []) j else if Nat.eqb j h then dbl o 0 else mk_sub o (col o (nth i m []) j) (mk_mul o (col o (nth h m []) j) (mk_div o (col o (nth i m []) h) (col o (nth h m []) h)))) 0%nat)) by (rewrite map_length, seq_length; lia).
  rewrite (map_nth (fun j => if Nat.ltb j h then col o (nth i m []) j else if Nat.eqb j h then dbl o 0 else mk_sub o (col o (nth i m []) j) (mk_mul o (col o (nth h m []) j) (mk_div o (col o (nth i m []) h) (col o (nth h m []) h))))).
  rewrite seq_nth by lia. cbn [Nat.add]. unfold rowop. destruct (Nat.leb_spec i h); [lia|]. fold (col o (nth i m []) j). fold (cell o m i j) (cell o m h j) (cell o m i h) (cell o m h h).
  pose proof (Hv i j Hin Hj) as V1. pose proof (Hv h j Hh Hj) as V2. pose proof (Hv i h Hin ltac:(lia)) as V3. pose proof (Hv h h Hh ltac:(lia)) as V4.
  destruct (Nat.ltb_spec j h) as [Hjh|Hjh].
  - rewrite (U h j) by lia. replace (A i j - A i h / A h h * 0) with (A i j) by ring. exact V1.
  - destruct (Nat.eqb_spec j h) as [->|Hn].
    + replace (A i h - A i h / A h h * A h h) with (IZR 0) by (cbn; field; exact Hd). apply (rval_dbl L rho 0).
    + rewrite (Rmult_comm (A i h / A h h)). apply (rval_sub L); [exact V1|]. apply (rval_mul L); [exact V2|]. apply (rval_div L); assumption.
Qed.
Lemma elim_ok n : forall nk m h A, vals n m A -> upper h A -> (forall k, (k <= n)%nat -> nonsingular k A) -> (h <= n)%nat -> nk = (S n - h)%nat ->
  exists A', vals n (elim o nk m h h) A' /\ upper n A' /\ forall x, solution n A' x -> solution n A x.
Proof.
  induction nk as [|nk IH]; intros m h A HV HU HN Hh Hk; [lia|]. cbn [elim]. destruct HV as ((Hl & Hr) & Hv) eqn:EV. clear EV. rewrite Hl.
  destruct (Nat.ltb_spec h n) as [Hlt|Hge].
  - assert (Hd : A h h <> 0) by (apply pivot_nonzero; [exact HU | apply HN; lia]).
    assert (Hz : ex_zero o (cell o m h h) = false).
    { destruct (ex_zero o (cell o m h h)) eqn:E; [|reflexivity]. exfalso. apply Hd. apply (ex_zero_val _ _ E). apply Hv; lia. }
    rewrite (pivot_here m h h) by (try exact Hz; lia). destruct (Nat.eqb_spec h n); [lia|]. cbn zeta. rewrite swap_same.
    set (m' := firstn (S h) m ++ map (reduce o h (nth h m [])) (skipn (S h) m)).
    assert (Hn' : forall i, (i < n)%nat -> nth i m' [] = if Nat.leb i h then nth i m [] else reduce o h (nth h m []) (nth i m [])).
    { intros i Hi. unfold m'. assert (Hf : length (firstn (S h) m) = S h) by (rewrite firstn_length; lia). destruct (Nat.leb_spec i h).
      - rewrite app_nth1 by lia. apply nth_firstn. lia.
      - rewrite app_nth2, Hf by lia. rewrite (nth_indep _ [] (reduce o h (nth h m []) [])) by (rewrite map_length, skipn_length; lia). rewrite map_nth, nth_skipn. f_equal. f_equal. lia. }
    assert (HV' : vals n m' (rowop h A)).
    { split; [split|].
      - unfold m'. rewrite app_length, firstn_length, map_length, skipn_length. lia.
      - intros i Hi. rewrite Hn' by exact Hi. destruct (Nat.leb i h); [now apply Hr|]. unfold reduce. rewrite map_length, seq_length. now apply Hr.
      - intros i j Hi Hj. unfold cell. rewrite Hn' by exact Hi. destruct (Nat.leb_spec i h).
        + unfold rowop. destruct (Nat.leb_spec i h); [|lia]. now apply Hv.
        + apply (reduce_val n); auto; lia. }
    destruct (IH m' (S h) (rowop h A) HV' (rowop_upper h A HU Hd) (fun k Hk' => rowop_nonsing h A k (HN k Hk')) ltac:(lia) ltac:(lia)) as (A' & V' & U' & S').
    exists A'. split; [exact V'|]. split; [exact U'|]. intros x Hx. apply (rowop_sol h A n x Hlt). now apply S'.
  - assert (h = n) by lia. subst h. exists A. split; [split; [split|]; assumption|]. split; [exact HU | auto].
Qed.
Definition part_sol (n i : nat) (A : nat -> nat -> R) (x : nat -> R) : Prop :=
  forall r, (i <= r)%nat -> (r < n)%nat -> x r = (A r n - sumn n (fun j => if Nat.ltb r j then A r j * x j else 0)) / A r r.
Definition part_vals (n i : nat) (m : list (list ex)) (A : nat -> nat -> R) (x : nat -> R) : Prop :=
  vals n m (fun r j => if andb (Nat.eqb j n) (Nat.leb i r) then x r else A r j).
Lemma back_ok n A : upper n A -> forall i m x, (i <= n)%nat -> part_vals n i m A x -> part_sol n i A x -> exists x', part_vals n 0 (back_subst o i m) A x' /\ part_sol n 0 A x'.
Proof.
  intros (U & D). induction i as [|i IH]; intros m x Hi HV HS; [now exists x|]. cbn [back_subst]. destruct HV as ((Hl & Hr) & Hv). rewrite Hl. cbn zeta.
  set (x' := fun r => if Nat.eqb r i then (A i n - sumn n (fun j => if Nat.ltb i j then A i j * x j else 0)) / A i i else x r).
  assert (Hc : forall r j, (r < n)%nat -> (j < n)%nat -> rv (cell o m r j) (A r j)).
  { intros r j H1 H2. pose proof (Hv r j H1 ltac:(lia)) as K. cbn beta in K. destruct (Nat.eqb_spec j n); [lia|]. exact K. }
  assert (Hx : forall j, (i < j)%nat -> (j < n)%nat -> rv (cell o m j n) (x j)).
  { intros j H1 H2. pose proof (Hv j n H2 ltac:(lia)) as K. cbn beta in K. rewrite Nat.eqb_refl in K. destruct (Nat.leb_spec (S i) j); [exact K | lia]. }
  assert (Hb : rv (cell o m i n) (A i n)).
  { pose proof (Hv i n ltac:(lia) ltac:(lia)) as K. cbn beta in K. rewrite Nat.eqb_refl in K. destruct (Nat.leb_spec (S i) i); [lia|]. exact K. }
  set (rhs := mk_sum o (cell o m i n :: map (fun j => mk_mul o (mk_neg o (cell o m i j)) (cell o m j n)) (seq (S i) (n - S i)))).
  assert (Hrhs : rv (mk_div o rhs (cell o m i i)) (x' i)).
  { unfold x'. rewrite Nat.eqb_refl. apply (rval_div L); [|apply Hc; lia | apply D; lia].
    replace (A i n - sumn n (fun j => if Nat.ltb i j then A i j * x j else 0)) with (rsum (A i n :: map (fun j => - A i j * x j) (seq (S i) (n - S i)))).
    - apply (rval_sum L). constructor; [exact Hb|]. apply Forall2_map_seq. intros j H1 H2. apply (rval_mul L); [apply (rval_neg L); apply Hc; lia | apply Hx; lia].
    - cbn [rsum fold_right]. fold (rsum (map (fun j => - A i j * x j) (seq (S i) (n - S i)))). rewrite rsum_seq. replace (S i + (n - S i))%nat with n by lia.
      rewrite (sumn_ext n _ (fun j => -1 * (if Nat.ltb i j then A i j * x j else 0))); [rewrite sumn_scal; ring|]. intros j _. change (Nat.ltb i j) with (Nat.leb (S i) j). destruct (Nat.leb (S i) j); ring. }
  apply (IH _ x').
  - lia.
  - split; [split|].
    + now rewrite lset_len.
    + intros r H. rewrite nth_lset by lia. destruct (Nat.eqb r i); [rewrite lset_len; apply Hr; lia | now apply Hr].
    + intros r j H1 H2. unfold cell. rewrite nth_lset by lia. destruct (Nat.eqb_spec r i) as [->|Hn].
      * unfold col. rewrite nth_lset by (rewrite Hr; lia). destruct (Nat.eqb_spec j n) as [->|Hjn]; cbn [andb].
        -- rewrite (Nat.leb_refl i). exact Hrhs.
        -- apply Hc; lia.
      * destruct (Nat.eqb_spec j n) as [->|Hjn]; cbn [andb]; [|apply Hc; lia]. destruct (Nat.leb_spec i r).
        -- unfold x'. destruct (Nat.eqb_spec r i); [lia|]. apply Hx; lia.
        -- pose proof (Hv r n H1 ltac:(lia)) as K. cbn beta in K. rewrite Nat.eqb_refl in K. destruct (Nat.leb_spec (S i) r); [lia|]. exact K.
  - assert (Ex : forall r, (i <= r)%nat -> sumn n (fun j => if Nat.ltb r j then A r j * x' j else 0) = sumn n (fun j => if Nat.ltb r j then A r j * x j else 0)).
    { intros r Hr'. apply sumn_ext. intros j _. destruct (Nat.ltb_spec r j); [|reflexivity]. unfold x'. destruct (Nat.eqb_spec j i); [lia | reflexivity]. }
    intros r H1 H2. rewrite (Ex r H1). unfold x'. destruct (Nat.eqb_spec r i) as [->|Hn]; [reflexivity|]. apply HS; lia.
Qed.
Theorem solve_ok n m A : (0 < n)%nat -> vals n m A -> (forall k, (k <= n)%nat -> nonsingular k A) ->
  exists x, solution n A x /\ forall i, (i < n)%nat -> rv (cell o (solve_linmat o m) i n) (x i).
Proof.
  intros Hn HV HN. unfold solve_linmat. destruct HV as ((Hl & Hr) & Hv) eqn:EV. rewrite (Hr 0%nat Hn), Hl.
  destruct (elim_ok n (S n) m 0 A HV) as (A' & V' & U' & S'); [split; intros; lia | exact HN | lia | lia|].
  destruct (back_ok n A' U' n (elim o (S n) m 0 0) (fun _ => 0)) as (x & (Hx & Hy) & HS); [lia | | intros r ? ?; lia |].
  - destruct V' as (Sh & V'). split; [exact Sh|]. intros i j H1 H2. destruct (Nat.leb_spec n i); [lia|]. rewrite andb_false_r. now apply V'.
  - exists x. split; [apply S', tri_sol; [exact U' | intros i Hi; apply HS; lia]|]. intros i Hi. pose proof (Hy i n Hi (le_n _)) as K. cbn beta in K. rewrite Nat.eqb_refl in K. exact K.
Qed.
End Solve.
