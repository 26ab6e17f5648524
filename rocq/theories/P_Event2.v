(* The operations on polynomials, in exact arithmetic. *)
From Coq Require Import Reals Lra Lia List ZArith Bool.
From Verif Require Import M_Float M_Step M_Event S_Event P_Event1.
Import ListNotations.
Local Open Scope R_scope.
Set Bullet Behavior "Strict Subproofs".

(* --- Derivatives of polynomials ---------------------------------------------------- *)
Fixpoint pder (a : list R) (x : R) : R := match a with [] => 0 | c :: r => peval r x + x * pder r x end.
Lemma pder_lim : forall a x, derivable_pt_lim (peval a) x (pder a x).
Proof.
  induction a as [|c r IH]; intros x; cbn.
  - apply (derivable_pt_lim_const 0).
  - replace (peval r x + x * pder r x) with (0 + (1 * peval r x + x * pder r x)) by ring.
    apply (derivable_pt_lim_plus (fun _ => c) (fun x => x * peval r x)); [apply derivable_pt_lim_const|].
    apply (derivable_pt_lim_mult (fun x => x) (peval r)); [apply derivable_pt_lim_id|apply IH].
Qed.
Fixpoint dlist (k : nat) (a : list R) : list R := match a with [] => [] | c :: r => c * INR k :: dlist (S k) r end.
Lemma dlist_eval : forall a k x, peval (dlist k a) x = INR k * peval a x + x * pder a x.
Proof. induction a as [|c r IH]; intros k x; cbn [dlist peval pder]; [ring|]. rewrite IH, S_INR. ring. Qed.
Lemma dlist_length : forall a k, length (dlist k a) = length a.
Proof. induction a; intros; cbn; auto. Qed.
Lemma dlist_nth : forall a k i, nth i (dlist k a) 0 = nth i a 0 * INR (k + i).
Proof.
  induction a as [|c r IH]; intros k [|i]; cbn [dlist nth]; try (rewrite Nat.add_0_r); try ring.
  rewrite IH. rewrite Nat.add_succ_r, Nat.add_succ_l. ring.
Qed.
Lemma pder_tl a x : pder a x = peval (tl (dlist 0 a)) x.
Proof. destruct a as [|c r]; cbn [dlist tl pder]; [reflexivity|]. rewrite dlist_eval. cbn [INR]. ring. Qed.

Lemma skipn_nth_cons {A} (d : A) : forall l i, (i < length l)%nat -> skipn i l = nth i l d :: skipn (S i) l.
Proof. induction l as [|x l IH]; intros [|i] H; cbn in *; try lia; auto. rewrite <- IH; auto; lia. Qed.
Lemma set_nth_length {A} : forall (l : list A) i v, length (set_nth l i v) = length l.
Proof. induction l; intros [|i] v; cbn; auto. Qed.
Lemma set_nth_map {A B} (f : A -> B) : forall l i v, map f (set_nth l i v) = set_nth (map f l) i (f v).
Proof. induction l; intros [|i] v; cbn; auto. rewrite IHl; auto. Qed.
Lemma set_nth_Forall {A} (P : A -> Prop) : forall l i v, Forall P l -> P v -> Forall P (set_nth l i v).
Proof. induction l; intros [|i] v H Hv; cbn; inversion H; subst; constructor; auto. Qed.

Section Exact.
Context {o : fops} (L : flaws o) (X : exact_laws L) (e : eops o) (EL : elaws L e).
Notation F := (F o).
Notation val := (fval L).
Notation vals := (vals L).
Notation zero := (f0 o).
Local Notation get a i := (nth i a zero).

Definition is_num (x : F) (v : R) : Prop := ffin o x = true /\ val x = v.
Lemma num_mul x y u v : is_num x u -> is_num y v -> is_num (e_mul e x y) (u * v).
Proof. intros [A <-] [B <-]. apply (el_mul L e EL); auto. Qed.
Lemma num_add x y u v : is_num x u -> is_num y v -> is_num (fadd o x y) (u + v).
Proof. intros [A <-] [B <-]. apply (ex_add L X); auto. Qed.
Lemma num_sub x y u v : is_num x u -> is_num y v -> is_num (fsub o x y) (u - v).
Proof. intros [A <-] [B <-]. apply (ex_sub L X); auto. Qed.
Lemma num_div x y u v : is_num x u -> is_num y v -> v <> 0 -> is_num (e_div e x y) (u / v).
Proof. intros [A <-] [B <-] C. apply (el_div L e EL); auto. Qed.
Lemma num_nat n : is_num (e_nat e n) (INR n).
Proof. apply (el_nat L e EL). Qed.
Lemma num_0 : is_num zero 0.
Proof. apply (fl_0 o L). Qed.
Lemma num_1 : is_num (e_nat e 1) 1.
Proof. apply num_nat. Qed.
Lemma num_2 : is_num (e_nat e 2) 2.
Proof. replace 2 with (INR 2) by (cbn; lra). apply num_nat. Qed.
Lemma num_bin n k : (k <= n)%nat -> is_num (e_bin e n k) (C n k).
Proof. apply (el_bin L e EL). Qed.
Lemma num_self x : ffin o x = true -> is_num x (val x).
Proof. split; auto. Qed.
Lemma num_get a i : finite a -> is_num (get a i) (nth i (vals a) 0).
Proof.
  intros H. unfold S_Event.vals. revert i. induction H as [|x l Hx Hl IH]; intros [|i]; cbn; auto using num_0. split; auto.
Qed.

(* --- Evaluation --------------------------------------------------------------------- *)
Lemma eval_loop a x v n : finite a -> length a = S n -> is_num x v ->
  forall m i ret, (i + m = S n)%nat -> (0 < i)%nat -> is_num ret (peval (skipn (S n - i) (vals a)) v) ->
  is_num (fold_left (fun ret i => fadd o (get a (n - i)) (e_mul e ret x)) (seq i m) ret) (peval (vals a) v).
Proof.
  intros Ha Hl Hx. induction m as [|m IH]; intros i ret Hi H0 Hr; cbn [seq fold_left].
  - replace (S n - i)%nat with 0%nat in Hr by lia. exact Hr.
  - apply IH; [lia|lia|]. replace (S n - S i)%nat with (n - i)%nat by lia.
    rewrite (skipn_nth_cons 0) by (unfold S_Event.vals; rewrite map_length; lia). cbn [peval].
    replace (S (n - i)) with (S n - i)%nat by lia.
    apply num_add; [apply num_get; auto|]. rewrite Rmult_comm. apply num_mul; auto.
Qed.
Lemma poly_eval_num a n x v : finite a -> length a = S n -> is_num x v ->
  is_num (poly_eval o e a x n) (peval (vals a) v).
Proof.
  intros Ha Hl Hx. apply (eval_loop a x v n); auto; try lia.
  replace (S n - 1)%nat with n by lia. rewrite (skipn_nth_cons 0) by (unfold S_Event.vals; rewrite map_length; lia).
  rewrite skipn_all2 by (unfold S_Event.vals; rewrite map_length; lia). cbn [peval].
  replace (nth n (vals a) 0 + v * 0) with (nth n (vals a) 0) by ring. apply num_get; auto.
Qed.
Lemma eval1_loop a x v n : finite a -> length a = S n -> is_num x v ->
  forall m i ret, (i + m = n)%nat -> (0 < i)%nat -> is_num ret (peval (skipn (S n - i) (dlist 0 (vals a))) v) ->
  is_num (fold_left (fun ret i => fadd o (e_mul e (get a (n - i)) (e_nat e (n - i))) (e_mul e ret x)) (seq i m) ret)
    (pder (vals a) v).
Proof.
  intros Ha Hl Hx. induction m as [|m IH]; intros i ret Hi H0 Hr; cbn [seq fold_left].
  - replace (S n - i)%nat with 1%nat in Hr by lia. rewrite pder_tl. destruct (dlist 0 (vals a)); exact Hr.
  - apply IH; [lia|lia|]. replace (S n - S i)%nat with (n - i)%nat by lia.
    rewrite (skipn_nth_cons 0) by (rewrite dlist_length; unfold S_Event.vals; rewrite map_length; lia). cbn [peval].
    replace (S (n - i)) with (S n - i)%nat by lia. rewrite dlist_nth, Nat.add_0_l.
    apply num_add; [apply num_mul; [apply num_get; auto|apply num_nat]|]. rewrite Rmult_comm. apply num_mul; auto.
Qed.
Lemma poly_eval_1_num a n x v : finite a -> length a = S n -> (0 < n)%nat -> is_num x v ->
  is_num (poly_eval_1 o e a x n) (pder (vals a) v).
Proof.
  intros Ha Hl Hn Hx. apply (eval1_loop a x v n); auto; try lia.
  replace (S n - 1)%nat with n by lia.
  rewrite (skipn_nth_cons 0) by (rewrite dlist_length; unfold S_Event.vals; rewrite map_length; lia).
  rewrite skipn_all2 by (rewrite dlist_length; unfold S_Event.vals; rewrite map_length; lia). cbn [peval].
  rewrite dlist_nth, Nat.add_0_l.
  replace (nth n (vals a) 0 * INR n + v * 0) with (nth n (vals a) 0 * INR n) by ring.
  apply num_mul; [apply num_get; auto|apply num_nat].
Qed.

(* --- Rescaling ----------------------------------------------------------------------- *)
Lemma rescale_from_num scal s : is_num scal s -> forall a cur c, finite a -> is_num cur c ->
  finite (rescale_from o e cur scal a) /\ length (rescale_from o e cur scal a) = length a /\
  forall x, peval (vals (rescale_from o e cur scal a)) x = c * peval (vals a) (s * x).
Proof.
  intros Hs. induction a as [|v a IH]; intros cur c Ha Hc; cbn [rescale_from].
  - split; [constructor|]. split; [auto|]. intros x. cbn. ring.
  - inversion Ha; subst. destruct (IH (e_mul e cur scal) (c * s) H2 (num_mul _ _ _ _ Hc Hs)) as [A [B D]].
    destruct (num_mul v cur (val v) c (num_self _ H1) Hc) as [E1 E2].
    split; [constructor; auto|]. split; [cbn; auto|]. intros x. cbn [S_Event.vals map peval].
    change (map val (rescale_from o e (e_mul e cur scal) scal a)) with (vals (rescale_from o e (e_mul e cur scal) scal a)).
    rewrite D, E2. change (map val a) with (vals a). ring.
Qed.
Lemma poly_rescale_num a scal s : finite a -> is_num scal s ->
  finite (poly_rescale o e a scal) /\ length (poly_rescale o e a scal) = length a /\
  forall x, peval (vals (poly_rescale o e a scal)) x = peval (vals a) (s * x).
Proof.
  intros Ha Hs. destruct (rescale_from_num scal s Hs a _ _ Ha num_1) as [A [B D]].
  split; [exact A|]. split; [exact B|]. intros x. unfold poly_rescale. rewrite D. ring.
Qed.
Lemma vals_rev a : vals (rev a) = rev (vals a).
Proof. unfold S_Event.vals. apply map_rev. Qed.
Lemma vals_app a b : vals (a ++ b) = vals a ++ vals b.
Proof. unfold S_Event.vals. apply map_app. Qed.
Lemma vals_length a : length (vals a) = length a.
Proof. unfold S_Event.vals. apply map_length. Qed.
Lemma finite_rev (a : list F) : finite a -> finite (rev a).
Proof. unfold finite. apply Forall_rev. Qed.
Lemma p2_from_num : forall a cur c, finite a -> is_num cur c ->
  finite (p2_from o e cur a) /\ length (p2_from o e cur a) = length a /\
  forall x, 2 * peval (rev (vals (p2_from o e cur a))) x = c * 2 ^ length a * peval (rev (vals a)) (x / 2).
Proof.
  induction a as [|v a IH]; intros cur c Ha Hc; cbn [p2_from].
  - split; [constructor|]. split; [auto|]. intros x. cbn. ring.
  - inversion Ha; subst. destruct (IH (e_mul e cur (e_nat e 2)) (c * 2) H2 (num_mul _ _ _ _ Hc num_2)) as [A [B D]].
    destruct (num_mul cur v c (val v) Hc (num_self _ H1)) as [E1 E2].
    split; [constructor; auto|]. split; [cbn; auto|]. intros x. cbn [S_Event.vals map rev length].
    change (map val (p2_from o e (e_mul e cur (e_nat e 2)) a)) with (vals (p2_from o e (e_mul e cur (e_nat e 2)) a)).
    change (map val a) with (vals a).
    rewrite !peval_app, Rmult_plus_distr_l, D, E2, !rev_length, !vals_length, B. cbn [peval pow].
    unfold Rdiv at 3. rewrite Rpow_mult_distr, pow_inv.
    assert (2 ^ length a <> 0) by (apply pow_nonzero; lra). field; auto.
Qed.
Lemma poly_rescale_p2_num a n : finite a -> length a = S n ->
  finite (poly_rescale_p2 o e a) /\ length (poly_rescale_p2 o e a) = S n /\
  forall x, peval (vals (poly_rescale_p2 o e a)) x = 2 ^ n * peval (vals a) (x / 2).
Proof.
  intros Ha Hl. destruct (p2_from_num (rev a) _ _ (finite_rev _ Ha) num_1) as [A [B D]]. unfold poly_rescale_p2.
  split; [apply finite_rev; auto|]. split; [rewrite rev_length, B, rev_length; auto|].
  intros x. specialize (D x). rewrite vals_rev. rewrite rev_length, Hl, vals_rev, rev_involutive in D. cbn [pow] in D. lra.
Qed.

(* --- Translation ----------------------------------------------------------------------- *)
Lemma binom_1 i y : sum_f_R0 (fun k => C i k * y ^ k) i = (1 + y) ^ i.
Proof. rewrite Rplus_comm, binomial. apply sum_eq. intros k Hk. rewrite pow1. ring. Qed.
Lemma translate_inner a i c : is_num (get a i) c -> forall m j out, (j + m = i + 1)%nat -> (i < length out)%nat -> finite out ->
  let out' := fold_left (fun out k => set_nth out k (fadd o (get out k) (e_mul e (get a i) (e_bin e i k)))) (seq j m) out in
  finite out' /\ length out' = length out /\
  forall y, peval (vals out') y = peval (vals out) y + c * (sum_f_R0 (fun k => C i k * y ^ k) i -
    match j with O => 0 | S j' => sum_f_R0 (fun k => C i k * y ^ k) j' end).
Proof.
  intros Hc. induction m as [|m IH]; intros j out Hj Hi Hf out'.
  - unfold out'. cbn [seq fold_left]. split; [auto|]. split; [auto|]. intros y. destruct j as [|j]; [lia|].
    replace j with i by lia. ring.
  - unfold out'. cbn [seq fold_left].
    assert (N : is_num (fadd o (get out j) (e_mul e (get a i) (e_bin e i j))) (nth j (vals out) 0 + c * C i j)).
    { apply num_add; [apply num_get; auto|]. apply num_mul; auto. apply num_bin. lia. }
    destruct (IH (S j) (set_nth out j (fadd o (get out j) (e_mul e (get a i) (e_bin e i j))))) as [A [B D]]; [lia|rewrite set_nth_length; auto| |].
    { apply set_nth_Forall; auto. apply N. }
    split; [exact A|]. split; [rewrite B, set_nth_length; auto|]. intros y. rewrite D.
    unfold S_Event.vals at 1. rewrite set_nth_map, (proj2 N). change (map val out) with (vals out).
    rewrite peval_set by (rewrite vals_length; lia).
    destruct j as [|j]; cbn [sum_f_R0]; ring.
Qed.
Lemma translate_outer a n : finite a -> length a = S n -> forall m i out, (i + m = S n)%nat -> length out = S n -> finite out ->
  let out' := fold_left (fun out i => fold_left (fun out k => set_nth out k (fadd o (get out k) (e_mul e (get a i) (e_bin e i k)))) (seq 0 (i + 1)) out) (seq i m) out in
  finite out' /\ length out' = S n /\
  forall y, peval (vals out') y = peval (vals out) y + (1 + y) ^ i * peval (skipn i (vals a)) (1 + y).
Proof.
  intros Ha Hl. induction m as [|m IH]; intros i out Hi Ho Hf out'.
  - unfold out'. cbn [seq fold_left]. split; [auto|]. split; [auto|]. intros y. rewrite skipn_all2 by (rewrite vals_length; lia). cbn. ring.
  - unfold out'. cbn [seq fold_left].
    destruct (translate_inner a i (nth i (vals a) 0) (num_get a i Ha) (i + 1) 0 out) as [A [B D]]; [lia|lia|auto|].
    destruct (IH (S i) _ ltac:(lia) ltac:(rewrite B; exact Ho) A) as [A' [B' D']].
    split; [exact A'|]. split; [exact B'|]. intros y. rewrite D', D, binom_1.
    rewrite (skipn_nth_cons 0 (vals a) i) by (rewrite vals_length; lia). cbn [peval pow]. ring.
Qed.
Lemma finite_zeros n : finite (repeat zero n).
Proof. unfold finite. apply Forall_forall. intros x H. apply repeat_spec in H. subst. apply num_0. Qed.
Lemma vals_zeros n y : peval (vals (repeat zero n)) y = 0.
Proof. induction n; cbn; auto. change (map val (repeat zero n)) with (vals (repeat zero n)). rewrite IHn, (proj2 num_0). ring. Qed.
Lemma poly_translate_num a n : finite a -> length a = S n ->
  finite (poly_translate_1 o e a n) /\ length (poly_translate_1 o e a n) = S n /\
  forall y, peval (vals (poly_translate_1 o e a n)) y = peval (vals a) (1 + y).
Proof.
  intros Ha Hl. unfold poly_translate_1.
  destruct (translate_outer a n Ha Hl (n + 1) 0 (repeat zero (n + 1)) ltac:(lia) ltac:(rewrite repeat_length; lia) (finite_zeros _)) as [A [B D]].
  split; [exact A|]. split; [exact B|]. intros y. rewrite D, vals_zeros. cbn [pow skipn]. ring.
Qed.

(* --- Signs --------------------------------------------------------------------------------- *)
Lemma sgn_spec x v : is_num x v -> is_sign v (sgn o x).
Proof.
  intros [A <-]. unfold sgn. pose proof (fl_lt o L zero x (proj1 num_0) A) as P. pose proof (fl_lt o L x zero A (proj1 num_0)) as Q.
  rewrite (proj2 num_0) in *.
  destruct (flt o zero x), (flt o x zero); cbn.
  - destruct P as [P _], Q as [Q _]. specialize (P eq_refl). specialize (Q eq_refl). lra.
  - left. split; auto. apply P; auto.
  - right; right. split; auto. apply Q; auto.
  - right; left. split; auto. destruct (Rtotal_order (val x) 0) as [K|[K|K]]; auto.
    + apply Q in K; discriminate.
    + apply P in K; discriminate.
Qed.
Lemma csc_loop cf : finite cf -> forall m j last ret, (j + m = length cf)%nat ->
  snd (fold_left (fun (s : nat * nat) cur_n => let '(last, ret) := s in
    let cur_sgn := sgn o (get cf cur_n) in
    let last_nz_sgn := sgn o (get cf last) in
    let cmp := if Z.eqb last_nz_sgn 0 then false else Z.eqb (cur_sgn + last_nz_sgn) 0 in
    (if Z.eqb cur_sgn 0 then last else cur_n, (ret + (if cmp then 1 else 0))%nat)) (seq j m) (last, ret)) =
  (ret + schanges (nth last (vals cf) 0%R) (skipn j (vals cf)))%nat.
Proof.
  intros Hf. induction m as [|m IH]; intros j last ret Hj; cbn [seq fold_left].
  - rewrite skipn_all2 by (rewrite vals_length; lia). cbn. lia.
  - rewrite (skipn_nth_cons 0) by (rewrite vals_length; lia). cbn [schanges].
    pose proof (sgn_spec _ _ (num_get cf j Hf)) as S1. pose proof (sgn_spec _ _ (num_get cf last Hf)) as S2.
    set (cj := nth j (vals cf) 0) in *. set (cl := nth last (vals cf) 0) in *.
    destruct (Req_EM_T cj 0) as [E|E].
    + assert (Z0 : sgn o (get cf j) = 0%Z) by (destruct S1 as [[? ?]|[[? ?]|[? ?]]]; auto; lra).
      rewrite Z0. cbn [Z.eqb]. rewrite IH by lia. fold cl. rewrite Z.add_0_l.
      destruct (Z.eqb (sgn o (get cf last)) 0); lia.
    + assert (Z0 : Z.eqb (sgn o (get cf j)) 0 = false) by (destruct S1 as [[-> ?]|[[? ?]|[-> ?]]]; auto; lra).
      rewrite Z0. rewrite IH by lia. fold cj.
      destruct (Rlt_dec (cl * cj) 0) as [K|K].
      * assert (Q : (if Z.eqb (sgn o (get cf last)) 0 then false else Z.eqb (sgn o (get cf j) + sgn o (get cf last)) 0) = true).
        { destruct S1 as [[-> ?]|[[-> ?]|[-> ?]]], S2 as [[-> ?]|[[-> ?]|[-> ?]]]; cbn; auto; nra. }
        rewrite Q. lia.
      * assert (Q : (if Z.eqb (sgn o (get cf last)) 0 then false else Z.eqb (sgn o (get cf j) + sgn o (get cf last)) 0) = false).
        { destruct S1 as [[-> ?]|[[-> ?]|[-> ?]]], S2 as [[-> ?]|[[-> ?]|[-> ?]]]; cbn; auto; exfalso; apply K; nra. }
        rewrite Q. lia.
Qed.
Lemma csc_spec cf n : finite cf -> length cf = S n -> csc o cf n = schanges 0 (vals cf).
Proof.
  intros Hf Hl. unfold csc. etransitivity; [exact (csc_loop cf Hf n 1 0 0 ltac:(lia))|]. rewrite Nat.add_0_l.
  destruct cf as [|c r]; [discriminate|]. cbn [S_Event.vals map nth skipn schanges].
  destruct (Req_EM_T (val c) 0) as [->|E]; auto. replace (0 * val c) with 0 by ring. destruct (Rlt_dec 0 0); [lra|auto].
Qed.
(* The polynomial whose sign changes are counted. *)
Lemma rtscc_spec q n : finite q -> length q = S n -> exists Q, length Q = S n /\
  poly_rtscc o e q n = schanges 0 Q /\
  forall x, 0 < x < 1 -> peval (vals q) x = x ^ n * peval Q (/ x - 1).
Proof.
  intros Hf Hl. unfold poly_rtscc.
  destruct (poly_translate_num (rev q) n (finite_rev _ Hf) ltac:(rewrite rev_length; auto)) as [A [B D]].
  exists (vals (poly_translate_1 o e (rev q) n)). split; [rewrite vals_length; auto|].
  split; [apply csc_spec; auto|]. intros x Hx. rewrite D. replace (1 + (/ x - 1)) with (/ x) by ring.
  rewrite vals_rev. pose proof (peval_rev (vals q) (/ x) ltac:(apply Rinv_neq_0_compat; lra)) as K.
  rewrite vals_length, Hl, Rinv_inv in K. cbn [pow] in K.
  assert (P : 0 < / x) by (apply Rinv_0_lt_compat; lra).
  assert (K2 : peval (rev (vals q)) (/ x) = (/ x) ^ n * peval (vals q) x).
  { apply (Rmult_eq_reg_l (/ x)); [rewrite K; ring|lra]. }
  rewrite K2, <- Rmult_assoc, <- Rpow_mult_distr, Rinv_r, pow1 by lra. ring.
Qed.
End Exact.
