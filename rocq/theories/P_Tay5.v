(* Default mode and compact mode compute the same values, with real numbers. *)
From Coq Require Import Reals.
From Coquelicot Require Import Coquelicot.
From Coq Require Import String Bool ZArith ZifyNat Arith List Lia Lra.
From Verif Require Import M_Expr M_Dag M_Dec S_Expr S_Dec P_Dec M_Taylor S_Taylor P_Tay1 P_Tay2.
Import ListNotations.
Local Open Scope R_scope.
Set Bullet Behavior "Strict Subproofs".
Local Opaque Nat.div.
Ltac Zify.zify_post_hook ::= Z.to_euclidean_division_equations.

Definition osum (l : list (option R)) : option R := fold_right (oap2 Rplus) (Some 0) l.
Lemma oadd_assoc a b c : oap2 Rplus a (oap2 Rplus b c) = oap2 Rplus (oap2 Rplus a b) c.
Proof. destruct a, b, c; cbn; auto. f_equal. ring. Qed.
Lemma oadd_0 a : oap2 Rplus a (Some 0) = a.
Proof. destruct a; cbn; auto. f_equal. ring. Qed.
Lemma oadd_0l a : oap2 Rplus (Some 0) a = a.
Proof. destruct a; cbn; auto. f_equal. ring. Qed.
Lemma osum_pair_up : forall l, osum (pair_up real_tops l) = osum l.
Proof.
  assert (G : forall n l, (length l <= n)%nat -> osum (pair_up real_tops l) = osum l).
  { induction n as [|n IH]; intros l Hl; [destruct l; [reflexivity | cbn in Hl; lia]|].
    destruct l as [|a [|b r]]; [reflexivity..|]. cbn [pair_up length osum fold_right] in *. fold (osum (pair_up real_tops r)).
    rewrite IH by lia. cbn [real_tops t_add]. fold (osum r). now rewrite oadd_assoc. }
  intros l. now apply (G (length l)).
Qed.
Lemma pairwise_osum : forall fuel l v, pairwise real_tops fuel l = MDone v -> v = osum l.
Proof.
  induction fuel as [|k IH]; intros l v H.
  - destruct l as [|a [|b r]]; try discriminate. cbn in H. injection H as <-. cbn. now rewrite oadd_0.
  - destruct l as [|a [|b r]]; try discriminate; [cbn in H; injection H as <-; cbn; now rewrite oadd_0|].
    change (pairwise real_tops (S k) (a :: b :: r)) with (pairwise real_tops k (pair_up real_tops (a :: b :: r))) in H.
    apply IH in H. now rewrite osum_pair_up in H.
Qed.
Lemma pairv_osum l : pairv real_tops l = osum l.
Proof.
  destruct l as [|a r]; [reflexivity|]. apply (pairwise_osum (length (a :: r))). apply pairwise_pairv. discriminate.
Qed.
Lemma loopv_osum g : forall k j acc, loopv real_tops k j acc g = oap2 Rplus acc (osum (map g (seq j k))).
Proof.
  induction k as [|k IH]; intros j acc; [cbn; now rewrite oadd_0|]. cbn [loopv seq map osum fold_right]. rewrite IH.
  cbn [real_tops t_add]. now rewrite oadd_assoc.
Qed.
(* Sums over lo, ..., lo + k - 1. *)
Definition bs (lo k : nat) (g : nat -> option R) : option R := osum (map g (seq lo k)).
Lemma bs_ext lo k g h : (forall j, (lo <= j < lo + k)%nat -> g j = h j) -> bs lo k g = bs lo k h.
Proof. intros H. unfold bs. f_equal. apply map_ext_in. intros j Hj. apply in_seq in Hj. now apply H. Qed.
Lemma bs_neg lo k g : bs lo k (fun j => oap1 Ropp (g j)) = oap1 Ropp (bs lo k g).
Proof.
  unfold bs. induction (seq lo k) as [|a l IH]; [cbn; f_equal; ring|].
  change (oap2 Rplus (oap1 Ropp (g a)) (osum (map (fun j => oap1 Ropp (g j)) l)) = oap1 Ropp (oap2 Rplus (g a) (osum (map g l)))). rewrite IH.
  destruct (g a), (osum (map g l)); cbn; auto. f_equal. ring.
Qed.
Lemma bs_0 lo g : bs lo 0 g = Some 0.
Proof. reflexivity. Qed.
Lemma odiv_eq x x' y y' : x = x' -> y = y' -> odiv (Some x) (Some y) = odiv (Some x') (Some y').
Proof. congruence. Qed.
Lemma odiv_opp x y : odiv (Some x) (Some (- y)) = oap1 Ropp (odiv (Some x) (Some y)).
Proof.
  cbn. unfold guard. destruct (nz_dec y) as [H|H], (nz_dec (- y)) as [H'|H']; cbn; auto; try (exfalso; lra).
  f_equal. field. exact H.
Qed.

Section Values.
Context {o : nops} (A : alg (num o) (option R)) (rd : nat -> nat -> option R).
Local Notation ex := (expr (num o)).
Local Notation code := (tex (num o)).
Local Notation tv := (tval A real_tops rd).

Lemma tv_psum lo hi f : tv (psum o lo hi f) = bs lo (S hi - lo) (fun j => tv (f j)).
Proof. cbn [psum tval]. rewrite pairv_osum, map_map. reflexivity. Qed.
Lemma tv_loop lo hi f : tv (TLoop lo hi f) = bs lo (hi - lo) (fun j => tv (f j)).
Proof. cbn [tval]. rewrite loopv_osum. cbn [real_tops t_nat INR]. apply oadd_0l. Qed.
Lemma tv_psumlist l : tv (TPSum l) = osum (map tv l).
Proof. cbn [tval]. apply pairv_osum. Qed.
Lemma tv_add a b : tv (TAdd a b) = oap2 Rplus (tv a) (tv b). Proof. reflexivity. Qed.
Lemma tv_sub a b : tv (TSub a b) = oap2 Rminus (tv a) (tv b). Proof. reflexivity. Qed.
Lemma tv_mul a b : tv (TMul a b) = oap2 Rmult (tv a) (tv b). Proof. reflexivity. Qed.
Lemma tv_div a b : tv (TDiv a b) = odiv (tv a) (tv b). Proof. reflexivity. Qed.
Lemma tv_neg a : tv (TNeg a) = oap1 Ropp (tv a). Proof. reflexivity. Qed.
Lemma tv_nat n : tv (TNat n) = Some (INR n). Proof. reflexivity. Qed.
Lemma tv_hsp : tv THsp = Some (sqrt PI / 2). Proof. reflexivity. Qed.
Lemma tv_ld m j : tv (ld o m j) = rd m j. Proof. reflexivity. Qed.
Lemma tv_TLd m j : tv (TLd m j) = rd m j. Proof. reflexivity. Qed.
Lemma tv_fac j c : tv (fac o j c) = oap2 Rmult (Some (INR j)) (tv c). Proof. reflexivity. Qed.
Lemma tv_zero : tv (zero o) = Some 0. Proof. reflexivity. Qed.

Lemma geq x x' y y' : x = x' -> y = y' -> guard (nz_dec y) (x / y) = guard (nz_dec y') (x' / y').
Proof. intros -> ->. reflexivity. Qed.
Lemma bs_len lo k k' g : k = k' -> bs lo k g = bs lo k' g. Proof. now intros ->. Qed.
Ltac norm :=
  repeat first [ rewrite tv_psum | rewrite tv_loop | rewrite tv_add | rewrite tv_sub | rewrite tv_mul | rewrite tv_div | rewrite tv_neg
               | rewrite tv_nat | rewrite tv_hsp | rewrite tv_ld | rewrite tv_fac | rewrite tv_zero | rewrite tv_psumlist | rewrite tv_TLd ].
(* The same sums on both sides. *)
Ltac match_bs :=
  repeat match goal with
  | |- context [bs ?lo ?k ?g] =>
      match goal with
      | |- context [bs lo ?k' ?h] =>
          first [constr_eq k k'; constr_eq g h; fail 1 |
          let H := fresh in assert (H : bs lo k g = bs lo k' h);
          [rewrite (bs_len lo k k') by lia; apply bs_ext; intros; norm;
           repeat match goal with |- context [rd ?m ?j] => destruct (rd m j) end; cbn [oap1 oap2]; try reflexivity; f_equal; ring
          | rewrite H; clear H]]
      end
  end.
Ltac dst := repeat match goal with
  | |- context [bs ?a ?b ?g] => destruct (bs a b g)
  | |- context [rd ?m ?j] => destruct (rd m j)
  | |- context [tval A real_tops rd ?c] => is_var c; destruct (tval A real_tops rd c) end.
Ltac done_ := cbn [oap1 oap2 odiv]; try reflexivity; first [f_equal; ring | apply geq; ring].
Ltac go := norm; match_bs; dst; done_.
Ltac osome := repeat match goal with H : Some _ = Some _ |- _ => injection H as <- end.

Lemma INR1 : INR 1 = 1. Proof. reflexivity. Qed.
Lemma t_c_unary u (x : ex) deps n i c c' : t_unary o u x deps n i = Some c -> c_unary o u x deps n i = Some c' -> tv c = tv c'.
Proof.
  intros H H'. destruct deps as [|d [|? ?]], u; cbn [t_unary c_unary dep0 dep1] in *; try discriminate;
    unfold tunary, cunary in *; destruct (resolve o x) as [[b|k]|]; try discriminate; osome; try reflexivity;
    destruct (Nat.eqb_spec n 0); try reflexivity.
  all: unfold d_exp, c_exp, d_log, c_log, d_trig, c_trig, d_cos, c_cos, d_tan, c_tan, d_tanh, c_tanh, d_sigmoid, c_sigmoid,
         d_asin, c_asin, d_acos, c_acos, d_atan, c_atan, d_atanh, c_atanh, d_erf, c_erf.
  all: try match goal with
       | |- context [Nat.ltb 1 ?m] => destruct (Nat.ltb_spec 1 m); [|assert (m = 1%nat) by lia; subst m]
       | |- context [Nat.eqb ?m 1] => destruct (Nat.eqb_spec m 1); [subst m|]
       end.
  all: norm; rewrite ?bs_0, ?INR1; try solve [go].
  dst; cbn [oap1 oap2]; try reflexivity. rewrite odiv_opp. f_equal. apply odiv_eq; ring.
Qed.
Lemma t_c_prod x y n c c' : t_prod o x y n = Some c -> c_prod o x y n = Some c' -> tv c = tv c'.
Proof.
  intros H H'. unfold t_prod, c_prod in *.
  destruct (resolve o x) as [[a|k]|], (resolve o y) as [[b|k']|]; try discriminate; osome; try reflexivity; try destruct (is_m1 o x); try reflexivity; go.
Qed.
Lemma t_c_sub x y n c c' : t_sub_ o x y n = Some c -> c_sub_ o x y n = Some c' -> tv c = tv c'.
Proof. intros H H'. unfold t_sub_, c_sub_ in *. rewrite H in H'. congruence. Qed.
Lemma t_c_div x y n i c c' : t_div_ o x y n i = Some c -> c_div_ o x y n i = Some c' -> tv c = tv c'.
Proof.
  intros H H'. unfold t_div_, c_div_ in *.
  destruct (resolve o x) as [[a|k]|], (resolve o y) as [[b|k']|]; try discriminate; osome; try reflexivity;
    destruct (Nat.eqb_spec n 0) as [->|Hn]; try reflexivity; cbn [at_ord Nat.eqb]; norm; rewrite ?bs_0; go.
Qed.
Lemma t_c_pow x y n i c c' : t_pow o x y n i = Some c -> c_pow o x y n i = Some c' -> tv c = tv c'.
Proof.
  intros H H'. unfold t_pow, c_pow in *.
  destruct (resolve o x) as [[b|k]|], (resolve o y) as [[b'|k']|]; try discriminate; osome; try reflexivity.
  destruct (Nat.eqb_spec n 0) as [|Hn]; [reflexivity|]. destruct (is_sqrt o y); [|destruct (is_square o y)].
  - unfold d_sqrt, c_sqrt. cbv zeta. rewrite <- Nat.negb_odd. destruct (Nat.odd n) eqn:En; cbn [negb].
    + destruct (Nat.leb_spec 1 ((n - 1) / 2)) as [Hh|Hh]; [go|]. replace ((n - 1) / 2)%nat with 0%nat by lia. norm. rewrite bs_0. go.
    + destruct (Nat.leb_spec 1 ((n - 2) / 2)) as [Hh|Hh]; [go|]. replace ((n - 2) / 2)%nat with 0%nat by lia. norm. rewrite bs_0. go.
  - unfold d_square, c_square. cbv zeta. destruct (Nat.odd n); go.
  - unfold d_pow, c_pow_. norm. match_bs. dst; destruct (tv k'); done_.
Qed.
Lemma t_c_sumsq args n c c' : t_sumsq o args n = Some c -> c_sumsq o args n = Some c' -> tv c = tv c'.
Proof.
  intros H H'. unfold t_sumsq, c_sumsq in *. destruct (resolve_all o args) as [l|]; [|discriminate]. osome.
  destruct (Nat.odd n) eqn:En; cbv zeta.
  - pose proof (odd_pos n En).
    assert (E : tv (TPSum (map (sq_terms o n ((n - 1) / 2)) l)) = tv (TPSum (map (csq_acc o n ((n - 1) / 2 + 1)) l))).
    { rewrite !tv_psumlist, !map_map. f_equal. apply map_ext. intros [b|k]; cbn [sq_terms csq_acc]; [go|]. cbn. rewrite ?Rplus_0_r. reflexivity. }
    rewrite !tv_add, E. reflexivity.
  - rewrite !tv_psumlist, !map_map. f_equal. apply map_ext. intros a.
    destruct (Nat.ltb_spec 0 n) as [Hn|Hn], (Nat.eqb_spec n 0) as [H0|H0]; try lia.
    + pose proof (even_ge2 n En H0). destruct a as [b|k]; cbn [sq_terms csq_acc sq_mid csq_mid]; [go|].
      destruct (Nat.eqb_spec n 0); [lia|]. cbn. f_equal. ring.
    + destruct a as [b|k]; cbn [sq_mid csq_mid]; [go|]. destruct (Nat.eqb_spec n 0); [|lia]. norm. destruct (tv k); done_.
Qed.
Lemma neg_sum n d i : (1 <= n)%nat ->
  bs 1 (S (n - 1) - 1) (fun j => tv (TMul (TNeg (TNat j)) (TMul (ld o (n - j) d) (ld o j i)))) =
  oap1 Ropp (bs 1 (n - 1) (fun j => tv (fac o j (TMul (ld o (n - j) d) (ld o j i))))).
Proof.
  intros Hn. rewrite <- bs_neg, (bs_len 1 (S (n - 1) - 1) (n - 1)) by lia. apply bs_ext. intros j _. norm.
  destruct (rd (n - j) d), (rd j i); cbn; auto. f_equal. ring.
Qed.
Lemma t_c_atan2 y x deps n i c c' : t_atan2 o y x deps n i = Some c -> c_atan2 o y x deps n i = Some c' -> tv c = tv c'.
Proof.
  intros H H'. destruct deps as [|d [|? ?]]; cbn [t_atan2 c_atan2 dep1] in *; try discriminate.
  destruct (resolve o y) as [[a|k]|], (resolve o x) as [[b|k']|]; try discriminate; osome; cbv zeta;
    destruct (Nat.eqb_spec n 0) as [|Hn]; try reflexivity;
    (destruct (Nat.ltb_spec 1 n); [|assert (n = 1%nat) by lia; subst n]); norm; rewrite ?bs_0; try solve [go].
  all: rewrite neg_sum by lia; dst; done_.
Qed.
Lemma t_c_kepE e M deps n i c c' : t_kepE o e M deps n i = Some c -> c_kepE o e M deps n i = Some c' -> tv c = tv c'.
Proof.
  intros H H'. destruct deps as [|d [|d' [|? ?]]]; cbn [t_kepE c_kepE] in *; try discriminate.
  destruct (resolve o e) as [[a|k]|], (resolve o M) as [[b|k']|]; try discriminate; osome; cbv zeta;
    destruct (Nat.eqb_spec n 0) as [|Hn]; try reflexivity;
    (destruct (Nat.ltb_spec 1 n); [|assert (n = 1%nat) by lia; subst n]); norm; rewrite ?bs_0; go.
Qed.
Lemma t_c_kepF h k l deps n i c c' : t_kepF o h k l deps n i = Some c -> c_kepF o h k l deps n i = Some c' -> tv c = tv c'.
Proof.
  intros H H'. destruct deps as [|d [|d' [|d2 [|d3 [|? ?]]]]]; cbn [t_kepF c_kepF] in *; try discriminate.
  destruct (resolve o h) as [[a1|k1]|], (resolve o k) as [[a2|k2]|], (resolve o l) as [[a3|k3]|]; try discriminate; osome; cbv zeta;
    destruct (Nat.eqb_spec n 0) as [|Hn]; try reflexivity;
    (destruct (Nat.ltb_spec 1 n); [|assert (n = 1%nat) by lia; subst n]); norm; rewrite ?bs_0; go.
Qed.
Lemma tdiff_cdiff f args deps n i c c' : tdiff o f args deps n i = Some c -> cdiff o f args deps n i = Some c' -> tv c = tv c'.
Proof.
  intros H H'. destruct f; cbn [tdiff cdiff] in *; try discriminate.
  all: repeat match goal with H : match ?l with [] => _ | _ :: _ => _ end = Some _ |- _ => destruct l; try discriminate end.
  all: try (apply dep0_some in H; apply dep0_some in H').
  - unfold t_sum, c_sum in *. congruence.
  - eapply t_c_prod; eauto.
  - eapply t_c_pow; eauto.
  - eapply t_c_sub; eauto.
  - eapply t_c_div; eauto.
  - eapply t_c_sumsq; eauto.
  - match goal with H : match ?e with ENum _ => _ | _ => _ end = _ |- _ => destruct e; try discriminate end. destruct args; try discriminate.
    apply dep0_some in H; apply dep0_some in H'. unfold t_flat, c_flat in *. congruence.
  - eapply t_c_unary; eauto.
  - eapply t_c_atan2; eauto.
  - unfold t_relu, c_relu in *. congruence.
  - unfold t_flat, c_flat in *. congruence.
  - unfold t_select, c_select in *. congruence.
  - unfold t_flat, c_flat in *. congruence.
  - unfold t_flat, c_flat in *. congruence.
  - unfold t_flat, c_flat in *. congruence.
  - eapply t_c_kepE; eauto.
  - eapply t_c_kepF; eauto.
  - unfold t_time, c_time in *. congruence.
  - unfold t_flat, c_flat in *. congruence.
Qed.
End Values.
