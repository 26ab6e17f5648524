(** Instances of the laws (exact arithmetic and binary64), and the calculus of the interpolated quantities. *)
From Coq Require Import Bool ZArith Reals Lra Lia.
From Coquelicot Require Import Coquelicot.
From Flocq Require Import Core BinarySingleNaN.
From Coq Require Import Ascii String List.
From Verif Require Import M_Float M_Dfloat P_Dfl3 M_Dag M_Taylor M_Eop S_Eop P_Eop1.
Import ListNotations.
Set Bullet Behavior "Strict Subproofs".

(** ** IEEE binary formats *)
Section B.
Context (prec emax : Z) (Hp : Prec_gt_0 prec) (Hm : Prec_lt_emax prec emax).
Local Existing Instance Hp.
Local Existing Instance Hm.
Notation bops := (M_Dfloat.bops prec emax Hp Hm).
Notation blaws := (P_Dfl3.blaws prec emax Hp Hm).
Definition blops : lops bops := mkLops bops (Bmult mode_NE) (Bdiv mode_NE) B754_nan.

Lemma b_olaws : olaws bops.
Proof.
  constructor; cbn [bops F fle flt fnan].
  - intros x y [H|H].
    + destruct x; try discriminate H. split; reflexivity.
    + destruct y; try discriminate H. destruct x as [[]|[]| |[] ? ? ?]; split; reflexivity.
  - intros x y Hx Hy. destruct (is_finite x) eqn:Fx, (is_finite y) eqn:Fy.
    + apply Bool.eq_iff_eq_true. rewrite negb_true_iff, <- not_true_iff_false.
      pose proof (fl_lt bops blaws x y Fx Fy) as A. pose proof (fl_le bops blaws y x Fy Fx) as B. cbn in A, B.
      rewrite A, B. split; lra.
    + destruct y as [?|[]| |? ? ? ?]; try discriminate; destruct x as [[]|[]| |[] ? ? ?]; try discriminate; reflexivity.
    + destruct x as [?|[]| |? ? ? ?]; try discriminate; destruct y as [[]|[]| |[] ? ? ?]; try discriminate; reflexivity.
    + destruct y as [?|[]| |? ? ? ?]; try discriminate; destruct x as [[]|[]| |[] ? ? ?]; try discriminate; reflexivity.
  - intros x y z Hxy Hyz.
    destruct (is_finite x) eqn:Fx.
    + destruct (is_finite y) eqn:Fy.
      * destruct (is_finite z) eqn:Fz.
        -- pose proof (fl_le bops blaws x y Fx Fy) as A. pose proof (fl_le bops blaws y z Fy Fz) as B.
           pose proof (fl_le bops blaws x z Fx Fz) as C. cbn in A, B, C.
           apply C. apply A in Hxy. apply B in Hyz. lra.
        -- destruct z as [?|[]| |? ? ? ?]; try discriminate; destruct y as [[]|[]| |[] ? ? ?]; try discriminate;
             destruct x as [[]|[]| |[] ? ? ?]; try discriminate; reflexivity.
      * destruct y as [?|[]| |? ? ? ?]; try discriminate; destruct x as [[]|[]| |[] ? ? ?]; try discriminate;
          destruct z as [[]|[]| |[] ? ? ?]; try discriminate; reflexivity.
    + destruct x as [?|[]| |? ? ? ?]; try discriminate; destruct y as [[]|[]| |[] ? ? ?]; try discriminate;
        destruct z as [[]|[]| |[] ? ? ?]; try discriminate; reflexivity.
  - intros x Hx. destruct (is_finite x) eqn:Fx.
    + pose proof (fl_le bops blaws x x Fx Fx) as A. cbn in A. apply A. lra.
    + destruct x as [?|[]| |? ? ? ?]; try discriminate; reflexivity.
Qed.

Lemma b_nanlaws : nanlaws blops.
Proof.
  constructor; cbn [blops bops F fnan fsub fadd lmul ldiv lnan]; [reflexivity| | | |];
    intros x y [H|H]; destruct x as [[]|[]| |[] ? ? ?]; try discriminate H; destruct y as [[]|[]| |[] ? ? ?]; try discriminate H; reflexivity.
Qed.

End B.

(** ** Exact arithmetic *)
Definition rlops : lops rops :=
  mkLops rops
    (fun x y => match x, y with Fin a, Fin b => Fin (a * b)%R | _, _ => NaN end)
    (fun x y => match x, y with Fin a, Fin b => if Req_EM_T b 0 then NaN else Fin (a / b)%R | _, _ => NaN end)
    NaN.

Lemma r_olaws : olaws rops.
Proof.
  constructor; cbn.
  - intros [?| | |] [?| | |] [H|H]; try discriminate H; auto.
  - intros [x| | |] [y| | |] Hx Hy; try discriminate; cbn; auto.
    unfold rltb, rleb. destruct (Rlt_dec x y), (Rle_dec y x); auto; lra.
  - intros [x| | |] [y| | |] [z| | |] H1 H2; cbn in *; try discriminate; auto.
    revert H1 H2. unfold rleb. destruct (Rle_dec x y), (Rle_dec y z), (Rle_dec x z); try discriminate; auto; lra.
  - intros [x| | |] H; cbn; try discriminate; auto. unfold rleb. destruct (Rle_dec x x); auto; lra.
Qed.
Lemma r_nanlaws : nanlaws rlops.
Proof.
  constructor; cbn; [auto| | | |]; intros [?| | |] [?| | |] [H|H]; try discriminate H; auto.
Qed.

Section Real.
Context (ds ys : list R).
Notation fds := (map Fin ds : list (F rops)).
Notation fys := (map Fin ys : list (F rops)).
Context (Hn : (Z.of_nat (length ds) < 2 ^ 32)%Z) (Hl : length ys = length ds) (H2 : (2 <= length ds)%nat).
Context (A : forall i t t', nth_error ds i = Some t -> nth_error ds (S i) = Some t' -> (t <= t')%R).

Lemma asc_real : ascending rops fds.
Proof.
  split.
  - intros i t E. cbn in t. rewrite nth_error_map in E. destruct (nth_error ds i); [|discriminate]. injection E as <-. auto.
  - intros i t t' E E'. rewrite nth_error_map in E, E'.
    destruct (nth_error ds i) as [x|] eqn:Ex; [|discriminate]. destruct (nth_error ds (S i)) as [y|] eqn:Ey; [|discriminate].
    injection E as <-. injection E' as <-. cbn. unfold rleb. destruct (Rle_dec x y); auto. destruct n. eauto.
Qed.

Lemma eval_real i t0 t1 y0 y1 t : nth_error ds i = Some t0 -> nth_error ds (S i) = Some t1 ->
  nth_error ys i = Some y0 -> nth_error ys (S i) = Some y1 -> (t0 <= t < t1)%R ->
  eop_eval rlops fds fys (Z.of_nat (length ds)) (Fin t)
    = MDone (Fin (y0 + (y1 - y0) / (t1 - t0) * (t - t0))%R, Fin ((y1 - y0) / (t1 - t0))%R).
Proof.
  intros E0 E1 Y0 Y1 Ht.
  pose proof (eval_in rlops r_olaws fds fys) as X. rewrite !map_length in X.
  rewrite (X Hn Hl H2 asc_real (Fin t) i (Fin t0) (Fin t1) (Fin y0) (Fin y1)).
  - unfold interp. cbn. destruct (Req_EM_T (t1 - t0) 0); [lra|]. do 2 f_equal. f_equal. field. auto.
  - rewrite nth_error_map, E0. auto.
  - rewrite nth_error_map, E1. auto.
  - rewrite nth_error_map, Y0. auto.
  - rewrite nth_error_map, Y1. auto.
  - cbn. unfold rleb. destruct (Rle_dec t0 t); auto; lra.
  - cbn. unfold rltb. destruct (Rlt_dec t t1); auto; lra.
Qed.

(** *** Derivatives *)
Context (i : nat) (t0 t1 y0 y1 : R) (E0 : nth_error ds i = Some t0) (E1 : nth_error ds (S i) = Some t1)
  (Y0 : nth_error ys i = Some y0) (Y1 : nth_error ys (S i) = Some y1).
Context (E : R -> R) (HE : forall t p, (t0 <= t < t1)%R ->
   eop_eval rlops fds fys (Z.of_nat (length ds)) (Fin t) = MDone p -> fst p = Fin (E t)).

Lemma E_eq t : (t0 <= t < t1)%R -> E t = (y0 + (y1 - y0) / (t1 - t0) * (t - t0))%R.
Proof. intros Ht. pose proof (HE t _ Ht (eval_real i t0 t1 y0 y1 t E0 E1 Y0 Y1 Ht)) as H. cbn in H. injection H as ->. auto. Qed.

Lemma comp_loc (b : R -> R) s0 : (t0 < b s0 < t1)%R -> continuous b s0 ->
  locally s0 (fun s => E (b s) = (y0 + (y1 - y0) / (t1 - t0) * (b s - t0))%R).
Proof.
  intros Hb C.
  assert (L : locally (b s0) (fun y => (t0 < y < t1)%R)).
  { apply open_and; [apply open_gt|apply open_lt|auto]. }
  specialize (C _ L). unfold filtermap in C. eapply filter_imp; [|exact C]. cbn. intros s Hs. apply E_eq. lra.
Qed.

Lemma affine_Dn (c k : R) (b : R -> R) s0 : forall n, (1 <= n)%nat -> locally s0 (fun s => forall m, (m <= n)%nat -> ex_derive_n b m s) ->
  Derive_n (fun s => (c + k * b s)%R) n s0 = (k * Derive_n b n s0)%R.
Proof.
  intros n Hn1 Hb.
  rewrite Derive_n_plus.
  - rewrite Derive_n_scal_l. destruct n as [|n]; [lia|]. rewrite Derive_n_const. match goal with |- ?a = ?b => change (@eq R a b) end. ring.
  - apply filter_forall. intros s m Hm. apply ex_derive_n_const.
  - eapply filter_imp; [|exact Hb]. cbn. intros s Hs m Hm. apply ex_derive_n_scal_l. auto.
Qed.

Lemma comp_jet (b : R -> R) s0 n : (t0 < b s0 < t1)%R -> continuous b s0 ->
  locally s0 (fun s => forall m, (m <= n)%nat -> ex_derive_n b m s) -> (1 <= n)%nat ->
  Derive_n (fun s => E (b s)) n s0 = ((y1 - y0) / (t1 - t0) * Derive_n b n s0)%R.
Proof.
  intros Hb C D Hn1.
  rewrite (Derive_n_ext_loc _ (fun s => ((y0 - (y1 - y0) / (t1 - t0) * t0) + (y1 - y0) / (t1 - t0) * b s)%R)).
  - apply affine_Dn; auto.
  - eapply filter_imp; [|apply comp_loc; eauto]. cbn. intros s ->. match goal with |- ?a = ?b => change (@eq R a b) end. ring.
Qed.

Lemma E_derive t : (t0 < t < t1)%R -> is_derive E t ((y1 - y0) / (t1 - t0))%R.
Proof.
  intros Ht. apply (is_derive_ext_loc (fun s => (y0 + (y1 - y0) / (t1 - t0) * (s - t0))%R)).
  - eapply filter_imp; [|apply (comp_loc (fun s => s) t Ht (continuous_id t))]. cbn. intros s Hs. symmetry. exact Hs.
  - auto_derive; auto. match goal with |- ?a = ?b => change (@eq R a b) end. field. lra.
Qed.
End Real.
