(* Exact arithmetic and a root finder that meet the hypotheses of the theorems on
   event detection. *)
From Coq Require Import Reals Lra Lia List ZArith Bool.
From Verif Require Import M_Float M_Step S_Step M_Dag M_Taylor M_Event S_Event S_Cool P_Step P_Event1 P_Event2 P_Event3 P_Event4 P_Event5 P_Event6 P_Event7.
Import ListNotations.
Local Open Scope R_scope.
Set Bullet Behavior "Strict Subproofs".

Notation xr := (ext R).
Definition x2 (f : R -> R -> R) (a b : xr) : xr := match a, b with Fin x, Fin y => Fin (f x y) | _, _ => NaN end.
Definition xdiv (a b : xr) : xr := match a, b with Fin x, Fin y => if Req_EM_T y 0 then NaN else Fin (x / y) | _, _ => NaN end.
Definition reops : eops rops := mkEops (o := rops) (x2 Rmult) xdiv (fun n => Fin (INR n)) (fun n k => Fin (C n k)) (x2 (fun x y => (x + y) / 2)).

(* The first zero in [lb, ub), or ub. *)
Definition clear (f : xr -> xr) (lb ub y : R) : Prop := lb <= y <= ub /\ forall z, lb <= z < y -> f (Fin z) <> Fin 0.
Lemma clear_bound f lb ub : bound (clear f lb ub).
Proof. exists ub. intros y [H _]. lra. Qed.
Lemma clear_ex f lb ub : lb < ub -> exists y, clear f lb ub y.
Proof. intros H. exists lb. split; [lra|]. intros z Hz. lra. Qed.
Definition first_zero (f : xr -> xr) (lb ub : R) (H : lb < ub) : R :=
  proj1_sig (completeness (clear f lb ub) (clear_bound f lb ub) (clear_ex f lb ub H)).
Lemma first_zero_lub f lb ub H : is_lub (clear f lb ub) (first_zero f lb ub H).
Proof. unfold first_zero. destruct completeness as [m Hm]. exact Hm. Qed.
Lemma first_zero_in f lb ub H : lb <= first_zero f lb ub H <= ub.
Proof.
  destruct (first_zero_lub f lb ub H) as [U1 U2]. split.
  - apply U1. split; [lra|]. intros z Hz. lra.
  - apply U2. intros y [Hy _]. lra.
Qed.
(* The library is given the interval [lb, (lb + ub) / 2]. *)
Definition rsolve (f : xr -> xr) (l u : xr) : xr * xr * Z * bool :=
  match l, u with
  | Fin lb, Fin m => match Rlt_dec lb (2 * m - lb) with
                     | left H => let x := first_zero f lb (2 * m - lb) H in if Rlt_dec x (2 * m - lb) then (Fin x, Fin x, 0%Z, true) else (NaN, NaN, 1%Z, false)
                     | right _ => (NaN, NaN, 1%Z, false)
                     end
  | _, _ => (NaN, NaN, 1%Z, false)
  end.
Lemma relaws : elaws rlaws reops.
Proof.
  split.
  - intros [x| | |] [y| | |]; cbn; try discriminate; auto.
  - intros [x| | |] [y| | |]; cbn; try discriminate. intros _ _ H. destruct (Req_EM_T y 0); [contradiction|]. auto.
  - intros n. cbn. auto.
  - intros n k _. cbn. auto.
Qed.
Lemma rsolve_run f lb ub p1 p2 : lb < ub -> root_found (o := rops) rsolve f (Fin lb) (e_next reops (Fin ub) (Fin lb)) p1 p2 ->
  exists H, p1 = Fin (first_zero f lb ub H) /\ p2 = p1 /\ first_zero f lb ub H < ub.
Proof.
  intros H [errno [He E]]. cbn in E. replace (2 * ((ub + lb) / 2) - lb) with ub in E by field.
  destruct (Rlt_dec lb ub) as [K|K] in E; [|contradiction]. exists K. destruct (Rlt_dec (first_zero f lb ub K) ub) as [Q|Q] in E.
  - injection E as <- <- _. auto.
  - injection E as _ _ <-. lia.
Qed.
Lemma rsolver_in : solver_in rlaws reops rsolve.
Proof.
  intros f lb ub p1 p2 Hl Hu Hlt H. destruct lb as [lb| | |], ub as [ub| | |]; cbn in Hl, Hu; try discriminate. cbn in Hlt.
  destruct (rsolve_run _ _ _ _ _ Hlt H) as [K [-> [-> Q]]]. pose proof (first_zero_in f lb ub K). cbn. repeat split; auto; lra.
Qed.
Lemma reval p n x : @finite rops p -> length p = S n -> poly_eval rops reops p (Fin x) n = Fin (peval (vals rlaws p) x).
Proof.
  intros Fp Lp. destruct (poly_eval_num rlaws rexact reops relaws p n (Fin x) x Fp Lp (conj eq_refl eq_refl)) as [A B].
  destruct (poly_eval rops reops p (Fin x) n); cbn in A, B; try discriminate. rewrite B. auto.
Qed.
Lemma first_zero_is p n lb ub K x : @finite rops p -> length p = S n -> lb <= x < ub -> peval (vals rlaws p) x = 0 ->
  (forall y, lb <= y < x -> peval (vals rlaws p) y <> 0) -> first_zero (fun x => poly_eval rops reops p x n) lb ub K = x.
Proof.
  intros Fp Lp Hx Zx Hy. pose proof (first_zero_lub (fun x => poly_eval rops reops p x n) lb ub K) as [U1 U2].
  apply Rle_antisym.
  - apply U2. intros y [Y1 Y2]. apply Rnot_lt_le. intros Q. apply (Y2 x ltac:(lra)). rewrite reval, Zx by auto. auto.
  - apply U1. split; [lra|]. intros y Hy'. rewrite reval by auto. intros Q. injection Q as Q. exact (Hy y Hy' Q).
Qed.
Lemma first_change a lb x ub : peval a lb <> 0 -> sign_change a lb x ub -> forall y, lb <= y < x -> peval a y <> 0.
Proof.
  intros Nl [Hx [Zx [s [Hs [S1 S2]]]]] y Hy Zy. destruct (Req_EM_T y lb) as [->|Ny]; [contradiction|]. specialize (S1 y ltac:(lra)). rewrite Zy in S1. lra.
Qed.
Lemma rsolver_sound : solver_sound rlaws reops rsolve.
Proof.
  intros p n lb ub p1 p2 [Lp [Fp [Hl [Hu Hlt]]]] H. destruct lb as [lb| | |], ub as [ub| | |]; cbn in Hl, Hu; try discriminate. cbn in Hlt.
  destruct (rsolve_run _ _ _ _ _ Hlt H) as [K [-> [-> Q]]]. change (fval rlaws (Fin lb)) with lb. change (fval rlaws (Fin ub)) with ub.
  split; [auto|]. split; [auto|]. split.
  - intros Z0. refine (eq_trans (f_equal (fun z => (z + z) / 2) (first_zero_is p n lb ub K lb Fp Lp _ Z0 _)) _); [lra|intros; lra|field].
  - intros x Nl Sx. pose proof Sx as [Hx [Zx _]]. refine (eq_trans (f_equal (fun z => (z + z) / 2) (first_zero_is p n lb ub K x Fp Lp _ Zx _)) _); [lra|exact (first_change _ _ _ _ Nl Sx)|field].
Qed.
Lemma rsolver_succeeds : solver_succeeds rlaws reops rsolve.
Proof.
  intros p n lb ub [Lp [Fp [Hl [Hu Hlt]]]] H. destruct lb as [lb| | |], ub as [ub| | |]; cbn in Hl, Hu; try discriminate. cbn in Hlt.
  change (fval rlaws (Fin lb)) with lb in H. change (fval rlaws (Fin ub)) with ub in H.
  assert (HX : exists x, lb <= x < ub /\ peval (vals rlaws p) x = 0 /\ forall y, lb <= y < x -> peval (vals rlaws p) y <> 0).
  { destruct (Req_EM_T (peval (vals rlaws p) lb) 0) as [Z0|Nl]; [exists lb; split; [lra|]; split; [auto|intros; lra]|].
    destruct H as [H|[x Sx]]; [contradiction|]. pose proof Sx as [Hx [Zx _]]. exists x. split; [lra|]. split; [auto|]. exact (first_change _ _ _ _ Nl Sx). }
  destruct HX as [x [Hx [Zx Hy]]]. exists (Fin x), (Fin x), 0%Z. split; [lia|]. cbn [e_next reops x2 rsolve].
  replace (2 * ((ub + lb) / 2) - lb) with ub by field. destruct (Rlt_dec lb ub) as [K|K]; [|contradiction].
  cbv zeta. match goal with |- context [Rlt_dec ?z ub] => assert (Ez : z = x) by exact (first_zero_is p n lb ub K x Fp Lp Hx Zx Hy); rewrite Ez end.
  destruct (Rlt_dec x ub); [auto|lra].
Qed.
Lemma rround : round_laws rlaws reops rsolve.
Proof.
  split.
  - cbn. split; [auto|lra].
  - intros [x| | |] [y| | |]; cbn; try discriminate. intros _ _ _ H. nra.
  - intros [x| | |] [y| | |]; cbn; try discriminate. auto.
  - intros [x| | |] [y| | |]; cbn; try discriminate. intros. destruct (Req_EM_T (1 + 1) 0); [lra|]. cbn. split; [auto|lra].
  - intros [h| | |]; cbn; try discriminate. intros _ H. split; [auto|]. rewrite Rplus_0_r. split; [pose proof (Rle_0_sqr h) as Q; unfold Rsqr in Q; lra|]. unfold Rdiv. rewrite Rabs_mult, (Rabs_pos_eq (/ 2)) by lra.
    assert (0 < Rabs h) by (apply Rabs_pos_lt; auto). lra.
  - intros [x| | |] [y| | |]; cbn; try discriminate; auto.
  - cbn. auto.
  - intros f lb ub p1 p2 Hl [errno [He E]]. destruct lb as [lb| | |]; cbn in Hl; try discriminate.
    destruct ub as [m| | |]; cbn in E; try (injection E as _ _ <-; lia).
    destruct (Rlt_dec lb (2 * m - lb)) as [K|K] in E; [|injection E as _ _ <-; lia].
    destruct (Rlt_dec _ _) as [Q|Q] in E; [|injection E as _ _ <-; lia]. injection E as <- <- _.
    pose proof (first_zero_in f lb (2 * m - lb) K). cbn. repeat split; auto; lra.
Qed.

(* Detection ends at once if there is at most one sign change for each event. *)
Lemma quick_one {o : fops} (L : flaws o) (X : exact_laws L) (e : eops o) (EL : elaws L e) solve {Ev} (emit : nat -> F o -> Z -> F o -> Ev) term i dir a n h cd fuel out :
  finite a -> length a = S n -> (0 < n)%nat -> ffin o h = true -> (poly_rtscc o e (poly_rescale o e a h) n <= 1)%nat ->
  exists out', detect_one o e solve emit term i dir a n h (S fuel) cd out = MDone (false, out').
Proof.
  intros Ha Hl Hn Hh H. unfold detect_one. destruct (fex_done L X e EL false a n h Ha Hl Hh) as [fx ->]. cbn [mbind]. destruct fx; [eauto|].
  destruct (fle o (e_nat e 1) _); [eauto|]. cbv zeta. cbn [isolate].
  destruct (poly_rtscc o e (poly_rescale o e a h) n) as [|[|k]] eqn:E; [| |lia]; cbn [Nat.eqb Nat.ltb Nat.leb length orb app].
  - destruct n; [lia|]. cbn. eauto.
  - destruct n as [|[|n]]; [lia| |]; cbn; eauto.
Qed.
Lemma quick_run {o : fops} (L : flaws o) (X : exact_laws L) (e : eops o) (EL : elaws L e) solve {Ev} (emit : nat -> F o -> Z -> F o -> Ev) term jet base order h fuel :
  finite jet -> (0 < order)%nat -> ffin o h = true ->
  forall evs i out, ((base + i + length evs) * S order <= length jet)%nat ->
  (forall row a, (base + i <= row < base + i + length evs)%nat -> jet_row jet order row a -> (poly_rtscc o e (poly_rescale o e a h) order <= 1)%nat) ->
  exists out', run_detection o e solve emit term (S fuel) jet base order h i evs [] out = MDone ([], out').
Proof.
  intros Hj Ho Hh. induction evs as [|[dir cd] evs IH]; intros i out Hlen HZ; cbn [run_detection length] in *; [eauto|].
  destruct (event_poly o jet (i + base) order) as [a| | |] eqn:Ea.
  2-4: exfalso; unfold event_poly in Ea; rewrite (proj2 (Nat.leb_le _ _)) in Ea by nia; discriminate.
  apply event_poly_row in Ea. pose proof (jet_row_finite _ _ _ _ Hj Ea) as Fa. cbn [mbind].
  destruct (quick_one L X e EL solve emit term i dir a order h cd fuel out Fa (proj1 Ea) Ho Hh) as [out1 ->]; [apply (HZ (i + base)%nat); [lia|auto]|].
  cbn [mbind fst snd]. apply IH; [nia|]. intros row b Hr. apply HZ. lia.
Qed.

(* The parabola t^2 - 1 / 9. *)
Definition pb : list xr := [Fin (- (1 / 9)); Fin 0; Fin 1].
Lemma pb_vals : vals rlaws pb = [- (1 / 9); 0; 1].
Proof. reflexivity. Qed.
Lemma pb_fin : @finite rops pb.
Proof. repeat constructor. Qed.
Lemma pb_quick : (poly_rtscc rops reops (poly_rescale rops reops pb (Fin 1%R)) 2 <= 1)%nat.
Proof.
  pose proof (p1_fin rlaws reops relaws pb (Fin 1) 1 pb_fin (conj eq_refl eq_refl)) as F1. pose proof (p1_len rlaws reops relaws pb 2 (Fin 1) 1 pb_fin eq_refl (conj eq_refl eq_refl)) as L1.
  rewrite (rtscc_is rlaws rexact reops relaws _ 2 [8 / 9; - (2 / 9); - (1 / 9)] F1 L1 eq_refl).
  - cbn [schanges]. repeat (destruct Req_EM_T; try lra). repeat (destruct Rlt_dec; try lra). lia.
  - intros y Hy. rewrite (P_eval rlaws reops relaws pb (Fin 1) 1 pb_fin (conj eq_refl eq_refl)), pb_vals. cbn [peval]. field. lra.
Qed.
Lemma pb_zero t : 0 <= t -> peval (vals rlaws pb) t = 0 <-> t = 1 / 3.
Proof.
  intros Ht. rewrite pb_vals. cbn [peval]. split.
  - intros H. assert (K : (t - 1 / 3) * (t + 1 / 3) = 0) by lra. apply Rmult_integral in K. lra.
  - intros ->. field.
Qed.
Lemma pb_der : derivable_pt_lim (peval (vals rlaws pb)) (1 / 3) (2 / 3).
Proof. replace (2 / 3) with (pder (vals rlaws pb) (1 / 3)) by (rewrite pb_vals; cbn [pder peval]; field). apply pder_lim. Qed.

(* An integrator in exact arithmetic: a variable that grows like the time, steps of
   length 1, and a terminal event at 1 / 3 and 11 / 6, with a cooldown of 1 / 2. *)
Definition saw (s : xr) : xr := match s with Fin x => Fin (if Rlt_dec x (1 / 2) then x - 1 / 3 else x - 11 / 6) | _ => NaN end.
Definition saw_cfg : cfg rops xr (list xr) unit := {|
  c_events := true;
  c_step := fun (s : xr) (_ lim : F rops) => (fadd rops s (Fin 1), Fin 1, [s; Fin 1; saw s; Fin 1]);
  c_estep := fun (s : xr) (_ lim : F rops) => ([s; Fin 1; saw s; Fin 1], Fin 1, Fin 1);
  c_dout := fun (s : xr) _ (h : F rops) => fadd rops s h;
  c_fin := ffin rops;
  c_geps := fun h => h;
  c_detect := fun jet h geps cd => match detect_events rops reops rsolve 1 [0%Z] cd [] jet h 1 1 geps with MDone r => (d_tes r, d_ntes r) | _ => ([], []) end;
  c_sort_te := isort (te_time (o := rops));
  c_sort_nte := isort (nte_time (o := rops));
  c_cooldown := fun _ => Fin (1 / 2);
  c_deduce := fun e d => d;
  c_nte_cb := fun i w t _ => Ret w;
  c_te_cb := fun i => Some (fun w _ => Ret (w, true)) |}.
Notation sworld := (world rops xr (list xr) unit).
Definition saw_w (s t : R) (cd : option (xr * xr)) (h : xr) (tc : list xr) : sworld :=
  (MkInteg (o := rops) (Fin s) (DFL (o := rops) (Fin t) (Fin 0)) h tc [cd], tt).
Definition saw_row (x : R) : list xr := [Fin x; Fin 1].
(* What is detected in a step. *)
Lemma saw_detect x (cd : option (xr * xr)) : cooldown_valid rlaws cd ->
  exists r, detect_events rops reops rsolve 1 [0%Z] [cd] [] [Fin x; Fin 1; saw (Fin x); Fin 1] (Fin 1) 1 1 (Fin 1) = MDone r /\
    d_tfails r = [] /\ detect_inputs rlaws [0%Z] [cd] [] [Fin x; Fin 1; saw (Fin x); Fin 1] (Fin 1) 1 1 (Fin 1) /\
    jet_row (o := rops) [Fin x; Fin 1; saw (Fin x); Fin 1] 1 1 (saw_row (if Rlt_dec x (1 / 2) then x - 1 / 3 else x - 11 / 6)).
Proof.
  intros Hcd. set (jet := [Fin x; Fin 1; saw (Fin x); Fin 1]). set (y := if Rlt_dec x (1 / 2) then x - 1 / 3 else x - 11 / 6).
  assert (HJ : @finite rops jet) by (repeat constructor).
  assert (HI : detect_inputs rlaws [0%Z] [cd] [] jet (Fin 1) 1 1 (Fin 1)).
  { split; [auto|]. split; [auto|]. split; [lia|]. split; [auto|]. split; [cbn; lra|]. split; [auto|]. split; [auto|]. repeat constructor; auto. }
  assert (HR : @jet_row rops jet 1 1 (saw_row y)).
  { split; [auto|]. intros [|[|k]] Hk; [auto|auto|lia]. }
  assert (Q : forall a : list xr, @finite rops a -> length a = 2%nat -> (poly_rtscc rops reops (poly_rescale rops reops a (Fin 1%R)) 1 <= 1)%nat).
  { intros a Fa La. destruct (rtscc_spec rlaws rexact reops relaws (poly_rescale rops reops a (Fin 1)) 1) as [Q [LQ [EQ _]]].
    - apply (p1_fin rlaws reops relaws a (Fin 1) 1 Fa (conj eq_refl eq_refl)).
    - apply (p1_len rlaws reops relaws a 1 (Fin 1) 1 Fa La (conj eq_refl eq_refl)).
    - rewrite EQ. destruct Q as [|q1 [|q2 [|]]]; try discriminate. cbn [schanges]. repeat (destruct Req_EM_T; try lia); repeat (destruct Rlt_dec; try lia); lra. }
  destruct (quick_run rlaws rexact reops relaws rsolve (fun i t s d => MkTe (o := rops) i t s d) true jet 1 1 (Fin 1) 0 HJ ltac:(lia) eq_refl (combine [0%Z] [cd]) 0 []) as [tes Et].
  { cbn. lia. }
  { intros row a _ Ja. apply Q; [exact (jet_row_finite _ _ _ _ HJ Ja)|exact (proj1 Ja)]. }
  exists (mkDet tes [] [] []). split; [|auto]. unfold detect_events. cbn [ffin rops ext_ops ext_fin negb].
  destruct (feq rops (Fin 1) (f0 rops)) eqn:Z0; [exfalso; cbn in Z0; unfold reqb in Z0; destruct (Req_EM_T 1 0); [lra|discriminate]|].
  refine (eq_trans (f_equal (fun x => mbind x _) Et) _). reflexivity.
Qed.

Definition saw_at (w : sworld) (s : R) (cd : option (xr * xr)) : Prop :=
  ig_state (fst w) = Fin s /\ ig_cd (fst w) = [cd] /\ exists t1 t2, ig_time (fst w) = DFL (o := rops) (Fin t1) (Fin t2).
Lemma reqb_refl x : reqb x x = true.
Proof. unfold reqb. destruct (Req_EM_T x x); auto; contradiction. Qed.
Lemma rleb_true x y : x <= y -> rleb x y = true.
Proof. unfold rleb. destruct (Rle_dec x y); auto; contradiction. Qed.
Lemma rleb_false x y : y < x -> rleb x y = false.
Proof. unfold rleb. destruct (Rle_dec x y); auto; lra. Qed.
