(* Theorems on event detection (C27, C28, C29). *)
From Coq Require Import Reals Lra Lia List ZArith Bool Permutation.
From Verif Require Import M_Float M_Step S_Step M_Dag M_Taylor M_Event S_Event S_Cool P_Step P_Event1 P_Event2 P_Event3 P_Event4 P_Event5 P_Event6 P_Event7 P_Event8 P_Event9 P_Event10 X_Event.
Import ListNotations.
Local Open Scope R_scope.
Set Bullet Behavior "Strict Subproofs".

(* --- C29: the fast exclusion check ---------------------------------------------------------- *)
(* With either enclosure, the check ends, and if it excludes the event then the
   polynomial has no zeros in the closed step. *)
Theorem fast_exclusion_is_safe {o : fops} (L : flaws o) (X : exact_laws L) (e : eops o) (EL : elaws L e) (use_cs : bool)
    (a : list (F o)) (n : nat) (h : F o) :
  finite a -> length a = S n -> ffin o h = true ->
  exists b, fex_check o e use_cs a n h (flt o h (f0 o)) = MDone b /\
    (b = true -> forall t, in_step_closed (fval L h) t -> peval (vals L a) t <> 0).
Proof.
  intros Ha Hl Hh. destruct (fex_done L X e EL use_cs a n h Ha Hl Hh) as [b E]. exists b. split; [exact E|]. intros ->. intros t Ht.
  exact (fex_safe L X e EL use_cs a n h t Ha Hl Hh E Ht).
Qed.

(* --- C28: detection ----------------------------------------------------------------------------- *)
Section Detection.
Context {o : fops} (L : flaws o) (X : exact_laws L) (e : eops o) (EL : elaws L e).
Context (solve : (F o -> F o) -> F o -> F o -> F o * F o * Z * bool) (FS : solver_sound L e solve).
Notation val := (fval L).

Lemma inputs_run tdirs cds ndirs jet h order dim g_eps fuel : detect_inputs L tdirs cds ndirs jet h order dim g_eps ->
  detect_events o e solve fuel tdirs cds ndirs jet h order dim g_eps =
    mbind (run_detection o e solve (fun i t s d => MkTe i t s d) true fuel jet dim order h 0 (combine tdirs cds) [] []) (fun rt =>
    mbind (run_detection o e solve (fun i t s _ => MkNte i t s) false fuel jet (dim + length tdirs) order h 0
             (map (fun d => (d, None)) ndirs) [] []) (fun rn =>
    MDone (mkDet (snd rt) (snd rn) (fst rt) (fst rn)))).
Proof.
  intros [Hj [Hl [Ho [Hh [Hh0 [Hg [Hc1 Hc2]]]]]]]. unfold detect_events. rewrite Hh, Hg. cbn [negb].
  destruct (feq o h (f0 o)) eqn:Q; [|auto]. exfalso. destruct (fl_0 o L) as [Z1 Z2]. apply (fl_eq o L) in Q; auto. rewrite Z2 in Q. auto.
Qed.
Lemma combine_nth_error {A B} : forall (l : list A) (m : list B) k x y, nth_error (combine l m) k = Some (x, y) <-> nth_error l k = Some x /\ nth_error m k = Some y.
Proof.
  induction l as [|a l IH]; intros [|b m] [|k] x y; cbn; try (split; [discriminate|intros [? ?]; discriminate]).
  - split; [intros H; injection H as <- <-; auto|intros [H1 H2]; injection H1 as <-; injection H2 as <-; auto].
  - apply IH.
Qed.
Definition te_ev (p : F o * Z * F o) (i : nat) : dte o := let '(t, s, d) := p in MkTe i t s d.
(* The results of the two runs. *)
Lemma detect_runs tdirs cds ndirs jet h order dim g_eps fuel r : detect_inputs L tdirs cds ndirs jet h order dim g_eps ->
  detect_events o e solve fuel tdirs cds ndirs jet h order dim g_eps = MDone r ->
  (exists repss, length repss = length tdirs /\ d_tes r = emitted (fun i t s d => MkTe i t s d) 0 repss /\
     forall k dir cd, nth_error tdirs k = Some dir -> nth_error cds k = Some cd -> exists a reps, jet_row jet order (dim + k) a /\ nth_error repss k = Some reps /\
       ev_ok L e solve h dir cd a (In k (d_tfails r)) reps) /\
  (exists repss, length repss = length ndirs /\ d_ntes r = emitted (fun i t s _ => MkNte i t s) 0 repss /\
     forall k dir, nth_error ndirs k = Some dir -> exists a reps, jet_row jet order (dim + length tdirs + k) a /\ nth_error repss k = Some reps /\
       ev_ok L e solve h dir None a (In k (d_nfails r)) reps).
Proof.
  intros HI H. rewrite (inputs_run _ _ _ _ _ _ _ _ _ HI) in H. destruct HI as [Hj [Hl [Ho [Hh [Hh0 [Hg [Hc1 Hc2]]]]]]].
  destruct (run_detection o e solve _ true fuel jet dim order h 0 (combine tdirs cds) [] []) as [[ft ot]| | |] eqn:Et; cbn [mbind] in H; try discriminate.
  destruct (run_detection o e solve _ false fuel jet (dim + length tdirs) order h 0 (map (fun d => (d, None)) ndirs) [] []) as [[fn on]| | |] eqn:En; cbn [mbind] in H; try discriminate.
  injection H as <-. cbn [d_tes d_ntes d_tfails d_nfails fst snd].
  apply (run_spec L X e EL solve FS _ true jet dim order h Hj Ho Hh Hh0) in Et.
  2: discriminate.
  2: { clear - Hc2. revert cds Hc2. induction tdirs as [|d l IH]; intros [|c cds] H; cbn; constructor; inversion H; auto. }
  apply (run_spec L X e EL solve FS _ false jet (dim + length tdirs) order h Hj Ho Hh Hh0) in En.
  2: { intros _. apply Forall_forall. intros ev K. apply in_map_iff in K. destruct K as [? [<- _]]. auto. }
  2: { apply Forall_forall. intros ev K. apply in_map_iff in K. destruct K as [? [<- _]]. exact I. }
  destruct Et as [_ [repss [E1 [E2 E3]]]]. destruct En as [_ [repss' [E1' [E2' E3']]]]. split.
  - exists repss. split; [rewrite E1, combine_length; lia|]. split; [exact E2|]. intros k dir cd K1 K2. apply E3. apply combine_nth_error. auto.
  - exists repss'. split; [rewrite E1', map_length; auto|]. split; [exact E2'|]. intros k dir K. apply (E3' k dir None). now apply (map_nth_error (fun d => (d, None))).
Qed.

(* Every detected event is a zero of the polynomial of the event, within the step,
   with the requested direction and the right sign of the derivative, and outside of
   the cooldown. *)
Theorem detected_events_are_zeros fuel tdirs cds ndirs jet h order dim g_eps r :
  detect_inputs L tdirs cds ndirs jet h order dim g_eps ->
  detect_events o e solve fuel tdirs cds ndirs jet h order dim g_eps = MDone r ->
  (forall ev, In ev (d_tes r) -> exists dir cd a,
     nth_error tdirs (te_idx ev) = Some dir /\ nth_error cds (te_idx ev) = Some cd /\ jet_row jet order (dim + te_idx ev) a /\
     ffin o (te_time ev) = true /\ ffin o (te_der ev) = true /\
     reports dir (vals L a) (val h) (val (te_time ev)) (te_sgn ev) (val (te_der ev)) /\ cooldown_over L cd (val (te_time ev))) /\
  (forall ev, In ev (d_ntes r) -> exists dir a,
     nth_error ndirs (nte_idx ev) = Some dir /\ jet_row jet order (dim + length tdirs + nte_idx ev) a /\ ffin o (nte_time ev) = true /\
     exists d, reports dir (vals L a) (val h) (val (nte_time ev)) (nte_sgn ev) d).
Proof.
  intros HI H. pose proof HI as [_ [_ [_ [_ [_ [_ [Hc _]]]]]]]. destruct (detect_runs _ _ _ _ _ _ _ _ _ _ HI H) as [[rt [L1 [E1 S1]]] [rn [L2 [E2 S2]]]]. split; intros ev Hev.
  - rewrite E1 in Hev. apply (emitted_in (fun i t s d => MkTe (o := o) i t s d)) in Hev. destruct Hev as [k [reps [[[t s] d] [K1 [K2 ->]]]]]. cbn [mk te_idx te_time te_sgn te_der Nat.add].
    assert (Kl : (k < length tdirs)%nat) by (rewrite <- L1; apply nth_error_Some; congruence).
    destruct (nth_error tdirs k) as [dir|] eqn:Kd; [|apply nth_error_None in Kd; lia]. destruct (nth_error cds k) as [cd|] eqn:Kc; [|apply nth_error_None in Kc; lia].
    destruct (S1 k dir cd Kd Kc) as [a [reps' [J [R [O1 _]]]]]. rewrite K1 in R. injection R as <-. rewrite Forall_forall in O1. specialize (O1 _ K2). cbn in O1.
    exists dir, cd, a. tauto.
  - rewrite E2 in Hev. apply (emitted_in (fun i t s _ => MkNte (o := o) i t s)) in Hev. destruct Hev as [k [reps [[[t s] d] [K1 [K2 ->]]]]]. cbn [mk nte_idx nte_time nte_sgn Nat.add].
    assert (Kl : (k < length ndirs)%nat) by (rewrite <- L2; apply nth_error_Some; congruence).
    destruct (nth_error ndirs k) as [dir|] eqn:Kd; [|apply nth_error_None in Kd; lia].
    destruct (S2 k dir Kd) as [a [reps' [J [R [O1 _]]]]]. rewrite K1 in R. injection R as <-. rewrite Forall_forall in O1. specialize (O1 _ K2). cbn in O1.
    exists dir, a. split; [auto|]. split; [auto|]. split; [tauto|]. exists (val d). tauto.
Qed.

(* Every zero in the step, with the requested direction and out of the cooldown, is
   detected, if the isolation and the root finding library do not fail and there are no
   (other) zeros at the points of bisection. *)
Theorem zeros_are_detected (FT : solver_succeeds L e solve) fuel tdirs cds ndirs jet h order dim g_eps r :
  detect_inputs L tdirs cds ndirs jet h order dim g_eps ->
  detect_events o e solve fuel tdirs cds ndirs jet h order dim g_eps = MDone r ->
  (forall i dir cd a t, nth_error tdirs i = Some dir -> nth_error cds i = Some cd -> jet_row jet order (dim + i) a -> ~ In i (d_tfails r) ->
     (exists c, In c (vals L a) /\ c <> 0) -> in_step (val h) t -> peval (vals L a) t = 0 -> direction_ok dir (vals L a) t -> cooldown_past L cd t ->
     (forall t', dyadic_point (val h) t' -> peval (vals L a) t' = 0 -> t' = t) ->
     exists ev, In ev (d_tes r) /\ te_idx ev = i /\ val (te_time ev) = t) /\
  (forall i dir a t, nth_error ndirs i = Some dir -> jet_row jet order (dim + length tdirs + i) a -> ~ In i (d_nfails r) ->
     (exists c, In c (vals L a) /\ c <> 0) -> in_step (val h) t -> peval (vals L a) t = 0 -> direction_ok dir (vals L a) t ->
     (forall t', dyadic_point (val h) t' -> peval (vals L a) t' = 0 -> t' = t) ->
     exists ev, In ev (d_ntes r) /\ nte_idx ev = i /\ val (nte_time ev) = t).
Proof.
  intros HI H. destruct (detect_runs _ _ _ _ _ _ _ _ _ _ HI H) as [[rt [L1 [E1 S1]]] [rn [L2 [E2 S2]]]]. split.
  - intros i dir cd a t Hd Hc J Nf Nz Ht Hz Hdir Hcd Hdy. destruct (S1 i dir cd Hd Hc) as [a' [reps [J' [R [_ [O2 _]]]]]]. rewrite (jet_row_unique _ _ _ _ _ J' J) in *.
    destruct (O2 Nf FT Nz t Ht Hz Hdir Hcd Hdy) as [[[t0 s] d] [Hp Tp]]. exists (MkTe i t0 s d). split; [|cbn; auto]. rewrite E1.
    apply (emitted_in (fun i t s d => MkTe (o := o) i t s d)). exists i, reps, (t0, s, d). auto.
  - intros i dir a t Hd J Nf Nz Ht Hz Hdir Hdy. destruct (S2 i dir Hd) as [a' [reps [J' [R [_ [O2 _]]]]]]. rewrite (jet_row_unique _ _ _ _ _ J' J) in *.
    destruct (O2 Nf FT Nz t Ht Hz Hdir I Hdy) as [[[t0 s] d] [Hp Tp]]. exists (MkNte i t0 s). split; [|cbn; auto]. rewrite E2.
    apply (emitted_in (fun i t s _ => MkNte (o := o) i t s)). exists i, reps, (t0, s, d). auto.
Qed.

(* No event is detected twice at the same time, if there are no zeros at the points
   of bisection. *)
Theorem zeros_are_detected_once fuel tdirs cds ndirs jet h order dim g_eps r :
  detect_inputs L tdirs cds ndirs jet h order dim g_eps ->
  detect_events o e solve fuel tdirs cds ndirs jet h order dim g_eps = MDone r ->
  (forall i a, (i < length tdirs)%nat -> jet_row jet order (dim + i) a -> (forall t, dyadic_point (val h) t -> peval (vals L a) t <> 0) ->
     NoDup (map (fun ev => val (te_time ev)) (filter (fun ev => Nat.eqb (te_idx ev) i) (d_tes r)))) /\
  (forall i a, (i < length ndirs)%nat -> jet_row jet order (dim + length tdirs + i) a -> (forall t, dyadic_point (val h) t -> peval (vals L a) t <> 0) ->
     NoDup (map (fun ev => val (nte_time ev)) (filter (fun ev => Nat.eqb (nte_idx ev) i) (d_ntes r)))).
Proof.
  intros HI H. pose proof HI as [_ [_ [_ [_ [_ [_ [Hc _]]]]]]]. destruct (detect_runs _ _ _ _ _ _ _ _ _ _ HI H) as [[rt [L1 [E1 S1]]] [rn [L2 [E2 S2]]]]. split; intros i a Hi J Hz.
  - destruct (nth_error tdirs i) as [dir|] eqn:Kd; [|apply nth_error_None in Kd; lia]. destruct (nth_error cds i) as [cd|] eqn:Kc; [|apply nth_error_None in Kc; lia].
    destruct (S1 i dir cd Kd Kc) as [a' [reps [J' [R [_ [_ O3]]]]]]. rewrite (jet_row_unique _ _ _ _ _ J' J) in *. specialize (O3 Hz).
    rewrite E1, (emitted_filter _ te_idx) with (i := 0%nat) (k := i) (reps := reps); auto.
    + rewrite map_map. erewrite map_ext; [exact O3|]. intros [[t s] d]. auto.
    + intros j [[t s] d]. auto.
  - destruct (nth_error ndirs i) as [dir|] eqn:Kd; [|apply nth_error_None in Kd; lia].
    destruct (S2 i dir Kd) as [a' [reps [J' [R [_ [_ O3]]]]]]. rewrite (jet_row_unique _ _ _ _ _ J' J) in *. specialize (O3 Hz).
    rewrite E2, (emitted_filter _ nte_idx) with (i := 0%nat) (k := i) (reps := reps); auto.
    + rewrite map_map. erewrite map_ext; [exact O3|]. intros [[t s] d]. auto.
    + intros j [[t s] d]. auto.
Qed.

(* Detection never throws nor accesses anything out of bounds. *)
Theorem detection_is_safe fuel tdirs cds ndirs jet h order dim g_eps :
  detect_inputs L tdirs cds ndirs jet h order dim g_eps ->
  (exists r, detect_events o e solve fuel tdirs cds ndirs jet h order dim g_eps = MDone r) \/
  detect_events o e solve fuel tdirs cds ndirs jet h order dim g_eps = MFuel.
Proof.
  intros HI. rewrite (inputs_run _ _ _ _ _ _ _ _ _ HI). destruct HI as [Hj [Hl [Ho [Hh [Hh0 [Hg [Hc1 Hc2]]]]]]].
  destruct (run_safe L X e EL solve (fun i t s d => MkTe (o := o) i t s d) true jet dim order h Hj Ho Hh fuel (combine tdirs cds) 0 [] []) as [A1 A2].
  { discriminate. }
  { clear - Hc2. revert cds Hc2. induction tdirs as [|d l IH]; intros [|c cds] H; cbn; constructor; inversion H; auto. }
  { rewrite combine_length, Hl. nia. }
  destruct (run_safe L X e EL solve (fun i t s _ => MkNte (o := o) i t s) false jet (dim + length tdirs) order h Hj Ho Hh fuel (map (fun d => (d, None)) ndirs) 0 [] []) as [B1 B2].
  { intros _. apply Forall_forall. intros ev K. apply in_map_iff in K. destruct K as [? [<- _]]. auto. }
  { apply Forall_forall. intros ev K. apply in_map_iff in K. destruct K as [? [<- _]]. exact I. }
  { rewrite map_length, Hl. nia. }
  destruct (run_detection o e solve _ true fuel jet dim order h 0 (combine tdirs cds) [] []) as [[ft ot]| | |]; cbn [mbind]; [|congruence|congruence|right; auto].
  destruct (run_detection o e solve _ false fuel jet (dim + length tdirs) order h 0 (map (fun d => (d, None)) ndirs) [] []) as [[fn on]| | |]; cbn [mbind]; [|congruence|congruence|right; auto].
  left. eauto.
Qed.

(* Detection ends, with a result that does not depend on the fuel, if no event has
   multiple zeros in the step (unless it is identically zero). *)
Theorem detection_ends tdirs cds ndirs jet h order dim g_eps :
  detect_inputs L tdirs cds ndirs jet h order dim g_eps ->
  (forall row a, (dim <= row < dim + length tdirs + length ndirs)%nat -> jet_row jet order row a ->
     Forall (fun c => c = 0) (vals L a) \/ simple_zeros (val h) (vals L a)) ->
  exists fuel0 r, forall fuel, (fuel0 <= fuel)%nat -> detect_events o e solve fuel tdirs cds ndirs jet h order dim g_eps = MDone r.
Proof.
  intros HI HZ. pose proof HI as [Hj [Hl [Ho [Hh [Hh0 [Hg [Hc1 Hc2]]]]]]].
  destruct (run_ends L X e EL solve (fun i t s d => MkTe (o := o) i t s d) true jet dim order h Hj Ho Hh Hh0 (combine tdirs cds) 0) as [f1 H1].
  { rewrite combine_length, Hl. nia. }
  { rewrite combine_length. intros row a Hr. apply HZ. lia. }
  destruct (run_ends L X e EL solve (fun i t s _ => MkNte (o := o) i t s) false jet (dim + length tdirs) order h Hj Ho Hh Hh0 (map (fun d => (d, None)) ndirs) 0) as [f2 H2].
  { rewrite map_length, Hl. nia. }
  { rewrite map_length. intros row a Hr. apply HZ. lia. }
  destruct (H1 [] []) as [rt Et]. destruct (H2 [] []) as [rn En]. exists (Nat.max f1 f2), (mkDet (snd rt) (snd rn) (fst rt) (fst rn)). intros fuel Hf.
  rewrite (inputs_run _ _ _ _ _ _ _ _ _ HI). rewrite (run_more e solve _ _ _ _ _ _ _ _ _ _ _ _ Et fuel) by lia. cbn [mbind].
  rewrite (run_more e solve _ _ _ _ _ _ _ _ _ _ _ _ En fuel) by lia. auto.
Qed.
End Detection.

(* A zero at a point of bisection may make the detection miss another zero, and may be
   reported twice: x^2 - x / 2 in a step of length 1, with zeros at 0 and 1 / 2. *)
Theorem zeros_are_detected_without_proviso_refuted {o : fops} (L : flaws o) (X : exact_laws L) (e : eops o) (EL : elaws L e)
    (solve : (F o -> F o) -> F o -> F o -> F o * F o * Z * bool) (FS : solver_sound L e solve) (FT : solver_succeeds L e solve) :
  exists ndirs jet h order a r, detect_inputs L [] [] ndirs jet h order 0 (f0 o) /\ jet_row jet order 0 a /\ ndirs = [0%Z] /\
    (forall fuel, (0 < fuel)%nat -> detect_events o e solve fuel [] [] ndirs jet h order 0 (f0 o) = MDone r) /\
    d_nfails r = [] /\ (exists c, In c (vals L a) /\ c <> 0) /\
    (exists t, in_step (fval L h) t /\ peval (vals L a) t = 0 /\ ~ exists ev, In ev (d_ntes r) /\ fval L (nte_time ev) = t) /\
    ~ NoDup (map (fun ev => fval L (nte_time ev)) (d_ntes r)).
Proof.
  destruct (parab_vals L e EL) as [Fp Vp]. pose proof (num_1 L e EL) as [N1 N2]. destruct (fl_0 o L) as [Z1 Z2].
  destruct (parab_twice L X e EL solve FS FT (fun i t s _ => MkNte (o := o) i t s) false 0 0) as [t1 [t2 [d1 [d2 [E [[T1 T1'] [T2 T2']]]]]]].
  set (h := e_nat e 1) in *. set (p := parab e) in *.
  assert (HI : detect_inputs L [] [] [0%Z] p h 2 0 (f0 o)).
  { split; [auto|]. split; [auto|]. split; [lia|]. split; [auto|]. split; [rewrite N2; cbn; lra|]. split; [auto|]. split; auto. }
  exists [0%Z], p, h, 2%nat, p, (mkDet [] [MkNte 0 t1 (-1) ; MkNte 0 t2 (-1)] [] []).
  split; [exact HI|]. split; [split; [auto|intros k _; auto]|]. split; [auto|]. split; [|split; [auto|split; [|split]]].
  - intros [|fuel] Hf; [lia|]. rewrite (inputs_run L e solve _ _ _ _ _ _ _ _ _ HI). cbn [combine run_detection mbind map length Nat.add fst snd].
    change (event_poly o p 0 2) with (MDone p). cbn [mbind].
    assert (E' : forall f, detect_one o e solve (fun i t s _ => MkNte (o := o) i t s) false 0 0 p 2 h (S f) None [] = MDone (false, [MkNte 0 t1 (-1); MkNte 0 t2 (-1)])).
    { intros f. rewrite <- E. clear E. destruct (parab_twice L X e EL solve FS FT (fun i t s _ => MkNte (o := o) i t s) false 0 0) as [? [? [? [? [E1 _]]]]]. fold p h in E1.
      unfold detect_one in *. destruct (fex_check o e false p 2 h (flt o h (f0 o))) as [[|]| | |]; cbn [mbind] in *; try discriminate. destruct (fle o (e_nat e 1) _); [discriminate|]. cbn [isolate] in *.
      destruct (Nat.eqb (poly_rtscc o e (poly_rescale o e p h) 2) 1) eqn:Q; [auto|]. destruct (Nat.ltb 1 (poly_rtscc o e (poly_rescale o e p h) 2)); [|auto].
      exfalso. cbn [isolate length Nat.ltb Nat.leb orb] in E1. destruct (flt o _ _) in E1; cbn in E1; discriminate. }
    rewrite E'. cbn [mbind fst snd]. auto.
  - exists 1. rewrite Vp. split; [right; right; left; auto|lra].
  - exists (1 / 2). split; [exists (1 / 2); rewrite N2; split; [lra|cbn; lra]|]. split; [rewrite Vp; cbn; field|].
    intros [ev [[<-|[<-|[]]] K]]; cbn in K; rewrite ?T1', ?T2' in K; lra.
  - cbn. rewrite T1', T2'. intros K. inversion K as [|? ? K1 K2]. apply K1. left. auto.
Qed.

(* With rounded arithmetic too, on any data, the detected times are in the step: this
   is what is assumed of the detection in the theorems on steps and propagation. *)
Theorem detected_times_in_step {o : fops} (L : flaws o) (e : eops o) (solve : (F o -> F o) -> F o -> F o -> F o * F o * Z * bool)
    (RL : round_laws L e solve) {St En : Type} (cf : cfg o St (list (F o)) En) tdirs ndirs order dim :
  uses_detector e solve tdirs ndirs order dim cf -> (Z.of_nat (length tdirs) < 2 ^ 32)%Z -> detect_ok L cf.
Proof.
  intros [fuel HU] Hn jet h geps cd tes ntes H. rewrite HU in H.
  destruct (detect_events o e solve fuel tdirs cd ndirs jet h order dim geps) as [r| | |] eqn:E.
  2-4: injection H as <- <-; split; [intros [[]|[]]; auto|split; constructor].
  injection H as <- <-. destruct (events_in_step L e solve RL _ _ _ _ _ _ _ _ _ _ E) as [A [B C]]. split; [auto|]. split.
  - eapply Forall_impl; [|exact B]. intros ev [[T1 [T2 T3]] T4]. split; [auto|]. split; [auto|]. split; [auto|lia].
  - eapply Forall_impl; [|exact C]. intros ev [[T1 [T2 T3]] T4]. split; [auto|]. split; auto.
Qed.

(* A zero at the end of the step may hide a zero at a point of bisection that follows the
   cooldown: (x - 1 / 2) (x - 1), in a step of length 1, with a cooldown until 1 / 8. *)
Theorem zeros_after_cooldown_are_detected_refuted {o : fops} (L : flaws o) (X : exact_laws L) (e : eops o) (EL : elaws L e)
    (solve : (F o -> F o) -> F o -> F o -> F o * F o * Z * bool) :
  exists cds jet h order a r, detect_inputs L [0%Z] cds [] jet h order 0 (f0 o) /\ jet_row jet order 0 a /\
    (forall fuel, (0 < fuel)%nat -> detect_events o e solve fuel [0%Z] cds [] jet h order 0 (f0 o) = MDone r) /\
    d_tfails r = [] /\ d_tes r = [] /\
    exists cd, cds = [cd] /\ forall t, in_step (fval L h) t -> peval (vals L a) t = 0 <-> t = 1 / 2 /\ cooldown_past L cd t.
Proof.
  destruct (parab2_vals L e EL) as [Fp Vp]. pose proof (num_1 L e EL) as [N1 N2]. destruct (fl_0 o L) as [Z1 Z2].
  destruct (lit_num L e EL 1 8 ltac:(lia)) as [C1 C2].
  set (h := e_nat e 1) in *. set (p := parab2 e) in *. set (cd := Some (f0 o, lit e 1 8)).
  assert (HI : detect_inputs L [0%Z] [cd] [] p h 2 0 (f0 o)).
  { split; [auto|]. split; [auto|]. split; [lia|]. split; [auto|]. split; [rewrite N2; cbn; lra|]. split; [auto|]. split; [auto|].
    constructor; [|constructor]. cbn. split; [auto|]. split; [auto|]. left. rewrite Z2, C2, Rabs_R0. cbn [INR]. lra. }
  exists [cd], p, h, 2%nat, p, (mkDet [] [] [] []).
  split; [exact HI|]. split; [split; [auto|intros k _; auto]|]. split; [|split; [auto|split; [auto|]]].
  - intros [|fuel] Hf; [lia|]. rewrite (inputs_run L e solve _ _ _ _ _ _ _ _ _ HI). cbn [combine run_detection mbind map length Nat.add fst snd].
    change (event_poly o p 0 2) with (MDone p). cbn [mbind]. unfold cd, p, h. rewrite (parab2_missed L X e EL solve). auto.
  - exists cd. split; [auto|]. intros t [x [Hx ->]]. rewrite N2, Vp. cbn. rewrite Z2, C2. cbn [INR]. split.
    + intros K. assert (K' : (x - 1 / 2) * (x - 1) = 0) by lra. apply Rmult_integral in K'. assert (x = 1 / 2) by (destruct K'; lra). subst x.
      split; [lra|]. rewrite Rabs_pos_eq; lra.
    + intros [K _]. assert (x = 1 / 2) by lra. subst x. lra.
Qed.

(* --- C27: cooldowns --------------------------------------------------------------------------- *)
Section Cooldown.
Context {o : fops} (L : flaws o) (X : exact_laws L) (e : eops o) (EL : elaws L e).
Context (MF : forall x y, ffin o (e_mul e x y) = true -> ffin o x = true).
Context (solve : (F o -> F o) -> F o -> F o -> F o * F o * Z * bool).
Context {St En : Type} (cf : cfg o St (list (F o)) En) (tdirs ndirs : list Z) (order dim : nat).
(* An integrator with events, with valid cooldowns (of the user, or deduced). *)
Definition event_integrator : Prop :=
  c_events _ _ _ _ cf = true /\ uses_detector e solve tdirs ndirs order dim cf /\ sort_ok L cf /\ keeps_cooldowns cf /\
  (Z.of_nat (length tdirs) < 2 ^ 32)%Z /\ (forall i c, cooldown_of cf i c -> ffin o c = true /\ 0 <= fval L c).
Definition cooldowns_ok (w : world o St (list (F o)) En) : Prop := length (ig_cd (fst w)) = length tdirs /\ Forall (cooldown_valid L) (ig_cd (fst w)).

(* Between two consecutive triggers of an event the time of its cooldown elapses. *)
Theorem cooldown_is_respected (SI : solver_in L e solve) lim wtc w oc0 h0 w0 l w1 lim' wtc' oc1 h1 w2 i :
  event_integrator -> cooldowns_ok w -> (i < length tdirs)%nat ->
  step_impl _ _ _ _ cf lim wtc w = Ret (oc0, h0, w0) -> triggers i oc0 ->
  steps cf l w0 w1 -> (forall oc h, In (oc, h) l -> ~ triggers i oc) ->
  step_impl _ _ _ _ cf lim' wtc' w1 = Ret (oc1, h1, w2) -> triggers i oc1 ->
  exists c, cooldown_of cf i c /\ elapsed L (fval L c) (l ++ [(oc1, h1)]).
Proof.
  intros [A [B [C [D [E G]]]]] [W1 W2]. exact (respected L X e EL MF solve SI tdirs ndirs order dim cf A B C D E G lim wtc w oc0 h0 w0 l w1 lim' wtc' oc1 h1 w2 i W1 W2).
Qed.

(* After a trigger of an event, its zeros are detected again once the cooldown is over. *)
Theorem event_is_detected_after_cooldown (SI : solver_in L e solve) (FS : solver_sound L e solve) (FT : solver_succeeds L e solve) lim wtc w oc0 h0 w0 l w' i :
  event_integrator -> cooldowns_ok w -> (i < length tdirs)%nat ->
  step_impl _ _ _ _ cf lim wtc w = Ret (oc0, h0, w0) -> triggers i oc0 ->
  steps cf l w0 w' -> (forall oc h, In (oc, h) l -> ~ triggers i oc) ->
  cooldowns_ok w' /\ exists c, cooldown_of cf i c /\
    forall fuel jet h g_eps r dir a t, detect_inputs L tdirs (ig_cd (fst w')) ndirs jet h order dim g_eps ->
      detect_events o e solve fuel tdirs (ig_cd (fst w')) ndirs jet h order dim g_eps = MDone r -> ~ In i (d_tfails r) ->
      nth_error tdirs i = Some dir -> jet_row jet order (dim + i) a ->
      (exists c, In c (vals L a) /\ c <> 0) -> in_step (fval L h) t -> peval (vals L a) t = 0 -> direction_ok dir (vals L a) t ->
      (forall t', dyadic_point (fval L h) t' -> peval (vals L a) t' = 0 -> t' = t) ->
      elapsed L (fval L c) l \/ fval L c < Rabs (total L l + t) ->
      exists ev, In ev (d_tes r) /\ te_idx ev = i /\ fval L (te_time ev) = t.
Proof.
  intros [A [B [C [D [E G]]]]] [W1 W2] Hi Hs Htr Hl Hn.
  assert (NE : oc0 <> oc_err_nf_state) by (destruct Htr as [K | K]; rewrite K; unfold oc_err_nf_state; lia).
  destruct (after_trigger L X e EL MF solve SI tdirs ndirs order dim cf A B C D E G lim wtc w oc0 h0 w0 l w' i W1 W2 Hi Hs Htr NE Hl Hn) as [R1 [R2 [c [cd [R3 [R4 R5]]]]]].
  split; [split; auto|]. exists c. split; [auto|]. intros fuel jet h g_eps r dir a t HI Hd Hf Hdir J Nz Ht Hz Hdo Hdy Hel.
  apply (proj1 (zeros_are_detected L X e EL solve FS FT _ _ _ _ _ _ _ _ _ _ HI Hd) i dir cd a t); auto.
  destruct cd as [[f s]|]; cbn [cooldown_past]; auto. destruct R5 as [-> [Ff [Vf Ne]]]. rewrite Vf. destruct Hel; [contradiction|auto].
Qed.
End Cooldown.

(* --- Concrete cases -------------------------------------------------------------------------- *)
(* The data of a detection for which the theorems above have a meaning: the parabola
   t^2 - 1 / 9 for a terminal event (with positive direction) and for a non-terminal one;
   the zero at 1 / 3 is detected, once, for both. *)
Definition pb_jet : list xr := [Fin 0; Fin 1; Fin 0] ++ pb ++ pb.
Example detection_demo : exists r,
  detect_inputs rlaws [1%Z] [None] [0%Z] pb_jet (Fin 1) 2 1 (Fin 1) /\
  (forall fuel, (0 < fuel)%nat -> detect_events rops reops rsolve fuel [1%Z] [None] [0%Z] pb_jet (Fin 1) 2 1 (Fin 1) = MDone r) /\
  (exists s d, d_tes r = [MkTe (o := rops) 0 (Fin (1 / 3)) s d]) /\ exists s, d_ntes r = [MkNte (o := rops) 0 (Fin (1 / 3)) s].
Proof.
  assert (HJ : @finite rops pb_jet) by (repeat constructor).
  assert (HI : detect_inputs rlaws [1%Z] [None] [0%Z] pb_jet (Fin 1) 2 1 (Fin 1)).
  { split; [auto|]. split; [auto|]. split; [lia|]. split; [auto|]. split; [cbn; lra|]. split; [auto|]. split; [auto|]. repeat constructor. }
  assert (R1 : @jet_row rops pb_jet 2 1 pb) by (split; [auto|]; intros [|[|[|k]]] Hk; auto; lia).
  assert (R2 : @jet_row rops pb_jet 2 2 pb) by (split; [auto|]; intros [|[|[|k]]] Hk; auto; lia).
  assert (HQ : forall row a, (1 <= row < 3)%nat -> @jet_row rops pb_jet 2 row a -> (poly_rtscc rops reops (poly_rescale rops reops a (Fin 1%R)) 2 <= 1)%nat).
  { intros row a Hr J. assert (E : a = pb); [|subst a; apply pb_quick]. destruct row as [|[|[|row]]]; [lia| | |lia]; eapply jet_row_unique; eauto. }
  destruct (quick_run rlaws rexact reops relaws rsolve (fun i t s d => MkTe (o := rops) i t s d) true pb_jet 1 2 (Fin 1) 0 HJ ltac:(lia) eq_refl (combine [1%Z] [None]) 0 []) as [tes Et].
  { cbn. lia. }
  { intros row a Hr. apply HQ. cbn in Hr. lia. }
  destruct (quick_run rlaws rexact reops relaws rsolve (fun i t s _ => MkNte (o := rops) i t s) false pb_jet 2 2 (Fin 1) 0 HJ ltac:(lia) eq_refl (map (fun d => (d, None)) [0%Z]) 0 []) as [ntes En].
  { cbn. lia. }
  { intros row a Hr. apply HQ. cbn in Hr. lia. }
  set (r := mkDet (o := rops) tes ntes [] []). exists r. split; [exact HI|].
  assert (HD : forall fuel, (0 < fuel)%nat -> detect_events rops reops rsolve fuel [1%Z] [None] [0%Z] pb_jet (Fin 1) 2 1 (Fin 1) = MDone r).
  { intros fuel Hf. rewrite (inputs_run rlaws reops rsolve _ _ _ _ _ _ _ _ _ HI).
    refine (eq_trans (f_equal (fun x => mbind x _) (run_more reops rsolve _ _ _ _ _ _ _ _ _ _ _ _ Et fuel Hf)) _). cbn [mbind].
    refine (eq_trans (f_equal (fun x => mbind x _) (run_more reops rsolve _ _ _ _ _ _ _ _ _ _ _ _ En fuel Hf)) _). reflexivity. }
  split; [exact HD|]. pose proof (HD 1%nat ltac:(lia)) as HD1. pose proof HI as HI'. destruct HI' as [_ _].
  destruct (detected_events_are_zeros rlaws rexact reops relaws rsolve rsolver_sound _ _ _ _ _ _ _ _ _ _ HI HD1) as [S1 S2].
  destruct (zeros_are_detected rlaws rexact reops relaws rsolve rsolver_sound rsolver_succeeds _ _ _ _ _ _ _ _ _ _ HI HD1) as [C1 C2].
  destruct (zeros_are_detected_once rlaws rexact reops relaws rsolve rsolver_sound _ _ _ _ _ _ _ _ _ _ HI HD1) as [U1 U2].
  assert (DY : forall t, dyadic_point (fval rlaws (Fin 1)) t -> peval (vals rlaws pb) t <> 0).
  { intros t [k [m [Hk ->]]] Z0. change (fval rlaws (Fin 1)) with 1 in Z0. rewrite Rmult_1_r in Z0. pose proof (pow2_pos m) as Pm.
    apply pb_zero in Z0; [|apply Rmult_le_pos; [apply pos_INR|apply Rlt_le, Rinv_0_lt_compat; auto]].
    assert (E : INR (3 * k) = INR (2 ^ m)).
    { rewrite mult_INR. replace (INR 3) with 3 by (cbn; ring). apply (Rmult_eq_reg_r (/ INR (2 ^ m))); [|apply Rinv_neq_0_compat; lra]. rewrite Rinv_r by lra. unfold Rdiv in Z0. lra. }
    apply INR_eq in E. clear -E. assert (A : forall m, exists j, (2 ^ m = 3 * j + 1 \/ 2 ^ m = 3 * j + 2)%nat).
    { induction m0 as [|m0 [j IH]]; [exists 0%nat; left; reflexivity|]. change (2 ^ S m0)%nat with (2 * 2 ^ m0)%nat. destruct IH; [exists (2 * j)%nat|exists (2 * j + 1)%nat]; lia. }
    destruct (A m) as [j A']. lia. }
  assert (Ht : in_step (fval rlaws (Fin 1)) (1 / 3)) by (exists (1 / 3); cbn; split; lra).
  assert (Hz : peval (vals rlaws pb) (1 / 3) = 0) by (apply pb_zero; lra).
  assert (Hnz : exists c, In c (vals rlaws pb) /\ c <> 0) by (exists 1; split; [right; right; left; auto|lra]).
  assert (Hdy : forall t, dyadic_point (fval rlaws (Fin 1)) t -> peval (vals rlaws pb) t = 0 -> t = 1 / 3) by (intros t K1 K2; exfalso; exact (DY t K1 K2)).
  assert (IN : forall t s d dir, reports dir (vals rlaws pb) (fval rlaws (Fin 1)) t s d -> t = 1 / 3).
  { intros t s d dir [[x [Hx ->]] [Z0 _]]. change (fval rlaws (Fin 1)) with 1 in *. rewrite Rmult_1_r in *. apply pb_zero in Z0; lra. }
  split.
  - destruct (C1 0%nat 1%Z None pb (1 / 3) eq_refl eq_refl R1) as [ev [Iev [Xe Te]]]; auto.
    { right. exists (2 / 3). split; [apply pb_der|left; split; [auto|lra]]. }
    { exact I. }
    assert (ALL : forall ev, In ev (d_tes r) -> te_idx ev = 0%nat /\ te_time ev = Fin (1 / 3)).
    { intros ev' Hev'. destruct (S1 ev' Hev') as [dir [cd [a [K1 [K2 [K3 [K4 [K5 [K6 K7]]]]]]]]]. destruct (te_idx ev') as [|j] eqn:Ej; [|destruct j; discriminate].
      assert (a = pb) by (eapply jet_row_unique; eauto). subst a. apply IN in K6. split; [auto|]. destruct (te_time ev') as [x| | |]; cbn in K4, K6; try discriminate. rewrite K6. auto. }
    specialize (U1 0%nat pb ltac:(cbn; lia) R1 DY). destruct (d_tes r) as [|e1 [|e2 l]]; [destruct Iev| |].
    + destruct (ALL e1 (or_introl eq_refl)) as [A1 A2]. destruct e1 as [i t s d]. cbn in A1, A2. subst. eauto.
    + exfalso. destruct (ALL e1 (or_introl eq_refl)) as [A1 A2]. destruct (ALL e2 (or_intror (or_introl eq_refl))) as [B1 B2]. cbn [filter] in U1. rewrite A1, B1 in U1. cbn [Nat.eqb map] in U1. rewrite A2, B2 in U1.
      inversion U1 as [|? ? V1 V2]. apply V1. left. auto.
  - destruct (C2 0%nat 0%Z pb (1 / 3) eq_refl R2) as [ev [Iev [Xe Te]]]; auto.
    { left. auto. }
    assert (ALL : forall ev, In ev (d_ntes r) -> nte_idx ev = 0%nat /\ nte_time ev = Fin (1 / 3)).
    { intros ev' Hev'. destruct (S2 ev' Hev') as [dir [a [K1 [K3 [K4 [d K6]]]]]]. destruct (nte_idx ev') as [|j] eqn:Ej; [|destruct j; discriminate].
      assert (a = pb) by (eapply jet_row_unique; eauto). subst a. apply IN in K6. split; [auto|]. destruct (nte_time ev') as [x| | |]; cbn in K4, K6; try discriminate. rewrite K6. auto. }
    specialize (U2 0%nat pb ltac:(cbn; lia) R2 DY). destruct (d_ntes r) as [|e1 [|e2 l]]; [destruct Iev| |].
    + destruct (ALL e1 (or_introl eq_refl)) as [A1 A2]. destruct e1 as [i t s]. cbn in A1, A2. subst. eauto.
    + exfalso. destruct (ALL e1 (or_introl eq_refl)) as [A1 A2]. destruct (ALL e2 (or_intror (or_introl eq_refl))) as [B1 B2]. cbn [filter] in U2. rewrite A1, B1 in U2. cbn [Nat.eqb map] in U2. rewrite A2, B2 in U2.
      inversion U2 as [|? ? V1 V2]. apply V1. left. auto.
Qed.
(* It has no multiple zeros. *)
Example pb_simple : simple_zeros 1 (vals rlaws pb).
Proof.
  intros t [x [Hx ->]] Z0 D. rewrite Rmult_1_r in *. apply pb_zero in Z0; [|lra]. subst x. pose proof (uniqueness_limite _ _ _ _ D pb_der). lra.
Qed.
(* The fast exclusion check excludes t^2 + 1. *)
Example fast_exclusion_demo : fex_check rops reops false [Fin 1; Fin 0; Fin 1] 2 (Fin 1) false = MDone true.
Proof.
  unfold fex_check, penc_interval, ival_sum, ival_prod, vmin, vmax, sgn. cbn -[rltb]. unfold rltb.
  repeat (destruct Rlt_dec; cbn -[rltb]; try lra); auto.
Qed.

(* An integrator with a terminal event and a cooldown of 1 / 2. *)
Lemma saw_integrator : event_integrator rlaws reops rsolve saw_cfg [0%Z] [] 1 1.
Proof.
  split; [auto|]. split; [exists 1%nat; auto|]. split; [split; apply isort_sorts|]. split; [|split; [cbn; lia|]].
  - split; [intros i w t s w' H; injection H as <-; auto|]. intros i cb w s w' b H1 H2. cbn in H1. injection H1 as <-. injection H2 as <- _. auto.
  - intros i c Hc. unfold cooldown_of in Hc. cbn in Hc. rewrite rleb_true in Hc by lra. subst c. cbn. split; [auto|lra].
Qed.
Lemma saw_mf : forall x y, ffin rops (e_mul reops x y) = true -> ffin rops x = true.
Proof. intros [x| | |] [y| | |]; cbn; auto. Qed.
Definition saw_y (s : R) : R := if Rlt_dec s (1 / 2) then s - 1 / 3 else s - 11 / 6.
(* The outcome of a step. *)
Lemma saw_step (w : sworld) s cd : saw_at w s cd -> cooldown_valid rlaws cd ->
  (0 <= - saw_y s < 1 -> cooldown_past rlaws cd (- saw_y s) -> exists w', step_impl _ _ _ _ saw_cfg PInf false w = Ret (0%Z, Fin (- saw_y s), w') /\ saw_at w' (s + - saw_y s) (Some (Fin 0, Fin (1 / 2)))) /\
  (~ (0 <= - saw_y s < 1) \/ ~ cooldown_over rlaws cd (- saw_y s) -> exists w', step_impl _ _ _ _ saw_cfg PInf false w = Ret (oc_success, Fin 1, w') /\ saw_at w' (s + 1) (update_cd (o := rops) (Fin 1) cd)).
Proof.
  intros [W1 [W2 [t1 [t2 W3]]]] Hcd. destruct (saw_detect s cd Hcd) as [r [ED [EF [HI HR]]]].
  destruct (detected_events_are_zeros rlaws rexact reops relaws rsolve rsolver_sound _ _ _ _ _ _ _ _ _ _ HI ED) as [S1 S2].
  destruct (zeros_are_detected rlaws rexact reops relaws rsolve rsolver_sound rsolver_succeeds _ _ _ _ _ _ _ _ _ _ HI ED) as [C1 _].
  fold (saw_y s) in HR. set (y := saw_y s) in *.
  assert (Ev : forall t, peval (vals rlaws (saw_row y)) t = y + t) by (intros t; cbn; ring).
  assert (NT : d_ntes r = []).
  { destruct (d_ntes r) as [|ev l]; [auto|]. destruct (S2 ev (or_introl eq_refl)) as [dir [a [K _]]]. destruct (nte_idx ev); discriminate. }
  assert (TT : forall ev, In ev (d_tes r) -> te_idx ev = 0%nat /\ te_time ev = Fin (- y) /\ 0 <= - y < 1 /\ cooldown_over rlaws cd (- y)).
  { intros ev Hev. destruct (S1 ev Hev) as [dir [cd' [a [K1 [K2 [K3 [K4 [K5 [K6 K7]]]]]]]]]. destruct (te_idx ev) as [|j] eqn:Ej; [|destruct j; discriminate]. cbn in K2. injection K2 as <-.
    assert (a = saw_row y) by (eapply jet_row_unique; eauto). subst a. destruct K6 as [[x [Hx Ex]] [Z0 _]]. rewrite Ev in Z0. destruct (te_time ev) as [t| | |]; cbn in K4; try discriminate.
    cbn in Ex, Z0. rewrite ?Rmult_1_r in Ex. assert (Et : t = - y) by lra. clearbody y. rewrite Et in *. split; [auto|]. split; [auto|]. split; [lra|auto]. }
  unfold step_impl, step_events. cbn [c_events saw_cfg c_estep c_geps c_detect c_sort_te c_sort_nte c_dout c_fin c_nte_cb c_te_cb c_cooldown c_deduce]. rewrite W1, W2, W3.
  match goal with |- context [detect_events rops reops rsolve 1 ?a ?b ?c ?d ?e ?f ?g ?h] => change (detect_events rops reops rsolve 1 a b c d e f g h) with (detect_events rops reops rsolve 1 [0%Z] [cd] [] [Fin s; Fin 1; saw (Fin s); Fin 1] (Fin 1) 1 1 (Fin 1)) end.
  rewrite ED, NT.
  pose proof (isort_perm (o := rops) (@te_time rops) (d_tes r)) as PM. set (st := isort (o := rops) (@te_time rops) (d_tes r)) in *.
  split.
  - intros Hy Hpast. destruct (C1 0%nat 0%Z cd (saw_row y) (- y) eq_refl eq_refl HR) as [ev [Iev [_ _]]]; auto.
    { rewrite EF. auto. }
    { exists 1. split; [right; left; auto|lra]. }
    { exists (- y). cbn. split; lra. }
    { rewrite Ev. ring. }
    { left. auto. }
    { intros t' _ Z0. rewrite Ev in Z0. lra. }
    destruct st as [|e0 l]; [apply Permutation_sym, Permutation_nil in PM; rewrite PM in Iev; destruct Iev|].
    destruct (TT e0) as [A1 [A2 _]]; [apply (Permutation_in _ (Permutation_sym PM)); left; auto|].
    cbn [isort fold_right length firstn]. rewrite A1, A2. cbn. unfold cmp_nan_eq. cbn. rewrite !reqb_refl. cbn. rewrite rleb_true by lra. eexists. split; [reflexivity|].
    split; [auto|]. split; [cbn; auto|]. cbn. eauto.
  - intros Hno. assert (Est : st = []).
    { destruct st as [|e0 l]; [auto|]. exfalso. destruct (TT e0) as [A1 [A2 [A3 A4]]]; [apply (Permutation_in _ (Permutation_sym PM)); left; auto|]. tauto. }
    rewrite Est. cbn. unfold cmp_nan_eq. cbn. rewrite !reqb_refl. cbn. eexists. split; [reflexivity|]. split; [auto|]. split; [cbn; auto|]. cbn. eauto.
Qed.
(* The event triggers at 1 / 3, is ignored there in the next step, and triggers again at
   11 / 6. *)
Example cooldown_demo : exists w0 w1 w2, let w := saw_w 0 0 None (Fin 0) [] in
  cooldowns_ok rlaws [0%Z] w /\
  step_impl _ _ _ _ saw_cfg PInf false w = Ret (0%Z, Fin (1 / 3), w0) /\ triggers 0 0 /\
  steps saw_cfg [(oc_success, Fin 1)] w0 w1 /\ ~ triggers 0 oc_success /\
  step_impl _ _ _ _ saw_cfg PInf false w1 = Ret (0%Z, Fin (1 / 2), w2).
Proof.
  assert (Y0 : saw_y 0 = - (1 / 3)) by (unfold saw_y; destruct Rlt_dec; lra).
  assert (Y1 : saw_y (1 / 3) = 0) by (unfold saw_y; destruct Rlt_dec; lra).
  assert (Y2 : saw_y (4 / 3) = - (1 / 2)) by (unfold saw_y; destruct Rlt_dec; lra).
  set (w := saw_w 0 0 None (Fin 0) []).
  destruct (saw_step w 0 None) as [H0 _]; [split; [auto|split; [auto|cbn; eauto]]|exact I|]. rewrite Y0 in H0. destruct H0 as [w0 [E0 A0]]; [lra|exact I|].
  replace (0 + - - (1 / 3)) with (1 / 3) in A0 by ring. replace (- - (1 / 3)) with (1 / 3) in E0 by ring.
  destruct (saw_step w0 (1 / 3) _ A0) as [_ H1]; [cbn; rewrite Rabs_R0; split; [auto|]; split; [auto|lra]|]. rewrite Y1 in H1.
  destruct H1 as [w1 [E1 A1]]; [right; cbn; replace (0 + - 0) with 0 by ring; rewrite Rabs_R0; lra|].
  assert (U : update_cd (o := rops) (Fin 1) (Some (Fin 0, Fin (1 / 2))) = None).
  { cbn. rewrite rleb_true; [auto|]. replace (0 + 1) with 1 by ring. rewrite Rabs_R1. lra. }
  rewrite U in A1. replace (1 / 3 + 1) with (4 / 3) in A1 by field.
  destruct (saw_step w1 (4 / 3) None A1 I) as [H2 _]. rewrite Y2 in H2. destruct H2 as [w2 [E2 _]]; [lra|exact I|]. replace (- - (1 / 2)) with (1 / 2) in E2 by ring.
  exists w0, w1, w2. cbv zeta. split; [split; [auto|repeat constructor]|]. split; [exact E0|]. split; [left; auto|].
  split; [apply (@steps_cons rops _ _ saw_cfg PInf false w0 oc_success (Fin 1) w1 [] w1 E1); [discriminate|constructor]|]. split; [intros [K|K]; discriminate|exact E2].
Qed.

Print Assumptions fast_exclusion_is_safe.
Print Assumptions detected_events_are_zeros.
Print Assumptions zeros_are_detected.
Print Assumptions zeros_are_detected_once.
Print Assumptions detection_is_safe.
Print Assumptions detection_ends.
Print Assumptions zeros_are_detected_without_proviso_refuted.
Print Assumptions zeros_after_cooldown_are_detected_refuted.
Print Assumptions detected_times_in_step.
Print Assumptions cooldown_is_respected.
Print Assumptions event_is_detected_after_cooldown.
