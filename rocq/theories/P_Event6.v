(* Detection of all the events of a step, in exact arithmetic. *)
From Coq Require Import Reals Lra Lia List ZArith Bool Permutation.
From Verif Require Import M_Float M_Step M_Dag M_Taylor M_Event S_Event P_Event1 P_Event2 P_Event3 P_Event4 P_Event5.
Import ListNotations.
Local Open Scope R_scope.
Set Bullet Behavior "Strict Subproofs".

Lemma fop_nth {A} (R : A -> A -> Prop) : forall l i j x y, ForallOrdPairs R l -> (i < j)%nat -> nth_error l i = Some x -> nth_error l j = Some y -> R x y.
Proof.
  induction l as [|z l IH]; intros i j x y H Hij Hx Hy; [destruct i; discriminate|]. inversion H as [|? ? H1 H2]; subst.
  destruct j as [|j]; [lia|]. cbn in Hy. destruct i as [|i]; cbn in Hx.
  - injection Hx as <-. rewrite Forall_forall in H1. apply H1. eapply nth_error_In; eauto.
  - apply (IH i j x y H2); auto. lia.
Qed.
Lemma F2_nth {A B} (R : A -> B -> Prop) : forall l l', Forall2 R l l' -> forall i x y, nth_error l i = Some x -> nth_error l' i = Some y -> R x y.
Proof. induction 1; intros [|i] u v Hu Hv; cbn in *; try discriminate; [injection Hu as <-; injection Hv as <-; auto|eauto]. Qed.

Lemma nth_error_firstn' {A} : forall n (l : list A) k, (k < n)%nat -> nth_error (firstn n l) k = nth_error l k.
Proof. induction n as [|n IH]; intros l k H; [lia|]. destruct l, k; cbn; auto. apply IH. lia. Qed.
Lemma nth_error_skipn' {A} : forall n (l : list A) k, nth_error (skipn n l) k = nth_error l (n + k).
Proof. induction n as [|n IH]; intros l k; [auto|]. destruct l; cbn; [destruct k; auto|auto]. Qed.
Lemma nth_error_ext {A} : forall l l' : list A, (forall k, nth_error l k = nth_error l' k) -> l = l'.
Proof.
  induction l as [|x l IH]; intros [|y l'] H; auto; [specialize (H 0%nat); discriminate|specialize (H 0%nat); discriminate|].
  pose proof (H 0%nat) as H0. cbn in H0. injection H0 as <-. f_equal. apply IH. intros k. apply (H (S k)).
Qed.

Section Det.
Context {o : fops} (L : flaws o) (X : exact_laws L) (e : eops o) (EL : elaws L e).
Context (solve : (F o -> F o) -> F o -> F o -> F o * F o * Z * bool) (FS : solver_sound L e solve).
Notation F := (F o).
Notation val := (fval L).
Notation vals := (vals L).
Notation zero := (f0 o).
Notation num := (is_num L).
Local Notation get a i := (nth i a zero).

Section One.
Context {Ev : Type} (emit : nat -> F -> Z -> F -> Ev).
Context (term : bool) (i : nat) (dir : Z) (a : list F) (n : nat) (h : F).
Context (Ha : finite a) (Hl : length a = S n) (Hn : (0 < n)%nat) (Hh : ffin o h = true) (Hh0 : val h <> 0).
Context (cd : option (F * F)) (Hcd : cooldown_valid L cd) (Hterm : term = false -> cd = None).

(* What is reported on the event. *)
Definition rep_ok (p : F * Z * F) : Prop := let '(t, s, d) := p in
  ffin o t = true /\ ffin o d = true /\ reports dir (vals a) (val h) (val t) s (val d) /\ cooldown_over L cd (val t).
Definition mk (p : F * Z * F) : Ev := let '(t, s, d) := p in emit i t s d.

Lemma off_num : exists ov, num (lb_offset o e term h cd) ov /\ 0 <= ov /\
  (forall x, 0 <= x -> (ov <= x <-> cooldown_over L cd (x * val h)) /\ (cooldown_past L cd (x * val h) -> (term = true -> 0 < x -> ov < x) /\ ov <= x)).
Proof.
  destruct (fl_abs o L h Hh) as [A1 A2]. assert (Hp : 0 < Rabs (val h)) by (apply Rabs_pos_lt; auto).
  unfold lb_offset. destruct term; [|rewrite Hterm in * by auto; exists 0; split; [apply (num_0 L)|]; split; [lra|]; cbn; intros x Hx; split; [tauto|]; intros _; split; [discriminate|lra]].
  destruct cd as [[f s]|]; cbn [cooldown_valid] in Hcd.
  - destruct Hcd as [F1 [F2 F3]].
    assert (F34 : (val f < val s /\ - val s < val f) \/ (val f = 0 /\ val s = 0)).
    { destruct F3 as [F3|F3]; auto. left. apply Rabs_def2 in F3. lra. }
    clear F3. pose proof (num_self L f F1) as Nf. pose proof (num_self L s F2) as Ns.
    assert (Nh : num (fabs o h) (Rabs (val h))) by (split; auto).
    destruct (fle o zero h) eqn:Q.
    + apply (fl_le o L) in Q; auto; [|apply (num_0 L)]. rewrite (proj2 (num_0 L)) in Q.
      exists ((val s - val f) / Rabs (val h)). split; [apply (num_div L e EL); [apply (num_sub L X); auto|auto|lra]|].
      rewrite Rabs_pos_eq in * by auto. split; [apply Rmult_le_pos; [lra|left; apply Rinv_0_lt_compat; lra]|].
      intros x Hx. cbn [cooldown_over cooldown_past].
      assert (Hxh : 0 <= x * val h) by (apply Rmult_le_pos; lra).
      assert (E1 : (val s - val f) / val h <= x <-> val s - val f <= x * val h).
      { split; intros K; [apply (Rmult_le_compat_r (val h)) in K; [|lra]; unfold Rdiv in K; rewrite Rmult_assoc, Rinv_l, Rmult_1_r in K; lra|].
        apply (Rmult_le_reg_r (val h)); [lra|]. unfold Rdiv. rewrite Rmult_assoc, Rinv_l, Rmult_1_r; lra. }
      assert (E2 : val s - val f < x * val h -> (val s - val f) / val h < x).
      { intros K. apply (Rmult_lt_reg_r (val h)); [lra|]. unfold Rdiv. rewrite Rmult_assoc, Rinv_l, Rmult_1_r; lra. }
      split.
      * rewrite E1. unfold Rabs. destruct Rcase_abs; lra.
      * intros K. assert (K' : val s - val f < x * val h) by (revert K; unfold Rabs; destruct Rcase_abs; lra). specialize (E2 K'). lra.
    + assert (Q' : val h < 0). { apply Rnot_le_lt. intros K. assert (fle o zero h = true); [|congruence]. apply (proj2 (fl_le o L zero h (proj1 (num_0 L)) Hh)). rewrite (proj2 (num_0 L)). auto. }
      exists ((val s + val f) / Rabs (val h)). split; [apply (num_div L e EL); [apply (num_add L X); auto|auto|lra]|].
      rewrite (Rabs_left (val h)) in * by auto. split; [apply Rmult_le_pos; [lra|left; apply Rinv_0_lt_compat; lra]|].
      intros x Hx. cbn [cooldown_over cooldown_past].
      assert (Hxh : x * val h <= 0) by nra.
      assert (E1 : (val s + val f) / - val h <= x <-> val s + val f <= x * - val h).
      { split; intros K; [apply (Rmult_le_compat_r (- val h)) in K; [|lra]; unfold Rdiv in K; rewrite Rmult_assoc, Rinv_l, Rmult_1_r in K; lra|].
        apply (Rmult_le_reg_r (- val h)); [lra|]. unfold Rdiv. rewrite Rmult_assoc, Rinv_l, Rmult_1_r; lra. }
      assert (E2 : val s + val f < x * - val h -> (val s + val f) / - val h < x).
      { intros K. apply (Rmult_lt_reg_r (- val h)); [lra|]. unfold Rdiv. rewrite Rmult_assoc, Rinv_l, Rmult_1_r; lra. }
      split.
      * rewrite E1. unfold Rabs. destruct Rcase_abs; lra.
      * intros K. assert (K' : val s + val f < x * - val h) by (revert K; unfold Rabs; destruct Rcase_abs; lra). specialize (E2 K'). lra.
  - exists 0. split; [apply (num_0 L)|]. split; [lra|]. intros x Hx. cbn. split; [tauto|]. intros _.
    split; [auto|lra].
Qed.

Let Nh : num h (val h) := num_self L h Hh.
Let p1 := poly_rescale o e a h.
Let P := vals p1.
Lemma P_at x : peval P x = peval (vals a) (x * val h).
Proof. unfold P, p1. rewrite (P_eval L e EL a h (val h) Ha Nh). f_equal. ring. Qed.
Lemma is_sign_fun d s s' : is_sign d s -> is_sign d s' -> s = s'.
Proof. unfold is_sign. intros [[? ?]|[[? ?]|[? ?]]] [[? ?]|[[? ?]|[? ?]]]; subst; auto; lra. Qed.
Definition tm (p : F * Z * F) : R := val (fst (fst p)).
Definition root_ok (ov : R) (root : F) : Prop := exists x, at_x L (val h) x root /\ peval P x = 0 /\ (term = true -> ov <= x).
Lemma reps_of ov : (forall x, 0 <= x -> ov <= x -> cooldown_over L cd (x * val h)) -> forall roots, Forall (root_ok ov) roots ->
  exists reps, flat_map (ev_of e emit i dir a n h) roots = map mk reps /\ Forall rep_ok reps /\
    (forall root x, In root roots -> at_x L (val h) x root -> direction_ok dir (vals a) (x * val h) -> exists p, In p reps /\ tm p = x * val h) /\
    incl (map tm reps) (map val roots) /\ (NoDup (map val roots) -> NoDup (map tm reps)).
Proof.
  intros Hov. induction 1 as [|root roots [x [Hat [Z0 Hc]]] Hr IH].
  { exists []. split; [auto|]. split; [constructor|]. split; [intros ? ? []|]. split; [intros ? []|auto]. }
  destruct IH as [reps [E1 [E2 [E3 [E4 E5]]]]].
  destruct (ev_of_exact L X e EL emit i dir a n h (val h) Ha Hl Hn Nh Hh0 root x Hat) as [s [d [Hs [Hd He]]]].
  cbn [flat_map]. rewrite He. destruct (Z.eqb dir 0 || Z.eqb s dir) eqn:Q.
  - exists ((root, s, d) :: reps). split; [cbn [map mk app]; rewrite E1; auto|]. split.
    { constructor; auto. cbn [rep_ok]. destruct Hat as [[F1 V1] Hx]. split; [auto|]. split; [apply Hd|]. rewrite V1. split.
      - split; [exists x; auto|]. split; [rewrite <- P_at; auto|]. split.
        + apply orb_true_iff in Q. destruct Q as [Q|Q]; apply Z.eqb_eq in Q; auto.
        + exists (pder (vals a) (x * val h)). split; [apply pder_lim|]. split; [auto|]. apply Hd.
      - destruct term eqn:T; [apply Hov; [lra|auto]|]. rewrite Hterm by auto. cbn. auto. }
    split; [|split].
    + intros r y [<-|Hin] Hy Hdir; [|destruct (E3 r y Hin Hy Hdir) as [p [K1 K2]]; exists p; split; [right; auto|auto]].
      exists (root, s, d). split; [left; auto|]. unfold tm. cbn [fst]. apply Hy.
    + intros v [<-|Hv]; [left; auto|right; auto].
    + intros N. inversion N as [|? ? N1 N2]; subst. cbn [map tm]. constructor; [intros K; apply N1, E4, K|auto].
  - exists reps. split; [cbn [app]; auto|]. split; [auto|]. split; [|split].
    + intros r y [<-|Hin] Hy Hdir; [|eauto]. exfalso. apply orb_false_iff in Q. destruct Q as [Q1 Q2]. apply Z.eqb_neq in Q1, Q2.
      destruct Hdir as [->|[d' [D1 D2]]]; [congruence|].
      assert (Exy : y * val h = x * val h) by (rewrite <- (proj2 (proj1 Hy)), <- (proj2 (proj1 Hat)); auto). rewrite Exy in D1.
      assert (d' = pder (vals a) (x * val h)) by (eapply uniqueness_limite; [exact D1|apply pder_lim]). subst d'.
      apply Q2. eapply is_sign_fun; eauto.
    + intros v Hv. right. auto.
    + intros N. inversion N; subst; auto.
Qed.

Lemma item_first : item_ok L P n (zero, e_nat e 1, p1).
Proof.
  pose proof (num_0 L) as N0. pose proof (num_1 L e EL) as N1. split.
  - exists 0%nat, 0%nat. split; [cbn; lia|]. cbn [INR Nat.pow]. split; [replace (0 / 1) with 0 by field|replace (1 / 1) with 1 by field]; auto.
  - split; [apply (p1_fin L e EL a h (val h)); auto|]. split; [apply (p1_len L e EL a n h (val h)); auto|].
    exists 1. split; [lra|]. intros x. rewrite (proj2 N0), (proj2 N1). unfold P. replace (0 + (1 - 0) * x) with x by ring. ring.
Qed.
Lemma dyadic_of_ival lb ub : ival_ok L lb ub -> dyadic_point (val h) (val lb * val h) /\ dyadic_point (val h) (val ub * val h).
Proof.
  intros [k [m [Hk [[_ V1] [_ V2]]]]]. rewrite V1, V2. split; [exists k, m|exists (S k), m]; (split; [lia|auto]).
Qed.

Lemma detect_one_spec fuel out failed out' : (exists c, In c (vals a) /\ c <> 0) ->
  detect_one o e solve emit term i dir a n h fuel cd out = MDone (failed, out') ->
  exists reps, out' = out ++ map mk reps /\ Forall rep_ok reps /\
    (failed = false -> solver_succeeds L e solve -> forall t, in_step (val h) t -> peval (vals a) t = 0 -> direction_ok dir (vals a) t -> cooldown_past L cd t ->
       (forall t', dyadic_point (val h) t' -> peval (vals a) t' = 0 -> t' = t) -> exists p, In p reps /\ tm p = t) /\
    ((forall t', dyadic_point (val h) t' -> peval (vals a) t' <> 0) -> NoDup (map tm reps)).
Proof.
  intros Hnz H. unfold detect_one in H.
  destruct (fex_done L X e EL false a n h Ha Hl Hh) as [fx Ef]. rewrite Ef in H. cbn [mbind] in H. destruct fx.
  { injection H as <- <-. exists []. split; [cbn; rewrite app_nil_r; auto|]. split; [constructor|]. split; [|intros; constructor].
    intros _ _ t [x [Hx ->]] Z0. exfalso. refine (fex_safe L X e EL false a n h (x * val h) Ha Hl Hh Ef _ Z0). exists x. split; [lra|auto]. }
  destruct off_num as [ov [Noff [Hov Hcdx]]]. set (off := lb_offset o e term h cd) in *.
  pose proof (num_1 L e EL) as N1.
  destruct (fle o (e_nat e 1) off) eqn:Q1.
  { injection H as <- <-. exists []. split; [cbn; rewrite app_nil_r; auto|]. split; [constructor|]. split; [|intros; constructor].
    intros _ _ t [x [Hx ->]] _ _ Hp. exfalso. apply (fl_le o L) in Q1; [|apply N1|apply Noff]. rewrite (proj2 N1), (proj2 Noff) in Q1.
    destruct (Hcdx x) as [_ K]; [lra|]. specialize (K Hp). lra. }
  assert (Q1' : ov < 1).
  { apply Rnot_le_lt. intros K. assert (fle o (e_nat e 1) off = true); [|congruence].
    apply (proj2 (fl_le o L _ _ (proj1 N1) (proj1 Noff))). rewrite (proj2 N1), (proj2 Noff). auto. }
  cbv zeta in H. fold p1 in H.
  destruct (isolate o e emit term i dir a n h fuel off [(zero, e_nat e 1, p1)] [] out) as [[[fl isol] out1]| | |] eqn:Ei; cbn [mbind] in H; try discriminate.
  assert (W1 : Forall (fun it : F * F * list F => ov < val (snd (bounds it))) [(zero, e_nat e 1, p1)]).
  { constructor; [|constructor]. cbn [bounds fst snd]. rewrite (proj2 N1). auto. }
  assert (W2 : disjoint L (map bounds [(zero, e_nat e 1, p1)] ++ [])).
  { cbn [map app]. constructor; constructor. }
  destruct (isolate_spec L X e EL emit term i dir a n h (val h) Ha Hl Hn Nh Hh0 Hnz off ov Noff fuel _ _ _ _ _ _
     (Forall_cons _ item_first (Forall_nil _)) W1 W2 Ei) as [roots1 [new [E1 [E2 [E3 [E4 [E5 E6]]]]]]].
  cbn [app] in E2. subst isol.
  (* the roots that are found *)
  assert (HR : exists roots2, out' = out ++ flat_map (ev_of e emit i dir a n h) (roots1 ++ roots2) /\ Forall (root_ok ov) (roots1 ++ roots2) /\
     (failed = false -> solver_succeeds L e solve -> forall x, 0 <= x < 1 -> ov <= x -> (term = true -> 0 < x -> ov < x) -> peval P x = 0 ->
        (forall t', dyadic_point (val h) t' -> peval (vals a) t' = 0 -> t' = x * val h) -> exists root, In root (roots1 ++ roots2) /\ at_x L (val h) x root) /\
     ((forall t', dyadic_point (val h) t' -> peval (vals a) t' <> 0) -> NoDup (map val roots2))).
  { assert (HR1 : Forall (root_ok ov) roots1).
    { eapply Forall_impl; [|exact E3]. intros r [x [k [m [_ [_ [K1 [K2 K3]]]]]]]. exists x. auto. }
    assert (HC : fl = false -> forall x, 0 <= x < 1 -> ov <= x -> peval P x = 0 ->
       (exists root, In root roots1 /\ at_x L (val h) x root) \/ exists I, In I new /\ val (fst I) < x < val (snd I)).
    { intros K x Hx Ho Z0. apply (E6 K (zero, e_nat e 1, p1) x); auto; [left; auto|]. cbn [bounds fst snd]. rewrite (proj2 N1), (proj2 (num_0 L)). auto. }
    destruct ((match new with [] => true | _ => false end) || fl) eqn:Qn.
    - injection H as <- <-. exists []. rewrite app_nil_r. split; [auto|]. split; [auto|]. split; [|intros; constructor].
      intros -> _ x Hx Ho Hot Z0 _. rewrite orb_false_r in Qn. destruct new; [|discriminate].
      destruct (HC eq_refl x Hx Ho Z0) as [K|[I [[] _]]]. auto.
    - apply orb_false_iff in Qn. destruct Qn as [_ ->].
      destruct (find_roots_spec L X e EL solve FS emit term i dir a n h (val h) Ha Hl Hn Nh off ov Noff new out1 E4) as [roots2 [F1 [F2 [F3 F4]]]].
      fold p1 in F1. rewrite F1, E1 in H. injection H as <- <-. exists roots2. rewrite flat_map_app, app_assoc. split; [auto|].
      split; [apply Forall_app; split; auto|]. split.
      + intros _ FT x Hx Ho Hot Z0 Hdy. destruct (HC eq_refl x Hx Ho Z0) as [[root [K1 K2]]|[I [K1 K2]]].
        * exists root. split; [apply in_or_app; auto|auto].
        * pose proof E4 as E4'. rewrite Forall_forall in E4'. destruct (E4' I K1) as [Iv _].
          destruct (ival_range L _ _ Iv) as [_ [_ [[L0 _] _]]]. destruct (dyadic_of_ival _ _ Iv) as [D1 D2].
          destruct (F3 FT I x K1 K2 Z0) as [root [G1 G2]].
          { intros HT. apply Hot; auto. lra. }
          { change (peval P (val (fst I)) <> 0). rewrite P_at. intros K. specialize (Hdy _ D1 K). apply Rmult_eq_reg_r in Hdy; auto. lra. }
          { change (peval P (val (snd I)) <> 0). rewrite P_at. intros K. specialize (Hdy _ D2 K). apply Rmult_eq_reg_r in Hdy; auto. lra. }
          exists root. split; [apply in_or_app; auto|auto].
      + intros Hdy. destruct F4 as [Is [I1 [I2 I3]]].
        { intros I HI. rewrite Forall_forall in E4. destruct (E4 I HI) as [Iv _]. destruct (dyadic_of_ival _ _ Iv) as [D1 _].
          change (peval P (val (fst I)) <> 0). rewrite P_at. auto. }
        { exact E5. }
        clear -I1 I3 E5 Hh0. rewrite NoDup_nth_error. intros j k Hj Hjk. rewrite map_length in Hj.
        destruct (nth_error roots2 j) as [r|] eqn:Er; [|apply nth_error_None in Er; lia].
        rewrite (map_nth_error val j roots2 Er) in Hjk. symmetry in Hjk.
        destruct (nth_error roots2 k) as [r'|] eqn:Er'.
        2:{ assert (nth_error (map val roots2) k = None) by (apply nth_error_None; rewrite map_length; apply nth_error_None; auto). congruence. }
        rewrite (map_nth_error val k roots2 Er') in Hjk. injection Hjk as Hv.
        assert (LI : length Is = length roots2) by (apply (Forall2_length_eq I3)).
        destruct (nth_error Is j) as [u|] eqn:Eu; [|apply nth_error_None in Eu; assert (j < length roots2)%nat by (apply nth_error_Some; congruence); lia].
        destruct (nth_error Is k) as [u'|] eqn:Eu'; [|apply nth_error_None in Eu'; assert (k < length roots2)%nat by (apply nth_error_Some; congruence); lia].
        destruct (F2_nth _ _ _ I3 j u r Eu Er) as [I [x [A1 [A2 [[_ A3] _]]]]].
        destruct (F2_nth _ _ _ I3 k u' r' Eu' Er') as [J [y [B1 [B2 [[_ B3] _]]]]].
        assert (x = y) by (apply (Rmult_eq_reg_r (val h)); auto; congruence). subst y.
        destruct (Nat.eq_dec u u') as [->|Ne].
        * rewrite NoDup_nth_error in I1. apply I1; [apply nth_error_Some; congruence|congruence].
        * exfalso. destruct (Nat.lt_total u u') as [K|[K|K]]; [|congruence|].
          -- destruct (fop_nth _ _ u u' I J E5 K A1 B1); lra.
          -- destruct (fop_nth _ _ u' u J I E5 K B1 A1); lra. }
  destruct HR as [roots2 [G1 [G2 [G3 G4]]]].
  destruct (reps_of ov (fun x Hx => proj1 (proj1 (Hcdx x Hx))) _ G2) as [reps [R1 [R2 [R3 [R4 R5]]]]].
  exists reps. rewrite <- R1. split; [auto|]. split; [auto|]. split.
  - intros Hfl FT t [x [Hx ->]] Z0 Hdir Hp Hdy. destruct (proj2 (Hcdx x (proj1 Hx)) Hp) as [K1 K2].
    destruct (G3 Hfl FT x Hx K2 K1) as [root [M1 M2]]; [rewrite P_at; auto|auto|]. eapply R3; eauto.
  - intros Hdy. apply R5. destruct roots1 as [|r1 roots1]; [cbn [app]; auto|]. exfalso.
    inversion E3 as [|? ? [x [k [m [K1 [K2 [K3 [K4 _]]]]]]] _]; subst. apply (Hdy (INR k / INR (2 ^ m) * val h)).
    + exists k, m. split; [lia|auto].
    + rewrite <- P_at. exact K4.
Qed.

Lemma schanges_zeros : forall l, Forall (fun c => c = 0) l -> schanges 0 l = 0%nat.
Proof.
  induction l as [|c l IH]; intros H; [auto|]. inversion H; subst. cbn [schanges]. rewrite IH by auto.
  repeat destruct Rlt_dec; repeat destruct Req_EM_T; auto; lra.
Qed.
Lemma detect_one_zero fuel out failed out' : Forall (fun c => c = 0) (vals a) ->
  detect_one o e solve emit term i dir a n h fuel cd out = MDone (failed, out') ->
  exists reps, out' = out ++ map mk reps /\ Forall rep_ok reps.
Proof.
  intros Hz H. unfold detect_one in H.
  assert (E0 : exists reps, out = out ++ map mk reps /\ Forall rep_ok reps) by (exists []; split; [cbn; rewrite app_nil_r; auto|constructor]).
  destruct (fex_done L X e EL false a n h Ha Hl Hh) as [fx Ef]. rewrite Ef in H. cbn [mbind] in H. destruct fx; [injection H as _ <-; auto|].
  destruct off_num as [ov [Noff [Hov Hcdx]]]. set (off := lb_offset o e term h cd) in *.
  destruct (fle o (e_nat e 1) off) eqn:Q1; [injection H as _ <-; auto|].
  cbv zeta in H. fold p1 in H. destruct fuel as [|fuel]; [discriminate|]. cbn [isolate] in H.
  assert (PZ : forall x, peval P x = 0) by (intros x; rewrite P_at; apply peval_all0; auto).
  pose proof (p1_fin L e EL a h (val h) Ha Nh) as Fp. pose proof (p1_len L e EL a n h (val h) Ha Hl Nh) as Lp. fold p1 in Fp, Lp.
  assert (NS : poly_rtscc o e p1 n = 0%nat).
  { destruct (rtscc_spec L X e EL p1 n Fp Lp) as [Q [LQ [EQ VQ]]]. rewrite EQ. apply schanges_zeros.
    apply (vanish (length Q) Q 0 1 (le_n _) Rlt_0_1). intros y Hy.
    assert (Hi : 0 < / (1 + y) < 1). { split; [apply Rinv_0_lt_compat; lra|]. rewrite <- Rinv_1 at 2. apply Rinv_lt_contravar; lra. }
    specialize (VQ (/ (1 + y)) Hi). rewrite Rinv_inv in VQ. replace (1 + y - 1) with y in VQ by ring. fold P in VQ. rewrite PZ in VQ.
    symmetry in VQ. apply Rmult_integral in VQ. destruct VQ as [K|K]; auto. exfalso. apply pow_nonzero in K; auto. lra. }
  rewrite NS in H. cbn [Nat.eqb Nat.ltb Nat.leb] in H.
  assert (RO : root_ok ov (e_mul e zero h) \/ (term && flt o zero off = true)).
  { destruct (term && flt o zero off) eqn:Q; auto. left. exists 0. split.
    - split; [|lra]. apply (num_mul L e EL); [apply (num_0 L)|auto].
    - split; [auto|]. intros ->. cbn [andb] in Q. apply Rnot_lt_le. intros K. assert (flt o zero off = true); [|congruence].
      apply (proj2 (fl_lt o L _ _ (proj1 (num_0 L)) (proj1 Noff))). rewrite (proj2 (num_0 L)), (proj2 Noff). auto. }
  rewrite orb_false_l in H.
  assert (F1 : out' = (if feq o (nth 0 p1 zero) zero && forallb (ffin o) (tl p1)
        then if term && flt o zero off then out else add_d_event o e emit i dir a n h (e_mul e zero h) out else out)).
  { cbn [length] in H. destruct (Nat.ltb n 0); cbn [mbind orb] in H; injection H as _ <-; auto. }
  destruct (feq o (nth 0 p1 zero) zero && forallb (ffin o) (tl p1)); [|rewrite F1; auto].
  destruct (term && flt o zero off) eqn:Q; [rewrite F1; auto|]. destruct RO as [RO|RO]; [|congruence].
  destruct (reps_of ov (fun x Hx => proj1 (proj1 (Hcdx x Hx))) [e_mul e zero h]) as [reps [R1 [R2 _]]]; [constructor; auto|].
  exists reps. split; [|auto]. rewrite F1, (add_app e), <- R1. cbn [flat_map]. rewrite app_nil_r. auto.
Qed.
(* No access out of range. *)
Lemma isolate_safe : forall fuel off wl isol out, wl <> [] -> isolate o e emit term i dir a n h fuel off wl isol out <> MUB /\ isolate o e emit term i dir a n h fuel off wl isol out <> MThrow.
Proof.
  induction fuel as [|fuel IH]; intros off wl isol out Hw; cbn [isolate]; [split; discriminate|]. destruct wl as [|[[lb ub] q] wl]; [congruence|].
  cbv zeta. destruct (if Nat.eqb (poly_rtscc o e q n) 1 then _ else _) as [wl' isol'].
  destruct (_ || _); [split; discriminate|]. destruct wl' as [|it wl']; [split; discriminate|]. apply IH. discriminate.
Qed.
Lemma detect_one_safe fuel out : detect_one o e solve emit term i dir a n h fuel cd out <> MUB /\ detect_one o e solve emit term i dir a n h fuel cd out <> MThrow.
Proof.
  unfold detect_one. destruct (fex_done L X e EL false a n h Ha Hl Hh) as [fx Ef]. rewrite Ef. cbn [mbind].
  destruct fx; [split; discriminate|]. destruct (fle o (e_nat e 1) _); [split; discriminate|]. cbv zeta.
  destruct (isolate_safe fuel (lb_offset o e term h cd) [(zero, e_nat e 1, poly_rescale o e a h)] [] out ltac:(discriminate)) as [S1 S2].
  destruct (isolate o e emit term i dir a n h fuel _ _ _ _) as [[[fl isol] out1]| | |]; cbn [mbind]; [|congruence|congruence|split; discriminate].
  destruct (_ || _); split; discriminate.
Qed.
End One.

(* --- Rows of the jet ---------------------------------------------------------------------- *)
Lemma jet_row_unique jet order row (a b : list F) : jet_row jet order row a -> jet_row jet order row b -> a = b.
Proof.
  intros [L1 H1] [L2 H2]. apply nth_error_ext. intros k. destruct (le_lt_dec k order) as [K|K].
  - rewrite <- H1, <- H2; auto.
  - rewrite !(proj2 (nth_error_None _ _)) by lia. auto.
Qed.
Lemma event_poly_row jet order row a : event_poly o jet row order = MDone a -> jet_row jet order row a.
Proof.
  unfold event_poly. destruct (Nat.leb _ _) eqn:Q; [|discriminate]. apply Nat.leb_le in Q. intros H. injection H as <-.
  replace (order + 1)%nat with (S order) in * by lia. split.
  - rewrite firstn_length, skipn_length. lia.
  - intros k Hk. rewrite nth_error_firstn' by lia. rewrite nth_error_skipn'. auto.
Qed.
Lemma jet_row_finite jet order row (a : list F) : finite jet -> jet_row jet order row a -> finite a.
Proof.
  unfold finite. rewrite !Forall_forall. intros H [L1 H1] x Hx. apply In_nth_error in Hx. destruct Hx as [k Hk].
  assert (k < length a)%nat by (apply nth_error_Some; congruence). apply H. apply (nth_error_In jet (row * S order + k)). rewrite H1 by lia. auto.
Qed.

(* --- All the events -------------------------------------------------------------------------- *)
Section All.
Context {Ev : Type} (emit : nat -> F -> Z -> F -> Ev) (term : bool).
Context (jet : list F) (base order : nat) (h : F).
Context (Hj : finite jet) (Ho : (0 < order)%nat) (Hh : ffin o h = true) (Hh0 : val h <> 0).
Fixpoint emitted (i : nat) (repss : list (list (F * Z * F))) : list Ev :=
  match repss with [] => [] | r :: rs => map (mk emit i) r ++ emitted (S i) rs end.
Definition ev_ok (dir : Z) (cd : option (F * F)) (a : list F) (failed : Prop) (reps : list (F * Z * F)) : Prop :=
  Forall (rep_ok dir a h cd) reps /\
  (~ failed -> solver_succeeds L e solve -> (exists c, In c (vals a) /\ c <> 0) -> forall t, in_step (val h) t -> peval (vals a) t = 0 -> direction_ok dir (vals a) t -> cooldown_past L cd t ->
     (forall t', dyadic_point (val h) t' -> peval (vals a) t' = 0 -> t' = t) -> exists p, In p reps /\ tm p = t) /\
  ((forall t', dyadic_point (val h) t' -> peval (vals a) t' <> 0) -> NoDup (map tm reps)).
Lemma zero_or (a : list F) : Forall (fun c => c = 0) (vals a) \/ exists c, In c (vals a) /\ c <> 0.
Proof.
  induction (vals a) as [|c l IH]; [left; constructor|]. destruct (Req_EM_T c 0) as [->|N]; [|right; exists c; split; [left|]; auto].
  destruct IH as [IH|[d [H1 H2]]]; [left; constructor; auto|right; exists d; split; [right|]; auto].
Qed.
Lemma run_spec fuel : forall evs i fails out fails' out',
  (term = false -> Forall (fun ev => snd ev = None) evs) -> Forall (fun ev => cooldown_valid L (snd ev)) evs ->
  run_detection o e solve emit term fuel jet base order h i evs fails out = MDone (fails', out') ->
  (exists new, fails' = fails ++ new) /\
  exists repss, length repss = length evs /\ out' = out ++ emitted i repss /\
    forall k dir cd, nth_error evs k = Some (dir, cd) -> exists a reps, jet_row jet order (base + (i + k)) a /\
      nth_error repss k = Some reps /\ ev_ok dir cd a (In (i + k)%nat fails') reps.
Proof.
  induction evs as [|[dir cd] evs IH]; intros i fails out fails' out' Hn Hv H; cbn [run_detection] in H.
  { injection H as <- <-. split; [exists []; rewrite app_nil_r; auto|]. exists []. split; [auto|]. split; [cbn; rewrite app_nil_r; auto|]. intros [|k]; discriminate. }
  destruct (event_poly o jet (i + base) order) as [a| | |] eqn:Ea; cbn [mbind] in H; try discriminate.
  apply event_poly_row in Ea. rewrite (Nat.add_comm i base) in Ea.
  pose proof (jet_row_finite _ _ _ _ Hj Ea) as Fa. pose proof (proj1 Ea) as La.
  inversion Hv as [|? ? Hv1 Hv2]; subst. cbn [snd] in Hv1.
  assert (Hn1 : term = false -> cd = None) by (intros K; specialize (Hn K); inversion Hn; auto).
  assert (Hn2 : term = false -> Forall (fun ev : Z * option (F * F) => snd ev = None) evs) by (intros K; specialize (Hn K); inversion Hn; auto).
  destruct (detect_one o e solve emit term i dir a order h fuel cd out) as [[failed out1]| | |] eqn:Ed; cbn [mbind] in H; try discriminate.
  cbn [fst snd] in H.
  destruct (IH _ _ _ _ _ Hn2 Hv2 H) as [[new Enew] [repss [R1 [R2 R3]]]].
  assert (D : exists reps, out1 = out ++ map (mk emit i) reps /\ Forall (rep_ok dir a h cd) reps /\
    (failed = false -> solver_succeeds L e solve -> (exists c, In c (vals a) /\ c <> 0) -> forall t, in_step (val h) t -> peval (vals a) t = 0 -> direction_ok dir (vals a) t -> cooldown_past L cd t ->
       (forall t', dyadic_point (val h) t' -> peval (vals a) t' = 0 -> t' = t) -> exists p, In p reps /\ tm p = t) /\
    ((forall t', dyadic_point (val h) t' -> peval (vals a) t' <> 0) -> NoDup (map tm reps))).
  { destruct (zero_or a) as [Z0|Nz].
    - destruct (detect_one_zero emit term i dir a order h Fa La Ho Hh Hh0 cd Hv1 Hn1 fuel out failed out1 Z0 Ed) as [reps [D1 D2]].
      exists reps. split; [auto|]. split; [auto|]. split.
      + intros _ _ [c [Hc Hc']]. rewrite Forall_forall in Z0. exfalso. auto.
      + intros K. exfalso. apply (K (val h * 0)); [exists 0%nat, 0%nat; split; [cbn; lia|cbn; field]|]. apply peval_all0. auto.
    - destruct (detect_one_spec emit term i dir a order h Fa La Ho Hh Hh0 cd Hv1 Hn1 fuel out failed out1 Nz Ed) as [reps [D1 [D2 [D3 D4]]]].
      exists reps. split; [auto|]. split; [auto|]. split; [|auto]. intros K FT _. apply D3; auto. }
  destruct D as [reps [D1 [D2 [D3 D4]]]].
  split.
  { destruct failed; [exists (i :: new); rewrite Enew, <- app_assoc; auto|exists new; auto]. }
  exists (reps :: repss). split; [cbn; auto|]. split; [cbn [emitted]; rewrite R2, D1, <- app_assoc; auto|].
  intros [|k] dir' cd' Hk; cbn in Hk.
  - injection Hk as <- <-. exists a, reps. rewrite Nat.add_0_r. split; [auto|]. split; [auto|]. split; [auto|]. split; [|auto].
    intros Nf. apply D3. destruct failed; auto. exfalso. apply Nf. rewrite Enew. apply in_or_app. left. apply in_or_app. right. left. auto.
  - destruct (R3 k dir' cd' Hk) as [b [rs [K1 [K2 K3]]]]. exists b, rs. replace (i + S k)%nat with (S i + k)%nat by lia. auto.
Qed.
Lemma run_safe fuel : forall evs i fails out,
  (term = false -> Forall (fun ev => snd ev = None) evs) -> Forall (fun ev => cooldown_valid L (snd ev)) evs ->
  ((base + i + length evs) * S order <= length jet)%nat ->
  run_detection o e solve emit term fuel jet base order h i evs fails out <> MUB /\ run_detection o e solve emit term fuel jet base order h i evs fails out <> MThrow.
Proof.
  induction evs as [|[dir cd] evs IH]; intros i fails out Hn Hv Hlen; cbn [run_detection]; [split; discriminate|].
  inversion Hv as [|? ? Hv1 Hv2]; subst. cbn [snd] in Hv1. cbn [length] in Hlen.
  assert (Hn1 : term = false -> cd = None) by (intros K; specialize (Hn K); inversion Hn; auto).
  assert (Hn2 : term = false -> Forall (fun ev : Z * option (F * F) => snd ev = None) evs) by (intros K; specialize (Hn K); inversion Hn; auto).
  unfold event_poly. rewrite (proj2 (Nat.leb_le _ _)) by nia. cbn [mbind].
  set (a := firstn _ _). assert (Ea : jet_row jet order (i + base) a).
  { apply event_poly_row. unfold event_poly. rewrite (proj2 (Nat.leb_le _ _)) by nia. auto. }
  destruct (detect_one_safe emit term i dir a order h (jet_row_finite _ _ _ _ Hj Ea) (proj1 Ea) Hh cd fuel out) as [S1 S2].
  destruct (detect_one o e solve emit term i dir a order h fuel cd out) as [[failed out1]| | |]; cbn [mbind]; [|congruence|congruence|split; discriminate].
  apply IH; auto. cbn [fst]. nia.
Qed.
Lemma emitted_in : forall repss i ev, In ev (emitted i repss) <-> exists k reps p, nth_error repss k = Some reps /\ In p reps /\ ev = mk emit (i + k) p.
Proof.
  clear Hj Ho Hh Hh0. induction repss as [|r rs IH]; intros i ev; cbn [emitted].
  - split; [intros []|]. intros [[|k] [reps [p [H _]]]]; discriminate.
  - rewrite in_app_iff, in_map_iff, IH. split.
    + intros [[p [<- Hp]]|[k [reps [p [H1 [H2 H3]]]]]].
      * exists 0%nat, r, p. rewrite Nat.add_0_r. auto.
      * exists (S k), reps, p. replace (i + S k)%nat with (S i + k)%nat by lia. auto.
    + intros [[|k] [reps [p [H1 [H2 ->]]]]]; cbn in H1.
      * injection H1 as <-. left. exists p. rewrite Nat.add_0_r. auto.
      * right. exists k, reps, p. replace (i + S k)%nat with (S i + k)%nat by lia. auto.
Qed.
Lemma emitted_filter (idx : Ev -> nat) : (forall i p, idx (mk emit i p) = i) -> forall repss i k reps, nth_error repss k = Some reps ->
  filter (fun ev => Nat.eqb (idx ev) (i + k)) (emitted i repss) = map (mk emit (i + k)) reps.
Proof.
  clear Hj Ho Hh Hh0. intros Hidx.
  assert (A : forall i j reps, filter (fun ev => Nat.eqb (idx ev) j) (map (mk emit i) reps) = if Nat.eqb i j then map (mk emit i) reps else []).
  { intros i j. induction reps as [|p reps IH]; cbn [map filter]; [destruct (Nat.eqb i j); auto|]. rewrite Hidx, IH. destruct (Nat.eqb i j); auto. }
  assert (B : forall repss i j, (j < i)%nat -> filter (fun ev => Nat.eqb (idx ev) j) (emitted i repss) = []).
  { induction repss as [|r rs IH]; intros i j H; cbn [emitted]; [auto|]. rewrite filter_app, A, IH by lia. rewrite (proj2 (Nat.eqb_neq _ _)) by lia. auto. }
  induction repss as [|r rs IH]; intros i k reps Hk; [destruct k; discriminate|]. cbn [emitted]. rewrite filter_app, A. destruct k as [|k]; cbn in Hk.
  - injection Hk as <-. rewrite Nat.add_0_r, Nat.eqb_refl, B by lia. apply app_nil_r.
  - rewrite (proj2 (Nat.eqb_neq _ _)) by lia. cbn [app]. replace (i + S k)%nat with (S i + k)%nat by lia. apply IH. auto.
Qed.
End All.
End Det.
