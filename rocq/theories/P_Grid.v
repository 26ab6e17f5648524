From Coq Require Import List ZArith NArith Bool Reals Lra Lia.
From Verif Require Import M_Float M_Search M_Step M_Prop S_Step S_Prop S_Grid P_Step P_Prop P_PropX.
Import ListNotations.
Local Open Scope R_scope.

Section G.
Context {o : fops} {St Jt En Row : Type} (L : flaws o) (X : exact_laws L).
Notation F := (F o).
Notation world := (world o St Jt En).
Notation integ := (integ o St Jt).
Notation cfg := (cfg o St Jt En).
Notation gcfg := (gcfg o St Jt En Row).
Notation pargs := (pargs o St Jt En).
Notation gargs := (gargs o St Jt En).
Notation iter := (iter o St Jt En).
Notation dense_rows := (dense_rows o St Jt En Row).
Notation grid_loop := (grid_loop o St Jt En Row).
Notation covered := (covered (En := En) L).

(** *** Steps keep track of the timestep *)
Lemma keeps_refl : forall w : world, keeps w w.
Proof. intros; repeat split. Qed.
Lemma keeps_trans : forall a b c : world, keeps a b -> keeps b c -> keeps a c.
Proof. intros a b c [A1 [A2 A3]] [B1 [B2 B3]]. repeat split; congruence. Qed.

Lemma invoked_keeps : forall (cf : cfg) t l w w', events_keep cf -> invoked cf t l w w' -> keeps w w'.
Proof.
  intros cf t l w w' [H _] Hi. induction Hi; [apply keeps_refl|].
  eapply keeps_trans; [|exact IHHi]. eapply H; eauto.
Qed.

Lemma step_last_h : forall (cf : cfg) lim w oc h w', events_keep cf ->
  step_impl o St Jt En cf lim true w = Ret (oc, h, w') -> ig_last_h (fst w') = h.
Proof.
  intros cf lim w oc h w' Hk H. unfold step_impl in H. destruct (c_events _ _ _ _ cf).
  - unfold step_events in H.
    destruct (c_estep _ _ _ _ cf _ _ _) as [[jet h0] m].
    destruct (c_detect _ _ _ _ cf jet h0 _ _) as [tes ntes].
    set (st := c_sort_te _ _ _ _ cf tes) in *. set (sn := c_sort_nte _ _ _ _ cf ntes) in *.
    set (hh := match st with [] => h0 | e :: _ => te_time e end) in *.
    match type of H with (if ?b then _ else _) = _ => destruct b end; [inversion H; subst; reflexivity|].
    match type of H with match ?r with _ => _ end = _ => destruct r as [w2|w2] eqn:Er; [|discriminate] end.
    apply run_ntes_invoked in Er. apply invoked_keeps in Er; auto. destruct Er as [_ [Er _]]. cbn in Er.
    assert (FIN : forall (w3 : world) oc0 (b : bool), (if b then Exn w3 else Ret (oc0, hh, w3)) = Ret (oc, h, w') -> h = hh /\ w' = w3).
    { intros w3 oc0 b K. destruct b; [discriminate|]. inversion K; auto. }
    destruct st as [|e st'].
    + apply FIN in H as [-> ->]. auto.
    + destruct (c_te_cb _ _ _ _ cf (te_idx e)) as [cb|] eqn:Ec.
      * match type of H with match ?r with _ => _ end = _ => destruct r as [[w3 b]|w3] eqn:E3; [|discriminate] end.
        apply FIN in H as [-> ->]. destruct Hk as [_ Hk]. destruct (Hk _ _ _ _ _ _ Ec E3) as [_ [K _]]. rewrite K. auto.
      * apply FIN in H as [-> ->]. auto.
  - unfold step_vanilla in H. destruct (c_step _ _ _ _ cf _ _ _) as [[s' h1] tc']. inversion H; subst. auto.
Qed.

(** *** Ranges *)
Lemma d_le_val : forall a b : dfl o, d_fin a = true -> d_fin b = true -> fval L (lo a) = 0 -> fval L (lo b) = 0 ->
  (d_le a b = true <-> dval L a <= dval L b).
Proof.
  intros a b Ha Hb La Lb. unfold d_fin, d_le, dval in *. apply andb_prop in Ha as [A1 A2]. apply andb_prop in Hb as [B1 B2].
  rewrite orb_true_iff, andb_true_iff, (fl_lt o L), (fl_eq o L), (fl_le o L) by auto. lra.
Qed.
Lemma d_lt_val : forall a b : dfl o, d_fin a = true -> d_fin b = true -> fval L (lo a) = 0 -> fval L (lo b) = 0 ->
  (d_lt a b = true <-> dval L a < dval L b).
Proof.
  intros a b Ha Hb La Lb. unfold d_fin, d_lt, dval in *. apply andb_prop in Ha as [A1 A2]. apply andb_prop in Hb as [B1 B2].
  rewrite orb_true_iff, andb_true_iff, !(fl_lt o L), (fl_eq o L) by auto. lra.
Qed.
Lemma d_ge_le : forall a b : dfl o, d_fin a = true -> d_fin b = true -> fval L (lo a) = 0 -> fval L (lo b) = 0 ->
  (d_ge a b = true <-> dval L b <= dval L a).
Proof.
  intros a b Ha Hb La Lb. unfold d_fin, d_ge, dval in *. apply andb_prop in Ha as [A1 A2]. apply andb_prop in Hb as [B1 B2].
  rewrite orb_true_iff, andb_true_iff, (fl_lt o L), (fl_eq o L), (fl_le o L) by auto. lra.
Qed.

(** A finite double-length time whose low part is zero. *)
Definition good_t (d : dfl o) : Prop := d_fin d = true /\ fval L (lo d) = 0.

Lemma good_min : forall a b, good_t a -> good_t b -> good_t (d_min a b) /\ dval L (d_min a b) = Rmin (dval L a) (dval L b).
Proof.
  intros a b [A1 A2] [B1 B2]. unfold d_min. destruct (d_lt b a) eqn:E.
  - apply d_lt_val in E; auto. split; [split; auto|]. rewrite Rmin_right; lra.
  - split; [split; auto|]. assert (~ dval L b < dval L a) by (intros K; apply d_lt_val in K; auto; congruence).
    rewrite Rmin_left; lra.
Qed.
Lemma good_max : forall a b, good_t a -> good_t b -> good_t (d_max a b) /\ dval L (d_max a b) = Rmax (dval L a) (dval L b).
Proof.
  intros a b [A1 A2] [B1 B2]. unfold d_max. destruct (d_lt a b) eqn:E.
  - apply d_lt_val in E; auto. split; [split; auto|]. rewrite Rmax_right; lra.
  - split; [split; auto|]. assert (~ dval L a < dval L b) by (intros K; apply d_lt_val in K; auto; congruence).
    rewrite Rmax_left; lra.
Qed.
Lemma good_of : forall x, ffin o x = true -> good_t (d_of x) /\ dval L (d_of x) = fval L x.
Proof.
  intros x Hx. destruct (ex_of L x Hx) as [A B]. split; auto. split; auto. cbn. apply (fl_0 o L).
Qed.

(** *** One batch of dense output *)
Lemma monotone_weaken : forall (dir : bool) t t' l, (if dir then t' <= t else t <= t') -> monotone L dir t l -> monotone L dir t' l.
Proof.
  intros dir t t' l Ht. induction l as [|x l IH]; cbn; auto. intros [A [B [C D]]]. repeat split; auto.
  unfold beyond in *. destruct dir; lra.
Qed.

Lemma dense_rows_ok : forall (cf : gcfg) g t0 t1 lst (dir : bool) tmin grid rs rest,
  good_t (ig_time g) -> ffin o (ig_last_h g) = true -> good_t t0 -> good_t t1 ->
  dval L t0 = Rmin (dval L (ig_time g)) (dval L (ig_time g) - fval L (ig_last_h g)) ->
  dval L t1 = Rmax (dval L (ig_time g)) (dval L (ig_time g) - fval L (ig_last_h g)) ->
  monotone L dir tmin grid ->
  (if dir then dval L t0 <= tmin else tmin <= dval L t1) ->
  (lst = true -> forall x, In x grid -> if dir then fval L x <= dval L (ig_time g) else dval L (ig_time g) <= fval L x) ->
  dense_rows cf g t0 t1 lst grid = (rs, rest) ->
  exists done, grid = done ++ rest /\ Forall2 (covered cf g) done rs /\
    monotone L dir (if dir then dval L t1 else dval L t0) rest.
Proof.
  intros cf g t0 t1 lst dir tmin.
  induction grid as [|x grid IH]; intros rs rest Hg Hh G0 G1 V0 V1 Hm Ht Hl H; cbn [M_Prop.dense_rows] in H.
  { inversion H; subst. exists []. repeat split; auto. }
  destruct Hm as [Hx [Hb [Ha Hm]]].
  destruct (good_of x Hx) as [GX VX].
  destruct ((d_ge (d_of x) t0 && d_le (d_of x) t1) || lst) eqn:E.
  - destruct (dense_rows cf g t0 t1 lst grid) as [rs' rest'] eqn:Er. inversion H; subst; clear H.
    assert (HB : (if dir then dval L t0 <= fval L x else fval L x <= dval L t1)) by (destruct dir; cbn in Hb; lra).
    destruct (IH rs' rest) as [done [D1 [D2 D3]]]; auto.
    { intros K y Hy. apply Hl; auto. right; auto. }
    exists (x :: done). split; [cbn; f_equal; auto|]. split; auto. constructor; auto.
    assert (RNG : dval L t0 <= fval L x <= dval L t1).
    { apply orb_true_iff in E as [E|E].
      - apply andb_prop in E as [E1 E2]. destruct GX, G0, G1. apply d_ge_le in E1; auto. apply d_le_val in E2; auto. lra.
      - specialize (Hl E x (or_introl eq_refl)).
        pose proof (Rmin_l (dval L (ig_time g)) (dval L (ig_time g) - fval L (ig_last_h g))).
        pose proof (Rmax_l (dval L (ig_time g)) (dval L (ig_time g) - fval L (ig_last_h g))).
        destruct dir; lra. }
    destruct Hg as [Hg1 Hg2].
    destruct (ex_dsubf L X _ _ Hg1 Hh) as [S1 [S2 S3]].
    destruct (ex_fsubd L X x _ Hx S1) as [F1 [F2 F3]].
    exists (hi (f_subd x (d_subf (ig_time g) (ig_last_h g)))). split; auto. cbn zeta. split.
    + rewrite F2. unfold dval at 1. rewrite S2, S3. lra.
    + rewrite V0, V1 in RNG. unfold Rmin, Rmax in RNG.
      destruct (Rle_dec (dval L (ig_time g)) (dval L (ig_time g) - fval L (ig_last_h g))); lra.
  - inversion H; subst; clear H. exists []. split; auto. split; auto.
    apply orb_false_iff in E as [E E'].
    assert (NB : if dir then dval L t1 < fval L x else fval L x < dval L t0).
    { destruct GX, G0, G1.
      destruct (d_ge (d_of x) t0) eqn:E1; cbn [andb] in E.
      - destruct dir.
        + apply Rnot_le_lt. intros K. rewrite <- VX in K. apply d_le_val in K; auto. congruence.
        + cbn in Hb. exfalso. assert (K : d_le (d_of x) t1 = true) by (apply d_le_val; auto; lra). congruence.
      - destruct dir.
        + cbn in Hb. exfalso. assert (K : d_ge (d_of x) t0 = true) by (apply d_ge_le; auto; lra). congruence.
        + apply Rnot_le_lt. intros K. rewrite <- VX in K. apply d_ge_le in K; auto. congruence. }
    cbn. split; auto. split; [destruct dir; auto|]. split; auto.
    clear - NB Ha Hm. induction grid as [|y grid IH]; cbn in *; auto.
    destruct Hm as [H1 [H2 [H3 H4]]]. inversion Ha as [|? ? HA HB]; subst. unfold after in HA. repeat split; auto.
    destruct dir; cbn; lra.
Qed.

Lemma Forall2_impl' : forall (A B : Type) (P Q : A -> B -> Prop) l l', (forall x y, P x y -> Q x y) -> Forall2 P l l' -> Forall2 Q l l'.
Proof. intros A B P Q l l' H F2. induction F2; constructor; auto. Qed.

(** Loop invariant. *)
Definition ginv (a : gargs) (dir : bool) (w : world) (rem : dfl o) (grid : list F) : Prop :=
  good_t (w_time w) /\ ffin o (ig_last_h (fst w)) = true /\
  d_fin rem = true /\ fval L (lo rem) = 0 /\ fval L (hi rem) = fval L (b_last o St Jt En a) - dval L (w_time w) /\
  (if dir then 0 <= fval L (hi rem) else fval L (hi rem) <= 0) /\
  (forall x, In x grid -> if dir then fval L x <= fval L (b_last o St Jt En a) else fval L (b_last o St Jt En a) <= fval L x) /\
  monotone L dir (if dir then Rmin (dval L (w_time w)) (dval L (w_time w) - fval L (ig_last_h (fst w)))
                  else Rmax (dval L (w_time w)) (dval L (w_time w) - fval L (ig_last_h (fst w)))) grid.

Lemma grid_loop_ok : forall (cf : gcfg) (a : gargs) (dir : bool),
  stepper_ok L (g_cfg o St Jt En Row cf) -> detect_ok L cf -> sort_ok L cf -> events_keep cf -> cb_keeps (b_cb o St Jt En a) ->
  fnan o (b_max_dt o St Jt En a) = false -> fle o (b_max_dt o St Jt En a) (f0 o) = false -> ffin o (b_last o St Jt En a) = true ->
  forall fuel w iter steps mn mx rem interrupt rows grid q,
  ginv a dir w rem grid ->
  grid_loop fuel cf a dir w iter steps mn mx rem interrupt rows grid = PRet q ->
  exists its done left newrows,
    glinked (b_last o St Jt En a) w rem its /\ Forall (happened cf (ga a)) its /\ Forall (capped (ga a) dir) its /\
    uninterrupted (b_max_steps o St Jt En a) iter its /\ (interrupt <> oc_success -> its = []) /\
    grid = done ++ left /\ q_rows o St Jt En Row q = rows ++ newrows /\
    Forall2 (fun x r => exists g, from_run w its g /\ covered cf g x r) done newrows /\
    monotone L dir (dval L (w_time (grid_reached w its))) left /\
    q_world o St Jt En Row q = grid_end w its /\
    q_oc o St Jt En Row q = (if (interrupt =? oc_success)%Z then grid_outcome (b_max_steps o St Jt En a) iter its else interrupt) /\
    (q_oc o St Jt En Row q = oc_time_limit -> interrupt <> oc_time_limit -> left = []) /\
    q_steps o St Jt En Row q = (steps + N.of_nat (length (filter counted its)))%N /\
    q_min o St Jt En Row q = fold_left f_min (successes its) mn /\
    q_max o St Jt En Row q = fold_left f_max (successes its) mx.
Proof.
  intros cf a dir S1 S2 S3 S4 S5 M1 M2 ML.
  assert (TL : d_fin (d_of (b_last o St Jt En a)) = true /\ dval L (d_of (b_last o St Jt En a)) = fval L (b_last o St Jt En a)).
  { apply ex_of; auto. }
  destruct TL as [TL1 TL2]. destruct (fl_0 o L) as [Z1 Z2].
  induction fuel as [|fuel IH]; intros w iter steps mn mx rem interrupt rows grid q Hinv H.
  - destruct grid as [|x grid]; cbn in H; [|discriminate]. inversion H; subst; clear H.
    exists [], [], [], []. cbn [q_rows q_world q_oc q_steps q_min q_max glinked uninterrupted grid_reached grid_end grid_outcome].
    repeat split; auto; cbn; auto; try lia. rewrite app_nil_r; auto.
  - destruct Hinv as [I1 [I2 [I3 [I4 [I5 [I6 [I7 I8]]]]]]].
    destruct grid as [|x grid].
    { cbn in H. inversion H; subst; clear H.
      exists [], [], [], []. cbn [q_rows q_world q_oc q_steps q_min q_max glinked uninterrupted grid_reached grid_end grid_outcome].
      repeat split; auto; cbn; auto; try lia. rewrite app_nil_r; auto. }
    cbn [M_Prop.grid_loop] in H.
    destruct (ex_dsubf L X _ _ (proj1 I1) I2) as [TB1 [TB2 TB3]].
    change (ig_time (fst w)) with (w_time w) in *.
    assert (GB : good_t (d_subf (w_time w) (ig_last_h (fst w)))) by (split; auto).
    assert (VB : dval L (d_subf (w_time w) (ig_last_h (fst w))) = dval L (w_time w) - fval L (ig_last_h (fst w))).
    { unfold dval at 1. rewrite TB2, TB3. lra. }
    destruct (good_min _ _ I1 GB) as [G0 V0]. destruct (good_max _ _ I1 GB) as [G1 V1]. rewrite VB in V0, V1.
    match type of H with (let '(_, _) := ?d in _) = _ => destruct d as [rs rest] eqn:Ed end.
    eapply dense_rows_ok with (dir := dir) in Ed; eauto.
    2:{ destruct dir; [rewrite V0|rewrite V1]; apply Rle_refl. }
    2:{ intros K y Hy. specialize (I7 y Hy). unfold d_eq, d_of in K. cbn [hi lo] in K. apply andb_prop in K as [K _].
        apply (fl_eq o L) in K; auto; [|unfold d_fin in I3; apply andb_prop in I3; tauto].
        rewrite K, Z2 in I5. change (ig_time (fst w)) with (w_time w). destruct dir; lra. }
    destruct Ed as [done [D1 [D2 D3]]].
    assert (COV : forall its, Forall2 (fun x r => exists g, from_run w its g /\ covered cf g x r) done rs).
    { intros its. clear - D2. induction D2; constructor; auto. exists (fst w). split; auto. left; auto. }
    assert (D3' : monotone L dir (dval L (w_time w)) rest).
    { eapply monotone_weaken; [|exact D3]. destruct dir; [rewrite V1; apply Rmax_l|rewrite V0; apply Rmin_l]. }
    assert (FINI : forall rest0, rest = rest0 -> (interrupt = oc_success -> rest0 = []) ->
       MkGret o St Jt En Row (if (interrupt =? oc_success)%Z then oc_time_limit else interrupt) mn mx steps (rows ++ rs) w = q ->
       exists its done left newrows,
    glinked (b_last o St Jt En a) w rem its /\ Forall (happened cf (ga a)) its /\ Forall (capped (ga a) dir) its /\
    uninterrupted (b_max_steps o St Jt En a) iter its /\ (interrupt <> oc_success -> its = []) /\
    x :: grid = done ++ left /\ q_rows o St Jt En Row q = rows ++ newrows /\
    Forall2 (fun x r => exists g, from_run w its g /\ covered cf g x r) done newrows /\
    monotone L dir (dval L (w_time (grid_reached w its))) left /\
    q_world o St Jt En Row q = grid_end w its /\
    q_oc o St Jt En Row q = (if (interrupt =? oc_success)%Z then grid_outcome (b_max_steps o St Jt En a) iter its else interrupt) /\
    (q_oc o St Jt En Row q = oc_time_limit -> interrupt <> oc_time_limit -> left = []) /\
    q_steps o St Jt En Row q = (steps + N.of_nat (length (filter counted its)))%N /\
    q_min o St Jt En Row q = fold_left f_min (successes its) mn /\
    q_max o St Jt En Row q = fold_left f_max (successes its) mx).
    { intros rest0 -> HR K. subst q. exists [], done, rest0, rs.
      cbn [q_rows q_world q_oc q_steps q_min q_max glinked uninterrupted grid_reached grid_end grid_outcome].
      repeat split; auto; try (intros K1 K2; apply HR; destruct (Z.eqb_spec interrupt oc_success) as [Q|Q]; [exact Q|contradiction]); cbn; try lia; auto. }

    destruct rest as [|y rest]. { apply (FINI []); auto. injection H; auto. }
    destruct (Z.eqb_spec interrupt oc_success) as [Hint|Hint]; cbn [negb] in H.
    2:{ apply (FINI (y :: rest)); auto; [intros; contradiction|]. injection H as <-. destruct (Z.eqb_spec interrupt oc_success); [contradiction|auto]. }
    clear FINI. subst interrupt.
    destruct (step_impl o St Jt En cf (dt_limit o dir (b_max_dt o St Jt En a) rem) true w) as [[[oc h] w1]|w1] eqn:Es; [|discriminate].
    pose proof (step_last_h _ _ _ _ _ _ S4 Es) as HLH.
    destruct (Z.eqb_spec oc oc_err_nf_state) as [Eoc|Eoc].
    { injection H as <-. subst oc. clear HLH.
      set (it := MkIter rem w (dt_limit o dir (b_max_dt o St Jt En a) rem) oc_err_nf_state h w1 true w1).
      exists [it], done, (y :: rest), rs.
      cbn [q_rows q_world q_oc q_steps q_min q_max glinked uninterrupted grid_reached grid_end grid_outcome it it_oc it_w0 it_rem it_w2].
      rewrite Z.eqb_refl.
      split. { auto. }
      split. { repeat constructor; cbn; auto; try (intros K; exfalso; apply K; reflexivity). }
      split. { apply Forall_cons; [reflexivity|constructor]. }
      split. { split; auto. intros K; exfalso; apply K; auto. }
      split. { intros K; exfalso; apply K; auto. }
      split; auto. split; auto. split; auto. split; auto. split; auto. split; auto. split. { discriminate. }
      unfold successes, counted. cbn. repeat split; lia. }
    destruct (run_cb o St Jt En (b_cb o St Jt En a) w1) as [[w2 b]|w2] eqn:Ec; [|discriminate].
    set (it := MkIter rem w (dt_limit o dir (b_max_dt o St Jt En a) rem) oc h w1 b w2).
    assert (HAP : happened cf (ga a) it).
    { change (b_cb o St Jt En a) with (a_cb (ga a)) in Ec. apply run_cb_ret in Ec.
      split; [exact Es|]. split; [intros K; exfalso; apply Eoc; exact K|]. intros _. exact Ec. }
    assert (CAP : capped (ga a) dir it) by reflexivity.
    assert (NF : ~ failed it) by exact Eoc.
    destruct (iter_exact L X cf (ga a) dir it S1 S2 S3 M1 M2 HAP CAP (proj1 I1) I3) as [ADV [FW2 BND]]; auto.
    { cbn [it it_rem it_w0 ga a_t]. rewrite TL2. exact I5. }
    destruct ADV as [A1 [A2 [A3 [A4 [A5 [A6 [A7 _]]]]]]]. cbn [it it_h it_w2 it_w0 it_rem] in A1, A2, A3, BND.
    cbn [ga a_t] in A3. rewrite TL2 in A3.
    (* the callback keeps time, timestep and coefficients *)
    assert (K12 : keeps w1 w2).
    { unfold run_cb in Ec. destruct (b_cb o St Jt En a) as [c|] eqn:Ecb.
      - destruct (cb_call c w1) as [[w' b']|w'] eqn:Ecc; [|discriminate].
        destruct (d_eq _ _); [|discriminate]. inversion Ec; subst. cbn in S5. destruct S5 as [_ S5]. eapply S5; eauto.
      - inversion Ec; subst. apply keeps_refl. }
    destruct K12 as [K1 [K2 K3]].
    assert (W2G : good_t (w_time w2)).
    { split; auto. unfold w_time. rewrite K1.
      destruct (dt_limit_ok L dir (b_max_dt o St Jt En a) rem M1 M2 I3 I4 I6) as [DL _].
      destruct (step_exact L X cf _ _ _ _ _ _ S1 S2 S3 DL (proj1 I1) Es Eoc) as [_ [_ [[_ Q] _]]]. exact Q. }
    assert (LH2 : ig_last_h (fst w2) = h) by congruence.
    eapply IH in H.
    + destruct H as (its & done2 & lft & nr & B1 & B2 & B3 & B4 & B5 & B6 & B7 & B8 & B9 & B10 & B11 & B12 & B13 & B14 & B15).
      exists (it :: its), (done ++ done2), lft, (rs ++ nr).
      assert (ICODE : (if negb b then oc_cb_stop else if is_ste oc then oc
         else if (iter + 1 =? b_max_steps o St Jt En a)%N then oc_step_limit else oc_success) = icode (b_max_steps o St Jt En a) (iter + 1) it) by reflexivity.
      rewrite ICODE in B5, B11, B12.
      split. { cbn [glinked it it_w0 it_rem it_w2 it_h]. auto. }
      split; [constructor; auto|]. split; [constructor; auto|].
      split. { cbn [uninterrupted]. split; auto. intros Hne. split; auto.
        destruct (Z.eq_dec (icode (b_max_steps o St Jt En a) (iter + 1) it) oc_success) as [Q|Q]; auto. exfalso; apply Hne; auto. }
      split. { intros K; exfalso; apply K; auto. }
      split. { rewrite D1, B6. rewrite app_assoc. auto. }
      split. { rewrite B7, app_assoc. auto. }
      split. { apply Forall2_app; [apply COV|]. eapply Forall2_impl'; [|exact B8]. intros x0 r [g [[Hg|[it' [G1' [G2' G3']]]] Hc]].
        - exists g. split; auto. right. exists it. split; [left; auto|]. auto.
        - exists g. split; auto. right. exists it'. split; [right; auto|]. auto. }
      split. { cbn [grid_reached it it_oc it_w2]. destruct (Z.eqb_spec oc oc_err_nf_state); [contradiction|]. exact B9. }
      split; auto.
      assert (OUT : q_oc o St Jt En Row q = grid_outcome (b_max_steps o St Jt En a) iter (it :: its)).
      { rewrite B11. destruct its as [|it2 its2].
        - cbn [grid_outcome it it_oc]. destruct (Z.eqb_spec oc oc_err_nf_state); [contradiction|]. reflexivity.
        - destruct (Z.eqb_spec (icode (b_max_steps o St Jt En a) (iter + 1) it) oc_success) as [Q|Q]; [reflexivity|].
          exfalso. specialize (B5 Q). discriminate. }
      split; auto. split.
      { intros K _. apply B12; auto. unfold icode. destruct (negb _); [discriminate|].
        destruct (_ && _) eqn:E; [|destruct (_ =? _)%N; discriminate].
        intros Q. rewrite Q in E. discriminate. }
      split. { rewrite B13. cbn [filter]. unfold counted at 2. cbn [it it_oc it_h].
        destruct (Z.eqb_spec oc oc_err_nf_state); [contradiction|]. cbn [negb andb].
        destruct (feq o h (f0 o)); cbn [negb length]; lia. }
      split.
      { rewrite B14. unfold successes. cbn [filter it it_oc it_h]. destruct (oc =? oc_success)%Z; reflexivity. }
      { rewrite B15. unfold successes. cbn [filter it it_oc it_h]. destruct (oc =? oc_success)%Z; reflexivity. }
    + (* the invariant is preserved *)
      assert (REM : d_fin (if feq o h (hi rem) then d_of (f0 o) else f_subd (b_last o St Jt En a) (w_time w2)) = true /\
         fval L (lo (if feq o h (hi rem) then d_of (f0 o) else f_subd (b_last o St Jt En a) (w_time w2))) = 0 /\
         fval L (hi (if feq o h (hi rem) then d_of (f0 o) else f_subd (b_last o St Jt En a) (w_time w2))) =
           fval L (b_last o St Jt En a) - dval L (w_time w2)).
      { destruct (feq o h (hi rem)) eqn:Er.
        - destruct (good_of (f0 o) Z1) as [[Q1 Q2] _]. repeat split; auto. cbn [hi d_of].
          assert (R : reached it) by exact Er. apply A5 in R. cbn [ga a_t] in R. rewrite TL2 in R. cbn [it it_w2] in R. lra.
        - destruct (ex_fsubd L X (b_last o St Jt En a) (w_time w2) ML (proj1 W2G)) as [Q1 [Q2 Q3]]. auto. }
      destruct REM as [R1 [R2 R3]].
      split; auto. split; [rewrite LH2; auto|]. split; auto. split; auto. split; auto.
      assert (DIR : if dir then dval L (w_time w) <= dval L (w_time w2) <= fval L (b_last o St Jt En a)
                    else fval L (b_last o St Jt En a) <= dval L (w_time w2) <= dval L (w_time w)).
      { destruct BND as [BN1 BN2]. destruct dir; [specialize (BN1 I6)|specialize (BN2 I6)]; lra. }
      split. { rewrite R3. destruct dir; lra. }
      split. { intros z Hz. apply I7. rewrite D1. apply in_or_app. right; auto. }
      eapply monotone_weaken; [|exact D3'].
      rewrite LH2. replace (dval L (w_time w2) - fval L h) with (dval L (w_time w)) by lra.
      destruct dir; [rewrite Rmin_right; lra|rewrite Rmax_right; lra].
Qed.

(** *** The whole function *)
Notation propagate_grid := (propagate_grid o St Jt En Row).

Lemma grid_mono_ok : forall (dir : bool) (prev : F) l t, ffin o prev = true -> beyond dir t (fval L prev) ->
  grid_mono o dir prev l = true -> monotone L dir t l /\ Forall (after L dir prev) l.
Proof.
  intros dir prev l t. revert prev. induction l as [|x l IH]; intros prev Hp Hb H; cbn; [auto|].
  cbn in H. apply andb_prop in H as [H H2]. apply andb_prop in H as [H0 H1]. apply eqb_prop in H1.
  assert (AX : after L dir prev x).
  { unfold after. destruct dir.
    - apply (fl_lt o L) in H1; auto. lra.
    - apply Rnot_lt_le. intros K. apply (fl_lt o L) in K; auto. congruence. }
  assert (BX : beyond dir t (fval L x)).
  { unfold beyond, after in *. destruct dir; lra. }
  destruct (IH x H0 BX H2) as [A B]. repeat split; auto. constructor; auto.
  eapply Forall_impl; [|exact B]. intros y. unfold after in *. destruct dir; lra.
Qed.

Lemma grid_ok_mono : forall x0 rest, grid_ok o (x0 :: rest) = true ->
  ffin o x0 = true /\ exists dir, monotone L dir (fval L x0) rest.
Proof.
  intros x0 [|y l] H.
  - cbn in H. split; auto. exists true. cbn; auto.
  - cbn [grid_ok] in H. apply andb_prop in H as [H H3]. apply andb_prop in H as [H H2]. apply andb_prop in H as [H0 H1].
    split; auto. exists (flt o x0 y).
    assert (BY : beyond (flt o x0 y) (fval L x0) (fval L y)).
    { destruct (flt o x0 y) eqn:E; cbn.
      - apply (fl_lt o L) in E; auto.
      - assert (~ fval L x0 < fval L y) by (intros K; apply (fl_lt o L) in K; auto; congruence).
        assert (fval L y <> fval L x0).
        { intros K. apply (fl_eq o L) in K; auto. rewrite K in H2. discriminate. }
        lra. }
    destruct (grid_mono_ok _ y l (fval L x0) H1 BY H3) as [A B]. cbn. repeat split; auto.
Qed.

Lemma monotone_last : forall dir t x l, monotone L dir t (x :: l) ->
  ffin o (last (x :: l) x) = true /\ beyond dir t (fval L (last (x :: l) x)) /\
  forall y, In y (x :: l) -> after L dir y (last (x :: l) x).
Proof.
  intros dir t x l. revert x. induction l as [|z l IH]; intros x [H1 [H2 [H3 H4]]].
  - cbn. repeat split; auto. intros y [<-|[]]. unfold after. destruct dir; lra.
  - destruct (IH z H4) as [A [B C]].
    replace (last (x :: z :: l) x) with (last (z :: l) z).
    2:{ change (last (x :: z :: l) x) with (last (z :: l) x). clear. revert z. induction l as [|a l IHl]; intros z; auto.
        change (last (a :: l) z = last (a :: l) x). clear IHl. revert a. induction l as [|b l IHl]; intros a; auto.
        apply IHl. }
    repeat split; auto. intros y [<-|Hy]; auto.
    inversion H3; subst. unfold after in *. specialize (C z (or_introl eq_refl)). destruct dir; lra.
Qed.

Lemma last_cons_default : forall (A : Type) (l : list A) a b c, last (a :: l) b = last (a :: l) c.
Proof. intros A l. induction l as [|x l IH]; intros a b c; auto. apply (IH x). Qed.

Definition first_args (max_steps : N) (max_dt x0 : F) : pargs :=
  {| a_t := d_of x0; a_max_steps := max_steps; a_max_dt := max_dt; a_cb := None; a_wtc := true; a_cout := false |}.

Theorem grid_returns : forall fuel (cf : gcfg) grid max_steps max_dt cb w q,
  stepper_ok L (g_cfg o St Jt En Row cf) -> detect_ok L cf -> sort_ok L cf -> events_keep cf -> cb_keeps cb ->
  propagate_grid fuel cf grid max_steps max_dt cb w = PRet q ->
  exists x0 rest r0, grid = x0 :: rest /\ feq o (hi (w_time w)) x0 = true /\
    propagate_until o St Jt En fuel cf (first_args max_steps max_dt x0) w = PRet r0 /\
    ((p_oc r0 <> oc_time_limit /\ q = MkGret o St Jt En Row (p_oc r0) (finf o) (f0 o) 0 [] (p_world r0)) \/
     (p_oc r0 = oc_time_limit /\ dval L (w_time (p_world r0)) = fval L x0 /\
      exists dir w1 its done left newrows,
        let a := {| b_max_steps := max_steps; b_max_dt := max_dt; b_cb := cb; b_last := last grid x0 |} in
        prepared (ga a) (p_world r0) w1 /\
        glinked (last grid x0) w1 (f_subd (last grid x0) (w_time (p_world r0))) its /\
        Forall (happened cf (ga a)) its /\ Forall (capped (ga a) dir) its /\ uninterrupted max_steps 0 its /\
        monotone L dir (fval L x0) rest /\ rest = done ++ left /\
        q_rows o St Jt En Row q = g_row o St Jt En Row cf (ig_state (fst (p_world r0))) :: newrows /\
        Forall2 (fun x r => exists g, from_run w1 its g /\ covered cf g x r) done newrows /\
        monotone L dir (dval L (w_time (grid_reached w1 its))) left /\
        q_world o St Jt En Row q = grid_end w1 its /\
        q_oc o St Jt En Row q = grid_outcome max_steps 0 its /\
        (q_oc o St Jt En Row q = oc_time_limit -> left = []) /\
        q_steps o St Jt En Row q = N.of_nat (length (filter counted its)) /\
        q_min o St Jt En Row q = fold_left f_min (successes its) (finf o) /\
        q_max o St Jt En Row q = fold_left f_max (successes its) (f0 o))).
Proof.
  intros fuel cf grid max_steps max_dt cb w q S1 S2 S3 S4 S5 H.
  unfold M_Prop.propagate_grid in H.
  destruct (d_fin (w_time w)) eqn:A1; [|discriminate].
  destruct (fnan o max_dt) eqn:A2; [discriminate|].
  destruct (fle o max_dt (f0 o)) eqn:A3; [discriminate|].
  destruct (grid_ok o grid) eqn:A4; [|discriminate]. cbn [negb] in H.
  destruct grid as [|x0 rest]; [discriminate|].
  destruct (feq o (hi (w_time w)) x0) eqn:A5; [|discriminate]. cbn [negb] in H.
  fold (first_args max_steps max_dt x0) in H.
  destruct (M_Prop.propagate_until o St Jt En fuel cf (first_args max_steps max_dt x0) w) as [r0|w'|] eqn:Eu; try discriminate.
  exists x0, rest, r0. split; auto. split; auto. split; auto.
  destruct (Z.eqb_spec (p_oc r0) oc_time_limit) as [E|E]; cbn [negb] in H.
  2:{ left. split; auto. injection H as <-. auto. }
  right. split; auto.
  destruct (grid_ok_mono x0 rest A4) as [Hx0 [dirg Hmono]].
  destruct (until_exact L X fuel cf _ w r0 S1 S2 S3 Eu) as [pits [lst [Hh [Hr [Hadv Hoc]]]]].
  destruct (proj1 Hoc E) as [T1 [T2 T3]]. cbn [first_args a_t] in T1.
  destruct (ex_of L x0 Hx0) as [X1 X2]. rewrite X2 in T1. split; auto.
  (* the state of the integrator after the first propagation *)
  destruct Hr as [_ [Hw _]].
  apply Forall_app in Hadv as [_ Hadv]. inversion Hadv as [|? ? HA _]; subst.
  destruct (HA T2) as [B1 [B2 [B3 [B4 [B5 [B6 [B7 [B8 B9]]]]]]]].
  destruct Hh as [w0 [_ [_ [Hhap _]]]]. apply Forall_app in Hhap as [_ Hhap]. inversion Hhap as [|? ? [HP1 [HP2 HP3]] _]; subst.
  specialize (HP3 T2). cbn [first_args a_cb] in HP3. destruct HP3 as [HP3 _].
  cbn [first_args a_wtc a_cout orb] in HP1. pose proof (step_last_h _ _ _ _ _ _ S4 HP1) as HLH.
  rewrite Hw, HP3 in *.
  set (wp := it_w1 lst) in *.
  assert (GT : good_t (w_time wp)) by (split; auto).
  change (match rest with [] => x0 | _ :: _ => last rest x0 end) with (last (x0 :: rest) x0) in H.
  set (tl := last (x0 :: rest) x0) in *.
  assert (TLF : ffin o tl = true).
  { unfold tl. destruct rest as [|y l]; auto. change (last (x0 :: y :: l) x0) with (last (y :: l) x0).
    rewrite (last_cons_default _ l y x0 y). apply (monotone_last dirg (fval L x0) y l Hmono). }
  destruct (ex_fsubd L X tl (w_time wp) TLF (proj1 GT)) as [R1 [R2 R3]].
  rewrite R1 in H. cbn [negb] in H.
  set (rem := f_subd tl (w_time wp)) in *.
  destruct (fl_0 o L) as [Z1 Z2].
  assert (Dfl : d_ge rem (d_of (f0 o)) = true <-> 0 <= fval L (hi rem)).
  { destruct (good_of (f0 o) Z1) as [[Q1 Q2] Q3]. rewrite d_ge_le by auto. rewrite Q3, Z2. unfold dval. rewrite R3. lra. }
  set (dir := d_ge rem (d_of (f0 o))) in *.
  assert (DIRM : monotone L dir (fval L x0) rest /\ (forall y, In y rest -> after L dir y tl)).
  { unfold tl in *. destruct rest as [|y l]; [cbn; split; [auto|intros ? []]|].
    change (last (x0 :: y :: l) x0) with (last (y :: l) x0) in *. rewrite (last_cons_default _ l y x0 y) in *.
    destruct (monotone_last dirg (fval L x0) y l Hmono) as [M1 [M2 M3]].
    assert (dir = dirg) as ->; [|auto].
    unfold beyond in M2. destruct dirg.
    - apply Dfl. lra.
    - destruct dir; auto. assert (0 <= fval L (hi rem)) by (apply Dfl; auto). lra. }
  destruct DIRM as [DM DL].
  destruct (run_pre o St Jt En cb wp) as [w1|w1] eqn:Ep; [|discriminate].
  set (a := {| b_max_steps := max_steps; b_max_dt := max_dt; b_cb := cb; b_last := tl |}) in *.
  assert (PREP : prepared (ga a) wp w1) by (apply run_pre_ret; exact Ep).
  assert (KP : keeps wp w1).
  { unfold run_pre in Ep. destruct cb as [c|].
    - destruct (cb_pre c wp) as [w2|w2] eqn:Ec; [|discriminate]. destruct (d_eq _ _); [|discriminate].
      injection Ep as <-. cbn in S5. destruct S5 as [S5 _]. exact (S5 _ _ Ec).
    - inversion Ep; subst. apply keeps_refl. }
  destruct KP as [K1 [K2 K3]].
  assert (TW1 : w_time w1 = w_time wp) by exact K1.
  eapply grid_loop_ok with (a := a) (dir := dir) in H; auto.
  - destruct H as (its & done & lft & nr & C1 & C2 & C3 & C4 & C5 & C6 & C7 & C8 & C9 & C10 & C11 & C12 & C13 & C14 & C15).
    exists dir, w1, its, done, lft, nr. cbn zeta. fold a.
    rewrite Z.eqb_refl in C11. cbn [a b_max_steps] in C11, C4.
    repeat (split; [solve [auto]|]).
    split; [intros K; apply C12; [exact K|discriminate]|].
    split; [rewrite C13; lia|]. auto.
  - unfold ginv. cbn [a b_last]. rewrite TW1, K2, HLH.
    split; auto. split; auto. split; auto. split; auto. split; auto.
    split. { destruct dir; [apply Dfl; auto|].
      destruct (Rle_lt_dec 0 (fval L (hi rem))) as [Q|Q]; [apply Dfl in Q; discriminate|lra]. }
    split; auto.
    eapply monotone_weaken; [|exact DM]. destruct dir.
    + eapply Rle_trans; [apply Rmin_l|]. lra.
    + eapply Rle_trans; [|apply Rmax_l]. lra.
Qed.

(** Termination with a limit on the number of steps. *)
Lemma grid_loop_terminates : forall (cf : gcfg) a dir fuel w iter steps mn mx rem interrupt rows grid,
  b_max_steps o St Jt En a <> 0%N ->
  (interrupt = oc_success -> (iter < b_max_steps o St Jt En a)%N /\ (b_max_steps o St Jt En a < iter + N.of_nat fuel)%N) ->
  (0 < fuel)%nat ->
  grid_loop fuel cf a dir w iter steps mn mx rem interrupt rows grid <> PFuel.
Proof.
  intros cf a dir. induction fuel as [|fuel IH]; intros w iter steps mn mx rem interrupt rows grid Hm Hi Hf; [lia|].
  destruct grid as [|x grid]; [discriminate|]. cbn [M_Prop.grid_loop].
  match goal with |- (let '(_, _) := ?d in _) <> _ => destruct d as [rs [|y rest]] end; [discriminate|].
  destruct (Z.eqb_spec interrupt oc_success) as [E|E]; cbn [negb]; [|discriminate].
  destruct (Hi E) as [I1 I2].
  destruct (step_impl _ _ _ _ _ _ _ _) as [[[oc h] w1]|w1]; [|discriminate].
  destruct (oc =? oc_err_nf_state)%Z; [discriminate|].
  destruct (run_cb _ _ _ _ _ _) as [[w2 b]|w2]; [|discriminate].
  apply IH; auto; [|lia].
  intros K. destruct b; cbn [negb] in K; [|discriminate].
  destruct (is_ste oc) eqn:Es; [subst oc; discriminate|].
  destruct (N.eqb_spec (iter + 1) (b_max_steps o St Jt En a)); [discriminate|]. lia.
Qed.

Theorem grid_terminates : forall fuel (cf : gcfg) grid max_steps max_dt cb w,
  max_steps <> 0%N -> (N.to_nat max_steps < fuel)%nat -> propagate_grid fuel cf grid max_steps max_dt cb w <> PFuel.
Proof.
  intros fuel cf grid max_steps max_dt cb w Hm Hf. unfold M_Prop.propagate_grid.
  repeat (match goal with |- (if ?b then _ else _) <> _ => destruct b; [discriminate|] end).
  destruct grid as [|x0 rest]; [discriminate|].
  match goal with |- (if ?b then _ else _) <> _ => destruct b; [discriminate|] end.
  match goal with |- match ?p with _ => _ end <> _ => destruct p as [r|w'|] eqn:E end; try discriminate.
  - match goal with |- (if ?b then _ else _) <> _ => destruct b; [discriminate|] end.
    match goal with |- (if ?b then _ else _) <> _ => destruct b; [discriminate|] end.
    destruct (run_pre _ _ _ _ _ _); [|discriminate].
    apply grid_loop_terminates; cbn; auto; lia.
  - exfalso. revert E. apply until_terminates; cbn; auto. lia.
Qed.

End G.
