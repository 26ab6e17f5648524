(** Continuous output: what a propagation records. *)
From Coq Require Import List Arith ZArith NArith Bool Reals Lra Lia.
From Verif Require Import M_Dag M_Taylor M_Stepper M_Float M_Search M_Step M_Prop S_Step S_Prop P_Step P_Prop P_PropX S_Grid P_Grid S_Stepper M_Cout S_Cout P_Cout.
Import ListNotations.
Local Open Scope nat_scope.
Set Bullet Behavior "Strict Subproofs".

Section P.
Context {o : fops} {St Jt En : Type} (L : flaws o).
Notation F := (F o).
Notation world := (world o St Jt En).
Notation cfg := (cfg o St Jt En).
Notation pargs := (pargs o St Jt En).
Notation iter := (iter o St Jt En).

Lemma linked_prefix (t : dfl o) l2 : forall l1 w rem, linked (St := St) (Jt := Jt) (En := En) t w rem (l1 ++ l2) -> linked t w rem l1.
Proof. induction l1 as [|it l1 IH]; intros w rem H; cbn in *; [exact I|]. destruct H as (H1 & H2 & H3). auto. Qed.
Lemma completed_prefix (its : list iter) lst : Forall goes_on its ->
  completed (its ++ [lst]) = its ++ (if (it_oc lst =? oc_err_nf_state)%Z then [] else [lst]).
Proof.
  intros H. unfold completed. rewrite filter_snoc. rewrite (filter_id _ _ its).
  - now destruct (_ =? _)%Z.
  - eapply Forall_impl; [|exact H]. intros it (K & _). apply negb_true_iff, Z.eqb_neq. exact K.
Qed.

(* The recorded coefficients are those of the step. *)
Lemma step_records S0 cf ha dim order mem vars lim w oc h w' : coherent S0 cf ha dim order mem vars -> events_keep cf ->
  step_impl o St Jt En cf lim true w = Ret (oc, h, w') -> oc <> oc_err_nf_state ->
  (forall j, j < dim -> nth (j * (order + 1)) (mem (ig_tc (fst w'))) (f0 o) = nth j (vars (ig_state (fst w))) (f0 o)) /\
  forall out, length out = dim -> d_out_f S0 1 ha dim order out (mem (ig_tc (fst w'))) [h] =
    MDone (vars (if c_events _ _ _ _ cf then c_dout _ _ _ _ cf (ig_state (fst w)) (ig_tc (fst w')) h else ig_state (fst w'))).
Proof.
  intros (_ & C1 & C2 & C3) Hk H Hoc. unfold step_impl in H. destruct (c_events _ _ _ _ cf).
  - split; [|intros; now apply C3]. unfold step_events in H.
    destruct (c_estep _ _ _ _ cf _ _ _) as [[jet h0] m] eqn:Ee. specialize (C2 _ _ _ _ _ _ Ee). cbv zeta in C2.
    assert (ig_tc (fst w') = jet) as ->; [|exact C2].
    destruct (c_detect _ _ _ _ cf jet h0 _ _) as [tes ntes].
    set (st := c_sort_te _ _ _ _ cf tes) in *. set (sn := c_sort_nte _ _ _ _ cf ntes) in *.
    set (hh := match st with [] => h0 | e :: _ => te_time e end) in *.
    match type of H with (if ?b then _ else _) = _ => destruct b end; [inversion H; subst; reflexivity|].
    match type of H with match ?r with _ => _ end = _ => destruct r as [w2|w2] eqn:Er; [|discriminate] end.
    apply run_ntes_invoked in Er. apply invoked_keeps in Er; auto. destruct Er as [_ [_ Er]]. cbn in Er.
    assert (FIN : forall (w3 : world) oc0 (b : bool), (if b then Exn w3 else Ret (oc0, hh, w3)) = Ret (oc, h, w') -> h = hh /\ w' = w3).
    { intros w3 oc0 b K. destruct b; [discriminate|]. inversion K; auto. }
    destruct st as [|e st'].
    + apply FIN in H as [-> ->]. auto.
    + destruct (c_te_cb _ _ _ _ cf (te_idx e)) as [cb|] eqn:Ec.
      * match type of H with match ?r with _ => _ end = _ => destruct r as [[w3 b]|w3] eqn:E3; [|discriminate] end.
        apply FIN in H as [-> ->]. destruct Hk as [_ Hk]. destruct (Hk _ _ _ _ _ _ Ec E3) as [_ [_ K]]. rewrite K. auto.
      * apply FIN in H as [-> ->]. auto.
  - unfold step_vanilla in H. destruct (c_step _ _ _ _ cf _ _ _) as [[s' h1] tc'] eqn:Es. inversion H; subst. cbn [fst ig_tc ig_state set_step].
    exact (C1 _ _ _ _ _ _ Es).
Qed.

Section Exact.
Context (X : exact_laws L).
Local Open Scope R_scope.
Notation dv := (dval L).

(* The times of a chain of iterations. *)
Definition good (t : dfl o) : Prop := d_fin t = true /\ fval L (lo t) = 0.
Lemma chain_times cf (a : pargs) done : forall w rem, linked (a_t a) w rem done -> Forall (happened cf a) done ->
  Forall (fun it => ~ failed it) done -> Forall (fun it => advances L a it) done ->
  Forall (fun it => good (w_time (it_w1 it)) /\ dv (w_time (it_w1 it)) = dv (w_time (it_w2 it))) done /\
  (forall i it, nth_error done i = Some it ->
     dv (nth i (w_time w :: map (fun it => w_time (it_w1 it)) done) (w_time w)) = dv (w_time (it_w0 it)) /\
     (i = 0%nat -> it_w0 it = w)).
Proof.
  induction done as [|it done IH]; intros w rem Hl Hh Hf Ha; [split; [constructor | intros [|i] it; discriminate]|].
  destruct Hl as (L1 & L2 & L3). inversion Hh as [|? ? Hh1 Hh2]; subst. inversion Hf as [|? ? Hf1 Hf2]; subst. inversion Ha as [|? ? Ha1 Ha2]; subst.
  destruct Hh1 as (_ & _ & H1). specialize (H1 Hf1). destruct Ha1 as (_ & _ & _ & _ & _ & _ & _ & F1 & Z1).
  assert (E : dv (w_time (it_w1 it)) = dv (w_time (it_w2 it))).
  { destruct (a_cb a) as [c|]; [|destruct H1 as [-> _]; reflexivity]. destruct H1 as [_ H1]. symmetry. apply d_eq_val; auto. now apply (d_eq_fin L _ _ F1). }
  destruct (IH _ _ L3 Hh2 Hf2 Ha2) as [I1 I2]. split; [constructor; [split; [split; assumption | exact E] | exact I1]|].
  intros [|i] it' Hi.
  - cbn in Hi. injection Hi as <-. cbn [nth]. auto.
  - cbn [nth_error] in Hi. destruct (I2 i it' Hi) as [J1 J2]. split; [|discriminate]. destruct i as [|i].
    + cbn [nth map] in *. congruence.
    + rewrite <- J1. cbn [nth map]. apply f_equal. apply nth_indep. rewrite map_length.
      assert (S i < length done)%nat by (apply nth_error_Some; congruence). lia.
Qed.

(* All iterations go in the direction of the target. *)
Lemma chain_mono cf (a : pargs) (fwd : bool) done : forall w rem, linked (a_t a) w rem done -> Forall (happened cf a) done ->
  Forall (fun it => ~ failed it) done -> Forall (fun it => advances L a it) done ->
  (if fwd then dv (w_time w) <= dv (a_t a) else dv (a_t a) <= dv (w_time w)) ->
  Forall (fun it => if fwd then dv (w_time w) <= dv (w_time (it_w1 it)) else dv (w_time (it_w1 it)) <= dv (w_time w)) done /\
  (forall i j a b, (i <= j)%nat -> nth_error (w_time w :: map (fun it => w_time (it_w1 it)) done) i = Some a ->
     nth_error (w_time w :: map (fun it => w_time (it_w1 it)) done) j = Some b -> if fwd then dv a <= dv b else dv b <= dv a).
Proof.
  induction done as [|it done IH]; intros w rem Hl Hh Hf Ha Hs.
  - split; [constructor|]. intros i j x y Hij Hi Hj. destruct i as [|[|i]], j as [|[|j]]; cbn in Hi, Hj; try discriminate. injection Hi as <-. injection Hj as <-. destruct fwd; lra.
  - pose proof (chain_times cf a (it :: done) w rem Hl Hh Hf Ha) as [CT _]. inversion CT as [|? ? [_ CT1] _]; subst.
    destruct Hl as (L1 & L2 & L3). inversion Hh as [|? ? Hh1 Hh2]; subst. inversion Hf as [|? ? Hf1 Hf2]; subst. inversion Ha as [|? ? Ha1 Ha2]; subst.
    destruct Ha1 as (_ & _ & B & _).
    assert (Hb : if fwd then dv (w_time (it_w0 it)) <= dv (w_time (it_w2 it)) <= dv (a_t a) else dv (a_t a) <= dv (w_time (it_w2 it)) <= dv (w_time (it_w0 it))).
    { destruct fwd; destruct B as [B|B]; lra. }
    destruct (IH _ _ L3 Hh2 Hf2 Ha2) as [I1 I2]; [destruct fwd; lra|].
    assert (F1 : Forall (fun it' => if fwd then dv (w_time (it_w0 it)) <= dv (w_time (it_w1 it')) else dv (w_time (it_w1 it')) <= dv (w_time (it_w0 it))) (it :: done)).
    { constructor; [destruct fwd; lra|]. eapply Forall_impl; [|exact I1]. intros it'. destruct fwd; lra. }
    split; [exact F1|]. intros i j x y Hij Hi Hj. destruct i as [|i].
    + cbn in Hi. injection Hi as <-. destruct j as [|j]; [cbn in Hj; injection Hj as <-; destruct fwd; lra|]. cbn [nth_error] in Hj.
      apply nth_error_In, in_map_iff in Hj as (it' & <- & Hj). rewrite Forall_forall in F1. exact (F1 it' Hj).
    + destruct j as [|j]; [lia|]. cbn [nth_error map] in Hi, Hj. destruct i as [|i].
      * cbn in Hi. injection Hi as <-. destruct j as [|j]; [cbn in Hj; injection Hj as <-; destruct fwd; lra|]. cbn [nth_error] in Hj.
        apply nth_error_In, in_map_iff in Hj as (it' & <- & Hj). rewrite Forall_forall in I1. specialize (I1 it' Hj). cbn beta in I1. destruct fwd; lra.
      * destruct j as [|j]; [lia|]. apply (I2 (S i) (S j)); [lia | exact Hi | exact Hj].
Qed.
End Exact.
End P.
