(** Steps of the batch integrator. *)
From Coq Require Import List ZArith NArith Bool Lia.
From Verif Require Import M_Float M_Search M_Step M_Prop S_Step S_Prop M_Batch S_Batch.
Import ListNotations.
Set Bullet Behavior "Strict Subproofs".

Lemma nth_set {A} : forall (l : list A) i a j, i < length l -> nth_error (set_nth l i a) j = if Nat.eqb j i then Some a else nth_error l j.
Proof.
  induction l as [|x l IH]; intros i a j Hi; cbn in Hi; [lia|]. destruct i as [|i], j as [|j]; cbn; try reflexivity.
  - now rewrite IH by lia.
Qed.
Lemma len_set {A} : forall (l : list A) i a, length (set_nth l i a) = length l.
Proof. induction l as [|x l IH]; intros [|i] a; cbn; auto. Qed.
Lemma nth_combine {A B} : forall (l : list A) (m : list B) i, nth_error (combine l m) i = match nth_error l i, nth_error m i with Some a, Some b => Some (a, b) | _, _ => None end.
Proof.
  induction l as [|a l IH]; intros m i; [destruct i; reflexivity|]. destruct m as [|b m]; [destruct i; cbn; [reflexivity|destruct (nth_error l i); reflexivity]|].
  destruct i; cbn; [reflexivity | apply IH].
Qed.
Lemma nth_some {A} (l : list A) i : i < length l -> exists a, nth_error l i = Some a.
Proof. intros H. destruct (nth_error l i) eqn:E; [eauto|]. apply nth_error_None in E. lia. Qed.
Lemma some_lt {A} (l : list A) i a : nth_error l i = Some a -> i < length l.
Proof. intros H. apply nth_error_Some. congruence. Qed.

Section B.
Context {o : fops} {St Jt En Eb : Type} (proj : Eb -> nat -> En).
Notation F := (F o).
Notation integ := (integ o St Jt).
Notation world := (world o St Jt En).
Notation bworld := (bworld o St Jt Eb).
Notation view := (view proj).
Notation only := (only proj).

Lemma view_some (w : bworld) i v : view w i = Some v <-> nth_error (fst w) i = Some (fst v) /\ snd v = proj (snd w) i.
Proof.
  unfold S_Batch.view. destruct (nth_error (fst w) i) as [g|].
  - split; intros H; [injection H as <-; auto|]. destruct H as [H1 H2], v as [g' e]. cbn in H1, H2. injection H1 as ->. now rewrite H2.
  - split; intros H; [discriminate | destruct H; discriminate].
Qed.
Lemma view_size (w : bworld) i : i < size w <-> exists v, view w i = Some v.
Proof.
  unfold size, S_Batch.view. split.
  - intros H. destruct (nth_some _ _ H) as [g ->]. eauto.
  - intros [v H]. apply nth_error_Some. intros E. rewrite E in H. discriminate.
Qed.
Lemma only_refl i (w : bworld) : only i w w.
Proof. split; auto. Qed.
Lemma only_trans i (w1 w2 w3 : bworld) : only i w1 w2 -> only i w2 w3 -> only i w1 w3.
Proof. intros [A1 A2] [B1 B2]. split; [congruence|]. intros j Hj. rewrite B2, A2; auto. Qed.
Lemma mod_view i f (w : bworld) g e : view w i = Some (g, e) -> view (mod_lane o St Jt Eb i f w) i = Some (f g, e) /\ only i w (mod_lane o St Jt Eb i f w).
Proof.
  intros H. apply view_some in H as [H1 H2]. cbn in H1, H2. pose proof (some_lt _ _ _ H1) as Hi. unfold mod_lane. rewrite H1. split.
  - apply view_some. cbn. rewrite nth_set, Nat.eqb_refl by exact Hi. auto.
  - split; [unfold size; cbn; apply len_set|]. intros j Hj. unfold S_Batch.view. cbn. rewrite nth_set by exact Hi. apply Nat.eqb_neq in Hj. now rewrite Hj.
Qed.

Context (bc : bcfg o St Jt Eb) (ncb : nat -> nat -> world -> F -> Z -> out o St Jt En world)
  (tcb : nat -> nat -> option (world -> Z -> out o St Jt En (world * bool))).
Hypothesis HL : local_callbacks proj bc ncb tcb.
Hypothesis Hrefl : forall x, cmp_nan_eq o x x = true.
Notation sc i := (scalar bc (ncb i) (tcb i)).

Lemma ntes_ok i t h : forall l w v, view w i = Some v ->
  match run_ntes o St Jt En (sc i) t h l v with
  | Ret v' => exists w', brun_ntes o St Jt Eb bc i t h l w = BRet w' /\ view w' i = Some v' /\ only i w w'
  | Exn v' => exists w', brun_ntes o St Jt Eb bc i t h l w = BExn w' /\ view w' i = Some v' /\ only i w w'
  end.
Proof.
  induction l as [|ev l IH]; intros w v Hv; cbn [run_ntes brun_ntes].
  - exists w. split; [reflexivity|]. split; [exact Hv | apply only_refl].
  - pose proof (proj1 HL i (nte_idx ev) w v (hi (d_addf (d_subf t h) (nte_time ev))) (nte_sgn ev) Hv) as H. cbn [c_nte_cb scalar].
    destruct (ncb i (nte_idx ev) v (hi (d_addf (d_subf t h) (nte_time ev))) (nte_sgn ev)) as [v1|v1].
    + destruct H as (w1 & -> & H1 & H2). specialize (IH w1 v1 H1). destruct (run_ntes o St Jt En (sc i) t h l v1) as [v2|v2]; destruct IH as (w2 & A & B & C); exists w2; (split; [exact A|split; [exact B|exact (only_trans _ _ _ _ H2 C)]]).
    + destruct H as (w1 & -> & H1 & H2). exists w1. auto.
Qed.

(** The time of the element is the one set by the step. *)
Definition kept (le : lane_ev o) (g : integ) : bool :=
  let t' := d_addf (le_t o le) (le_h o le) in
  cmp_nan_eq o (hi (ig_time g)) (hi t') && cmp_nan_eq o (lo (ig_time g)) (lo t').

Lemma lane_ok i g e lim w : view w i = Some (fst (lane_prepare o St Jt Eb bc g lim), e) ->
  let le := snd (lane_prepare o St Jt Eb bc g lim) in
  let r := lane_events o St Jt Eb bc i le w in
  only i w (snd r) /\ view (snd r) i = Some (left_by (step_events o St Jt En (sc i) lim (g, e))) /\
  match step_events o St Jt En (sc i) lim (g, e) with
  | Ret (x, v') => fst r = Some x /\ kept le (fst v') = true
  | Exn v' => fst r = None \/ kept le (fst v') = false
  end.
Proof.
  unfold lane_prepare, step_events, lane_events. cbn [fst snd c_estep scalar c_geps c_detect c_sort_te c_sort_nte c_dout c_fin c_cooldown c_deduce c_te_cb].
  destruct (b_estep o St Jt Eb bc (ig_state g) (hi (ig_time g)) lim) as [[jet h0] m].
  destruct (b_detect o St Jt Eb bc jet h0 (b_geps o St Jt Eb bc m) (ig_cd g)) as [tes0 ntes0].
  set (tes := b_sort_te o St Jt Eb bc tes0). set (ntes := b_sort_nte o St Jt Eb bc ntes0). set (h := match tes with [] => h0 | ev :: _ => te_time ev end).
  set (s' := b_dout o St Jt Eb bc (ig_state g) jet h). cbn [fst snd le_t le_h le_nf le_tes le_ntes le_lim le_geps]. intros Hv.
  unfold kept. cbn [le_t le_h]. remember (d_addf (ig_time g) h) as t' eqn:Ht'.
  destruct (mod_view i (fun g0 : integ => MkInteg (ig_state g0) t' h (ig_tc g0) (ig_cd g0)) w _ _ Hv) as [V1 O1]. cbn in V1.
  set (w1 := mod_lane o St Jt Eb i (fun g0 : integ => MkInteg (ig_state g0) t' h (ig_tc g0) (ig_cd g0)) w) in *.
  change (set_step o St Jt g s' t' h jet) with (MkInteg (o := o) s' t' h jet (ig_cd g)).
  destruct (negb (d_fin t') || negb (b_fin o St Jt Eb bc s')).
  { cbn. split; [exact O1|]. split; [exact V1|]. split; [reflexivity|]. rewrite !Hrefl. reflexivity. }
  destruct (mod_view i (fun g0 : integ => set_cd o St Jt g0 (map (update_cd h) (ig_cd g0))) w1 _ _ V1) as [V2 O2]. cbn in V2.
  set (w2 := mod_lane o St Jt Eb i (fun g0 : integ => set_cd o St Jt g0 (map (update_cd h) (ig_cd g0))) w1) in *.
  pose proof (only_trans _ _ _ _ O1 O2) as O12. cbn [set_cd ig_state ig_time ig_last_h ig_tc].
  match goal with |- context [run_ntes o St Jt En (sc i) t' h (firstn ?n ntes) _] => set (nend := n) end.
  pose proof (ntes_ok i t' h (firstn nend ntes) w2 _ V2) as HN.
  match type of HN with match ?x with _ => _ end => set (r0 := x) in HN; match goal with |- context [run_ntes o St Jt En (sc i) t' h ?l ?v] => change (run_ntes o St Jt En (sc i) t' h l v) with r0 end end.
  destruct r0 as [v3|v3]; destruct HN as (w3 & E3 & V3 & O3); rewrite E3; pose proof (only_trans _ _ _ _ O12 O3) as O13.
  2:{ cbn. split; [exact O13|]. split; [exact V3|]. now left. }
  destruct tes as [|ev tes'] eqn:Et.
  - cbn. unfold w_time. destruct (negb (cmp_nan_eq o (hi (ig_time (fst v3))) (hi t')) || negb (cmp_nan_eq o (lo (ig_time (fst v3))) (lo t'))) eqn:Ek; cbn; (split; [exact O13|]); (split; [exact V3|]).
    + right. now rewrite <- negb_andb, negb_true_iff in Ek.
    + split; [reflexivity|]. now rewrite <- negb_andb, negb_false_iff in Ek.
  - destruct v3 as [g3 e3].
    match goal with |- context [mod_lane o St Jt Eb i ?f w3] => destruct (mod_view i f w3 _ _ V3) as [V4 O4]; set (w4 := mod_lane o St Jt Eb i f w3) in * end.
    cbn [fst snd] in *. pose proof (only_trans _ _ _ _ O13 O4) as O14. pose proof (proj2 HL i (te_idx ev)) as HT.
    set (v4 := set_cd o St Jt g3 _) in *.
    destruct (tcb i (te_idx ev)) as [f|], (b_te_cb o St Jt Eb bc (te_idx ev)) as [f'|]; try contradiction.
    + specialize (HT w4 (v4, e3) (te_sgn ev) V4). destruct (f (v4, e3) (te_sgn ev)) as [[v5 b]|v5]; destruct HT as (w5 & -> & V5 & O5); pose proof (only_trans _ _ _ _ O14 O5) as O15.
      * unfold w_time. destruct (negb (cmp_nan_eq o (hi (ig_time (fst v5))) (hi t')) || negb (cmp_nan_eq o (lo (ig_time (fst v5))) (lo t'))) eqn:Ek; cbn; (split; [exact O15|]); (split; [exact V5|]).
        -- right. now rewrite <- negb_andb, negb_true_iff in Ek.
        -- split; [reflexivity|]. now rewrite <- negb_andb, negb_false_iff in Ek.
      * cbn. split; [exact O15|]. split; [exact V5|]. now left.
    + unfold w_time. cbn [fst snd]. destruct (negb (cmp_nan_eq o (hi (ig_time v4)) (hi t')) || negb (cmp_nan_eq o (lo (ig_time v4)) (lo t'))) eqn:Ek; cbn; (split; [exact O14|]); (split; [exact V4|]).
      * right. now rewrite <- negb_andb, negb_true_iff in Ek.
      * split; [reflexivity|]. now rewrite <- negb_andb, negb_false_iff in Ek.
Qed.
End B.
