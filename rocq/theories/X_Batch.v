(** A small concrete batch integrator, made of the integrators of X_Demo. *)
From Coq Require Import List ZArith NArith Bool Reals Lia.
From Verif Require Import M_Float M_Search M_Step M_Prop S_Step S_Prop P_Step M_Batch S_Batch X_Demo.
Import ListNotations.
Set Bullet Behavior "Strict Subproofs".

(** One log per element. *)
Notation dEb := (nat -> list (nat * ext Z)).
Notation dB := (bworld zops (ext Z) (ext Z) dEb).
Definition dproj (e : dEb) (i : nat) : list (nat * ext Z) := e i.
Definition log (e : dEb) (i : nat) (x : nat * ext Z) : dEb := fun j => if Nat.eqb j i then e j ++ [x] else e j.
Definition bdemo (ev : bool) : bcfg zops (ext Z) (ext Z) dEb := {|
  b_events := ev; b_step := c_step _ _ _ _ (demo ev); b_estep := c_estep _ _ _ _ (demo ev); b_dout := c_dout _ _ _ _ (demo ev); b_fin := c_fin _ _ _ _ (demo ev);
  b_geps := c_geps _ _ _ _ (demo ev); b_detect := c_detect _ _ _ _ (demo ev); b_sort_te := c_sort_te _ _ _ _ (demo ev); b_sort_nte := c_sort_nte _ _ _ _ (demo ev);
  b_cooldown := c_cooldown _ _ _ _ (demo ev); b_deduce := c_deduce _ _ _ _ (demo ev);
  b_nte_cb := fun k w t _ i => BRet (fst w, log (snd w) i (k, t));
  b_te_cb := fun k => if (k =? 1)%nat then
    Some (fun (w : dB) _ i => BRet ((fst w, log (snd w) i (100 + k, match nth_error (fst w) i with Some g => ig_last_h g | None => Fin 0%Z end)), true)) else None |}.
Definition dncb (i : nat) := c_nte_cb _ _ _ _ (demo true).
Definition dtcb (i : nat) := c_te_cb _ _ _ _ (demo true).

Lemma scalar_demo ev i : scalar (bdemo ev) (dncb i) (dtcb i) = demo ev.
Proof. reflexivity. Qed.

Lemma view_eq (w : dB) i v : view dproj w i = Some v -> nth_error (fst w) i = Some (fst v) /\ snd v = snd w i.
Proof. unfold view. destruct (nth_error (fst w) i) eqn:E; [|discriminate]. intros H. injection H as <-. auto. Qed.
Lemma log_ok (w : dB) i v x : view dproj w i = Some v -> view dproj (fst w, log (snd w) i x) i = Some (fst v, snd v ++ [x]) /\ only dproj i w (fst w, log (snd w) i x).
Proof.
  intros H. destruct (view_eq w i v H) as [A B]. split.
  - unfold view. cbn [fst snd]. rewrite A. unfold dproj, log. rewrite Nat.eqb_refl, B. reflexivity.
  - split; [reflexivity|]. intros j Hj. unfold view. cbn [fst snd]. destruct (nth_error (fst w) j); [|reflexivity]. unfold dproj, log. apply Nat.eqb_neq in Hj. now rewrite Hj.
Qed.
Lemma demo_local ev : local_callbacks dproj (bdemo ev) dncb dtcb.
Proof.
  split.
  - intros i k w v t s H. cbn. destruct (log_ok w i v (k, t) H) as [A B]. eauto.
  - intros i k. cbn. destruct (k =? 1)%nat; [|exact I]. intros w v s H. cbn. destruct (view_eq w i v H) as [A _]. rewrite A.
    destruct (log_ok w i v (100 + k, ig_last_h (fst v)) H) as [B C]. eauto.
Qed.
Lemma demo_refl (x : F zops) : feq zops x x = true \/ fnan zops x = true.
Proof. destruct x; cbn; auto. left. apply Z.eqb_refl. Qed.

Lemma add_zero (x : ext Z) : fadd zops x (Fin 0%Z) = x.
Proof. destruct x; cbn; try reflexivity. f_equal. lia. Qed.
Lemma addf_form (x : dfl zops) (h : F zops) : d_fin (d_addf x h) = true -> exists z, d_addf x h = DFL (o := zops) (Fin z) (Fin 0%Z).
Proof.
  destruct x as [[a| | |] [b| | |]]; destruct h as [c| | |]; intros H; try discriminate H.
  eexists. unfold d_addf, d_add, d_of. cbn. f_equal. f_equal. lia.
Qed.
Lemma addf_zero z : d_addf (DFL (o := zops) (Fin z) (Fin 0%Z)) (Fin 0%Z) = DFL (o := zops) (Fin z) (Fin 0%Z).
Proof. unfold d_addf. cbn. f_equal; f_equal; lia. Qed.

Definition stable (c : option (F zops * F zops)) : Prop := update_cd (o := zops) (Fin 0%Z) c = c.
Lemma stable_update h c : stable (update_cd (o := zops) h c).
Proof.
  unfold stable. destruct c as [[a b]|]; [|reflexivity]. cbn [update_cd]. destruct (fle zops b (fabs zops (fadd zops a h))) eqn:E; [reflexivity|].
  cbn [update_cd]. change (F zops) with (ext Z) in *. rewrite add_zero, E. reflexivity.
Qed.
Lemma stable_map l : Forall stable l -> map (update_cd (o := zops) (Fin 0%Z)) l = l.
Proof. induction 1 as [|c l H _ IH]; [reflexivity|]. cbn [map]. rewrite IH. f_equal. exact H. Qed.
Lemma stable_set l i c : Forall stable l -> stable c -> Forall stable (set_nth l i c).
Proof. intros H. revert i. induction H as [|x l Hx Hl IH]; intros [|i] Hc; cbn; auto. Qed.

Definition at_rest (ev : bool) (v : dW) : Prop :=
  (exists z, ig_time (fst v) = DFL (o := zops) (Fin z) (Fin 0%Z)) /\ ffin zops (ig_state (fst v)) = true /\ (ev = true -> Forall stable (ig_cd (fst v))).
Lemma no_events jet g cd : demo_detect jet (Fin 0%Z) g cd = ([], []).
Proof. destruct jet as [[|[[[p|p|]|p|]|[p|[p|p|]|]|]|p]| | |]; reflexivity. Qed.
Lemma rest_like ev v v0 : at_rest ev v -> like v v0 -> at_rest ev v0.
Proof. intros (A & B & C) (D & E & G & _). unfold at_rest. rewrite D, E, G. auto. Qed.
Lemma cmp_fin z : cmp_nan_eq zops (Fin z) (Fin z) = true.
Proof. unfold cmp_nan_eq. cbn. now rewrite Z.eqb_refl. Qed.
Lemma ntes_fst ev t h l : forall w w2, run_ntes _ _ _ _ (demo ev) t h l w = Ret w2 -> fst w2 = fst w.
Proof. induction l as [|e l IH]; intros w w2 H; cbn [run_ntes] in H; [now injection H as <-|]. cbn [c_nte_cb demo] in H. now apply IH in H. Qed.
Lemma rest_idle ev wtc v : at_rest ev v -> idle (demo ev) wtc v.
Proof.
  intros HR v0 Hv. pose proof (rest_like ev v v0 HR Hv) as ((z & Tz) & Fs & Cd). destruct v0 as [[s t lh tc cd] en]. cbn [fst snd ig_state ig_time ig_cd] in *. subst t.
  destruct Hv as (V1 & V2 & V3 & V4). cbn [fst snd ig_state ig_time ig_cd] in *.
  destruct s as [s0| | |]; try discriminate Fs. exists (Fin 0%Z : F zops). destruct ev.
  - unfold step_impl. cbn [c_events demo]. unfold step_events. cbn [fst snd ig_state ig_time ig_cd c_estep c_geps c_detect c_sort_te c_sort_nte c_dout demo f0 zops ext_ops clamp].
    change (Z.max (-2) (Z.min 2 0)) with 0%Z. rewrite no_events. cbn [isort fold_right]. rewrite addf_zero. change (F zops) with (ext Z) in *.
    cbn. rewrite cmp_fin. cbn.
    eexists. split; [reflexivity|]. split; [reflexivity|]. repeat split; cbn; auto.
    + rewrite <- V1. f_equal. lia.
    + rewrite <- V3. apply stable_map. auto.
  - unfold step_impl. cbn [c_events demo]. unfold step_vanilla. cbn [fst snd ig_state ig_time ig_cd c_step demo f0 zops ext_ops clamp].
    change (Z.max (-2) (Z.min 2 0)) with 0%Z. rewrite addf_zero. cbn.
    eexists. split; [reflexivity|]. split; [reflexivity|]. repeat split; cbn; auto. rewrite <- V1. f_equal. lia.
Qed.

Lemma step_rests ev lim wtc v oc h v1 : step_impl _ _ _ _ (demo ev) lim wtc v = Ret (oc, h, v1) -> oc <> oc_err_nf_state -> at_rest ev v1.
Proof.
  destruct ev; unfold step_impl; cbn [c_events demo]; intros H Hn.
  - unfold step_events in H. cbn [c_estep c_geps c_detect c_sort_te c_sort_nte c_dout demo] in H.
    assert (D : (exists l, demo_detect (ig_state (fst v)) (clamp lim) (Fin 1%Z) (ig_cd (fst v)) = ([], l)) \/
       (exists l, demo_detect (ig_state (fst v)) (clamp lim) (Fin 1%Z) (ig_cd (fst v)) = ([MkTe (o := zops) 1 (Fin 1%Z) 1 (Fin 3%Z)], l))).
    { unfold demo_detect. repeat match goal with |- context [match ?x with _ => _ end] => destruct x end; eauto. }
    destruct D as [[l D]|[l D]]; rewrite D in H; clear D; cbn [isort fold_right ins] in H;
      match type of H with (if negb (d_fin ?t) || negb ?b then _ else _) = _ => destruct (d_fin t) eqn:Et; [destruct b eqn:Eb|] end;
      try (injection H as <- _ _; now elim Hn); cbn [negb orb] in H.
    + match type of H with match ?r0 with _ => _ end = _ => destruct r0 as [w2|w2] eqn:Er end; [|discriminate].
      apply ntes_fst in Er. cbn [fst] in Er. match type of H with (if ?b then _ else _) = _ => destruct b end; [discriminate|]. injection H as _ _ <-.
      split; [|split].
      * rewrite Er. cbn. apply addf_form. exact Et.
      * rewrite Er. exact Eb.
      * intros _. rewrite Er. cbn. apply Forall_forall. intros c Hc. apply in_map_iff in Hc as (c0 & <- & _). apply stable_update.
    + match type of H with match ?r0 with _ => _ end = _ => destruct r0 as [w2|w2] eqn:Er end; [|discriminate].
      apply ntes_fst in Er. cbn [fst] in Er. cbn [c_te_cb demo te_idx Nat.eqb] in H. match type of H with (if ?b then _ else _) = _ => destruct b end; [discriminate|]. injection H as _ _ <-. cbn [fst].
      split; [|split].
      * rewrite Er. cbn. apply addf_form. exact Et.
      * rewrite Er. exact Eb.
      * intros _. rewrite Er. cbn. apply stable_set; [|reflexivity]. apply Forall_forall. intros c Hc. apply in_map_iff in Hc as (c0 & <- & _). apply stable_update.
  - unfold step_vanilla in H. cbn [c_step c_fin demo] in H.
    injection H as Ho _ <-.
    match type of Ho with (if negb (d_fin ?t) || negb ?b then _ else _) = _ => destruct (d_fin t) eqn:Et; [destruct b eqn:Eb|] end;
      try (cbn in Ho; now elim Hn). split; [|split; [exact Eb|discriminate]]. apply addf_form. exact Et.
Qed.

Definition bd_a (ms : N) (cout : bool) : bargs zops (ext Z) (ext Z) dEb := {| ba_max_steps := ms; ba_cb := None; ba_wtc := false; ba_cout := cout |}.
Lemma demo_calm ev ms cout : calm (bdemo ev) dncb dtcb (bd_a ms cout).
Proof. intros i v lim oc h v1 H Hn. change (scalar (bdemo ev) (dncb i) (dtcb i)) with (demo ev) in *. apply rest_idle. eapply step_rests; eauto. Qed.
Definition bd_w : dB := ([fst (demo_w 0 0); fst (demo_w 1 7)], fun _ => []).
