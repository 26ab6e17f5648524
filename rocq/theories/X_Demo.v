(** A small concrete integrator over exact integer times, used to show that the
    hypotheses of the step and propagation theorems are met. *)
From Coq Require Import List ZArith Bool Reals Lra Lia Permutation.
From Verif Require Import M_Float M_Search M_Step M_Prop S_Step S_Prop S_Grid P_Step.
Import ListNotations.

(** Timesteps of at most 2 in either direction. *)
Definition clamp (lim : ext Z) : ext Z :=
  match lim with
  | Fin z => Fin (Z.max (-2) (Z.min 2 z))
  | PInf => Fin 2%Z | NInf => Fin (-2)%Z | NaN => NaN
  end.

Notation dW := (world zops (ext Z) (ext Z) (list (nat * ext Z))).

(** The state grows like the time. With events: in the step starting with state
    4 a terminal event (index 1) triggers at 1, together with two non-terminal
    ones (at 0 and 1); in the step starting with state 7 only non-terminal ones. *)
Definition demo_detect (jet h : ext Z) (_ : ext Z) (_ : list (option (ext Z * ext Z))) : list (dte zops) * list (dnte zops) :=
  match jet, h with
  | Fin 4%Z, Fin 2%Z => ([MkTe (o := zops) 1 (Fin 1%Z) 1 (Fin 3%Z)], [MkNte (o := zops) 1 (Fin 1%Z) 1; MkNte (o := zops) 0 (Fin 0%Z) 1])
  | Fin 7%Z, Fin 2%Z => ([], [MkNte (o := zops) 1 (Fin 1%Z) 1; MkNte (o := zops) 0 (Fin 0%Z) 1])
  | _, _ => ([], [])
  end.

Definition demo (ev : bool) : cfg zops (ext Z) (ext Z) (list (nat * ext Z)) := {|
  c_events := ev;
  c_step := fun (s : ext Z) (_ lim : F zops) => (fadd zops s (clamp lim), clamp lim, s);
  c_estep := fun (s : ext Z) (_ lim : F zops) => (s, clamp lim, Fin 1%Z);
  c_dout := fun _ (jet : ext Z) (h : F zops) => fadd zops jet h;
  c_fin := ffin zops;
  c_geps := fun h => h;
  c_detect := demo_detect;
  c_sort_te := isort (te_time (o := zops));
  c_sort_nte := isort (nte_time (o := zops));
  c_cooldown := fun _ => Fin (-1)%Z;
  c_deduce := fun e d => d;
  c_nte_cb := fun i w t _ => Ret (fst w, snd w ++ [(i, t)]);
  c_te_cb := fun i => if (i =? 1)%nat then Some (fun w _ => Ret ((fst w, snd w ++ [(100 + i, ig_last_h (fst w))]), true)) else None |}.

Definition demo_w (t s : Z) : dW :=
  (MkInteg (o := zops) (Fin s) (DFL (o := zops) (Fin t) (Fin 0%Z)) (Fin 0%Z) (Fin 0%Z) [None; None], []).

Lemma clamp_bounded : forall lim h : ext Z, ffin zops lim = true -> ffin zops h = true -> clamp lim = h -> bounded zlaws lim h.
Proof.
  intros [z| | |] [y| | |]; cbn; try discriminate. intros _ _ H. injection H as <-.
  unfold bounded; cbn [fval zlaws ext_laws]. split; intros K; apply le_IZR in K; split; apply IZR_le; lia.
Qed.

Lemma demo_stepper : forall ev, stepper_ok zlaws (demo ev).
Proof.
  intros ev. split.
  - intros s t lim s' h tc H1 H2 H. cbn in H. injection H as _ <- _. apply clamp_bounded; auto.
  - intros s t lim jet h m H1 H2 H. cbn in H. injection H as _ <- _. apply clamp_bounded; auto.
Qed.

Lemma demo_bounded : forall z, (0 <= z <= 1)%Z -> bounded zlaws (Fin 2%Z) (Fin z) /\ fval zlaws (Fin z) <> fval zlaws (Fin 2%Z).
Proof.
  intros z Hz. cbn. split.
  - split; cbn; intros K; apply le_IZR in K; split; try (apply IZR_le; lia); lia.
  - intros K. apply eq_IZR in K. lia.
Qed.

Lemma demo_detect_ok : forall ev, detect_ok zlaws (demo ev).
Proof.
  intros ev jet h geps cd tes ntes H. change (demo_detect jet h geps cd = (tes, ntes)) in H.
  unfold demo_detect in H.
  assert (E0 : ([] : list (dte zops), [] : list (dnte zops)) = (tes, ntes) ->
     (tes <> [] \/ ntes <> [] -> ffin zops h = true) /\
    Forall (fun e => ffin zops (te_time e) = true /\ bounded zlaws h (te_time e) /\ fval zlaws (te_time e) <> fval zlaws h /\
                     (Z.of_nat (te_idx e) < 2 ^ 32)%Z) tes /\
    Forall (fun e => ffin zops (nte_time e) = true /\ bounded zlaws h (nte_time e) /\ fval zlaws (nte_time e) <> fval zlaws h) ntes).
  { intros K. injection K as <- <-. repeat split; auto. intros [K|K]; contradiction. }
  destruct (demo_bounded 0 ltac:(lia)) as [B0 N0]. destruct (demo_bounded 1 ltac:(lia)) as [B1 N1].
  assert (C : (jet = Fin 4%Z \/ jet = Fin 7%Z) /\ h = Fin 2%Z \/ ([] : list (dte zops), [] : list (dnte zops)) = (tes, ntes)).
  { destruct jet as [[|[[[p|p|]|p|]|[p|[p|p|]|]|]|p]| | |]; try (right; exact H);
      destruct h as [[|[q|[q|q|]|]|q]| | |]; try (right; exact H); left; auto. }
  destruct C as [[[-> | ->] ->]|C]; [| |exact (E0 C)]; injection H as <- <-.
  - split; [intros _; reflexivity|]. split.
    + repeat (apply Forall_cons; [split; [reflexivity|split; [first [exact B0|exact B1]|split; [first [exact N0|exact N1]|reflexivity]]]|]); apply Forall_nil.
    + repeat (apply Forall_cons; [split; [reflexivity|split; [first [exact B0|exact B1]|first [exact N0|exact N1]]]|]); apply Forall_nil.
  - split; [intros _; reflexivity|]. split.
    + repeat (apply Forall_cons; [split; [reflexivity|split; [first [exact B0|exact B1]|split; [first [exact N0|exact N1]|reflexivity]]]|]); apply Forall_nil.
    + repeat (apply Forall_cons; [split; [reflexivity|split; [first [exact B0|exact B1]|first [exact N0|exact N1]]]|]); apply Forall_nil.
Qed.

Lemma demo_sort_ok : forall ev, sort_ok zlaws (demo ev).
Proof. intros ev. split; apply isort_sorts. Qed.

Lemma demo_events_keep : forall ev, events_keep (demo ev).
Proof.
  intros ev. split.
  - intros i w t s w' H. cbn in H. injection H as <-. repeat split.
  - intros i cb w s w' b H1 H2. cbn in H1. destruct (i =? 1)%nat; [|discriminate]. injection H1 as <-.
    injection H2 as <- _. repeat split.
Qed.

(** A callback that logs the time and stops when the state reaches [s]. *)
Definition stop_at (s : Z) : scb zops (ext Z) (ext Z) (list (nat * ext Z)) := {|
  cb_pre := fun w => Ret (fst w, snd w ++ [(1000, hi (w_time w))]);
  cb_call := fun w => Ret ((fst w, snd w ++ [(2000, hi (w_time w))]), negb (feq zops (ig_state (fst w)) (Fin s))) |}.

(** A callback that moves the time. *)
Definition mover : scb zops (ext Z) (ext Z) (list (nat * ext Z)) := {|
  cb_pre := fun w => Ret w;
  cb_call := fun w => Ret ((MkInteg (o := zops) (ig_state (fst w)) (DFL (o := zops) (Fin 42%Z) (Fin 0%Z)) (ig_last_h (fst w)) (ig_tc (fst w)) (ig_cd (fst w)), snd w), true) |}.

Definition demo_a (t : Z) (ms : N) (md : ext Z) cb cout : pargs zops (ext Z) (ext Z) (list (nat * ext Z)) := {|
  a_t := DFL (o := zops) (Fin t) (Fin 0%Z); a_max_steps := ms; a_max_dt := md; a_cb := cb; a_wtc := false; a_cout := cout |}.
