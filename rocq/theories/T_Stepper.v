(* C18, C19, C38: timesteps, dense output and batches. *)
From Coq Require Import Reals Qreals.
From Coquelicot Require Import Coquelicot.
From Coq Require Import String Bool ZArith QArith Arith List Lia Lra.
From Verif Require Import M_Expr M_Dag M_Dec S_Expr S_Dag S_Dec P_Dag P_Dec P_DecP M_Taylor S_Taylor P_Tay1 P_Tay2 P_Tay3 P_Tay4 P_Tay5 M_Float M_Stepper S_Stepper.
From Verif Require Import P_Subs P_Stepper P_Stepper2 P_Stepper3 X_Expr X_Dec T_Dec T_Jets T_Taylor.
Import ListNotations.
Local Open Scope nat_scope.
Set Bullet Behavior "Strict Subproofs".

(* --- Steps in the two modes ------------------------------------------------------------------ *)
Section Modes.
Context {E : Type} (S0 : sops E) (bs : nat) (o : nops) (A : nat -> alg (num o) E) (d : dcmp o) (order : nat).
Local Notation z := (t_nat (s_t S0) 0).
Local Notation ne := (length (dc_in o d)).
Definition mode_code (compact : bool) := if compact then celt_code o else elt_code o.
Definition mode_norm (compact : bool) := if compact then norm_seq S0 else norm_pair S0.
Lemma mode_is_code compact : is_code (mode_code compact).
Proof. destruct compact; [now right | now left]. Qed.

Lemma ends_result ha compact st hm tc st' hm' tc' : jet_ready d [] -> sized bs o d order st hm tc ->
  ends S0 bs o A d order ha compact st hm tc st' hm' tc' ->
  step_result S0 bs o A d [] order st (mode_code compact) (mode_norm compact) ha hm tc (MDone (st', hm', tc')).
Proof.
  intros HR (Hne & Ho & Hst & Hhm & Htc) H.
  assert (Htc' : forall m, tc = Some m -> (order + 1) * bs * ne = length m) by (intros m ->; rewrite Htc; ring).
  destruct compact; cbn [ends] in H.
  - destruct H as [tp0 H]. apply (step_compact_ok S0 bs o A d order Hne Ho st (eq_sym Hst) ha hm tc tp0 _ HR Hhm Htc' H).
  - unfold ends in H. rewrite <- H. apply (step_default_ok S0 bs o A d order Hne Ho st (eq_sym Hst) ha hm tc HR Hhm Htc').
Qed.
Lemma ends_ev_result sv compact st jm hm mm jm' hm' mm' : jet_ready d sv -> sized_ev bs o d sv order st jm hm mm ->
  ends_ev S0 bs o A d sv order compact st jm hm mm jm' hm' mm' ->
  estep_result S0 bs o A d sv order st (mode_code compact) (mode_norm compact) jm hm mm (MDone (jm', hm', mm')).
Proof.
  intros HR (Hne & Ho & Hst & Hhm & Hmm & Hjm) H.
  assert (Hjm' : (order + 1) * bs * (ne + length sv) = length jm) by (rewrite Hjm; ring).
  destruct compact; unfold ends_ev in H.
  - destruct H as [tp0 H]. apply (estep_compact_ok S0 bs o A d order Hne Ho st (eq_sym Hst) sv jm hm mm tp0 _ HR Hhm Hmm Hjm' H).
  - rewrite <- H. apply (estep_default_ok S0 bs o A d order Hne Ho st (eq_sym Hst) sv jm hm mm HR Hhm Hmm Hjm').
Qed.
Lemma a_table sv compact st l : jet_ready d sv -> length st = ne * bs -> 1 <= ne -> 1 <= order ->
  exists tabl, lane_table S0 bs o A d st (mode_code compact) l tabl.
Proof. intros HR Hst Hne Ho. apply (lane_table_exists S0 bs o A d order Hne Ho st (eq_sym Hst) sv HR _ l (mode_is_code compact)). Qed.
End Modes.

(* --- C16: steps read and write inside their memories ------------------------------------------- *)
(* For every arithmetic, batch size, and (in compact mode) initial contents of the
   tape and order of the operations of the workers, a step ends, without accessing
   memory out of the bounds and without reading derivatives not yet computed. *)
Theorem step_is_safe {E} (S0 : sops E) bs o A d order ha st hm tc : jet_ready (o := o) d [] -> sized bs o d order st hm tc ->
  (exists st' hm' tc', step_default S0 bs o A d order ha st hm tc = MDone (st', hm', tc')) /\
  (forall tp0, exists res, step_compact S0 bs o A d order ha st hm tc tp0 res) /\
  (forall tp0 res, step_compact S0 bs o A d order ha st hm tc tp0 res -> exists st' hm' tc', res = MDone (st', hm', tc')) /\
  (forall compact st' hm' tc', ends S0 bs o A d order ha compact st hm tc st' hm' tc' -> sized bs o d order st' hm' tc' /\ (tc' = None <-> tc = None)).
Proof.
  intros HR Hs. pose proof Hs as (Hne & Ho & Hst & Hhm & Htc).
  assert (Htc' : forall m, tc = Some m -> (order + 1) * bs * length (dc_in o d) = length m) by (intros m ->; rewrite Htc; ring).
  split; [|split; [|split]].
  - destruct (step_default_ok S0 bs o A d order Hne Ho st (eq_sym Hst) ha hm tc HR Hhm Htc') as (st' & hm' & tc' & H & _). now exists st', hm', tc'.
  - intros tp0. apply (step_compact_exists S0 bs o A d order Hne Ho st (eq_sym Hst) ha hm tc tp0 HR).
  - intros tp0 res H. destruct (step_compact_ok S0 bs o A d order Hne Ho st (eq_sym Hst) ha hm tc tp0 res HR Hhm Htc' H) as (st' & hm' & tc' & E1 & _). now exists st', hm', tc'.
  - intros compact st' hm' tc' H. destruct (ends_result S0 bs o A d order ha compact st hm tc st' hm' tc' HR Hs H) as (st1 & hm1 & tc1 & [= <- <- <-] & L1 & L2 & _ & L3).
    split; [|destruct tc, tc'; try contradiction; split; congruence]. split; [exact Hne|]. split; [exact Ho|]. split; [congruence|]. split; [congruence|].
    destruct tc, tc'; try contradiction; [destruct L3; congruence | exact I].
Qed.
Theorem event_step_is_safe {E} (S0 : sops E) bs o A d sv order st jm hm mm : jet_ready (o := o) d sv -> sized_ev bs o d sv order st jm hm mm ->
  (exists jm' hm' mm', estep_default S0 bs o A d sv order st jm hm mm = MDone (jm', hm', mm')) /\
  (forall tp0, exists res, estep_compact S0 bs o A d sv order st jm hm mm tp0 res) /\
  (forall tp0 res, estep_compact S0 bs o A d sv order st jm hm mm tp0 res -> exists jm' hm' mm', res = MDone (jm', hm', mm')) /\
  (forall compact jm' hm' mm', ends_ev S0 bs o A d sv order compact st jm hm mm jm' hm' mm' -> sized_ev bs o d sv order st jm' hm' mm').
Proof.
  intros HR Hs. pose proof Hs as (Hne & Ho & Hst & Hhm & Hmm & Hjm).
  assert (Hjm' : (order + 1) * bs * (length (dc_in o d) + length sv) = length jm) by (rewrite Hjm; ring).
  split; [|split; [|split]].
  - destruct (estep_default_ok S0 bs o A d order Hne Ho st (eq_sym Hst) sv jm hm mm HR Hhm Hmm Hjm') as (jm' & hm' & mm' & H & _). now exists jm', hm', mm'.
  - intros tp0. apply (estep_compact_exists S0 bs o A d order Hne Ho st (eq_sym Hst) sv jm hm mm tp0 HR).
  - intros tp0 res H. destruct (estep_compact_ok S0 bs o A d order Hne Ho st (eq_sym Hst) sv jm hm mm tp0 res HR Hhm Hmm Hjm' H) as (jm' & hm' & mm' & E1 & _). now exists jm', hm', mm'.
  - intros compact jm' hm' mm' H. destruct (ends_ev_result S0 bs o A d order sv compact st jm hm mm jm' hm' mm' HR Hs H) as (jm1 & hm1 & mm1 & [= <- <- <-] & L1 & L2 & L3 & _).
    split; [exact Hne|]. split; [exact Ho|]. split; [exact Hst|]. split; [congruence|]. split; congruence.
Qed.

(* --- C18 ------------------------------------------------------------------------------------------ *)
(* The timesteps of a step with the bounds hm, compared with those of the same step
   without bounds. *)
Theorem timestep_respects_bound {E} (S0 : sops E) val plus bs o A d order ha ha' compact st hm hmu tc tcu st' hm' tc' stu' hmu' tcu' :
  step_laws S0 val plus -> jet_ready (o := o) d [] -> sized bs o d order st hm tc -> sized bs o d order st hmu tcu ->
  ends S0 bs o A d order ha compact st hm tc st' hm' tc' ->
  ends S0 bs o A d order ha' compact st hmu tcu stu' hmu' tcu' ->
  let v m l := val (nth l m (t_nat (s_t S0) 0)) in
  forall l, l < bs -> v hmu l = PInf ->
    respects_bound (v hm l) (v hmu' l) (v hm' l) /\ (v hm l = NaN -> v hm' l = v hmu' l).
Proof.
  intros L HR Hs Hsu H Hu v l Hl Hinf. pose proof Hs as (Hne & Ho & Hst & _).
  destruct (ends_result S0 bs o A d order ha compact st hm tc st' hm' tc' HR Hs H) as (st1 & hm1 & tc1 & [= <- <- <-] & _ & _ & H1 & _).
  destruct (ends_result S0 bs o A d order ha' compact st hmu tcu stu' hmu' tcu' HR Hsu Hu) as (st1 & hm1 & tc1 & [= <- <- <-] & _ & _ & H2 & _).
  destruct (a_table S0 bs o A d order [] compact st l HR Hst Hne Ho) as [tabl Ht].
  destruct (H1 l tabl Hl Ht) as [E1 _]. destruct (H2 l tabl Hl Ht) as [E2 _]. unfold v in *. rewrite E1, E2. unfold lane_h. cbv zeta.
  assert (HN : forall x, plus (mode_norm S0 compact x)) by (intros x; destruct compact; [apply (nonneg_norm_seq S0 val plus L) | apply (nonneg_norm_pair S0 val plus L)]).
  rewrite (h_of_inf S0 val plus L _ _ _ _ _ Hinf). split; [apply (h_of_bound S0 val plus L); apply HN | apply (h_of_nan S0 val plus L)].
Qed.
Theorem event_timestep_respects_bound {E} (S0 : sops E) val plus bs o A d sv order compact st jm hm mm jmu hmu mmu jm' hm' mm' jmu' hmu' mmu' :
  step_laws S0 val plus -> jet_ready (o := o) d sv -> sized_ev bs o d sv order st jm hm mm -> sized_ev bs o d sv order st jmu hmu mmu ->
  ends_ev S0 bs o A d sv order compact st jm hm mm jm' hm' mm' ->
  ends_ev S0 bs o A d sv order compact st jmu hmu mmu jmu' hmu' mmu' ->
  let v m l := val (nth l m (t_nat (s_t S0) 0)) in
  forall l, l < bs -> v hmu l = PInf ->
    respects_bound (v hm l) (v hmu' l) (v hm' l) /\ (v hm l = NaN -> v hm' l = v hmu' l).
Proof.
  intros L HR Hs Hsu H Hu v l Hl Hinf. pose proof Hs as (Hne & Ho & Hst & _).
  destruct (ends_ev_result S0 bs o A d order sv compact st jm hm mm jm' hm' mm' HR Hs H) as (st1 & hm1 & tc1 & [= <- <- <-] & _ & _ & _ & H1).
  destruct (ends_ev_result S0 bs o A d order sv compact st jmu hmu mmu jmu' hmu' mmu' HR Hsu Hu) as (st1 & hm1 & tc1 & [= <- <- <-] & _ & _ & _ & H2).
  destruct (a_table S0 bs o A d order sv compact st l HR Hst Hne Ho) as [tabl Ht].
  destruct (H1 l tabl Hl Ht) as [E1 _]. destruct (H2 l tabl Hl Ht) as [E2 _]. unfold v in *. rewrite E1, E2. unfold lane_h. cbv zeta.
  assert (HN : forall x, plus (mode_norm S0 compact x)) by (intros x; destruct compact; [apply (nonneg_norm_seq S0 val plus L) | apply (nonneg_norm_pair S0 val plus L)]).
  rewrite (h_of_inf S0 val plus L _ _ _ _ _ Hinf). split; [apply (h_of_bound S0 val plus L); apply HN | apply (h_of_nan S0 val plus L)].
Qed.

(* In exact arithmetic the step without bounds is that of Jorba's prescription. *)
Lemma mode_norm_fin compact (f : nat -> ext R) (c : nat -> R) l n x : l <> [] -> (forall j, j < length l -> f (nth j l 0) = Fin (c j)) -> n = length l -> sup_norm c n x ->
  mode_norm xops compact (map f l) = Fin x.
Proof.
  intros Hl Hf -> Hx.
  assert (E1 : map f l = map Fin (map c (seq 0 (length l)))).
  { apply nth_ext with (d := f 0) (d' := Fin (c 0)); [now rewrite !map_length, seq_length|]. intros j Hj. rewrite map_length in Hj.
    rewrite map_nth, Hf by exact Hj. rewrite !map_nth. now rewrite seq_nth. }
  rewrite E1. rewrite <- (rnorm_sup c (length l) x Hx).
  assert (Hn : map c (seq 0 (length l)) <> []) by (now destruct l).
  destruct compact; cbn [mode_norm]; [apply (norm_seq_fin xops Fin) | apply (norm_pair_fin xops Fin)]; auto; reflexivity.
Qed.
Lemma sup_norm_nonneg c n x : sup_norm c n x -> (0 <= x)%R.
Proof. intros [_ (j & _ & <-)]. apply Rabs_pos. Qed.
Theorem deduced_timestep bs o A d order ha compact st hm tc st' hm' tc' l (c : nat -> nat -> R) ns no nom1 :
  jet_ready (o := o) d [] -> sized bs o d order st hm (Some tc) -> 2 <= order ->
  ends xops bs o A d order ha compact st hm (Some tc) st' hm' (Some tc') ->
  l < bs -> nth l hm NaN = PInf ->
  let ne := length (dc_in o d) in
  (* the coefficient of order k of the variable j is c k j *)
  (forall j k, j < ne -> k = 0 \/ k = order \/ k = order - 1 -> nth (((order + 1) * j + k) * bs + l) tc' NaN = Fin (c k j)) ->
  sup_norm (c 0) ne ns -> sup_norm (c order) ne no -> sup_norm (c (order - 1)) ne nom1 ->
  nth l hm' NaN = jorba_step order ns no nom1.
Proof.
  intros HR Hs Ho H Hl Hinf ne Hc N0 N1 N2. pose proof Hs as (Hne & Ho1 & Hst & Hhm & Htc).
  destruct (ends_result xops bs o A d order ha compact st hm (Some tc) st' hm' (Some tc') HR Hs H) as (st1 & hm1 & tc1 & [= <- <- <-] & L1 & L2 & H1 & L3 & H2).
  destruct (a_table xops bs o A d order [] compact st l HR Hst Hne Ho1) as [tabl Ht].
  destruct (H1 l tabl Hl Ht) as [E1 _]. rewrite (nth_indep hm' NaN (Fin (INR 0))) by congruence. rewrite (nth_indep hm NaN (Fin (INR 0))) in Hinf by congruence.
  change (t_nat (s_t xops) 0) with (Fin (INR 0)) in E1. rewrite E1, Hinf. unfold lane_h. cbv zeta.
  assert (HN : forall k x, k = 0 \/ k = order \/ k = order - 1 -> sup_norm (c k) ne x -> mode_norm xops compact (map (tabl k) (seq 0 ne ++ [])) = Fin x).
  { intros k x Hk Hx. apply (mode_norm_fin compact (tabl k) (c k) _ ne); [intros X; apply (f_equal (@length nat)) in X; rewrite app_length, seq_length in X; cbn in X; unfold ne in X; lia | | now rewrite app_nil_r, seq_length | exact Hx].
    intros j Hj. rewrite app_nil_r, seq_length in Hj. rewrite app_nil_r, seq_nth by exact Hj. cbn [Nat.add]. rewrite <- (Hc j k Hj Hk).
    rewrite <- (H2 l tabl Hl Ht j k Hj) by lia. fold ne. 
    replace ((order + 1) * bs * j + k * bs + l) with (((order + 1) * j + k) * bs + l) by ring. apply nth_indep.
    rewrite L3, Htc. fold ne. assert ((order + 1) * j + k < (order + 1) * ne) by nia. nia. }
  fold ne. rewrite (HN 0 ns), (HN order no), (HN (order - 1) nom1) by auto.
  rewrite (h_of_inf xops (fun x => x) xnonneg xops_laws _ _ _ _ PInf eq_refl). apply raw_jorba; [exact Ho | now apply (sup_norm_nonneg _ _ _ N0) | now apply (sup_norm_nonneg _ _ _ N1) | now apply (sup_norm_nonneg _ _ _ N2)].
Qed.
Theorem event_deduced_timestep bs o A d sv order compact st jm hm mm jm' hm' mm' l (c : nat -> nat -> R) ns no nom1 :
  jet_ready (o := o) d sv -> sized_ev bs o d sv order st jm hm mm -> 2 <= order ->
  ends_ev xops bs o A d sv order compact st jm hm mm jm' hm' mm' ->
  l < bs -> nth l hm NaN = PInf ->
  (* the norms include the event functions *)
  let n := length (dc_in o d) + length sv in
  (forall j k, j < n -> k = 0 \/ k = order \/ k = order - 1 -> nth (((order + 1) * j + k) * bs + l) jm' NaN = Fin (c k j)) ->
  sup_norm (c 0) n ns -> sup_norm (c order) n no -> sup_norm (c (order - 1)) n nom1 ->
  nth l hm' NaN = jorba_step order ns no nom1 /\ nth l mm' NaN = Fin ns.
Proof.
  intros HR Hs Ho H Hl Hinf n Hc N0 N1 N2. pose proof Hs as (Hne & Ho1 & Hst & Hhm & Hmm & Hjm).
  destruct (ends_ev_result xops bs o A d order sv compact st jm hm mm jm' hm' mm' HR Hs H) as (st1 & hm1 & tc1 & [= <- <- <-] & L1 & L2 & L3 & H1).
  destruct (a_table xops bs o A d order sv compact st l HR Hst Hne Ho1) as [tabl Ht].
  destruct (H1 l tabl Hl Ht) as (E1 & E2 & H2). rewrite (nth_indep hm' NaN (Fin (INR 0))) by congruence. rewrite (nth_indep mm' NaN (Fin (INR 0))) by congruence.
  rewrite (nth_indep hm NaN (Fin (INR 0))) in Hinf by congruence.
  change (t_nat (s_t xops) 0) with (Fin (INR 0)) in E1, E2. rewrite E1, E2, Hinf. unfold lane_h. cbv zeta.
  set (is := seq 0 (length (dc_in o d)) ++ sv). assert (Li : length is = n) by (unfold is; now rewrite app_length, seq_length).
  assert (HN : forall k x, k = 0 \/ k = order \/ k = order - 1 -> sup_norm (c k) n x -> mode_norm xops compact (map (tabl k) is) = Fin x).
  { intros k x Hk Hx. apply (mode_norm_fin compact (tabl k) (c k) _ n); [destruct is; [cbn in Li; unfold n in Li; lia | discriminate] | | auto | exact Hx].
    intros j Hj. rewrite Li in Hj. rewrite <- (Hc j k Hj Hk). unfold is. rewrite <- (H2 j k Hj) by lia.
    replace ((order + 1) * bs * j + k * bs + l) with (((order + 1) * j + k) * bs + l) by ring. apply nth_indep.
    rewrite L1, Hjm. fold n. assert ((order + 1) * j + k < (order + 1) * n) by nia. nia. }
  rewrite (HN 0 ns), (HN order no), (HN (order - 1) nom1) by auto. split; [|reflexivity].
  rewrite (h_of_inf xops (fun x => x) xnonneg xops_laws _ _ _ _ PInf eq_refl). apply raw_jorba; [exact Ho | now apply (sup_norm_nonneg _ _ _ N0) | now apply (sup_norm_nonneg _ _ _ N1) | now apply (sup_norm_nonneg _ _ _ N2)].
Qed.

(* --- C19 ------------------------------------------------------------------------------------------ *)
(* Dense output evaluates the polynomials whose coefficients are in memory. *)
Theorem dense_output_is_polynomial (S0 : sops (option R)) bs ha ne order out tc hm (c : nat -> nat -> nat -> R) (t : nat -> R) :
  s_t S0 = real_tops -> length out = ne * bs -> length tc = (order + 1) * ne * bs -> length hm = bs ->
  (forall l j k, l < bs -> j < ne -> k <= order -> nth (((order + 1) * j + k) * bs + l) tc None = Some (c l j k)) ->
  (forall l, l < bs -> nth l hm None = Some (t l)) ->
  exists out', d_out_f S0 bs ha ne order out tc hm = MDone out' /\ length out' = length out /\
    forall l j, l < bs -> j < ne -> nth (j * bs + l) out' None = Some (taylor_poly (c l j) order (t l)).
Proof.
  intros HS Lo Lt Lh Hc Ht. destruct (dense_ok S0 bs ne order out tc hm) with (ha := ha) as (out' & H1 & H2 & H3); [lia | rewrite Lt; apply Nat.eq_le_incl; ring | lia|].
  exists out'. split; [exact H1|]. split; [exact H2|]. intros l j Hl Hj.
  rewrite (nth_indep out' None (t_nat (s_t S0) 0)) by (rewrite H2, Lo; nia). rewrite H3 by assumption.
  rewrite (nth_indep hm _ None) by lia. rewrite (Ht l Hl). rewrite <- (evals_exact S0 HS ha (c l j) (t l) order). apply evals_ext; try exact 0.
  intros k Hk. rewrite <- (Hc l j k Hl Hj Hk). replace ((order + 1) * bs * j + k * bs + l) with (((order + 1) * j + k) * bs + l) by ring.
  apply nth_indep. rewrite Lt. assert ((order + 1) * j + k < (order + 1) * ne) by nia. nia.
Qed.
(* Whatever the arithmetic, dense output with the coefficients and the timesteps
   written by a step is the state written by the step. *)
Theorem dense_output_reproduces_state {E} (S0 : sops E) bs o A d order ha compact st hm tc st' hm' tc' out :
  jet_ready (o := o) d [] -> sized bs o d order st hm (Some tc) ->
  ends S0 bs o A d order ha compact st hm (Some tc) st' hm' (Some tc') ->
  length out = length st ->
  d_out_f S0 bs ha (length (dc_in o d)) order out tc' hm' = MDone st'.
Proof.
  intros HR Hs H Lo. pose proof Hs as (Hne & Ho & Hst & Hhm & Htc). set (ne := length (dc_in o d)) in *.
  destruct (ends_result S0 bs o A d order ha compact st hm (Some tc) st' hm' (Some tc') HR Hs H) as (st1 & hm1 & tc1 & [= <- <- <-] & L1 & L2 & H1 & L3 & H2).
  destruct (dense_ok S0 bs ne order out tc' hm') with (ha := ha) as (out' & D1 & D2 & D3); [lia | rewrite L3, Htc; apply Nat.eq_le_incl; ring | lia|].
  rewrite D1. f_equal. apply nth_ext with (d := t_nat (s_t S0) 0) (d' := t_nat (s_t S0) 0); [congruence|]. intros i Hi. rewrite D2, Lo, Hst in Hi.
  assert (Hb : bs <> 0) by (intros ->; lia). rewrite (Nat.div_mod_eq i bs). set (j := i / bs). set (l := i mod bs).
  assert (Hj : j < ne) by (apply Nat.div_lt_upper_bound; lia). assert (Hl : l < bs) by (now apply Nat.mod_upper_bound). rewrite (Nat.mul_comm bs j).
  destruct (a_table S0 bs o A d order [] compact st l HR Hst Hne Ho) as [tabl Ht]. destruct (H1 l tabl Hl Ht) as [_ H3].
  rewrite D3, H3 by assumption. apply evals_ext; try exact 0. intros k Hk. apply (H2 l tabl Hl Ht j k Hj Hk).
Qed.
(* The time at which dense output is computed, relative to the beginning of the
   last step: m_time is the time at the end of a step of length h from t0. *)
Theorem dense_output_time (t0 h t : R) : let m_time := d_addf (o := rops) (d_of (o := rops) (Fin t0)) (Fin h) in
  d_out_time rops false (Fin t) m_time (Fin h) = Fin (t - t0)%R /\
  d_out_time rops true (Fin t) m_time (Fin h) = Fin (h + t)%R /\
  d_out_time rops false (hi m_time) m_time (Fin h) = Fin h /\ d_out_time rops true (Fin 0%R) m_time (Fin h) = Fin h.
Proof. cbn. repeat split; f_equal; ring. Qed.

(* --- A step follows the Taylor polynomials of the solution ------------------------------------------ *)
Lemma expansion_table {o : nops} nval pars (sys : list (string * expr (num o))) x order t tab :
  jet_of (length sys) [] order tab = expansion nval pars sys [] x order t ->
  forall m j s, m <= order -> nth_error (map fst sys) j = Some s -> tab m j = Some (coeff (x s) m t).
Proof.
  intros H m j s Hm Hj. set (names := map fst sys) in *.
  assert (Ln : length names = length sys) by apply map_length. assert (Lj : j < length sys) by (rewrite <- Ln; apply nth_error_Some; congruence).
  assert (E1 : expansion nval pars sys [] x order t = jet_of (length sys) [] order (fun m j => Some (coeff (x (nth j names EmptyString)) m t))).
  { unfold expansion, jet_of. apply flat_map_ext. intros k. rewrite !app_nil_r. fold names. rewrite <- Ln. clear.
    apply nth_ext with (d := None) (d' := None); [now rewrite !map_length, seq_length|]. intros i Hi. rewrite map_length in Hi.
    rewrite (nth_indep _ None (Some (coeff (x EmptyString) k t))) by (now rewrite map_length).
    rewrite (map_nth (fun s => Some (coeff (x s) k t))). rewrite (nth_indep _ None (Some (coeff (x (nth 0 names EmptyString)) k t))) by (now rewrite map_length, seq_length).
    rewrite (map_nth (fun j => Some (coeff (x (nth j names EmptyString)) k t))). now rewrite seq_nth. }
  rewrite E1 in H.
  pose proof (jet_nth (length sys) [] order tab m j Hm) as J1. pose proof (jet_nth (length sys) [] order (fun m j => Some (coeff (x (nth j names EmptyString)) m t)) m j Hm) as J2.
  cbn [length] in J1, J2. rewrite Nat.add_0_r in J1, J2. specialize (J1 Lj). specialize (J2 Lj). rewrite H in J1. rewrite J1 in J2. injection J2 as J2.
  rewrite is_nth_lo in J2 by exact Lj. rewrite J2. now rewrite (List.nth_error_nth _ _ EmptyString Hj).
Qed.
Section Follow.
Context (o : nops) (neq : num o -> num o -> bool) (feq : fid (num o) -> fid (num o) -> bool).
Context (share : list (expr (num o)) -> list (dag (num o))).
Context (ug : string -> list (expr (num o)) -> list (expr (num o) * list nat) -> option (nat * list (expr (num o) * list nat))).
Context (nval : num o -> R) (L : nlaws o nval).

(* The lane l integrates from the time t l the trajectory x l, with the values
   pars l of the parameters. *)
Theorem step_follows_taylor_polynomial sys : lits o -> user_ok o (length sys) ug ->
  (forall l, map erase (share l) = l /\ consistent (share l)) ->
  valid_system o sys [] -> taylor_system o sys [] ->
  exists fuel0 d, (forall fuel, fuel0 <= fuel -> taylor_decompose_sys o neq feq ug share fuel sys [] = MDone (d, [])) /\
    forall bs (pars : nat -> nat -> R) (x : nat -> string -> R -> R) (t : nat -> R) (O : nat -> R -> Prop),
      (forall l, l < bs -> open (O l) /\ O l (t l) /\ solves nval (pars l) sys (x l) (O l) /\
         regular_along nval (pars l) d (map fst sys) (x l) (O l) /\
         (forall t, O l t -> respects (real_alg o nval (env_at (fun s => Some (x l s t)) (pars l) t)) neq feq) /\
         (forall t, O l t -> tlaws o (real_alg o nval (env_at (fun s => Some (x l s t)) (pars l) t))) /\
         (forall t e b y w, O l t -> In e (map snd sys) -> occurs (EFun Fpow [b; y]) e -> (forall n, y <> ENum n) ->
            value_at nval (pars l) (x l) b t = Some w -> (0 < w)%R)) ->
      forall (S0 : sops (option R)) order ha compact st hm tc st' hm' tc',
        s_t S0 = real_tops -> sized bs o d order st hm tc ->
        (forall l j s, l < bs -> nth_error (map fst sys) j = Some s -> nth (j * bs + l) st None = Some (x l s (t l))) ->
        ends S0 bs o (fun l => real_alg o nval (env_at (fun s => Some (x l s (t l))) (pars l) (t l))) d order ha compact st hm tc st' hm' tc' ->
        forall l j s, l < bs -> nth_error (map fst sys) j = Some s ->
          (forall h, nth l hm' None = Some h -> nth (j * bs + l) st' None = Some (taylor_poly (fun k => coeff (x l s) k (t l)) order h)) /\
          (forall m k, tc' = Some m -> k <= order -> nth (((order + 1) * j + k) * bs + l) m None = Some (coeff (x l s) k (t l))).
Proof.
  intros LI HU Hsh Hv Hts.
  destruct (decompositions_are_ready o neq feq share ug sys [] LI HU Hsh Hv Hts (fun e (H : In e []) => match H with end)) as (f1 & d1 & sv1 & Hd1 & Hn1 & Ls1 & HR).
  destruct (jet_is_taylor_expansion o neq feq share ug nval L sys [] LI HU Hsh Hv Hts (fun e (H : In e []) => match H with end)) as (f0 & d & sv & Hd & HJ).
  assert (X : (d, sv) = (d1, sv1)).
  { pose proof (Hd (Nat.max f0 f1) (Nat.le_max_l _ _)) as E1. rewrite (Hd1 _ (Nat.le_max_r _ _)) in E1. congruence. }
  injection X as <- <-. destruct sv; [|discriminate]. exists f0, d. split; [exact Hd|].
  intros bs pars x t O HL S0 order ha compact st hm tc st' hm' tc' HS Hs Hst0 H l j s Hl Hj. pose proof Hs as (Hne & Ho & Hst & Hhm & Htc).
  set (A := fun l => real_alg o nval (env_at (fun s => Some (x l s (t l))) (pars l) (t l))) in *.
  destruct (ends_result S0 bs o A d order ha compact st hm tc st' hm' tc' HR Hs H) as (st1 & hm1 & tc1 & [= <- <- <-] & L1 & L2 & H1 & H2).
  destruct (a_table S0 bs o A d order [] compact st l HR Hst Hne Ho) as [tabl Ht]. destruct (H1 l tabl Hl Ht) as [_ H3].
  destruct (HL l Hl) as (HO & HOt & HX & Hreg & Hres & Htl & Hpow).
  destruct (HJ (pars l) (x l) (O l) HO HX) as [_ HJ']; auto.
  { intros t' e _ []. }
  { intros t' e b y w HO' He. rewrite app_nil_r in He. now apply (Hpow t' e b y w). }
  destruct (HJ' (t l) order HOt Ho) as (J1 & (tp & J2) & J3). clear HJ HJ'.
  fold (A l) in J1, J2, J3.
  assert (Lj : j < length sys) by (rewrite <- (map_length fst); apply nth_error_Some; congruence).
  assert (Est : lane S0 bs l (length (dc_in o d)) st = map (fun s => Some (x l s (t l))) (map fst sys)).
  { apply nth_ext with (d := None) (d' := None); [unfold lane; now rewrite !map_length, seq_length, Hn1|]. intros i Hi. unfold lane in Hi. rewrite map_length, seq_length in Hi.
    destruct (nth_error (map fst sys) i) as [s'|] eqn:Es; [|apply nth_error_None in Es; rewrite map_length in Es; lia].
    transitivity (Some (x l s' (t l))).
    - unfold lane. rewrite (nth_indep _ None (nth (0 * bs + l) st (t_nat (s_t S0) 0))) by (now rewrite map_length, seq_length).
      rewrite (map_nth (fun i => nth (i * bs + l) st (t_nat (s_t S0) 0))), seq_nth by exact Hi. cbn [Nat.add].
      rewrite (nth_indep _ _ None) by (rewrite Hst; nia). now apply Hst0.
    - symmetry. apply nth_error_nth. rewrite nth_error_map, Es. reflexivity. }
  assert (Ll : length (lane S0 bs l (length (dc_in o d)) st) = length (dc_in o d)) by (unfold lane; now rewrite map_length, seq_length).
  pose proof Ht as Ht0. unfold lane_table in Ht. rewrite HS in Ht. rewrite <- Est in J1, J2, J3.
  assert (HT : jet_of (length sys) [] order tabl = expansion nval (pars l) sys [] (x l) order (t l)).
  { rewrite <- Hn1. destruct compact; cbn [mode_code] in Ht.
    - assert (Hseg : exists segs, segment_dc o d = Some segs) by (destruct J2 as (segs & _ & _ & _ & _ & X & _); eauto). destruct Hseg as [segs Hseg].
      pose proof (compact_jet_good (A l) real_tops d [] _ HR Ll tabl Ht segs Hseg order _ tp Ho J2) as G. rewrite (J3 _ _ J2) in G. congruence.
    - pose proof (default_jet (A l) real_tops d [] _ HR Ll tabl Ht order Ho) as G. rewrite J1 in G. congruence. }
  pose proof (expansion_table nval (pars l) sys (x l) order (t l) tabl HT) as HE.
  split.
  - intros h Hh. rewrite (nth_indep hm' None (t_nat (s_t S0) 0)) in Hh by congruence.
    rewrite (nth_indep st' None (t_nat (s_t S0) 0)) by (rewrite L1, Hst, Hn1; nia). rewrite H3 by (rewrite Hn1; exact Lj). rewrite Hh.
    rewrite <- (evals_exact S0 HS ha). apply evals_ext; try exact 0. intros k Hk. now apply HE.
  - intros m k -> Hk. destruct tc as [tc|]; [|contradiction]. destruct H2 as [L3 H2]. rewrite <- (HE k j s Hk Hj).
    rewrite <- (H2 l tabl Hl Ht0 j k) by (rewrite ?Hn1; assumption). replace ((order + 1) * bs * j + k * bs + l) with (((order + 1) * j + k) * bs + l) by ring.
    apply nth_indep. rewrite L3, Htc, Hn1. assert ((order + 1) * j + k < (order + 1) * length sys) by nia. nia.
Qed.
End Follow.

(* --- C38 ------------------------------------------------------------------------------------------ *)
Section Lanes.
Context {E : Type} (S0 : sops E).
Local Notation z := (t_nat (s_t S0) 0).
Lemma lane_of_nth bs l n m i : i < n -> nth i (lane_of z bs l n m) z = nth (i * bs + l) m z.
Proof.
  intros Hi. unfold lane_of. rewrite (nth_indep _ z (nth (0 * bs + l) m z)) by (now rewrite map_length, seq_length).
  rewrite (map_nth (fun i => nth (i * bs + l) m z)). now rewrite seq_nth.
Qed.
Lemma lane_of_length bs l n (m : list E) : length (lane_of z bs l n m) = n.
Proof. unfold lane_of. now rewrite map_length, seq_length. Qed.
Lemma lane_of_eq bs l n m m1 : length m1 = n -> (forall i, i < n -> nth i m1 z = nth (i * bs + l) m z) -> m1 = lane_of z bs l n m.
Proof.
  intros L1 H. apply nth_ext with (d := z) (d' := z); [now rewrite lane_of_length|]. intros i Hi. rewrite L1 in Hi. rewrite lane_of_nth by exact Hi. now apply H.
Qed.
Lemma lane_lane bs l n m : lane_of z 1 0 n (lane_of z bs l n m) = lane_of z bs l n m.
Proof. symmetry. apply lane_of_eq; [apply lane_of_length|]. intros i Hi. now rewrite Nat.mul_1_r, Nat.add_0_r. Qed.

(* Every lane of a batch evolves as if it were integrated alone. *)
Theorem batch_lanes_are_independent bs o A d order ha compact st hm tc st' hm' tc' l st1 hm1 tc1 :
  jet_ready (o := o) d [] -> sized bs o d order st hm tc ->
  ends S0 bs o A d order ha compact st hm tc st' hm' tc' -> l < bs ->
  let ne := length (dc_in o d) in
  let lane n m := lane_of z bs l n m in
  ends S0 1 o (fun _ => A l) d order ha compact (lane ne st) (lane 1 hm) (option_map (lane ((order + 1) * ne)) tc) st1 hm1 tc1 ->
  st1 = lane ne st' /\ hm1 = lane 1 hm' /\ tc1 = option_map (lane ((order + 1) * ne)) tc'.
Proof.
  intros HR Hs H Hl ne ln H0. pose proof Hs as (Hne & Ho & Hst & Hhm & Htc). fold ne in Hne, Hst, Htc.
  assert (Hs1 : sized 1 o d order (ln ne st) (ln 1 hm) (option_map (ln ((order + 1) * ne)) tc)).
  { split; [exact Hne|]. split; [exact Ho|]. split; [unfold ln; rewrite lane_of_length; fold ne; lia|]. split; [apply lane_of_length|].
    destruct tc; cbn; [unfold ln; rewrite lane_of_length; fold ne; lia | exact I]. }
  destruct (ends_result S0 bs o A d order ha compact st hm tc st' hm' tc' HR Hs H) as (x1 & x2 & x3 & [= <- <- <-] & L1 & L2 & H1 & H2).
  destruct (ends_result S0 1 o (fun _ => A l) d order ha compact _ _ _ st1 hm1 tc1 HR Hs1 H0) as (x1 & x2 & x3 & [= <- <- <-] & L1' & L2' & H1' & H2').
  destruct (a_table S0 bs o A d order [] compact st l HR Hst Hne Ho) as [tabl Ht].
  assert (Ht' : lane_table S0 1 o (fun _ => A l) d (ln ne st) (mode_code o compact) 0 tabl).
  { unfold lane_table in *. fold ne. change (lane S0 1 0 ne (ln ne st)) with (lane_of z 1 0 ne (ln ne st)). unfold ln. rewrite lane_lane. exact Ht. }
  destruct (H1 l tabl Hl Ht) as [E1 F1]. destruct (H1' 0 tabl Nat.lt_0_1 Ht') as [E1' F1'].
  assert (Eh : nth 0 hm1 z = nth l hm' z). { rewrite E1', E1. reflexivity. }
  split; [|split].
  - apply lane_of_eq; [rewrite L1'; unfold ln; apply lane_of_length|]. intros i Hi. rewrite F1 by exact Hi. specialize (F1' i Hi). rewrite Nat.mul_1_r, Nat.add_0_r in F1'. rewrite F1', Eh. reflexivity.
  - apply lane_of_eq; [rewrite L2'; unfold ln; apply lane_of_length|]. intros i Hi. replace i with 0 by lia. exact Eh.
  - destruct tc as [tc|], tc' as [tc'|], tc1 as [tc1|]; try contradiction; [|reflexivity]. cbn [option_map] in *. f_equal. destruct H2 as [L3 H2]. destruct H2' as [L3' H2'].
    apply lane_of_eq; [rewrite L3'; unfold ln; apply lane_of_length|]. intros i Hi.
    assert (Hi' : i = (order + 1) * (i / (order + 1)) + i mod (order + 1)) by (apply Nat.div_mod_eq).
    set (j := i / (order + 1)) in *. set (k := i mod (order + 1)) in *.
    assert (Hj : j < ne) by (unfold j; apply Nat.div_lt_upper_bound; lia). assert (Hk : k <= order) by (pose proof (Nat.mod_upper_bound i (order + 1) ltac:(lia)); unfold k; lia).
    specialize (H2 l tabl Hl Ht j k Hj Hk). specialize (H2' 0 tabl Nat.lt_0_1 Ht' j k Hj Hk).
    transitivity (tabl k j); [rewrite <- H2' | rewrite <- H2]; [apply (f_equal (fun i => nth i tc1 z)) | apply (f_equal (fun i => nth i tc' z))]; rewrite Hi'; ring.
Qed.
Theorem event_batch_lanes_are_independent bs o A d sv order compact st jm hm mm jm' hm' mm' l jm1 hm1 mm1 :
  jet_ready (o := o) d sv -> sized_ev bs o d sv order st jm hm mm ->
  ends_ev S0 bs o A d sv order compact st jm hm mm jm' hm' mm' -> l < bs ->
  let ne := length (dc_in o d) in
  let nj := (order + 1) * (ne + length sv) in
  let lane n m := lane_of z bs l n m in
  ends_ev S0 1 o (fun _ => A l) d sv order compact (lane ne st) (lane nj jm) (lane 1 hm) (lane 1 mm) jm1 hm1 mm1 ->
  jm1 = lane nj jm' /\ hm1 = lane 1 hm' /\ mm1 = lane 1 mm'.
Proof.
  intros HR Hs H Hl ne nj ln H0. pose proof Hs as (Hne & Ho & Hst & Hhm & Hmm & Hjm). fold ne in Hne, Hst, Hjm.
  assert (Hs1 : sized_ev 1 o d sv order (ln ne st) (ln nj jm) (ln 1 hm) (ln 1 mm)).
  { unfold ln. split; [exact Hne|]. split; [exact Ho|]. rewrite !lane_of_length. fold ne. repeat split; unfold nj; lia. }
  destruct (ends_ev_result S0 bs o A d order sv compact st jm hm mm jm' hm' mm' HR Hs H) as (x1 & x2 & x3 & [= <- <- <-] & L1 & L2 & L3 & H1).
  destruct (ends_ev_result S0 1 o (fun _ => A l) d order sv compact _ _ _ _ jm1 hm1 mm1 HR Hs1 H0) as (x1 & x2 & x3 & [= <- <- <-] & L1' & L2' & L3' & H1').
  destruct (a_table S0 bs o A d order sv compact st l HR Hst Hne Ho) as [tabl Ht].
  assert (Ht' : lane_table S0 1 o (fun _ => A l) d (ln ne st) (mode_code o compact) 0 tabl).
  { unfold lane_table in *. fold ne. change (lane S0 1 0 ne (ln ne st)) with (lane_of z 1 0 ne (ln ne st)). unfold ln. rewrite lane_lane. exact Ht. }
  destruct (H1 l tabl Hl Ht) as (E1 & G1 & F1). destruct (H1' 0 tabl Nat.lt_0_1 Ht') as (E1' & G1' & F1').
  split; [|split].
  - apply lane_of_eq; [rewrite L1'; unfold ln; apply lane_of_length|]. intros i Hi.
    assert (Hi' : i = (order + 1) * (i / (order + 1)) + i mod (order + 1)) by (apply Nat.div_mod_eq).
    set (j := i / (order + 1)) in *. set (k := i mod (order + 1)) in *.
    assert (Hj : j < ne + length sv) by (unfold j; apply Nat.div_lt_upper_bound; unfold nj in Hi; lia). assert (Hk : k <= order) by (pose proof (Nat.mod_upper_bound i (order + 1) ltac:(lia)); unfold k; lia).
    specialize (F1 j k Hj Hk). specialize (F1' j k Hj Hk).
    transitivity (tabl k (nth j (seq 0 (length (dc_in o d)) ++ sv) 0)); [rewrite <- F1' | rewrite <- F1]; [apply (f_equal (fun i => nth i jm1 z)) | apply (f_equal (fun i => nth i jm' z))]; rewrite Hi'; ring.
  - apply lane_of_eq; [rewrite L2'; unfold ln; apply lane_of_length|]. intros i Hi. replace i with 0 by lia. cbn [Nat.mul Nat.add]. rewrite E1', E1. reflexivity.
  - apply lane_of_eq; [rewrite L3'; unfold ln; apply lane_of_length|]. intros i Hi. replace i with 0 by lia. cbn [Nat.mul Nat.add]. now rewrite G1', G1.
Qed.
Theorem dense_output_lanes_are_independent bs ha ne order out tc hm out' l :
  length out = ne * bs -> length tc = (order + 1) * ne * bs -> length hm = bs -> l < bs ->
  d_out_f S0 bs ha ne order out tc hm = MDone out' ->
  d_out_f S0 1 ha ne order (lane_of z bs l ne out) (lane_of z bs l ((order + 1) * ne) tc) (lane_of z bs l 1 hm) = MDone (lane_of z bs l ne out').
Proof.
  intros Lo Lt Lh Hl H.
  destruct (dense_ok S0 bs ne order out tc hm) with (ha := ha) as (o1 & D1 & D2 & D3); [lia | rewrite Lt; apply Nat.eq_le_incl; ring | lia|]. rewrite H in D1. injection D1 as <-.
  destruct (dense_ok S0 1 ne order (lane_of z bs l ne out) (lane_of z bs l ((order + 1) * ne) tc) (lane_of z bs l 1 hm)) with (ha := ha) as (o2 & C1 & C2 & C3); rewrite ?lane_of_length; try lia.
  rewrite C1. f_equal. apply lane_of_eq; [rewrite C2; apply lane_of_length|]. intros j Hj. specialize (C3 j 0 Hj Nat.lt_0_1). rewrite Nat.mul_1_r, Nat.add_0_r in C3. rewrite C3, D3 by assumption.
  rewrite lane_of_nth by lia. cbn [Nat.mul Nat.add]. apply evals_ext; try exact 0. intros k Hk. rewrite lane_of_nth by nia. apply (f_equal (fun i => nth i tc z)). ring.
Qed.
End Lanes.

(* --- C17: the two modes of a step agree ------------------------------------------------------------- *)
(* In exact arithmetic, as long as the values are defined. *)
Theorem step_modes_agree (S0 : sops (option R)) bs o A d order ha st hm tc st1 hm1 tc1 st2 hm2 tc2 :
  s_t S0 = real_tops -> (forall x, s_abs S0 (Some x) = Some (Rabs x)) -> (forall x y, s_lt S0 (Some x) (Some y) = rltb x y) ->
  jet_ready (o := o) d [] -> sized bs o d order st hm (Some tc) ->
  ends S0 bs o A d order ha false st hm (Some tc) st1 hm1 (Some tc1) ->
  ends S0 bs o A d order ha true st hm (Some tc) st2 hm2 tc2 ->
  (forall i, i < length tc1 -> nth i tc1 None <> None) ->
  st2 = st1 /\ hm2 = hm1 /\ tc2 = Some tc1.
Proof.
  intros HS Habs Hlt HR Hs H1 H2 Hdef. pose proof Hs as (Hne & Ho & Hst & Hhm & Htc). set (ne := length (dc_in o d)) in *. set (z := t_nat (s_t S0) 0).
  destruct (ends_result S0 bs o A d order ha false _ _ _ _ _ _ HR Hs H1) as (x1 & x2 & x3 & [= <- <- <-] & L1 & L2 & F1 & L3 & G1).
  destruct (ends_result S0 bs o A d order ha true _ _ _ _ _ _ HR Hs H2) as (x1 & x2 & x3 & [= <- <- <-] & K1 & K2 & F2 & K3). destruct tc2 as [tc2|]; [|contradiction]. destruct K3 as [K3 G2].
  fold z ne in F1, G1, F2, G2.
  assert (HT : forall l, exists tabl, lane_table S0 bs o A d st (mode_code o false) l tabl /\ lane_table S0 bs o A d st (mode_code o true) l tabl).
  { intros l. destruct (a_table S0 bs o A d order [] false st l HR Hst Hne Ho) as [tabl Ht]. exists tabl. split; [exact Ht|]. unfold lane_table in *. rewrite HS in *. cbn [mode_code] in *. fold ne in Ht |- *.
    set (sl := lane S0 bs l ne st) in *. assert (Ll : length sl = length (dc_in o d)) by (unfold sl, lane; now rewrite map_length, seq_length).
    split; [apply Ht|]. intros n j c Hj I Hc. destruct (dcode_ok d [] sl HR Ll (elt_code o) (or_introl eq_refl) n j Hj I) as (c0 & Hc0 & _).
    rewrite (proj2 Ht n j c0 Hj I Hc0). unfold dcode in Hc, Hc0. destruct (j <? length (dc_in o d)); [congruence|].
    destruct (nth_error (dc_mid o d) (j - length (dc_in o d))) as [p|]; [|discriminate].
    unfold elt_code in Hc0. unfold celt_code in Hc. destruct (fst p) as [x|s|i|f args]; try discriminate. eapply tdiff_cdiff; eauto. }
  assert (Hb : forall i, i < ne * bs -> bs <> 0) by (intros i Hi ->; lia).
  assert (Ehl : forall l, l < bs -> nth l hm2 z = nth l hm1 z).
  { intros l Hl. destruct (HT l) as (tabl & T1 & T2). rewrite (proj1 (F1 l tabl Hl T1)), (proj1 (F2 l tabl Hl T2)). unfold lane_h. cbv zeta. fold ne.
    assert (HN : forall k, k <= order -> mode_norm S0 true (map (tabl k) (seq 0 ne ++ [])) = mode_norm S0 false (map (tabl k) (seq 0 ne ++ []))).
    { intros k Hk. rewrite app_nil_r.
      assert (Es : exists c : nat -> R, forall j, j < ne -> tabl k j = Some (c j)).
      { exists (fun j => match tabl k j with Some x => x | None => 0%R end). intros j Hj. destruct (tabl k j) as [x|] eqn:Ex; [reflexivity|]. exfalso.
        rewrite <- (G1 l tabl Hl T1 j k Hj Hk) in Ex. apply (Hdef ((order + 1) * bs * j + k * bs + l)).
        - rewrite L3, Htc. assert ((order + 1) * j + k < (order + 1) * ne) by nia. nia.
        - rewrite <- Ex. apply nth_indep. rewrite L3, Htc. assert ((order + 1) * j + k < (order + 1) * ne) by nia. nia. }
      destruct Es as [c Hc]. assert (Em : map (tabl k) (seq 0 ne) = map Some (map c (seq 0 ne))).
      { rewrite map_map. apply map_ext_in. intros j Hj. apply in_seq in Hj. apply Hc. lia. }
      assert (Hn : map c (seq 0 ne) <> []). { intros X. apply (f_equal (@length R)) in X. rewrite map_length, seq_length in X. cbn in X. lia. }
      rewrite Em. cbn [mode_norm]. rewrite (norm_seq_fin S0 Some), (norm_pair_fin S0 Some); auto. }
    rewrite !HN by lia. reflexivity. }
  split; [|split].
  - apply nth_ext with (d := z) (d' := z); [congruence|]. intros i Hi. rewrite K1, Hst in Hi. pose proof (Hb i Hi) as Hb'. rewrite (Nat.div_mod_eq i bs). set (j := i / bs). set (l := i mod bs).
    assert (Hj : j < ne) by (apply Nat.div_lt_upper_bound; lia). assert (Hl : l < bs) by (now apply Nat.mod_upper_bound). rewrite (Nat.mul_comm bs j).
    destruct (HT l) as (tabl & T1 & T2). rewrite (proj2 (F1 l tabl Hl T1) j Hj), (proj2 (F2 l tabl Hl T2) j Hj), Ehl by exact Hl. reflexivity.
  - apply nth_ext with (d := z) (d' := z); [congruence|]. intros l Hl. apply Ehl. congruence.
  - f_equal. apply nth_ext with (d := z) (d' := z); [congruence|]. intros i Hi. rewrite K3, Htc in Hi.
    assert (Hb' : bs <> 0) by (intros ->; lia). set (q := i / bs). set (l := i mod bs). assert (Hl : l < bs) by (now apply Nat.mod_upper_bound).
    assert (Hq : q < (order + 1) * ne) by (apply Nat.div_lt_upper_bound; lia). set (j := q / (order + 1)). set (k := q mod (order + 1)).
    assert (Hj : j < ne) by (unfold j; apply Nat.div_lt_upper_bound; lia). assert (Hk : k <= order) by (pose proof (Nat.mod_upper_bound q (order + 1) ltac:(lia)); unfold k; lia).
    assert (Ei : i = (order + 1) * bs * j + k * bs + l).
    { pose proof (Nat.div_mod_eq i bs) as E1. fold q l in E1. pose proof (Nat.div_mod_eq q (order + 1)) as E2. fold j k in E2. rewrite E1, E2. ring. }
    rewrite Ei. destruct (HT l) as (tabl & T1 & T2). now rewrite (G1 l tabl Hl T1 j k Hj Hk), (G2 l tabl Hl T2 j k Hj Hk).
Qed.

(* --- Examples ---------------------------------------------------------------------------------------- *)
(* The system x' = x. *)
Definition gsys : list (string * expr R) := [("x", EVar "x")]%string.
Definition gdc : dcmp rnum := mkDC rnum [(EVar "x", [])] [] [(EVar "u_0", [])]%string.
Lemma gdc_ready : taylor_decompose_sys rnum (num_eqb r_dec) (fid_eqb r_dec) r_user unshared 100 gsys [] = MDone (gdc, []) /\ jet_ready gdc [].
Proof.
  split; [vm_compute; reflexivity|].
  assert (HT : taylor_system rnum gsys []) by (unfold taylor_system; apply Forall_forall; intros e He; vm_compute in He; destruct He as [<-|[]]; repeat (constructor; cbn; auto)).
  assert (HV : valid_system rnum gsys []).
  { split; [discriminate|]. split.
    - assert (H : check_vars rnum (map snd gsys ++ []) [EVar "x"]%string = Some (map fst gsys)) by (vm_compute; reflexivity). apply check_vars_ok in H. apply H.
    - vm_compute. repeat constructor. }
  destruct (decompositions_are_ready rnum (num_eqb r_dec) (fid_eqb r_dec) unshared r_user gsys [] rnum_lits (fun s args dc _ _ => I) unshared_ok HV HT (fun e (H : In e []) => match H with end)) as (f0 & d & sv & Hd & _ & _ & HR).
  assert (E : (d, sv) = (gdc, [])).
  { pose proof (Hd (Nat.max f0 100) (Nat.le_max_l _ _)) as E1.
    assert (E0 : taylor_decompose_sys rnum (num_eqb r_dec) (fid_eqb r_dec) r_user unshared 100 gsys [] = MDone (gdc, [])) by (vm_compute; reflexivity).
    pose proof (taylor_decompose_mono rnum (num_eqb r_dec) (fid_eqb r_dec) r_user unshared 100 gsys [] _ E0 (Nat.max f0 100) (Nat.le_max_r _ _)) as E2. congruence. }
  injection E as <- ->. exact HR.
Qed.
(* The steps of a batch end, with bounds, without bounds, and lane by lane. *)
Lemma steps_end {E} (S0 : sops E) bs o A d order ha compact st hm tc : jet_ready (o := o) d [] -> sized bs o d order st hm tc ->
  exists st' hm' tc', ends S0 bs o A d order ha compact st hm tc st' hm' tc'.
Proof.
  intros HR Hs. destruct (step_is_safe S0 bs o A d order ha st hm tc HR Hs) as (H1 & H2 & H3 & _). destruct compact; [|exact H1].
  destruct (H2 (fun _ => splat (t_nat (s_t S0) 0))) as [res Hr]. destruct (H3 _ _ Hr) as (st' & hm' & tc' & ->). exists st', hm', tc'. now exists (fun _ => splat (t_nat (s_t S0) 0)).
Qed.
Lemma steps_ev_end {E} (S0 : sops E) bs o A d sv order compact st jm hm mm : jet_ready (o := o) d sv -> sized_ev bs o d sv order st jm hm mm ->
  exists jm' hm' mm', ends_ev S0 bs o A d sv order compact st jm hm mm jm' hm' mm'.
Proof.
  intros HR Hs. destruct (event_step_is_safe S0 bs o A d sv order st jm hm mm HR Hs) as (H1 & H2 & H3 & _). destruct compact; [|exact H1].
  destruct (H2 (fun _ => splat (t_nat (s_t S0) 0))) as [res Hr]. destruct (H3 _ _ Hr) as (st' & hm' & tc' & ->). exists st', hm', tc'. now exists (fun _ => splat (t_nat (s_t S0) 0)).
Qed.
(* The coefficients of x' = x, x = 3. *)
Lemma gdc_coeffs A ha compact hm st' hm' tc' : length hm = 2 ->
  ends xops 2 rnum A gdc 2 ha compact [Fin 3%R; Fin 3%R] hm (Some (repeat NaN 6)) st' hm' (Some tc') ->
  (forall l k, l < 2 -> k < 3 -> nth (k * 2 + l) tc' NaN = Fin (nth k [3; 3; 3 / 2] 0)%R) /\
  forall l, l < 2 -> nth l hm NaN = PInf -> nth l hm' NaN = jorba_step 2 3 (3 / 2) 3.
Proof.
  intros Lh H. destruct gdc_ready as [_ HR].
  assert (Hs : sized 2 rnum gdc 2 [Fin 3%R; Fin 3%R] hm (Some (repeat NaN 6))) by (repeat split; cbn; lia).
  assert (HC : forall l k, l < 2 -> k < 3 -> nth (k * 2 + l) tc' NaN = Fin (nth k [3; 3; 3 / 2] 0)%R).
  { intros l k Hl Hk.
    destruct (ends_result xops 2 rnum A gdc 2 ha compact _ _ _ _ _ _ HR Hs H) as (x1 & x2 & x3 & [= <- <- <-] & L1 & L2 & F1 & L3 & G1).
    destruct (a_table xops 2 rnum A gdc 2 [] compact [Fin 3%R; Fin 3%R] l HR eq_refl (le_n _) (le_S _ _ (le_n _))) as [tabl Ht].
    specialize (G1 l tabl Hl Ht 0 k Nat.lt_0_1 ltac:(lia)). rewrite (nth_indep tc' NaN (t_nat (s_t xops) 0)) by (rewrite L3; cbn; lia).
    replace ((2 + 1) * 2 * 0 + k * 2 + l) with (k * 2 + l) in G1 by lia. rewrite G1.
    destruct Ht as [T0 T1]. specialize (T0 0 Nat.lt_0_1). assert (E0 : tabl 0 0 = Fin 3%R) by (rewrite T0; destruct l as [|[|l]]; [reflexivity | reflexivity | lia]).
    assert (I1 : forall n, ~ initial 1 (S n) 0) by (intros n [X _]; discriminate).
    assert (E1 : tabl 1 0 = Fin 3%R).
    { rewrite (T1 1 0 _ Nat.lt_0_1 (I1 0) eq_refl). cbn. rewrite E0. cbn. unfold reqb. destruct (Req_EM_T 1 0); [lra|]. f_equal. field. }
    destruct k as [|[|[|k]]]; [exact E0 | exact E1 | | lia].
    rewrite (T1 2 0 _ Nat.lt_0_1 (I1 1) eq_refl). cbn. rewrite E1. cbn. unfold reqb. destruct (Req_EM_T (1 + 1) 0); [lra|]. reflexivity. }
  split; [exact HC|]. intros l Hl Hinf.
  apply (deduced_timestep 2 rnum A gdc 2 ha compact _ hm (repeat NaN 6) st' hm' tc' l (fun k _ => nth k [3; 3; 3 / 2] 0)%R 3 (3 / 2) 3 HR Hs (le_n _) H Hl Hinf).
  - intros j k Hj Hk. cbn in Hj. replace j with 0 by lia. change ((2 + 1) * 0 + k) with k. apply HC; lia.
  - split; [intros j Hj; cbn [nth Nat.sub]; rewrite Rabs_right; lra | exists 0; split; [cbn; lia | cbn [nth Nat.sub]; rewrite Rabs_right; lra]].
  - split; [intros j Hj; cbn [nth Nat.sub]; rewrite Rabs_right; lra | exists 0; split; [cbn; lia | cbn [nth Nat.sub]; rewrite Rabs_right; lra]].
  - split; [intros j Hj; cbn [nth Nat.sub]; rewrite Rabs_right; lra | exists 0; split; [cbn; lia | cbn [nth Nat.sub]; rewrite Rabs_right; lra]].
Qed.
Lemma gdc_step : exists u, jorba_step 2 3 (3 / 2) 3 = Fin u /\ (1 / 100 < u)%R.
Proof.
  unfold jorba_step, jorba_rho. destruct (Req_EM_T (3 / 2) 0); [lra|]. destruct (Req_EM_T 3 0); [lra|]. eexists. split; [reflexivity|].
  rewrite (Rmax_right 1 3) by lra. replace (3 / (3 / 2))%R with 2%R by lra. replace (3 / 3)%R with 1%R by lra.
  assert (H1 : (1 <= Rmin (Rpower 2 (1 / INR 2)) (Rpower 1 (1 / INR (2 - 1))))%R).
  { apply Rmin_glb.
    - apply Rle_trans with (Rpower 2 0); [rewrite Rpower_O; lra|]. apply Rle_Rpower; [lra|]. replace (INR 2) with 2%R by (cbn; lra). lra.
    - unfold Rpower. rewrite ln_1, Rmult_0_r, exp_0. lra. }
  replace (- (7 / 10) / (INR 2 - 1))%R with (- (7 / 10))%R by (cbn; lra).
  assert (H2 : (1 / 27 <= exp (- (7 / 10)) / exp 2)%R).
  { unfold Rdiv. rewrite <- exp_Ropp, <- exp_plus.
    apply Rle_trans with (exp (- (3))); [|left; apply exp_increasing; lra]. rewrite exp_Ropp. rewrite Rmult_1_l. apply Rinv_le_contravar; [apply exp_pos|].
    replace 3%R with (1 + 1 + 1)%R at 1 by lra. rewrite !exp_plus. pose proof exp_le_3. pose proof (exp_pos 1). nra. }
  nra.
Qed.
(* The step without bounds is that of the norms 3, 3 / 2, 3, and is larger than
   1 / 100: a bound of - 1 / 100 is respected. *)
Example timestep_demo A ha compact : step_laws xops (fun x => x) xnonneg /\ jet_ready gdc [] /\
  exists st' hm' tc', ends xops 2 rnum A gdc 2 ha compact [Fin 3%R; Fin 3%R] [PInf; Fin (- 1 / 100)%R] (Some (repeat NaN 6)) st' hm' (Some tc') /\
    nth 0 hm' NaN = jorba_step 2 3 (3 / 2) 3 /\ nth 1 hm' NaN = Fin (- 1 / 100)%R.
Proof.
  split; [apply xops_laws|]. destruct gdc_ready as [_ HR]. split; [exact HR|].
  set (hm := [PInf; Fin (- 1 / 100)%R]). set (hu := [PInf; PInf] : list (ext R)).
  assert (Hs : forall h, length h = 2 -> sized 2 rnum gdc 2 [Fin 3%R; Fin 3%R] h (Some (repeat NaN 6))) by (intros h Hh; repeat split; cbn; lia).
  pose proof (Hs hm eq_refl) as H1. pose proof (Hs hu eq_refl) as H2. clear Hs.
  destruct (steps_end xops 2 rnum A gdc 2 ha compact _ _ _ HR H1) as (st' & hm' & tc' & H).
  destruct (steps_end xops 2 rnum A gdc 2 ha compact _ _ _ HR H2) as (stu & hmu & tcu & HU).
  destruct (step_is_safe xops 2 rnum A gdc 2 ha _ _ _ HR H1) as (_ & _ & _ & Z1). destruct (Z1 _ _ _ _ H) as [(_ & _ & _ & L1 & _) N1].
  destruct (step_is_safe xops 2 rnum A gdc 2 ha _ _ _ HR H2) as (_ & _ & _ & Z2). destruct (Z2 _ _ _ _ HU) as [(_ & _ & _ & L2 & _) N2].
  destruct tc' as [tc'|]; [|discriminate (proj1 N1 eq_refl)]. destruct tcu as [tcu|]; [|discriminate (proj1 N2 eq_refl)].
  exists st', hm', tc'. split; [exact H|]. destruct (gdc_coeffs A ha compact hm st' hm' tc' eq_refl H) as [_ G1].
  destruct (gdc_coeffs A ha compact hu stu hmu tcu eq_refl HU) as [_ G2]. split; [apply (G1 0 Nat.lt_0_2 eq_refl)|].
  destruct (timestep_respects_bound xops (fun x => x) xnonneg 2 rnum A gdc 2 ha ha compact _ hm hu _ _ _ _ _ _ _ _ xops_laws HR H1 H2 H HU 1 Nat.lt_1_2 eq_refl) as [(_ & _ & B) _].
  rewrite (nth_indep hm' NaN (t_nat (s_t xops) 0)) by lia. specialize (G2 1 Nat.lt_1_2 eq_refl). rewrite (nth_indep hmu NaN (t_nat (s_t xops) 0)) in G2 by lia. rewrite G2 in B.
  destruct gdc_step as (u & Eu & Hu). rewrite Eu in B. cbn [nth hm] in B. destruct B as (_ & _ & _ & B & _); [discriminate | discriminate|]. apply B.
  cbn. unfold rltb. rewrite Rabs_left by lra. destruct (Rlt_dec _ u); [reflexivity | lra].
Qed.
(* The batch version of x' = sin(t), y' = y sin(t), with two different times. *)
Definition rdc0 : dcmp rnum :=
  mkDC rnum [(EVar "x", []); (EVar "y", [])]
    [(EFun Ftime [], []); (EFun (Fu Uccos) [EVar "u_2"], [4%nat]); (EFun (Fu Ucsin) [EVar "u_2"], [3%nat]); (EFun Fprod [EVar "u_1"; EVar "u_4"], [])]
    [(EVar "u_4", []); (EVar "u_5", [])]%string.
Definition oexact : sops (option R) :=
  mkSops real_tops (oap1 Rabs) (oap2 Rpower) (oap1 exp)
    (fun a b => match a, b with Some x, Some y => rltb x y | _, _ => false end) (fun a b => match a, b with Some x, Some y => rleb x y | _, _ => false end).
Lemma rdc0_ok : taylor_decompose_sys rnum (num_eqb r_dec) (fid_eqb r_dec) r_user unshared 100 rsys [] = MDone (rdc0, []).
Proof. vm_compute. reflexivity. Qed.
Lemma rsys_valid : valid_system rnum rsys [] /\ taylor_system rnum rsys [].
Proof.
  split.
  - split; [discriminate|]. split.
    + assert (H : check_vars rnum (map snd rsys ++ []) [EVar "x"; EVar "y"]%string = Some (map fst rsys)) by (vm_compute; reflexivity). apply check_vars_ok in H. apply H.
    + vm_compute. repeat constructor.
  - unfold taylor_system. apply Forall_forall. intros e He. vm_compute in He. repeat (destruct He as [<-|He]; [repeat (constructor; cbn; auto)|]). contradiction.
Qed.
Lemma rdc0_ready : jet_ready rdc0 [].
Proof.
  destruct rsys_valid as [HV HT].
  destruct (decompositions_are_ready rnum (num_eqb r_dec) (fid_eqb r_dec) unshared r_user rsys [] rnum_lits (fun s args dc _ _ => I) unshared_ok HV HT (fun e (H : In e []) => match H with end)) as (f0 & d & sv & Hd & _ & _ & HR).
  assert (E : (d, sv) = (rdc0, [])).
  { pose proof (Hd (Nat.max f0 100) (Nat.le_max_l _ _)) as E1.
    pose proof (taylor_decompose_mono rnum (num_eqb r_dec) (fid_eqb r_dec) r_user unshared 100 rsys [] _ rdc0_ok (Nat.max f0 100) (Nat.le_max_r _ _)) as E2. congruence. }
  injection E as <- ->. exact HR.
Qed.
Local Open Scope R_scope.
Lemma rsys_trajectory (t : R) : solves (o := rnum) (fun x => x) (fun _ => 0) rsys rsol (fun _ => True) /\
  regular_along (o := rnum) (fun x => x) (fun _ => 0) rdc0 (map fst rsys) rsol (fun _ => True).
Proof.
  split.
  - intros u s e _ [[= <- <-]|[[= <- <-]|[]]].
    + exists (sin u). split; [reflexivity|]. unfold rsol. cbn. auto_derive; [exact I | ring].
    + exists (exp (- cos u) * sin u). split; [cbn; f_equal; unfold rprod; cbn; ring|]. unfold rsol. cbn. auto_derive; [exact I | ring].
  - intros u k f args deps _ Hk. cbn [dc_mid rdc0] in Hk. unfold elements_at. cbn [dc_mid rdc0].
    do 4 (destruct k as [|k]; [injection Hk as <- <- <-; split; [eexists; reflexivity | (right; exact I) || (left; constructor)]|]).
    destruct k; discriminate.
Qed.
Lemma rsol_coeffs t : 0 < t <= 1 -> coeff (rsol "x") 1 t <> 0 /\ coeff (rsol "x") 2 t <> 0.
Proof.
  intros Ht. assert (E1 : forall u, Derive (rsol "x") u = sin u) by (intros u; apply is_derive_unique; unfold rsol; cbn; auto_derive; [exact I | ring]).
  pose proof PI2_1. unfold coeff. cbn [Derive_n]. rewrite E1. split.
  - cbn. pose proof (sin_gt_0 t ltac:(lra) ltac:(lra)). lra.
  - rewrite (Derive_ext _ sin) by exact E1. rewrite (is_derive_unique sin t (cos t)) by (auto_derive; [exact I | ring]). pose proof (cos_gt_0 t ltac:(lra) ltac:(lra)). cbn. lra.
Qed.
Lemma rnorm_pos a l : a <> 0 -> rnorm (a :: l) <> 0.
Proof. intros Ha. unfold rnorm. cbn [fold_right]. pose proof (Rabs_pos_lt a Ha). pose proof (Rmax_l (Rabs a) (fold_right (fun x acc => Rmax (Rabs x) acc) 0 l)). lra. Qed.
Lemma oexact_h ns no nom1 b : no <> 0 -> nom1 <> 0 -> exists h, h_of oexact 2 (Some ns) (Some no) (Some nom1) (Some b) = Some h.
Proof.
  intros H1 H2. rewrite h_of_raw. cbv zeta.
  assert (D : forall x y, y <> 0 -> odiv (Some x) (Some y) = Some (x / y)) by (intros x y Hy; unfold odiv, guard; destruct (nz_dec y); [reflexivity | contradiction]).
  assert (Er : exists u, h_raw oexact 2 (Some ns) (Some no) (Some nom1) = Some u).
  { unfold h_raw. cbv zeta.
    assert (En : exists n, (if s_le oexact (Some ns) (t_nat (s_t oexact) 1) then t_nat (s_t oexact) 1 else Some ns) = Some n) by (destruct (s_le _ _ _); eexists; reflexivity).
    destruct En as [n ->]. unfold rhofac. cbn [oexact s_t real_tops t_div t_nat s_pow s_exp t_mul t_neg oap1 oap2]. cbn [Nat.sub].
    assert (Hx : exp 1 * exp 1 <> 0) by (pose proof (exp_pos 1); nra).
    rewrite !D by (first [assumption | cbn; lra]). cbn [oap1 oap2]. rewrite !D by (first [assumption | cbn; lra]). cbn [oap1 oap2]. 
    change (INR 1) with 1. cbn [oap2]. destruct (s_lt _ _ _); cbn [oap2]; eexists; reflexivity. }
  destruct Er as [u ->]. cbn [oexact s_t real_tops t_nat s_lt s_abs oap1 t_neg t_mul]. destruct (rltb (Rabs b) u), (rltb b (INR 0)); cbn [oap2]; eexists; reflexivity.
Qed.
(* Whatever the bounds: the lane 0 starts at the time 1 / 2, the lane 1 at the time 1. *)
Example step_demo ha compact (b0 b1 : R) :
  let t l := INR (S l) / 2 in
  let A l := real_alg rnum (fun x => x) (env_at (fun s => Some (rsol s (t l))) (fun _ => 0) (t l)) in
  let st := [Some (rsol "x" (t 0%nat)); Some (rsol "x" (t 1%nat)); Some (rsol "y" (t 0%nat)); Some (rsol "y" (t 1%nat))]%string in
  exists st' hm' tc', ends oexact 2 rnum A rdc0 2 ha compact st [Some b0; Some b1] (Some (repeat None 12)) st' hm' (Some tc') /\
    (forall l j s, (l < 2)%nat -> nth_error ["x"; "y"]%string j = Some s ->
       exists h, nth l hm' None = Some h /\ nth (j * 2 + l) st' None = Some (taylor_poly (fun k => coeff (rsol s) k (t l)) 2 h)) /\
    d_out_f oexact 2 ha 2 2 st tc' hm' = MDone st'.
Proof.
  intros t A st.
  assert (Hs : sized 2 rnum rdc0 2 st [Some b0; Some b1] (Some (repeat None 12))) by (repeat split; cbn; lia).
  destruct (steps_end oexact 2 rnum A rdc0 2 ha compact _ _ _ rdc0_ready Hs) as (st' & hm' & tc' & H).
  destruct (step_is_safe oexact 2 rnum A rdc0 2 ha _ _ _ rdc0_ready Hs) as (_ & _ & _ & Z1). destruct (Z1 _ _ _ _ H) as [Hs' N1].
  destruct tc' as [tc'|]; [|discriminate (proj1 N1 eq_refl)]. exists st', hm', tc'. split; [exact H|]. split.
  2: { apply (dense_output_reproduces_state oexact 2 rnum A rdc0 2 ha compact st _ _ st' hm' tc' st rdc0_ready Hs H eq_refl). }
  destruct rsys_valid as [HV HT].
  destruct (step_follows_taylor_polynomial rnum (num_eqb r_dec) (fid_eqb r_dec) unshared r_user (fun x => x) rnum_laws rsys rnum_lits (fun s args dc _ _ => I) unshared_ok HV HT)
    as (f0 & d & Hd & HF).
  assert (E : d = rdc0).
  { pose proof (Hd (Nat.max f0 100) (Nat.le_max_l _ _)) as E1.
    pose proof (taylor_decompose_mono rnum (num_eqb r_dec) (fid_eqb r_dec) r_user unshared 100 rsys [] _ rdc0_ok (Nat.max f0 100) (Nat.le_max_r _ _)) as E2. congruence. }
  subst d. destruct (rsys_trajectory 0) as [T1 T2].
  assert (HL : forall l j s, (l < 2)%nat -> nth_error ["x"; "y"]%string j = Some s ->
     (forall h, nth l hm' None = Some h -> nth (j * 2 + l) st' None = Some (taylor_poly (fun k => coeff (rsol s) k (t l)) 2 h)) /\
     (forall m k, Some tc' = Some m -> (k <= 2)%nat -> nth (((2 + 1) * j + k) * 2 + l) m None = Some (coeff (rsol s) k (t l)))).
  { refine (HF 2%nat (fun _ _ => 0) (fun _ => rsol) t (fun _ _ => True) _ oexact 2%nat ha compact st _ _ st' hm' (Some tc') eq_refl Hs _ H).
    - intros l _. split; [apply open_true|]. split; [exact I|]. split; [exact T1|]. split; [exact T2|]. split; [intros; apply exact_respects|]. split; [intros; apply rnum_tlaws|].
      intros t' e b y w _ He Hocc. exfalso. cbn in He.
      assert (T : test_any rnum (fun x => match x with EFun Fpow _ => true | _ => false end) e = true) by (apply test_any_spec; eexists; split; [exact Hocc | reflexivity]).
      destruct He as [<-|[<-|[]]]; discriminate T.
    - intros l j s Hl Hj. destruct l as [|[|l]]; [| |lia]; destruct j as [|[|j]]; cbn in Hj; try (destruct j; discriminate); injection Hj as <-; reflexivity. }
  clear HF. intros l j s Hl Hj.
  assert (Hh : exists h, nth l hm' None = Some h).
  { destruct (ends_result oexact 2 rnum A rdc0 2 ha compact _ _ _ _ _ _ rdc0_ready Hs H) as (x1 & x2 & x3 & [= <- <- <-] & L1 & L2 & F1 & L3 & G1).
    destruct (a_table oexact 2 rnum A rdc0 2 [] compact st l rdc0_ready eq_refl ltac:(cbn; lia) ltac:(lia)) as [tabl Ht].
    destruct (F1 l tabl Hl Ht) as [Eh _]. rewrite (nth_indep hm' None (t_nat (s_t oexact) 0)) by (cbn in L2 |- *; lia). rewrite Eh. unfold lane_h. cbv zeta.
    assert (HN : forall k, (k <= 2)%nat -> mode_norm oexact compact (map (tabl k) (seq 0 (length (dc_in rnum rdc0)) ++ [])) = Some (rnorm [coeff (rsol "x") k (t l); coeff (rsol "y") k (t l)])).
    { intros k Hk. change (seq 0 (length (dc_in rnum rdc0)) ++ []) with [0; 1]%nat. cbn [map].
      assert (Ev : forall j s, nth_error ["x"; "y"]%string j = Some s -> tabl k j = Some (coeff (rsol s) k (t l))).
      { intros j' s' Hj'. assert (Lj : (j' < 2)%nat) by (change 2%nat with (length ["x"; "y"]%string); apply nth_error_Some; congruence).
        rewrite <- (G1 l tabl Hl Ht j' k Lj Hk). rewrite <- (proj2 (HL l j' s' Hl Hj') tc' k eq_refl Hk).
        replace ((2 + 1) * 2 * j' + k * 2 + l)%nat with (((2 + 1) * j' + k) * 2 + l)%nat by lia. apply nth_indep. rewrite L3. cbn [length repeat]. lia. }
      rewrite (Ev 0%nat "x"%string eq_refl), (Ev 1%nat "y"%string eq_refl).
      change [Some (coeff (rsol "x") k (t l)); Some (coeff (rsol "y") k (t l))] with (map Some [coeff (rsol "x") k (t l); coeff (rsol "y") k (t l)]).
      destruct compact; cbn [mode_norm]; [apply (norm_seq_fin oexact Some) | apply (norm_pair_fin oexact Some)]; (reflexivity || discriminate). }
    rewrite !HN by lia. assert (Htl : 0 < t l <= 1) by (unfold t; destruct l as [|[|l]]; [cbn; lra | cbn; lra | lia]). destruct (rsol_coeffs (t l) Htl) as [C1 C2].
    assert (Eb : exists b, nth l [Some b0; Some b1] (t_nat (s_t oexact) 0) = Some b) by (destruct l as [|[|l]]; [eexists; reflexivity | eexists; reflexivity | lia]). destruct Eb as [b ->].
    apply oexact_h; now apply rnorm_pos. }
  destruct Hh as [h Hh]. exists h. split; [exact Hh|]. now apply (HL l j s Hl Hj).
Qed.

(* A batch of three pendulums with an event, in any arithmetic: the steps of the
   batch and of its lanes end. *)
Example lanes_demo {E} (S0 : sops E) (A : nat -> alg (num qnum) E) compact (x : nat -> E) (l : nat) : (l < 3)%nat ->
  exists d, jet_ready (o := qnum) d [4%nat] /\ length (dc_in qnum d) = 2%nat /\ exists jm' hm' mm' jm1 hm1 mm1,
    let z := t_nat (s_t S0) 0 in
    let st := map x (seq 0 6) in
    ends_ev S0 3 qnum A d [4%nat] 2 compact st (repeat z 27) [x 7; x 8; x 9]%nat [z; z; z] jm' hm' mm' /\
    ends_ev S0 1 qnum (fun _ => A l) d [4%nat] 2 compact [x l; x (3 + l)]%nat (repeat z 9) [x (7 + l)]%nat [z] jm1 hm1 mm1 /\
    jm1 = lane_of z 3 l 9 jm' /\ hm1 = [nth l hm' z].
Proof.
  intros Hl. destruct jets_demo as (_ & d & _ & HR & Ln & _). exists d. split; [exact HR|]. split; [exact Ln|]. set (z := t_nat (s_t S0) 0). cbv zeta.
  assert (H3 : sized_ev 3 qnum d [4%nat] 2 (map x (seq 0 6)) (repeat z 27) [x 7; x 8; x 9]%nat [z; z; z]) by (unfold sized_ev; cbv zeta; rewrite Ln; repeat split; cbn; lia).
  assert (H1 : sized_ev 1 qnum d [4%nat] 2 [x l; x (3 + l)]%nat (repeat z 9) [x (7 + l)]%nat [z]) by (unfold sized_ev; cbv zeta; rewrite Ln; repeat split; cbn; lia).
  destruct (steps_ev_end S0 3 qnum A d [4%nat] 2 compact _ _ _ _ HR H3) as (jm' & hm' & mm' & E3).
  destruct (steps_ev_end S0 1 qnum (fun _ => A l) d [4%nat] 2 compact _ _ _ _ HR H1) as (jm1 & hm1 & mm1 & E1).
  exists jm', hm', mm', jm1, hm1, mm1. split; [exact E3|]. split; [exact E1|].
  pose proof (event_batch_lanes_are_independent S0 3 qnum A d [4%nat] 2 compact _ _ _ _ _ _ _ l jm1 hm1 mm1 HR H3 E3 Hl) as HB. cbv zeta in HB. rewrite Ln in HB.
  destruct HB as (B1 & B2 & _); [|split; [exact B1 | exact B2]].
  destruct l as [|[|[|l]]]; [exact E1 | exact E1 | exact E1 | lia].
Qed.

Print Assumptions step_is_safe.
Print Assumptions event_step_is_safe.
Print Assumptions timestep_respects_bound.
Print Assumptions event_timestep_respects_bound.
Print Assumptions deduced_timestep.
Print Assumptions event_deduced_timestep.
Print Assumptions dense_output_is_polynomial.
Print Assumptions dense_output_reproduces_state.
Print Assumptions dense_output_time.
Print Assumptions step_follows_taylor_polynomial.
Print Assumptions batch_lanes_are_independent.
Print Assumptions event_batch_lanes_are_independent.
Print Assumptions dense_output_lanes_are_independent.
Print Assumptions step_modes_agree.
