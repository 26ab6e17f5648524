(** C42: the batch integrator integrates its elements as the scalar integrator would. *)
From Coq Require Import List ZArith NArith Bool Reals Lia Lra.
From Verif Require Import M_Float M_Search M_Step M_Prop S_Step S_Prop P_Step P_Prop P_PropX M_Batch S_Batch P_Batch1 P_Batch2 P_Batch3 P_Batch4 X_Demo X_Batch.
Import ListNotations.
Set Bullet Behavior "Strict Subproofs".

Section T.
Context {o : fops} {St Jt En Eb : Type} (L : flaws o) (proj : Eb -> nat -> En).
Notation F := (F o).
Notation world := (world o St Jt En).
Notation bworld := (bworld o St Jt Eb).
Notation bargs := (bargs o St Jt Eb).
Notation view := (view proj).
Notation lane := (lane proj).
Context (bc : bcfg o St Jt Eb) (ncb : nat -> nat -> world -> F -> Z -> out o St Jt En world)
  (tcb : nat -> nat -> option (world -> Z -> out o St Jt En (world * bool))).
(** The scalar integrator of element i, one of its steps and one of its propagations. *)
Notation sc i := (scalar bc (ncb i) (tcb i)).
Notation sstep i lim wtc v := (step_impl o St Jt En (sc i) lim wtc v).
Notation srun f i a M ti dti v := (propagate_until o St Jt En f (sc i) (lane_args a M ti dti) v).
(** The callbacks of the events of an element act on that element only. *)
Hypothesis HL : local_callbacks proj bc ncb tcb.
Hypothesis Hrefl : forall x, feq o x x = true \/ fnan o x = true.

Lemma refl_cmp x : cmp_nan_eq o x x = true.
Proof. unfold cmp_nan_eq. destruct (Hrefl x) as [-> | ->]; [reflexivity|]. apply orb_true_r. Qed.

(** A step: every element makes the step that the scalar integrator would make, whatever the
    other elements do. The step throws exactly if that of some element would. *)
Theorem batch_step_elementwise : forall lims wtc (w : bworld), length lims = size w ->
  exists w', size w' = size w /\
  (forall i v lim, view w i = Some v -> nth_error lims i = Some lim -> view w' i = Some (left_by (sstep i lim wtc v))) /\
  ((exists i v lim, view w i = Some v /\ nth_error lims i = Some lim /\ throws (sstep i lim wtc v)) /\
     bstep_impl o St Jt Eb bc lims wtc w = BExn w' \/
   exists res, bstep_impl o St Jt Eb bc lims wtc w = BRet (res, w') /\ length res = size w /\
     forall i v lim, view w i = Some v -> nth_error lims i = Some lim -> exists oc h v', sstep i lim wtc v = Ret (oc, h, v') /\ nth_error res i = Some (oc, h)).
Proof. intros. apply batch_step_lanes; auto using refl_cmp. Qed.

(** The public variants: unbounded steps forward and backward, and bounds per element. *)
Theorem batch_step_variants : forall wtc (w : bworld),
  (exists lims, length lims = size w /\ (forall i x, nth_error lims i = Some x -> x = finf o) /\
     bstep_fwd o St Jt Eb bc wtc w = bstep_impl o St Jt Eb bc lims wtc w) /\
  (exists lims, length lims = size w /\ (forall i x, nth_error lims i = Some x -> x = fneg o (finf o)) /\
     bstep_bwd o St Jt Eb bc wtc w = bstep_impl o St Jt Eb bc lims wtc w) /\
  forall lims, bstep_max o St Jt Eb bc lims wtc w =
    (if Nat.eqb (length lims) (size w) && forallb (fun x => negb (fnan o x)) lims then bstep_impl o St Jt Eb bc lims wtc w else BExn w).
Proof.
  intros wtc w. assert (R : forall (y : F) n i x, nth_error (repeat y n) i = Some x -> x = y).
  { intros y n i x H. apply nth_error_In in H. now apply repeat_spec in H. }
  split; [|split].
  - exists (repeat (finf o) (size w)). split; [apply repeat_length|]. split; [apply R|reflexivity].
  - exists (repeat (fneg o (finf o)) (size w)). split; [apply repeat_length|]. split; [apply R|reflexivity].
  - intros lims. unfold bstep_max. fold (size w). destruct (Nat.eqb (length lims) (size w)); [|reflexivity]. cbn [negb andb].
    replace (existsb (fnan o) lims) with (negb (forallb (fun x => negb (fnan o x)) lims)).
    + destruct (forallb (fun x => negb (fnan o x)) lims); reflexivity.
    + induction lims as [|x l IH]; [reflexivity|]. cbn. rewrite <- IH. destruct (fnan o x); reflexivity.
Qed.

Section Until.
Context (a : bargs).
Hypothesis Hcb : ba_cb a = None.
Hypothesis Hcalm : calm bc ncb tcb a.

(** Propagation (without step callback). If it returns, all the elements have made the
    iterations that their own propagations, limited to the n iterations made by the batch,
    would have made: same state, time, cooldowns of the events and data of the callbacks; same
    number of steps, smallest and largest timestep. It ends when all the elements are at their
    final times, or some element fails or is stopped by an event, or with the limit on the
    number of steps. In the first case (and for the elements which have failed or were
    stopped), the limit on the number of iterations plays no role. *)
Theorem batch_until_elementwise : forall fuel t dts (w : bworld) r, (match t with TDouble l => length l = size w | _ => True end) ->
  bpropagate_until o St Jt Eb fuel bc t dts a w = BPRet r ->
  well_sized t dts (size w) /\ (forall i v, view w i = Some v -> exists ti dti, lane t dts w i v ti dti) /\
  exists n why, 1 <= n <= fuel /\ size (bp_world r) = size w /\ length (bp_res r) = size w /\
    (ba_max_steps a = 0 \/ N.of_nat n <= ba_max_steps a)%N /\
    (why = OneStopped -> exists i oc mn mx st, nth_error (bp_res r) i = Some (oc, mn, mx, st) /\ stopping oc) /\
    (why = StepLimit -> ba_max_steps a = N.of_nat n /\
      exists i v ti dti ri, lane t dts w i v ti dti /\ srun n i a (N.of_nat n) ti dti v = PRet ri /\ p_oc ri = oc_step_limit) /\
    forall i v ti dti, lane t dts w i v ti dti -> exists ri v' oc,
      srun n i a (N.of_nat n) ti dti v = PRet ri /\
      (why = AllReached \/ stopping oc -> forall M, (M = 0 \/ N.of_nat n <= M)%N -> srun n i a M ti dti v = PRet ri) /\
      view (bp_world r) i = Some v' /\ like (p_world ri) v' /\
      nth_error (bp_res r) i = Some (oc, p_min ri, p_max ri, p_steps ri) /\ lane_outcome why oc (p_oc ri).
Proof. intros. eapply until_lanes; eauto using refl_cmp. Qed.

(** If the propagation of every element on its own reaches its final time, then so does that of
    the batch, with the same results. *)
Theorem batch_until_succeeds : forall fuel t dts (w : bworld) (r0 : nat -> pret o St Jt En), well_sized t dts (size w) -> 0 < size w ->
  (forall i v ti dti, lane t dts w i v ti dti -> srun fuel i a (ba_max_steps a) ti dti v = PRet (r0 i) /\ p_oc (r0 i) = oc_time_limit) ->
  exists r, bpropagate_until o St Jt Eb fuel bc t dts a w = BPRet r /\ size (bp_world r) = size w /\
    forall i v ti dti, lane t dts w i v ti dti ->
      nth_error (bp_res r) i = Some (oc_time_limit, p_min (r0 i), p_max (r0 i), p_steps (r0 i)) /\
      exists v', view (bp_world r) i = Some v' /\ like (p_world (r0 i)) v'.
Proof. intros. eapply until_succeeds; eauto using refl_cmp. Qed.

(** It throws only if the arguments have the wrong size or the propagation of some element on
    its own would throw, and it goes on for ever only if some element would. *)
Theorem batch_until_other : forall fuel t dts (w : bworld), (match t with TDouble l => length l = size w | _ => True end) -> 0 < size w ->
  match bpropagate_until o St Jt Eb fuel bc t dts a w with
  | BPRet _ => True
  | BPExn _ => ~ well_sized t dts (size w) \/
      exists i v ti dti v', lane t dts w i v ti dti /\ srun fuel i a (ba_max_steps a) ti dti v = PExn v'
  | BPFuel => exists i v ti dti, lane t dts w i v ti dti /\ srun fuel i a (ba_max_steps a) ti dti v = PFuel
  end.
Proof. intros. eapply until_other; eauto using refl_cmp. Qed.

(** In exact arithmetic: when all the outcomes are time_limit, all the elements are at their
    final times. *)
Theorem batch_until_times : exact_laws L -> (forall i, stepper_ok L (sc i) /\ detect_ok L (sc i) /\ sort_ok L (sc i)) ->
  forall fuel t dts (w : bworld) r, (match t with TDouble l => length l = size w | _ => True end) ->
  bpropagate_until o St Jt Eb fuel bc t dts a w = BPRet r ->
  (forall i oc mn mx st, nth_error (bp_res r) i = Some (oc, mn, mx, st) -> oc = oc_time_limit) -> 0 < size w ->
  forall i v ti dti, lane t dts w i v ti dti -> exists v', view (bp_world r) i = Some v' /\ dval L (w_time v') = dval L ti.
Proof.
  intros X HS fuel t dts w r Hd H Hoc Hpos i v ti dti P. destruct (batch_until_elementwise fuel t dts w r Hd H) as (_ & Hall & n & why & Hn & S1 & S2 & S3 & S4 & S5 & S6).
  assert (Hwhy : why = AllReached).
  { destruct why; [reflexivity| |].
    - exfalso. destruct (S4 eq_refl) as (j & oc & mn & mx & st & A & B). rewrite (Hoc _ _ _ _ _ A) in B. now apply tl_no_stop in B.
    - exfalso. destruct (S5 eq_refl) as (_ & j & vj & tj & dj & rj & Pj & _). destruct (S6 j vj tj dj Pj) as (ri & v' & oc & _ & _ & _ & _ & U5 & (U6 & _)).
      rewrite (Hoc _ _ _ _ _ U5) in U6. discriminate. }
  subst why. destruct (S6 i v ti dti P) as (ri & v' & oc & _ & U2 & U3 & U4 & U5 & U6). exists v'. split; [exact U3|].
  specialize (U2 (or_introl eq_refl) 0%N (or_introl eq_refl)). destruct (HS i) as (H1 & H2 & H3).
  destruct (until_exact L X n (sc i) _ v ri H1 H2 H3 U2) as (its & lst & Hh & (R1 & R2 & _) & Ha & _).
  assert (w_time v' = w_time (p_world ri)) as -> by apply U4. rewrite R2. cbn in U6. destruct U6 as (_ & U6 & _).
  assert (reached lst).
  { inversion R1 as [A E|A B E|A B C E|A B C E|A B E].
    - exfalso. apply U6. left. now rewrite <- E.
    - exfalso. destruct Hh as (w1 & _ & _ & Hh & _). apply Forall_app in Hh as [_ Hh]. inversion Hh as [|x l Hx _]; subst. destruct Hx as (_ & _ & Hx). specialize (Hx A). cbn in Hx. destruct Hx; congruence.
    - exact C.
    - exfalso. apply U6. right. rewrite <- E. exact C.
    - exfalso. cbn in B. lia. }
  apply Forall_app in Ha as [_ Ha]. inversion Ha as [|x l Hx _]; subst.
  assert (~ failed lst) as Nf. { inversion R1 as [A E|A B E|A B C E|A B C E|(A & _) B E]; try assumption. exfalso. apply U6. left. now rewrite <- E. }
  destruct (Hx Nf) as (_ & _ & _ & _ & Hr & _). apply Hr. assumption.
Qed.
End Until.

(** Invalid arguments: nothing is touched. *)
Theorem batch_until_rejects : forall (a : bargs) fuel t dts (w : bworld), (match t with TDouble l => length l = size w | _ => True end) ->
  (~ well_sized t dts (size w) \/ exists i v ti dti, lane t dts w i v ti dti /\ ~ accepted (lane_args (En := En) a (ba_max_steps a) ti dti) v) ->
  bpropagate_until o St Jt Eb fuel bc t dts a w = BPExn w.
Proof. intros. eapply until_rejects_batch; eauto. Qed.

(** Step callbacks: after the call of their pre-hook, they are invoked once after every step in
    which no element has failed; as long as they return true the propagation goes on; if the
    last one returns false, the outcome of all the elements is cb_stop. *)
Theorem batch_until_callbacks : forall (a : bargs) c fuel t dts (w : bworld) r, ba_cb a = Some c -> (match t with TDouble l => length l = size w | _ => True end) ->
  bpropagate_until o St Jt Eb fuel bc t dts a w = BPRet r ->
  exists w1 bs, bcb_pre c w = BRet w1 /\ same_times o St Jt Eb w w1 = true /\ called bc (ba_wtc a || ba_cout a) c w1 bs (bp_world r) /\
    (last bs true = false -> forall i oc mn mx st, nth_error (bp_res r) i = Some (oc, mn, mx, st) -> oc = oc_cb_stop).
Proof.
  intros a c fuel t dts w r Hc Hd H. destruct (start proj bc a fuel t dts w Hd) as [[E _]|(_ & _ & ls & ts & E & _)]; [congruence|]. rewrite E, Hc in H. cbn [brun_pre] in H.
  destruct (bcb_pre c w) as [w1|w'] eqn:Ep; [|discriminate]. destruct (same_times o St Jt Eb w w1) eqn:Et; [|discriminate].
  destruct (loop_called bc a c Hc _ _ _ _ _ _ _ H) as (bs & A & B). exists w1, bs. auto.
Qed.

(** propagate_for: the final times are the current ones plus the intervals. *)
Theorem batch_for_until : forall (a : bargs) fuel dt dts (w : bworld),
  match dt with inl _ => True | inr l => length l = size w end ->
  exists l, length l = size w /\
    bpropagate_for o St Jt Eb fuel bc dt dts a w = bpropagate_until o St Jt Eb fuel bc (TDouble l) dts a w /\
    forall i v x dti, view w i = Some v -> interval_of dt i = Some x -> dt_of dts i = Some dti ->
      exists ti, lane (TDouble l) dts w i v ti dti /\
      forall f M, propagate_for o St Jt En f (sc i) x (lane_args a M ti dti) v = srun f i a M ti dti v.
Proof.
  intros a fuel dt dts w Hd.
  destruct dt as [x|l]; unfold bpropagate_for.
  - exists (map (fun t => d_addf t x) (times o St Jt Eb w)). split; [rewrite map_length; unfold times; now rewrite map_length|]. split; [reflexivity|].
    intros i v y dti Hv Hy Hdt. injection Hy as <-. exists (d_addf (w_time v) x). split; [|reflexivity]. split; [exact Hv|]. split; [|exact Hdt].
    cbn [target_of]. rewrite nth_error_map, (nth_times proj w i v Hv). reflexivity.
  - fold (size w). rewrite Hd, Nat.eqb_refl. cbn [negb]. exists (map (fun p => d_addf (fst p) (snd p)) (combine (times o St Jt Eb w) l)). split; [rewrite map_length, combine_length; unfold times; rewrite map_length; fold (size w); lia|]. split; [reflexivity|].
    intros i v x dti Hv Hx Hdt. exists (d_addf (w_time v) x). split; [|reflexivity]. split; [exact Hv|]. split; [|exact Hdt].
    cbn [target_of]. rewrite nth_error_map, (nth_comb _ _ _ _ _ (nth_times proj w i v Hv) Hx). reflexivity.
Qed.
Theorem batch_for_rejects : forall (a : bargs) fuel l dts (w : bworld), length l <> size w -> bpropagate_for o St Jt Eb fuel bc (inr l) dts a w = BPExn w.
Proof. intros a fuel l dts w H. unfold bpropagate_for. fold (size w). apply Nat.eqb_neq in H. now rewrite H. Qed.
End T.

(** Two elements, with events, ending after two and four steps: all the hypotheses are met. *)
Example batch_holds : forall ev ms cout,
  local_callbacks dproj (bdemo ev) dncb dtcb /\ (forall x, feq zops x x = true \/ fnan zops x = true) /\ calm (bdemo ev) dncb dtcb (bd_a ms cout) /\
  ba_cb (bd_a ms cout) = None /\ exact_laws zlaws /\
  (forall i, stepper_ok zlaws (scalar (bdemo ev) (dncb i) (dtcb i)) /\ detect_ok zlaws (scalar (bdemo ev) (dncb i) (dtcb i)) /\ sort_ok zlaws (scalar (bdemo ev) (dncb i) (dtcb i))).
Proof.
  intros ev ms cout. split; [apply demo_local|]. split; [apply demo_refl|]. split; [apply demo_calm|]. split; [reflexivity|]. split; [exact zexact|].
  intros i. rewrite scalar_demo. split; [apply demo_stepper|]. split; [apply demo_detect_ok|apply demo_sort_ok].
Qed.
Example batch_runs : well_sized (TVector (o := zops) [Fin 3%Z; Fin 9%Z]) [] (size bd_w) /\
  exists r, bpropagate_until zops (ext Z) (ext Z) _ 10 (bdemo true) (TVector (o := zops) [Fin 3%Z; Fin 9%Z]) [] (bd_a 0 false) bd_w = BPRet r /\
    bp_res r = [(oc_time_limit, Fin 2%Z, Fin 2%Z, 2%N); (oc_time_limit, Fin 2%Z, Fin 2%Z, 4%N)] /\
    map ig_state (fst (bp_world r)) = [Fin 3%Z; Fin 15%Z] /\ snd (bp_world r) 1 = [(0, Fin 1%Z); (1, Fin 2%Z)].
Proof. split; [repeat split; auto|]. eexists. split; [vm_compute; reflexivity|]. repeat split. Qed.
(** The limit on the number of steps, and an invalid final time. *)
Example batch_limit : exists r, bpropagate_until zops (ext Z) (ext Z) _ 10 (bdemo true) (TVector (o := zops) [Fin 6%Z; Fin (-9)%Z]) [] (bd_a 2 false) bd_w = BPRet r /\
    bp_res r = [(oc_step_limit, Fin 2%Z, Fin 2%Z, 2%N); (oc_step_limit, Fin 2%Z, Fin 2%Z, 2%N)].
Proof. eexists. split; [vm_compute; reflexivity|]. reflexivity. Qed.
Example batch_invalid : ~ well_sized (TVector (o := zops) [Fin 3%Z]) [] (size bd_w) /\
  lane dproj (TVector (o := zops) [Fin 3%Z; NaN]) [] bd_w 1 (fst (demo_w 1 7), []) (d_of (o := zops) NaN) PInf /\
  ~ accepted (lane_args (bd_a 0 false) 0 (d_of (o := zops) NaN) PInf) (fst (demo_w 1 7), [] : list (nat * ext Z)).
Proof. split; [intros [H _]; discriminate|]. split; [repeat split|]. intros (_ & H & _). discriminate. Qed.

Print Assumptions batch_step_elementwise.
Print Assumptions batch_step_variants.
Print Assumptions batch_until_elementwise.
Print Assumptions batch_until_succeeds.
Print Assumptions batch_until_other.
Print Assumptions batch_until_times.
Print Assumptions batch_until_rejects.
Print Assumptions batch_until_callbacks.
Print Assumptions batch_for_until.
Print Assumptions batch_for_rejects.
