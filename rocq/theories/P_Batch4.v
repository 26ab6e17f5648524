(** Propagation of the batch integrator: the checks of the arguments, and the whole run. *)
From Coq Require Import List ZArith NArith Bool Reals Lia Lra.
From Verif Require Import M_Float M_Search M_Step M_Prop S_Step S_Prop P_Prop M_Batch S_Batch P_Batch1 P_Batch2 P_Batch3.
Import ListNotations.
Set Bullet Behavior "Strict Subproofs".

Section B.
Context {o : fops} {St Jt En Eb : Type} (L : flaws o) (proj : Eb -> nat -> En).
Notation F := (F o).
Notation integ := (integ o St Jt).
Notation world := (world o St Jt En).
Notation bworld := (bworld o St Jt Eb).
Notation view := (view proj).
Notation lane := (lane proj).
Context (bc : bcfg o St Jt Eb) (ncb : nat -> nat -> world -> F -> Z -> out o St Jt En world)
  (tcb : nat -> nat -> option (world -> Z -> out o St Jt En (world * bool))).
Notation sc i := (scalar bc (ncb i) (tcb i)).
Context (a : bargs o St Jt Eb).
Notation laccepted M ti dti v := (accepted (lane_args (En := En) a M ti dti) v).

Lemma existsb_nth {A} (p : A -> bool) l : existsb p l = true -> exists i x, nth_error l i = Some x /\ p x = true.
Proof. intros H. apply existsb_exists in H as (x & H1 & H2). apply In_nth_error in H1 as (i & H1). eauto. Qed.
Lemma existsb_nth_false {A} (p : A -> bool) l i x : existsb p l = false -> nth_error l i = Some x -> p x = false.
Proof. intros H Hi. destruct (p x) eqn:E; [|reflexivity]. assert (existsb p l = true); [|congruence]. apply existsb_exists. exists x. split; [eapply nth_error_In; eauto|exact E]. Qed.

Lemma nth_repeat {A} (x : A) n i : i < n -> nth_error (repeat x n) i = Some x.
Proof. revert i. induction n as [|n IH]; intros [|i] H; cbn; try lia; [reflexivity|]. apply IH. lia. Qed.

Definition first_lane (t dt : _) (v : world) : lane_st o :=
  MkLane o t dt (d_ge (d_sub t (w_time v)) (d_of (f0 o))) (d_sub t (w_time v)) 0 (finf o) (f0 o).

Lemma targets_ok t n : match target_times o n t with
  | Some ts => (match t with TDouble _ => True | _ => length ts = n end) /\
      (match t with TScalar _ => True | TVector l => length l = n | TDouble l => ts = l end) /\
      forall i, i < n -> nth_error ts i = target_of t i
  | None => exists l, t = TVector l /\ length l <> n
  end.
Proof.
  destruct t as [x|l|l]; cbn.
  - split; [apply repeat_length|]. split; [exact I|]. intros i H. now apply nth_repeat.
  - destruct (Nat.eqb (length l) n) eqn:E.
    + apply Nat.eqb_eq in E. split; [now rewrite map_length|]. split; [exact E|]. intros i _. now rewrite nth_error_map.
    + apply Nat.eqb_neq in E. eauto.
  - auto.
Qed.

Lemma start fuel t dts (w : bworld) : (match t with TDouble l => length l = size w | _ => True end) ->
  (bpropagate_until o St Jt Eb fuel bc t dts a w = BPExn w /\
    (~ well_sized t dts (size w) \/ exists i v ti dti, lane t dts w i v ti dti /\ forall M, ~ laccepted M ti dti v)) \/
  (well_sized t dts (size w) /\ (forall i v ti dti, lane t dts w i v ti dti -> forall M, laccepted M ti dti v) /\
   exists ls ts, bpropagate_until o St Jt Eb fuel bc t dts a w = match brun_pre o St Jt Eb (ba_cb a) w with BExn w' => BPExn w' | BRet w1 => buntil_loop o St Jt Eb fuel bc a w1 ls 0 ts [] end /\ length ls = size w /\
   forall i v, view w i = Some v -> exists ti dti, lane t dts w i v ti dti /\ nth_error ls i = Some (first_lane ti dti v)).
Proof.
  intros Hd. unfold bpropagate_until. cbv zeta. fold (size w). pose proof (targets_ok t (size w)) as Ht.
  destruct (target_times o (size w) t) as [ts|].
  2: { left. split; [reflexivity|]. left. destruct Ht as (l & -> & H). intros [X _]. now apply H. }
  assert (Lt : length ts = size w) by (destruct t; cbn in *; [apply Ht|apply Ht|destruct Ht as (_ & -> & _); exact Hd]).
  assert (Wt : match t with TScalar _ => True | TVector l => length l = size w | TDouble l => length l = size w end).
  { destruct t; cbn in *; [exact I|apply Ht|exact Hd]. }
  destruct Ht as (_ & _ & Ht).
  set (dl := match dts with [] => repeat (finf o) (size w) | _ => dts end).
  assert (Hdl : forall i, i < size w -> nth_error dl i = dt_of dts i).
  { intros i Hi. unfold dl, dt_of. destruct dts; [now apply nth_repeat|reflexivity]. }
  assert (Hnt : forall i v, view w i = Some v -> nth_error (times o St Jt Eb w) i = Some (w_time v)) by (intros; now apply nth_times with (proj := proj)).
  assert (Lti : length (times o St Jt Eb w) = size w) by (unfold times; now rewrite map_length).
  assert (Hl : forall i x, nth_error (times o St Jt Eb w) i = Some x -> exists v, view w i = Some v /\ w_time v = x).
  { intros i x Hi. destruct (has_view proj w i) as [v Hv]; [rewrite <- Lti; apply nth_error_Some; congruence|]. exists v. split; [exact Hv|]. rewrite (Hnt _ _ Hv) in Hi. now injection Hi. }
  assert (Hall : (dts = [] \/ length dts = size w) -> forall i v, view w i = Some v -> exists ti dti, lane t dts w i v ti dti /\ nth_error ts i = Some ti /\ nth_error dl i = Some dti).
  { intros Hs i v Hv. pose proof (view_lt proj w i v Hv) as Hi. destruct (has_nth ts i) as [ti X]; [lia|]. assert (Ld : length dl = size w) by (unfold dl; destruct dts; [apply repeat_length|destruct Hs as [|Hs]; [discriminate|exact Hs]]).
    destruct (has_nth dl i) as [dti Y]; [lia|]. exists ti, dti. repeat split; try assumption; [now rewrite <- Ht|now rewrite <- Hdl]. }
  destruct (existsb (fun x => negb (ffin o (hi x))) (times o St Jt Eb w) || existsb (fun x => negb (ffin o (lo x))) (times o St Jt Eb w)) eqn:E1.
  { left. split; [reflexivity|].
    assert (X : exists i v, view w i = Some v /\ d_fin (w_time v) = false).
    { apply orb_true_iff in E1 as [E|E]; apply existsb_nth in E as (i & x & Hi & Hx); destruct (Hl i x Hi) as (v & Hv & <-); exists i, v; (split; [exact Hv|]);
        unfold d_fin; apply negb_true_iff in Hx; rewrite Hx; [reflexivity|apply andb_false_r]. }
    destruct X as (i & v & Hv & X).
    destruct (Nat.eq_dec (length dts) (size w)) as [Q|Q]; [|destruct dts as [|d0 dts0]].
    - destruct (Hall (or_intror Q) i v Hv) as (ti & dti & P & _). right. exists i, v, ti, dti. split; [exact P|]. intros M (Y & _). congruence.
    - destruct (Hall (or_introl eq_refl) i v Hv) as (ti & dti & P & _). right. exists i, v, ti, dti. split; [exact P|]. intros M (Y & _). congruence.
    - left. intros (_ & [Y|Y]); [discriminate|now apply Q]. }
  assert (T1 : forall i v, view w i = Some v -> d_fin (w_time v) = true).
  { intros i v Hv. apply orb_false_iff in E1 as [A B]. pose proof (existsb_nth_false _ _ _ _ A (Hnt i v Hv)) as A'. pose proof (existsb_nth_false _ _ _ _ B (Hnt i v Hv)) as B'.
    apply negb_false_iff in A'. apply negb_false_iff in B'. unfold d_fin. now rewrite A', B'. }
  destruct (existsb (fun x => negb (d_fin x)) ts) eqn:E2.
  { left. split; [reflexivity|]. apply existsb_nth in E2 as (i & x & Hi & Hx). apply negb_true_iff in Hx.
    destruct (has_view proj w i) as [v Hv]; [rewrite <- Lt; apply nth_error_Some; congruence|].
    destruct (Nat.eq_dec (length dts) (size w)) as [Q|Q]; [|destruct dts as [|d0 dts0]].
    - destruct (Hall (or_intror Q) i v Hv) as (ti & dti & P & P2 & _). right. exists i, v, ti, dti. split; [exact P|]. intros M (_ & Y & _). cbn in Y. congruence.
    - destruct (Hall (or_introl eq_refl) i v Hv) as (ti & dti & P & P2 & _). right. exists i, v, ti, dti. split; [exact P|]. intros M (_ & Y & _). cbn in Y. congruence.
    - left. intros (_ & [Y|Y]); [discriminate|now apply Q]. }
  destruct (Nat.eqb (length dl) (size w)) eqn:E3; cbn [negb].
  2: { left. split; [reflexivity|]. left. intros (_ & Y). apply Nat.eqb_neq in E3. apply E3. unfold dl. destruct dts; [apply repeat_length|]. destruct Y as [Y|Y]; [discriminate|exact Y]. }
  assert (Hs : dts = [] \/ length dts = size w). { apply Nat.eqb_eq in E3. unfold dl in E3. destruct dts; [now left|now right]. }
  apply Nat.eqb_eq in E3. specialize (Hall Hs).
  destruct (existsb (fun x => fnan o x || fle o x (f0 o)) dl) eqn:E4.
  { left. split; [reflexivity|]. right. apply existsb_nth in E4 as (i & x & Hi & Hx).
    destruct (has_view proj w i) as [v Hv]; [rewrite <- E3; apply nth_error_Some; congruence|]. destruct (Hall i v Hv) as (ti & dti & P & _ & P2). exists i, v, ti, dti. split; [exact P|].
    intros M (_ & _ & Y & Z & _). cbn in Y, Z. assert (dti = x) by congruence. subst. rewrite Y, Z in Hx. discriminate. }
  set (rems := map (fun p => d_sub (fst p) (snd p)) (combine ts (times o St Jt Eb w))).
  assert (Hr : forall i v ti, view w i = Some v -> nth_error ts i = Some ti -> nth_error rems i = Some (d_sub ti (w_time v))).
  { intros i v ti A B. unfold rems. rewrite nth_error_map, (nth_comb _ _ _ _ _ B (Hnt i v A)). reflexivity. }
  assert (Lrm : length rems = size w) by (unfold rems; rewrite map_length, combine_length; lia).
  destruct (existsb (fun x => negb (d_fin x)) rems) eqn:E5.
  { left. split; [reflexivity|]. right. apply existsb_nth in E5 as (i & x & Hi & Hx). apply negb_true_iff in Hx.
    destruct (has_view proj w i) as [v Hv]; [rewrite <- Lrm; apply nth_error_Some; congruence|]. destruct (Hall i v Hv) as (ti & dti & P & P1 & P2). exists i, v, ti, dti. split; [exact P|].
    intros M (_ & _ & _ & _ & Y). change (d_fin (d_sub ti (w_time v)) = true) in Y. rewrite (Hr i v ti Hv P1) in Hi. injection Hi as <-. congruence. }
  right. split; [split; assumption|]. split.
  - intros i v ti dti (A & B & C) M. destruct (Hall i v A) as (ti' & dti' & (_ & P1 & P2) & P3 & P4). rewrite B in P1. injection P1 as <-. rewrite C in P2. injection P2 as <-.
    pose proof (existsb_nth_false _ _ _ _ E2 P3) as X2. pose proof (existsb_nth_false _ _ _ _ E4 P4) as X4. pose proof (existsb_nth_false _ _ _ _ E5 (Hr i v ti A P3)) as X5.
    apply negb_false_iff in X2. apply negb_false_iff in X5. cbn in X4. apply orb_false_iff in X4 as [X4 X4']. repeat split; cbn [lane_args a_t a_max_dt]; eauto.
  - eexists _, _. split; [reflexivity|]. split; [rewrite map_length, !combine_length; fold rems; lia|].
    intros i v Hv. destruct (Hall i v Hv) as (ti & dti & P & P1 & P2). exists ti, dti. split; [exact P|].
    rewrite nth_error_map. fold rems. rewrite (nth_comb _ _ _ _ _ (nth_comb _ _ _ _ _ P1 P2) (Hr i v ti Hv P1)). reflexivity.
Qed.

Notation srun f i M ti dti v := (propagate_until o St Jt En f (sc i) (lane_args a M ti dti) v).
Lemma bridge f i M ti dti v : laccepted M ti dti v ->
  srun f i M ti dti v = until_loop o St Jt En f (sc i) (sargs a (first_lane ti dti v) M) (ls_dir o (first_lane ti dti v)) v
    (lst 0 (first_lane ti dti v) (if ba_cout a then [w_time v] else []) []).
Proof. intros H. rewrite (until_unfold f (sc i) _ v v H); reflexivity. Qed.

Theorem until_rejects_batch fuel t dts (w : bworld) : (match t with TDouble l => length l = size w | _ => True end) ->
  (~ well_sized t dts (size w) \/ exists i v ti dti, lane t dts w i v ti dti /\ ~ laccepted (ba_max_steps a) ti dti v) ->
  bpropagate_until o St Jt Eb fuel bc t dts a w = BPExn w.
Proof.
  intros Hd X. destruct (start fuel t dts w Hd) as [[E _]|(W & Acc & _)]; [exact E|]. exfalso. destruct X as [X|(i & v & ti & dti & P & X)]; [auto|]. apply X. eapply Acc; eauto.
Qed.

(** Step callbacks. *)
Lemma loop_called c : ba_cb a = Some c -> forall fuel w ls k ts tcs r, buntil_loop o St Jt Eb fuel bc a w ls k ts tcs = BPRet r ->
  exists bs, called bc (ba_wtc a || ba_cout a) c w bs (bp_world r) /\
    (last bs true = false -> forall i oc mn mx st, nth_error (bp_res r) i = Some (oc, mn, mx, st) -> oc = oc_cb_stop).
Proof.
  intros Hc. induction fuel as [|fuel IH]; intros w ls k ts tcs r H; [discriminate|]. cbn [buntil_loop] in H.
  destruct (bstep_impl o St Jt Eb bc (map (lane_lim o) ls) (ba_wtc a || ba_cout a) w) as [[res w1]|w'] eqn:Es; [|discriminate]. cbv zeta in H.
  destruct (existsb (fun r0 => (fst r0 =? oc_err_nf_state)%Z) res) eqn:Enf.
  { injection H as <-. exists []. split; [|discriminate]. cbn [bp_world]. eapply called_fail; [exact Es|]. intros Hn. apply existsb_nth in Enf as (i & (oc & h) & Hi & Hx). apply (Hn i oc h Hi). now apply Z.eqb_eq. }
  assert (Hn : no_failure res). { intros i oc h Hi. apply Z.eqb_neq. exact (existsb_nth_false _ _ _ _ Enf Hi). }
  unfold brun_cb in H. rewrite Hc in H. destruct (bcb_call c w1) as [[w2 b]|w'] eqn:Ec; [|discriminate].
  destruct (same_times o St Jt Eb w1 w2) eqn:Et; [|discriminate]. destruct b.
  - match type of H with (if ?b then _ else _) = _ => destruct b end; [|match type of H with (if ?b then _ else _) = _ => destruct b end].
    + injection H as <-. exists [true]. split; [eapply called_last; eassumption|discriminate].
    + injection H as <-. exists [true]. split; [eapply called_last; eassumption|discriminate].
    + destruct (IH _ _ _ _ _ _ H) as (bs & A & B). exists (true :: bs). split; [eapply called_next; eassumption|]. intros X. apply B. destruct bs; [discriminate|exact X].
  - injection H as <-. exists [false]. split; [eapply called_last; eassumption|]. intros _ i oc mn mx st Hi. cbn [bp_res] in Hi. rewrite nth_error_map in Hi.
    match type of Hi with option_map _ ?e = _ => destruct e end; [|discriminate]. cbn in Hi. now injection Hi.
Qed.

Hypothesis HL : local_callbacks proj bc ncb tcb.
Hypothesis Hrefl : forall x, cmp_nan_eq o x x = true.
Hypothesis Hcb : ba_cb a = None.
Hypothesis Hcalm : calm bc ncb tcb a.

Theorem until_lanes fuel t dts (w : bworld) r : (match t with TDouble l => length l = size w | _ => True end) ->
  bpropagate_until o St Jt Eb fuel bc t dts a w = BPRet r ->
  well_sized t dts (size w) /\ (forall i v, view w i = Some v -> exists ti dti, lane t dts w i v ti dti) /\
  exists n why, 1 <= n <= fuel /\ size (bp_world r) = size w /\ length (bp_res r) = size w /\
    (ba_max_steps a = 0 \/ N.of_nat n <= ba_max_steps a)%N /\
    (why = OneStopped -> exists i oc mn mx st, nth_error (bp_res r) i = Some (oc, mn, mx, st) /\ stopping oc) /\
    (why = StepLimit -> ba_max_steps a = N.of_nat n /\
      exists i v ti dti ri, lane t dts w i v ti dti /\ srun n i (N.of_nat n) ti dti v = PRet ri /\ p_oc ri = oc_step_limit) /\
    forall i v ti dti, lane t dts w i v ti dti -> exists ri v' oc,
      srun n i (N.of_nat n) ti dti v = PRet ri /\
      (why = AllReached \/ stopping oc -> forall M, (M = 0 \/ N.of_nat n <= M)%N -> srun n i M ti dti v = PRet ri) /\
      view (bp_world r) i = Some v' /\ like (p_world ri) v' /\
      nth_error (bp_res r) i = Some (oc, p_min ri, p_max ri, p_steps ri) /\ lane_outcome why oc (p_oc ri).
Proof.
  intros Hd H. destruct (start fuel t dts w Hd) as [[X _]|(W & Acc & ls & ts & E & Ll & Hls)]; [congruence|]. rewrite Hcb in E. cbn [brun_pre] in E. rewrite E in H.
  split; [exact W|]. split; [intros i v Hv; destruct (Hls i v Hv) as (ti & dti & P & _); eauto|].
  assert (Hdt : forall s, In s ls -> good_dt s).
  { intros s Hin. apply In_nth_error in Hin as (i & Hi). destruct (has_view proj w i) as [v Hv]; [rewrite <- Ll; apply nth_error_Some; congruence|].
    destruct (Hls i v Hv) as (ti & dti & P & Q). rewrite Q in Hi. injection Hi as <-. destruct (Acc _ _ _ _ P 0%N) as (_ & _ & A3 & A4 & _). split; assumption. }
  destruct (loop_sim L proj bc ncb tcb HL Hrefl a Hcb Hcalm fuel w ls 0%N ts [] r H Ll Hdt) as (m & why & Hm & S1 & S2 & S3 & S4 & S5 & S6).
  exists m, why. split; [exact Hm|]. split; [exact S1|]. split; [exact S2|]. split; [rewrite N.add_0_l in S3; apply S3; lia|]. split; [exact S4|]. rewrite N.add_0_l in *. split.
  - intros Hw. destruct (S5 Hw) as (A & i & v & s & B & C & D). split; [exact A|]. destruct (Hls i v B) as (ti & dti & P & Q). rewrite Q in C. injection C as <-.
    destruct (D (if ba_cout a then [w_time v] else []) []) as (ri & D1 & D2). exists i, v, ti, dti, ri. split; [exact P|]. split; [|exact D2]. rewrite bridge; [exact D1|]. eapply Acc; eauto.
  - intros i v ti dti P. destruct (Hls i v (proj1 P)) as (ti' & dti' & P' & Q).
    assert (ti' = ti /\ dti' = dti) as [-> ->]. { destruct P as (_ & P1 & P2). destruct P' as (_ & P1' & P2'). split; congruence. }
    destruct (S6 i v _ (if ba_cout a then [w_time v] else []) [] (proj1 P) Q) as (ri & v' & oc & U1 & U2 & U3 & U4 & U5 & U6). rewrite N.add_0_l in U1. rewrite N.add_0_l in U2.
    exists ri, v', oc. split; [rewrite bridge; [exact U1|eapply Acc; eauto]|]. split; [|auto].
    intros X M HM. rewrite bridge; [apply U2; assumption|eapply Acc; eauto].
Qed.

Theorem until_other fuel t dts (w : bworld) : (match t with TDouble l => length l = size w | _ => True end) -> 0 < size w ->
  match bpropagate_until o St Jt Eb fuel bc t dts a w with
  | BPRet _ => True
  | BPExn _ => ~ well_sized t dts (size w) \/
      exists i v ti dti v', lane t dts w i v ti dti /\ srun fuel i (ba_max_steps a) ti dti v = PExn v'
  | BPFuel => exists i v ti dti, lane t dts w i v ti dti /\ srun fuel i (ba_max_steps a) ti dti v = PFuel
  end.
Proof.
  intros Hd Hpos. destruct (start fuel t dts w Hd) as [[E X]|(W & Acc & ls & ts & E & Ll & Hls)]; [|rewrite Hcb in E; cbn [brun_pre] in E]; rewrite E.
  - destruct X as [X|(i & v & ti & dti & P & Q)]; [now left|]. right. exists i, v, ti, dti, v. split; [exact P|]. apply until_rejects. apply Q.
  - assert (Hdt : forall s, In s ls -> good_dt s).
    { intros s Hin. apply In_nth_error in Hin as (i & Hi). destruct (has_view proj w i) as [v Hv]; [rewrite <- Ll; apply nth_error_Some; congruence|].
      destruct (Hls i v Hv) as (ti & dti & P & Q). rewrite Q in Hi. injection Hi as <-. destruct (Acc _ _ _ _ P 0%N) as (_ & _ & A3 & A4 & _). split; assumption. }
    pose proof (loop_other L proj bc ncb tcb HL Hrefl a Hcb Hcalm fuel w ls 0%N ts [] Ll Hpos Hdt) as H.
    destruct (buntil_loop o St Jt Eb fuel bc a w ls 0 ts []) as [r|w'|]; [exact I| |].
    + destruct H as (i & v & s & A & B & C). destruct (Hls i v A) as (ti & dti & P & Q). rewrite Q in B. injection B as <-. destruct (C (if ba_cout a then [w_time v] else []) []) as (v' & C').
      right. exists i, v, ti, dti, v'. split; [exact P|]. rewrite bridge; [exact C'|eapply Acc; eauto].
    + destruct H as (i & v & s & A & B & C). destruct (Hls i v A) as (ti & dti & P & Q). rewrite Q in B. injection B as <-.
      exists i, v, ti, dti. split; [exact P|]. rewrite bridge; [apply C|eapply Acc; eauto].
Qed.

Lemma srun_mono f f' i M ti dti v ri : srun f i M ti dti v = PRet ri -> f <= f' -> srun f' i M ti dti v = PRet ri.
Proof.
  intros H Hf. destruct (until_accepted _ _ _ _ _ H) as (A & _). rewrite bridge in * by exact A. replace f' with (f + (f' - f)) by lia.
  rewrite until_mono; [exact H|]. rewrite H. discriminate.
Qed.
Lemma srun_det f f' i M ti dti v ri ri' : srun f i M ti dti v = PRet ri -> srun f' i M ti dti v = PRet ri' -> ri = ri'.
Proof.
  intros A B. assert (C := srun_mono _ (f + f') _ _ _ _ _ _ A ltac:(lia)). assert (D := srun_mono _ (f + f') _ _ _ _ _ _ B ltac:(lia)). congruence.
Qed.

Theorem until_succeeds fuel t dts (w : bworld) (r0 : nat -> pret o St Jt En) : well_sized t dts (size w) -> 0 < size w ->
  (forall i v ti dti, lane t dts w i v ti dti -> srun fuel i (ba_max_steps a) ti dti v = PRet (r0 i) /\ p_oc (r0 i) = oc_time_limit) ->
  exists r, bpropagate_until o St Jt Eb fuel bc t dts a w = BPRet r /\ size (bp_world r) = size w /\
    forall i v ti dti, lane t dts w i v ti dti ->
      nth_error (bp_res r) i = Some (oc_time_limit, p_min (r0 i), p_max (r0 i), p_steps (r0 i)) /\
      exists v', view (bp_world r) i = Some v' /\ like (p_world (r0 i)) v'.
Proof.
  intros W Hpos H0. assert (Hd : match t with TDouble l => length l = size w | _ => True end) by (destruct t; [exact I|exact I|apply W]).
  pose proof (until_other fuel t dts w Hd Hpos) as Ho.
  destruct (bpropagate_until o St Jt Eb fuel bc t dts a w) as [r|w'|] eqn:E.
  - exists r. split; [reflexivity|]. destruct (until_lanes fuel t dts w r Hd E) as (_ & Hall & n & why & Hn & S1 & S2 & S3 & S4 & S5 & S6). split; [exact S1|].
    assert (Hwhy : why = AllReached).
    { destruct why; [reflexivity| |].
      - exfalso. destruct (S4 eq_refl) as (i & oc & mn & mx & st & A & B).
        destruct (has_view proj w i) as [v Hv]; [rewrite <- S2; apply nth_error_Some; congruence|]. destruct (Hall i v Hv) as (ti & dti & P).
        destruct (S6 i v ti dti P) as (ri & v' & oc' & U1 & U2 & U3 & U4 & U5 & U6). rewrite U5 in A. injection A as <- _ _ _.
        specialize (U2 (or_intror B) _ S3). destruct (H0 i v ti dti P) as [X Y]. assert (ri = r0 i) by (eapply srun_det; eassumption). subst.
        destruct U6 as [->|[U6 _]]; [|contradiction]. rewrite Y in B. now apply tl_no_stop in B.
      - exfalso. destruct (S5 eq_refl) as (A & i & v & ti & dti & ri & P & B & C). rewrite <- A in B. destruct (H0 i v ti dti P) as [X Y].
        assert (ri = r0 i) by (eapply srun_det; eassumption). subst. rewrite Y in C. discriminate. }
    intros i v ti dti P. destruct (S6 i v ti dti P) as (ri & v' & oc & U1 & U2 & U3 & U4 & U5 & U6). specialize (U2 (or_introl Hwhy) _ S3).
    destruct (H0 i v ti dti P) as [X Y]. assert (ri = r0 i) by (eapply srun_det; eassumption). subst. split; [|eauto].
    rewrite U5. destruct U6 as (_ & _ & [->| ->]); [rewrite Y|]; reflexivity.
  - exfalso. destruct Ho as [Ho|(i & v & ti & dti & v' & P & Q)]; [contradiction|]. destruct (H0 i v ti dti P) as [X _]. congruence.
  - exfalso. destruct Ho as (i & v & ti & dti & P & Q). destruct (H0 i v ti dti P) as [X _]. congruence.
Qed.
End B.
