(** Propagation of the batch integrator, element by element. *)
From Coq Require Import List ZArith NArith Bool Reals Lia Lra.
From Verif Require Import M_Float M_Search M_Step M_Prop S_Step S_Prop P_Prop M_Batch S_Batch P_Batch1 P_Batch2.
Import ListNotations.
Set Bullet Behavior "Strict Subproofs".

Lemma nth_comb {A B} (l : list A) (m : list B) i x y : nth_error l i = Some x -> nth_error m i = Some y -> nth_error (combine l m) i = Some (x, y).
Proof. intros H1 H2. now rewrite nth_combine, H1, H2. Qed.

Section B.
Context {o : fops} {St Jt En Eb : Type} (L : flaws o) (proj : Eb -> nat -> En).
Notation F := (F o).
Notation integ := (integ o St Jt).
Notation world := (world o St Jt En).
Notation bworld := (bworld o St Jt Eb).
Notation view := (view proj).
Context (bc : bcfg o St Jt Eb) (ncb : nat -> nat -> world -> F -> Z -> out o St Jt En world)
  (tcb : nat -> nat -> option (world -> Z -> out o St Jt En (world * bool))).
Hypothesis HL : local_callbacks proj bc ncb tcb.
Hypothesis Hrefl : forall x, cmp_nan_eq o x x = true.
Notation sc i := (scalar bc (ncb i) (tcb i)).
Context (a : bargs o St Jt Eb).
Hypothesis Hcb : ba_cb a = None.
Notation wtc := (ba_wtc a || ba_cout a).
Notation lane_st := (lane_st o).
Notation stp i := (step_impl o St Jt En (sc i)).

Lemma zero_lim (dir : bool) (dt : F) : fnan o dt = false -> fle o dt (f0 o) = false -> dt_limit o dir dt (d_of (f0 o)) = f0 o.
Proof.
  intros Hn Hp. destruct (fl_0 o L) as [Z1 Z2]. destruct (ffin o dt) eqn:Ef.
  - assert (Hv : (0 < fval L dt)%R).
    { destruct (Rle_or_lt (fval L dt) 0) as [H|H]; [|exact H]. exfalso. rewrite <- Z2 in H. apply (fl_le o L dt (f0 o) Ef Z1) in H. congruence. }
    destruct (fl_neg o L dt Ef) as [N1 N2]. unfold dt_limit. destruct dir.
    + unfold d_min, d_lt, d_of. cbn [hi lo]. replace (flt o (f0 o) dt) with true; [reflexivity|]. symmetry. apply (fl_lt o L (f0 o) dt Z1 Ef). rewrite Z2. exact Hv.
    + unfold d_max, d_lt, d_of. cbn [hi lo]. replace (flt o (fneg o dt) (f0 o)) with true; [reflexivity|]. symmetry. apply (fl_lt o L _ (f0 o) N1 Z1). rewrite Z2, N2. lra.
  - destruct (fl_cls o L dt Ef) as [H|[->| ->]]; [congruence| |].
    + unfold dt_limit. destruct dir.
      * unfold d_min, d_lt, d_of. cbn [hi lo]. now rewrite (proj1 (fl_lt_inf o L (f0 o) Z1)).
      * unfold d_max, d_lt, d_of. cbn [hi lo]. now rewrite (proj1 (fl_neginf o L (f0 o) Z1)).
    + destruct (fl_neginf o L (f0 o) Z1) as (_ & _ & _ & H). congruence.
Qed.

(** The arguments of element [s] alone, with at most M steps. *)
Definition sargs (s : lane_st) (M : N) : pargs o St Jt En :=
  {| a_t := ls_t o s; a_max_steps := M; a_max_dt := ls_max_dt o s; a_cb := None; a_wtc := ba_wtc a; a_cout := ba_cout a |}.
Definition lst (k : N) (s : lane_st) (times : list (dfl o)) (tcs : list Jt) : lstate o Jt :=
  MkL o Jt k (ls_steps o s) (ls_min o s) (ls_max o s) (ls_rem o s) times tcs.
Notation run f i s M k v times tcs := (until_loop o St Jt En f (sc i) (sargs s M) (ls_dir o s) v (lst k s times tcs)).
Notation upd s oc h v1 := (lane_update o s oc h (w_time v1)).

Lemma iter_eq i s k v times tcs oc h v1 : stp i (lane_lim o s) wtc v = Ret (oc, h, v1) ->
  exists c1 c2 times' tcs', forall f M,
  run (S f) i s M k v times tcs =
  if (oc =? oc_err_nf_state)%Z then PRet (MkPret _ _ _ _ oc (ls_min o (upd s oc h v1)) (ls_max o (upd s oc h v1)) (ls_steps o (upd s oc h v1)) c1 v1)
  else if feq o h (hi (ls_rem o s)) || is_ste oc then PRet (MkPret _ _ _ _ oc (ls_min o (upd s oc h v1)) (ls_max o (upd s oc h v1)) (ls_steps o (upd s oc h v1)) c2 v1)
  else if (k + 1 =? M)%N then PRet (MkPret _ _ _ _ oc_step_limit (ls_min o (upd s oc h v1)) (ls_max o (upd s oc h v1)) (ls_steps o (upd s oc h v1)) c2 v1)
  else run f i (upd s oc h v1) M (k + 1)%N v1 times' tcs'.
Proof.
  intros Hs. unfold lane_lim in Hs. exists (make_c_out o St Jt En (sargs s 0) times tcs),
    (make_c_out o St Jt En (sargs s 0) (if ba_cout a then times ++ [w_time v1] else times) (if ba_cout a then tcs ++ [ig_tc (fst v1)] else tcs)),
    (if ba_cout a then times ++ [w_time v1] else times), (if ba_cout a then tcs ++ [ig_tc (fst v1)] else tcs). intros f M. cbn [until_loop]. cbn [sargs a_max_dt a_wtc a_cout a_cb a_t a_max_steps lst l_rem l_min l_max l_steps l_iter l_times l_tcs run_cb].
  rewrite Hs. unfold lane_update. destruct (oc =? oc_err_nf_state)%Z; [reflexivity|]. cbn [ls_min ls_max ls_steps ls_rem ls_dir ls_t ls_max_dt].
  destruct (feq o h (hi (ls_rem o s))); cbn [orb]; [reflexivity|]. destruct (is_ste oc); [reflexivity|]. destruct (k + 1 =? M)%N; [reflexivity|].
  unfold sargs, lst. cbn [ls_min ls_max ls_steps ls_rem ls_dir ls_t ls_max_dt]. reflexivity.
Qed.
Lemma upd_dir s oc h t : ls_dir o (lane_update o s oc h t) = ls_dir o s /\ ls_t o (lane_update o s oc h t) = ls_t o s /\ ls_max_dt o (lane_update o s oc h t) = ls_max_dt o s.
Proof. unfold lane_update. destruct (oc =? oc_err_nf_state)%Z; auto. Qed.

Hypothesis Hcalm : calm bc ncb tcb a.
Definition good_dt (s : lane_st) : Prop := fnan o (ls_max_dt o s) = false /\ fle o (ls_max_dt o s) (f0 o) = false.

(** An element which has reached its final time. *)
Definition idling (i : nat) (v : world) (s : lane_st) : Prop :=
  idle (sc i) wtc v /\ ls_rem o s = d_of (f0 o).
Lemma idle_step i v s : idling i v s -> good_dt s -> exists h v1, stp i (lane_lim o s) wtc v = Ret (oc_time_limit, h, v1) /\
  feq o h (hi (ls_rem o s)) = true /\ feq o h (f0 o) = true /\ like v v1.
Proof.
  intros [Hi Hr] [G1 G2]. unfold lane_lim. rewrite Hr, zero_lim by assumption. destruct (Hi v) as (h & v1 & A & B & C); [repeat split|]. exists h, v1. cbn. auto.
Qed.
Lemma idle_upd s h t : feq o h (f0 o) = true -> feq o h (hi (ls_rem o s)) = true ->
  let s' := lane_update o s oc_time_limit h t in ls_min o s' = ls_min o s /\ ls_max o s' = ls_max o s /\ ls_steps o s' = ls_steps o s.
Proof. intros H1 H2. unfold lane_update. cbn. rewrite H1. cbn. split; [reflexivity|]. split; [reflexivity|]. lia. Qed.
Lemma like_refl (v : world) : like v v.
Proof. repeat split. Qed.
Lemma like_trans (v1 v2 v3 : world) : like v1 v2 -> like v2 v3 -> like v1 v3.
Proof. intros (A1 & A2 & A3 & A4) (B1 & B2 & B3 & B4). repeat split; congruence. Qed.

Definition lane_rel (why : ending) (k : N) (m : nat) (w : bworld) (ls : list lane_st) (r : bpret o St Jt Eb) (i : nat) : Prop :=
  forall v s times tcs, view w i = Some v -> nth_error ls i = Some s -> exists ri v' oc,
    run m i s (k + N.of_nat m)%N k v times tcs = PRet ri /\
    ((why = AllReached \/ stopping oc) -> forall M, (M = 0 \/ k + N.of_nat m <= M)%N -> run m i s M k v times tcs = PRet ri) /\
    view (bp_world r) i = Some v' /\ like (p_world ri) v' /\
    nth_error (bp_res r) i = Some (oc, p_min ri, p_max ri, p_steps ri) /\ lane_outcome why oc (p_oc ri).

Lemma stop_iff oc : stopping oc <-> (oc =? oc_err_nf_state)%Z || is_ste oc = true.
Proof. unfold stopping. rewrite orb_true_iff, Z.eqb_eq, is_ste_iff. tauto. Qed.
Lemma no_stop oc : (oc =? oc_err_nf_state)%Z = false -> is_ste oc = false -> ~ stopping oc.
Proof. intros A B H. apply stop_iff in H. rewrite A, B in H. discriminate. Qed.
Lemma limit_no_stop : ~ stopping oc_step_limit.
Proof. intros H. apply stop_iff in H. discriminate. Qed.
Lemma tl_no_stop : ~ stopping oc_time_limit.
Proof. intros H. apply stop_iff in H. discriminate. Qed.

Lemma nth_times (w : bworld) i v : view w i = Some v -> nth_error (times o St Jt Eb w) i = Some (w_time v).
Proof. intros H. apply view_some in H as [H _]. unfold times. rewrite nth_error_map, H. reflexivity. Qed.
Definition upds (ls : list lane_st) (res : list (Z * F)) (w1 : bworld) : list lane_st :=
  map (fun p => lane_update o (snd (fst p)) (fst (fst (fst p))) (snd (fst (fst p))) (snd p)) (combine (combine res ls) (times o St Jt Eb w1)).
Lemma upds_nth ls res (w1 : bworld) i s oc h v1 : nth_error ls i = Some s -> nth_error res i = Some (oc, h) -> view w1 i = Some v1 ->
  nth_error (upds ls res w1) i = Some (upd s oc h v1).
Proof.
  intros A B C. unfold upds. rewrite nth_error_map. rewrite (nth_comb _ _ _ _ _ (nth_comb _ _ _ _ _ B A) (nth_times _ _ _ C)). reflexivity.
Qed.
Lemma upds_len ls res (w1 : bworld) : length ls = size w1 -> length res = size w1 -> length (upds ls res w1) = size w1.
Proof. intros A B. unfold upds. rewrite map_length, !combine_length. unfold times. rewrite map_length. unfold size in *. lia. Qed.

Lemma has_view (w : bworld) i : i < size w -> exists v, view w i = Some v.
Proof. intros H. destruct (nth_error (fst w) i) as [g|] eqn:E; [|apply nth_error_None in E; unfold size in H; lia]. exists (g, proj (snd w) i). apply view_some. auto. Qed.
Lemma has_nth {A} (l : list A) i : i < length l -> exists x, nth_error l i = Some x.
Proof. intros H. destruct (nth_error l i) as [x|] eqn:E; [eauto|]. apply nth_error_None in E. lia. Qed.
Lemma view_lt (w : bworld) i v : view w i = Some v -> i < size w.
Proof. intros H. apply view_some in H as [H _]. unfold size. apply nth_error_Some. congruence. Qed.

(** One iteration of element i. *)
Definition at_end (oc : Z) (h : F) (s : lane_st) : bool := (oc =? oc_err_nf_state)%Z || feq o h (hi (ls_rem o s)) || is_ste oc.
Definition is_ret (ri : pret o St Jt En) (p : Z) (s' : lane_st) (v1 : world) : Prop :=
  p_oc ri = p /\ p_min ri = ls_min o s' /\ p_max ri = ls_max o s' /\ p_steps ri = ls_steps o s' /\ p_world ri = v1.
Lemma lane_end i s k v times tcs oc h v1 : stp i (lane_lim o s) wtc v = Ret (oc, h, v1) -> at_end oc h s = true ->
  exists ri, is_ret ri oc (upd s oc h v1) v1 /\ forall f M, run (S f) i s M k v times tcs = PRet ri.
Proof.
  intros Hs He. destruct (iter_eq i s k v times tcs oc h v1 Hs) as (c1 & c2 & t' & tc' & Q). unfold at_end in He.
  destruct (oc =? oc_err_nf_state)%Z eqn:E1; cbn in He; [|rewrite He in Q]; eexists; (split; [|intros f M; rewrite Q; reflexivity]); repeat split.
Qed.
Lemma lane_more i s k v times tcs oc h v1 : stp i (lane_lim o s) wtc v = Ret (oc, h, v1) -> at_end oc h s = false ->
  exists ri times' tcs', is_ret ri oc_step_limit (upd s oc h v1) v1 /\ forall f M, run (S f) i s M k v times tcs =
    if (k + 1 =? M)%N then PRet ri else run f i (upd s oc h v1) M (k + 1)%N v1 times' tcs'.
Proof.
  intros Hs He. destruct (iter_eq i s k v times tcs oc h v1 Hs) as (c1 & c2 & t' & tc' & Q). unfold at_end in He.
  apply orb_false_iff in He as [He E3]. apply orb_false_iff in He as [E1 E2]. rewrite E1, E2, E3 in Q. cbn [orb] in Q.
  eexists _, t', tc'. split; [|intros f M; rewrite Q; reflexivity]. repeat split.
Qed.

Lemma loop_sim : forall fuel w ls k ts tcs r, buntil_loop o St Jt Eb fuel bc a w ls k ts tcs = BPRet r -> length ls = size w ->
  (forall s, In s ls -> good_dt s) ->
  exists m why, 1 <= m <= fuel /\ size (bp_world r) = size w /\ length (bp_res r) = size w /\
    (ba_max_steps a = 0 \/ k + 1 <= ba_max_steps a -> ba_max_steps a = 0 \/ k + N.of_nat m <= ba_max_steps a)%N /\
    (why = OneStopped -> exists i oc mn mx st, nth_error (bp_res r) i = Some (oc, mn, mx, st) /\ stopping oc) /\
    (why = StepLimit -> ba_max_steps a = (k + N.of_nat m)%N /\
      exists i v s, view w i = Some v /\ nth_error ls i = Some s /\ forall times tcs, exists ri,
        run m i s (k + N.of_nat m)%N k v times tcs = PRet ri /\ p_oc ri = oc_step_limit) /\
    forall i, lane_rel why k m w ls r i.
Proof.
  induction fuel as [|fuel IH]; intros w ls k ts tcs r H Hlen Hdt; [discriminate|]. cbn [buntil_loop] in H.
  destruct (batch_step_lanes proj bc ncb tcb HL Hrefl (map (lane_lim o) ls) wtc w) as (w1 & Sz & Hv & Hor); [now rewrite map_length|].
  destruct Hor as [[_ Hor]|(res & Hor & Lr & Hres)]; rewrite Hor in H; [discriminate|]. cbv zeta in H. fold (upds ls res w1) in H.
  set (ls' := upds ls res w1) in *.
  assert (HA : forall i v s, view w i = Some v -> nth_error ls i = Some s -> exists oc h v1,
     stp i (lane_lim o s) wtc v = Ret (oc, h, v1) /\ nth_error res i = Some (oc, h) /\ view w1 i = Some v1 /\ nth_error ls' i = Some (upd s oc h v1)).
  { intros i v s A B. assert (Bl : nth_error (map (lane_lim o) ls) i = Some (lane_lim o s)) by now rewrite nth_error_map, B.
    destruct (Hres i v _ A Bl) as (oc & h & v1 & C & D). pose proof (Hv i v _ A Bl) as E. rewrite C in E. cbn in E.
    exists oc, h, v1. repeat split; try assumption. now apply upds_nth. }
  assert (Ll' : length ls' = size w) by (unfold ls'; rewrite upds_len; congruence).
  set (pres := map (fun p : Z * F * lane_st => lane_res o (snd p) (fst (fst p))) (combine res ls')) in *.
  assert (HP : forall i oc h s', nth_error res i = Some (oc, h) -> nth_error ls' i = Some s' ->
     nth_error pres i = Some (oc, ls_min o s', ls_max o s', ls_steps o s')).
  { intros i oc h s' A B. unfold pres. rewrite nth_error_map, (nth_comb _ _ _ _ _ A B). reflexivity. }
  assert (HPl : length pres = size w) by (unfold pres; rewrite map_length, combine_length; lia).
  assert (Hone : forall oc h i, nth_error res i = Some (oc, h) -> stopping oc -> exists i oc mn mx st, nth_error pres i = Some (oc, mn, mx, st) /\ stopping oc).
  { intros oc h i Hi Hst. assert (Li : i < size w) by (rewrite <- Lr; apply nth_error_Some; congruence).
    destruct (has_nth ls' i) as [s' Hs']; [lia|]. exists i, oc. do 3 eexists. split; [eapply HP; eassumption|exact Hst]. }
  (* an end of the batch in this iteration with the results [pres] *)
  assert (Hend : forall c why, (why = OneStopped \/ why = AllReached /\ forall i v s oc h v1, view w i = Some v -> nth_error ls i = Some s ->
       stp i (lane_lim o s) wtc v = Ret (oc, h, v1) -> nth_error res i = Some (oc, h) -> ~ stopping oc /\ feq o h (hi (ls_rem o s)) = true) ->
     forall i, lane_rel why k 1 w ls (MkBpret _ _ _ _ pres c w1) i).
  { intros c why Hwhy i v s times0 tcs0 A B. destruct (HA i v s A B) as (oc & h & v1 & C1 & C2 & C3 & C4).
    cbn [bp_world bp_res]. rewrite (HP _ _ _ _ C2 C4).
    destruct (at_end oc h s) eqn:Ea.
    - destruct (lane_end i s k v times0 tcs0 oc h v1 C1 Ea) as (ri & (R1 & R2 & R3 & R4 & R5) & Q). exists ri, v1, oc. rewrite R2, R3, R4, R5.
      split; [apply Q|]. split; [intros; apply Q|]. split; [exact C3|]. split; [apply like_refl|]. split; [reflexivity|].
      destruct Hwhy as [->|[-> Hw]]; cbn; [auto|]. destruct (Hw i v s oc h v1 A B C1 C2) as [X _]. rewrite R1. auto.
    - destruct (lane_more i s k v times0 tcs0 oc h v1 C1 Ea) as (ri & t' & tc' & (R1 & R2 & R3 & R4 & R5) & Q). exists ri, v1, oc. rewrite R2, R3, R4, R5.
      assert (Ns : ~ stopping oc). { unfold at_end in Ea. apply orb_false_iff in Ea as [Ea E3]. apply orb_false_iff in Ea as [E1 E2]. now apply no_stop. }
      destruct Hwhy as [->|[-> Hw]].
      + split; [rewrite Q; now rewrite N.eqb_refl|]. split; [intros [X|X]; [discriminate|contradiction]|]. split; [exact C3|]. split; [apply like_refl|]. split; [reflexivity|].
        right. split; [exact Ns|]. rewrite R1. apply limit_no_stop.
      + exfalso. destruct (Hw i v s oc h v1 A B C1 C2) as [_ X]. unfold at_end in Ea. rewrite X in Ea. rewrite orb_true_r in Ea. discriminate. }
  destruct (existsb (fun r0 => (fst r0 =? oc_err_nf_state)%Z) res) eqn:Enf.
  { injection H as <-. exists 1, OneStopped. cbn [bp_world bp_res]. split; [lia|]. split; [exact Sz|]. split; [exact HPl|]. split; [intros Q; lia|]. split; [|split; [discriminate|]].
    - intros _. apply existsb_exists in Enf as ((oc & h) & Hin & E). apply In_nth_error in Hin as (i & Hi). cbn in E. eapply Hone; [exact Hi|]. left. now apply Z.eqb_eq.
    - apply Hend. now left. }
  assert (Nf : forall i oc h, nth_error res i = Some (oc, h) -> (oc =? oc_err_nf_state)%Z = false).
  { intros i oc h Hi. destruct (oc =? oc_err_nf_state)%Z eqn:E; [|reflexivity]. exfalso. apply nth_error_In in Hi. assert (X : existsb (fun r0 => (fst r0 =? oc_err_nf_state)%Z) res = true) by (apply existsb_exists; exists (oc, h); auto). congruence. }
  rewrite Hcb in H. cbn [brun_cb] in H.
  destruct (existsb (fun r0 => is_ste (fst r0)) res) eqn:Est.
  { rewrite orb_true_r in H. injection H as <-. exists 1, OneStopped. cbn [bp_world bp_res]. split; [lia|]. split; [exact Sz|]. split; [exact HPl|]. split; [intros Q; lia|]. split; [|split; [discriminate|]].
    - intros _. apply existsb_exists in Est as ((oc & h) & Hin & E). apply In_nth_error in Hin as (i & Hi). cbn in E. eapply Hone; [exact Hi|]. right. now apply is_ste_iff.
    - apply Hend. now left. }
  assert (Ns : forall i oc h, nth_error res i = Some (oc, h) -> is_ste oc = false).
  { intros i oc h Hi. destruct (is_ste oc) eqn:E; [|reflexivity]. exfalso. apply nth_error_In in Hi. assert (X : existsb (fun r0 => is_ste (fst r0)) res = true) by (apply existsb_exists; exists (oc, h); auto). congruence. }
  rewrite orb_false_r in H.
  destruct (forallb (fun p => feq o (snd (fst p)) (hi (ls_rem o (snd p)))) (combine res ls)) eqn:Edn.
  { injection H as <-. exists 1, AllReached. cbn [bp_world bp_res]. split; [lia|]. split; [exact Sz|]. split; [exact HPl|]. split; [intros Q; lia|]. split; [discriminate|]. split; [discriminate|].
    apply Hend. right. split; [reflexivity|]. intros i v s oc h v1 A B C1 C2. split; [eapply no_stop; eauto|].
    rewrite forallb_forall in Edn. specialize (Edn (oc, h, s)). apply Edn. eapply nth_error_In. eapply nth_comb; eassumption. }
  assert (Hgo : exists i v s oc h v1, view w i = Some v /\ nth_error ls i = Some s /\ stp i (lane_lim o s) wtc v = Ret (oc, h, v1) /\ at_end oc h s = false).
  { assert (X : exists p, In p (combine res ls) /\ feq o (snd (fst p)) (hi (ls_rem o (snd p))) = false).
    { clear -Edn. induction (combine res ls) as [|p l IHl]; cbn in Edn; [discriminate|]. destruct (feq o (snd (fst p)) (hi (ls_rem o (snd p)))) eqn:E.
      - destruct (IHl Edn) as (q & X & Y). exists q. split; [now right|exact Y].
      - exists p. split; [now left|exact E]. }
    destruct X as (((oc & h) & s) & Hin & E). cbn in E. apply In_nth_error in Hin as (i & Hi).
    assert (Li : i < size w). { rewrite <- Lr. assert (i < length (combine res ls)) by (apply nth_error_Some; congruence). rewrite combine_length in *. lia. }
    destruct (has_view w i Li) as [v A]. destruct (has_nth ls i) as [s0 B]; [lia|]. destruct (HA i v s0 A B) as (oc' & h' & v1 & C1 & C2 & C3 & C4).
    rewrite (nth_comb _ _ _ _ _ C2 B) in Hi. injection Hi as -> -> ->. exists i, v, s, oc, h, v1. repeat split; try assumption.
    unfold at_end. rewrite (Nf _ _ _ C2), E, (Ns _ _ _ C2). reflexivity. }
  assert (Nb : forall i oc h, nth_error res i = Some (oc, h) -> ~ stopping oc) by (intros; eapply no_stop; eauto).
  destruct (k + 1 =? ba_max_steps a)%N eqn:Ek.
  { injection H as <-. apply N.eqb_eq in Ek. exists 1, StepLimit. cbn [bp_world bp_res]. split; [lia|]. split; [exact Sz|]. split; [now rewrite map_length|]. split; [intros Q; lia|]. split; [discriminate|]. split.
    - intros _. split; [lia|]. destruct Hgo as (i & v & s & oc & h & v1 & A & B & C & D). exists i, v, s. repeat split; try assumption. intros times0 tcs0.
      destruct (lane_more i s k v times0 tcs0 oc h v1 C D) as (ri & t' & tc' & (R1 & _) & Q). exists ri. split; [rewrite Q; now rewrite N.eqb_refl|exact R1].
    - intros i v s times0 tcs0 A B. destruct (HA i v s A B) as (oc & h & v1 & C1 & C2 & C3 & C4). cbn [bp_world bp_res].
      rewrite nth_error_map, C4. cbn [option_map]. unfold lane_res. destruct (at_end oc h s) eqn:Ea.
      + destruct (lane_end i s k v times0 tcs0 oc h v1 C1 Ea) as (ri & (R1 & R2 & R3 & R4 & R5) & Q). exists ri, v1, oc_step_limit. rewrite R2, R3, R4, R5.
        split; [apply Q|]. split; [intros; apply Q|]. split; [exact C3|]. split; [apply like_refl|]. split; [reflexivity|]. split; [reflexivity|]. rewrite R1. eauto.
      + destruct (lane_more i s k v times0 tcs0 oc h v1 C1 Ea) as (ri & t' & tc' & (R1 & R2 & R3 & R4 & R5) & Q). exists ri, v1, oc_step_limit. rewrite R2, R3, R4, R5.
        split; [rewrite Q; now rewrite N.eqb_refl|]. split; [intros [X|X]; [discriminate|now apply limit_no_stop in X]|]. split; [exact C3|]. split; [apply like_refl|]. split; [reflexivity|].
        split; [reflexivity|]. rewrite R1. apply limit_no_stop. }
  (* the loop goes on *)
  assert (Hdt' : forall s, In s ls' -> good_dt s).
  { intros s' Hin. apply In_nth_error in Hin as (i & Hi). assert (Li : i < size w) by (rewrite <- Ll'; apply nth_error_Some; congruence).
    destruct (has_view w i Li) as [v A]. destruct (has_nth ls i) as [s0 B]; [lia|]. destruct (HA i v s0 A B) as (oc' & h' & v1 & C1 & C2 & C3 & C4).
    rewrite C4 in Hi. injection Hi as <-. destruct (upd_dir s0 oc' h' (w_time v1)) as (_ & _ & D). unfold good_dt. rewrite D. apply Hdt. eapply nth_error_In; eauto. }
  specialize (IH w1 ls' (k + 1)%N _ _ r H ltac:(congruence) Hdt').
  destruct IH as (m & why & Hm & S1 & S2 & S3 & S4 & S5 & S6). exists (S m), why.
  assert (Ekm : (k + 1 + N.of_nat m = k + N.of_nat (S m))%N) by lia. rewrite Ekm in *.
  split; [lia|]. split; [congruence|]. split; [congruence|]. split; [intros Q; apply N.eqb_neq in Ek; lia|]. split; [exact S4|]. split.
  - intros Hw. destruct (S5 Hw) as (E1 & i & v1 & s1 & A1 & B1 & T). split; [lia|].
    assert (Li : i < size w) by (rewrite <- Sz; eapply view_lt; eauto). destruct (has_view w i Li) as [v A]. destruct (has_nth ls i) as [s B]; [lia|].
    destruct (HA i v s A B) as (oc & h & v1' & C1 & C2 & C3 & C4). rewrite C3 in A1. injection A1 as ->. rewrite C4 in B1. injection B1 as <-.
    exists i, v, s. repeat split; try assumption. intros times0 tcs0. destruct (at_end oc h s) eqn:Ea.
    + exfalso. (* it would be idle, and its run would not reach the limit *)
      assert (Ex : feq o h (hi (ls_rem o s)) = true). { unfold at_end in Ea. rewrite (Nf _ _ _ C2), (Ns _ _ _ C2) in Ea. now rewrite orb_false_r in Ea. }
      assert (Hid : idling i v1 (upd s oc h v1)).
      { split; [eapply Hcalm; [exact C1|]; apply Z.eqb_neq; eauto|]. unfold lane_update. rewrite (Nf _ _ _ C2). cbn. now rewrite Ex. }
      destruct (idle_step i v1 _ Hid) as (h2 & v2 & D1 & D2 & D3 & D4); [apply Hdt'; eapply nth_error_In; eauto|].
      destruct (lane_end i (upd s oc h v1) (k + 1)%N v1 [] [] _ _ _ D1) as (ri & (R1 & _) & Q); [unfold at_end; rewrite D2, orb_true_r; reflexivity|].
      destruct m as [|m]; [lia|]. destruct (T [] []) as (ri' & T1 & T2). rewrite Q in T1. injection T1 as <-. rewrite R1 in T2. discriminate.
    + destruct (lane_more i s k v times0 tcs0 oc h v1 C1 Ea) as (ri & t' & tc' & _ & Q). destruct (T t' tc') as (ri' & T1 & T2). exists ri'. split; [|exact T2].
      rewrite Q. destruct (k + 1 =? k + N.of_nat (S m))%N eqn:E; [apply N.eqb_eq in E; lia|]. exact T1.
  - intros i v s times0 tcs0 A B. destruct (HA i v s A B) as (oc & h & v1 & C1 & C2 & C3 & C4). destruct (at_end oc h s) eqn:Ea.
    + destruct (lane_end i s k v times0 tcs0 oc h v1 C1 Ea) as (ri & (R1 & R2 & R3 & R4 & R5) & Q).
      assert (Ex : feq o h (hi (ls_rem o s)) = true). { unfold at_end in Ea. rewrite (Nf _ _ _ C2), (Ns _ _ _ C2) in Ea. now rewrite orb_false_r in Ea. }
      assert (Hid : idling i v1 (upd s oc h v1)).
      { split; [eapply Hcalm; [exact C1|]; apply Z.eqb_neq; eauto|]. unfold lane_update. rewrite (Nf _ _ _ C2). cbn. now rewrite Ex. }
      destruct (idle_step i v1 _ Hid) as (h2 & v2 & D1 & D2 & D3 & D4); [apply Hdt'; eapply nth_error_In; eauto|].
      destruct (lane_end i (upd s oc h v1) (k + 1)%N v1 [] [] _ _ _ D1) as (ri2 & (T1 & T2 & T3 & T4 & T5) & Q2); [unfold at_end; rewrite D2, orb_true_r; reflexivity|].
      destruct (S6 i v1 _ [] [] C3 C4) as (ri3 & v' & oc' & U1 & _ & U3 & U4 & U5 & U6). destruct m as [|m]; [lia|]. rewrite Q2 in U1. injection U1 as <-.
      destruct (idle_upd (upd s oc h v1) h2 (w_time v2) D3 D2) as (I1 & I2 & I3). exists ri, v', oc'.
      split; [apply Q|]. split; [intros; apply Q|]. split; [exact U3|]. split; [rewrite R5; rewrite T5 in U4; eapply like_trans; eassumption|]. split.
      * rewrite U5, T2, T3, T4, R2, R3, R4, I1, I2, I3. reflexivity.
      * rewrite T1 in U6. rewrite R1. pose proof (Nb _ _ _ C2) as Nbi. destruct why; cbn in *.
        -- destruct U6 as (X1 & X2 & X3). repeat split; try assumption. right. now destruct X3.
        -- right. split; [|exact Nbi]. destruct U6 as [->|[X _]]; [apply tl_no_stop|exact X].
        -- destruct U6 as (X1 & X2). now split.
    + destruct (lane_more i s k v times0 tcs0 oc h v1 C1 Ea) as (ri0 & t' & tc' & _ & Q).
      destruct (S6 i v1 _ t' tc' C3 C4) as (ri & v' & oc' & U1 & U2 & U3 & U4 & U5 & U6). rewrite Ekm in U1. rewrite Ekm in U2. exists ri, v', oc'.
      split; [rewrite Q; destruct (k + 1 =? k + N.of_nat (S m))%N eqn:E; [apply N.eqb_eq in E; lia|exact U1]|]. split.
      * intros X M HM. rewrite Q. destruct (k + 1 =? M)%N eqn:E; [apply N.eqb_eq in E; lia|]. apply U2; assumption.
      * split; [exact U3|split; [exact U4|split; [exact U5|exact U6]]].
Qed.

(** Exceptions, and propagations which do not end. *)
Lemma loop_other : forall fuel w ls k ts tcs, length ls = size w -> 0 < size w -> (forall s, In s ls -> good_dt s) ->
  match buntil_loop o St Jt Eb fuel bc a w ls k ts tcs with
  | BPRet _ => True
  | BPExn _ => exists i v s, view w i = Some v /\ nth_error ls i = Some s /\ forall times tcs, exists v', run fuel i s (ba_max_steps a) k v times tcs = PExn v'
  | BPFuel => exists i v s, view w i = Some v /\ nth_error ls i = Some s /\ forall times tcs, run fuel i s (ba_max_steps a) k v times tcs = PFuel
  end.
Proof.
  induction fuel as [|fuel IH]; intros w ls k ts tcs Hlen Hpos Hdt.
  { cbn. destruct (has_view w 0 Hpos) as [v A]. destruct (has_nth ls 0) as [s B]; [lia|]. exists 0, v, s. auto. }
  cbn [buntil_loop].
  destruct (batch_step_lanes proj bc ncb tcb HL Hrefl (map (lane_lim o) ls) wtc w) as (w1 & Sz & Hv & Hor); [now rewrite map_length|].
  destruct Hor as [[(i & v & lim & A & Bl & (v' & C)) Hor]|(res & Hor & Lr & Hres)]; rewrite Hor.
  { destruct (has_nth ls i) as [s B]; [rewrite Hlen; eapply view_lt; eauto|]. rewrite nth_error_map, B in Bl. injection Bl as <-.
    exists i, v, s. repeat split; try assumption. intros times0 tcs0. exists v'. cbn [until_loop]. unfold lane_lim in C. cbn [sargs a_max_dt a_wtc a_cout lst l_rem]. now rewrite C. }
  cbv zeta. fold (upds ls res w1). set (ls' := upds ls res w1) in *.
  assert (HA : forall i v s, view w i = Some v -> nth_error ls i = Some s -> exists oc h v1,
     stp i (lane_lim o s) wtc v = Ret (oc, h, v1) /\ nth_error res i = Some (oc, h) /\ view w1 i = Some v1 /\ nth_error ls' i = Some (upd s oc h v1)).
  { intros i v s A B. assert (Bl : nth_error (map (lane_lim o) ls) i = Some (lane_lim o s)) by now rewrite nth_error_map, B.
    destruct (Hres i v _ A Bl) as (oc & h & v1 & C & D). pose proof (Hv i v _ A Bl) as E. rewrite C in E. cbn in E.
    exists oc, h, v1. repeat split; try assumption. now apply upds_nth. }
  assert (Ll' : length ls' = size w) by (unfold ls'; rewrite upds_len; congruence).
  destruct (existsb (fun r0 => (fst r0 =? oc_err_nf_state)%Z) res) eqn:Enf; [exact I|].
  rewrite Hcb. cbn [brun_cb].
  destruct (existsb (fun r0 => is_ste (fst r0)) res) eqn:Est; [rewrite orb_true_r; exact I|]. rewrite orb_false_r.
  destruct (forallb (fun p => feq o (snd (fst p)) (hi (ls_rem o (snd p)))) (combine res ls)) eqn:Edn; [exact I|].
  destruct (k + 1 =? ba_max_steps a)%N eqn:Ek; [exact I|].
  assert (Nf : forall i oc h, nth_error res i = Some (oc, h) -> (oc =? oc_err_nf_state)%Z = false).
  { intros i oc h Hi. destruct (oc =? oc_err_nf_state)%Z eqn:E; [|reflexivity]. exfalso. apply nth_error_In in Hi. assert (X : existsb (fun r0 => (fst r0 =? oc_err_nf_state)%Z) res = true) by (apply existsb_exists; exists (oc, h); auto). congruence. }
  assert (Ns : forall i oc h, nth_error res i = Some (oc, h) -> is_ste oc = false).
  { intros i oc h Hi. destruct (is_ste oc) eqn:E; [|reflexivity]. exfalso. apply nth_error_In in Hi. assert (X : existsb (fun r0 => is_ste (fst r0)) res = true) by (apply existsb_exists; exists (oc, h); auto). congruence. }
  assert (Hgo : exists i v s oc h v1, view w i = Some v /\ nth_error ls i = Some s /\ stp i (lane_lim o s) wtc v = Ret (oc, h, v1) /\ at_end oc h s = false).
  { assert (X : exists p, In p (combine res ls) /\ feq o (snd (fst p)) (hi (ls_rem o (snd p))) = false).
    { clear -Edn. induction (combine res ls) as [|p l IHl]; cbn in Edn; [discriminate|]. destruct (feq o (snd (fst p)) (hi (ls_rem o (snd p)))) eqn:E.
      - destruct (IHl Edn) as (q & X & Y). exists q. split; [now right|exact Y].
      - exists p. split; [now left|exact E]. }
    destruct X as (((oc & h) & s) & Hin & E). cbn in E. apply In_nth_error in Hin as (i & Hi).
    assert (Li : i < size w). { rewrite <- Lr. assert (i < length (combine res ls)) by (apply nth_error_Some; congruence). rewrite combine_length in *. lia. }
    destruct (has_view w i Li) as [v A]. destruct (has_nth ls i) as [s0 B]; [lia|]. destruct (HA i v s0 A B) as (oc' & h' & v1 & C1 & C2 & C3 & C4).
    rewrite (nth_comb _ _ _ _ _ C2 B) in Hi. injection Hi as -> -> ->. exists i, v, s, oc, h, v1. repeat split; try assumption.
    unfold at_end. rewrite (Nf _ _ _ C2), E, (Ns _ _ _ C2). reflexivity. }
  assert (Hdt' : forall s, In s ls' -> good_dt s).
  { intros s' Hin. apply In_nth_error in Hin as (i & Hi). assert (Li : i < size w) by (rewrite <- Ll'; apply nth_error_Some; congruence).
    destruct (has_view w i Li) as [v A]. destruct (has_nth ls i) as [s0 B]; [lia|]. destruct (HA i v s0 A B) as (oc' & h' & v1 & C1 & C2 & C3 & C4).
    rewrite C4 in Hi. injection Hi as <-. destruct (upd_dir s0 oc' h' (w_time v1)) as (_ & _ & D). unfold good_dt. rewrite D. apply Hdt. eapply nth_error_In; eauto. }
  (* an element at its end returns in the next iteration *)
  assert (Hidle : forall i v s v1 s1, view w i = Some v -> nth_error ls i = Some s -> view w1 i = Some v1 -> nth_error ls' i = Some s1 ->
    (exists oc h, stp i (lane_lim o s) wtc v = Ret (oc, h, v1) /\ s1 = upd s oc h v1 /\ at_end oc h s = false) \/
    forall f, exists ri, run (S f) i s1 (ba_max_steps a) (k + 1)%N v1 [] [] = PRet ri).
  { intros i v s v1 s1 A B A1 B1. destruct (HA i v s A B) as (oc & h & v1' & C1 & C2 & C3 & C4). rewrite C3 in A1. injection A1 as <-. rewrite C4 in B1. injection B1 as <-.
    destruct (at_end oc h s) eqn:Ea; [|left; eauto]. right.
    assert (Ex : feq o h (hi (ls_rem o s)) = true). { unfold at_end in Ea. rewrite (Nf _ _ _ C2), (Ns _ _ _ C2) in Ea. now rewrite orb_false_r in Ea. }
    assert (Hid : idling i v1' (upd s oc h v1')).
    { split; [eapply Hcalm; [exact C1|]; apply Z.eqb_neq; eauto|]. unfold lane_update. rewrite (Nf _ _ _ C2). cbn. now rewrite Ex. }
    destruct (idle_step i v1' _ Hid) as (h2 & v2 & D1 & D2 & D3 & D4); [apply Hdt'; eapply nth_error_In; eauto|].
    destruct (lane_end i (upd s oc h v1') (k + 1)%N v1' [] [] _ _ _ D1) as (ri & _ & Q); [unfold at_end; rewrite D2, orb_true_r; reflexivity|]. eauto. }
  specialize (IH w1 ls' (k + 1)%N (if ba_cout a then ts ++ [times o St Jt Eb w1] else ts) (if ba_cout a then tcs ++ [map ig_tc (fst w1)] else tcs) ltac:(congruence) ltac:(lia) Hdt').
  destruct (buntil_loop o St Jt Eb fuel bc a w1 ls' (k + 1) (if ba_cout a then ts ++ [times o St Jt Eb w1] else ts) (if ba_cout a then tcs ++ [map ig_tc (fst w1)] else tcs)) as [r|w'|]; [exact I| |].
  - destruct IH as (i & v1 & s1 & A1 & B1 & T). assert (Li : i < size w) by (rewrite <- Sz; eapply view_lt; eauto).
    destruct (has_view w i Li) as [v A]. destruct (has_nth ls i) as [s B]; [lia|]. destruct (Hidle i v s v1 s1 A B A1 B1) as [(oc & h & C1 & -> & Ea)|X].
    + exists i, v, s. repeat split; try assumption. intros times0 tcs0. destruct (lane_more i s k v times0 tcs0 oc h v1 C1 Ea) as (ri & t' & tc' & _ & Q).
      destruct (T t' tc') as (v' & T'). exists v'. rewrite Q, Ek. exact T'.
    + destruct fuel as [|f]; [destruct (T [] []) as (v' & T'); discriminate|]. destruct (X f) as (ri & X'). destruct (T [] []) as (v' & T'). rewrite X' in T'. discriminate.
  - destruct IH as (i & v1 & s1 & A1 & B1 & T). assert (Li : i < size w) by (rewrite <- Sz; eapply view_lt; eauto).
    destruct fuel as [|f].
    + destruct Hgo as (j & v & s & oc & h & v1' & A & B & C & D). exists j, v, s. repeat split; try assumption. intros times0 tcs0.
      destruct (lane_more j s k v times0 tcs0 oc h v1' C D) as (ri & t' & tc' & _ & Q). rewrite Q, Ek. reflexivity.
    + destruct (has_view w i Li) as [v A]. destruct (has_nth ls i) as [s B]; [lia|]. destruct (Hidle i v s v1 s1 A B A1 B1) as [(oc & h & C1 & -> & Ea)|X].
      * exists i, v, s. repeat split; try assumption. intros times0 tcs0. destruct (lane_more i s k v times0 tcs0 oc h v1 C1 Ea) as (ri & t' & tc' & _ & Q).
        rewrite Q, Ek. apply T.
      * destruct (X f) as (ri & X'). rewrite (T [] []) in X'. discriminate.
Qed.
End B.

(** More fuel does not change the result of the scalar loop. *)
Lemma until_mono {o St Jt En} f : forall (cf : cfg o St Jt En) a dir w s x, until_loop o St Jt En f cf a dir w s <> PFuel ->
  until_loop o St Jt En (f + x) cf a dir w s = until_loop o St Jt En f cf a dir w s.
Proof.
  induction f as [|f IH]; intros cf a dir w s x H; [now elim H|]. cbn [Nat.add]. cbn [until_loop] in *.
  repeat match goal with
  | |- context [match ?e with _ => _ end] => lazymatch e with context [until_loop] => fail | _ => destruct e end
  end; try reflexivity; apply IH; exact H.
Qed.
