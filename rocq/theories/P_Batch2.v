(** Steps of the batch integrator are steps of each element. *)
From Coq Require Import List ZArith NArith Bool Lia.
From Verif Require Import M_Float M_Search M_Step M_Prop S_Step S_Prop M_Batch S_Batch P_Batch1.
Import ListNotations.
Set Bullet Behavior "Strict Subproofs".

Lemma all_some_ok {A} : forall l : list (option A), match all_some l with
  | Some r => length r = length l /\ forall k, nth_error l k = option_map Some (nth_error r k)
  | None => exists k, nth_error l k = Some None end.
Proof.
  induction l as [|[a|] l IH]; cbn.
  - split; [reflexivity|]. intros [|k]; reflexivity.
  - destruct (all_some l) as [r|].
    + destruct IH as [H1 H2]. split; [cbn; lia|]. intros [|k]; cbn; [reflexivity | apply H2].
    + destruct IH as [k Hk]. exists (S k). exact Hk.
  - exists 0. reflexivity.
Qed.
Lemma forallb_nth {A} (f : A -> bool) l : forallb f l = true <-> forall k x, nth_error l k = Some x -> f x = true.
Proof.
  rewrite forallb_forall. split; intros H.
  - intros k x Hk. apply H. exact (nth_error_In _ _ Hk).
  - intros x Hx. apply In_nth_error in Hx as [k Hk]. exact (H k x Hk).
Qed.

Section B.
Context {o : fops} {St Jt En Eb : Type} (proj : Eb -> nat -> En).
Notation F := (F o).
Notation integ := (integ o St Jt).
Notation world := (world o St Jt En).
Notation bworld := (bworld o St Jt Eb).
Notation view := (view proj).
Context (bc : bcfg o St Jt Eb) (ncb : nat -> nat -> world -> F -> Z -> out o St Jt En world)
  (tcb : nat -> nat -> option (world -> Z -> out o St Jt En (world * bool))).
Hypothesis HL : local_callbacks proj bc ncb tcb.
Hypothesis Hrefl : forall x, cmp_nan_eq o x x = true.
Notation sc i := (scalar bc (ncb i) (tcb i)).
Notation prep g lim := (lane_prepare o St Jt Eb bc g lim).

Lemma lanes_ok (e : nat -> En) : forall (lanes : list (integ * F)) i0 (w : bworld),
  (forall k g lim, nth_error lanes k = Some (g, lim) -> view w (i0 + k) = Some (fst (prep g lim), e (i0 + k))) ->
  let r := lanes_events o St Jt Eb bc i0 (map (fun p => snd (prep (fst p) (snd p))) lanes) w in
  size (snd r) = size w /\ (forall j, j < i0 -> view (snd r) j = view w j) /\ length (fst r) = length lanes /\
  forall k g lim, nth_error lanes k = Some (g, lim) ->
    let s := step_events o St Jt En (sc (i0 + k)) lim (g, e (i0 + k)) in
    view (snd r) (i0 + k) = Some (left_by s) /\
    match s with
    | Ret (x, v') => nth_error (fst r) k = Some (Some x) /\ kept (snd (prep g lim)) (fst v') = true
    | Exn v' => nth_error (fst r) k = Some None \/ kept (snd (prep g lim)) (fst v') = false
    end.
Proof.
  induction lanes as [|[g lim] lanes IH]; intros i0 w Hw; cbn [map lanes_events].
  - cbn. split; [reflexivity|]. split; [reflexivity|]. split; [reflexivity|]. intros [|k] ? ? HH; discriminate.
  - pose proof (Hw 0 g lim eq_refl) as H0. rewrite Nat.add_0_r in H0.
    pose proof (lane_ok proj bc ncb tcb HL Hrefl i0 g (e i0) lim w H0) as (O1 & V1 & R1). cbn [fst snd] in *.
    destruct (lane_events o St Jt Eb bc i0 (snd (prep g lim)) w) as [r1 w1] eqn:E1. cbn [fst snd] in *.
    destruct O1 as [Sz1 Ot1].
    assert (Hw1 : forall k g lim, nth_error lanes k = Some (g, lim) -> view w1 (S i0 + k) = Some (fst (prep g lim), e (S i0 + k))).
    { intros k g' lim' Hk. rewrite Ot1 by lia. replace (S i0 + k) with (i0 + S k) by lia. exact (Hw (S k) g' lim' Hk). }
    specialize (IH (S i0) w1 Hw1). cbv zeta in IH. destruct (lanes_events o St Jt Eb bc (S i0) (map (fun p => snd (prep (fst p) (snd p))) lanes) w1) as [rs w2].
    cbn [fst snd] in *. destruct IH as (Sz2 & Ot2 & Ln & IH). split; [congruence|]. split.
    { intros j Hj. rewrite Ot2 by lia. apply Ot1. lia. }
    split; [cbn; lia|]. intros [|k] g' lim' Hk; cbn in Hk.
    + injection Hk as <- <-. rewrite Nat.add_0_r. split; [rewrite Ot2 by lia; exact V1|]. cbn. destruct (step_events o St Jt En (sc i0) lim (g, e i0)) as [[x v']|v'].
      * destruct R1 as [-> R1]. auto.
      * destruct R1 as [->|R1]; auto.
    + replace (i0 + S k) with (S i0 + k) by lia. exact (IH k g' lim' Hk).
Qed.

Theorem batch_step_lanes lims wtc (w : bworld) : length lims = size w ->
  exists w', size w' = size w /\
  (forall i v lim, view w i = Some v -> nth_error lims i = Some lim -> view w' i = Some (left_by (step_impl o St Jt En (sc i) lim wtc v))) /\
  ((exists i v lim, view w i = Some v /\ nth_error lims i = Some lim /\ throws (step_impl o St Jt En (sc i) lim wtc v)) /\
     bstep_impl o St Jt Eb bc lims wtc w = BExn w' \/
   exists res, bstep_impl o St Jt Eb bc lims wtc w = BRet (res, w') /\ length res = size w /\
     forall i v lim, view w i = Some v -> nth_error lims i = Some lim -> exists oc h v', step_impl o St Jt En (sc i) lim wtc v = Ret (oc, h, v') /\ nth_error res i = Some (oc, h)).
Proof.
  intros Hl. unfold bstep_impl, step_impl. cbn [c_events scalar]. destruct (b_events o St Jt Eb bc) eqn:Ev.
  - unfold bstep_events. set (lanes := combine (fst w) lims).
    assert (Ll : length lanes = size w) by (unfold lanes; rewrite combine_length; unfold size in *; lia).
    rewrite !map_map. set (w0 := (map (fun x => fst (prep (fst x) (snd x))) lanes, snd w) : bworld).
    assert (Hw0 : forall k g lim, nth_error lanes k = Some (g, lim) -> view w0 (0 + k) = Some (fst (prep g lim), proj (snd w) (0 + k))).
    { intros k g lim Hk. apply view_some. cbn. now rewrite nth_error_map, Hk. }
    pose proof (lanes_ok (proj (snd w)) lanes 0 w0 Hw0) as H. cbv zeta in H.
    destruct (lanes_events o St Jt Eb bc 0 (map (fun p => snd (prep (fst p) (snd p))) lanes) w0) as [rs w'] eqn:Er. cbn [fst snd] in H.
    destruct H as (Sz & _ & Ln & H). assert (Sz0 : size w' = size w) by (rewrite Sz; unfold size, w0; cbn; rewrite map_length; exact Ll).
    assert (HL2 : forall i v lim, view w i = Some v -> nth_error lims i = Some lim -> nth_error lanes i = Some (fst v, lim) /\ v = (fst v, proj (snd w) i)).
    { intros i v lim Hv Hlim. apply view_some in Hv as [Hv1 Hv2]. split; [unfold lanes; now rewrite nth_combine, Hv1, Hlim|]. rewrite <- Hv2. now destruct v. }
    exists w'. split; [exact Sz0|]. split.
    { intros i v lim Hv Hlim. destruct (HL2 i v lim Hv Hlim) as [A B]. rewrite B. exact (proj1 (H i _ _ A)). }
    assert (HK : forall k g lim g', nth_error lanes k = Some (g, lim) -> nth_error (fst w') k = Some g' ->
      fst (left_by (step_events o St Jt En (sc k) lim (g, proj (snd w) k))) = g').
    { intros k g lim g' Hk Hg'. destruct (H k g lim Hk) as [A _]. apply view_some in A as [A _]. cbn in A. rewrite Hg' in A. injection A as A. now symmetry. }
    assert (Hle : forall k g lim, nth_error lanes k = Some (g, lim) -> nth_error (map (fun p => snd (prep (fst p) (snd p))) lanes) k = Some (snd (prep g lim))) by (intros k g lim Hk; now rewrite nth_error_map, Hk).
    assert (Hex : forall k, k < size w -> exists g lim g', nth_error lanes k = Some (g, lim) /\ nth_error (fst w') k = Some g' /\ view w k = Some (g, proj (snd w) k) /\ nth_error lims k = Some lim).
    { intros k Hk. destruct (nth_some lims k) as [lim Hlim]; [lia|]. destruct (proj1 (view_size proj w k) Hk) as [v Hv]. destruct (HL2 k v lim Hv Hlim) as [A B].
      destruct (nth_some (fst w') k) as [g' Hg']; [unfold size in *; lia|]. exists (fst v), lim, g'. rewrite <- B. auto. }
    pose proof (all_some_ok rs) as HA. destruct (all_some rs) as [res|].
    + destruct HA as [HA1 HA2]. destruct (times_kept o St Jt Eb _ w') eqn:Hk; unfold times_kept in Hk.
      * right. exists res. split; [reflexivity|]. split; [lia|]. rewrite forallb_nth in Hk. intros i v lim Hv Hlim. destruct (HL2 i v lim Hv Hlim) as [A B].
        destruct (H i _ _ A) as [C D]. cbn [Nat.add] in C, D. rewrite <- B in C, D. destruct (step_events o St Jt En (sc i) lim v) as [[[oc h] v']|v'] eqn:Es.
        -- destruct D as [D _]. exists oc, h, v'. split; [reflexivity|]. rewrite HA2 in D. destruct (nth_error res i); [cbn in D; congruence | discriminate].
        -- exfalso. destruct D as [D|D]; [rewrite HA2 in D; destruct (nth_error res i); discriminate|].
           apply view_some in C as [C _]. cbn in C. assert (Q := Hk i (snd (prep (fst v) lim), fst v')). rewrite nth_combine, (Hle _ _ _ A), C in Q. specialize (Q eq_refl). cbn [fst snd] in Q. unfold kept in D. congruence.
      * left. split; [|reflexivity].
        assert (HN : exists k g lim g', nth_error lanes k = Some (g, lim) /\ nth_error (fst w') k = Some g' /\ view w k = Some (g, proj (snd w) k) /\ nth_error lims k = Some lim /\ kept (snd (prep g lim)) g' = false).
        { assert (Q : ~ (forall k, k < size w -> forall g lim g', nth_error lanes k = Some (g, lim) -> nth_error (fst w') k = Some g' -> kept (snd (prep g lim)) g' = true)).
          { intros Q. apply Bool.not_true_iff_false in Hk. apply Hk. apply forallb_nth. intros k [le g'] Hc. rewrite nth_combine in Hc.
            destruct (nth_error (map (fun p => snd (prep (fst p) (snd p))) lanes) k) as [le0|] eqn:El; [|discriminate]. destruct (nth_error (fst w') k) as [g0|] eqn:Eg; [|discriminate]. injection Hc as <- <-.
            rewrite nth_error_map in El. destruct (nth_error lanes k) as [[g lim]|] eqn:Ek; [|discriminate]. cbn in El. injection El as <-. cbn [fst snd].
            refine (Q k _ g lim g0 Ek Eg). rewrite <- Ll. exact (some_lt _ _ _ Ek). }
          clear - Q Hex. induction (size w) as [|n IH].
          { exfalso. apply Q. intros; lia. }
          destruct (Hex n ltac:(lia)) as (g & lim & g' & A1 & A2 & A3 & A4). destruct (kept (snd (prep g lim)) g') eqn:Ek; [|exists n, g, lim, g'; auto].
          apply IH; [intros k Hk; apply Hex; lia|]. intros Q'. apply Q. intros k Hk g1 lim1 g1' B1 B2. destruct (Nat.eq_dec k n) as [->|Hn]; [congruence|]. apply (Q' k); auto. lia. }
        destruct HN as (k & g & lim & g' & B1 & B2 & B3 & B4 & B5). exists k, (g, proj (snd w) k), lim. split; [exact B3|]. split; [exact B4|].
        pose proof (HK k g lim g' B1 B2) as Q. destruct (H k g lim B1) as [_ D]. cbn [Nat.add] in D. destruct (step_events o St Jt En (sc k) lim (g, proj (snd w) k)) as [[x v']|v']; [|eexists; reflexivity].
        exfalso. destruct D as [_ D]. cbn in Q. subst g'. congruence.
    + left. split; [|reflexivity]. destruct HA as [k Hk]. assert (Hks : k < size w) by (rewrite <- Ll, <- Ln; exact (some_lt _ _ _ Hk)).
      destruct (Hex k Hks) as (g & lim & g' & B1 & B2 & B3 & B4). exists k, (g, proj (snd w) k), lim. split; [exact B3|]. split; [exact B4|].
      destruct (H k g lim B1) as [_ D]. cbn [Nat.add] in D. destruct (step_events o St Jt En (sc k) lim (g, proj (snd w) k)) as [[x v']|v']; [|eexists; reflexivity].
      exfalso. destruct D as [D _]. rewrite Hk in D. discriminate.
  - set (l := map (fun p => lane_vanilla o St Jt Eb bc wtc (fst p) (snd p)) (combine (fst w) lims)).
    assert (Ll : length l = size w) by (unfold l; rewrite map_length, combine_length; unfold size in *; lia).
    assert (HV : forall i v lim, view w i = Some v -> nth_error lims i = Some lim -> nth_error l i = Some (lane_vanilla o St Jt Eb bc wtc (fst v) lim) /\
      step_vanilla o St Jt En (sc i) lim wtc v = (fst (lane_vanilla o St Jt Eb bc wtc (fst v) lim), (snd (lane_vanilla o St Jt Eb bc wtc (fst v) lim), proj (snd w) i))).
    { intros i v lim Hv Hlim. apply view_some in Hv as [Hv1 Hv2]. split; [unfold l; now rewrite nth_error_map, nth_combine, Hv1, Hlim|].
      unfold step_vanilla, lane_vanilla. cbn [c_step scalar c_fin]. destruct (b_step o St Jt Eb bc (ig_state (fst v)) (hi (ig_time (fst v))) lim) as [[s' h] tc]. cbn [fst snd]. now rewrite Hv2. }
    exists (map snd l, snd w). split; [unfold size; cbn; rewrite map_length; exact Ll|]. split.
    + intros i v lim Hv Hlim. destruct (HV i v lim Hv Hlim) as [A B]. rewrite B. cbn [left_by]. apply view_some. cbn. rewrite nth_error_map, A. auto.
    + right. exists (map fst l). split; [reflexivity|]. split; [rewrite map_length; exact Ll|]. intros i v lim Hv Hlim. destruct (HV i v lim Hv Hlim) as [A B].
      rewrite B. destruct (fst (lane_vanilla o St Jt Eb bc wtc (fst v) lim)) as [oc h] eqn:E. exists oc, h, (snd (lane_vanilla o St Jt Eb bc wtc (fst v) lim), proj (snd w) i). split; [reflexivity|]. rewrite nth_error_map, A. cbn. now rewrite E.
Qed.
End B.
