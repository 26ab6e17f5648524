(** C35: ensemble propagations. *)
From Coq Require Import List Arith Lia Bool ZArith NArith Permutation.
From Verif Require Import M_Dag M_Taylor M_Stepper M_Float M_Step M_Prop X_Demo M_Ens S_Ens P_Ens.
Import ListNotations.
Local Open Scope nat_scope.
Set Bullet Behavior "Strict Subproofs".

(** Whatever the division into chunks and the interleaving, an ensemble propagation
    that returns has, at position i, the result of the propagation of the i-th
    generated integrator, and every iteration was run exactly once; if it throws, it
    throws an exception thrown by one of the iterations. *)
Theorem ensemble_result : forall {Obj Cb Res Err} (ta : Obj) (cb : Cb) (gen : Obj -> nat -> Obj + Err) copy propagate n (s : @sys Obj Cb Res Err),
  execution ta cb gen copy propagate (start n) s -> ended s ->
  match returned s with
  | inl ret => (exists rs, ret = map Some rs /\ length rs = n /\ forall i r, nth_error rs i = Some r -> gives ta cb gen copy propagate i r) /\
               Permutation (gens s) (seq 0 n)
  | inr e => exists i, i < n /\ throws ta cb gen copy propagate i e
  end.
Proof. intros. now apply result. Qed.

(** If no iteration throws, the result does not depend on the schedule. *)
Theorem ensemble_is_deterministic : forall {Obj Cb Res Err} (ta : Obj) (cb : Cb) (gen : Obj -> nat -> Obj + Err) copy propagate n (s1 s2 : @sys Obj Cb Res Err),
  (forall i, i < n -> exists r, gives ta cb gen copy propagate i r) ->
  execution ta cb gen copy propagate (start n) s1 -> ended s1 ->
  execution ta cb gen copy propagate (start n) s2 -> ended s2 ->
  returned s1 = returned s2 /\ exists ret, returned s1 = inl ret.
Proof.
  intros Obj Cb Res Err ta cb gen copy propagate n s1 s2 Hg.
  assert (U : forall i r r', gives ta cb gen copy propagate i r -> gives ta cb gen copy propagate i r' -> r = r').
  { intros i r r' (x & c & A1 & A2 & A3) (x' & c' & B1 & B2 & B3). congruence. }
  assert (V : forall i r e, gives ta cb gen copy propagate i r -> throws ta cb gen copy propagate i e -> False).
  { intros i r e (x & c & A1 & A2 & A3) [B|[(x' & B1 & B2)|(x' & c' & B1 & B2 & B3)]]; congruence. }
  assert (K : forall s : @sys Obj Cb Res Err, execution ta cb gen copy propagate (start n) s -> ended s -> exists rs, returned s = inl (map Some rs) /\ length rs = n /\
     forall i r, nth_error rs i = Some r -> gives ta cb gen copy propagate i r).
  { intros s H1 H2. pose proof (result _ _ _ _ _ n s H1 H2) as H. destruct (returned s) as [ret|e].
    - destruct H as [(rs & -> & E1 & E2) _]. eauto.
    - destruct H as (i & Hi & H). destruct (Hg i Hi) as [r Hr]. elim (V i r e Hr H). }
  intros H1 E1 H2 E2. destruct (K s1 H1 E1) as (r1 & -> & L1 & G1). destruct (K s2 H2 E2) as (r2 & -> & L2 & G2). split; [|eauto].
  f_equal. f_equal. apply nth_error_ext. intros i. destruct (nth_error r1 i) as [x|] eqn:X1, (nth_error r2 i) as [y|] eqn:X2; auto.
  - f_equal. eapply U; eauto.
  - apply nth_error_None in X2. assert (i < length r1) by (apply nth_error_Some; congruence). lia.
  - apply nth_error_None in X1. assert (i < length r2) by (apply nth_error_Some; congruence). lia.
Qed.

(** The workers never write out of bounds; if each single iteration ends there is no
    deadlock, and every execution is finite. *)
Theorem ensemble_ends : forall {Obj Cb Res Err} (ta : Obj) (cb : Cb) (gen : Obj -> nat -> Obj + Err) copy propagate n (s : @sys Obj Cb Res Err),
  execution ta cb gen copy propagate (start n) s ->
  (forall t, In t (running s) -> body ta cb gen copy propagate t (retval s) <> BUB) /\
  ((forall i, i < n -> ends ta cb gen copy propagate i) -> ~ ended s -> exists s', sched ta cb gen copy propagate s s') /\
  Acc (fun s2 s1 => sched ta cb gen copy propagate s1 s2) s.
Proof.
  intros Obj Cb Res Err ta cb gen copy propagate n s H. pose proof (inv_execution _ _ _ _ _ n s H) as I. split; [|split].
  - intros t Ht. eapply body_defined; eauto.
  - intros He Hn. eapply progress; eauto.
  - clear H. remember (left_ s) as k eqn:Ek. revert s I Ek. induction k as [k IH] using lt_wf_ind. intros s I ->. constructor. intros s' Hs.
    apply (IH (left_ s')); [eapply sched_left; eauto | eapply inv_step; eauto | reflexivity].
Qed.

(** The three ensemble functions for scalar integrators, on top of the model of the
    propagation functions (M_Prop.v). *)
Theorem ensemble_scalar_result : forall (o : fops) St Jt En Row fuel (cf : gcfg o St Jt En Row) (a : pargs o St Jt En) delta_t grid
    ta (cb : option (scb o St Jt En)) gen n,
  let copy := @inl (option (scb o St Jt En)) (world o St Jt En) in
  let result {Res} propagate rs := exists s : @sys (world o St Jt En) (option (scb o St Jt En)) Res (world o St Jt En),
    execution ta cb gen copy propagate (start n) s /\ ended s /\ returned s = inl (map Some rs) in
  (forall rs, result (until_body o St Jt En fuel cf a) rs -> length rs = n /\
     forall i w r c, nth_error rs i = Some (w, (r, c)) -> exists w0, gen ta i = inl w0 /\ c = cb /\ w = p_world r /\
       propagate_until o St Jt En fuel cf (with_cb o St Jt En a cb) w0 = PRet r) /\
  (forall rs, result (for_body o St Jt En fuel cf delta_t a) rs -> length rs = n /\
     forall i w r c, nth_error rs i = Some (w, (r, c)) -> exists w0, gen ta i = inl w0 /\ c = cb /\ w = p_world r /\
       propagate_for o St Jt En fuel cf delta_t (with_cb o St Jt En a cb) w0 = PRet r) /\
  (forall rs, result (grid_body o St Jt En Row fuel cf grid (a_max_steps a) (a_max_dt a)) rs -> length rs = n /\
     forall i w r c, nth_error rs i = Some (w, (r, c)) -> exists w0, gen ta i = inl w0 /\ c = cb /\ w = q_world o St Jt En Row r /\
       propagate_grid o St Jt En Row fuel cf grid (a_max_steps a) (a_max_dt a) cb w0 = PRet r).
Proof.
  intros o St Jt En Row fuel cf a delta_t grid ta cb gen n copy result.
  assert (K : forall Res propagate rs, @result Res propagate rs -> length rs = n /\
     forall i x, nth_error rs i = Some x -> exists w0, gen ta i = inl w0 /\ propagate w0 cb = Some (inl x)).
  { intros Res propagate rs (s & H1 & H2 & H3). pose proof (P_Ens.result _ _ _ _ _ n s H1 H2) as H. rewrite H3 in H.
    destruct H as [(rs' & E1 & E2 & E3) _]. assert (rs' = rs) as ->.
    { clear - E1. revert rs' E1. induction rs as [|x rs IH]; intros [|y rs'] E; try discriminate; [reflexivity|]. cbn in E. injection E as -> E. f_equal. now apply IH. }
    split; [exact E2|]. intros i x Hi. destruct (E3 i x Hi) as (w0 & c & G1 & G2 & G3). unfold copy in G2. injection G2 as <-. eauto. }
  split; [|split]; intros rs H; destruct (K _ _ _ H) as [L G]; split; try exact L; intros i w r c Hi; destruct (G _ _ Hi) as (w0 & G1 & G2); exists w0; split; auto.
  - unfold until_body, wrap in G2. destruct (propagate_until _ _ _ _ _ _ _ _) as [r'|w'|]; try discriminate. injection G2 as <- <- <-. auto.
  - unfold for_body, wrap in G2. destruct (propagate_for _ _ _ _ _ _ _ _ _) as [r'|w'|]; try discriminate. injection G2 as <- <- <-. auto.
  - unfold grid_body, wrap in G2. destruct (propagate_grid _ _ _ _ _ _ _ _ _ _ _ _) as [r'|w'|]; try discriminate. injection G2 as <- <- <-. auto.
Qed.

(** The exceptions of the scalar versions are those of the generator and of the
    propagations, and as long as no propagation is endless an execution can go on
    until it has ended. *)
Definition scalar_failures {o St Jt En Res A} (ta : world o St Jt En) (cb : option (scb o St Jt En)) gen n
    (body : world o St Jt En -> option (scb o St Jt En) -> option ((world o St Jt En * Res) + world o St Jt En))
    (propagation : world o St Jt En -> pres o St Jt En A) : Prop :=
  let copy := @inl (option (scb o St Jt En)) (world o St Jt En) in
  forall s, execution ta cb gen copy body (start n) s ->
  (forall e, ended s -> returned s = inr e -> exists i, i < n /\
     (gen ta i = inr e \/ exists w0, gen ta i = inl w0 /\ propagation w0 = PExn e)) /\
  ((forall i w0, i < n -> gen ta i = inl w0 -> propagation w0 <> PFuel) ->
   ~ ended s -> exists s', sched ta cb gen copy body s s').
Theorem ensemble_scalar_failures : forall (o : fops) St Jt En Row fuel (cf : gcfg o St Jt En Row) (a : pargs o St Jt En) delta_t grid ta cb gen n,
  scalar_failures ta cb gen n (until_body o St Jt En fuel cf a)
    (fun w => propagate_until o St Jt En fuel cf (with_cb o St Jt En a cb) w) /\
  scalar_failures ta cb gen n (for_body o St Jt En fuel cf delta_t a)
    (fun w => propagate_for o St Jt En fuel cf delta_t (with_cb o St Jt En a cb) w) /\
  scalar_failures ta cb gen n (grid_body o St Jt En Row fuel cf grid (a_max_steps a) (a_max_dt a))
    (fun w => propagate_grid o St Jt En Row fuel cf grid (a_max_steps a) (a_max_dt a) cb w).
Proof.
  intros o St Jt En Row fuel cf a delta_t grid ta cb gen n.
  assert (K : forall Res A (wd : A -> world o St Jt En) (f : A -> option (scb o St Jt En) -> Res) propagation body,
    (forall w, body w cb = wrap o St Jt En wd (fun r => f r cb) (propagation w)) ->
    scalar_failures ta cb gen n body propagation).
  { intros Res A wd f propagation body Hb. unfold scalar_failures. set (copy := @inl (option (scb o St Jt En)) (world o St Jt En)). intros s H. split.
    - intros e He Hr. pose proof (P_Ens.result _ _ _ _ _ n s H He) as R. rewrite Hr in R.
      destruct R as (i & Hi & [T|[(x & _ & T)|(x & c & T1 & T2 & T3)]]); exists i; (split; [exact Hi|]).
      + now left.
      + discriminate T.
      + unfold copy in T2. injection T2 as <-. right. exists x. split; [exact T1|]. rewrite Hb in T3. unfold wrap in T3.
        destruct (propagation x); try discriminate. now injection T3 as <-.
    - intros Hf Hn. apply (proj1 (proj2 (ensemble_ends _ _ _ _ _ n s H))); [|exact Hn]. intros i Hi.
      destruct (gen ta i) as [w0|e] eqn:Eg; [|right; exists e; now left]. specialize (Hf i w0 Hi Eg).
      destruct (propagation w0) as [r|w|] eqn:Ep; [left | right | congruence].
      + eexists. exists w0, cb. split; [exact Eg|]. split; [reflexivity|]. rewrite Hb, Ep. reflexivity.
      + exists w. right. right. exists w0, cb. split; [exact Eg|]. split; [reflexivity|]. rewrite Hb, Ep. reflexivity. }
  split; [|split].
  - apply (K _ _ (p_world (o := o)) (fun r c => (r, c))). reflexivity.
  - apply (K _ _ (p_world (o := o)) (fun r c => (r, c))). reflexivity.
  - apply (K _ _ (q_world o St Jt En Row) (fun r c => (r, c))). reflexivity.
Qed.

(** The grid of the batch version: each time is repeated for every element of the batch. *)
Theorem splat_grid_correct : forall {A} (bs : nat) (grid : list A),
  length (splat_grid bs grid) = length grid * bs /\
  forall i j, j < bs -> nth_error (splat_grid bs grid) (i * bs + j) = nth_error grid i.
Proof.
  intros A bs grid.
  assert (E : forall acc, fold_left (fun g x => g ++ repeat x bs) grid acc = acc ++ flat_map (fun x => repeat x bs) grid).
  { induction grid as [|x l IH]; intros acc; cbn [fold_left flat_map]; [now rewrite app_nil_r|]. rewrite IH. now rewrite <- app_assoc. }
  unfold splat_grid. rewrite E. cbn [app]. clear E. induction grid as [|x l [IH1 IH2]]; cbn [flat_map].
  - split; [reflexivity|]. intros i j Hj. rewrite (proj2 (nth_error_None _ _)) by (cbn; lia). now destruct i.
  - split; [rewrite app_length, IH1, repeat_length; cbn; lia|]. intros [|i] j Hj.
    + cbn [Nat.mul Nat.add]. rewrite nth_error_app1 by (rewrite repeat_length; exact Hj). rewrite (nth_error_nth' _ x) by (rewrite repeat_length; exact Hj).
      rewrite nth_repeat. reflexivity.
    + rewrite nth_error_app2 by (rewrite repeat_length; cbn; lia). rewrite repeat_length. cbn [Nat.mul]. replace (bs + i * bs + j - bs) with (i * bs + j) by lia.
      cbn [nth_error]. apply IH2, Hj.
Qed.

(** *** Concrete cases *)
(* Three iterations; the chunk [1, 3) runs before [0, 1). *)
Definition ex_gen (x i : nat) : nat + nat := inl (x + i).
Definition ex_prop (x _ : nat) : option (nat * nat + nat) := Some (inl (x + 100, x)).
Definition ex_sched := execution 7 0 ex_gen (@inl nat nat) ex_prop.
Fixpoint run_task (k : nat) (t : @task nat nat nat) ret (g : list nat) : option (list slot * list nat) :=
  match k with
  | O => None
  | S k' => match body 7 0 ex_gen (@inl nat nat) ex_prop t ret with
            | BEnd => Some (ret, g)
            | BGo t' ret' => run_task k' t' ret' (new_gen t ++ g)
            | _ => None
            end
  end.
Lemma run_task_ok k : forall s0 w t ret g ret' g', run_task k t ret g = Some (ret', g') ->
  ex_sched s0 (MkSys w [t] ret None g) -> ex_sched s0 (MkSys w [] ret' None g').
Proof.
  induction k as [|k IH]; intros s0 w t ret g ret' g' H Hs; [discriminate|]. cbn [run_task] in H.
  destruct (body _ _ _ _ _ t ret) as [|t1 ret1|e| |] eqn:Eb; try discriminate.
  - injection H as <- <-. eapply ex_step; [exact Hs|]. exact (sc_end _ _ _ _ _ w [] t [] ret None g Eb).
  - eapply IH; [exact H|]. eapply ex_step; [exact Hs|]. exact (sc_go _ _ _ _ _ w [] t [] ret t1 ret1 None g Eb).
Qed.
Example ex_ensemble : exists s : @sys nat nat nat nat, ex_sched (start 3) s /\ ended s /\ gens s = [0; 2; 1] /\
  returned s = inl (map Some [(107, 7); (108, 8); (109, 9)]).
Proof.
  eexists. split.
  - eapply (run_task_ok 20). 2:{
      eapply ex_step; [|apply (sc_take _ _ _ _ _ [] 0 1 [])].
      eapply (run_task_ok 20). 2:{
        eapply ex_step; [|apply (sc_take _ _ _ _ _ [(0, 1)] 1 3 [])].
        eapply ex_step; [apply ex_refl|]. apply (sc_split _ _ _ _ _ [] 0 1 3 []). lia. }
      vm_compute. reflexivity. }
    vm_compute. reflexivity.
  - split; [split; reflexivity|]. split; reflexivity.
Qed.
Example ex_gives : forall i, exists r, gives 7 0 ex_gen (@inl nat nat) ex_prop i r.
Proof. intros i. eexists. eexists _, _. repeat split. Qed.
(* An iteration of ensemble_propagate_until(). *)
Example ex_until : exists r, gives (demo_w 0 0) None (fun _ i => inl (demo_w 0 (Z.of_nat i + 1))) (@inl _ dW)
  (until_body zops (ext Z) (ext Z) (list (nat * ext Z)) 50 (demo false) (demo_a 5 0 PInf None false)) 2 r /\ ig_state (fst (fst r)) = Fin 8%Z.
Proof. eexists. split; [eexists _, _; split; [reflexivity|]; split; [reflexivity|]; vm_compute; reflexivity | reflexivity]. Qed.
Example ex_splat : splat_grid 2 [1; 2; 3] = [1; 1; 2; 2; 3; 3].
Proof. reflexivity. Qed.

Print Assumptions ensemble_result.
Print Assumptions ensemble_is_deterministic.
Print Assumptions ensemble_ends.
Print Assumptions ensemble_scalar_result.
Print Assumptions ensemble_scalar_failures.
Print Assumptions splat_grid_correct.
