From Coq Require Import List ZArith NArith Bool Lia.
From Verif Require Import M_Float M_Step M_Prop S_Prop.
Import ListNotations.

Section P.
Context {o : fops} {St Jt En : Type}.
Notation F := (F o).
Notation world := (world o St Jt En).
Notation cfg := (cfg o St Jt En).
Notation pargs := (pargs o St Jt En).
Notation iter := (iter o St Jt En).
Notation until_loop := (until_loop o St Jt En).
Notation propagate_until := (propagate_until o St Jt En).
Notation lstate := (lstate o Jt).
Notation MkL := (MkL o Jt).
Notation l_iter := (l_iter o Jt).
Notation l_steps := (l_steps o Jt).
Notation l_min := (l_min o Jt).
Notation l_max := (l_max o Jt).
Notation l_rem := (l_rem o Jt).
Notation l_times := (l_times o Jt).
Notation l_tcs := (l_tcs o Jt).

Definition b2n (b : bool) : N := if b then 1%N else 0%N.

(** Loop state after an iteration that goes on. *)
Definition next_l (a : pargs) (s : lstate) (it : iter) : lstate :=
  MkL (l_iter s + 1)
      (l_steps s + (if feq o (it_h it) (f0 o) then 0 else 1))
      (if (it_oc it =? oc_success)%Z then f_min (l_min s) (fabs o (it_h it)) else l_min s)
      (if (it_oc it =? oc_success)%Z then f_max (l_max s) (fabs o (it_h it)) else l_max s)
      (d_sub (a_t a) (w_time (it_w2 it)))
      (if a_cout a then l_times s ++ [w_time (it_w1 it)] else l_times s)
      (if a_cout a then l_tcs s ++ [ig_tc (fst (it_w1 it))] else l_tcs s).

Definition stop_ret (a : pargs) (s : lstate) (it : iter) (oc : Z) : pret o St Jt En :=
  let s' := next_l a s it in
  MkPret o St Jt En oc (l_min s') (l_max s') (l_steps s') (make_c_out o St Jt En a (l_times s') (l_tcs s')) (it_w2 it).
Definition fail_ret (a : pargs) (s : lstate) (it : iter) : pret o St Jt En :=
  MkPret o St Jt En (it_oc it) (l_min s) (l_max s) (l_steps s) (make_c_out o St Jt En a (l_times s) (l_tcs s)) (it_w1 it).

Lemma is_ste_iff : forall oc, is_ste oc = true <-> (oc_success < oc < 0)%Z.
Proof. intros. unfold is_ste. rewrite andb_true_iff, !Z.ltb_lt. tauto. Qed.

Lemma run_cb_ret : forall (a : pargs) w1 w2 b,
  run_cb o St Jt En (a_cb a) w1 = Ret (w2, b) <->
  match a_cb a with
  | None => w2 = w1 /\ b = true
  | Some c => cb_call c w1 = Ret (w2, b) /\ d_eq (w_time w2) (w_time w1) = true
  end.
Proof.
  intros. unfold run_cb. destruct (a_cb a) as [c|].
  - destruct (cb_call c w1) as [[w' b']|w'].
    + destruct (d_eq (w_time w') (w_time w1)) eqn:E; split.
      * intros H; inversion H; subst; auto.
      * intros [H _]; inversion H; subst; auto.
      * discriminate.
      * intros [H H']; inversion H; subst; congruence.
    + split; [discriminate|]. intros [H _]; discriminate.
  - split; [intros H; inversion H; auto|]. intros [-> ->]; auto.
Qed.

(** One iteration of the loop. *)
Lemma loop_step : forall fuel cf a dir w s it,
  it_w0 it = w -> it_rem it = l_rem s -> it_lim it = dt_limit o dir (a_max_dt a) (l_rem s) ->
  happened cf a it ->
  until_loop (S fuel) cf a dir w s =
  if (it_oc it =? oc_err_nf_state)%Z then PRet (fail_ret a s it)
  else if negb (it_ret it) then PRet (stop_ret a s it oc_cb_stop)
  else if feq o (it_h it) (hi (it_rem it)) || is_ste (it_oc it) then PRet (stop_ret a s it (it_oc it))
  else if (l_iter s + 1 =? a_max_steps a)%N then PRet (stop_ret a s it oc_step_limit)
  else until_loop fuel cf a dir (it_w2 it) (next_l a s it).
Proof.
  intros fuel cf a dir w s it Hw Hr Hl [Hs [Hf Hc]].
  cbn [M_Prop.until_loop]. rewrite <- Hl, <- Hw, Hs.
  destruct (Z.eqb_spec (it_oc it) oc_err_nf_state) as [E|E].
  - unfold fail_ret. auto.
  - specialize (Hc E). pose proof (proj2 (run_cb_ret a (it_w1 it) (it_w2 it) (it_ret it))) as R.
    rewrite R by (destruct (a_cb a); tauto). rewrite Hr.
    destruct (it_ret it); cbn [negb]; auto.
Qed.

(** Every execution of the loop body is an iteration that happened, or an exception. *)
Lemma loop_inv : forall fuel cf a dir w s r,
  until_loop (S fuel) cf a dir w s = PRet r ->
  exists it, it_w0 it = w /\ it_rem it = l_rem s /\ it_lim it = dt_limit o dir (a_max_dt a) (l_rem s) /\ happened cf a it.
Proof.
  intros fuel cf a dir w s r H. cbn [M_Prop.until_loop] in H.
  destruct (step_impl o St Jt En cf (dt_limit o dir (a_max_dt a) (l_rem s)) (a_wtc a || a_cout a) w) as [[[oc h] w1]|w1] eqn:Es; [|discriminate].
  destruct (Z.eqb_spec oc oc_err_nf_state) as [E|E].
  - exists (MkIter (l_rem s) w (dt_limit o dir (a_max_dt a) (l_rem s)) oc h w1 true w1).
    repeat split; cbn; auto. intros Hn; exfalso; apply Hn; auto.
  - destruct (run_cb o St Jt En (a_cb a) w1) as [[w2 b]|w2] eqn:Ec; [|discriminate].
    apply run_cb_ret in Ec.
    exists (MkIter (l_rem s) w (dt_limit o dir (a_max_dt a) (l_rem s)) oc h w1 b w2).
    repeat split; cbn; auto. intros Hn; exfalso; apply E; auto.
Qed.

Lemma outcome_distinct : oc_success <> oc_err_nf_state /\ oc_time_limit <> oc_err_nf_state.
Proof. split; discriminate. Qed.

(** The state of the loop after a list of iterations. *)
Definition run_l (a : pargs) (s : lstate) (its : list iter) : lstate := fold_left (next_l a) its s.

Lemma run_l_iter : forall a its s, l_iter (run_l a s its) = (l_iter s + N.of_nat (length its))%N.
Proof.
  induction its as [|it its IH]; intros s; cbn [run_l fold_left length].
  - lia.
  - fold (run_l a (next_l a s it) its). rewrite IH. cbn. lia.
Qed.

Lemma goes_on_bool : forall it : iter, goes_on it ->
  (it_oc it =? oc_err_nf_state)%Z = false /\ it_ret it = true /\ feq o (it_h it) (hi (it_rem it)) || is_ste (it_oc it) = false.
Proof.
  intros it [H1 [H2 [H3 H4]]]. split; [apply Z.eqb_neq; auto|]. split; auto.
  apply orb_false_iff. split.
  - unfold reached in H3. destruct (feq _ _ _); auto. exfalso; auto.
  - destruct (is_ste (it_oc it)) eqn:E; auto. apply is_ste_iff in E. exfalso; auto.
Qed.

(** Running the loop over a list of iterations that go on. *)
Lemma loop_run : forall cf a dir its w s fuel,
  linked (a_t a) w (l_rem s) its ->
  Forall (happened cf a) its -> Forall (capped a dir) its -> Forall goes_on its ->
  (a_max_steps a <> 0%N -> (l_iter s + N.of_nat (length its) < a_max_steps a)%N) ->
  until_loop (length its + fuel) cf a dir w s =
  until_loop fuel cf a dir (end_world w its) (run_l a s its).
Proof.
  intros cf a dir. induction its as [|it its IH]; intros w s fuel Hl Hh Hc Hg Hm; auto.
  destruct Hl as [L1 [L2 L3]]. inversion Hh; inversion Hc; inversion Hg; subst.
  cbn [length Nat.add]. rewrite (loop_step _ cf a dir (it_w0 it) s it); auto.
  2:{ match goal with H : capped a dir it |- _ => unfold capped in H; rewrite H, L2; auto end. }
  destruct (goes_on_bool it) as [E1 [E2 E3]]; auto. rewrite E1, E2, E3. cbn [negb].
  cbn [length] in Hm.
  destruct (N.eqb_spec (l_iter s + 1) (a_max_steps a)) as [E|E].
  { specialize (Hm ltac:(lia)). lia. }
  rewrite IH; auto.
  - f_equal. unfold end_world. cbn [rev]. destruct (rev its) eqn:Er; auto.
  - intros Hn; specialize (Hm Hn). cbn. lia.
Qed.

(** Every terminating run of the loop has a history. *)
Lemma loop_hist : forall fuel cf a dir w s r,
  until_loop fuel cf a dir w s = PRet r ->
  (a_max_steps a <> 0%N -> (l_iter s < a_max_steps a)%N) ->
  exists its lst, linked (a_t a) w (l_rem s) (its ++ [lst]) /\
    Forall (happened cf a) (its ++ [lst]) /\ Forall (capped a dir) (its ++ [lst]) /\ Forall goes_on its /\
    (a_max_steps a <> 0%N -> (l_iter s + N.of_nat (length its) < a_max_steps a)%N) /\
    (failed lst -> r = fail_ret a (run_l a s its) lst) /\
    (~ failed lst -> exists oc, r = stop_ret a (run_l a s its) lst oc /\
      ((it_ret lst = false /\ oc = oc_cb_stop) \/
       (it_ret lst = true /\ (reached lst \/ stopped_by_event lst) /\ oc = it_oc lst) \/
       (goes_on lst /\ (l_iter s + N.of_nat (S (length its)))%N = a_max_steps a /\ oc = oc_step_limit))).
Proof.
  induction fuel as [|fuel IH]; intros cf a dir w s r H Hm; [discriminate|].
  destruct (loop_inv _ _ _ _ _ _ _ H) as [it [I1 [I2 [I3 I4]]]].
  rewrite (loop_step fuel cf a dir w s it I1 I2 I3 I4) in H.
  assert (Base : linked (a_t a) w (l_rem s) ([] ++ [it]) /\ Forall (happened cf a) ([] ++ [it]) /\
      Forall (capped a dir) ([] ++ [it]) /\ Forall (@goes_on o St Jt En) [] /\
      (a_max_steps a <> 0%N -> (l_iter s + N.of_nat (length (@nil iter)) < a_max_steps a)%N)).
  { cbn [app]. split; [cbn; auto|]. split; [repeat constructor; apply I4|].
    split; [apply Forall_cons; [unfold capped; rewrite I2; exact I3|constructor]|].
    split; [constructor|]. intros Hn; specialize (Hm Hn); cbn; lia. }
  destruct (Z.eqb_spec (it_oc it) oc_err_nf_state) as [E|E].
  { exists [], it. destruct Base as [B1 [B2 [B3 [B4 B5]]]]. repeat (split; auto).
    - intros _. inversion H; auto.
    - intros Hn; exfalso; apply Hn; exact E. }
  destruct (it_ret it) eqn:Er; cbn [negb] in H.
  2:{ exists [], it. destruct Base as [B1 [B2 [B3 [B4 B5]]]]. repeat (split; auto).
      - intros Hn; exfalso; apply E; exact Hn.
      - intros _. inversion H. eexists; split; [reflexivity|]. left; auto. }
  destruct (feq o (it_h it) (hi (it_rem it)) || is_ste (it_oc it)) eqn:Eb.
  { exists [], it. destruct Base as [B1 [B2 [B3 [B4 B5]]]]. repeat (split; auto).
    - intros Hn; exfalso; apply E; exact Hn.
    - intros _. inversion H. eexists; split; [reflexivity|]. right; left. split; auto. split; auto.
      apply orb_true_iff in Eb as [Eb|Eb]; [left; exact Eb|right; apply is_ste_iff; auto]. }
  apply orb_false_iff in Eb as [Eb1 Eb2].
  assert (Hgo : goes_on it).
  { split; [exact E|]. split; [auto|]. split; [unfold reached; congruence|].
    intros K. apply is_ste_iff in K. congruence. }
  destruct (N.eqb_spec (l_iter s + 1) (a_max_steps a)) as [En_|En_].
  { exists [], it. destruct Base as [B1 [B2 [B3 [B4 B5]]]]. repeat (split; auto).
    - intros Hn; exfalso; apply E; exact Hn.
    - intros _. inversion H. eexists; split; [reflexivity|]. right; right. split; auto. }
  apply IH in H as [its [lst [A1 [A2 [A3 [A4 [A5 [A6 A7]]]]]]]].
  2:{ intros Hn; specialize (Hm Hn). cbn. lia. }
  exists (it :: its), lst.
  cbn [length M_Prop.l_iter next_l] in *.
  split. { cbn. repeat split; auto. }
  split. { cbn. constructor; auto. }
  split. { cbn. apply Forall_cons; [unfold capped; rewrite I2; exact I3|auto]. }
  split. { constructor; auto. }
  split. { intros Hn; specialize (A5 Hn); lia. }
  split; auto.
  intros Hn. destruct (A7 Hn) as [oc [B1 B2]]. exists oc. split; auto.
  destruct B2 as [B2|[B2|[B2 [B3 B4]]]]; auto. right; right. repeat split; auto; try apply B2. lia.
Qed.

(** Accounting along a list of iterations. *)
Lemma run_l_steps : forall a its s, Forall (fun it : iter => ~ failed it) its ->
  l_steps (run_l a s its) = (l_steps s + N.of_nat (length (filter counted its)))%N.
Proof.
  induction its as [|it its IH]; intros s Hn; cbn [run_l fold_left filter length].
  - lia.
  - inversion Hn; subst. fold (run_l a (next_l a s it) its). rewrite IH; auto. cbn [next_l M_Prop.l_steps].
    unfold counted at 2. destruct (Z.eqb_spec (it_oc it) oc_err_nf_state) as [E|E]; [exfalso; auto|].
    cbn [negb andb]. destruct (feq o (it_h it) (f0 o)); cbn [negb length]; lia.
Qed.

Lemma run_l_min : forall a its s, l_min (run_l a s its) = fold_left f_min (successes its) (l_min s).
Proof.
  induction its as [|it its IH]; intros s; cbn [run_l fold_left]; auto.
  fold (run_l a (next_l a s it) its). rewrite IH. unfold successes. cbn [filter map next_l M_Prop.l_min].
  destruct (it_oc it =? oc_success)%Z; cbn [map fold_left]; auto.
Qed.
Lemma run_l_max : forall a its s, l_max (run_l a s its) = fold_left f_max (successes its) (l_max s).
Proof.
  induction its as [|it its IH]; intros s; cbn [run_l fold_left]; auto.
  fold (run_l a (next_l a s it) its). rewrite IH. unfold successes. cbn [filter map next_l M_Prop.l_max].
  destruct (it_oc it =? oc_success)%Z; cbn [map fold_left]; auto.
Qed.
Lemma run_l_times : forall a its s, l_times (run_l a s its) =
  l_times s ++ (if a_cout a then map (fun it => w_time (it_w1 it)) its else []).
Proof.
  induction its as [|it its IH]; intros s; cbn [run_l fold_left].
  - destruct (a_cout a); cbn; rewrite app_nil_r; auto.
  - fold (run_l a (next_l a s it) its). rewrite IH. cbn [next_l M_Prop.l_times].
    destruct (a_cout a); cbn [map]; rewrite <- ?app_assoc; auto.
Qed.
Lemma run_l_tcs : forall a its s, l_tcs (run_l a s its) =
  l_tcs s ++ (if a_cout a then map (fun it => ig_tc (fst (it_w1 it))) its else []).
Proof.
  induction its as [|it its IH]; intros s; cbn [run_l fold_left].
  - destruct (a_cout a); cbn; rewrite app_nil_r; auto.
  - fold (run_l a (next_l a s it) its). rewrite IH. cbn [next_l M_Prop.l_tcs].
    destruct (a_cout a); cbn [map]; rewrite <- ?app_assoc; auto.
Qed.

Lemma run_l_snoc : forall a s its it, run_l a s (its ++ [it]) = next_l a (run_l a s its) it.
Proof. intros. unfold run_l. rewrite fold_left_app. auto. Qed.

Lemma goes_on_nf : forall its : list iter, Forall goes_on its -> Forall (fun it => ~ failed it) its.
Proof. intros its H. eapply Forall_impl; [|exact H]. intros it [K _]; auto. Qed.

Lemma filter_snoc : forall (A : Type) (f : A -> bool) l x, filter f (l ++ [x]) = filter f l ++ (if f x then [x] else []).
Proof. intros. rewrite filter_app. cbn. destruct (f x); auto. Qed.

Definition start_l (a : pargs) (w : world) : lstate :=
  MkL 0 0 (finf o) (f0 o) (d_sub (a_t a) (w_time w)) (if a_cout a then [w_time w] else []) [].

Lemma run_pre_ret : forall a w w1, run_pre o St Jt En (a_cb a) w = Ret w1 <-> prepared a w w1.
Proof.
  intros. unfold run_pre, prepared. destruct (a_cb a) as [c|].
  - destruct (cb_pre c w) as [w'|w'].
    + destruct (d_eq (w_time w') (w_time w)) eqn:E; split.
      * intros H; inversion H; subst; auto.
      * intros [H _]; inversion H; subst; auto.
      * discriminate.
      * intros [H H']; inversion H; subst; congruence.
    + split; [discriminate|]. intros [H _]; discriminate.
  - split; [intros H; inversion H; auto|]. intros ->; auto.
Qed.

Lemma until_unfold : forall fuel cf a w w1, accepted a w -> prepared a w w1 ->
  propagate_until fuel cf a w = until_loop fuel cf a (forward a w) w1 (start_l a w).
Proof.
  intros fuel cf a w w1 [A1 [A2 [A3 [A4 A5]]]] Hp. unfold M_Prop.propagate_until.
  rewrite A1, A2, A3, A4, A5. cbn [negb]. apply run_pre_ret in Hp. rewrite Hp. auto.
Qed.

Lemma until_accepted : forall fuel cf a w r, propagate_until fuel cf a w = PRet r ->
  accepted a w /\ exists w1, prepared a w w1 /\ until_loop fuel cf a (forward a w) w1 (start_l a w) = PRet r.
Proof.
  intros fuel cf a w r H. unfold M_Prop.propagate_until in H.
  destruct (d_fin (w_time w)) eqn:A1; [|discriminate].
  destruct (d_fin (a_t a)) eqn:A2; [|discriminate].
  destruct (fnan o (a_max_dt a)) eqn:A3; [discriminate|].
  destruct (fle o (a_max_dt a) (f0 o)) eqn:A4; [discriminate|].
  destruct (d_fin (d_sub (a_t a) (w_time w))) eqn:A5; [|discriminate].
  cbn [negb] in H.
  destruct (run_pre o St Jt En (a_cb a) w) as [w1|] eqn:Hp; [|discriminate].
  apply run_pre_ret in Hp. split; [repeat split; auto|]. exists w1. split; auto.
Qed.

Lemma filter_id : forall (A : Type) (f : A -> bool) l, Forall (fun x => f x = true) l -> filter f l = l.
Proof. induction l as [|x l IH]; intros H; auto. inversion H; subst. cbn. rewrite H2, IH; auto. Qed.

Lemma make_c_out_start : forall a w its,
  make_c_out o St Jt En a (l_times (run_l a (start_l a w) its)) (l_tcs (run_l a (start_l a w) its)) =
  (if a_cout a then
    match its with
    | [] => None
    | _ => Some (w_time w :: map (fun it => w_time (it_w1 it)) its, map (fun it => ig_tc (fst (it_w1 it))) its)
    end else None).
Proof.
  intros. rewrite run_l_times, run_l_tcs. unfold make_c_out, start_l.
  destruct (a_cout a); cbn [M_Prop.l_times M_Prop.l_tcs app]; auto.
  destruct its as [|it its]; cbn; auto.
Qed.

Lemma fail_ret_ok : forall cf a w its lst, Forall goes_on its -> failed lst -> happened cf a lst ->
  ret_spec a w its lst (fail_ret a (run_l a (start_l a w) its) lst).
Proof.
  intros cf a w its lst Hg Hf Hh. unfold ret_spec, fail_ret. cbn [p_oc p_world p_steps p_min p_max p_cout].
  assert (E : (it_oc lst =? oc_err_nf_state)%Z = true) by (apply Z.eqb_eq; auto).
  assert (E2 : (it_oc lst =? oc_success)%Z = false) by (apply Z.eqb_neq; rewrite Hf; discriminate).
  rewrite make_c_out_start. unfold successes.
  rewrite run_l_steps, run_l_min, run_l_max by (apply goes_on_nf; auto).
  rewrite !filter_snoc. assert (E3 : counted lst = false) by (unfold counted; rewrite E; auto). rewrite E, E2, E3. cbn [negb]. rewrite !app_nil_r.
  rewrite (filter_id _ (fun it => negb (it_oc it =? oc_err_nf_state)%Z) its).
  2:{ eapply Forall_impl; [|apply goes_on_nf; exact Hg]. intros it K. apply negb_true_iff, Z.eqb_neq; exact K. }
  split. { rewrite Hf. constructor; auto. }
  split. { symmetry; apply Hh; auto. }
  cbn [start_l M_Prop.l_steps M_Prop.l_min M_Prop.l_max]. repeat split; auto.
Qed.

Lemma stop_ret_ok : forall a w its lst oc, Forall goes_on its -> ~ failed lst ->
  outcome_spec a its lst oc ->
  ret_spec a w its lst (stop_ret a (run_l a (start_l a w) its) lst oc).
Proof.
  intros a w its lst oc Hg Hf Ho. unfold ret_spec, stop_ret. cbn [p_oc p_world p_steps p_min p_max p_cout].
  assert (E : (it_oc lst =? oc_err_nf_state)%Z = false) by (apply Z.eqb_neq; auto).
  rewrite <- run_l_snoc. rewrite make_c_out_start.
  assert (Hn : Forall (fun it : iter => ~ failed it) (its ++ [lst])).
  { apply Forall_app; split; [apply goes_on_nf; auto|repeat constructor; auto]. }
  rewrite run_l_steps, run_l_min, run_l_max by auto.
  rewrite (filter_id _ (fun it => negb (it_oc it =? oc_err_nf_state)%Z) (its ++ [lst])).
  2:{ eapply Forall_impl; [|exact Hn]. intros it K. apply negb_true_iff, Z.eqb_neq; exact K. }
  cbn [start_l M_Prop.l_steps M_Prop.l_min M_Prop.l_max]. repeat split; auto.
Qed.

Theorem until_returns : forall fuel cf a w r, propagate_until fuel cf a w = PRet r ->
  accepted a w /\ exists its lst, history cf a w its lst /\ ret_spec a w its lst r.
Proof.
  intros fuel cf a w r H. apply until_accepted in H as [Ha [w1 [Hp H]]]. split; auto.
  apply loop_hist in H as [its [lst [A1 [A2 [A3 [A4 [A5 [A6 A7]]]]]]]].
  2:{ cbn. lia. }
  exists its, lst. split.
  { exists w1. repeat (split; auto). }
  destruct (Z.eq_dec (it_oc lst) oc_err_nf_state) as [E|E].
  - rewrite (A6 E). eapply fail_ret_ok; eauto. apply Forall_app in A2 as [_ A2]. inversion A2; eauto.
  - destruct (A7 E) as [oc [-> B]]. apply stop_ret_ok; auto.
    destruct B as [[B1 ->]|[[B1 [[B2|B2] ->]]|[B1 [B2 ->]]]].
    + apply oc_stopped; auto.
    + apply oc_reached; auto.
    + apply oc_event; auto.
    + apply oc_steps; auto.
Qed.

Theorem until_complete : forall fuel cf a w its lst oc,
  accepted a w -> history cf a w its lst -> outcome_spec a its lst oc -> (length its < fuel)%nat ->
  exists r, propagate_until fuel cf a w = PRet r /\ p_oc r = oc /\ ret_spec a w its lst r.
Proof.
  intros fuel cf a w its lst oc Ha [w1 [Hp [Hl [Hh [Hc [Hg Hm]]]]]] Ho Hfu.
  rewrite (until_unfold fuel cf a w w1 Ha Hp).
  replace fuel with (length its + S (fuel - length its - 1)) by lia.
  assert (Hl' : linked (a_t a) w1 (l_rem (start_l a w)) its /\ it_w0 lst = end_world w1 its /\
     it_rem lst = l_rem (run_l a (start_l a w) its)).
  { change (d_sub (a_t a) (w_time w)) with (l_rem (start_l a w)) in Hl.
    clear - Hl. revert w1 Hl. generalize (start_l a w). induction its as [|it its IH]; intros s w1 Hl.
    - cbn in Hl. cbn. tauto.
    - cbn [app linked] in Hl. destruct Hl as [L1 [L2 L3]].
      change (d_sub (a_t a) (w_time (it_w2 it))) with (l_rem (next_l a s it)) in L3.
      destruct (IH _ _ L3) as [K1 [K2 K3]]. split; [cbn; auto|]. split.
      + rewrite K2. unfold end_world. cbn [rev]. destruct (rev its); auto.
      + rewrite K3. auto. }
  destruct Hl' as [L1 [L2 L3]].
  apply Forall_app in Hh as [Hh Hh']. apply Forall_app in Hc as [Hc Hc'].
  inversion Hh'; inversion Hc'; subst.
  rewrite loop_run; auto.
  rewrite (loop_step _ cf a (forward a w) (end_world w1 its) _ lst); auto.
  2:{ rewrite <- L3; auto. }
  rewrite run_l_iter. cbn [start_l M_Prop.l_iter].
  assert (FR : failed lst -> ret_spec a w its lst (fail_ret a (run_l a (start_l a w) its) lst)).
  { intros Hf. eapply fail_ret_ok; eauto. }
  assert (SR : ~ failed lst -> forall oc', outcome_spec a its lst oc' ->
     ret_spec a w its lst (stop_ret a (run_l a (start_l a w) its) lst oc')).
  { intros; apply stop_ret_ok; auto. }
  destruct (Z.eqb_spec (it_oc lst) oc_err_nf_state) as [E|E].
  { eexists; split; [reflexivity|]. split; [|apply FR; auto]. cbn.
    destruct Ho as [K|K ?|K ? ?|K ? ?|[K ?] ?]; auto; exfalso; apply K; exact E. }
  destruct Ho as [K|K K1|K K1 K2|K K1 K2|K K1].
  - exfalso; apply E; exact K.
  - rewrite K1. cbn [negb]. eexists; split; [reflexivity|]. split; auto. apply SR; auto. apply oc_stopped; auto.
  - rewrite K1. cbn [negb]. unfold reached in K2. rewrite K2. cbn [orb].
    eexists; split; [reflexivity|]. split; auto. apply SR; auto. apply oc_reached; auto.
  - rewrite K1. cbn [negb]. rewrite (proj2 (is_ste_iff _) K2), orb_true_r.
    eexists; split; [reflexivity|]. split; auto. apply SR; auto. apply oc_event; auto.
  - destruct (goes_on_bool _ K) as [E1 [E2 E3]]. rewrite E2, E3. cbn [negb].
    replace (0 + N.of_nat (length its) + 1 =? a_max_steps a)%N with true by (symmetry; apply N.eqb_eq; lia).
    eexists; split; [reflexivity|]. split; auto. apply SR; auto. apply oc_steps; auto.
Qed.

(** Termination within max_steps iterations. *)
Lemma loop_terminates : forall fuel cf a dir w s,
  a_max_steps a <> 0%N -> (l_iter s < a_max_steps a)%N -> (a_max_steps a <= l_iter s + N.of_nat fuel)%N ->
  until_loop fuel cf a dir w s <> PFuel.
Proof.
  induction fuel as [|fuel IH]; intros cf a dir w s Hm H1 H2; [lia|].
  cbn [M_Prop.until_loop].
  destruct (step_impl _ _ _ _ _ _ _ _) as [[[oc h] w1]|w1]; [|discriminate].
  destruct (oc =? oc_err_nf_state)%Z; [discriminate|].
  destruct (run_cb _ _ _ _ _ _) as [[w2 [|]]|w2]; try discriminate.
  destruct (_ || _); [discriminate|].
  destruct (N.eqb_spec (l_iter s + 1) (a_max_steps a)); [discriminate|].
  apply IH; auto; cbn; lia.
Qed.

Theorem until_terminates : forall fuel cf a w, a_max_steps a <> 0%N -> (N.to_nat (a_max_steps a) <= fuel)%nat ->
  propagate_until fuel cf a w <> PFuel.
Proof.
  intros fuel cf a w Hm Hf. unfold M_Prop.propagate_until.
  repeat (match goal with |- (if ?b then _ else _) <> _ => destruct b; [discriminate|] end).
  destruct (run_pre _ _ _ _ _ _); [|discriminate]. apply loop_terminates; auto; cbn; lia.
Qed.

(** Rejected arguments. *)
Theorem until_rejects : forall fuel cf a w, ~ accepted a w -> propagate_until fuel cf a w = PExn w.
Proof.
  intros fuel cf a w H. unfold M_Prop.propagate_until.
  destruct (d_fin (w_time w)) eqn:A1; auto.
  destruct (d_fin (a_t a)) eqn:A2; auto.
  destruct (fnan o (a_max_dt a)) eqn:A3; auto.
  destruct (fle o (a_max_dt a) (f0 o)) eqn:A4; auto.
  destruct (d_fin (d_sub (a_t a) (w_time w))) eqn:A5; auto.
  exfalso; apply H; repeat split; auto.
Qed.

(** A callback that moves the time makes the propagation throw. *)
Theorem until_time_guard : forall fuel cf a w w1 its c oc h lim wa wb b,
  accepted a w -> prepared a w w1 -> a_cb a = Some c ->
  linked (a_t a) w1 (d_sub (a_t a) (w_time w)) its ->
  Forall (happened cf a) its -> Forall (capped a (forward a w)) its -> Forall goes_on its ->
  (a_max_steps a <> 0%N -> (N.of_nat (length its) < a_max_steps a)%N) ->
  lim = dt_limit o (forward a w) (a_max_dt a)
    (match its with [] => d_sub (a_t a) (w_time w) | _ => d_sub (a_t a) (w_time (end_world w1 its)) end) ->
  step_impl o St Jt En cf lim (a_wtc a || a_cout a) (end_world w1 its) = Ret (oc, h, wa) ->
  oc <> oc_err_nf_state ->
  cb_call c wa = Ret (wb, b) -> d_eq (w_time wb) (w_time wa) = false ->
  (length its < fuel)%nat ->
  propagate_until fuel cf a w = PExn wb.
Proof.
  intros fuel cf a w w1 its c oc h lim wa wb b Ha Hp Hcb Hl Hh Hc Hg Hm -> Hs Hoc Hcall Hne Hfu.
  rewrite (until_unfold fuel cf a w w1 Ha Hp).
  replace fuel with (length its + S (fuel - length its - 1)) by lia.
  rewrite loop_run; auto. cbn [M_Prop.until_loop].
  assert (E : l_rem (run_l a (start_l a w) its) =
     match its with [] => d_sub (a_t a) (w_time w) | _ => d_sub (a_t a) (w_time (end_world w1 its)) end).
  { destruct its as [|i0 its0] using rev_ind; auto.
    rewrite run_l_snoc. unfold end_world. rewrite rev_app_distr. cbn.
    destruct its0; auto. }
  rewrite E, Hs. apply Z.eqb_neq in Hoc. rewrite Hoc.
  unfold run_cb. rewrite Hcb, Hcall, Hne. auto.
Qed.

End P.
