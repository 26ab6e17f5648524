(* C34: continuous output. *)
From Coq Require Import List Arith ZArith NArith Bool Reals Lra Lia.
From Verif Require Import M_Dag M_Taylor M_Stepper M_Float M_Search M_Step M_Prop S_Step S_Prop P_Step P_Prop P_PropX S_Grid P_Grid S_Stepper X_Demo M_Cout S_Cout P_Cout P_Cout2.
Import ListNotations.
Local Open Scope nat_scope.
Set Bullet Behavior "Strict Subproofs".

Section T.
Context {o : fops} (L : flaws o) (S0 : sops (F o)).
Notation F := (F o).

(** For any record of steps whose times never go back (in either direction) and
    any time within its range, the continuous output is the dense output of a step
    of the record that contains the time (the last one), at the distance from the
    beginning of that step. The arithmetic is arbitrary (e.g., IEEE). *)
Theorem continuous_output_selects_step : forall ha dim order ts segs c fwd ta tb t,
  step_record dim order ts segs -> make_co o ha dim order ts segs = MDone c ->
  nth_error ts 0 = Some ta -> nth_error ts (length segs) = Some tb ->
  ordered L fwd ts -> ffin o t = true -> no_later L fwd ta (d_of t) -> no_later L fwd (d_of t) tb ->
  exists i a b seg c', step_at ts segs i a b seg /\
    no_later L fwd a (d_of t) /\ no_later L fwd (d_of t) b /\ (S i = length segs \/ ~ no_later L fwd b (d_of t)) /\
    co_call o S0 c t = MDone c' /\ length (co_out c') = dim /\
    (forall out, length out = dim -> d_out_f S0 1 ha dim order out seg [hi (dl_sub o (d_of t) a)] = MDone (co_out c')) /\
    co_tcs c' = co_tcs c /\ co_times c' = co_times c /\ co_fn c' = co_fn c.
Proof.
  intros ha dim order ts segs c fwd ta tb t HR HM Ha Hb HO Ht H1 H2.
  destruct (call_in_range L S0 ha dim order ts segs c HR HM fwd ta tb t Ha Hb HO Ht H1 H2) as (i & a & b & seg & c' & Hs & E1 & E2 & E3 & E4 & Q1 & Q2 & Q3).
  exists i, a, b, seg, c'. split; [exact Hs|]. split; [exact Q1|]. split; [exact Q2|]. split; [exact Q3|]. split; [exact E1|]. split; [exact E4|].
  split; [|rewrite E3; auto].
  intros out Lo. rewrite <- E2. apply d_out_out; [exact Lo | |].
  - destruct (made ha dim order ts segs c HR HM) as (? & ? & _ & _ & ->). apply repeat_length.
  - destruct HR as (_ & _ & HS & _). rewrite Forall_forall in HS. apply HS. destruct Hs as (_ & _ & Hs). eapply nth_error_In; eauto.
Qed.

(** Outside of the range the first step or the last one is used. *)
Theorem continuous_output_extrapolates : forall ha dim order ts segs c fwd ta tb t,
  step_record dim order ts segs -> make_co o ha dim order ts segs = MDone c ->
  nth_error ts 0 = Some ta -> nth_error ts (length segs) = Some tb ->
  ordered L fwd ts -> ffin o t = true -> ~ no_later L fwd tb ta ->
  exists i a b seg c', step_at ts segs i a b seg /\ co_call o S0 c t = MDone c' /\
    d_out_f S0 1 ha dim order (co_out c) seg [hi (dl_sub o (d_of t) a)] = MDone (co_out c') /\
    (~ no_later L fwd ta (d_of t) -> i = 0) /\ (~ no_later L fwd (d_of t) tb -> S i = length segs).
Proof.
  intros ha dim order ts segs c fwd ta tb t HR HM Ha Hb HO Ht H1. exact (call_outside L S0 ha dim order ts segs c HR HM fwd ta tb t Ha Hb HO Ht H1).
Qed.

(** Times that are not finite and objects without contents are refused. *)
Theorem continuous_output_rejects : (forall c t, ffin o t = false \/ co_fn c = None -> co_call o S0 c t = MThrow) /\
  get_bounds o (co_default o) = MThrow /\ get_n_steps o (co_default o) = MThrow /\ (forall t, co_call o S0 (co_default o) t = MThrow).
Proof.
  repeat split. intros c t H. unfold co_call. destruct (co_fn c) as [f|]; [|reflexivity]. destruct H as [->|H]; [reflexivity | discriminate].
Qed.

(** Whatever the arithmetic, the continuous output of a propagation records the
    steps that did not fail: there is none exactly if there are no such steps,
    otherwise its range goes from the initial time to the time reached, and its
    steps are those of the propagation, in order. *)
Theorem continuous_output_covers_propagation : forall {St Jt En} fuel (cf : cfg o St Jt En) a w r,
  propagate_until o St Jt En fuel cf a w = PRet r -> a_cout a = true ->
  exists its lst, history cf a w its lst /\
    let done := completed (its ++ [lst]) in
    (p_cout r = None <-> done = []) /\
    forall ts jets (mem : Jt -> list F) ha dim order c, p_cout r = Some (ts, jets) -> make_co o ha dim order ts (map mem jets) = MDone c ->
      get_n_steps o c = MDone (length done) /\
      (exists e, nth_error done (length done - 1) = Some e /\ get_bounds o c = MDone (hi (w_time w), hi (w_time (it_w1 e)))) /\
      (forall i it, nth_error done i = Some it -> exists t0, step_at ts (map mem jets) i t0 (w_time (it_w1 it)) (mem (ig_tc (fst (it_w1 it)))) /\
         (i = 0 -> t0 = w_time w) /\ (forall j it', i = S j -> nth_error done j = Some it' -> t0 = w_time (it_w1 it'))).
Proof.
  intros St Jt En fuel cf a w r H Hc. apply until_returns in H as [_ [its [lst [Hh Hr]]]]. exists its, lst. split; [exact Hh|].
  destruct Hr as (_ & _ & _ & _ & _ & E). rewrite Hc in E. cbv zeta in E. fold (completed (its ++ [lst])) in E. cbv zeta. set (done := completed (its ++ [lst])) in *.
  split; [destruct done; [tauto | rewrite E; split; discriminate]|]. intros ts jets mem ha dim order c Ep Em. rewrite Ep in E.
  assert (K : ts = w_time w :: map (fun it => w_time (it_w1 it)) done /\ jets = map (fun it => ig_tc (fst (it_w1 it))) done /\ (1 <= length done)%nat).
  { destruct done; [discriminate|]. injection E as -> ->. cbn; repeat split; lia. }
  destruct K as (-> & -> & Hl). clear E Ep.
  set (l := done) in *. clearbody l.
  unfold make_co in Em. destruct (_ || _)%bool; [discriminate|]. unfold aget in Em. cbn [nth_error mbind length] in Em. rewrite map_length in Em.
  replace (S (length l) - 1) with (S (length l - 1)) in Em by lia. cbn [nth_error] in Em. rewrite nth_error_map in Em.
  destruct (nth_error l (length l - 1)) as [e|] eqn:Ee; [|discriminate]. cbn [option_map mbind] in Em. injection Em as <-.
  split; [|split].
  - unfold get_n_steps. cbn [co_fn co_times length]. rewrite map_length. f_equal. lia.
  - exists e. split; [reflexivity|]. unfold get_bounds, aget. cbn [co_fn co_times length nth_error mbind]. rewrite map_length.
    replace (S (length l) - 1) with (S (length l - 1)) by lia. cbn [nth_error]. rewrite nth_error_map, Ee. reflexivity.
  - intros i it Hi. assert (Li : i < length l) by (apply nth_error_Some; congruence).
    destruct (nth_error (w_time w :: map (fun it => w_time (it_w1 it)) l) i) as [t0|] eqn:E0; [|apply nth_error_None in E0; cbn in E0; rewrite map_length in E0; lia].
    exists t0. split; [split; [exact E0|]; split; [cbn [nth_error]; now rewrite nth_error_map, Hi | now rewrite !nth_error_map, Hi]|].
    split.
    + intros ->. cbn in E0. congruence.
    + intros j it' -> Hj. cbn [nth_error] in E0. rewrite nth_error_map, Hj in E0. cbn in E0. congruence.
Qed.
End T.

(** In exact arithmetic: the recorded times never go back; at any time within the
    range the continuous output is the value of the Taylor polynomial of a step
    that contains the time; at the beginning of a step it is the state from which
    the step started, and at the end of the range it is the state computed by the
    last step. *)
Section X.
Context {o : fops} {St Jt En : Type} (L : flaws o) (X : exact_laws L) (S0 : sops (F o)) (XR : exact_ring L S0).
Notation F := (F o).
Local Open Scope R_scope.
Notation dv := (dval L).
Definition between (a t b : R) : Prop := a <= t <= b \/ b <= t <= a.

Theorem continuous_output_of_propagation : forall fuel (cf : cfg o St Jt En) a w r ts jets ha dim order mem vars c,
  stepper_ok L cf -> detect_ok L cf -> sort_ok L cf -> events_keep cf -> coherent S0 cf ha dim order mem vars ->
  fval L (lo (w_time w)) = 0 ->
  propagate_until o St Jt En fuel cf a w = PRet r -> p_cout r = Some (ts, jets) -> make_co o ha dim order ts (map mem jets) = MDone c ->
  exists its lst, history cf a w its lst /\
    let done := completed (its ++ [lst]) in
    let coeffs it j k := fval L (nth (j * (order + 1) + k) (mem (ig_tc (fst (it_w1 it)))) (f0 o)) in
    let finite it := Forall (fun x => ffin o x = true) (mem (ig_tc (fst (it_w1 it)))) in
    exists e, nth_error done (length done - 1) = Some e /\
    (* evaluation within the range *)
    (forall t, ffin o t = true -> between (dv (w_time w)) (fval L t) (dv (w_time (it_w1 e))) ->
       exists it c', In it done /\ between (dv (w_time (it_w0 it))) (fval L t) (dv (w_time (it_w1 it))) /\
         co_call o S0 c t = MDone c' /\ length (co_out c') = dim /\
         (finite it -> forall j, (j < dim)%nat ->
            fval L (nth j (co_out c') (f0 o)) = taylor_poly (coeffs it j) order (fval L t - dv (w_time (it_w0 it))))) /\
    (* at the beginning of a step *)
    (forall it t, In it done -> finite it -> ffin o t = true -> fval L t = dv (w_time (it_w0 it)) -> dv (w_time (it_w1 it)) <> dv (w_time (it_w0 it)) ->
       exists c', co_call o S0 c t = MDone c' /\ forall j, (j < dim)%nat ->
         fval L (nth j (co_out c') (f0 o)) = fval L (nth j (vars (ig_state (fst (it_w0 it)))) (f0 o))) /\
    (* at the end of the range *)
    (forall t, finite e -> ffin o t = true -> fval L t = dv (w_time (it_w1 e)) ->
       exists c', co_call o S0 c t = MDone c' /\ forall j, (j < dim)%nat ->
         fval L (nth j (co_out c') (f0 o)) = fval L (nth j (vars (step_end cf e)) (f0 o))).
Proof.
  intros fuel cf a w r ts jets ha dim order mem vars c S1 S2 S3 HK HC Hlo H Ep Em.
  destruct (until_exact L X fuel cf a w r S1 S2 S3 H) as (its & lst & Hh & Hr & Ha & _). exists its, lst. split; [exact Hh|]. cbv zeta.
  apply until_returns in H as [[A1 _] _].
  destruct Hr as (_ & _ & _ & _ & _ & E). cbv zeta in E. rewrite Ep in E. destruct (a_cout a) eqn:Hca; [|discriminate]. fold (completed (its ++ [lst])) in E.
  destruct Hh as (w1 & Hp & Hl & Hh & _ & Hg & _).
  pose proof (completed_prefix its lst Hg) as Ec. set (done := completed (its ++ [lst])) in *.
  assert (HIn : forall it, In it done -> In it (its ++ [lst]) /\ ~ failed it).
  { intros it Hi. apply filter_In in Hi as [Hi1 Hi2]. split; [exact Hi1|]. apply negb_true_iff, Z.eqb_neq in Hi2. exact Hi2. }
  assert (Hd1 : linked (a_t a) w1 (d_sub (a_t a) (w_time w)) done).
  { rewrite Ec. destruct (it_oc lst =? oc_err_nf_state)%Z; [|exact Hl]. rewrite app_nil_r. eapply linked_prefix; eauto. }
  rewrite Forall_forall in Hh, Ha.
  assert (Hd2 : Forall (happened cf a) done) by (apply Forall_forall; intros it Hi; apply Hh, HIn, Hi).
  assert (Hd3 : Forall (fun it => ~ failed it) done) by (apply Forall_forall; intros it Hi; apply HIn, Hi).
  assert (Hd4 : Forall (fun it => advances L a it) done) by (apply Forall_forall; intros it Hi; destruct (HIn it Hi); now apply Ha).
  clear Ha. assert (W1 : d_fin (w_time w1) = true /\ dv (w_time w1) = dv (w_time w) /\ fval L (lo (w_time w1)) = 0).
  { unfold prepared in Hp. destruct (a_cb a).
    - destruct Hp as [_ Hp]. pose proof (d_eq_fin L _ _ A1 Hp) as K. split; [exact K|]. split; [now apply d_eq_val|].
      unfold d_eq in Hp. apply andb_prop in Hp as [_ Hp]. apply (fl_eq o L) in Hp; [congruence | apply (fin_hi _ K) | apply (fin_hi _ A1)].
    - subst; auto. }
  destruct W1 as (W1 & W2 & W3).
  destruct (chain_times L cf a done w1 _ Hd1 Hd2 Hd3 Hd4) as [CT1 CT2].
  set (fwd := if Rle_dec (dv (w_time w)) (dv (a_t a)) then true else false).
  destruct (chain_mono L cf a fwd done w1 _ Hd1 Hd2 Hd3 Hd4) as [_ CM].
  { unfold fwd. destruct (Rle_dec (dv (w_time w)) (dv (a_t a))); lra. }
  assert (K : ts = w_time w :: map (fun it => w_time (it_w1 it)) done /\ jets = map (fun it => ig_tc (fst (it_w1 it))) done /\ (1 <= length done)%nat).
  { destruct done; [discriminate|]. injection E as -> ->. cbn; repeat split; lia. }
  destruct K as (-> & -> & Hlen). clear E Ep.
  clear Ec. set (l := done) in *. clearbody l.
  set (tl := map (fun it => w_time (it_w1 it)) l) in *. set (tms := w_time w :: tl).
  (* the recorded times as numbers *)
  assert (Hv : forall i x, nth_error tms i = Some x -> good L x /\ dv x = dv (nth i (w_time w1 :: tl) (w_time w1))).
  { intros [|i] x Hi; cbn in Hi.
    - injection Hi as <-. cbn [nth]. split; [split; assumption | auto].
    - split; [|cbn [nth]; now rewrite (nth_error_nth _ _ _ Hi)]. apply nth_error_In, in_map_iff in Hi as (it & <- & Hi).
      rewrite Forall_forall in CT1. now apply CT1. }
  assert (HV : forall i it, nth_error l i = Some it -> exists t0, nth_error tms i = Some t0 /\ good L t0 /\ dv t0 = dv (w_time (it_w0 it))).
  { intros i it Hi. assert (i < length l)%nat by (apply nth_error_Some; congruence).
    destruct (nth_error tms i) as [t0|] eqn:E0; [|apply nth_error_None in E0; cbn in E0; unfold tl in E0; rewrite map_length in E0; lia].
    exists t0. split; [reflexivity|]. destruct (Hv i t0 E0) as [G1 G2]. split; [exact G1|]. rewrite G2. apply (CT2 i it Hi). }
  assert (Gle : forall (d : bool) x y, good L x -> good L y -> (no_later L d x y <-> if d then dv x <= dv y else dv y <= dv x)).
  { intros d x y [_ G1] [_ G2]. unfold no_later, dle, dval. destruct d; rewrite G1, G2; lra. }
  assert (HO : ordered L fwd tms).
  { intros i j x y Hij Hi Hj. destruct (Hv i x Hi) as [G1 E1]. destruct (Hv j y Hj) as [G2 E2]. apply Gle; auto.
    rewrite E1, E2. assert (i < length tms)%nat by (apply nth_error_Some; congruence). assert (j < length tms)%nat by (apply nth_error_Some; congruence).
    apply (CM i j); [exact Hij | |]; apply nth_error_nth'; assumption. }
  assert (Hmem : forall it : iter o St Jt En, length (mem (ig_tc (fst (it_w1 it)))) = (dim * (order + 1))%nat) by (intros it; apply HC).
  assert (HR : step_record dim order tms (map mem (map (fun it => ig_tc (fst (it_w1 it))) l))).
  { split; [cbn [length tms]; unfold tl; now rewrite !map_length|]. split; [destruct l; [cbn in Hlen; lia | discriminate]|]. split.
    - apply Forall_forall. intros s Hs. apply in_map_iff in Hs as (x & <- & Hs). apply in_map_iff in Hs as (it & <- & Hs). apply Hmem.
    - apply Forall_forall. intros x Hx. apply In_nth_error in Hx as [i Hi]. apply (Hv i x Hi). }
  destruct (nth_error l (length l - 1)) as [e|] eqn:Ee; [|apply nth_error_None in Ee; lia].
  exists e. split; [reflexivity|].
  assert (E0 : nth_error tms 0 = Some (w_time w)) by reflexivity.
  assert (E1 : nth_error tms (length (map mem (map (fun it => ig_tc (fst (it_w1 it))) l))) = Some (w_time (it_w1 e))).
  { rewrite !map_length. replace (length l) with (S (length l - 1)) by lia. cbn [nth_error tms]. unfold tl. now rewrite nth_error_map, Ee. }
  rewrite !map_length in E1. assert (Ge : good L (w_time (it_w1 e))) by (apply (Hv _ _ E1)). assert (Gw : good L (w_time w)) by (split; assumption).
  assert (Gt : forall t, ffin o t = true -> good L (d_of t) /\ dv (d_of t) = fval L t).
  { intros t Ht. destruct (ex_of L t Ht) as [K1 K2]. split; [split; [exact K1|]|exact K2]. cbn [d_of lo]. apply (fl_0 o L). }
  assert (Hend : if fwd then dv (w_time w) <= dv (w_time (it_w1 e)) else dv (w_time (it_w1 e)) <= dv (w_time w)).
  { apply (Gle fwd _ _ Gw Ge). apply (HO 0%nat _ _ _ (Nat.le_0_l _) E0 E1). }
  (* the call *)
  assert (Main : forall t, ffin o t = true -> between (dv (w_time w)) (fval L t) (dv (w_time (it_w1 e))) ->
    exists i it c' t0, nth_error l i = Some it /\ nth_error tms i = Some t0 /\ good L t0 /\ dv t0 = dv (w_time (it_w0 it)) /\
      no_later L fwd t0 (d_of t) /\ no_later L fwd (d_of t) (w_time (it_w1 it)) /\ (S i = length l \/ ~ no_later L fwd (w_time (it_w1 it)) (d_of t)) /\
      co_call o S0 c t = MDone c' /\ length (co_out c') = dim /\
      (forall out, length out = dim -> d_out_f S0 1 ha dim order out (mem (ig_tc (fst (it_w1 it)))) [hi (dl_sub o (d_of t) t0)] = MDone (co_out c'))).
  { intros t Ht Hb. destruct (Gt t Ht) as [Gt1 Gt2].
    destruct (continuous_output_selects_step L S0 ha dim order tms _ c fwd _ _ t HR Em E0 ltac:(rewrite !map_length; exact E1) HO Ht) as (i & x & b & seg & c' & Hs & Q1 & Q2 & Q3 & Q4 & Q5 & Q6 & _).
    { apply Gle; auto. rewrite Gt2. destruct fwd, Hb; lra. }
    { apply Gle; auto. rewrite Gt2. destruct fwd, Hb; lra. }
    destruct Hs as (Ha & Hb' & Hs). rewrite !nth_error_map in Hs. destruct (nth_error l i) as [it|] eqn:Ei; [|discriminate]. cbn in Hs. injection Hs as <-.
    cbn [nth_error tms] in Hb'. unfold tl in Hb'. rewrite nth_error_map, Ei in Hb'. cbn in Hb'. injection Hb' as <-.
    destruct (HV i it Ei) as (t0 & HV1 & HV2 & HV3). assert (x = t0) by congruence. subst x. rewrite !map_length in Q3.
    exists i, it, c', t0. repeat (split; [assumption|]). exact Q6. }
  assert (Poly : forall t t0 (it : iter o St Jt En) c', ffin o t = true -> good L t0 -> Forall (fun x => ffin o x = true) (mem (ig_tc (fst (it_w1 it)))) ->
     (forall out, length out = dim -> d_out_f S0 1 ha dim order out (mem (ig_tc (fst (it_w1 it)))) [hi (dl_sub o (d_of t) t0)] = MDone (co_out c')) ->
     forall j, (j < dim)%nat -> fval L (nth j (co_out c') (f0 o)) =
       taylor_poly (fun k => fval L (nth (j * (order + 1) + k) (mem (ig_tc (fst (it_w1 it)))) (f0 o))) order (fval L t - dv t0)).
  { intros t t0 it c' Ht [G1 G2] HF HD j Hj. destruct (dl_sub_exact L X t t0 Ht G1) as [D1 D2]. change (DFL t (f0 o)) with (d_of t) in D1, D2.
    destruct (d_out_val L S0 XR ha dim order (repeat (f0 o) dim) _ _ (co_out c') D1 (repeat_length _ _) (Hmem it) HF (HD _ (repeat_length _ _))) as [_ K].
    destruct (K j Hj) as [_ K2]. rewrite K2. unfold dval. now rewrite D2. }
  assert (Bnd : forall i it, nth_error l i = Some it -> between (dv (w_time w)) (dv (w_time (it_w0 it))) (dv (w_time (it_w1 e)))).
  { intros i it Hi. destruct (HV i it Hi) as (t0 & K1 & K2 & K3). rewrite <- K3. assert (i < length l)%nat by (apply nth_error_Some; congruence).
    pose proof (HO 0%nat i _ _ (Nat.le_0_l _) E0 K1) as B1. pose proof (HO i (length l) _ _ (Nat.lt_le_incl _ _ H) K1 E1) as B2.
    apply Gle in B1; auto. apply Gle in B2; auto. unfold between. destruct fwd; lra. }
  rewrite Forall_forall in CT1.
  split; [|split].
  - intros t Ht Hb. destruct (Main t Ht Hb) as (i & it & c' & t0 & M1 & M2 & M3 & M4 & M5 & M6 & M7 & M8 & M9 & M10).
    exists it, c'. split; [eapply nth_error_In; eauto|]. destruct (Gt t Ht) as [Gt1 Gt2].
    assert (Gi : good L (w_time (it_w1 it))) by (apply CT1; eapply nth_error_In; eauto).
    apply Gle in M5; auto. apply Gle in M6; auto. split; [rewrite <- M4, <- Gt2; unfold between; destruct fwd; lra|].
    split; [exact M8|]. split; [exact M9|]. intros HF j Hj. rewrite <- M4. apply (Poly t t0 it c'); auto.
  - intros it t Hi HF Ht Ev Hmove. apply In_nth_error in Hi as [i Hi]. destruct (HV i it Hi) as (t0 & K1 & K2 & K3). destruct (Gt t Ht) as [Gt1 Gt2].
    destruct (Main t Ht) as (i' & it' & c' & t0' & M1 & M2 & M3 & M4 & M5 & M6 & M7 & M8 & M9 & M10); [rewrite Ev; now apply (Bnd i)|].
    assert (Li : (i < length l)%nat) by (apply nth_error_Some; congruence). assert (Li' : (i' < length l)%nat) by (apply nth_error_Some; congruence).
    assert (Nx : forall k itk, nth_error l k = Some itk -> nth_error tms (S k) = Some (w_time (it_w1 itk))) by (intros k itk Hk; cbn [nth_error tms]; unfold tl; now rewrite nth_error_map, Hk).
    assert (Gi : good L (w_time (it_w1 it))) by (apply CT1; eapply nth_error_In; eauto).
    assert (Gi' : good L (w_time (it_w1 it'))) by (apply CT1; eapply nth_error_In; eauto).
    assert (i' = i).
    { destruct (Nat.lt_trichotomy i' i) as [Hlt|[Heq|Hgt]]; [|exact Heq|]; exfalso.
      - destruct M7 as [M7|M7]; [lia|]. apply M7. apply (no_later_trans L _ _ t0).
        + apply (HO (S i') i); [lia | now apply Nx | exact K1].
        + apply Gle; auto. rewrite Gt2, Ev, K3. destruct fwd; lra.
      - pose proof (HO (S i) i' _ _ ltac:(lia) (Nx i it Hi) M2) as B. pose proof (HO i (S i) _ _ ltac:(lia) K1 (Nx i it Hi)) as B'.
        apply Gle in B; auto. apply Gle in B'; auto. apply Gle in M5; auto. rewrite Gt2, Ev in M5. destruct fwd; lra. }
    subst i'. assert (it' = it) by congruence. subst it'. assert (t0' = t0) by congruence. subst t0'.
    exists c'. split; [exact M8|]. intros j Hj. rewrite (Poly t t0 it c' Ht K2 HF M10 j Hj). rewrite K3, Ev, Rminus_diag_eq by reflexivity.
    rewrite taylor_poly_0, Nat.add_0_r.
    assert (Hit : In it l) by (eapply nth_error_In; eauto). rewrite Forall_forall in Hd2, Hd3. destruct (Hd2 it Hit) as [Hst _]. specialize (Hd3 it Hit).
    replace (a_wtc a || a_cout a)%bool with true in Hst by (rewrite Hca; now destruct (a_wtc a)).
    destruct (step_records S0 cf ha dim order mem vars _ _ _ _ _ HC HK Hst Hd3) as [K _]. now rewrite (K j Hj).
  - intros t HF Ht Ev. destruct (Gt t Ht) as [Gt1 Gt2].
    destruct (Main t Ht) as (i' & it' & c' & t0' & M1 & M2 & M3 & M4 & M5 & M6 & M7 & M8 & M9 & M10); [rewrite Ev; unfold between; destruct fwd; lra|].
    assert (Li' : (i' < length l)%nat) by (apply nth_error_Some; congruence).
    assert (Gi' : good L (w_time (it_w1 it'))) by (apply CT1; eapply nth_error_In; eauto).
    assert (i' = length l - 1)%nat.
    { destruct M7 as [M7|M7]; [lia|]. exfalso. apply M7. apply (no_later_trans L _ _ (w_time (it_w1 e))).
      - apply (HO (S i') (length l)); [exact Li' | |]; [cbn [nth_error tms]; unfold tl; now rewrite nth_error_map, M1 | exact E1].
      - apply Gle; auto. rewrite Gt2, Ev. destruct fwd; lra. }
    subst i'. assert (it' = e) by congruence. subst it'. exists c'. split; [exact M8|]. intros j Hj.
    rewrite (Poly t t0' e c' Ht M3 HF M10 j Hj). rewrite M4, Ev.
    assert (Hit : In e l) by (eapply nth_error_In; eauto). rewrite Forall_forall in Hd2, Hd3, Hd4. destruct (Hd2 e Hit) as [Hst _]. specialize (Hd3 e Hit).
    replace (a_wtc a || a_cout a)%bool with true in Hst by (rewrite Hca; now destruct (a_wtc a)).
    destruct (step_records S0 cf ha dim order mem vars _ _ _ _ _ HC HK Hst Hd3) as [_ K]. fold (step_end cf e) in K.
    destruct (Hd4 e Hit) as (V1 & V2 & _). destruct (CT1 e Hit) as [_ V3].
    destruct (d_out_val L S0 XR ha dim order (repeat (f0 o) dim) _ _ _ V1 (repeat_length _ _) (Hmem e) HF (K _ (repeat_length _ _))) as [_ V4].
    destruct (V4 j Hj) as [_ V5]. rewrite V5. f_equal. lra.
Qed.
End X.

(** *** Concrete cases *)
(** Exact integers, extended with infinities and NaN. *)
Definition zx_mul (x y : ext Z) : ext Z :=
  match x, y with
  | Fin a, Fin b => Fin (a * b)%Z
  | NaN, _ | _, NaN => NaN
  | Fin a, i | i, Fin a => if (a =? 0)%Z then NaN else if (0 <? a)%Z then i else fneg zops i
  | PInf, i => i
  | NInf, i => fneg zops i
  end.
Definition zs : sops (ext Z) :=
  mkSops (mkTops (fadd zops) (fsub zops) zx_mul (fun x _ => x) (fneg zops) (fun n => Fin (Z.of_nat n)) (Fin 1%Z) (fun _ a _ => a))
         (fabs zops) (fun x _ => x) (fun x => x) (flt zops) (fle zops).
Lemma zs_exact : exact_ring zlaws zs.
Proof.
  split.
  - intros [x| | |] [y| | |]; try discriminate. intros _ _. split; [reflexivity|]. cbn. apply plus_IZR.
  - intros [x| | |] [y| | |]; try discriminate. intros _ _. split; [reflexivity|]. cbn. apply minus_IZR.
  - intros [x| | |] [y| | |]; try discriminate. intros _ _. split; [reflexivity|]. cbn. apply mult_IZR.
  - split; reflexivity.
Qed.
(* The extended reals of the stepper theorems. *)
Lemma xops_exact : exact_ring rlaws xops.
Proof.
  split.
  - intros [x| | |] [y| | |]; try discriminate. intros _ _. split; reflexivity.
  - intros [x| | |] [y| | |]; try discriminate. intros _ _. split; reflexivity.
  - intros [x| | |] [y| | |]; try discriminate. intros _ _. split; reflexivity.
  - split; reflexivity.
Qed.

(* x' = 1 with steps of at most 2, with and without events (X_Demo.v). *)
Lemma demo_coherent : forall ev, coherent (o := zops) zs (demo ev) false 1 1 (fun jet => [jet; Fin 1%Z]) (fun s => [s]).
Proof.
  assert (E : forall (jet h : ext Z) out, length out = 1%nat -> d_out_f zs 1 false 1 1 out [jet; Fin 1%Z] [h] = MDone [fadd zops jet h]).
  { intros jet h [|x [|y out]]; try discriminate. intros _. cbn. destruct jet as [j| | |], h as [[|p|p]| | |]; reflexivity. }
  intros ev. split; [reflexivity|]. split; [|split].
  - intros s t lim s' h jet H. cbn in H. injection H as <- <- <-. split; [intros [|j] Hj; [reflexivity | lia]|]. intros out Ho. apply E, Ho.
  - intros s t lim jet h m H. cbn in H. injection H as <- <- <-. intros [|j] Hj; [reflexivity | lia].
  - intros s jet h out Ho. apply E, Ho.
Qed.

(* From time 1 (state 2) to time 10; a terminal event triggers at time 4. *)
Definition demo_mem (jet : ext Z) : list (F zops) := [jet; Fin 1%Z].
Definition ex_run := propagate_until zops _ _ _ 100 (demo true) (demo_a 10 0 PInf None true) (demo_w 1 2).
Definition zt (z : Z) : dfl zops := DFL (o := zops) (Fin z) (Fin 0%Z).
Example ex_cout : exists r c,
  ex_run = PRet r /\
  p_cout r = Some ([zt 1; zt 3; zt 4; zt 6; zt 8; zt 10], map (fun z => Fin z) [2; 4; 5; 7; 9]%Z) /\
  make_co zops false 1 1 [zt 1; zt 3; zt 4; zt 6; zt 8; zt 10] (map demo_mem (map (fun z => Fin z) [2; 4; 5; 7; 9]%Z)) = MDone c /\
  get_bounds zops c = MDone (Fin 1%Z, Fin 10%Z) /\ get_n_steps zops c = MDone 5%nat /\
  Forall (fun tv : Z * Z => exists c', co_call zops zs c (Fin (fst tv)) = MDone c' /\ co_out c' = [Fin (snd tv)])
    [(1, 2); (2, 3); (3, 4); (4, 5); (5, 6); (7, 8); (10, 11); (0, 1); (12, 13)]%Z /\
  co_call zops zs c PInf = MThrow.
Proof.
  eexists _, _. split; [vm_compute; reflexivity|]. split; [reflexivity|]. split; [vm_compute; reflexivity|]. repeat split; try reflexivity.
  repeat (constructor; [eexists; split; vm_compute; reflexivity|]). constructor.
Qed.

(* The hypotheses of the theorems are met in this case. *)
Example ex_of_propagation : exists r ts jets c,
  stepper_ok zlaws (demo true) /\ detect_ok zlaws (demo true) /\ sort_ok zlaws (demo true) /\ events_keep (demo true) /\
  coherent (o := zops) zs (demo true) false 1 1 demo_mem (fun s => [s]) /\ exact_ring zlaws zs /\
  fval zlaws (lo (w_time (demo_w 1 2))) = 0%R /\ ex_run = PRet r /\ p_cout r = Some (ts, jets) /\
  make_co zops false 1 1 ts (map demo_mem jets) = MDone c /\ Forall (fun jet => Forall (fun x => ffin zops x = true) (demo_mem jet)) jets.
Proof.
  destruct ex_cout as (r & c & E1 & E2 & E3 & _). eexists r, _, _, c.
  split; [apply demo_stepper|]. split; [apply demo_detect_ok|]. split; [apply demo_sort_ok|]. split; [apply demo_events_keep|].
  split; [apply demo_coherent|]. split; [apply zs_exact|]. split; [reflexivity|]. split; [exact E1|]. split; [exact E2|]. split; [exact E3|].
  repeat constructor.
Qed.

(* A record of two steps backwards, used at an inner time. *)
Example ex_selects : exists c, step_record (o := zops) 1 1 [zt 5; zt 3; zt 1] [[Fin 7%Z; Fin 2%Z]; [Fin 3%Z; Fin 4%Z]] /\
  make_co zops true 1 1 [zt 5; zt 3; zt 1] [[Fin 7%Z; Fin 2%Z]; [Fin 3%Z; Fin 4%Z]] = MDone c /\
  ordered zlaws false [zt 5; zt 3; zt 1] /\ no_later zlaws false (zt 5) (d_of (o := zops) (Fin 2%Z)) /\ no_later zlaws false (d_of (o := zops) (Fin 2%Z)) (zt 1) /\
  ~ no_later zlaws false (zt 1) (zt 5) /\
  exists c', co_call zops zs c (Fin 2%Z) = MDone c' /\ co_out c' = [Fin (3 + 4 * (2 - 3))%Z].
Proof.
  eexists. split; [repeat split; try discriminate; repeat constructor|]. split; [vm_compute; reflexivity|]. split.
  - intros [|[|[|i]]] [|[|[|j]]] a b Hij Ha Hb; try lia; cbn in Ha, Hb; try (destruct i; discriminate); try (destruct j; discriminate);
      injection Ha as <-; injection Hb as <-; unfold no_later, dle; cbn; lra.
  - split; [unfold no_later, dle; cbn; lra|]. split; [unfold no_later, dle; cbn; lra|]. split; [unfold no_later, dle; cbn; lra|].
    eexists. split; vm_compute; reflexivity.
Qed.

Print Assumptions continuous_output_selects_step.
Print Assumptions continuous_output_extrapolates.
Print Assumptions continuous_output_rejects.
Print Assumptions continuous_output_covers_propagation.
Print Assumptions continuous_output_of_propagation.
