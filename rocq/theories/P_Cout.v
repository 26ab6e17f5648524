(** Continuous output: the search, the selected step, the evaluation. *)
From Coq Require Import List Arith NArith Bool Reals Lra Lia.
From Verif Require Import M_Dag M_Taylor M_Stepper M_Float M_Search P_Search P_Stepper P_Stepper2 S_Stepper M_Cout S_Cout.
Import ListNotations.
Local Open Scope nat_scope.
Set Bullet Behavior "Strict Subproofs".

Lemma partitioned_intro {A} (p : A -> bool) l :
  (forall i j x y, i <= j -> nth_error l i = Some x -> nth_error l j = Some y -> p y = true -> p x = true) -> partitioned p l.
Proof.
  induction l as [|a l IH]; intros H; cbn [partitioned]; [exact I|]. split.
  - intros E. apply Forall_forall. intros y Hy. apply In_nth_error in Hy as [n Hn]. destruct (p y) eqn:Ey; [|reflexivity].
    rewrite (H 0 (S n) a y) in E; [discriminate | lia | reflexivity | exact Hn | exact Ey].
  - apply IH. intros i j x y Hij Hi Hj. apply (H (S i) (S j) x y); [lia | exact Hi | exact Hj].
Qed.

Section P.
Context {o : fops} (L : flaws o) (S0 : sops (F o)).
Notation F := (F o).

Lemma fin_hi (d : dfl o) : d_fin d = true -> ffin o (hi d) = true /\ ffin o (lo d) = true.
Proof. unfold d_fin. apply andb_prop. Qed.
Lemma dl_lt_iff (a b : dfl o) : d_fin a = true -> d_fin b = true -> (dl_lt o a b = false <-> dle L b a).
Proof.
  intros Ha Hb. apply fin_hi in Ha as [A1 A2]. apply fin_hi in Hb as [B1 B2]. unfold dl_lt, dle.
  destruct (flt o (hi a) (hi b)) eqn:E1; cbn [orb].
  - apply (fl_lt o L) in E1; auto. split; [discriminate | intros [H | [H _]]; lra].
  - assert (N1 : ~ (fval L (hi a) < fval L (hi b))%R) by (intros H; apply (fl_lt o L) in H; auto; congruence).
    destruct (feq o (hi a) (hi b)) eqn:E2; cbn [andb].
    + apply (fl_eq o L) in E2; auto. destruct (flt o (lo a) (lo b)) eqn:E3.
      * apply (fl_lt o L) in E3; auto. split; [discriminate | intros [H | [_ H]]; lra].
      * assert (~ (fval L (lo a) < fval L (lo b))%R) by (intros H; apply (fl_lt o L) in H; auto; congruence).
        split; [|reflexivity]. intros _. right. lra.
    + assert (fval L (hi a) <> fval L (hi b)) by (intros H; apply (fl_eq o L) in H; auto; congruence).
      split; [|reflexivity]. intros _. left. lra.
Qed.
Lemma dl_gt_lt (a b : dfl o) : dl_gt o a b = dl_lt o b a.
Proof. unfold dl_gt, dl_lt. now rewrite (fl_eqsym o L). Qed.
Lemma dle_trans (a b c : dfl o) : dle L a b -> dle L b c -> dle L a c.
Proof. unfold dle. intros [H1 | [H1 H2]] [H3 | [H3 H4]]; lra. Qed.
Lemma dle_refl (a : dfl o) : dle L a a.
Proof. unfold dle. right. lra. Qed.
Lemma dle_total (a b : dfl o) : dle L a b \/ dle L b a.
Proof. unfold dle. destruct (Rtotal_order (fval L (hi a)) (fval L (hi b))) as [H | [H | H]]; destruct (Rle_dec (fval L (lo a)) (fval L (lo b))); lra. Qed.
Lemma no_later_trans d (a b c : dfl o) : no_later L d a b -> no_later L d b c -> no_later L d a c.
Proof. destruct d; cbn; intros H1 H2; eapply dle_trans; eauto. Qed.
Lemma no_later_dec d (a b : dfl o) : {no_later L d a b} + {~ no_later L d a b}.
Proof.
  assert (D : forall x y : dfl o, {dle L x y} + {~ dle L x y}).
  { intros x y. unfold dle. destruct (Rlt_dec (fval L (hi x)) (fval L (hi y))); [left; lra|].
    destruct (Req_EM_T (fval L (hi x)) (fval L (hi y))); [|right; lra]. destruct (Rle_dec (fval L (lo x)) (fval L (lo y))); [left | right]; lra. }
  destruct d; cbn; apply D.
Qed.

(* The predicate of the search: the element is not later than tm. *)
Definition cond (dir : bool) (tm : F) (v : dfl o) : bool := negb (if dir then dl_lt o (DFL tm (f0 o)) v else dl_gt o (DFL tm (f0 o)) v).
Lemma of_fin t : ffin o t = true -> d_fin (DFL t (f0 o) : dfl o) = true.
Proof. intros H. unfold d_fin. cbn [hi lo]. rewrite H. now destruct (fl_0 o L) as [-> _]. Qed.
Lemma cond_iff dir tm v : ffin o tm = true -> d_fin v = true -> (cond dir tm v = true <-> no_later L dir v (d_of tm)).
Proof.
  intros Ht Hv. unfold cond, no_later, d_of. rewrite negb_true_iff. pose proof (of_fin tm Ht) as Hd. destruct dir.
  - now apply dl_lt_iff.
  - rewrite dl_gt_lt. now apply dl_lt_iff.
Qed.

Lemma ub_loop_bs dir tm ts : forall fuel first count, count < fuel -> first + count <= length ts ->
  ub_loop o fuel dir tm ts first count = MDone (bs_loop fuel (cond dir tm) ts first count).
Proof.
  induction fuel as [|fuel IH]; intros first count Hf Hl; [lia|]. cbn [ub_loop bs_loop]. destruct (Nat.eqb_spec count 0) as [->|Hc]; [reflexivity|].
  cbv zeta. rewrite <- Nat.div2_div. assert (Hd : Nat.div2 count < count) by (apply Nat.lt_div2; lia). unfold aget.
  destruct (nth_error ts (first + Nat.div2 count)) as [v|] eqn:Ev; [|apply nth_error_None in Ev; lia]. cbn [mbind]. fold (cond dir tm v).
  destruct (cond dir tm v); apply IH; lia.
Qed.

(* The dense output reads only the first coefficients. *)
Lemma d_out_prefix ha dim order out seg rest h : length out = dim -> length seg = dim * (order + 1) ->
  d_out_f S0 1 ha dim order out (seg ++ rest) [h] = d_out_f S0 1 ha dim order out seg [h].
Proof.
  intros Lo Ls.
  destruct (dense_ok S0 1 dim order out (seg ++ rest) [h]) with (ha := ha) as (o1 & E1 & L1 & H1); [lia | rewrite app_length, Ls; lia | cbn; lia|].
  destruct (dense_ok S0 1 dim order out seg [h]) with (ha := ha) as (o2 & E2 & L2 & H2); [lia | rewrite Ls; lia | cbn; lia|].
  rewrite E1, E2. f_equal. apply nth_ext with (d := t_nat (s_t S0) 0) (d' := t_nat (s_t S0) 0); [congruence|]. intros j Hj. rewrite L1, Lo in Hj.
  specialize (H1 j 0 Hj Nat.lt_0_1). specialize (H2 j 0 Hj Nat.lt_0_1). rewrite Nat.mul_1_r, Nat.add_0_r in H1, H2. rewrite H1, H2.
  apply evals_ext; try exact 0. intros m Hm. apply app_nth1. rewrite Ls. nia.
Qed.
(* ... and does not depend on the previous contents of the output. *)
Lemma d_out_out ha dim order out out' seg h : length out = dim -> length out' = dim -> length seg = dim * (order + 1) ->
  d_out_f S0 1 ha dim order out seg [h] = d_out_f S0 1 ha dim order out' seg [h].
Proof.
  intros Lo Lo' Ls.
  destruct (dense_ok S0 1 dim order out seg [h]) with (ha := ha) as (o1 & E1 & L1 & H1); [lia | rewrite Ls; lia | cbn; lia|].
  destruct (dense_ok S0 1 dim order out' seg [h]) with (ha := ha) as (o2 & E2 & L2 & H2); [lia | rewrite Ls; lia | cbn; lia|].
  rewrite E1, E2. f_equal. apply nth_ext with (d := t_nat (s_t S0) 0) (d' := t_nat (s_t S0) 0); [congruence|]. intros j Hj. rewrite L1, Lo in Hj.
  specialize (H1 j 0 Hj Nat.lt_0_1). specialize (H2 j 0 Hj Nat.lt_0_1). rewrite Nat.mul_1_r, Nat.add_0_r in H1, H2. now rewrite H1, H2.
Qed.
Lemma skipn_concat (k n : nat) (segs : list (list F)) seg : Forall (fun s => length s = n) segs -> nth_error segs k = Some seg ->
  exists rest, skipn (k * n) (concat segs) = seg ++ rest.
Proof.
  revert k. induction segs as [|s segs IH]; intros k HF Hk; [destruct k; discriminate|]. inversion HF as [|? ? H1 H2]; subst. destruct k as [|k].
  - cbn in Hk. injection Hk as <-. now exists (concat segs).
  - cbn [nth_error] in Hk. destruct (IH k H2 Hk) as [rest E]. exists rest. cbn [concat]. rewrite skipn_app.
    replace (S k * length s - length s) with (k * length s) by lia. rewrite E. rewrite skipn_all2 by lia. reflexivity.
Qed.

(* The step used at time t: the last one that begins no later than t, or the first. *)
Section Call.
Context (ha : bool) (dim order : nat) (ts : list (dfl o)) (segs : list (list F)) (c : co o).
Hypothesis HR : step_record dim order ts segs.
Hypothesis HM : make_co o ha dim order ts segs = MDone c.

Lemma made : exists a b, nth_error ts 0 = Some a /\ nth_error ts (length segs) = Some b /\
  c = MkCo o (concat segs) ts (repeat (f0 o) dim) (Some (MkFn (d_lt a b) (length ts) order dim ha)).
Proof.
  destruct HR as (Hl & _). revert HM. unfold make_co. destruct (_ || _)%bool; [discriminate|]. unfold aget. rewrite Hl.
  replace (S (length segs) - 1) with (length segs) by lia.
  destruct (nth_error ts 0) as [a|]; [|discriminate]. cbn [mbind]. destruct (nth_error ts (length segs)) as [b|]; [|discriminate]. cbn [mbind].
  intros [= <-]. exists a, b. auto.
Qed.

(* The direction is only relevant if the times are not all the same. *)
Lemma dir_ok fwd : ordered L fwd ts -> forall a b, nth_error ts 0 = Some a -> nth_error ts (length segs) = Some b -> ordered L (d_lt a b) ts.
Proof.
  intros HO a b Ha Hb. destruct HR as (Hl & _ & _ & HF). rewrite Forall_forall in HF.
  assert (Fa : d_fin a = true) by (apply HF; eapply nth_error_In; eauto). assert (Fb : d_fin b = true) by (apply HF; eapply nth_error_In; eauto).
  change (d_lt a b) with (dl_lt o a b). destruct (dl_lt o a b) eqn:E, fwd; auto.
  - exfalso. assert (X : dle L b a) by (apply (HO 0 (length segs) a b); auto; lia). apply dl_lt_iff in X; auto. congruence.
  - apply dl_lt_iff in E; auto. intros i j x y Hij Hi Hj. cbn.
    assert (Lj : j < length ts) by (apply nth_error_Some; congruence).
    assert (H1 : dle L a x) by (apply (HO 0 i a x); auto; lia). assert (H2 : dle L y b) by (apply (HO j (length segs) y b); auto; lia).
    apply (dle_trans _ b); [exact H2|]. apply (dle_trans _ a); assumption.
Qed.

Lemma call_step ta tb t : nth_error ts 0 = Some ta -> nth_error ts (length segs) = Some tb ->
  ordered L (d_lt ta tb) ts -> ffin o t = true ->
  exists i a b seg c', step_at ts segs i a b seg /\ co_call o S0 c t = MDone c' /\
    d_out_f S0 1 ha dim order (co_out c) seg [hi (dl_sub o (DFL t (f0 o)) a)] = MDone (co_out c') /\
    c' = MkCo o (co_tcs c) (co_times c) (co_out c') (co_fn c) /\ length (co_out c') = dim /\
    (i = 0 \/ no_later L (d_lt ta tb) a (d_of t)) /\ (S i = length segs \/ ~ no_later L (d_lt ta tb) b (d_of t)).
Proof.
  intros Ha Hb HO Ht. destruct made as (ta' & tb' & Ha' & Hb' & Ec). assert (ta' = ta) by congruence. assert (tb' = tb) by congruence. subst ta' tb'. clear Ha' Hb'.
  set (dir := d_lt ta tb) in *.
  destruct HR as (Hl & Hne & HS & HF). rewrite Forall_forall in HF.
  assert (Hlen : 1 <= length segs) by (destruct segs; [contradiction | cbn; lia]).
  assert (HP : partitioned (cond dir t) ts).
  { apply partitioned_intro. intros i j x y Hij Hi Hj Hp. assert (Fx : d_fin x = true) by (apply HF; eapply nth_error_In; eauto).
    assert (Fy : d_fin y = true) by (apply HF; eapply nth_error_In; eauto). rewrite cond_iff in *; auto. eapply no_later_trans; eauto. }
  destruct (partition_point_ok _ ts HP) as (K1 & K2 & K3). cbv zeta in K1, K2, K3.
  assert (EU : ub_loop o (S (length ts)) dir t ts 0 (length ts) = MDone (partition_point (cond dir t) ts)) by (unfold partition_point; apply ub_loop_bs; lia).
  set (k := partition_point (cond dir t) ts) in *.
  set (i := if k =? 0 then k else if k =? length ts then k - 2 else k - 1).
  assert (Hi : i < length segs) by (unfold i; destruct (Nat.eqb_spec k 0); [lia|]; destruct (Nat.eqb_spec k (length ts)); lia).
  destruct (nth_error ts i) as [a|] eqn:Ea; [|apply nth_error_None in Ea; lia].
  destruct (nth_error ts (S i)) as [b|] eqn:Eb; [|apply nth_error_None in Eb; lia].
  destruct (nth_error segs i) as [seg|] eqn:Es; [|apply nth_error_None in Es; lia].
  assert (Lseg : length seg = dim * (order + 1)) by (rewrite Forall_forall in HS; apply HS; eapply nth_error_In; eauto).
  destruct (dense_ok S0 1 dim order (repeat (f0 o) dim) seg [hi (dl_sub o (DFL t (f0 o)) a)]) with (ha := ha) as (out' & D1 & D2 & _);
    [rewrite repeat_length; lia | rewrite Lseg; lia | cbn; lia|].
  rewrite repeat_length in D2.
  exists i, a, b, seg, (MkCo o (concat segs) ts out' (Some (MkFn dir (length ts) order dim ha))). split; [split; [exact Ea | split; assumption]|].
  split.
  { subst c. unfold co_call. cbn [co_fn co_out co_tcs co_times]. rewrite Ht. cbn [negb]. unfold c_out. cbn [fn_n fn_dir fn_dim fn_order fn_ha].
    rewrite EU. cbn [mbind]. cbv zeta. fold i. unfold aget at 1. rewrite Ea. cbn [mbind].
    destruct (skipn_concat i (dim * (order + 1)) segs seg HS Es) as [rest ->]. rewrite d_out_prefix by (try apply repeat_length; exact Lseg).
    rewrite D1. reflexivity. }
  split; [subst c; cbn [co_out]; exact D1|]. split; [subst c; reflexivity|]. split; [exact D2|].
  assert (Fa : d_fin a = true) by (apply HF; eapply nth_error_In; eauto). assert (Fb : d_fin b = true) by (apply HF; eapply nth_error_In; eauto).
  split.
  - unfold i in Ea |- *. destruct (Nat.eqb_spec k 0) as [E0|E0]; [now left|]. right. apply cond_iff; auto.
    destruct (Nat.eqb_spec k (length ts)) as [E1|E1]; eapply K2; try exact Ea; lia.
  - unfold i in Eb |- *. destruct (Nat.eqb_spec k 0) as [E0|E0].
    + right. rewrite <- cond_iff by auto. rewrite (K3 1 b); [discriminate | lia |]. rewrite <- Eb. now rewrite E0.
    + destruct (Nat.eqb_spec k (length ts)) as [E1|E1]; [left; lia|]. right. rewrite <- cond_iff by auto.
      replace (S (k - 1)) with k in Eb by lia. rewrite (K3 k b); [discriminate | lia | exact Eb].
Qed.


Lemma no_later_total d (a b : dfl o) : no_later L d a b \/ no_later L d b a.
Proof. destruct d; cbn; [apply dle_total | destruct (dle_total a b); auto]. Qed.

Lemma call_in_range fwd ta tb t : nth_error ts 0 = Some ta -> nth_error ts (length segs) = Some tb ->
  ordered L fwd ts -> ffin o t = true -> no_later L fwd ta (d_of t) -> no_later L fwd (d_of t) tb ->
  exists i a b seg c', step_at ts segs i a b seg /\ co_call o S0 c t = MDone c' /\
    d_out_f S0 1 ha dim order (co_out c) seg [hi (dl_sub o (DFL t (f0 o)) a)] = MDone (co_out c') /\
    c' = MkCo o (co_tcs c) (co_times c) (co_out c') (co_fn c) /\ length (co_out c') = dim /\
    no_later L fwd a (d_of t) /\ no_later L fwd (d_of t) b /\ (S i = length segs \/ ~ no_later L fwd b (d_of t)).
Proof.
  intros Ha Hb HO Ht H1 H2. pose proof (dir_ok fwd HO ta tb Ha Hb) as HO'.
  destruct (call_step ta tb t Ha Hb HO' Ht) as (i & a & b & seg & c' & Hs & E1 & E2 & E3 & E4 & Q1 & Q2).
  exists i, a, b, seg, c'. split; [exact Hs|]. split; [exact E1|]. split; [exact E2|]. split; [exact E3|]. split; [exact E4|].
  destruct Hs as (Sa & Sb & Ss). destruct HR as (Hl & _). set (dir := d_lt ta tb) in *.
  assert (Li : i < length segs) by (apply nth_error_Some; congruence).
  destruct (Bool.bool_dec dir fwd) as [->|Hd].
  - split; [destruct Q1 as [->|Q1]; [congruence | exact Q1]|]. split; [|exact Q2].
    destruct Q2 as [Q2|Q2]; [rewrite Q2 in Sb; congruence|]. destruct (no_later_total fwd (d_of t) b); [assumption | contradiction].
  - assert (Hopp : forall x y, no_later L dir x y <-> no_later L fwd y x) by (intros x y; destruct dir, fwd; cbn; tauto).
    assert (Hab : no_later L fwd tb ta) by (apply Hopp; apply (HO' 0 (length segs)); auto; lia).
    assert (Ja : no_later L fwd a (d_of t)).
    { apply (no_later_trans _ _ ta); [|exact H1]. apply (no_later_trans _ _ tb); [|exact Hab]. apply (HO i (length segs)); auto; lia. }
    assert (Jb : no_later L fwd (d_of t) b).
    { apply (no_later_trans _ _ tb); [exact H2|]. apply (no_later_trans _ _ ta); [exact Hab|]. apply (HO 0 (S i)); auto; lia. }
    split; [exact Ja|]. split; [exact Jb|]. destruct Q2 as [Q2|Q2]; [now left|]. exfalso. apply Q2. apply Hopp. exact Jb.
Qed.

(* Outside of the range: the first or the last step. *)
Lemma call_outside fwd ta tb t : nth_error ts 0 = Some ta -> nth_error ts (length segs) = Some tb ->
  ordered L fwd ts -> ffin o t = true -> ~ no_later L fwd tb ta ->
  exists i a b seg c', step_at ts segs i a b seg /\ co_call o S0 c t = MDone c' /\
    d_out_f S0 1 ha dim order (co_out c) seg [hi (dl_sub o (DFL t (f0 o)) a)] = MDone (co_out c') /\
    (~ no_later L fwd ta (d_of t) -> i = 0) /\ (~ no_later L fwd (d_of t) tb -> S i = length segs).
Proof.
  intros Ha Hb HO Ht Hne. pose proof (dir_ok fwd HO ta tb Ha Hb) as HO'.
  destruct (call_step ta tb t Ha Hb HO' Ht) as (i & a & b & seg & c' & Hs & E1 & E2 & E3 & E4 & Q1 & Q2).
  destruct HR as (Hl & _). set (dir := d_lt ta tb) in *.
  assert (dir = fwd) as ->.
  { destruct (Bool.bool_dec dir fwd) as [Hd|Hd]; [exact Hd|]. exfalso. apply Hne. 
    pose proof (HO' 0 (length segs) ta tb ltac:(lia) Ha Hb) as X. destruct dir, fwd; cbn in *; congruence || exact X. }
  exists i, a, b, seg, c'. split; [exact Hs|]. split; [exact E1|]. split; [exact E2|]. destruct Hs as (Sa & Sb & Ss).
  assert (Li : i < length segs) by (apply nth_error_Some; congruence). split; intros Hn.
  - destruct Q1 as [Q1|Q1]; [exact Q1|]. exfalso. apply Hn. apply (no_later_trans _ _ a); [|exact Q1]. apply (HO 0 i); auto; lia.
  - destruct Q2 as [Q2|Q2]; [exact Q2|]. exfalso. apply Q2. destruct (no_later_total fwd (d_of t) tb) as [X|X]; [contradiction|].
    apply (no_later_trans _ _ tb); [|exact X]. apply (HO (S i) (length segs)); auto; lia.
Qed.
End Call.

(* --- Exact arithmetic ------------------------------------------------------------------------ *)
Section Exact.
Context (X : exact_laws L) (XR : exact_ring L S0).
Local Open Scope R_scope.
Notation fv := (fval L).
Notation fin x := (ffin o x = true).

Lemma exn_add x y : fin x -> fin y -> fin (fadd o x y) /\ fv (fadd o x y) = fv x + fv y.
Proof. apply (ex_add L X). Qed.
Lemma exn_sub x y : fin x -> fin y -> fin (fsub o x y) /\ fv (fsub o x y) = fv x - fv y.
Proof. apply (ex_sub L X). Qed.
Lemma dl_sub_exact (t : F) (a : dfl o) : fin t -> d_fin a = true ->
  fin (hi (dl_sub o (DFL t (f0 o)) a)) /\ fv (hi (dl_sub o (DFL t (f0 o)) a)) = fv t - (fv (hi a) + fv (lo a)).
Proof.
  intros Ht Ha. apply fin_hi in Ha as [A1 A2]. destruct (fl_0 o L) as [Z1 Z2].
  destruct (fl_neg o L _ A1) as [N1 N2]. destruct (fl_neg o L _ A2) as [N3 N4].
  unfold dl_sub, dl_add. cbn [hi lo]. cbv zeta.
  set (nh := fneg o (hi a)) in *. set (nl := fneg o (lo a)) in *. rewrite <- (Ropp_involutive (fv (hi a))), <- (Ropp_involutive (fv (lo a))), <- N2, <- N4.
  clearbody nh nl. clear N2 N4 A1 A2.
  assert (K : forall f g x y, (f = fadd o /\ g = Rplus) \/ (f = fsub o /\ g = Rminus) -> fin x -> fin y -> fin (f x y) /\ fv (f x y) = g (fv x) (fv y)).
  { intros f g x y [[-> ->] | [-> ->]] Hx Hy; [now apply exn_add | now apply exn_sub]. }
  repeat match goal with
  | |- context [fadd o ?x ?y] =>
      lazymatch goal with H : fin x |- _ => lazymatch goal with G : fin y |- _ =>
        let P := fresh "P" in let Q := fresh "Q" in destruct (exn_add x y H G) as [P Q]; let v := fresh "v" in set (v := fadd o x y) in *; clearbody v end end
  | |- context [fsub o ?x ?y] =>
      lazymatch goal with H : fin x |- _ => lazymatch goal with G : fin y |- _ =>
        let P := fresh "P" in let Q := fresh "Q" in destruct (exn_sub x y H G) as [P Q]; let v := fresh "v" in set (v := fsub o x y) in *; clearbody v end end
  end.
  split; [assumption|]. lra.
Qed.

Lemma hor_val c h order k : fin h -> (forall m, (m <= order)%nat -> fin (c m)) -> (k <= order)%nat ->
  fin (hor S0 c h order k) /\ fv (hor S0 c h order k) = sum_f_R0 (fun i => fv (c (order - k + i)%nat) * fv h ^ i) k.
Proof.
  intros Hh Hc. induction k as [|k IH]; intros Hk; cbn [hor].
  - cbn [sum_f_R0]. split; [apply Hc; lia|]. cbn [pow]. rewrite Rmult_1_r. f_equal. f_equal. lia.
  - destruct IH as [I1 I2]; [lia|]. destruct (xr_mul L S0 XR _ _ I1 Hh) as [M1 M2]. destruct (xr_add L S0 XR (c (order - S k)%nat) _ (Hc (order - S k)%nat ltac:(lia)) M1) as [A1 A2].
    split; [exact A1|]. rewrite A2, M2, I2. rewrite (decomp_sum _ (S k)) by lia. cbn [pow Init.Nat.pred]. rewrite Nat.add_0_r, Rmult_1_r. f_equal.
    rewrite Rmult_comm, scal_sum. apply sum_eq. intros i Hi. replace (order - S k + S i)%nat with (order - k + i)%nat by lia. ring.
Qed.
Lemma cev_val c h k : fin h -> (forall m, (m <= k)%nat -> fin (c m)) ->
  let '(r, cp, ch) := cev S0 c h k in
  fin r /\ fin cp /\ fin ch /\ fv r = sum_f_R0 (fun i => fv (c i) * fv h ^ i) k /\ fv cp = 0 /\ fv ch = fv h ^ S k.
Proof.
  intros Hh. induction k as [|k IH]; intros Hc; cbn [cev].
  - destruct (xr_0 L S0 XR) as [Z1 Z2]. split; [apply Hc; lia|]. split; [exact Z1|]. split; [exact Hh|]. cbn [sum_f_R0 pow]. split; [ring|]. split; [exact Z2 | ring].
  - specialize (IH ltac:(intros; apply Hc; lia)). destruct (cev S0 c h k) as [[r cp] ch]. destruct IH as (I1 & I2 & I3 & I4 & I5 & I6).
    destruct (xr_mul L S0 XR (c (S k)) ch (Hc (S k) ltac:(lia)) I3) as [A1 A2]. destruct (xr_sub L S0 XR _ cp A1 I2) as [B1 B2].
    destruct (xr_add L S0 XR r _ I1 B1) as [C1 C2]. destruct (xr_sub L S0 XR _ r C1 I1) as [D1 D2]. destruct (xr_sub L S0 XR _ _ D1 B1) as [E1 E2].
    destruct (xr_mul L S0 XR ch h I3 Hh) as [G1 G2].
    split; [exact C1|]. split; [exact E1|]. split; [exact G1|]. split; [|split].
    + rewrite C2, B2, A2, I4, I5, I6. cbn [sum_f_R0]. lra.
    + rewrite E2, D2, C2. ring.
    + rewrite G2, I6. cbn [pow]. ring.
Qed.
Lemma evals_val ha c h order : fin h -> (forall m, (m <= order)%nat -> fin (c m)) ->
  fin (evals S0 ha c h order) /\ fv (evals S0 ha c h order) = taylor_poly (fun k => fv (c k)) order (fv h).
Proof.
  intros Hh Hc. unfold evals, taylor_poly. destruct ha.
  - pose proof (cev_val c h order Hh Hc) as H. destruct (cev S0 c h order) as [[r cp] ch]. cbn [fst]. tauto.
  - destruct (hor_val c h order order Hh Hc (le_n _)) as [H1 H2]. split; [exact H1|]. rewrite H2. apply sum_eq. intros i Hi. now replace (order - order + i)%nat with i by lia.
Qed.
Lemma d_out_val ha dim order out seg h out' : fin h -> length out = dim -> length seg = (dim * (order + 1))%nat -> Forall (fun x => fin x) seg ->
  d_out_f S0 1 ha dim order out seg [h] = MDone out' ->
  length out' = dim /\ forall j, (j < dim)%nat -> fin (nth j out' (f0 o)) /\
    fv (nth j out' (f0 o)) = taylor_poly (fun k => fv (nth (j * (order + 1) + k)%nat seg (f0 o))) order (fv h).
Proof.
  intros Hh Lo Ls HF E.
  destruct (dense_ok S0 1 dim order out seg [h]) with (ha := ha) as (o1 & E1 & L1 & H1); [lia | rewrite Ls; lia | cbn; lia|].
  assert (o1 = out') by congruence. subst o1. split; [congruence|]. intros j Hj. specialize (H1 j 0%nat Hj Nat.lt_0_1). rewrite Nat.mul_1_r, Nat.add_0_r in H1.
  rewrite (nth_indep out' _ (t_nat (s_t S0) 0)) by lia. rewrite H1. cbn [nth].
  assert (EX : forall k, (k <= order)%nat -> nth ((order + 1) * 1 * j + k * 1 + 0) seg (t_nat (s_t S0) 0) = nth (j * (order + 1) + k) seg (f0 o)).
  { intros k Hk. replace ((order + 1) * 1 * j + k * 1 + 0)%nat with (j * (order + 1) + k)%nat by ring. apply nth_indep. rewrite Ls. nia. }
  rewrite (evals_ext S0 ha _ (fun k => nth (j * (order + 1) + k)%nat seg (f0 o)) h order EX) || rewrite (evals_ext S0 0 ha _ (fun k => nth (j * (order + 1) + k)%nat seg (f0 o)) h order EX).
  apply evals_val; [exact Hh|]. intros m Hm. rewrite Forall_forall in HF. apply HF. apply nth_In. rewrite Ls. nia.
Qed.
Lemma taylor_poly_0 c order : taylor_poly c order 0 = c 0%nat.
Proof.
  unfold taylor_poly. induction order as [|n IH]; cbn [sum_f_R0].
  - cbn [pow]. ring.
  - rewrite IH. cbn [pow]. ring.
Qed.
End Exact.
End P.
