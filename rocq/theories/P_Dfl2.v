(* Double-length addition over the reals: the transformations are exact, the result
   is normalised, and the relative error is bounded. *)
From Coq Require Import ZArith Reals Lra Lia.
From Flocq Require Import Core Sterbenz.
From Verif Require Import P_Dfl1.
Local Open Scope R_scope.
Set Bullet Behavior "Strict Subproofs".

Section Add.
Context (emin prec : Z) (Hp : (4 <= prec)%Z) (He : (emin <= 0)%Z).
Notation fexp := (FLT_exp emin prec).
Notation RN := (round radix2 fexp ZnearestE).
Notation fmt := (generic_format radix2 fexp).
Notation bpow := (bpow radix2).
Notation ee := (ee emin prec).

Definition norm (h l : R) : Prop := fmt h /\ fmt l /\ RN (h + l) = h.

Lemma norm_lo h l : norm h l -> Rabs l <= bpow (ee h - 1).
Proof.
  intros [_ [_ N]]. pose proof (RN_err' emin prec Hp (h + l)) as K. rewrite N in K. replace (h - (h + l)) with (- l) in K by ring. rewrite Rabs_Ropp in K. auto.
Qed.
(* The rounding of a small multiple is exact. *)
Lemma RN_small e x k : (emin <= e)%Z -> mult e x -> Rabs x <= bpow k -> (k <= e + prec)%Z -> RN x = x.
Proof. intros H0 M A B. apply RN_id. apply (fmt_mult emin prec Hp e); auto. eapply Rle_trans; [exact A|apply bpow_le; auto]. Qed.
(* The error of rounding a multiple of 2^emin with a bound. *)
Lemma RN_bound x k : mult emin x -> Rabs x <= bpow k -> RN x = x \/ ((emin + prec < k)%Z /\ Rabs (RN x - x) <= bpow (k - prec)).
Proof.
  intros M A. destruct (Z_le_gt_dec k (emin + prec)) as [L|G]; [left; apply (RN_small emin x k); auto; lia|]. right. split; [lia|].
  eapply Rle_trans; [apply RN_err; auto|]. apply bpow_le. assert (ee x <= k - prec + 1)%Z; [|lia]. apply ee_up; [lia|]. eapply Rle_lt_trans; [exact A|]. apply bpow_lt. lia.
Qed.

Section Two.
Context (xh xl yh yl : R) (Nx : norm xh xl) (Ny : norm yh yl) (Hxy : Rabs yh <= Rabs xh).
Let sh := RN (xh + yh). Let sl := xh + yh - sh.
Let th := RN (xl + yl). Let tl := xl + yl - th.
Let c := RN (sl + th). Let vh := RN (sh + c). Let vl := sh + c - vh.
Let w := RN (vl + tl).
Let ex := ee xh.

Let Fxh : fmt xh := proj1 Nx. Let Fyh : fmt yh := proj1 Ny.
Let Fxl : fmt xl := proj1 (proj2 Nx). Let Fyl : fmt yl := proj1 (proj2 Ny).
Lemma fsh : fmt sh. Proof. apply RN_fmt; auto. Qed.
Lemma fth : fmt th. Proof. apply RN_fmt; auto. Qed.
Lemma fc : fmt c. Proof. apply RN_fmt; auto. Qed.
Lemma fvh : fmt vh. Proof. apply RN_fmt; auto. Qed.
Lemma fw : fmt w. Proof. apply RN_fmt; auto. Qed.
Lemma fsl : fmt sl. Proof. apply sum_err_fmt; auto. Qed.
Lemma ftl : fmt tl. Proof. apply sum_err_fmt; auto. Qed.
Lemma exm : (emin <= ex)%Z. Proof. apply ee_min. Qed.
Lemma multm x : fmt x -> mult emin x.
Proof. intros F. apply (mult_le (ee x)); [apply ee_min|apply ee_mult; auto]. Qed.

Lemma lows : Rabs (xl + yl) <= bpow ex.
Proof.
  pose proof (norm_lo _ _ Nx). pose proof (norm_lo _ _ Ny). assert (ee yh <= ex)%Z by (apply ee_le; auto).
  assert (bpow (ee yh - 1) <= bpow (ex - 1)) by (apply bpow_le; lia). pose proof (Rabs_triang xl yl). fold ex in H. rewrite <- (half ex) in *. lra.
Qed.
Lemma th_le : Rabs th <= bpow ex.
Proof. apply RN_abs_le; [auto|apply fmt_bpow; [auto|apply exm]|apply lows]. Qed.
Lemma tl_le : Rabs tl <= bpow (ee th - 1).
Proof. unfold tl, th. rewrite Rabs_minus_sym. apply RN_err'. auto. Qed.
Lemma vl_le : Rabs vl <= bpow (ee vh - 1).
Proof. unfold vl, vh. rewrite Rabs_minus_sym. apply RN_err'. auto. Qed.
Lemma sl_le : Rabs sl <= bpow (ee sh - 1).
Proof. unfold sl, sh. rewrite Rabs_minus_sym. apply RN_err'. auto. Qed.
Lemma vh_ge : vh <> 0 -> bpow (ee vh) <= Rabs vh.
Proof. intros N. apply mult_big; [|auto]. apply ee_mult. apply fvh. Qed.

(* The sum of the high parts either cancels, and is exact, or is not much smaller than xh. *)
Definition cancels : Prop := sl = 0 /\ c = th /\ exists ey, (emin <= ey)%Z /\ mult ey sh /\ (ex <= ey + 1)%Z.
Lemma cases : cancels \/ (ex - 1 <= ee sh)%Z.
Proof.
  destruct (Rlt_dec (Rabs (xh + yh)) (Rabs xh / 2)) as [L|G].
  - left. assert (E : sh = xh + yh).
    { unfold sh. apply RN_id. destruct (Rle_dec 0 xh) as [P|P].
      - replace (xh + yh) with (xh - - yh) by ring. apply sterbenz; [apply FLT_exp_valid; apply prec_pos; auto|apply FLT_exp_monotone|auto|apply generic_format_opp; auto|].
        clear - L Hxy P. unfold Rabs in *. repeat destruct Rcase_abs; lra.
      - replace (xh + yh) with (yh - - xh) by ring. apply sterbenz; [apply FLT_exp_valid; apply prec_pos; auto|apply FLT_exp_monotone|auto|apply generic_format_opp; auto|].
        clear - L Hxy P. unfold Rabs in *. repeat destruct Rcase_abs; lra. }
    assert (Z0 : sl = 0) by (unfold sl; rewrite E; ring). split; [auto|]. split; [unfold c; rewrite Z0, Rplus_0_l; apply RN_id, fth|].
    exists (ee yh). split; [apply ee_min|]. split.
    + rewrite E. apply mult_add; [apply (mult_le ex); [apply ee_le; auto|apply ee_mult; auto]|apply ee_mult; auto].
    + apply ee_up; [pose proof (ee_min emin prec yh); lia|]. pose proof (ee_lt emin prec yh) as K. replace (ee yh + 1 + prec)%Z with (ee yh + prec + 1)%Z by ring. rewrite <- twice.
      clear - L Hxy K. unfold Rabs in *. repeat destruct Rcase_abs; lra.
  - right. assert (ee (xh + yh) <= ee sh)%Z by (apply ee_RN; auto). assert (ex <= ee (xh + yh) + 1)%Z; [|lia].
    apply ee_up; [pose proof (ee_min emin prec (xh + yh)); lia|]. pose proof (ee_lt emin prec (xh + yh)) as K. replace (ee (xh + yh) + 1 + prec)%Z with (ee (xh + yh) + prec + 1)%Z by ring. rewrite <- twice. lra.
Qed.
Lemma c_le : (ex - 1 <= ee sh)%Z -> Rabs (sl + th) <= bpow (ee sh + 2) /\ Rabs c <= bpow (ee sh + 2).
Proof.
  intros H. assert (A : Rabs (sl + th) <= bpow (ee sh + 2)).
  { pose proof (Rabs_triang sl th). pose proof sl_le. pose proof th_le. assert (bpow ex <= bpow (ee sh + 1)) by (apply bpow_le; lia).
    pose proof (twice (ee sh + 1)) as T1. pose proof (twice (ee sh)) as T2. pose proof (half (ee sh)) as T3. pose proof (bpow_gt_0 radix2 (ee sh)). replace (ee sh + 1 + 1)%Z with (ee sh + 2)%Z in T1 by ring. lra. }
  split; [auto|]. apply RN_abs_le; auto. apply fmt_bpow; auto. pose proof (ee_min emin prec sh). lia.
Qed.
(* The condition of the first Dekker transformation. *)
Lemma sh_mult_c : mult (ee c) sh.
Proof.
  destruct cases as [[Z0 [Ec [ey [E1 [E2 E3]]]]]|H].
  - apply (mult_le ey); [|auto]. apply ee_up; [auto|]. rewrite Ec. eapply Rle_lt_trans; [apply th_le|]. apply bpow_lt. lia.
  - apply (mult_le (ee sh)); [|apply ee_mult; apply fsh]. apply ee_up; [apply ee_min|]. eapply Rle_lt_trans; [apply (c_le H)|]. apply bpow_lt. lia.
Qed.
Lemma c_sum_mult : mult (ee c) (sh + c).
Proof. apply mult_add; [apply sh_mult_c|apply ee_mult; apply fc]. Qed.
Lemma first_exact : RN (RN (sh - vh) + c) = vl.
Proof. apply fast2sum; auto; [apply fsh|apply fc|apply sh_mult_c]. Qed.
Lemma vh_big : (ex - 1 <= ee sh)%Z -> ee sh <> emin -> bpow (ee sh + prec - 2) <= Rabs vh.
Proof.
  intros H N. assert (N0 : sh <> 0). { intros Z0. apply N. unfold P_Dfl1.ee. destruct (Req_bool_spec sh 0); auto; contradiction. }
  destruct (ee_ge emin prec sh N0) as [|G]; [contradiction|]. destruct (c_le H) as [_ Hc]. apply RN_abs_ge; [auto|apply fmt_bpow; auto; pose proof (ee_min emin prec sh); lia|].
  assert (bpow (ee sh + 2) <= bpow (ee sh + prec - 2)) by (apply bpow_le; lia).
  assert (T : 2 * bpow (ee sh + prec - 2) = bpow (ee sh + prec - 1)) by (rewrite twice; f_equal; ring).
  pose proof (Rabs_triang (sh + c) (- c)) as K. rewrite Rabs_Ropp in K. replace (sh + c + - c) with sh in K by ring. lra.
Qed.
Lemma th_vh : vh <> 0 -> (ee th <= ee vh)%Z \/ (cancels /\ bpow (ee th) <= Rabs vh).
Proof.
  intros N. destruct cases as [C|H].
  - right. split; [auto|]. destruct C as [_ [Ec _]]. rewrite <- Ec. apply mult_big; [|auto]. apply RN_mult; [auto|apply ee_min|apply c_sum_mult].
  - left. destruct (Z_le_gt_dec (ee th) (ee vh)) as [|G]; [auto|]. exfalso. pose proof (ee_min emin prec vh). pose proof (ee_min emin prec sh).
    assert (ee th <= Z.max emin (ee sh + 2 - prec))%Z.
    { apply ee_up; [lia|]. eapply Rle_lt_trans; [apply th_le|]. apply bpow_lt. lia. }
    assert (ee sh <> emin) by lia. pose proof (vh_big H H3). pose proof (ee_lt emin prec vh).
    assert (bpow (ee sh + prec - 2) < bpow (ee vh + prec)) by lra. apply lt_bpow in H6. lia.
Qed.
Lemma low_le : vh <> 0 -> Rabs (vl + tl) <= Rabs vh.
Proof.
  intros N. pose proof (Rabs_triang vl tl). pose proof vl_le as A. pose proof tl_le as B. pose proof (vh_ge N) as C. rewrite <- (half (ee vh)) in A. rewrite <- (half (ee th)) in B.
  destruct (th_vh N) as [L|[_ L]]; [|lra]. assert (bpow (ee th) <= bpow (ee vh)) by (apply bpow_le; auto). lra.
Qed.
Lemma vh_zero : vh = 0 -> sh + c = 0.
Proof. apply (RN_zero emin prec Hp (ee c)); [apply ee_min|apply c_sum_mult]. Qed.
Lemma second_exact : RN (RN (vh - RN (vh + w)) + w) = vh + w - RN (vh + w).
Proof.
  destruct (Req_dec vh 0) as [Z0|N]; [apply fast2sum_0; auto; apply fw|]. apply fast2sum_le; auto; [apply fvh|apply fw|].
  apply RN_abs_le; [auto|apply generic_format_abs; apply fvh|apply low_le; auto].
Qed.

(* --- The error --- *)
Let tot := xh + xl + (yh + yl).
Lemma tot_split : vh + w - tot = (c - (sl + th)) + (w - (vl + tl)).
Proof. unfold tot, tl, vl, sl. ring. Qed.
Lemma mvl : mult emin vl.
Proof. unfold vl. apply mult_sub; [apply mult_add; apply multm; [apply fsh|apply fc]|apply multm; apply fvh]. Qed.
Lemma mlow : mult emin (vl + tl).
Proof. apply mult_add; [apply mvl|apply multm; apply ftl]. Qed.
(* The error of the last rounding. *)
Lemma err2 : Rabs (w - (vl + tl)) <= bpow (1 - 2 * prec) * Rabs vh.
Proof.
  assert (P0 : 0 <= bpow (1 - 2 * prec) * Rabs vh) by (apply Rmult_le_pos; [apply bpow_ge_0|apply Rabs_pos]).
  assert (EX : vl = 0 -> Rabs (w - (vl + tl)) <= bpow (1 - 2 * prec) * Rabs vh).
  { intros Z0. unfold w. rewrite Z0, Rplus_0_l, (RN_id emin prec tl ftl). replace (tl - tl) with 0 by ring. rewrite Rabs_R0. auto. }
  destruct (Req_dec vh 0) as [Z0|N].
  { apply EX. unfold vl. rewrite (vh_zero Z0), Z0. ring. }
  destruct (Req_dec vl 0) as [|Nl]; [auto|].
  assert (L : (ee th <= ee vh)%Z).
  { destruct (th_vh N) as [L|[[_ [Ec _]] _]]; [auto|]. rewrite <- Ec. 
    destruct (Z_le_gt_dec (ee c) (ee vh)) as [|G]; [auto|]. exfalso. apply Nl. unfold vl, vh. rewrite RN_id; [ring|].
    apply (fmt_mult emin prec Hp (ee c)); [apply ee_min|apply c_sum_mult|]. destruct (Rle_dec (Rabs (sh + c)) (bpow (ee c + prec))) as [|GT]; [auto|]. exfalso.
    assert (K : bpow (ee c + prec) <= Rabs vh) by (apply RN_abs_ge; [auto|apply fmt_bpow; auto; pose proof (ee_min emin prec c); lia|lra]).
    pose proof (ee_lt emin prec vh). assert (K2 : bpow (ee c + prec) < bpow (ee vh + prec)) by lra. apply lt_bpow in K2. lia. }
  assert (B : Rabs (vl + tl) <= bpow (ee vh)).
  { pose proof (Rabs_triang vl tl). pose proof vl_le as A. pose proof tl_le as B. rewrite <- (half (ee vh)) in A. assert (bpow (ee th - 1) <= bpow (ee vh - 1)) by (apply bpow_le; lia). rewrite <- (half (ee vh)) in *. lra. }
  destruct (RN_bound (vl + tl) (ee vh) mlow B) as [E|[G E]].
  - unfold w. rewrite E. replace (vl + tl - (vl + tl)) with 0 by ring. rewrite Rabs_R0. auto.
  - fold w in E. eapply Rle_trans; [exact E|]. destruct (ee_ge emin prec vh N) as [|V]; [lia|].
    replace (ee vh - prec)%Z with ((1 - 2 * prec) + (ee vh + prec - 1))%Z by ring. rewrite bpow_plus. apply Rmult_le_compat_l; [apply bpow_ge_0|auto].
Qed.
(* The error of the first one. *)
Lemma err1 : c - (sl + th) = 0 \/ ((ex - 1 <= ee sh)%Z /\ ee sh <> emin /\ Rabs (c - (sl + th)) <= bpow (3 - 2 * prec) * Rabs sh /\ bpow (ee sh + prec - 1) <= Rabs sh).
Proof.
  destruct cases as [[Z0 [Ec _]]|H]; [left; rewrite Z0, Ec; ring|]. destruct (c_le H) as [A _].
  destruct (RN_bound (sl + th) (ee sh + 2)) as [E|[G E]]; [apply mult_add; apply multm; [apply fsl|apply fth]|auto| |].
  - left. unfold c. rewrite E. ring.
  - right. split; [auto|]. assert (N : ee sh <> emin) by lia. split; [auto|]. assert (N0 : sh <> 0). { intros Z0. apply N. unfold P_Dfl1.ee. destruct (Req_bool_spec sh 0); auto; contradiction. }
    destruct (ee_ge emin prec sh N0) as [|V]; [contradiction|]. split; [|auto]. eapply Rle_trans; [exact E|].
    replace (ee sh + 2 - prec)%Z with ((3 - 2 * prec) + (ee sh + prec - 1))%Z by ring. rewrite bpow_plus. apply Rmult_le_compat_l; [apply bpow_ge_0|auto].
Qed.
Lemma p_small k : (0 <= k)%Z -> bpow (k - 2 * prec) <= bpow (k - 8).
Proof. intros H. apply bpow_le. lia. Qed.
Lemma tot_err1 : Rabs (c - (sl + th)) <= bpow (4 - 2 * prec) * Rabs tot.
Proof.
  destruct err1 as [-> |[H [N [E V]]]]; [rewrite Rabs_R0; apply Rmult_le_pos; [apply bpow_ge_0|apply Rabs_pos]|].
  eapply Rle_trans; [exact E|]. replace (4 - 2 * prec)%Z with (3 - 2 * prec + 1)%Z by ring. rewrite <- twice, (Rmult_comm 2), Rmult_assoc. apply Rmult_le_compat_l; [apply bpow_ge_0|].
  assert (K : Rabs (sl + (xl + yl)) <= bpow (ee sh + 2)).
  { pose proof (Rabs_triang sl (xl + yl)). pose proof sl_le. pose proof lows. assert (bpow ex <= bpow (ee sh + 1)) by (apply bpow_le; lia).
    pose proof (twice (ee sh + 1)) as T1. pose proof (twice (ee sh)) as T2. pose proof (half (ee sh)) as T3. pose proof (bpow_gt_0 radix2 (ee sh)). replace (ee sh + 1 + 1)%Z with (ee sh + 2)%Z in T1 by ring. lra. }
  assert (bpow (ee sh + 2) <= bpow (ee sh + prec - 2)) by (apply bpow_le; lia).
  assert (T : 2 * bpow (ee sh + prec - 2) = bpow (ee sh + prec - 1)) by (rewrite twice; f_equal; ring).
  replace tot with (sh + (sl + (xl + yl))) by (unfold tot, sl; ring). pose proof (Rabs_triang (sh + (sl + (xl + yl))) (- (sl + (xl + yl)))) as Q. rewrite Rabs_Ropp in Q.
  replace (sh + (sl + (xl + yl)) + - (sl + (xl + yl))) with sh in Q by ring. lra.
Qed.
Lemma vh_tot : Rabs vh <= 4 * Rabs tot.
Proof.
  destruct (Req_dec vh 0) as [-> |N]; [rewrite Rabs_R0; pose proof (Rabs_pos tot); lra|].
  pose proof tot_err1 as E1. pose proof (p_small 4 ltac:(lia)) as P4. change (bpow (4 - 8)) with (/ 16) in P4.
  assert (E1' : Rabs (c - (sl + th)) <= / 16 * Rabs tot) by (eapply Rle_trans; [exact E1|apply Rmult_le_compat_r; [apply Rabs_pos|auto]]).
  (* vh + (vl + tl) = tot + error *)
  assert (S : vh + (vl + tl) = tot + (c - (sl + th))) by (unfold tot, tl, vl, sl; ring).
  assert (B : Rabs (vl + tl) <= 5 / 8 * Rabs vh).
  { pose proof (Rabs_pos vh). pose proof (Rabs_triang vl tl) as T. pose proof vl_le as A. pose proof tl_le as B. pose proof (vh_ge N) as C. rewrite <- (half (ee vh)) in A. rewrite <- (half (ee th)) in B.
    destruct (Req_dec vl 0) as [Zl|Nl].
    - assert (Zv : Rabs vl = 0) by (rewrite Zl; apply Rabs_R0). rewrite Zv in T. clear A. destruct (th_vh N) as [L|[_ L]]; [|lra]. assert (bpow (ee th) <= bpow (ee vh)) by (apply bpow_le; auto). lra.
    - assert (NM : ee vh <> emin).
      { intros EM. apply Nl. destruct (Req_dec vl 0) as [|Q]; [auto|]. exfalso. pose proof (mult_big emin vl mvl Q). rewrite EM in A. pose proof (bpow_gt_0 radix2 emin). lra. }
      destruct (ee_ge emin prec vh N) as [|V]; [contradiction|]. assert (V8 : 8 * bpow (ee vh) <= Rabs vh).
      { eapply Rle_trans; [|exact V]. change 8 with (bpow 3). rewrite <- bpow_plus. apply bpow_le. lia. }
      destruct (th_vh N) as [L|[_ L]]; [assert (bpow (ee th) <= bpow (ee vh)) by (apply bpow_le; auto)|]; lra. }
  pose proof (Rabs_triang (vh + (vl + tl)) (- (vl + tl))) as Q. rewrite Rabs_Ropp in Q. replace (vh + (vl + tl) + - (vl + tl)) with vh in Q by ring. rewrite S in Q.
  pose proof (Rabs_triang tot (c - (sl + th))). pose proof (Rabs_pos tot). lra.
Qed.
Lemma tot_err : Rabs (vh + w - tot) <= bpow (5 - 2 * prec) * Rabs tot.
Proof.
  rewrite tot_split. eapply Rle_trans; [apply Rabs_triang|]. pose proof tot_err1 as E1. pose proof err2 as E2. pose proof vh_tot as V.
  assert (bpow (1 - 2 * prec) * Rabs vh <= bpow (1 - 2 * prec) * (4 * Rabs tot)) by (apply Rmult_le_compat_l; [apply bpow_ge_0|auto]).
  pose proof (bpow_plus radix2 4 (1 - 2 * prec)) as P5. pose proof (bpow_plus radix2 3 (1 - 2 * prec)) as P4. replace (4 + (1 - 2 * prec))%Z with (5 - 2 * prec)%Z in P5 by ring. replace (3 + (1 - 2 * prec))%Z with (4 - 2 * prec)%Z in P4 by ring.
  change (bpow 4) with 16 in P5. change (bpow 3) with 8 in P4. rewrite P5, P4 in *. pose proof (bpow_ge_0 radix2 (1 - 2 * prec)). pose proof (Rabs_pos tot).
  assert (0 <= bpow (1 - 2 * prec) * Rabs tot) by (apply Rmult_le_pos; auto). lra.
Qed.
End Two.

(* Addition of normalised numbers, in any order of the magnitudes. *)
Theorem dl_add xh xl yh yl : norm xh xl -> norm yh yl ->
  let sh := RN (xh + yh) in let sl := xh + yh - sh in let th := RN (xl + yl) in let tl := xl + yl - th in
  let c := RN (sl + th) in let vh := RN (sh + c) in let vl := RN (RN (sh - vh) + c) in
  let w := RN (vl + tl) in let zh := RN (vh + w) in let zl := RN (RN (vh - zh) + w) in
  norm zh zl /\ Rabs (zh + zl - (xh + xl + (yh + yl))) <= bpow (5 - 2 * prec) * Rabs (xh + xl + (yh + yl)).
Proof.
  intros Nx Ny sh sl th tl c vh vl w zh zl. set (tot := xh + xl + (yh + yl)).
  assert (K : vl = sh + c - vh /\ zl = vh + w - zh /\ Rabs (vh + w - tot) <= bpow (5 - 2 * prec) * Rabs tot).
  { destruct (Rle_dec (Rabs yh) (Rabs xh)) as [L|L].
    - assert (E : vl = sh + c - vh) by (apply (first_exact xh xl yh yl Nx Ny L)). split; [auto|]. unfold zl, zh, w. rewrite E. split; [apply (second_exact xh xl yh yl Nx Ny L)|apply (tot_err xh xl yh yl Nx Ny L)].
    - assert (L' : Rabs xh <= Rabs yh) by lra. assert (S1 : sh = RN (yh + xh)) by (unfold sh; rewrite Rplus_comm; auto). assert (S2 : th = RN (yl + xl)) by (unfold th; rewrite Rplus_comm; auto).
      assert (S3 : sl = yh + xh - RN (yh + xh)) by (unfold sl; rewrite S1; ring). assert (S4 : tl = yl + xl - RN (yl + xl)) by (unfold tl; rewrite S2; ring).
      assert (E : vl = sh + c - vh). { unfold vl, vh, c. rewrite S1, S2, S3. apply (first_exact yh yl xh xl Ny Nx L'). } split; [auto|]. unfold zl, zh, w. rewrite E.
      pose proof (second_exact yh yl xh xl Ny Nx L') as K1. pose proof (tot_err yh yl xh xl Ny Nx L') as K2. replace tot with (yh + yl + (xh + xl)) by (unfold tot; ring).
      unfold vh, c. rewrite S3, S4, S1, S2. split; [exact K1|exact K2]. }
  destruct K as [E1 [E2 E3]]. split.
  - split; [apply RN_fmt; auto|]. split; [apply RN_fmt; auto|]. rewrite E2. unfold zh at 3. f_equal. ring.
  - rewrite E2. replace (zh + (vh + w - zh)) with (vh + w) by ring. auto.
Qed.
End Add.
