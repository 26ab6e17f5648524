(* C18, C28 in IEEE arithmetic: the theorems which hold in any arithmetic with certain
   laws, applied to float, double, long double and __float128 (and to every other binary
   format). *)
From Coq Require Import ZArith Reals Lra Lia Bool String List.
From Flocq Require Import Core BinarySingleNaN.
From Verif Require Import M_Expr X_Expr X_Dec M_Float M_Dfloat S_Dfl P_Dfl3 M_Dag M_Dec S_Dec M_Taylor S_Taylor M_Stepper S_Stepper P_Stepper3 T_Stepper
  M_Step S_Step M_Event S_Event S_Cool T_Event P_Ieee.
Import ListNotations.
Local Open Scope nat_scope.
Set Bullet Behavior "Strict Subproofs".

(* The arithmetic is that of IEEE, rounding to nearest even; pow() and exp() are any
   functions whose results have no minus sign (or are NaN) if the base has none. *)
Theorem ieee_timestep_respects_bound (prec emax : Z) (Hp : Prec_gt_0 prec) (Hm : Prec_lt_emax prec emax) hsp pos pow exp
    bs o A d order ha ha' compact st hm hmu tc tcu st' hm' tc' stu' hmu' tcu' :
  let val := bval prec emax in let plus := bplus prec emax in let S0 := bsops prec emax Hp Hm hsp pos pow exp in
  (forall x y, plus x -> plus (pow x y)) -> (forall x, plus (exp x)) ->
  jet_ready (o := o) d [] -> sized bs o d order st hm tc -> sized bs o d order st hmu tcu ->
  ends S0 bs o A d order ha compact st hm tc st' hm' tc' ->
  ends S0 bs o A d order ha' compact st hmu tcu stu' hmu' tcu' ->
  let v m l := val (nth l m (B754_zero false)) in
  forall l, l < bs -> v hmu l = PInf ->
    respects_bound (v hm l) (v hmu' l) (v hm' l) /\ (v hm l = NaN -> v hm' l = v hmu' l).
Proof.
  intros val plus S0 Hpow Hexp HR Hs Hsu H Hu.
  exact (timestep_respects_bound S0 val plus bs o A d order ha ha' compact st hm hmu tc tcu st' hm' tc' stu' hmu' tcu'
    (b_step_laws prec emax Hp Hm hsp pos pow exp Hpow Hexp) HR Hs Hsu H Hu).
Qed.
Theorem ieee_event_timestep_respects_bound (prec emax : Z) (Hp : Prec_gt_0 prec) (Hm : Prec_lt_emax prec emax) hsp pos pow exp
    bs o A d sv order compact st jm hm mm jmu hmu mmu jm' hm' mm' jmu' hmu' mmu' :
  let val := bval prec emax in let plus := bplus prec emax in let S0 := bsops prec emax Hp Hm hsp pos pow exp in
  (forall x y, plus x -> plus (pow x y)) -> (forall x, plus (exp x)) ->
  jet_ready (o := o) d sv -> sized_ev bs o d sv order st jm hm mm -> sized_ev bs o d sv order st jmu hmu mmu ->
  ends_ev S0 bs o A d sv order compact st jm hm mm jm' hm' mm' ->
  ends_ev S0 bs o A d sv order compact st jmu hmu mmu jmu' hmu' mmu' ->
  let v m l := val (nth l m (B754_zero false)) in
  forall l, l < bs -> v hmu l = PInf ->
    respects_bound (v hm l) (v hmu' l) (v hm' l) /\ (v hm l = NaN -> v hm' l = v hmu' l).
Proof.
  intros val plus S0 Hpow Hexp HR Hs Hsu H Hu.
  exact (event_timestep_respects_bound S0 val plus bs o A d sv order compact st jm hm mm jmu hmu mmu jm' hm' mm' jmu' hmu' mmu'
    (b_step_laws prec emax Hp Hm hsp pos pow exp Hpow Hexp) HR Hs Hsu H Hu).
Qed.

(* The root finding library, when it does not fail, returns finite numbers which are not
   below the lower bound of the interval. The binomial coefficients are any numbers. *)
Theorem ieee_detected_times_in_step (prec emax : Z) (Hp : Prec_gt_0 prec) (Hm : Prec_lt_emax prec emax) bin solve
    {St En : Type} (cf : cfg (bops prec emax Hp Hm) St (list (F (bops prec emax Hp Hm))) En) tdirs ndirs order dim :
  stays_above prec emax Hp Hm solve ->
  uses_detector (beops prec emax Hp Hm bin) solve tdirs ndirs order dim cf -> (Z.of_nat (length tdirs) < 2 ^ 32)%Z ->
  detect_ok (blaws prec emax Hp Hm) cf.
Proof. intros HS. apply (detected_times_in_step _ _ _ (b_round_laws prec emax Hp Hm bin solve HS)). Qed.

(* --- Concrete cases: binary64 -------------------------------------------------------------- *)
Definition hp64 : Prec_gt_0 53 := eq_refl.
Definition hm64 : Prec_lt_emax 53 1024 := eq_refl.
Notation b64 := (binary_float 53 1024).
(* pow(x, y) = x, exp(x) = |x|. *)
Definition s64 : sops b64 := bsops 53 1024 hp64 hm64 (B754_zero false) (fun x _ _ => x) (fun x _ => x) Babs.
(* A batch of two states (x' = x, in real literals), of which the second one is bounded by -1. *)
Example ieee_timestep_demo A ha compact (x : b64) :
  exists st' hm' tc', ends s64 2 rnum A gdc 2 ha compact [x; x] [B754_infinity false; Bopp (bnat 53 1024 hp64 hm64 1)] None st' hm' tc' /\
    let h := bval 53 1024 (nth 1 hm' (B754_zero false)) in
    h = NaN \/ exists r, h = Fin r /\ (-1 <= r <= 0)%R.
Proof.
  destruct gdc_ready as [_ HR].
  set (hm := [B754_infinity false; Bopp (bnat 53 1024 hp64 hm64 1)] : list b64). set (hu := [B754_infinity false; B754_infinity false] : list b64).
  assert (Hs : forall h, length h = 2 -> sized 2 rnum gdc 2 [x; x] h None) by (intros h Hh; repeat split; cbn; lia).
  pose proof (Hs hm eq_refl) as H1. pose proof (Hs hu eq_refl) as H2. clear Hs.
  destruct (steps_end s64 2 rnum A gdc 2 ha compact _ _ _ HR H1) as (st' & hm' & tc' & H).
  destruct (steps_end s64 2 rnum A gdc 2 ha compact _ _ _ HR H2) as (stu & hmu & tcu & HU).
  exists st', hm', tc'. split; [exact H|]. cbv zeta.
  destruct (ieee_timestep_respects_bound 53 1024 hp64 hm64 (B754_zero false) (fun x _ _ => x) (fun x _ => x) Babs
     2 rnum A gdc 2 ha ha compact _ hm hu _ _ _ _ _ _ _ _
     ltac:(auto) ltac:(intros [?|?| |? ? ? ?]; [right|right|left|right]; reflexivity) HR H1 H2 H HU 1 Nat.lt_1_2 eq_refl) as [(_ & B1 & B2) _].
  assert (EM : bval 53 1024 (nth 1 hm (B754_zero false)) = Fin (-1)%R).
  { cbn [nth hm]. rewrite bval_fin by reflexivity. rewrite B2R_Bopp. f_equal. replace (-1)%R with (- (1))%R by (cbn; lra). f_equal. apply one_ok. }
  cbv beta zeta in B1, B2. rewrite EM in *. set (h := bval 53 1024 (nth 1 hm' (B754_zero false))) in *. set (u := bval 53 1024 (nth 1 hmu (B754_zero false))) in *.
  assert (D : u = NaN \/ u <> NaN) by (destruct u; auto; right; discriminate). destruct D as [D|D].
  - left. apply B1; [discriminate|exact D].
  - assert (N : Fin (-1)%R <> NaN) by discriminate. destruct (B2 N D) as (C1 & _ & C2 & _). unfold xlt, xle, xabs in *. cbn [ext_abs ext_lt ext_le] in *.
    assert (C3 : rltb (-1) 0 = true) by (unfold rltb; destruct (Rlt_dec (-1) 0); [reflexivity|lra]). specialize (C2 C3).
    rewrite Rabs_left in C1 by lra. destruct h as [r| | |]; cbn in *; auto; try discriminate.
    assert (RL : forall a b, rleb a b = true -> (a <= b)%R) by (intros a b; unfold rleb; destruct (Rle_dec a b); auto; discriminate).
    apply RL in C1. apply RL in C2. rename C1 into K.
    right. exists r. split; [reflexivity|]. apply Rabs_le_inv in K. lra.
Qed.
(* A solver that always returns the lower bound; the detector of an integrator in double precision. *)
Definition s_low : root_finder (o := bops 53 1024 hp64 hm64) := fun f lb ub => (lb, lb, 0%Z, true).
Example ieee_detection_demo (bin : nat -> nat -> b64) :
  stays_above 53 1024 hp64 hm64 s_low /\
  exists cf : cfg (bops 53 1024 hp64 hm64) unit (list b64) unit,
    uses_detector (beops 53 1024 hp64 hm64 bin) s_low [0%Z] [1%Z] 2 1 cf /\ detect_ok (blaws 53 1024 hp64 hm64) cf.
Proof.
  assert (HS : stays_above 53 1024 hp64 hm64 s_low).
  { intros f lb ub p1 p2 Hl (errno & _ & E). injection E as <- <- <-. repeat split; auto; apply Rle_refl. }
  split; [exact HS|].
  set (o := bops 53 1024 hp64 hm64).
  exists (Build_cfg o unit (list b64) unit true (fun s _ h => (s, h, [])) (fun s _ h => ([], h, h)) (fun s _ _ => s) (fun _ => true) (fun h => h)
    (fun jet h geps cd => match detect_events o (beops 53 1024 hp64 hm64 bin) s_low 100 [0%Z] cd [1%Z] jet h 2 1 geps with MDone r => (d_tes r, d_ntes r) | _ => ([], []) end)
    (fun l => l) (fun l => l) (fun _ => f0 o) (fun x _ => x) (fun _ w _ _ => Ret w) (fun _ => None)).
  split; [exists 100%nat; reflexivity|]. eapply (ieee_detected_times_in_step 53 1024 hp64 hm64 bin s_low); [exact HS|exists 100%nat; reflexivity|reflexivity].
Qed.
(* Zeros with a minus sign: why the theorems on timesteps do not just require numbers that are not negative. *)
Example ieee_minus_zero : bval 53 1024 (t_div (s_t s64) (t_nat (s_t s64) 1) (B754_zero true)) = NInf.
Proof. reflexivity. Qed.

Print Assumptions ieee_timestep_respects_bound.
Print Assumptions ieee_event_timestep_respects_bound.
Print Assumptions ieee_detected_times_in_step.
