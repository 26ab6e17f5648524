(* The chain rule: the derivative of a regular expression along a curve is the sum of its
   partial derivatives times the velocities of the variables, the parameters and the time. *)
From Coquelicot Require Import Coquelicot.
From Coq Require Import String Bool ZArith Reals List Lra Lia.
From Verif Require Import M_Expr S_Expr P_ExprSem P_Build P_Subs S_Diff P_Deriv P_Deriv2 P_Deriv3 P_Diff T_Diff P_Adj1 S_Reg P_Reg1.
Import ListNotations.
Local Open Scope R_scope.
Set Bullet Behavior "Strict Subproofs".

Inductive leaf := LV (s : string) | LP (i : nat) | LT.
Definition lval (l : leaf) (rho : env) : option R := match l with LV s => v_var rho s | LP i => v_par rho i | LT => v_time rho end.
Definition lex {N} (l : leaf) : expr N := match l with LV s => EVar s | LP i => EPar i | LT => EFun Ftime [] end.
Definition lset_env (l : leaf) (t : R) (rho : env) : env :=
  match l with
  | LV s => upd (DVar s) t rho
  | LP i => upd (DPar i) t rho
  | LT => mkEnv (v_var rho) (v_par rho) (Some t) (v_dfun rho) (v_user rho)
  end.
Definition of_d (d : darg) : leaf := match d with DVar s => LV s | DPar i => LP i end.
Lemma leaf_dec : forall a b : leaf, {a = b} + {a <> b}.
Proof. decide equality; [apply string_dec | apply Nat.eq_dec]. Qed.

Lemma hasd_uniq G t0 v v' : hasd G t0 v -> hasd G t0 v' -> v = v'.
Proof.
  intros (g & Hg & Dg) (h & Hh & Dh). apply is_derive_unique in Dg. rewrite <- Dg. apply is_derive_unique.
  apply (is_derive_ext_loc h); [|exact Dh]. generalize Hg Hh. apply filter_imp2. intros t H1 H2. congruence.
Qed.

Section Chain.
Context {o : nops} {nval : num o -> R} (L : nlaws o nval).
Local Notation ex := (expr (num o)).
Local Notation ev := (eval o nval).
Local Notation RG := (l_ring L).

(* The arguments along the curve. *)
Inductive carr (t0 : R) : list ex -> list R -> list (R -> R) -> list R -> Prop :=
| cr_nil : carr t0 [] [] [] []
| cr_cons a v c d args vs cs ds : is_derive c t0 d -> c t0 = v -> ((exists n, a = ENum n) -> (forall t, c t = v) /\ d = 0) ->
    carr t0 args vs cs ds -> carr t0 (a :: args) (v :: vs) (c :: cs) (d :: ds).
Lemma carr_der t0 args vs cs ds : carr t0 args vs cs ds -> Forall2 (fun c d => is_derive c t0 d) cs ds.
Proof. induction 1; constructor; auto. Qed.
Lemma carr_at t0 args vs cs ds : carr t0 args vs cs ds -> at_t cs t0 = vs.
Proof. induction 1; [reflexivity|]. cbn [at_t map]. subst v. now rewrite <- IHcarr. Qed.
Lemma carr_len t0 args vs cs ds : carr t0 args vs cs ds -> length cs = length args.
Proof. induction 1; cbn [length]; lia. Qed.

Lemma d1 a x : dot [a] [x] = a * x.
Proof. unfold dot, rsum. simpl. ring. Qed.
Lemma d2 a b x y : dot [a; b] [x; y] = a * x + b * y.
Proof. unfold dot, rsum. simpl. ring. Qed.
Lemma d3 a b c x y z : dot [a; b; c] [x; y; z] = a * x + b * y + c * z.
Proof. unfold dot, rsum. simpl. ring. Qed.

Lemma fun_path rho f args vs : f <> Ftime -> inner o nval rho f args vs -> length args = length vs -> oseq (map (ev rho) args) = Some vs ->
  exists gs, length gs = length args /\ forall (gm : R -> env) t0 cs ds, (forall t, v_dfun (gm t) = v_dfun rho) -> carr t0 args vs cs ds ->
    hasd (fun t => ssem o nval (gm t) f (at_t cs t)) t0 (dot gs ds).
Proof.
  intros Hft Hi Hl HV. destruct f; cbn [inner] in Hi; try contradiction.
  - exists (map (fun _ => 1) args). split; [apply map_length|]. intros gm t0 cs ds _ HC. cbn [ssem].
    replace (dot (map (fun _ => 1) args) ds) with (rsum ds).
    + apply hasd_fun. apply is_derive_rsum. eapply carr_der; eassumption.
    + clear - HC. induction HC; [reflexivity|]. cbn [map]. rewrite dot_cons, rsum_cons, IHHC. ring.
  - exists (map (fun i => others i vs) (seq 0 (length args))). split; [now rewrite map_length, seq_length|]. intros gm t0 cs ds _ HC. cbn [ssem].
    apply hasd_fun. rewrite <- (carr_len _ _ _ _ _ HC), <- (carr_at _ _ _ _ _ HC). apply is_derive_rprod. eapply carr_der; eassumption.
  - destruct args as [|b [|x [|]]]; try contradiction. destruct vs as [|vb [|vx [|]]]; try contradiction.
    destruct Hi as [Hpos|(n & k & -> & Hn & Hor)].
    + exists [vx * Rpower vb (vx - 1); Rpower vb vx * ln vb]. split; [reflexivity|]. intros gm t0 cs ds _ HC.
      inversion HC as [|? ? cb db ? ? cs1 ds1 Db Eb _ HC1]; subst. inversion HC1 as [|? ? cx dx ? ? cs2 ds2 Dx Ex _ HC2]; subst. inversion HC2; subst.
      cbn [ssem at_t map]. rewrite d2. now apply hasd_pow_pos.
    + exists [IZR k * powerRZ vb (k - 1); 0]. split; [reflexivity|]. intros gm t0 cs ds _ HC.
      inversion HC as [|? ? cb db ? ? cs1 ds1 Db Eb _ HC1]; subst. inversion HC1 as [|? ? cx dx ? ? cs2 ds2 Dx Ex Hx HC2]; subst. inversion HC2; subst.
      destruct (Hx ltac:(eauto)) as [Hc ->]. cbn [ssem at_t map]. rewrite d2, Rmult_0_r, Rplus_0_r.
      assert (Hk : cx t0 = IZR k).
      { apply oseq_cons_some in HV. destruct HV as (? & ? & _ & HV & E). injection E as <- <-. cbn in HV. injection HV as <-. exact Hn. }
      apply (hasd_ext (fun t => rpow (cb t) (IZR k))); [apply filter_forall; intros t; now rewrite Hc, Hk|].
      apply hasd_pow_int; assumption.
  - destruct args as [|x [|]]; try contradiction. destruct vs as [|v [|]]; try contradiction.
    exists [uder u v]. split; [reflexivity|]. intros gm t0 cs ds _ HC. inversion HC as [|? ? c d ? ? cs1 ds1 D E _ HC1]; subst. inversion HC1; subst.
    cbn [ssem at_t map]. rewrite d1. now apply hasd_unary.
  - destruct args as [|y [|x [|]]]; try contradiction. destruct vs as [|vy [|vx [|]]]; try contradiction.
    exists [vx * / (vx * vx + vy * vy); - vy * / (vx * vx + vy * vy)]. split; [reflexivity|]. intros gm t0 cs ds _ HC.
    inversion HC as [|? ? cb db ? ? cs1 ds1 Db Eb _ HC1]; subst. inversion HC1 as [|? ? cx dx ? ? cs2 ds2 Dx Ex _ HC2]; subst. inversion HC2; subst.
    cbn [ssem at_t map]. rewrite d2. now apply hasd_atan2.
  - destruct args as [|x [|]]; try contradiction. destruct vs as [|v [|]]; try contradiction.
    exists [if Rlt_dec 0 v then 1 else nval slope]. split; [reflexivity|]. intros gm t0 cs ds _ HC. inversion HC as [|? ? c d ? ? cs1 ds1 D E _ HC1]; subst. inversion HC1; subst.
    cbn [ssem at_t map]. rewrite d1. now apply (hasd_relu (nval slope) c).
  - destruct args as [|x [|]]; try contradiction. destruct vs as [|v [|]]; try contradiction.
    exists [0]. split; [reflexivity|]. intros gm t0 cs ds _ HC. inversion HC as [|? ? c d ? ? cs1 ds1 D E _ HC1]; subst. inversion HC1; subst.
    cbn [ssem at_t map]. rewrite d1, Rmult_0_l. now apply (hasd_relup (nval slope) c t0 d).
  - destruct args as [|x [|y [|]]]; try contradiction. destruct vs as [|vx [|vy [|]]]; try contradiction.
    exists [0; 0]. split; [reflexivity|]. intros gm t0 cs ds _ HC.
    inversion HC as [|? ? cb db ? ? cs1 ds1 Db Eb _ HC1]; subst. inversion HC1 as [|? ? cx dx ? ? cs2 ds2 Dx Ex _ HC2]; subst. inversion HC2; subst.
    cbn [ssem at_t map]. rewrite d2, !Rmult_0_l, Rplus_0_l. now apply (hasd_rel op cb cx t0 db dx).
  - destruct args as [|e [|M [|]]]; try contradiction. destruct vs as [|ve [|vM [|]]]; try contradiction.
    assert (He01 : 0 <= ve < 1) by (destruct Hi as [|[]]; lra).
    destruct (kep_some 0 (- ve) vM) as [E HE]; [nra|]. pose proof (kep_deriv_pos 0 (- ve) E ltac:(nra)) as Hdp.
    exists [sin E * / (1 - ve * cos E); / (1 - ve * cos E)]. split; [reflexivity|]. intros gm t0 cs ds _ HC.
    inversion HC as [|? ? ce de ? ? cs1 ds1 De Ee Hce HC1]; subst. inversion HC1 as [|? ? cM dM ? ? cs2 ds2 DM EM _ HC2]; subst. inversion HC2; subst.
    rewrite d2. apply (hasd_ext (fun t => kep_sol 0 (- ce t) (cM t))).
    + cbn [at_t map ssem].
      assert (Hge : locally t0 (fun t => 0 <= ce t)).
      { destruct Hi as [[Hp _]|[_ Hno]].
        - assert (Hc := derive_continuous _ _ _ De).
          generalize (locally_comp ce t0 _ Hc (locally_gt 0 (ce t0) Hp)). apply filter_imp. intros t Ht. lra.
        - destruct (Hce Hno) as (Hc & _). apply filter_forall. intros t. rewrite Hc. lra. }
      revert Hge. apply filter_imp. intros t Ht. destruct (Rle_dec 0 (ce t)); [reflexivity | contradiction].
    + eapply hasd_eq; [|apply (hasd_kep (fun _ => 0) (fun t => - ce t) cM t0 0 (- de) dM E)].
      * cbv beta. field. lra.
      * apply is_derive_const_R.
      * now apply is_derive_opp_R.
      * exact DM.
      * exact HE.
  - destruct args as [|h [|k [|l [|]]]]; try contradiction. destruct vs as [|vh [|vk [|vl [|]]]]; try contradiction.
    destruct (kep_some vh (- vk) vl) as [E HE]; [nra|]. pose proof (kep_deriv_pos vh (- vk) E ltac:(nra)) as Hdp.
    exists [- cos E * / (1 - vh * sin E - vk * cos E); sin E * / (1 - vh * sin E - vk * cos E); / (1 - vh * sin E - vk * cos E)]. split; [reflexivity|]. intros gm t0 cs ds _ HC.
    inversion HC as [|? ? ch dh ? ? cs1 ds1 Dh Eh _ HC1]; subst. inversion HC1 as [|? ? ck dk ? ? cs2 ds2 Dk Ek _ HC2]; subst. inversion HC2 as [|? ? cl dl ? ? cs3 ds3 Dl El _ HC3]; subst. inversion HC3; subst.
    rewrite d3. cbn [at_t map ssem]. eapply hasd_eq; [|apply (hasd_kep ch (fun t => - ck t) cl t0 dh (- dk) dl E)]; [|exact Dh | now apply is_derive_opp_R | exact Dl | exact HE].
    cbv beta. field. lra.
  - destruct args as [|h [|k [|l [|]]]]; try contradiction. destruct vs as [|vh [|vk [|vl [|]]]]; try contradiction.
    destruct (kep_some (- vh) (- vk) (vl - vh)) as [E HE]; [nra|]. pose proof (kep_deriv_pos (- vh) (- vk) E ltac:(nra)) as Hdp.
    exists [(cos E - 1) * / (1 + vh * sin E - vk * cos E); sin E * / (1 + vh * sin E - vk * cos E); / (1 + vh * sin E - vk * cos E)]. split; [reflexivity|]. intros gm t0 cs ds _ HC.
    inversion HC as [|? ? ch dh ? ? cs1 ds1 Dh Eh _ HC1]; subst. inversion HC1 as [|? ? ck dk ? ? cs2 ds2 Dk Ek _ HC2]; subst. inversion HC2 as [|? ? cl dl ? ? cs3 ds3 Dl El _ HC3]; subst. inversion HC3; subst.
    rewrite d3. cbn [at_t map ssem]. eapply hasd_eq; [|apply (hasd_kep (fun t => - ch t) (fun t => - ck t) (fun t => cl t - ch t) t0 (- dh) (- dk) (dl - dh) E)];
      [|now apply is_derive_opp_R | now apply is_derive_opp_R | apply (is_derive_minus cl ch t0 dl dh); assumption | exact HE].
    cbv beta. field. lra.
  - destruct args; [|contradiction]. destruct vs; [|contradiction]. exists []. split; [reflexivity|]. intros gm t0 cs ds _ HC. inversion HC; subst.
    eapply hasd_eq; [|apply (hasd_fun (fun _ => PI) t0 0); apply is_derive_const_R]. reflexivity.
  - destruct Hi as (eps & He & Hf). destruct (Hf vs didx eq_refl) as (gs & Hg & _); [|constructor|].
    { assert (dist1 vs vs = 0); [|lra]. clear. induction vs as [|x l IH]; [reflexivity|]. rewrite dist1_cons, IH, Rminus_eq_0, Rabs_R0. lra. }
    exists gs. split; [destruct Hg as [Hgl _]; congruence|]. intros gm t0 cs ds Hdf HC. cbn [ssem].
    apply (hasd_ext (fun t => v_dfun rho id didx (at_t cs t))); [apply filter_forall; intros t; now rewrite Hdf|].
    apply hasd_frechet; [eapply carr_der; eassumption|]. rewrite (carr_at _ _ _ _ _ HC). exact Hg.
Qed.

(* A curve through the point, with the velocities w of the leaves of D. *)
Record curve (D : list leaf) (rho : env) (t0 : R) (gm : R -> env) (w : leaf -> R) : Prop := {
  cv_at : forall l, In l D -> lval l (gm t0) = lval l rho;
  cv_der : forall l, In l D -> hasd (fun t => lval l (gm t)) t0 (w l);
  cv_dfun : forall t, v_dfun (gm t) = v_dfun rho;
  cv_user : forall t, v_user (gm t) = v_user rho }.

Definition total (D : list leaf) (c w : leaf -> R) : R := rsum (map (fun l => c l * w l) D).
Definition covers (D : list leaf) (e : ex) : Prop := forall l, occurs (lex l) e -> In l D.

Lemma total_pick : forall D l w, NoDup D -> In l D -> total D (fun l' => if leaf_dec l' l then 1 else 0) w = w l.
Proof.
  unfold total. intros D l w HN. induction HN as [|a D Ha HN IH]; intros H; [destruct H|]. cbn [map]. rewrite rsum_cons. destruct H as [->|H].
  - destruct (leaf_dec l l) as [_|N]; [|congruence]. assert (Z : rsum (map (fun l' => (if leaf_dec l' l then 1 else 0) * w l') D) = 0).
    { clear - Ha. induction D as [|b D IH]; [reflexivity|]. cbn [map]. rewrite rsum_cons, IH by (intros H; apply Ha; now right).
      destruct (leaf_dec b l) as [->|]; [exfalso; apply Ha; now left | ring]. }
    rewrite Z. ring.
  - rewrite (IH H). destruct (leaf_dec a l) as [->|]; [contradiction | ring].
Qed.
Lemma total_zero D w : total D (fun _ => 0) w = 0.
Proof. unfold total. induction D as [|a D IH]; [reflexivity|]. cbn [map]. rewrite rsum_cons, IH. ring. Qed.
Lemma total_dot D w : forall gs (cc : list (leaf -> R)), length gs = length cc ->
  total D (fun l => dot gs (map (fun c => c l) cc)) w = dot gs (map (fun c => total D c w) cc).
Proof.
  intros gs cc. revert gs. induction cc as [|c cc IH]; intros [|g gs] Hl; try discriminate.
  - unfold dot. cbn. apply total_zero.
  - cbn [map]. rewrite dot_cons, <- IH by (cbn in Hl; lia). unfold total. clear. induction D as [|a D IH]; [cbn; unfold rsum; simpl; ring|].
    cbn [map]. rewrite !rsum_cons, IH, dot_cons. ring.
Qed.

Section Fix.
Context (rho : env).
Local Notation reg := (regular o nval rho).
Definition chains (e : ex) (c : leaf -> R) : Prop := forall D t0 gm w, NoDup D -> covers D e -> curve D rho t0 gm w ->
  hasd (fun t => ev (gm t) e) t0 (total D c w).

Lemma eval_leaves r1 r2 : v_dfun r1 = v_dfun r2 -> v_user r1 = v_user r2 -> forall e, (forall l, occurs (lex l) e -> lval l r1 = lval l r2) -> ev r1 e = ev r2 e.
Proof.
  intros Hd Hu. induction e as [n|s|i|f args IH] using expr_ind'; intros Hl.
  - reflexivity.
  - apply (Hl (LV s)). constructor.
  - apply (Hl (LP i)). constructor.
  - cbn [eval]. assert (Em : map (ev r1) args = map (ev r2) args).
    { apply map_ext_in. intros a Ha. rewrite Forall_forall in IH. apply (IH a Ha). intros l Ho. apply Hl. eapply occ_arg; eassumption. }
    rewrite Em. assert (Es : forall vs, ssem o nval r1 f vs = ssem o nval r2 f vs \/ (f = Ftime /\ args <> [])).
    { intros vs. destruct f; cbn [ssem]; auto; [|rewrite Hd; auto | rewrite Hu; auto].
      destruct args as [|a l]; [|right; split; [reflexivity | discriminate]]. left. destruct vs; [|reflexivity]. apply (Hl LT). constructor. }
    unfold fsem. set (ml := map (ev r2) args). assert (Hml : length ml = length args) by (unfold ml; apply map_length).
    assert (Eo : (match oseq ml with Some l => ssem o nval r1 f l | None => None end) = (match oseq ml with Some l => ssem o nval r2 f l | None => None end)).
    { destruct (oseq ml) as [l|] eqn:Eq; [|reflexivity]. destruct (Es l) as [H|[-> Hne]]; [exact H|].
      apply oseq_forall2 in Eq. destruct ml as [|m0 ml']; [destruct args; [congruence | discriminate Hml]|]. inversion Eq; subst. reflexivity. }
    destruct f; try exact Eo. destruct ml as [|x [|y [|z [|]]]]; try exact Eo. reflexivity.
Qed.
Lemma hasd_at g t0 v y : hasd g t0 v -> g t0 = Some y -> exists c, locally t0 (fun t => g t = Some (c t)) /\ is_derive c t0 v /\ c t0 = y.
Proof.
  intros (c & Hc & Hd) Hy. exists c. split; [exact Hc|]. split; [exact Hd|]. apply locally_singleton in Hc. rewrite Hy in Hc. apply some_inj in Hc. symmetry. exact Hc.
Qed.
Lemma covers_arg D f args a : covers D (EFun f args) -> In a args -> covers D a.
Proof. intros H Ha l Ho. apply H. eapply occ_arg; eassumption. Qed.

Lemma args_curve D t0 gm w : NoDup D -> curve D rho t0 gm w -> forall args vs cc,
  (forall a, In a args -> covers D a) -> Forall2 (rval (nval := nval) rho) args vs -> Forall2 chains args cc ->
  exists cs, carr t0 args vs cs (map (fun c => total D c w) cc) /\ locally t0 (fun t => oseq (map (ev (gm t)) args) = Some (at_t cs t)).
Proof.
  intros HN HC. induction args as [|a args IH]; intros vs cc HD HF HX; inversion HF as [|? v ? vs' [Hra Hv] HF']; subst; inversion HX as [|? c ? cc' Hc HX']; subst.
  - exists []. split; [constructor|]. apply filter_forall. reflexivity.
  - destruct (IH vs' cc' (fun x Hx => HD x (or_intror Hx)) HF' HX') as (cs & Hcs & Hloc).
    assert (Hv0 : ev (gm t0) a = Some v).
    { rewrite <- Hv. apply eval_leaves; [apply (cv_dfun _ _ _ _ _ HC) | apply (cv_user _ _ _ _ _ HC)|].
      intros l Ho. apply (cv_at _ _ _ _ _ HC). apply (HD a (or_introl eq_refl)). exact Ho. }
    assert (Hn : (exists n, a = ENum n) \/ ~ (exists n, a = ENum n)) by (destruct a; [left; eauto | | |]; right; intros (? & ?); discriminate).
    assert (Hcs' : oseq (map (ev (gm t0)) (a :: args)) = Some (v :: vs') -> True) by trivial. clear Hcs'.
    destruct Hn as [(n & ->)|Hn].
    + cbn in Hv. injection Hv as <-. exists ((fun _ => nval n) :: cs). split.
      * cbn [map]. constructor; [| reflexivity | |exact Hcs].
        -- assert (Z : total D c w = 0).
           { pose proof (Hc D t0 gm w HN (HD _ (or_introl eq_refl)) HC) as Hz. eapply hasd_uniq; [exact Hz|]. cbn [eval]. apply hasd_fun, is_derive_const_R. }
           rewrite Z. apply is_derive_const_R.
        -- intros _. split; [reflexivity|]. pose proof (Hc D t0 gm w HN (HD _ (or_introl eq_refl)) HC) as Hz. eapply hasd_uniq; [exact Hz|]. cbn [eval]. apply hasd_fun, is_derive_const_R.
      * revert Hloc. apply filter_imp. intros t Ht. cbn [map]. rewrite oseq_cons. cbn [eval at_t map]. now rewrite Ht.
    + destruct (hasd_at _ _ _ _ (Hc D t0 gm w HN (HD _ (or_introl eq_refl)) HC) Hv0) as (c0 & Hl0 & Hd0 & H0).
      exists (c0 :: cs). split.
      * cbn [map]. constructor; [exact Hd0 | exact H0 | |exact Hcs]. intros He. contradiction.
      * generalize Hl0 Hloc. apply filter_imp2. intros t H1 H2. cbn [map]. rewrite oseq_cons, H1, H2. reflexivity.
Qed.

Lemma chain_rule : forall e, reg e -> exists c, chains e c.
Proof.
  induction e as [n|s|i|f args IH] using expr_ind'; intros Hr.
  - exists (fun _ => 0). intros D t0 gm w HN HD HC. rewrite total_zero. cbn [eval]. apply hasd_fun, is_derive_const_R.
  - exists (fun l' => if leaf_dec l' (LV s) then 1 else 0). intros D t0 gm w HN HD HC.
    assert (Hin : In (LV s) D) by (apply HD; constructor). rewrite total_pick by assumption. apply (cv_der _ _ _ _ _ HC _ Hin).
  - exists (fun l' => if leaf_dec l' (LP i) then 1 else 0). intros D t0 gm w HN HD HC.
    assert (Hin : In (LP i) D) by (apply HD; constructor). rewrite total_pick by assumption. apply (cv_der _ _ _ _ _ HC _ Hin).
  - inversion Hr as [| | |? ? vs HF Hi]; subst. pose proof (reg_args rho _ _ HF) as HV. pose proof (Forall2_len _ _ _ HF) as Hl.
    assert (Hft : f = Ftime \/ f <> Ftime) by (destruct f; auto; right; discriminate). destruct Hft as [->|Hft].
    + cbn [inner] in Hi. destruct args; [|contradiction]. exists (fun l' => if leaf_dec l' LT then 1 else 0). intros D t0 gm w HN HD HC.
      assert (Hin : In LT D) by (apply HD; constructor). rewrite total_pick by assumption. apply (cv_der _ _ _ _ _ HC _ Hin).
    + assert (Hcc : exists cc, Forall2 chains args cc).
      { clear - IH HF. revert vs HF. induction IH as [|a l Ha _ IH]; intros vs HF; inversion HF as [|? v ? vs' [Hra _] HF']; subst; [exists []; constructor|].
        destruct (Ha Hra) as [c Hc]. destruct (IH _ HF') as [cc Hcc]. exists (c :: cc). constructor; auto. }
      destruct Hcc as [cc Hcc]. pose proof (Forall2_len _ _ _ Hcc) as Hlc.
      destruct (fun_path rho f args vs Hft Hi Hl HV) as (gs & Hlg & Hgs).
      exists (fun l => dot gs (map (fun c => c l) cc)). intros D t0 gm w HN HD HC. rewrite total_dot by congruence.
      destruct (args_curve D t0 gm w HN HC args vs cc (fun a Ha => covers_arg D f args a HD Ha) HF Hcc) as (cs & Hcs & Hloc).
      apply (hasd_ext (fun t => ssem o nval (gm t) f (at_t cs t))).
      * revert Hloc. apply filter_imp. intros t Ht. cbn [eval]. rewrite fsem_strict by exact (inner_strict _ _ _ _ Hi). now rewrite Ht.
      * apply (Hgs gm t0 cs _ (cv_dfun _ _ _ _ _ HC) Hcs).
Qed.

(* The coefficients are the partial derivatives. *)
Lemma lval_set l t r : lval l (lset_env l t r) = Some t.
Proof. destruct l; cbn; [now rewrite String.eqb_refl | now rewrite Nat.eqb_refl | reflexivity]. Qed.
Lemma lval_other l l' t r : l' <> l -> lval l' (lset_env l t r) = lval l' r.
Proof.
  intros H. destruct l, l'; cbn; try reflexivity.
  - destruct (String.eqb_spec s0 s); [congruence | reflexivity].
  - destruct (Nat.eqb_spec i0 i); [congruence | reflexivity].
  - congruence.
Qed.
Lemma coordinate D l t0 : lval l rho = Some t0 -> (forall l', In l' D -> exists v, lval l' rho = Some v) ->
  curve D rho t0 (fun t => lset_env l t rho) (fun l' => if leaf_dec l' l then 1 else 0).
Proof.
  intros Hl HD. constructor.
  - intros l' _. destruct (leaf_dec l' l) as [->|Hn]; [now rewrite lval_set | now apply lval_other].
  - intros l' Hl'. destruct (leaf_dec l' l) as [->|Hn].
    + apply (hasd_ext (fun t => Some t)); [apply filter_forall; intros t; symmetry; apply lval_set|]. apply hasd_fun. apply (is_derive_id t0).
    + destruct (HD _ Hl') as [v Hv]. apply (hasd_ext (fun t => Some v)); [apply filter_forall; intros t; symmetry; rewrite <- Hv; now apply lval_other|]. apply hasd_fun, is_derive_const_R.
  - intros t. destruct l; reflexivity.
  - intros t. destruct l; reflexivity.
Qed.
Lemma reg_leaf : forall e, reg e -> forall l, occurs (lex l) e -> exists v, lval l rho = Some v.
Proof.
  induction e as [n|s|i|f args IH] using expr_ind'; intros Hr l Ho.
  - inversion Ho; destruct l; discriminate.
  - inversion Hr as [|? v Hv| |]; subst. inversion Ho as [E|]; destruct l; try discriminate E. injection E as <-. exists v. exact Hv.
  - inversion Hr as [| |? v Hv|]; subst. inversion Ho as [E|]; destruct l; try discriminate E. injection E as <-. exists v. exact Hv.
  - inversion Hr as [| | |? ? vs HF Hi]; subst. inversion Ho as [E|? ? a Ha Hoa]; subst.
    + destruct l; try discriminate. injection E as <- <-. cbn in Hi. inversion HF; subst. destruct Hi as [t Ht]. exists t. exact Ht.
    + rewrite Forall_forall in IH. apply (IH a Ha); [|exact Hoa]. destruct (in_split a args Ha) as (l1 & l2 & ->).
      apply Forall2_app_inv_l in HF. destruct HF as (k1 & k2 & _ & HF & _). inversion HF as [|? ? ? ? [H _] _]; subst. exact H.
Qed.
Fixpoint leaves (e : ex) : list leaf :=
  match e with
  | ENum _ => []
  | EVar s => [LV s]
  | EPar i => [LP i]
  | EFun f args => match f with Ftime => [LT] | _ => [] end ++ flat_map leaves args
  end.
Lemma leaves_spec : forall e l, occurs (lex l) e -> In l (leaves e).
Proof.
  induction e as [n|s|i|f args IH] using expr_ind'; intros l Ho; inversion Ho as [E|? ? a Ha Hoa]; subst; try (destruct l; discriminate).
  - destruct l; try discriminate. injection E as ->. now left.
  - destruct l; try discriminate. injection E as ->. now left.
  - destruct l; try discriminate. injection E as <- <-. now left.
  - cbn [leaves]. apply in_app_iff. right. apply in_flat_map. exists a. split; [exact Ha|]. rewrite Forall_forall in IH. now apply IH.
Qed.
Lemma total_swap D c l : NoDup D -> In l D -> total D c (fun l' => if leaf_dec l' l then 1 else 0) = c l.
Proof.
  intros HN H. rewrite <- (total_pick D l c HN H). unfold total. f_equal. apply map_ext. intros a. ring.
Qed.
(* For curves whose leaves include those of the expression, the chain rule holds with
   the partial derivatives. *)
Lemma chain_partial e D t0 gm w (p : leaf -> R) : reg e -> NoDup D -> covers D e -> curve D rho t0 gm w ->
  (forall l v, In l D -> lval l rho = Some v -> hasd (fun t => ev (lset_env l t rho) e) v (p l)) ->
  (forall l, In l D -> exists v, lval l rho = Some v) ->
  hasd (fun t => ev (gm t) e) t0 (total D p w).
Proof.
  intros Hr HN HD HC Hp Hv. destruct (chain_rule e Hr) as (c & Hc).
  assert (E : total D p w = total D c w).
  { unfold total. f_equal. apply map_ext_in. intros l Hl. f_equal. destruct (Hv l Hl) as (v & Hlv).
    pose proof (Hp l v Hl Hlv) as H1. pose proof (Hc D v _ _ HN HD (coordinate D l v Hlv Hv)) as H2. rewrite total_swap in H2 by assumption.
    exact (hasd_uniq _ _ _ _ H1 H2). }
  rewrite E. now apply Hc.
Qed.
End Fix.
End Chain.
