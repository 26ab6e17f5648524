(* The derivative of a function of the library in terms of the values of its
   gradient. *)
From Coquelicot Require Import Coquelicot.
From Coq Require Import String Bool ZArith Reals List Lra Lia.
From Verif Require Import M_Expr S_Expr P_ExprSem P_Build P_Subs S_Diff P_Deriv P_Deriv2 P_Deriv3 P_Diff T_Diff M_Dtens S_Adj.
Import ListNotations.
Local Open Scope R_scope.
Set Bullet Behavior "Strict Subproofs".

Section Grads.
Context {o : nops} {nval : num o -> R} (L : nlaws o nval).
Local Notation ex := (expr (num o)).
Local Notation ev := (eval o nval).
Local Notation RG := (l_ring L).
Local Notation TR := (l_trans L).
Context (ug : string -> list ex -> option (list ex)).

Lemma some_inj {A} (x y : A) : Some x = Some y -> x = y.
Proof. congruence. Qed.
Lemma Forall2_nth {A B} (P : A -> B -> Prop) l l' : Forall2 P l l' ->
  forall k x, nth_error l k = Some x -> exists y, nth_error l' k = Some y /\ P x y.
Proof. induction 1 as [|a b l l' H HF IH]; intros [|k] x E; try discriminate; cbn in E; [injection E as <-; exists b; auto | now apply IH]. Qed.
Lemma Forall2_len {A B} (P : A -> B -> Prop) l l' : Forall2 P l l' -> length l = length l'.
Proof. induction 1; cbn; lia. Qed.

(* The values of the partial derivatives of a function at a point where it is
   differentiable. *)
Lemma lib_grads d f args vs : open_dom o d f args vs -> length args = length vs ->
  exists gs, forall r uargs g, Forall2 (fun u v => ev r u = Some v) uargs vs -> gradient o ug f uargs = Some g ->
    forall k a, nth_error args k = Some a -> occurs (dex d) a ->
    exists z v, nth_error g k = Some z /\ nth_error gs k = Some v /\ ev r z = Some v.
Proof.
  intros Hdom Hlen.
  assert (K : forall gs, (forall r uargs g, Forall2 (fun u v => ev r u = Some v) uargs vs -> gradient o ug f uargs = Some g ->
              Forall2 (fun z v => ev r z = Some v) g gs) -> length gs = length vs -> 
    exists gs, forall r uargs g, Forall2 (fun u v => ev r u = Some v) uargs vs -> gradient o ug f uargs = Some g ->
    forall k a, nth_error args k = Some a -> occurs (dex d) a ->
    exists z v, nth_error g k = Some z /\ nth_error gs k = Some v /\ ev r z = Some v).
  { intros gs H Hl. exists gs. intros r uargs g HF Hg k a Hk _. specialize (H r uargs g HF Hg).
    assert (Hkl : (k < length args)%nat) by (apply nth_error_Some; congruence). pose proof (Forall2_len _ _ _ H) as Hl2.
    destruct (nth_error g k) as [z|] eqn:Ez; [|apply nth_error_None in Ez; lia].
    destruct (Forall2_nth _ _ _ H k z Ez) as (v & Hv & Hz). eauto. }
  destruct f; cbn [open_dom] in Hdom; try contradiction.
  - (* sum *)
    apply (K (map (fun _ => 1) vs)); [|apply map_length]. intros r uargs g HF Hg. cbn [gradient] in Hg. apply some_inj in Hg. subst g.
    clear - HF L. induction HF; cbn [map]; constructor; auto. apply (ev_one L).
  - (* prod *)
    apply (K (map (fun i => others i vs) (seq 0 (length vs)))); [|now rewrite map_length, seq_length].
    intros r uargs g HF Hg. cbn [gradient] in Hg. apply some_inj in Hg. subst g. rewrite (Forall2_len _ _ _ HF).
    generalize (seq 0 (length vs)). intros l. induction l as [|i l IH]; cbn [map]; constructor; auto.
    apply (mk_prod_ok RG). unfold drop_nth. rewrite map_app, <- firstn_map, <- skipn_map. apply oseq_forall2. clear - HF.
    revert i. induction HF as [|x y l l' H HF IH]; intros [|i]; cbn [firstn skipn app map].
    + constructor.
    + constructor.
    + clear - HF. induction HF; constructor; auto.
    + constructor; [exact H | apply IH].
  - (* pow *)
    destruct args as [|b [|x [|]]]; try contradiction. destruct vs as [|vb [|vx [|]]]; try contradiction.
    destruct Hdom as [Hpos|(Hno & k & Hk & Hor)].
    + apply (K [vx * Rpower vb (vx - 1); Rpower vb vx * ln vb]); [|reflexivity]. intros r uargs g HF Hg.
      inversion HF as [|ub ? ? ? Hb HF1]; subst. inversion HF1 as [|ux ? ? ? Hx HF2]; subst. inversion HF2; subst. cbn [gradient] in Hg. apply some_inj in Hg. subst g.
      constructor; [|constructor; [|constructor]].
      * apply (mul_ok L); [exact Hx|]. apply (mk_pow_ok RG r _ _ vb (vx - 1)); [exact TR | exact Hb | |now apply rpow_pos].
        apply (sub_ok L); [exact Hx | apply (ev_one L)].
      * apply (mul_ok L); [apply (mk_pow_ok RG r _ _ vb vx); [exact TR | exact Hb | exact Hx | now apply rpow_pos]|].
        apply (fn_ok L r Ulog _ vb); [exact Hb|]. now apply guard_true.
    + subst vx. exists [IZR k * powerRZ vb (k - 1); 0]. intros r uargs g HF Hg [|[|j]] a Hj Ho.
      * inversion HF as [|ub ? ? ? Hb HF1]; subst. inversion HF1 as [|ux ? ? ? Hx HF2]; subst. inversion HF2; subst. cbn [gradient] in Hg. apply some_inj in Hg. subst g.
        eexists _, _. split; [reflexivity|]. split; [reflexivity|].
        apply (mul_ok L); [exact Hx|]. apply (mk_pow_ok RG r _ _ vb (IZR k - 1)); [exact TR | exact Hb | |].
        -- apply (sub_ok L); [exact Hx | apply (ev_one L)].
        -- now apply rpow_int_at.
      * cbn in Hj. injection Hj as <-. contradiction.
      * cbn in Hj. destruct j; discriminate.
  - (* unary *)
    destruct args as [|x [|]]; try contradiction. destruct vs as [|v [|]]; try contradiction.
    apply (K [uder u v]); [|reflexivity]. intros r uargs g HF Hg.
    inversion HF as [|ux ? ? ? Hx HF1]; subst. inversion HF1; subst. cbn [gradient] in Hg. apply some_inj in Hg. subst g.
    constructor; [|constructor]. now apply (ugrad_ok L).
  - (* atan2 *)
    destruct args as [|y [|x [|]]]; try contradiction. destruct vs as [|vy [|vx [|]]]; try contradiction.
    assert (Hden : vx * vx + vy * vy <> 0) by (destruct Hdom; nra).
    apply (K [vx * / (vx * vx + vy * vy); - vy * / (vx * vx + vy * vy)]); [|reflexivity]. intros r uargs g HF Hg.
    inversion HF as [|uy ? ? ? Hy HF1]; subst. inversion HF1 as [|ux ? ? ? Hx HF2]; subst. inversion HF2; subst. cbn [gradient] in Hg. apply some_inj in Hg. subst g.
    assert (Hd1 : ev r (mk_pow o (mk_add o (mk_pow o ux (dbl o 2)) (mk_pow o uy (dbl o 2))) (dbl o (-1))) = Some (/ (vx * vx + vy * vy))).
    { apply (inv_ok L); [|exact Hden]. apply (add_ok L); now apply (pow2_ok L). }
    constructor; [|constructor; [|constructor]].
    + now apply (mul_ok L).
    + apply (mul_ok L); [now apply (neg_ok L) | exact Hd1].
  - (* relu *)
    destruct args as [|x [|]]; try contradiction. destruct vs as [|v [|]]; try contradiction.
    apply (K [if Rlt_dec 0 v then 1 else nval slope]); [|reflexivity]. intros r uargs g HF Hg.
    inversion HF as [|ux ? ? ? Hx HF1]; subst. inversion HF1; subst. cbn [gradient] in Hg. apply some_inj in Hg. subst g.
    constructor; [|constructor]. now apply (mk_relup_ok RG).
  - (* relup *)
    destruct args as [|x [|]]; try contradiction. destruct vs as [|v [|]]; try contradiction.
    apply (K [0]); [|reflexivity]. intros r uargs g HF Hg.
    inversion HF as [|ux ? ? ? Hx HF1]; subst. inversion HF1; subst. cbn [gradient] in Hg. apply some_inj in Hg. subst g.
    constructor; [|constructor]. apply (ev_dbl RG).
  - (* relational *)
    destruct args as [|y [|x [|]]]; try contradiction. destruct vs as [|vy [|vx [|]]]; try contradiction.
    apply (K [0; 0]); [|reflexivity]. intros r uargs g HF Hg.
    inversion HF as [|uy ? ? ? Hy HF1]; subst. inversion HF1 as [|ux ? ? ? Hx HF2]; subst. inversion HF2; subst. cbn [gradient] in Hg. apply some_inj in Hg. subst g.
    constructor; [|constructor; [|constructor]]; apply (ev_dbl RG).
  - (* kepE *)
    destruct args as [|e [|M [|]]]; try contradiction. destruct vs as [|ve [|vM [|]]]; try contradiction.
    assert (He01 : 0 <= ve < 1) by (destruct Hdom; lra).
    assert (Hsol : exists E, kep_sol 0 (- ve) vM = Some E).
    { unfold kep_sol. destruct (Rlt_dec (0 ^ 2 + (- ve) ^ 2) 1) as [H|H]; [eauto | nra]. }
    destruct Hsol as [E HE]. assert (Hq : 0 ^ 2 + (- ve) ^ 2 < 1) by (clear - He01; nra). pose proof (kep_deriv_pos 0 (- ve) E Hq) as Hdp.
    apply (K [sin E * / (1 - ve * cos E); / (1 - ve * cos E)]); [|reflexivity]. intros r uargs g HF Hg.
    inversion HF as [|ue ? ? ? Hue HF1]; subst. inversion HF1 as [|uM ? ? ? HuM HF2]; subst. inversion HF2; subst. cbn [gradient] in Hg. apply some_inj in Hg. subst g.
    assert (HEv : ev r (EFun FkepE [ue; uM]) = Some E).
    { cbn [eval map]. rewrite fsem_strict by discriminate. rewrite Hue, HuM. cbn. destruct (Rle_dec 0 ve); [exact HE | lra]. }
    assert (Hden : ev r (mk_pow o (mk_sub o (dbl o 1) (mk_mul o ue (mk_fun o Ucos (EFun FkepE [ue; uM])))) (dbl o (-1))) = Some (/ (1 - ve * cos E))).
    { apply (inv_ok L); [|lra]. apply (sub_ok L); [apply (ev_one L)|]. apply (mul_ok L); [exact Hue|]. now apply (fn_ok L r Ucos _ E). }
    constructor; [|constructor; [exact Hden | constructor]]. apply (mul_ok L); [now apply (fn_ok L r Usin _ E) | exact Hden].
  - (* kepF *)
    destruct args as [|h [|k [|l [|]]]]; try contradiction. destruct vs as [|vh [|vk [|vl [|]]]]; try contradiction.
    assert (Hsol : exists E, kep_sol vh (- vk) vl = Some E).
    { unfold kep_sol. destruct (Rlt_dec (vh ^ 2 + (- vk) ^ 2) 1) as [H|H]; [eauto | nra]. }
    destruct Hsol as [E HE]. assert (Hq : vh ^ 2 + (- vk) ^ 2 < 1) by (clear - Hdom; nra). pose proof (kep_deriv_pos vh (- vk) E Hq) as Hdp.
    apply (K [- cos E * / (1 - vh * sin E - vk * cos E); sin E * / (1 - vh * sin E - vk * cos E); / (1 - vh * sin E - vk * cos E)]); [|reflexivity].
    intros r uargs g HF Hg.
    inversion HF as [|uh ? ? ? Hh HF1]; subst. inversion HF1 as [|uk ? ? ? Hk HF2]; subst. inversion HF2 as [|ul ? ? ? Hl HF3]; subst. inversion HF3; subst.
    cbn [gradient] in Hg. apply some_inj in Hg. subst g. set (F := EFun FkepF [uh; uk; ul]) in *.
    assert (HEv : ev r F = Some E).
    { unfold F. cbn [eval map]. rewrite fsem_strict by discriminate. rewrite Hh, Hk, Hl. exact HE. }
    set (den := mk_pow o (mk_sub o (mk_sub o (dbl o 1) (mk_mul o uh (mk_fun o Usin F))) (mk_mul o uk (mk_fun o Ucos F))) (dbl o (-1))).
    assert (Hden : ev r den = Some (/ (1 - vh * sin E - vk * cos E))).
    { apply (inv_ok L); [|lra]. apply (sub_ok L); [apply (sub_ok L); [apply (ev_one L)|]|].
      - apply (mul_ok L); [exact Hh | now apply (fn_ok L r Usin _ E)].
      - apply (mul_ok L); [exact Hk | now apply (fn_ok L r Ucos _ E)]. }
    constructor; [|constructor; [|constructor; [exact Hden | constructor]]].
    + apply (mul_ok L); [|exact Hden]. apply (neg_ok L). now apply (fn_ok L r Ucos _ E).
    + apply (mul_ok L); [|exact Hden]. now apply (fn_ok L r Usin _ E).
  - (* kepDE *)
    destruct args as [|h [|k [|l [|]]]]; try contradiction. destruct vs as [|vh [|vk [|vl [|]]]]; try contradiction.
    assert (Hsol : exists E, kep_sol (- vh) (- vk) (vl - vh) = Some E).
    { unfold kep_sol. destruct (Rlt_dec ((- vh) ^ 2 + (- vk) ^ 2) 1) as [H|H]; [eauto | nra]. }
    destruct Hsol as [E HE]. assert (Hq : (- vh) ^ 2 + (- vk) ^ 2 < 1) by (clear - Hdom; nra). pose proof (kep_deriv_pos (- vh) (- vk) E Hq) as Hdp.
    apply (K [(cos E - 1) * / (1 + vh * sin E - vk * cos E); sin E * / (1 + vh * sin E - vk * cos E); / (1 + vh * sin E - vk * cos E)]); [|reflexivity].
    intros r uargs g HF Hg.
    inversion HF as [|uh ? ? ? Hh HF1]; subst. inversion HF1 as [|uk ? ? ? Hk HF2]; subst. inversion HF2 as [|ul ? ? ? Hl HF3]; subst. inversion HF3; subst.
    cbn [gradient] in Hg. apply some_inj in Hg. subst g. set (F := EFun FkepDE [uh; uk; ul]) in *.
    assert (HEv : ev r F = Some E).
    { unfold F. cbn [eval map]. rewrite fsem_strict by discriminate. rewrite Hh, Hk, Hl. exact HE. }
    set (den := mk_pow o (mk_sub o (mk_add o (dbl o 1) (mk_mul o uh (mk_fun o Usin F))) (mk_mul o uk (mk_fun o Ucos F))) (dbl o (-1))).
    assert (Hden : ev r den = Some (/ (1 + vh * sin E - vk * cos E))).
    { apply (inv_ok L); [|lra]. apply (sub_ok L); [apply (add_ok L); [apply (ev_one L)|]|].
      - apply (mul_ok L); [exact Hh | now apply (fn_ok L r Usin _ E)].
      - apply (mul_ok L); [exact Hk | now apply (fn_ok L r Ucos _ E)]. }
    constructor; [|constructor; [|constructor; [exact Hden | constructor]]].
    + apply (mul_ok L); [|exact Hden]. apply (sub_ok L); [now apply (fn_ok L r Ucos _ E) | apply (ev_one L)].
    + apply (mul_ok L); [|exact Hden]. now apply (fn_ok L r Usin _ E).
Qed.

Context (d : darg) (rho : env) (t0 : R).
Hypothesis Ht0 : dval d rho = Some t0.
Hypothesis HU : user_gradients_correct o nval ug rho.
Local Notation smoo := (smooth o nval ug d rho t0).
Local Notation occ := (occurs (dex d)).

Lemma Forall2_vals args uargs vs r :
  Forall2 (fun a v => smoo a /\ ev rho a = Some v) args vs ->
  Forall2 (fun a u => ev r u = ev rho a) args uargs -> Forall2 (fun u v => ev r u = Some v) uargs vs.
Proof.
  intros H. revert uargs. induction H as [|a v l l' [_ Ha] HF IH]; intros uargs HE; inversion HE; subst; constructor; auto. congruence.
Qed.

(* What the gradient of the function is worth when its arguments are replaced by
   others with the same values: either the partial derivative is the number zero,
   or the argument is itself differentiable. *)
Definition grad_at (f : fid (num o)) (args : list ex) (k : nat) (a : ex) (G : R) : Prop :=
  (G = 0 /\ forall uargs g, length uargs = length args -> gradient o ug f uargs = Some g ->
     exists z, nth_error g k = Some z /\ zeronum (nval := nval) z) \/
  (smoo a /\ forall vv uargs g, Forall2 (fun a u => ev (with_vars vv rho) u = ev rho a) args uargs ->
     gradient o ug f uargs = Some g -> exists z, nth_error g k = Some z /\ ev (with_vars vv rho) z = Some G).
Lemma node_grads f args : smoo (EFun f args) -> occ (EFun f args) ->
  exists G : nat -> R, forall k a, nth_error args k = Some a -> occ a -> grad_at f args k a (G k).
Proof.
  intros Hs Ho.
  inversion Hs as [? v Hno Hv E|E|? ? vs HF Hdom|c a b x Hc Hct Ha Hb|? ? Hf Hct|? ? ? vs gs HF Hfr Hpd
                    |? ? vs gexs gs HF Hfr Hug Hge]; subst.
  - contradiction.
  - destruct d; discriminate.
  - destruct (lib_grads d f args vs Hdom (Forall2_len _ _ _ HF)) as (gs & H). exists (fun k => nth k gs 0).
    intros k a Hk Hoc. right. destruct (Forall2_nth _ _ _ HF k a Hk) as (v & _ & Hsa & _). split; [exact Hsa|].
    intros vv uargs g HE Hg. destruct (H (with_vars vv rho) uargs g (Forall2_vals _ _ _ _ HF HE) Hg k a Hk Hoc) as (z & w & H1 & H2 & H3).
    exists z. split; [exact H1|]. now rewrite (nth_error_nth _ _ _ H2).
  - exists (fun k => match k with 0%nat => 0 | 1%nat => if rtrue x then 1 else 0 | _ => if rtrue x then 0 else 1 end).
    assert (S : forall vv uc z w, ev (with_vars vv rho) uc = ev rho c -> ev (with_vars vv rho) (mk_select o uc (dbl o z) (dbl o w)) = Some (if rtrue x then IZR z else IZR w)).
    { intros vv uc z w E. cbn. rewrite E, Hc. destruct (rtrue x); f_equal; apply (l_lit RG). }
    intros [|[|[|k]]] e Hk Hoc; cbn in Hk; try (destruct k; discriminate); injection Hk as <-.
    + left. split; [reflexivity|]. intros [|u1 [|u2 [|u3 [|]]]] g Hl Hg; try discriminate. cbn [gradient] in Hg. apply some_inj in Hg. subst g. eexists. split; [reflexivity|]. apply (zeronum_dbl L).
    + right. split; [exact Ha|]. intros vv uargs g HE Hg. inversion HE as [|? u1 ? ? E1 HE1]; subst. inversion HE1 as [|? u2 ? ? E2 HE2]; subst.
      inversion HE2 as [|? u3 ? ? E3 HE3]; subst. inversion HE3; subst. cbn [gradient] in Hg. apply some_inj in Hg. subst g. eexists. split; [reflexivity|]. now apply S.
    + right. split; [exact Hb|]. intros vv uargs g HE Hg. inversion HE as [|? u1 ? ? E1 HE1]; subst. inversion HE1 as [|? u2 ? ? E2 HE2]; subst.
      inversion HE2 as [|? u3 ? ? E3 HE3]; subst. inversion HE3; subst. cbn [gradient] in Hg. apply some_inj in Hg. subst g. eexists. split; [reflexivity|]. now apply S.
  - exists (fun _ => 0). intros k a Hk Hoc. left. split; [reflexivity|]. intros uargs g Hl Hg.
    assert (Hg' : g = map (fun _ => dbl o 0) uargs) by (destruct Hf as [-> | ->]; cbn in Hg; congruence). subst g. exists (dbl o 0). split; [|apply (zeronum_dbl L)].
    rewrite nth_error_map. destruct (nth_error uargs k) eqn:E; [reflexivity|]. apply nth_error_None in E. assert (k < length args)%nat by (apply nth_error_Some; congruence). lia.
  - exists (fun k => nth k gs 0). intros k a Hk Hoc. right. destruct (Forall2_nth _ _ _ HF k a Hk) as (v & _ & Hsa & _). split; [exact Hsa|].
    intros vv uargs g HE Hg. cbn [gradient] in Hg. apply some_inj in Hg. subst g. pose proof (Forall2_len _ _ _ HE) as Hl. assert (Hkl : (k < length args)%nat) by (apply nth_error_Some; congruence).
    exists (EFun (Fdfun id (bump k didx)) uargs). split.
    + rewrite nth_error_map. rewrite (nth_error_nth' _ 0%nat) by (rewrite seq_length; lia). rewrite seq_nth by lia. reflexivity.
    + cbn [eval]. rewrite fsem_strict by discriminate. pose proof (Forall2_vals _ _ _ _ HF HE) as HV.
      assert (E : oseq (map (ev (with_vars vv rho)) uargs) = Some vs). { apply oseq_forall2. clear - HV. induction HV; cbn [map]; constructor; auto. }
      rewrite E. cbn [ssem with_vars v_dfun]. apply Hpd. apply nth_error_nth'. destruct Hfr as [Hl2 _]. pose proof (Forall2_len _ _ _ HF). lia.
  - exists (fun k => nth k gs 0). intros k a Hk Hoc. right. destruct (Forall2_nth _ _ _ HF k a Hk) as (v & _ & Hsa & _). split; [exact Hsa|].
    intros vv uargs g HE Hg. cbn in Hg. destruct (ug s uargs) as [g'|] eqn:Eg; [|discriminate]. destruct (Nat.eqb_spec (length g') (length uargs)) as [El|]; [|discriminate]. injection Hg as <-.
    pose proof (HU vv s uargs vs gs g' Eg (Forall2_vals _ _ _ _ HF HE) Hfr) as HG. pose proof (Forall2_len _ _ _ HE) as Hl. assert (Hkl : (k < length args)%nat) by (apply nth_error_Some; congruence).
    destruct (nth_error g' k) as [z|] eqn:Ez; [|apply nth_error_None in Ez; lia]. exists z. split; [reflexivity|].
    destruct (Forall2_nth _ _ _ HG k z Ez) as (w & Hw & Hz). now rewrite (nth_error_nth _ _ _ Hw).
Qed.

(* --- Derivatives of the subexpressions ------------------------------------------------ *)
(* The gradients, with a default for the user-defined functions without one. *)
Definition tot (s : string) (args : list ex) : option (list ex) :=
  match ug s args with
  | Some g => if Nat.eqb (length g) (length args) then Some g else Some (map (fun _ => dbl o 0) args)
  | None => Some (map (fun _ => dbl o 0) args)
  end.
Lemma gradient_tot f args g : gradient o ug f args = Some g -> gradient o tot f args = Some g.
Proof.
  clear. destruct f; try (intros H; exact H). cbn [gradient]. unfold tot. destruct (ug name args) as [g'|]; [|discriminate].
  destruct (Nat.eqb (length g') (length args)) eqn:E; [|discriminate]. intros H. injection H as <-. now rewrite E.
Qed.
Lemma gradient_arity f args args' : gradient o ug f args <> None -> length args' = length args -> gradient o tot f args' <> None.
Proof.
  clear. intros H Hl. destruct f; cbn [gradient] in *; try congruence;
  repeat match goal with H : context [match ?l with [] => _ | _ :: _ => _ end] |- _ => is_var l; destruct l; cbn in Hl; try congruence end;
  repeat match goal with |- context [match ?l with [] => _ | _ :: _ => _ end] => is_var l; destruct l; cbn in Hl; try congruence end; try discriminate.
  unfold tot. destruct (ug name args') as [g|]; [destruct (Nat.eqb (length g) (length args')) eqn:E|]; rewrite ?E, ?map_length, ?Nat.eqb_refl; discriminate.
Qed.
Lemma smooth_tot : forall e, smoo e -> smooth o nval tot d rho t0 e.
Proof.
  clear HU. induction e as [n|s|i|f args IH] using expr_ind'; intros Hs.
  - inversion Hs; subst; [eapply sm_const; eauto | destruct d; discriminate].
  - inversion Hs; subst; [eapply sm_const; eauto | apply sm_self].
  - inversion Hs; subst; [eapply sm_const; eauto | apply sm_self].
  - assert (K : forall vs, Forall2 (fun a v => smoo a /\ ev rho a = Some v) args vs -> Forall2 (fun a v => smooth o nval tot d rho t0 a /\ ev rho a = Some v) args vs).
    { intros vs H. clear Hs. induction H as [|a v l l' [Ha Hv] HF IH2]; constructor; inversion IH; subst; auto. }
    inversion Hs as [? v Hno Hv E|E|? ? vs HF Hdom|c a b x Hc Hct Ha Hb|? ? Hf Hct|? ? ? vs gs HF Hfr Hpd
                    |? ? vs gexs gs HF Hfr Hug Hge]; subst.
    + eapply sm_const; eauto.
    + destruct d; discriminate.
    + eapply sm_lib; eauto.
    + inversion IH as [|? ? _ IH1]; subst. inversion IH1 as [|? ? IHa IH2]; subst. inversion IH2 as [|? ? IHb _]; subst. eapply sm_select; eauto.
    + eapply sm_logic; eauto.
    + eapply sm_dfun; eauto.
    + eapply sm_user; eauto. unfold tot. rewrite Hug. destruct Hfr as [Hl _]. rewrite (Forall2_len _ _ _ Hge), Hl, <- (Forall2_len _ _ _ HF), Nat.eqb_refl. reflexivity.
Qed.
Lemma smooth_gradient f args : smoo (EFun f args) -> occ (EFun f args) -> exists g, gradient o ug f args = Some g.
Proof.
  intros Hs Ho. inversion Hs as [? v Hno Hv E|E|? ? vs HF Hdom|c a b x Hc Hct Ha Hb|? ? Hf Hct|? ? ? vs gs HF Hfr Hpd
                    |? ? vs gexs gs HF Hfr Hug Hge]; subst.
  - contradiction.
  - destruct d; discriminate.
  - destruct f; cbn [open_dom] in Hdom; try contradiction; try (eexists; reflexivity);
      repeat match type of Hdom with context [match ?l with [] => _ | _ :: _ => _ end] => is_var l; destruct l; try contradiction end; eexists; reflexivity.
  - eexists; reflexivity.
  - destruct Hf as [-> | ->]; eexists; reflexivity.
  - eexists; reflexivity.
  - exists gexs. cbn [gradient]. rewrite Hug. destruct Hfr as [Hl _]. now rewrite (Forall2_len _ _ _ Hge), Hl, <- (Forall2_len _ _ _ HF), Nat.eqb_refl.
Qed.

Definition has_gradients (e : ex) : Prop := forall f args, occurs (EFun f args) e -> gradient o tot f args <> None.
Definition oval (v : option R) : R := match v with Some x => x | None => 0 end.
(* The value of the derivative of e. *)
Definition dv (e : ex) : R := match diff o tot d e with Some e' => oval (ev rho e') | None => 0 end.
Lemma dv_value e : has_gradients e -> smoo e -> hasd (fun t => ev (upd d t rho) e) t0 (dv e).
Proof.
  intros Hg Hs. destruct (proj2 (diff_succeeds o tot d e) Hg) as (e' & He). unfold dv. rewrite He.
  destruct (diff_ok L tot d rho t0 Ht0 e (smooth_tot e Hs) e' He) as (v & Hv & Hd). rewrite Hv. exact Hd.
Qed.
Lemma dv_absent e : ~ occ e -> dv e = 0.
Proof. clear HU Ht0. intros Hn. unfold dv. destruct (diff o tot d e) as [e'|] eqn:He; [|reflexivity]. now rewrite (zeronum_ev rho _ (diff_const L tot d e e' Hn He)). Qed.
Lemma dv_self : dv (dex d) = 1.
Proof.
  clear HU Ht0. unfold dv. destruct d; cbn [dex diff diff_leaf]; rewrite ?String.eqb_refl, ?Nat.eqb_refl; now rewrite (ev_one L).
Qed.
Lemma with_vars_same : with_vars (v_var rho) rho = rho.
Proof. destruct rho; reflexivity. Qed.
Lemma oval_zeronum r e : zeronum (nval := nval) e -> oval (ev r e) = 0.
Proof. intros H. now rewrite (zeronum_ev r e H). Qed.
Lemma nth_error_combine {A B} (l : list A) (l' : list B) k x y : nth_error l k = Some x -> nth_error l' k = Some y -> nth_error (combine l l') k = Some (x, y).
Proof. revert l' k. induction l as [|a l IH]; intros [|b l'] [|k] H1 H2; try discriminate; cbn in *; [congruence | now apply IH]. Qed.
Lemma rsum_pointwise {A B} (f : A -> R) (g : B -> R) l l' : Forall2 (fun a b => f a = g b) l l' -> rsum (map f l) = rsum (map g l').
Proof. induction 1 as [|a b l l' H HF IH]; [reflexivity|]. cbn [map]. rewrite !rsum_cons, H, IH. reflexivity. Qed.
Lemma Forall2_nth_iff {A B} (P : A -> B -> Prop) l l' : length l = length l' ->
  (forall k x y, nth_error l k = Some x -> nth_error l' k = Some y -> P x y) -> Forall2 P l l'.
Proof.
  revert l'. induction l as [|a l IH]; intros [|b l'] Hl H; try discriminate; constructor.
  - apply (H 0%nat); reflexivity.
  - apply IH; [cbn in Hl; lia | intros k x y H1 H2; apply (H (S k)); assumption].
Qed.
Lemma gradient_length ug' f args g : gradient o ug' f args = Some g -> length g = length args.
Proof.
  clear. intros H. destruct f; cbn [gradient] in H; try discriminate;
  repeat match type of H with context [match ?l with [] => _ | _ :: _ => _ end] => is_var l; destruct l; try discriminate end;
  try (injection H as <-; rewrite ?map_length, ?seq_length; reflexivity).
  destruct (ug' name args) as [g'|]; [|discriminate]. destruct (Nat.eqb_spec (length g') (length args)); [|discriminate]. congruence.
Qed.

(* The chain rule at a function, with the gradient of the function of other
   arguments which have the same values. *)
Lemma node_dv f args vv uargs g :
  has_gradients (EFun f args) -> smoo (EFun f args) -> occ (EFun f args) ->
  Forall2 (fun a u => ev (with_vars vv rho) u = ev rho a) args uargs -> gradient o ug f uargs = Some g ->
  dv (EFun f args) = rsum (map (fun p => oval (ev (with_vars vv rho) (fst p)) * dv (snd p)) (combine g args)) /\
  forall k a z, nth_error args k = Some a -> nth_error g k = Some z -> occ a ->
    zeronum (nval := nval) z \/ (smoo a /\ exists v, ev (with_vars vv rho) z = Some v).
Proof.
  intros Hh Hs Ho HE Hg. destruct (node_grads f args Hs Ho) as (G & HG).
  destruct (smooth_gradient f args Hs Ho) as (gt & Hgt).
  pose proof (Forall2_len _ _ _ HE) as Hl1. pose proof (gradient_length _ _ _ _ Hg) as Hl2. pose proof (gradient_length _ _ _ _ Hgt) as Hl3.
  split.
  - unfold dv at 1. destruct (proj2 (diff_succeeds o tot d _) Hh) as (e' & He). rewrite He.
    pose proof He as He0. cbn [diff] in He. destruct (oseq (map (diff o tot d) args)) as [dargs|] eqn:Eo; [|discriminate].
    unfold diff_node in He. rewrite (gradient_tot f args gt Hgt) in He. injection He as <-.
    apply oseq_forall2 in Eo.
    assert (ED : Forall2 (fun a e => diff o tot d a = Some e) args dargs).
    { clear - Eo. revert dargs Eo. induction args as [|a l IH]; intros dargs E; inversion E; subst; constructor; auto. }
    pose proof (Forall2_len _ _ _ ED) as Hl4.
    set (vals := map (fun p => oval (ev (with_vars vv rho) (fst p)) * dv (snd p)) (combine g args)).
    rewrite (mk_sum_ok RG rho _ vals); [reflexivity|]. apply oseq_forall2. unfold vals.
    apply Forall2_nth_iff; [rewrite !map_length, !combine_length; lia|]. intros k x y Hx Hy. rewrite nth_error_map, nth_error_map in Hx. rewrite nth_error_map in Hy.
    destruct (nth_error (combine gt dargs) k) as [[z e]|] eqn:E1; [|discriminate]. cbn [option_map fst snd] in Hx. apply some_inj in Hx; subst x.
    destruct (nth_error (combine g args) k) as [[z' a]|] eqn:E2; [|discriminate]. cbn [option_map fst snd] in Hy. apply some_inj in Hy; subst y.
    assert (Hk : (k < length args)%nat). { assert (k < length (combine g args))%nat by (apply nth_error_Some; congruence). rewrite combine_length in H. lia. }
    destruct (nth_error args k) as [a'|] eqn:Ea; [|apply nth_error_None in Ea; lia]. destruct (nth_error g k) as [z''|] eqn:Ez; [|apply nth_error_None in Ez; lia].
    rewrite (nth_error_combine _ _ _ _ _ Ez Ea) in E2. injection E2 as -> ->.
    destruct (nth_error dargs k) as [e1|] eqn:Ee; [|apply nth_error_None in Ee; lia]. destruct (nth_error gt k) as [z1|] eqn:Ez1; [|apply nth_error_None in Ez1; lia].
    rewrite (nth_error_combine _ _ _ _ _ Ez1 Ee) in E1. injection E1 as -> ->.
    destruct (Forall2_nth _ _ _ ED k a Ea) as (e2 & He2 & Hd). rewrite He2 in Ee. injection Ee as ->.
    destruct (occurs_dec d rho t0 Ht0 a) as [Hoc|Hno].
    + destruct (HG k a Ea Hoc) as [[G0 HZ]|[Hsa HV]].
      * destruct (HZ args gt eq_refl Hgt) as (z2 & Hz2 & HZ2). rewrite Hz2 in Ez1. injection Ez1 as ->.
        destruct (HZ uargs g (eq_sym Hl1) Hg) as (z3 & Hz3 & HZ3). rewrite Hz3 in Ez. injection Ez as ->.
        rewrite (zeronum_ev rho _ (mk_mul_zero_l L _ _ HZ2)), (oval_zeronum _ _ HZ3). f_equal. ring.
      * assert (HEr : Forall2 (fun a u => ev (with_vars (v_var rho) rho) u = ev rho a) args args) by (rewrite with_vars_same; clear; induction args; constructor; auto).
        destruct (HV (v_var rho) args gt HEr Hgt) as (z2 & Hz2 & HZ2). rewrite with_vars_same in HZ2. rewrite Hz2 in Ez1. injection Ez1 as ->.
        destruct (HV vv uargs g HE Hg) as (z3 & Hz3 & HZ3). rewrite Hz3 in Ez. injection Ez as ->.
        destruct (diff_ok L tot d rho t0 Ht0 a (smooth_tot a Hsa) e Hd) as (v & Hv & _). unfold dv. rewrite Hd, HZ3, Hv. cbn [oval]. now apply (mul_ok L).
    + rewrite (dv_absent a Hno), (zeronum_ev rho _ (mk_mul_zero_r L _ _ (diff_const L tot d a e Hno Hd))). f_equal. ring.
  - intros k a z Ha Hz Hoc. destruct (HG k a Ha Hoc) as [[_ HZ]|[Hsa HV]].
    + left. destruct (HZ uargs g (eq_sym Hl1) Hg) as (z3 & Hz3 & HZ3). congruence.
    + right. split; [exact Hsa|]. destruct (HV vv uargs g HE Hg) as (z3 & Hz3 & HZ3). exists (G k). congruence.
Qed.
End Grads.
