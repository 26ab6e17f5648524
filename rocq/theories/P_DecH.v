(* The values of the hidden dependencies. *)
From Coq Require Import String Bool ZArith Arith List Lia.
From Verif Require Import M_Expr M_Dag M_Dec S_Expr S_Dag S_Dec P_ExprSem P_Dag P_Dec P_DecM P_Cse.
Import ListNotations.
Local Open Scope nat_scope.
Set Bullet Behavior "Strict Subproofs".

Section Hidden.
Context (o : nops).
Local Notation ex := (expr (num o)).
Local Notation elt := (expr (num o) * list nat)%type.
Local Notation mexp l := (map (@fst ex (list nat)) l).
Context {V : Type} (A : alg (num o) V) (dflt : V) (ins : list V).
Local Notation n := (length ins).
Local Notation ev := (elt_val A dflt).
Local Notation run mid := (run_mid A dflt ins mid).

(* Following u variables does not change values. *)
Lemma reads_val (dcin mid : list ex) : length dcin = n -> backward n mid ->
  forall a h, reads n (dcin ++ mid) a h -> ev (run mid) a = ev (run mid) h.
Proof.
  intros Hl HB. fix IH 3. intros a h H. destruct H as [a|j a h Hj Hn Hr|f args hs HF].
  - reflexivity.
  - rewrite <- (IH a h Hr). cbn. rewrite uval_uname. rewrite nth_error_app2 in Hn by lia. rewrite Hl in Hn.
    replace j with (n + (j - n)) by lia. now apply run_nth.
  - cbn. f_equal. induction HF as [|x y l l' Hx HF IHF]; cbn; [reflexivity|]. rewrite (IH x y Hx). f_equal. exact IHF.
Qed.
Lemma hid_initial (dcin mid : list elt) : length dcin = n -> backward n (mexp mid) ->
  (forall j p, n <= j -> nth_error (dcin ++ mid) j = Some p -> hid_ok o n (dcin ++ mid) j p) ->
  hidden_values o A dflt ins mid.
Proof.
  intros Hl HB Hh i f args deps hs Hi Hs.
  specialize (Hh (n + i) (EFun f args, deps) ltac:(lia)). rewrite <- Hl, nth_new in Hh. specialize (Hh Hi).
  unfold hid_ok in Hh. cbn [fst snd] in Hh. rewrite Hl, Hs in Hh.
  clear Hi Hs.   induction Hh as [|d h l l' Hd HF IHF]; cbn [map]; [reflexivity|]. f_equal; [|exact IHF].
  rewrite map_app in Hd. rewrite <- (reads_val (mexp dcin) (mexp mid)) with (a := EVar (uname d));
    [cbn; now rewrite uval_uname | now rewrite map_length | exact HB | exact Hd].
Qed.

(* Renumbering the expressions over the u variables. *)
Definition over (k : nat) (e : ex) : Prop := forall s, occurs (EVar s) e -> exists j, j < k /\ s = uname j.
Lemma over_fun k f args : over k (EFun f args) <-> Forall (over k) args.
Proof.
  rewrite Forall_forall. split.
  - intros H a Ha s Hs. apply H. now apply occ_arg with (a := a).
  - intros H s Hs. inversion Hs; subst. now apply (H a).
Qed.
Lemma renumber_over rho k vals vals' (e : ex) : over k e ->
  (forall j, j < k -> nth (rho j) vals' dflt = nth j vals dflt) -> ev vals' (renumber rho e) = ev vals e.
Proof.
  intros Ho H. revert Ho. induction e as [x|s|i|f args IH] using expr_ind'; intros Ho; [reflexivity| |reflexivity|].
  - destruct (Ho s (occ_here _)) as (j & Hj & ->). cbn [renumber]. rewrite uname_index. cbn. rewrite !uval_uname. auto.
  - cbn. f_equal. rewrite map_map. apply map_ext_in. intros a Ha. rewrite Forall_forall in IH. apply over_fun in Ho.
    rewrite Forall_forall in Ho. auto.
Qed.
Lemma arg_over k (a : ex) : arg_ok k a -> over k a.
Proof. destruct a as [x|t|i|f l]; cbn; intros H s Hs; try contradiction; inversion Hs; subst; auto. Qed.

Definition leafy (a : ex) : Prop := match a with EFun _ _ => False | _ => True end.
Lemma arg_leafy k (a : ex) : arg_ok k a -> leafy a.
Proof. destruct a; cbn; auto. Qed.
Ltac ovf := rewrite over_fun; repeat (apply Forall_cons; [|]); try apply Forall_nil.

Lemma rn_fun rho u (x : ex) : leafy x -> mk_fun o u (renumber rho x) = renumber rho (mk_fun o u x).
Proof. destruct x; cbn; try contradiction; auto. intros _. destruct (uname_to_index s); reflexivity. Qed.
Lemma rn_sq rho (x : ex) : leafy x -> mk_pow o (renumber rho x) (dbl o 2) = renumber rho (mk_pow o x (dbl o 2)).
Proof.
  destruct x; cbn [leafy]; try contradiction; intros _; unfold dbl; cbn [renumber mk_pow].
  - reflexivity.
  - destruct (uname_to_index s) eqn:E; cbn [mk_pow]; destruct (n_isz o 0 (n_lit o 2)); try reflexivity;
      destruct (n_isz o 1 (n_lit o 2)); cbn; rewrite ?E; reflexivity.
  - destruct (n_isz o 0 (n_lit o 2)); try reflexivity; destruct (n_isz o 1 (n_lit o 2)); reflexivity.
Qed.
Lemma rn_mul rho (x : ex) f l : leafy x -> mk_mul o (renumber rho x) (EFun f (map (renumber rho) l)) = renumber rho (mk_mul o x (EFun f l)).
Proof.
  destruct x; cbn [leafy]; try contradiction; intros _; cbn.
  - destruct (n_isz o 1 n); [reflexivity|]. destruct (n_isz o 0 n); reflexivity.
  - destruct (uname_to_index s) eqn:E; cbn; try rewrite E; reflexivity.
  - reflexivity.
Qed.
Lemma ov_fun k u (x : ex) : over k x -> over k (mk_fun o u x).
Proof. destruct x as [y|t|i|f l]; intros H; unfold mk_fun; try (rewrite over_fun; auto). intros s Hs; inversion Hs. Qed.
Lemma ov_num k (x : num o) : over k (ENum x).
Proof. intros s Hs; inversion Hs. Qed.
Lemma ov_sq k (x : ex) : over k x -> over k (mk_pow o x (dbl o 2)).
Proof.
  assert (Hd : forall z, over k (dbl o z)) by (intros; apply ov_num).
  intros H. destruct x; unfold dbl in *; cbn [mk_pow]; [apply ov_num|..];
    (destruct (n_isz o 0 (n_lit o 2)); [apply Hd|]; destruct (n_isz o 1 (n_lit o 2)); [exact H|]; rewrite over_fun; auto).
Qed.
Lemma ov_mul k (x : ex) f l : leafy x -> over k x -> over k (EFun f l) -> over k (mk_mul o x (EFun f l)).
Proof.
  intros Hx H1 H2. destruct x; cbn in Hx; try contradiction; cbn.
  - destruct (n_isz o 1 n); [exact H2|]. destruct (n_isz o 0 n); [apply ov_num|]. ovf; auto.
  - ovf; auto.
  - ovf; auto.
Qed.
Lemma hidden_renumber rho f args self hs : Forall leafy args -> leafy self ->
  hidden o f args self = Some hs -> hidden o f (map (renumber rho) args) (renumber rho self) = Some (map (renumber rho) hs).
Proof.
  intros HF Hs H.
  destruct f as [| | | | | | |u| | | | | | | | | | | | | |]; try (cbn in H; injection H as <-; reflexivity).
  - destruct args as [|x [|y args]]; try (destruct u; cbn in H; injection H as <-; reflexivity).
    assert (Hx : leafy x) by (inversion HF; assumption).
    destruct u; cbn [map hidden] in *; injection H as <-; cbn [map]; rewrite ?rn_fun, ?rn_sq by assumption; reflexivity.
  - destruct args as [|x [|y [|z args]]]; cbn [map hidden] in *; injection H as <-; reflexivity.
  - destruct args as [|x [|y [|z args]]]; cbn [map hidden] in *; injection H as <-; try reflexivity.
    assert (Hx : leafy x) by (inversion HF; assumption). cbn [map].
    change [renumber rho self] with (map (renumber rho) [self]). rewrite rn_mul by exact Hx. reflexivity.
  - destruct args as [|x [|y [|z [|w args]]]]; cbn [map hidden] in *; injection H as <-; try reflexivity.
    assert (Hx : leafy x) by (inversion HF; assumption).
    assert (Hy : leafy y) by (inversion HF as [|? ? ? HF']; inversion HF'; assumption). cbn [map].
    change [renumber rho self] with (map (renumber rho) [self]). rewrite !rn_mul by assumption. reflexivity.
  - discriminate.
Qed.
Lemma hidden_over k f args self hs : Forall leafy args -> Forall (over k) args -> over k self ->
  hidden o f args self = Some hs -> Forall (over k) hs.
Proof.
  intros HF HO Hs H.
  assert (HN : forall z, over k (dbl o z)) by (intros; apply ov_num).
  destruct f as [| | | | | | |u| | | | | | | | | | | | | |]; try (cbn in H; injection H as <-; apply Forall_nil).
  - destruct args as [|x [|y args]]; try (destruct u; cbn in H; injection H as <-; apply Forall_nil).
    assert (Hx : over k x) by (inversion HO; assumption).
    pose proof (ov_num k) as HN'. pose proof (ov_sq k x Hx) as Hsq.
    destruct u; cbn [map hidden] in *; injection H as <-; repeat (apply Forall_cons; [|]); try apply Forall_nil;
      try (apply ov_fun; assumption); try (apply ov_sq; assumption); repeat (ovf; auto).
  - destruct args as [|x [|y [|z args]]]; cbn [map hidden] in *; injection H as <-; try apply Forall_nil. constructor; [|constructor].
    rewrite over_fun. exact HO.
  - destruct args as [|x [|y [|z args]]]; cbn [map hidden] in *; injection H as <-; try apply Forall_nil. constructor.
    + apply ov_mul; [inversion HF; assumption | inversion HO; assumption | ovf; auto].
    + repeat constructor. ovf; auto.
  - destruct args as [|x [|y [|z [|w args]]]]; cbn [map hidden] in *; injection H as <-; try apply Forall_nil. constructor.
    + apply ov_mul; [inversion HF; assumption | inversion HO; assumption | ovf; auto].
    + constructor; [|repeat constructor; ovf; auto].
      apply ov_mul; [inversion HF as [|? ? ? HF']; inversion HF'; assumption | inversion HO as [|? ? ? HF']; inversion HF'; assumption | ovf; auto].
  - discriminate.
Qed.

(* The quantities are preserved when elements are moved. *)
Lemma hid_moved (eqv : ex -> ex -> Prop) mid mid' rho :
  (forall a b vals, eqv a b -> ev vals a = ev vals b) ->
  moved o n eqv mid mid' rho -> backward n (mexp mid) -> backward n (mexp mid') -> deps_ok n mid ->
  hidden_values o A dflt ins mid -> hidden_values o A dflt ins mid'.
Proof.
  intros He HM HB HB' Hd Hh i f args deps hs Hi Hs.
  destruct (mv_new _ _ _ _ _ _ HM i _ Hi) as (k0 & [e0 d0] & Hp & Hr & Ef & Es). cbn [fst snd] in Ef, Es.
  pose proof (moved_carries o n A dflt eqv mid mid' rho ins eq_refl He HM) as HC.
  pose proof (carries_values A dflt ins _ _ rho HB HB' HC) as HV. rewrite map_length in HV.
  assert (Hk0 : k0 < length mid) by (apply nth_error_Some; congruence).
  pose proof (HB k0 e0 (map_nth_error fst _ _ Hp)) as Hok.
  destruct e0 as [x|s|p|g args0]; cbn in Hok; try contradiction; [discriminate|].
  cbn in Ef. injection Ef as -> Ea. subst deps.
  assert (Hl0 : Forall leafy args0) by (eapply Forall_impl; [|exact Hok]; intros a; apply arg_leafy).
  assert (Ho0 : Forall (over (n + length mid)) args0).
  { eapply Forall_impl; [|exact Hok]. intros a Ha. apply arg_over. eapply arg_ok_le; [|exact Ha]. lia. }
  (* the hidden quantities of the old element *)
  destruct (hidden o g args0 (EVar (uname (n + k0)))) as [hs0|] eqn:Eh.
  2:{ (* not specified: user-defined functions only *)
      exfalso. revert Eh Hs. clear. destruct g as [| | | | | | |u| | | | | | | | | | | | | |]; cbn; try discriminate.
      - destruct u; destruct args0 as [|? [|]]; discriminate.
      - destruct args0 as [|? [|? [|]]]; discriminate.
      - destruct args0 as [|? [|? [|]]]; discriminate.
      - destruct args0 as [|? [|? [|? [|]]]]; discriminate. }
  pose proof (hidden_renumber rho _ _ _ _ Hl0 (I : leafy (EVar (uname (n + k0)))) Eh) as Eh'.
  assert (Eself : renumber rho (EVar (uname (n + k0)) : ex) = EVar (uname (n + i))) by (cbn [renumber]; rewrite uname_index, Hr; reflexivity).
  rewrite Eself, <- Ea, Hs in Eh'. injection Eh' as ->.
  specialize (Hh k0 g args0 d0 hs0 Hp Eh). cbn zeta in Hh.
  rewrite map_map. rewrite (map_ext_in _ (fun d => nth d (run (mexp mid)) dflt)).
  2:{ intros d Hin. apply HV. specialize (Hd _ _ _ Hp Hin). lia. }
  rewrite Hh. rewrite map_map. apply map_ext_in. intros h Hin. symmetry.
  apply (renumber_over rho (n + length mid)); [|exact HV].
  assert (HF := hidden_over (n + length mid) _ _ _ _ Hl0 Ho0
    (arg_over (n + length mid) (EVar (uname (n + k0))) ltac:(cbn; exists (n + k0); split; [lia | reflexivity])) Eh).
  rewrite Forall_forall in HF. now apply HF.
Qed.
Lemma deps_moved (eqv : ex -> ex -> Prop) mid mid' rho :
  moved o n eqv mid mid' rho -> deps_ok n mid -> deps_ok n mid'.
Proof.
  intros HM Hd i q j Hq Hj. destruct (mv_new _ _ _ _ _ _ HM i q Hq) as (k0 & p & Hp & _ & _ & Es).
  rewrite Es in Hj. apply in_map_iff in Hj. destruct Hj as (d & <- & Hin). apply (mv_rng _ _ _ _ _ _ HM). eapply Hd; eauto.
Qed.
End Hidden.
