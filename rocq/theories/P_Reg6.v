(* All the entries of a tensor of derivatives of regular expressions are derivatives of one
   another, in any order of differentiation. *)
From Coquelicot Require Import Coquelicot.
From Coq Require Import String Bool ZArith NArith Reals List Lra Lia Permutation.
From Verif Require Import M_Expr S_Expr P_ExprSem P_Build P_Subs S_Diff P_Deriv P_Deriv2 P_Deriv3 P_Diff T_Diff S_Dtens S_Adj P_Adj1 S_Reg P_Reg1 P_Reg3 P_Reg4 P_Reg5.
Import ListNotations.
Local Open Scope R_scope.
Set Bullet Behavior "Strict Subproofs".

Definition nouser (rho : env) : env := mkEnv (v_var rho) (v_par rho) (v_time rho) (v_dfun rho) (fun _ _ => None).

Section Tens.
Context {o : nops} {nval : num o -> R} (L : nlaws o nval).
Local Notation ex := (expr (num o)).
Local Notation ev := (eval o nval).
Local Notation reg := (regular o nval).
Context (ug : string -> list ex -> option (list ex)).

(* User-defined functions do not matter. *)
Lemma reg_nouser rho : forall e, reg rho e -> reg (nouser rho) e /\ ev (nouser rho) e = ev rho e.
Proof.
  induction e as [n|s|i|f args IH] using expr_ind'; intros Hr.
  - split; [constructor | reflexivity].
  - inversion Hr as [|? v Hv| |]; subst. split; [exact (rg_var _ _ (nouser rho) s v Hv) | reflexivity].
  - inversion Hr as [| |? v Hv|]; subst. split; [exact (rg_par _ _ (nouser rho) i v Hv) | reflexivity].
  - inversion Hr as [| | |? ? vs HF Hi]; subst.
    assert (HF' : Forall2 (fun a v => reg (nouser rho) a /\ ev (nouser rho) a = Some v) args vs).
    { clear - HF IH. induction HF as [|a v l l' [Ha Hv] HF IH2]; [constructor|]. inversion IH as [|? ? IHa IHr]; subst. destruct (IHa Ha) as [H1 H2].
      constructor; [split; [exact H1 | congruence] | now apply IH2]. }
    assert (Hi' : inner o nval (nouser rho) f args vs) by (destruct f; exact Hi). split; [exact (rg_fun _ _ _ _ _ _ HF' Hi')|].
    destruct (fun_value rho f args vs HF Hi) as (v & S1 & V1). destruct (fun_value (nouser rho) f args vs HF' Hi') as (v' & S2 & V2). rewrite V1, V2, <- S1, <- S2.
    destruct f; try reflexivity. cbn in Hi. contradiction.
Qed.
Lemma user_ok rho : v_user rho = (fun _ _ => None) -> user_gradients_correct o nval ug rho.
Proof. intros E vv s args vs gs g _ _ (_ & y & Hy & _). rewrite E in Hy. discriminate. Qed.

(* Iterated derivatives; the last one comes first. *)
Inductive diffs (e0 : ex) : list darg -> ex -> Prop :=
| ds_nil : diffs e0 [] e0
| ds_cons d l e e' : diffs e0 l e -> diff o ug d e = Some e' -> diffs e0 (d :: l) e'.
Lemma diffs_fun e0 : forall l e e', diffs e0 l e -> diffs e0 l e' -> e = e'.
Proof.
  induction l as [|d l IH]; intros e e' H H'; inversion H as [|? ? a ? Ha Ea]; inversion H' as [|? ? b ? Hb Eb]; subst; [reflexivity|]. assert (a = b) by now apply IH. congruence.
Qed.

Context (es : list ex) (ds : list darg) (HN : NoDup ds).
Definition pt (rho : env) : Prop := Forall (reg rho) es /\ (forall d, In d ds -> dval d rho <> None) /\ v_user rho = (fun _ _ => None).
Lemma pt_open rho d t0 : pt rho -> dval d rho = Some t0 -> locally t0 (fun t => pt (upd d t rho)).
Proof.
  intros (Hr & Hd & Hu) Ht.
  assert (HF : locally t0 (fun t => Forall (reg (upd d t rho)) es)).
  { clear Hd Hu HN. induction Hr as [|e l He _ IH]; [apply filter_forall; intros; constructor|]. generalize (reg_open rho d t0 e Ht He) IH. apply filter_imp2. intros t A B. now constructor. }
  revert HF. apply filter_imp. intros t HF. split; [exact HF|]. split; [|now rewrite upd_user]. intros d' H'. rewrite dval_lval, lval_upd. destruct (leaf_dec _ _); [discriminate|]. rewrite <- dval_lval. now apply Hd.
Qed.
Definition same (e1 e2 : ex) : Prop := forall rho, pt rho -> reg rho e1 /\ reg rho e2 /\ ev rho e1 = ev rho e2.
Lemma same_sym a b : same a b -> same b a.
Proof. intros H rho P. destruct (H rho P) as (A & B & C). auto. Qed.
Lemma same_trans a b c : same a b -> same b c -> same a c.
Proof. intros H H' rho P. destruct (H rho P) as (A & B & C). destruct (H' rho P) as (A' & B' & C'). split; [exact A|]. split; [exact B' | congruence]. Qed.
Lemma same_der e1 e2 d rho t0 v : same e1 e2 -> pt rho -> dval d rho = Some t0 -> hasd (fun t => ev (upd d t rho) e1) t0 v -> hasd (fun t => ev (upd d t rho) e2) t0 v.
Proof.
  intros HS HP Hd. apply hasd_ext. generalize (pt_open rho d t0 HP Hd). apply filter_imp. intros t Ht. apply (HS _ Ht).
Qed.
Lemma same_diff e1 e2 e1' e2' d : In d ds -> same e1 e2 -> diff o ug d e1 = Some e1' -> diff o ug d e2 = Some e2' -> same e1' e2'.
Proof.
  intros Hin HS E1 E2 rho HP. destruct (HS rho HP) as (R1 & R2 & _). destruct (dval d rho) as [t0|] eqn:Hd; [|exfalso; now apply (proj1 (proj2 HP) d Hin)].
  destruct (reg_der L ug rho d t0 e1 e1' Hd R1 E1) as (R1' & v1 & V1 & D1). destruct (reg_der L ug rho d t0 e2 e2' Hd R2 E2) as (R2' & v2 & V2 & D2).
  split; [exact R1'|]. split; [exact R2'|]. rewrite V1, V2. f_equal. exact (hasd_uniq _ _ _ _ (same_der _ _ _ _ _ _ HS HP Hd D1) D2).
Qed.

Context (c : nat) (e0 : ex) (He0 : nth_error es c = Some e0).
Lemma pt_reg rho : pt rho -> reg rho e0.
Proof. intros (H & _). rewrite Forall_forall in H. apply H. exact (nth_error_In _ _ He0). Qed.
Lemma diffs_reg rho : pt rho -> forall l, (forall d, In d l -> In d ds) -> exists e, diffs e0 l e /\ reg rho e.
Proof.
  intros HP. induction l as [|d l IH]; intros Hl; [exists e0; split; [constructor | now apply pt_reg]|].
  destruct (IH (fun x Hx => Hl x (or_intror Hx))) as (e & He & Hr). destruct (reg_diff L rho ug d e Hr) as (e' & E & R'). exists e'. split; [exact (ds_cons _ _ _ _ _ He E) | exact R'].
Qed.
Lemma diffs_refl l e : (forall d, In d l -> In d ds) -> diffs e0 l e -> same e e.
Proof. intros Hl H rho HP. destruct (diffs_reg rho HP l Hl) as (e' & H' & R). rewrite (diffs_fun _ _ _ _ H H'). auto. Qed.
Lemma diffs_perm : forall l l', Permutation l l' -> forall e e', (forall d, In d l -> In d ds) -> diffs e0 l e -> diffs e0 l' e' -> same e e'.
Proof.
  induction 1 as [|d l l' HP IH|a b l|l l1 l' HP1 IH1 HP2 IH2]; intros e e' Hl H H'.
  - assert (E1 : e = e0) by (now apply (diffs_fun e0 []); [|constructor]). assert (E2 : e' = e0) by (now apply (diffs_fun e0 []); [|constructor]). rewrite E1, E2. apply (diffs_refl [] e0); [intros ? [] | constructor].
  - inversion H as [|? ? x ? Hx Ex]; inversion H' as [|? ? y ? Hy Ey]; subst. apply (same_diff x y e e' d); [apply Hl; now left | | exact Ex | exact Ey].
    apply IH; [intros z Hz; apply Hl; now right | exact Hx | exact Hy].
  - inversion H as [|? ? x ? Hx Ex]; inversion H' as [|? ? y ? Hy Ey]; subst. inversion Hx as [|? ? x0 ? Hx0 Ex0]; inversion Hy as [|? ? y0 ? Hy0 Ey0]; subst.
    assert (x0 = y0) by exact (diffs_fun _ _ _ _ Hx0 Hy0). subst y0. intros rho HP. destruct HP as (P1 & P2 & P3) eqn:EP. clear EP.
    destruct (diffs_reg rho (conj P1 (conj P2 P3)) _ Hl) as (q & Hq & Rq). rewrite (diffs_fun _ _ _ _ H Hq).
    assert (Hl2 : forall d, In d (a :: b :: l) -> In d ds) by (intros z Hz; apply Hl; cbn in *; tauto).
    destruct (diffs_reg rho (conj P1 (conj P2 P3)) _ Hl2) as (q' & Hq' & Rq'). rewrite (diffs_fun _ _ _ _ H' Hq'). split; [exact Rq|]. split; [exact Rq'|].
    rewrite <- (diffs_fun _ _ _ _ H Hq), <- (diffs_fun _ _ _ _ H' Hq').
    destruct (diffs_reg rho (conj P1 (conj P2 P3)) l (fun z Hz => Hl z (or_intror (or_intror Hz)))) as (q0 & Hq0 & Rq0). rewrite (diffs_fun _ _ _ _ Hx0 Hq0) in *.
    apply (schwarz L ug rho a b q0 x y e e'); [apply P2, Hl; cbn; auto | apply P2, Hl; cbn; auto | exact Rq0 | exact Ex0 | exact Ey0 | exact Ex | exact Ey].
  - intros rho HP. destruct (diffs_reg rho HP l1) as (m & Hm & _); [intros d Hd; apply Hl; apply (Permutation_in d (Permutation_sym HP1)), Hd|].
    apply (same_trans e m e'); [now apply IH1 | | exact HP]. apply IH2; [|exact Hm | exact H']. intros d Hd. apply Hl. apply (Permutation_in d (Permutation_sym HP1)), Hd.
Qed.

(* The multiindices. *)
Definition counts (l : list darg) (idx : list (N * N)) : Prop :=
  (forall d, In d l -> In d ds) /\ forall j d, nth_error ds j = Some d -> count_occ darg_dec l d = N.to_nat (ord_of idx (N.of_nat j)).
Fixpoint mkl (k : nat -> nat) (b : nat) (l : list darg) : list darg :=
  match l with [] => [] | d :: r => repeat d (k b) ++ mkl k (S b) r end.
Lemma mkl_in k : forall l b d, In d (mkl k b l) -> In d l.
Proof.
  induction l as [|x l IH]; intros b d H; cbn [mkl] in H; [exact H|]. apply in_app_iff in H. destruct H as [H|H]; [apply repeat_spec in H; subst; now left | right; now apply (IH (S b))].
Qed.
Lemma mkl_count k : forall l b j d, NoDup l -> nth_error l j = Some d -> count_occ darg_dec (mkl k b l) d = k (b + j)%nat.
Proof.
  induction l as [|x l IH]; intros b j d Hn Hj; [destruct j; discriminate|]. inversion Hn as [|? ? Hx Hn']; subst. cbn [mkl]. rewrite count_occ_app. destruct j as [|j]; cbn in Hj.
  - injection Hj as <-. rewrite count_occ_repeat_eq by reflexivity. rewrite (proj1 (count_occ_not_In darg_dec (mkl k (S b) l) x)); [now rewrite !Nat.add_0_r|]. intros H. apply Hx. now apply mkl_in in H.
  - rewrite count_occ_repeat_neq by (intros ->; apply Hx; exact (nth_error_In _ _ Hj)). rewrite (IH (S b) j d Hn' Hj). cbn. f_equal. lia.
Qed.
Lemma counts_ex idx : exists l, counts l idx.
Proof.
  exists (mkl (fun j => N.to_nat (ord_of idx (N.of_nat j))) 0 ds). split; [apply mkl_in|]. intros j d Hj. now rewrite (mkl_count _ ds 0 j d HN Hj).
Qed.
Lemma counts_perm l l' idx : counts l idx -> counts l' idx -> Permutation l l'.
Proof.
  intros (H1 & C1) (H2 & C2). apply (Permutation_count_occ darg_dec). intros d. destruct (in_dec darg_dec d ds) as [Hin|Hout].
  - apply In_nth_error in Hin. destruct Hin as [j Hj]. now rewrite (C1 j d Hj), (C2 j d Hj).
  - rewrite !(proj1 (count_occ_not_In darg_dec _ d)); [reflexivity | intros H; apply Hout; auto | intros H; apply Hout; auto].
Qed.
Lemma nth_uniq j j' d : nth_error ds j = Some d -> nth_error ds j' = Some d -> j = j'.
Proof. intros H H'. apply (NoDup_nth_error ds); [exact HN | apply nth_error_Some; congruence | congruence]. Qed.
Lemma counts_more l idx idx' j d : nth_error ds j = Some d -> one_more idx idx' j -> counts l idx -> counts (d :: l) idx'.
Proof.
  intros Hj HO (H1 & C1). split; [intros x [<-|Hx]; [exact (nth_error_In _ _ Hj) | auto]|]. intros j' d' Hj'. rewrite (HO (N.of_nat j')). cbn [count_occ]. rewrite (C1 j' d' Hj').
  destruct (darg_dec d d') as [->|Hn].
  - rewrite (nth_uniq j j' d' Hj Hj'), N.eqb_refl. lia.
  - destruct (N.eqb_spec (N.of_nat j') (N.of_nat j)) as [E|]; [|lia]. apply Nat2N.inj in E. subst j'. congruence.
Qed.
Lemma counts_less l idx idx' j d : nth_error ds j = Some d -> one_more idx idx' j -> counts l idx' -> exists l0, counts l0 idx /\ Permutation (d :: l0) l.
Proof.
  intros Hj HO (H1 & C1). assert (Hin : In d l).
  { apply (count_occ_In darg_dec). rewrite (C1 j d Hj), (HO (N.of_nat j)), N.eqb_refl. lia. }
  destruct (in_split d l Hin) as (l1 & l2 & ->). exists (l1 ++ l2). split; [|apply Permutation_middle]. split; [intros x Hx; apply H1; apply in_app_iff in Hx; apply in_app_iff; cbn; tauto|].
  intros j' d' Hj'. specialize (C1 j' d' Hj'). rewrite (HO (N.of_nat j')) in C1. rewrite count_occ_app in *. cbn [count_occ] in C1.
  destruct (darg_dec d d') as [->|Hn].
  - rewrite (nth_uniq j j' d' Hj Hj'), N.eqb_refl in C1. lia.
  - destruct (N.eqb_spec (N.of_nat j') (N.of_nat j)) as [E|]; [|lia]. apply Nat2N.inj in E. subst j'. congruence.
Qed.

(* The tensor. *)
Context (order : N) (m : list ((N * list (N * N)) * ex)).
Hypothesis HT : derivative_tensor o nval ug es (map dex ds) order m.
Hypothesis HR : forall rho, Forall (reg rho) es -> forall p, In p m -> reg rho (snd p).

Lemma entry_same : forall n l idx e f, length l = n -> In ((N.of_nat c, idx), e) m -> counts l idx -> diffs e0 l f -> same e f.
Proof.
  destruct HT as (HC & H0 & HD). induction n as [|n IH]; intros l idx e f Hl Hin Hc Hf.
  - destruct l; [|discriminate]. assert (Ef : f = e0) by (now apply (diffs_fun e0 []); [|constructor]). rewrite Ef in *. clear Ef f. assert (Ei : idx = []).
    { destruct idx as [|[i k] r]; [reflexivity|]. exfalso. assert (Hk : In (N.of_nat c, (i, k) :: r) (map fst m)) by (apply in_map_iff; eexists; split; [|exact Hin]; reflexivity).
      apply (proj2 HC) in Hk. destruct Hk as ([_ Hp] & _ & Hb & _). cbn [snd] in Hp, Hb. inversion Hp as [|? ? Hp1 _]; subst. inversion Hb as [|? ? Hb1 _]; subst. cbn [fst snd] in Hp1, Hb1. rewrite map_length in Hb1.
      destruct (nth_error ds (N.to_nat i)) as [d|] eqn:Ed; [|apply nth_error_None in Ed; lia]. pose proof (proj2 Hc (N.to_nat i) d Ed) as Hz. cbn in Hz. rewrite N2Nat.id, N.eqb_refl in Hz. lia. }
    subst idx. apply H0 in Hin. rewrite Nat2N.id in Hin. assert (E2 : e = e0) by congruence. rewrite E2. intros rho HP. pose proof (pt_reg rho HP). auto.
  - assert (Hne : idx <> []).
    { intros ->. destruct l as [|d l]; [discriminate|]. destruct Hc as (Hi & Hc). assert (Hd : In d ds) by (apply Hi; now left). apply In_nth_error in Hd. destruct Hd as [j Hj].
      specialize (Hc j d Hj). cbn [count_occ] in Hc. destruct (darg_dec d d); [|congruence]. cbn in Hc. lia. }
    destruct (HD _ _ _ Hin Hne) as (j & a & idx0 & e1 & HO & Ha & Hin1 & Hder).
    rewrite nth_error_map in Ha. destruct (nth_error ds j) as [d|] eqn:Hj; [|discriminate]. cbn in Ha. injection Ha as <-.
    destruct (counts_less l idx0 idx j d Hj HO Hc) as (l0 & Hc0 & HP). intros rho Hrho.
    destruct (diffs_reg rho Hrho l0 (proj1 Hc0)) as (f0 & Hf0 & Rf0). destruct (reg_diff L rho ug d f0 Rf0) as (f' & Ef' & Rf').
    assert (Hl0 : length l0 = n) by (apply Permutation_length in HP; cbn in HP; lia).
    pose proof (IH l0 idx0 e1 f0 Hl0 Hin1 Hc0 Hf0) as HS0.
    assert (HS' : same e f').
    { clear rho Hrho Rf0 Rf'. intros rho Hrho. destruct (HS0 rho Hrho) as (R1 & R0 & _). destruct (dval d rho) as [t0|] eqn:Hd; [|exfalso; apply (proj1 (proj2 Hrho) d); [exact (nth_error_In _ _ Hj) | exact Hd]].
      split; [exact (HR rho (proj1 Hrho) _ Hin)|]. destruct (reg_der L ug rho d t0 f0 f' Hd R0 Ef') as (Rf' & v' & V' & D'). split; [exact Rf'|].
      destruct (Hder rho t0 d eq_refl Hd (user_ok rho (proj2 (proj2 Hrho))) (reg_smooth rho ug d t0 Hd e1 R1)) as (v & V & D). apply hasd_has in D.
      rewrite V, V'. f_equal. exact (hasd_uniq _ _ _ _ (same_der _ _ _ _ _ _ HS0 Hrho Hd D) D'). }
    apply (same_trans e f' f HS'); [|exact Hrho].
    apply (diffs_perm (d :: l0) l HP f' f); [|exact (ds_cons _ _ _ _ _ Hf0 Ef') | exact Hf]. intros x Hx. apply (proj1 Hc). apply (Permutation_in x HP Hx).
Qed.
Lemma entry_der idx idx' e e' j d rho t0 : In ((N.of_nat c, idx), e) m -> In ((N.of_nat c, idx'), e') m -> one_more idx idx' j -> nth_error ds j = Some d ->
  pt rho -> dval d rho = Some t0 -> exists v, ev rho e' = Some v /\ hasd (fun t => ev (upd d t rho) e) t0 v.
Proof.
  intros Hin Hin' HO Hj Hrho Hd. destruct (counts_ex idx) as (l & Hl). pose proof (counts_more l idx idx' j d Hj HO Hl) as Hl'.
  destruct (diffs_reg rho Hrho l (proj1 Hl)) as (f & Hf & Rf). destruct (reg_diff L rho ug d f Rf) as (f' & Ef & Rf').
  pose proof (entry_same _ l idx e f eq_refl Hin Hl Hf) as HS. pose proof (entry_same _ _ idx' e' f' eq_refl Hin' Hl' (ds_cons _ _ _ _ _ Hf Ef)) as HS'.
  destruct (reg_der L ug rho d t0 f f' Hd Rf Ef) as (_ & v & V & D). exists v. split; [destruct (HS' rho Hrho) as (_ & _ & E); congruence|].
  exact (same_der _ _ _ _ _ _ (same_sym _ _ HS) Hrho Hd D).
Qed.
End Tens.
