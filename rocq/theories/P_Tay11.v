(* A single element: its code computes the normalised derivatives of the element
   from those of its arguments, of its hidden dependencies and of itself. *)
From Coq Require Import Reals.
From Coquelicot Require Import Coquelicot.
From Coq Require Import String Bool ZArith ZifyNat Arith List Lia Lra.
From Verif Require Import M_Expr M_Dag M_Dec S_Expr S_Dec P_ExprSem P_Build P_Dec S_Diff M_Taylor S_Taylor P_Tay1 P_Tay2 P_Tay3 P_Tay4 P_Tay5 P_Deriv P_Deriv2 P_Deriv3 P_Tay6 P_Tay7 P_Tay8 P_Tay9 P_Tay10.
Import ListNotations.
Local Open Scope R_scope.
Set Bullet Behavior "Strict Subproofs".

Lemma coeff_0 f t : coeff f 0 t = f t.
Proof. unfold coeff. cbn. field. Qed.
Lemma Sm_coeff (O : R -> Prop) (HO : open O) n (f : R -> R) (b : ser) : (forall m t, (m <= n)%nat -> O t -> b m t = coeff f m t) ->
  (forall m t, (m <= n)%nat -> O t -> ex_derive_n f m t) -> Sm O n b.
Proof.
  intros Hb H. apply (Sm_ext O HO n (coeff f)); [intros m t Hm Ht; symmetry; now apply Hb|].
  intros m t Hm Ht. unfold coeff. specialize (H (S m) t Hm Ht). cbn [ex_derive_n] in H.
  apply (is_derive_eq _ _ (/ INR (fact m) * Derive_n f (S m) t)).
  - unfold D. rewrite fact_simpl, mult_INR. field. split; [apply INR_fact_neq_0 | apply INR_S_pos].
  - apply (is_derive_ext (fun s => / INR (fact m) * Derive_n f m s)); [intros s; unfold Rdiv; apply Rmult_comm|].
    apply is_derive_scal_R. exact (Derive_correct _ _ H).
Qed.
Lemma coeff_ext f g m t : locally t (fun s => f s = g s) -> coeff f m t = coeff g m t.
Proof. intros H. unfold coeff. now rewrite (Derive_n_ext_loc f g m t H). Qed.

Section One.
Context {o : nops} (nval : num o -> R) (L : nlaws o nval) (pars : nat -> R) (rho : R -> env).
Hypothesis Hpar : forall t k, v_par (rho t) k = Some (pars k).
Hypothesis Htime : forall t, v_time (rho t) = Some t.
Local Notation ex := (expr (num o)).
Local Notation A t := (ralg o nval (rho t)).
Context (O : R -> Prop) (HO : open O) (u : nat -> R -> R).
Context (nu i : nat) (f : fid (num o)) (args : list ex) (deps : list nat) (hs : list ex).
Hypothesis Hvar : forall t s, v_var (rho t) s = uval None (map (fun j => Some (u j t)) (seq 0 nu)) s.
Hypothesis Hi : (i < nu)%nat.
Hypothesis HS : supported f args.
Hypothesis Ha : Forall (arg_ok i) args.
Hypothesis Hd : Forall (fun d => (d < nu)%nat) deps.
Hypothesis Hh : hidden o f args (EVar (uname i)) = Some hs.
Hypothesis HV : forall t, O t -> eval o nval (rho t) (EFun f args) = Some (u i t).
Hypothesis HH : forall t, O t -> map (fun d => Some (u d t)) deps = map (eval o nval (rho t)) hs.
Hypothesis HR : forall t, O t -> regular nval pars u i f args t.
Context (N : nat).
Hypothesis HN : forall j, In (EVar (uname j)) args \/ In j deps -> forall m t, (m <= N)%nat -> O t -> ex_derive_n (u j) m t.

(* The series, with the value v as the derivative of order k of u_i. *)
Definition ser1 (k : nat) (v : R -> R) : nat -> ser :=
  fun j m t => match m with 0%nat => u j t | S _ => if Nat.eqb j i && Nat.eqb m k then v t else coeff (u j) m t end.
Lemma ser1_coeff k v j m t : (j <> i \/ m <> k) -> ser1 k v j m t = coeff (u j) m t.
Proof.
  intros H. destruct m as [|m]; [symmetry; apply coeff_0|]. unfold ser1.
  destruct (Nat.eqb_spec j i), (Nat.eqb_spec (S m) k); try reflexivity. destruct H; contradiction.
Qed.

Local Notation vals t := (map (fun j => Some (u j t)) (seq 0 nu)).
Lemma nth_vals1 t j : (j < nu)%nat -> nth j (vals t) None = Some (u j t).
Proof.
  intros Hj. rewrite (nth_indep _ None (Some (u 0%nat t))) by (now rewrite map_length, seq_length).
  rewrite (map_nth (fun j => Some (u j t)) (seq 0 nu) 0%nat). now rewrite seq_nth.
Qed.
Lemma vals1 t : O t -> forall x, arg_ok i x -> eval o nval (rho t) x = Some (arg_at nval pars u x t).
Proof.
  intros Ht x. destruct x as [v|s|k|g l]; cbn; [reflexivity| | |contradiction].
  - intros (j & Hj & ->). rewrite uname_index, Hvar, uval_uname. apply nth_vals1. lia.
  - intros _. apply Hpar.
Qed.
Lemma value1 k v t : O t ->
  fsem o nval (rho t) f (map (fun x => Some (sarg nval pars (ser1 k v) x 0%nat t)) args) = Some (ser1 k v i 0%nat t).
Proof.
  intros Ht. change (ser1 k v i 0%nat t) with (u i t). rewrite <- (HV t Ht). cbn [eval]. f_equal. apply map_ext_in. intros x Hx.
  rewrite Forall_forall in Ha. rewrite (vals1 t Ht x (Ha x Hx)). f_equal. symmetry. apply (arg_at_sg nval pars (ser1 k v) x t).
Qed.
Lemma eval_vars r1 r2 : (forall s, v_var r1 s = v_var r2 s) -> v_par r1 = v_par r2 -> v_time r1 = v_time r2 -> v_dfun r1 = v_dfun r2 -> v_user r1 = v_user r2 ->
  forall x : ex, eval o nval r1 x = eval o nval r2 x.
Proof.
  intros H1 H2 H3 H4 H5 x. induction x as [v|s|k|g l IH] using expr_ind'; [reflexivity|apply H1|cbn; now rewrite H2|].
  cbn. rewrite (map_ext_Forall _ _ IH). destruct r1, r2; cbn in *; subst; reflexivity.
Qed.
Lemma hid1 k v t : O t -> allc args = false -> hidv nval pars (ser1 k v) i f args deps t.
Proof.
  intros Ht HA.
  apply (hidv_ok nval L pars (rho t) (Hpar t) (ser1 k v) t nu i (vals t)) with (hs := hs); auto; [intros; now apply nth_vals1|].
  rewrite (map_ext_in _ (fun d => Some (u d t)) deps); [|rewrite Forall_forall in Hd; intros j Hj; now apply nth_vals1, Hd].
  rewrite (HH t Ht). apply map_ext_in. intros h Hin. rewrite elt_val_eval. apply eval_vars; try reflexivity. intros s. apply Hvar.
Qed.

(* Reading the derivatives themselves. *)
Definition rdc (t : R) : nat -> nat -> option R := fun p j => Some (coeff (u j) p t).
Hypothesis Hlen : length deps = length hs.
Lemma code_at n : exists c, cdiff o f args deps n i = Some c /\ code_ok (avail nu n i) c.
Proof.
  destruct (codes_some f args (EVar (uname i)) deps hs i HS Ha Hh Hlen) as [_ H]. destruct (H n i) as (c & Hc). exists c. split; [exact Hc|].
  apply (cdiff_ok o nu n i i f args deps); auto; [lia|]. now apply (sum_fine_ok f args).
Qed.
Lemma tval_agree (B : alg (num o) (option R)) (P : nat -> nat -> Prop) (r1 r2 : nat -> nat -> option R) c : code_ok P c ->
  (forall p j, P p j -> r1 p j = r2 p j) -> tval B real_tops r1 c = tval B real_tops r2 c.
Proof.
  intros Hc H. assert (E : MDone (tval B real_tops r1 c) = MDone (tval B real_tops r2 c)); [|congruence].
  rewrite <- (trun_tval B real_tops P (fun p j => MDone (r1 p j)) r1) by auto.
  apply (trun_tval B real_tops P); [intros; f_equal; auto | exact Hc].
Qed.
Definition good (n : nat) : Prop := (forall t, O t -> ex_derive_n (u i) n t) /\
  forall t c, O t -> cdiff o f args deps n i = Some c -> tval (A t) real_tops (rdc t) c = Some (coeff (u i) n t).
Lemma good_0 : good 0.
Proof.
  split; [intros; exact I|]. intros t c Ht Hc. rewrite coeff_0.
  apply (order0 nval (l_ring L) pars (A t) (fun _ => eq_refl) (Hpar t) (rho t) eq_refl (ser1 0 (fun _ => 0)) t i (rdc t)) with (f := f) (args := args) (deps := deps); auto.
  - intros j Hj. unfold rdc. now rewrite coeff_0.
  - exact (value1 0 (fun _ => 0) t Ht).
Qed.
Lemma args_lt x j : In x args -> x = EVar (uname j) -> (j < i)%nat.
Proof. intros Hx ->. rewrite Forall_forall in Ha. destruct (Ha _ Hx) as (j' & Hj & E). apply uname_inj in E. now subst. Qed.
Lemma good_S n : (S n <= N)%nat -> (forall m, (m <= n)%nat -> good m) -> good (S n).
Proof.
  intros HnN HG. destruct (code_at (S n)) as (cN & HcN & OKN).
  set (v := fun t => match tval (A t) real_tops (rdc t) cN with Some w => w | None => 0 end).
  set (a := ser1 (S n) v).
  assert (EQ : forall m t, (m <= n)%nat -> O t -> (m = n -> tval (A t) real_tops (rdc t) cN = Some (v t)) /\ eqn nval pars a t i m f args deps).
  { intros m t Hm Ht. destruct (code_at (S m)) as (c & Hc & OK).
    set (rd := fun p j => if Nat.eqb j i && Nat.eqb p (S m) then tval (A t) real_tops (rdc t) c else rdc t p j).
    assert (Hrd : forall p j, avail nu (S m) i p j -> rd p j = rdc t p j).
    { intros p j [_ Hp]. unfold rd. destruct (Nat.eqb_spec j i), (Nat.eqb_spec p (S m)); try reflexivity. lia. }
    assert (Ers : rd (S m) i = tval (A t) real_tops (rdc t) c) by (unfold rd; now rewrite !Nat.eqb_refl).
    assert (G : rd (S m) i = Some (a i (S m) t) /\ eqn nval pars a t i m f args deps).
    { apply (cdiff_eqn nval (l_ring L) pars (A t) (fun _ => eq_refl) (Hpar t) (rho t) eq_refl a t nu i m rd) with (c := c); auto.
      - intros p j Hpj. rewrite Hrd by exact Hpj. unfold rdc, a. rewrite ser1_coeff; [reflexivity|]. destruct Hpj as [_ Hpj]. lia.
      - rewrite Ers. destruct (Nat.eq_dec m n) as [->|Hne].
        + rewrite HcN in Hc. apply Some_inj in Hc. subst c. unfold a, ser1. rewrite !Nat.eqb_refl. reflexivity.
        + unfold a. rewrite ser1_coeff by lia. destruct (HG (S m)) as [_ H]; [lia|]. now rewrite (H t c Ht Hc).
      - apply (nonz_ok nval (l_ring L) pars rho Htime a O i m); auto; [now apply value1 | now apply hid1].
      - rewrite Ers. symmetry. now apply (tval_agree (A t) (avail nu (S m) i)). }
    destruct G as [G1 G2]. split; [|exact G2]. intros ->. rewrite HcN in Hc. apply Some_inj in Hc. subst c.
    rewrite <- Ers, G1. f_equal. unfold a, ser1. now rewrite !Nat.eqb_refl. }
  assert (SC : forall j k, (k <= N)%nat -> j <> i -> In (EVar (uname j)) args \/ In j deps -> Sm O k (a j)).
  { intros j k Hk Hj Hin. apply (Sm_coeff O HO k (u j)); [intros; apply ser1_coeff; auto | intros m t Hm Ht; apply HN; auto; lia]. }
  assert (SI : Sm O n (a i)).
  { apply (Sm_coeff O HO n (u i)); [intros; apply ser1_coeff; lia | intros m t Hm Ht; now apply (HG m Hm)]. }
  assert (SS : Sm O (S n) (a i)).
  { apply (elem_smooth nval (l_ring L) pars rho Htime a O HO i n f args deps); auto.
    - intros t Ht. now apply value1.
    - intros HA t Ht. now apply hid1.
    - intros m t Hm Ht. now apply EQ.
    - apply Forall_forall. intros x Hx. pose proof Ha as Ha'. rewrite Forall_forall in Ha'. specialize (Ha' x Hx).
      destruct x as [w|s|k|g l]; cbn [arg_ok sarg] in *; try contradiction; try apply Sm_kst.
      destruct Ha' as (j & Hj & ->). rewrite uname_index. apply SC; auto; lia.
    - apply Forall_forall. intros j Hj. destruct (Nat.eq_dec j i) as [->|Hne]; [exact SI|]. apply SC; auto; lia. }
  split.
  - intros t Ht. exact (Sm_ex_derive_n O HO (S n) (a i) SS (S n) t (Nat.le_refl _) Ht).
  - intros t c Ht Hc. rewrite HcN in Hc. apply Some_inj in Hc. subst c. rewrite (proj1 (EQ n t (Nat.le_refl n) Ht) eq_refl). f_equal.
    pose proof (Sm_Derive_n O HO (S n) (a i) SS (S n) t (Nat.le_refl _) Ht) as E.
    change (a i 0%nat) with (u i) in E. assert (Ev : a i (S n) t = v t) by (unfold a, ser1; now rewrite !Nat.eqb_refl). rewrite Ev in E.
    unfold coeff. rewrite E. field. apply INR_fact_neq_0.
Qed.
Lemma good_all n : (n <= N)%nat -> good n.
Proof.
  induction n as [n IH] using lt_wf_ind. intros Hn. destruct n as [|n]; [apply good_0|]. apply good_S; [exact Hn|]. intros m Hm. apply IH; lia.
Qed.

Theorem recurrence_one n t : (n <= N)%nat -> O t ->
  ex_derive_n (u i) n t /\
  exists c1 c2, tdiff o f args deps n i = Some c1 /\ cdiff o f args deps n i = Some c2 /\
  forall rd, (forall p j, (j < nu)%nat -> (p < n)%nat \/ (p = n /\ (j < i)%nat) -> rd p j = MDone (Some (coeff (u j) p t))) ->
    trun (A t) real_tops rd c1 = MDone (Some (coeff (u i) n t)) /\ trun (A t) real_tops rd c2 = MDone (Some (coeff (u i) n t)).
Proof.
  intros Hn Ht. destruct (good_all n Hn) as [G1 G2]. split; [now apply G1|].
  destruct (codes_some f args (EVar (uname i)) deps hs i HS Ha Hh Hlen) as [H1 H2].
  destruct (H1 n i) as (c1 & Hc1), (H2 n i) as (c2 & Hc2). exists c1, c2. split; [exact Hc1|]. split; [exact Hc2|]. intros rd Hrd.
  assert (OK1 : code_ok (avail nu n i) c1) by (apply (tdiff_ok o nu n i i f args deps); auto; [lia | now apply (sum_fine_ok f args)]).
  assert (OK2 : code_ok (avail nu n i) c2) by (apply (cdiff_ok o nu n i i f args deps); auto; [lia | now apply (sum_fine_ok f args)]).
  rewrite (trun_tval (A t) real_tops (avail nu n i) rd (rdc t)) by (auto; intros p j [Hj Hp]; now apply Hrd).
  rewrite (trun_tval (A t) real_tops (avail nu n i) rd (rdc t)) by (auto; intros p j [Hj Hp]; now apply Hrd).
  pose proof (tdiff_cdiff (A t) (rdc t) f args deps n i c1 c2 Hc1 Hc2) as E. rewrite E, (G2 t c2 Ht Hc2). now split.
Qed.
End One.
