(* C40: Hamilton's equations. *)
From Coquelicot Require Import Coquelicot.
From Coq Require Import String Bool ZArith NArith Reals List Lra Lia.
From Verif Require Import M_Expr S_Expr X_Expr X_Dec S_Dag S_Dec P_ExprSem P_Build P_Subs S_Diff P_Deriv P_Diff T_Diff M_Dag M_Dec P_Adj1 P_Adj2 P_Adj9 P_Adj11 M_Taylor M_Dtens M_Var M_Ctor S_Ctor P_Ctor S_Dtens T_Dtens M_Adj S_Adj T_Adj S_Reg P_Reg1 P_Reg3 P_Reg5 T_Reg M_Mech S_Mech P_Mech3 P_Mech4.
Import ListNotations.
Local Open Scope R_scope.
Set Bullet Behavior "Strict Subproofs".

Lemma nth_combine_seq {A} : forall (l : list A) b n i x, length l = n -> nth_error l i = Some x -> nth_error (combine (seq b n) l) i = Some ((b + i)%nat, x).
Proof.
  induction l as [|a l IH]; intros b n i x Hn Hi; [destruct i; discriminate|]. destruct n as [|n]; [discriminate|]. cbn [seq combine]. destruct i as [|i]; cbn in Hi |- *.
  - injection Hi as <-. now rewrite Nat.add_0_r.
  - rewrite (IH (S b) n i x) by (try exact Hi; cbn in Hn; lia). do 2 f_equal. lia.
Qed.
Lemma nth_error_same {A} : forall l l' : list A, (forall k, nth_error l k = nth_error l' k) -> l = l'.
Proof.
  induction l as [|a l IH]; intros [|b l'] H; try reflexivity; try (specialize (H 0%nat); discriminate).
  pose proof (H 0%nat) as H0. cbn in H0. injection H0 as <-. f_equal. apply IH. intros k. exact (H (S k)).
Qed.
Lemma rsum_cancel {A B} (f : A -> R) (g : B -> R) l l' : Forall2 (fun a b => f a + g b = 0) l l' -> rsum (map f l) + rsum (map g l') = 0.
Proof. induction 1 as [|a b l l' H HF IH]; [unfold rsum; cbn; ring|]. cbn [map]. rewrite !rsum_cons. lra. Qed.

Section Ham.
Context {o : nops} {nval : num o -> R} (L : nlaws o nval).
Local Notation ex := (expr (num o)).
(* == on numbers and functions, the gradients of the user-defined functions, the
   sharing of nodes, and the choice of the mode. *)
Context (neq : num o -> num o -> bool) (feq : fid (num o) -> fid (num o) -> bool)
  (ug : string -> list ex -> option (list ex)) (share : list ex -> list (dag (num o))) (mode : nat -> nat -> bool).
Hypothesis Hneq : forall x y, neq x y = true -> nval x = nval y.
Hypothesis Hfeq : forall f g, feq f g = true -> f = g.
Hypothesis Hun : user_gradients_uniform o ug.
Hypothesis Hsh : forall l, map erase (share l) = l /\ consistent (share l).
Local Notation ham := (hamiltonian o neq feq ug share mode).

(* Inputs which do not make sense are rejected... *)
Theorem hamiltonian_rejects fuel H qs ps : ~ valid_hamiltonian o H qs ps -> ham fuel H qs ps = MThrow.
Proof.
  intros NV. unfold hamiltonian. destruct (state_names_spec o qs ps) as [(q & p & HS & E)|(E & _)]; rewrite E; cbn [mbind]; [|reflexivity].
  destruct (vars_within o H (q ++ p)) eqn:Ev; [|reflexivity]. exfalso. apply NV. exists q, p. split; [exact HS | now apply vars_within_ok].
Qed.
Lemma state_args qs ps q p : state_vars o qs ps q p -> qs ++ ps = map dex (map DVar (q ++ p)) /\ NoDup (qs ++ ps) /\ qs ++ ps <> [].
Proof.
  intros (-> & -> & Hl & Hne & HN & _). rewrite <- map_app. split; [rewrite map_map; reflexivity|]. split.
  - apply FinFun.Injective_map_NoDup; [intros a b E; congruence | exact HN].
  - destruct q; [congruence | discriminate].
Qed.
Lemma first_entries dt (args : list ex) H : dt_nargs dt = N.of_nat (length args) -> args <> [] -> derivative_tensor o nval ug [H] args 1 (dt_map dt) ->
  exists grad, get_gradient dt = Some grad /\ length grad = length args /\ forall j e, nth_error grad j = Some e -> op_index_sparse dt (0%N, [(N.of_nat j, 1%N)]) = Some e.
Proof.
  intros Hna Hne (HC & _). destruct dt as [m na]. cbn [dt_nargs dt_map] in *. subst na. assert (0 < length args)%nat by (destruct args; [congruence | cbn; lia]).
  destruct (gradient_ok o (N.of_nat (length args)) 1 m ltac:(lia) ltac:(unfold u32_max; lia) HC) as (grad & E & Hl & Hg). exists grad. split; [exact E|]. split; [lia|].
  intros j e Hj. apply (dtens_lookup_sparse 1 (N.of_nat (length args)) 1 m); [unfold u32_max; lia | exact HC | now apply Hg].
Qed.
(* What hamiltonian() returns in terms of the tensor of the derivatives. *)
Lemma ham_shape fuel H qs ps sys : ham fuel H qs ps = MDone sys -> exists q p dt,
  state_vars o qs ps q p /\ (forall s, occurs (EVar s) H -> In s (q ++ p)) /\
  diff_tensors o neq feq ug share mode fuel [H] (DList o (qs ++ ps)) 1 = MDone (dt, qs ++ ps) /\
  length sys = (length q + length p)%nat /\
  forall i qi pi, nth_error q i = Some qi -> nth_error p i = Some pi -> exists a b,
    op_index_sparse dt (0%N, [(N.of_nat (length q + i), 1%N)]) = Some a /\ op_index_sparse dt (0%N, [(N.of_nat i, 1%N)]) = Some b /\
    nth_error sys i = Some (EVar qi, a) /\ nth_error sys (length q + i) = Some (EVar pi, mk_neg o b).
Proof.
  intros E. unfold hamiltonian in E. destruct (state_names_spec o qs ps) as [(q & p & HS & E1)|(E1 & _)]; rewrite E1 in E; [|discriminate]. cbn [mbind] in E.
  destruct (vars_within o H (q ++ p)) eqn:Ev; cbn [negb] in E; [|discriminate]. apply mbind_done in E. destruct E as ([dt args] & Ed & E).
  destruct (diff_tensors_correct L neq feq ug share Hneq Hfeq Hun Hsh mode fuel [H] _ 1 dt args ltac:(vm_compute; discriminate) Ed) as (R & Hna & HT). cbn in R. subst args.
  destruct (state_args qs ps q p HS) as (_ & _ & Hne). destruct (first_entries dt (qs ++ ps) H Hna Hne HT) as (grad & Eg & Hlg & Hg). rewrite Eg in E.
  apply mbind_done in E. destruct E as (l1 & E2 & E). apply mbind_done in E. destruct E as (l2 & E3 & E). injection E as <-.
  apply mmap_done in E2, E3. exists q, p, dt. split; [exact HS|]. split; [now apply vars_within_ok|]. split; [exact Ed|].
  destruct HS as (-> & -> & Hl & _). pose proof (Forall2_len _ _ _ E2) as L2. pose proof (Forall2_len _ _ _ E3) as L3. rewrite combine_length, seq_length, !map_length in L2. rewrite combine_length, seq_length, !map_length in L3.
  split; [rewrite app_length; lia|]. intros i qi pi Hq Hp.
  assert (Hi : (i < length q)%nat) by (apply nth_error_Some; congruence).
  destruct (Forall2_nth _ _ _ E2 i (i, EVar qi)) as (y & Hy & Ey). { rewrite (nth_combine_seq (map EVar q) 0 _ i (EVar qi)); [reflexivity | reflexivity | rewrite nth_error_map, Hq; reflexivity]. }
  destruct (Forall2_nth _ _ _ E3 i (i, EVar pi)) as (z & Hz & Ez). { rewrite (nth_combine_seq (map EVar p) 0 _ i (EVar pi)); [reflexivity | rewrite !map_length; lia | rewrite nth_error_map, Hp; reflexivity]. }
  cbn beta iota in Ey, Ez. rewrite map_length in Ey. destruct (nth_error grad (length q + i)) as [a|] eqn:Ea; [|discriminate]. destruct (nth_error grad i) as [b|] eqn:Eb; [|discriminate].
  injection Ey as <-. injection Ez as <-. exists a, b. split; [now apply Hg|]. split; [now apply Hg|]. split.
  - rewrite nth_error_app1 by lia. exact Hy.
  - rewrite nth_error_app2 by lia. replace (length q + i - length l1)%nat with i by lia. exact Hz.
Qed.
(* ... and the others are accepted, if the functions in the Hamiltonian have gradients. *)
Theorem hamiltonian_total H qs ps : valid_hamiltonian o H qs ps -> gradients_differentiable o ug -> differentiable o ug H ->
  exists fuel0 sys, forall fuel, (fuel0 <= fuel)%nat -> ham fuel H qs ps = MDone sys.
Proof.
  intros (q & p & HS & Hv) Hg Hd. destruct (state_args qs ps q p HS) as (Ea & HN & Hne).
  assert (HV : valid_request o [H] (DList o (qs ++ ps))).
  { split; [discriminate|]. exists (qs ++ ps). split; [reflexivity|]. split; [exact Hne|]. split; [exact HN|]. rewrite Ea. intros a Ha. apply in_map_iff in Ha. destruct Ha as (d & <- & _). now exists d. }
  destruct (diff_tensors_total L neq feq ug share Hneq Hfeq Hun Hsh mode [H] _ 1 ltac:(vm_compute; discriminate) HV Hg (Forall_cons _ Hd (Forall_nil _))) as (f0 & [dt args] & E).
  assert (Hw : vars_within o H (q ++ p) = true) by now apply vars_within_ok.
  assert (Hst : state_names o qs ps = MDone (q, p)).
  { destruct (state_names_spec o qs ps) as [(q' & p' & HS' & E')|(_ & E')]; [|exfalso; exact (E' _ _ HS)]. rewrite E'. destruct HS as (A & B & _), HS' as (A' & B' & _).
    rewrite A in A'. rewrite B in B'. apply (map_evar_inj o) in A', B'. now subst. }
  assert (K : exists sys, ham f0 H qs ps = MDone sys).
  { unfold hamiltonian. rewrite Hst. cbn [mbind]. rewrite Hw. cbn [negb]. rewrite (E f0 (le_n _)). cbn [mbind].
    destruct (diff_tensors_correct L neq feq ug share Hneq Hfeq Hun Hsh mode f0 [H] _ 1 dt args ltac:(vm_compute; discriminate) (E f0 (le_n _))) as (R & Hna & HT). cbn in R. subst args.
    destruct (first_entries dt (qs ++ ps) H Hna Hne HT) as (grad & Eg & Hlg & _). rewrite Eg. rewrite app_length in Hlg. destruct HS as (-> & -> & Hl & _). rewrite !map_length in *.
    destruct (mmap_total (fun '(i, x) => match nth_error grad (length q + i) with Some g => MDone (x, g) | None => MUB end) (combine (seq 0 (length q)) (map (@EVar (num o)) q))) as (l1 & E1).
    { intros [i x] Hix. apply in_combine_l, in_seq in Hix. destruct (nth_error grad (length q + i)) eqn:En; [eauto | apply nth_error_None in En; lia]. }
    rewrite E1. cbn [mbind].
    destruct (mmap_total (fun '(i, x) => match nth_error grad i with Some g => MDone (x, mk_neg o g) | None => MUB end) (combine (seq 0 (length q)) (map (@EVar (num o)) p))) as (l2 & E2).
    { intros [i x] Hix. apply in_combine_l, in_seq in Hix. destruct (nth_error grad i) eqn:En; [eauto | apply nth_error_None in En; lia]. }
    rewrite E2. cbn [mbind]. eauto. }
  destruct K as (sys & K). exists f0, sys. intros fuel Hf. rewrite <- K. unfold hamiltonian. rewrite Hst. cbn [mbind]. rewrite Hw. cbn [negb]. now rewrite (E fuel Hf), (E f0 (le_n _)).
Qed.
(* The equations are Hamilton's: dq/dt = dH/dp, dp/dt = - dH/dq, at all the points where the
   parts of the Hamiltonian are differentiable. *)
Theorem hamiltonian_equations fuel H qs ps sys : ham fuel H qs ps = MDone sys ->
  exists q p, state_vars o qs ps q p /\ map fst sys = map EVar q ++ map EVar p /\
  forall i qi pi, nth_error q i = Some qi -> nth_error p i = Some pi -> exists dq dp,
    nth_error sys i = Some (EVar qi, dq) /\ nth_error sys (length q + i) = Some (EVar pi, dp) /\
    forall rho, user_gradients_correct o nval ug rho ->
      (forall x, v_var rho pi = Some x -> smooth o nval ug (DVar pi) rho x H -> exists v, partial o nval rho H pi v /\ eval o nval rho dq = Some v) /\
      (forall x, v_var rho qi = Some x -> smooth o nval ug (DVar qi) rho x H -> exists v, partial o nval rho H qi v /\ eval o nval rho dp = Some (- v)).
Proof.
  intros E. destruct (ham_shape fuel H qs ps sys E) as (q & p & dt & HS & Hv & Ed & Hlen & Hsys). exists q, p. split; [exact HS|].
  assert (HS' := HS). destruct HS' as (Eq & Ep & Hl & _). split.
  { rewrite <- map_app. apply nth_error_same. intros k. rewrite !nth_error_map. destruct (Nat.lt_ge_cases k (length q)) as [Hk|Hk].
    - destruct (nth_error q k) as [qi|] eqn:Hq; [|apply nth_error_None in Hq; lia]. destruct (nth_error p k) as [pi|] eqn:Hp; [|apply nth_error_None in Hp; lia].
      destruct (Hsys k qi pi Hq Hp) as (a & b & _ & _ & -> & _). rewrite nth_error_app1, Hq by exact Hk. reflexivity.
    - destruct (Nat.lt_ge_cases k (length q + length p)) as [Hk'|Hk'].
      + destruct (nth_error q (k - length q)) as [qi|] eqn:Hq; [|apply nth_error_None in Hq; lia]. destruct (nth_error p (k - length q)) as [pi|] eqn:Hp; [|apply nth_error_None in Hp; lia].
        destruct (Hsys _ qi pi Hq Hp) as (a & b & _ & _ & _ & K). replace (length q + (k - length q))%nat with k in K by lia. rewrite K, nth_error_app2, Hp by exact Hk. reflexivity.
      + rewrite (proj2 (nth_error_None sys k)) by lia. rewrite (proj2 (nth_error_None (q ++ p) k)) by (rewrite app_length; lia). reflexivity. }
  intros i qi pi Hq Hp. destruct (Hsys i qi pi Hq Hp) as (a & b & Ka & Kb & Na & Nb). exists a, (mk_neg o b). split; [exact Na|]. split; [exact Nb|]. intros rho HU.
  assert (Hi : (i < length q)%nat) by (apply nth_error_Some; congruence). split.
  - intros x Hx Hsm. assert (Hj : nth_error (qs ++ ps) (length q + i) = Some (dex (DVar pi))) by (rewrite Eq, Ep, nth_error_app2, map_length by (rewrite map_length; lia); replace (length q + i - length q)%nat with i by lia; rewrite nth_error_map, Hp; reflexivity).
    destruct (diff_tensors_first_order L neq feq ug share Hneq Hfeq Hun Hsh mode fuel [H] _ 1 dt _ 0 H _ _ (le_n _) ltac:(vm_compute; discriminate) Ed eq_refl Hj) as (a' & Ka' & D).
    cbn [N.of_nat] in Ka'. assert (a' = a) by congruence. subst a'. destruct (D rho x (DVar pi) eq_refl Hx HU Hsm) as (v & V & Dv). exists v. split; [exists x; split; assumption | exact V].
  - intros x Hx Hsm. assert (Hj : nth_error (qs ++ ps) i = Some (dex (DVar qi))) by (rewrite Eq, nth_error_app1 by (rewrite map_length; lia); rewrite nth_error_map, Hq; reflexivity).
    destruct (diff_tensors_first_order L neq feq ug share Hneq Hfeq Hun Hsh mode fuel [H] _ 1 dt _ 0 H _ _ (le_n _) ltac:(vm_compute; discriminate) Ed eq_refl Hj) as (b' & Kb' & D).
    cbn [N.of_nat] in Kb'. assert (b' = b) by congruence. subst b'. destruct (D rho x (DVar qi) eq_refl Hx HU Hsm) as (v & V & Dv). exists v. split; [exists x; split; assumption|]. exact (neg_ok L rho b v V).
Qed.
(* Along the motions which follow the equations the Hamiltonian changes only because of its
   explicit dependence on the time. *)
Theorem hamiltonian_energy fuel H qs ps sys gm t0 : ham fuel H qs ps = MDone sys ->
  motion gm -> follows o nval sys gm t0 -> regular o nval (gm t0) H ->
  exists v, partial_time o nval (gm t0) H v /\ has_derivative (fun t => eval o nval (gm t) H) t0 v.
Proof.
  intros E HM HF Hr. destruct (ham_shape fuel H qs ps sys E) as (q & p & dt & HS & Hv & Ed & Hlen & Hsys). assert (HS' := HS). destruct HS' as (Eq & Ep & Hl & _ & HN & _).
  set (w := fun s => Derive (fun t => match v_var (gm t) s with Some x => x | None => 0 end) t0).
  assert (Hw : forall s v, has_derivative (fun t => v_var (gm t) s) t0 v -> w s = v).
  { intros s v D. apply hasd_has in D. destruct D as (g & Hg & Dg). unfold w. rewrite (Derive_ext_loc _ g); [now apply is_derive_unique|]. revert Hg. apply filter_imp. intros t ->. reflexivity. }
  assert (Hall : forall s, In s (q ++ p) -> exists v, has_derivative (fun t => v_var (gm t) s) t0 v).
  { intros s Hs. assert (Hin : exists r, In (EVar s, r) sys).
    { apply in_app_iff in Hs. destruct Hs as [Hs|Hs]; apply In_nth_error in Hs; destruct Hs as [i Hi].
      - destruct (nth_error p i) as [pi|] eqn:Hp; [|apply nth_error_None in Hp; assert (i < length q)%nat by (apply nth_error_Some; congruence); lia]. destruct (Hsys i s pi Hi Hp) as (a & b & _ & _ & K & _). exists a. exact (nth_error_In _ _ K).
      - destruct (nth_error q i) as [qi|] eqn:Hq; [|apply nth_error_None in Hq; assert (i < length p)%nat by (apply nth_error_Some; congruence); lia]. destruct (Hsys i qi s Hq Hi) as (a & b & _ & _ & _ & K). exists (mk_neg o b). exact (nth_error_In _ _ K). }
    destruct Hin as [r Hin]. destruct (HF _ _ Hin) as (s' & v & Es & _ & D). injection Es as <-. now exists v. }
  destruct (along (nval := nval) gm t0 H (q ++ p) w [LT]) as (c & Hc & HD).
  - left. split; [reflexivity|]. intros t. apply HM.
  - intros t. destruct (HM t) as (_ & A & B & C), (HM t0) as (_ & A' & B' & C'). split; [|split]; congruence.
  - exact Hr.
  - exact HN.
  - exact Hv.
  - intros s Hs. destruct (Hall s Hs) as (v & D). rewrite (Hw s v D). now apply hasd_has.
  - exists (c LT). assert (Ht0 : v_time (gm t0) = Some t0) by apply HM. split.
    + exists t0. split; [exact Ht0|]. apply hasd_has. exact (Hc LT t0 Ht0).
    + apply hasd_has. eapply hasd_eq; [|exact HD]. rewrite map_app, rsum_app.
      assert (Z : rsum (map (fun s => c (LV s) * w s) q) + rsum (map (fun s => c (LV s) * w s) p) = 0); [|rewrite Z; cbn; ring].
      apply rsum_cancel. apply Forall2_nth_iff; [exact Hl|]. intros k qi pi Hq Hp. destruct (Hsys k qi pi Hq Hp) as (a & b & Ka & Kb & Na & Nb).
      assert (Hk : (k < length q)%nat) by (apply nth_error_Some; congruence).
      assert (Hval : forall x, In x (qs ++ ps) -> eval o nval (gm t0) x <> None).
      { rewrite Eq, Ep, <- map_app. intros x Hx. apply in_map_iff in Hx. destruct Hx as (s & <- & Hs). destruct (Hall s Hs) as (v & D). apply hasd_has in D. destruct D as (g & Hg & _). apply locally_singleton in Hg. cbn. rewrite Hg. discriminate. }
      destruct (diff_tensors_mixed L neq feq ug share Hneq Hfeq Hun Hsh mode fuel [H] _ 1 dt _ (gm t0) ltac:(vm_compute; discriminate) Ed (Forall_cons _ Hr (Forall_nil _)) Hval) as (_ & HX).
      assert (H0 : op_index_sparse dt (0%N, []) = Some H).
      { destruct (diff_tensors_correct L neq feq ug share Hneq Hfeq Hun Hsh mode fuel [H] _ 1 dt _ ltac:(vm_compute; discriminate) Ed) as (_ & Hna & HC & HZ & _). destruct dt as [m na]. cbn [dt_nargs dt_map] in *. subst na.
        apply (dtens_lookup_sparse 1 (N.of_nat (length (qs ++ ps))) 1 m); [unfold u32_max; lia | exact HC | now apply HZ]. }
      assert (OM : forall j, one_more [] [(N.of_nat j, 1%N)] j) by (intros j x; cbn; rewrite (N.eqb_sym x); destruct (N.eqb (N.of_nat j) x); reflexivity).
      assert (Hvq : exists x, v_var (gm t0) qi = Some x). { specialize (Hval (EVar qi)). cbn in Hval. destruct (v_var (gm t0) qi) as [x|]; [eauto|]. exfalso. apply Hval; [|reflexivity]. rewrite Eq. apply in_app_iff. left. apply in_map. exact (nth_error_In _ _ Hq). }
      assert (Hvp : exists x, v_var (gm t0) pi = Some x). { specialize (Hval (EVar pi)). cbn in Hval. destruct (v_var (gm t0) pi) as [x|]; [eauto|]. exfalso. apply Hval; [|reflexivity]. rewrite Ep. apply in_app_iff. right. apply in_map. exact (nth_error_In _ _ Hp). }
      destruct Hvq as [xq Hxq]. destruct Hvp as [xp Hxp].
      destruct (HX 0%N [] _ (length q + k)%nat (DVar pi) H a xp H0 Ka (OM _)) as (va & Va & Da); [|exact Hxp|].
      { rewrite Eq, Ep, nth_error_app2, map_length by (rewrite map_length; lia). replace (length q + k - length q)%nat with k by lia. rewrite nth_error_map, Hp. reflexivity. }
      destruct (HX 0%N [] _ k (DVar qi) H b xq H0 Kb (OM _)) as (vb & Vb & Db); [|exact Hxq|].
      { rewrite Eq, nth_error_app1 by (rewrite map_length; lia). rewrite nth_error_map, Hq. reflexivity. }
      apply hasd_has in Da, Db. rewrite (hasd_uniq _ _ _ _ (Hc (LV qi) xq Hxq) Db), (hasd_uniq _ _ _ _ (Hc (LV pi) xp Hxp) Da).
      destruct (HF _ _ (nth_error_In _ _ Na)) as (s1 & v1 & E1 & V1 & D1). injection E1 as <-. rewrite (Hw _ _ D1).
      destruct (HF _ _ (nth_error_In _ _ Nb)) as (s2 & v2 & E2 & V2 & D2). injection E2 as <-. rewrite (Hw _ _ D2).
      assert (v1 = va) by congruence. subst v1. assert (v2 = - vb) by (rewrite (neg_ok L (gm t0) b vb Vb) in V2; congruence). subst v2. ring.
Qed.
(* If the Hamiltonian does not depend explicitly on the time it is conserved. *)
Theorem hamiltonian_conserved fuel H qs ps sys gm a b : ham fuel H qs ps = MDone sys -> ~ occurs (EFun Ftime []) H -> motion gm ->
  (forall t, a <= t <= b -> follows o nval sys gm t /\ regular o nval (gm t) H) ->
  exists E, forall t, a <= t <= b -> eval o nval (gm t) H = Some E.
Proof.
  intros E Hnt HM HF. destruct (Rle_or_lt a b) as [Hab|Hab]; [|exists 0; intros t Ht; lra].
  set (g := fun t => match eval o nval (gm t) H with Some x => x | None => 0 end).
  assert (Hg : forall t, a <= t <= b -> eval o nval (gm t) H = Some (g t) /\ is_derive g t 0).
  { intros t Ht. destruct (HF t Ht) as (HF1 & Hr). destruct (hamiltonian_energy fuel H qs ps sys gm t E HM HF1 Hr) as (v & (t1 & Et1 & Dp) & D).
    assert (v = 0).
    { apply hasd_has in Dp. assert (Hs : forall t', eval o nval (set_time t' (gm t)) H = eval o nval (gm t) H).
      { intros t'. apply eval_leaves; [reflexivity | reflexivity|]. intros [s|i|] Hl; try reflexivity. exfalso. exact (Hnt Hl). }
      destruct (reg_value _ _ Hr) as (y & Hy). eapply hasd_uniq; [exact Dp|]. exists (fun _ => y). split; [apply filter_forall; intros t'; now rewrite Hs | auto_derive; [exact I | reflexivity]]. }
    subst v. apply hasd_has in D. destruct D as (g0 & Hg0 & D0).
    assert (Hl : locally t (fun t' => g0 t' = g t')) by (revert Hg0; apply filter_imp; intros t' E'; unfold g; now rewrite E').
    apply locally_singleton in Hg0 as Hy. split; [unfold g; now rewrite Hy | now apply (is_derive_ext_loc g0 g)]. }
  exists (g a). intros t Ht. destruct (Hg t Ht) as (-> & _). f_equal. destruct (Req_dec a t) as [<-|Hne]; [reflexivity|].
  symmetry. apply (eq_is_derive g a t); [|lra]. intros t' Ht'. apply Hg. lra.
Qed.
End Ham.

(* --- Examples ---------------------------------------------------------------------------- *)
(* The harmonic oscillator H = x^2 + v^2 has the equations x' = 2 v, v' = - 2 x, and
   x = sin(2 t), v = cos(2 t) is a motion which follows them. *)
Definition osc : expr R := EFun Fsum [EFun Fprod [EVar "x"%string; EVar "x"%string]; EFun Fprod [EVar "v"%string; EVar "v"%string]].
Definition osc_motion (t : R) : env :=
  mkEnv (fun s => if String.eqb s "x" then Some (sin (2 * t)) else if String.eqb s "v" then Some (cos (2 * t)) else None)
    (fun _ => None) (Some t) (fun _ _ _ => None) (fun _ _ => None).
Lemma osc_valid : valid_hamiltonian rnum osc [EVar "x"%string] [EVar "v"%string].
Proof.
  exists ["x"%string], ["v"%string]. split.
  - split; [reflexivity|]. split; [reflexivity|]. split; [reflexivity|]. split; [discriminate|]. split; [repeat constructor; cbn; intuition discriminate|].
    intros s [<-|[<-|[]]] [t Ht]; discriminate.
  - apply (vars_within_ok rnum). reflexivity.
Qed.
Lemma osc_regular t : regular rnum (fun x => x) (osc_motion t) osc.
Proof.
  assert (Hx : rval (nval := fun x => x) (o := rnum) (osc_motion t) (EVar "x"%string) (sin (2 * t))) by (split; [apply rg_var with (sin (2 * t)); reflexivity | reflexivity]).
  assert (Hv : rval (nval := fun x => x) (o := rnum) (osc_motion t) (EVar "v"%string) (cos (2 * t))) by (split; [apply rg_var with (cos (2 * t)); reflexivity | reflexivity]).
  destruct (rval_fun (osc_motion t) Fprod _ _ (Forall2_cons _ _ Hx (Forall2_cons _ _ Hx (Forall2_nil _))) I) as (a & Ha).
  destruct (rval_fun (osc_motion t) Fprod _ _ (Forall2_cons _ _ Hv (Forall2_cons _ _ Hv (Forall2_nil _))) I) as (b & Hb).
  exact (rg_fun _ _ _ Fsum _ _ (Forall2_cons _ _ Ha (Forall2_cons _ _ Hb (Forall2_nil _))) I).
Qed.
Example hamiltonian_holds : exists fuel sys,
  hamiltonian rnum (num_eqb Req_EM_T) (fid_eqb Req_EM_T) noug unshared code_mode fuel osc [EVar "x"%string] [EVar "v"%string] = MDone sys /\
  motion osc_motion /\ forall t, follows rnum (fun x => x) sys osc_motion t /\ regular rnum (fun x => x) (osc_motion t) osc.
Proof.
  destruct r_hyps as (H1 & H2 & H3 & H4).
  assert (HDf : differentiable rnum noug osc).
  { repeat (apply df_fun; split; [intros [|? [|? [|? [|? ?]]]] E; try discriminate E; discriminate|]; repeat (apply Forall_cons || apply Forall_nil)); apply df_leaf; exact I. }
  destruct (hamiltonian_total rnum_laws (num_eqb Req_EM_T) (fid_eqb Req_EM_T) noug unshared code_mode H1 H2 H3 unshared_ok osc _ _ osc_valid H4 HDf) as (f0 & sys & E).
  specialize (E f0 (le_n _)). exists f0, sys. split; [exact E|]. split; [intros t; repeat split; reflexivity|]. intros t. split; [|apply osc_regular].
  destruct (hamiltonian_equations rnum_laws (num_eqb Req_EM_T) (fid_eqb Req_EM_T) noug unshared code_mode H1 H2 H3 unshared_ok f0 osc _ _ sys E) as (q & p & (Eq & Ep & _) & Hf & HE).
  destruct q as [|x [|? ?]]; try discriminate. injection Eq as <-. destruct p as [|v [|? ?]]; try discriminate. injection Ep as <-.
  destruct (HE 0%nat _ _ eq_refl eq_refl) as (dq & dp & N1 & N2 & HV). cbn in Hf, N1, N2.
  destruct sys as [|a [|b [|? ?]]]; try discriminate. cbn in N1, N2. injection N1 as ->. injection N2 as ->.
  destruct (HV (osc_motion t)) as (HV1 & HV2). { intros vv s args vs gs g H. discriminate. }
  assert (Sm : forall d x, dval d (osc_motion t) = Some x -> smooth rnum (fun x => x) noug d (osc_motion t) x osc) by (intros d x Hx; apply reg_smooth; [exact Hx | apply osc_regular]).
  destruct (HV1 _ eq_refl (Sm (DVar "v"%string) _ eq_refl)) as (v1 & (x1 & Ex1 & D1) & V1). destruct (HV2 _ eq_refl (Sm (DVar "x"%string) _ eq_refl)) as (v2 & (x2 & Ex2 & D2) & V2).
  cbn in Ex1, Ex2. injection Ex1 as <-. injection Ex2 as <-. apply hasd_has in D1, D2.
  assert (v1 = 2 * cos (2 * t)). { eapply hasd_uniq; [exact D1|]. exists (fun u => sin (2 * t) * (sin (2 * t) * 1) + (u * (u * 1) + 0)). split; [apply filter_forall; intros u; reflexivity | auto_derive; [exact I | ring]]. }
  assert (v2 = 2 * sin (2 * t)). { eapply hasd_uniq; [exact D2|]. exists (fun u => u * (u * 1) + (cos (2 * t) * (cos (2 * t) * 1) + 0)). split; [apply filter_forall; intros u; reflexivity | auto_derive; [exact I | ring]]. }
  subst v1 v2. intros l r [E'|[E'|[]]]; injection E' as <- <-.
  - exists "x"%string, (2 * cos (2 * t)). split; [reflexivity|]. split; [exact V1|]. apply hasd_has. exists (fun u => sin (2 * u)). split; [apply filter_forall; intros u; reflexivity | auto_derive; [exact I | ring]].
  - exists "v"%string, (- (2 * sin (2 * t))). split; [reflexivity|]. split; [exact V2|]. apply hasd_has. exists (fun u => cos (2 * u)). split; [apply filter_forall; intros u; reflexivity | auto_derive; [exact I | ring]].
Qed.
(* The two lists have different lengths. *)
Example hamiltonian_invalid : ~ valid_hamiltonian rnum osc [EVar "x"%string] [].
Proof. intros (q & p & (Eq & Ep & Hl & _) & _). destruct q; [discriminate|]. destruct p; discriminate. Qed.

Print Assumptions hamiltonian_rejects.
Print Assumptions hamiltonian_total.
Print Assumptions hamiltonian_equations.
Print Assumptions hamiltonian_energy.
Print Assumptions hamiltonian_conserved.
