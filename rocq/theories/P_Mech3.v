(* The checks of hamiltonian() and lagrangian(), and other preliminaries. *)
From Coq Require Import Reals Lra String Bool ZArith NArith Lia List.
From Verif Require Import M_Expr S_Expr P_Subs M_Dag M_Dec P_DecP M_Taylor M_Dtens S_Dtens P_Dtens T_Dtens M_Var M_Ctor S_Ctor P_Ctor P_Adj1 S_Reg P_Reg1 P_Reg3 M_Adj P_Adj2 M_Mech S_Mech.
Import ListNotations.
Local Open Scope nat_scope.
Set Bullet Behavior "Strict Subproofs".

Section Checks.
Context (o : nops).
Local Notation ex := (expr (num o)).

Lemma gen_names l : (exists q, l = map EVar q /\ (forall s, In s q -> ~ reserved s) /\ mmap (gen_name o) l = MDone q) \/
  (mmap (gen_name o) l = MThrow /\ forall q, l = map EVar q -> exists s, In s q /\ reserved s).
Proof.
  induction l as [|e l IH]; [left; exists []; split; [reflexivity | split; [intros s [] | reflexivity]]|]. cbn [mmap]. unfold gen_name at 1 3.
  destruct e as [n|s|i|f args]; cbn [var_name mbind]; try (right; split; [reflexivity|]; intros [|? ?] H; discriminate).
  destruct (String.prefix "__" s) eqn:Ep; cbn [mbind].
  - right. split; [reflexivity|]. intros [|x q] H; [discriminate|]. cbn in H. injection H as <- _. exists s. split; [now left | now apply prefix_reserved].
  - destruct IH as [(q & -> & Hq & E)|(E & Hq)].
    + left. exists (s :: q). split; [reflexivity|]. rewrite E. split; [|reflexivity]. intros x [<-|Hx]; [|auto]. intros Hr. apply prefix_reserved in Hr. congruence.
    + right. rewrite E. split; [reflexivity|]. intros [|x q] H; [discriminate|]. cbn in H. injection H as _ H. destruct (Hq q H) as (y & Hy & Hr). exists y. split; [now right | exact Hr].
Qed.
Lemma NoDup_app_iff {A} (l l' : list A) : NoDup (l ++ l') <-> NoDup l /\ NoDup l' /\ forall x, In x l -> ~ In x l'.
Proof.
  induction l as [|a l IH]; cbn; [split; [intros H; split; [constructor | split; [exact H | intros x []]] | tauto]|]. rewrite !NoDup_cons_iff, IH, in_app_iff. split.
  - intros (H1 & H2 & H3 & H4). split; [tauto|]. split; [exact H3|]. intros x [<-|Hx]; [tauto | auto].
  - intros ((H1 & H2) & H3 & H4). split; [intros [K|K]; [tauto | exact (H4 a (or_introl eq_refl) K)]|]. split; [exact H2|]. split; [exact H3|]. intros x Hx. apply H4. now right.
Qed.
Lemma state_names_spec (qs ps : list ex) : (exists q p, state_vars o qs ps q p /\ state_names o qs ps = MDone (q, p)) \/
  (state_names o qs ps = MThrow /\ forall q p, ~ state_vars o qs ps q p).
Proof.
  unfold state_names. destruct (Nat.eqb_spec (length qs) (length ps)) as [El|El]; cbn [negb].
  2: { right. split; [reflexivity|]. intros q p (-> & -> & H & _). rewrite !map_length in El. congruence. }
  destruct qs as [|q0 qs0] eqn:Eq; [right; split; [reflexivity|]; intros q p (H & _ & _ & Hn & _); destruct q; [congruence | discriminate]|]. rewrite <- Eq in *. assert (Hne : qs <> []) by (rewrite Eq; discriminate). clear Eq q0 qs0.
  destruct (gen_names qs) as [(q & -> & Hq & E)|(E & Hq)]; rewrite E; cbn [mbind].
  2: { right. split; [reflexivity|]. intros q p (H & _ & _ & _ & _ & Hr). destruct (Hq q H) as (s & Hs & Hs'). apply (Hr s); [apply in_app_iff; now left | exact Hs']. }
  destruct (gen_names ps) as [(p & -> & Hp & E')|(E' & Hp)]; rewrite E'; cbn [mbind].
  2: { right. split; [reflexivity|]. intros q' p (_ & H & _ & _ & _ & Hr). destruct (Hp p H) as (s & Hs & Hs'). apply (Hr s); [apply in_app_iff; now right | exact Hs']. }
  assert (Inj : forall q' p', state_vars o (map EVar q) (map EVar p) q' p' -> q' = q /\ p' = p) by (intros q' p' (H1 & H2 & _); split; apply (map_evar_inj o); congruence).
  destruct (nodupb q) eqn:E1; cbn [negb]; [apply nodupb_ok in E1 | right; split; [reflexivity|]; intros q' p' H; destruct (Inj _ _ H) as [-> ->]; destruct H as (_ & _ & _ & _ & H & _); apply NoDup_app_iff, proj1, nodupb_ok in H; congruence].
  destruct (nodupb p) eqn:E2; cbn [negb]; [apply nodupb_ok in E2 | right; split; [reflexivity|]; intros q' p' H; destruct (Inj _ _ H) as [-> ->]; destruct H as (_ & _ & _ & _ & H & _); apply NoDup_app_iff, proj2, proj1, nodupb_ok in H; congruence].
  destruct (existsb (fun s => existsb (String.eqb s) p) q) eqn:E3.
  - right. split; [reflexivity|]. intros q' p' H. destruct (Inj _ _ H) as [-> ->]. destruct H as (_ & _ & _ & _ & H & _). apply NoDup_app_iff in H. destruct H as (_ & _ & H).
    apply existsb_exists in E3. destruct E3 as (s & Hs & Hs'). apply existsb_str in Hs'. exact (H s Hs Hs').
  - left. exists q, p. split; [|reflexivity]. rewrite !map_length in El. split; [reflexivity|]. split; [reflexivity|]. split; [exact El|]. split; [intros ->; now apply Hne|]. split.
    + apply NoDup_app_iff. split; [exact E1|]. split; [exact E2|]. intros x Hx Hx'. assert (T : existsb (fun s => existsb (String.eqb s) p) q = true) by (apply existsb_exists; exists x; split; [exact Hx | now apply existsb_str]). congruence.
    + intros s Hs. apply in_app_iff in Hs. destruct Hs; auto.
Qed.
Lemma vars_within_ok (e : ex) l : vars_within o e l = true <-> forall s, occurs (EVar s) e -> In s l.
Proof.
  unfold vars_within. rewrite vars_in. split; [intros H s Hs; apply (H e); [now left | exact Hs] | intros H x s [<-|[]]; apply H].
Qed.

(* The gradient. *)
Lemma nth_nseq : forall k s j, j < k -> nth_error (nseq s k) j = Some (s + N.of_nat j)%N.
Proof.
  induction k as [|k IH]; intros s j Hj; [lia|]. destruct j as [|j]; cbn [nseq nth_error]; [f_equal; lia|]. rewrite IH by lia. f_equal. lia.
Qed.
Lemma gradient_ok nargs order (l : list ((N * list (N * N)) * ex)) : (0 < nargs)%N -> (1 <= order <= u32_max)%N -> complete_tensor 1 nargs order l ->
  exists grad, get_gradient {| dt_map := l; dt_nargs := nargs |} = Some grad /\ N.of_nat (length grad) = nargs /\
    forall j e, nth_error grad j = Some e -> In ((0%N, [(N.of_nat j, 1%N)]), e) l.
Proof.
  intros H1 H2 Hc. destruct (dtens_jacobian_row_major 1 nargs order l ltac:(lia) H1 H2 Hc) as (es & E & HF).
  destruct (dtens_shape 1 nargs order l ltac:(lia) H1 (proj2 H2) Hc) as [E1 E2]. cbn zeta in *. exists es. split.
  - rewrite <- E. unfold get_gradient, get_jacobian. rewrite E1, E2. destruct (N.eqb_spec order 0); [lia|]. cbn [N.eqb].
    rewrite (dtens_get_derivatives_order 1 nargs order) by (auto; try lia; unfold u32_max; lia). rewrite (dtens_get_derivatives_component 1 nargs order) by (auto; try lia; unfold u32_max; lia).
    cbn [option_map]. f_equal. f_equal. apply filter_ext_in. intros kv Hkv. apply (in_map fst) in Hkv. apply (proj2 Hc) in Hkv. destruct Hkv as (_ & Hk & _). destruct (N.eqb_spec (fst (fst kv)) 0); [reflexivity | lia].
  - assert (Ek : jac_keys 1 nargs = map (fun i => (0%N, [(i, 1%N)])) (nseq 0 (N.to_nat nargs))) by (unfold jac_keys; change (nseq 0 (N.to_nat 1)) with [0%N]; cbn [flat_map]; now rewrite app_nil_r).
    rewrite Ek in HF. pose proof (Forall2_len _ _ _ HF) as Hl. rewrite map_length, nseq_length in Hl. split; [lia|]. intros j e Hj.
    assert (Hlt : j < N.to_nat nargs) by (rewrite Hl; apply nth_error_Some; congruence).
    assert (K : nth_error (map (fun i => (0%N, [(i, 1%N)])) (nseq 0 (N.to_nat nargs))) j = Some (0%N, [(N.of_nat j, 1%N)])) by (rewrite nth_error_map, nth_nseq by exact Hlt; reflexivity).
    destruct (Forall2_nth _ _ _ HF j _ K) as (e' & He' & Hin). congruence.
Qed.
End Checks.
