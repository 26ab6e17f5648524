(* The forward and the reverse accumulation on a triangular system compute the
   same derivatives. *)
From Coquelicot Require Import Coquelicot.
From Coq Require Import String Bool ZArith Reals List Lra Lia Arith Permutation Sorted.
From Verif Require Import M_Expr S_Expr P_ExprSem P_Build P_Subs S_Diff P_Diff M_Dag M_Dec M_Taylor M_Dtens M_Adj S_Adj P_Adj1 P_Adj2.
Import ListNotations.
Local Open Scope R_scope.
Set Bullet Behavior "Strict Subproofs".

(* --- Sums ------------------------------------------------------------------------------ *)
Definition sumn (n : nat) (f : nat -> R) : R := rsum (map f (seq 0 n)).
Lemma rsum_ext {A} (f g : A -> R) l : (forall x, In x l -> f x = g x) -> rsum (map f l) = rsum (map g l).
Proof. intros H. induction l as [|x l IH]; [reflexivity|]. cbn [map]. rewrite !rsum_cons, (H x (or_introl eq_refl)), IH; [reflexivity|]. intros; apply H; now right. Qed.
Lemma rsum_zero {A} (f : A -> R) l : (forall x, In x l -> f x = 0) -> rsum (map f l) = 0.
Proof. intros H. induction l as [|x l IH]; [reflexivity|]. cbn [map]. rewrite rsum_cons, (H x (or_introl eq_refl)), IH; [ring|]. intros; apply H; now right. Qed.
Lemma rsum_scal {A} (f : A -> R) c l : rsum (map (fun x => c * f x) l) = c * rsum (map f l).
Proof. induction l as [|x l IH]; cbn [map]; [unfold rsum; cbn; ring|]. rewrite !rsum_cons, IH. ring. Qed.
Lemma rsum_scal_r {A} (f : A -> R) c l : rsum (map (fun x => f x * c) l) = rsum (map f l) * c.
Proof. induction l as [|x l IH]; cbn [map]; [unfold rsum; cbn; ring|]. rewrite !rsum_cons, IH. ring. Qed.
Lemma rsum_plus {A} (f g : A -> R) l : rsum (map (fun x => f x + g x) l) = rsum (map f l) + rsum (map g l).
Proof. induction l as [|x l IH]; cbn [map]; [unfold rsum; cbn; ring|]. rewrite !rsum_cons, IH. ring. Qed.
Lemma rsum_swap {A B} (f : A -> B -> R) l l' : rsum (map (fun x => rsum (map (f x) l')) l) = rsum (map (fun y => rsum (map (fun x => f x y) l)) l').
Proof.
  induction l as [|x l IH]; cbn [map].
  - symmetry. apply rsum_zero. reflexivity.
  - rewrite rsum_cons, IH, <- rsum_plus. reflexivity.
Qed.
Lemma sumn_one n i f : (i < n)%nat -> (forall j, (j < n)%nat -> j <> i -> f j = 0) -> sumn n f = f i.
Proof.
  intros Hi H. unfold sumn. assert (K : forall k m, (k <= i < k + m)%nat -> (forall j, (k <= j < k + m)%nat -> j <> i -> f j = 0) -> rsum (map f (seq k m)) = f i).
  { clear. intros k m. revert k. induction m as [|m IH]; intros k Hk H; [lia|]. cbn [seq map]. rewrite rsum_cons. destruct (Nat.eq_dec k i) as [->|Hn].
    - rewrite rsum_zero; [ring|]. intros j Hj. apply in_seq in Hj. apply H; lia.
    - rewrite (H k) by lia. rewrite (IH (S k)); [ring | lia|]. intros j Hj Hji. apply H; lia. }
  apply K; [lia|]. intros j Hj. apply H. lia.
Qed.
(* The sum over all indices but one. *)
Lemma sumn_but n i f : (i < n)%nat -> sumn n f = f i + sumn n (fun j => if Nat.eqb j i then 0 else f j).
Proof.
  intros Hi. pose proof (sumn_one n i (fun j => if Nat.eqb j i then f j else 0) Hi) as H. cbv beta in H. rewrite Nat.eqb_refl in H. rewrite <- H.
  - unfold sumn. rewrite <- rsum_plus. apply rsum_ext. intros j _. destruct (Nat.eqb j i); ring.
  - intros j _ Hj. now rewrite (proj2 (Nat.eqb_neq j i) Hj).
Qed.
Lemma rsum_filter {A} (p : A -> bool) (f : A -> R) l : (forall x, In x l -> p x = false -> f x = 0) -> rsum (map f (filter p l)) = rsum (map f l).
Proof.
  intros H. induction l as [|x l IH]; [reflexivity|]. cbn [filter map]. rewrite rsum_cons. destruct (p x) eqn:E.
  - cbn [map]. rewrite rsum_cons, IH; [reflexivity|]. intros; apply H; auto. now right.
  - rewrite IH, (H x (or_introl eq_refl) E); [ring|]. intros; apply H; auto. now right.
Qed.
(* A sum over distinct indices as a sum over all of them. *)
Lemma sumn_list n (l : list nat) (f : nat -> R) : NoDup l -> (forall j, In j l -> (j < n)%nat) ->
  rsum (map f l) = sumn n (fun j => if memb j l then f j else 0).
Proof.
  revert f. induction l as [|x l IH]; intros f Hn Hb.
  - unfold sumn. symmetry. apply rsum_zero. reflexivity.
  - inversion Hn as [|? ? Hx Hn']; subst. cbn [map]. rewrite rsum_cons, IH by (auto; intros; apply Hb; now right).
    rewrite (sumn_but n x (fun j => if memb j (x :: l) then f j else 0)) by (apply Hb; now left). cbn [memb existsb]. rewrite Nat.eqb_refl. cbn [orb]. f_equal.
    unfold sumn. apply rsum_ext. intros j _. destruct (Nat.eqb_spec j x) as [->|Hj]; [|reflexivity]. now rewrite (proj2 (memb_out x l) Hx).
Qed.

Section Net.
Context {o : nops} {nval : num o -> R} (L : nlaws o nval).
Local Notation ex := (expr (num o)).
Local Notation ev := (eval o nval).
Context (r : env) (adj : list (list (nat * ex))).
Local Notation n := (length adj).
Local Notation dp := (dep o adj).
Local Notation rdp := (revdep o adj).
Hypothesis Hback : forall i j, In j (dp i) -> (j < i)%nat.
Hypothesis Hnd : forall i, NoDup (dp i).

Lemma dep_out i : (n <= i)%nat -> dp i = [].
Proof. intros H. unfold dep. now rewrite nth_overflow. Qed.
Lemma adj_at_in i j a : adj_at o adj i j = Some a <-> In (j, a) (nth i adj []).
Proof.
  pose proof (Hnd i) as H. unfold dep in H. unfold adj_at. revert H. induction (nth i adj []) as [|[k x] l IH]; intros H; cbn [find map].
  - split; [discriminate | intros []].
  - cbn [fst map] in H. inversion H as [|? ? Hk Hl]; subst. change (fst (k, x)) with k; destruct (Nat.eqb_spec k j) as [->|Hn]; cbn [option_map snd].
    + split; [intros E; left; congruence|]. intros [E|E]; [congruence|]. exfalso. apply Hk. now apply (in_map fst) in E.
    + rewrite (IH Hl). split; [now right|]. intros [E|E]; [congruence | exact E].
Qed.
Lemma dep_in i j : In j (dp i) <-> exists a, In (j, a) (nth i adj []).
Proof. unfold dep. rewrite in_map_iff. split; [intros ([k a] & <- & H); eauto | intros (a & H); exists (j, a); auto]. Qed.
Lemma revdep_in i j : In i (rdp j) <-> In j (dp i).
Proof.
  unfold revdep. rewrite filter_In, memb_in, in_seq. split; [tauto|]. intros H. split; [|exact H]. split; [lia|]. cbn.
  destruct (Nat.lt_ge_cases i n) as [Hi|Hi]; [exact Hi|]. rewrite (dep_out i Hi) in H. destruct H.
Qed.
Lemma revdep_nodup j : NoDup (rdp j).
Proof. unfold revdep. apply NoDup_filter, seq_NoDup. Qed.
Lemma dep_lt i j : In j (dp i) -> (j < i < n)%nat.
Proof. intros H. split; [now apply Hback|]. destruct (Nat.lt_ge_cases i n) as [Hi|Hi]; [exact Hi|]. rewrite (dep_out i Hi) in H. destruct H. Qed.

Context (input : nat) (occ sm : nat -> Prop) (dvv : nat -> R).
Hypothesis Hin : (input < n)%nat.
Hypothesis Hin0 : dp input = [].
Hypothesis Hocc : forall i, (i < n)%nat -> (occ i <-> i = input \/ exists j, In j (dp i) /\ occ j).
Hypothesis Hdec : forall i, occ i \/ ~ occ i.
Hypothesis H1 : forall i j a, occ i -> sm i -> In (j, a) (nth i adj []) -> occ j ->
  zeronum (nval := nval) a \/ (sm j /\ exists v, ev r a = Some v).
Hypothesis H2 : forall i, (i < n)%nat -> occ i -> sm i -> i <> input ->
  dvv i = rsum (map (fun p => oval (ev r (snd p)) * dvv (fst p)) (nth i adj [])).
Hypothesis H3 : forall i, ~ occ i -> dvv i = 0.
Hypothesis H4 : dvv input = 1.

Lemma term_value x a v : ev r x = Some v -> (exists w, ev r a = Some w) -> ev r (mk_mul o x a) = Some (v * oval (ev r a)).
Proof. intros Hx (w & Hw). rewrite Hw. cbn [oval]. now apply (mul_ok L). Qed.

(* --- Forward ----------------------------------------------------------------------------- *)
Section Fwd.
Context (fuel : nat) (nouts : nat) (D0 D : list ex).
Hypothesis HD0 : length D0 = n.
Hypothesis Hrun : fwd_pass o fuel adj nouts input D0 = MDone D.
Hypothesis Hno : (input + nouts < n)%nat.
Lemma fwd_reached : exists deps, walk rdp fuel (rdp input) (rdp input) = MDone deps /\ NoDup deps /\ (forall i, (i < n)%nat -> (In i deps <-> occ i /\ i <> input)) /\ (forall i, In i deps -> (i < n)%nat).
Proof.
  unfold fwd_pass in Hrun. apply mbind_done in Hrun. destruct Hrun as (deps & Hw & _). exists deps. split; [exact Hw|].
  destruct (walk_ok _ _ _ _ Hw (revdep_nodup input)) as (W1 & W2 & W3 & W4). split; [exact W1|].
  assert (Q : forall i, In i deps -> (i < n)%nat /\ occ i /\ i <> input).
  { apply W4.
    - intros x Hx. apply revdep_in in Hx. pose proof (dep_lt _ _ Hx). split; [lia|]. split; [|intros ->; rewrite Hin0 in Hx; destruct Hx]. apply Hocc; [lia|]. right. exists input. split; [exact Hx|]. apply Hocc; auto.
    - intros c x (Hc1 & Hc2 & Hc3) Hx. apply revdep_in in Hx. pose proof (dep_lt _ _ Hx). split; [lia|]. split; [|intros ->; rewrite Hin0 in Hx; destruct Hx]. apply Hocc; [lia|]. eauto. }
  split; [|intros i Hi; now apply Q]. intros i Hi. split; [intros H; now apply Q|]. revert Hi. induction i as [i IH] using lt_wf_ind. intros Hi [Ho Hne].
  apply (Hocc i Hi) in Ho. destruct Ho as [->|(j & Hj & Hoj)]; [congruence|]. pose proof (dep_lt _ _ Hj). destruct (Nat.eq_dec j input) as [->|Hji].
  - apply W2. now apply revdep_in.
  - apply (W3 j); [apply IH; [lia | lia | auto] | now apply revdep_in].
Qed.
Lemma fwd_ok : length D = n /\
  (forall i, (i < n)%nat -> occ i -> sm i -> exists e, nth_error D i = Some e /\ ev r e = Some (dvv i)) /\
  (forall i, (n - nouts <= i < n)%nat -> ~ occ i -> nth_error D i = Some (dbl o 0)).
Proof.
  destruct fwd_reached as (deps & Hw & Wn & Wi & Wb). unfold fwd_pass in Hrun. rewrite Hw in Hrun. cbn [mbind] in Hrun.
  set (D1 := fill o (lset D0 input (dbl o 1)) (length D0 - nouts) nouts (dbl o 0)) in *.
  assert (L1 : length D1 = n) by (unfold D1; now rewrite fill_length, lset_length).
  assert (Hind : independent (fwd_term o adj input deps) dp (sort_nat deps)).
  { intros l1 cur l2 El D' D'' HD j Hj. unfold fwd_term. destruct (negb (Nat.eqb j input) && negb (memb j deps)) eqn:Eg; [reflexivity|].
    assert (Ejd : nth_error D' j = nth_error D'' j); [|now rewrite Ejd]. apply HD. intros Hjl.
    pose proof (sorted_after _ _ _ _ (sort_nat_le deps) (sort_nat_nodup _ Wn) El j Hjl). pose proof (dep_lt _ _ Hj). lia. }
  assert (Hr2 : mfold (upd_step (fwd_term o adj input deps) dp) D1 (sort_nat deps) = MDone D) by exact Hrun.
  destruct (updates_final (fwd_term o adj input deps) dp (sort_nat deps) D1 D (sort_nat_nodup _ Wn)) as (R1 & R2 & R3); [|exact Hind|exact Hr2|].
  { intros x Hx. apply sort_nat_from in Hx. rewrite L1. now apply Wb. }
  assert (Hinput : nth_error D input = Some (dbl o 1)).
  { rewrite R2. 2:{ intros K. apply sort_nat_from in K. apply Wi in K; [tauto | exact Hin]. }
    unfold D1. rewrite (proj2 (fill_spec _ _ _ _ _)). rewrite lset_length, HD0. replace (n - nouts <=? input)%nat with false by (symmetry; apply Nat.leb_gt; lia). cbn [andb]. apply lset_same. lia. }
  split; [congruence|]. split.
  - induction i as [i IH] using lt_wf_ind. intros Hi Ho Hs. destruct (Nat.eq_dec i input) as [->|Hne].
    + exists (dbl o 1). split; [exact Hinput|]. rewrite H4. apply (ev_one L).
    + destruct (R3 i) as (ts & Hts & HDi); [apply sort_nat_into; apply Wi; auto|]. exists (mk_sum o ts). split; [exact HDi|].
      apply mmap_done in Hts. rewrite (H2 i Hi Ho Hs Hne). apply (mk_sum_ok (l_ring L)). apply oseq_forall2.
      assert (Hts2 : Forall2 (fun p t => fwd_term o adj input deps D i (fst p) = MDone t) (nth i adj []) ts).
      { unfold dep in Hts. clear - Hts. revert ts Hts. induction (nth i adj []) as [|p l IHl]; intros ts H; inversion H; subst; constructor; auto. }
      cut (forall l ts, (forall p, In p l -> In p (nth i adj [])) -> Forall2 (fun p t => fwd_term o adj input deps D i (fst p) = MDone t) l ts ->
             Forall2 (fun a v => a = Some v) (map (ev r) ts) (map (fun p => oval (ev r (snd p)) * dvv (fst p)) l)); [intros G; apply G; [auto | exact Hts2]|].
      clear ts Hts HDi Hts2. intros l ts Hall Hts2.
      induction Hts2 as [|[j a] t l ts' Ht HF IHl]; cbn [map]; constructor; [|apply IHl; intros; apply Hall; now right]. cbn [fst snd] in *.
      assert (Hja : In (j, a) (nth i adj [])) by (apply Hall; now left). clear IHl Hall.
      assert (Hj : In j (dp i)) by (apply dep_in; eauto). pose proof (dep_lt _ _ Hj) as Hlt.
      unfold fwd_term in Ht. rewrite (proj2 (adj_at_in i j a) Hja) in Ht.
      destruct (negb (Nat.eqb j input) && negb (memb j deps)) eqn:Eg.
      * injection Ht as <-. apply andb_true_iff in Eg. destruct Eg as [G1 G2]. apply negb_true_iff in G1, G2. apply Nat.eqb_neq in G1. apply memb_out in G2.
        rewrite (H3 j); [|intros K; apply G2; apply Wi; [lia | auto]]. rewrite Rmult_0_r. apply (ev_dbl (l_ring L)).
      * destruct (nth_error D j) as [x|] eqn:Ex; [|discriminate]. injection Ht as <-.
        assert (Hoj : occ j).
        { apply andb_false_iff in Eg. destruct Eg as [G|G]; apply negb_false_iff in G; [apply Nat.eqb_eq in G; subst; apply Hocc; auto; lia|]. apply memb_in in G. apply Wi in G; [tauto | lia]. }
        destruct (H1 i j a Ho Hs Hja Hoj) as [HZ|[Hsj Hv]].
        -- rewrite (zeronum_ev r _ (mk_mul_zero_r L x a HZ)), (oval_zeronum r a HZ). f_equal. ring.
        -- destruct (IH j) as (x' & Hx' & Hvx); [lia | lia | exact Hoj | exact Hsj|]. rewrite Hx' in Ex. injection Ex as ->. rewrite (term_value x a _ Hvx Hv). f_equal. ring.
  - intros i Hi Ho. rewrite R2 by (intros K; apply sort_nat_from in K; apply Wi in K; [tauto | lia]). unfold D1. rewrite (proj2 (fill_spec _ _ _ _ _)). rewrite lset_length, HD0.
    replace (n - nouts <=? i)%nat with true by (symmetry; apply Nat.leb_le; lia). replace (i <? n - nouts + nouts)%nat with true by (symmetry; apply Nat.ltb_lt; lia). replace (i <? n)%nat with true by (symmetry; apply Nat.ltb_lt; lia). reflexivity.
Qed.
End Fwd.

(* --- Reverse ------------------------------------------------------------------------------ *)
Section Rev.
Context (fuel : nat) (ni out : nat) (D0 D : list ex).
Hypothesis HD0 : length D0 = n.
Hypothesis Hrun : rev_pass o fuel adj ni out D0 = MDone D.
Hypothesis Hini : (input < ni)%nat.
Hypothesis Hout : (ni <= out < n)%nat.
Hypothesis Hlast : forall i, ~ In out (dp i).
Lemma rev_reached : exists deps, walk dp fuel (dp out) (dp out) = MDone deps /\ NoDup deps /\ (forall i, In i deps -> (i < out)%nat) /\
  (forall c x, In c deps \/ c = out -> In x (dp c) -> In x deps) /\ (In input deps <-> occ out).
Proof.
  unfold rev_pass in Hrun. apply mbind_done in Hrun. destruct Hrun as (deps & Hw & _). exists deps. split; [exact Hw|].
  destruct (walk_ok _ _ _ _ Hw (Hnd out)) as (W1 & W2 & W3 & W4). split; [exact W1|].
  assert (Q : forall i, In i deps -> (i < out)%nat /\ (occ i -> occ out)).
  { apply W4.
    - intros x Hx. split; [now apply Hback|]. intros H. apply Hocc; [lia|]. eauto.
    - intros c x (Hc1 & Hc2) Hx. pose proof (dep_lt _ _ Hx). split; [lia|]. intros H'. apply Hc2. apply Hocc; [lia|]. eauto. }
  assert (C : forall c x, In c deps \/ c = out -> In x (dp c) -> In x deps).
  { intros c x [Hc| ->] Hx; [eapply W3; eauto | now apply W2]. }
  split; [intros i Hi; now apply Q|]. split; [exact C|]. split.
  - intros H. apply (proj2 (Q input H)). apply Hocc; auto.
  - intros Ho. assert (G : forall i, (In i deps \/ i = out) -> occ i -> In input deps).
    { induction i as [i IH] using lt_wf_ind. intros Hi Hoi. assert (i < n)%nat by (destruct Hi as [Hi| ->]; [apply Q in Hi; lia | lia]).
      apply Hocc in Hoi; [|assumption]. destruct Hoi as [->|(j & Hj & Hoj)].
      - destruct Hi as [Hi| Hi]; [exact Hi | lia].
      - apply (IH j); [now apply Hback | left; eapply C; eauto | exact Hoj]. }
    apply (G out); auto.
Qed.
Lemma rev_ok : length D = n /\ (occ out -> sm out -> exists e, nth_error D input = Some e /\ ev r e = Some (dvv out)) /\
  (~ occ out -> nth_error D input = Some (dbl o 0)).
Proof.
  destruct rev_reached as (deps & Hw & Wn & Wb & Wc & Wi). unfold rev_pass in Hrun. rewrite Hw in Hrun. cbn [mbind] in Hrun.
  set (D1 := fill o (lset D0 out (dbl o 1)) 0 ni (dbl o 0)) in *.
  assert (L1 : length D1 = n) by (unfold D1; now rewrite fill_length, lset_length).
  assert (Hord : forall l1 c l2, rev (sort_nat deps) = l1 ++ c :: l2 -> forall x, In x (c :: l2) -> (x <= c)%nat).
  { intros l1 c l2 E x Hx. apply (f_equal (@rev nat)) in E. rewrite rev_involutive, rev_app_distr in E. cbn [rev] in E. rewrite <- app_assoc in E. cbn [app] in E.
    pose proof (sort_nat_le deps) as Hs. rewrite E in Hs. destruct Hx as [->|Hx]; [lia|]. apply in_rev in Hx. clear - Hs Hx.
    induction (rev l2) as [|y l IH]; [destruct Hx|]. cbn [app] in Hs. inversion Hs as [|? ? Hs' HF]; subst. destruct Hx as [->|Hx]; [|now apply IH].
    rewrite Forall_forall in HF. apply HF. apply in_or_app. right. now left. }
  assert (Hndr : NoDup (rev (sort_nat deps))) by (apply NoDup_rev, sort_nat_nodup, Wn).
  assert (Hind : independent (rev_term o adj out deps) rdp (rev (sort_nat deps))).
  { intros l1 cur l2 El D' D'' HD i Hi. unfold rev_term. destruct (negb (Nat.eqb i out) && negb (memb i deps)) eqn:Eg; [reflexivity|].
    assert (Ejd : nth_error D' i = nth_error D'' i); [|now rewrite Ejd]. apply HD. intros Hil.
    pose proof (Hord _ _ _ El i Hil). apply revdep_in in Hi. pose proof (dep_lt _ _ Hi). lia. }
  assert (Hr2 : mfold (upd_step (rev_term o adj out deps) rdp) D1 (rev (sort_nat deps)) = MDone D) by exact Hrun.
  destruct (updates_final (rev_term o adj out deps) rdp (rev (sort_nat deps)) D1 D Hndr) as (R1 & R2 & R3); [|exact Hind|exact Hr2|].
  { intros x Hx. apply in_rev, sort_nat_from in Hx. rewrite L1. apply Wb in Hx. lia. }
  assert (Hmem : forall x, In x (rev (sort_nat deps)) <-> In x deps) by (intros x; rewrite <- in_rev; apply sort_nat_in).
  assert (Hdout : nth_error D out = Some (dbl o 1)).
  { rewrite R2. 2:{ intros K. apply Hmem, Wb in K. lia. }
    unfold D1. rewrite (proj2 (fill_spec _ _ _ _ _)). rewrite lset_length, HD0. replace (out <? 0 + ni)%nat with false by (symmetry; apply Nat.ltb_ge; lia). rewrite andb_false_r. cbn [andb]. apply lset_same. lia. }
  split; [congruence|]. split.
  2:{ intros Ho. rewrite R2 by (intros K; apply Hmem, Wi in K; contradiction). unfold D1. rewrite (proj2 (fill_spec _ _ _ _ _)). rewrite lset_length, HD0.
      replace (input <? 0 + ni)%nat with true by (symmetry; apply Nat.ltb_lt; lia). replace (input <? n)%nat with true by (symmetry; apply Nat.ltb_lt; lia). reflexivity. }
  intros Ho Hs.
  set (S_ := fun j => Nat.eqb j out || memb j deps).
  set (rr := fun j => if S_ j then match nth_error D j with Some e => oval (ev r e) | None => 0 end else 0).
  set (A := fun i j => match adj_at o adj i j with Some a => oval (ev r a) | None => 0 end).
  assert (HS : forall j, S_ j = true <-> j = out \/ In j deps).
  { intros j. unfold S_. rewrite orb_true_iff, Nat.eqb_eq, memb_in. tauto. }
  (* The terms at j, given what is known of the later entries. *)
  assert (Hterm : forall j, occ j ->
    (forall i, In i (rdp j) -> S_ i = true -> exists e, nth_error D i = Some e /\ (zeronum (nval := nval) e \/ (sm i /\ exists v, ev r e = Some v))) ->
    forall i t, In i (rdp j) -> rev_term o adj out deps D j i = MDone t ->
      (zeronum (nval := nval) t \/ (sm j /\ exists v, ev r t = Some v)) /\ ev r t = Some (rr i * A i j)).
  { intros j Hoj HIH i t Hi Ht. unfold rev_term in Ht. pose proof Hi as Hi'. apply revdep_in in Hi'. pose proof (dep_lt _ _ Hi') as Hlt.
    assert (Hoi : occ i) by (apply Hocc; [lia|]; eauto).
    destruct (S_ i) eqn:ES.
    - replace (negb (Nat.eqb i out) && negb (memb i deps)) with false in Ht by (unfold S_ in ES; destruct (Nat.eqb i out), (memb i deps); cbn in *; congruence).
      destruct (HIH i Hi ES) as (e & He & Hz). rewrite He in Ht. destruct (adj_at o adj i j) as [a|] eqn:Ea; [|discriminate]. injection Ht as <-.
      unfold rr, A. rewrite ES, He, Ea. destruct Hz as [Hz|[Hsi (v & Hv)]].
      + pose proof (mk_mul_zero_l L a e Hz) as Hz'. split; [now left|]. rewrite (zeronum_ev r _ Hz'), (oval_zeronum r e Hz). f_equal. ring.
      + apply adj_at_in in Ea. destruct (H1 i j a Hoi Hsi Ea Hoj) as [HZ|[Hsj Hva]].
        * pose proof (mk_mul_zero_r L e a HZ) as Hz'. split; [now left|]. rewrite (zeronum_ev r _ Hz'), (oval_zeronum r a HZ). f_equal. ring.
        * rewrite (term_value e a v Hv Hva), Hv. cbn [oval]. split; [right; eauto | reflexivity].
    - replace (negb (Nat.eqb i out) && negb (memb i deps)) with true in Ht by (unfold S_ in ES; destruct (Nat.eqb i out), (memb i deps); cbn in *; congruence).
      injection Ht as <-. split; [left; apply (zeronum_dbl L)|]. rewrite (zeronum_ev r _ (zeronum_dbl L)). f_equal. unfold rr. rewrite ES. ring. }
  assert (Hrow : forall j ts, mmap (rev_term o adj out deps D j) (rdp j) = MDone ts -> occ j ->
    (forall i, In i (rdp j) -> S_ i = true -> exists e, nth_error D i = Some e /\ (zeronum (nval := nval) e \/ (sm i /\ exists v, ev r e = Some v))) ->
    (zeronum (nval := nval) (mk_sum o ts) \/ sm j) /\ ev r (mk_sum o ts) = Some (rsum (map (fun i => rr i * A i j) (rdp j)))).
  { intros j ts Hts Hoj HIH. apply mmap_done in Hts. pose proof (Hterm j Hoj HIH) as Ht.
    assert (G : (Forall (zeronum (nval := nval)) ts \/ sm j) /\ Forall2 (fun a v => a = Some v) (map (ev r) ts) (map (fun i => rr i * A i j) (rdp j))).
    { revert Hts Ht. generalize (rdp j). clear. intros l H. induction H as [|i t l ts Hi HF IH]; intros Ht; [split; [left; constructor | constructor]|].
      destruct IH as [I1 I2]; [intros i' t' Hin; apply Ht; now right|]. destruct (Ht i t (or_introl eq_refl) Hi) as [T1 T2]. cbn [map]. split; [|now constructor].
      destruct T1 as [T1|[T1 _]]; [|now right]. destruct I1 as [I1|I1]; [left; now constructor | now right]. }
    destruct G as [G1 G2]. split.
    - destruct G1 as [G1|G1]; [left; now apply (mk_sum_zeros L) | now right].
    - apply (mk_sum_ok (l_ring L)). now apply oseq_forall2. }
  (* The entries. *)
  assert (Hent : forall k j, (out - j <= k)%nat -> S_ j = true -> occ j ->
    exists e, nth_error D j = Some e /\ (zeronum (nval := nval) e \/ (sm j /\ exists v, ev r e = Some v))).
  { induction k as [k IH] using lt_wf_ind. intros j Hk Hj Hoj. apply HS in Hj. destruct Hj as [->|Hj].
    - exists (dbl o 1). split; [exact Hdout|]. right. split; [exact Hs|]. eexists. apply (ev_one L).
    - pose proof (Wb j Hj) as Hjo. destruct (R3 j) as (ts & Hts & HDj); [now apply Hmem|]. exists (mk_sum o ts). split; [exact HDj|].
      destruct (Hrow j ts Hts Hoj) as [E1 E2].
      { intros i Hi HSi. apply revdep_in in Hi. pose proof (dep_lt _ _ Hi). apply (IH (out - i)%nat); [|lia|exact HSi|].
        - lia.
        - apply Hocc; [lia|]. eauto. }
      destruct E1 as [E1|E1]; [now left | right; eauto]. }
  assert (Hcol : forall j, (j < n)%nat -> j <> out -> rr j * dvv j = sumn n (fun i => rr i * A i j) * dvv j).
  { intros j Hjn Hne. destruct (Hdec j) as [Hoj|Hoj]; [|rewrite (H3 j Hoj); ring].
    f_equal. replace (sumn n (fun i => rr i * A i j)) with (rsum (map (fun i => rr i * A i j) (rdp j))).
    2:{ unfold revdep, sumn. apply rsum_filter. intros i _ Hm. apply memb_out in Hm. unfold A. destruct (adj_at o adj i j) as [a|] eqn:Ea; [|ring].
        exfalso. apply Hm. apply adj_at_in in Ea. apply dep_in. eauto. }
    destruct (S_ j) eqn:ES.
    - pose proof ES as ES'. apply HS in ES'. destruct ES' as [->|Hj]; [congruence|]. destruct (R3 j) as (ts & Hts & HDj); [now apply Hmem|].
      destruct (Hrow j ts Hts Hoj) as [_ E2].
      { intros i Hi HSi. apply revdep_in in Hi. pose proof (dep_lt _ _ Hi). apply (Hent (out - i)%nat); [lia | exact HSi|]. apply Hocc; [lia|]. eauto. }
      unfold rr at 1. rewrite ES, HDj, E2. reflexivity.
    - unfold rr at 1. rewrite ES. symmetry. apply rsum_zero. intros i Hi. unfold rr. destruct (S_ i) eqn:ESi; [|ring]. exfalso.
      apply HS in ESi. apply revdep_in in Hi. assert (In j deps) by (eapply Wc; [|exact Hi]; tauto). assert (S_ j = true) by (apply HS; auto). congruence. }
  assert (Hrw : forall i, (i < n)%nat -> i <> input -> rr i * dvv i = rr i * sumn n (fun j => A i j * dvv j)).
  { intros i Hi Hne. assert (E : sumn n (fun j => A i j * dvv j) = rsum (map (fun p => oval (ev r (snd p)) * dvv (fst p)) (nth i adj []))).
    { rewrite (rsum_ext _ (fun p => A i (fst p) * dvv (fst p)) (nth i adj [])).
      2:{ intros [j a] Hja. cbn [fst snd]. unfold A. now rewrite (proj2 (adj_at_in i j a) Hja). }
      rewrite <- (map_map fst (fun j => A i j * dvv j)). change (map fst (nth i adj [])) with (dp i). rewrite (sumn_list n) by (auto; intros j Hj; pose proof (dep_lt _ _ Hj); lia).
      unfold sumn. apply rsum_ext. intros j _. destruct (memb j (dp i)) eqn:Em; [reflexivity|]. unfold A. destruct (adj_at o adj i j) as [a|] eqn:Ea; [|ring]. exfalso.
      apply adj_at_in in Ea. apply memb_out in Em. apply Em. apply dep_in. eauto. }
    destruct (Hdec i) as [Hoi|Hoi].
    - destruct (S_ i) eqn:ES; [|unfold rr; rewrite ES; ring]. destruct (Hent (out - i)%nat i) as (e & He & [Hz|[Hsi _]]); auto.
      + unfold rr. rewrite ES, He, (oval_zeronum r e Hz). ring.
      + rewrite E. f_equal. apply H2; auto.
    - rewrite (H3 i Hoi), E, rsum_zero; [ring|]. intros [j a] Hja. cbn [fst snd]. rewrite (H3 j); [ring|]. intros Hoj. apply Hoi. apply Hocc; [exact Hi|]. right. exists j. split; [|exact Hoj]. apply dep_in. eauto. }
  assert (Hsum : sumn n (fun i => if Nat.eqb i input then 0 else rr i * dvv i) = sumn n (fun j => if Nat.eqb j out then 0 else rr j * dvv j)).
  { transitivity (sumn n (fun i => sumn n (fun j => rr i * A i j * dvv j))).
    - unfold sumn at 1 2. apply rsum_ext. intros i Hi. apply in_seq in Hi. destruct (Nat.eqb_spec i input) as [->|Hne].
      + symmetry. unfold sumn. apply rsum_zero. intros j _. unfold A. destruct (adj_at o adj input j) as [a|] eqn:Ea; [|ring]. exfalso.
        apply adj_at_in in Ea. assert (K : In j (dp input)) by (apply dep_in; eauto). rewrite Hin0 in K. destruct K.
      + rewrite Hrw by (auto; lia). unfold sumn. rewrite <- rsum_scal. apply rsum_ext. intros j _. ring.
    - unfold sumn. rewrite rsum_swap. apply rsum_ext. intros j Hj. apply in_seq in Hj. destruct (Nat.eqb_spec j out) as [->|Hne].
      + apply rsum_zero. intros i _. unfold A. destruct (adj_at o adj i out) as [a|] eqn:Ea; [|ring]. exfalso.
        apply adj_at_in in Ea. apply (Hlast i). apply dep_in. eauto.
      + rewrite Hcol by (auto; lia). unfold sumn. now rewrite rsum_scal_r. }
  pose proof (sumn_but n input (fun i => rr i * dvv i) Hin) as B1. pose proof (sumn_but n out (fun i => rr i * dvv i) (proj2 Hout)) as B2. cbv beta in B1, B2.
  rewrite Hsum in B1. rewrite B2 in B1. apply Rplus_eq_reg_r in B1. rewrite H4 in B1.
  assert (Ero : rr out = 1). { unfold rr. rewrite (proj2 (HS out)) by auto. rewrite Hdout, (ev_one L). reflexivity. }
  rewrite Ero in B1. assert (HSi : S_ input = true) by (apply HS; right; now apply Wi).
  assert (Hoin : occ input) by (apply Hocc; auto).
  destruct (Hent (out - input)%nat input) as (e & He & Hz); auto. exists e. split; [exact He|].
  replace (dvv out) with (rr input) by lra. unfold rr. rewrite HSi, He. destruct Hz as [Hz|[_ (v & Hv)]]; [rewrite (zeronum_ev r e Hz); reflexivity | rewrite Hv; reflexivity].
Qed.
End Rev.
End Net.
