(* Common subexpressions: invariants of the loop, and what a renumbering of the
   elements preserves. *)
From Coq Require Import String Bool ZArith Arith List Lia.
From Verif Require Import M_Expr M_Dag M_Dec S_Expr S_Dec P_Dec.
Import ListNotations.
Local Open Scope nat_scope.
Set Bullet Behavior "Strict Subproofs".

Lemma nth_new {A} (l l' : list A) j : nth_error (l ++ l') (length l + j) = nth_error l' j.
Proof. rewrite nth_error_app2 by lia. f_equal. lia. Qed.
Lemma renumber_ext {N} f g k (a : expr N) : arg_ok k a -> (forall j, j < k -> f j = g j) -> renumber f a = renumber g a.
Proof.
  destruct a as [x|s|i|h args]; cbn; auto; [|contradiction]. intros (j & Hj & ->) H. rewrite uname_index. now rewrite H.
Qed.
Lemma renumber_elt_ext {N} f g k (e : expr N) : elt_ok k e -> (forall j, j < k -> f j = g j) -> renumber f e = renumber g e.
Proof.
  destruct e as [x|s|i|h args]; cbn; auto; [contradiction|]. intros HF H. f_equal. apply map_ext_in. intros a Ha.
  rewrite Forall_forall in HF. apply (renumber_ext f g k); auto.
Qed.

Section Eqb.
Context (o : nops) (neq : num o -> num o -> bool) (feq : fid (num o) -> fid (num o) -> bool).
Local Notation ex := (expr (num o)).
Lemma ex_eqb_fun f l g l' : ex_eqb o neq feq (EFun f l) (EFun g l') = true ->
  feq f g = true /\ Forall2 (fun a b => ex_eqb o neq feq a b = true) l l'.
Proof.
  cbn. intros H. apply andb_prop in H. destruct H as [H1 H2]. split; [exact H1|].
  revert l' H2. induction l as [|x l IH]; intros [|y l'] H; try discriminate; constructor;
    apply andb_prop in H; [apply H | apply IH, H].
Qed.
Lemma ex_eqb_val {V} (A : alg (num o) V) vars : respects A neq feq ->
  forall a b : ex, ex_eqb o neq feq a b = true -> gval A vars a = gval A vars b.
Proof.
  intros [R1 R2]. induction a as [x|s|i|f args IH] using expr_ind'; intros [y|t|j|g l]; try discriminate.
  - cbn. apply R1.
  - cbn. intros H. apply String.eqb_eq in H. now subst.
  - cbn. intros H. apply Nat.eqb_eq in H. now subst.
  - intros H. apply ex_eqb_fun in H. destruct H as [H1 H2]. cbn.
    assert (E : map (gval A vars) args = map (gval A vars) l).
    { clear - IH H2. induction H2 as [|a b r r' H HF IH2]; [reflexivity|]. inversion IH as [|? ? Ha Hr]; subst.
      cbn. rewrite (Ha b H). f_equal. now apply IH2. }
    rewrite E. now apply R2.
Qed.

Lemma ex_find_some e : forall m j, ex_find o neq feq e m = Some j -> exists k, In (k, j) m /\ ex_eqb o neq feq e k = true.
Proof.
  induction m as [|[k i] m IH]; cbn; intros j H; [discriminate|]. destruct (ex_eqb o neq feq e k) eqn:E.
  - injection H as <-. exists k. auto.
  - destruct (IH j H) as (k' & Hk & He). exists k'. auto.
Qed.
Lemma ex_find_none e : forall m, ex_find o neq feq e m = None -> forall k j, In (k, j) m -> ex_eqb o neq feq e k = false.
Proof.
  induction m as [|[k i] m IH]; cbn; intros H k' j; [contradiction|]. destruct (ex_eqb o neq feq e k) eqn:E; [discriminate|].
  intros [[= <- <-]|Hin]; [exact E | eapply IH; eauto].
Qed.
End Eqb.

Section Cse.
Context (o : nops) (neq : num o -> num o -> bool) (feq : fid (num o) -> fid (num o) -> bool).
Local Notation ex := (expr (num o)).
Local Notation elt := (expr (num o) * list nat)%type.
Local Notation eqb := (ex_eqb o neq feq).
Definition same (a b : ex) : Prop := a = b \/ eqb a b = true.

(* rename() on the elements of a decomposition. *)
Lemma rename_arg k ren rho (a : ex) : arg_ok k a ->
  (forall j, j < k -> match assoc (uname j) ren with Some t => t = uname (rho j) | None => rho j = j end) ->
  rename o ren a = renumber rho a.
Proof.
  destruct a as [x|s|i|h args]; cbn; auto; [|contradiction]. intros (j & Hj & ->) H. rewrite uname_index.
  specialize (H j Hj). destruct (assoc (uname j) ren); now rewrite H.
Qed.
Lemma rename_elt k ren rho (e : ex) : elt_ok k e ->
  (forall j, j < k -> match assoc (uname j) ren with Some t => t = uname (rho j) | None => rho j = j end) ->
  rename o ren e = renumber rho e.
Proof.
  destruct e as [x|s|i|h args]; [reflexivity | contradiction | contradiction|]. cbn. intros HF H. f_equal.
  apply map_ext_in. intros a Ha. rewrite Forall_forall in HF. apply (rename_arg k); auto.
Qed.

Context (n : nat).
Record cinv (ren0 : list (string * string)) (ins : list elt) (done nmid : list elt)
  (emap : list (ex * nat)) (ren : list (string * string)) (rho : nat -> nat) : Prop := {
  ci_in : forall j, j < n -> rho j = j;
  ci_ren0 : forall j, j < n -> assoc (uname j) ren = assoc (uname j) ren0;
  ci_ren : forall j, n <= j < n + length done -> assoc (uname j) ren = Some (uname (rho j));
  ci_rng : forall j, n <= j < n + length done -> n <= rho j < n + length nmid;
  ci_emap : forall e j, In (e, j) emap <-> n <= j /\ exists d, nth_error nmid (j - n) = Some (e, d);
  ci_old : forall k p, nth_error done k = Some p ->
             exists q, nth_error nmid (rho (n + k) - n) = Some q /\ same (renumber rho (fst p)) (fst q);
  ci_new : forall k q, nth_error nmid k = Some q ->
             exists k0 p, nth_error done k0 = Some p /\ rho (n + k0) = n + k /\ k <= k0 /\
                          q = (renumber rho (fst p), snd p);
  ci_back : backward n (map fst nmid);
  ci_diff : forall i j p q, i < j -> nth_error nmid i = Some p -> nth_error nmid j = Some q -> eqb (fst q) (fst p) = false
}.

Lemma cse_loop_inv ren0 ins : length ins = n ->
  (forall j, j < n -> match assoc (uname j) ren0 with Some t => t = uname j | None => True end) ->
  forall els done nmid emap ren rho,
  backward n (map fst (done ++ els)) -> cinv ren0 ins done nmid emap ren rho ->
  exists nmid' emap' ren' rho', cse_loop o neq feq (n + length done) els (ins ++ nmid) emap ren = (ins ++ nmid', ren') /\
    cinv ren0 ins (done ++ els) nmid' emap' ren' rho'.
Proof.
  intros Hins H0. induction els as [|[e deps] els IH]; intros done nmid emap ren rho HB HI.
  - rewrite app_nil_r. exists nmid, emap, ren, rho. auto.
  - cbn [cse_loop].
    assert (He : elt_ok (n + length done) e).
    { apply (HB (length done) e). rewrite map_app, <- (Nat.add_0_r (length done)), <- (map_length fst done). now rewrite nth_new. }
    assert (Hren : forall j, j < n + length done ->
              match assoc (uname j) ren with Some t => t = uname (rho j) | None => rho j = j end).
    { intros j Hj. destruct (Nat.lt_ge_cases j n) as [Hl|Hl].
      - rewrite (ci_ren0 _ _ _ _ _ _ _ HI) by exact Hl. specialize (H0 j Hl).
        rewrite (ci_in _ _ _ _ _ _ _ HI) by exact Hl. destruct (assoc (uname j) ren0); auto.
      - rewrite (ci_ren _ _ _ _ _ _ _ HI); auto. }
    rewrite (rename_elt (n + length done) ren rho e He Hren).
    assert (HB' : backward n (map fst ((done ++ [(e, deps)]) ++ els))) by (now rewrite <- app_assoc).
    assert (Hlen : length (done ++ [(e, deps)]) = S (length done)) by (rewrite app_length; cbn; lia).
    assert (Hrange : forall j, j < n + length done -> rho j < n + length nmid).
    { intros j Hj. destruct (Nat.lt_ge_cases j n) as [Hl|Hl].
      - rewrite (ci_in _ _ _ _ _ _ _ HI) by exact Hl. lia.
      - now apply (ci_rng _ _ _ _ _ _ _ HI). }
    (* the renumbering is extended at the index of the element *)
    set (upd := fun v j => if Nat.eqb j (n + length done) then v else rho j).
    assert (Hupd : forall v j, j < n + length done -> upd v j = rho j).
    { intros v j Hj. unfold upd. destruct (Nat.eqb_spec j (n + length done)); [lia | reflexivity]. }
    assert (Hself : forall v, upd v (n + length done) = v) by (intros v; unfold upd; now rewrite Nat.eqb_refl).
    assert (Helt : forall v k p, nth_error done k = Some p -> renumber (upd v) (fst p) = renumber rho (fst p)).
    { intros v k p Hp. assert (Hk : k < length done) by (apply nth_error_Some; congruence).
      apply (renumber_elt_ext _ _ (n + k)).
      - apply (HB k). rewrite map_app. apply nth_error_app_l. now apply map_nth_error.
      - intros j Hj. apply Hupd. lia. }
    assert (Hrene : forall v, renumber (upd v) e = renumber rho e).
    { intros v. apply (renumber_elt_ext _ _ _ e He). intros j Hj. now apply Hupd. }
    assert (Hdone : forall k p, nth_error (done ++ [(e, deps)]) k = Some p ->
              (nth_error done k = Some p /\ k < length done) \/ (k = length done /\ p = (e, deps))).
    { intros k p Hp. destruct (Nat.lt_ge_cases k (length done)) as [Hl|Hl].
      - rewrite nth_error_app1 in Hp by exact Hl. auto.
      - rewrite nth_error_app2 in Hp by exact Hl. destruct (k - length done) as [|m] eqn:Ek.
        + injection Hp as <-. right. split; [lia | reflexivity].
        + destruct m; discriminate. }
    destruct (ex_find o neq feq (renumber rho e) emap) as [j|] eqn:Ef.
    + (* already there *)
      destruct (ex_find_some _ _ _ _ _ _ Ef) as (e2 & Hin & Heq).
      apply (ci_emap _ _ _ _ _ _ _ HI) in Hin. destruct Hin as (Hj & d2 & Hn2).
      assert (Hj2 : j - n < length nmid) by (apply nth_error_Some; congruence).
      destruct (IH (done ++ [(e, deps)]) nmid emap ((uname (n + length done), uname j) :: ren) (upd j) HB') as
        (nmid' & emap' & ren' & rho' & Hrun & HI').
      { split.
        - intros i Hi. rewrite Hupd by lia. now apply (ci_in _ _ _ _ _ _ _ HI).
        - intros i Hi. cbn [assoc]. rewrite uname_eqb. destruct (Nat.eqb_spec i (n + length done)); [lia|].
          now apply (ci_ren0 _ _ _ _ _ _ _ HI).
        - intros i Hi. rewrite Hlen in Hi. cbn [assoc]. rewrite uname_eqb. unfold upd.
          destruct (Nat.eqb_spec i (n + length done)); [reflexivity|]. apply (ci_ren _ _ _ _ _ _ _ HI). lia.
        - intros i Hi. rewrite Hlen in Hi. unfold upd. destruct (Nat.eqb_spec i (n + length done)); [lia|].
          apply (ci_rng _ _ _ _ _ _ _ HI). lia.
        - exact (ci_emap _ _ _ _ _ _ _ HI).
        - intros k p Hp. destruct (Hdone k p Hp) as [[Hp' Hk]|[-> ->]].
          + rewrite Hupd, (Helt j k p Hp') by lia. now apply (ci_old _ _ _ _ _ _ _ HI).
          + rewrite Hself. cbn [fst]. rewrite Hrene. exists (e2, d2). split; [exact Hn2 | right; exact Heq].
        - intros k q Hq. destruct (ci_new _ _ _ _ _ _ _ HI k q Hq) as (k0 & p & Hp & Hr & Hk & ->).
          assert (Hk0 : k0 < length done) by (apply nth_error_Some; congruence).
          exists k0, p. split; [now apply nth_error_app_l|]. rewrite Hupd, (Helt j k0 p Hp) by lia. auto.
        - exact (ci_back _ _ _ _ _ _ _ HI).
        - exact (ci_diff _ _ _ _ _ _ _ HI). }
      rewrite Hlen in Hrun. rewrite <- plus_n_Sm in Hrun. rewrite Hrun.
      exists nmid', emap', ren', rho'. split; [reflexivity|]. now rewrite <- app_assoc in HI'.
    + (* a new element *)
      assert (Hl2 : length (ins ++ nmid) = n + length nmid) by (rewrite app_length; lia). rewrite Hl2.
      destruct (IH (done ++ [(e, deps)]) (nmid ++ [(renumber rho e, deps)]) ((renumber rho e, n + length nmid) :: emap)
                  ((uname (n + length done), uname (n + length nmid)) :: ren) (upd (n + length nmid)) HB') as
        (nmid' & emap' & ren' & rho' & Hrun & HI').
      { assert (Hnl : length (nmid ++ [(renumber rho e, deps)]) = S (length nmid)) by (rewrite app_length; cbn; lia).
        assert (Hnew : forall k q, nth_error (nmid ++ [(renumber rho e, deps)]) k = Some q ->
                  (nth_error nmid k = Some q /\ k < length nmid) \/ (k = length nmid /\ q = (renumber rho e, deps))).
        { intros k p Hp. destruct (Nat.lt_ge_cases k (length nmid)) as [Hl|Hl].
          - rewrite nth_error_app1 in Hp by exact Hl. auto.
          - rewrite nth_error_app2 in Hp by exact Hl. destruct (k - length nmid) as [|m] eqn:Ek.
            + injection Hp as <-. right. split; [lia | reflexivity].
            + destruct m; discriminate. }
        assert (Hlast : nth_error (nmid ++ [(renumber rho e, deps)]) (length nmid) = Some (renumber rho e, deps)).
        { rewrite nth_error_app2, Nat.sub_diag by lia. reflexivity. }
        split.
        - intros i Hi. rewrite Hupd by lia. now apply (ci_in _ _ _ _ _ _ _ HI).
        - intros i Hi. cbn [assoc]. rewrite uname_eqb. destruct (Nat.eqb_spec i (n + length done)); [lia|].
          now apply (ci_ren0 _ _ _ _ _ _ _ HI).
        - intros i Hi. rewrite Hlen in Hi. cbn [assoc]. rewrite uname_eqb. unfold upd.
          destruct (Nat.eqb_spec i (n + length done)); [reflexivity|]. apply (ci_ren _ _ _ _ _ _ _ HI). lia.
        - intros i Hi. rewrite Hlen in Hi. rewrite Hnl. unfold upd. destruct (Nat.eqb_spec i (n + length done)); [lia|].
          assert (n <= rho i < n + length nmid) by (apply (ci_rng _ _ _ _ _ _ _ HI); lia). lia.
        - intros e2 j. cbn [In]. rewrite (ci_emap _ _ _ _ _ _ _ HI). split.
          + intros [[= <- <-]|(Hj & d & Hd)].
            * split; [lia|]. exists deps. replace (n + length nmid - n) with (length nmid) by lia. exact Hlast.
            * split; [exact Hj|]. exists d. now apply nth_error_app_l.
          + intros (Hj & d & Hd). destruct (Hnew _ _ Hd) as [[Hd' _]|[Hd' [= -> _]]].
            * right. eauto.
            * left. f_equal. lia.
        - intros k p Hp. destruct (Hdone k p Hp) as [[Hp' Hk]|[-> ->]].
          + rewrite Hupd, (Helt _ k p Hp') by lia. destruct (ci_old _ _ _ _ _ _ _ HI k p Hp') as (q & Hq & Hs).
            exists q. split; [now apply nth_error_app_l | exact Hs].
          + rewrite Hself. cbn [fst]. rewrite Hrene. exists (renumber rho e, deps).
            replace (n + length nmid - n) with (length nmid) by lia. split; [exact Hlast | left; reflexivity].
        - intros k q Hq. destruct (Hnew _ _ Hq) as [[Hq' Hkl]|[-> ->]].
          + destruct (ci_new _ _ _ _ _ _ _ HI k q Hq') as (k0 & p & Hp & Hr & Hk & ->).
            assert (Hk0 : k0 < length done) by (apply nth_error_Some; congruence).
            exists k0, p. split; [now apply nth_error_app_l|]. rewrite Hupd, (Helt _ k0 p Hp) by lia. auto.
          + exists (length done), (e, deps). split; [rewrite nth_error_app2, Nat.sub_diag by lia; reflexivity|].
            rewrite Hself. cbn [fst snd]. rewrite Hrene. split; [reflexivity|]. split; [|reflexivity].
            (* the new elements come from distinct old ones *)
            assert (HP : forall m, m <= length nmid -> forall k0, k0 < m -> exists k1 q1, nth_error nmid k0 = Some q1 /\ k1 < length done /\ rho (n + k1) = n + k0).
            { intros m Hm k0 Hk0. destruct (nth_error_some nmid k0) as (q1 & Hq1); [lia|].
              destruct (ci_new _ _ _ _ _ _ _ HI k0 q1 Hq1) as (k1 & p & Hp & Hr & _).
              exists k1, q1. split; [exact Hq1|]. split; [apply nth_error_Some; congruence | exact Hr]. }
            (* pigeonhole *)
            assert (Hincl : incl (seq n (length nmid)) (map rho (seq n (length done)))).
            { intros x Hx. apply in_seq in Hx. destruct (HP (length nmid) (le_n _) (x - n) ltac:(lia)) as (k1 & q1 & _ & Hk1 & Hr).
              apply in_map_iff. exists (n + k1). split; [lia|]. apply in_seq. lia. }
            pose proof (NoDup_incl_length (seq_NoDup _ _) Hincl) as Hle.
            rewrite map_length, !seq_length in Hle. exact Hle.
        - intros k e' He'. rewrite map_app in He'. destruct (Nat.lt_ge_cases k (length nmid)) as [Hl|Hl].
          + rewrite nth_error_app1 in He' by (rewrite map_length; exact Hl). now apply (ci_back _ _ _ _ _ _ _ HI).
          + rewrite nth_error_app2 in He' by (rewrite map_length; exact Hl). rewrite map_length in He'.
            destruct (k - length nmid) as [|m] eqn:Ek; [|destruct m; discriminate].
            injection He' as <-. apply (renumber_elt_ok rho (n + length done)); [exact He|].
            intros j Hj. specialize (Hrange j Hj). lia.
        - intros i j p q Hij Hp Hq. destruct (Hnew _ _ Hq) as [[Hq' Hkl]|[-> ->]].
          + destruct (Hnew _ _ Hp) as [[Hp' _]|[-> _]]; [|lia]. now apply (ci_diff _ _ _ _ _ _ _ HI i j).
          + destruct (Hnew _ _ Hp) as [[Hp' Hi]|[-> _]]; [|lia]. cbn [fst].
            apply (ex_find_none _ _ _ _ _ Ef (fst p) (n + i)). apply (ci_emap _ _ _ _ _ _ _ HI). split; [lia|].
            exists (snd p). replace (n + i - n) with i by lia. rewrite Hp'. now destruct p. }
      rewrite Hlen in Hrun. rewrite <- plus_n_Sm in Hrun. rewrite <- app_assoc. rewrite Hrun.
      exists nmid', emap', ren', rho'. split; [reflexivity|]. now rewrite <- app_assoc in HI'.
Qed.
Lemma cinv_empty ren0 ins : cinv ren0 ins [] [] [] ren0 (fun j => j).
Proof.
  split; cbn; intros; auto; try lia; try (destruct k; discriminate).
  - split; [contradiction|]. intros (_ & d & Hd). destruct (j - n); discriminate.
  - intros i e. destruct i; discriminate.
  - destruct i; discriminate.
Qed.

(* A decomposition whose elements are those of another one, renumbered. *)
Record moved (eqv : ex -> ex -> Prop) (mid mid' : list elt) (rho : nat -> nat) : Prop := {
  mv_in : forall j, j < n -> rho j = j;
  mv_rng : forall j, n <= j < n + length mid -> n <= rho j < n + length mid';
  mv_old : forall k p, nth_error mid k = Some p ->
             exists q, nth_error mid' (rho (n + k) - n) = Some q /\ eqv (renumber rho (fst p)) (fst q);
  mv_new : forall k q, nth_error mid' k = Some q ->
             exists k0 p, nth_error mid k0 = Some p /\ rho (n + k0) = n + k /\ fst q = renumber rho (fst p) /\ snd q = map rho (snd p)
}.

Definition distinct (mid : list elt) : Prop :=
  forall i j p q, i < j -> nth_error mid i = Some p -> nth_error mid j = Some q -> eqb (fst q) (fst p) = false.

Lemma skipn_ins {A} (l l' : list A) : skipn (length l) (l ++ l') = l'.
Proof. induction l; cbn; auto. Qed.

Definition rmap (ren : list (string * string)) (rho : nat -> nat) (k : nat) : Prop :=
  forall j, j < k -> match assoc (uname j) ren with Some t => t = uname (rho j) | None => rho j = j end.
Lemma rename_outs k ren rho (outs : list elt) : Forall (arg_ok k) (map fst outs) -> rmap ren rho k ->
  map (fun p => (rename o ren (fst p), snd p)) outs = map (fun p => (renumber rho (fst p), snd p)) outs.
Proof.
  intros HF HR. apply map_ext_in. intros p Hp. f_equal. apply (rename_arg k); [|exact HR].
  rewrite Forall_forall in HF. apply HF. now apply in_map.
Qed.

Lemma function_cse_spec (d : dcmp o) : length (dc_in o d) = n ->
  well_formed n (map fst (dc_mid o d)) (map fst (dc_out o d)) -> Forall (fun p => snd p = []) (dc_mid o d) ->
  exists rho mid', function_cse o neq feq d =
      mkDC o (dc_in o d) mid' (map (fun p => (renumber rho (fst p), snd p)) (dc_out o d)) /\
    moved same (dc_mid o d) mid' rho /\ backward n (map fst mid') /\ distinct mid'.
Proof.
  intros Hn [HB HO] Hd. unfold function_cse. rewrite Hn.
  destruct (cse_loop_inv [] (dc_in o d) Hn (fun _ _ => I) (dc_mid o d) [] [] [] [] (fun j => j) HB (cinv_empty _ _))
    as (mid' & emap' & ren' & rho & Hrun & HI).
  rewrite app_nil_r in Hrun. cbn [length] in Hrun. rewrite Nat.add_0_r in Hrun. rewrite Hrun.
  cbn [app] in HI. exists rho, mid'. rewrite <- Hn at 1. rewrite skipn_ins. split; [|split; [split|]].
  - f_equal. apply (rename_outs (n + length (dc_mid o d))); [now rewrite map_length in HO|]. intros j Hj.
    destruct (Nat.lt_ge_cases j n) as [Hl|Hl].
    + rewrite (ci_ren0 _ _ _ _ _ _ _ HI) by exact Hl. cbn. now apply (ci_in _ _ _ _ _ _ _ HI).
    + rewrite (ci_ren _ _ _ _ _ _ _ HI); auto.
  - exact (ci_in _ _ _ _ _ _ _ HI).
  - exact (ci_rng _ _ _ _ _ _ _ HI).
  - exact (ci_old _ _ _ _ _ _ _ HI).
  - intros k q Hq. destruct (ci_new _ _ _ _ _ _ _ HI k q Hq) as (k0 & p & Hp & Hr & _ & ->).
    exists k0, p. split; [exact Hp|]. split; [exact Hr|]. split; [reflexivity|]. cbn. rewrite Forall_forall in Hd.
    now rewrite (Hd p) by (eapply nth_error_In; eauto).
  - split; [exact (ci_back _ _ _ _ _ _ _ HI) | exact (ci_diff _ _ _ _ _ _ _ HI)].
Qed.

Lemma oseq_map_some {A B} (f : A -> option B) (g : A -> B) l : (forall x, In x l -> f x = Some (g x)) ->
  oseq (map f l) = Some (map g l).
Proof.
  induction l as [|x l IH]; cbn; intros H; [reflexivity|]. rewrite (H x) by auto. rewrite IH by auto. reflexivity.
Qed.
Lemma remap_idx_some ren t j : assoc (uname j) ren = Some (uname t) -> remap_idx ren j = Some t.
Proof. unfold remap_idx. intros ->. apply uname_index. Qed.
Lemma assoc_ident j k m : k <= j < k + m -> assoc (uname j) (map (fun i => (uname i, uname i)) (seq k m)) = Some (uname j).
Proof.
  revert k. induction m as [|m IH]; intros k Hj; [lia|]. cbn [seq map assoc]. rewrite uname_eqb.
  destruct (Nat.eqb_spec j k) as [->|Hne]; [reflexivity|]. apply IH. lia.
Qed.

Lemma taylor_cse_spec (d : dcmp o) sv : length (dc_in o d) = n ->
  well_formed n (map fst (dc_mid o d)) (map fst (dc_out o d)) -> deps_ok n (dc_mid o d) ->
  Forall (fun i => i < n + length (dc_mid o d)) sv ->
  exists rho mid', taylor_cse o neq feq d sv =
      Some (mkDC o (dc_in o d) mid' (map (fun p => (renumber rho (fst p), snd p)) (dc_out o d)), map rho sv) /\
    moved same (dc_mid o d) mid' rho /\ backward n (map fst mid') /\ distinct mid'.
Proof.
  intros Hn [HB HO] Hd Hsv. unfold taylor_cse. rewrite Hn.
  set (ren0 := map (fun i => (uname i, uname i)) (seq 0 n)).
  assert (H0 : forall j, j < n -> assoc (uname j) ren0 = Some (uname j)) by (intros j Hj; apply assoc_ident; lia).
  destruct (cse_loop_inv ren0 (dc_in o d) Hn (fun j Hj => ltac:(now rewrite H0)) (dc_mid o d) [] [] [] ren0 (fun j => j) HB (cinv_empty _ _))
    as (mid' & emap' & ren' & rho & Hrun & HI).
  rewrite app_nil_r in Hrun. cbn [length] in Hrun. rewrite Nat.add_0_r in Hrun. rewrite Hrun.
  cbn [app] in HI.
  replace (skipn n (dc_in o d ++ mid')) with mid' by (rewrite <- Hn; symmetry; apply skipn_ins).
  assert (Hren : forall j, j < n + length (dc_mid o d) -> assoc (uname j) ren' = Some (uname (rho j))).
  { intros j Hj. destruct (Nat.lt_ge_cases j n) as [Hl|Hl].
    - rewrite (ci_ren0 _ _ _ _ _ _ _ HI) by exact Hl. rewrite (ci_in _ _ _ _ _ _ _ HI) by exact Hl. now apply H0.
    - rewrite (ci_ren _ _ _ _ _ _ _ HI); auto. }
  set (g := fun p : elt => (fst p, map rho (snd p))).
  assert (Hmid : oseq (map (remap_deps o ren') mid') = Some (map g mid')).
  { apply oseq_map_some. intros q Hq. destruct (In_nth_error _ _ Hq) as (k & Hk).
    destruct (ci_new _ _ _ _ _ _ _ HI k q Hk) as (k0 & p & Hp & Hr & _ & ->). unfold remap_deps. cbn [fst snd].
    rewrite (oseq_map_some _ rho); [reflexivity|]. intros j Hj. apply remap_idx_some, Hren.
    specialize (Hd _ _ _ Hp Hj). lia. }
  rewrite Hmid. rewrite (oseq_map_some _ rho).
  2:{ intros j Hj. apply remap_idx_some, Hren. rewrite Forall_forall in Hsv. now apply Hsv. }
  exists rho, (map g mid'). split; [|split; [split|]].
  - do 3 f_equal. apply (rename_outs (n + length (dc_mid o d))); [now rewrite map_length in HO|]. intros j Hj.
    now rewrite Hren.
  - exact (ci_in _ _ _ _ _ _ _ HI).
  - rewrite map_length. exact (ci_rng _ _ _ _ _ _ _ HI).
  - intros k p Hp. destruct (ci_old _ _ _ _ _ _ _ HI k p Hp) as (q & Hq & Hs). exists (g q).
    split; [now apply map_nth_error | exact Hs].
  - intros k q Hq. rewrite nth_error_map in Hq. destruct (nth_error mid' k) as [q0|] eqn:E; [|discriminate].
    injection Hq as <-. destruct (ci_new _ _ _ _ _ _ _ HI k q0 E) as (k0 & p & Hp & Hr & _ & ->).
    exists k0, p. auto.
  - split.
    + rewrite map_map. cbn. exact (ci_back _ _ _ _ _ _ _ HI).
    + intros i j p q Hij Hp Hq. rewrite nth_error_map in Hp, Hq.
      destruct (nth_error mid' i) as [p0|] eqn:E1; [|discriminate]. destruct (nth_error mid' j) as [q0|] eqn:E2; [|discriminate].
      injection Hp as <-. injection Hq as <-. cbn. now apply (ci_diff _ _ _ _ _ _ _ HI i j).
Qed.

(* --- What moving elements preserves ---------------------------------------------------- *)
Section Values.
Context {V : Type} (A : alg (num o) V) (dflt : V).
Local Notation mexp l := (map (@fst ex (list nat)) l).
Lemma moved_carries (eqv : ex -> ex -> Prop) mid mid' rho (ins : list V) : length ins = n ->
  (forall a b vals, eqv a b -> elt_val A dflt vals a = elt_val A dflt vals b) ->
  moved eqv mid mid' rho -> carries A dflt ins (mexp mid) (mexp mid') rho.
Proof.
  intros Hn He HM. split; rewrite Hn; [exact (mv_in _ _ _ _ HM)|]. intros i e Hi. rewrite nth_error_map in Hi.
  destruct (nth_error mid i) as [p|] eqn:E; [|discriminate]. injection Hi as <-.
  destruct (mv_old _ _ _ _ HM i p E) as (q & Hq & Hs). exists (fst q). split; [now apply map_nth_error|].
  assert (Hl : i < length mid) by (apply nth_error_Some; congruence).
  split; [apply (mv_rng _ _ _ _ HM); lia|]. intros vals. symmetry. now apply He.
Qed.
End Values.
End Cse.
