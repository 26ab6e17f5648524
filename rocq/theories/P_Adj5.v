(* The expressions the u variables stand for. *)
From Coq Require Import String Bool ZArith Reals Arith List Lia.
From Verif Require Import M_Expr M_Dag M_Dec S_Expr S_Dag S_Dec P_ExprSem P_Subs P_Dag P_Dec P_DecM P_DecF P_Cse P_Sort P_DecH P_Vars P_DecX P_DecP M_Taylor M_Dtens M_Adj P_Adj4.
Import ListNotations.
Local Open Scope nat_scope.
Set Bullet Behavior "Strict Subproofs".

Lemma nth_error_firstn {A} (l : list A) : forall n j, j < n -> nth_error (firstn n l) j = nth_error l j.
Proof. induction l as [|x l IH]; intros [|n] [|j] H; try lia; cbn; auto. apply IH. lia. Qed.

Section Trees.
Context (o : nops).
Local Notation ex := (expr (num o)).
Local Notation elt := (expr (num o) * list nat)%type.
Local Notation mexp l := (map (@fst ex (list nat)) l).

Definition smap (T : list ex) : list (string * ex) := map (fun p : nat * ex => (uname (fst p), snd p)) (combine (seq 0 (length T)) T).
Lemma combine_snoc {A B} (l : list A) (l' : list B) x y : length l = length l' -> combine (l ++ [x]) (l' ++ [y]) = combine l l' ++ [(x, y)].
Proof. revert l'. induction l as [|a l IH]; intros [|b l'] H; try discriminate; [reflexivity|]. cbn in *. rewrite IH; [reflexivity | lia]. Qed.
Lemma smap_snoc T t : smap (T ++ [t]) = smap T ++ [(uname (length T), t)].
Proof.
  unfold smap. rewrite app_length. cbn [length]. rewrite Nat.add_1_r, seq_S. rewrite combine_snoc by (now rewrite seq_length). now rewrite map_app.
Qed.
Lemma smap_assoc T j : assoc (uname j) (smap T) = nth_error T j.
Proof.
  unfold smap. assert (K : forall b, b <= j -> assoc (uname j) (map (fun p : nat * ex => (uname (fst p), snd p)) (combine (seq b (length T)) T)) = nth_error T (j - b)).
  { induction T as [|t T IH]; intros b Hb; [cbn; now destruct (j - b)|]. cbn [length seq combine map assoc fst snd]. rewrite uname_eqb.
    destruct (Nat.eqb_spec j b) as [->|Hn]; [now rewrite Nat.sub_diag|]. rewrite IH by lia. replace (j - b) with (S (j - S b)) by lia. reflexivity. }
  rewrite K by lia. now rewrite Nat.sub_0_r.
Qed.
Lemma subs_arg k T T2 (a : ex) : arg_ok k a -> (forall j, j < k -> nth_error T j = nth_error T2 j) -> subs o (smap T) a = subs o (smap T2) a.
Proof. intros Ha H. destruct a as [x|s|i|f args]; cbn in *; try reflexivity; [|destruct Ha]. destruct Ha as (j & Hj & ->). now rewrite !smap_assoc, H. Qed.
Lemma subs_elt k T T2 (e : ex) : elt_ok k e -> (forall j, j < k -> nth_error T j = nth_error T2 j) -> subs o (smap T) e = subs o (smap T2) e.
Proof.
  intros He H. destruct e as [x|s|i|f args]; cbn in He; try reflexivity; try contradiction.
  change (EFun f (map (subs o (smap T)) args) = EFun f (map (subs o (smap T2)) args)). f_equal. apply map_ext_in. intros a Ha. rewrite Forall_forall in He. eapply subs_arg; eauto.
Qed.
Lemma mid_map_spec (mid : list elt) : forall T, (forall k p, nth_error mid k = Some p -> elt_ok (length T + k) (fst p)) ->
  exists T', length T' = length mid /\ mid_map o (length T) (smap T) mid = smap (T ++ T') /\
    forall k p, nth_error mid k = Some p -> nth_error T' k = Some (subs o (smap (T ++ T')) (fst p)).
Proof.
  induction mid as [|p mid IH]; intros T H.
  - exists []. rewrite app_nil_r. repeat split. intros [|k] p; discriminate.
  - cbn [mid_map]. rewrite <- smap_snoc. set (t := subs o (smap T) (fst p)). destruct (IH (T ++ [t])) as (T' & L1 & L2 & L3).
    { intros k q Hq. rewrite app_length. cbn [length]. replace (length T + 1 + k) with (length T + S k) by lia. now apply H. }
    rewrite app_length in L2. cbn [length] in L2. rewrite Nat.add_1_r in L2. rewrite <- app_assoc in L2, L3. cbn [app] in L2, L3.
    exists (t :: T'). split; [cbn; lia|]. split; [exact L2|]. intros [|k] q Hq; [|apply L3; exact Hq]. cbn in Hq. injection Hq as <-. cbn [nth_error]. f_equal. unfold t.
    apply (subs_elt (length T)); [pose proof (H 0 p eq_refl) as He; now rewrite Nat.add_0_r in He|]. intros j Hj. now rewrite nth_error_app1.
Qed.
Definition isleaf (e : ex) : Prop := match e with EFun _ _ => False | _ => True end.
Lemma out_map_spec (outs : list elt) b : forall T, b <= length T -> Forall (arg_ok b) (mexp outs) ->
  exists T', length T' = length outs /\ out_map o (length T) (smap T) outs = Some (smap (T ++ T')) /\
    forall k p, nth_error outs k = Some p -> nth_error T' k = Some (subs o (smap T) (fst p)).
Proof.
  induction outs as [|p outs IH]; intros T HT H.
  - exists []. rewrite app_nil_r. repeat split. intros [|k] p; discriminate.
  - cbn [map] in H. inversion H as [|? ? Hp Hr]; subst. cbn [out_map].
    set (t := subs o (smap T) (fst p)).
    assert (E : (match fst p with
                 | EVar s => match assoc s (smap T) with Some t => out_map o (S (length T)) (smap T ++ [(uname (length T), t)]) outs | None => None end
                 | e => out_map o (S (length T)) (smap T ++ [(uname (length T), e)]) outs end) = out_map o (S (length T)) (smap T ++ [(uname (length T), t)]) outs).
    { unfold t. destruct (fst p) as [x|s|i|f args]; cbn in Hp; try reflexivity; [|destruct Hp]. destruct Hp as (j & Hj & ->). cbn. rewrite smap_assoc.
      destruct (nth_error T j) eqn:Ej; [reflexivity|]. apply nth_error_None in Ej. lia. }
    rewrite E. rewrite <- smap_snoc. destruct (IH (T ++ [t])) as (T' & L1 & L2 & L3); [rewrite app_length; lia | exact Hr|].
    rewrite app_length in L2. cbn [length] in L2. rewrite Nat.add_1_r in L2. rewrite <- app_assoc in L2. cbn [app] in L2.
    exists (t :: T'). split; [cbn; lia|]. split; [exact L2|]. intros [|k] q Hq; [cbn in Hq; injection Hq as <-; reflexivity|]. cbn [nth_error]. rewrite (L3 k q Hq). f_equal.
    apply (subs_arg b).
    + rewrite Forall_map, Forall_forall in Hr. apply Hr. cbn in Hq. eapply nth_error_In; eauto.
    + intros j Hj. rewrite nth_error_app1 by lia. reflexivity.
Qed.

(* T: the expressions, in the order of the u variables and of the outputs. *)
Record trees_of (d : dcmp o) (T : list ex) : Prop := {
  tr_len : length T = length (dc_in o d) + length (dc_mid o d) + length (dc_out o d);
  tr_in : forall k p, nth_error (dc_in o d) k = Some p -> nth_error T k = Some (fst p);
  tr_mid : forall k p, nth_error (dc_mid o d) k = Some p -> nth_error T (length (dc_in o d) + k) = Some (subs o (smap T) (fst p));
  tr_out : forall k p, nth_error (dc_out o d) k = Some p -> nth_error T (length (dc_in o d) + length (dc_mid o d) + k) = Some (subs o (smap T) (fst p))
}.
Lemma make_subs_spec (d : dcmp o) : well_formed (length (dc_in o d)) (mexp (dc_mid o d)) (mexp (dc_out o d)) ->
  exists T, make_subs o d = Some (smap T) /\ trees_of d T.
Proof.
  intros [HB HO]. set (n := length (dc_in o d)) in *. set (T0 := mexp (dc_in o d)).
  assert (L0 : length T0 = n) by apply map_length.
  assert (E0 : map (fun p : nat * elt => (uname (fst p), fst (snd p))) (combine (seq 0 n) (dc_in o d)) = smap T0).
  { unfold smap, T0. rewrite map_length. fold n. generalize (seq 0 n). generalize (dc_in o d). induction l as [|p l IH]; intros [|x s]; cbn; try reflexivity. now rewrite IH. }
  destruct (mid_map_spec (dc_mid o d) T0) as (T1 & A1 & A2 & A3).
  { intros k p Hp. rewrite L0. apply HB. now rewrite nth_error_map, Hp. }
  rewrite map_length in HO. destruct (out_map_spec (dc_out o d) (n + length (dc_mid o d)) (T0 ++ T1)) as (T2 & B1 & B2 & B3); [rewrite app_length; lia | exact HO|].
  exists ((T0 ++ T1) ++ T2). split.
  - unfold make_subs. cbv zeta. fold n. rewrite E0. rewrite <- L0 at 1 2. rewrite A2. rewrite <- A1. rewrite <- (app_length T0 T1) at 1. exact B2.
  - assert (Pre : forall j, j < n + length (dc_mid o d) -> nth_error ((T0 ++ T1) ++ T2) j = nth_error (T0 ++ T1) j) by (intros j Hj; rewrite nth_error_app1; [reflexivity | rewrite app_length; lia]).
    split.
    + rewrite !app_length. lia.
    + intros k p Hk. assert (k < n) by (apply nth_error_Some; congruence). rewrite Pre by lia. rewrite nth_error_app1 by lia. unfold T0. now rewrite nth_error_map, Hk.
    + intros k p Hk. fold n. assert (k < length (dc_mid o d)) by (apply nth_error_Some; congruence). rewrite Pre by lia. rewrite nth_error_app2 by lia. replace (n + k - length T0) with k by lia. rewrite (A3 k p Hk). f_equal.
      apply (subs_elt (n + k)); [apply HB; now rewrite nth_error_map, Hk|]. intros j Hj. symmetry. apply Pre. lia.
    + intros k p Hk. fold n. rewrite nth_error_app2 by (rewrite app_length; lia). rewrite app_length. replace (n + length (dc_mid o d) + k - (length T0 + length T1)) with k by lia. rewrite (B3 k p Hk). f_equal.
      apply (subs_arg (n + length (dc_mid o d))); [rewrite Forall_map, Forall_forall in HO; apply HO; eapply nth_error_In; eauto|]. intros j Hj. symmetry. now apply Pre.
Qed.

(* Values in any algebra. *)
Section Vals.
Context {V : Type} (A : alg (num o) V) (dflt : V) (vv : string -> V).
Lemma subs_gval_arg k T (a : ex) vals : arg_ok k a -> (forall j, j < k -> exists t, nth_error T j = Some t /\ nth_error vals j = Some (gval A vv t)) ->
  gval A vv (subs o (smap T) a) = elt_val A dflt vals a.
Proof.
  intros Ha H. destruct a as [x|s|i|f args]; cbn in *; try reflexivity; [|destruct Ha]. destruct Ha as (j & Hj & ->). rewrite smap_assoc, uval_uname.
  destruct (H j Hj) as (t & -> & Hv). symmetry. now apply nth_error_nth'.
Qed.
Lemma subs_gval_elt k T (e : ex) vals : elt_ok k e -> (forall j, j < k -> exists t, nth_error T j = Some t /\ nth_error vals j = Some (gval A vv t)) ->
  gval A vv (subs o (smap T) e) = elt_val A dflt vals e.
Proof.
  intros He H. destruct e as [x|s|i|f args]; cbn in He; try reflexivity; try contradiction.
  change (a_fun A f (map (gval A vv) (map (subs o (smap T)) args)) = a_fun A f (map (elt_val A dflt vals) args)). f_equal. rewrite map_map. apply map_ext_in. intros a Ha.
  rewrite Forall_forall in He. eapply subs_gval_arg; eauto.
Qed.
Lemma run_mid_app ins (l l' : list ex) : run_mid A dflt ins (l ++ l') = run_mid A dflt (run_mid A dflt ins l) l'.
Proof. unfold run_mid. apply fold_left_app. Qed.
Lemma trees_run d T : well_formed (length (dc_in o d)) (mexp (dc_mid o d)) (mexp (dc_out o d)) -> trees_of d T ->
  forall k, k <= length (dc_mid o d) ->
  run_mid A dflt (map (gval A vv) (mexp (dc_in o d))) (firstn k (mexp (dc_mid o d))) = map (gval A vv) (firstn (length (dc_in o d) + k) T).
Proof.
  intros [HB HO] HT. set (n := length (dc_in o d)) in *. induction k as [|k IH]; intros Hk.
  - cbn. rewrite Nat.add_0_r. f_equal. pose proof (tr_in _ _ HT) as Hin. pose proof (tr_len _ _ HT) as Hl. fold n in Hl.
    assert (Hn : length (firstn n T) = n) by (rewrite firstn_length; lia).
    apply nth_ext with (d := ENum (n_lit o 0%Z)) (d' := ENum (n_lit o 0%Z)); [rewrite map_length; now fold n|]. intros j Hj. rewrite map_length in Hj. fold n in Hj.
    destruct (nth_error_some (dc_in o d) j) as (p & Hp); [exact Hj|]. rewrite (nth_error_nth' _ j _ (fst p)) by (now rewrite nth_error_map, Hp).
    symmetry. apply nth_error_nth'. rewrite nth_error_firstn by lia. now apply Hin.
  - destruct (nth_error_some (dc_mid o d) k) as (p & Hp); [lia|].
    assert (E : firstn (S k) (mexp (dc_mid o d)) = firstn k (mexp (dc_mid o d)) ++ [fst p]).
    { assert (Hp' : nth_error (mexp (dc_mid o d)) k = Some (fst p)) by now rewrite nth_error_map, Hp. revert Hp'. generalize (mexp (dc_mid o d)). clear. induction k as [|k IH]; intros [|x l] H; try discriminate; cbn in *; [congruence|]. now rewrite IH. }
    rewrite E, run_mid_app, IH by lia. rewrite Nat.add_succ_r.
    pose proof (tr_mid _ _ HT k p Hp) as Ht. fold n in Ht.
    assert (E2 : firstn (S (n + k)) T = firstn (n + k) T ++ [subs o (smap T) (fst p)]).
    { revert Ht. generalize (subs o (smap T) (fst p)). generalize (n + k). clear. intros m. revert T. induction m as [|m IH]; intros [|x l] e H; try discriminate; cbn in *; [congruence|]. now rewrite (IH l e H). }
    rewrite E2, map_app. cbn [map]. unfold run_mid. cbn [fold_left]. f_equal. f_equal. symmetry. apply (subs_gval_elt (n + k)); [apply HB; now rewrite nth_error_map, Hp|].
    intros j Hj. pose proof (tr_len _ _ HT) as Hl. fold n in Hl. destruct (nth_error_some T j) as (t & Et); [lia|]. exists t. split; [exact Et|]. rewrite nth_error_map.
    replace (nth_error (firstn (n + k) T) j) with (Some t); [reflexivity|]. rewrite nth_error_firstn by lia. now symmetry.
Qed.
Lemma trees_outs d T : well_formed (length (dc_in o d)) (mexp (dc_mid o d)) (mexp (dc_out o d)) -> trees_of d T ->
  run_dc A dflt (map (gval A vv) (mexp (dc_in o d))) (mexp (dc_mid o d)) (mexp (dc_out o d)) = map (gval A vv) (skipn (length (dc_in o d) + length (dc_mid o d)) T).
Proof.
  intros HW HT. unfold run_dc. pose proof (trees_run d T HW HT (length (dc_mid o d)) (le_n _)) as E. rewrite firstn_all2 in E by (rewrite map_length; lia). rewrite E. clear E.
  destruct HW as [HB HO]. rewrite map_length in HO. pose proof (tr_len _ _ HT) as Hl. set (n := length (dc_in o d) + length (dc_mid o d)) in *.
  apply nth_ext with (d := dflt) (d' := dflt); [rewrite !map_length, skipn_length; lia|]. intros k Hk. rewrite !map_length in Hk.
  destruct (nth_error_some (dc_out o d) k) as (p & Hp); [exact Hk|]. pose proof (tr_out _ _ HT k p Hp) as Ht. fold n in Ht.
  rewrite (nth_error_nth' _ k _ (elt_val A dflt (map (gval A vv) (firstn n T)) (fst p))) by (now rewrite nth_error_map, nth_error_map, Hp).
  symmetry. apply nth_error_nth'. rewrite nth_error_map.
  replace (nth_error (skipn n T) k) with (nth_error T (n + k)) by (clear; revert T; induction n as [|n IH]; intros T; [reflexivity|]; destruct T; cbn; [now destruct k | apply IH]).
  rewrite Ht. cbn. f_equal. apply (subs_gval_arg n).
  - rewrite Forall_map, Forall_forall in HO. apply HO. eapply nth_error_In; eauto.
  - intros j Hj. destruct (nth_error_some T j) as (t & Et); [lia|]. exists t. split; [exact Et|]. rewrite nth_error_map.
    replace (nth_error (firstn n T) j) with (Some t); [reflexivity|]. rewrite nth_error_firstn by lia. now symmetry.
Qed.
End Vals.
End Trees.
