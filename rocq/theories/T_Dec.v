(* C09-C12: decompositions compute the original expressions, for every
   interpretation of the elementary functions; removing common subexpressions,
   sorting and splitting into segments do not change any value. *)
From Coq Require Import Reals Qreals.
From Coq Require Import String Bool ZArith QArith Arith List Lia Permutation.
From Verif Require Import M_Expr M_Dag M_Dec S_Expr S_Dag S_Dec P_ExprSem P_Build P_Subs P_Dag P_Dec P_DecM P_DecF P_Cse P_Kahn P_Sort P_DecH P_Vars P_Seg P_DecX P_DecP.
From Verif Require Import X_Expr X_Dec T_Expr.
Import ListNotations.
Local Open Scope nat_scope.
Set Bullet Behavior "Strict Subproofs".

Definition is_function {N} (e : expr N) : Prop := match e with EFun _ _ => True | _ => False end.
(* The real numbers as an interpretation: the meanings of S_Expr.v. *)
Definition real_alg (o : nops) (nval : num o -> R) (rho : env) : alg (num o) (option R) :=
  mkAlg (fun x => Some (nval x)) (v_par rho) (fsem o nval rho).
Lemma gval_real o nval rho e : gval (real_alg o nval rho) (v_var rho) e = eval o nval rho e.
Proof. induction e as [x|s|i|f args IH] using expr_ind'; [reflexivity..|]. cbn. f_equal. now apply map_ext_Forall. Qed.
Lemma real_sincos o nval rho : sincos (real_alg o nval rho).
Proof. split; intros l; cbn; destruct (oseq l) as [[|x [|y r]]|]; reflexivity. Qed.
Lemma bind_vars {V} (dflt : V) (g : string -> V) vs s : In s vs -> bind dflt vs (map g vs) s = g s.
Proof.
  induction vs as [|v vs IH]; [contradiction|]. cbn. destruct (String.eqb_spec s v) as [->|Hne]; [reflexivity|].
  intros [H|H]; [congruence | now apply IH].
Qed.
Lemma gval_ext {N V} (A : alg N V) g h : forall e, (forall s, occurs (EVar s) e -> g s = h s) -> gval A g e = gval A h e.
Proof.
  induction e as [x|s|i|f args IH] using expr_ind'; intros H; try reflexivity; [apply H; constructor|].
  cbn. f_equal. apply map_ext_in. intros a Ha. rewrite Forall_forall in IH. apply IH; [exact Ha|].
  intros s Hs. apply H. eapply occ_arg; eauto.
Qed.
Lemma isf_is_function {o} l : Forall (isf o) l <-> Forall is_function l.
Proof.
  split; apply Forall_impl; intros [x|s|i|f a]; cbn; try contradiction; unfold isf; eauto.
  all: intros (? & ? & ?); try discriminate; exact I.
Qed.

(* --- C09: functions ------------------------------------------------------------------- *)
Section Functions.
Context (o : nops) (neq : num o -> num o -> bool) (feq : fid (num o) -> fid (num o) -> bool).
Context (share : list (expr (num o)) -> list (dag (num o))).
Local Notation mexp l := (map (@fst (expr (num o)) (list nat)) l).

(* The list of functions is not empty, and the variables are distinct and include
   all those of the functions. *)
Definition valid_input (es vars : list (expr (num o))) (vs : list string) : Prop :=
  es <> [] /\ vars = map EVar vs /\ NoDup vs /\ (forall e s, In e es -> occurs (EVar s) e -> In s vs).

Theorem function_decomposition_correct es vars vs :
  valid_input es vars vs -> (forall l, map erase (share l) = l /\ consistent (share l)) ->
  exists fuel0 d, (forall fuel, fuel0 <= fuel -> function_decompose o neq feq share fuel es vars = MDone d) /\
    mexp (dc_in o d) = map EVar vs /\ length (dc_out o d) = length es /\
    well_formed (length vs) (mexp (dc_mid o d)) (mexp (dc_out o d)) /\ Forall is_function (mexp (dc_mid o d)) /\
    forall V (A : alg (num o) V) dflt ins, respects A neq feq -> sincos A -> length ins = length vs ->
      run_dc A dflt ins (mexp (dc_mid o d)) (mexp (dc_out o d)) = map (gval A (bind dflt vs ins)) (map (cfunc_passes o) es).
Proof.
  intros Hi Hs. apply check_vars_ok in Hi.
  destruct (function_decompose_correct o neq feq share es vars vs Hi Hs) as (f0 & d & Hd & Ei & Lo & HW & HF & HV).
  exists f0, d. split; [exact Hd|]. split; [rewrite Ei, map_map; reflexivity|]. split; [exact Lo|]. split; [exact HW|].
  split; [now apply isf_is_function | exact HV].
Qed.

Theorem function_decomposition_rejects es vars fuel :
  (forall vs, ~ valid_input es vars vs) -> function_decompose o neq feq share fuel es vars = MThrow.
Proof.
  intros H. unfold function_decompose. destruct (check_vars o es vars) as [vs|] eqn:E; [|reflexivity].
  exfalso. apply (H vs). now apply check_vars_ok.
Qed.

(* With real numbers: wherever the original functions have a value, the compiled
   ones have the same. *)
Theorem function_decomposition_reals nval (L : nlaws o nval) es vars vs :
  valid_input es vars vs -> (forall l, map erase (share l) = l /\ consistent (share l)) ->
  exists fuel0 d, (forall fuel, fuel0 <= fuel -> function_decompose o neq feq share fuel es vars = MDone d) /\
    forall rho, respects (real_alg o nval rho) neq feq ->
      Forall2 (fun e v => forall w, eval o nval rho e = Some w -> v = Some w) es
        (run_dc (real_alg o nval rho) None (map (v_var rho) vs) (mexp (dc_mid o d)) (mexp (dc_out o d))).
Proof.
  intros Hi Hs. destruct (function_decomposition_correct es vars vs Hi Hs) as (f0 & d & Hd & _ & _ & _ & _ & HV).
  exists f0, d. split; [exact Hd|]. intros rho HR.
  rewrite (HV _ (real_alg o nval rho) None (map (v_var rho) vs) HR (real_sincos o nval rho) (map_length _ _)).
  destruct Hi as (_ & _ & _ & Hv). rewrite map_map. revert Hv. generalize es as l. induction l as [|e l IH]; intros Hv; cbn [map]; constructor.
  - intros w Hw. rewrite (gval_ext _ _ (v_var rho)).
    + rewrite gval_real. destruct L as [RG TR]. unfold cfunc_passes.
      apply split_prods_ok, prod_to_div_eval_ok, sums_to_sum_sqs_ok, split_sums_ok, sum_to_sub_ok; auto.
    + intros s Hs'. apply bind_vars. apply (Hv e); [now left|]. now apply (passes_occurs o (cfunc_passes o) (lin_cfunc_passes o)).
  - apply IH. intros e' s He'. apply Hv. now right.
Qed.
End Functions.

(* --- C09: systems of differential equations ---------------------------------------------- *)
Section Systems.
Context (o : nops) (neq : num o -> num o -> bool) (feq : fid (num o) -> fid (num o) -> bool).
Context (share : list (expr (num o)) -> list (dag (num o))).
Local Notation mexp l := (map (@fst (expr (num o)) (list nat)) l).
Context (ug : string -> list (expr (num o)) -> list (expr (num o) * list nat) -> option (nat * list (expr (num o) * list nat))).

Definition valid_system (sys : list (string * expr (num o))) (svf : list (expr (num o))) : Prop :=
  sys <> [] /\ (forall e s, In e (map snd sys ++ svf) -> occurs (EVar s) e -> In s (map fst sys)) /\
  Forall (all_nodes (kep_fine o)) (map (taylor_passes o) (map snd sys ++ svf)).

Theorem taylor_decomposition_correct sys svf : lits o -> user_ok o (length sys) ug ->
  (forall l, map erase (share l) = l /\ consistent (share l)) ->
  valid_system sys svf -> (forall e, In e svf -> ~ constant (taylor_passes o e)) ->
  exists fuel0 d sv, (forall fuel, fuel0 <= fuel -> taylor_decompose_sys o neq feq ug share fuel sys svf = MDone (d, sv)) /\
    mexp (dc_in o d) = map EVar (map fst sys) /\ length (dc_out o d) = length sys /\ length sv = length svf /\
    well_formed (length sys) (mexp (dc_mid o d)) (mexp (dc_out o d)) /\ Forall is_function (mexp (dc_mid o d)) /\
    deps_ok (length sys) (dc_mid o d) /\ Forall (fun i => i < length sys + length (dc_mid o d)) sv /\
    forall V (A : alg (num o) V) dflt ins, respects A neq feq -> sincos A -> tlaws o A -> length ins = length sys ->
      run_dc A dflt ins (mexp (dc_mid o d)) (mexp (dc_out o d)) =
        map (gval A (bind dflt (map fst sys) ins)) (map (taylor_passes o) (map snd sys)) /\
      map (fun i => nth i (run_mid A dflt ins (mexp (dc_mid o d))) dflt) sv =
        map (gval A (bind dflt (map fst sys) ins)) (map (taylor_passes o) svf) /\
      hidden_values o A dflt ins (dc_mid o d).
Proof.
  intros L HU Hs (Hp & Hv & Hk) Hc.
  destruct (taylor_decompose_correct o neq feq ug share sys svf L Hp HU Hs Hv Hk Hc)
    as (f0 & d & sv & Hd & Ei & Lo & Ls & HW & HF & HD & HS & HV).
  exists f0, d, sv. split; [exact Hd|]. split; [rewrite Ei, map_map; reflexivity|].
  split; [exact Lo|]. split; [exact Ls|]. split; [exact HW|]. split; [now apply isf_is_function|]. auto.
Qed.
Theorem taylor_decomposition_rejects sys svf : lits o -> user_ok o (length sys) ug ->
  (forall l, map erase (share l) = l /\ consistent (share l)) ->
  valid_system sys svf -> (exists e, In e svf /\ constant (taylor_passes o e)) ->
  exists fuel0, forall fuel, fuel0 <= fuel -> taylor_decompose_sys o neq feq ug share fuel sys svf = MThrow.
Proof. intros L HU Hs (Hp & Hv & Hk). now apply taylor_decompose_throws. Qed.

Theorem taylor_decomposition_reals nval (L : nlaws o nval) sys svf : lits o -> user_ok o (length sys) ug ->
  (forall l, map erase (share l) = l /\ consistent (share l)) ->
  valid_system sys svf -> (forall e, In e svf -> ~ constant (taylor_passes o e)) ->
  exists fuel0 d sv, (forall fuel, fuel0 <= fuel -> taylor_decompose_sys o neq feq ug share fuel sys svf = MDone (d, sv)) /\
    forall rho, respects (real_alg o nval rho) neq feq -> tlaws o (real_alg o nval rho) ->
      (forall e b x w, In e (map snd sys ++ svf) -> occurs (EFun Fpow [b; x]) e -> (forall n, x <> ENum n) ->
         eval o nval rho b = Some w -> (0 < w)%R) ->
      let ins := map (v_var rho) (map fst sys) in let A := real_alg o nval rho in
      Forall2 (fun e v => forall w, eval o nval rho e = Some w -> v = Some w) (map snd sys)
        (run_dc A None ins (mexp (dc_mid o d)) (mexp (dc_out o d))) /\
      Forall2 (fun e i => forall w, eval o nval rho e = Some w -> nth i (run_mid A None ins (mexp (dc_mid o d))) None = Some w) svf sv.
Proof.
  intros LI HU Hs Hsys Hc. destruct (taylor_decomposition_correct sys svf LI HU Hs Hsys Hc)
    as (f0 & d & sv & Hd & _ & _ & _ & _ & _ & _ & _ & HV).
  exists f0, d, sv. split; [exact Hd|]. intros rho HR HT Hpow ins A.
  destruct (HV _ A None ins HR (real_sincos o nval rho) HT) as (H1 & H2 & _); [unfold ins; now rewrite !map_length|].
  destruct Hsys as (_ & Hv & _).
  assert (HE : forall e, In e (map snd sys ++ svf) -> forall w, eval o nval rho e = Some w ->
            gval A (bind None (map fst sys) ins) (taylor_passes o e) = Some w).
  { intros e He w Hw. rewrite (gval_ext _ _ (v_var rho)).
    - unfold A. rewrite gval_real. apply (taylor_passes_preserve_values o nval L rho e w); [|exact Hw].
      intros b x v Ho. now apply (Hpow e).
    - intros s Hs'. apply bind_vars. apply (Hv e s He). now apply (passes_occurs o (taylor_passes o) (lin_taylor_passes o)). }
  split.
  - assert (G : forall l, (forall e, In e l -> In e (map snd sys ++ svf)) ->
      Forall2 (fun e v => forall w, eval o nval rho e = Some w -> v = Some w) l
        (map (gval A (bind None (map fst sys) ins)) (map (taylor_passes o) l))).
    { induction l as [|e l IH]; intros Hin; cbn [map]; constructor.
      - intros w. apply HE. apply Hin. now left.
      - apply IH. intros e' He'. apply Hin. now right. }
    rewrite H1. apply G. intros; apply in_or_app; auto.
  - assert (G : forall l sv', (forall e, In e l -> In e (map snd sys ++ svf)) ->
      map (fun i => nth i (run_mid A None ins (mexp (dc_mid o d))) None) sv' = map (gval A (bind None (map fst sys) ins)) (map (taylor_passes o) l) ->
      Forall2 (fun e i => forall w, eval o nval rho e = Some w -> nth i (run_mid A None ins (mexp (dc_mid o d))) None = Some w) l sv').
    { induction l as [|e l IH]; intros [|i sv'] Hin H; try discriminate; constructor.
      - injection H as -> _. intros w. apply HE. apply Hin. now left.
      - injection H as _ H. apply IH; [|exact H]. intros e' He'. apply Hin. now right. }
    apply G; [|exact H2]. intros; apply in_or_app; auto.
Qed.
End Systems.

(* --- C10: common subexpressions --------------------------------------------------------------- *)
Section Cse.
Context (o : nops) (neq : num o -> num o -> bool) (feq : fid (num o) -> fid (num o) -> bool).
Local Notation mexp l := (map (@fst (expr (num o)) (list nat)) l).
(* No two elements are equal. *)
Definition no_duplicates (mid : list (expr (num o))) : Prop :=
  forall i j a b, i < j -> nth_error mid i = Some a -> nth_error mid j = Some b -> ex_eqb o neq feq b a = false.
Lemma distinct_nodup mid : distinct o neq feq mid -> no_duplicates (mexp mid).
Proof.
  intros H i j a b Hij Ha Hb. rewrite nth_error_map in Ha, Hb.
  destruct (nth_error mid i) as [p|] eqn:Ep; [|discriminate]. destruct (nth_error mid j) as [q|] eqn:Eq; [|discriminate].
  injection Ha as <-. injection Hb as <-. eapply H; eauto.
Qed.

Theorem function_cse_transparent (d : dcmp o) : let n := length (dc_in o d) in
  well_formed n (mexp (dc_mid o d)) (mexp (dc_out o d)) -> Forall (fun p => snd p = []) (dc_mid o d) ->
  let d' := function_cse o neq feq d in
  dc_in o d' = dc_in o d /\ length (dc_mid o d') <= length (dc_mid o d) /\
  well_formed n (mexp (dc_mid o d')) (mexp (dc_out o d')) /\ no_duplicates (mexp (dc_mid o d')) /\
  forall V (A : alg (num o) V) dflt ins, respects A neq feq -> length ins = n ->
    run_dc A dflt ins (mexp (dc_mid o d')) (mexp (dc_out o d')) = run_dc A dflt ins (mexp (dc_mid o d)) (mexp (dc_out o d)).
Proof.
  intros n HW Hd d'. destruct (function_cse_spec o neq feq n d eq_refl HW Hd) as (rho & mid' & E & HM & HB & HD).
  unfold d'. rewrite E. cbn [dc_in dc_mid dc_out]. rewrite map_renumber_fst. split; [reflexivity|].
  split; [now apply (moved_shorter o n (same o neq feq) (dc_mid o d) mid' rho)|].
  split; [split; [exact HB|]|split].
  - destruct HW as [_ HO]. rewrite map_length in *. now apply (moved_outs o n (same o neq feq) (dc_mid o d)).
  - now apply distinct_nodup.
  - intros V A dflt ins HR Hl. apply (moved_run o A dflt ins (same o neq feq)); rewrite ?Hl; auto.
    intros a b vals. now apply same_val.
Qed.

Theorem taylor_cse_transparent (d : dcmp o) sv : let n := length (dc_in o d) in
  well_formed n (mexp (dc_mid o d)) (mexp (dc_out o d)) -> deps_ok n (dc_mid o d) ->
  Forall (fun i => i < n + length (dc_mid o d)) sv ->
  exists d' sv', taylor_cse o neq feq d sv = Some (d', sv') /\
    dc_in o d' = dc_in o d /\ length (dc_mid o d') <= length (dc_mid o d) /\
    well_formed n (mexp (dc_mid o d')) (mexp (dc_out o d')) /\ deps_ok n (dc_mid o d') /\ no_duplicates (mexp (dc_mid o d')) /\
    forall V (A : alg (num o) V) dflt ins, respects A neq feq -> length ins = n ->
      let vals := run_mid A dflt ins (mexp (dc_mid o d)) in let vals' := run_mid A dflt ins (mexp (dc_mid o d')) in
      map (elt_val A dflt vals') (mexp (dc_out o d')) = map (elt_val A dflt vals) (mexp (dc_out o d)) /\
      map (fun i => nth i vals' dflt) sv' = map (fun i => nth i vals dflt) sv /\
      (hidden_values o A dflt ins (dc_mid o d) -> hidden_values o A dflt ins (dc_mid o d')).
Proof.
  intros n HW Hd Hsv. destruct (taylor_cse_spec o neq feq n d sv eq_refl HW Hd Hsv) as (rho & mid' & E & HM & HB & HD).
  eexists. eexists. split; [exact E|]. cbn [dc_in dc_mid dc_out]. rewrite map_renumber_fst. split; [reflexivity|].
  split; [now apply (moved_shorter o n (same o neq feq) (dc_mid o d) mid' rho)|].
  split; [split; [exact HB|]|split; [|split]].
  - destruct HW as [_ HO]. rewrite map_length in *. now apply (moved_outs o n (same o neq feq) (dc_mid o d)).
  - intros i q j Hq Hj. destruct (mv_new _ _ _ _ _ _ HM i q Hq) as (k0 & p & Hp & _ & _ & Es).
    rewrite Es in Hj. apply in_map_iff in Hj. destruct Hj as (x & <- & Hin). apply (mv_rng _ _ _ _ _ _ HM). eapply Hd; eauto.
  - now apply distinct_nodup.
  - intros V A dflt ins HR Hl. cbv zeta.
    assert (Hsame : forall a b vals, same o neq feq a b -> elt_val A dflt vals a = elt_val A dflt vals b) by (intros a b v; now apply same_val).
    split; [|split].
    + apply (moved_run o A dflt ins (same o neq feq) (dc_mid o d) mid' rho); rewrite ?Hl; auto.
    + rewrite map_map. apply map_ext_in. intros i Hi. rewrite Forall_forall in Hsv. specialize (Hsv i Hi).
      apply (carries_values A dflt ins (mexp (dc_mid o d)) (mexp mid') rho); rewrite ?Hl; auto; [apply HW | |now rewrite map_length].
      now apply (moved_carries o n A dflt (same o neq feq)).
    + apply (hid_moved o A dflt ins (same o neq feq) (dc_mid o d) mid' rho); rewrite ?Hl; auto. apply HW.
Qed.
End Cse.

(* Numbers which compare equal but which a function distinguishes (the two zeros,
   for atan2()) are merged: the values change. *)
Theorem cse_signed_zero_refuted (o : nops) neq feq V (A : alg (num o) V) dflt (pz mz : num o) (y : V) :
  neq mz pz = true -> feq Fatan2 Fatan2 = true ->
  a_fun A Fatan2 [y; a_num A pz] <> a_fun A Fatan2 [y; a_num A mz] ->
  exists d : dcmp o, well_formed 1 (map fst (dc_mid o d)) (map fst (dc_out o d)) /\
    run_dc A dflt [y] (map fst (dc_mid o (function_cse o neq feq d))) (map fst (dc_out o (function_cse o neq feq d))) <>
    run_dc A dflt [y] (map fst (dc_mid o d)) (map fst (dc_out o d)).
Proof.
  intros Hz Hf Hne. set (u := fun i => EVar (uname i) : expr (num o)).
  exists (mkDC o [(EVar "x"%string, [])] [(EFun Fatan2 [u 0; ENum pz], []); (EFun Fatan2 [u 0; ENum mz], [])] [(u 1, []); (u 2, [])]).
  cbn [dc_in dc_mid dc_out map fst]. split.
  - split.
    + intros [|[|[|i]]] e; cbn; intros H; try discriminate; injection H as <-; repeat constructor; exists 0; split; auto; lia.
    + repeat constructor; [exists 1 | exists 2]; cbn; split; auto.
  - unfold function_cse. cbn [dc_in dc_mid dc_out]. cbn. rewrite Hf, Hz. cbn. unfold run_dc, run_mid. cbn.
    intros H. injection H as H. apply Hne. exact H.
Qed.

(* --- C11: sorting ------------------------------------------------------------------------------- *)
Section Sorting.
Context (o : nops).
Local Notation mexp l := (map (@fst (expr (num o)) (list nat)) l).
(* mid' has the elements of mid in another order, renumbered accordingly. *)
Definition reordered (n : nat) (mid mid' : list (expr (num o) * list nat)) (rho : nat -> nat) : Prop :=
  exists order, Permutation order (seq 0 (length mid)) /\ (forall j, j < n -> rho j = j) /\
    (forall k i, nth_error order k = Some i -> rho (n + i) = n + k) /\
    length mid' = length mid /\
    forall k i p, nth_error order k = Some i -> nth_error mid i = Some p ->
      nth_error mid' k = Some (renumber rho (fst p), map rho (snd p)).
Lemma put_reordered n mid mid' idxs : Permutation idxs (seq n (length mid)) ->
  mid' = map (fun i => put o n idxs (at_ o n mid i)) idxs -> reordered n mid mid' (srho n idxs).
Proof.
  intros HP ->. exists (map (fun i => i - n) idxs).
  assert (Hin : forall k i, nth_error idxs k = Some i -> n <= i < n + length mid).
  { intros k i Hk. apply (idxs_in o n mid idxs HP). eapply nth_error_In; eauto. }
  split; [|split; [|split; [|split]]].
  - apply (Permutation_map (fun i => i - n)) in HP. etransitivity; [exact HP|].
    clear. generalize (length mid) as m. intros m. replace (map (fun i => i - n) (seq n m)) with (seq 0 m); [reflexivity|].
    rewrite <- (Nat.add_0_r n) at 1. rewrite <- (map_id (seq 0 m)) at 1.
    generalize 0 at 1 2 as k. induction m as [|m IH]; intros k; [reflexivity|]. cbn. f_equal; [lia|].
    rewrite IH. now rewrite Nat.add_succ_r.
  - intros j Hj. unfold srho. destruct (Nat.ltb_spec j n); [reflexivity | lia].
  - intros k i Hk. rewrite nth_error_map in Hk. destruct (nth_error idxs k) as [x|] eqn:E; [|discriminate]. injection Hk as <-.
    pose proof (Hin _ _ E). replace (n + (x - n)) with x by lia. now apply (srho_inv o n mid).
  - rewrite map_length. now rewrite (idxs_len o n mid idxs HP).
  - intros k i p Hk Hp. rewrite nth_error_map in Hk |- *. destruct (nth_error idxs k) as [x|] eqn:E; [|discriminate]. injection Hk as <-.
    pose proof (at_nth o n mid x (Hin _ _ E)) as Ha. rewrite Ha in Hp. injection Hp as <-. reflexivity.
Qed.

Theorem function_sort_correct (d : dcmp o) : let n := length (dc_in o d) in
  well_formed n (mexp (dc_mid o d)) (mexp (dc_out o d)) -> Forall (fun p => snd p = []) (dc_mid o d) ->
  exists d' rho, function_sort o d = Some d' /\ dc_in o d' = dc_in o d /\
    reordered n (dc_mid o d) (dc_mid o d') rho /\ mexp (dc_out o d') = map (renumber rho) (mexp (dc_out o d)) /\
    well_formed n (mexp (dc_mid o d')) (mexp (dc_out o d')) /\
    forall V (A : alg (num o) V) dflt ins, length ins = n ->
      run_dc A dflt ins (mexp (dc_mid o d')) (mexp (dc_out o d')) = run_dc A dflt ins (mexp (dc_mid o d)) (mexp (dc_out o d)).
Proof.
  intros n HW Hd. destruct (function_sort_spec' o n d eq_refl HW Hd) as (idxs & mid' & E & HM & HB & HP & Em).
  eexists. exists (srho n idxs). split; [exact E|]. cbn [dc_in dc_mid dc_out]. rewrite map_renumber_fst. split; [reflexivity|].
  split; [now apply put_reordered|]. split; [reflexivity|]. split; [split; [exact HB|]|].
  - destruct HW as [_ HO]. rewrite map_length in *. now apply (moved_outs o n eq (dc_mid o d)).
  - intros V A dflt ins Hl. apply (moved_run o A dflt ins eq); rewrite ?Hl; auto. intros a b vals Hab. now rewrite Hab.
Qed.
Theorem taylor_sort_correct (d : dcmp o) sv : let n := length (dc_in o d) in
  well_formed n (mexp (dc_mid o d)) (mexp (dc_out o d)) -> deps_ok n (dc_mid o d) ->
  Forall (fun p => snd p = []) (dc_out o d) -> Forall (fun i => i < n + length (dc_mid o d)) sv ->
  exists d' rho, taylor_sort o d sv = Some (d', map rho sv) /\ dc_in o d' = dc_in o d /\
    reordered n (dc_mid o d) (dc_mid o d') rho /\ mexp (dc_out o d') = map (renumber rho) (mexp (dc_out o d)) /\
    well_formed n (mexp (dc_mid o d')) (mexp (dc_out o d')) /\ deps_ok n (dc_mid o d') /\
    forall V (A : alg (num o) V) dflt ins, length ins = n ->
      let vals := run_mid A dflt ins (mexp (dc_mid o d)) in let vals' := run_mid A dflt ins (mexp (dc_mid o d')) in
      map (elt_val A dflt vals') (mexp (dc_out o d')) = map (elt_val A dflt vals) (mexp (dc_out o d)) /\
      map (fun i => nth i vals' dflt) (map rho sv) = map (fun i => nth i vals dflt) sv /\
      (hidden_values o A dflt ins (dc_mid o d) -> hidden_values o A dflt ins (dc_mid o d')).
Proof.
  intros n HW Hd Hdo Hsv. destruct (taylor_sort_spec' o n d sv eq_refl HW Hd Hdo Hsv) as (idxs & mid' & E & HM & HB & HP & Em).
  eexists. exists (srho n idxs). split; [exact E|]. cbn [dc_in dc_mid dc_out]. rewrite map_renumber_fst. split; [reflexivity|].
  split; [now apply put_reordered|]. split; [reflexivity|]. split; [split; [exact HB|]|split].
  - destruct HW as [_ HO]. rewrite map_length in *. now apply (moved_outs o n eq (dc_mid o d)).
  - intros i q j Hq Hj. destruct (mv_new _ _ _ _ _ _ HM i q Hq) as (k0 & p & Hp & _ & _ & Es).
    rewrite Es in Hj. apply in_map_iff in Hj. destruct Hj as (x & <- & Hin). apply (mv_rng _ _ _ _ _ _ HM). eapply Hd; eauto.
  - intros V A dflt ins Hl. cbv zeta.
    assert (Hsame : forall a b vals, a = b -> elt_val A dflt vals a = elt_val A dflt vals b) by (intros a b v Hab; now rewrite Hab).
    split; [|split].
    + apply (moved_run o A dflt ins eq (dc_mid o d) mid' (srho n idxs)); rewrite ?Hl; auto.
    + rewrite map_map. apply map_ext_in. intros i Hi. rewrite Forall_forall in Hsv. specialize (Hsv i Hi).
      apply (carries_values A dflt ins (mexp (dc_mid o d)) (mexp mid') (srho n idxs)); rewrite ?Hl; auto; [apply HW | |now rewrite map_length].
      now apply (moved_carries o n A dflt eq).
    + apply (hid_moved o A dflt ins eq (dc_mid o d) mid' (srho n idxs)); rewrite ?Hl; auto. apply HW.
Qed.
End Sorting.

(* --- C12: segments --------------------------------------------------------------------------------- *)
Section Segments.
Context (o : nops).
Local Notation mexp l := (map (@fst (expr (num o)) (list nat)) l).
Theorem segments_correct (d : dcmp o) : let n := length (dc_in o d) in
  backward n (mexp (dc_mid o d)) -> Forall is_function (mexp (dc_mid o d)) ->
  exists segs, segment_dc o d = Some segs /\ concat segs = dc_mid o d /\ Forall (fun s => s <> []) segs /\ independent n segs.
Proof.
  intros n HB HF. apply segment_dc_ok; [exact HB|]. eapply Forall_impl; [|exact HF]. intros [x|s|i|f a]; auto.
Qed.
(* Whatever the order in which the workers of each segment load arguments and
   store results, the values in memory at the end are those of the sequential
   evaluation. *)
Theorem segments_any_order (d : dcmp o) segs trs V (A : alg (num o) V) dflt ins m :
  let n := length (dc_in o d) in let mid := mexp (dc_mid o d) in
  backward n mid -> Forall is_function mid -> segment_dc o d = Some segs -> schedules mid 0 segs trs ->
  length ins = n -> (forall j, j < n -> m_arr m j = nth j ins dflt) ->
  let m' := fold_left (exec A dflt n mid) (concat trs) m in
  forall j, j < n + length mid -> m_arr m' j = nth j (run_mid A dflt ins mid) dflt.
Proof.
  intros n mid HB HF Es Hsch Hl Hm m' j Hj.
  destruct (segments_correct d HB HF) as (segs' & E & Ec & _ & Hind). fold n in E. assert (segs' = segs) as -> by congruence.
  apply (run_schedules A dflt n mid ins Hl HB) with (segs := segs) (trs := trs) (b := 0); auto.
  - rewrite Ec. unfold mid. now rewrite map_length.
  - intros i p Hp. rewrite Ec in Hp. cbn. unfold mid. now apply map_nth_error.
  - now rewrite Nat.add_0_r.
  - intros k Hk. rewrite Nat.add_0_r in Hk. rewrite Hm by exact Hk. symmetry. apply run_prefix. now rewrite Hl.
Qed.
End Segments.

(* --- Examples --------------------------------------------------------------------------------------- *)
Definition q_dec (a b : Q) : {a = b} + {a <> b}.
Proof. decide equality; [apply Pos.eq_dec | apply Z.eq_dec]. Defined.
Definition xq : expr Q := EVar "x". Definition yq : expr Q := EVar "y".
Definition demo_fun : list (expr Q) :=
  [mk_sum qnum [mk_mul qnum xq yq; mk_fun qnum Usin xq]; mk_sub qnum (mk_fun qnum Ucos xq) (mk_mul qnum xq yq); ENum 3%Q].
Local Notation qdec fuel es vars := (function_decompose qnum (num_eqb q_dec) (fid_eqb q_dec) unshared fuel es vars).
Lemma exact_respects o nval rho (deq : forall a b : num o, {a = b} + {a <> b}) :
  respects (real_alg o nval rho) (num_eqb deq) (fid_eqb deq).
Proof.
  split.
  - intros x y. unfold num_eqb. destruct (deq x y) as [->|]; [reflexivity | discriminate].
  - intros f g l. unfold fid_eqb. destruct (fid_dec deq f g) as [->|]; [reflexivity | discriminate].
Qed.

(* The hypotheses of the theorems on functions are met, and the decomposition
   shares x * y and combines the sine and the cosine. *)
Example function_decomposition_demo :
  valid_input qnum demo_fun [yq; xq] ["y"; "x"]%string /\ (forall l : list (expr Q), map erase (unshared l) = l /\ consistent (unshared l)) /\
  (forall rho, respects (real_alg qnum Q2R rho) (num_eqb q_dec) (fid_eqb q_dec)) /\
  exists d, qdec 100 demo_fun [yq; xq] = MDone d /\
    map fst (dc_in qnum d) = [yq; xq] /\
    map fst (dc_mid qnum d) = [EFun (Fu Ucsin) [EVar "u_1"]; EFun Fprod [EVar "u_1"; EVar "u_0"]; EFun (Fu Uccos) [EVar "u_1"];
                               EFun Fsum [EVar "u_3"; EVar "u_2"]; EFun Fsub [EVar "u_4"; EVar "u_3"]]%string /\
    map fst (dc_out qnum d) = [EVar "u_5"; EVar "u_6"; ENum 3%Q]%string.
Proof.
  split; [|split; [apply unshared_ok | split; [intros; apply exact_respects|]]].
  - apply check_vars_ok. vm_compute. reflexivity.
  - eexists. split; [vm_compute; reflexivity|]. cbn. auto.
Qed.
Example function_decomposition_reject_demo : qdec 100 demo_fun [xq] = MThrow /\ (forall vs, ~ valid_input qnum demo_fun [xq] vs) /\
  qdec 100 demo_fun [xq; yq; xq] = MThrow /\ qdec 100 [] [xq] = MThrow /\ qdec 100 demo_fun [xq; EPar 0; yq] = MThrow.
Proof.
  split; [vm_compute; reflexivity|]. split; [|vm_compute; auto]. intros vs H. apply check_vars_ok in H. vm_compute in H. discriminate.
Qed.
(* Real numbers: the laws, the equalities and an environment with a value. *)
Example function_decomposition_reals_demo :
  let es := [EFun Fsum [EVar "x"; EVar "y"]; EFun (Fu Usin) [EVar "x"]]%string in
  nlaws rnum (fun x => x) /\ valid_input rnum es [EVar "x"; EVar "y"]%string ["x"; "y"]%string /\
  (forall rho, respects (real_alg rnum (fun x => x) rho) (num_eqb Req_EM_T) (fid_eqb Req_EM_T)) /\
  Forall (fun e => exists w, eval rnum (fun x => x) xenv e = Some w) es.
Proof.
  split; [apply rnum_laws|]. split.
  - split; [discriminate|]. split; [reflexivity|]. split; [repeat constructor; cbn; intuition discriminate|].
    intros e s [<-|[<-|[]]] H; inversion H as [|? ? a Ha Ho]; subst; cbn in Ha; intuition subst; inversion Ho; cbn; auto.
  - split; [intros; apply exact_respects|]. repeat constructor; eexists; reflexivity.
Qed.

Definition demo_sys : list (string * expr Q) := [("x", yq); ("y", mk_neg qnum (mk_fun qnum Usin xq))]%string.
Definition demo_sv : list (expr Q) := [mk_mul qnum xq yq].
Definition no_user (s : string) (args : list (expr Q)) (dc : list (expr Q * list nat)) : option (nat * list (expr Q * list nat)) := None.
Local Notation tdec fuel sys svf := (taylor_decompose_sys qnum (num_eqb q_dec) (fid_eqb q_dec) no_user unshared fuel sys svf).
Lemma qnum_lits : lits qnum. Proof. repeat split. Qed.
Lemma qnum_tlaws nval rho : tlaws qnum (real_alg qnum nval rho).
Proof. split; try reflexivity. now intros [v|]. Qed.
(* The pendulum, with an event: sin(x) depends on the hidden cos(x). *)
Example taylor_decomposition_demo :
  lits qnum /\ user_ok qnum 2 no_user /\ valid_system qnum demo_sys demo_sv /\
  (forall e, In e demo_sv -> ~ constant (taylor_passes qnum e)) /\
  (forall rho, respects (real_alg qnum Q2R rho) (num_eqb q_dec) (fid_eqb q_dec) /\ tlaws qnum (real_alg qnum Q2R rho)) /\
  exists d, tdec 100 demo_sys demo_sv = MDone (d, [4]) /\
    dc_mid qnum d = [(EFun (Fu Uccos) [EVar "u_0"], [3]); (EFun (Fu Ucsin) [EVar "u_0"], [2]);
                     (EFun Fprod [EVar "u_0"; EVar "u_1"], []); (EFun Fprod [ENum (-1)%Q; EVar "u_3"], [])]%string /\
    map fst (dc_out qnum d) = [EVar "u_1"; EVar "u_5"]%string.
Proof.
  split; [apply qnum_lits|]. split; [intros s args dc _ _; exact I|]. split; [|split; [|split]].
  - split; [discriminate|]. split.
    + assert (H : check_vars qnum (map snd demo_sys ++ demo_sv) [xq; yq] = Some (map fst demo_sys)) by (vm_compute; reflexivity).
      apply check_vars_ok in H. apply H.
    + vm_compute. repeat constructor.
  - intros e [<-|[]]. vm_compute. auto.
  - intros rho. split; [apply exact_respects | apply qnum_tlaws].
  - eexists. split; [vm_compute; reflexivity|]. vm_compute. auto.
Qed.
Example taylor_decomposition_reject_demo : tdec 100 demo_sys [ENum 1%Q] = MThrow /\ tdec 100 demo_sys [EPar 0] = MThrow.
Proof. vm_compute. auto. Qed.

(* kepE(1, x): one of the added elements is a variable instead of a function, and
   the decomposition is malformed (add_cfunc: bad_variant_access in default mode;
   compact mode refuses it: taylor_02.cpp:126-133). *)
Theorem taylor_decomposition_kepler_refuted :
  exists d, tdec 100 [("x"%string, EFun FkepE [ENum 1%Q; xq])] [] = MDone (d, []) /\
    ~ well_formed 1 (map fst (dc_mid qnum d)) (map fst (dc_out qnum d)) /\ segment_dc qnum d = None.
Proof.
  eexists. split; [vm_compute; reflexivity|]. split; [|vm_compute; reflexivity].
  intros [HB _]. cbn [dc_mid map fst] in HB. specialize (HB 3 _ eq_refl). exact HB.
Qed.

(* A decomposition with duplicates, to sort and to segment. *)
Definition demo_dc : dcmp qnum :=
  mkDC qnum [(xq, []); (yq, [])]
    [(EFun Fprod [EVar "u_0"; EVar "u_1"], []); (EFun (Fu Usin) [EVar "u_2"], []); (EFun Fprod [EVar "u_0"; EVar "u_1"], []);
     (EFun Fsum [EVar "u_3"; EVar "u_4"], []); (EFun (Fu Ucos) [EVar "u_1"], [])]%string
    [(EVar "u_5", []); (EVar "u_6", []); (EVar "u_0", [])]%string.
Ltac uidx := match goal with
  | |- exists j, j < _ /\ "u_0"%string = _ => exists 0 | |- exists j, j < _ /\ "u_1"%string = _ => exists 1
  | |- exists j, j < _ /\ "u_2"%string = _ => exists 2 | |- exists j, j < _ /\ "u_3"%string = _ => exists 3
  | |- exists j, j < _ /\ "u_4"%string = _ => exists 4 | |- exists j, j < _ /\ "u_5"%string = _ => exists 5
  | |- exists j, j < _ /\ "u_6"%string = _ => exists 6 end; split; [cbn; lia | reflexivity].
Lemma demo_dc_wf : well_formed 2 (map fst (dc_mid qnum demo_dc)) (map fst (dc_out qnum demo_dc)).
Proof.
  split.
  - intros i e. do 5 (destruct i as [|i]; [cbn; intros [= <-]; repeat constructor; cbn [arg_ok]; uidx|]). destruct i; discriminate.
  - cbn. repeat constructor; cbn [arg_ok]; uidx.
Qed.
Example cse_demo : well_formed 2 (map fst (dc_mid qnum demo_dc)) (map fst (dc_out qnum demo_dc)) /\
  Forall (fun p => snd p = []) (dc_mid qnum demo_dc) /\ deps_ok 2 (dc_mid qnum demo_dc) /\
  map fst (dc_mid qnum (function_cse qnum (num_eqb q_dec) (fid_eqb q_dec) demo_dc)) =
    [EFun Fprod [EVar "u_0"; EVar "u_1"]; EFun (Fu Usin) [EVar "u_2"]; EFun Fsum [EVar "u_3"; EVar "u_2"]; EFun (Fu Ucos) [EVar "u_1"]]%string.
Proof.
  split; [apply demo_dc_wf|]. split; [repeat constructor|]. split; [|vm_compute; reflexivity].
  intros i p j Hp Hj. do 5 (destruct i as [|i]; [injection Hp as <-; destruct Hj|]). destruct i; discriminate.
Qed.
Example cse_signed_zero_demo : exists neq (A : alg Z Z), neq (-1)%Z 1%Z = true /\
  a_fun A Fatan2 [0%Z; a_num A 1%Z] <> a_fun A Fatan2 [0%Z; a_num A (-1)%Z].
Proof.
  (* 1 and -1 stand for the two zeros, 0 and 3 for zero and pi *)
  exists (fun a b => Z.eqb (Z.abs a) (Z.abs b)),
         (mkAlg (fun z => z) (fun _ => 0%Z) (fun _ l => match l with [_; x] => if (x <? 0)%Z then 3%Z else 0%Z | _ => 0%Z end)).
  split; [reflexivity | discriminate].
Qed.
Example sort_demo : exists d, function_sort qnum demo_dc = Some d /\
  map fst (dc_mid qnum d) =
    [EFun Fprod [EVar "u_0"; EVar "u_1"]; EFun Fprod [EVar "u_0"; EVar "u_1"]; EFun (Fu Ucos) [EVar "u_1"];
     EFun (Fu Usin) [EVar "u_2"]; EFun Fsum [EVar "u_5"; EVar "u_3"]]%string.
Proof. eexists. split; [vm_compute; reflexivity|]. vm_compute. reflexivity. Qed.
Example segments_demo : Forall is_function (map fst (dc_mid qnum demo_dc)) /\
  exists segs, segment_dc qnum demo_dc = Some segs /\ map (@length _) segs = [1; 2; 2] /\
    schedules (map fst (dc_mid qnum demo_dc)) 0 segs
      [[Load 0 1; Load 0 0; Store 0];
       [Load 2 0; Load 1 0; Load 2 1; Store 2; Store 1];
       [Load 4 0; Store 4; Load 3 1; Load 3 0; Store 3]].
Proof.
  split; [repeat constructor|]. eexists. split; [vm_compute; reflexivity|]. split; [reflexivity|].
  assert (HS : forall mid b len (tr : list event),
    (forallb (fun e => Nat.leb b (subject e) && Nat.ltb (subject e) (b + len)) tr = true) ->
    (forallb (fun i => existsb (fun e => match e with Store j => Nat.eqb i j | _ => false end) tr) (seq b len) = true) ->
    (forallb (fun k => match nth_error tr k with
                       | Some (Store i) => match nth_error mid i with
                                           | Some (EFun f args) => forallb (fun a => existsb (fun e => match e with Load i' a' => Nat.eqb i i' && Nat.eqb a a' | _ => false end) (firstn k tr)) (seq 0 (length args))
                                           | _ => true
                                           end
                       | _ => true
                       end) (seq 0 (length tr)) = true) -> @schedule Q mid b len tr).
  { intros mid b len tr H1 H2 H3. rewrite forallb_forall in H1, H2, H3. split; [|split].
    - intros e He. specialize (H1 e He). apply andb_prop in H1. destruct H1 as [Ha Hb]. apply Nat.leb_le in Ha. apply Nat.ltb_lt in Hb. lia.
    - intros i Hi. specialize (H2 i). rewrite in_seq in H2. specialize (H2 Hi). apply existsb_exists in H2.
      destruct H2 as ([i' k|j] & Hin & He); [discriminate|]. apply Nat.eqb_eq in He. now subst.
    - intros i l1 l2 E f args k Hi Hk. specialize (H3 (length l1)). rewrite in_seq in H3.
      assert (Hl : 0 <= length l1 < 0 + length tr) by (subst tr; rewrite app_length; cbn; lia). specialize (H3 Hl).
      subst tr. rewrite nth_error_app2, Nat.sub_diag in H3 by lia. cbn [nth_error] in H3. rewrite Hi in H3.
      rewrite firstn_app, Nat.sub_diag, firstn_O, app_nil_r, firstn_all in H3. rewrite forallb_forall in H3.
      specialize (H3 k). rewrite in_seq in H3. specialize (H3 ltac:(lia)). apply existsb_exists in H3.
      destruct H3 as ([i' k'|j] & Hin & He); [|discriminate]. apply andb_prop in He. destruct He as [Ea Eb].
      apply Nat.eqb_eq in Ea, Eb. now subst. }
  cbn [schedules]. refine (conj _ (conj _ (conj _ I))); apply HS; vm_compute; reflexivity.
Qed.

Print Assumptions function_decomposition_correct.
Print Assumptions function_decomposition_rejects.
Print Assumptions function_decomposition_reals.
Print Assumptions taylor_decomposition_correct.
Print Assumptions taylor_decomposition_rejects.
Print Assumptions taylor_decomposition_reals.
Print Assumptions taylor_decomposition_kepler_refuted.
Print Assumptions function_cse_transparent.
Print Assumptions taylor_cse_transparent.
Print Assumptions cse_signed_zero_refuted.
Print Assumptions function_sort_correct.
Print Assumptions taylor_sort_correct.
Print Assumptions segments_correct.
Print Assumptions segments_any_order.
