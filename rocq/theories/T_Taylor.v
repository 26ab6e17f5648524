(* C14, C15: the recurrences of the elementary functions compute normalised
   derivatives, and the jet of a system of differential equations consists of the
   Taylor coefficients of its solutions. *)
From Coq Require Import Reals Qreals.
From Coquelicot Require Import Coquelicot.
From Coq Require Import String Bool ZArith QArith Arith List Lia Lra.
From Verif Require Import M_Expr M_Dag M_Dec S_Expr S_Dag S_Dec P_ExprSem P_Subs P_Dag P_Dec P_Vars P_DecP S_Diff M_Taylor S_Taylor P_Tay1 P_Tay3 P_Tay4 P_Tay5 P_Tay6 P_Tay10 P_Tay11.
From Verif Require Import X_Expr X_Dec T_Expr T_Dec T_Jets.
Import ListNotations.
Local Open Scope R_scope.
Set Bullet Behavior "Strict Subproofs".

Lemma u_vars_uval nu u t s : u_vars nu u t s = uval None (map (fun j => Some (u j t)) (seq 0 nu)) s.
Proof.
  unfold u_vars, uval. destruct (uname_to_index s) as [j|]; [|reflexivity]. destruct (Nat.ltb_spec j nu) as [H|H].
  - rewrite (nth_indep _ None (Some (u 0%nat t))) by (now rewrite map_length, seq_length).
    rewrite (map_nth (fun j => Some (u j t)) (seq 0 nu) 0%nat). now rewrite seq_nth.
  - rewrite nth_overflow; [reflexivity|]. now rewrite map_length, seq_length.
Qed.

Lemma elt_at {o} (d : dcmp o) sv : jet_ready d sv -> forall j, (length (dc_in o d) <= j < length (dc_in o d) + length (dc_mid o d))%nat ->
  exists k f args deps, j = (length (dc_in o d) + k)%nat /\ nth_error (dc_mid o d) k = Some (EFun f args, deps).
Proof.
  intros HR j Hj. destruct (nth_error (dc_mid o d) (j - length (dc_in o d))) as [p|] eqn:Hp; [|apply nth_error_None in Hp; lia].
  destruct (mid_elt d sv HR _ p Hp) as ((f & args & hs & E & _) & _). destruct p as [e deps]. cbn in E. subst e.
  exists (j - length (dc_in o d))%nat, f, args, deps. split; [lia | exact Hp].
Qed.

(* --- C14 ---------------------------------------------------------------------------------- *)
(* u_i = f(args) in the open set O, where the arguments and the hidden dependencies
   deps are functions of time with derivatives up to the order N. Then u_i has
   derivatives up to the order N, and the code generated for every order n <= N, in
   default and in compact mode, computes the Taylor coefficient of order n of u_i
   from the coefficients of lower order and from those of order n of the previous
   elements. *)
Theorem taylor_recurrence (o : nops) (nval : num o -> R) (L : nlaws o nval) (pars : nat -> R) (O : R -> Prop) (u : nat -> R -> R)
    (nu i N : nat) (f : fid (num o)) (args : list (expr (num o))) (deps : list nat) (hs : list (expr (num o))) :
  let env t := env_at (u_vars nu u t) pars t in
  open O -> (i < nu)%nat -> supported f args -> Forall (arg_ok i) args -> Forall (fun d => (d < nu)%nat) deps ->
  hidden o f args (EVar (uname i)) = Some hs -> length deps = length hs ->
  (forall t, O t -> eval o nval (env t) (EFun f args) = Some (u i t)) ->
  (forall t, O t -> map (fun d => Some (u d t)) deps = map (eval o nval (env t)) hs) ->
  (forall t, O t -> regular nval pars u i f args t) ->
  (forall j, In (EVar (uname j)) args \/ In j deps -> forall m t, (m <= N)%nat -> O t -> ex_derive_n (u j) m t) ->
  forall n t, (n <= N)%nat -> O t ->
    ex_derive_n (u i) n t /\
    exists c1 c2, tdiff o f args deps n i = Some c1 /\ cdiff o f args deps n i = Some c2 /\
    forall rd, (forall p j, (j < nu)%nat -> (p < n)%nat \/ (p = n /\ (j < i)%nat) -> rd p j = MDone (Some (coeff (u j) p t))) ->
      trun (real_alg o nval (env t)) real_tops rd c1 = MDone (Some (coeff (u i) n t)) /\
      trun (real_alg o nval (env t)) real_tops rd c2 = MDone (Some (coeff (u i) n t)).
Proof.
  intros env HO Hi HS Ha Hd Hh Hl HV HH HR HN n t Hn Ht.
  exact (recurrence_one nval L pars env (fun _ _ => eq_refl) (fun _ => eq_refl) O HO u nu i f args deps hs
           (fun t s => u_vars_uval nu u t s) Hi HS Ha Hd Hh HV HH HR N HN Hl n t Hn Ht).
Qed.

(* --- C15 ---------------------------------------------------------------------------------- *)
Section Jets.
Context (o : nops) (neq : num o -> num o -> bool) (feq : fid (num o) -> fid (num o) -> bool).
Context (share : list (expr (num o)) -> list (dag (num o))).
Context (ug : string -> list (expr (num o)) -> list (expr (num o) * list nat) -> option (nat * list (expr (num o) * list nat))).
Context (nval : num o -> R) (L : nlaws o nval).

Theorem jet_is_taylor_expansion sys svf : lits o -> user_ok o (length sys) ug ->
  (forall l, map erase (share l) = l /\ consistent (share l)) ->
  valid_system o sys svf -> taylor_system o sys svf -> (forall e, In e svf -> ~ constant (taylor_passes o e)) ->
  exists fuel0 d sv, (forall fuel, (fuel0 <= fuel)%nat -> taylor_decompose_sys o neq feq ug share fuel sys svf = MDone (d, sv)) /\
    forall pars (x : string -> R -> R) (O : R -> Prop), open O ->
      solves nval pars sys x O ->
      (forall t e, O t -> In e svf -> exists w, value_at nval pars x e t = Some w) ->
      regular_along nval pars d (map fst sys) x O ->
      (forall t, O t -> respects (real_alg o nval (env_at (fun s => Some (x s t)) pars t)) neq feq) ->
      (forall t, O t -> tlaws o (real_alg o nval (env_at (fun s => Some (x s t)) pars t))) ->
      (forall t e b y w, O t -> In e (map snd sys ++ svf) -> occurs (EFun Fpow [b; y]) e -> (forall n, y <> ENum n) ->
         value_at nval pars x b t = Some w -> 0 < w) ->
      (forall t s m, O t -> In s (map fst sys) -> ex_derive_n (x s) m t) /\
      forall t order, O t -> (1 <= order)%nat ->
        let A := real_alg o nval (env_at (fun s => Some (x s t)) pars t) in
        let st := map (fun s => Some (x s t)) (map fst sys) in
        taylor_jet o A real_tops d sv order st = MDone (expansion nval pars sys svf x order t) /\
        (exists tp, compact_jet o A real_tops d sv order st (fun _ => None) tp) /\
        forall tp0 tp, compact_jet o A real_tops d sv order st tp0 tp ->
          tape_jet o d sv order tp = MDone (expansion nval pars sys svf x order t).
Proof.
  intros LI HU Hsh Hv Ht Hc.
  destruct (decompositions_are_ready o neq feq share ug sys svf LI HU Hsh Hv Ht Hc) as (f0 & d & sv & Hd & Hin & Hsv & HR).
  destruct (taylor_decomposition_correct o neq feq share ug sys svf LI HU Hsh Hv Hc) as (f1 & d1 & sv1 & Hd1 & _ & Lo & _ & HW & _ & _ & HSv & HV).
  assert (E : (d, sv) = (d1, sv1)).
  { pose proof (Hd (Nat.max f0 f1) (Nat.le_max_l _ _)) as E1. rewrite (Hd1 _ (Nat.le_max_r _ _)) in E1. congruence. }
  injection E as <- <-. clear Hd1.
  exists f0, d, sv. split; [exact Hd|]. intros pars x O HO HX Hsval Hreg Hres Htl Hpow.
  set (rho := fun t => env_at (fun s => Some (x s t)) pars t).
  set (vs := map fst sys) in *. set (u := element_at nval pars d vs x).
  set (ne := length sys) in *. set (nu := (ne + length (dc_mid o d))%nat).
  assert (Lvs : length vs = ne) by (unfold vs, ne; now rewrite map_length).
  assert (Hne : length (dc_in o d) = ne) by exact Hin.
  assert (Lrun : forall t, length (elements_at nval pars d vs x t) = nu).
  { intros t. unfold elements_at. rewrite run_length, !map_length. unfold nu. now rewrite Lvs. }
  assert (Hins : forall t j s, nth_error vs j = Some s -> nth j (elements_at nval pars d vs x t) None = Some (x s t)).
  { intros t j s Hj. unfold elements_at. assert (Hlt : (j < ne)%nat) by (rewrite <- Lvs; apply nth_error_Some; congruence).
    rewrite run_prefix by (now rewrite map_length, Lvs). apply nth_error_nth. rewrite nth_error_map, Hj. reflexivity. }
  assert (HV0 : forall t, O t -> elements_at nval pars d vs x t = map (fun j => Some (u j t)) (seq 0 nu)).
  { intros t HOt. apply nth_ext with (d := None) (d' := None); [now rewrite Lrun, map_length, seq_length|].
    intros j Hj. rewrite Lrun in Hj.
    rewrite (nth_indep (map _ _) None (Some (u 0%nat t))) by (now rewrite map_length, seq_length).
    rewrite (map_nth (fun j => Some (u j t)) (seq 0 nu) 0%nat), seq_nth by exact Hj. cbn [Nat.add]. unfold u, element_at.
    destruct (Nat.lt_ge_cases j ne) as [Hl|Hl].
    - destruct (nth_error vs j) as [s|] eqn:Es; [|apply nth_error_None in Es; lia]. now rewrite (Hins t j s Es).
    - destruct (elt_at d sv HR j) as (k & f & args & deps & -> & Hk); [rewrite Hne; unfold nu in Hj; lia|].
      rewrite Hne. destruct (Hreg t k f args deps HOt Hk) as [(v & Hv') _]. rewrite Lvs in Hv'. now rewrite Hv'. }
  assert (Hux : forall t j s, nth_error vs j = Some s -> u j t = x s t).
  { intros t j s Hj. unfold u, element_at. now rewrite (Hins t j s Hj). }
  assert (Eins : forall t, map (fun j => Some (u j t)) (seq 0 ne) = map (fun s => Some (x s t)) vs).
  { intros t. apply nth_ext with (d := None) (d' := None); [now rewrite !map_length, seq_length|].
    intros j Hj. rewrite map_length, seq_length in Hj.
    destruct (nth_error vs j) as [s|] eqn:Es; [|apply nth_error_None in Es; lia].
    rewrite (nth_indep (map _ (seq 0 ne)) None (Some (u 0%nat t))) by (now rewrite map_length, seq_length).
    rewrite (map_nth (fun j => Some (u j t)) (seq 0 ne) 0%nat), seq_nth by exact Hj. cbn [Nat.add]. rewrite (Hux t j s Es).
    symmetry. apply nth_error_nth. now rewrite nth_error_map, Es. }
  (* the values of the expressions *)
  assert (HE : forall t e w, O t -> In e (map snd sys ++ svf) -> value_at nval pars x e t = Some w ->
            gval (real_alg o nval (rho t)) (bind None vs (map (fun s => Some (x s t)) vs)) (taylor_passes o e) = Some w).
  { intros t e w HOt He Hw. rewrite (gval_ext _ _ (v_var (rho t))).
    - rewrite gval_real. apply (taylor_passes_preserve_values o nval L (rho t) e w); [|exact Hw].
      intros b y v Ho. now apply (Hpow t e).
    - intros s Hs'. rewrite (bind_vars None (fun s => Some (x s t))); [reflexivity|]. destruct Hv as (_ & Hvv & _). apply (Hvv e s He).
      now apply (passes_occurs o (taylor_passes o) (lin_taylor_passes o)). }
  assert (HVt : forall t, O t ->
    run_dc (real_alg o nval (rho t)) None (map (fun s => Some (x s t)) vs) (map fst (dc_mid o d)) (map fst (dc_out o d)) =
      map (gval (real_alg o nval (rho t)) (bind None vs (map (fun s => Some (x s t)) vs))) (map (taylor_passes o) (map snd sys)) /\
    map (fun i => nth i (elements_at nval pars d vs x t) None) sv =
      map (gval (real_alg o nval (rho t)) (bind None vs (map (fun s => Some (x s t)) vs))) (map (taylor_passes o) svf) /\
    hidden_values o (real_alg o nval (rho t)) None (map (fun s => Some (x s t)) vs) (dc_mid o d)).
  { intros t HOt. apply (HV _ (real_alg o nval (rho t)) None (map (fun s => Some (x s t)) vs)); [now apply Hres | apply real_sincos | now apply Htl | now rewrite map_length]. }
  assert (Hrun : forall t, O t -> run_mid (ralg o nval (rho t)) None (map (fun j => Some (u j t)) (seq 0 (length (dc_in o d)))) (map fst (dc_mid o d)) =
            map (fun j => Some (u j t)) (seq 0 (length (dc_in o d) + length (dc_mid o d)))).
  { intros t HOt. rewrite Hne, Eins. exact (HV0 t HOt). }
  assert (Hode : forall t j p, O t -> nth_error (dc_out o d) j = Some p -> is_derive (u j) t (arg_at nval pars u (fst p) t)).
  { intros t j p HOt Hj.
    assert (Hj' : (j < ne)%nat) by (rewrite <- Lo; apply nth_error_Some; congruence).
    destruct (nth_error sys j) as [[s e]|] eqn:Es; [|apply nth_error_None in Es; unfold ne in Hj'; lia].
    assert (Ev : nth_error vs j = Some s) by (unfold vs; now rewrite nth_error_map, Es).
    destruct (HX t s e HOt (nth_error_In _ _ Es)) as (w & Hw & Hder).
    assert (Ew : arg_at nval pars u (fst p) t = w).
    { destruct (HVt t HOt) as [H1 _]. assert (H2 := f_equal (fun l => nth_error l j) H1). cbn beta in H2.
      unfold run_dc in H2. rewrite !nth_error_map, Hj, Es in H2. cbn [option_map snd] in H2. injection H2 as H2.
      rewrite (HE t e w HOt) in H2; [|apply in_or_app; left; rewrite in_map_iff; exists (s, e); split; [reflexivity | eapply nth_error_In; eauto] | exact Hw].
      assert (Hp : arg_ok nu (fst p)).
      { destruct HW as [_ HW]. rewrite Forall_map, Forall_forall in HW. unfold nu. rewrite <- (map_length fst (dc_mid o d)). apply HW. eapply nth_error_In; eauto. }
      destruct (fst p) as [v|r|k|g l]; cbn in Hp, H2 |- *; [congruence| |congruence|contradiction].
      destruct Hp as (k & Hk & ->). rewrite uname_index. rewrite uval_uname in H2.
      change (nth k (elements_at nval pars d vs x t) None = Some w) in H2. unfold u, element_at. now rewrite H2. }
    rewrite Ew. apply (is_derive_ext (x s)); [intros r; symmetry; now apply Hux | exact Hder]. }
  assert (Hhid : forall t, O t -> hidden_values o (ralg o nval (rho t)) None (map (fun j => Some (u j t)) (seq 0 (length (dc_in o d)))) (dc_mid o d)).
  { intros t HOt. rewrite Hne, Eins. exact (proj2 (proj2 (HVt t HOt))). }
  assert (Hreg' : forall t k f args deps, O t -> nth_error (dc_mid o d) k = Some (EFun f args, deps) ->
            regular nval pars u (length (dc_in o d) + k) f args t).
  { intros t k f args deps HOt Hk. destruct (Hreg t k f args deps HOt Hk) as [_ H]. rewrite Lvs in H. now rewrite Hne. }
  pose proof (table_derivatives nval L pars rho (fun _ _ => eq_refl) (fun _ => eq_refl) d sv HR O HO u Hrun Hode Hhid Hreg') as HT.
  split.
  - intros t s m HOt Hs. apply In_nth_error in Hs. destruct Hs as (j & Hj).
    assert (Hlt : (j < ne)%nat) by (rewrite <- Lvs; apply nth_error_Some; congruence).
    destruct (HT t m j HOt) as [H _]; [rewrite Hne; lia|].
    apply (ex_derive_n_ext (u j)); [intros r; now apply Hux | exact H].
  - intros t order HOt Ho A st.
    set (tab := tab0 (ralg o nval (rho t)) real_tops (length (dc_in o d)) (length (dc_in o d) + length (dc_mid o d))
                  (st0 real_tops (map (fun j => Some (u j t)) (seq 0 (length (dc_in o d))))) (dcode d (celt_code o))) in *.
    assert (Est : map (fun j => Some (u j t)) (seq 0 (length (dc_in o d))) = st) by (rewrite Hne; apply Eins).
    assert (Lst : length st = length (dc_in o d)) by (unfold st; rewrite map_length, Lvs; now symmetry).
    pose proof (tab_ok nval pars rho (fun _ _ => eq_refl) d sv HR O u Hode Hreg' t) as HTab. rewrite Est in HTab.
    assert (EJ : jet_of (length (dc_in o d)) sv order tab = expansion nval pars sys svf x order t).
    { unfold jet_of, expansion. f_equal. apply FunctionalExtensionality.functional_extensionality. intros m.
      rewrite map_app. f_equal.
      - rewrite Hne. fold vs. apply nth_ext with (d := None) (d' := None); [now rewrite !map_length, seq_length|].
        intros j Hj. rewrite map_length, seq_length in Hj.
        destruct (nth_error vs j) as [s|] eqn:Es; [|apply nth_error_None in Es; lia].
        rewrite (nth_indep (map _ (seq 0 ne)) None (tab m 0%nat)) by (now rewrite map_length, seq_length).
        rewrite (map_nth (tab m) (seq 0 ne) 0%nat), seq_nth by exact Hj. cbn [Nat.add].
        rewrite (nth_error_nth (map _ vs) j None (x := Some (coeff (x s) m t))) by (now rewrite nth_error_map, Es).
        destruct (HT t m j HOt) as [_ H]; [rewrite Hne; lia|]. fold tab in H. rewrite H. f_equal. unfold coeff. f_equal.
        apply Derive_n_ext. intros r. now apply Hux.
      - assert (G : forall i e, In (i, e) (combine sv svf) -> tab m i = Some (coeff (fun s => match value_at nval pars x e s with Some w => w | None => 0 end) m t)).
        { intros i e Hie. assert (Hi : (i < nu)%nat) by (rewrite Forall_forall in HSv; apply HSv; eapply in_combine_l; eauto).
          destruct (HT t m i HOt) as [_ H]; [rewrite Hne; exact Hi|]. fold tab in H. rewrite H. f_equal. unfold coeff. f_equal.
          apply Derive_n_ext_loc. generalize (HO t HOt). apply filter_imp. intros r Hr.
          destruct (Hsval r e Hr ltac:(eapply in_combine_r; eauto)) as (w & Hw). rewrite Hw.
          destruct (HVt r Hr) as (_ & H2 & _). rewrite map_map in H2.
          assert (H3 : nth i (elements_at nval pars d vs x r) None = Some w).
          { rewrite <- (HE r e w Hr); [|apply in_or_app; right; eapply in_combine_r; eauto | exact Hw].
            clear - H2 Hie. revert svf H2 Hie. induction sv as [|i' sv' IH]; intros [|e' l] H2 Hie; cbn in *; try contradiction; try discriminate.
            injection H2 as H2 H3. destruct Hie as [[= -> ->]|Hie]; [exact H2 | now apply (IH l)]. }
          unfold u, element_at. now rewrite H3. }
        clear - G Hsv. revert svf G Hsv. induction sv as [|i sv' IH]; intros [|e l] G Hsv; cbn in *; try reflexivity; try discriminate.
        rewrite (G i e) by now left. f_equal. apply IH; [intros; apply G; now right | lia]. }
    assert (J1 : forall tp0 tp, compact_jet o A real_tops d sv order st tp0 tp -> tape_jet o d sv order tp = MDone (expansion nval pars sys svf x order t)).
    { intros tp0 tp H.
      assert (HS : exists segs, segment_dc o d = Some segs) by (destruct H as (segs & _ & _ & _ & _ & E & _); eauto). destruct HS as [segs Hseg].
      rewrite (compact_jet_good A real_tops d sv st HR Lst tab HTab segs Hseg order tp0 tp Ho H). now rewrite EJ. }
    destruct (jet_reads_computed_values A real_tops d sv order st HR Lst Ho) as (_ & JE & _). destruct (JE (fun _ => None)) as [tp Htp].
    split; [|split; [now exists tp | exact J1]].
    rewrite <- (compact_mode_agrees o A d sv order st (fun _ => None) tp HR Lst Ho Htp). exact (J1 _ _ Htp).
Qed.
End Jets.

(* --- Examples ------------------------------------------------------------------------------ *)
(* x' = sin(t), y' = y sin(t): the solution (-cos(t), exp(-cos(t))), and the product x y. *)
Definition r_dec : forall x y : R, {x = y} + {x <> y} := Req_EM_T.
Definition rsys : list (string * expr R) :=
  [("x", EFun (Fu Usin) [EFun Ftime []]); ("y", EFun Fprod [EVar "y"; EFun (Fu Usin) [EFun Ftime []]])]%string.
Definition rsvf : list (expr R) := [EFun Fprod [EVar "x"; EVar "y"]]%string.
Definition rsol (s : string) (t : R) : R := if String.eqb s "x" then - cos t else exp (- cos t).
Definition r_user (s : string) (args : list (expr R)) (dc : list (expr R * list nat)) : option (nat * list (expr R * list nat)) := None.
Local Notation rdec fuel sys svf := (taylor_decompose_sys rnum (num_eqb r_dec) (fid_eqb r_dec) r_user unshared fuel sys svf).
Definition rdc_ : dcmp rnum :=
  mkDC rnum [(EVar "x", []); (EVar "y", [])]
    [(EFun Ftime [], []); (EFun Fprod [EVar "u_0"; EVar "u_1"], []); (EFun (Fu Uccos) [EVar "u_2"], [5%nat]);
     (EFun (Fu Ucsin) [EVar "u_2"], [4%nat]); (EFun Fprod [EVar "u_1"; EVar "u_5"], [])]
    [(EVar "u_5", []); (EVar "u_6", [])]%string.
Lemma rdec_ok : rdec 100 rsys rsvf = MDone (rdc_, [3%nat]).
Proof. vm_compute. reflexivity. Qed.
Lemma rnum_lits : lits rnum.
Proof.
  split; cbn; repeat split; repeat (match goal with |- context [Req_EM_T ?a ?b] => destruct (Req_EM_T a b); try lra end); try reflexivity.
Qed.
Lemma rnum_tlaws nval rho : tlaws rnum (real_alg rnum nval rho).
Proof. split; try reflexivity. now intros [v|]. Qed.

Example taylor_expansion_demo :
  nlaws rnum (fun x => x) /\ lits rnum /\ user_ok rnum 2 r_user /\ valid_system rnum rsys rsvf /\ taylor_system rnum rsys rsvf /\
  (forall e, In e rsvf -> ~ constant (taylor_passes rnum e)) /\
  open (fun _ : R => True) /\ solves (o := rnum) (fun x => x) (fun _ => 0) rsys rsol (fun _ => True) /\
  (forall t e, In e rsvf -> exists w, value_at (o := rnum) (fun x => x) (fun _ => 0) rsol e t = Some w) /\
  (forall rho, respects (real_alg rnum (fun x => x) rho) (num_eqb r_dec) (fid_eqb r_dec) /\ tlaws rnum (real_alg rnum (fun x => x) rho)) /\
  exists d sv, rdec 100 rsys rsvf = MDone (d, sv) /\ regular_along (o := rnum) (fun x => x) (fun _ => 0) d ["x"; "y"]%string rsol (fun _ => True) /\
  forall t order, (1 <= order)%nat -> 
    taylor_jet rnum (real_alg rnum (fun x => x) (env_at (fun s => Some (rsol s t)) (fun _ => 0) t)) real_tops d sv order [Some (- cos t); Some (exp (- cos t))] =
      MDone (flat_map (fun m => [Some (coeff (fun t => - cos t) m t); Some (coeff (fun t => exp (- cos t)) m t); Some (coeff (fun t => - cos t * exp (- cos t)) m t)]) (seq 0 (S order))).
Proof.
  assert (HS : solves (o := rnum) (fun x => x) (fun _ => 0) rsys rsol (fun _ => True)).
  { intros t s e _ [[= <- <-]|[[= <- <-]|[]]].
    - exists (sin t). split; [reflexivity|]. unfold rsol. cbn. auto_derive; [exact I | ring].
    - exists (exp (- cos t) * sin t). split; [cbn; f_equal; unfold rprod; cbn; ring|]. unfold rsol. cbn. auto_derive; [exact I | ring]. }
  assert (HT : taylor_system rnum rsys rsvf).
  { unfold taylor_system. apply Forall_forall. intros e He. vm_compute in He.
    repeat (destruct He as [<-|He]; [repeat (constructor; cbn; auto)|]). contradiction. }
  assert (HV : valid_system rnum rsys rsvf).
  { split; [discriminate|]. split.
    - assert (H : check_vars rnum (map snd rsys ++ rsvf) [EVar "x"; EVar "y"]%string = Some (map fst rsys)) by (vm_compute; reflexivity).
      apply check_vars_ok in H. apply H.
    - vm_compute. repeat constructor. }
  assert (HC : forall e, In e rsvf -> ~ constant (taylor_passes rnum e)) by (intros e [<-|[]]; vm_compute; auto).
  assert (HU : user_ok rnum (length rsys) r_user) by (intros s args dc _ _; exact I).
  assert (HW : forall t e, In e rsvf -> exists w, value_at (o := rnum) (fun x => x) (fun _ => 0) rsol e t = Some w).
  { intros t e [<-|[]]. eexists. reflexivity. }
  split; [apply rnum_laws|]. split; [apply rnum_lits|]. split; [exact HU|]. split; [exact HV|]. split; [exact HT|]. split; [exact HC|].
  split; [apply open_true|]. split; [exact HS|]. split; [exact HW|]. split; [intros rho; split; [apply exact_respects | apply rnum_tlaws]|].
  destruct (jet_is_taylor_expansion rnum (num_eqb r_dec) (fid_eqb r_dec) unshared r_user (fun x => x) rnum_laws rsys rsvf rnum_lits HU
              unshared_ok HV HT HC) as (f0 & d & sv & Hd & HJ).
  assert (ED : (d, sv) = (rdc_, [3%nat])).
  { pose proof (Hd (Nat.max f0 100) (Nat.le_max_l _ _)) as E3.
    pose proof (taylor_decompose_mono rnum (num_eqb r_dec) (fid_eqb r_dec) r_user unshared 100 rsys rsvf _ rdec_ok (Nat.max f0 100) (Nat.le_max_r _ _)) as E4.
    rewrite E3 in E4. congruence. }
  injection ED as -> ->. exists rdc_, [3%nat]. split; [exact rdec_ok|].
  assert (HR : regular_along (o := rnum) (fun x => x) (fun _ => 0) rdc_ ["x"; "y"]%string rsol (fun _ => True)).
  { intros t k f args deps _ Hk. cbn [dc_mid rdc_] in Hk. unfold elements_at. cbn [dc_mid rdc_].
    do 5 (destruct k as [|k]; [injection Hk as <- <- <-; split; [eexists; reflexivity | (right; exact I) || (left; constructor)]|]).
    destruct k; discriminate. }
  split; [exact HR|]. intros t order Ho.
  destruct (HJ (fun _ => 0) rsol (fun _ => True) open_true HS (fun t e _ => HW t e) HR) as [_ H].
  - intros. apply exact_respects.
  - intros. apply rnum_tlaws.
  - intros t' e b y w _ He Hocc. exfalso. cbn in He.
    assert (T : test_any rnum (fun x => match x with EFun Fpow _ => true | _ => false end) e = true) by (apply test_any_spec; eexists; split; [exact Hocc | reflexivity]).
    destruct He as [<-|[<-|[<-|[]]]]; discriminate T.
  - destruct (H t order I Ho) as [H1 _]. refine (eq_trans H1 _). unfold expansion. f_equal.
    apply flat_map_ext. intros m. cbn [rsys rsvf map fst app]. f_equal. f_equal. f_equal. f_equal. unfold coeff. f_equal.
    apply Derive_n_ext. intros s. unfold rsol. cbn. ring.
Qed.

(* The recurrence of u_1 = sin(u_0), with u_2 = cos(u_0) hidden, and of u_1 = log(u_0)
   for positive times, along u_0 = t. *)
Lemma cos_Derive_n m : exists a b, forall t, Derive_n cos m t = a * cos t + b * sin t.
Proof.
  induction m as [|m (a & b & IH)]; [exists 1, 0; intros t; cbn; ring|].
  exists b, (- a). intros t. cbn. rewrite (Derive_ext _ (fun t => a * cos t + b * sin t)) by exact IH.
  apply is_derive_unique. auto_derive; [exact I | ring].
Qed.
Lemma cos_smooth m t : ex_derive_n cos m t.
Proof.
  destruct m as [|m]; [exact I|]. cbn. destruct (cos_Derive_n m) as (a & b & E).
  apply (ex_derive_ext (fun t => a * cos t + b * sin t)); [intros; symmetry; apply E|]. auto_derive. exact I.
Qed.
Lemma id_smooth m t : ex_derive_n (fun t => t) m t.
Proof.
  assert (E : forall k, exists c, forall t, Derive_n (fun t => t) (S k) t = c).
  { induction k as [|k (c & IH)]; [exists 1; intros; cbn; apply Derive_id|]. exists 0. intros r.
    change (Derive (Derive_n (fun t => t) (S k)) r = 0). rewrite (Derive_ext _ (fun _ => c)) by exact IH. apply Derive_const. }
  destruct m as [|[|m]]; [exact I | cbn; auto_derive; exact I|]. destruct (E m) as (c & Ec).
  change (ex_derive (Derive_n (fun t => t) (S m)) t). apply (ex_derive_ext (fun _ => c)); [intros; symmetry; apply Ec|]. auto_derive. exact I.
Qed.
Example recurrence_demo N :
  let u1 := fun (j : nat) (t : R) => match j with 0%nat => t | 1%nat => sin t | _ => cos t end in
  let u2 := fun (j : nat) (t : R) => match j with 0%nat => t | _ => ln t end in
  let arg := [EVar "u_0"%string] in
  (open (fun _ : R => True) /\ supported (o := rnum) (Fu Usin) arg /\ Forall (arg_ok 1) arg /\
   hidden rnum (Fu Usin) arg (EVar (uname 1)) = Some [EFun (Fu Ucos) arg] /\
   (forall t, eval rnum (fun x => x) (env_at (u_vars 3 u1 t) (fun _ => 0) t) (EFun (Fu Usin) arg) = Some (u1 1%nat t)) /\
   (forall t, [Some (u1 2%nat t)] = map (eval rnum (fun x => x) (env_at (u_vars 3 u1 t) (fun _ => 0) t)) [EFun (Fu Ucos) arg]) /\
   (forall t, regular (o := rnum) (fun x => x) (fun _ => 0) u1 1 (Fu Usin) arg t) /\
   (forall j, In (EVar (uname j)) arg \/ In j [2%nat] -> forall m t, (m <= N)%nat -> ex_derive_n (u1 j) m t)) /\
  (open (fun t : R => 0 < t) /\ supported (o := rnum) (Fu Ulog) arg /\
   hidden rnum (Fu Ulog) arg (EVar (uname 1)) = Some [] /\
   (forall t, 0 < t -> eval rnum (fun x => x) (env_at (u_vars 2 u2 t) (fun _ => 0) t) (EFun (Fu Ulog) arg) = Some (u2 1%nat t)) /\
   (forall t, 0 < t -> regular (o := rnum) (fun x => x) (fun _ => 0) u2 1 (Fu Ulog) arg t) /\
   (forall j, In (EVar (uname j)) arg -> forall m t, (m <= N)%nat -> ex_derive_n (u2 j) m t)).
Proof.
  assert (Hu : forall j, In (EVar (uname j)) [@EVar R "u_0"%string] -> j = 0%nat).
  { intros j [H|[]]. pose proof (f_equal (fun e => match e with EVar s => s | _ => EmptyString end) H) as H2. symmetry. exact (uname_inj 0 j H2). }
  cbv zeta. split.
  - split; [apply open_true|]. split; [exact I|]. split; [repeat constructor; exists 0%nat; split; [lia | reflexivity]|].
    split; [reflexivity|]. split; [reflexivity|]. split; [reflexivity|]. split; [intros t; right; exact I|].
    intros j Hj m t Hm. destruct Hj as [Hj|[<-|[]]]; [rewrite (Hu j Hj); apply id_smooth | apply cos_smooth].
  - split; [apply open_gt|]. split; [exact I|]. split; [reflexivity|]. split; [|split].
    + intros t Ht. cbn. unfold guard. destruct (Rlt_dec 0 t); [reflexivity | contradiction].
    + intros t Ht. right. exact Ht.
    + intros j Hj m t Hm. rewrite (Hu j Hj). apply id_smooth.
Qed.

(* u_1 = x^3 along x(t) = t: at t = 0 the code divides by zero, although the function
   is smooth. The assumption of regularity is necessary. *)
Lemma cube_jet {V} (A : alg Q V) (T : tops V) v :
  let c := a_fun A Fpow [v; a_num A 3%Q] in
  taylor_jet qnum A T (mkDC qnum [(EVar "x"%string, [])] [(EFun Fpow [EVar "u_0"%string; ENum 3%Q], [])] [(ENum 1%Q, [])]) [1%nat] 1 [v] =
  MDone [v; c; a_num A 1%Q;
         t_div T (t_mul T (t_sub T (t_mul T (t_nat T 1%nat) (a_num A 3%Q)) (t_mul T (t_nat T 0%nat) (t_add T (a_num A 3%Q) (t_nat T 1%nat))))
                          (t_mul T (a_num A 1%Q) c)) (t_mul T (t_nat T 1%nat) v)].
Proof. vm_compute. reflexivity. Qed.
Lemma Q3 : Q2R 3%Q = IZR 3. Proof. unfold Q2R. change (IZR 3 * / IZR 1 = IZR 3). field. Qed.
Theorem taylor_pow_at_zero_refuted :
  let sys := [("x"%string, ENum 1%Q)] in let svf := [EFun Fpow [EVar "x"%string; ENum 3%Q]] in
  let x := fun (_ : string) (t : R) => t in
  exists d sv, taylor_decompose_sys qnum (num_eqb q_dec) (fid_eqb q_dec) no_user unshared 100 sys svf = MDone (d, sv) /\
    jet_ready d sv /\ solves (o := qnum) Q2R (fun _ => 0) sys x (fun _ => True) /\
    (forall t, value_at (o := qnum) Q2R (fun _ => 0) x (EFun Fpow [EVar "x"%string; ENum 3%Q]) t = Some (t ^ 3)) /\
    taylor_jet qnum (real_alg qnum Q2R (env_at (fun s => Some (x s 0)) (fun _ => 0) 0)) real_tops d sv 1 [Some 0] = MDone [Some 0; Some 0; Some 1; None].
Proof.
  intros sys svf x.
  exists (mkDC qnum [(EVar "x"%string, [])] [(EFun Fpow [EVar "u_0"%string; ENum 3%Q], [])] [(ENum 1%Q, [])]), [1%nat].
  split; [vm_compute; reflexivity|]. split; [|split; [|split]].
  - split; [reflexivity|]. split; [|split; [|split]].
    + split; [intros [|[|k]] e [= <-]; repeat constructor; cbn; exists 0%nat; split; [lia | reflexivity] | repeat constructor].
    + intros [|[|k]] p j [= <-] [].
    + constructor; [|constructor]. exists Fpow, [EVar "u_0"%string; ENum 3%Q], []. repeat split.
    + cbn. repeat constructor.
  - intros t s e _ [[= <- <-]|[]]. exists 1. split; [|apply (is_derive_id (K := R_AbsRing))]. cbn. f_equal. unfold Q2R. cbn. field.
  - intros t. unfold x. cbn. rewrite Q3. unfold rpow. rewrite (rint_IZR 3). destruct (Req_EM_T t 0); cbn; f_equal; ring.
  - assert (P0 : rpow 0 (Q2R 3) = Some 0).
    { rewrite Q3. unfold rpow. rewrite (rint_IZR 3). destruct (Req_EM_T 0 0); apply f_equal; change (powerRZ 0 3) with (0 ^ 3); ring. }
    assert (Q1 : Q2R 1 = 1) by (unfold Q2R; cbn; field).
    rewrite cube_jet. cbn [a_fun a_num real_alg fsem oseq]. cbn. rewrite P0. cbn. rewrite Q1. unfold guard. rewrite Rmult_0_r.
    destruct (nz_dec 0) as [H|_]; [now contradiction H | reflexivity].
Qed.
Print Assumptions taylor_recurrence.
Print Assumptions jet_is_taylor_expansion.
Print Assumptions taylor_pow_at_zero_refuted.
