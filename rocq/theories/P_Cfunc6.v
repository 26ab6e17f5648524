(* Compiled functions: one call, in both modes. *)
From Coq Require Import String Ascii Bool ZArith Arith List Lia Permutation.
From Verif Require Import M_Expr M_Dag M_Dec S_Expr S_Dag S_Dec P_ExprSem P_Subs P_Dag P_Dec P_Vars P_DecX P_DecP.
From Verif Require Import M_Taylor M_Adj P_Adj2 P_Cfunc1 M_Cfunc S_Cfunc P_Cfunc2 P_Cfunc3 P_Cfunc4 P_Cfunc5.
Import ListNotations.
Local Open Scope nat_scope.
Set Bullet Behavior "Strict Subproofs".

Lemma finite_choice {X} (x0 : X) (P : nat -> X -> Prop) n : (forall l, l < n -> exists x, P l x) -> exists f, forall l, l < n -> P l (f l).
Proof.
  induction n as [|n IH]; intros H; [exists (fun _ => x0); intros; lia|].
  destruct IH as (f & Hf); [intros; apply H; lia|]. destruct (H n) as (x & Hx); [lia|].
  exists (fun l => if Nat.eqb l n then x else f l). intros l Hl. destruct (Nat.eqb_spec l n) as [->|]; [exact Hx | apply Hf; lia].
Qed.

Section P.
Context (o : nops) (td : string -> bool).
Local Notation ex := (expr (num o)).
Local Notation mexp := (map (fst (A := ex) (B := list nat))).
Local Notation ins_of vs := (map (fun s => (EVar s : ex, [] : list nat)) vs).
Context (lname : fid (num o) -> list ex -> string) (fname : fid (num o) -> string).
Context (neq : num o -> num o -> bool) (feq : fid (num o) -> fid (num o) -> bool) (share : list ex -> list (dag (num o))).
Hypothesis Hsh : forall l, map erase (share l) = l /\ consistent (share l).

(* The parameters and the time dependence of the outputs. *)
Lemma es_fine (es : list ex) : Forall (fine o td (get_param_size o es) (existsb (is_time_dependent o td) es) (used o es)) es.
Proof.
  apply Forall_forall. intros e He x Hx. destruct x as [n|s|i|f args]; try exact I.
  - cbn. now apply (proj1 (get_param_size_ok es) e).
  - cbn. split; [left; exists e, args; auto|]. intros Hf. apply existsb_exists. exists e. split; [exact He|]. clear He es.
    induction e as [n|s|i|g l IH] using expr_ind'; try (now inversion Hx).
    inversion Hx as [|? ? a Ha Ho]; subst; unfold is_time_dependent in *; cbn [test_any].
    + destruct g; try discriminate; try reflexivity. cbn in Hf. now rewrite Hf.
    + apply orb_true_iff. right. apply existsb_exists. exists a. split; [exact Ha|]. rewrite Forall_forall in IH. now apply IH.
Qed.

Section One.
Context {T : Type} (A : arith o T) (dflt : T).
Context (batch stride : nat) (ip pp tp : ptr (T := T)) (xin xpar : nat -> nat -> T) (xt : nat -> option T).
(* The stores of a call. *)
Definition out_val (vs : list string) (e : ex) (l : nat) : T :=
  cval o td A (bind dflt vs (map (fun i => xin i l) (seq 0 (length vs)))) (fun i => xpar i l) (xt l) (cfunc_passes o e).
Definition stores (vs : list string) (es : list ex) : list (store (T := T)) :=
  map (fun p => (stride * fst p, vec batch (out_val vs (snd p)))) (combine (seq 0 (length es)) es).

Context (es vars : list ex) (vs : list string) (fuel : nat) (d : dcmp o).
Hypothesis HA : carith_ok o td A neq feq.
Hypothesis HCV : check_vars o es vars = Some vs.
Hypothesis Hd : function_decompose o neq feq share fuel es vars = MDone d.
Local Notation nv := (length vs).
Local Notation np := (get_param_size o es).
Local Notation tdb := (existsb (is_time_dependent o td) es).
Hypothesis Hin : forall i, i < nv -> vload ip (stride * i) batch = MDone (vec batch (xin i)).
Hypothesis Hpar : forall i, i < np -> vload pp (stride * i) batch = MDone (vec batch (xpar i)).
Hypothesis Htm : tdb = true -> exists tt, vload tp 0 batch = MDone (vec batch tt) /\ forall l, l < batch -> xt l = Some (tt l).
Local Notation fine := (fine o td np tdb (used o es)).
Local Notation mid := (mexp (dc_mid o d)).
Local Notation outs := (mexp (dc_out o d)).

Lemma dec_facts : dc_in o d = ins_of vs /\ length (dc_out o d) = length es /\ well_formed nv mid outs /\ Forall (isf o) mid /\ Forall fine mid /\ Forall fine outs.
Proof.
  destruct (function_decompose_correct o neq feq share es vars vs HCV Hsh) as (f0 & d' & Hd' & H1 & H2 & H3 & H4 & _).
  assert (d' = d).
  { specialize (Hd' (Nat.max f0 fuel) (Nat.le_max_l _ _)). rewrite (function_decompose_mono o neq feq share fuel es vars d Hd) in Hd'; [|lia]. congruence. }
  subst d'. split; [exact H1|]. split; [exact H2|]. split; [exact H3|]. split; [exact H4|].
  refine (function_decompose_fine o neq feq (fun i => i < np) (qok o td tdb (used o es)) _ _ share fuel es vars d Hsh Hd _).
  - unfold qok, used. cbn [In]. repeat split; try discriminate; auto 12.
  - unfold qok, used. cbn [In]. repeat split; try discriminate; auto 12.
  - exact (es_fine es).
Qed.
Lemma lanes : exists R : nat -> nat -> T,
  (forall i l, i < nv -> l < batch -> R i l = xin i l) /\
  (forall k e l, nth_error mid k = Some e -> l < batch -> R (nv + k) l = sval o td A dflt xpar xt R e l) /\
  (forall j a e l, nth_error outs j = Some a -> nth_error es j = Some e -> l < batch -> sval o td A dflt xpar xt R a l = out_val vs e l).
Proof.
  destruct (finite_choice (fun _ => dflt) (fun l (R : nat -> T) =>
    (forall i, i < nv -> R i = nth i (map (fun i => xin i l) (seq 0 nv)) dflt) /\
    (forall k e, nth_error mid k = Some e -> R (nv + k) = cval o td A (uenv dflt R) (fun i => xpar i l) (xt l) e) /\
    (forall j a e, nth_error outs j = Some a -> nth_error es j = Some e -> cval o td A (uenv dflt R) (fun i => xpar i l) (xt l) a = out_val vs e l)) batch) as (f & Hf).
  - intros l _. apply (run_values o td A dflt neq feq es vars vs share fuel d (fun i => xpar i l) (xt l) _ HA Hsh HCV Hd). now rewrite map_length, seq_length.
  - exists (fun i l => f l i). split; [|split].
    + intros i l Hi Hl. destruct (Hf l Hl) as (H & _). rewrite (H i Hi).
      rewrite nth_indep with (d' := (fun i => xin i l) 0) by (now rewrite map_length, seq_length).
      rewrite (map_nth (fun i => xin i l)), seq_nth by exact Hi. reflexivity.
    + intros k e l He Hl. destruct (Hf l Hl) as (_ & H & _). exact (H k e He).
    + intros j a e l Ha He Hl. destruct (Hf l Hl) as (_ & _ & H). exact (H j a e Ha He).
Qed.
Lemma stores_eq R (ws : list ex) : length ws = length es ->
  (forall j a e l, nth_error ws j = Some a -> nth_error es j = Some e -> l < batch -> sval o td A dflt xpar xt R a l = out_val vs e l) ->
  map (store_of o td A dflt batch stride xpar xt R) (combine (seq 0 (length ws)) ws) = stores vs es.
Proof.
  intros Hl H. unfold stores. rewrite Hl. clear - Hl H. generalize 0 as k. revert Hl H. generalize es. revert ws.
  induction ws as [|a ws IH]; intros [|e l] Hl H k; cbn in Hl; try discriminate; [reflexivity|]. cbn [length seq combine map]. f_equal.
  - unfold store_of. cbn [fst snd]. f_equal. apply vec_ext. intros i Hi. now apply (H 0 a e i).
  - apply IH; [lia|]. intros j b x i H1 H2. now apply (H (S j)).
Qed.
Lemma nc_stores : nc_call o td A dflt batch stride ip pp tp d = MDone (stores vs es).
Proof.
  destruct dec_facts as (E1 & E2 & HW & HF & Hfm & Hfo). destruct lanes as (R & HR1 & HR2 & HR3).
  rewrite (nc_call_ok o td A dflt batch stride nv np tdb (used o es) ip pp tp xin xpar xt Hin Hpar Htm R mid outs HW HF Hfm Hfo HR1 HR2 d);
    [| rewrite E1; apply map_length | reflexivity | reflexivity].
  f_equal. apply stores_eq; [|exact HR3]. now rewrite map_length, E2.
Qed.
(* The code of compact mode exists. *)
Lemma cm_total ty : clean_names o (used o es) lname fname -> batch = 0 -> exists p, compile_cm o lname fname ty d = MDone p.
Proof.
  intros HC Hb0. destruct dec_facts as (E1 & E2 & HW & HF & Hfm & Hfo).
  assert (Hnv : length (dc_in o d) = nv) by (rewrite E1; apply map_length).
  unfold compile_cm, dc_inline. rewrite Hnv. set (R := fun _ _ : nat => dflt).
  destruct (inl_loop_ok o td A dflt lname fname (used o es) batch nv np tdb xpar xt R mid outs HW HF (length mid) nv mid [] []) as [[-> Hdirty]|(inl & out & -> & HI)].
  - apply linv_init; auto. intros; lia.
  - lia.
  - destruct (Hdirty HC).
  - cbn [mbind fst snd].
    destruct (inl_result o td A dflt lname fname (used o es) batch nv np tdb xpar xt R mid outs HW inl out Hfo HI) as (R' & H1 & H2 & H3).
    assert (Hc : forall m c, nth_error out m = Some c -> shaped o lname fname (used o es) c /\ reads o (nv + m) c).
    { intros m c Hm. destruct (H2 m c Hm) as (K1 & K2 & _). auto. }
    destruct (cseg_ok o out nv nv [] None) as (segs & Es & Ec & Hs).
    + intros m c Hm. now apply Hc.
    + constructor.
    + cbn. lia.
    + rewrite Es. cbn [mbind app]. cbn [curl app] in Ec.
      assert (HSS : Forall (Forall (shaped o lname fname (used o es))) segs).
      { apply Forall_forall. intros s Hsg. apply Forall_forall. intros c Hcs. assert (In c out) by (rewrite <- Ec; apply in_concat; eauto).
        apply In_nth_error in H. destruct H as (m & Hm). now apply (Hc m c). }
      destruct (gen_segs_ok o lname fname (used o es) ty segs nv 0 [] HSS) as [[-> Hdirty]|(calls & -> & Hcalls)]; [intros k b; discriminate | destruct (Hdirty HC)|].
      cbn [mbind]. eauto.
Qed.
Hypothesis HN : names_ok o (used o es) lname.
Lemma cm_stores ty : (compile_cm o lname fname ty d = MThrow /\ dirty o lname fname (used o es)) \/
  exists p, compile_cm o lname fname ty d = MDone p /\
    forall tape, length tape = cp_nu o p -> exists ss, cm_call o td A dflt batch stride ip pp tp p tape = MDone ss /\ Permutation ss (stores vs es).
Proof.
  destruct dec_facts as (E1 & E2 & HW & HF & Hfm & Hfo). destruct lanes as (R & HR1 & HR2 & HR3).
  assert (Hnv : length (dc_in o d) = nv) by (rewrite E1; apply map_length).
  unfold compile_cm, dc_inline. rewrite Hnv.
  destruct (inl_loop_ok o td A dflt lname fname (used o es) batch nv np tdb xpar xt R mid outs HW HF (length mid) nv mid [] []) as [[-> Hdirty]|(inl & out & -> & HI)].
  - apply linv_init; auto.
  - lia.
  - left. auto.
  - cbn [mbind fst snd].
    destruct (inl_result o td A dflt lname fname (used o es) batch nv np tdb xpar xt R mid outs HW inl out Hfo HI) as (R' & H1 & H2 & H3).
    assert (Hc : forall m c, nth_error out m = Some c -> shaped o lname fname (used o es) c /\ reads o (nv + m) c).
    { intros m c Hm. destruct (H2 m c Hm) as (K1 & K2 & _). auto. }
    destruct (cseg_ok o out nv nv [] None) as (segs & Es & Ec & Hs).
    + intros m c Hm. now apply Hc.
    + constructor.
    + cbn. lia.
    + rewrite Es. cbn [mbind app]. cbn [curl app] in Ec.
      assert (HSS : Forall (Forall (shaped o lname fname (used o es))) segs).
      { apply Forall_forall. intros s Hsg. apply Forall_forall. intros c Hcs. assert (In c out) by (rewrite <- Ec; apply in_concat; eauto).
        apply In_nth_error in H. destruct H as (m & Hm). now apply (Hc m c). }
      destruct (gen_segs_ok o lname fname (used o es) ty segs nv 0 [] HSS) as [[-> Hdirty]|(calls & -> & Hcalls)]; [intros k b; discriminate | left; auto|].
      right. cbn [mbind]. eexists. split; [reflexivity|]. cbn [cp_nu]. intros tape Ht.
      destruct (cm_ok o td A dflt lname fname (used o es) HN batch stride nv np tdb ip pp tp xin xpar xt Hin Hpar Htm R' segs calls tape (map (u_remap o inl) outs) (length out)) as (ss & Ess & HP); auto.
      * now rewrite Ec.
      * intros m c Hm. rewrite Ec in Hm. now apply H2.
      * intros i l Hi Hl. rewrite H1 by exact Hi. now apply HR1.
      * rewrite Forall_map, Forall_forall. intros a Ha. now apply H3.
      * rewrite Forall_map, Forall_forall. intros a Ha. now apply H3.
      * exists ss. split; [exact Ess|]. rewrite HP. rewrite (stores_eq R'); [reflexivity | now rewrite !map_length, E2|].
        intros j a e l Ha He Hl. rewrite nth_error_map in Ha. destruct (nth_error outs j) as [a0|] eqn:E0; [|discriminate].
        apply (f_equal (fun x => match x with Some y => y | None => a end)) in Ha. cbn in Ha. subst a.
        destruct (H3 a0 (nth_error_In _ _ E0)) as (_ & _ & ->). now apply (HR3 j a0 e).
Qed.
End One.

(* --- make_cfunc --------------------------------------------------------------------------------------------------- *)
Context (ty : string) (simd fuel : nat).
Local Notation make es vars bs compact parallel := (make_cfunc o td lname fname neq feq share ty simd fuel es vars bs compact parallel).
Lemma make_inv es vars bs compact parallel c : make es vars bs compact parallel = MDone c ->
  exists vs d, check_vars o es vars = Some vs /\ function_decompose o neq feq share fuel es vars = MDone d /\
    c = mkCF o (length vars) (length es) (get_param_size o es) (existsb (is_time_dependent o td) es) (if Nat.eqb bs 0 then simd else bs) (cf_code o c) /\
    (if compact then parallel = false /\ exists p, compile_cm o lname fname ty d = MDone p /\ cf_code o c = CM o p else cf_code o c = NC o d).
Proof.
  unfold make_cfunc. intros E.
  assert (HD : forall d, function_decompose o neq feq share fuel es vars = MDone d -> exists vs, check_vars o es vars = Some vs).
  { intros d Hd. unfold function_decompose in Hd. destruct (check_vars o es vars) as [vs|]; [eauto | discriminate]. }
  destruct compact.
  - destruct parallel; [discriminate|]. apply mbind_done in E. destruct E as (d & Hd & E). apply mbind_done in E. destruct E as (p & Hp & E).
    destruct (HD d Hd) as (vs & Hvs). assert (E' : forall (X : Type) (x y : X), MDone x = MDone y -> x = y) by (intros; congruence). apply E' in E. subst c. cbn [cf_code].
    exists vs, d. split; [exact Hvs|]. split; [exact Hd|]. split; [reflexivity|]. eauto.
  - apply mbind_done in E. destruct E as (d & Hd & E). destruct (HD d Hd) as (vs & Hvs).
    assert (E' : forall (X : Type) (x y : X), MDone x = MDone y -> x = y) by (intros; congruence). apply E' in E. subst c. cbn [cf_code].
    exists vs, d. auto.
Qed.
Lemma call_stores {T} (A : arith o T) dflt es vars vs bs compact parallel c batch stride ip pp tp xin xpar xt tape :
  carith_ok o td A neq feq -> (compact = true -> names_ok o (used o es) lname) -> make es vars bs compact parallel = MDone c ->
  check_vars o es vars = Some vs -> tape_ok o (cf_code o c) tape ->
  (forall i, i < length vs -> vload ip (stride * i) batch = MDone (vec batch (xin i))) ->
  (forall i, i < get_param_size o es -> vload pp (stride * i) batch = MDone (vec batch (xpar i))) ->
  (existsb (is_time_dependent o td) es = true -> exists tt, vload tp 0 batch = MDone (vec batch tt) /\ forall l, l < batch -> xt l = Some (tt l)) ->
  exists ss, call o td A dflt (cf_code o c) batch stride ip pp tp tape = MDone ss /\
    Permutation ss (stores A dflt batch stride xin xpar xt vs es).
Proof.
  intros HA HN Hm HCV Ht Hin Hpar Htm. destruct (make_inv _ _ _ _ _ _ Hm) as (vs' & d & HCV' & Hd & _ & Hcode).
  rewrite HCV in HCV'. injection HCV' as <-. destruct compact.
  - destruct Hcode as (_ & p & Hp & Ec). rewrite Ec in *. cbn [call].
    destruct (cm_stores A dflt batch stride ip pp tp xin xpar xt es vars vs fuel d HA HCV Hd Hin Hpar Htm (HN eq_refl) ty) as [[E _]|(p' & E & H)]; [congruence|].
    rewrite Hp in E. injection E as <-. now apply H.
  - rewrite Hcode in *. cbn [call]. exists (stores A dflt batch stride xin xpar xt vs es). split; [|reflexivity].
    now apply (nc_stores A dflt batch stride ip pp tp xin xpar xt es vars vs fuel d).
Qed.
(* make_cfunc() succeeds on valid input. *)
Definition unit_arith : arith o unit := mkArith o (fun _ => tt) (fun _ _ _ => tt) (fun _ _ => tt) (fun _ _ => tt) (fun _ => tt) (fun _ => tt) tt.
Lemma make_total es vars vs bs compact : check_vars o es vars = Some vs -> (compact = true -> clean_names o (used o es) lname fname) ->
  exists fuel0 c, forall fuel', fuel0 <= fuel' -> make_cfunc o td lname fname neq feq share ty simd fuel' es vars bs compact false = MDone c.
Proof.
  intros HCV HC. destruct (function_decompose_correct o neq feq share es vars vs HCV Hsh) as (f0 & d & Hd & _).
  destruct compact.
  - destruct (cm_total unit_arith tt 0 (fun _ _ => tt) (fun _ => None) es vars vs f0 d HCV (Hd f0 (le_n f0)) ty (HC eq_refl) eq_refl) as (p & Hp).
    exists f0. eexists. intros fuel' Hf. unfold make_cfunc. rewrite (Hd fuel' Hf). cbn [mbind]. rewrite Hp. cbn [mbind]. reflexivity.
  - exists f0. eexists. intros fuel' Hf. unfold make_cfunc. rewrite (Hd fuel' Hf). cbn [mbind]. reflexivity.
Qed.
Lemma make_reject es vars bs compact parallel : (check_vars o es vars = None \/ (compact = true /\ parallel = true)) ->
  make es vars bs compact parallel = MThrow.
Proof.
  intros [H|[-> ->]]; [|reflexivity]. unfold make_cfunc, function_decompose. rewrite H. now destruct compact, parallel.
Qed.
End P.
