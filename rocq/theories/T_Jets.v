(* C16, C17: every derivative read while computing a jet has been computed before,
   in default and in compact mode, and the two modes agree. *)
From Coq Require Import Reals Qreals.
From Coq Require Import String Bool ZArith QArith Arith List Lia.
From Verif Require Import M_Expr M_Dag M_Dec S_Expr S_Dag S_Dec P_Dag P_Dec P_DecP M_Taylor S_Taylor P_Tay1 P_Tay2 P_Tay3 P_Tay4 P_Tay5 P_TaySup.
From Verif Require Import X_Expr X_Dec T_Dec.
Import ListNotations.
Local Open Scope nat_scope.
Set Bullet Behavior "Strict Subproofs".

Section Systems.
Context (o : nops) (neq : num o -> num o -> bool) (feq : fid (num o) -> fid (num o) -> bool).
Context (share : list (expr (num o)) -> list (dag (num o))).
Context (ug : string -> list (expr (num o)) -> list (expr (num o) * list nat) -> option (nat * list (expr (num o) * list nat))).

(* All the functions in the system have a Taylor derivative (after the passes
   which precede the decomposition). *)
Definition taylor_system (sys : list (string * expr (num o))) (svf : list (expr (num o))) : Prop :=
  Forall (all_nodes supported) (map (taylor_passes o) (map snd sys ++ svf)).

(* An interpretation with a single value. *)
Definition unit_alg : alg (num o) unit := mkAlg (fun _ => tt) (fun _ => tt) (fun _ _ => tt).

(* --- C16 ------------------------------------------------------------------------------ *)
(* Every decomposition can be used to compute jets. *)
Theorem decompositions_are_ready sys svf : lits o -> user_ok o (length sys) ug ->
  (forall l, map erase (share l) = l /\ consistent (share l)) ->
  valid_system o sys svf -> taylor_system sys svf -> (forall e, In e svf -> ~ constant (taylor_passes o e)) ->
  exists fuel0 d sv, (forall fuel, fuel0 <= fuel -> taylor_decompose_sys o neq feq ug share fuel sys svf = MDone (d, sv)) /\
    length (dc_in o d) = length sys /\ length sv = length svf /\ jet_ready d sv.
Proof.
  intros L HU Hs Hv Ht Hc.
  destruct (taylor_decomposition_correct o neq feq share ug sys svf L HU Hs Hv Hc)
    as (f0 & d & sv & Hd & Ei & Lo & Ls & HW & HF & HD & HS & HV).
  assert (Ln : length (dc_in o d) = length sys) by (rewrite <- (map_length fst), Ei, !map_length; reflexivity).
  exists f0, d, sv. split; [exact Hd|]. split; [exact Ln|]. split; [exact Ls|].
  unfold jet_ready. cbv zeta. rewrite Ln. split; [exact Lo|]. split; [exact HW|]. split; [exact HD|]. split; [|exact HS].
  destruct Hv as (Hp & Hvars & Hk).
  pose proof (taylor_decompose_supported o neq feq L ug share sys svf Hp HU Hs Hvars Hk Ht f0 d sv Hd) as HSup.
  assert (HH : hidden_values o unit_alg tt (repeat tt (length sys)) (dc_mid o d)).
  { apply HV; [split; reflexivity | split; reflexivity | split; try reflexivity | apply repeat_length]. now intros []. }
  apply Forall_forall. intros p Hin. apply In_nth_error in Hin. destruct Hin as (i & Hi).
  rewrite Forall_forall in HSup. destruct (HSup p (nth_error_In _ _ Hi)) as (f & args & Ef & Hsup).
  assert (HN : exists hs, hidden o f args (fst p) = Some hs).
  { destruct f; cbn in Hsup |- *; try contradiction; try (eexists; reflexivity);
      destruct args as [|a [|b [|c [|? ?]]]]; try contradiction; try (eexists; reflexivity).
    destruct u; eexists; reflexivity. }
  destruct HN as [hs Ehs].
  destruct p as [e deps]. cbn [fst snd] in *. subst e.
  exists f, args, hs. split; [reflexivity|]. split; [exact Hsup|]. split; [exact Ehs|].
  assert (HN' : exists hs', hidden o f args (EVar (uname (length (repeat tt (length sys)) + i))) = Some hs' /\ length hs' = length hs).
  { clear - Ehs. destruct f; cbn in Ehs |- *; try discriminate; try (injection Ehs as <-; eexists; split; [reflexivity | reflexivity]);
      destruct args as [|a [|b [|c [|? ?]]]]; try discriminate; try (injection Ehs as <-; eexists; split; [reflexivity | reflexivity]);
      try destruct u; injection Ehs as <-; eexists; split; reflexivity. }
  destruct HN' as (hs' & Ehs' & El). rewrite <- El. specialize (HH i f args deps hs' Hi Ehs').
  apply (f_equal (@length unit)) in HH. now rewrite !map_length in HH.
Qed.
End Systems.

Section Jets.
Context {o : nops} {V : Type} (A : alg (num o) V) (T : tops V).
(* For every interpretation of the arithmetic (floating-point numbers among
   them), the two modes never read a derivative which has not been computed:
   the default mode terminates with a jet; the compact mode terminates, and, for
   every order of the operations of concurrent workers and for every initial
   contents of the memory, with the same jet, whose values satisfy the
   equations given by the code. *)
Theorem jet_reads_computed_values (d : dcmp o) (sv : list nat) (order : nat) (st : list V) :
  jet_ready d sv -> length st = length (dc_in o d) -> 1 <= order ->
  (exists jet, taylor_jet o A T d sv order st = MDone jet /\ length jet = S order * (length (dc_in o d) + length sv)) /\
  (forall tp0, exists tp, compact_jet o A T d sv order st tp0 tp) /\
  (exists jet, (forall tp0 tp, compact_jet o A T d sv order st tp0 tp -> tape_jet o d sv order tp = MDone jet) /\
               length jet = S order * (length (dc_in o d) + length sv)).
Proof.
  intros HR Hst Ho.
  assert (HL : forall tab : nat -> nat -> V, length (jet_of (length (dc_in o d)) sv order tab) = S order * (length (dc_in o d) + length sv)).
  { intros tab. unfold jet_of. rewrite <- (seq_length (S order) 0) at 2. induction (seq 0 (S order)) as [|m l IH]; [reflexivity|].
    cbn [flat_map length]. rewrite app_length, map_length, app_length, seq_length, IH. lia. }
  assert (HS : exists segs, segment_dc o d = Some segs).
  { destruct HR as (_ & [HB _] & _ & HF & _). destruct (segments_correct o d HB) as (segs & E & _); [|eauto].
    rewrite Forall_map, Forall_forall in *. intros p Hp. destruct (HF p Hp) as (f & args & hs & -> & _). exact I. }
  destruct HS as [segs Hseg].
  assert (Hne : length (dc_in o d) <= length (dc_in o d) + length (dc_mid o d)) by lia.
  pose proof (table_exists A T _ _ (st0 T st) (dcode d (elt_code o)) Hne (dcode_ok d sv st HR Hst (elt_code o) (or_introl eq_refl))) as T1.
  pose proof (table_exists A T _ _ (st0 T st) (dcode d (celt_code o)) Hne (dcode_ok d sv st HR Hst (celt_code o) (or_intror eq_refl))) as T2.
  split; [|split].
  - eexists. split; [apply (default_jet A T d sv st HR Hst _ T1 order Ho) | apply HL].
  - intros tp0. apply (compact_jet_exists A T d sv st HR Hst _ T2 segs Hseg order tp0 Ho).
  - eexists. split; [|apply HL]. intros tp0 tp H. apply (compact_jet_good A T d sv st HR Hst _ T2 segs Hseg order tp0 tp Ho H).
Qed.
End Jets.

(* --- C17 ---------------------------------------------------------------------------------- *)
(* With exact arithmetic, whatever the meanings of the functions. *)
Theorem compact_mode_agrees (o : nops) (A : alg (num o) (option R)) (d : dcmp o) (sv : list nat) (order : nat) (st : list (option R)) tp0 tp :
  jet_ready d sv -> length st = length (dc_in o d) -> 1 <= order ->
  compact_jet o A real_tops d sv order st tp0 tp ->
  tape_jet o d sv order tp = taylor_jet o A real_tops d sv order st.
Proof.
  intros HR Hst Ho H.
  assert (HS : exists segs, segment_dc o d = Some segs) by (destruct H as (segs & _ & _ & _ & _ & E & _); eauto).
  destruct HS as [segs Hseg].
  assert (Hne : length (dc_in o d) <= length (dc_in o d) + length (dc_mid o d)) by lia.
  pose proof (table_exists A real_tops _ _ (st0 real_tops st) (dcode d (elt_code o)) Hne (dcode_ok d sv st HR Hst (elt_code o) (or_introl eq_refl))) as T1.
  set (tab := tab0 _ _ _ _ _ _) in T1.
  assert (T2 : is_table A real_tops (length (dc_in o d)) (length (dc_in o d) + length (dc_mid o d)) (st0 real_tops st) (dcode d (celt_code o)) tab).
  { split; [apply T1|]. intros n j c Hj I Hc. destruct (dcode_ok d sv st HR Hst (elt_code o) (or_introl eq_refl) n j Hj I) as (c0 & Hc0 & _).
    rewrite (proj2 T1 n j c0 Hj I Hc0). unfold dcode in Hc, Hc0. destruct (j <? length (dc_in o d)); [congruence|].
    destruct (nth_error (dc_mid o d) (j - length (dc_in o d))) as [p|]; [|discriminate].
    unfold elt_code in Hc0. unfold celt_code in Hc. destruct (fst p) as [x|s|i|f args]; try discriminate.
    eapply tdiff_cdiff; eauto. }
  rewrite (default_jet A real_tops d sv st HR Hst tab T1 order Ho).
  apply (compact_jet_good A real_tops d sv st HR Hst tab T2 segs Hseg order tp0 tp Ho H).
Qed.

(* --- Examples ------------------------------------------------------------------------------ *)
(* The pendulum of T_Dec.v, with an event. *)
Local Notation tdec fuel sys svf := (taylor_decompose_sys qnum (num_eqb q_dec) (fid_eqb q_dec) no_user unshared fuel sys svf).
Example jets_demo : taylor_system qnum demo_sys demo_sv /\
  exists d, tdec 100 demo_sys demo_sv = MDone (d, [4]) /\ jet_ready d [4] /\ length (dc_in qnum d) = 2 /\
    forall rho (x y : R), exists jet tp,
      taylor_jet qnum (real_alg qnum Q2R rho) real_tops d [4] 3 [Some x; Some y] = MDone jet /\ length jet = 12 /\
      compact_jet qnum (real_alg qnum Q2R rho) real_tops d [4] 3 [Some x; Some y] (fun _ => None) tp /\
      tape_jet qnum d [4] 3 tp = MDone jet.
Proof.
  assert (Hsys : taylor_system qnum demo_sys demo_sv).
  { unfold taylor_system. apply Forall_forall. intros e He. vm_compute in He.
    repeat (destruct He as [<-|He]; [repeat (constructor; cbn; auto)|]). contradiction. }
  split; [exact Hsys|].
  destruct taylor_decomposition_demo as (HL & HU & HV & HC & _ & d & Hd & _).
  destruct (decompositions_are_ready qnum (num_eqb q_dec) (fid_eqb q_dec) unshared no_user demo_sys demo_sv HL HU
              unshared_ok HV Hsys HC) as (f0 & d' & sv & Hd' & Hn & _ & HR).
  assert (E : (d, [4]) = (d', sv)).
  { pose proof (Hd' (Nat.max f0 100) (Nat.le_max_l _ _)) as E1.
    pose proof (taylor_decompose_mono qnum (num_eqb q_dec) (fid_eqb q_dec) no_user unshared 100 demo_sys demo_sv _ Hd (Nat.max f0 100) (Nat.le_max_r _ _)) as E2.
    congruence. }
  injection E as <- <-. exists d. split; [exact Hd|]. split; [exact HR|]. split; [exact Hn|]. intros rho x y.
  destruct (jet_reads_computed_values (real_alg qnum Q2R rho) real_tops d [4] 3 [Some x; Some y] HR) as ((jet & J1 & J2) & JE & _);
    [now rewrite Hn | lia|].
  destruct (JE (fun _ => None)) as [tp Htp]. exists jet, tp. split; [exact J1|]. split; [rewrite J2, Hn; reflexivity|]. split; [exact Htp|].
  rewrite <- J1. apply (compact_mode_agrees qnum (real_alg qnum Q2R rho) d [4] 3 [Some x; Some y] (fun _ => None) tp HR); [now rewrite Hn | lia | exact Htp].
Qed.

Print Assumptions decompositions_are_ready.
Print Assumptions jet_reads_computed_values.
Print Assumptions compact_mode_agrees.
