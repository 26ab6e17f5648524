(* The stepper: the result of a step and of the dense output on every lane. *)
From Coq Require Import String Bool Arith List Lia.
From Verif Require Import M_Expr M_Dag M_Dec S_Dec P_Dec M_Taylor S_Taylor P_Tay1 P_Tay2 P_Tay3 P_Tay4 M_Stepper P_Stepper T_Dec.
Import ListNotations.
Local Open Scope nat_scope.
Set Bullet Behavior "Strict Subproofs".

Section Stepper.
Context {E : Type} (S0 : sops E) (bs : nat).
Local Notation T := (s_t S0).
Local Notation V := (vec E).
Local Notation z := (t_nat T 0).
Local Notation evals := (evals S0).

(* --- Dense output ----------------------------------------------------------------------------- *)
Section Dense.
Context (ne order : nat) (out tc hm : list E).
Hypothesis Hout : ne * bs = length out.
Hypothesis Htc : (order + 1) * bs * ne <= length tc.
Hypothesis Hhm : bs <= length hm.
Local Notation cf j l := (fun k => nth ((order + 1) * bs * j + k * bs + l) tc z).
Local Notation hl l := (nth l hm z).

Lemma tc_idx j k : j < ne -> k <= order -> bs * (order + 1) * j + bs * k + bs <= length tc.
Proof. intros Hj Hk. assert ((order + 1) * bs * (j + 1) <= (order + 1) * bs * ne) by (apply Nat.mul_le_mono_l; lia). nia. Qed.
Lemma tc_val j k l : nth (bs * (order + 1) * j + bs * k + l) tc z = cf j l k.
Proof. apply (f_equal (fun i => nth i tc z)). ring. Qed.

(* A loop over the variables: each iteration changes only its own variable. *)
Lemma out_loop (f : nat -> list E -> mres (list E)) (old new : nat -> nat -> E) m :
  length m = length out -> (forall j l, j < ne -> l < bs -> nth (bs * j + l) m z = old j l) ->
  (forall j m, j < ne -> length m = length out -> (forall l, l < bs -> nth (bs * j + l) m z = old j l) ->
    exists v, f j m = vstore bs m (bs * j) v /\ forall l, l < bs -> v l = new j l) ->
  exists m', for_ ne 0 f m = MDone m' /\ length m' = length out /\ forall j l, j < ne -> l < bs -> nth (bs * j + l) m' z = new j l.
Proof.
  intros L H0 Hf.
  destruct (for_inv (fun i (m : list E) => length m = length out /\ forall j l, j < ne -> l < bs -> nth (bs * j + l) m z = if j <? i then new j l else old j l)
    f ne 0 m) as (m' & E1 & E2 & E3).
  - split; [exact L | exact H0].
  - intros i r Hi [Lr Hr]. destruct (Hf i r) as (v & -> & Hv); [lia | exact Lr | |].
    { intros l Hl. rewrite Hr by lia. destruct (Nat.ltb_spec i i); [lia | reflexivity]. }
    destruct (vstore_ok S0 bs r (bs * i) v) as (r' & -> & L' & N'); [rewrite Lr, <- Hout; nia|]. exists r'. split; [reflexivity|]. split; [lia|].
    intros j l Hj Hl. rewrite N'. destruct (Nat.eq_dec j i) as [->|Hne].
    + destruct (Nat.leb_spec (bs * i) (bs * i + l)); [|lia]. destruct (Nat.ltb_spec (bs * i + l) (bs * i + bs)); [|lia]. cbn [andb].
      destruct (Nat.ltb_spec i (S i)); [|lia]. rewrite <- Hv by exact Hl. f_equal. lia.
    + assert (Eb : (bs * i <=? bs * j + l) && (bs * j + l <? bs * i + bs) = false).
      { destruct (Nat.leb_spec (bs * i) (bs * j + l)); [|reflexivity]. destruct (Nat.ltb_spec (bs * j + l) (bs * i + bs)); [|reflexivity]. exfalso. nia. }
      rewrite Eb, Hr by assumption. destruct (Nat.ltb_spec j i), (Nat.ltb_spec j (S i)); try reflexivity; lia.
  - exists m'. split; [exact E1|]. split; [exact E2|]. intros j l Hj Hl. rewrite E3 by assumption. destruct (Nat.ltb_spec j (0 + ne)); [reflexivity | lia].
Qed.
Lemma dense_horner : exists out', d_out_f S0 bs false ne order out tc hm = MDone out' /\ length out' = length out /\
  forall j l, j < ne -> l < bs -> nth (bs * j + l) out' z = hor S0 (cf j l) (hl l) order order.
Proof.
  unfold d_out_f. rewrite (vload_ok S0 bs hm 0) by exact Hhm. cbn [mbind].
  match goal with |- context [for_ ne 0 ?f out] => destruct (out_loop f (fun j l => nth (bs * j + l) out z) (fun j l => cf j l order) out) as (out1 & -> & L1 & H1) end.
  - reflexivity.
  - reflexivity.
  - intros j m Hj Lm _. rewrite vload_ok by (pose proof (tc_idx j order Hj (le_n _)); lia). cbn [mbind]. eexists. split; [reflexivity|].
    intros l Hl. exact (tc_val j order l).
  - cbn [mbind].
    match goal with |- context [for_ order 1 ?f out1] => destruct (for_inv (fun k (m : list E) => length m = length out /\
      forall j l, j < ne -> l < bs -> nth (bs * j + l) m z = hor S0 (cf j l) (hl l) order (k - 1)) f order 1 out1) as (out2 & E2 & L2 & H2) end.
    + split; [exact L1 | exact H1].
    + intros k m Hk [Lm Hm].
      match goal with |- context [for_ ne 0 ?f m] => destruct (out_loop f (fun j l => hor S0 (cf j l) (hl l) order (k - 1)) (fun j l => hor S0 (cf j l) (hl l) order k) m) as (m' & F1 & F2 & F3) end.
      * exact Lm.
      * exact Hm.
      * intros j m1 Hj Lm1 Hj1. pose proof (tc_idx j (order - k) Hj ltac:(lia)) as Hi. rewrite (vload_ok S0 bs tc) by lia. cbn [mbind].
        rewrite (vload_ok S0 bs m1) by (rewrite Lm1, <- Hout; nia). cbn [mbind]. eexists. split; [reflexivity|]. intros l Hl. unfold lift2.
        destruct k as [|k]; [lia|]. cbn [hor]. rewrite Hj1 by exact Hl. replace (S k - 1) with k by lia. rewrite tc_val. reflexivity.
      * exists m'. split; [exact F1|]. split; [exact F2|]. intros j l Hj Hl. rewrite F3 by assumption. now replace (S k - 1) with k by lia.
    + exists out2. split; [exact E2|]. split; [exact L2|]. intros j l Hj Hl. rewrite H2 by assumption. now replace (1 + order - 1) with order by lia.
Qed.
Lemma dense_ceval : exists out', d_out_f S0 bs true ne order out tc hm = MDone out' /\ length out' = length out /\
  forall j l, j < ne -> l < bs -> nth (bs * j + l) out' z = fst (fst (cev S0 (cf j l) (hl l) order)).
Proof.
  unfold d_out_f. rewrite (vload_ok S0 bs hm 0) by exact Hhm. cbn [mbind].
  match goal with |- context [for_ ne 0 ?f out] => destruct (out_loop f (fun j l => nth (bs * j + l) out z) (fun j l => cf j l 0) out) as (out1 & -> & L1 & H1) end.
  - reflexivity.
  - reflexivity.
  - intros j m Hj Lm _. rewrite vload_ok by (pose proof (tc_idx j 0 Hj (Nat.le_0_l _)); lia). cbn [mbind]. eexists. split; [reflexivity|].
    intros l Hl. apply (f_equal (fun i => nth i tc z)). ring.
  - cbn [mbind].
    match goal with |- context [for_ order 1 ?f ?a] => destruct (for_inv (fun k (s : list E * list V * V) => let '(m, comp, ch) := s in
      length m = length out /\ length comp = ne /\ (forall l, l < bs -> ch l = snd (cev S0 (fun _ => z) (hl l) (k - 1))) /\
      forall j l, j < ne -> l < bs -> cev S0 (cf j l) (hl l) (k - 1) = (nth (bs * j + l) m z, nth j comp (splat z) l, ch l)) f order 1 a)
      as ([[out2 comp2] ch2] & E2 & L2 & _ & _ & H2) end.
    + split; [exact L1|]. split; [apply repeat_length|]. split; [reflexivity|]. intros j l Hj Hl. rewrite H1 by assumption. rewrite nth_repeat. reflexivity.
    + intros k [[m comp] ch] Hk (Lm & Lc & HC & Hm). cbv beta iota.
      match goal with |- context [for_ ne 0 ?f ?a] => destruct (for_inv (fun i (s : list E * list V) => let '(r, c) := s in
         length r = length out /\ length c = ne /\ forall j l, j < ne -> l < bs ->
         (nth (bs * j + l) r z, nth j c (splat z) l) = fst (cev S0 (cf j l) (hl l) (if j <? i then k else k - 1))) f ne 0 a) as ([m' comp'] & F1 & F2 & F3 & F4) end.
      * split; [exact Lm|]. split; [exact Lc|]. intros j l Hj Hl. now rewrite Hm.
      * intros i [r c] Hi (Lr & Lc' & Hr). cbv beta iota. pose proof (tc_idx i k ltac:(lia) ltac:(lia)) as Hx. rewrite (vload_ok S0 bs tc) by lia. cbn [mbind].
        cbv zeta. rewrite (aget_ok c i (splat z)) by lia. cbn [mbind]. rewrite (vload_ok S0 bs r) by (rewrite Lr, <- Hout; nia). cbn [mbind].
        set (y := lift2 (t_sub T) (lift2 (t_mul T) (fun l => nth (bs * (order + 1) * i + bs * k + l) tc z) ch) (nth i c (splat z))).
        set (rv := fun l => nth (bs * i + l) r z). set (t := lift2 (t_add T) rv y).
        destruct (aset_ok c i (lift2 (t_sub T) (lift2 (t_sub T) t rv) y) (splat z)) as (c' & -> & Lc1 & Nc); [lia|]. cbn [mbind].
        destruct (vstore_ok S0 bs r (bs * i) t) as (r' & -> & Lr' & Nr); [rewrite Lr, <- Hout; nia|]. cbn [mbind]. eexists. split; [reflexivity|]. cbv beta iota.
        split; [lia|]. split; [lia|]. intros j l Hj Hl. rewrite Nc, Nr. destruct (Nat.eqb_spec j i) as [->|Hne].
        -- destruct (Nat.leb_spec (bs * i) (bs * i + l)); [|lia]. destruct (Nat.ltb_spec (bs * i + l) (bs * i + bs)); [|lia]. cbn [andb].
           replace (bs * i + l - bs * i) with l by lia. destruct (Nat.ltb_spec i (S i)); [|lia]. specialize (Hr i l Hj Hl). specialize (Hm i l Hj Hl).
           destruct (Nat.ltb_spec i i); [lia|]. destruct k as [|k]; [lia|]. replace (S k - 1) with k in * by lia. cbn [cev]. rewrite Hm in *. cbn [fst] in Hr |- *.
           unfold t, y, rv, lift2. injection Hr as Hr1 Hr2. rewrite Hr1, Hr2. rewrite tc_val. reflexivity.
        -- assert (Eb : (bs * i <=? bs * j + l) && (bs * j + l <? bs * i + bs) = false).
           { destruct (Nat.leb_spec (bs * i) (bs * j + l)); [|reflexivity]. destruct (Nat.ltb_spec (bs * j + l) (bs * i + bs)); [|reflexivity]. exfalso. nia. }
           rewrite Eb, Hr by assumption. destruct (Nat.ltb_spec j i), (Nat.ltb_spec j (S i)); try reflexivity; lia.
      * rewrite F1. cbn [mbind]. eexists. split; [reflexivity|]. cbv beta iota. cbn [fst snd]. split; [exact F2|]. split; [exact F3|].
        assert (HS : forall c l, snd (cev S0 c (hl l) (k - 1)) = ch l -> snd (cev S0 c (hl l) (S k - 1)) = t_mul T (ch l) (hl l)).
        { intros c l Hl. replace (S k - 1) with (S (k - 1)) by lia. cbn [cev]. destruct (cev S0 c (hl l) (k - 1)) as [[a b] e]. cbn [snd] in Hl |- *. now subst e. }
        split.
        -- intros l Hl. symmetry. apply HS. symmetry. now apply HC.
        -- intros j l Hj Hl. specialize (F4 j l Hj Hl). destruct (Nat.ltb_spec j (0 + ne)); [|lia].
           specialize (HS (cf j l) l). rewrite Hm in HS by assumption. specialize (HS eq_refl). replace (S k - 1) with k in * by lia.
           destruct (cev S0 (cf j l) (hl l) k) as [rc e]. cbn [fst snd] in *. rewrite F4, HS. reflexivity.
    + rewrite E2. cbn [mbind fst]. eexists. split; [reflexivity|]. split; [exact L2|]. intros j l Hj Hl. specialize (H2 j l Hj Hl).
      replace (1 + order - 1) with order in H2 by lia. rewrite H2. reflexivity.
Qed.
Lemma dense_ok ha : exists out', d_out_f S0 bs ha ne order out tc hm = MDone out' /\ length out' = length out /\
  forall j l, j < ne -> l < bs -> nth (j * bs + l) out' z = evals ha (cf j l) (hl l) order.
Proof.
  unfold P_Stepper.evals. destruct ha; [destruct dense_ceval as (out' & H1 & H2 & H3) | destruct dense_horner as (out' & H1 & H2 & H3)];
    exists out'; (split; [exact H1|]); (split; [exact H2|]); intros j l Hj Hl; rewrite <- H3 by assumption; apply (f_equal (fun i => nth i out' z)); ring.
Qed.
End Dense.

(* --- The result of a step ------------------------------------------------------------------------ *)
(* The elements of the memory m which belong to the lane l. *)
Definition lane (l n : nat) (m : list E) : list E := map (fun i => nth (i * bs + l) m z) (seq 0 n).
Definition h_of (order : nat) (ns no nom1 maxh : E) : E := timestep S0 order (splat ns) (splat no) (splat nom1) (splat maxh) 0.

Section Step.
Context (o : nops) (A : nat -> alg (num o) E) (d : dcmp o) (sv : list nat) (order : nat).
Local Notation ne := (length (dc_in o d)).
Local Notation nu := (ne + length (dc_mid o d)).
Local Notation elt := (expr (num o) * list nat)%type.
Hypothesis HR : jet_ready d sv.
Hypothesis Hne : 1 <= ne.
Hypothesis Hord : 1 <= order.
Context (st : list E).
Hypothesis Hst : ne * bs = length st.
Local Notation sts := (map (fun i l => nth (i * bs + l) st z) (seq 0 ne)).
Lemma load_state_ok : load_state S0 bs st ne = MDone sts.
Proof. apply (mseq_done (fun i => vload S0 bs st (i * bs))). intros i Hi. apply in_seq in Hi. apply vload_ok. rewrite <- Hst. nia. Qed.
Lemma sts_length : length sts = ne. Proof. now rewrite map_length, seq_length. Qed.
Lemma sts_lane l : map (fun v : V => v l) sts = lane l ne st.
Proof. now rewrite map_map. Qed.

(* The timestep on a lane, given the norm and the table of the derivatives. *)
Definition lane_h (norm : list E -> E) (tab : nat -> nat -> E) (maxh : E) : E :=
  let n m := norm (map (tab m) (seq 0 ne ++ sv)) in h_of order (n 0) (n order) (n (order - 1)) maxh.
Definition lane_table (C : elt -> nat -> nat -> option (tex (num o))) (l : nat) (tab : nat -> nat -> E) : Prop :=
  is_table (A l) T ne nu (st0 T (lane l ne st)) (dcode d C) tab.

Context (C : elt -> nat -> nat -> option (tex (num o))) (HC : is_code C) (normf : list E -> E).
Context (tab : nat -> nat -> V) (Htab : is_table (lane_alg A) (lane_tops T) ne nu (st0 (lane_tops T) sts) (dcode d C) tab).
Context (norm : nat -> mres V).
Hypothesis Hnorm : forall m, m <= order -> exists v, norm m = MDone v /\ forall l, v l = normf (map (fun i => tab m i l) (seq 0 ne ++ sv)).

Lemma lanes_unique l tabl : lane_table C l tabl -> forall m j, j < nu -> tabl m j = tab m j l.
Proof.
  intros Hl m j Hj. symmetry.
  assert (Hcode : forall n j, j < nu -> ~ initial ne n j -> exists c, dcode d C n j = Some c /\ code_ok (avail nu n j) c) by (apply (dcode_ok d sv sts HR sts_length C HC)).
  pose proof (table_lane A T l d sv sts HR sts_length C tab HC Htab) as H1. rewrite sts_lane in H1.
  refine (table_unique (A l) T ne nu (st0 T (lane l ne st)) (dcode d C) _ Hcode _ tabl H1 Hl m j Hj). lia.
Qed.
Lemma is_in i : In i (seq 0 ne ++ sv) -> i < nu.
Proof.
  intros H. apply in_app_or in H. destruct H as [H|H]; [apply in_seq in H; lia|]. destruct HR as (_ & _ & _ & _ & HS). rewrite Forall_forall in HS. now apply HS.
Qed.
Lemma norm_lane l tabl m : lane_table C l tabl -> normf (map (fun i => tab m i l) (seq 0 ne ++ sv)) = normf (map (tabl m) (seq 0 ne ++ sv)).
Proof. intros Hl. f_equal. apply map_ext_in. intros i Hi. symmetry. apply lanes_unique; [exact Hl|]. now apply is_in. Qed.

Lemma determine_h_ok maxh : exists h ns, determine_h S0 order norm maxh = MDone (h, ns) /\
  (forall l tabl, lane_table C l tabl -> h l = lane_h normf tabl (maxh l)) /\
  (forall l tabl, lane_table C l tabl -> ns l = normf (map (tabl 0) (seq 0 ne ++ sv))).
Proof.
  unfold determine_h. destruct (Hnorm 0) as (n0 & -> & H0); [lia|]. cbn [mbind]. destruct (Hnorm order) as (n1 & -> & H1); [lia|]. cbn [mbind].
  destruct (Hnorm (order - 1)) as (n2 & -> & H2); [lia|]. cbn [mbind]. eexists _, _. split; [reflexivity|]. split.
  - intros l tabl Hl. unfold lane_h, h_of. rewrite <- !(norm_lane l tabl _ Hl), <- H0, <- H1, <- H2. reflexivity.
  - intros l tabl Hl. now rewrite H0, (norm_lane l tabl _ Hl).
Qed.

(* Vectors written in memory at the beginning. *)
Lemma vstore0 m v : length m = bs -> exists m', vstore bs m 0 v = MDone m' /\ length m' = bs /\ forall l, l < bs -> nth l m' z = v l.
Proof.
  intros L. destruct (vstore_ok S0 bs m 0 v) as (m' & E1 & E2 & E3); [lia|]. exists m'. split; [exact E1|]. split; [lia|]. intros l Hl. rewrite E3.
  cbn [Nat.leb Nat.add]. destruct (Nat.ltb_spec l bs); [|lia]. cbn [andb]. now rewrite Nat.sub_0_r.
Qed.

(* The result of a step: the new state, the timestep and the Taylor coefficients. *)
Definition step_result (ha : bool) (hm : list E) (tc : option (list E)) (res : mres (list E * list E * option (list E))) : Prop :=
  exists st' hm' tc', res = MDone (st', hm', tc') /\ length st' = length st /\ length hm' = length hm /\
    (forall l tabl, l < bs -> lane_table C l tabl ->
       nth l hm' z = lane_h normf tabl (nth l hm z) /\
       forall j, j < ne -> nth (j * bs + l) st' z = evals ha (fun m => tabl m j) (nth l hm' z) order) /\
    match tc, tc' with
    | None, None => True
    | Some tc, Some tc' => length tc' = length tc /\
        forall l tabl, l < bs -> lane_table C l tabl -> forall j k, j < ne -> k <= order ->
          nth ((order + 1) * bs * j + k * bs + l) tc' z = tabl k j
    | _, _ => False
    end.
Lemma finish_step_ok rd wtc ha hm tc : (forall m j, m <= order -> j < ne -> rd m j = MDone (tab m j)) ->
  length hm = bs ->
  (forall m, tc = Some m -> exists m', wtc m = MDone m' /\ written S0 bs ne sv order tab m m' (ne + length sv)) ->
  step_result ha hm tc (finish_step S0 bs norm rd wtc ne order ha st hm tc).
Proof.
  intros Hrd Hhm Hw. unfold finish_step. rewrite (vload_ok S0 bs hm 0) by lia. cbn [mbind].
  destruct (determine_h_ok (fun l => nth (0 + l) hm z)) as (h & ns & -> & Hh & Hns). cbn [mbind fst].
  destruct (evaluate_ok S0 rd h ne order tab Hrd ha) as (new & -> & Ln & Hnew). cbn [mbind].
  destruct (store_state_ok S0 bs new ne st Ln Hst) as (st' & -> & Ls & Hs). cbn [mbind].
  destruct (vstore0 hm h Hhm) as (hm' & -> & Lh & Hh'). cbn [mbind].
  assert (H1 : forall l tabl, l < bs -> lane_table C l tabl -> nth l hm' z = lane_h normf tabl (nth l hm z) /\
       forall j, j < ne -> nth (j * bs + l) st' z = evals ha (fun m => tabl m j) (nth l hm' z) order).
  { intros l tabl Hl Ht. rewrite Hh' by exact Hl. split; [exact (Hh l tabl Ht)|]. intros j Hj. rewrite Hs, Hnew by assumption.
    apply evals_ext; try exact 0. intros m _. symmetry. apply lanes_unique; [exact Ht | lia]. }
  destruct tc as [tc|].
  - destruct (Hw tc eq_refl) as (tc' & -> & Lt & Htc). cbn [mbind]. exists st', hm', (Some tc'). split; [reflexivity|]. split; [exact Ls|]. split; [lia|]. split; [exact H1|].
    split; [exact Lt|]. intros l tabl Hl Ht j k Hj Hk. rewrite (Htc j ltac:(lia) k l Hk Hl). rewrite is_nth_lo by exact Hj. symmetry. apply lanes_unique; [exact Ht | lia].
  - exists st', hm', None. split; [reflexivity|]. split; [exact Ls|]. split; [lia|]. split; [exact H1|]. exact I.
Qed.
Definition estep_result (jm hm mm : list E) (res : mres (list E * list E * list E)) : Prop :=
  exists jm' hm' mm', res = MDone (jm', hm', mm') /\ length jm' = length jm /\ length hm' = length hm /\ length mm' = length mm /\
    forall l tabl, l < bs -> lane_table C l tabl ->
       nth l hm' z = lane_h normf tabl (nth l hm z) /\
       nth l mm' z = normf (map (tabl 0) (seq 0 ne ++ sv)) /\
       forall j k, j < ne + length sv -> k <= order -> nth ((order + 1) * bs * j + k * bs + l) jm' z = tabl k (nth j (seq 0 ne ++ sv) 0).
Lemma finish_estep_ok wtc jm hm mm : length hm = bs -> length mm = bs ->
  (exists m', wtc jm = MDone m' /\ written S0 bs ne sv order tab jm m' (ne + length sv)) ->
  estep_result jm hm mm (finish_estep S0 bs norm wtc order jm hm mm).
Proof.
  intros Hhm Hmm Hw. unfold finish_estep. rewrite (vload_ok S0 bs hm 0) by lia. cbn [mbind].
  destruct (determine_h_ok (fun l => nth (0 + l) hm z)) as (h & ns & -> & Hh & Hns). cbn [mbind fst snd].
  destruct (vstore0 mm ns Hmm) as (mm' & -> & Lm & Hm'). cbn [mbind].
  destruct (vstore0 hm h Hhm) as (hm' & -> & Lh & Hh'). cbn [mbind].
  destruct Hw as (jm' & -> & Lj & Hj'). cbn [mbind]. exists jm', hm', mm'. repeat (split; [first [reflexivity | exact Lj | lia]|]).
  intros l tabl Hl Ht. split; [rewrite Hh' by exact Hl; exact (Hh l tabl Ht)|]. split; [rewrite Hm' by exact Hl; exact (Hns l tabl Ht)|].
  intros j k Hj Hk. rewrite (Hj' j Hj k l Hk Hl). symmetry. apply lanes_unique; [exact Ht|]. apply is_in. apply nth_In. rewrite app_length, seq_length. exact Hj.
Qed.
End Step.

(* --- The steppers ---------------------------------------------------------------------------------- *)
Section Steppers.
Context (o : nops) (A : nat -> alg (num o) E) (d : dcmp o) (order : nat).
Local Notation ne := (length (dc_in o d)).
Local Notation nu := (ne + length (dc_mid o d)).
Hypothesis Hne : 1 <= ne.
Hypothesis Hord : 1 <= order.
Context (st : list E).
Hypothesis Hst : ne * bs = length st.
Local Notation sts := (map (fun i l => nth (i * bs + l) st z) (seq 0 ne)).

Section Tables.
Context (sv : list nat).
Hypothesis HR : jet_ready d sv.
Lemma lane_table_exists C l : is_code C -> exists tabl, lane_table o A d st C l tabl.
Proof.
  intros HC. exists (tab0 (A l) T ne nu (st0 T (lane l ne st)) (dcode d C)). apply table_exists; [lia|].
  apply (dcode_ok d sv (lane l ne st) HR); [unfold lane; now rewrite map_length, seq_length | exact HC].
Qed.
Lemma vtable C : is_code C -> exists tab, is_table (lane_alg A) (lane_tops T) ne nu (st0 (lane_tops T) sts) (dcode d C) tab.
Proof.
  intros HC. exists (tab0 (lane_alg A) (lane_tops T) ne nu (st0 (lane_tops T) sts) (dcode d C)). apply table_exists; [lia|].
  apply (dcode_ok d sv sts HR (sts_length o d st) C HC).
Qed.
Lemma tape_loads sts' tp0 tp tab : length sts' = ne -> is_table (lane_alg A) (lane_tops T) ne nu (st0 (lane_tops T) sts') (dcode d (celt_code o)) tab ->
  compact_jet o (lane_alg A) (lane_tops T) d sv order sts' tp0 tp ->
  forall m i, m <= order -> i < ne \/ In i sv -> load (tape_size ne nu order sv) nu tp m i = MDone (tab m i).
Proof.
  intros Ls Htab H m i Hm Hi.
  assert (HS : exists segs, segment_dc o d = Some segs) by (destruct H as (segs & _ & _ & _ & _ & X & _); eauto). destruct HS as [segs Hseg].
  pose proof (compact_jet_good (lane_alg A) (lane_tops T) d sv sts' HR Ls tab Htab segs Hseg order tp0 tp Hord H) as HJ.
  unfold tape_jet, jet_of in HJ. cbv zeta in HJ. rewrite !prod_map in HJ.
  apply (mseq_done_inv (fun p => load (tape_size ne nu order sv) nu tp (fst p) (snd p)) (fun p => tab (fst p) (snd p)) _ HJ (m, i)).
  apply in_prod; [apply in_seq; lia|]. apply in_or_app. destruct Hi as [Hi|Hi]; [left; apply in_seq; lia | now right].
Qed.
End Tables.

Lemma step_default_ok ha hm tc : jet_ready d [] -> length hm = bs -> (forall m, tc = Some m -> (order + 1) * bs * ne = length m) ->
  step_result o A d [] order st (elt_code o) (norm_pair S0) ha hm tc (step_default S0 bs o A d order ha st hm tc).
Proof.
  intros HR Hhm Htc. destruct (vtable [] HR (elt_code o) (or_introl eq_refl)) as [tab Htab]. unfold step_default. cbv zeta.
  rewrite (load_state_ok o A d order Hne Hord st Hst). cbn [mbind].
  rewrite (default_jet (lane_alg A) (lane_tops T) d [] sts HR (sts_length o d st) tab Htab order Hord). cbn [mbind].
  apply (finish_step_ok o A d [] order HR Hne Hord st Hst (elt_code o) (or_introl eq_refl) (norm_pair S0) tab Htab).
  - intros m Hm. apply (norm_default_ok S0 ne [] order m tab Hne Hm).
  - intros m j Hm Hj. pose proof (jet_nth ne [] order tab m j Hm) as HJ. cbn [length] in HJ. rewrite Nat.add_0_r in HJ. rewrite HJ by exact Hj.
    now rewrite is_nth_lo.
  - exact Hhm.
  - intros m Hm. apply (write_default_ok S0 bs ne [] order tab m). cbn [length]. rewrite Nat.add_0_r. now apply Htc.
Qed.
Lemma step_compact_ok ha hm tc tp0 res : jet_ready d [] -> length hm = bs -> (forall m, tc = Some m -> (order + 1) * bs * ne = length m) ->
  step_compact S0 bs o A d order ha st hm tc tp0 res ->
  step_result o A d [] order st (celt_code o) (norm_seq S0) ha hm tc res.
Proof.
  intros HR Hhm Htc (sts' & tp & Hl & HJ & ->). rewrite (load_state_ok o A d order Hne Hord st Hst) in Hl. injection Hl as <-.
  destruct (vtable [] HR (celt_code o) (or_intror eq_refl)) as [tab Htab].
  pose proof (tape_loads [] HR sts tp0 tp tab (sts_length o d st) Htab HJ) as HL.
  apply (finish_step_ok o A d [] order HR Hne Hord st Hst (celt_code o) (or_intror eq_refl) (norm_seq S0) tab Htab).
  - intros m Hm. apply (norm_compact_ok S0 _ ne [] m tab Hne). intros i Hi. now apply HL.
  - intros m j Hm Hj. apply HL; [exact Hm | now left].
  - exact Hhm.
  - intros m Hm. apply (write_compact_ok S0 bs ne [] order tab m); [|exact HL]. cbn [length]. rewrite Nat.add_0_r. now apply Htc.
Qed.
Lemma tape_exists sv tp0 : jet_ready d sv -> exists tp, compact_jet o (lane_alg A) (lane_tops T) d sv order sts tp0 tp.
Proof.
  intros HR. destruct (vtable sv HR (celt_code o) (or_intror eq_refl)) as [tab Htab].
  assert (HS : exists segs, segment_dc o d = Some segs).
  { destruct HR as (_ & [HB _] & _ & HF & _). destruct (segments_correct o d HB) as (segs & X & _); [|eauto].
    rewrite Forall_map, Forall_forall in *. intros p Hp. destruct (HF p Hp) as (f & args & hs & -> & _). exact I. }
  destruct HS as [segs Hseg].
  apply (compact_jet_exists (lane_alg A) (lane_tops T) d sv sts HR (sts_length o d st) tab Htab segs Hseg order tp0 Hord).
Qed.
Lemma step_compact_exists ha hm tc tp0 : jet_ready d [] -> exists res, step_compact S0 bs o A d order ha st hm tc tp0 res.
Proof.
  intros HR. destruct (tape_exists [] tp0 HR) as [tp Htp]. unfold step_compact. cbv zeta.
  eexists _, sts, tp. split; [apply (load_state_ok o A d order Hne Hord st Hst)|]. split; [exact Htp | reflexivity].
Qed.
Lemma estep_compact_exists sv jm hm mm tp0 : jet_ready d sv -> exists res, estep_compact S0 bs o A d sv order st jm hm mm tp0 res.
Proof.
  intros HR. destruct (tape_exists sv tp0 HR) as [tp Htp]. unfold estep_compact. cbv zeta.
  eexists _, sts, tp. split; [apply (load_state_ok o A d order Hne Hord st Hst)|]. split; [exact Htp | reflexivity].
Qed.
Lemma estep_default_ok sv jm hm mm : jet_ready d sv -> length hm = bs -> length mm = bs -> (order + 1) * bs * (ne + length sv) = length jm ->
  estep_result o A d sv order st (elt_code o) (norm_pair S0) jm hm mm (estep_default S0 bs o A d sv order st jm hm mm).
Proof.
  intros HR Hhm Hmm Hjm. destruct (vtable sv HR (elt_code o) (or_introl eq_refl)) as [tab Htab]. unfold estep_default. cbv zeta.
  rewrite (load_state_ok o A d order Hne Hord st Hst). cbn [mbind].
  rewrite (default_jet (lane_alg A) (lane_tops T) d sv sts HR (sts_length o d st) tab Htab order Hord). cbn [mbind].
  apply (finish_estep_ok o A d sv order HR Hne Hord st Hst (elt_code o) (or_introl eq_refl) (norm_pair S0) tab Htab).
  - intros m Hm. apply (norm_default_ok S0 ne sv order m tab Hne Hm).
  - exact Hhm.
  - exact Hmm.
  - apply (write_default_ok S0 bs ne sv order tab jm Hjm).
Qed.
Lemma estep_compact_ok sv jm hm mm tp0 res : jet_ready d sv -> length hm = bs -> length mm = bs -> (order + 1) * bs * (ne + length sv) = length jm ->
  estep_compact S0 bs o A d sv order st jm hm mm tp0 res ->
  estep_result o A d sv order st (celt_code o) (norm_seq S0) jm hm mm res.
Proof.
  intros HR Hhm Hmm Hjm (sts' & tp & Hl & HJ & ->). rewrite (load_state_ok o A d order Hne Hord st Hst) in Hl. injection Hl as <-.
  destruct (vtable sv HR (celt_code o) (or_intror eq_refl)) as [tab Htab].
  pose proof (tape_loads sv HR sts tp0 tp tab (sts_length o d st) Htab HJ) as HL.
  apply (finish_estep_ok o A d sv order HR Hne Hord st Hst (celt_code o) (or_intror eq_refl) (norm_seq S0) tab Htab).
  - intros m Hm. apply (norm_compact_ok S0 _ ne sv m tab Hne). intros i Hi. now apply HL.
  - exact Hhm.
  - exact Hmm.
  - apply (write_compact_ok S0 bs ne sv order tab jm Hjm). exact HL.
Qed.
End Steppers.
End Stepper.
