(* The sizes and the values of feed-forward neural networks. *)
From Coq Require Import String Bool ZArith NArith Reals List Lra Lia.
From Verif Require Import M_Expr S_Expr P_ExprSem P_Build M_Dag M_Taylor S_Diff S_Mech P_Mech1 S_Model P_Model1 M_Net S_Net.
Import ListNotations.
Local Open Scope nat_scope.
Set Bullet Behavior "Strict Subproofs".

Lemma su32_ok z : (z < 2 ^ 32)%Z -> su32 z = MDone z.
Proof. intros H. unfold su32. destruct (Z.ltb_spec z (2 ^ 32)); [auto|lia]. Qed.
Lemma su32_ko z : (2 ^ 32 <= z)%Z -> su32 z = MThrow.
Proof. intros H. unfold su32. destruct (Z.ltb_spec z (2 ^ 32)); [lia|auto]. Qed.
Lemma at_nth {A} (v : list A) i x : nth_error v i = Some x -> at_ v (Z.of_nat i) = MDone x.
Proof. intros H. unfold at_. rewrite Nat2Z.id, H. auto. Qed.
Lemma network_ext : forall sizes phis w w' b b' n x x', (forall k, w k = w' k) -> (forall k, b k = b' k) -> (forall k, x k = x' k) ->
  forall i, network sizes phis w b n x i = network sizes phis w' b' n x' i.
Proof.
  induction sizes as [|m ms IH]; intros [|phi ps] w w' b b' n x x' Hw Hb Hx i; cbn; auto.
  apply IH; auto. intros k. rewrite Hb. do 2 f_equal. apply sumn_ext. intros j _. now rewrite Hw, Hx.
Qed.

Lemma last_step {A} (r : list A) c p : last (c :: r) p = last r c.
Proof. revert c p. induction r as [|d r IH]; intros c p; [auto|]. change (last (c :: d :: r) p) with (last (d :: r) p). rewrite !IH. auto. Qed.

(* --- Sizes ------------------------------------------------------------------------------ *)
Lemma count_ok N : (forall z, In z N -> (0 <= z)%Z) -> forall rest pre p, N = pre ++ p :: rest -> forall wb w, (0 <= w <= wb)%Z ->
  let W := Z.of_nat (n_weights (Z.to_nat p) (map Z.to_nat rest)) in let B := Z.of_nat (n_biases (map Z.to_nat rest)) in
  count_params (length rest) (S (length pre)) N wb w = (if (wb + W + B <? 2 ^ 32)%Z || match rest with [] => true | _ => false end then MDone (wb + W + B, w + W)%Z else MThrow).
Proof.
  intros HN. induction rest as [|c rest IH]; intros pre p EN wb w Hw; cbn zeta.
  { cbn [length count_params map n_weights n_biases list_sum fold_right]. rewrite orb_true_r. cbn. f_equal. f_equal; lia. }
  assert (P0 : (0 <= p)%Z) by (apply HN; rewrite EN; apply in_or_app; right; left; auto).
  assert (C0 : (0 <= c)%Z) by (apply HN; rewrite EN; apply in_or_app; right; right; left; auto).
  cbn [length count_params].
  replace (Z.of_nat (S (length pre)) - 1)%Z with (Z.of_nat (length pre)) by lia.
  rewrite (at_nth N (length pre) p) by (rewrite EN, nth_error_app2, Nat.sub_diag by lia; auto).
  rewrite (at_nth N (S (length pre)) c) by (rewrite EN, nth_error_app2 by lia; replace (S (length pre) - length pre) with 1 by lia; auto).
  cbn [mbind]. assert (PC : (0 <= p * c)%Z) by nia.
  assert (EW : Z.of_nat (n_weights (Z.to_nat p) (map Z.to_nat (c :: rest))) = (p * c + Z.of_nat (n_weights (Z.to_nat c) (map Z.to_nat rest)))%Z).
  { cbn [map n_weights]. rewrite Nat2Z.inj_add, Nat2Z.inj_mul, !Z2Nat.id by auto. ring. }
  assert (EB : Z.of_nat (n_biases (map Z.to_nat (c :: rest))) = (c + Z.of_nat (n_biases (map Z.to_nat rest)))%Z).
  { unfold n_biases. cbn [map list_sum fold_right]. rewrite Nat2Z.inj_add, Z2Nat.id by auto. auto. }
  rewrite EW, EB.
  set (W' := Z.of_nat (n_weights (Z.to_nat c) (map Z.to_nat rest))). set (B' := Z.of_nat (n_biases (map Z.to_nat rest))).
  assert (W0 : (0 <= W')%Z) by apply Nat2Z.is_nonneg. assert (B0 : (0 <= B')%Z) by apply Nat2Z.is_nonneg.
  rewrite orb_false_r.
  destruct (Z_lt_le_dec (wb + p * c + c) (2 ^ 32)) as [H1|H1].
  - rewrite !su32_ok by lia. cbn [mbind]. rewrite su32_ok by lia. cbn [mbind]. rewrite su32_ok by lia. cbn [mbind]. rewrite su32_ok by lia. cbn [mbind].
    specialize (IH (pre ++ [p]) c ltac:(rewrite EN, <- app_assoc; auto) (wb + p * c + c)%Z (w + p * c)%Z ltac:(lia)). cbn zeta in IH. fold W' B' in IH.
    rewrite app_length in IH. cbn [length] in IH. replace (length pre + 1) with (S (length pre)) in IH by lia. rewrite IH.
    replace (wb + p * c + c + W' + B')%Z with (wb + (p * c + W') + (c + B'))%Z by ring. replace (w + p * c + W')%Z with (w + (p * c + W'))%Z by ring.
    destruct rest as [|c' rest']; [|now rewrite orb_false_r].
    rewrite orb_true_r. unfold W', B'. cbn [map n_weights n_biases list_sum fold_right Z.of_nat]. destruct (Z.ltb_spec (wb + (p * c + 0) + (c + 0)) (2 ^ 32)); [auto|lia].
  - destruct (Z.ltb_spec (wb + (p * c + W') + (c + B')) (2 ^ 32)) as [H2|H2]; [lia|].
    destruct (Z_lt_le_dec (p * c) (2 ^ 32)) as [A1|A1]; [rewrite (su32_ok (p * c)) by lia|rewrite (su32_ko (p * c)) by lia; auto]. cbn [mbind].
    destruct (Z_lt_le_dec (wb + p * c) (2 ^ 32)) as [A2|A2]; [rewrite (su32_ok (wb + p * c)) by lia|rewrite (su32_ko (wb + p * c)) by lia; auto]. cbn [mbind].
    rewrite (su32_ok (w + p * c)) by lia. cbn [mbind]. rewrite su32_ko by lia. auto.
Qed.

(* --- Layers ------------------------------------------------------------------------------ *)
Section Layers.
Context {o : nops}.
Local Notation ex := (expr (num o)).
Context {nval : num o -> R} (L : nlaws o nval).
Variable wb : list ex.
Hypothesis Hwb : (Z.of_nat (length wb) < 2 ^ 32)%Z.

Lemma values_nil rho x : values o nval rho [] x.
Proof. intros [|i] e; discriminate. Qed.
Lemma values_cons rho e l x : eval o nval rho e = Some (x 0) -> values o nval rho l (fun i => x (S i)) -> values o nval rho (e :: l) x.
Proof. intros He Hl [|i] e' E; cbn in E; [injection E as <-; auto|]. apply Hl in E. auto. Qed.
Lemma values_ext rho l x x' : (forall i, x i = x' i) -> values o nval rho l x -> values o nval rho l x'.
Proof. intros Hx H i e E. rewrite <- Hx. eauto. Qed.

Lemma weighted_ok : forall inputs a, a + length inputs <= length wb ->
  exists ts, weighted o inputs wb (Z.of_nat a) = MDone (ts, Z.of_nat (a + length inputs)) /\ length ts = length inputs /\
  forall rho x v, values o nval rho inputs x -> values o nval rho wb v -> values o nval rho ts (fun j => (v (a + j)%nat * x j)%R).
Proof.
  induction inputs as [|e r IH]; intros a H; cbn [weighted length] in *.
  - exists []. rewrite Nat.add_0_r. split; [auto|]. split; [auto|]. intros. apply values_nil.
  - destruct (nth_error wb a) as [w|] eqn:Ew; [|apply nth_error_None in Ew; lia].
    rewrite (at_nth wb a w Ew). cbn [mbind]. rewrite su32_ok by lia. cbn [mbind].
    destruct (IH (S a) ltac:(lia)) as (ts & E & Lt & V). replace (Z.of_nat a + 1)%Z with (Z.of_nat (S a)) by lia. rewrite E. cbn [mbind].
    exists (mk_mul o w e :: ts). split; [do 3 f_equal; lia|]. split; [cbn; lia|]. intros rho x v Hx Hv. apply values_cons.
    + rewrite Nat.add_0_r. apply (e_mul L); [apply Hv; auto|apply Hx; auto].
    + eapply values_ext; [|apply (V rho (fun i => x (S i)) v); [intros i e' Ei; apply (Hx (S i)); auto|exact Hv]]. intros i. cbn. do 2 f_equal. lia.
Qed.
Lemma e_terms rho ts b t bv : values o nval rho ts t -> eval o nval rho b = Some bv ->
  eval o nval rho (mk_sum o (ts ++ [b])) = Some (sumn (length ts) t + bv)%R.
Proof.
  intros Ht Hb.
  rewrite (e_sum L rho (ts ++ [b]) (map t (seq 0 (length ts)) ++ [bv])).
  - rewrite rsum_app, rsum_map_seq. cbn [Nat.add]. unfold rsum. cbn. do 2 f_equal. ring.
  - apply Forall2_app; [|repeat constructor; auto]. clear Hb. revert t Ht. induction ts as [|e ts IH]; intros t Ht; cbn; constructor.
    + apply Ht. auto.
    + rewrite <- seq_shift, map_map. apply IH. intros i e' E. apply (Ht (S i)). auto.
Qed.
Lemma neurons_ok (f : ex -> ex) inputs nw : forall k a b, a + k * length inputs <= length wb -> nw + b + k <= length wb ->
  exists r, neurons o k inputs f wb (Z.of_nat nw) (Z.of_nat a) (Z.of_nat b) = MDone (r, Z.of_nat (a + k * length inputs), Z.of_nat (b + k)) /\ length r = k /\
  forall rho x v phi, computes o nval rho f phi -> values o nval rho inputs x -> values o nval rho wb v ->
    values o nval rho r (fun i => phi (sumn (length inputs) (fun j => (v (a + (i * length inputs + j))%nat * x j)%R) + v (nw + (b + i))%nat)%R).
Proof.
  induction k as [|k IH]; intros a b H1 H2; cbn [neurons].
  - exists []. cbn [Nat.mul]. rewrite !Nat.add_0_r. split; [auto|]. split; [auto|]. intros. apply values_nil.
  - destruct (weighted_ok inputs a ltac:(nia)) as (ts & E & Lt & V). rewrite E. cbn [mbind]. rewrite su32_ok by lia. cbn [mbind].
    destruct (nth_error wb (nw + b)) as [be|] eqn:Eb; [|apply nth_error_None in Eb; lia].
    replace (Z.of_nat b + Z.of_nat nw)%Z with (Z.of_nat (nw + b)) by lia. rewrite (at_nth wb _ _ Eb). cbn [mbind]. rewrite su32_ok by lia. cbn [mbind].
    replace (Z.of_nat b + 1)%Z with (Z.of_nat (S b)) by lia.
    destruct (IH (a + length inputs) (S b) ltac:(nia) ltac:(lia)) as (r & Er & Lr & Vr). rewrite Er. cbn [mbind].
    exists (f (mk_sum o (ts ++ [be])) :: r). split; [do 2 f_equal; [f_equal; f_equal; nia|f_equal; lia]|]. split; [cbn; lia|].
    intros rho x v phi Hf Hx Hv. apply values_cons.
    + apply Hf. rewrite (e_terms rho ts be (fun j => (v (a + j)%nat * x j)%R) (v (nw + b))).
      * cbn [Nat.mul Nat.add]. rewrite Lt, Nat.add_0_r. auto.
      * apply V; auto.
      * apply Hv; auto.
    + eapply values_ext; [|apply (Vr rho x v phi Hf Hx Hv)]. intros i. cbn beta. do 2 f_equal.
      * apply sumn_ext. intros j _. do 2 f_equal. cbn [Nat.mul]. lia.
      * f_equal. lia.
Qed.

Lemma layers_ok N acts nw : (forall z, In z N -> (0 < z)%Z) -> forall rest arest pre apre p ret a b,
  N = pre ++ p :: rest -> acts = apre ++ map Some arest -> length apre = length pre -> length arest = length rest ->
  length ret = Z.to_nat p -> a + n_weights (Z.to_nat p) (map Z.to_nat rest) <= nw -> nw + b + n_biases (map Z.to_nat rest) <= length wb ->
  exists out, layers o (length rest) (S (length pre)) ret N acts wb (Z.of_nat nw) (Z.of_nat a) (Z.of_nat b) = MDone out /\
  length out = Z.to_nat (last rest p) /\
  forall rho x v phis, Forall2 (computes o nval rho) arest phis -> values o nval rho ret x -> values o nval rho wb v ->
    values o nval rho out (network (map Z.to_nat rest) phis (fun k => v (a + k)) (fun k => v (nw + (b + k))) (Z.to_nat p) x).
Proof.
  intros HN. induction rest as [|c rest IH]; intros arest pre apre p ret a b EN EA Lp La Lr H1 H2.
  - destruct arest; [|discriminate]. exists ret. cbn. split; [auto|]. split; [auto|]. intros rho x v phis F Hx Hv. inversion F. auto.
  - destruct arest as [|f arest]; [discriminate|]. injection La as La. cbn [length layers].
    replace (Z.of_nat (S (length pre)) - 1)%Z with (Z.of_nat (length apre)) by lia.
    rewrite (at_nth acts (length apre) (Some f)) by (rewrite EA, nth_error_app2, Nat.sub_diag by lia; auto). cbn [mbind].
    unfold compute_layer.
    assert (P0 : (0 < p)%Z) by (apply HN; rewrite EN; apply in_or_app; right; left; auto).
    assert (C0 : (0 < c)%Z) by (apply HN; rewrite EN; apply in_or_app; right; right; left; auto).
    cbn [map n_weights] in H1. unfold n_biases in H2. cbn [map list_sum fold_right] in H2. fold (list_sum (map Z.to_nat rest)) in H2. fold (n_biases (map Z.to_nat rest)) in H2.
    set (P := Z.to_nat p) in *. set (C := Z.to_nat c) in *.
    assert (Z0 : 0 < C) by lia.
    rewrite su32_ok by (rewrite Lr; nia). cbn [mbind].
      rewrite (at_nth N (S (length pre)) c) by (rewrite EN, nth_error_app2 by lia; replace (S (length pre) - length pre) with 1 by lia; auto).
      cbn [mbind]. fold C.
      destruct (neurons_ok f ret nw C a b ltac:(rewrite Lr; nia) ltac:(lia)) as (r & E & L1 & V). rewrite E. cbn [mbind]. rewrite Lr.
      destruct (IH arest (pre ++ [p]) (apre ++ [Some f]) c r (a + C * P) (b + C)) as (out & Eo & Lo & Vo).
      * rewrite EN, <- app_assoc. auto.
      * rewrite EA, <- app_assoc. auto.
      * rewrite !app_length. cbn. lia.
      * auto.
      * exact L1.
      * fold C. lia.
      * lia.
      * rewrite app_length in Eo. cbn [length] in Eo. replace (length pre + 1) with (S (length pre)) in Eo by lia.
        exists out. split; [exact Eo|]. split; [rewrite Lo, last_step; auto|].
        intros rho x v phis F Hx Hv. inversion F as [|? phi ? phis' Hf F' E1 E2]; subst.
        eapply values_ext; [|apply (Vo rho _ v phis' F' (V rho x v phi Hf Hx Hv) Hv)]. intros i. cbn [map network].
        fold P C. apply network_ext.
        -- intros k. f_equal. lia.
        -- intros k. f_equal. lia.
        -- intros k. rewrite Lr. auto.
Qed.
End Layers.

(* --- The whole function ------------------------------------------------------------------ *)
Lemma all_some {A} (l : list (option A)) : (forall a, In a l -> a <> None) -> exists r, l = map Some r.
Proof.
  induction l as [|[x|] l IH]; intros H.
  - exists []. auto.
  - destruct IH as [r ->]; [intros a Ha; apply H; right; auto|]. exists (x :: r). auto.
  - exfalso. apply (H None); [left|]; auto.
Qed.
Lemma weights_len : forall sizes n, 0 < n -> (forall m, In m sizes -> 0 < m) -> length sizes <= n_weights n sizes /\ length sizes <= n_biases sizes.
Proof.
  induction sizes as [|m ms IH]; intros n Hn H; [cbn; lia|].
  assert (M0 : 0 < m) by (apply H; left; auto). destruct (IH m M0) as [A B]; [intros; apply H; right; auto|].
  unfold n_biases in *. cbn [n_weights length list_sum fold_right]. fold (list_sum ms). nia.
Qed.
Section Whole.
Context {o : nops}.
Local Notation ex := (expr (num o)).
Context {nval : num o -> R} (L : nlaws o nval).
Lemma ffnn_run ins hidden n_out (acts : list (option (ex -> ex))) wb : (0 <= n_out)%Z ->
  let sizes := sizes_of hidden n_out in
  let C := length acts = S (length hidden) /\ ins <> [] /\ (0 < n_out)%Z /\ (forall h, In h hidden -> (0 < h)%Z) /\ (forall a, In a acts -> a <> None) /\
           length wb = n_weights (length ins) sizes + n_biases sizes /\ (Z.of_nat (length wb) < 2 ^ 32)%Z in
  (~ C -> ffnn o ins hidden n_out acts wb = MThrow) /\
  (C -> exists out fs, acts = map Some fs /\ ffnn o ins hidden n_out acts wb = MDone out /\ length out = Z.to_nat n_out /\
     forall rho x v phis, Forall2 (computes o nval rho) fs phis -> values o nval rho ins x -> values o nval rho wb v ->
       values o nval rho out (network sizes phis v (fun k => v (n_weights (length ins) sizes + k)) (length ins) x)).
Proof.
  intros Hn sizes C.
  unfold ffnn.
  destruct acts as [|a0 acts0]; [split; [auto|intros (A & _); discriminate]|]. set (acts := a0 :: acts0) in *.
  destruct (Nat.eqb_spec (length hidden) (length acts - 1)) as [E1|E1]; cbn [negb]; [|split; [auto|intros (A & _); cbn in A, E1; lia]].
  destruct ins as [|i0 ins0]; [split; [auto|intros (_ & A & _); congruence]|]. set (ins := i0 :: ins0) in *.
  destruct (Z.eqb_spec n_out 0) as [E2|E2]; [split; [auto|intros (_ & _ & A & _); lia]|].
  destruct (forallb (fun i => (0 <? i)%Z) hidden) eqn:E3; cbn [negb].
  2: { split; [auto|]. intros (_ & _ & _ & A & _). assert (X : forallb (fun i => (0 <? i)%Z) hidden = true); [|congruence].
       apply forallb_forall. intros h Hh. apply Z.ltb_lt. auto. }
  rewrite forallb_forall in E3.
  destruct (existsb (fun f => match f with None => true | Some _ => false end) acts) eqn:E4.
  { split; [auto|]. intros (_ & _ & _ & _ & A & _). apply existsb_exists in E4. destruct E4 as ([f|] & Hf & X); [discriminate|]. exfalso. apply (A None Hf). auto. }
  assert (A4 : forall a, In a acts -> a <> None).
  { intros a Ha ->. assert (X : existsb (fun f : option (ex -> ex) => match f with None => true | Some _ => false end) acts = true); [|congruence]. apply existsb_exists. exists None. auto. }
  assert (A3 : forall h, In h hidden -> (0 < h)%Z) by (intros h Hh; apply Z.ltb_lt; auto).
  assert (A1 : length acts = S (length hidden)) by (cbn in E1 |- *; lia).
  assert (PS : forall z, In z (hidden ++ [n_out]) -> (0 < z)%Z).
  { intros z Hz. apply in_app_or in Hz. destruct Hz as [Hz|[<-|[]]]; [auto|lia]. }
  assert (I0 : 0 < length ins) by (cbn; lia).
  assert (LS : length sizes = S (length hidden)) by (unfold sizes, sizes_of; rewrite map_length, app_length; cbn; lia).
  destruct (weights_len sizes (length ins) I0) as [LW LB].
  { intros m Hm. apply in_map_iff in Hm. destruct Hm as (z & <- & Hz). apply PS in Hz. lia. }
  set (W := n_weights (length ins) sizes) in *. set (B := n_biases sizes) in *.
  assert (LI : length ins <= W).
  { unfold W. destruct sizes as [|m ms] eqn:Es; [cbn in LS; lia|]. assert (0 < m); [|cbn [n_weights]; nia].
    assert (Hm : In m sizes) by (rewrite Es; left; auto). unfold sizes, sizes_of in Hm. apply in_map_iff in Hm. destruct Hm as (z & <- & Hz). apply PS in Hz. lia. }
  assert (XC : C <-> length wb = W + B /\ (Z.of_nat (length wb) < 2 ^ 32)%Z).
  { unfold C. split; [tauto|]. intros [X Y]. repeat split; auto; try lia. discriminate. }
  destruct (Z_lt_le_dec (Z.of_nat (length hidden)) (2 ^ 32)) as [B1|B1]; [rewrite (su32_ok (Z.of_nat (length hidden))) by lia|rewrite (su32_ko (Z.of_nat (length hidden))) by lia].
  2: { split; [auto|]. intros Y. apply XC in Y. lia. }
  cbn [mbind].
  destruct (Z_lt_le_dec (Z.of_nat (length hidden) + 2) (2 ^ 32)) as [B2|B2]; [rewrite (su32_ok (Z.of_nat (length hidden) + 2)) by lia|rewrite (su32_ko (Z.of_nat (length hidden) + 2)) by lia].
  2: { split; [auto|]. intros Y. apply XC in Y. lia. }
  cbn [mbind].
  destruct (Z_lt_le_dec (Z.of_nat (length ins)) (2 ^ 32)) as [B3|B3]; [rewrite (su32_ok (Z.of_nat (length ins))) by lia|rewrite (su32_ko (Z.of_nat (length ins))) by lia].
  2: { split; [auto|]. intros Y. apply XC in Y. lia. }
  cbn [mbind].
  replace (Z.to_nat (Z.of_nat (length hidden) + 2) - 1) with (length (hidden ++ [n_out])) by (rewrite app_length; cbn; lia).
  set (N := Z.of_nat (length ins) :: hidden ++ [n_out]).
  assert (HN : forall z, In z N -> (0 < z)%Z) by (intros z [<-|Hz]; [lia|auto]).
  pose proof (count_ok N (fun z Hz => Z.lt_le_incl _ _ (HN z Hz)) (hidden ++ [n_out]) [] (Z.of_nat (length ins)) eq_refl 0%Z 0%Z ltac:(lia)) as K.
  cbn zeta in K. rewrite Nat2Z.id in K. fold (sizes_of hidden n_out) in K. fold sizes in K. fold W B in K. cbn [length] in K. rewrite K. clear K.
  replace (match hidden ++ [n_out] with [] => true | _ => false end) with false by (destruct hidden; auto). rewrite orb_false_r.
  destruct (Z.ltb_spec (0 + Z.of_nat W + Z.of_nat B) (2 ^ 32)) as [T|T].
  2: { split; [auto|]. intros Y. apply XC in Y. lia. }
  cbn [mbind].
  destruct (Z.eqb_spec (Z.of_nat (length wb)) (0 + Z.of_nat W + Z.of_nat B)) as [Q|Q]; cbn [negb].
  2: { split; [auto|]. intros Y. apply XC in Y. lia. }
  split; [intros Y; exfalso; apply Y, XC; lia|]. intros _.
  destruct (all_some acts A4) as [fs Ef].
  assert (Lf : length fs = length (hidden ++ [n_out])) by (rewrite app_length; cbn; rewrite <- (map_length Some fs), <- Ef; lia).
  destruct (layers_ok L wb ltac:(lia) N acts W HN (hidden ++ [n_out]) fs [] [] (Z.of_nat (length ins)) ins 0 0) as (out & Eo & Lo & Vo); auto.
  - now rewrite Nat2Z.id.
  - rewrite Nat2Z.id. fold (sizes_of hidden n_out). fold sizes W. lia.
  - fold (sizes_of hidden n_out). fold sizes B. lia.
  - exists out, fs. split; [auto|]. split; [exact Eo|]. split; [rewrite Lo, last_last; auto|].
    intros rho x v phis F Hx Hv. specialize (Vo rho x v phis F Hx Hv). rewrite Nat2Z.id in Vo. exact Vo.
Qed.
End Whole.
