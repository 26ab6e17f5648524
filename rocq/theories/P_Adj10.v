(* One more order of derivatives, and all of them. *)
From Coquelicot Require Import Coquelicot.
From Coq Require Import String Bool ZArith NArith Reals List Lia Arith Sorted Permutation.
From Verif Require Import M_Expr M_Dag M_Dec S_Expr S_Dag S_Dec P_Subs S_Diff M_Dtens S_Dtens P_Dtens M_Adj S_Adj P_Adj1 P_Adj2 P_Adj4 P_Adj5 P_Adj8 P_Adj9.
Import ListNotations.
Local Open Scope nat_scope.
Set Bullet Behavior "Strict Subproofs".

Lemma map_fst_combine {A B} : forall (l : list A) (l' : list B), length l' = length l -> map fst (combine l l') = l.
Proof. induction l as [|x l IH]; intros [|y l'] H; try discriminate; [reflexivity|]. cbn. rewrite IH; [reflexivity | now injection H]. Qed.
Lemma in_combine_nth {A B} : forall (l : list A) (l' : list B) x y, In (x, y) (combine l l') -> exists c, nth_error l c = Some x /\ nth_error l' c = Some y.
Proof.
  induction l as [|a l IH]; intros [|b l'] x y H; try (destruct H; fail). destruct H as [E|H]; [injection E as -> ->; exists 0; auto|]. destruct (IH l' x y H) as (c & H1 & H2). exists (S c). auto.
Qed.
Lemma nth_error_skipn {A} (l : list A) : forall n k, nth_error (skipn n l) k = nth_error l (n + k).
Proof. induction l as [|x l IH]; intros [|n] k; cbn; auto. now destruct k. Qed.

Section Round.
Context {o : nops} {nval : num o -> R} (L : nlaws o nval) (neq : num o -> num o -> bool) (feq : fid (num o) -> fid (num o) -> bool).
Local Notation ex := (expr (num o)).
Context (ug : string -> list ex -> option (list ex)) (share : list ex -> list (dag (num o))) (mode : nat -> nat -> bool).
Hypothesis Hneq : forall x y, neq x y = true -> nval x = nval y.
Hypothesis Hfeq : forall f g, feq f g = true -> f = g.
Hypothesis Hun : user_gradients_uniform o ug.
Hypothesis Hsh : forall l, map erase (share l) = l /\ consistent (share l).

Section One.
Context (es : list ex) (keys : list sidx) (d : dcmp o) (T : list ex) (adj : list (list (nat * ex))).
Hypothesis HD : decomposed o neq feq es d.
Hypothesis HT : trees_of o d T.
Hypothesis HA : make_adj o ug d = MDone adj.
Hypothesis Hlen : length keys = length es.
Local Notation dof := (derivative_of o nval ug).
Local Notation sb := (subs o (smap o T)).

Lemma raw_fwd fuel : forall args j diffs raw, length diffs = length adj -> fwd_args o neq feq fuel d adj keys j args diffs = MDone raw ->
  map fst raw = flat_map (fun i => map (bump_key i) keys) (seq j (length args)) /\
  forall k' x, In (k', x) raw -> exists i a c key e, nth_error args i = Some a /\ nth_error keys c = Some key /\ nth_error es c = Some e /\ k' = bump_key (j + i) key /\ dof e a (sb x).
Proof.
  pose proof (adj_len ug d adj HA) as La. pose proof (dd_len _ _ _ _ _ HD) as Lo.
  induction args as [|a args IH]; intros j diffs raw Hd H; cbn [fwd_args] in H.
  - injection H as <-. split; [reflexivity | intros k' x []].
  - cbn [length seq flat_map].
    assert (K : forall first raw', raw = first ++ raw' -> map fst first = map (bump_key j) keys ->
      (forall k' x, In (k', x) first -> exists c key e, nth_error keys c = Some key /\ nth_error es c = Some e /\ k' = bump_key j key /\ dof e a (sb x)) ->
      (exists diffs', length diffs' = length adj /\ fwd_args o neq feq fuel d adj keys (S j) args diffs' = MDone raw') ->
      map fst raw = map (bump_key j) keys ++ flat_map (fun i => map (bump_key i) keys) (seq (S j) (length args)) /\
      forall k' x, In (k', x) raw -> exists i a0 c key e, nth_error (a :: args) i = Some a0 /\ nth_error keys c = Some key /\ nth_error es c = Some e /\ k' = bump_key (j + i) key /\ dof e a0 (sb x)).
    { intros first raw' -> Hf1 Hf2 (diffs' & Hd' & Hr). destruct (IH _ _ _ Hd' Hr) as (I1 & I2). split; [rewrite map_app, Hf1, I1; reflexivity|].
      intros k' x Hx. apply in_app_iff in Hx. destruct Hx as [Hx|Hx].
      - destruct (Hf2 k' x Hx) as (c & key & e & B1 & B2 & B3 & B4). exists 0, a, c, key, e. rewrite Nat.add_0_r. auto.
      - destruct (I2 k' x Hx) as (i & a0 & c & key & e & B0 & B1 & B2 & B3 & B4). exists (S i), a0, c, key, e. rewrite Nat.add_succ_r. auto. }
    destruct (find_input o neq feq d a) as [input|] eqn:Ef.
    + apply mbind_done in H. destruct H as (D & HF & H). apply mbind_done in H. destruct H as (raw' & Hr & H). injection H as <-.
      pose proof (fwd_length adj _ _ _ _ _ HF) as LD. rewrite Hlen in HF.
      eapply K; [reflexivity | | | exists D; split; [congruence | exact Hr]].
      * rewrite map_fst_combine; [reflexivity|]. rewrite skipn_length, map_length. lia.
      * intros k' x Hx. apply in_combine_nth in Hx. destruct Hx as (c & C1 & C2). rewrite nth_error_map in C1. destruct (nth_error keys c) as [key|] eqn:Ek; [|discriminate]. injection C1 as <-.
        assert (Hc : c < length es) by (rewrite <- Hlen; apply nth_error_Some; congruence). destruct (nth_error es c) as [e|] eqn:Ee; [|apply nth_error_None in Ee; lia].
        exists c, key, e. repeat split; auto. rewrite nth_error_skipn in C2. replace (length D - length keys) with (length (dc_in o d) + length (dc_mid o d)) in C2 by lia.
        exact (fwd_entries L neq feq ug Hneq Hfeq Hun es d T adj HD HT HA fuel a input diffs D Ef Hd HF c e x Ee C2).
    + apply mbind_done in H. destruct H as (raw' & Hr & H). injection H as <-. eapply K; [reflexivity | | | exists diffs; split; [exact Hd | exact Hr]].
      * rewrite map_map. reflexivity.
      * intros k' x Hx. apply in_map_iff in Hx. destruct Hx as (key & E & Hk). injection E as <- <-. apply In_nth_error in Hk. destruct Hk as (c & Ek).
        assert (Hc : c < length es) by (rewrite <- Hlen; apply nth_error_Some; congruence). destruct (nth_error es c) as [e|] eqn:Ee; [|apply nth_error_None in Ee; lia].
        exists c, key, e. repeat split; auto. exact (none_entries L neq feq ug Hneq Hfeq Hun es d T adj HD HT HA a c e Ef Ee).
Qed.
Lemma raw_rev fuel args : forall ks b diffs raw, length diffs = length adj -> (forall c key, nth_error ks c = Some key -> nth_error keys (b + c) = Some key) ->
  rev_outs o neq feq fuel d adj args b ks diffs = MDone raw ->
  map fst raw = flat_map (fun k => map (fun i => bump_key i k) (seq 0 (length args))) ks /\
  forall k' x, In (k', x) raw -> exists i a c key e, nth_error args i = Some a /\ nth_error keys c = Some key /\ nth_error es c = Some e /\ k' = bump_key i key /\ dof e a (sb x).
Proof.
  pose proof (adj_len ug d adj HA) as La. pose proof (dd_len _ _ _ _ _ HD) as Lo.
  induction ks as [|k ks IH]; intros b diffs raw Hd Hks H; cbn [rev_outs] in H.
  - injection H as <-. split; [reflexivity | intros k' x []].
  - apply mbind_done in H. destruct H as (D & HF & H). apply mbind_done in H. destruct H as (raw' & Hr & H). injection H as <-.
    pose proof (rev_length' adj _ _ _ _ _ HF) as LD. destruct (IH (S b) D raw' ltac:(congruence) ltac:(intros c key Hc; replace (S b + c) with (b + S c) by lia; apply Hks; exact Hc) Hr) as (I1 & I2).
    pose proof (Hks 0 k eq_refl) as Hb. rewrite Nat.add_0_r in Hb.
    assert (Hc : b < length es) by (rewrite <- Hlen; apply nth_error_Some; congruence). destruct (nth_error es b) as [e|] eqn:Ee; [|apply nth_error_None in Ee; lia].
    split.
    + rewrite map_app, I1. cbn [flat_map]. f_equal. rewrite map_map. cbn [fst].
      rewrite <- (map_fst_combine (seq 0 (length args)) args) at 2 by (now rewrite seq_length). rewrite map_map. reflexivity.
    + intros k' x Hx. apply in_app_iff in Hx. destruct Hx as [Hx|Hx]; [|exact (I2 k' x Hx)].
      apply in_map_iff in Hx. destruct Hx as ((i & a) & E & Hia). cbn [fst snd] in E. injection E as <- <-. apply in_combine_nth in Hia. destruct Hia as (c & C1 & C2).
      assert (Hca : c < length args) by (apply nth_error_Some; congruence). rewrite (nth_error_nth' _ 0) in C1 by (now rewrite seq_length). rewrite seq_nth in C1 by exact Hca. injection C1 as <-.
      exists c, a, b, k, e. repeat split; auto. exact (rev_entries L neq feq ug Hneq Hfeq Hun es d T adj HD HT HA fuel b e diffs D Ee Hd HF a).
Qed.
End One.

(* The keys of the next order. *)
Lemma in_flat_fwd keys n k' : In k' (flat_map (fun i => map (bump_key i) keys) (seq 0 n)) <-> exists i k, i < n /\ In k keys /\ k' = bump_key i k.
Proof.
  rewrite in_flat_map. split.
  - intros (i & Hi & H). apply in_seq in Hi. apply in_map_iff in H. destruct H as (k & <- & Hk). exists i, k. repeat split; auto. lia.
  - intros (i & k & Hi & Hk & ->). exists i. split; [apply in_seq; lia | now apply in_map].
Qed.
Lemma in_flat_rev keys n k' : In k' (flat_map (fun k => map (fun i => bump_key i k) (seq 0 n)) keys) <-> exists i k, i < n /\ In k keys /\ k' = bump_key i k.
Proof.
  rewrite in_flat_map. split.
  - intros (k & Hk & H). apply in_map_iff in H. destruct H as (i & <- & Hi). apply in_seq in Hi. exists i, k. repeat split; auto. lia.
  - intros (i & k & Hi & Hk & ->). exists k. split; [exact Hk|]. apply in_map_iff. exists i. split; [reflexivity | apply in_seq; lia].
Qed.
Lemma nodup_flat {A B} (f : A -> list B) l : NoDup l -> (forall x, In x l -> NoDup (f x)) -> (forall x y z, In x l -> In y l -> In z (f x) -> In z (f y) -> x = y) -> NoDup (flat_map f l).
Proof.
  induction l as [|x l IH]; intros Hn H1 H2; cbn [flat_map]; [constructor|]. inversion Hn as [|? ? Hx Hn']; subst.
  assert (IH' : NoDup (flat_map f l)) by (apply IH; [exact Hn' | intros; apply H1; now right | intros a b z Ha Hb; apply H2; now right]).
  assert (Hd : forall z, In z (f x) -> ~ In z (flat_map f l)).
  { intros z Hz Hf. apply in_flat_map in Hf. destruct Hf as (y & Hy & Hzy). apply Hx. rewrite (H2 x y z); auto; [now left | now right]. }
  pose proof (H1 x (or_introl eq_refl)) as Hfx. clear - IH' Hd Hfx. induction (f x) as [|z fx IHf]; cbn [app]; [exact IH'|]. inversion Hfx as [|? ? Hz Hfx']; subst. constructor.
  - rewrite in_app_iff. intros [H|H]; [auto | apply (Hd z); [now left | exact H]].
  - apply IHf; [intros y Hy; apply Hd; now right | exact Hfx'].
Qed.
Definition zero_keys (keys : list sidx) : Prop := NoDup keys /\ forall k, In k keys -> snd k = [].
Lemma bump_zero i i' (k k' : sidx) : snd k = [] -> snd k' = [] -> bump_key i k = bump_key i' k' -> i = i' /\ k = k'.
Proof.
  destruct k as [c l], k' as [c' l']. cbn [snd]. intros -> ->. unfold bump_key. cbn [fst snd bump_idx]. intros E. assert (E1 : c = c') by congruence. assert (E2 : N.of_nat i = N.of_nat i') by congruence. apply Nat2N.inj in E2. subst. auto.
Qed.
Lemma nodup_fwd keys n : zero_keys keys -> NoDup (flat_map (fun i => map (bump_key i) keys) (seq 0 n)).
Proof.
  intros [Hn Hz]. apply nodup_flat; [apply seq_NoDup | |].
  - intros i _. clear - Hn Hz. induction keys as [|k keys IH]; cbn [map]; constructor; inversion Hn as [|? ? Hk Hn']; subst.
    + intros H. apply in_map_iff in H. destruct H as (k' & E & Hk'). apply bump_zero in E; [|apply Hz; now right | apply Hz; now left]. destruct E as [_ ->]. contradiction.
    + apply IH; [exact Hn' | intros; apply Hz; now right].
  - intros i j z _ _ H1 H2. apply in_map_iff in H1, H2. destruct H1 as (k & <- & Hk), H2 as (k' & E & Hk'). apply bump_zero in E; auto. symmetry. apply E.
Qed.
Lemma nodup_rev keys n : zero_keys keys -> NoDup (flat_map (fun k => map (fun i => bump_key i k) (seq 0 n)) keys).
Proof.
  intros [Hn Hz]. apply nodup_flat; [exact Hn | |].
  - intros k Hk. specialize (Hz k Hk). generalize (seq_NoDup n 0). induction (seq 0 n) as [|i l IH]; intros Hs; cbn [map]; constructor; inversion Hs as [|? ? Hi Hs']; subst.
    + intros H. apply in_map_iff in H. destruct H as (i' & E & Hi'). apply bump_zero in E; auto. destruct E as [-> _]. contradiction.
    + now apply IH.
  - intros k k' z Hk Hk' H1 H2. apply in_map_iff in H1, H2. destruct H1 as (i & <- & _), H2 as (i' & E & _). apply bump_zero in E; auto. symmetry. apply E.
Qed.

(* What is known about the derivatives computed so far. *)
Definition steps (args : list ex) (m : list (sidx * ex)) : Prop :=
  forall c idx' e', In ((c, idx'), e') m -> idx' <> [] ->
  exists j a idx e, one_more idx idx' j /\ nth_error args j = Some a /\ In ((c, idx), e) m /\ derivative_of o nval ug e a e'.
Lemma sorted_app {A} (R : A -> A -> Prop) l l' : StronglySorted R l -> StronglySorted R l' -> (forall x y, In x l -> In y l' -> R x y) -> StronglySorted R (l ++ l').
Proof.
  induction 1 as [|x l Hs IH HF]; intros Hs' H; cbn [app]; [exact Hs'|]. constructor; [apply IH; [exact Hs' | intros; apply H; [now right | assumption]]|].
  apply Forall_app. split; [exact HF|]. apply Forall_forall. intros y Hy. apply H; [now left | exact Hy].
Qed.
Lemma round_keys fuel args cur nouts m b d T adj raw : (0 < nouts)%N -> args <> [] -> (N.of_nat (S cur) <= u32_max)%N ->
  complete_tensor nouts (N.of_nat (length args)) (N.of_nat cur) m ->
  (forall p, In p (skipn b m) <-> In p m /\ total (snd (fst p)) = N.of_nat cur) ->
  decomposed o neq feq (map snd (skipn b m)) d -> trees_of o d T -> make_adj o ug d = MDone adj ->
  (if mode (length (map fst (skipn b m))) (length args)
   then fwd_args o neq feq fuel d adj (map fst (skipn b m)) 0 args (map (fun _ => dbl o 0) adj)
   else rev_outs o neq feq fuel d adj args 0 (map fst (skipn b m)) (map (fun _ => dbl o 0) adj)) = MDone raw ->
  let ded := match cur with O => raw | _ => emplace_all o [] raw end in
  NoDup (map fst ded) /\ (forall p, In p ded -> In p raw) /\
  (forall k, In k (map fst ded) <-> canonical k /\ (fst k < nouts)%N /\ Forall (fun p => (fst p < N.of_nat (length args))%N) (snd k) /\ total (snd k) = N.of_nat (S cur)) /\
  ok_keys ded /\
  (forall k' x, In (k', x) raw -> exists i a c key e, nth_error args i = Some a /\ nth_error (map fst (skipn b m)) c = Some key /\ nth_error (map snd (skipn b m)) c = Some e /\ k' = bump_key i key /\ derivative_of o nval ug e a (subs o (smap o T) x)).
Proof.
  intros Ho Ha Hu Hc Hprev HD HT HA Hraw. assert (Hna : (0 < N.of_nat (length args))%N) by (destruct args; [congruence | cbn [length]; lia]).
  set (prev := skipn b m) in *. set (keys := map fst prev) in *.
  assert (Hlen : length keys = length (map snd prev)) by (unfold keys; now rewrite !map_length).
  assert (Hd0 : length (map (fun _ : list (nat * ex) => dbl o 0) adj) = length adj) by apply map_length.
  destruct Hc as [Hs Hi].
  assert (Hkeys : forall k, In k keys <-> in_tensor nouts (N.of_nat (length args)) (N.of_nat cur) k /\ total (snd k) = N.of_nat cur).
  { intros k. unfold keys. rewrite in_map_iff. split.
    - intros (p & <- & Hp). apply Hprev in Hp. destruct Hp as [Hp Ht]. split; [apply Hi; now apply in_map | exact Ht].
    - intros [Hk Ht]. apply Hi, in_map_iff in Hk. destruct Hk as (p & <- & Hp). exists p. split; [reflexivity | apply Hprev; auto]. }
  assert (Hnd : NoDup keys). { apply keys_nodup. unfold keys, prev. rewrite <- skipn_map. now apply skipn_sorted. }
  assert (Q : (NoDup (map fst raw) \/ cur <> 0) /\ (forall k', In k' (map fst raw) <-> exists i k, i < length args /\ In k keys /\ k' = bump_key i k) /\
    (forall k' x, In (k', x) raw -> exists i a c key e, nth_error args i = Some a /\ nth_error keys c = Some key /\ nth_error (map snd prev) c = Some e /\ k' = bump_key i key /\ derivative_of o nval ug e a (subs o (smap o T) x))).
  { assert (Z : cur = 0 -> zero_keys keys).
    { intros ->. split; [exact Hnd|]. intros k Hk. apply Hkeys in Hk. destruct Hk as [(Ck & _) Ht]. now apply total_zero. }
    destruct (mode (length keys) (length args)).
    - destruct (raw_fwd (map snd prev) keys d T adj HD HT HA Hlen fuel args 0 _ raw Hd0 Hraw) as (R1 & R2). split; [|split].
      + destruct (Nat.eq_dec cur 0) as [E|E]; [left | now right]. rewrite R1. apply nodup_fwd. auto.
      + intros k'. rewrite R1. apply in_flat_fwd.
      + exact R2.
    - destruct (raw_rev (map snd prev) keys d T adj HD HT HA Hlen fuel args keys 0 _ raw Hd0 (fun c key E => E) Hraw) as (R1 & R2). split; [|split].
      + destruct (Nat.eq_dec cur 0) as [E|E]; [left | now right]. rewrite R1. apply nodup_rev. auto.
      + intros k'. rewrite R1. apply in_flat_rev.
      + exact R2. }
  destruct Q as (Q1 & Q2 & Q3).
  set (ded := match cur with O => raw | _ => emplace_all o [] raw end).
  assert (D : NoDup (map fst ded) /\ (forall p, In p ded -> In p raw) /\ forall k, In k (map fst ded) <-> In k (map fst raw)).
  { destruct (emplace_ok raw [] (NoDup_nil _)) as (A1 & A2 & A3). unfold ded. destruct cur.
    - destruct Q1 as [Q1|Q1]; [|congruence]. split; [exact Q1|]. split; [auto | tauto].
    - split; [exact A1|]. split; [intros p Hp; apply A2 in Hp; destruct Hp as [[]|Hp]; exact Hp|]. intros k. rewrite A3. cbn. tauto. }
  destruct D as (D1 & D2 & D3).
  (* the new keys *)
  assert (NK : forall k, In k (map fst ded) <-> canonical k /\ (fst k < nouts)%N /\ Forall (fun p => (fst p < N.of_nat (length args))%N) (snd k) /\ total (snd k) = N.of_nat (S cur)).
  { intros k. rewrite D3, Q2. split.
    - intros (i & k0 & Hi0 & Hk0 & ->). apply Hkeys in Hk0. destruct Hk0 as ((C0 & F0 & A0 & _) & T0). unfold bump_key. cbn [fst snd]. split; [unfold canonical; cbn [snd]; apply bump_canon; exact C0|].
      split; [exact F0|]. split; [apply bump_args; [lia | exact A0]|]. rewrite bump_total, T0. lia.
    - intros (C0 & F0 & A0 & T0). destruct k as [c l]. cbn [fst snd] in *. destruct (unbump (N.of_nat (length args)) l C0 A0) as (j & l' & Hj & Cl & Al & ->); [intros ->; cbn in T0; lia|].
      exists (N.to_nat j), (c, l'). split; [lia|]. split; [|unfold bump_key; cbn [fst snd]; now rewrite N2Nat.id].
      apply Hkeys. rewrite bump_total in T0. cbn [snd]. assert (total l' = N.of_nat cur) by lia. split; [|assumption]. split; [exact Cl|]. split; [exact F0|]. split; [exact Al|]. cbn [snd]. lia. }
  assert (OK : ok_keys ded).
  { unfold ok_keys. apply Forall_forall. intros p Hp. apply (in_map fst) in Hp. apply NK in Hp. destruct Hp as (A & _ & _ & B). split; [exact A|]. unfold fits. rewrite B. exact Hu. }
  cbv zeta. fold ded. split; [exact D1|]. split; [exact D2|]. split; [exact NK|]. split; [exact OK|]. exact Q3.
Qed.
Lemma next_order_ok fuel args cur nouts m m' : (0 < nouts)%N -> args <> [] -> (N.of_nat (S cur) <= u32_max)%N ->
  complete_tensor nouts (N.of_nat (length args)) (N.of_nat cur) m -> steps args m ->
  next_order o neq feq ug share mode fuel args cur m = MDone m' ->
  complete_tensor nouts (N.of_nat (length args)) (N.of_nat (S cur)) m' /\ steps args m' /\ exists new, m' = m ++ new /\ Forall (fun p => snd (fst p) <> []) new.
Proof.
  intros Ho Ha Hu Hc Hst H. assert (Hna : (0 < N.of_nat (length args))%N) by (destruct args; [congruence | cbn [length]; lia]).
  destruct (search_ok nouts (N.of_nat (length args)) cur m Ho Hna ltac:(lia) Hc) as (b & Eb & Hne & Hprev).
  unfold next_order in H. fold (pure_key cur) in H. rewrite Eb in H. destruct (skipn b m) as [|p0 prev0] eqn:Ep; [congruence|]. rewrite <- Ep in *. set (prev := skipn b m) in *.
  clear p0 prev0 Ep. set (keys := map fst prev) in *. apply mbind_done in H. destruct H as (d & Hd & H). apply mbind_done in H. destruct H as (adj & HA & H).
  pose proof (diff_decompose_spec o neq feq share (map snd prev) fuel d Hsh Hd) as HD.
  destruct (make_subs_spec o d (dd_wf _ _ _ _ _ HD)) as (T & ET & HT). rewrite ET in H. apply mbind_done in H. destruct H as (raw & Hraw & H).
  destruct (round_keys fuel args cur nouts m b d T adj raw Ho Ha Hu Hc Hprev HD HT HA Hraw) as (D1 & D2 & NK & OK & Q3). fold prev in Q3. fold keys in Q3.
  set (ded := match cur with O => raw | _ => emplace_all o [] raw end) in *. destruct Hc as [Hs Hi].
  destruct (sort_keys_ok ded D1 OK) as (new & En & Pn & Sn). rewrite En in H. injection H as <-.
  set (new' := map (fun p => (fst p, subs o (smap o T) (snd p))) new).
  assert (Hmf : map fst new' = map fst new) by (unfold new'; rewrite map_map; reflexivity).
  assert (NK' : forall k, In k (map fst new) <-> In k (map fst ded)).
  { intros k. split; intros Hk; [apply (Permutation_in _ (Permutation_map fst (Permutation_sym Pn)) Hk) | apply (Permutation_in _ (Permutation_map fst Pn) Hk)]. }
  split; [|split].
  - split.
    + rewrite map_app, Hmf. apply sorted_app; [exact Hs | exact Sn|]. intros x y Hx Hy. apply Hi in Hx. destruct Hx as (_ & _ & _ & Hx). apply NK', NK in Hy. destruct Hy as (_ & _ & _ & Hy). left. lia.
    + intros v. rewrite map_app, in_app_iff, Hmf, Hi, NK', NK. unfold in_tensor. split.
      * intros [(A & B & C & E)|(A & B & C & E)]; repeat split; auto; try apply A; lia.
      * intros (A & B & C & E). destruct (N.eq_dec (total (snd v)) (N.of_nat (S cur))) as [E2|E2]; [right; auto | left; repeat split; auto; try apply A; lia].
  - intros c idx' e' Hin Hnil. apply in_app_iff in Hin. destruct Hin as [Hin|Hin].
    + destruct (Hst c idx' e' Hin Hnil) as (j & a & idx & e & B1 & B2 & B3 & B4). exists j, a, idx, e. repeat split; auto. apply in_app_iff. now left.
    + unfold new' in Hin. apply in_map_iff in Hin. destruct Hin as ((k & x) & E & Hx). cbn [fst snd] in E. injection E as -> <-.
      apply (Permutation_in _ (Permutation_sym Pn)), D2 in Hx. destruct (Q3 _ _ Hx) as (i & a & cc & key & e & C1 & C2 & C3 & C4 & C5).
      destruct key as [c0 idx]. unfold bump_key in C4. cbn [fst snd] in C4. injection C4 as -> ->. exists i, a, idx, e.
      assert (Hpe : In ((c0, idx), e) prev).
      { unfold keys in C2. rewrite nth_error_map in C2, C3. destruct (nth_error prev cc) as [[k1 e1]|] eqn:E1; [|discriminate]. cbn in C2, C3. injection C2 as ->. injection C3 as ->. eapply nth_error_In; eauto. }
      apply Hprev in Hpe. destruct Hpe as [Hpe _]. repeat split; auto.
      * intros q. apply bump_ord. assert (Hk : In (c0, idx) (map fst m)) by (apply in_map_iff; exists ((c0, idx), e); auto). apply Hi in Hk. apply Hk.
      * apply in_app_iff. now left.
  - exists new'. split; [reflexivity|]. apply Forall_forall. intros p Hp. apply (in_map fst) in Hp. rewrite Hmf in Hp. apply NK', NK in Hp. destruct Hp as (_ & _ & _ & Ht). intros E. rewrite E in Ht. cbn in Ht. lia.
Qed.
Lemma orders_ok fuel args nouts : (0 < nouts)%N -> args <> [] -> forall n cur m m', (N.of_nat (cur + n) <= u32_max)%N ->
  complete_tensor nouts (N.of_nat (length args)) (N.of_nat cur) m -> steps args m ->
  orders o neq feq ug share mode fuel args cur n m = MDone m' ->
  complete_tensor nouts (N.of_nat (length args)) (N.of_nat (cur + n)) m' /\ steps args m' /\ exists new, m' = m ++ new /\ Forall (fun p => snd (fst p) <> []) new.
Proof.
  intros Ho Ha. induction n as [|n IH]; intros cur m m' Hu Hc Hs H; cbn [orders] in H.
  - injection H as <-. rewrite Nat.add_0_r. split; [exact Hc|]. split; [exact Hs|]. exists []. rewrite app_nil_r. auto.
  - apply mbind_done in H. destruct H as (m1 & H1 & H2). destruct (next_order_ok fuel args cur nouts m m1 Ho Ha ltac:(lia) Hc Hs H1) as (A1 & A2 & new1 & -> & A3).
    replace (cur + S n) with (S cur + n) in * by lia. destruct (IH (S cur) _ m' Hu A1 A2 H2) as (B1 & B2 & new2 & -> & B3). split; [exact B1|]. split; [exact B2|].
    exists (new1 ++ new2). split; [now rewrite app_assoc | apply Forall_app; auto].
Qed.
Lemma order0_complete (es : list ex) nargs : complete_tensor (N.of_nat (length es)) nargs 0 (order0 o es).
Proof.
  assert (E : map fst (order0 o es) = map (fun i => (N.of_nat i, [])) (seq 0 (length es))).
  { unfold order0. rewrite map_map. cbn [fst]. rewrite <- (map_fst_combine (seq 0 (length es)) es) at 2 by (now rewrite seq_length). rewrite map_map. reflexivity. }
  unfold complete_tensor. rewrite E. split.
  - generalize (length es). intros n. assert (K : forall b, StronglySorted before (map (fun i => (N.of_nat i, []) : sidx) (seq b n))).
    { induction n as [|n IH]; intros b; cbn [seq map]; constructor; [apply IH|]. apply Forall_forall. intros x Hx. apply in_map_iff in Hx. destruct Hx as (i & <- & Hi). apply in_seq in Hi. right. split; [reflexivity|]. left. cbn [fst]. lia. }
    apply K.
  - intros v. rewrite in_map_iff. split.
    + intros (i & <- & Hi). apply in_seq in Hi. apply in_zero. lia.
    + intros (C & F & _ & Ht). destruct v as [c l]. cbn [fst snd] in *. exists (N.to_nat c). rewrite N2Nat.id. split; [|apply in_seq; lia]. f_equal. symmetry. apply (total_zero (c, l) C). cbn [snd]. lia.
Qed.
Lemma order0_steps args (es : list ex) : steps args (order0 o es).
Proof.
  intros c idx' e' H Hn. exfalso. apply Hn. unfold order0 in H. apply in_map_iff in H. destruct H as (p & E & _). now injection E as _ <- _.
Qed.
Lemma order0_in (es : list ex) c e : In ((c, []), e) (order0 o es) <-> nth_error es (N.to_nat c) = Some e.
Proof.
  unfold order0. rewrite in_map_iff. split.
  - intros ((i & x) & E & H). cbn [fst snd] in E. injection E as <- <-. rewrite Nat2N.id. apply in_combine_nth in H. destruct H as (k & H1 & H2).
    assert (Hk : k < length es) by (apply nth_error_Some; congruence). rewrite (nth_error_nth' _ 0) in H1 by (now rewrite seq_length). rewrite seq_nth in H1 by exact Hk. injection H1 as <-. exact H2.
  - intros H. exists (N.to_nat c, e). cbn [fst snd]. rewrite N2Nat.id. split; [reflexivity|].
    assert (Hk : N.to_nat c < length es) by (apply nth_error_Some; congruence).
    assert (K : forall (es : list ex) b k, nth_error es k = Some e -> In (b + k, e) (combine (seq b (length es)) es)).
    { clear. induction es as [|x es IH]; intros b [|k] H; try discriminate; cbn [length seq combine].
      - left. cbn in H. injection H as ->. now rewrite Nat.add_0_r.
      - right. replace (b + S k) with (S b + k) by lia. now apply IH. }
    exact (K es 0 _ H).
Qed.
Lemma impl_ok fuel es args order m : es <> [] -> args <> [] -> (N.of_nat order <= u32_max)%N ->
  diff_tensors_impl o neq feq ug share mode fuel es args order = MDone m ->
  complete_tensor (N.of_nat (length es)) (N.of_nat (length args)) (N.of_nat order) m /\ steps args m /\
  forall c e, In ((c, []), e) m <-> nth_error es (N.to_nat c) = Some e.
Proof.
  intros He Ha Hu H. unfold diff_tensors_impl in H.
  destruct (orders_ok fuel args (N.of_nat (length es)) ltac:(destruct es; [congruence | cbn [length]; lia]) Ha order 0 (order0 o es) m Hu (order0_complete es _) (order0_steps args es) H) as (A1 & A2 & new & -> & A3).
  split; [exact A1|]. split; [exact A2|]. intros c e. rewrite in_app_iff, order0_in. split; [|auto]. intros [E|E]; [exact E|]. exfalso. rewrite Forall_forall in A3. now apply (A3 _ E).
Qed.
End Round.
