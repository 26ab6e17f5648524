(* diff_tensors() succeeds when all the functions have a gradient. *)
From Coquelicot Require Import Coquelicot.
From Coq Require Import String Bool ZArith NArith Reals List Lia Arith Sorted Permutation.
From Verif Require Import M_Expr M_Dag M_Dec M_Taylor S_Expr S_Dag S_Dec P_Subs P_Dec S_Diff M_Dtens S_Dtens P_Dtens M_Adj S_Adj P_Adj1 P_Adj2 P_Adj3 P_Adj4 P_Adj5 P_Adj7 P_Adj8 P_Adj9 P_Adj10 P_Adj11.
Import ListNotations.
Local Open Scope nat_scope.
Set Bullet Behavior "Strict Subproofs".

Section Total.
Context {o : nops} {nval : num o -> R} (L : nlaws o nval) (neq : num o -> num o -> bool) (feq : fid (num o) -> fid (num o) -> bool).
Local Notation ex := (expr (num o)).
Context (ug : string -> list ex -> option (list ex)) (share : list ex -> list (dag (num o))) (mode : nat -> nat -> bool).
Hypothesis Hneq : forall x y, neq x y = true -> nval x = nval y.
Hypothesis Hfeq : forall f g, feq f g = true -> f = g.
Hypothesis Hun : user_gradients_uniform o ug.
Hypothesis Hsh : forall l, map erase (share l) = l /\ consistent (share l).
Hypothesis Hgd : gradients_differentiable o ug.
Local Notation df := (differentiable o ug).
Local Notation mexp l := (map (@fst ex (list nat)) l).

Section One.
Context (es : list ex) (d : dcmp o).
Hypothesis HD : decomposed o neq feq es d.
Hypothesis Hes : Forall df es.
Lemma mid_good f args : In (EFun f args) (mexp (dc_mid o d)) -> good o ug f (length args).
Proof.
  intros H. destruct (dd_from _ _ _ _ _ HD f args H) as (e & args0 & Hin & Ho & El). apply in_map_iff in Hin. destruct Hin as (e0 & <- & Hin).
  rewrite Forall_forall in Hes. pose proof (df_split_prods o ug 2 e0 (Hes _ Hin)) as Hd. intros args' E. apply (Hd f args0 Ho). apply Forall2_len in El. congruence.
Qed.
Lemma elt_adj_total k f args : Forall (arg_ok k) args -> good o ug f (length args) -> exists l, elt_adj o ug (EFun f args) = MDone l /\ Forall (fun p => df (snd p)) l.
Proof.
  intros Hok Hg. cbn [elt_adj]. destruct (gradient o ug f args) as [g|] eqn:Eg; [|exfalso; now apply (Hg args eq_refl)].
  assert (Hdg : Forall df g).
  { apply (df_gradient o ug Hgd f args g); [|exact Eg]. rewrite Forall_forall in *. intros a Ha. specialize (Hok a Ha). destruct a; try (apply df_leaf; exact I). destruct Hok. }
  destruct (grad_map_ok (nval := nval) (mkEnv (fun _ => None) (fun _ => None) None (fun _ _ _ => None) (fun _ _ => None)) (fun _ => R0) args g [] (gradient_length ug f args g Eg) (SSorted_nil _)) as (_ & A2 & A3 & _).
  match goal with |- context [mmap ?F ?l] => destruct (mmap_total F l) as (ys & Hys) end.
  - intros p Hp. assert (Hk : In (fst p) (map fst (grad_map o args g []))) by now apply in_map. apply A2 in Hk. destruct Hk as [Hk|[]].
    rewrite Forall_forall in Hok. destruct (Hok _ Hk) as (j & _ & ->). rewrite uname_index. eauto.
  - rewrite Hys. exists ys. split; [reflexivity|]. apply mmap_done in Hys. apply Forall_forall. intros y Hy.
    destruct (Forall2_in_r_ex _ _ _ Hys y Hy) as (p & Hp & E). destruct (uname_to_index (fst p)) as [j|]; [|discriminate]. injection E as <-. cbn [snd].
    apply df_mk_sum. apply Forall_forall. intros z Hz. destruct p as [k0 l0]. cbn [snd] in Hz. destruct (A3 k0 l0 z Hp Hz) as [(i & _ & Hi)|(l' & [] & _)].
    rewrite Forall_forall in Hdg. apply Hdg. eapply nth_error_In; eauto.
Qed.
Definition adj_df (adj : list (list (nat * ex))) : Prop := Forall (Forall (fun p => df (snd p))) adj.
Lemma make_adj_total : exists adj, make_adj o ug d = MDone adj /\ adj_df adj.
Proof.
  destruct (dd_wf _ _ _ _ _ HD) as [HB HO]. unfold make_adj.
  assert (H1 : exists am, mmap (fun p => elt_adj o ug (fst p)) (dc_mid o d) = MDone am).
  { apply mmap_total. intros p Hp. assert (Hin : In (fst p) (mexp (dc_mid o d))) by now apply in_map.
    pose proof (dd_fun _ _ _ _ _ HD) as HP. rewrite Forall_forall in HP. destruct (HP _ Hin) as (f & args & E & _). rewrite E in *.
    apply In_nth_error in Hin. destruct Hin as (k & Hk). pose proof (HB _ _ Hk) as Hok. apply nth_error_In in Hk.
    destruct (elt_adj_total _ f args Hok (mid_good f args Hk)) as (l & El & _). eauto. }
  destruct H1 as (am & Ham). rewrite Ham. cbn [mbind].
  assert (H2 : exists ao, mmap (fun p => out_adj o (fst p)) (dc_out o d) = MDone ao).
  { apply mmap_total. intros p Hp. rewrite Forall_map, Forall_forall in HO. specialize (HO p Hp). unfold out_adj. destruct (fst p); eauto. destruct HO as (j & _ & ->). rewrite uname_index. eauto. }
  destruct H2 as (ao & Hao). rewrite Hao. cbn [mbind]. eexists. split; [reflexivity|]. unfold adj_df. rewrite !Forall_app. split; [|split].
  - rewrite Forall_map. apply Forall_forall. constructor.
  - apply mmap_done in Ham. apply Forall_forall. intros y Hy. destruct (Forall2_in_r_ex _ _ _ Ham y Hy) as (p & Hp & E). assert (Hin : In (fst p) (mexp (dc_mid o d))) by now apply in_map.
    pose proof (dd_fun _ _ _ _ _ HD) as HP. rewrite Forall_forall in HP. destruct (HP _ Hin) as (f & args & Ef & _). rewrite Ef in *.
    apply In_nth_error in Hin. destruct Hin as (k & Hk). pose proof (HB _ _ Hk) as Hok. apply nth_error_In in Hk.
    destruct (elt_adj_total _ f args Hok (mid_good f args Hk)) as (l & El & Hl). congruence.
  - apply mmap_done in Hao. apply Forall_forall. intros y Hy. destruct (Forall2_in_r_ex _ _ _ Hao y Hy) as (p & Hp & E). unfold out_adj in E.
    destruct (fst p); try (injection E as <-; constructor; fail). destruct (uname_to_index s); [|discriminate]. injection E as <-. constructor; [apply df_dbl | constructor].
Qed.
Lemma trees_df T : trees_of o d T -> make_subs o d = Some (smap o T) -> Forall (fun p => df (snd p)) (smap o T).
Proof.
  intros HT HS. unfold make_subs in HS. cbv zeta in HS.
  assert (A : forall outs i sm sm', Forall (fun p : string * ex => df (snd p)) sm -> (forall p, In p outs -> match fst p with EFun _ _ => False | _ => True end) ->
    out_map o i sm outs = Some sm' -> Forall (fun p : string * ex => df (snd p)) sm').
  { induction outs as [|p outs IH]; intros i sm sm' Hs Hl E; cbn [out_map] in E; [now injection E as <-|].
    assert (K : forall t, df t -> Forall (fun q : string * ex => df (snd q)) (sm ++ [(uname i, t)])) by (intros t Ht; apply Forall_app; split; [exact Hs | constructor; [exact Ht | constructor]]).
    assert (Hl' : forall p, In p outs -> match fst p with EFun _ _ => False | _ => True end) by (intros q Hq; apply Hl; now right).
    pose proof (Hl p (or_introl eq_refl)) as Hp. destruct (fst p) as [x|s|q|f args]; [| | |destruct Hp].
    - refine (IH _ _ _ (K _ _) Hl' E). apply df_num.
    - destruct (assoc s sm) as [t|] eqn:Es; [|discriminate]. eapply IH; [apply K | exact Hl' | exact E].
      clear - Es Hs. induction sm as [|[k v] sm IH]; cbn in Es; [discriminate|]. inversion Hs; subst. destruct (String.eqb s k); [injection Es as <-; assumption | now apply IH].
    - refine (IH _ _ _ (K _ _) Hl' E). apply df_leaf. exact I. }
  assert (B : forall mid i sm, Forall (fun p : string * ex => df (snd p)) sm -> (forall p, In p mid -> df (fst p)) -> Forall (fun p : string * ex => df (snd p)) (mid_map o i sm mid)).
  { induction mid as [|p mid IH]; intros i sm Hs Hl; cbn [mid_map]; [exact Hs|]. apply IH; [|intros q Hq; apply Hl; now right].
    apply Forall_app. split; [exact Hs|]. constructor; [|constructor]. cbn [snd]. apply df_subs; [apply Hl; now left | exact Hs]. }
  destruct (dd_wf _ _ _ _ _ HD) as [HB HO]. eapply A; [| |exact HS].
  - apply B.
    + rewrite Forall_map. apply Forall_forall. intros q Hq. cbn [snd]. destruct q as [n p]. apply in_combine_r in Hq. cbn [snd]. rewrite (dd_in _ _ _ _ _ HD) in Hq. unfold in_elts in Hq.
      apply df_leaf. apply in_app_iff in Hq. destruct Hq as [Hq|Hq]; apply in_map_iff in Hq; destruct Hq as (y & <- & _); exact I.
    + intros p Hp. assert (Hin : In (fst p) (mexp (dc_mid o d))) by now apply in_map.
      pose proof (dd_fun _ _ _ _ _ HD) as HP. rewrite Forall_forall in HP. destruct (HP _ Hin) as (f & args & Ef & _). rewrite Ef in *.
      apply df_fun. split; [now apply mid_good|]. apply In_nth_error in Hin. destruct Hin as (k & Hk). pose proof (HB _ _ Hk) as Hok. cbn in Hok.
      eapply Forall_impl; [|exact Hok]. intros a Ha. apply df_leaf. destruct a; [exact I .. | destruct Ha].
  - intros p Hp. rewrite Forall_map, Forall_forall in HO. specialize (HO p Hp). destruct (fst p); [exact I .. | destruct HO].
Qed.

Context (T : list ex) (adj : list (list (nat * ex))).
Hypothesis HT : trees_of o d T.
Hypothesis HA : make_adj o ug d = MDone adj.
Hypothesis Hadj : adj_df adj.
Local Notation dp := (dep o adj).
Lemma dp_back i j : In j (dp i) -> j < i.
Proof. exact (h_back L neq feq ug es d T adj HD HT HA i j). Qed.
Lemma dp_nd i : NoDup (dp i).
Proof. exact (h_nd L neq feq ug es d T adj HD HT HA i). Qed.
Lemma dp_bound i j : In j (dp i) -> i < length adj.
Proof. intros H. destruct (Nat.lt_ge_cases i (length adj)) as [Hi|Hi]; [exact Hi|]. unfold dep in H. rewrite nth_overflow in H by exact Hi. destruct H. Qed.
Lemma rdp i j : In i (revdep o adj j) <-> In j (dp i).
Proof.
  unfold revdep. rewrite filter_In, in_seq. unfold memb. rewrite existsb_exists. split.
  - intros [_ (x & Hx & E)]. apply Nat.eqb_eq in E. now subst.
  - intros H. split; [apply dp_bound in H; lia|]. exists j. rewrite Nat.eqb_refl. auto.
Qed.
Lemma rdp_nd j : NoDup (revdep o adj j).
Proof. unfold revdep. apply NoDup_filter, seq_NoDup. Qed.
Lemma adj_at_total i j : In j (dp i) -> exists a, adj_at o adj i j = Some a /\ df a.
Proof.
  intros H. unfold adj_at. unfold dep in H. destruct (find (fun p => Nat.eqb (fst p) j) (nth i adj [])) as [p|] eqn:E.
  - exists (snd p). split; [reflexivity|]. apply find_some in E. destruct E as [E _]. destruct (nth_in_or_default i adj []) as [Hi|Hi]; [|rewrite Hi in E; destruct E].
    unfold adj_df in Hadj. rewrite Forall_forall in Hadj. specialize (Hadj _ Hi). rewrite Forall_forall in Hadj. now apply Hadj.
  - exfalso. apply in_map_iff in H. destruct H as (p & <- & Hp). pose proof (find_none _ _ E p Hp) as K. cbn in K. rewrite Nat.eqb_refl in K. discriminate.
Qed.
Lemma df_lset l i x : Forall df l -> df x -> Forall df (lset l i x).
Proof. revert i. induction l as [|y l IH]; intros [|i] Hl Hx; cbn [lset]; auto; inversion Hl; subst; constructor; auto. Qed.
Lemma df_fill x : df x -> forall n b l, Forall df l -> Forall df (fill o l b n x).
Proof. intros Hx. unfold fill. induction n as [|n IH]; intros b l Hl; cbn [seq fold_left]; [exact Hl|]. apply IH. now apply df_lset. Qed.
(* The updates keep the property. *)
Lemma upd_df (term : list ex -> nat -> nat -> mres ex) nbs : (forall D cur j t, Forall df D -> In j (nbs cur) -> term D cur j = MDone t -> df t) ->
  forall l D0 D, Forall df D0 -> mfold (upd_step term nbs) D0 l = MDone D -> Forall df D.
Proof.
  intros Ht l D0 D H0. apply (mfold_inv (fun D => Forall df D)); [|exact H0]. intros a b a' Ha H. unfold upd_step in H. apply mbind_done in H. destruct H as (ts & Hts & H). injection H as <-.
  apply df_lset; [exact Ha|]. apply df_mk_sum. apply mmap_done in Hts. apply Forall_forall. intros t Hin. destruct (Forall2_in_r_ex _ _ _ Hts t Hin) as (j & Hj & E). eapply Ht; eauto.
Qed.
Lemma fwd_total nouts input D0 : length D0 = length adj -> Forall df D0 ->
  exists D, (forall fuel, length adj <= fuel -> fwd_pass o fuel adj nouts input D0 = MDone D) /\ length D = length adj /\ Forall df D.
Proof.
  intros Hl Hd.
  destruct (walk_total (revdep o adj) (length adj) (fun c x H => dp_bound x c (proj1 (rdp x c) H)) (length adj) (revdep o adj input) (revdep o adj input) (rdp_nd input)
    (fun x H => dp_bound x input (proj1 (rdp x input) H))) as (deps & Hw).
  { pose proof (NoDup_incl_length (rdp_nd input) (l' := seq 0 (length adj))) as Hn. rewrite seq_length in Hn. assert (length (revdep o adj input) <= length adj); [|lia]. apply Hn. intros x Hx. apply in_seq. apply rdp, dp_bound in Hx. lia. }
  set (D1 := fill o (lset D0 input (dbl o 1)) (length D0 - nouts) nouts (dbl o 0)).
  assert (L1 : length D1 = length adj) by (unfold D1; rewrite fill_length, lset_length; exact Hl).
  assert (H1 : Forall df D1) by (unfold D1; apply df_fill; [apply df_dbl | apply df_lset; [exact Hd | apply df_dbl]]).
  change (fwd_step o adj input deps) with (upd_step (fwd_term o adj input deps) dp) in *.
  destruct (updates_total (fwd_term o adj input deps) dp (sort_nat deps) D1) as (D & HDD).
  { intros D cur j HlD Hc Hj. unfold fwd_term. destruct (_ && _); [eauto|]. pose proof (dp_bound _ _ Hj). pose proof (dp_back _ _ Hj).
    destruct (nth_error D j) as [x|] eqn:E; [|apply nth_error_None in E; lia]. destruct (adj_at_total cur j Hj) as (a & -> & _). eauto. }
  assert (E : forall fuel, length adj <= fuel -> fwd_pass o fuel adj nouts input D0 = MDone D).
  { intros fuel Hf. unfold fwd_pass. rewrite (walk_mono _ _ _ _ _ Hw fuel Hf). cbn [mbind]. exact HDD. }
  exists D. split; [exact E|]. split; [rewrite (fwd_length adj _ _ _ _ _ (E _ (le_n _))); exact Hl|].
  refine (upd_df (fwd_term o adj input deps) dp _ _ _ _ H1 HDD). intros Dx cur j t HDx Hj Ht. unfold fwd_term in Ht. destruct (_ && _); [injection Ht as <-; apply df_dbl|].
  destruct (nth_error Dx j) as [x|] eqn:Ex; [|discriminate]. destruct (adj_at_total cur j Hj) as (a & Ea & Ha). rewrite Ea in Ht. apply (f_equal (fun r => match r with MDone a => a | _ => dbl o 0 end)) in Ht. cbn beta iota in Ht. subst t.
  apply df_mk_mul; [|exact Ha]. rewrite Forall_forall in HDx. apply HDx. eapply nth_error_In; eauto.
Qed.
Lemma rev_total ni out D0 : length D0 = length adj -> Forall df D0 ->
  exists D, (forall fuel, length adj <= fuel -> rev_pass o fuel adj ni out D0 = MDone D) /\ length D = length adj /\ Forall df D.
Proof.
  intros Hl Hd.
  assert (Hb : forall c x, In x (dp c) -> x < length adj) by (intros c x H; pose proof (dp_back _ _ H); pose proof (dp_bound _ _ H); lia).
  destruct (walk_total dp (length adj) Hb (length adj) (dp out) (dp out) (dp_nd out) (fun x H => Hb out x H)) as (deps & Hw).
  { pose proof (NoDup_incl_length (dp_nd out) (l' := seq 0 (length adj))) as Hn. rewrite seq_length in Hn. assert (length (dp out) <= length adj); [|lia]. apply Hn. intros x Hx. apply in_seq. apply Hb in Hx. lia. }
  set (D1 := fill o (lset D0 out (dbl o 1)) 0 ni (dbl o 0)).
  assert (L1 : length D1 = length adj) by (unfold D1; rewrite fill_length, lset_length; exact Hl).
  assert (H1 : Forall df D1) by (unfold D1; apply df_fill; [apply df_dbl | apply df_lset; [exact Hd | apply df_dbl]]).
  destruct (updates_total (rev_term o adj out deps) (revdep o adj) (rev (sort_nat deps)) D1) as (D & HDD).
  { intros D cur j HlD Hc Hj. unfold rev_term. destruct (_ && _); [eauto|]. apply rdp in Hj. pose proof (dp_bound _ _ Hj).
    destruct (nth_error D j) as [x|] eqn:E; [|apply nth_error_None in E; lia]. destruct (adj_at_total j cur Hj) as (a & -> & _). eauto. }
  assert (E : forall fuel, length adj <= fuel -> rev_pass o fuel adj ni out D0 = MDone D).
  { intros fuel Hf. unfold rev_pass. rewrite (walk_mono _ _ _ _ _ Hw fuel Hf). cbn [mbind]. exact HDD. }
  exists D. split; [exact E|]. split; [rewrite (rev_length' adj _ _ _ _ _ (E _ (le_n _))); exact Hl|].
  refine (upd_df (rev_term o adj out deps) (revdep o adj) _ _ _ _ H1 HDD). intros Dx cur j t HDx Hj Ht. unfold rev_term in Ht. destruct (_ && _); [injection Ht as <-; apply df_dbl|].
  apply rdp in Hj. destruct (nth_error Dx j) as [x|] eqn:Ex; [|discriminate]. destruct (adj_at_total j cur Hj) as (a & Ea & Ha). rewrite Ea in Ht. apply (f_equal (fun r => match r with MDone a => a | _ => dbl o 0 end)) in Ht. cbn beta iota in Ht. subst t.
  apply df_mk_mul; [|exact Ha]. rewrite Forall_forall in HDx. apply HDx. eapply nth_error_In; eauto.
Qed.
Lemma fwd_args_total keys : forall args j D0, length D0 = length adj -> Forall df D0 ->
  exists raw, (forall fuel, length adj <= fuel -> fwd_args o neq feq fuel d adj keys j args D0 = MDone raw) /\ Forall (fun p => df (snd p)) raw.
Proof.
  induction args as [|a args IH]; intros j D0 Hl Hd; cbn [fwd_args]; [exists []; split; [reflexivity | constructor]|].
  destruct (find_input o neq feq d a) as [input|].
  - destruct (fwd_total (length keys) input D0 Hl Hd) as (D & E & LD & HDf). destruct (IH (S j) D LD HDf) as (raw & Er & Hr). eexists. split.
    + intros fuel Hf. rewrite (E fuel Hf). cbn [mbind]. rewrite (Er fuel Hf). cbn [mbind]. reflexivity.
    + apply Forall_app. split; [|exact Hr]. apply Forall_forall. intros [k x] Hx. apply in_combine_r in Hx. cbn [snd]. rewrite Forall_forall in HDf. apply HDf.
      rewrite <- (firstn_skipn (length D - length keys) D). apply in_app_iff. now right.
  - destruct (IH (S j) D0 Hl Hd) as (raw & Er & Hr). eexists. split.
    + intros fuel Hf. rewrite (Er fuel Hf). cbn [mbind]. reflexivity.
    + apply Forall_app. split; [|exact Hr]. rewrite Forall_map. apply Forall_forall. intros x _. apply df_dbl.
Qed.
Lemma rev_outs_total args : forall keys i D0, length D0 = length adj -> Forall df D0 ->
  exists raw, (forall fuel, length adj <= fuel -> rev_outs o neq feq fuel d adj args i keys D0 = MDone raw) /\ Forall (fun p => df (snd p)) raw.
Proof.
  induction keys as [|k keys IH]; intros i D0 Hl Hd; cbn [rev_outs]; [exists []; split; [reflexivity | constructor]|].
  destruct (rev_total (length (dc_in o d)) (length (dc_in o d) + length (dc_mid o d) + i) D0 Hl Hd) as (D & E & LD & HDf). destruct (IH (S i) D LD HDf) as (raw & Er & Hr). eexists. split.
  - intros fuel Hf. rewrite (E fuel Hf). cbn [mbind]. rewrite (Er fuel Hf). cbn [mbind]. reflexivity.
  - apply Forall_app. split; [|exact Hr]. rewrite Forall_map. apply Forall_forall. intros [j a] _. cbn [snd]. unfold rev_entry. destruct (find_input o neq feq d a) as [x|]; [|apply df_dbl].
    destruct (nth_in_or_default x D (dbl o 0)) as [Hi| ->]; [|apply df_dbl]. rewrite Forall_forall in HDf. now apply HDf.
Qed.
End One.

Lemma next_order_total args cur nouts m : (0 < nouts)%N -> args <> [] -> (N.of_nat (S cur) <= u32_max)%N ->
  complete_tensor nouts (N.of_nat (length args)) (N.of_nat cur) m -> Forall (fun p => df (snd p)) m ->
  exists fuel0 m', (forall fuel, fuel0 <= fuel -> next_order o neq feq ug share mode fuel args cur m = MDone m') /\ Forall (fun p => df (snd p)) m'.
Proof.
  intros Ho Ha Hu Hc Hm. assert (Hna : (0 < N.of_nat (length args))%N) by (destruct args; [congruence | cbn [length]; lia]).
  destruct (search_ok nouts (N.of_nat (length args)) cur m Ho Hna ltac:(lia) Hc) as (b & Eb & Hne & Hprev).
  unfold next_order. fold (pure_key cur). rewrite Eb. cbv zeta.
  assert (Hpd : Forall df (map snd (skipn b m))).
  { rewrite Forall_map. apply Forall_forall. intros p Hp. apply Hprev in Hp. rewrite Forall_forall in Hm. now apply Hm. }
  destruct (diff_decompose_correct o neq feq share (map snd (skipn b m)) Hsh) as (f0 & d & Ed & HD).
  destruct (make_adj_total _ d HD Hpd) as (adj & EA & HA).
  destruct (make_subs_spec o d (dd_wf _ _ _ _ _ HD)) as (T & ET & HT).
  pose proof (trees_df _ d HD Hpd T HT ET) as HTd.
  assert (Hl0 : length (map (fun _ : list (nat * ex) => dbl o 0) adj) = length adj) by apply map_length.
  assert (Hd0 : Forall df (map (fun _ : list (nat * ex) => dbl o 0) adj)) by (rewrite Forall_map; apply Forall_forall; intros; apply df_dbl).
  assert (R : exists raw, (forall fuel, length adj <= fuel ->
    (if mode (length (map fst (skipn b m))) (length args)
     then fwd_args o neq feq fuel d adj (map fst (skipn b m)) 0 args (map (fun _ => dbl o 0) adj)
     else rev_outs o neq feq fuel d adj args 0 (map fst (skipn b m)) (map (fun _ => dbl o 0) adj)) = MDone raw) /\ Forall (fun p => df (snd p)) raw).
  { destruct (mode _ _).
    - exact (fwd_args_total _ d HD T adj HT EA HA (map fst (skipn b m)) args 0 _ Hl0 Hd0).
    - exact (rev_outs_total _ d HD T adj HT EA HA args (map fst (skipn b m)) 0 _ Hl0 Hd0). }
  destruct R as (raw & Eraw & Hraw).
  destruct (round_keys L neq feq ug mode Hneq Hfeq Hun (length adj) args cur nouts m b d T adj raw Ho Ha Hu Hc Hprev HD HT EA (Eraw _ (le_n _))) as (D1 & D2 & NK & OK & _).
  destruct (sort_keys_ok _ D1 OK) as (new & En & Pn & Sn).
  exists (Nat.max f0 (length adj)). eexists. split.
  - intros fuel Hf. destruct (skipn b m) as [|p0 r0] eqn:Es; [congruence|]. rewrite <- Es in *. rewrite (Ed fuel) by lia. cbn [mbind]. rewrite EA. cbn [mbind]. rewrite ET. rewrite Eraw by lia. cbn [mbind]. rewrite En. reflexivity.
  - apply Forall_app. split; [exact Hm|]. rewrite Forall_map. apply Forall_forall. intros p Hp. cbn [snd]. apply df_subs; [|exact HTd].
    apply (Permutation_in _ (Permutation_sym Pn)), D2 in Hp. rewrite Forall_forall in Hraw. now apply Hraw.
Qed.
Lemma orders_total args nouts : (0 < nouts)%N -> args <> [] -> forall n cur m, (N.of_nat (cur + n) <= u32_max)%N ->
  complete_tensor nouts (N.of_nat (length args)) (N.of_nat cur) m -> steps (nval := nval) ug args m -> Forall (fun p => df (snd p)) m ->
  exists fuel0 m', (forall fuel, fuel0 <= fuel -> orders o neq feq ug share mode fuel args cur n m = MDone m').
Proof.
  intros Ho Ha. induction n as [|n IH]; intros cur m Hu Hc Hs Hm; cbn [orders]; [exists 0, m; reflexivity|].
  destruct (next_order_total args cur nouts m Ho Ha ltac:(lia) Hc Hm) as (f1 & m1 & E1 & Hm1).
  destruct (next_order_ok L neq feq ug share mode Hneq Hfeq Hun Hsh f1 args cur nouts m m1 Ho Ha ltac:(lia) Hc Hs (E1 _ (le_n _))) as (C1 & S1 & _).
  destruct (IH (S cur) m1 ltac:(lia) C1 S1 Hm1) as (f2 & m2 & E2). exists (Nat.max f1 f2), m2. intros fuel Hf. rewrite E1 by lia. cbn [mbind]. apply E2. lia.
Qed.
Lemma impl_total es args order : es <> [] -> args <> [] -> (N.of_nat order <= u32_max)%N -> Forall df es ->
  exists fuel0 m, forall fuel, fuel0 <= fuel -> diff_tensors_impl o neq feq ug share mode fuel es args order = MDone m.
Proof.
  intros He Ha Hu Hd. unfold diff_tensors_impl. apply (orders_total args (N.of_nat (length es))); [destruct es; [congruence | cbn [length]; lia] | exact Ha | exact Hu | apply order0_complete | apply order0_steps|].
  unfold order0. rewrite Forall_map. apply Forall_forall. intros [i e] H. apply in_combine_r in H. cbn [snd]. rewrite Forall_forall in Hd. now apply Hd.
Qed.
End Total.
