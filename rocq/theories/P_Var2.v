(* The functions dfun() in the derivatives computed by diff_tensors(). *)
From Coquelicot Require Import Coquelicot.
From Coq Require Import String Bool ZArith NArith Reals List Lia Arith Sorted Permutation.
From Verif Require Import M_Expr M_Dag M_Dec M_Taylor S_Expr S_Dag S_Dec P_ExprSem P_Subs P_Dec P_Vars S_Diff M_Dtens S_Dtens P_Dtens M_Adj S_Adj P_Adj1 P_Adj2 P_Adj3 P_Adj4 P_Adj5 P_Adj7 P_Adj8 P_Adj9 P_Adj10 S_Var P_Var1.
Import ListNotations.
Local Open Scope nat_scope.
Set Bullet Behavior "Strict Subproofs".

(* --- The accumulation keeps properties closed under sums and products ---------------- *)
Section Acc.
Context {o : nops} (neq : num o -> num o -> bool) (feq : fid (num o) -> fid (num o) -> bool).
Local Notation ex := (expr (num o)).
Context (P : ex -> Prop).
Hypothesis Psum : forall l, Forall P l -> P (mk_sum o l).
Hypothesis Pmul : forall a b, P a -> P b -> P (mk_mul o a b).
Hypothesis Pdbl : forall z, P (dbl o z).
Context (adj : list (list (nat * ex))).
Hypothesis Hadj : Forall (Forall (fun p => P (snd p))) adj.
Lemma acc_at i j a : adj_at o adj i j = Some a -> P a.
Proof.
  unfold adj_at. destruct (find (fun p => Nat.eqb (fst p) j) (nth i adj [])) as [p|] eqn:E; [|discriminate]. cbn. intros [= <-]. apply find_some in E. destruct E as [E _].
  destruct (nth_in_or_default i adj []) as [Hi|Hi]; [|rewrite Hi in E; destruct E]. rewrite Forall_forall in Hadj. specialize (Hadj _ Hi). rewrite Forall_forall in Hadj. now apply Hadj.
Qed.
Lemma acc_lset l i x : Forall P l -> P x -> Forall P (lset l i x).
Proof. revert i. induction l as [|y l IH]; intros [|i] Hl Hx; cbn [lset]; auto; inversion Hl; subst; constructor; auto. Qed.
Lemma acc_fill x : P x -> forall n b l, Forall P l -> Forall P (fill o l b n x).
Proof. intros Hx. unfold fill. induction n as [|n IH]; intros b l Hl; cbn [seq fold_left]; [exact Hl|]. apply IH. now apply acc_lset. Qed.
Lemma acc_upd (term : list ex -> nat -> nat -> mres ex) nbs : (forall D cur j t, Forall P D -> term D cur j = MDone t -> P t) ->
  forall l D0 D, Forall P D0 -> mfold (upd_step term nbs) D0 l = MDone D -> Forall P D.
Proof.
  intros Ht l D0 D H0. apply (mfold_inv (fun D => Forall P D)); [|exact H0]. intros a b a' Ha H. unfold upd_step in H. apply mbind_done in H. destruct H as (ts & Hts & H). injection H as <-.
  apply acc_lset; [exact Ha|]. apply Psum. apply mmap_done in Hts. apply Forall_forall. intros t Hin. destruct (Forall2_in_r_ex _ _ _ Hts t Hin) as (j & Hj & E). eapply Ht; eauto.
Qed.
Lemma done_inj {A} (x y : A) : MDone x = MDone y -> x = y. Proof. congruence. Qed.
Lemma acc_fwd fuel nouts input D0 D : Forall P D0 -> fwd_pass o fuel adj nouts input D0 = MDone D -> Forall P D.
Proof.
  intros H0 H. unfold fwd_pass in H. apply mbind_done in H. destruct H as (deps & _ & H).
  change (fwd_step o adj input deps) with (upd_step (fwd_term o adj input deps) (dep o adj)) in H.
  refine (acc_upd _ _ _ _ _ _ _ H); [|apply acc_fill; [apply Pdbl | apply acc_lset; [exact H0 | apply Pdbl]]].
  intros D1 cur j t H1 Ht. unfold fwd_term in Ht. destruct (_ && _); [apply done_inj in Ht; subst; apply Pdbl|].
  destruct (nth_error D1 j) as [x|] eqn:Ex; [|discriminate]. destruct (adj_at o adj cur j) as [a|] eqn:Ea; [|discriminate]. apply done_inj in Ht. subst t. apply Pmul; [|eapply acc_at; eauto].
  rewrite Forall_forall in H1. apply H1. eapply nth_error_In; eauto.
Qed.
Lemma acc_rev fuel ni out D0 D : Forall P D0 -> rev_pass o fuel adj ni out D0 = MDone D -> Forall P D.
Proof.
  intros H0 H. unfold rev_pass in H. apply mbind_done in H. destruct H as (deps & _ & H).
  change (rev_step o adj out deps) with (upd_step (rev_term o adj out deps) (revdep o adj)) in H.
  refine (acc_upd _ _ _ _ _ _ _ H); [|apply acc_fill; [apply Pdbl | apply acc_lset; [exact H0 | apply Pdbl]]].
  intros D1 cur j t H1 Ht. unfold rev_term in Ht. destruct (_ && _); [apply done_inj in Ht; subst; apply Pdbl|].
  destruct (nth_error D1 j) as [x|] eqn:Ex; [|discriminate]. destruct (adj_at o adj j cur) as [a|] eqn:Ea; [|discriminate]. apply done_inj in Ht. subst t. apply Pmul; [|eapply acc_at; eauto].
  rewrite Forall_forall in H1. apply H1. eapply nth_error_In; eauto.
Qed.
Lemma acc_fwd_args fuel d keys : forall args j D0 raw, Forall P D0 -> fwd_args o neq feq fuel d adj keys j args D0 = MDone raw -> Forall (fun p => P (snd p)) raw.
Proof.
  induction args as [|a args IH]; intros j D0 raw H0 H; cbn [fwd_args] in H; [injection H as <-; constructor|].
  destruct (find_input o neq feq d a) as [input|].
  - apply mbind_done in H. destruct H as (D & HD & H). apply mbind_done in H. destruct H as (es & He & H). apply done_inj in H. subst raw.
    pose proof (acc_fwd _ _ _ _ _ H0 HD) as H1. apply Forall_app. split; [|eapply IH; eauto].
    apply Forall_forall. intros [k x] Hx. apply in_combine_r in Hx. cbn [snd]. rewrite Forall_forall in H1. apply H1.
    rewrite <- (firstn_skipn (length D - length keys) D). apply in_app_iff. now right.
  - apply mbind_done in H. destruct H as (es & He & H). apply done_inj in H. subst raw. apply Forall_app. split; [|eapply IH; eauto].
    rewrite Forall_map. apply Forall_forall. intros x _. apply Pdbl.
Qed.
Lemma acc_rev_outs fuel d args : forall keys i D0 raw, Forall P D0 -> rev_outs o neq feq fuel d adj args i keys D0 = MDone raw -> Forall (fun p => P (snd p)) raw.
Proof.
  induction keys as [|k keys IH]; intros i D0 raw H0 H; cbn [rev_outs] in H; [injection H as <-; constructor|].
  apply mbind_done in H. destruct H as (D & HD & H). apply mbind_done in H. destruct H as (es & He & H). apply done_inj in H. subst raw.
  pose proof (acc_rev _ _ _ _ _ H0 HD) as H1. apply Forall_app. split; [|eapply IH; eauto].
  rewrite Forall_map. apply Forall_forall. intros [j a] _. cbn [snd]. unfold rev_entry. destruct (find_input o neq feq d a) as [x|]; [|apply Pdbl].
  destruct (nth_in_or_default x D (dbl o 0)) as [Hi| ->]; [|apply Pdbl]. rewrite Forall_forall in H1. now apply H1.
Qed.
End Acc.

Section Places.
Context {o : nops} {nval : num o -> R} (L : nlaws o nval) (neq : num o -> num o -> bool) (feq : fid (num o) -> fid (num o) -> bool).
Local Notation ex := (expr (num o)).
Local Notation mexp l := (map (@fst ex (list nat)) l).
Context (ug : string -> list ex -> option (list ex)) (share : list ex -> list (dag (num o))) (mode : nat -> nat -> bool).
Hypothesis Hsh : forall l, map erase (share l) = l /\ consistent (share l).
Hypothesis Hug : forall s args g, ug s args = Some g -> Forall (built o args) g.
Context (va : list ex) (Q : nat -> string -> list (nat * nat) -> list ex -> Prop).
Hypothesis Hva : forall k id d l, Q k id d l -> l = va.
Hypothesis Hleaf : forall a, In a va -> match a with EVar _ | EPar _ => True | _ => False end.
Hypothesis Hup : forall k id d l, Q k id d l -> Q (S k) id d l.
Hypothesis Hbump : forall k id d l i, Q k id d l -> i < length l -> Q (S k) id (bump i d) l.
Local Notation C k := (cl o (fun _ => False) (Q k)).
Lemma Qleaf k : forall id d l, Q k id d l -> forall a, In a l -> match a with EFun _ _ => False | _ => True end.
Proof. intros id d l H a Ha. rewrite (Hva _ _ _ _ H) in Ha. specialize (Hleaf a Ha). destruct a; auto. Qed.

Section One.
Context (k : nat) (es : list ex) (d : dcmp o) (T : list ex).
Hypothesis HD : decomposed o neq feq es d.
Hypothesis HT : trees_of o d T.
Hypothesis Hes : Forall (C k) es.
Local Notation sb := (subs o (smap o T)).
Local Notation vars := (get_variables o es).
Local Notation pars := (get_params o es).
(* The predicates before the substitution of the u variables. *)
Definition V0 q (s : string) : Prop := C q (sb (EVar s)).
Definition Q0 q (id : string) (dd : list (nat * nat)) (l : list ex) : Prop := Q q id dd (map sb l).
Lemma in_var i s : index_of (String.eqb s) vars = Some i -> nth_error T i = Some (EVar s).
Proof.
  intros H. destruct (index_of_some _ _ _ H) as (y & Hy & E). apply String.eqb_eq in E. subst y.
  apply (tr_in _ _ _ HT i (EVar s, [])). rewrite (dd_in _ _ _ _ _ HD). unfold in_elts. apply nth_error_app_l. now rewrite nth_error_map, Hy.
Qed.
Lemma in_par i p : index_of (Nat.eqb p) pars = Some i -> nth_error T (length vars + i) = Some (EPar p).
Proof.
  intros H. destruct (index_of_some _ _ _ H) as (y & Hy & E). apply Nat.eqb_eq in E. subst y.
  apply (tr_in _ _ _ HT _ (EPar p, [])). rewrite (dd_in _ _ _ _ _ HD). unfold in_elts. rewrite nth_error_app2 by (rewrite map_length; lia). rewrite map_length. replace (length vars + i - length vars) with i by lia.
  now rewrite nth_error_map, Hy.
Qed.
Lemma repl_back (a : ex) : match a with EVar s => In s vars | EPar p => In p pars | _ => False end -> sb (subs_ex o (repl o vars pars) a) = a.
Proof.
  destruct a as [x|s|p|f l]; intros H; try destruct H.
  - destruct (index_of_in (String.eqb s) vars s H (String.eqb_refl s)) as (i & Hi). rewrite subs_ex_unfold. cbn [repl]. rewrite Hi. cbn [option_map].
    change (match assoc (uname i) (smap o T) with Some t => t | None => EVar (uname i) end = EVar s). rewrite smap_assoc. now rewrite (in_var i s Hi).
  - destruct (index_of_in (Nat.eqb p) pars p H (Nat.eqb_refl p)) as (i & Hi). rewrite subs_ex_unfold. cbn [repl]. rewrite Hi. cbn [option_map].
    change (match assoc (uname (length vars + i)) (smap o T) with Some t => t | None => EVar (uname (length vars + i)) end = EPar p). rewrite smap_assoc. now rewrite (in_par i p Hi).
Qed.
Lemma leaf_in e x : In e (map (split_prods o 2) es) -> occurs x e -> match x with EVar s => In s vars | EPar p => In p pars | _ => True end.
Proof.
  intros He Hx. apply in_map_iff in He. destruct He as (e0 & <- & He).
  assert (K : lin o (fun x => match x with EVar s => In s vars | EPar p => In p pars | _ => True end) (split_prods o 2 e0)).
  { apply lin_split_prods. intros y Hy. destruct y; auto; [apply (get_variables_ok es); eauto | apply (get_params_ok es); eauto]. }
  specialize (K x Hx). destruct x; auto.
Qed.
(* A function of the decomposition, given that the u variables it uses stand for good expressions. *)
Lemma mid_ok f args : In (EFun f args) (mexp (dc_mid o d)) ->
  (forall j, length (dc_in o d) <= j -> In (EVar (uname j)) args -> V0 k (uname j)) -> cl o (V0 k) (Q0 k) (EFun f args).
Proof.
  intros Hin Hu. destruct (dd_from _ _ _ _ _ HD f args Hin) as (e & args0 & He & Ho & HF).
  assert (Hc : C k (EFun f args0)).
  { apply (cl_occurs o _ _ f args0 e (Qleaf k)); [|exact Ho]. apply in_map_iff in He. destruct He as (e0 & <- & He). apply cl_split_prods; [exact (Qleaf k)|]. rewrite Forall_forall in Hes. now apply Hes. }
  assert (Hl : forall a, In a args0 -> match a with EVar s => In s vars | EPar p => In p pars | _ => True end).
  { intros a Ha. assert (Hoa : occurs a e) by (eapply occurs_tr; [|exact Ho]; eapply occ_arg; [exact Ha | constructor]). exact (leaf_in e a He Hoa). }
  destruct (isdf o f) eqn:Ef.
  - destruct f; try discriminate. cbn [cl] in *. unfold Q0. pose proof (Hva _ _ _ _ Hc) as E0. replace (map sb args) with args0; [exact Hc|].
    assert (Hl2 : forall a, In a args0 -> match a with EVar _ | EPar _ => True | _ => False end) by (rewrite E0; exact Hleaf).
    clear - HF Hl Hl2 HD HT. induction HF as [|a0 a l0 l H HF IH]; [reflexivity|]. cbn [map]. rewrite <- IH; [|intros x Hx; apply Hl; now right | intros x Hx; apply Hl2; now right]. f_equal.
    specialize (Hl a0 (or_introl eq_refl)). specialize (Hl2 a0 (or_introl eq_refl)). destruct a0; try destruct Hl2; cbn [from_arg] in H; subst a; symmetry; apply repl_back; exact Hl.
  - apply cl_mk; [exact Ef|]. apply cl_fun in Hc; [|exact Ef].
    assert (K : forall a, In a args -> (exists a0, In a0 args0 /\ from_arg o es a0 a)).
    { intros a Ha. destruct (Forall2_in_r_ex _ _ _ HF a Ha) as (a0 & H1 & H2). eauto. }
    apply Forall_forall. intros a Ha. destruct (K a Ha) as (a0 & H0 & HA). rewrite Forall_forall in Hc. specialize (Hc a0 H0). specialize (Hl a0 H0). destruct a0 as [x|s|p|g l]; cbn [from_arg] in HA.
    + subst a. rewrite subs_ex_unfold. cbn [repl]. exact I.
    + destruct Hc.
    + destruct (index_of_in (Nat.eqb p) pars p Hl (Nat.eqb_refl p)) as (i & Hi). assert (Ea : a = EVar (uname (length vars + i))) by (rewrite HA, subs_ex_unfold; cbn [repl]; now rewrite Hi).
      rewrite Ea. cbn [cl]. unfold V0. rewrite <- Ea, HA, repl_back by exact Hl. exact I.
    + destruct HA as (j & Hj & ->). cbn [cl]. apply Hu; [now rewrite (dd_in _ _ _ _ _ HD) | exact Ha].
Qed.
Lemma tree_var j t : nth_error T j = Some t -> sb (EVar (uname j)) = t.
Proof. intros H. change (match assoc (uname j) (smap o T) with Some t => t | None => EVar (uname j) end = t). now rewrite smap_assoc, H. Qed.
Lemma trees_cl : forall m, m <= length (dc_mid o d) -> forall j, length (dc_in o d) <= j < length (dc_in o d) + m -> V0 k (uname j).
Proof.
  destruct (dd_wf _ _ _ _ _ HD) as [HB _].
  induction m as [|m IH]; intros Hm j Hj; [lia|]. destruct (Nat.eq_dec j (length (dc_in o d) + m)) as [->|Hne]; [|apply IH; lia].
  destruct (nth_error (dc_mid o d) m) as [p|] eqn:Ep; [|apply nth_error_None in Ep; lia].
  unfold V0. rewrite (tree_var _ _ (tr_mid _ _ _ HT m p Ep)).
  assert (Hin : In (fst p) (mexp (dc_mid o d))) by (apply in_map; eapply nth_error_In; eauto).
  pose proof (dd_fun _ _ _ _ _ HD) as HP. rewrite Forall_forall in HP. destruct (HP _ Hin) as (f & args & E & _).
  apply cl_subs. change (cl o (V0 k) (Q0 k) (fst p)). rewrite E in *. apply mid_ok; [exact Hin|]. intros i Hi Ha.
  pose proof (HB m (EFun f args)) as K. rewrite nth_error_map, Ep in K. cbn [option_map] in K. rewrite E in K. specialize (K eq_refl). cbn in K. rewrite Forall_forall in K. specialize (K _ Ha). cbn in K.
  destruct K as (q & Hq & Eq). apply uname_inj in Eq. subst q. apply IH; lia.
Qed.
Lemma mid_cl f args : In (EFun f args) (mexp (dc_mid o d)) -> cl o (V0 k) (Q0 k) (EFun f args).
Proof.
  intros Hin. apply mid_ok; [exact Hin|]. intros j Hj Ha. apply (trees_cl (length (dc_mid o d)) (le_n _)). split; [exact Hj|].
  destruct (dd_wf _ _ _ _ _ HD) as [HB _]. apply In_nth_error in Hin. destruct Hin as (i & Hi). pose proof (HB _ _ Hi) as K. cbn in K. rewrite Forall_forall in K. specialize (K _ Ha). cbn in K.
  destruct K as (q & Hq & Eq). apply uname_inj in Eq. subst q. assert (i < length (mexp (dc_mid o d))) by (apply nth_error_Some; congruence). rewrite map_length in *. lia.
Qed.
Local Notation P1 := (cl o (V0 (S k)) (Q0 (S k))).
Lemma V0_up s : V0 k s -> V0 (S k) s.
Proof. unfold V0. apply cl_mono; auto. Qed.
Lemma adj_cl adj : make_adj o ug d = MDone adj -> Forall (Forall (fun p => P1 (snd p))) adj.
Proof.
  intros H. unfold make_adj in H. apply mbind_done in H. destruct H as (am & Ham & H). apply mbind_done in H. destruct H as (ao & Hao & H). apply done_inj in H. subst adj. rewrite !Forall_app. split; [|split].
  - rewrite Forall_map. apply Forall_forall. constructor.
  - apply mmap_done in Ham. apply Forall_forall. intros y Hy. destruct (Forall2_in_r_ex _ _ _ Ham y Hy) as (p & Hp & E). assert (Hin : In (fst p) (mexp (dc_mid o d))) by now apply in_map.
    pose proof (dd_fun _ _ _ _ _ HD) as HP. rewrite Forall_forall in HP. destruct (HP _ Hin) as (f & args & Ef & _). rewrite Ef in *. cbn [elt_adj] in E.
    destruct (gradient o ug f args) as [g|] eqn:Eg; [|discriminate].
    assert (Hdg : Forall P1 g).
    { refine (cl_gradient o ug Hug (V0 (S k)) (Q0 k) (Q0 (S k)) f args g _ _ _ Eg).
      - intros id dd l i HQ Hi. unfold Q0 in *. apply Hbump; [exact HQ | now rewrite map_length].
      - intros id dd l. apply Hup.
      - eapply cl_mono; [exact V0_up | intros id dd l HQ; exact HQ | now apply mid_cl]. }
    destruct (grad_map_ok (nval := nval) (mkEnv (fun _ => None) (fun _ => None) None (fun _ _ _ => None) (fun _ _ => None)) (fun _ => R0) args g [] (gradient_length ug f args g Eg) (SSorted_nil _)) as (_ & _ & A3 & _).
    apply mmap_done in E. apply Forall_forall. intros z Hz. destruct (Forall2_in_r_ex _ _ _ E z Hz) as (q & Hq & E2). destruct (uname_to_index (fst q)) as [j|]; [|discriminate]. apply done_inj in E2. subst z. cbn [snd].
    apply cl_mk_sum. apply Forall_forall. intros z Hz2. destruct q as [k0 l0]. cbn [snd] in Hz2. destruct (A3 k0 l0 z Hq Hz2) as [(i & _ & Hi)|(l' & [] & _)].
    rewrite Forall_forall in Hdg. apply Hdg. eapply nth_error_In; eauto.
  - apply mmap_done in Hao. apply Forall_forall. intros y Hy. destruct (Forall2_in_r_ex _ _ _ Hao y Hy) as (p & Hp & E). unfold out_adj in E.
    destruct (fst p); try (injection E as <-; constructor; fail). destruct (uname_to_index s); [|discriminate]. apply done_inj in E. subst y. constructor; [apply cl_dbl | constructor].
Qed.
End One.

Lemma sort_in : forall (l s : list (sidx * ex)), sort_keys o l = Some s -> forall p, In p s -> In p l.
Proof.
  assert (A : forall p l s, insert_key o p l = Some s -> forall q, In q s -> q = p \/ In q l).
  { intros p l. induction l as [|q l IH]; intros s H x Hx; cbn [insert_key] in H.
    - injection H as <-. destruct Hx as [<-|[]]; auto.
    - destruct (sv_cmp (fst p) (fst q)) as [[|]|]; [| |discriminate].
      + injection H as <-. destruct Hx as [<-|Hx]; auto.
      + destruct (insert_key o p l) as [s'|]; [|discriminate]. cbn in H. injection H as <-. destruct Hx as [<-|Hx]; [right; now left|]. destruct (IH s' eq_refl x Hx); auto. right. now right. }
  induction l as [|p l IH]; intros s H x Hx; cbn [sort_keys] in H; [injection H as <-; destruct Hx|].
  destruct (sort_keys o l) as [s'|]; [|discriminate]. destruct (A _ _ _ H x Hx) as [->|Hx2]; [now left | right; eauto].
Qed.
Lemma emplace_in : forall (l acc : list (sidx * ex)) p, In p (emplace_all o acc l) -> In p acc \/ In p l.
Proof.
  induction l as [|q l IH]; intros acc p H; cbn [emplace_all] in H; [auto|]. destruct (existsb _ _).
  - destruct (IH _ _ H); auto. right. now right.
  - destruct (IH _ _ H) as [H1|H1]; [|right; now right]. apply in_app_iff in H1. destruct H1 as [H1|[<-|[]]]; auto. right. now left.
Qed.
Lemma skipn_in {A} n (l : list A) x : In x (skipn n l) -> In x l.
Proof. intros H. rewrite <- (firstn_skipn n l). apply in_app_iff. now right. Qed.
Lemma next_order_cl fuel args cur m m' : Forall (fun p => C cur (snd p)) m ->
  next_order o neq feq ug share mode fuel args cur m = MDone m' -> Forall (fun p => C (S cur) (snd p)) m'.
Proof.
  intros Hm H. unfold next_order in H. destruct (search_map o m _) as [b|]; [|discriminate]. destruct (skipn b m) as [|p0 r0] eqn:Ep; [discriminate|]. rewrite <- Ep in *. clear p0 r0 Ep.
  cbv zeta in H. apply mbind_done in H. destruct H as (d & Hd & H). apply mbind_done in H. destruct H as (adj & HA & H).
  pose proof (diff_decompose_spec o neq feq share (map snd (skipn b m)) fuel d Hsh Hd) as HD.
  destruct (make_subs_spec o d (dd_wf _ _ _ _ _ HD)) as (T & ET & HT). rewrite ET in H. apply mbind_done in H. destruct H as (raw & Hraw & H).
  assert (Hes : Forall (C cur) (map snd (skipn b m))).
  { rewrite Forall_map. apply Forall_forall. intros p Hp. apply skipn_in in Hp. rewrite Forall_forall in Hm. now apply Hm. }
  pose proof (adj_cl cur _ d T HD HT Hes adj HA) as Hadj.
  assert (H0 : Forall (cl o (V0 T (S cur)) (Q0 T (S cur))) (map (fun _ : list (nat * ex) => dbl o 0) adj)) by (rewrite Forall_map; apply Forall_forall; intros; apply cl_dbl).
  assert (HR : Forall (fun p => cl o (V0 T (S cur)) (Q0 T (S cur)) (snd p)) raw).
  { destruct (mode _ _).
    - refine (acc_fwd_args neq feq _ (cl_mk_sum o _ _) (cl_mk_mul o _ _) (cl_dbl o _ _) adj Hadj _ _ _ _ _ _ _ H0 Hraw).
    - refine (acc_rev_outs neq feq _ (cl_mk_sum o _ _) (cl_mk_mul o _ _) (cl_dbl o _ _) adj Hadj _ _ _ _ _ _ _ H0 Hraw). }
  destruct (sort_keys o _) as [new|] eqn:En; [|discriminate]. apply done_inj in H. subst m'. apply Forall_app. split.
  - eapply Forall_impl; [|exact Hm]. intros p. apply cl_mono; auto.
  - rewrite Forall_map. apply Forall_forall. intros p Hp. cbn [snd]. apply cl_subs. rewrite Forall_forall in HR. apply HR. apply (sort_in _ _ En) in Hp. destruct cur; [exact Hp|].
    apply emplace_in in Hp. destruct Hp as [[]|Hp]. exact Hp.
Qed.
Lemma orders_cl fuel args : forall n cur m m', Forall (fun p => C cur (snd p)) m -> orders o neq feq ug share mode fuel args cur n m = MDone m' -> Forall (fun p => C (cur + n) (snd p)) m'.
Proof.
  induction n as [|n IH]; intros cur m m' Hm H; cbn [orders] in H; [injection H as <-; now rewrite Nat.add_0_r|].
  apply mbind_done in H. destruct H as (m1 & H1 & H2). replace (cur + S n) with (S cur + n) by lia. eapply IH; [|exact H2]. eapply next_order_cl; eauto.
Qed.
Lemma tensors_cl fuel es args order m : Forall (C 0) es -> diff_tensors_impl o neq feq ug share mode fuel es args order = MDone m -> Forall (fun p => C order (snd p)) m.
Proof.
  intros He H. unfold diff_tensors_impl in H. refine (orders_cl _ _ order 0 _ _ _ H). unfold order0. rewrite Forall_map. apply Forall_forall. intros [i e] Hp. apply in_combine_r in Hp. cbn [snd]. rewrite Forall_forall in He. now apply He.
Qed.
End Places.
