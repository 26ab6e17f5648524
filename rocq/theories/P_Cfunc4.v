(* Compiled functions: inlining in compact mode. *)
From Coq Require Import String Ascii Bool ZArith Arith List Lia Permutation.
From Verif Require Import M_Expr M_Dag M_Dec S_Expr S_Dag S_Dec P_ExprSem P_Subs P_Dag P_Dec P_Vars P_DecX.
From Verif Require Import M_Taylor M_Adj P_Adj2 P_Cfunc1 M_Cfunc S_Cfunc P_Cfunc2 P_Cfunc3.
Import ListNotations.
Local Open Scope nat_scope.
Set Bullet Behavior "Strict Subproofs".

(* --- Indices after removing some --------------------------------------------------------------- *)
Section Idx.
Context (nv : nat) (inl : list nat).
Definition kept (q : nat) : bool := negb (existsb (Nat.eqb q) inl).
Lemma kept_in q : kept q = true <-> ~ In q inl.
Proof.
  unfold kept. rewrite negb_true_iff. split.
  - intros E H. assert (existsb (Nat.eqb q) inl = true); [|congruence]. apply existsb_exists. exists q. split; [exact H | apply Nat.eqb_refl].
  - intros H. destruct (existsb (Nat.eqb q) inl) eqn:E; [|reflexivity]. apply existsb_exists in E. destruct E as (x & Hx & E). apply Nat.eqb_eq in E. now subst.
Qed.
Definition keeps (i : nat) : list nat := filter kept (seq nv (i - nv)).
Lemma seq_split q i : nv <= q -> q < i -> seq nv (i - nv) = seq nv (q - nv) ++ q :: seq (S q) (i - S q).
Proof.
  intros H1 H2. replace (i - nv) with ((q - nv) + S (i - S q)) by lia. rewrite seq_app. replace (nv + (q - nv)) with q by lia. reflexivity.
Qed.
Lemma keeps_pos q i : nv <= q -> q < i -> ~ In q inl -> nth (length (keeps q)) (keeps i) 0 = q /\ length (keeps q) < length (keeps i).
Proof.
  intros H1 H2 H3. apply kept_in in H3. unfold keeps. rewrite (seq_split q i H1 H2), filter_app. cbn [filter]. rewrite H3.
  split; [|rewrite app_length; cbn; lia]. rewrite app_nth2, Nat.sub_diag by lia. reflexivity.
Qed.
Lemma keeps_S i : nv <= i -> keeps (S i) = keeps i ++ (if kept i then [i] else []).
Proof.
  intros H. unfold keeps. rewrite (seq_split i (S i)) by lia. replace (S i - S i) with 0 by lia. rewrite filter_app. cbn. now destruct (kept i).
Qed.
Hypothesis Hge : forall x, In x inl -> nv <= x.
Hypothesis Hnd : NoDup inl.
Definition nidx (q : nat) : nat := q - length (filter (fun j => Nat.ltb j q) inl).
Lemma filter_split {X} (p : X -> bool) l : length (filter p l) + length (filter (fun x => negb (p x)) l) = length l.
Proof. induction l as [|x l IH]; cbn; [reflexivity|]. destruct (p x); cbn; lia. Qed.
Lemma nidx_keeps q : nv <= q -> nidx q = nv + length (keeps q) /\ length (filter (fun j => Nat.ltb j q) inl) <= q - nv.
Proof.
  intros Hq. unfold nidx, keeps. pose proof (filter_split kept (seq nv (q - nv))) as HS. rewrite seq_length in HS.
  assert (E : length (filter (fun x => negb (kept x)) (seq nv (q - nv))) = length (filter (fun j => Nat.ltb j q) inl)); [|lia].
  apply Permutation_length, NoDup_Permutation; [apply NoDup_filter, seq_NoDup | now apply NoDup_filter|].
  intros x. rewrite !filter_In, in_seq. rewrite Nat.ltb_lt. unfold kept. rewrite negb_involutive, existsb_exists.
  split.
  - intros (Hx & y & Hy & E). apply Nat.eqb_eq in E. subst y. split; [exact Hy | lia].
  - intros (Hx & Hl). specialize (Hge x Hx). split; [lia|]. exists x. split; [exact Hx | apply Nat.eqb_refl].
Qed.
Lemma nidx_low q : q < nv -> nidx q = q.
Proof.
  intros H. unfold nidx. replace (filter (fun j => Nat.ltb j q) inl) with (@nil nat); [cbn; lia|].
  symmetry. clear Hnd. induction inl as [|x l IH]; [reflexivity|]. cbn [filter]. destruct (Nat.ltb_spec x q).
  - specialize (Hge x (or_introl eq_refl)). lia.
  - apply IH. intros y Hy. apply Hge. now right.
Qed.
Lemma nidx_mono j q : j < q -> ~ In j inl -> nidx j < nidx q.
Proof.
  intros Hj Hi. destruct (Nat.lt_ge_cases j nv) as [H|H].
  - rewrite (nidx_low j H). destruct (Nat.lt_ge_cases q nv) as [Hq|Hq]; [now rewrite nidx_low|]. destruct (nidx_keeps q Hq) as [-> _]. lia.
  - destruct (nidx_keeps j H) as [-> _]. destruct (nidx_keeps q) as [-> _]; [lia|]. destruct (keeps_pos j q H Hj Hi). lia.
Qed.
Context (o : nops).
Lemma u_remap_var j : u_remap o inl (EVar (uname j)) = EVar (uname (nidx j)).
Proof.
  cbn [u_remap]. rewrite uname_index. cbv zeta. unfold nidx. destruct (Nat.eqb_spec (length (filter (fun j0 => Nat.ltb j0 j) inl)) 0) as [->|]; [|reflexivity].
  now rewrite Nat.sub_0_r.
Qed.
End Idx.

Section P.
Context (o : nops) (td : string -> bool) {T : Type} (A : arith o T) (dflt : T).
Local Notation ex := (expr (num o)).
Context (lname : fid (num o) -> list ex -> string) (fname : fid (num o) -> string) (K : fid (num o) -> Prop).
Context (batch nv np : nat) (tdb : bool) (xpar : nat -> nat -> T) (xt : nat -> option T) (R : nat -> nat -> T).
Local Notation sv := (sval o td A dflt xpar xt R).
Local Notation fine := (fine o td np tdb K).
Local Notation occ i e := (occurs (EVar (uname i)) e).

(* --- Substitution ------------------------------------------------------------------------------------- *)
Lemma subs_fun m f (args : list ex) : subs o m (EFun f args) = EFun f (map (subs o m) args).
Proof. reflexivity. Qed.
Lemma subs_info s (e : ex) (He : isf o e) x : info o (subs o [(s, e)] x) = info o x.
Proof.
  destruct x as [n|v|i|f args]; try reflexivity. cbn. destruct (String.eqb v s); [|reflexivity]. destruct He as (f & args & ->). reflexivity.
Qed.
Lemma subs_val s (e : ex) l (He : isf o e) : uenv dflt (fun i => R i l) s = sv e l -> forall x, sv (subs o [(s, e)] x) l = sv x l.
Proof.
  intros Hs. induction x as [n|v|i|f args IH] using expr_ind'; try reflexivity.
  - unfold subs. cbn [transform assoc]. destruct (String.eqb_spec v s) as [->|]; [|reflexivity]. rewrite <- Hs. reflexivity.
  - rewrite subs_fun, !sval_fun. rewrite !algo_val, !map_map. f_equal.
    + f_equal. apply map_ext. intros a. now apply subs_info.
    + now apply map_ext_Forall.
Qed.
Lemma subs_fine s (e : ex) : fine e -> forall x, fine x -> fine (subs o [(s, e)] x).
Proof.
  intros He. induction x as [n|v|i|f args IH] using expr_ind'; intros Hx; try exact Hx.
  - cbn. now destruct (String.eqb v s).
  - rewrite subs_fun. apply lin_fun; [exact (lin_head o _ _ _ _ Hx)|]. apply lin_args in Hx. rewrite Forall_map, Forall_forall. rewrite Forall_forall in IH, Hx. intros a Ha. apply (IH a Ha (Hx a Ha)).
Qed.
Lemma subs_occ s (e : ex) v : forall x, occurs (EVar v) (subs o [(s, e)] x) <-> (occurs (EVar v) x /\ v <> s) \/ (occurs (EVar s) x /\ occurs (EVar v) e).
Proof.
  induction x as [n|w|i|f args IH] using expr_ind'.
  - cbn. split; [intros H; inversion H | intros [[H _]|[H _]]; inversion H].
  - cbn. destruct (String.eqb_spec w s) as [->|Hne].
    + split; [intros H; right; split; [constructor | exact H]|]. intros [[H Hn]|[_ H]]; [|exact H]. inversion H; subst. congruence.
    + split; [intros H; inversion H; subst; left; split; [constructor | congruence]|]. intros [[H _]|[H _]]; [exact H|]. inversion H; subst. congruence.
  - cbn. split; [intros H; inversion H | intros [[H _]|[H _]]; inversion H].
  - rewrite subs_fun. rewrite Forall_forall in IH. split.
    + intros H. inversion H as [|? ? a Ha Ho]; subst. apply in_map_iff in Ha. destruct Ha as (b & <- & Hb). apply (IH b Hb) in Ho.
      destruct Ho as [[H1 H2]|[H1 H2]]; [left|right]; (split; [now apply occ_arg with (a := b) | exact H2]).
    + intros [[H H2]|[H H2]]; inversion H as [|? ? a Ha Ho]; subst; (apply occ_arg with (a := subs o [(s, e)] a); [now apply in_map|]); apply (IH a Ha); auto.
Qed.
Lemma subs_isf s e x : isf o x -> isf o (subs o [(s, e)] x).
Proof. intros (f & args & ->). rewrite subs_fun. unfold isf. eauto. Qed.

(* --- The loop --------------------------------------------------------------------------------------------- *)
Definition backw (q : nat) (inl : list nat) (e : ex) : Prop := forall s, occurs (EVar s) e -> exists j, s = uname j /\ j < q /\ ~ In j inl.
(* The element for the u variable which had index q. *)
Definition good (inl : list nat) (c : celt o) (q : nat) : Prop :=
  shaped o lname fname K c /\ exists e, skel o (ce_ex o c) = skel o e /\ ce_args o c = map (u_remap o inl) (dleaves o e) /\ fine e /\
    (forall l, l < batch -> sv e l = R q l) /\ backw q inl e.
Lemma u_remap_leaf inl a : leaf o a -> leaf o (u_remap o inl a).
Proof.
  intros H. destruct a as [n|s|i|f args]; auto. cbn [u_remap]. destruct (uname_to_index s); [|exact H].
  cbv zeta. destruct (Nat.eqb _ 0); [exact H | intros f args; discriminate].
Qed.
Lemma u_remap_info inl a : info o (u_remap o inl a) = info o a.
Proof. destruct a as [n|s|i|f args]; try reflexivity. cbn [u_remap]. destruct (uname_to_index s); [|reflexivity]. cbv zeta. destruct (Nat.eqb _ 0); reflexivity. Qed.
Lemma dleaves_leaf : forall e a, In a (dleaves o e) -> leaf o a.
Proof.
  induction e as [n|s|i|f args IH] using expr_ind'; cbn; intros a Ha; try (destruct Ha as [<-|[]]; intros f args; discriminate).
  apply in_concat in Ha. destruct Ha as (l & Hl & Ha). apply in_map_iff in Hl. destruct Hl as (x & <- & Hx). rewrite Forall_forall in IH. now apply (IH x).
Qed.
Lemma dleaves_occ : forall e a, In a (dleaves o e) -> occurs a e.
Proof.
  induction e as [n|s|i|f args IH] using expr_ind'; cbn; intros a Ha; try (destruct Ha as [<-|[]]; constructor).
  apply in_concat in Ha. destruct Ha as (l & Hl & Ha). apply in_map_iff in Hl. destruct Hl as (x & <- & Hx). rewrite Forall_forall in IH.
  apply occ_arg with (a := x); [exact Hx | now apply (IH x)].
Qed.
Lemma not_nested f (args : list ex) : is_nested o (EFun f args) = false -> Forall (leaf o) args.
Proof.
  cbn. intros H. apply Forall_forall. intros a Ha g l ->. assert (existsb (is_fun_ex o) args = true); [|congruence].
  apply existsb_exists. exists (EFun g l). auto.
Qed.
Lemma map_leaf inl l : Forall (leaf o) l -> Forall (leaf o) (map (u_remap o inl) l).
Proof. intros H. rewrite Forall_map. eapply Forall_impl; [|exact H]. intros a. apply u_remap_leaf. Qed.
Definition dirty : Prop := ~ clean_names o K lname fname.
Lemma comp_ok_clean : clean_names o K lname fname -> forall e, named o K e -> comp_ok o lname fname e = true.
Proof.
  intros H. induction e as [n|s|i|f args IH] using expr_ind'; try reflexivity. intros HK. cbn [comp_ok].
  destruct (H f args (HK _ _ (occ_here _))) as (-> & -> & _). cbn. apply forallb_forall. rewrite Forall_forall in IH. intros a Ha. apply (IH a Ha). now apply (named_arg o K f args).
Qed.
Lemma fine_named e : fine e -> named o K e.
Proof. intros H f args Ho. exact (proj1 (H (EFun f args) Ho)). Qed.
Lemma emit_ok inl e q : isf o e -> fine e -> (forall l, l < batch -> sv e l = R q l) -> backw q inl e ->
  (emit o lname fname inl e = MThrow /\ dirty) \/ exists c, emit o lname fname inl e = MDone c /\ good inl c q.
Proof.
  intros (f & args & Ee) Hf Hv Hb. unfold emit. destruct (is_nested o e) eqn:En.
  - destruct (comp_ok o lname fname e) eqn:Ec.
    + right. eexists. split; [reflexivity|]. split.
      * apply sh_comp; [exact Ec | now apply fine_named | | now rewrite map_length]. apply map_leaf. apply Forall_forall. apply dleaves_leaf.
      * exists e. cbn. auto.
    + left. split; [reflexivity|]. intros HC. rewrite (comp_ok_clean HC e (fine_named e Hf)) in Ec. discriminate.
  - right. subst e. eexists. split; [reflexivity|]. pose proof (not_nested f args En) as HL.
    assert (Ea : algo_of o f (map (u_remap o inl) args) = algo_of o f args).
    { rewrite !algo_val, map_map. f_equal. apply map_ext. intros a. apply u_remap_info. }
    split; [apply sh_plain; [exact (fine_named _ Hf _ _ (occ_here _)) | now apply map_leaf | exact Ea]|]. exists (EFun f args). cbn [ce_ex ce_args skel dleaves]. rewrite dleaves_leaves by exact HL.
    split; [|auto]. rewrite Ea, !skel_leaves by (auto using map_leaf). now rewrite map_map.
Qed.
Lemma remap_more inl i a : backw i inl a -> leaf o a -> u_remap o (inl ++ [i]) a = u_remap o inl a.
Proof.
  intros Hb Hl. destruct a as [n|s|k|f args]; try reflexivity. destruct (Hb s) as (j & -> & Hj & _); [constructor|].
  rewrite !u_remap_var. unfold nidx. rewrite filter_app, app_length. cbn [filter]. destruct (Nat.ltb_spec i j); [lia|]. cbn [length]. now rewrite Nat.add_0_r.
Qed.
Lemma backw_sub q inl e a : backw q inl e -> In a (dleaves o e) -> backw q inl a.
Proof.
  intros Hb Ha s Hs. apply Hb. apply dleaves_occ in Ha as Ho. apply dleaves_leaf in Ha as Hl.
  destruct a as [n|v|i|f args]; try (inversion Hs; subst; exact Ho). destruct (Hl f args eq_refl).
Qed.
Lemma backw_le q q' inl e : q <= q' -> backw q inl e -> backw q' inl e.
Proof. intros H Hb s Hs. destruct (Hb s Hs) as (j & E & Hj & Hi). exists j. split; [exact E|]. split; [lia | exact Hi]. Qed.
Lemma good_more inl c q i : q <= i -> good inl c q -> good (inl ++ [i]) c q.
Proof.
  intros Hq (HS & e & E1 & E2 & Hf & Hv & Hb). split; [exact HS|]. exists e. split; [exact E1|]. split; [|split; [exact Hf | split; [exact Hv|]]].
  - rewrite E2. apply map_ext_in. intros a Ha. symmetry. apply remap_more; [|now apply (dleaves_leaf e)]. apply (backw_le q); [exact Hq|]. now apply (backw_sub q inl e).
  - intros s Hs. destruct (Hb s Hs) as (j & E & Hj & Hi). exists j. split; [exact E|]. split; [exact Hj|]. rewrite in_app_iff. intros [H|[H|[]]]; [auto | lia].
Qed.

Context (mid outs : list ex).
Hypothesis HW : well_formed nv mid outs.
Hypothesis HF : Forall (isf o) mid.
Hypothesis Hfm : Forall fine mid.
Hypothesis HR2 : forall k e l, nth_error mid k = Some e -> l < batch -> R (nv + k) l = sv e l.
Local Notation lim := (nv + length mid).
Local Notation deps := (dependees o nv (mid ++ outs)).

Lemma deps_in i j : In j (deps i) <-> exists e, nv <= j /\ nth_error (mid ++ outs) (j - nv) = Some e /\ occ i e.
Proof.
  unfold dependees. rewrite in_map_iff. split.
  - intros ([k e] & Ek & H). cbn in Ek. subst k. apply filter_In in H. destruct H as [H1 H2]. cbn [fst snd] in H2.
    apply existsb_exists in H2. destruct H2 as (s & Hs & E). apply String.eqb_eq in E. subst s. apply (proj1 (get_variables_ok _)) in Hs. destruct Hs as (x & [<-|[]] & Ho).
    exists e. apply In_nth_error in H1. destruct H1 as (n & Hn).
    assert (HC : forall (l : list ex) b n, nth_error (combine (seq b (length l)) l) n = Some (j, e) -> j = b + n /\ nth_error l n = Some e).
    { clear. induction l as [|x l IH]; intros b [|n]; cbn; try discriminate; [intros [= <- <-]; split; [lia | reflexivity]|].
      intros H. apply IH in H. destruct H. split; [lia | assumption]. }
    destruct (HC _ _ _ Hn) as [-> He]. replace (nv + n - nv) with n by lia. split; [lia | auto].
  - intros (e & Hj & He & Ho). exists (j, e). split; [reflexivity|]. apply filter_In. split.
    + assert (HC : forall (l : list ex) b n, nth_error l n = Some e -> In (b + n, e) (combine (seq b (length l)) l)).
      { clear. induction l as [|x l IH]; intros b [|n]; cbn; try discriminate; [intros [= ->]; left; f_equal; lia|].
        intros H. right. replace (b + S n) with (S b + n) by lia. now apply IH. }
      replace j with (nv + (j - nv)) by lia. now apply HC.
    + cbn [fst snd]. apply existsb_exists. exists (uname i). split; [|apply String.eqb_refl]. apply (proj1 (get_variables_ok _)). exists e. split; [now left | exact Ho].
Qed.

Record linv (i : nat) (todo : list ex) (inl : list nat) (out : list (celt o)) : Prop := {
  li_len : i + length todo = lim;
  li_lo : nv <= i;
  li_el : forall k e, nth_error todo k = Some e -> isf o e /\ fine e /\ (forall l, l < batch -> sv e l = R (i + k) l) /\ backw (i + k) inl e;
  li_occ : forall k e e0 j, nth_error todo k = Some e -> nth_error mid (i + k - nv) = Some e0 -> i <= j -> (occ j e <-> occ j e0);
  li_inl : forall x, In x inl -> nv <= x < i;
  li_nd : NoDup inl;
  li_outs : forall x a, In x inl -> In a outs -> ~ occ x a;
  li_out : Forall2 (good inl) out (keeps nv inl i)
}.
Lemma nth_update {X} (g : X -> X) : forall (l : list X) j k, nth_error (update l j g) k = if Nat.eqb k j then option_map g (nth_error l k) else nth_error l k.
Proof.
  induction l as [|x l IH]; intros [|j] [|k]; cbn; try reflexivity; try now destruct (Nat.eqb k j). apply IH.
Qed.
Lemma update_len {X} (g : X -> X) : forall (l : list X) j, length (update l j g) = length l.
Proof. induction l as [|x l IH]; intros [|j]; cbn; auto. Qed.

Lemma mid_backw k e : nth_error mid k = Some e -> backw (nv + k) [] e.
Proof.
  intros He s Hs. pose proof (proj1 HW k e He) as Hok. rewrite Forall_forall in HF. destruct (HF e (nth_error_In _ _ He)) as (f & args & ->).
  cbn in Hok. inversion Hs as [|? ? a Ha Ho]; subst. rewrite Forall_forall in Hok. specialize (Hok a Ha).
  destruct a as [n|v|i|g l]; cbn in Hok; [inversion Ho | | inversion Ho | destruct Hok]. destruct Hok as (j & Hj & ->). inversion Ho; subst. exists j. auto.
Qed.

Lemma linv_init : linv nv mid [] [].
Proof.
  split; auto; try (intros; contradiction).
  - intros k e He. pose proof (nth_error_In _ _ He) as Hi. split; [exact (proj1 (Forall_forall _ _) HF e Hi)|]. split; [exact (proj1 (Forall_forall _ _) Hfm e Hi)|].
    split; [intros l Hl; symmetry; now apply HR2 | now apply mid_backw].
  - intros k e e0 j H1 H2 _. replace (nv + k - nv) with k in H2 by lia. rewrite H1 in H2. injection H2 as ->. tauto.
  - constructor.
  - unfold keeps. rewrite Nat.sub_diag. constructor.
Qed.
Lemma linv_keep i e r inl out c : linv i (e :: r) inl out -> good inl c i -> linv (S i) r inl (out ++ [c]).
Proof.
  intros HI Hc. destruct HI as [L1 L2 L3 L4 L5 L6 L7 L8]. cbn [length] in L1. split; auto; try lia.
  - intros k e' He. replace (S i + k) with (i + S k) by lia. apply (L3 (S k)). exact He.
  - intros k e' e0 j H1 H2 H3. apply (L4 (S k)); [exact H1| |lia]. replace (i + S k - nv) with (S i + k - nv) by lia. exact H2.
  - intros x Hx. specialize (L5 x Hx). lia.
  - rewrite keeps_S by exact L2. replace (kept inl i) with true; [now apply Forall2_app; [|constructor]|].
    symmetry. apply kept_in. intros Hx. specialize (L5 i Hx). lia.
Qed.
Lemma linv_inline i e r inl out j ej : linv i (e :: r) inl out -> deps i = [j] -> nth_error r (j - S i) = Some ej -> j < lim ->
  linv (S i) (update r (j - S i) (subs o [(uname i, e)])) (inl ++ [i]) out.
Proof.
  intros HI Hd Hr Hlim. destruct HI as [L1 L2 L3 L4 L5 L6 L7 L8]. cbn [length] in L1.
  destruct (L3 0 e eq_refl) as (Hie & Hfe & Hve & Hbe). rewrite Nat.add_0_r in Hve, Hbe.
  assert (Hj : i < j).
  { assert (H : In j (deps i)) by (rewrite Hd; now left). apply deps_in in H. destruct H as (x & Hj & Hx & Ho).
    rewrite nth_error_app1 in Hx by lia. destruct (mid_backw _ _ Hx _ Ho) as (i' & E & Hi' & _). apply uname_inj in E. lia. }
  (* only element j reads u_i *)
  assert (Honly : forall k x, nth_error r k = Some x -> occ i x -> k = j - S i).
  { intros k x Hk Ho. assert (Hk' : i + S k - nv < length mid).
    { assert (k < length r) by (apply nth_error_Some; congruence). lia. }
    destruct (nth_error_some mid (i + S k - nv) Hk') as (x0 & Hx0).
    apply (L4 (S k) x x0 i Hk Hx0 (le_n i)) in Ho.
    assert (H : In (i + S k) (deps i)).
    { apply deps_in. exists x0. split; [lia|]. split; [|exact Ho]. rewrite nth_error_app1 by exact Hk'. exact Hx0. }
    rewrite Hd in H. destruct H as [H|[]]. lia. }
  assert (Hni : ~ In i inl) by (intros H; specialize (L5 i H); lia).
  split; auto; try lia.
  - rewrite update_len. lia.
  - intros k e' He. rewrite nth_update in He. replace (S i + k) with (i + S k) by lia. destruct (Nat.eqb_spec k (j - S i)) as [->|Hk].
    + rewrite Hr in He. injection He as <-. destruct (L3 (S (j - S i)) ej Hr) as (H1 & H2 & H3 & H4).
      split; [now apply subs_isf|]. split; [now apply subs_fine|]. split.
      * intros l Hl. rewrite subs_val; [now apply H3 | exact Hie|]. rewrite uenv_uname. symmetry. now apply Hve.
      * intros s Hs. apply subs_occ in Hs. destruct Hs as [[Hs Hn]|[_ Hs]].
        -- destruct (H4 s Hs) as (j' & -> & Hj' & Hi'). exists j'. split; [reflexivity|]. split; [exact Hj'|]. rewrite in_app_iff. intros [H|[H|[]]]; [auto|]. subst. now apply Hn.
        -- destruct (Hbe s Hs) as (j' & -> & Hj' & Hi'). exists j'. split; [reflexivity|]. split; [lia|]. rewrite in_app_iff. intros [H|[H|[]]]; [auto | lia].
    + destruct (L3 (S k) e' He) as (H1 & H2 & H3 & H4). split; [exact H1|]. split; [exact H2|]. split; [exact H3|].
      intros s Hs. destruct (H4 s Hs) as (j' & -> & Hj' & Hi'). exists j'. split; [reflexivity|]. split; [exact Hj'|].
      rewrite in_app_iff. intros [H|[H|[]]]; [auto|]. subst j'. apply Hk. now apply (Honly k e').
  - intros k e' e0 j' He H0 Hj'. rewrite nth_update in He. replace (S i + k - nv) with (i + S k - nv) in H0 by lia.
    destruct (Nat.eqb_spec k (j - S i)) as [->|Hk].
    + rewrite Hr in He. injection He as <-. rewrite subs_occ. rewrite (L4 (S (j - S i)) ej e0 j' Hr H0 ltac:(lia)). split.
      * intros [[H _]|[_ H]]; [exact H|]. exfalso. destruct (Hbe _ H) as (i' & E & Hi' & _). apply uname_inj in E. lia.
      * intros H. left. split; [exact H|]. intros E. apply uname_inj in E. lia.
    + apply (L4 (S k) e' e0 j' He H0). lia.
  - intros x Hx. apply in_app_iff in Hx. destruct Hx as [Hx|[<-|[]]]; [specialize (L5 x Hx)|]; lia.
  - apply (Permutation_NoDup (Permutation_cons_append inl i)). now constructor.
  - intros x a Hx Ha. apply in_app_iff in Hx. destruct Hx as [Hx|[<-|[]]]; [now apply L7|]. intros Ho.
    apply In_nth_error in Ha. destruct Ha as (n & Hn).
    assert (H : In (lim + n) (deps i)).
    { apply deps_in. exists a. split; [lia|]. split; [|exact Ho]. rewrite nth_error_app2 by lia. replace (lim + n - nv - length mid) with n by lia. exact Hn. }
    rewrite Hd in H. destruct H as [H|[]]. lia.
  - assert (EK : keeps nv (inl ++ [i]) (S i) = keeps nv inl i).
    { rewrite keeps_S by exact L2. replace (kept (inl ++ [i]) i) with false.
      - rewrite app_nil_r. unfold keeps. apply filter_ext_in. intros x Hx. apply in_seq in Hx. unfold kept. rewrite existsb_app. cbn.
        destruct (Nat.eqb_spec x i); [lia|]. now rewrite !orb_false_r.
      - symmetry. unfold kept. rewrite existsb_app. cbn. rewrite Nat.eqb_refl. now rewrite orb_true_r. }
    rewrite EK. clear - L8 HW. assert (HK : Forall (fun q => q <= i) (keeps nv inl i)).
    { apply Forall_forall. intros q Hq. apply filter_In in Hq. destruct Hq as [Hq _]. apply in_seq in Hq. lia. }
    induction L8 as [|c q l l' H HFo IH]; [constructor|]. inversion HK; subst. constructor; [now apply good_more | auto].
Qed.

Lemma inl_loop_ok : forall fuel i todo inl out, linv i todo inl out -> length todo <= fuel ->
  (inl_loop o lname fname deps lim i fuel todo inl out = MThrow /\ dirty) \/
  exists inl' out', inl_loop o lname fname deps lim i fuel todo inl out = MDone (inl', out') /\ linv lim [] inl' out'.
Proof.
  induction fuel as [|fuel IH]; intros i todo inl out HI Hf.
  - destruct todo; [|cbn in Hf; lia]. right. exists inl, out. split; [reflexivity|]. pose proof (li_len _ _ _ _ HI) as E. cbn in E. rewrite Nat.add_0_r in E. now subst i.
  - destruct todo as [|e r].
    + right. exists inl, out. split; [reflexivity|]. pose proof (li_len _ _ _ _ HI) as E. cbn in E. rewrite Nat.add_0_r in E. now subst i.
    + cbn [inl_loop]. cbn in Hf.
      assert (HK : (mbind (emit o lname fname inl e) (fun c => inl_loop o lname fname deps lim (S i) fuel r inl (out ++ [c])) = MThrow /\ dirty) \/
        exists inl' out', mbind (emit o lname fname inl e) (fun c => inl_loop o lname fname deps lim (S i) fuel r inl (out ++ [c])) = MDone (inl', out') /\ linv lim [] inl' out').
      { destruct (li_el _ _ _ _ HI 0 e eq_refl) as (H1 & H2 & H3 & H4). rewrite Nat.add_0_r in H3, H4.
        destruct (emit_ok inl e i H1 H2 H3 H4) as [[-> Hd]|(c & -> & Hc)]; [left; auto|]. cbn [mbind].
        apply IH; [now apply linv_keep with (e := e) | lia]. }
      destruct (deps i) as [|j [|j' l]] eqn:Ed; try exact HK.
      destruct (nth_error r (j - S i)) as [ej|] eqn:Er; [|exact HK].
      destruct (Nat.ltb_spec j lim) as [Hl|Hl]; [|exact HK]. destruct (Nat.ltb (n_nodes o ej + n_nodes o e) 200); [|exact HK].
      cbn [andb]. apply IH; [now apply linv_inline with (ej := ej) | rewrite update_len; lia].
Qed.

(* --- The result, in terms of the new indices ------------------------------------------------------------------ *)
Definition R2 (qs : list nat) (n l : nat) : T := if Nat.ltb n nv then R n l else R (nth (n - nv) qs 0) l.
Local Notation sv2 qs := (sval o td A dflt xpar xt (R2 qs)).
Lemma remap_value q inl qs a l : q <= lim -> (forall x, In x inl -> nv <= x) -> NoDup inl -> qs = keeps nv inl lim -> leaf o a -> backw q inl a ->
  sv2 qs (u_remap o inl a) l = sv a l /\ arg_ok (nidx inl q) (u_remap o inl a).
Proof.
  intros Hq Hge Hnd -> Hl Hb. destruct a as [n|s|i|f args]; try (split; [reflexivity | exact I]); [|destruct (Hl f args eq_refl)].
  destruct (Hb s) as (j & -> & Hj & Hni); [constructor|]. rewrite u_remap_var. split.
  - unfold sval. cbn [S_Cfunc.cval]. rewrite !uenv_uname. unfold R2. destruct (Nat.lt_ge_cases j nv) as [H|H].
    + rewrite (nidx_low nv inl Hge j H). destruct (Nat.ltb_spec j nv); [reflexivity | lia].
    + destruct (nidx_keeps nv inl Hge Hnd j H) as [-> _]. destruct (Nat.ltb_spec (nv + length (keeps nv inl j)) nv); [lia|].
      replace (nv + length (keeps nv inl j) - nv) with (length (keeps nv inl j)) by lia.
      destruct (keeps_pos nv inl j lim H ltac:(lia) Hni) as [-> _]. reflexivity.
  - exists (nidx inl j). split; [|reflexivity]. now apply (nidx_mono nv inl Hge Hnd).
Qed.

Definition compiled (R' : nat -> nat -> T) (n : nat) (c : celt o) : Prop :=
  shaped o lname fname K c /\ Forall (arg_ok n) (ce_args o c) /\ Forall fine (ce_args o c) /\
  forall tp, (tdb = true -> exists tt, vload tp 0 batch = MDone (vec batch tt) /\ forall l, l < batch -> xt l = Some (tt l)) ->
    tmpl_eval o td A dflt batch tp (ce_ex o c) (map (fun a => vec batch (sval o td A dflt xpar xt R' a)) (ce_args o c)) = MDone (vec batch (R' n), []).
Lemma fine_remap inl a : leaf o a -> fine a -> fine (u_remap o inl a).
Proof.
  intros Hl Hf. destruct a as [n|s|i|f args]; auto. cbn [u_remap]. destruct (uname_to_index s); [|exact Hf]. cbv zeta. destruct (Nat.eqb _ 0); [exact Hf|].
  intros y Hy. inversion Hy; subst. exact I.
Qed.
Lemma inl_result inl out : Forall fine outs -> linv lim [] inl out -> exists R' : nat -> nat -> T,
  (forall i l, i < nv -> R' i l = R i l) /\
  (forall m c, nth_error out m = Some c -> compiled R' (nv + m) c) /\
  (forall a, In a outs -> arg_ok (nv + length out) (u_remap o inl a) /\ fine (u_remap o inl a) /\
     forall l, sval o td A dflt xpar xt R' (u_remap o inl a) l = sv a l).
Proof.
  intros Hfo [L1 L2 L3 L4 L5 L6 L7 L8]. set (qs := keeps nv inl lim) in *. exists (R2 qs).
  assert (Hge : forall x, In x inl -> nv <= x) by (intros x Hx; now apply L5).
  assert (Hlen : length out = length qs) by (clear - L8; induction L8; cbn; congruence).
  split; [|split].
  - intros i l Hi. unfold R2. destruct (Nat.ltb_spec i nv); [reflexivity | lia].
  - intros m c Hc.
    assert (Hq : exists q, nth_error qs m = Some q /\ good inl c q).
    { clear - L8 Hc. revert m Hc. induction L8 as [|x y l l' H HFo IH]; intros [|m] Hc; try discriminate; cbn in *; [|now apply IH].
      injection Hc as ->. eauto. }
    destruct Hq as (q & Hq & HS & e & E1 & E2 & Hf & Hv & Hb).
    assert (Hq' : nv <= q < lim /\ ~ In q inl).
    { apply nth_error_In in Hq. apply filter_In in Hq. destruct Hq as [H1 H2]. apply in_seq in H1. apply kept_in in H2. split; [lia | exact H2]. }
    assert (Hm : length (keeps nv inl q) = m).
    { destruct (keeps_pos nv inl q lim ltac:(lia) ltac:(lia) (proj2 Hq')) as [E Hl].
      assert (NoDup qs) by (apply NoDup_filter, seq_NoDup). apply (proj1 (NoDup_nth qs 0) H); [exact Hl | apply nth_error_Some; congruence |].
      replace (nth (length (keeps nv inl q)) qs 0) with q by (symmetry; exact E). symmetry. now apply List.nth_error_nth. }
    assert (Hn : nidx inl q = nv + m) by (destruct (nidx_keeps nv inl Hge L6 q ltac:(lia)) as [-> _]; now rewrite Hm).
    assert (HR : forall l, R2 qs (nv + m) l = R q l).
    { intros l. unfold R2. destruct (Nat.ltb_spec (nv + m) nv); [lia|]. replace (nv + m - nv) with m by lia. now rewrite (List.nth_error_nth _ _ 0 Hq). }
    assert (HA : forall a l, In a (dleaves o e) -> sv2 qs (u_remap o inl a) l = sv a l /\ arg_ok (nv + m) (u_remap o inl a)).
    { intros a l Ha. rewrite <- Hn. apply remap_value; auto; [lia | now apply (dleaves_leaf e) | now apply (backw_sub q inl e)]. }
    split; [exact HS|]. rewrite E2. split; [|split].
    + rewrite Forall_map. apply Forall_forall. intros a Ha. now apply (HA a 0).
    + rewrite Forall_map. apply Forall_forall. intros a Ha. apply fine_remap; [now apply (dleaves_leaf e)|].
      apply dleaves_occ in Ha. intros x Hx. apply Hf. clear - Hx Ha. induction Ha; auto. eapply occ_arg; eauto.
    + intros tp Htm. rewrite (teval_skel o td A dflt batch tp _ e _ E1). rewrite map_map.
      rewrite (map_ext_in _ (fun a => vec batch (sv a))) by (intros a Ha; apply vec_ext; intros l _; now apply HA).
      pose proof (teval_val o td A dflt batch tp np tdb K xpar xt Htm R e [] Hf) as HT. rewrite app_nil_r in HT. rewrite HT. f_equal. f_equal.
      apply vec_ext. intros l Hl. rewrite HR. now apply Hv.
  - intros a Ha. destruct HW as [_ HO]. rewrite Forall_forall in HO, Hfo. specialize (HO a Ha).
    assert (Hl : leaf o a) by (intros f args ->; exact HO).
    assert (Hb : backw lim inl a).
    { intros s Hs. destruct a as [n|v|i|f args]; [inversion Hs | | inversion Hs | destruct (Hl f args eq_refl)]. inversion Hs; subst.
      destruct HO as (j & Hj & ->). exists j. split; [reflexivity|]. split; [exact Hj|]. intros Hi. apply (L7 j _ Hi Ha). constructor. }
    assert (Hn : nidx inl lim = nv + length out) by (destruct (nidx_keeps nv inl Hge L6 lim ltac:(lia)) as [-> _]; now rewrite Hlen).
    split; [|split].
    + rewrite <- Hn. now apply (remap_value lim inl qs a 0).
    + apply fine_remap; auto.
    + intros l. now apply (remap_value lim inl qs a l).
Qed.
End P.
