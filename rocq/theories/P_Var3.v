(* The equations made by var_ode_sys. *)
From Coq Require Import String Bool ZArith NArith Arith List Lia Sorted.
From Verif Require Import M_Expr M_Dag M_Dec M_Taylor S_Expr P_Subs P_Cse M_Dtens S_Dtens P_Dtens M_Adj S_Adj P_Adj2 M_Ctor S_Ctor P_Ctor M_Var S_Var P_Var1 P_VarN.
Import ListNotations.
Local Open Scope nat_scope.
Set Bullet Behavior "Strict Subproofs".

(* --- Indices --------------------------------------------------------------------------- *)
Fixpoint dtot (d : list (nat * nat)) : nat := match d with [] => 0 | (_, k) :: r => k + dtot r end.
Lemma bump_didx n i : i < n -> forall d p, match p with Some q => q < i | None => True end -> didx_ok n p d = true ->
  didx_ok n p (bump i d) = true /\ dtot (bump i d) = S (dtot d).
Proof.
  intros Hi. induction d as [|[j k] r IH]; intros p Hp H; cbn [bump didx_ok dtot] in *.
  - split; [|lia]. rewrite (proj2 (Nat.ltb_lt i n) Hi). cbn [Nat.eqb negb andb]. destruct p; [|reflexivity]. now rewrite (proj2 (Nat.ltb_lt _ _) Hp).
  - apply andb_prop in H. destruct H as [H H4]. apply andb_prop in H. destruct H as [H H3]. apply andb_prop in H. destruct H as [H1 H2].
    destruct (Nat.ltb_spec j i) as [Lt|Ge].
    + cbn [didx_ok dtot]. rewrite H1, H2, H3. destruct (IH (Some j) Lt H4) as [E1 E2]. rewrite E1. split; [reflexivity | lia].
    + destruct (Nat.eqb_spec j i) as [->|Ne].
      * cbn [didx_ok dtot]. rewrite H1, H3, H4. split; [|lia]. destruct (Nat.eqb_spec (k + 1) 0); [lia | reflexivity].
      * cbn [didx_ok dtot]. rewrite (proj2 (Nat.ltb_lt i n) Hi), H1, H2, H4. rewrite (proj2 (Nat.ltb_lt i j)) by lia. split; [|lia].
        destruct p; [|reflexivity]. now rewrite (proj2 (Nat.ltb_lt _ _) Hp).
Qed.
Definition N_didx (d : list (nat * nat)) : list (N * N) := map (fun p => (N.of_nat (fst p), N.of_nat (snd p))) d.
Lemma nat_N d : nat_didx (N_didx d) = d.
Proof. unfold nat_didx, N_didx. rewrite map_map. rewrite <- (map_id d) at 2. apply map_ext. intros [i k]. cbn. now rewrite !Nat2N.id. Qed.
Lemma N_nat d : N_didx (nat_didx d) = d.
Proof. unfold nat_didx, N_didx. rewrite map_map. rewrite <- (map_id d) at 2. apply map_ext. intros [i k]. cbn. now rewrite !N2Nat.id. Qed.
Lemma nat_didx_inj d d' : nat_didx d = nat_didx d' -> d = d'.
Proof. intros E. rewrite <- (N_nat d), <- (N_nat d'). now rewrite E. Qed.
Lemma total_N d : total (N_didx d) = N.of_nat (dtot d).
Proof. induction d as [|[i k] r IH]; cbn [N_didx map total dtot fst snd]; [reflexivity|]. fold (N_didx r). rewrite IH. lia. Qed.
Lemma didx_key n : forall d p, didx_ok n p d = true ->
  StronglySorted (fun p q : N * N => (fst p < fst q)%N) (N_didx d) /\ Forall (fun p : N * N => (0 < snd p)%N) (N_didx d) /\
  Forall (fun p : N * N => (fst p < N.of_nat n)%N) (N_didx d) /\ match p with Some q => Forall (fun x : N * N => (N.of_nat q < fst x)%N) (N_didx d) | None => True end.
Proof.
  induction d as [|[i k] r IH]; intros p H; cbn [didx_ok N_didx map fst snd] in *.
  - repeat split; try constructor. destruct p; constructor.
  - fold (N_didx r). apply andb_prop in H. destruct H as [H H4]. apply andb_prop in H. destruct H as [H H3]. apply andb_prop in H. destruct H as [H1 H2].
    apply Nat.ltb_lt in H1. apply negb_true_iff, Nat.eqb_neq in H2. destruct (IH (Some i) H4) as (A & B & D & E).
    split; [constructor; [exact A | exact E]|]. split; [constructor; [cbn; lia | exact B]|]. split; [constructor; [cbn; lia | exact D]|].
    destruct p as [q|]; [|exact I]. apply Nat.ltb_lt in H3. constructor; [cbn; lia|]. eapply Forall_impl; [|exact E]. cbn. intros x Hx. lia.
Qed.
Lemma key_didx n : forall d p, StronglySorted (fun p q : N * N => (fst p < fst q)%N) d -> Forall (fun p : N * N => (0 < snd p)%N) d ->
  Forall (fun p : N * N => (fst p < N.of_nat n)%N) d -> match p with Some q => Forall (fun x : N * N => (N.of_nat q < fst x)%N) d | None => True end ->
  didx_ok n p (nat_didx d) = true.
Proof.
  induction d as [|[i k] r IH]; intros p A B D E; cbn [nat_didx map didx_ok fst snd]; [reflexivity|]. fold (nat_didx r).
  inversion A as [|? ? A1 A2]; inversion B as [|? ? B1 B2]; inversion D as [|? ? D1 D2]; subst. cbn [fst snd] in *.
  rewrite (proj2 (Nat.ltb_lt _ _)) by lia. destruct (Nat.eqb_spec (N.to_nat k) 0); [lia|]. cbn [andb negb].
  rewrite IH; auto.
  - rewrite andb_true_r. destruct p as [q|]; [|reflexivity]. inversion E; subst. cbn [fst] in *. apply Nat.ltb_lt. lia.
  - eapply Forall_impl; [|exact A2]. cbn. intros x Hx. lia.
Qed.

Section Eqs.
Context (o : nops) (neq : num o -> num o -> bool) (feq : fid (num o) -> fid (num o) -> bool).
Local Notation ex := (expr (num o)).
Hypothesis Hfeq : forall f g, feq f g = true -> f = g.
Hypothesis Hrec : recognises o feq.
Context (names : list string) (va : list ex) (order : nat) (m : list (sidx * ex)) (ents : list (ex * ex)).
Hypothesis Hnames : NoDup names.
Hypothesis Hnp : forall s, In s names -> String.prefix "∂" s = false.
Hypothesis Hleaf : forall a, In a va -> match a with EVar _ | EPar _ => True | _ => False end.
Hypothesis Hcomp : complete_tensor (N.of_nat (length names)) (N.of_nat (length va)) (N.of_nat order) m.
Hypothesis Hents : Forall2 (fun kv y => var_entry o names va (fst kv) = MDone y) m ents.

Definition vn (s : string) (d : list (nat * nat)) : string := match d with [] => s | _ => partial_name d s end.
Lemma vn_inj s d s' d' : In s names -> In s' names -> vn s d = vn s' d' -> s = s' /\ d = d'.
Proof.
  intros H H'. apply Hnp in H, H'. unfold vn. destruct d as [|p r], d' as [|p' r']; intros E.
  - auto.
  - subst s. unfold partial_name in H. rewrite prefix_app in H. discriminate.
  - subst s'. unfold partial_name in H'. rewrite prefix_app in H'. discriminate.
  - apply partial_inj in E. tauto.
Qed.
Definition Qv (k : nat) (id : string) (d : list (nat * nat)) (l : list ex) : Prop :=
  l = va /\ In id names /\ didx_ok (length va) None d = true /\ dtot d <= k.
Lemma Qv_va k id d l : Qv k id d l -> l = va. Proof. now intros []. Qed.
Lemma Qv_up k id d l : Qv k id d l -> Qv (S k) id d l.
Proof. intros (A & B & D & E). repeat split; auto. Qed.
Lemma Qv_bump k id d l i : Qv k id d l -> i < length l -> Qv (S k) id (bump i d) l.
Proof. intros (A & B & D & E) Hi. subst l. destruct (bump_didx (length va) i Hi d None I D) as [X Y]. repeat split; auto. lia. Qed.

Definition fn (s : string) (d : list (nat * nat)) : ex := EFun (Fdfun s d) va.
Lemma entry_ok k y : var_entry o names va k = MDone y ->
  exists s, nth_error names (N.to_nat (fst k)) = Some s /\ y = (fn s (nat_didx (snd k)), EVar (vn s (nat_didx (snd k)))).
Proof.
  unfold var_entry, dfun. destruct (nth_error names _) as [s|]; [|discriminate]. destruct (didx_ok _ _ _); [|discriminate]. cbn [mbind]. intros H. exists s. split; [reflexivity|].
  unfold fn, vn. destruct (nat_didx (snd k)); congruence.
Qed.
Lemma leaf_refl a : match a : ex with EVar _ | EPar _ => True | _ => False end -> ex_eqb o neq feq a a = true.
Proof. destruct a; intros []; cbn; [apply String.eqb_refl | apply Nat.eqb_refl]. Qed.
Lemma leaf_eq (a b : ex) : match b with EVar _ | EPar _ => True | _ => False end -> ex_eqb o neq feq a b = true -> a = b.
Proof.
  destruct b; intros []; destruct a; cbn; try discriminate; intros H.
  - apply String.eqb_eq in H. congruence.
  - apply Nat.eqb_eq in H. congruence.
Qed.
Lemma fn_eqb e s d : ex_eqb o neq feq e (fn s d) = true <-> e = fn s d.
Proof.
  split.
  - destruct e as [x|x|x|f l]; try discriminate. intros H. apply ex_eqb_fun in H. destruct H as [H1 H2]. apply Hfeq in H1. subst f. unfold fn. f_equal.
    assert (K : forall b, In b va -> match b with EVar _ | EPar _ => True | _ => False end) by exact Hleaf. revert K. clear Hleaf Hcomp Hents. induction H2 as [|a b r r' H HF IH]; intros K; [reflexivity|].
    f_equal; [apply leaf_eq; [apply K; now left | exact H] | apply IH; intros; apply K; now right].
  - intros ->. unfold fn. cbn [ex_eqb]. rewrite (proj2 Hrec). cbn [andb]. revert Hleaf. clear Hcomp Hents. induction va as [|a r IH]; intros K; [reflexivity|].
    rewrite leaf_refl by (apply K; now left). cbn [andb]. apply IH. intros; apply K; now right.
Qed.
Lemma look_fn s d : Qv order s d va -> look o neq feq ents (fn s d) = Some (EVar (vn s d)).
Proof.
  intros (_ & Hs & Hd & Ho). unfold look. destruct (In_nth_error _ _ Hs) as [c Hc].
  destruct (didx_key _ _ _ Hd) as (A & B & D & _).
  assert (Hk : In (N.of_nat c, N_didx d) (map fst m)).
  { apply (proj2 Hcomp). assert (c < length names) by (apply nth_error_Some; congruence). split; [split; assumption|]. cbn [fst snd]. split; [lia|]. split; [exact D|]. rewrite total_N. lia. }
  apply in_map_iff in Hk. destruct Hk as ([k e] & E & Hin). cbn [fst] in E. subst k.
  assert (Hy : In (fn s d, EVar (vn s d)) ents).
  { destruct (In_nth_error _ _ Hin) as [i Hi]. clear - Hents Hi Hc. revert i Hi. induction Hents as [|kv y mm ee H HF IH]; intros [|i] Hi; try discriminate.
    - injection Hi as ->. left. apply entry_ok in H. destruct H as (s' & H1 & ->). cbn [fst snd] in *. rewrite Nat2N.id in H1. rewrite nat_N. congruence.
    - right. eapply IH; eauto. }
  destruct (find (fun p => ex_eqb o neq feq (fn s d) (fst p)) ents) as [y|] eqn:Ef.
  - apply find_some in Ef. destruct Ef as [Hi Ey]. assert (Hf : exists s' d', y = (fn s' d', EVar (vn s' d'))).
    { clear - Hents Hi. induction Hents as [|kv y' mm ee H HF IH]; [destruct Hi|]. destruct Hi as [<-|Hi]; [|auto]. apply entry_ok in H. destruct H as (s' & _ & ->). eauto. }
    destruct Hf as (s' & d' & ->). cbn [fst] in Ey. apply fn_eqb in Ey. unfold fn in Ey. injection Ey as -> ->. reflexivity.
  - exfalso. eapply find_none in Ef; [|exact Hy]. cbn [fst] in Ef. rewrite (proj2 (fn_eqb (fn s d) s d) eq_refl) in Ef. discriminate.
Qed.
Lemma look_other (e : ex) : (forall s d, e <> fn s d) -> look o neq feq ents e = None.
Proof.
  intros H. unfold look. destruct (find _ ents) as [y|] eqn:Ef; [|reflexivity]. exfalso. apply find_some in Ef. destruct Ef as [Hi Ey].
  assert (Hf : exists s' d', y = (fn s' d', EVar (vn s' d'))).
  { clear - Hents Hi. induction Hents as [|kv y' mm ee H0 HF IH]; [destruct Hi|]. destruct Hi as [<-|Hi]; [|auto]. apply entry_ok in H0. destruct H0 as (s' & _ & ->). eauto. }
  destruct Hf as (s' & d' & ->). cbn [fst] in Ey. apply fn_eqb in Ey. now apply H in Ey.
Qed.
Local Notation back := (subs_ex o (look o neq feq ents)).
Lemma back_fn s d : Qv order s d va -> back (fn s d) = EVar (vn s d).
Proof. intros H. rewrite subs_ex_unfold, (look_fn s d H). reflexivity. Qed.
Lemma back_fun f l : isdf o f = false -> back (EFun f l) = EFun f (map back l).
Proof. intros H. rewrite subs_ex_unfold. rewrite look_other; [reflexivity|]. intros s d E. unfold fn in E. injection E as -> _. discriminate. Qed.
Lemma back_leaf e : match e with EFun _ _ => False | _ => True end -> back e = e.
Proof. intros H. rewrite subs_ex_unfold. rewrite look_other; [destruct e; [reflexivity..|destruct H]|]. intros s d ->. exact H. Qed.

(* The names of the variables of the equations. *)
Definition vnames : list string := map (fun kv => vn (nth (N.to_nat (fst (fst kv))) names ""%string) (nat_didx (snd (fst kv)))) m.
Lemma key_name kv : In kv m -> exists s, nth_error names (N.to_nat (fst (fst kv))) = Some s /\ nth (N.to_nat (fst (fst kv))) names ""%string = s /\
  Qv order s (nat_didx (snd (fst kv))) va.
Proof.
  intros H. apply (in_map fst) in H. apply (proj2 Hcomp) in H. destruct H as ((A1 & A2) & B & D & E).
  destruct (nth_error names (N.to_nat (fst (fst kv)))) as [s|] eqn:Es; [|apply nth_error_None in Es; lia]. exists s. split; [reflexivity|]. split; [now apply nth_error_nth|].
  split; [reflexivity|]. split; [eapply nth_error_In; eauto|]. split; [apply key_didx; auto|]. rewrite <- (N_nat (snd (fst kv))), total_N in E. lia.
Qed.
Lemma vnames_ents : map snd ents = map EVar vnames.
Proof.
  unfold vnames. rewrite map_map. clear Hcomp. induction Hents as [|kv y mm ee H HF IH]; [reflexivity|]. cbn [map]. rewrite IH by exact HF. f_equal.
  apply entry_ok in H. destruct H as (s & H1 & ->). cbn [snd]. apply (nth_error_nth _ _ ""%string) in H1. now rewrite H1.
Qed.
Lemma vnames_in s d : Qv order s d va -> In (vn s d) vnames.
Proof.
  intros H. pose proof (look_fn s d H) as E. unfold look in E. destruct (find _ ents) as [y|] eqn:Ef; [|discriminate]. cbn in E. injection E as E. apply find_some in Ef.
  destruct Ef as [Hi _]. apply (in_map snd) in Hi. rewrite vnames_ents, E in Hi. apply in_map_iff in Hi. destruct Hi as (x & Ex & Hx). congruence.
Qed.
Lemma vnames_nodup : NoDup vnames.
Proof.
  assert (K := keys_nodup _ (proj1 Hcomp)). unfold vnames. rewrite <- (map_map fst (fun k => vn (nth (N.to_nat (fst k)) names ""%string) (nat_didx (snd k)))).
  assert (Hk : forall k, In k (map fst m) -> exists s, nth_error names (N.to_nat (fst k)) = Some s /\ nth (N.to_nat (fst k)) names ""%string = s).
  { intros k H. apply in_map_iff in H. destruct H as (kv & <- & H). destruct (key_name kv H) as (s & A & B & _). eauto. }
  revert K Hk. generalize (map fst m). induction l as [|k l IH]; intros K Hk; cbn [map]; constructor.
  - intros Hin. apply in_map_iff in Hin. destruct Hin as (k' & E & Hk'). inversion K as [|? ? Kn _]; subst. apply Kn.
    destruct (Hk k (or_introl eq_refl)) as (s & A & B). destruct (Hk k' (or_intror Hk')) as (s' & A' & B'). rewrite B, B' in E.
    apply vn_inj in E; [|eapply nth_error_In; eauto | eapply nth_error_In; eauto]. destruct E as [-> E]. apply nat_didx_inj in E. replace k with k'; [exact Hk'|].
    destruct k as [c d], k' as [c' d']. cbn [fst snd] in *. f_equal; [|now symmetry].
    assert (N.to_nat c' = N.to_nat c); [|lia]. eapply (proj1 (NoDup_nth_error names) Hnames); [apply nth_error_Some; congruence | congruence].
  - inversion K; subst. apply IH; auto. intros; apply Hk; now right.
Qed.
Lemma vnames_plain s : (forall t, In t names -> ~ reserved t) -> In s vnames -> ~ reserved s.
Proof.
  intros Hr H. unfold vnames in H. apply in_map_iff in H. destruct H as (kv & <- & Hin). destruct (key_name kv Hin) as (s & A & B & (_ & Hs & _)). rewrite B.
  unfold vn. destruct (nat_didx _); [apply Hr; exact Hs|]. intros [t E]. discriminate E.
Qed.

Lemma isdf_true f : isdf o f = true -> exists s d, f = Fdfun s d.
Proof. destruct f; try discriminate. eauto. Qed.
Lemma back_plain e : cl o (fun _ => False) (Qv order) e -> no_dfun o (back e) /\ forall s, occurs (EVar s) (back e) -> In s vnames.
Proof.
  induction e as [x|s|i|f l IH] using expr_ind'; intros H.
  - rewrite back_leaf by exact I. split; [intros id d l Ho; inversion Ho | intros s Ho; inversion Ho].
  - destruct H.
  - rewrite back_leaf by exact I. split; [intros id d l Ho; inversion Ho | intros s Ho; inversion Ho].
  - destruct (isdf o f) eqn:Ef.
    + destruct (isdf_true _ Ef) as (s & d & ->). cbn [cl] in H. pose proof (Qv_va _ _ _ _ H) as ->. fold (fn s d). rewrite back_fn by exact H. split; [intros id d0 l Ho; inversion Ho|].
      intros t Ho. inversion Ho; subst. now apply vnames_in.
    + apply cl_fun in H; [|exact Ef]. rewrite Forall_forall in H, IH. rewrite back_fun by exact Ef. split.
      * intros id d l' Ho. inversion Ho as [E|? ? a Ha Ho']; subst; [discriminate|]. apply in_map_iff in Ha. destruct Ha as (b & <- & Hb). destruct (IH b Hb (H b Hb)) as [X _]. now apply X in Ho'.
      * intros t Ho. inversion Ho as [|? ? a Ha Ho']; subst. apply in_map_iff in Ha. destruct Ha as (b & <- & Hb). destruct (IH b Hb (H b Hb)) as [_ X]. auto.
Qed.
Lemma back_along F e : (forall s d, Qv order s d va -> F (vn s d) = Some (fn s d)) -> cl o (fun _ => False) (Qv order) e -> along o F (back e) = e.
Proof.
  intros HF. induction e as [x|s|i|f l IH] using expr_ind'; intros H.
  - now rewrite back_leaf.
  - destruct H.
  - now rewrite back_leaf.
  - destruct (isdf o f) eqn:Ef.
    + destruct (isdf_true _ Ef) as (s & d & ->). cbn [cl] in H. pose proof (Qv_va _ _ _ _ H) as ->. fold (fn s d). rewrite back_fn by exact H. cbn [along]. now rewrite HF.
    + apply cl_fun in H; [|exact Ef]. rewrite Forall_forall in H, IH. rewrite back_fun by exact Ef. cbn [along]. f_equal. rewrite map_map. rewrite <- (map_id l) at 2. apply map_ext_in. auto.
Qed.
Definition smv : list (string * ex) := map (fun s => (s, fn s [])) names.
Lemma smv_in s : In s names -> assoc s smv = Some (fn s []).
Proof.
  unfold smv. clear. induction names as [|t r IH]; [intros []|]. cbn [map assoc]. intros H. destruct (String.eqb_spec s t) as [<-|Ne]; [reflexivity|]. destruct H as [<-|H]; [congruence | auto].
Qed.
Lemma Qv_zero s : In s names -> Qv 0 s [] va.
Proof. intros H. repeat split; auto. Qed.
Lemma Qv_le k k' s d l : k <= k' -> Qv k s d l -> Qv k' s d l.
Proof. intros Hk (A & B & D & E). repeat split; auto. lia. Qed.
Lemma orig_cl e : no_dfun o e -> (forall s, occurs (EVar s) e -> In s names) -> cl o (fun _ => False) (Qv 0) (subs o smv e).
Proof.
  intros Hn Hv. apply cl_subs. induction e as [x|s|i|f l IH] using expr_ind'; try exact I.
  - cbn [cl]. change (cl o (fun _ => False) (Qv 0) (match assoc s smv with Some t => t | None => EVar s end)). rewrite smv_in by (apply Hv; constructor). cbn. apply Qv_zero. apply Hv. constructor.
  - destruct (isdf o f) eqn:Ef.
    + destruct f; try discriminate. exfalso. eapply Hn. constructor.
    + apply cl_mk; [exact Ef|]. rewrite Forall_forall in *. intros a Ha. apply IH; [exact Ha | |].
      * intros id d l' Ho. apply (Hn id d l'). eapply occ_arg; eauto.
      * intros s Ho. apply Hv. eapply occ_arg; eauto.
Qed.
Lemma orig_back e : no_dfun o e -> (forall s, occurs (EVar s) e -> In s names) -> back (subs o smv e) = e.
Proof.
  intros Hn Hv. induction e as [x|s|i|f l IH] using expr_ind'.
  - now apply back_leaf.
  - change (back (match assoc s smv with Some t => t | None => EVar s end) = EVar s). assert (Hs : In s names) by (apply Hv; constructor). rewrite smv_in by exact Hs. rewrite back_fn; [reflexivity|].
    apply (Qv_le 0); [lia | now apply Qv_zero].
  - now apply back_leaf.
  - change (back (EFun f (map (subs o smv) l)) = EFun f l). assert (Ef : isdf o f = false) by (destruct f; try reflexivity; exfalso; eapply Hn; constructor).
    rewrite back_fun by exact Ef. f_equal. rewrite map_map. rewrite <- (map_id l) at 2. apply map_ext_in. intros a Ha. rewrite Forall_forall in IH. apply IH; [exact Ha | |].
    + intros id d l' Ho. apply (Hn id d l'). eapply occ_arg; eauto.
    + intros s Ho. apply Hv. eapply occ_arg; eauto.
Qed.
End Eqs.
