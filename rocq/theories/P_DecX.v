(* The remaining passes, and whole decompositions. *)
From Coq Require Import String Bool ZArith Arith List Lia.
From Verif Require Import M_Expr M_Dag M_Dec S_Expr S_Dag S_Dec P_ExprSem P_Subs P_Dag P_Dec P_DecM P_DecF P_Cse P_Sort P_DecH P_Vars.
Import ListNotations.
Local Open Scope nat_scope.
Set Bullet Behavior "Strict Subproofs".

Section X.
Context (o : nops).
Local Notation ex := (expr (num o)).
Local Notation elt := (expr (num o) * list nat)%type.
Local Notation mexp l := (map (@fst ex (list nat)) l).

(* --- Replacing elements one by one ------------------------------------------------------ *)
Section Pointwise.
Context {V : Type} (A : alg (num o) V) (dflt : V).
Lemma run_pointwise (g : ex -> ex) mid : (forall e vals, elt_val A dflt vals (g e) = elt_val A dflt vals e) ->
  forall ins, run_mid A dflt ins (map g mid) = run_mid A dflt ins mid.
Proof.
  intros H. unfold run_mid. induction mid as [|e mid IH]; intros ins; cbn; [reflexivity|]. rewrite H. apply IH.
Qed.

Context (neq : num o -> num o -> bool) (feq : fid (num o) -> fid (num o) -> bool).
Definition cmb sins coss (e : ex) : ex := fst (combine_elt o neq feq sins coss (e, [])).
Lemma combine_elt_eq sins coss (p : elt) : combine_elt o neq feq sins coss p = (cmb sins coss (fst p), snd p).
Proof.
  destruct p as [e deps]. unfold cmb, combine_elt. cbn [fst snd].
  destruct e as [| | |f args]; try reflexivity. destruct f; try reflexivity.
  destruct u; try reflexivity; destruct args as [|x [|? ?]]; try reflexivity.
  all: destruct (mem_ex _ _ _ _ _); reflexivity.
Qed.
Definition sc_pair (f g : fid (num o)) : Prop :=
  (f = Fu Usin /\ g = Fu Ucsin) \/ (f = Fu Ucos /\ g = Fu Uccos).
Lemma cmb_cases sins coss (e : ex) : cmb sins coss e = e \/
  exists f g x, sc_pair f g /\ e = EFun f [x] /\ cmb sins coss e = EFun g [x].
Proof.
  unfold cmb, combine_elt. cbn [fst snd].
  destruct e as [| | |f args]; auto. destruct f; auto. destruct u; auto; destruct args as [|x [|? ?]]; auto.
  all: match goal with |- context [mem_ex ?a ?b ?c ?d ?e] => destruct (mem_ex a b c d e) end; cbn [fst]; auto.
  all: right; eexists; eexists; eexists; split; [|split; reflexivity]; unfold sc_pair; auto.
Qed.
Lemma cmb_val sins coss (S : sincos A) e vals : elt_val A dflt vals (cmb sins coss e) = elt_val A dflt vals e.
Proof.
  destruct (cmb_cases sins coss e) as [->|(f & g & x & [[-> ->]|[-> ->]] & -> & ->)]; [reflexivity| |]; cbn; apply S.
Qed.
Lemma sincos_mid (d : dcmp o) : exists sins coss,
  dc_mid o (sincos_combine o neq feq d) = map (fun p => (cmb sins coss (fst p), snd p)) (dc_mid o d) /\
  dc_in o (sincos_combine o neq feq d) = dc_in o d /\ dc_out o (sincos_combine o neq feq d) = dc_out o d.
Proof.
  eexists. eexists. unfold sincos_combine. cbn [dc_mid dc_in dc_out]. split; [|auto].
  apply map_ext. intros p. apply combine_elt_eq.
Qed.
Lemma cmb_ok sins coss k e : elt_ok k e -> elt_ok k (cmb sins coss e).
Proof. destruct (cmb_cases sins coss e) as [->|(f & g & x & _ & -> & ->)]; auto. Qed.
Lemma cmb_fun sins coss (e : ex) : (exists f args, e = EFun f args) -> exists f args, cmb sins coss e = EFun f args.
Proof. destruct (cmb_cases sins coss e) as [->|(f & g & x & _ & _ & ->)]; eauto. Qed.

Lemma hidden_combined (T : tlaws o A) (S : sincos A) f g x self hs : sc_pair f g -> hidden o g [x] self = Some hs ->
  exists hs0, hidden o f [x] self = Some hs0 /\ forall vals, map (elt_val A dflt vals) hs = map (elt_val A dflt vals) hs0.
Proof.
  intros [[-> ->]|[-> ->]] [= <-]; eexists; (split; [reflexivity|]); intros vals; cbn [map]; f_equal;
    destruct x as [v|s|i|h l]; cbn; try apply T; apply S.
Qed.
Lemma sincos_hidden (T : tlaws o A) (S : sincos A) sins coss mid ins :
  hidden_values o A dflt ins mid -> hidden_values o A dflt ins (map (fun p => (cmb sins coss (fst p), snd p)) mid).
Proof.
  intros H i f args deps hs Hi Hs.
  assert (E : mexp (map (fun p : elt => (cmb sins coss (fst p), snd p)) mid) = map (cmb sins coss) (mexp mid)) by (rewrite !map_map; reflexivity).
  rewrite E, (run_pointwise (cmb sins coss)) by (intros; now apply cmb_val).
  rewrite nth_error_map in Hi. destruct (nth_error mid i) as [[e0 d0]|] eqn:E0; [|discriminate].
  cbn in Hi. injection Hi as Ee <-. destruct (cmb_cases sins coss e0) as [E1|(f0 & g & x & Hp & -> & E1)]; rewrite E1 in Ee.
  - subst e0. eapply H; eauto.
  - injection Ee as <- <-. destruct (hidden_combined T S f0 g x _ hs Hp Hs) as (hs0 & Hh & Ev). rewrite Ev. eapply H; eauto.
Qed.

Definition rpl (p : elt) : elt := match fst p with ENum _ => (EFun Fnumid [fst p], []) | _ => p end.
Definition rple (e : ex) : ex := match e with ENum _ => EFun Fnumid [e] | _ => e end.
Lemma rpl_fst mid : mexp (map rpl mid) = map rple (mexp mid).
Proof. rewrite !map_map. apply map_ext. intros [[| | |] d]; reflexivity. Qed.
Lemma rple_val (T : tlaws o A) e vals : elt_val A dflt vals (rple e) = elt_val A dflt vals e.
Proof. destruct e; try reflexivity. cbn. apply T. Qed.
Lemma rple_ok k e : elt_ok k e -> elt_ok k (rple e) /\ exists f args, rple e = EFun f args.
Proof. destruct e as [x| | |f args]; cbn; try contradiction; eauto 6. Qed.
Lemma rpl_hidden (T : tlaws o A) mid ins : hidden_values o A dflt ins mid -> hidden_values o A dflt ins (map rpl mid).
Proof.
  intros H i f args deps hs Hi Hs. rewrite rpl_fst, (run_pointwise rple) by (intros; now apply rple_val).
  rewrite nth_error_map in Hi. destruct (nth_error mid i) as [[e0 d0]|] eqn:E0; [|discriminate].
  destruct e0 as [x| | |f0 l0]; cbn in Hi; try discriminate.
  - injection Hi as <- <- <-. cbn in Hs. injection Hs as <-. reflexivity.
  - injection Hi as <- <- <-. eapply H; eauto.
Qed.
Lemma rpl_deps n mid : deps_ok n mid -> deps_ok n (map rpl mid).
Proof.
  intros H i p j Hi Hj. rewrite map_length. rewrite nth_error_map in Hi. destruct (nth_error mid i) as [q|] eqn:E; [|discriminate].
  injection Hi as <-. destruct q as [e0 d0]. destruct e0; cbn in Hj; try contradiction; eapply H; eauto.
Qed.
Lemma cmb_deps sins coss n mid : deps_ok n mid -> deps_ok n (map (fun p : elt => (cmb sins coss (fst p), snd p)) mid).
Proof.
  intros H i p j Hi Hj. rewrite map_length. rewrite nth_error_map in Hi. destruct (nth_error mid i) as [q|] eqn:E; [|discriminate].
  injection Hi as <-. eapply H; eauto.
Qed.
End Pointwise.

(* --- Moving elements --------------------------------------------------------------------------- *)
Lemma renumber_arg_ok k k' rho (a : ex) : (forall j, j < k -> rho j < k') -> arg_ok k a -> arg_ok k' (renumber rho a).
Proof.
  intros H. destruct a as [x|s|i|f l]; cbn; auto. intros (j & Hj & ->). rewrite uname_index. cbn. exists (rho j). auto.
Qed.
Lemma moved_range n eqv mid mid' rho : moved o n eqv mid mid' rho -> forall j, j < n + length mid -> rho j < n + length mid'.
Proof.
  intros HM j Hj. destruct (Nat.lt_ge_cases j n) as [H|H].
  - rewrite (mv_in _ _ _ _ _ _ HM j H). lia.
  - apply (mv_rng _ _ _ _ _ _ HM). lia.
Qed.
Lemma moved_outs n eqv mid mid' rho (outs : list ex) : moved o n eqv mid mid' rho -> Forall (arg_ok (n + length mid)) outs ->
  Forall (arg_ok (n + length mid')) (map (renumber rho) outs).
Proof.
  intros HM HO. rewrite Forall_map. eapply Forall_impl; [|exact HO]. intros a. apply renumber_arg_ok.
  now apply (moved_range n eqv mid mid').
Qed.
Lemma map_renumber_fst rho (outs : list elt) : mexp (map (fun p : elt => (renumber rho (fst p), snd p)) outs) = map (renumber rho) (mexp outs).
Proof. now rewrite !map_map. Qed.
Lemma moved_run {V} (A : alg (num o) V) dflt ins (eqv : ex -> ex -> Prop) mid mid' rho outs :
  (forall a b vals, eqv a b -> elt_val A dflt vals a = elt_val A dflt vals b) ->
  moved o (length ins) eqv mid mid' rho -> well_formed (length ins) (mexp mid) outs -> backward (length ins) (mexp mid') ->
  run_dc A dflt ins (mexp mid') (map (renumber rho) outs) = run_dc A dflt ins (mexp mid) outs.
Proof.
  intros He HM [HB HO] HB'. unfold run_dc. rewrite map_map. apply map_ext_in. intros a Ha.
  apply (carries_out A dflt ins (mexp mid) (mexp mid') rho); auto.
  - now apply (moved_carries o (length ins) A dflt eqv).
  - rewrite Forall_forall in HO. now apply HO.
Qed.
Lemma same_val {V} (A : alg (num o) V) dflt neq feq : respects A neq feq ->
  forall a b vals, same o neq feq a b -> elt_val A dflt vals a = elt_val A dflt vals b.
Proof.
  intros HR a b vals [->|H]; [reflexivity|]. rewrite !elt_val_gval. now apply (ex_eqb_val o neq feq).
Qed.
Lemma moved_deps_nil n eqv mid mid' rho : moved o n eqv mid mid' rho -> Forall (fun p : elt => snd p = []) mid ->
  Forall (fun p : elt => snd p = []) mid'.
Proof.
  intros HM H. apply Forall_forall. intros q Hq. apply In_nth_error in Hq. destruct Hq as (k & Hk).
  destruct (mv_new _ _ _ _ _ _ HM k q Hk) as (k0 & p & Hp & _ & _ & ->). rewrite Forall_forall in H.
  now rewrite (H p (nth_error_In _ _ Hp)).
Qed.
Definition isf (e : ex) : Prop := exists f args, e = EFun f args.
Lemma moved_isf n eqv mid mid' rho : moved o n eqv mid mid' rho -> Forall isf (mexp mid) -> Forall isf (mexp mid').
Proof.
  intros HM H. rewrite Forall_map in *. apply Forall_forall. intros q Hq. apply In_nth_error in Hq. destruct Hq as (k & Hk).
  destruct (mv_new _ _ _ _ _ _ HM k q Hk) as (k0 & p & Hp & _ & -> & _). rewrite Forall_forall in H.
  destruct (H p (nth_error_In _ _ Hp)) as (f & args & ->). cbn. unfold isf. eauto.
Qed.

(* --- The names of the variables -------------------------------------------------------------------- *)
Lemma assoc_urename {V} (dflt : V) s : forall vs ins b, length ins = length vs -> In s vs ->
  exists i, b <= i < b + length vs /\
    assoc s (map (fun p => (fst p, uname (snd p))) (combine vs (seq b (length vs)))) = Some (uname i) /\
    nth (i - b) ins dflt = bind dflt vs ins s.
Proof.
  induction vs as [|v vs IH]; intros [|x ins] b Hl Hin; cbn in Hl; try discriminate; [contradiction|].
  cbn [length seq combine map assoc bind fst snd]. destruct (String.eqb_spec s v) as [->|Hne].
  - exists b. split; [lia|]. now rewrite Nat.sub_diag.
  - destruct (IH ins (S b) ltac:(lia)) as (i & Hi & E & En); [destruct Hin; [congruence | assumption]|].
    exists i. split; [lia|]. split; [exact E|]. rewrite <- En. now replace (i - b) with (S (i - S b)) by lia.
Qed.
Lemma rename_val {V} (A : alg (num o) V) dflt vs ins : length ins = length vs ->
  forall e : ex, (forall s, occurs (EVar s) e -> In s vs) ->
  gval A (uval dflt ins) (rename o (urename vs) e) = gval A (bind dflt vs ins) e.
Proof.
  intros Hl. induction e as [x|s|i|f args IH] using expr_ind'; intros Ho; try reflexivity.
  - cbn. destruct (assoc_urename dflt s vs ins 0 Hl) as (i & Hi & E & En); [apply Ho; constructor|].
    unfold urename. rewrite E. cbn. rewrite uval_uname. now rewrite Nat.sub_0_r in En.
  - change (gval A (uval dflt ins) (EFun f (map (rename o (urename vs)) args)) = gval A (bind dflt vs ins) (EFun f args)).
    cbn [gval]. rewrite map_map. f_equal. apply map_ext_in. intros a Ha. rewrite Forall_forall in IH. apply IH; [exact Ha|].
    intros s Hs. apply Ho. eapply occ_arg; eauto.
Qed.
Lemma rename_vars vs : forall e : ex, (forall s, occurs (EVar s) e -> In s vs) ->
  forall s, occurs (EVar s) (rename o (urename vs) e) -> exists j, j < length vs /\ s = uname j.
Proof.
  induction e as [x|t|i|f args IH] using expr_ind'; intros Ho s Hs.
  - inversion Hs.
  - cbn in Hs. assert (Hin : In t vs) by (apply Ho; constructor).
    destruct (assoc_urename tt t vs (map (fun _ => tt) vs) 0 ltac:(now rewrite map_length) Hin) as (i & Hi & E & _).
    unfold urename in Hs. rewrite E in Hs. inversion Hs; subst. exists i. split; [lia | reflexivity].
  - inversion Hs.
  - change (occurs (EVar s) (EFun f (map (rename o (urename vs)) args))) in Hs. inversion Hs as [|? ? x Hx Hox]; subst.
    apply in_map_iff in Hx. destruct Hx as (a & <- & Ha). rewrite Forall_forall in IH. apply (IH a Ha); [|exact Hox].
    intros s' Hs'. apply Ho. eapply occ_arg; eauto.
Qed.

(* --- What is reachable from the graphs ----------------------------------------------------------------- *)
Section Reach.
Context (gs : list (dag (num o))) (HC : consistent gs).
Definition reach (d : dag (num o)) : Prop := exists e, In e gs /\ within d e.
Lemma reach_arg a f s l x : reach (DFn a f s l) -> In x l -> reach x.
Proof.
  intros (e & He & Hw) Hx. exists e. split; [exact He|]. eapply within_trans; [|exact Hw].
  eapply w_arg; [exact Hx | apply w_here].
Qed.
Lemma reach_fun a f1 s1 l1 f2 s2 l2 : reach (DFn a f1 s1 l1) -> reach (DFn a f2 s2 l2) -> f1 = f2 /\ s1 = s2 /\ l1 = l2.
Proof. intros (e1 & H1 & W1) (e2 & H2 & W2). exact (one_function gs HC e1 e2 a f1 s1 l1 f2 s2 l2 H1 H2 W1 W2). Qed.
Lemma reach_vec a1 f1 s l1 a2 f2 l2 : reach (DFn a1 f1 (Some s) l1) -> reach (DFn a2 f2 (Some s) l2) -> l1 = l2.
Proof. intros (e1 & H1 & W1) (e2 & H2 & W2). exact (one_vector gs HC e1 e2 a1 f1 s l1 a2 f2 l2 H1 H2 W1 W2). Qed.
Lemma within_occurs d e : within d e -> occurs (@erase (num o) d) (erase e).
Proof.
  induction 1 as [|d a f s args x Hx Hw IH]; [constructor|]. cbn [erase]. econstructor; [|exact IH]. now apply in_map.
Qed.
Lemma reach_occurs d : reach d -> exists e, In e (map erase gs) /\ occurs (erase d) e.
Proof. intros (e & He & Hw). exists (erase e). split; [now apply in_map | now apply within_occurs]. Qed.
End Reach.

Lemma enough_fuel (gs : list (dag (num o))) : exists f0, forall fuel, f0 <= fuel -> forall e, In e gs -> 2 * dsize e <= fuel.
Proof.
  induction gs as [|g gs (f0 & H)]; [exists 0; intros ? ? ? []|]. exists (f0 + 2 * dsize g). intros fuel Hf e [<-|He]; [lia|].
  apply H; [lia | exact He].
Qed.
Lemma stands_run {V} (A : alg (num o) V) dflt ins (ins0 mid : list ex) es outs :
  length ins0 = length ins -> backward (length ins) mid ->
  (forall e, In e es -> forall s, occurs (EVar s) e -> exists j, j < length ins /\ s = uname j) ->
  all2 (stands (length ins) (ins0 ++ mid)) es outs -> Forall (arg_ok (length ins + length mid)) outs ->
  run_dc A dflt ins mid outs = map (gval A (uval dflt ins)) es.
Proof.
  intros Hl HB Hv Hs HO. rewrite all2_forall2 in Hs. unfold run_dc. revert Hv HO.
  induction Hs as [|e a es outs H HF IH]; intros Hv HO; [reflexivity|]. cbn [map].
  inversion HO as [|? ? Ha HO']; subst. f_equal.
  - apply (stands_val A dflt ins ins0 mid e a); auto. intros s Hs. apply (Hv e); [now left | exact Hs].
  - apply IH; [|exact HO']. intros e' He'. apply Hv. now right.
Qed.
End X.
Lemma incl_length {X} (l l' : list X) : NoDup l -> incl l l' -> length l <= length l'.
Proof. apply NoDup_incl_length. Qed.
(* Every element after the move comes from another element before it. *)
Lemma moved_shorter (o : nops) n eqv mid mid' rho : moved o n eqv mid mid' rho -> length mid' <= length mid.
Proof.
  intros HM. assert (E : length (map rho (seq n (length mid))) = length mid) by (rewrite map_length; apply seq_length).
  rewrite <- E, <- (seq_length (length mid') n).
  apply incl_length; [apply seq_NoDup|]. intros j Hj. apply in_seq in Hj.
  destruct (nth_error_some mid' (j - n)) as (q & Hq); [lia|].
  destruct (mv_new _ _ _ _ _ _ HM _ _ Hq) as (k0 & p & Hp & Hr & _). apply in_map_iff. exists (n + k0).
  split; [lia|]. apply in_seq. assert (k0 < length mid) by (apply nth_error_Some; congruence). lia.
Qed.
