(* Substitution, queries and the shape of split expressions. *)
From Coq Require Import String Bool ZArith Reals List Lra Lia Permutation Sorted.
From Coquelicot Require Import Coquelicot.
From Verif Require Import M_Expr S_Expr P_ExprSem P_Str.
Import ListNotations.
Local Open Scope nat_scope.

Section Subs.
Context {o : nops} {nval : num o -> R}.
Local Notation ev := (eval o nval).
Local Notation ex := (expr (num o)).

(* The environment with some variables replaced. *)
Definition with_vars (f : string -> option R) (rho : env) : env :=
  mkEnv f (v_par rho) (v_time rho) (v_dfun rho) (v_user rho).

Lemma fsem_env (r1 r2 : env) f vs :
  v_time r1 = v_time r2 -> v_dfun r1 = v_dfun r2 -> v_user r1 = v_user r2 ->
  fsem o nval r1 f vs = fsem o nval r2 f vs.
Proof.
  intros Ht Hd Hu. unfold fsem.
  assert (Hs : forall l, ssem o nval r1 f l = ssem o nval r2 f l).
  { intros l. destruct f; cbn [ssem]; try reflexivity; rewrite ?Ht, ?Hd, ?Hu; reflexivity. }
  destruct f; try (destruct (oseq vs); auto).
Qed.

(* Leaf-wise substitution of values. *)
Lemma transform_leaf_eval rho rho' (leaf : ex -> ex) :
  v_time rho = v_time rho' -> v_dfun rho = v_dfun rho' -> v_user rho = v_user rho' ->
  (forall x, (forall f l, x <> EFun f l) -> ev rho (leaf x) = ev rho' x) ->
  forall e, ev rho (transform o leaf (fun e => e) e) = ev rho' e.
Proof.
  intros Ht Hd Hu Hl. induction e as [n|s|i|f args IH] using expr_ind';
    try (cbn [transform]; apply Hl; discriminate).
  cbn [transform eval]. rewrite map_map.
  rewrite (fsem_env rho rho') by assumption. f_equal.
  apply map_ext_in. rewrite Forall_forall in IH. exact IH.
Qed.

Lemma subs_eval rho m (e : ex) :
  ev rho (subs o m e) =
  ev (with_vars (fun s => match assoc s m with Some t => ev rho t | None => v_var rho s end) rho) e.
Proof.
  apply transform_leaf_eval; try reflexivity.
  intros x Hx. destruct x as [n|s|i|f l]; try reflexivity.
  - simpl. destruct (assoc s m); reflexivity.
  - exfalso. eapply Hx. reflexivity.
Qed.
Lemma rename_eval rho m (e : ex) :
  ev rho (rename o m e) =
  ev (with_vars (fun s => match assoc s m with Some t => v_var rho t | None => v_var rho s end) rho) e.
Proof.
  apply transform_leaf_eval; try reflexivity.
  intros x Hx. destruct x as [n|s|i|f l]; try reflexivity.
  - simpl. destruct (assoc s m); reflexivity.
  - exfalso. eapply Hx. reflexivity.
Qed.
Lemma assoc_map {A B} (g : A -> B) s m :
  assoc s (map (fun p => (fst p, g (snd p))) m) = option_map g (assoc s m).
Proof.
  induction m as [|[k v] m IH]; [reflexivity|]. simpl. destruct (String.eqb s k); auto.
Qed.
Lemma transform_ext (l1 l2 b1 b2 : ex -> ex) :
  (forall x, l1 x = l2 x) -> (forall x, b1 x = b2 x) -> forall e, transform o l1 b1 e = transform o l2 b2 e.
Proof.
  intros Hl Hb. induction e as [n|s|i|f args IH] using expr_ind'; try (cbn [transform]; apply Hl).
  cbn [transform]. rewrite Hb. do 2 f_equal. apply map_ext_in. rewrite Forall_forall in IH. exact IH.
Qed.
Lemma rename_subs m (e : ex) : rename o m e = subs o (map (fun p => (fst p, EVar (snd p))) m) e.
Proof.
  apply transform_ext; [|reflexivity]. intros [| | |]; try reflexivity.
  rewrite (assoc_map (fun t => EVar t)). destruct (assoc s m); reflexivity.
Qed.
Lemma copy_id (e : ex) : copy o e = e.
Proof.
  induction e as [n|s|i|f args IH] using expr_ind'; try reflexivity.
  unfold copy. cbn [transform]. f_equal.
  rewrite <- (map_id args) at 2. apply map_ext_in. rewrite Forall_forall in IH. exact IH.
Qed.

(* Substitution by expression. *)
Lemma subs_ex_unfold look (e : ex) :
  subs_ex o look e = match look e with
                     | Some t => t
                     | None => match e with
                               | EFun f args => EFun f (map (subs_ex o look) args)
                               | _ => e
                               end
                     end.
Proof. destruct e; reflexivity. Qed.
Lemma subs_ex_eval rho rho' look :
  v_time rho = v_time rho' -> v_dfun rho = v_dfun rho' -> v_user rho = v_user rho' ->
  (forall k t, look k = Some t -> ev rho t = ev rho' k) ->
  (forall s, look (EVar s) = None -> v_var rho s = v_var rho' s) ->
  (forall i, look (EPar i) = None -> v_par rho i = v_par rho' i) ->
  forall e : ex, ev rho (subs_ex o look e) = ev rho' e.
Proof.
  intros Ht Hd Hu Hk Hv Hp.
  induction e as [n|s|i|f args IH] using expr_ind'; rewrite subs_ex_unfold;
    match goal with |- context [look ?k] => destruct (look k) as [t|] eqn:E; [now apply Hk|] end.
  - reflexivity.
  - now apply Hv.
  - now apply Hp.
  - cbn [eval]. rewrite (fsem_env rho rho') by assumption. f_equal. rewrite map_map.
    apply map_ext_in. rewrite Forall_forall in IH. exact IH.
Qed.

(* --- Queries ------------------------------------------------------------------------ *)
Lemma leaves_spec (e x : ex) :
  In x (leaves o e) <-> occurs x e /\ (forall f l, x <> EFun f l).
Proof.
  induction e as [n|s|i|f args IH] using expr_ind'.
  1-3: simpl; split;
       [intros [<-|[]]; split; [constructor | discriminate]
       |intros [H Hf]; inversion H; subst; auto].
  cbn [leaves]. rewrite in_concat. rewrite Forall_forall in IH. split.
  - intros (l & Hl & Hx). rewrite <- in_rev in Hl. apply in_map_iff in Hl.
    destruct Hl as (a & <- & Ha). apply (IH a Ha) in Hx. destruct Hx as (Ho & Hn).
    split; [|exact Hn]. eapply occ_arg; eauto.
  - intros (Ho & Hn). inversion Ho as [|? ? a Ha Hoa]; subst.
    + exfalso. eapply Hn. reflexivity.
    + exists (leaves o a). split.
      * rewrite <- in_rev. now apply in_map.
      * apply (IH a Ha). auto.
Qed.

(* A sorted list without repetitions. *)
Section Sins.
Context {A : Type} (lt : A -> A -> bool).
Hypothesis Hirr : forall x, lt x x = false.
Hypothesis Htr : forall x y z, lt x y = true -> lt y z = true -> lt x z = true.
Hypothesis Htot : forall x y, lt x y = false -> lt y x = false -> x = y.

Definition sorted (l : list A) := StronglySorted (fun x y => lt x y = true) l.

Lemma sins_in x l y : In y (sins lt x l) <-> y = x \/ In y l.
Proof.
  induction l as [|a l IH]; simpl; [intuition congruence|].
  destruct (lt x a) eqn:E1; [simpl; intuition congruence|].
  destruct (lt a x) eqn:E2.
  - simpl. rewrite IH. intuition congruence.
  - assert (x = a) by auto. subst a. simpl. intuition congruence.
Qed.
Lemma sins_sorted x l : sorted l -> sorted (sins lt x l).
Proof.
  unfold sorted. induction l as [|a l IH]; intros H; simpl.
  - repeat constructor.
  - apply StronglySorted_inv in H. destruct H as [Hs Hf].
    destruct (lt x a) eqn:E1; [|destruct (lt a x) eqn:E2].
    + constructor; [constructor; auto|]. constructor; [exact E1|].
      rewrite Forall_forall in *. intros y Hy. eapply Htr; eauto.
    + constructor; [auto|]. rewrite Forall_forall in *. intros y Hy.
      apply sins_in in Hy. destruct Hy as [->|Hy]; auto.
    + constructor; auto.
Qed.
Lemma sorted_nodup l : sorted l -> NoDup l.
Proof.
  unfold sorted. induction 1 as [|a l Hs IH Hf]; constructor; auto.
  intros Hin. rewrite Forall_forall in Hf. apply Hf in Hin. rewrite Hirr in Hin. discriminate.
Qed.

Lemma fold_sins {B} (g : B -> option A) : forall l s0,
  (forall y, In y (fold_left (fun s e => match g e with Some x => sins lt x s | None => s end) l s0)
             <-> In y s0 \/ exists e, In e l /\ g e = Some y) /\
  (sorted s0 -> sorted (fold_left (fun s e => match g e with Some x => sins lt x s | None => s end) l s0)).
Proof.
  induction l as [|e l IH]; intros s0; cbn [fold_left].
  - split; [|auto]. intros y. split; [auto|]. intros [H|(e & [] & _)]. exact H.
  - destruct (IH (match g e with Some x => sins lt x s0 | None => s0 end)) as [IH1 IH2].
    split.
    + intros y. rewrite IH1. destruct (g e) as [x|] eqn:E.
      * rewrite sins_in. split.
        -- intros [[->|H]|(e' & H1 & H2)]; [right; exists e; simpl; auto | auto |].
           right. exists e'. simpl. auto.
        -- intros [H|(e' & [<-|H1] & H2)]; [auto | left; left; congruence | right; eauto].
      * split.
        -- intros [H|(e' & H1 & H2)]; [auto|]. right. exists e'. simpl. auto.
        -- intros [H|(e' & [<-|H1] & H2)]; [auto | congruence | right; eauto].
    + intros H. apply IH2. destruct (g e); [now apply sins_sorted | exact H].
Qed.
End Sins.

Lemma fold_left_ext {A B} (f g : A -> B -> A) l : (forall a b, f a b = g a b) ->
  forall a, fold_left f l a = fold_left g l a.
Proof. intros H. induction l as [|b l IH]; intros a; [reflexivity|]. simpl. rewrite H. apply IH. Qed.

Lemma in_leaves_list (es : list ex) x :
  In x (concat (map (leaves o) es)) <->
  exists e, In e es /\ occurs x e /\ (forall f l, x <> EFun f l).
Proof.
  rewrite in_concat. split.
  - intros (l & Hl & Hx). apply in_map_iff in Hl. destruct Hl as (e & <- & He).
    apply leaves_spec in Hx. exists e. tauto.
  - intros (e & He & Hx). exists (leaves o e). split; [now apply in_map | now apply leaves_spec].
Qed.

Lemma get_variables_ok (es : list ex) :
  (forall s, In s (get_variables o es) <-> exists e, In e es /\ occurs (EVar s) e) /\
  StronglySorted (fun x y => String.ltb x y = true) (get_variables o es) /\
  NoDup (get_variables o es).
Proof.
  unfold get_variables.
  set (g := fun e : ex => match e with EVar v => Some v | _ => None end).
  rewrite (fold_left_ext _ (fun s e => match g e with Some x => sins String.ltb x s | None => s end))
    by (intros a [| | |]; reflexivity).
  destruct (fold_sins String.ltb str_ltb_trans str_ltb_total g
              (concat (map (leaves o) es)) []) as [H1 H2].
  assert (Hs : sorted String.ltb (@nil string)) by constructor.
  specialize (H2 Hs).
  split; [|split; [exact H2 | exact (sorted_nodup _ str_ltb_irrefl _ H2)]].
  intros s. rewrite H1. split.
  - intros [[]|(e & He & Hg)]. apply in_leaves_list in He.
    destruct e; try discriminate. injection Hg as ->.
    destruct He as (e & He & Ho & _). eauto.
  - intros (e & He & Ho). right. exists (EVar s). split; [|reflexivity].
    apply in_leaves_list. exists e. repeat split; auto; discriminate.
Qed.

Lemma get_params_ok (es : list ex) :
  (forall i, In i (get_params o es) <-> exists e, In e es /\ occurs (EPar i) e) /\
  StronglySorted (fun x y => Nat.ltb x y = true) (get_params o es) /\
  NoDup (get_params o es).
Proof.
  unfold get_params.
  set (g := fun e : ex => match e with EPar v => Some v | _ => None end).
  rewrite (fold_left_ext _ (fun s e => match g e with Some x => sins Nat.ltb x s | None => s end))
    by (intros a [| | |]; reflexivity).
  assert (T1 : forall x y z, Nat.ltb x y = true -> Nat.ltb y z = true -> Nat.ltb x z = true)
    by (intros x y z; rewrite !Nat.ltb_lt; lia).
  assert (T2 : forall x y, Nat.ltb x y = false -> Nat.ltb y x = false -> x = y)
    by (intros x y; rewrite !Nat.ltb_ge; lia).
  destruct (fold_sins Nat.ltb T1 T2 g
              (concat (map (leaves o) es)) []) as [H1 H2].
  assert (Hs : sorted Nat.ltb (@nil nat)) by constructor.
  specialize (H2 Hs).
  split; [|split; [exact H2 | exact (sorted_nodup _ Nat.ltb_irrefl _ H2)]].
  intros s. rewrite H1. split.
  - intros [[]|(e & He & Hg)]. apply in_leaves_list in He.
    destruct e; try discriminate. injection Hg as ->.
    destruct He as (e & He & Ho & _). eauto.
  - intros (e & He & Ho). right. exists (EPar s). split; [|reflexivity].
    apply in_leaves_list. exists e. repeat split; auto; discriminate.
Qed.

Lemma fold_max : forall (l : list ex) m0,
  let r := fold_left (fun m (e : ex) => match e with EPar i => Nat.max m (i + 1) | _ => m end) l m0 in
  m0 <= r /\ (forall i, In (EPar i) l -> i < r) /\ (r = m0 \/ exists i, In (EPar i) l /\ r = i + 1).
Proof.
  induction l as [|e l IH]; intros m0; cbn [fold_left].
  - split; [lia|]. split; [intros i []|auto].
  - destruct (IH (match e with EPar i => Nat.max m0 (i + 1) | _ => m0 end)) as (A & B & C).
    cbv zeta in *. split; [|split].
    + destruct e; try exact A. lia.
    + intros i [->|Hi]; [lia | auto].
    + destruct C as [C|(i & Hi & C)]; [|right; exists i; simpl; auto].
      rewrite C. destruct e as [| |i|]; auto.
      destruct (Nat.max_spec m0 (i + 1)) as [[_ ->]|[_ ->]]; [right; exists i; simpl; auto | auto].
Qed.
Lemma get_param_size_ok (es : list ex) :
  (forall e i, In e es -> occurs (EPar i) e -> i < get_param_size o es) /\
  (get_param_size o es = 0 \/
   exists e i, In e es /\ occurs (EPar i) e /\ get_param_size o es = i + 1).
Proof.
  destruct (fold_max (concat (map (leaves o) es)) 0) as (_ & B & C). cbv zeta in *.
  fold (get_param_size o es) in *. split.
  - intros e i He Ho. apply B. apply in_leaves_list. exists e. repeat split; auto; discriminate.
  - destruct C as [C|(i & Hi & C)]; [auto|]. right.
    apply in_leaves_list in Hi. destruct Hi as (e & He & Ho & _). exists e, i. auto.
Qed.

Lemma test_any_spec p (e : ex) : test_any o p e = true <-> exists x, occurs x e /\ p x = true.
Proof.
  induction e as [n|s|i|f args IH] using expr_ind'.
  1-3: simpl; rewrite orb_false_r; split;
       [intros H; eexists; split; [constructor | exact H]
       |intros (x & Hx & Hp); inversion Hx; subst; exact Hp].
  cbn [test_any]. rewrite orb_true_iff, existsb_exists. rewrite Forall_forall in IH. split.
  - intros [H|(a & Ha & H)].
    + eexists; split; [constructor | exact H].
    + apply (IH a Ha) in H. destruct H as (x & Hx & Hp). exists x. split; [|exact Hp].
      eapply occ_arg; eauto.
  - intros (x & Hx & Hp). inversion Hx as [|? ? a Ha Ho]; subst; [now left|].
    right. exists a. split; [exact Ha|]. apply (IH a Ha). eauto.
Qed.

(* Only what occurs in an expression matters for its value. *)
Lemma eval_coincide (r1 r2 : env) (e : ex) :
  (forall s, occurs (EVar s) e -> v_var r1 s = v_var r2 s) ->
  (forall i, occurs (EPar i) e -> v_par r1 i = v_par r2 i) ->
  (forall l, occurs (EFun Ftime l) e -> v_time r1 = v_time r2) ->
  (forall id d l vs, occurs (EFun (Fdfun id d) l) e -> v_dfun r1 id d vs = v_dfun r2 id d vs) ->
  (forall s l vs, occurs (EFun (Fother s) l) e -> v_user r1 s vs = v_user r2 s vs) ->
  ev r1 e = ev r2 e.
Proof.
  induction e as [n|s|i|f args IH] using expr_ind'; intros Hv Hp Ht Hd Hu.
  - reflexivity.
  - apply Hv. constructor.
  - apply Hp. constructor.
  - cbn [eval].
    assert (Hm : map (ev r1) args = map (ev r2) args).
    { apply map_ext_in. intros a Ha. rewrite Forall_forall in IH. apply (IH a Ha); intros.
      - apply Hv. eapply occ_arg; eauto.
      - apply Hp. eapply occ_arg; eauto.
      - eapply Ht. eapply occ_arg; eauto.
      - eapply Hd. eapply occ_arg; eauto.
      - eapply Hu. eapply occ_arg; eauto. }
    rewrite Hm. set (vs := map (ev r2) args).
    assert (Hs : forall l, ssem o nval r1 f l = ssem o nval r2 f l).
    { intros l. destruct f; try reflexivity.
      - cbn [ssem]. destruct l; [|reflexivity]. eapply Ht. constructor.
      - cbn [ssem]. eapply Hd. constructor.
      - cbn [ssem]. eapply Hu. constructor. }
    unfold fsem. destruct f; try (destruct (oseq vs); auto).
Qed.

(* --- The shape of split expressions ------------------------------------------------------ *)
Definition short (f0 : fid (num o)) (split : nat) (e : ex) : Prop :=
  forall args, occurs (EFun f0 args) e -> length args <= split.

Lemma chunk_length f split : 2 <= split -> forall args tmp,
  length tmp < split -> 1 <= length tmp + length args ->
  split * length (chunk o f split tmp args) < length tmp + length args + split.
Proof.
  intros Hs. induction args as [|a r IH]; intros tmp Ht Hl.
  - destruct tmp as [|x [|y l]]; cbn [chunk length] in *; nia.
  - cbn [chunk]. rewrite app_length. cbn [length].
    destruct (Nat.eqb (length tmp + 1) split) eqn:E.
    + apply Nat.eqb_eq in E. cbn [length]. destruct r as [|b r'].
      * cbn [chunk length]. nia.
      * specialize (IH []). cbn [length] in *. assert (split * length (chunk o f split [] (b :: r')) < 0 + S (length r') + split)
          by (apply IH; lia). nia.
    + apply Nat.eqb_neq in E. specialize (IH (tmp ++ [a])). rewrite app_length in IH. cbn [length] in *.
      assert (split * length (chunk o f split (tmp ++ [a]) r) < length tmp + 1 + length r + split)
        by (apply IH; lia). nia.
Qed.

Lemma chunk_elems f split (Q : ex -> Prop) : 2 <= split ->
  (forall l, length l <= split -> (forall a, In a l -> Q a) -> Q (EFun f l)) ->
  forall args tmp, length tmp < split -> (forall a, In a tmp -> Q a) -> (forall a, In a args -> Q a) ->
  forall x, In x (chunk o f split tmp args) -> Q x.
Proof.
  intros Hs HQ. induction args as [|a r IH]; intros tmp Ht H1 H2 x Hx.
  - destruct tmp as [|y [|z l]]; cbn [chunk] in Hx; [contradiction | auto |].
    destruct Hx as [<-|[]]. apply HQ; [lia | auto].
  - cbn [chunk] in Hx.
    assert (H3 : forall b, In b (tmp ++ [a]) -> Q b).
    { intros b Hb. apply in_app_or in Hb. destruct Hb as [Hb|[<-|[]]]; auto. apply H2. now left. }
    destruct (Nat.eqb (length (tmp ++ [a])) split) eqn:E.
    + apply Nat.eqb_eq in E. destruct Hx as [<-|Hx].
      * apply HQ; [lia | exact H3].
      * apply (IH [] ltac:(simpl; lia) ltac:(intros ? []) (fun b Hb => H2 b (or_intror Hb)) x Hx).
    + apply Nat.eqb_neq in E.
      apply (IH (tmp ++ [a])); auto.
      * rewrite app_length in *. simpl in *. lia.
      * intros b Hb. apply H2. now right.
Qed.

Lemma split_go_short f split : 2 <= split -> forall fuel args,
  length args <= fuel -> (forall a, In a args -> short f split a) ->
  short f split (split_go o fuel f split args).
Proof.
  intros Hs.
  assert (HQ : forall l, length l <= split -> (forall a, In a l -> short f split a) -> short f split (EFun f l)).
  { intros l Hl Ha args Ho. inversion Ho as [|? ? b Hb Hob]; subst; [exact Hl|].
    apply (Ha b Hb). exact Hob. }
  induction fuel as [|k IH]; intros args Hl Ha.
  - destruct args; [|simpl in Hl; lia]. apply HQ; [simpl; lia | exact Ha].
  - cbn [split_go]. destruct (Nat.leb (length args) split) eqn:E.
    + apply Nat.leb_le in E. apply HQ; auto.
    + apply Nat.leb_gt in E. apply IH.
      * pose proof (chunk_length f split Hs args [] ltac:(simpl; lia) ltac:(simpl; lia)) as Hc.
        cbn [length] in Hc. nia.
      * apply chunk_elems; auto; [simpl; lia | intros ? []].
Qed.

Lemma split_sums_short (e : ex) args : occurs (EFun Fsum args) (split_sums o e) -> length args <= 8.
Proof.
  revert args. change (short Fsum 8 (split_sums o e)).
  induction e as [n|s|i|f args IH] using expr_ind'; [intros l Ho; inversion Ho .. |].
  unfold split_sums. cbn [transform]. fold (split_sums o).
  assert (Ha : forall a, In a (map (split_sums o) args) -> short Fsum 8 a).
  { intros a Hin. apply in_map_iff in Hin. destruct Hin as (b & <- & Hb).
    rewrite Forall_forall in IH. now apply IH. }
  destruct f; try (intros l Ho; inversion Ho as [|? ? b Hb Hob]; subst; exact (Ha b Hb l Hob)).
  apply split_go_short; auto; lia.
Qed.
Lemma split_prods_short split (e : ex) args : 2 <= split ->
  occurs (EFun Fprod args) (split_prods o split e) -> length args <= split.
Proof.
  intros Hs. revert args. change (short Fprod split (split_prods o split e)).
  induction e as [n|s|i|f args IH] using expr_ind'; [intros l Ho; inversion Ho .. |].
  unfold split_prods. cbn [transform]. fold (split_prods o split).
  assert (Ha : forall a, In a (map (split_prods o split) args) -> short Fprod split a).
  { intros a Hin. apply in_map_iff in Hin. destruct Hin as (b & <- & Hb).
    rewrite Forall_forall in IH. now apply IH. }
  destruct f; try (intros l Ho; inversion Ho as [|? ? b Hb Hob]; subst; exact (Ha b Hb l Hob)).
  apply split_go_short; auto; lia.
Qed.
End Subs.
