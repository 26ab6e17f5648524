(* The derivatives of an elementary operation with respect to the u variables among
   its arguments. *)
From Coquelicot Require Import Coquelicot.
From Coq Require Import String Bool ZArith Reals List Lra Lia Arith Sorted.
From Verif Require Import M_Expr M_Dag M_Dec S_Expr S_Dec P_ExprSem P_Build P_Str P_Subs P_Dec S_Diff P_Deriv P_Diff M_Dtens M_Adj S_Adj P_Adj1 P_Adj2 P_Adj3 P_Adj4 P_Adj5 P_Adj6.
Import ListNotations.
Local Open Scope R_scope.
Set Bullet Behavior "Strict Subproofs".

Section Gmap.
Context {o : nops} {nval : num o -> R} (L : nlaws o nval).
Local Notation ex := (expr (num o)).
Local Notation ev := (eval o nval).
Local Notation gmap := (list (string * list ex)).

Lemma gm_push_keys s g : forall (m : gmap) k, In k (map fst (gm_push o s g m)) <-> k = s \/ In k (map fst m).
Proof.
  induction m as [|[k' l] m IH]; intros k; cbn [gm_push].
  - cbn. intuition.
  - destruct (String.eqb_spec s k') as [->|Hn]; [cbn; intuition|]. destruct (String.ltb s k'); cbn [map fst In]; [intuition|]. rewrite IH. intuition.
Qed.
Lemma gm_push_sorted s g : forall m : gmap, StronglySorted (fun x y => String.ltb x y = true) (map fst m) ->
  StronglySorted (fun x y => String.ltb x y = true) (map fst (gm_push o s g m)).
Proof.
  induction m as [|[k l] m IH]; intros H; cbn [gm_push].
  - cbn. repeat constructor.
  - cbn [map fst] in H. inversion H as [|? ? Hs Hf]; subst. destruct (String.eqb_spec s k) as [->|Hn]; [cbn [map fst]; now constructor|].
    destruct (String.ltb s k) eqn:E; cbn [map fst].
    + constructor; [now constructor|]. constructor; [exact E|]. rewrite Forall_forall in *. intros x Hx. eapply str_ltb_trans; [exact E | now apply Hf].
    + constructor; [now apply IH|]. rewrite Forall_forall in *. intros x Hx. apply gm_push_keys in Hx. destruct Hx as [->|Hx]; [|now apply Hf].
      destruct (String.ltb k s) eqn:E2; [reflexivity|]. exfalso. apply Hn. now apply str_ltb_total.
Qed.
Lemma gm_push_in s g : forall (m : gmap) k l z, In (k, l) (gm_push o s g m) -> In z l ->
  (k = s /\ z = g) \/ exists l', In (k, l') m /\ In z l'.
Proof.
  induction m as [|[k' l'] m IH]; intros k l z H Hz; cbn [gm_push] in H.
  - destruct H as [E|[]]. injection E as <- <-. destruct Hz as [<-|[]]. auto.
  - destruct (String.eqb_spec s k') as [->|Hn].
    + destruct H as [E|H]; [injection E as <- <-; apply in_app_iff in Hz; destruct Hz as [Hz|[<-|[]]]; [right; exists l'; split; [now left | exact Hz] | auto] | right; exists l; split; [now right | exact Hz]].
    + destruct (String.ltb s k').
      * destruct H as [E|H]; [injection E as <- <-; destruct Hz as [<-|[]]; auto | right; exists l; auto].
      * destruct H as [E|H]; [injection E as <- <-; right; exists l'; split; [now left | exact Hz]|]. destruct (IH k l z H Hz) as [?|(l2 & H1 & H2)]; [auto | right; exists l2; split; [now right | exact H2]].
Qed.
Definition gsum (r : env) (w : string -> R) (m : gmap) : R :=
  rsum (map (fun p => rsum (map (fun z => oval (ev r z)) (snd p)) * w (fst p)) m).
Lemma rsum_app l l' : rsum (l ++ l') = rsum l + rsum l'.
Proof. induction l as [|x l IH]; cbn [app]; [unfold rsum at 2; cbn; ring|]. rewrite !rsum_cons, IH. ring. Qed.
Lemma gm_push_sum r w s g : forall m, gsum r w (gm_push o s g m) = gsum r w m + oval (ev r g) * w s.
Proof.
  induction m as [|[k l] m IH]; cbn [gm_push].
  - unfold gsum. cbn. unfold rsum. cbn. ring.
  - unfold gsum in *. destruct (String.eqb_spec s k) as [->|Hn].
    + cbn [map fst snd]. rewrite !rsum_cons, map_app, rsum_app. cbn [map]. rewrite rsum_cons. change (rsum []) with 0. ring.
    + destruct (String.ltb s k); cbn [map fst snd]; rewrite !rsum_cons; [change (rsum []) with 0; ring|]. rewrite IH. ring.
Qed.
(* The map of an elementary operation. w: zero on what is not a variable. *)
Definition wof (w : string -> R) (a : ex) : R := match a with EVar s => w s | _ => 0 end.
Lemma grad_map_ok r w : forall args g m, length g = length args ->
  StronglySorted (fun x y => String.ltb x y = true) (map fst m) ->
  StronglySorted (fun x y => String.ltb x y = true) (map fst (grad_map o args g m)) /\
  (forall k, In k (map fst (grad_map o args g m)) <-> In (EVar k) args \/ In k (map fst m)) /\
  (forall k l z, In (k, l) (grad_map o args g m) -> In z l ->
     (exists i, nth_error args i = Some (EVar k) /\ nth_error g i = Some z) \/ exists l', In (k, l') m /\ In z l') /\
  gsum r w (grad_map o args g m) = gsum r w m + rsum (map (fun p => oval (ev r (fst p)) * wof w (snd p)) (combine g args)).
Proof.
  induction args as [|a args IH]; intros [|z g] m Hl Hs; try discriminate.
  - cbn [grad_map combine map]. split; [exact Hs|]. split; [intros; cbn; tauto|]. split; [intros; right; eauto|]. change (rsum []) with 0. ring.
  - injection Hl as Hl.
    assert (K : forall m', (grad_map o (a :: args) (z :: g) m = grad_map o args g m') ->
      StronglySorted (fun x y => String.ltb x y = true) (map fst m') ->
      (forall k, In k (map fst m') <-> a = EVar k \/ In k (map fst m)) ->
      (forall k l y, In (k, l) m' -> In y l -> (a = EVar k /\ y = z) \/ exists l', In (k, l') m /\ In y l') ->
      gsum r w m' = gsum r w m + oval (ev r z) * wof w a ->
      StronglySorted (fun x y => String.ltb x y = true) (map fst (grad_map o (a :: args) (z :: g) m)) /\
      (forall k, In k (map fst (grad_map o (a :: args) (z :: g) m)) <-> In (EVar k) (a :: args) \/ In k (map fst m)) /\
      (forall k l y, In (k, l) (grad_map o (a :: args) (z :: g) m) -> In y l ->
        (exists i, nth_error (a :: args) i = Some (EVar k) /\ nth_error (z :: g) i = Some y) \/ exists l', In (k, l') m /\ In y l') /\
      gsum r w (grad_map o (a :: args) (z :: g) m) = gsum r w m + rsum (map (fun p => oval (ev r (fst p)) * wof w (snd p)) (combine (z :: g) (a :: args)))).
    { intros m' E Hs' Hk Hi Hw. rewrite E. destruct (IH g m' Hl Hs') as (A1 & A2 & A3 & A4). split; [exact A1|]. split; [|split].
      - intros k. rewrite A2, Hk. cbn [In]. tauto.
      - intros k l y H1 H2. destruct (A3 k l y H1 H2) as [(i & B1 & B2)|(l' & B1 & B2)]; [left; exists (S i); auto|].
        destruct (Hi k l' y B1 B2) as [[-> ->]|B]; [left; exists 0%nat; auto | auto].
      - rewrite A4, Hw. cbn [combine map fst snd]. rewrite rsum_cons. ring. }
    destruct a as [x|s|i|f l].
    2:{ apply (K (gm_push o s z m)); [reflexivity | now apply gm_push_sorted | | | apply gm_push_sum].
        - intros k. rewrite gm_push_keys. split; [intros [->|]; auto | intros [E|]; [injection E as ->; auto | auto]].
        - intros k l y H1 H2. destruct (gm_push_in s z m k l y H1 H2) as [[-> ->]|H]; auto. }
    all: apply (K m); [reflexivity | exact Hs | | |]; [intros k; split; [auto | intros [E|]; [discriminate | auto]] | intros k l' y H1 H2; right; eauto | cbn [wof]; ring].
Qed.
Lemma str_sorted_nodup l : StronglySorted (fun x y => String.ltb x y = true) l -> NoDup l.
Proof.
  induction 1 as [|x l Hs IH Hf]; constructor; auto. intros Hx. rewrite Forall_forall in Hf. pose proof (Hf x Hx) as H. now rewrite str_ltb_irrefl in H.
Qed.
Lemma Forall2_in_r_ex {A B} (R : A -> B -> Prop) l l' : Forall2 R l l' -> forall y, In y l' -> exists x, In x l /\ R x y.
Proof. induction 1 as [|a b l l' H HF IH]; intros y Hy; [destruct Hy|]. destruct Hy as [<-|Hy]; [exists a; split; [now left | exact H]|]. destruct (IH y Hy) as (x & H1 & H2). exists x. split; [now right | exact H2]. Qed.
(* The sum of derivatives which are all defined. *)
Lemma mk_sum_oval r (l : list ex) : Forall (fun z => exists v, ev r z = Some v) l ->
  ev r (mk_sum o l) = Some (rsum (map (fun z => oval (ev r z)) l)).
Proof.
  intros H. apply (mk_sum_ok (l_ring L)). apply oseq_forall2. induction H as [|z l (v & Hv) H IH]; cbn [map]; [constructor|]. constructor; [rewrite Hv; reflexivity | exact IH].
Qed.
(* The derivatives of an elementary operation. *)
Lemma elt_adj_ok ug k f (uargs : list ex) l : Forall (arg_ok k) uargs -> elt_adj o ug (EFun f uargs) = MDone l ->
  exists g, gradient o ug f uargs = Some g /\ NoDup (map fst l) /\
    (forall j, In j (map fst l) <-> In (EVar (uname j)) uargs) /\
    forall r (w : nat -> R) (P Q : nat -> Prop),
      (forall i j z, nth_error uargs i = Some (EVar (uname j)) -> nth_error g i = Some z -> P j -> zeronum (nval := nval) z \/ (Q j /\ exists v, ev r z = Some v)) ->
      (forall j, P j \/ ~ P j) -> (forall j, ~ P j -> w j = 0) ->
      (forall j a, In (j, a) l -> P j -> zeronum (nval := nval) a \/ (Q j /\ exists v, ev r a = Some v)) /\
      rsum (map (fun p => oval (ev r (snd p)) * w (fst p)) l) =
      rsum (map (fun p => oval (ev r (fst p)) * wof (fun s => match uname_to_index s with Some j => w j | None => 0 end) (snd p)) (combine g uargs)).
Proof.
  intros Hok H. cbn [elt_adj] in H. destruct (gradient o ug f uargs) as [g|] eqn:Eg; [|discriminate]. exists g. split; [reflexivity|].
  pose proof (gradient_length ug f uargs g Eg) as Hlen. apply mmap_done in H.
  destruct (grad_map_ok (mkEnv (fun _ => None) (fun _ => None) None (fun _ _ _ => None) (fun _ _ => None)) (fun _ => 0) uargs g [] Hlen (SSorted_nil _)) as (A1 & A2 & A3 & _).
  set (m := grad_map o uargs g []) in *.
  assert (HK : forall s, In s (map fst m) -> exists j, s = uname j).
  { intros s Hs. apply A2 in Hs. destruct Hs as [Hs|[]]. rewrite Forall_forall in Hok. specialize (Hok _ Hs). destruct Hok as (j & _ & ->). eauto. }
  assert (HF : Forall2 (fun p q => fst p = uname (fst q) /\ snd q = mk_sum o (snd p)) m l).
  { clear A1 A2 A3 Eg. induction H as [|p q m' l' Hp HF IH]; constructor.
    - destruct (HK (fst p) (or_introl eq_refl)) as (j & Ej). rewrite Ej, uname_index in Hp. injection Hp as <-. split; [exact Ej | reflexivity].
    - apply IH. intros s Hs. apply HK. now right. }
  assert (HM : map fst m = map uname (map fst l)).
  { clear - HF. induction HF as [|p q m l [H _] HF IH]; cbn [map]; [reflexivity|]. now rewrite H, IH. }
  split; [|split].
  - apply str_sorted_nodup in A1. rewrite HM in A1. now apply NoDup_map_inv in A1.
  - intros j. split.
    + intros Hj. apply (in_map uname) in Hj. rewrite <- HM in Hj. apply A2 in Hj. destruct Hj as [Hj|[]]. exact Hj.
    + intros Hj. assert (Hm : In (uname j) (map fst m)) by (apply A2; now left). rewrite HM in Hm. apply in_map_iff in Hm. destruct Hm as (j' & E & Hj'). apply uname_inj in E. now subst.
  - intros r w P Q HP Pdec Hw.
    set (ws := fun s => match uname_to_index s with Some j => w j | None => 0 end).
    destruct (grad_map_ok r ws uargs g [] Hlen (SSorted_nil _)) as (_ & _ & _ & A4). fold m in A4.
    assert (HG : forall s zs j, In (s, zs) m -> s = uname j -> P j -> Forall (fun z => zeronum (nval := nval) z \/ (Q j /\ exists v, ev r z = Some v)) zs).
    { intros s zs j Hin -> Pj. apply Forall_forall. intros z Hz. destruct (A3 _ _ z Hin Hz) as [(i & B1 & B2)|(l' & [] & _)]. eapply HP; eauto. }
    assert (HE : forall s zs j, In (s, zs) m -> s = uname j -> P j -> Forall (fun z => exists v, ev r z = Some v) zs).
    { intros s zs j H1 H2 H3. pose proof (HG s zs j H1 H2 H3) as H4. eapply Forall_impl; [|exact H4]. intros z [Hz|[_ Hz]]; [exists 0; now apply zeronum_ev | exact Hz]. }
    split.
    + intros j a Hja Pj. destruct (Forall2_in_r_ex _ _ _ HF _ Hja) as ([s zs] & Hin & E1 & E2). cbn in E1, E2. subst a.
      pose proof (HG s zs j Hin E1 Pj) as H4. assert (D : Forall (zeronum (nval := nval)) zs \/ Q j).
      { clear - H4. induction H4 as [|z zs [Hz|[Hz _]] HF IH]; [left; constructor | destruct IH; [left; constructor; auto | now right] | now right]. }
      destruct D as [D|D]; [left; now apply (mk_sum_zeros L)|]. right. split; [exact D|]. rewrite (mk_sum_oval r zs (HE s zs j Hin E1 Pj)). eauto.
    + transitivity (gsum r ws m); [|rewrite A4; change (gsum r ws []) with 0; ring].
      unfold gsum. clear A1 A2 A3 A4 HM HK Eg H HG. induction HF as [|[s zs] [j a] m' l' [E1 E2] HF IH]; [reflexivity|]. cbn [fst snd] in E1, E2. subst s a. cbn [map fst snd]. rewrite !rsum_cons. f_equal.
      * unfold ws. rewrite uname_index. destruct (Pdec j) as [Pj|Pj]; [|rewrite (Hw j Pj); ring]. rewrite (mk_sum_oval r zs (HE _ zs j (or_introl eq_refl) eq_refl Pj)). reflexivity.
      * apply IH. intros s zs' j' H1. apply HE. now right.
Qed.
End Gmap.
