(* What the functions append to a decomposition. *)
From Coq Require Import String Bool ZArith Arith List Lia.
From Verif Require Import M_Expr M_Dag M_Dec S_Expr S_Dag S_Dec P_ExprSem P_Dag P_Dec P_DecM.
Import ListNotations.
Local Open Scope nat_scope.
Set Bullet Behavior "Strict Subproofs".

Section Fdc.
Context (o : nops).
Local Notation ex := (expr (num o)).
Local Notation elt := (expr (num o) * list nat)%type.

Lemma reads_app {N} n (dc new : list (expr N)) : forall a h, reads n dc a h -> reads n (dc ++ new) a h.
Proof.
  fix IH 3. intros a h H. destruct H as [a|j a h Hj Hn Hr|f args hs HF].
  - apply rd_same.
  - eapply rd_u; [exact Hj | apply nth_error_app_l; exact Hn | apply IH; exact Hr].
  - apply rd_fun. induction HF as [|x y l l' Hx HF IHF]; constructor; [apply IH; exact Hx | exact IHF].
Qed.
Lemma hid_ok_app n dc new i p : hid_ok o n dc i p -> hid_ok o n (dc ++ new) i p.
Proof.
  unfold hid_ok. destruct (fst p) as [| | |f args]; auto. destruct (hidden o f args _) as [hs|]; auto.
  rewrite map_app. induction 1 as [|d h l l' H HF IH]; constructor; [now apply reads_app | exact IH].
Qed.

(* --- The decomposition of functions -------------------------------------------------- *)
Lemma fdc_plain_good n f args (dc : list elt) : n <= length dc -> Forall (arg_ok (length dc)) args -> True ->
  match fdc_plain o f args dc with
  | Some (i, dc') => exists new deps, dc' = dc ++ new /\ appended (fun _ _ p => snd p = [] /\ exists f args, fst p = EFun f args) dc new /\
                       length dc <= i < length dc' /\ nth_error dc' i = Some (EFun f args, deps)
  | None => False
  end.
Proof.
  intros Hn Ha _. cbn. exists [(EFun f args, [])], []. split; [reflexivity|]. split; [|split].
  - intros [|[|j]] p; cbn; try discriminate. intros [= <-]. cbn. rewrite Nat.add_0_r.
    split; [exact Ha|]. split; [intros d []|eauto].
  - rewrite app_length. cbn. lia.
  - rewrite nth_error_app2, Nat.sub_diag by lia. reflexivity.
Qed.

(* --- The Taylor decompositions ----------------------------------------------------------- *)
Context (L : lits o).
Local Notation uv i := (EVar (uname i)).

Lemma mk_fun_ok u k (x : ex) : arg_ok k x -> elt_ok k (mk_fun o u x).
Proof. destruct x; cbn; auto. Qed.
Lemma sq_ok k (x : ex) : arg_ok k x -> elt_ok k (mk_pow o x (dbl o 2)).
Proof.
  destruct (li_2 o L) as [H0 H1].
  destruct x as [n|s|i|f args]; unfold dbl; cbn [mk_pow]; rewrite ?H0, ?H1; cbn; intros H; try contradiction; auto;
    repeat constructor; exact H.
Qed.
Lemma sq_uv j : mk_pow o (uv j) (dbl o 2) = EFun Fpow [uv j; dbl o 2].
Proof. destruct (li_2 o L) as [H0 H1]. unfold dbl; cbn [mk_pow]. now rewrite H0, H1. Qed.
Lemma sqrt_uv j : mk_sqrt o (uv j) = EFun Fpow [uv j; ENum (n_hlf o 1)].
Proof. destruct (li_h o L) as [H0 H1]. unfold mk_sqrt. cbn [mk_pow]. now rewrite H0, H1. Qed.
Lemma add1_uv j : mk_add o (dbl o 1) (uv j) = EFun Fsum [dbl o 1; uv j].
Proof. unfold mk_add, dbl. cbn. rewrite (li_1 o L). reflexivity. Qed.
Lemma sub1_uv j : mk_sub o (uv j) (dbl o 1) = EFun Fsum [ENum (n_neg o (n_lit o 1)); uv j].
Proof. unfold mk_sub, mk_add, dbl. cbn. rewrite (li_n1 o L). reflexivity. Qed.
Lemma neg_uv j : mk_neg o (uv j) = EFun Fprod [dbl o (-1); uv j].
Proof. destruct (li_m1 o L) as [H0 H1]. unfold mk_neg, dbl. cbn. rewrite H0, H1. reflexivity. Qed.
Lemma mul_leaf_ok k (e : ex) j : arg_ok k e -> j < k ->
  (match e with ENum x => n_isz o 1 x = false | _ => True end) -> elt_ok k (mk_mul o e (uv j)).
Proof.
  intros He Hj Hx. assert (Hu : arg_ok k (uv j : ex)) by (cbn; eauto).
  destruct e as [x|s|i|f args]; cbn in He; try contradiction; cbn; [rewrite Hx; destruct (n_isz o 0 x)|..]; cbn;
    auto 6.
Qed.
Lemma mul_reads n dc (e a h : ex) : (forall x, a <> ENum x) -> (forall x, h <> ENum x) -> (forall f l, e <> EFun f l) ->
  reads n dc a h -> reads n dc (mk_mul o e a) (mk_mul o e h).
Proof.
  intros Ha Hh He Hr.
  assert (HR : forall x : ex, reads n dc x x) by (intros; apply rd_same).
  destruct e as [x|s|i|f args]; [..|exfalso; eapply He; reflexivity];
    (destruct a; [exfalso; eapply Ha; reflexivity|..]; (destruct h; [exfalso; eapply Hh; reflexivity|..]); cbn);
    try (destruct (n_isz o 1 x); [exact Hr|]; destruct (n_isz o 0 x); [apply HR|]);
    apply rd_fun; auto.
Qed.

Lemma nth_new {A} (dc new : list A) j : nth_error (dc ++ new) (length dc + j) = nth_error new j.
Proof. rewrite nth_error_app2 by lia. f_equal. lia. Qed.

Context (ug : string -> list ex -> list elt -> option (nat * list elt)).
(* The functions appended by user-defined functions. *)
Context (n : nat).
Hypothesis n_pos : 0 < n.
Hypothesis ug_ok : forall s args dc, n <= length dc -> Forall (arg_ok (length dc)) args ->
  match ug s args dc with Some (i, dc') => appends o n (Fother s) args dc dc' i | None => True end.

Local Notation Hid := (hid_ok o n).
Definition goodf (f : fid (num o)) (args : list ex) (dc : list elt) (r : option (nat * list elt)) : Prop :=
  match r with
  | Some (i, dc') => exists new deps, dc' = dc ++ new /\ appended Hid dc new /\
                       length dc <= i < length dc' /\ nth_error dc' i = Some (EFun f args, deps)
  | None => False
  end.
Lemma plain_good f args dc : Forall (arg_ok (length dc)) args -> hidden o f args (uv (length dc)) = Some [] ->
  goodf f args dc (fdc_plain o f args dc).
Proof.
  intros Ha Hh. cbn. exists [(EFun f args, [])], []. split; [reflexivity|]. split; [|split].
  - intros [|[|j]] p; cbn; try discriminate. intros [= <-]. cbn. rewrite Nat.add_0_r.
    split; [exact Ha|]. split; [intros d []|]. unfold hid_ok. cbn. rewrite Hh. constructor.
  - rewrite app_length. cbn. lia.
  - rewrite nth_error_app2, Nat.sub_diag by lia. reflexivity.
Qed.
Lemma plain_good_other s args dc : Forall (arg_ok (length dc)) args -> goodf (Fother s) args dc (fdc_plain o (Fother s) args dc).
Proof.
  intros Ha. cbn. exists [(EFun (Fother s) args, [])], []. split; [reflexivity|]. split; [|split].
  - intros [|[|j]] p; cbn; try discriminate. intros [= <-]. cbn. rewrite Nat.add_0_r.
    split; [exact Ha|]. split; [intros d []|]. exact I.
  - rewrite app_length. cbn. lia.
  - rewrite nth_error_app2, Nat.sub_diag by lia. reflexivity.
Qed.

(* Appending a list of elements, at index k of which is the function. *)
Lemma list_good f args dc new k deps : k < length new -> nth_error new k = Some (EFun f args, deps) ->
  appended Hid dc new -> goodf f args dc (Some (length dc + k, dc ++ new)).
Proof.
  intros Hk Hn Ha. exists new, deps. split; [reflexivity|]. split; [exact Ha|]. rewrite app_length.
  split; [lia|]. now rewrite nth_new.
Qed.
Lemma list_good0 f args dc new deps : nth_error new 0 = Some (EFun f args, deps) ->
  appended Hid dc new -> goodf f args dc (Some (length dc, dc ++ new)).
Proof.
  intros Hn Ha. rewrite <- (Nat.add_0_r (length dc)) at 1. eapply list_good; eauto.
  destruct new; [discriminate | cbn; lia].
Qed.

(* Reading the elements appended. *)
Lemma reads_new (dc new : list elt) j a h : n <= length dc -> nth_error (map fst new) j = Some a ->
  reads n (map fst (dc ++ new)) a h -> reads n (map fst (dc ++ new)) (uv (length dc + j)) h.
Proof.
  intros Hn Ha Hr. eapply rd_u; [lia | | exact Hr]. rewrite map_app.
  rewrite <- (map_length fst dc). now rewrite nth_new.
Qed.
Lemma reads_new0 (dc new : list elt) a h : n <= length dc -> nth_error (map fst new) 0 = Some a ->
  reads n (map fst (dc ++ new)) a h -> reads n (map fst (dc ++ new)) (uv (length dc)) h.
Proof. intros. rewrite <- (Nat.add_0_r (length dc)) at 1. eapply reads_new; eauto. Qed.

Lemma some_eq {A} (a b : A) : Some a = Some b -> a = b.
Proof. congruence. Qed.
Ltac rdone := apply rd_same.
Ltac split_new := intros [|[|[|[|[|j]]]]] p; cbn [nth_error]; try discriminate; try (destruct j; discriminate);
  let HH := fresh in intros HH; apply some_eq in HH; subst p.
Ltac deps := let d := fresh in let H := fresh in
  intros d H; cbn [In] in H; cbn [length]; repeat (destruct H as [<-|H]; [lia|]); contradiction.

Lemma pair_good u u' x dc : n <= length dc -> arg_ok (length dc) x ->
  (forall s, hidden o (Fu u) [x] s = Some [mk_fun o u' x]) ->
  (forall s, hidden o (Fu u') [x] s = Some [EFun (Fu u) [x]] \/ exists c, x = ENum c) ->
  goodf (Fu u) [x] dc (Some (length dc + 1, dc ++ [(mk_fun o u' x, [length dc + 1]); (EFun (Fu u) [x], [length dc])])).
Proof.
  intros Hn Hx H1 H2. eapply list_good; [cbn; lia | reflexivity|]. split_new; cbn [fst snd].
  - split; [now apply mk_fun_ok; eapply arg_ok_le; [|exact Hx]; lia|]. split; [deps|].
    unfold hid_ok. cbn [fst snd]. destruct x as [c|s|i|f args]; cbn [mk_fun]; auto; [| |contradiction];
    (destruct (H2 (uv (length dc + 0))) as [->|(c & Hc)]; [|discriminate]);
      (apply Forall2_cons; [|apply Forall2_nil]; eapply reads_new; [exact Hn | reflexivity | rdone]).
  - split; [cbn; constructor; [eapply arg_ok_le; [|exact Hx]; lia | constructor]|]. split; [deps|].
    unfold hid_ok. cbn [fst snd]. rewrite H1. apply Forall2_cons; [|apply Forall2_nil].
    eapply reads_new0; [exact Hn | reflexivity | rdone].
Qed.

Lemma arg_uv k j : j < k -> arg_ok k (uv j : ex).
Proof. intros. cbn. eauto. Qed.
Lemma uv_not_num {j x} : (uv j : ex) <> ENum x.
Proof. discriminate. Qed.
Lemma arg_ok_nofun k (e : ex) f l : arg_ok k e -> e <> EFun f l.
Proof. destruct e; cbn; congruence || contradiction. Qed.
Ltac aok Hn := first [assumption | apply arg_uv; lia | exact I | eapply arg_ok_le; [|eassumption]; lia].
Ltac eok Hn := cbn [elt_ok]; repeat (apply Forall_cons; [aok Hn|]); apply Forall_nil.
Ltac nohid := unfold hid_ok; cbn [fst snd hidden]; first [exact I | apply Forall2_nil].

Lemma hid_sq n' dc i (x : ex) : hid_ok o n' dc i (mk_pow o x (dbl o 2), []).
Proof.
  destruct (li_2 o L) as [H0 H1]. unfold hid_ok.
  destruct x; unfold dbl; cbn [mk_pow]; rewrite ?H0, ?H1; cbn; auto.
Qed.
Lemma hid_mul n' dc i (e : ex) j : (forall f l, e <> EFun f l) -> hid_ok o n' dc i (mk_mul o e (uv j), []).
Proof.
  intros He. unfold hid_ok. destruct e as [x|s|k|f args]; [..|exfalso; eapply He; reflexivity]; cbn; auto.
  destruct (n_isz o 1 x); cbn; auto. destruct (n_isz o 0 x); cbn; auto.
Qed.

Lemma tdc_good f args dc : n <= length dc -> Forall (arg_ok (length dc)) args -> kep_fine o f args ->
  goodf f args dc (tdc o ug f args dc).
Proof.
  intros Hn Ha Hk.
  assert (HP : hidden o f args (uv (length dc)) = Some [] -> goodf f args dc (fdc_plain o f args dc))
    by (now apply plain_good).
  destruct f; cbn [tdc]; try (apply HP; reflexivity).
  - (* one argument *)
    destruct args as [|x [|y args]]; [destruct u; apply HP; reflexivity| |destruct u; apply HP; reflexivity].
    assert (Hx : arg_ok (length dc) x) by (inversion Ha; assumption).
    destruct u; cbn [tdc]; try (apply HP; reflexivity).
    all: try (apply pair_good; [exact Hn | exact Hx | reflexivity |
                intros ?; destruct x; [right; eexists; reflexivity|..]; left; reflexivity]).
    all: try (eapply list_good0; [reflexivity|]; split_new; cbn [fst snd];
      [split; [eok Hn | split; [deps | unfold hid_ok; cbn [fst snd hidden]; rewrite Nat.add_0_r;
         apply Forall2_cons; [|apply Forall2_nil]; eapply reads_new; [exact Hn | reflexivity | rdone]]]
      |rewrite sq_uv; split; [eok Hn | split; [deps | nohid]]]; fail).
    all: try (eapply list_good; [cbn; lia | reflexivity|]; split_new; cbn [fst snd];
      [split; [apply sq_ok; aok Hn | split; [deps | apply hid_sq]]
      |split; [eok Hn | split; [deps | unfold hid_ok; cbn [fst snd hidden];
         apply Forall2_cons; [|apply Forall2_nil]; eapply reads_new0; [exact Hn | reflexivity | rdone]]]]; fail).
    all: rewrite ?sqrt_uv, ?add1_uv, ?sub1_uv, ?neg_uv; cbn [mk_fun].
    all: eapply list_good; [cbn; lia | reflexivity|]; split_new; cbn [fst snd];
      [split; [apply sq_ok; aok Hn | split; [deps | apply hid_sq]]
      |split; [eok Hn | split; [deps | nohid]]
      |split; [eok Hn | split; [deps | nohid]]
      |split; [eok Hn | split; [deps | unfold hid_ok; cbn [fst snd hidden];
         apply Forall2_cons; [|apply Forall2_nil]]]].
    all: eapply reads_new; [exact Hn | reflexivity|]; apply rd_fun; apply Forall2_cons;
      [|first [apply Forall2_nil | apply Forall2_cons; [rdone | apply Forall2_nil]]].
    all: eapply reads_new; [exact Hn | reflexivity|]; apply rd_fun; apply Forall2_cons; [rdone|].
    all: apply Forall2_cons; [|apply Forall2_nil].
    all: eapply reads_new0; [exact Hn | reflexivity | rdone].
  - (* atan2 *)
    destruct args as [|y [|x [|]]]; try (apply HP; reflexivity).
    assert (Hy : arg_ok (length dc) y) by (inversion Ha; assumption).
    assert (Hx : arg_ok (length dc) x) by (inversion Ha as [|? ? ? H]; inversion H; assumption).
    eapply list_good; [cbn; lia | reflexivity|]; split_new; cbn [fst snd];
      [split; [eok Hn | split; [deps | nohid]]
      |split; [eok Hn | split; [deps | unfold hid_ok; cbn [fst snd hidden];
         apply Forall2_cons; [|apply Forall2_nil]; eapply reads_new0; [exact Hn | reflexivity | rdone]]]].
  - (* kepE *)
    destruct args as [|e [|M [|]]]; try (apply HP; reflexivity).
    assert (He : arg_ok (length dc) e) by (inversion Ha; assumption).
    assert (HM : arg_ok (length dc) M) by (inversion Ha as [|? ? ? H]; inversion H; assumption).
    cbn [mk_fun]. cbn in Hk.
    eapply list_good0; [reflexivity|]; split_new; cbn [fst snd].
    + split; [eok Hn | split; [deps|]]. unfold hid_ok; cbn [fst snd hidden]. rewrite Nat.add_0_r.
      constructor; [|apply Forall2_cons; [|apply Forall2_nil]].
      * eapply reads_new; [exact Hn | reflexivity|].
        apply mul_reads; try discriminate; [intros; now apply (arg_ok_nofun (length dc))|].
        eapply reads_new; [exact Hn | reflexivity | rdone].
      * eapply reads_new; [exact Hn | reflexivity | rdone].
    + split; [eok Hn | split; [deps|]]. unfold hid_ok; cbn [fst snd hidden mk_fun].
      apply Forall2_cons; [|apply Forall2_nil]. eapply reads_new; [exact Hn | reflexivity | rdone].
    + split; [eok Hn | split; [deps|]]. unfold hid_ok; cbn [fst snd hidden mk_fun].
      apply Forall2_cons; [|apply Forall2_nil]. eapply reads_new; [exact Hn | reflexivity | rdone].
    + split; [apply mul_leaf_ok; [aok Hn | lia | exact Hk] | split; [deps|]].
      apply hid_mul. intros; now apply (arg_ok_nofun (length dc)).
  - (* kepF *)
    destruct args as [|h [|k [|lam [|]]]]; try (apply HP; reflexivity).
    assert (Hh : arg_ok (length dc) h) by (inversion Ha; assumption).
    assert (Hk' : arg_ok (length dc) k) by (inversion Ha as [|? ? ? H]; inversion H; assumption).
    assert (Hl : arg_ok (length dc) lam)
      by (inversion Ha as [|? ? ? H]; inversion H as [|? ? ? H']; inversion H'; assumption).
    cbn [mk_fun]. cbn in Hk. destruct Hk as [Hk1 Hk2].
    eapply list_good0; [reflexivity|]; split_new; cbn [fst snd].
    + split; [eok Hn | split; [deps|]]. unfold hid_ok; cbn [fst snd hidden]. rewrite Nat.add_0_r.
      constructor; [|constructor; [|constructor; [|apply Forall2_cons; [|apply Forall2_nil]]]].
      * eapply reads_new; [exact Hn | reflexivity|].
        apply mul_reads; try discriminate; [intros; now apply (arg_ok_nofun (length dc))|].
        eapply reads_new; [exact Hn | reflexivity | rdone].
      * eapply reads_new; [exact Hn | reflexivity|].
        apply mul_reads; try discriminate; [intros; now apply (arg_ok_nofun (length dc))|].
        eapply reads_new; [exact Hn | reflexivity | rdone].
      * eapply reads_new; [exact Hn | reflexivity | rdone].
      * eapply reads_new; [exact Hn | reflexivity | rdone].
    + split; [eok Hn | split; [deps|]]. unfold hid_ok; cbn [fst snd hidden mk_fun].
      apply Forall2_cons; [|apply Forall2_nil]. eapply reads_new; [exact Hn | reflexivity | rdone].
    + split; [eok Hn | split; [deps|]]. unfold hid_ok; cbn [fst snd hidden mk_fun].
      apply Forall2_cons; [|apply Forall2_nil]. eapply reads_new; [exact Hn | reflexivity | rdone].
    + split; [apply mul_leaf_ok; [aok Hn | lia | exact Hk1] | split; [deps|]].
      apply hid_mul. intros; now apply (arg_ok_nofun (length dc)).
    + split; [apply mul_leaf_ok; [aok Hn | lia | exact Hk2] | split; [deps|]].
      apply hid_mul. intros; now apply (arg_ok_nofun (length dc)).
  - (* user-defined functions *)
    pose proof (ug_ok name args dc Hn Ha) as HU. destruct (ug name args dc) as [[i dc']|].
    + destruct HU as (new & deps & -> & Hi & Hd & Hnew). exists new, deps. split; [reflexivity|].
      split; [|split; [exact Hi | exact Hd]]. intros j p Hp. destruct (Hnew j p Hp) as (H1 & H2 & H3).
      rewrite app_length in H2. auto.
    + now apply plain_good_other.
Qed.

Lemma fdc_taylor_good f args dc : n <= length dc -> Forall (arg_ok (length dc)) args -> kep_fine o f args ->
  match fdc_taylor o ug f args dc with
  | Some (i, dc') => exists new deps, dc' = dc ++ new /\ appended Hid dc new /\                    length dc <= i < length dc' /\ nth_error dc' i = Some (EFun f args, deps)
  | None => False
  end.
Proof.
  intros Hn Ha Hk. pose proof (tdc_good f args dc Hn Ha Hk) as H. unfold fdc_taylor, goodf in *.
  destruct (tdc o ug f args dc) as [[i dc']|]; [|contradiction].
  destruct H as (new & deps & E & Hap & Hi & Hd).
  destruct (i =? 0) eqn:E0; [apply Nat.eqb_eq in E0; lia|].
  destruct (length dc' <=? i) eqn:E1; [apply Nat.leb_le in E1; lia|]. cbn. eauto 8.
Qed.
End Fdc.
