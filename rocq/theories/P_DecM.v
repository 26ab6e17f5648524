(* The decomposition loop: what it appends stands for the expression. *)
From Coq Require Import String Bool ZArith Arith List Lia.
From Verif Require Import M_Expr M_Dag M_Dec S_Expr S_Dag S_Dec P_ExprSem P_Dag P_Dec.
Import ListNotations.
Local Open Scope nat_scope.

Section Machine.
Context {N : Type} (U : dag N -> Prop).
Local Notation dg := (dag N).
Local Notation ex := (expr N).
Local Notation elt := (expr N * list nat)%type.
Hypothesis Uarg : forall a f s l x, U (DFn a f s l) -> In x l -> U x.
Hypothesis Ufun : forall a f1 s1 l1 f2 s2 l2, U (DFn a f1 s1 l1) -> U (DFn a f2 s2 l2) -> f1 = f2 /\ s1 = s2 /\ l1 = l2.
Hypothesis Uvec : forall a1 f1 s l1 a2 f2 l2, U (DFn a1 f1 (Some s) l1) -> U (DFn a2 f2 (Some s) l2) -> l1 = l2.
Context (n : nat).
Hypothesis Uvar : forall s, U (DVr s) -> exists j, j < n /\ s = uname j.

(* The decomposed copy of an argument. *)
Definition shape (x : dg) (y : ex) : Prop :=
  match dleaf x with Some z => y = z | None => exists i, n <= i /\ y = EVar (uname i) end.
(* The functions the decomposition is applied to. *)
Context (G : fid N -> list ex -> Prop).
Hypothesis Ugood : forall a f s l args', U (DFn a f s l) -> Forall2 shape l args' -> G f args'.

Context (fdc : fid N -> list ex -> list elt -> option (nat * list elt)) (throws : Prop).
(* What is known of an element of a given index and of its hidden dependencies. *)
Context (Hid : list elt -> nat -> elt -> Prop).
Hypothesis Hid_app : forall dc new i p, Hid dc i p -> Hid (dc ++ new) i p.
Definition appended (dc new : list elt) : Prop :=
  forall j p, nth_error new j = Some p ->
    elt_ok (length dc + j) (fst p) /\
    (forall d, In d (snd p) -> length dc <= d < length dc + length new /\ d <> length dc + j) /\
    Hid (dc ++ new) (length dc + j) p.
Hypothesis fdc_good : forall f args dc, n <= length dc -> Forall (arg_ok (length dc)) args -> G f args ->
  match fdc f args dc with
  | Some (i, dc') => exists new deps, dc' = dc ++ new /\ appended dc new /\
                       length dc <= i < length dc' /\ nth_error dc' i = Some (EFun f args, deps)
  | None => throws
  end.

Local Notation mid dc := (map (@fst (expr N) (list nat)) dc).
Definition okdc (dc : list elt) : Prop :=
  n <= length dc /\
  forall j p, n <= j -> nth_error dc j = Some p ->
    elt_ok j (fst p) /\ (forall d, In d (snd p) -> n <= d < length dc /\ d <> j) /\ Hid dc j p.

Lemma okdc_app dc new : okdc dc -> appended dc new -> okdc (dc ++ new).
Proof.
  intros [H1 H2] Ha. split; [rewrite app_length; lia|]. intros j p Hj Hn.
  destruct (Nat.lt_ge_cases j (length dc)) as [H|H].
  - rewrite nth_error_app1 in Hn by exact H. destruct (H2 _ _ Hj Hn) as (E & D & Hh). split; [exact E|].
    split; [|now apply Hid_app]. intros d Hd. rewrite app_length. destruct (D d Hd). lia.
  - rewrite nth_error_app2 in Hn by exact H. destruct (Ha _ _ Hn) as (E & D & Hh).
    replace (length dc + (j - length dc)) with j in * by lia. split; [exact E|].
    split; [|exact Hh]. intros d Hd. rewrite app_length. destruct (D d Hd). lia.
Qed.

Definition resok (dc : list elt) (e : dg) (oi : option nat) : Prop :=
  match oi with
  | Some i => dleaf e = None /\ n <= i < length dc /\ stands n (mid dc) (erase e) (EVar (uname i))
  | None => exists x, dleaf e = Some x
  end.
(* The argument made of a result. *)
Definition res_arg (e : dg) (oi : option nat) : option ex :=
  match oi with
  | Some i => match dleaf e with None => Some (EVar (uname i)) | Some _ => None end
  | None => dleaf e
  end.
Lemma dleaf_erase (e : dg) x : dleaf e = Some x -> x = erase e.
Proof. destruct e; cbn; congruence. Qed.
Lemma resok_arg dc e oi : U e -> n <= length dc -> resok dc e oi ->
  exists y, res_arg e oi = Some y /\ arg_ok (length dc) y /\ shape e y /\ stands n (mid dc) (erase e) y.
Proof.
  intros HU Hn. destruct oi as [i|]; cbn.
  - intros (Hl & Hi & Hs). rewrite Hl. exists (EVar (uname i)). split; [reflexivity|]. split; [|split].
    + cbn. exists i. split; [lia | reflexivity].
    + unfold shape. rewrite Hl. exists i. split; [lia | reflexivity].
    + exact Hs.
  - intros (x & Hx). rewrite Hx. exists x. split; [reflexivity|]. split; [|split].
    + destruct e; cbn in Hx; try discriminate; injection Hx as <-; cbn; auto.
      destruct (Uvar s HU) as (j & Hj & ->). exists j. split; [lia | reflexivity].
    + unfold shape. now rewrite Hx.
    + destruct e; cbn in Hx; try discriminate; injection Hx as <-; reflexivity.
Qed.
Lemma resok_app dc new e oi : resok dc e oi -> resok (dc ++ new) e oi.
Proof.
  destruct oi as [i|]; cbn; [|auto]. intros (Hl & Hi & Hs). split; [exact Hl|]. rewrite app_length. split; [lia|].
  rewrite map_app. now apply stands_app.
Qed.

Record dvalid (fm : pmap nat) (sm : pmap (list ex)) (dc : list elt) : Prop := {
  dv_dc : okdc dc;
  dv_f : forall ad i, pfind ad fm = Some i -> exists f s l, U (DFn ad f s l) /\ resok dc (DFn ad f s l) (Some i);
  dv_s : forall s args', pfind s sm = Some args' -> exists ad f l, U (DFn ad f (Some s) l) /\
           all2 (stands n (mid dc)) (map erase l) args' /\ Forall (arg_ok (length dc)) args' /\ Forall2 shape l args'
}.

Lemma all2_stands_app dc new l args' : all2 (stands n (mid dc)) l args' -> all2 (stands n (mid (dc ++ new))) l args'.
Proof.
  rewrite !all2_forall2, map_app. induction 1 as [|x y l l' H HF IH]; constructor; [now apply stands_app | exact IH].
Qed.
Lemma forall_arg_ok_le k k' (args' : list ex) : k <= k' -> Forall (arg_ok k) args' -> Forall (arg_ok k') args'.
Proof. intros H. apply Forall_impl. intros a. now apply arg_ok_le. Qed.
Lemma dvalid_app fm sm dc new : dvalid fm sm dc -> appended dc new -> dvalid fm sm (dc ++ new).
Proof.
  intros [H1 H2 H3] Ha. split; [now apply okdc_app| |].
  - intros ad i Hi. destruct (H2 ad i Hi) as (f & s & l & HU & Hr). exists f, s, l. split; [exact HU|].
    now apply resok_app.
  - intros s args' Hs. destruct (H3 s args' Hs) as (ad & f & l & HU & Hl & Ho & Hsh). exists ad, f, l.
    split; [exact HU|]. split; [now apply all2_stands_app|]. split; [|exact Hsh].
    eapply forall_arg_ok_le; [|exact Ho]. rewrite app_length. lia.
Qed.
Lemma dvalid_f fm sm dc ad f s l i : dvalid fm sm dc -> U (DFn ad f s l) -> resok dc (DFn ad f s l) (Some i) ->
  dvalid (pemplace ad i fm) sm dc.
Proof.
  intros [H1 H2 H3] HU Hr. split; [exact H1| |exact H3].
  intros ad' i' Hf. rewrite pfind_emplace in Hf. destruct (pfind ad' fm) as [b|] eqn:E.
  - injection Hf as ->. auto.
  - destruct (Nat.eqb_spec ad' ad) as [->|]; [|discriminate]. injection Hf as <-. eauto.
Qed.
Lemma dvalid_s fm sm dc ad f s l args' : dvalid fm sm dc -> U (DFn ad f (Some s) l) ->
  all2 (stands n (mid dc)) (map erase l) args' -> Forall (arg_ok (length dc)) args' -> Forall2 shape l args' ->
  dvalid fm (pemplace s args' sm) dc.
Proof.
  intros [H1 H2 H3] HU Ha Ho Hsh. split; [exact H1|exact H2|].
  intros s' b Hf. rewrite pfind_emplace in Hf. destruct (pfind s' sm) as [b'|] eqn:E.
  - injection Hf as ->. auto.
  - destruct (Nat.eqb_spec s' s) as [->|]; [|discriminate]. injection Hf as <-. exists ad, f, l. auto.
Qed.

Local Notation step := (dstep fdc).
Local Notation run := (drun fdc).
Lemma drun_step k st st' c r : d_stack st = c :: r -> step st = MDone st' -> run (S k) st = run k st'.
Proof. intros H1 H2. cbn [drun]. now rewrite H1, H2. Qed.
Lemma drun_throw k st c r : d_stack st = c :: r -> step st = MThrow -> run (S k) st = MThrow.
Proof. intros H1 H2. cbn [drun]. now rewrite H1, H2. Qed.

Lemma dpop_ok dc : forall l ois args' out, Forall2 (fun e oi => resok dc e oi) l ois ->
  oseq (map (fun p => res_arg (fst p) (snd p)) (combine l ois)) = Some args' ->
  dpop l (map Some ois ++ out) = Some (args', out).
Proof.
  induction l as [|e l IH]; intros ois args' out HF; inversion HF; subst; cbn -[res_arg oseq].
  - cbn. congruence.
  - rewrite oseq_cons. destruct (res_arg e y) as [a|] eqn:Ea; [|discriminate].
    destruct (oseq _) as [r|] eqn:Er; [|discriminate]. intros [= <-].
    rewrite (IH _ _ out H3 Er). unfold res_arg in Ea. revert Ea. destruct y; destruct (dleaf e); intros Ea; congruence.
Qed.
Lemma args_of dc : forall l ois, Forall U l -> n <= length dc -> Forall2 (fun e oi => resok dc e oi) l ois ->
  exists args', oseq (map (fun p => res_arg (fst p) (snd p)) (combine l ois)) = Some args' /\
    Forall (arg_ok (length dc)) args' /\ Forall2 shape l args' /\ all2 (stands n (mid dc)) (map erase l) args'.
Proof.
  induction l as [|e l IH]; intros ois HU Hn HF; inversion HF; subst.
  - exists []. repeat split; constructor.
  - inversion HU; subst. destruct (resok_arg dc e y) as (a & Ha & Hok & Hsh & Hst); auto.
    destruct (IH l' H4 Hn H3) as (args' & Hs & H5 & H6 & H7).
    exists (a :: args'). cbn -[oseq res_arg]. rewrite oseq_cons, Ha, Hs. repeat split; auto.
Qed.

(* Applying fdc to decomposed arguments. *)
Lemma apply_fdc fm sm dc ad f s l args' : dvalid fm sm dc -> U (DFn ad f s l) ->
  all2 (stands n (mid dc)) (map erase l) args' -> Forall (arg_ok (length dc)) args' -> Forall2 shape l args' ->
  (fdc f args' dc = None /\ throws) \/
  (exists i new, fdc f args' dc = Some (i, dc ++ new) /\ appended dc new /\
     resok (dc ++ new) (DFn ad f s l) (Some i)).
Proof.
  intros Hv HU Ha Ho Hsh. destruct (dv_dc _ _ _ Hv) as [Hn _].
  pose proof (fdc_good f args' dc Hn Ho (Ugood _ _ _ _ _ HU Hsh)) as H.
  destruct (fdc f args' dc) as [[i dc']|]; [|auto].
  destruct H as (new & deps & -> & Happ & Hi & Hnth). right. exists i, new. split; [reflexivity|]. split; [exact Happ|].
  cbn. split; [reflexivity|]. split; [lia|]. exists i, args'. split; [lia|]. split; [reflexivity|].
  split; [now rewrite (map_nth_error fst _ _ Hnth)|]. now apply all2_stands_app.
Qed.

Local Notation grows := (@grows N nat (list ex)).
Definition ddoes (e : dg) : Prop :=
  U e -> forall rest out fm sm dc, dvalid fm sm dc ->
  (throws /\ exists k, k <= 2 * dsize e /\
     forall m, run (k + m) (mkDS ((e, false) :: rest) out fm sm dc) = MThrow) \/
  (exists oi k fm' sm' new, k <= 2 * dsize e /\ dvalid fm' sm' (dc ++ new) /\
     grows (fun d => within d e) fm fm' sm sm' /\ appended dc new /\ resok (dc ++ new) e oi /\
     forall m, run (k + m) (mkDS ((e, false) :: rest) out fm sm dc) = run m (mkDS rest (Some oi :: out) fm' sm' (dc ++ new))).

Lemma appended_nil dc : appended dc []. Proof. intros [|j] p; discriminate. Qed.
Lemma appended_app dc new1 new2 : appended dc new1 -> appended (dc ++ new1) new2 -> appended dc (new1 ++ new2).
Proof.
  intros H1 H2 j p Hj. rewrite (app_length new1), app_assoc. destruct (Nat.lt_ge_cases j (length new1)) as [H|H].
  - rewrite nth_error_app1 in Hj by exact H. destruct (H1 _ _ Hj) as (E & D & Hh). split; [exact E|].
    split; [|now apply Hid_app]. intros d Hd. destruct (D d Hd). lia.
  - rewrite nth_error_app2 in Hj by exact H. destruct (H2 _ _ Hj) as (E & D & Hh). rewrite app_length in *.
    replace (length dc + length new1 + (j - length new1)) with (length dc + j) in * by lia. split; [exact E|].
    split; [|exact Hh]. intros d Hd. destruct (D d Hd). lia.
Qed.

Lemma ddoes_list : forall l, Forall ddoes l -> Forall U l -> forall rest out fm sm dc, dvalid fm sm dc ->
  (throws /\ exists k, k <= 2 * asize l /\
     forall m, run (k + m) (mkDS (map (fun a => (a, false)) l ++ rest) out fm sm dc) = MThrow) \/
  (exists ois k fm' sm' new, k <= 2 * asize l /\ dvalid fm' sm' (dc ++ new) /\
     grows (fun d => exists x, In x l /\ within d x) fm fm' sm sm' /\ appended dc new /\
     Forall2 (resok (dc ++ new)) l ois /\
     forall m, run (k + m) (mkDS (map (fun a => (a, false)) l ++ rest) out fm sm dc)
               = run m (mkDS rest (map Some (rev ois) ++ out) fm' sm' (dc ++ new))).
Proof.
  induction l as [|x l IH]; intros HD HU rest out fm sm dc Hv.
  - right. exists [], 0, fm, sm, []. rewrite app_nil_r. split; [lia|]. split; [exact Hv|].
    split; [apply grows_refl|]. split; [apply appended_nil|]. split; [constructor|]. reflexivity.
  - inversion HD as [|? ? Dx Dl]; subst. inversion HU as [|? ? Ux Ul]; subst.
    cbn [map app]. rewrite asize_cons.
    destruct (Dx Ux (map (fun a => (a, false)) l ++ rest) out fm sm dc Hv)
      as [(Ht & k & Hk & Hr)|(oi & k & fm1 & sm1 & new1 & Hk & Hv1 & Hg1 & Ha1 & Hr1 & Hr)].
    + left. split; [exact Ht|]. exists k. split; [lia | exact Hr].
    + destruct (IH Dl Ul rest (Some oi :: out) fm1 sm1 (dc ++ new1) Hv1)
        as [(Ht & k2 & Hk2 & Hr2)|(ois & k2 & fm2 & sm2 & new2 & Hk2 & Hv2 & Hg2 & Ha2 & Hr3 & Hr2)].
      * left. split; [exact Ht|]. exists (k + k2). split; [lia|].
        intros m. rewrite <- Nat.add_assoc, Hr. apply Hr2.
      * right. exists (oi :: ois), (k + k2), fm2, sm2, (new1 ++ new2). rewrite app_assoc.
        split; [lia|]. split; [exact Hv2|]. split; [|split; [|split]].
        -- eapply grows_trans.
           ++ eapply grows_weaken; [|exact Hg1]. intros d Hd. exists x. simpl. auto.
           ++ eapply grows_weaken; [|exact Hg2]. intros d (y & Hy & Hd). exists y. simpl. auto.
        -- now apply appended_app.
        -- constructor; [now apply resok_app | exact Hr3].
        -- intros m. rewrite <- Nat.add_assoc, Hr, Hr2. cbn [rev]. rewrite map_app, <- (app_assoc (map Some (rev ois))). reflexivity.
Qed.

Lemma ddoes_leaf e : (forall a f s l, e <> DFn a f s l) -> ddoes e.
Proof.
  intros Hl HU rest out fm sm dc Hv. right. exists None, 1, fm, sm, []. rewrite app_nil_r.
  split; [destruct e; cbn; lia|]. split; [exact Hv|]. split; [apply grows_refl|]. split; [apply appended_nil|].
  split; [destruct e; cbn; [eexists; reflexivity..|]; exfalso; eapply Hl; reflexivity|].
  intros m. eapply drun_step; [reflexivity|]. destruct e; cbn [dstep]; try reflexivity. exfalso. eapply Hl. reflexivity.
Qed.

Lemma ddoes_fun ad f s args : Forall ddoes args -> ddoes (DFn ad f s args).
Proof.
  intros HD HU rest out fm sm dc Hv. set (e := DFn ad f s args) in *.
  assert (Hsz : dsize e = S (asize args)) by reflexivity.
  destruct (pfind ad fm) as [i|] eqn:Ef.
  { right. destruct (dv_f _ _ _ Hv _ _ Ef) as (f' & s' & l' & HU' & Ha).
    destruct (Ufun _ _ _ _ _ _ _ HU HU') as (<- & <- & <-).
    exists (Some i), 1, fm, sm, []. rewrite app_nil_r. split; [lia|]. split; [exact Hv|]. split; [apply grows_refl|].
    split; [apply appended_nil|]. split; [exact Ha|].
    intros m. eapply drun_step; [reflexivity|]. cbn [dstep e]. now rewrite Ef. }
  assert (Hcase : (exists s0 b, s = Some s0 /\ pfind s0 sm = Some b) \/
                  (match s with Some s0 => pfind s0 sm = None | None => True end)).
  { destruct s as [s0|]; [|auto]. destruct (pfind s0 sm) as [b|] eqn:E; [|auto]. left. eauto. }
  destruct Hcase as [(s0 & args' & -> & Eb)|Hns].
  { destruct (dv_s _ _ _ Hv _ _ Eb) as (ad' & f' & l' & HU' & Hst & Ho & Hsh).
    assert (El : args = l') by (eapply Uvec; [exact HU | exact HU']). subst l'.
    destruct (apply_fdc fm sm dc ad f (Some s0) args args' Hv HU Hst Ho Hsh) as [[Hf Ht]|(i & new & Hf & Happ & Hr)].
    - left. split; [exact Ht|]. exists 1. split; [lia|].
      intros m. eapply drun_throw; [reflexivity|]. cbn [dstep]. unfold e in *. now rewrite Ef, Eb, Hf.
    - right. exists (Some i), 1, (pemplace ad i fm), sm, new. split; [lia|].
      split; [eapply dvalid_f; [now apply dvalid_app | exact HU | exact Hr]|].
      split; [apply (grows_emplace _ _ _ ad f (Some s0) args); apply w_here|].
      split; [exact Happ|]. split; [exact Hr|].
      intros m. eapply drun_step; [reflexivity|]. cbn [dstep]. unfold e in *. now rewrite Ef, Eb, Hf. }
  assert (Hfirst : forall m, run (S m) (mkDS ((e, false) :: rest) out fm sm dc) =
            run m (mkDS (map (fun a => (a, false)) (rev args) ++ (e, true) :: rest) (None :: out) fm sm dc)).
  { intros m. eapply drun_step; [reflexivity|]. cbn [dstep]. unfold e in *. rewrite Ef, map_rev.
    destruct s as [s0|]; [rewrite Hns; reflexivity | reflexivity]. }
  assert (HDr : Forall ddoes (rev args)) by (apply Forall_rev; exact HD).
  assert (HUa : Forall U args) by (apply Forall_forall; intros x Hx; eapply Uarg; eauto).
  assert (HUr : Forall U (rev args)) by (now apply Forall_rev).
  destruct (ddoes_list (rev args) HDr HUr ((e, true) :: rest) (None :: out) fm sm dc Hv)
    as [(Ht & k & Hk & Hr)|(ois & k & fm1 & sm1 & new1 & Hk & Hv1 & Hg1 & Ha1 & Hro & Hr)].
  - left. split; [exact Ht|]. rewrite asize_rev in Hk.
    exists (S k). split; [lia|]. intros m. cbn [Nat.add]. rewrite Hfirst. apply Hr.
  - rewrite asize_rev in Hk. set (dc1 := dc ++ new1) in *.
    assert (Hro' : Forall2 (resok dc1) args (rev ois)).
    { rewrite <- (rev_involutive args). clear - Hro.
      induction Hro as [|x y l l' H HF IH]; [constructor|]. cbn [rev]. apply Forall2_app; auto. }
    assert (Hg1' : grows (fun d => exists x, In x args /\ within d x) fm fm1 sm sm1).
    { eapply grows_weaken; [|exact Hg1]. intros d (x & Hx & Hd). exists x. rewrite <- in_rev in Hx. auto. }
    assert (Hf1 : pfind ad fm1 = None).
    { destruct (pfind ad fm1) eqn:E; [|reflexivity]. exfalso.
      destruct (proj1 Hg1' ad) as [H|(f' & s' & l' & x & Hx & Hw)]; [congruence | congruence |].
      eapply (no_self_addr U Uarg Ufun); eassumption. }
    assert (Hs1 : match s with Some s0 => pfind s0 sm1 = None | None => True end).
    { destruct s as [s0|]; [|exact I]. destruct (pfind s0 sm1) eqn:E; [|reflexivity]. exfalso.
      destruct (proj2 Hg1' s0) as [H|(f' & s' & l' & x & Hx & Hw)]; [congruence | congruence |].
      eapply (no_self_vec U Uarg Uvec); eassumption. }
    assert (Hsm : match s with Some s0 => pcontains s0 sm1 | None => false end = false).
    { destruct s as [s0|]; [|reflexivity]. unfold pcontains. now rewrite Hs1. }
    destruct (dv_dc _ _ _ Hv1) as [Hn1 _].
    destruct (args_of dc1 args (rev ois) HUa Hn1 Hro') as (args' & Hargs & Ho & Hsh & Hst).
    pose proof (dpop_ok dc1 args (rev ois) args' (None :: out) Hro' Hargs) as Hpop.
    set (sm2 := match s with Some s0 => pemplace s0 args' sm1 | None => sm1 end).
    assert (Hv2 : dvalid fm1 sm2 dc1).
    { unfold sm2. destruct s as [s0|]; [|exact Hv1]. eapply dvalid_s; eauto. }
    destruct (apply_fdc fm1 sm2 dc1 ad f s args args' Hv2 HU Hst Ho Hsh) as [[Hf Ht]|(i & new & Hf & Happ & Hri)].
    + left. split; [exact Ht|]. exists (S (k + 1)). split; [lia|]. intros m.
      change (S (k + 1) + m) with (S (k + 1 + m)). rewrite Hfirst, <- Nat.add_assoc, Hr.
      eapply drun_throw; [reflexivity|]. cbn [dstep]. unfold e in *.
      rewrite (proj2 (pcontains_false ad fm1) Hf1), Hpop, Hsm, Hf. reflexivity.
    + right. exists (Some i), (S (k + 1)), (pemplace ad i fm1), sm2, (new1 ++ new). rewrite app_assoc. fold dc1.
      split; [lia|]. split; [|split; [|split; [|split]]].
      * eapply dvalid_f; [now apply dvalid_app | exact HU | exact Hri].
      * eapply grows_trans; [eapply grows_weaken; [|exact Hg1']; intros d (x & Hx & Hd); eapply w_arg; eauto|].
        eapply grows_trans with (fm2 := fm1) (sm2 := sm2).
        -- unfold sm2. destruct s as [s0|]; [|apply grows_refl].
           apply (grows_semplace _ _ _ ad f s0 args). apply w_here.
        -- apply (grows_emplace _ _ _ ad f s args). apply w_here.
      * now apply appended_app.
      * exact Hri.
      * intros m. change (S (k + 1) + m) with (S (k + 1 + m)). rewrite Hfirst, <- Nat.add_assoc, Hr.
        eapply drun_step; [reflexivity|]. cbn [dstep]. unfold e in *. cbv zeta.
        rewrite (proj2 (pcontains_false ad fm1) Hf1), Hpop, Hsm, Hf. reflexivity.
Qed.

Lemma ddoes_all e : ddoes e.
Proof.
  induction e as [x|v|i|a f s args IH] using dag_ind'; [apply ddoes_leaf; discriminate..|].
  now apply ddoes_fun.
Qed.

Lemma decompose_ok fuel fm sm dc e : U e -> dvalid fm sm dc -> 2 * dsize e <= fuel ->
  (throws /\ decompose fdc fuel (fm, sm, dc) e = MThrow) \/
  (exists oi fm' sm' new, dvalid fm' sm' (dc ++ new) /\ appended dc new /\ resok (dc ++ new) e oi /\
     decompose fdc fuel (fm, sm, dc) e = MDone (oi, (fm', sm', dc ++ new))).
Proof.
  intros HU Hv Hf. unfold decompose.
  destruct (ddoes_all e HU [] [] fm sm dc Hv) as [(Ht & k & Hk & Hr)|(oi & k & fm' & sm' & new & Hk & Hv' & _ & Ha & Hres & Hr)].
  - left. split; [exact Ht|]. replace fuel with (k + (fuel - k)) by lia. apply Hr.
  - right. exists oi, fm', sm', new. split; [exact Hv'|]. split; [exact Ha|]. split; [exact Hres|].
    replace fuel with (k + (fuel - k)) by lia. rewrite Hr. destruct (fuel - k); reflexivity.
Qed.

Lemma decompose_vec_ok fuel : forall es fm sm dc, Forall U es -> dvalid fm sm dc ->
  (forall e, In e es -> 2 * dsize e <= fuel) ->
  (throws /\ decompose_vec fdc fuel (fm, sm, dc) es = MThrow) \/
  (exists outs fm' sm' new, dvalid fm' sm' (dc ++ new) /\ appended dc new /\
     all2 (stands n (mid (dc ++ new))) (map erase es) outs /\ Forall (arg_ok (length (dc ++ new))) outs /\
     decompose_vec fdc fuel (fm, sm, dc) es = MDone (outs, (fm', sm', dc ++ new))).
Proof.
  induction es as [|e es IH]; intros fm sm dc HU Hv Hf.
  - right. exists [], fm, sm, []. rewrite app_nil_r. split; [exact Hv|]. split; [apply appended_nil|].
    split; [exact I|]. split; [constructor | reflexivity].
  - inversion HU as [|? ? Ue Ues]; subst. cbn [decompose_vec].
    destruct (decompose_ok fuel fm sm dc e Ue Hv (Hf e (or_introl eq_refl)))
      as [[Ht ->]|(oi & fm1 & sm1 & new1 & Hv1 & Ha1 & Hr1 & ->)]; [left; auto|].
    destruct (dv_dc _ _ _ Hv1) as [Hn1 _].
    destruct (resok_arg _ e oi Ue Hn1 Hr1) as (y & Hy & Hok & _ & Hst).
    destruct (IH fm1 sm1 (dc ++ new1) Ues Hv1 ltac:(intros; apply Hf; now right))
      as [[Ht Hrec]|(outs & fm2 & sm2 & new2 & Hv2 & Ha2 & Hst2 & Hok2 & Hrec)].
    + left. split; [exact Ht|]. rewrite Hrec. unfold res_arg in Hy.
      destruct oi; [reflexivity | now rewrite Hy].
    + right. exists (y :: outs), fm2, sm2, (new1 ++ new2). rewrite app_assoc. split; [exact Hv2|].
      split; [now apply appended_app|]. split; [|split].
      * cbn. split; [rewrite map_app; now apply stands_app | exact Hst2].
      * constructor; [|exact Hok2]. eapply arg_ok_le; [|exact Hok]. rewrite (app_length (dc ++ new1)). lia.
      * rewrite Hrec. unfold res_arg in Hy. destruct oi as [i|].
        -- revert Hy. destruct (dleaf e); intros Hy; congruence.
        -- now rewrite Hy.
Qed.

(* The extra functions. *)
Lemma decompose_sv_ok fuel : forall es fm sm dc, Forall U es -> dvalid fm sm dc ->
  (forall e, In e es -> 2 * dsize e <= fuel) ->
  ((throws \/ exists e, In e es /\ ((exists x, e = DNum x) \/ exists i, e = DPr i)) /\
   decompose_sv fdc fuel (fm, sm, dc) es = MThrow) \/
  (exists sv fm' sm' new, dvalid fm' sm' (dc ++ new) /\ appended dc new /\
     all2 (stands n (mid (dc ++ new))) (map erase es) (map (fun i => EVar (uname i)) sv) /\
     Forall (fun i => i < length (dc ++ new)) sv /\
     decompose_sv fdc fuel (fm, sm, dc) es = MDone (sv, (fm', sm', dc ++ new))).
Proof.
  induction es as [|e es IH]; intros fm sm dc HU Hv Hf.
  - right. exists [], fm, sm, []. rewrite app_nil_r. split; [exact Hv|]. split; [apply appended_nil|].
    split; [exact I|]. split; [constructor | reflexivity].
  - inversion HU as [|? ? Ue Ues]; subst. cbn [decompose_sv].
    assert (Hhead : (throws /\ decompose fdc fuel (fm, sm, dc) e = MThrow /\ (forall s, e <> DVr s)) \/
      ((exists x, e = DNum x) \/ exists i, e = DPr i) \/
      (exists i fm1 sm1 new1, dvalid fm1 sm1 (dc ++ new1) /\ appended dc new1 /\ i < length (dc ++ new1) /\
         stands n (mid (dc ++ new1)) (erase e) (EVar (uname i)) /\
         match e with
         | DVr s => match uname_to_index s with Some i => MDone (i, (fm, sm, dc)) | None => MThrow end
         | _ => match decompose fdc fuel (fm, sm, dc) e with
                | MDone (Some i, c') => MDone (i, c')
                | MDone (None, _) => MThrow
                | MThrow => MThrow
                | MUB => MUB
                | MFuel => MFuel
                end
         end = MDone (i, (fm1, sm1, dc ++ new1)))).
    { destruct e as [x|s|i|a f s l].
      - right. left. left. now exists x.
      - right. right. destruct (Uvar s Ue) as (j & Hj & ->). rewrite uname_index.
        exists j, fm, sm, []. rewrite app_nil_r. split; [exact Hv|]. split; [apply appended_nil|].
        destruct (dv_dc _ _ _ Hv) as [Hn _]. split; [lia|]. split; [reflexivity | reflexivity].
      - right. left. right. now exists i.
      - destruct (decompose_ok fuel fm sm dc _ Ue Hv (Hf _ (or_introl eq_refl)))
          as [[Ht E]|(oi & fm1 & sm1 & new1 & Hv1 & Ha1 & Hr1 & E)].
        + left. split; [exact Ht|]. split; [exact E | discriminate].
        + right. right. destruct oi as [i|]; [|destruct Hr1 as (x & Hx); discriminate].
          destruct Hr1 as (_ & Hi & Hs). exists i, fm1, sm1, new1. rewrite E. split; [exact Hv1|]. split; [exact Ha1|]. split; [lia|]. split; [exact Hs | reflexivity]. }
    destruct Hhead as [(Ht & E & Hnv)|[Hc|(i & fm1 & sm1 & new1 & Hv1 & Ha1 & Hi & Hs & E)]].
    + left. split; [auto|]. rewrite E. destruct e; try reflexivity. exfalso. eapply Hnv. reflexivity.
    + left. split; [right; exists e; split; [now left | exact Hc]|].
      destruct (decompose_ok fuel fm sm dc e Ue Hv (Hf _ (or_introl eq_refl)))
        as [[Ht E]|(oi & fm1 & sm1 & new1 & Hv1 & Ha1 & Hr1 & E)].
      * rewrite E. destruct Hc as [(x & ->)|(i & ->)]; reflexivity.
      * rewrite E. destruct Hc as [(x & ->)|(i & ->)]; destruct oi; try reflexivity; destruct Hr1; discriminate.
    + destruct (IH fm1 sm1 (dc ++ new1) Ues Hv1 ltac:(intros; apply Hf; now right))
        as [[Ht Hrec]|(sv & fm2 & sm2 & new2 & Hv2 & Ha2 & Hst2 & Hok2 & Hrec)].
      * left. split; [destruct Ht as [Ht|(x & Hx & Hx')]; [auto | right; exists x; split; [now right | exact Hx']]|].
        rewrite E, Hrec. reflexivity.
      * right. exists (i :: sv), fm2, sm2, (new1 ++ new2). rewrite app_assoc. split; [exact Hv2|].
        split; [now apply appended_app|]. split; [|split].
        -- cbn [map all2]. split; [rewrite map_app; now apply stands_app | exact Hst2].
        -- constructor; [|exact Hok2]. rewrite (app_length (dc ++ new1)). lia.
        -- rewrite E, Hrec. reflexivity.
Qed.
Lemma dvalid_empty dc : length dc = n -> dvalid [] [] dc.
Proof.
  intros H. split; [|discriminate..]. split; [lia|]. intros j p Hj Hn.
  exfalso. assert (j < length dc) by (apply nth_error_Some; congruence). lia.
Qed.
End Machine.
