(* The traversals with caches compute what recursion on the tree computes. *)
From Coq Require Import String Bool Arith List Lia.
From Verif Require Import M_Expr M_Dag S_Dag P_ExprSem.
Import ListNotations.

Section DagInd.
  Context {N : Type} (P : dag N -> Prop).
  Hypothesis Hn : forall n, P (DNum n).
  Hypothesis Hv : forall s, P (DVr s).
  Hypothesis Hp : forall i, P (DPr i).
  Hypothesis Hf : forall a f s args, Forall P args -> P (DFn a f s args).
  Fixpoint dag_ind' (e : dag N) : P e :=
    match e with
    | DNum n => Hn n
    | DVr s => Hv s
    | DPr i => Hp i
    | DFn a f s args =>
        Hf a f s args ((fix go l : Forall P l :=
                      match l with
                      | [] => Forall_nil P
                      | a :: r => Forall_cons a (dag_ind' a) (go r)
                      end) args)
    end.
End DagInd.

Lemma pfind_emplace {A} k (a : A) m j :
  pfind j (pemplace k a m) = match pfind j m with
                             | Some b => Some b
                             | None => if Nat.eqb j k then Some a else None
                             end.
Proof.
  unfold pemplace. destruct (pfind k m) as [b|] eqn:E.
  - destruct (pfind j m) eqn:Ej; [reflexivity|].
    destruct (Nat.eqb_spec j k) as [->|]; [congruence | reflexivity].
  - simpl. destruct (Nat.eqb_spec j k) as [->|]; [now rewrite E|]. now destruct (pfind j m).
Qed.
Lemma pcontains_false {A} k (m : pmap A) : pcontains k m = false <-> pfind k m = None.
Proof. unfold pcontains. destruct (pfind k m); split; congruence. Qed.

Definition asize {N} (l : list (dag N)) : nat := fold_right Nat.add 0 (map dsize l).
Lemma asize_cons {N} (x : dag N) l : asize (x :: l) = dsize x + asize l. Proof. reflexivity. Qed.
Lemma asize_app {N} (l l' : list (dag N)) : asize (l ++ l') = asize l + asize l'.
Proof. induction l as [|x l IH]; [reflexivity|]. simpl app. rewrite !asize_cons, IH. lia. Qed.
Lemma asize_rev {N} (l : list (dag N)) : asize (rev l) = asize l.
Proof. induction l as [|x l IH]; [reflexivity|]. simpl rev. rewrite asize_app, !asize_cons, IH. unfold asize. simpl. lia. Qed.
Lemma asize_in {N} (x : dag N) l : In x l -> dsize x <= asize l.
Proof. induction l as [|y l IH]; [intros []|]. rewrite asize_cons. intros [->|H]; [lia | specialize (IH H); lia]. Qed.
Lemma dsize_fn {N} a (f : fid N) s l : dsize (DFn a f s l) = S (asize l). Proof. reflexivity. Qed.
Lemma within_size {N} (d e : dag N) : within d e -> dsize d <= dsize e.
Proof.
  induction 1 as [|d a f s args x Hx Hw IH]; [lia|]. rewrite dsize_fn. pose proof (asize_in _ _ Hx). lia.
Qed.
Lemma within_trans {N} (a b c : dag N) : within a b -> within b c -> within a c.
Proof. intros Hab Hbc. induction Hbc as [|d ad f s args x Hx Hw IH]; [exact Hab|]. eapply w_arg; eauto. Qed.

(* The nodes the sharing is consistent on. *)
Section Universe.
Context {N : Type} (U : dag N -> Prop).
Local Notation dg := (dag N).
Hypothesis Uarg : forall a f s l x, U (DFn a f s l) -> In x l -> U x.
Hypothesis Ufun : forall a f1 s1 l1 f2 s2 l2, U (DFn a f1 s1 l1) -> U (DFn a f2 s2 l2) -> f1 = f2 /\ s1 = s2 /\ l1 = l2.
Hypothesis Uvec : forall a1 f1 s l1 a2 f2 l2, U (DFn a1 f1 (Some s) l1) -> U (DFn a2 f2 (Some s) l2) -> l1 = l2.

Lemma Uwithin d e : within d e -> U e -> U d.
Proof. induction 1 as [|d a f s args x Hx Hw IH]; intros HU; [exact HU|]. apply IH. eapply Uarg; eauto. Qed.
Lemma no_self_addr a f s l x f' s' l' : U (DFn a f s l) -> In x l -> ~ within (DFn a f' s' l') x.
Proof.
  intros HU Hx Hw. pose proof (Uwithin _ _ Hw (Uarg _ _ _ _ _ HU Hx)) as HU'.
  destruct (Ufun _ _ _ _ _ _ _ HU HU') as (<- & <- & <-).
  apply within_size in Hw. rewrite dsize_fn in Hw. pose proof (asize_in _ _ Hx). lia.
Qed.
Lemma no_self_vec a f s l x a' f' l' : U (DFn a f (Some s) l) -> In x l -> ~ within (DFn a' f' (Some s) l') x.
Proof.
  intros HU Hx Hw. pose proof (Uwithin _ _ Hw (Uarg _ _ _ _ _ HU Hx)) as HU'.
  pose proof (Uvec _ _ _ _ _ _ _ HU HU') as E. subst l'.
  apply within_size in Hw. rewrite dsize_fn in Hw. pose proof (asize_in _ _ Hx). lia.
Qed.

(* --- The transforming traversals -------------------------------------------------------- *)
Section Trans.
Context {A B : Type}.
Context (leaf : dg -> A) (pre : dg -> option A) (comb : list A -> B) (node : dg -> B -> option A) (lazy : bool).

Fixpoint drec (e : dg) : option A :=
  match pre e with
  | Some a => Some a
  | None => match e with
            | DFn _ _ _ args => match oseq (map drec args) with
                                | Some rs => node e (comb rs)
                                | None => None
                                end
            | _ => Some (leaf e)
            end
  end.
Local Notation step := (tstep leaf pre comb node lazy).
Local Notation run := (trun leaf pre comb node lazy).

Record valid (fm : pmap A) (sm : pmap B) : Prop := {
  va_f : forall ad a, pfind ad fm = Some a -> exists f s l, U (DFn ad f s l) /\ drec (DFn ad f s l) = Some a;
  va_s : forall s b, pfind s sm = Some b -> exists ad f l rs,
           U (DFn ad f (Some s) l) /\ oseq (map drec l) = Some rs /\ b = comb rs
}.
Definition grows (W : dg -> Prop) (fm fm' : pmap A) (sm sm' : pmap B) : Prop :=
  (forall ad, pfind ad fm' <> None -> pfind ad fm <> None \/ exists f s l, W (DFn ad f s l)) /\
  (forall s, pfind s sm' <> None -> pfind s sm <> None \/ exists ad f l, W (DFn ad f (Some s) l)).

Lemma grows_refl W (fm : pmap A) (sm : pmap B) : grows W fm fm sm sm. Proof. split; auto. Qed.
Lemma grows_trans W fm1 fm2 fm3 sm1 sm2 sm3 :
  grows W fm1 fm2 sm1 sm2 -> grows W fm2 fm3 sm2 sm3 -> grows W fm1 fm3 sm1 sm3.
Proof.
  intros [H1 H2] [H3 H4]. split.
  - intros ad H. destruct (H3 ad H) as [H'|H']; auto.
  - intros s H. destruct (H4 s H) as [H'|H']; auto.
Qed.
Lemma grows_weaken (W W' : dg -> Prop) fm1 fm2 sm1 sm2 :
  (forall d, W d -> W' d) -> grows W fm1 fm2 sm1 sm2 -> grows W' fm1 fm2 sm1 sm2.
Proof.
  intros HW [H1 H2]. split.
  - intros ad H. destruct (H1 ad H) as [H'|(f & s & l & H')]; [auto|]. right. eauto.
  - intros ad H. destruct (H2 ad H) as [H'|(f & s & l & H')]; [auto|]. right. eauto.
Qed.

Lemma run_step n st st' c r : t_stack st = c :: r -> step st = MDone st' -> run (S n) st = run n st'.
Proof. intros H1 H2. cbn [trun]. now rewrite H1, H2. Qed.
Lemma run_throw n st c r : t_stack st = c :: r -> step st = MThrow -> run (S n) st = MThrow.
Proof. intros H1 H2. cbn [trun]. now rewrite H1, H2. Qed.

Lemma pop_args_app (rs : list A) : forall out, pop_args (length rs) (map Some rs ++ out) = Some (rs, out).
Proof. induction rs as [|r rs IH]; intros out; [reflexivity|]. simpl. now rewrite IH. Qed.

(* Processing the top of the stack e: what the machine does. *)
Definition does (e : dg) : Prop :=
  U e -> forall rest out fm sm, valid fm sm ->
  (drec e = None /\ exists k, k <= 2 * dsize e /\
     forall n, run (k + n) (mkT ((e, false) :: rest) out fm sm) = MThrow) \/
  (exists a k fm' sm', drec e = Some a /\ k <= 2 * dsize e /\ valid fm' sm' /\
     grows (fun d => within d e) fm fm' sm sm' /\
     forall n, run (k + n) (mkT ((e, false) :: rest) out fm sm) = run n (mkT rest (Some a :: out) fm' sm')).

Lemma does_list : forall l, Forall does l -> Forall U l -> forall rest out fm sm, valid fm sm ->
  (oseq (map drec l) = None /\ exists k, k <= 2 * asize l /\
     forall n, run (k + n) (mkT (map (fun a => (a, false)) l ++ rest) out fm sm) = MThrow) \/
  (exists rs k fm' sm', oseq (map drec l) = Some rs /\ k <= 2 * asize l /\ valid fm' sm' /\
     grows (fun d => exists x, In x l /\ within d x) fm fm' sm sm' /\
     forall n, run (k + n) (mkT (map (fun a => (a, false)) l ++ rest) out fm sm)
               = run n (mkT rest (map Some (rev rs) ++ out) fm' sm')).
Proof.
  induction l as [|x l IH]; intros HD HU rest out fm sm Hv.
  - right. exists [], 0, fm, sm. split; [reflexivity|]. split; [lia|]. split; [exact Hv|].
    split; [apply grows_refl|]. reflexivity.
  - inversion HD as [|? ? Dx Dl]; subst. inversion HU as [|? ? Ux Ul]; subst.
    cbn [map app]. rewrite oseq_cons, asize_cons.
    destruct (Dx Ux (map (fun a => (a, false)) l ++ rest) out fm sm Hv)
      as [(Hn & k & Hk & Hr)|(a & k & fm1 & sm1 & Ha & Hk & Hv1 & Hg1 & Hr)].
    + left. rewrite Hn. split; [reflexivity|]. exists k. split; [lia | exact Hr].
    + destruct (IH Dl Ul rest (Some a :: out) fm1 sm1 Hv1)
        as [(Hn & k2 & Hk2 & Hr2)|(rs & k2 & fm2 & sm2 & Hrs & Hk2 & Hv2 & Hg2 & Hr2)].
      * left. rewrite Ha, Hn. split; [reflexivity|]. exists (k + k2). split; [lia|].
        intros n. rewrite <- Nat.add_assoc, Hr. apply Hr2.
      * right. exists (a :: rs), (k + k2), fm2, sm2. rewrite Ha, Hrs.
        split; [reflexivity|]. split; [lia|]. split; [exact Hv2|]. split.
        -- eapply grows_trans.
           ++ eapply grows_weaken; [|exact Hg1]. intros d Hd. exists x. simpl. auto.
           ++ eapply grows_weaken; [|exact Hg2]. intros d (y & Hy & Hd). exists y. simpl. auto.
        -- intros n. rewrite <- Nat.add_assoc, Hr, Hr2. cbn [rev]. rewrite map_app, <- app_assoc. reflexivity.
Qed.

Lemma valid_emplace fm sm ad f s l a :
  valid fm sm -> U (DFn ad f s l) -> drec (DFn ad f s l) = Some a -> valid (pemplace ad a fm) sm.
Proof.
  intros [H1 H2] HU Ha. split; [|exact H2].
  intros ad' a' Hf. rewrite pfind_emplace in Hf. destruct (pfind ad' fm) as [b|] eqn:E.
  - injection Hf as ->. auto.
  - destruct (Nat.eqb_spec ad' ad) as [->|]; [|discriminate]. injection Hf as <-. eauto.
Qed.
Lemma valid_semplace fm sm ad f s l rs :
  valid fm sm -> U (DFn ad f (Some s) l) -> oseq (map drec l) = Some rs -> valid fm (pemplace s (comb rs) sm).
Proof.
  intros [H1 H2] HU Ha. split; [exact H1|].
  intros s' b Hf. rewrite pfind_emplace in Hf. destruct (pfind s' sm) as [b'|] eqn:E.
  - injection Hf as ->. auto.
  - destruct (Nat.eqb_spec s' s) as [->|]; [|discriminate]. injection Hf as <-. exists ad, f, l, rs. auto.
Qed.
Lemma grows_emplace (W : dg -> Prop) (fm : pmap A) (sm : pmap B) ad f s l a : W (DFn ad f s l) -> grows W fm (pemplace ad a fm) sm sm.
Proof.
  intros HW. split; [|auto]. intros ad' H. rewrite pfind_emplace in H.
  destruct (pfind ad' fm) eqn:E; [left; congruence|].
  destruct (Nat.eqb_spec ad' ad) as [->|]; [|congruence]. right. eauto.
Qed.
Lemma grows_semplace (W : dg -> Prop) (fm : pmap A) (sm : pmap B) ad f s l b : W (DFn ad f (Some s) l) -> grows W fm fm sm (pemplace s b sm).
Proof.
  intros HW. split; [auto|]. intros s' H. rewrite pfind_emplace in H.
  destruct (pfind s' sm) eqn:E; [left; congruence|].
  destruct (Nat.eqb_spec s' s) as [->|]; [|congruence]. right. eauto.
Qed.

Lemma does_leaf e : (forall a f s l, e <> DFn a f s l) -> does e.
Proof.
  intros Hl HU rest out fm sm Hv. right.
  assert (Hsz : dsize e = 1) by (destruct e; try reflexivity; exfalso; eapply Hl; reflexivity).
  exists (match pre e with Some a => a | None => leaf e end), 1, fm, sm.
  split; [destruct e; cbn [drec]; try (destruct (pre _); reflexivity); exfalso; eapply Hl; reflexivity|].
  split; [lia|]. split; [exact Hv|]. split; [apply grows_refl|].
  intros n. eapply run_step; [reflexivity|].
  destruct e; cbn [tstep]; try (destruct (pre _); reflexivity). exfalso. eapply Hl. reflexivity.
Qed.

Lemma does_fun ad f s args : Forall does args -> does (DFn ad f s args).
Proof.
  intros HD HU rest out fm sm Hv. set (e := DFn ad f s args) in *.
  assert (Hdr : drec e = match pre e with
                         | Some a => Some a
                         | None => match oseq (map drec args) with Some rs => node e (comb rs) | None => None end
                         end) by reflexivity.
  assert (Hsz : dsize e = S (asize args)) by reflexivity.
  destruct (pfind ad fm) as [a|] eqn:Ef.
  { (* cached *)
    right. destruct (va_f _ _ Hv _ _ Ef) as (f' & s' & l' & HU' & Ha).
    destruct (Ufun _ _ _ _ _ _ _ HU HU') as (<- & <- & <-).
    exists a, 1, fm, sm. split; [exact Ha|]. split; [lia|]. split; [exact Hv|]. split; [apply grows_refl|].
    intros n. eapply run_step; [reflexivity|]. cbn [tstep e]. now rewrite Ef. }
  destruct (pre e) as [a|] eqn:Ep.
  { right. exists a, 1, (pemplace ad a fm), sm.
    split; [exact Hdr|]. split; [lia|].
    split; [eapply valid_emplace; [exact Hv | exact HU | exact Hdr]|].
    split; [apply (grows_emplace _ _ _ ad f s args); apply w_here|].
    intros n. eapply run_step; [reflexivity|]. cbn [tstep]. unfold e in *. now rewrite Ef, Ep. }
  assert (Hcase : (exists s0 b, s = Some s0 /\ pfind s0 sm = Some b) \/
                  (match s with Some s0 => pfind s0 sm = None | None => True end)).
  { destruct s as [s0|]; [|auto]. destruct (pfind s0 sm) as [b|] eqn:E; [|auto]. left. eauto. }
  destruct Hcase as [(s0 & b & -> & Eb)|Hns].
  { (* the arguments are cached *)
    destruct (va_s _ _ Hv _ _ Eb) as (ad' & f' & l' & rs & HU' & Hrs & ->).
    assert (El : args = l') by (eapply Uvec; [exact HU | exact HU']). subst l'.
    rewrite Hrs in Hdr. destruct (node e (comb rs)) as [a|] eqn:En.
    - right. exists a, 1, (pemplace ad a fm), sm. split; [exact Hdr|]. split; [lia|].
      split; [eapply valid_emplace; [exact Hv | exact HU | exact Hdr]|].
      split; [apply (grows_emplace _ _ _ ad f (Some s0) args); apply w_here|].
      intros n. eapply run_step; [reflexivity|]. cbn [tstep]. unfold e in *. now rewrite Ef, Ep, Eb, En.
    - left. split; [exact Hdr|]. exists 1. split; [lia|].
      intros n. eapply run_throw; [reflexivity|]. cbn [tstep]. unfold e in *. now rewrite Ef, Ep, Eb, En. }
  (* the arguments are visited *)
  assert (Hfirst : forall n, run (S n) (mkT ((e, false) :: rest) out fm sm) =
            run n (mkT (map (fun a => (a, false)) (rev args) ++ (e, true) :: rest) (None :: out) fm sm)).
  { intros n. eapply run_step; [reflexivity|]. cbn [tstep]. unfold e in *. rewrite Ef, Ep, map_rev.
    destruct s as [s0|]; [rewrite Hns; reflexivity | reflexivity]. }
  assert (HDr : Forall does (rev args)) by (apply Forall_rev; exact HD).
  assert (HUr : Forall U (rev args)).
  { apply Forall_rev. apply Forall_forall. intros x Hx. eapply Uarg; eauto. }
  destruct (does_list (rev args) HDr HUr ((e, true) :: rest) (None :: out) fm sm Hv)
    as [(Hn & k & Hk & Hr)|(rs & k & fm1 & sm1 & Hrs & Hk & Hv1 & Hg1 & Hr)].
  - left. split.
    + rewrite Hdr. destruct (oseq (map drec args)) as [rs|] eqn:E; [|reflexivity].
      exfalso. apply oseq_forall2 in E.
      assert (E' : oseq (map drec (rev args)) = Some (rev rs)).
      { apply oseq_forall2. rewrite map_rev. clear - E.
        induction E as [|x y l l' H HF IH]; [constructor|]. cbn [map rev]. apply Forall2_app; auto. }
      congruence.
    + exists (S k). rewrite asize_rev in Hk. split; [lia|]. intros n. cbn [Nat.add]. rewrite Hfirst. apply Hr.
  - rewrite asize_rev in Hk.
    assert (Hrs' : oseq (map drec args) = Some (rev rs)).
    { apply oseq_forall2 in Hrs. apply oseq_forall2. rewrite <- (rev_involutive args), map_rev.
      clear - Hrs. induction Hrs as [|x y l l' H HF IH]; [constructor|]. cbn [map rev]. apply Forall2_app; auto. }
    assert (Hlen : length args = length (rev rs)).
    { apply oseq_length in Hrs'. now rewrite map_length in Hrs'. }
    assert (Hg1' : grows (fun d => exists x, In x args /\ within d x) fm fm1 sm sm1).
    { eapply grows_weaken; [|exact Hg1]. intros d (x & Hx & Hd). exists x. rewrite <- in_rev in Hx. auto. }
    assert (Hf1 : pfind ad fm1 = None).
    { destruct (pfind ad fm1) eqn:E; [|reflexivity]. exfalso.
      destruct (proj1 Hg1' ad) as [H|(f' & s' & l' & x & Hx & Hw)]; [congruence | congruence |].
      eapply no_self_addr; eassumption. }
    assert (Hs1 : match s with Some s0 => pfind s0 sm1 = None | None => True end).
    { destruct s as [s0|]; [|exact I]. destruct (pfind s0 sm1) eqn:E; [|reflexivity]. exfalso.
      destruct (proj2 Hg1' s0) as [H|(f' & s' & l' & x & Hx & Hw)]; [congruence | congruence |].
      eapply no_self_vec; eassumption. }
    rewrite Hrs' in Hdr.
    assert (Hsm : match s with Some s0 => pcontains s0 sm1 | None => false end = false).
    { destruct s as [s0|]; [|reflexivity]. unfold pcontains. now rewrite Hs1. }
    destruct (node e (comb (rev rs))) as [a|] eqn:En.
    + right.
      set (keep := negb lazy || negb (match rest with [] => true | _ => false end)).
      set (fm2 := if keep then pemplace ad a fm1 else fm1).
      set (sm2 := match s with
                  | Some s0 => if keep then pemplace s0 (comb (rev rs)) sm1 else sm1
                  | None => sm1
                  end).
      exists a, (S (k + 1)), fm2, sm2. split; [exact Hdr|]. split; [lia|]. split; [|split].
      * assert (Hv2 : valid fm2 sm1).
        { unfold fm2. destruct keep; [|exact Hv1]. eapply valid_emplace; eauto. }
        unfold sm2. destruct s as [s0|]; [|exact Hv2]. destruct keep; [|exact Hv2].
        eapply valid_semplace; eauto.
      * eapply grows_trans; [eapply grows_weaken; [|exact Hg1']; intros d (x & Hx & Hd); eapply w_arg; eauto|].
        eapply grows_trans with (fm2 := fm2) (sm2 := sm1).
        -- unfold fm2. destruct keep; [|apply grows_refl]. apply (grows_emplace _ _ _ ad f s args). apply w_here.
        -- unfold sm2. destruct s as [s0|]; [|apply grows_refl]. destruct keep; [|apply grows_refl].
           apply (grows_semplace _ _ _ ad f s0 args). apply w_here.
      * intros n. change (S (k + 1) + n) with (S (k + 1 + n)). rewrite Hfirst, <- Nat.add_assoc, Hr.
        eapply run_step; [reflexivity|]. cbn [tstep]. unfold e in *. cbv zeta.
        rewrite (proj2 (pcontains_false ad fm1) Hf1), Hlen, pop_args_app, Hsm, En. reflexivity.
    + left. split; [exact Hdr|]. exists (S (k + 1)). split; [lia|]. intros n.
      change (S (k + 1) + n) with (S (k + 1 + n)). rewrite Hfirst, <- Nat.add_assoc, Hr.
      eapply run_throw; [reflexivity|]. cbn [tstep]. unfold e in *.
      rewrite (proj2 (pcontains_false ad fm1) Hf1), Hlen, pop_args_app, Hsm, En. reflexivity.
Qed.

Lemma does_all e : does e.
Proof.
  induction e as [n|v|i|a f s args IH] using dag_ind'; [apply does_leaf; discriminate..|].
  now apply does_fun.
Qed.

Lemma traverse_ok fuel fm sm e : U e -> valid fm sm -> 2 * dsize e <= fuel ->
  (drec e = None /\ traverse leaf pre comb node lazy fuel (fm, sm) e = MThrow) \/
  (exists a c', drec e = Some a /\ valid (fst c') (snd c') /\
     traverse leaf pre comb node lazy fuel (fm, sm) e = MDone (a, c')).
Proof.
  intros HU Hv Hf. unfold traverse. cbn [fst snd].
  destruct (does_all e HU [] [] fm sm Hv) as [(Hn & k & Hk & Hr)|(a & k & fm' & sm' & Ha & Hk & Hv' & _ & Hr)].
  - left. split; [exact Hn|]. replace fuel with (k + (fuel - k)) by lia. apply Hr.
  - right. exists a, (fm', sm'). split; [exact Ha|]. split; [exact Hv'|].
    replace fuel with (k + (fuel - k)) by lia. rewrite Hr. destruct (fuel - k); reflexivity.
Qed.
Lemma traverse_vec_ok fuel : forall es fm sm, Forall U es -> valid fm sm -> (forall e, In e es -> 2 * dsize e <= fuel) ->
  traverse_vec leaf pre comb node lazy fuel (fm, sm) es =
  match oseq (map drec es) with Some l => MDone l | None => MThrow end.
Proof.
  induction es as [|e es IH]; intros fm sm HU Hv Hf; [reflexivity|].
  inversion HU as [|? ? Ue Ues]; subst.
  cbn [traverse_vec map]. rewrite oseq_cons.
  destruct (traverse_ok fuel fm sm e Ue Hv (Hf e (or_introl eq_refl)))
    as [(Hn & ->)|(a & [fm' sm'] & Ha & Hv' & ->)].
  - now rewrite Hn.
  - rewrite Ha, (IH fm' sm' Ues Hv' ltac:(intros; apply Hf; now right)).
    now destruct (oseq (map drec es)).
Qed.
Lemma valid_empty : valid [] []. Proof. split; discriminate. Qed.
End Trans.

(* --- Visits ---------------------------------------------------------------------------------- *)
Lemma smem_sadd k j s : smem k (sadd j s) = Nat.eqb k j || smem k s.
Proof.
  unfold sadd. destruct (smem j s) eqn:E; [|reflexivity].
  destruct (Nat.eqb_spec k j) as [->|]; [now rewrite E | reflexivity].
Qed.

Definition isleaf (d : dg) : Prop := forall a f s l, d <> DFn a f s l.
Record vvalid (fs ss : pset) (seen : list dg) : Prop := {
  vv_f : forall ad, smem ad fs = true -> exists f s l, U (DFn ad f s l) /\
           forall x, isleaf x -> within x (DFn ad f s l) -> In x seen;
  vv_s : forall s, smem s ss = true -> exists ad f l, U (DFn ad f (Some s) l) /\
           forall x y, isleaf x -> In y l -> within x y -> In x seen
}.
Definition vgrows (W : dg -> Prop) (fs fs' ss ss' : pset) : Prop :=
  (forall ad, smem ad fs' = true -> smem ad fs = true \/ exists f s l, W (DFn ad f s l)) /\
  (forall s, smem s ss' = true -> smem s ss = true \/ exists ad f l, W (DFn ad f (Some s) l)).
Lemma vgrows_refl W fs ss : vgrows W fs fs ss ss. Proof. split; auto. Qed.
Lemma vgrows_trans W fs1 fs2 fs3 ss1 ss2 ss3 :
  vgrows W fs1 fs2 ss1 ss2 -> vgrows W fs2 fs3 ss2 ss3 -> vgrows W fs1 fs3 ss1 ss3.
Proof.
  intros [H1 H2] [H3 H4]. split.
  - intros ad H. destruct (H3 ad H) as [H'|H']; auto.
  - intros s H. destruct (H4 s H) as [H'|H']; auto.
Qed.
Lemma vgrows_weaken (W W' : dg -> Prop) fs1 fs2 ss1 ss2 :
  (forall d, W d -> W' d) -> vgrows W fs1 fs2 ss1 ss2 -> vgrows W' fs1 fs2 ss1 ss2.
Proof.
  intros HW [H1 H2]. split.
  - intros ad H. destruct (H1 ad H) as [H'|(f & s & l & H')]; [auto|]. right. eauto.
  - intros ad H. destruct (H2 ad H) as [H'|(f & s & l & H')]; [auto|]. right. eauto.
Qed.
Lemma vgrows_f (W : dg -> Prop) fs ss ad f s l : W (DFn ad f s l) -> vgrows W fs (sadd ad fs) ss ss.
Proof.
  intros HW. split; [|auto]. intros ad' H. rewrite smem_sadd in H. apply orb_true_iff in H.
  destruct H as [H|H]; [|auto]. apply Nat.eqb_eq in H. subst. right. eauto.
Qed.
Lemma vgrows_s (W : dg -> Prop) fs ss ad f s l : W (DFn ad f (Some s) l) -> vgrows W fs fs ss (sadd s ss).
Proof.
  intros HW. split; [auto|]. intros ad' H. rewrite smem_sadd in H. apply orb_true_iff in H.
  destruct H as [H|H]; [|auto]. apply Nat.eqb_eq in H. subst. right. eauto.
Qed.
Lemma vvalid_more fs ss seen seen' : (forall x, In x seen -> In x seen') -> vvalid fs ss seen -> vvalid fs ss seen'.
Proof.
  intros Hi [H1 H2]. split.
  - intros ad H. destruct (H1 ad H) as (f & s & l & HU & Hx). exists f, s, l. eauto.
  - intros s H. destruct (H2 s H) as (ad & f & l & HU & Hx). exists ad, f, l. split; eauto.
Qed.
Lemma vvalid_f fs ss seen ad f s l : vvalid fs ss seen -> U (DFn ad f s l) ->
  (forall x, isleaf x -> within x (DFn ad f s l) -> In x seen) -> vvalid (sadd ad fs) ss seen.
Proof.
  intros [H1 H2] HU Hx. split; [|exact H2]. intros ad' H. rewrite smem_sadd in H. apply orb_true_iff in H.
  destruct H as [H|H]; [|auto]. apply Nat.eqb_eq in H. subst. exists f, s, l. auto.
Qed.
Lemma vvalid_s fs ss seen ad f s l : vvalid fs ss seen -> U (DFn ad f (Some s) l) ->
  (forall x y, isleaf x -> In y l -> within x y -> In x seen) -> vvalid fs (sadd s ss) seen.
Proof.
  intros [H1 H2] HU Hx. split; [exact H1|]. intros ad' H. rewrite smem_sadd in H. apply orb_true_iff in H.
  destruct H as [H|H]; [|auto]. apply Nat.eqb_eq in H. subst. exists ad, f, l. auto.
Qed.

Lemma vrun_step n (st st' : @vstate N) c r : v_stack st = c :: r -> vstep st = MDone st' -> vrun (S n) st = vrun n st'.
Proof. intros H1 H2. cbn [vrun]. now rewrite H1, H2. Qed.

Definition sees (l : list dg) (seen seen' : list dg) : Prop :=
  (forall x, In x seen' -> In x seen \/ (isleaf x /\ exists y, In y l /\ within x y)) /\
  (forall x, In x seen -> In x seen') /\
  (forall x y, isleaf x -> In y l -> within x y -> In x seen').
Definition vdoes (e : dg) : Prop :=
  U e -> forall rest fs ss seen, vvalid fs ss seen ->
  exists k fs' ss' seen', k <= 2 * dsize e /\ vvalid fs' ss' seen' /\
    vgrows (fun d => within d e) fs fs' ss ss' /\ sees [e] seen seen' /\
    forall n, vrun (k + n) (mkV ((e, false) :: rest) fs ss seen) = vrun n (mkV rest fs' ss' seen').
Lemma vdoes_list : forall l, Forall vdoes l -> Forall U l -> forall rest fs ss seen, vvalid fs ss seen ->
  exists k fs' ss' seen', k <= 2 * asize l /\ vvalid fs' ss' seen' /\
    vgrows (fun d => exists x, In x l /\ within d x) fs fs' ss ss' /\ sees l seen seen' /\
    forall n, vrun (k + n) (mkV (map (fun a => (a, false)) l ++ rest) fs ss seen) = vrun n (mkV rest fs' ss' seen').
Proof.
  induction l as [|x l IH]; intros HD HU rest fs ss seen Hv.
  - exists 0, fs, ss, seen. split; [lia|]. split; [exact Hv|]. split; [apply vgrows_refl|].
    split; [|reflexivity]. split; [auto|]. split; [auto|]. intros ? ? _ [].
  - inversion HD as [|? ? Dx Dl]; subst. inversion HU as [|? ? Ux Ul]; subst.
    destruct (Dx Ux (map (fun a => (a, false)) l ++ rest) fs ss seen Hv) as (k & fs1 & ss1 & seen1 & Hk & Hv1 & Hg1 & Hs1 & Hr1).
    destruct (IH Dl Ul rest fs1 ss1 seen1 Hv1) as (k2 & fs2 & ss2 & seen2 & Hk2 & Hv2 & Hg2 & Hs2 & Hr2).
    exists (k + k2), fs2, ss2, seen2. rewrite asize_cons. split; [lia|]. split; [exact Hv2|]. split; [|split].
    + eapply vgrows_trans.
      * eapply vgrows_weaken; [|exact Hg1]. intros d Hd. exists x. simpl. auto.
      * eapply vgrows_weaken; [|exact Hg2]. intros d (y & Hy & Hd). exists y. simpl. auto.
    + destruct Hs1 as (A1 & A2 & A3), Hs2 as (B1 & B2 & B3). split; [|split].
      * intros z Hz. destruct (B1 z Hz) as [H|(H1 & y & Hy & H2)].
        -- destruct (A1 z H) as [H'|(H1 & y & [<-|[]] & H2)]; [auto|]. right. split; [exact H1|]. exists x. simpl. auto.
        -- right. split; [exact H1|]. exists y. simpl. auto.
      * auto.
      * intros z y Hl [<-|Hy] Hw; [|eauto]. apply B2. eapply A3; eauto. now left.
    + intros n. cbn [map app]. rewrite <- Nat.add_assoc, Hr1. apply Hr2.
Qed.
Lemma vdoes_all e : vdoes e.
Proof.
  induction e as [z|v|i|ad f s args IH] using dag_ind'.
  1-3: intros HU rest fs ss seen Hv;
    (eexists 1, fs, ss, (_ :: seen); split; [simpl; lia|]; split; [eapply vvalid_more; [|exact Hv]; intros; now right|];
     split; [apply vgrows_refl|]; split; [|intros n; now eapply vrun_step; [reflexivity|]];
     split; [|split]; [|intros; now right|];
     [intros x [<-|Hx]; [right; split; [discriminate|]; eexists; split; [now left | apply w_here] | now left]
     |intros x y Hl [<-|[]] Hw; inversion Hw; subst; now left]).
  intros HU rest fs ss seen Hv. set (e := DFn ad f s args) in *.
  assert (Hsz : dsize e = S (asize args)) by reflexivity.
  destruct (smem ad fs) eqn:Ef.
  { destruct (vv_f _ _ _ Hv _ Ef) as (f' & s' & l' & HU' & Hx).
    destruct (Ufun _ _ _ _ _ _ _ HU HU') as (<- & <- & <-).
    exists 1, fs, ss, seen. split; [lia|]. split; [exact Hv|]. split; [apply vgrows_refl|].
    split; [|intros n; eapply vrun_step; [reflexivity|]; cbn [vstep e]; now rewrite Ef].
    split; [auto|]. split; [auto|]. intros x y Hl [<-|[]] Hw. now apply Hx. }
  destruct (match s with Some s0 => smem s0 ss | None => false end) eqn:Es.
  { destruct s as [s0|]; [|discriminate].
    destruct (vv_s _ _ _ Hv _ Es) as (ad' & f' & l' & HU' & Hx).
    pose proof (Uvec _ _ _ _ _ _ _ HU HU') as El. subst l'.
    assert (Hall : forall x, isleaf x -> within x e -> In x seen).
    { intros x Hl Hw. inversion Hw; subst; [exfalso; eapply Hl; reflexivity|]. eapply Hx; eauto. }
    exists 1, (sadd ad fs), ss, seen. split; [lia|]. split; [eapply vvalid_f; eauto|].
    split; [apply (vgrows_f _ _ _ ad f (Some s0) args); apply w_here|].
    split; [|intros n; eapply vrun_step; [reflexivity|]; cbn [vstep e]; now rewrite Ef, Es].
    split; [auto|]. split; [auto|]. intros x y Hl [<-|[]] Hw. now apply Hall. }
  assert (Hfirst : forall n, vrun (S n) (mkV ((e, false) :: rest) fs ss seen) =
            vrun n (mkV (map (fun a => (a, false)) (rev args) ++ (e, true) :: rest) fs ss seen)).
  { intros n. eapply vrun_step; [reflexivity|]. cbn [vstep e]. rewrite Ef, map_rev.
    destruct s as [s0|]; [rewrite Es; reflexivity | reflexivity]. }
  assert (HDr : Forall vdoes (rev args)) by (apply Forall_rev; exact IH).
  assert (HUr : Forall U (rev args)) by (apply Forall_rev, Forall_forall; intros x Hx; eapply Uarg; eauto).
  destruct (vdoes_list (rev args) HDr HUr ((e, true) :: rest) fs ss seen Hv)
    as (k & fs1 & ss1 & seen1 & Hk & Hv1 & Hg1 & (A1 & A2 & A3) & Hr1).
  rewrite asize_rev in Hk.
  assert (Hf1 : smem ad fs1 = false).
  { destruct (smem ad fs1) eqn:E; [|reflexivity]. exfalso.
    destruct (proj1 Hg1 ad E) as [H|(f' & s' & l' & x & Hx & Hw)]; [congruence|].
    rewrite <- in_rev in Hx. eapply no_self_addr; eassumption. }
  assert (Hs1 : match s with Some s0 => smem s0 ss1 = false | None => True end).
  { destruct s as [s0|]; [|exact I]. destruct (smem s0 ss1) eqn:E; [|reflexivity]. exfalso.
    destruct (proj2 Hg1 s0 E) as [H|(f' & s' & l' & x & Hx & Hw)]; [congruence|].
    rewrite <- in_rev in Hx. eapply no_self_vec; eassumption. }
  assert (Hall : forall x, isleaf x -> within x e -> In x seen1).
  { intros x Hl Hw. inversion Hw; subst; [exfalso; eapply Hl; reflexivity|].
    eapply A3; eauto. rewrite <- in_rev. assumption. }
  set (ss2 := match s with Some s0 => sadd s0 ss1 | None => ss1 end).
  exists (S (k + 1)), (sadd ad fs1), ss2, seen1. split; [lia|]. split; [|split; [|split]].
  - assert (Hv2 : vvalid (sadd ad fs1) ss1 seen1) by (eapply vvalid_f; eauto).
    unfold ss2. destruct s as [s0|]; [|exact Hv2]. eapply vvalid_s; [exact Hv2 | exact HU|].
    intros x y Hl Hy Hw. apply Hall; [exact Hl|]. eapply w_arg; eauto.
  - eapply vgrows_trans.
    { eapply vgrows_weaken; [|exact Hg1]. intros d (x & Hx & Hd). rewrite <- in_rev in Hx. eapply w_arg; eauto. }
    eapply vgrows_trans; [apply (vgrows_f _ _ _ ad f s args); apply w_here|].
    unfold ss2. destruct s as [s0|]; [|apply vgrows_refl]. apply (vgrows_s _ _ _ ad f s0 args). apply w_here.
  - split; [|split; [exact A2|]].
    + intros x Hx. destruct (A1 x Hx) as [H|(Hl & y & Hy & Hw)]; [auto|]. right. split; [exact Hl|].
      exists e. split; [now left|]. rewrite <- in_rev in Hy. eapply w_arg; eauto.
    + intros x y Hl [<-|[]] Hw. now apply Hall.
  - intros n. change (S (k + 1) + n) with (S (k + 1 + n)). rewrite Hfirst, <- Nat.add_assoc, Hr1.
    eapply vrun_step; [reflexivity|]. cbn [vstep e]. rewrite Hf1. unfold ss2.
    destruct s as [s0|]; [rewrite Hs1; reflexivity | reflexivity].
Qed.

Lemma vvalid_empty seen : vvalid [] [] seen. Proof. split; discriminate. Qed.
Lemma visit_vec_ok fuel : forall es fs ss seen, Forall U es -> vvalid fs ss seen ->
  (forall e, In e es -> 2 * dsize e <= fuel) ->
  exists l, visit_vec fuel fs ss seen es = MDone l /\
    forall x, In x l <-> In x seen \/ (isleaf x /\ exists e, In e es /\ within x e).
Proof.
  induction es as [|e es IH]; intros fs ss seen HU Hv Hf.
  - exists (rev seen). split; [reflexivity|]. intros x. rewrite <- in_rev. split; [auto|].
    intros [H|(_ & e & [] & _)]. exact H.
  - inversion HU as [|? ? Ue Ues]; subst.
    destruct (vdoes_all e Ue [] fs ss seen Hv) as (k & fs1 & ss1 & seen1 & Hk & Hv1 & _ & (A1 & A2 & A3) & Hr).
    cbn [visit_vec].
    assert (Hle : k <= fuel) by (specialize (Hf e (or_introl eq_refl)); lia).
    specialize (Hr (fuel - k)). replace (k + (fuel - k)) with fuel in Hr by lia. rewrite Hr.
    assert (Hend : vrun (fuel - k) (mkV [] fs1 ss1 seen1) = MDone (mkV [] fs1 ss1 seen1)) by (destruct (fuel - k); reflexivity).
    rewrite Hend. cbn [v_fset v_sset v_seen].
    destruct (IH fs1 ss1 seen1 Ues Hv1 ltac:(intros; apply Hf; now right)) as (l & -> & Hl).
    exists l. split; [reflexivity|]. intros x. rewrite Hl. split.
    + intros [H|(Hx & y & Hy & Hw)].
      * destruct (A1 x H) as [H'|(Hx & y & [<-|[]] & Hw)]; [auto|]. right. split; [exact Hx|]. exists e. simpl. auto.
      * right. split; [exact Hx|]. exists y. simpl. auto.
    + intros [H|(Hx & y & [<-|Hy] & Hw)]; [auto | left | right; eauto].
      eapply A3; eauto. now left.
Qed.

(* --- Tests ------------------------------------------------------------------------------------- *)
Section Test.
Context (p : dg -> bool).
Definition clean (e : dg) : Prop := forall x, within x e -> p x = false.
Record qvalid (fs ss : pset) : Prop := {
  qv_f : forall ad, smem ad fs = true -> exists f s l, U (DFn ad f s l) /\ clean (DFn ad f s l);
  qv_s : forall s, smem s ss = true -> exists ad f l, U (DFn ad f (Some s) l) /\ forall y, In y l -> clean y
}.
Lemma qvalid_f fs ss ad f s l : qvalid fs ss -> U (DFn ad f s l) -> clean (DFn ad f s l) -> qvalid (sadd ad fs) ss.
Proof.
  intros [H1 H2] HU Hx. split; [|exact H2]. intros ad' H. rewrite smem_sadd in H. apply orb_true_iff in H.
  destruct H as [H|H]; [|auto]. apply Nat.eqb_eq in H. subst. exists f, s, l. auto.
Qed.
Lemma qvalid_s fs ss ad f s l : qvalid fs ss -> U (DFn ad f (Some s) l) ->
  (forall y, In y l -> clean y) -> qvalid fs (sadd s ss).
Proof.
  intros [H1 H2] HU Hx. split; [exact H1|]. intros ad' H. rewrite smem_sadd in H. apply orb_true_iff in H.
  destruct H as [H|H]; [|auto]. apply Nat.eqb_eq in H. subst. exists ad, f, l. auto.
Qed.
Lemma qrun_step n (st st' : @vstate N) c r : v_stack st = c :: r -> qstep p st = MDone (inl st') ->
  qrun p (S n) st = qrun p n st'.
Proof. intros H1 H2. cbn [qrun]. now rewrite H1, H2. Qed.
Lemma qrun_hit n (st : @vstate N) c r : v_stack st = c :: r -> qstep p st = MDone (inr tt) ->
  qrun p (S n) st = MDone (inr tt).
Proof. intros H1 H2. cbn [qrun]. now rewrite H1, H2. Qed.

Definition qdoes (e : dg) : Prop :=
  U e -> forall rest fs ss seen, qvalid fs ss ->
  (~ clean e /\ exists k, k <= 2 * dsize e /\ forall n, qrun p (k + n) (mkV ((e, false) :: rest) fs ss seen) = MDone (inr tt)) \/
  (clean e /\ exists k fs' ss', k <= 2 * dsize e /\ qvalid fs' ss' /\
    vgrows (fun d => within d e) fs fs' ss ss' /\
    forall n, qrun p (k + n) (mkV ((e, false) :: rest) fs ss seen) = qrun p n (mkV rest fs' ss' seen)).
Lemma qdoes_list : forall l, Forall qdoes l -> Forall U l -> forall rest fs ss seen, qvalid fs ss ->
  ((exists y, In y l /\ ~ clean y) /\ exists k, k <= 2 * asize l /\
     forall n, qrun p (k + n) (mkV (map (fun a => (a, false)) l ++ rest) fs ss seen) = MDone (inr tt)) \/
  ((forall y, In y l -> clean y) /\ exists k fs' ss', k <= 2 * asize l /\ qvalid fs' ss' /\
    vgrows (fun d => exists x, In x l /\ within d x) fs fs' ss ss' /\
    forall n, qrun p (k + n) (mkV (map (fun a => (a, false)) l ++ rest) fs ss seen) = qrun p n (mkV rest fs' ss' seen)).
Proof.
  induction l as [|x l IH]; intros HD HU rest fs ss seen Hv.
  - right. split; [intros y []|]. exists 0, fs, ss. split; [lia|]. split; [exact Hv|]. split; [apply vgrows_refl|].
    reflexivity.
  - inversion HD as [|? ? Dx Dl]; subst. inversion HU as [|? ? Ux Ul]; subst. rewrite asize_cons. cbn [map app].
    destruct (Dx Ux (map (fun a => (a, false)) l ++ rest) fs ss seen Hv)
      as [(Hc & k & Hk & Hr)|(Hc & k & fs1 & ss1 & Hk & Hv1 & Hg1 & Hr1)].
    + left. split; [exists x; simpl; auto|]. exists k. split; [lia | exact Hr].
    + destruct (IH Dl Ul rest fs1 ss1 seen Hv1) as [((y & Hy & Hcy) & k2 & Hk2 & Hr2)|(Hcl & k2 & fs2 & ss2 & Hk2 & Hv2 & Hg2 & Hr2)].
      * left. split; [exists y; simpl; auto|]. exists (k + k2). split; [lia|].
        intros n. rewrite <- Nat.add_assoc, Hr1. apply Hr2.
      * right. split; [intros y [<-|Hy]; auto|]. exists (k + k2), fs2, ss2. split; [lia|]. split; [exact Hv2|]. split.
        -- eapply vgrows_trans.
           ++ eapply vgrows_weaken; [|exact Hg1]. intros d Hd. exists x. simpl. auto.
           ++ eapply vgrows_weaken; [|exact Hg2]. intros d (y & Hy & Hd). exists y. simpl. auto.
        -- intros n. rewrite <- Nat.add_assoc, Hr1. apply Hr2.
Qed.
Lemma qdoes_leaf e : isleaf e -> qdoes e.
Proof.
  intros Hl HU rest fs ss seen Hv.
  assert (Hsz : dsize e = 1) by (destruct e; try reflexivity; exfalso; eapply Hl; reflexivity).
  destruct (p e) eqn:Ep.
  - left. split; [intros Hc; specialize (Hc e (w_here e)); congruence|]. exists 1. split; [lia|].
    intros n. eapply qrun_hit; [reflexivity|].
    destruct e; cbn [qstep]; try (rewrite Ep; reflexivity). exfalso. eapply Hl. reflexivity.
  - right. split; [intros x Hw; inversion Hw; subst; [exact Ep | exfalso; eapply Hl; reflexivity]|].
    exists 1, fs, ss. split; [lia|]. split; [exact Hv|]. split; [apply vgrows_refl|].
    intros n. eapply qrun_step; [reflexivity|].
    destruct e; cbn [qstep]; try (rewrite Ep; reflexivity). exfalso. eapply Hl. reflexivity.
Qed.
Lemma qdoes_all e : qdoes e.
Proof.
  induction e as [z|v|i|ad f s args IH] using dag_ind'; [apply qdoes_leaf; intros ? ? ? ?; discriminate..|].
  intros HU rest fs ss seen Hv. set (e := DFn ad f s args) in *.
  assert (Hsz : dsize e = S (asize args)) by reflexivity.
  destruct (smem ad fs) eqn:Ef.
  { right. destruct (qv_f _ _ Hv _ Ef) as (f' & s' & l' & HU' & Hc).
    destruct (Ufun _ _ _ _ _ _ _ HU HU') as (<- & <- & <-). split; [exact Hc|].
    exists 1, fs, ss. split; [lia|]. split; [exact Hv|]. split; [apply vgrows_refl|].
    intros n. eapply qrun_step; [reflexivity|]. cbn [qstep e]. now rewrite Ef. }
  destruct (p e) eqn:Ep.
  { left. split; [intros Hc; specialize (Hc e (w_here e)); congruence|]. exists 1. split; [lia|].
    intros n. eapply qrun_hit; [reflexivity|]. cbn [qstep]. unfold e in *. cbn [negb andb]. now rewrite Ef, Ep. }
  destruct (match s with Some s0 => smem s0 ss | None => false end) eqn:Es.
  { right. destruct s as [s0|]; [|discriminate].
    destruct (qv_s _ _ Hv _ Es) as (ad' & f' & l' & HU' & Hc).
    pose proof (Uvec _ _ _ _ _ _ _ HU HU') as El. subst l'.
    assert (Hce : clean e) by (intros x Hw; inversion Hw; subst; [exact Ep | eapply Hc; eauto]).
    split; [exact Hce|]. exists 1, (sadd ad fs), ss. split; [lia|]. split; [eapply qvalid_f; eauto|].
    split; [apply (vgrows_f _ _ _ ad f (Some s0) args); apply w_here|].
    intros n. eapply qrun_step; [reflexivity|]. cbn [qstep]. unfold e in *. cbn [negb andb]. now rewrite Ef, Ep, Es. }
  assert (Hfirst : forall n, qrun p (S n) (mkV ((e, false) :: rest) fs ss seen) =
            qrun p n (mkV (map (fun a => (a, false)) (rev args) ++ (e, true) :: rest) fs ss seen)).
  { intros n. eapply qrun_step; [reflexivity|]. cbn [qstep]. unfold e in *. cbn [negb andb]. rewrite Ef, Ep, map_rev.
    destruct s as [s0|]; [rewrite Es; reflexivity | reflexivity]. }
  assert (HDr : Forall qdoes (rev args)) by (apply Forall_rev; exact IH).
  assert (HUr : Forall U (rev args)) by (apply Forall_rev, Forall_forall; intros x Hx; eapply Uarg; eauto).
  destruct (qdoes_list (rev args) HDr HUr ((e, true) :: rest) fs ss seen Hv)
    as [((y & Hy & Hcy) & k & Hk & Hr)|(Hcl & k & fs1 & ss1 & Hk & Hv1 & Hg1 & Hr1)]; rewrite asize_rev in Hk.
  - left. split.
    + intros Hc. apply Hcy. intros x Hw. apply Hc. rewrite <- in_rev in Hy. eapply w_arg; eauto.
    + exists (S k). split; [lia|]. intros n. cbn [Nat.add]. rewrite Hfirst. apply Hr.
  - right.
    assert (Hce : clean e).
    { intros x Hw; inversion Hw; subst; [exact Ep|]. eapply Hcl; [|eassumption]. rewrite <- in_rev. assumption. }
    split; [exact Hce|].
    assert (Hf1 : smem ad fs1 = false).
    { destruct (smem ad fs1) eqn:E; [|reflexivity]. exfalso.
      destruct (proj1 Hg1 ad E) as [H|(f' & s' & l' & x & Hx & Hw)]; [congruence|].
      rewrite <- in_rev in Hx. eapply no_self_addr; eassumption. }
    assert (Hs1 : match s with Some s0 => smem s0 ss1 = false | None => True end).
    { destruct s as [s0|]; [|exact I]. destruct (smem s0 ss1) eqn:E; [|reflexivity]. exfalso.
      destruct (proj2 Hg1 s0 E) as [H|(f' & s' & l' & x & Hx & Hw)]; [congruence|].
      rewrite <- in_rev in Hx. eapply no_self_vec; eassumption. }
    set (ss2 := match s with Some s0 => sadd s0 ss1 | None => ss1 end).
    exists (S (k + 1)), (sadd ad fs1), ss2. split; [lia|]. split; [|split].
    + assert (Hv2 : qvalid (sadd ad fs1) ss1) by (eapply qvalid_f; eauto).
      unfold ss2. destruct s as [s0|]; [|exact Hv2]. eapply qvalid_s; [exact Hv2 | exact HU|].
      intros y Hy. apply Hcl. rewrite <- in_rev. exact Hy.
    + eapply vgrows_trans.
      { eapply vgrows_weaken; [|exact Hg1]. intros d (x & Hx & Hd). rewrite <- in_rev in Hx. eapply w_arg; eauto. }
      eapply vgrows_trans; [apply (vgrows_f _ _ _ ad f s args); apply w_here|].
      unfold ss2. destruct s as [s0|]; [|apply vgrows_refl]. apply (vgrows_s _ _ _ ad f s0 args). apply w_here.
    + intros n. change (S (k + 1) + n) with (S (k + 1 + n)). rewrite Hfirst, <- Nat.add_assoc, Hr1.
      eapply qrun_step; [reflexivity|]. cbn [qstep]. unfold e in *. cbn [negb andb]. rewrite Hf1. unfold ss2.
      destruct s as [s0|]; [rewrite Hs1; reflexivity | reflexivity].
Qed.
Lemma qvalid_empty : qvalid [] []. Proof. split; discriminate. Qed.
Lemma test_vec_ok fuel : forall es fs ss, Forall U es -> qvalid fs ss ->
  (forall e, In e es -> 2 * dsize e <= fuel) ->
  exists b, test_vec p fuel fs ss es = MDone b /\
    (b = false <-> forall e, In e es -> clean e).
Proof.
  induction es as [|e es IH]; intros fs ss HU Hv Hf.
  - exists false. split; [reflexivity|]. split; [intros _ e []|reflexivity].
  - inversion HU as [|? ? Ue Ues]; subst. cbn [test_vec].
    destruct (qdoes_all e Ue [] fs ss [] Hv) as [(Hc & k & Hk & Hr)|(Hc & k & fs1 & ss1 & Hk & Hv1 & _ & Hr)];
      assert (Hle : k <= fuel) by (specialize (Hf e (or_introl eq_refl)); lia);
      specialize (Hr (fuel - k)); replace (k + (fuel - k)) with fuel in Hr by lia; rewrite Hr.
    + exists true. split; [reflexivity|]. split; [discriminate|]. intros H. exfalso. apply Hc. apply H. now left.
    + assert (Hend : qrun p (fuel - k) (mkV [] fs1 ss1 []) = MDone (inl (mkV [] fs1 ss1 []))) by (destruct (fuel - k); reflexivity).
      rewrite Hend. cbn [v_fset v_sset].
      destruct (IH fs1 ss1 Ues Hv1 ltac:(intros; apply Hf; now right)) as (b & -> & Hb).
      exists b. split; [reflexivity|]. rewrite Hb. split.
      * intros H y [<-|Hy]; auto.
      * intros H y Hy. apply H. now right.
Qed.
End Test.

(* --- Counting ------------------------------------------------------------------------------------ *)
Section Counting.
Context (maxv : nat).
Record cvalid (fm sm : pmap nat) : Prop := {
  cv_f : forall ad k, pfind ad fm = Some k -> exists f s l, U (DFn ad f s l) /\ dsize (DFn ad f s l) = k;
  cv_s : forall s k, pfind s sm = Some k -> exists ad f l, U (DFn ad f (Some s) l) /\ asize l = k /\
           forall ad' f' s' l', In (DFn ad' f' s' l') l -> pfind ad' fm <> None
}.
Definition cmono (fm fm' : pmap nat) : Prop := forall ad, pfind ad fm <> None -> pfind ad fm' <> None.
Definition known (fm : pmap nat) (e : dg) : Prop :=
  match e with DFn ad _ _ _ => pfind ad fm <> None | _ => True end.
Local Notation cgrows := (@grows nat nat).

Lemma crun_step n (st st' : @cstate N) c r : c_stack st = c :: r -> cstep maxv st = MDone st' ->
  crun maxv (S n) st = crun maxv n st'.
Proof. intros H1 H2. cbn [crun]. now rewrite H1, H2. Qed.
Lemma crun_throw n (st : @cstate N) c r : c_stack st = c :: r -> cstep maxv st = MThrow ->
  crun maxv (S n) st = MThrow.
Proof. intros H1 H2. cbn [crun]. now rewrite H1, H2. Qed.

Lemma safe_add_some a b : a + b <= maxv -> safe_add maxv a b = Some (a + b).
Proof. intros H. unfold safe_add. now rewrite (proj2 (Nat.leb_le _ _) H). Qed.
Lemma safe_add_none a b : maxv < a + b -> safe_add maxv a b = None.
Proof. intros H. unfold safe_add. now rewrite (proj2 (Nat.leb_gt _ _) H). Qed.

Lemma count_args_ok fm sm : cvalid fm sm -> forall args, Forall U args -> Forall (known fm) args -> forall n,
  n <= maxv ->
  count_args maxv fm args n = if Nat.leb (n + asize args) maxv then MDone (n + asize args) else MThrow.
Proof.
  intros Hv. induction args as [|x l IH]; intros HU HK n Hn.
  - cbn [count_args asize map fold_right]. rewrite Nat.add_0_r, (proj2 (Nat.leb_le _ _) Hn). reflexivity.
  - inversion HU as [|? ? Ux Ul]; subst. inversion HK as [|? ? Kx Kl]; subst.
    assert (Hstep : count_args maxv fm (x :: l) n =
              match safe_add maxv n (dsize x) with Some n' => count_args maxv fm l n' | None => MThrow end).
    { destruct x as [z|v|i|ad f s args]; try reflexivity. cbn [count_args].
      cbn [known] in Kx. destruct (pfind ad fm) as [k|] eqn:E; [|congruence].
      destruct (cv_f _ _ Hv _ _ E) as (f' & s' & l' & HU' & <-).
      destruct (Ufun _ _ _ _ _ _ _ Ux HU') as (<- & <- & <-). reflexivity. }
    rewrite Hstep, asize_cons. destruct (Nat.leb_spec (n + dsize x) maxv) as [H|H].
    + rewrite safe_add_some by lia. rewrite IH by (auto; lia). rewrite Nat.add_assoc. reflexivity.
    + rewrite safe_add_none by lia. rewrite (proj2 (Nat.leb_gt (n + (dsize x + asize l)) maxv)) by lia. reflexivity.
Qed.

Definition cdoes (e : dg) : Prop :=
  U e -> forall rest fm sm ret, ret <= maxv -> cvalid fm sm ->
  (maxv < ret + dsize e /\ exists k, k <= 2 * dsize e /\
     forall n, crun maxv (k + n) (mkC ((e, false) :: rest) fm sm ret) = MThrow) \/
  (ret + dsize e <= maxv /\ exists k fm' sm', k <= 2 * dsize e /\ cvalid fm' sm' /\ cmono fm fm' /\ known fm' e /\
     cgrows (fun d => within d e) fm fm' sm sm' /\
     forall n, crun maxv (k + n) (mkC ((e, false) :: rest) fm sm ret) = crun maxv n (mkC rest fm' sm' (ret + dsize e))).
Lemma cmono_known fm fm' e : cmono fm fm' -> known fm e -> known fm' e.
Proof. destruct e; simpl; auto. Qed.
Lemma cdoes_list : forall l, Forall cdoes l -> Forall U l -> forall rest fm sm ret, ret <= maxv -> cvalid fm sm ->
  (maxv < ret + asize l /\ exists k, k <= 2 * asize l /\
     forall n, crun maxv (k + n) (mkC (map (fun a => (a, false)) l ++ rest) fm sm ret) = MThrow) \/
  (ret + asize l <= maxv /\ exists k fm' sm', k <= 2 * asize l /\ cvalid fm' sm' /\ cmono fm fm' /\ Forall (known fm') l /\
     cgrows (fun d => exists x, In x l /\ within d x) fm fm' sm sm' /\
     forall n, crun maxv (k + n) (mkC (map (fun a => (a, false)) l ++ rest) fm sm ret) = crun maxv n (mkC rest fm' sm' (ret + asize l))).
Proof.
  induction l as [|x l IH]; intros HD HU rest fm sm ret Hret Hv.
  - right. unfold asize. simpl. split; [lia|]. exists 0, fm, sm. split; [lia|]. split; [exact Hv|].
    split; [unfold cmono; auto|]. split; [constructor|]. split; [apply grows_refl|]. intros n. now rewrite Nat.add_0_r.
  - inversion HD as [|? ? Dx Dl]; subst. inversion HU as [|? ? Ux Ul]; subst. rewrite asize_cons. cbn [map app].
    destruct (Dx Ux (map (fun a => (a, false)) l ++ rest) fm sm ret Hret Hv)
      as [(Hc & k & Hk & Hr)|(Hc & k & fm1 & sm1 & Hk & Hv1 & Hm1 & Hn1 & Hg1 & Hr1)].
    + left. split; [lia|]. exists k. split; [lia | exact Hr].
    + destruct (IH Dl Ul rest fm1 sm1 (ret + dsize x) Hc Hv1)
        as [(Hc2 & k2 & Hk2 & Hr2)|(Hc2 & k2 & fm2 & sm2 & Hk2 & Hv2 & Hm2 & Hn2 & Hg2 & Hr2)].
      * left. split; [lia|]. exists (k + k2). split; [lia|]. intros n. rewrite <- Nat.add_assoc, Hr1. apply Hr2.
      * right. split; [lia|]. exists (k + k2), fm2, sm2. split; [lia|]. split; [exact Hv2|].
        split; [unfold cmono in *; auto|]. split; [constructor; [eapply cmono_known; eauto | exact Hn2]|]. split.
        -- eapply grows_trans.
           ++ eapply grows_weaken; [|exact Hg1]. intros d Hd. exists x. simpl. auto.
           ++ eapply grows_weaken; [|exact Hg2]. intros d (y & Hy & Hd). exists y. simpl. auto.
        -- intros n. rewrite <- Nat.add_assoc, Hr1, Hr2, Nat.add_assoc. reflexivity.
Qed.
Lemma cmono_emplace k a fm : cmono fm (pemplace k a fm).
Proof. intros ad H. rewrite pfind_emplace. destruct (pfind ad fm); congruence. Qed.
Lemma cvalid_emplace fm sm ad f s l : cvalid fm sm -> U (DFn ad f s l) ->
  cvalid (pemplace ad (dsize (DFn ad f s l)) fm) sm.
Proof.
  intros [H1 H2] HU. split.
  - intros ad' k Hf. rewrite pfind_emplace in Hf. destruct (pfind ad' fm) as [b|] eqn:E.
    + injection Hf as ->. auto.
    + destruct (Nat.eqb_spec ad' ad) as [->|]; [|discriminate]. injection Hf as <-. eauto.
  - intros s' k Hf. destruct (H2 s' k Hf) as (ad' & f' & l' & HU' & Hk & Hall). exists ad', f', l'.
    split; [exact HU'|]. split; [exact Hk|]. intros. apply cmono_emplace. eauto.
Qed.
Lemma cvalid_semplace fm sm ad f s l : cvalid fm sm -> U (DFn ad f (Some s) l) -> Forall (known fm) l ->
  cvalid fm (pemplace s (asize l) sm).
Proof.
  intros [H1 H2] HU HK. split; [exact H1|].
  intros s' k Hf. rewrite pfind_emplace in Hf. destruct (pfind s' sm) as [b|] eqn:E.
  - injection Hf as ->. auto.
  - destruct (Nat.eqb_spec s' s) as [->|]; [|discriminate]. injection Hf as <-. exists ad, f, l.
    split; [exact HU|]. split; [reflexivity|]. intros ad' f' s'' l' Hin. rewrite Forall_forall in HK.
    exact (HK _ Hin).
Qed.
Lemma cdoes_leaf e : isleaf e -> cdoes e.
Proof.
  intros Hl HU rest fm sm ret Hret Hv.
  assert (Hsz : dsize e = 1) by (destruct e; try reflexivity; exfalso; eapply Hl; reflexivity).
  rewrite Hsz. destruct (Nat.leb_spec (ret + 1) maxv) as [H|H].
  - right. split; [exact H|]. exists 1, fm, sm. split; [lia|]. split; [exact Hv|]. split; [unfold cmono; auto|].
    split; [destruct e; simpl; auto; exfalso; eapply Hl; reflexivity|]. split; [apply grows_refl|].
    intros n. eapply crun_step; [reflexivity|].
    destruct e; cbn [cstep]; try (rewrite safe_add_some by lia; reflexivity). exfalso. eapply Hl. reflexivity.
  - left. split; [exact H|]. exists 1. split; [lia|]. intros n. eapply crun_throw; [reflexivity|].
    destruct e; cbn [cstep]; try (rewrite safe_add_none by lia; reflexivity). exfalso. eapply Hl. reflexivity.
Qed.
Lemma cdoes_all e : cdoes e.
Proof.
  induction e as [z|v|i|ad f s args IH] using dag_ind'; [apply cdoes_leaf; intros ? ? ? ?; discriminate..|].
  intros HU rest fm sm ret Hret Hv. set (e := DFn ad f s args) in *.
  assert (Hsz : dsize e = S (asize args)) by reflexivity.
  destruct (pfind ad fm) as [k0|] eqn:Ef.
  { destruct (cv_f _ _ Hv _ _ Ef) as (f' & s' & l' & HU' & Hk0).
    destruct (Ufun _ _ _ _ _ _ _ HU HU') as (<- & <- & <-). fold e in Hk0. subst k0.
    destruct (Nat.leb_spec (ret + dsize e) maxv) as [H|H].
    - right. split; [exact H|]. exists 1, fm, sm. split; [lia|]. split; [exact Hv|]. split; [unfold cmono; auto|].
      split; [simpl; congruence|]. split; [apply grows_refl|].
      intros n. eapply crun_step; [reflexivity|]. cbn [cstep]. unfold e in *. rewrite Ef, safe_add_some by lia. reflexivity.
    - left. split; [exact H|]. exists 1. split; [lia|].
      intros n. eapply crun_throw; [reflexivity|]. cbn [cstep]. unfold e in *. rewrite Ef, safe_add_none by lia. reflexivity. }
  assert (Hcase : (exists s0 k0, s = Some s0 /\ pfind s0 sm = Some k0) \/
                  (match s with Some s0 => pfind s0 sm = None | None => True end)).
  { destruct s as [s0|]; [|auto]. destruct (pfind s0 sm) as [b|] eqn:E; [|auto]. left. eauto. }
  destruct Hcase as [(s0 & k0 & -> & Es)|Hns].
  { destruct (cv_s _ _ Hv _ _ Es) as (ad' & f' & l' & HU' & Hk0 & Hall).
    pose proof (Uvec _ _ _ _ _ _ _ HU HU') as El. subst l' k0.
    destruct (Nat.leb_spec (ret + dsize e) maxv) as [H|H].
    - right. split; [exact H|]. exists 1, (pemplace ad (dsize e) fm), sm. split; [lia|].
      split; [now apply cvalid_emplace|]. split; [apply cmono_emplace|].
      split; [simpl; rewrite pfind_emplace, Ef, Nat.eqb_refl; discriminate|].
      split; [apply (grows_emplace _ _ _ ad f (Some s0) args); apply w_here|].
      intros n. eapply crun_step; [reflexivity|]. cbn [cstep]. unfold e in *. rewrite Ef, Es.
      rewrite safe_add_some by lia. change (1 + asize args) with (S (asize args)). rewrite <- Hsz.
      rewrite safe_add_some by lia. reflexivity.
    - left. split; [exact H|]. exists 1. split; [lia|].
      intros n. eapply crun_throw; [reflexivity|]. cbn [cstep]. unfold e in *. rewrite Ef, Es.
      destruct (Nat.leb_spec (1 + asize args) maxv) as [H'|H'].
      + rewrite safe_add_some by lia. change (1 + asize args) with (S (asize args)). rewrite <- Hsz.
        rewrite safe_add_none by lia. reflexivity.
      + rewrite safe_add_none by lia. reflexivity. }
  assert (Hfirst : forall n, crun maxv (S n) (mkC ((e, false) :: rest) fm sm ret) =
            crun maxv n (mkC (map (fun a => (a, false)) (rev args) ++ (e, true) :: rest) fm sm ret)).
  { intros n. eapply crun_step; [reflexivity|]. cbn [cstep]. unfold e in *. rewrite Ef, map_rev.
    destruct s as [s0|]; [rewrite Hns; reflexivity | reflexivity]. }
  assert (HDr : Forall cdoes (rev args)) by (apply Forall_rev; exact IH).
  assert (HUa : Forall U args) by (apply Forall_forall; intros x Hx; eapply Uarg; eauto).
  assert (HUr : Forall U (rev args)) by (now apply Forall_rev).
  destruct (cdoes_list (rev args) HDr HUr ((e, true) :: rest) fm sm ret Hret Hv)
    as [(Hc & k & Hk & Hr)|(Hc & k & fm1 & sm1 & Hk & Hv1 & Hm1 & Hn1 & Hg1 & Hr1)]; rewrite asize_rev in Hk, Hc.
  { left. split; [lia|]. exists (S k). split; [lia|]. intros n. cbn [Nat.add]. rewrite Hfirst. apply Hr. }
  rewrite asize_rev in Hr1.
  assert (HKa : Forall (known fm1) args).
  { apply Forall_forall. intros x Hx. rewrite Forall_forall in Hn1. apply Hn1. now rewrite <- in_rev. }
  assert (Hf1 : pfind ad fm1 = None).
  { destruct (pfind ad fm1) eqn:E; [|reflexivity]. exfalso.
    destruct (proj1 Hg1 ad) as [H|(f' & s' & l' & x & Hx & Hw)]; [congruence | congruence |].
    rewrite <- in_rev in Hx. eapply no_self_addr; eassumption. }
  assert (Hs1 : match s with Some s0 => pfind s0 sm1 = None | None => True end).
  { destruct s as [s0|]; [|exact I]. destruct (pfind s0 sm1) eqn:E; [|reflexivity]. exfalso.
    destruct (proj2 Hg1 s0) as [H|(f' & s' & l' & x & Hx & Hw)]; [congruence | congruence |].
    rewrite <- in_rev in Hx. eapply no_self_vec; eassumption. }
  assert (Hsm : match s with Some s0 => pcontains s0 sm1 | None => false end = false).
  { destruct s as [s0|]; [|reflexivity]. unfold pcontains. now rewrite Hs1. }
  destruct (Nat.leb_spec (ret + dsize e) maxv) as [H|H].
  - right. split; [exact H|].
    set (sm2 := match s with Some s0 => pemplace s0 (asize args) sm1 | None => sm1 end).
    exists (S (k + 1)), (pemplace ad (dsize e) fm1), sm2. split; [lia|]. split; [|split; [|split; [|split]]].
    + assert (Hv2 : cvalid (pemplace ad (dsize e) fm1) sm1) by now apply cvalid_emplace.
      unfold sm2. destruct s as [s0|]; [|exact Hv2]. eapply cvalid_semplace; [exact Hv2 | exact HU|].
      apply Forall_forall. intros x Hx. rewrite Forall_forall in HKa. eapply cmono_known; [apply cmono_emplace|]. auto.
    + intros ad' Hx. apply cmono_emplace. now apply Hm1.
    + simpl. rewrite pfind_emplace, Hf1, Nat.eqb_refl. discriminate.
    + eapply grows_trans.
      { eapply grows_weaken; [|exact Hg1]. intros d (x & Hx & Hd). rewrite <- in_rev in Hx. eapply w_arg; eauto. }
      eapply grows_trans; [apply (grows_emplace _ _ _ ad f s args); apply w_here|].
      unfold sm2. destruct s as [s0|]; [|apply grows_refl]. apply (grows_semplace _ _ _ ad f s0 args). apply w_here.
    + intros n. change (S (k + 1) + n) with (S (k + 1 + n)). rewrite Hfirst, <- Nat.add_assoc, Hr1.
      eapply crun_step; [reflexivity|]. cbn [cstep]. unfold e in *.
      rewrite (proj2 (pcontains_false ad fm1) Hf1).
      rewrite (count_args_ok fm1 sm1 Hv1 args HUa HKa 1) by lia.
      rewrite (proj2 (Nat.leb_le (1 + asize args) maxv)) by lia.
      rewrite Hsm, safe_add_some by lia. unfold sm2. rewrite Hsz.
      replace (1 + asize args - 1) with (asize args) by lia.
      replace (ret + asize args + 1) with (ret + S (asize args)) by lia. reflexivity.
  - left. split; [exact H|]. exists (S (k + 1)). split; [lia|].
    intros n. change (S (k + 1) + n) with (S (k + 1 + n)). rewrite Hfirst, <- Nat.add_assoc, Hr1.
    eapply crun_throw; [reflexivity|]. cbn [cstep]. unfold e in *.
    rewrite (proj2 (pcontains_false ad fm1) Hf1).
    destruct (Nat.eq_dec maxv 0) as [Z|Z].
    { destruct args as [|x l]; [|exfalso; rewrite asize_cons in *; destruct x; simpl in *; lia].
      cbn [count_args]. rewrite Hsm. unfold asize in *. cbn [map fold_right] in *. rewrite safe_add_none by lia. reflexivity. }
    rewrite (count_args_ok fm1 sm1 Hv1 args HUa HKa 1) by lia.
    destruct (Nat.leb (1 + asize args) maxv); [|reflexivity].
    rewrite Hsm, safe_add_none by lia. reflexivity.
Qed.
Lemma get_n_nodes_ok fuel e : U e -> 2 * dsize e <= fuel ->
  get_n_nodes maxv fuel e = MDone (if Nat.leb (dsize e) maxv then dsize e else 0).
Proof.
  intros HU Hf. unfold get_n_nodes.
  assert (Hv : cvalid [] []) by (split; discriminate).
  destruct (cdoes_all e HU [] [] [] 0 (Nat.le_0_l _) Hv) as [(Hc & k & Hk & Hr)|(Hc & k & fm & sm & Hk & _ & _ & _ & _ & Hr)];
    replace fuel with (k + (fuel - k)) by lia; rewrite Hr.
  - now rewrite (proj2 (Nat.leb_gt (dsize e) maxv) Hc).
  - rewrite (proj2 (Nat.leb_le (dsize e) maxv) Hc). destruct (fuel - k); reflexivity.
Qed.
End Counting.
End Universe.
