(* Segments of a decomposition. *)
From Coq Require Import String Bool ZArith Arith List Lia.
From Verif Require Import M_Expr M_Dag M_Dec S_Expr S_Dec P_Dec P_Cse.
Import ListNotations.
Local Open Scope nat_scope.
Set Bullet Behavior "Strict Subproofs".

Section Seg.
Context (o : nops).
Local Notation ex := (expr (num o)).
Local Notation elt := (expr (num o) * list nat)%type.
Definition is_fun (e : ex) : Prop := match e with EFun _ _ => True | _ => False end.

Lemma args_indices_ok k (e : ex) : elt_ok k e -> is_fun e ->
  exists l, args_indices o e = Some l /\ (forall b, Forall (fun j => j < b) l -> elt_ok b e) /\ Forall (fun j => j < k) l.
Proof.
  intros He Hf. destruct e as [x|s|i|f args]; cbn in Hf; try contradiction. cbn in He. cbn [args_indices].
  set (g := fun a : ex => match a with
              | EVar s => match uname_to_index s with Some i => Some [i] | None => None end
              | ENum _ | EPar _ => Some [] | EFun _ _ => None end).
  set (h := fun a : ex => match a with EVar s => match uname_to_index s with Some i => [i] | None => [] end | _ => [] end).
  assert (E : oseq (map g args) = Some (map h args)).
  { apply oseq_map_some. intros a Ha. rewrite Forall_forall in He. specialize (He a Ha).
    destruct a as [x|s|i|f' l]; cbn in *; try reflexivity; [|contradiction]. destruct He as (j & _ & ->). now rewrite uname_index. }
  rewrite E. exists (concat (map h args)). split; [reflexivity|].
  assert (Hin : forall j, In j (concat (map h args)) <-> In (EVar (uname j)) args).
  { intros j. rewrite in_concat. split.
    - intros (l & Hl & Hj). apply in_map_iff in Hl. destruct Hl as (a & <- & Ha). rewrite Forall_forall in He. specialize (He a Ha).
      destruct a as [x|s|i|f' l]; cbn in *; try contradiction. destruct He as (j' & _ & ->). rewrite uname_index in Hj.
      destruct Hj as [<-|[]]. exact Ha.
    - intros Ha. exists [j]. split; [|now left]. apply in_map_iff. exists (EVar (uname j)). split; [|exact Ha]. unfold h. now rewrite uname_index. }
  split.
  - intros b Hb. cbn. rewrite Forall_forall in *. intros a Ha. specialize (He a Ha).
    destruct a as [x|s|i|f' l]; cbn in *; auto. destruct He as (j & _ & ->). exists j. split; [|reflexivity].
    apply Hb. now apply Hin.
  - rewrite Forall_forall in *. intros j Hj. apply Hin in Hj. destruct (He _ Hj) as (j' & Hlt & E'). apply uname_inj in E'. now subst.
Qed.

Lemma independent_app b (s1 s2 : list (list elt)) : independent b (s1 ++ s2) <-> independent b s1 /\ independent (b + length (concat s1)) s2.
Proof.
  revert b. induction s1 as [|s s1 IH]; intros b; cbn.
  - rewrite Nat.add_0_r. tauto.
  - rewrite IH, app_length, Nat.add_assoc. tauto.
Qed.
Definition oseg (cur : option (list elt)) : list (list elt) := match cur with Some c => [c] | None => [] end.

Lemma segment_go_ok : forall mid i lim done cur,
  (forall k e, nth_error (map fst mid) k = Some e -> elt_ok (i + k) e /\ is_fun e) ->
  (forall c, cur = Some c -> c <> []) -> Forall (fun s => s <> []) done -> (cur = None -> done = [] /\ i = lim) ->
  (forall b0, i = b0 + length (concat (done ++ oseg cur)) -> lim = b0 + length (concat done) ->
     independent b0 (done ++ oseg cur) ->
   exists segs, segment_go o i lim mid done cur = Some segs /\ concat segs = concat (done ++ oseg cur) ++ map (fun p => p) mid /\
     Forall (fun s => s <> []) segs /\ independent b0 segs).
Proof.
  induction mid as [|p mid IH]; intros i lim done cur HB Hc Hd Hn b0 Hi Hlim Hind.
  - cbn. exists (done ++ oseg cur). split; [destruct cur; reflexivity|]. rewrite app_nil_r. split; [reflexivity|].
    split; [|exact Hind]. apply Forall_app. split; [exact Hd|]. destruct cur as [c|]; cbn; auto.
  - cbn [segment_go].
    destruct (HB 0 (fst p) eq_refl) as [Hok Hf]. rewrite Nat.add_0_r in Hok.
    destruct (args_indices_ok i (fst p) Hok Hf) as (idx & -> & Hb & Hlt).
    assert (HB' : forall k e, nth_error (map fst mid) k = Some e -> elt_ok (S i + k) e /\ is_fun e).
    { intros k e Hk. specialize (HB (S k) e Hk). now rewrite <- plus_n_Sm in HB. }
    destruct (existsb (fun j => lim <=? j) idx) eqn:Ex.
    + (* a new segment *)
      assert (Hcur : exists c, cur = Some c).
      { destruct cur as [c|]; [eauto|exfalso]. destruct (Hn eq_refl) as [_ ->]. apply existsb_exists in Ex.
        destruct Ex as (j & Hj & Hle). apply Nat.leb_le in Hle. rewrite Forall_forall in Hlt. specialize (Hlt j Hj). lia. }
      destruct Hcur as (c & ->). cbn [oseg] in *.
      destruct (IH (S i) i (done ++ [c]) (Some [p]) HB') with (b0 := b0) as (segs & E & Ec & Hne & Hi').
      * intros c' [= <-]. discriminate.
      * apply Forall_app. split; [exact Hd|]. constructor; [now apply Hc | constructor].
      * discriminate.
      * cbn [oseg]. rewrite concat_app, app_length. cbn. lia.
      * exact Hi.
      * cbn [oseg]. apply independent_app. split; [exact Hind|]. cbn. rewrite <- Hi. auto.
      * exists segs. split; [exact E|]. split; [|auto]. rewrite Ec. cbn [oseg]. rewrite !concat_app. cbn. now rewrite <- !app_assoc.
    + (* the same segment *)
      assert (Hidx : Forall (fun j => j < lim) idx).
      { rewrite Forall_forall. intros j Hj. destruct (Nat.lt_ge_cases j lim) as [H|H]; [exact H|exfalso].
        assert (existsb (fun j => lim <=? j) idx = true); [|congruence]. apply existsb_exists. exists j.
        split; [exact Hj | now apply Nat.leb_le]. }
      set (c := match cur with Some c => c | None => [] end).
      assert (Ec : concat (done ++ oseg cur) = concat done ++ c) by (unfold c; destruct cur; cbn; rewrite concat_app; cbn; now rewrite ?app_nil_r).
      assert (Hic : Forall (fun q => elt_ok (b0 + length (concat done)) (fst q)) c).
      { unfold c. destruct cur as [c0|]; [|constructor]. cbn [oseg] in Hind. apply independent_app in Hind.
        destruct Hind as [_ [H _]]. exact H. }
      destruct (IH (S i) lim done (Some (c ++ [p])) HB') with (b0 := b0) as (segs & E & Ec' & Hne & Hi').
      * intros c' [= <-]. destruct c; discriminate.
      * exact Hd.
      * discriminate.
      * cbn [oseg]. rewrite concat_app, !app_length. cbn. rewrite Ec, app_length in Hi. rewrite app_nil_r, app_length. cbn. lia.
      * exact Hlim.
      * cbn [oseg]. apply independent_app. apply independent_app in Hind. split; [apply Hind|]. cbn. split; [|exact I].
        apply Forall_app. split; [exact Hic|]. constructor; [|constructor]. rewrite <- Hlim. now apply Hb.
      * exists segs. split; [exact E|]. split; [|auto]. rewrite Ec'. cbn [oseg]. rewrite concat_app, Ec. cbn. rewrite app_nil_r.
        now rewrite <- !app_assoc.
Qed.
Lemma segment_dc_ok (d : dcmp o) : let n := length (dc_in o d) in
  backward n (map fst (dc_mid o d)) -> Forall is_fun (map fst (dc_mid o d)) ->
  exists segs, segment_dc o d = Some segs /\ concat segs = dc_mid o d /\ Forall (fun s => s <> []) segs /\ independent n segs.
Proof.
  intros n HB HF. unfold segment_dc. fold n.
  destruct (segment_go_ok (dc_mid o d) n n [] None) with (b0 := n) as (segs & E & Ec & Hne & Hi).
  - intros k e Hk. split; [now apply HB|]. rewrite Forall_forall in HF. apply HF. eapply nth_error_In; eauto.
  - discriminate.
  - constructor.
  - auto.
  - cbn. lia.
  - cbn. lia.
  - exact I.
  - exists segs. split; [exact E|]. cbn in Ec. rewrite map_id in Ec. auto.
Qed.
End Seg.

(* --- Schedules ---------------------------------------------------------------------------- *)
Section Sched.
Context {N V : Type} (A : alg N V) (dflt : V) (n : nat) (mid : list (expr N)) (ins : list V).
Hypothesis Hn : length ins = n.
Hypothesis HB : backward n mid.
Hypothesis HF : Forall (fun e => match e with EFun _ _ => True | _ => False end) mid.
Local Notation vals := (run_mid A dflt ins mid).
Local Notation exe := (exec A dflt n mid).

Lemma elt_fun i : i < length mid -> exists f args, nth_error mid i = Some (EFun f args).
Proof.
  intros Hi. destruct (nth_error_some mid i Hi) as (e & He). rewrite Forall_forall in HF.
  specialize (HF e (nth_error_In _ _ He)). destruct e; try contradiction. eauto.
Qed.
Definition good (k : nat) (m : memory V) : Prop := forall j, j < k -> m_arr m j = nth j vals dflt.
Lemma load_val k m a : good k m -> arg_ok k a -> gval A (mem_vars dflt (m_arr m)) a = elt_val A dflt vals a.
Proof.
  intros Hg Ha. destruct a as [x|s|i|f l]; cbn in *; auto; [|contradiction]. destruct Ha as (j & Hj & ->).
  unfold mem_vars, uval. rewrite uname_index. now apply Hg.
Qed.

(* One segment. *)
Lemma run_schedule b len tr m : b + len <= length mid ->
  (forall i e, b <= i < b + len -> nth_error mid i = Some e -> elt_ok (n + b) e) ->
  schedule mid b len tr -> good (n + b) m -> good (n + b + len) (fold_left exe tr m).
Proof.
  intros Hlen Hseg (Hsub & Hst & Hld) Hg.
  assert (HI : forall pre post, tr = pre ++ post -> let m' := fold_left exe pre m in
    good (n + b) m' /\
    (forall i k f args a, In (Load i k) pre -> nth_error mid i = Some (EFun f args) -> nth_error args k = Some a ->
       m_reg m' i k = elt_val A dflt vals a) /\
    (forall i, In (Store i) pre -> m_arr m' (n + i) = nth (n + i) vals dflt)).
  { induction pre as [|e pre IH] using rev_ind; intros post E.
    - cbn. split; [exact Hg|]. split; [intros; contradiction | intros; contradiction].
    - rewrite <- app_assoc in E. destruct (IH _ E) as (H1 & H2 & H3). cbv zeta in *. rewrite fold_left_app. cbn [fold_left].
      set (m' := fold_left exe pre m) in *.
      assert (Hse : b <= subject e < b + len) by (apply Hsub; rewrite E; apply in_or_app; right; now left).
      destruct (elt_fun (subject e) ltac:(lia)) as (f & args & He).
      pose proof (Hseg _ _ Hse He) as Hok. cbn in Hok.
      destruct e as [i k|i]; cbn [subject] in *; cbn [exec].
      + rewrite He. destruct (nth_error args k) as [a|] eqn:Ea.
        * split; [exact H1|]. split; [|intros i' Hi'; apply in_app_or in Hi'; destruct Hi' as [Hi'|[Hi'|[]]]; [now apply H3 | discriminate]].
          intros i' k' f' args' a' Hin He' Ha'. cbn. destruct (Nat.eqb_spec i' i) as [->|Hne]; cbn.
          -- destruct (Nat.eqb_spec k' k) as [->|Hne].
             ++ assert (a' = a) as -> by congruence. apply (load_val (n + b)); [exact H1|].
                rewrite Forall_forall in Hok. apply Hok. eapply nth_error_In; eauto.
             ++ apply in_app_or in Hin. destruct Hin as [Hin|[Hin|[]]]; [eapply H2; eauto | congruence].
          -- apply in_app_or in Hin. destruct Hin as [Hin|[Hin|[]]]; [eapply H2; eauto | congruence].
        * split; [exact H1|]. split; [|intros i' Hi'; apply in_app_or in Hi'; destruct Hi' as [Hi'|[Hi'|[]]]; [now apply H3 | discriminate]].
          intros i' k' f' args' a' Hin He' Ha'. apply in_app_or in Hin. destruct Hin as [Hin|[[= <- <-]|[]]]; [eapply H2; eauto|].
          congruence.
      + rewrite He. cbv zeta.
        assert (Ev : a_fun A f (map (m_reg m' i) (seq 0 (length args))) = nth (n + i) vals dflt).
        { rewrite <- Hn. rewrite (run_nth A dflt ins mid i (EFun f args)) by (rewrite ?Hn; assumption). cbn. f_equal.
          assert (HL : forall k a, nth_error args k = Some a -> m_reg m' i k = elt_val A dflt vals a).
          { intros k a Ha. eapply H2; [|exact He | exact Ha]. eapply Hld; [exact E | exact He|]. apply nth_error_Some. congruence. }
          clear - HL. revert HL. generalize (m_reg m' i) as r. induction args as [|a l IHl]; intros r HL; [reflexivity|].
          cbn. f_equal; [now apply (HL 0)|]. rewrite <- seq_shift, map_map. apply (IHl (fun k => r (S k))).
          intros k a' Ha. now apply (HL (S k)). }
        split; [|split].
        * intros j Hj. cbn. destruct (Nat.eqb_spec j (n + i)) as [->|Hne]; [lia | now apply H1].
        * intros i' k' f' args' a' Hin He' Ha'. cbn. apply in_app_or in Hin.
          destruct Hin as [Hin|[Hin|[]]]; [eapply H2; eauto | discriminate].
        * intros i' Hin. cbn. destruct (Nat.eqb_spec (n + i') (n + i)) as [E'|Hne].
          -- now rewrite E'.
          -- apply in_app_or in Hin. destruct Hin as [Hin|[[= <-]|[]]]; [now apply H3 | congruence]. }
  destruct (HI tr [] ltac:(now rewrite app_nil_r)) as (H1 & _ & H3). cbv zeta in *. intros j Hj.
  destruct (Nat.lt_ge_cases j (n + b)) as [Hl|Hl]; [now apply H1|].
  replace j with (n + (j - n)) by lia. apply H3. apply Hst. lia.
Qed.

Lemma run_schedules : forall segs trs b m, b + length (concat segs) = length mid ->
  (forall i p, nth_error (concat segs) i = Some p -> nth_error mid (b + i) = Some (fst p)) ->
  independent (n + b) segs -> schedules mid b segs trs -> good (n + b) m ->
  good (n + length mid) (fold_left exe (concat trs) m).
Proof.
  induction segs as [|seg segs IH]; intros [|tr trs] b m Hl Hmid Hind Hsch Hg; cbn in Hsch; try contradiction.
  - cbn in *. now replace (length mid) with b by lia.
  - destruct Hsch as [Hs Hss]. cbn in Hind. destruct Hind as [Hi His]. cbn [concat]. rewrite fold_left_app.
    cbn [concat] in Hl, Hmid. rewrite app_length in Hl.
    apply (IH trs (b + length seg)).
    + lia.
    + intros i p Hp. rewrite <- Nat.add_assoc. apply Hmid. now rewrite nth_new.
    + now rewrite Nat.add_assoc.
    + exact Hss.
    + rewrite Nat.add_assoc. apply run_schedule; auto; [lia|]. intros i e Hie He.
      destruct (nth_error_some seg (i - b) ltac:(lia)) as (p & Hp).
      pose proof (Hmid (i - b) p (nth_error_app_l _ _ _ _ Hp)) as Hm. replace (b + (i - b)) with i in Hm by lia.
      rewrite He in Hm. injection Hm as ->. rewrite Forall_forall in Hi. apply Hi. eapply nth_error_In; eauto.
Qed.
End Sched.
