(* The constructor of var_ode_sys. *)
From Coquelicot Require Import Coquelicot.
From Coq Require Import String Bool ZArith NArith Arith Reals List Lia Sorted.
From Verif Require Import M_Expr M_Dag M_Dec M_Taylor S_Expr S_Dag P_Subs P_Cse S_Diff M_Dtens S_Dtens P_Dtens M_Adj S_Adj P_Adj1 P_Adj2 P_Adj11 M_Ctor S_Ctor P_Ctor M_Var S_Var P_Var1 P_Var2 P_VarN P_Var3 T_Dtens T_Adj.
Import ListNotations.
Local Open Scope nat_scope.
Set Bullet Behavior "Strict Subproofs".

Section Args.
Context (o : nops) (neq : num o -> num o -> bool) (feq : fid (num o) -> fid (num o) -> bool).
Local Notation ex := (expr (num o)).
Local Notation time := (EFun (@Ftime (num o)) []).
Hypothesis Hfeq : forall f g, feq f g = true -> f = g.
Hypothesis Hrec : recognises o feq.
Context (sys : list (ex * ex)) (names : list string).
Hypothesis Hn : map fst sys = map EVar names.
Hypothesis Hnd : NoDup names.
Hypothesis Hres : forall s, In s names -> ~ reserved s.
Definition allowed (x : ex) : Prop := In x (map fst sys) \/ (exists i, x = EPar i) \/ x = time.
Definition leaf (a : ex) : Prop := match a with EVar _ | EPar _ => True | _ => False end.
Lemma in_names s : In (EVar s) (map fst sys) <-> In s names.
Proof. rewrite Hn, in_map_iff. split; [intros (t & E & H); congruence | eauto]. Qed.
Lemma allowed_cases x : allowed x -> (exists s, x = EVar s /\ In s names) \/ (exists i, x = EPar i) \/ x = time.
Proof.
  intros [H|H]; [|tauto]. left. assert (H' := H). rewrite Hn in H. apply in_map_iff in H. destruct H as (s & <- & H). eauto.
Qed.
Lemma internal_leaf x a : allowed x -> internal o x a -> leaf a.
Proof. intros H. destruct (allowed_cases x H) as [(s & -> & _)|[(i & ->)| ->]]; cbn; intros ->; exact I. Qed.
Lemma internal_inj x y a : allowed x -> allowed y -> internal o x a -> internal o y a -> x = y.
Proof.
  intros Hx Hy. destruct (allowed_cases x Hx) as [(s & -> & Hs)|[(i & ->)| ->]]; destruct (allowed_cases y Hy) as [(s' & -> & Hs')|[(i' & ->)| ->]]; cbn [internal]; intros -> E; try discriminate; auto; try congruence.
  - f_equal. apply ic_inj. unfold ic_name. congruence.
  - exfalso. apply (Hres s Hs). assert (K : s = "__t"%string) by (apply ic_t0; unfold ic_name, t0_name; congruence). exists "t"%string. exact K.
  - exfalso. apply (Hres s' Hs'). assert (K : s' = "__t"%string) by (apply ic_t0; unfold ic_name, t0_name; congruence). exists "t"%string. exact K.
Qed.
Lemma internal_fun x a b : internal o x a -> internal o x b -> a = b.
Proof. destruct x; cbn; congruence. Qed.
Lemma internal_nodup hr va : Forall2 (internal o) hr va -> (forall x, In x hr -> allowed x) -> (NoDup va <-> NoDup hr).
Proof.
  induction 1 as [|x a hr va H HF IH]; intros Ha; [split; constructor|]. specialize (IH (fun y Hy => Ha y (or_intror Hy))). split; intros K; inversion K as [|? ? K1 K2]; subst; constructor; try (now apply IH); intros Hin.
  - apply K1. clear - HF Hin H. induction HF as [|y b l l' H' HF IH]; [destruct Hin|]. destruct Hin as [->|Hin]; [left; eapply internal_fun; eauto | right; auto].
  - apply K1. assert (Hl : forall y, In y hr -> allowed y) by (intros y Hy; apply Ha; now right). specialize (Ha x (or_introl eq_refl)).
    clear - Hn Hres HF Hin H Ha Hl. induction HF as [|y b l l' H' HF IH]; [destruct Hin|]. destruct Hin as [->|Hin].
    + left. eapply internal_inj; [apply Hl; now left | exact Ha | exact H' | exact H].
    + right. apply IH; auto. intros z Hz. apply Hl. now right.
Qed.
Lemma internal_leaves hr va : Forall2 (internal o) hr va -> (forall x, In x hr -> allowed x) -> forall a, In a va -> leaf a.
Proof.
  induction 1 as [|x a hr va H HF IH]; intros Ha b Hb; [destruct Hb|]. destruct Hb as [<-|Hb]; [eapply internal_leaf; [apply Ha; now left | exact H]|].
  apply IH; [|exact Hb]. intros y Hy. apply Ha. now right.
Qed.
Lemma time_eqb e : ex_eqb o neq feq e time = true <-> e = time.
Proof.
  split; [|intros ->; cbn; now rewrite (proj1 Hrec)]. destruct e as [x|x|x|f l]; try discriminate. intros H. apply ex_eqb_fun in H. destruct H as [H1 H2]. apply Hfeq in H1. inversion H2; subst. reflexivity.
Qed.
Lemma list_arg_cases e : (exists a, list_arg o neq feq names e = MDone a /\ allowed e /\ internal o e a) \/ (list_arg o neq feq names e = MThrow /\ ~ allowed e).
Proof.
  assert (NT : (forall s, e <> EVar s) -> (forall i, e <> EPar i) -> e <> time -> ~ allowed e).
  { intros H1 H2 H3 K. destruct (allowed_cases e K) as [(s & -> & _)|[(i & ->)| ->]]; [eapply H1 | eapply H2 | apply H3]; reflexivity. }
  assert (O : (forall s, e <> EVar s) -> (forall i, e <> EPar i) -> list_arg o neq feq names e = (if ex_eqb o neq feq e time then MDone (EVar t0_name) else MThrow)).
  { intros H1 H2. destruct e; [reflexivity | exfalso; eapply H1; reflexivity | exfalso; eapply H2; reflexivity | reflexivity]. }
  destruct e as [x|s|i|f l].
  - right. rewrite O by congruence. split; [|apply NT; congruence]. destruct (ex_eqb o neq feq (ENum x) time) eqn:E; [apply time_eqb in E; discriminate | reflexivity].
  - cbn [list_arg]. destruct (existsb (String.eqb s) names) eqn:E.
    + left. eexists. split; [reflexivity|]. split; [|reflexivity]. left. apply in_names. now apply existsb_str.
    + right. split; [reflexivity|]. intros K. destruct (allowed_cases _ K) as [(s' & E' & H)|[(i & E')|E']]; try discriminate. injection E' as <-. apply existsb_str in H. congruence.
  - left. eexists. split; [reflexivity|]. split; [right; left; eauto | reflexivity].
  - rewrite O by congruence. destruct (ex_eqb o neq feq (EFun f l) time) eqn:E.
    + apply time_eqb in E. rewrite E. left. eexists. split; [reflexivity|]. split; [right; right; reflexivity | reflexivity].
    + right. split; [reflexivity|]. apply NT; try congruence. intros K. apply time_eqb in K. congruence.
Qed.
Lemma list_args_cases l : (exists va, mmap (list_arg o neq feq names) l = MDone va /\ (forall x, In x l -> allowed x) /\ Forall2 (internal o) l va) \/
  (mmap (list_arg o neq feq names) l = MThrow /\ ~ forall x, In x l -> allowed x).
Proof.
  induction l as [|e l IH]; [left; exists []; split; [reflexivity|]; split; [intros x []|constructor]|]. cbn [mmap].
  destruct (list_arg_cases e) as [(a & E & A & B)|[E A]]; rewrite E; cbn [mbind].
  - destruct IH as [(va & E' & A' & B')|[E' A']]; rewrite E'; cbn [mbind].
    + left. exists (a :: va). split; [reflexivity|]. split; [intros x [<-|Hx]; auto | constructor; auto].
    + right. split; [reflexivity|]. intros K. apply A'. intros x Hx. apply K. now right.
  - right. split; [reflexivity|]. intros K. apply A, K. now left.
Qed.
Lemma leaves_vp l : (forall a, In a l -> leaf a) -> forallb (var_or_par o) l = true.
Proof. intros H. apply forallb_forall. intros a Ha. specialize (H a Ha). destruct a; try destruct H; reflexivity. Qed.
Lemma enum_bits n : enum_ok n = true -> n = (N.b2n (N.testbit n 0) + 2 * N.b2n (N.testbit n 1) + 4 * N.b2n (N.testbit n 2))%N.
Proof.
  unfold enum_ok. intros H. apply andb_prop in H. destruct H as [_ H]. apply N.leb_le in H.
  assert (K : In n [0; 1; 2; 3; 4; 5; 6; 7]%N) by (cbn; lia). repeat (destruct K as [<-|K]; [reflexivity|]). destruct K.
Qed.
Lemma bits_enum (v p t : bool) n : n = (N.b2n v + 2 * N.b2n p + 4 * N.b2n t)%N -> N.testbit n 0 = v /\ N.testbit n 1 = p /\ N.testbit n 2 = t /\ (enum_ok n = false <-> v = false /\ p = false /\ t = false).
Proof. intros ->. destruct v, p, t; cbn; repeat split; intros; try discriminate; intuition discriminate. Qed.
(* Either the arguments are the ones asked for, or the request is not valid. *)
Lemma make_vargs_cases a :
  (exists va hr, make_vargs o neq feq names (map snd sys) a = MDone (va, hr) /\ var_request o sys a hr /\ Forall2 (internal o) hr va /\ (forall x, In x hr -> allowed x) /\
     (valid_var_request o sys a <-> va <> [] /\ NoDup va)) \/
  (make_vargs o neq feq names (map snd sys) a = MThrow /\ ~ valid_var_request o sys a).
Proof.
  destruct a as [n|l]; cbn [make_vargs].
  - destruct (enum_ok n) eqn:En; cbn [negb].
    + left. set (v := N.testbit n 0). set (p := N.testbit n 1). set (t := N.testbit n 2).
      set (va := _ ++ _ ++ _). set (hr := map EVar _ ++ _ ++ _). exists va, hr. split; [reflexivity|].
      assert (R : var_request o sys (VEnum o n) hr).
      { exists v, p, t, (get_params o (map snd sys)). split; [exact (enum_bits n En)|]. split; [apply get_pars_all|]. unfold hr. destruct v, p, t; cbn [map app]; rewrite ?Hn; reflexivity. }
      assert (FI : Forall2 (internal o) hr va).
      { unfold hr, va. assert (G : forall A (f g : A -> ex) l, (forall x, internal o (f x) (g x)) -> Forall2 (internal o) (map f l) (map g l)) by (intros A f g l H; induction l; constructor; auto).
        repeat apply Forall2_app; apply G; reflexivity. }
      assert (HA : forall x, In x hr -> allowed x).
      { intros x Hx. unfold hr in Hx. apply in_app_or in Hx. destruct Hx as [Hx|Hx]; [|apply in_app_or in Hx; destruct Hx as [Hx|Hx]].
        - left. rewrite Hn. destruct v; [exact Hx | destruct Hx].
        - right. left. apply in_map_iff in Hx. destruct Hx as (i & <- & _). eauto.
        - right. right. apply in_map_iff in Hx. destruct Hx as (i & <- & _). reflexivity. }
      split; [exact R|]. split; [exact FI|]. split; [exact HA|]. split.
      * intros (args & R' & Ne & ND & _).
        assert (E : args = hr).
        { destruct R' as (v' & p' & t' & ps & E1 & E2 & E3). destruct (bits_enum _ _ _ _ E1) as (B0 & B1 & B2 & _). fold v in B0. fold p in B1. fold t in B2. subst v' p' t'. rewrite (all_pars_unique _ _ E2) in E3.
          rewrite E3. unfold hr. destruct v, p, t; cbn [map app]; rewrite ?Hn; reflexivity. }
        subst args. split; [intros E; rewrite E in FI; inversion FI; congruence|]. now apply (internal_nodup hr va FI HA).
      * intros [Ne ND]. exists hr. split; [exact R|]. split; [intros E; rewrite E in FI; inversion FI; congruence|]. split; [now apply (internal_nodup hr va FI HA)|]. exact HA.
    + right. split; [reflexivity|]. intros (args & (v & p & t & ps & E1 & _ & ->) & Ne & _). destruct (bits_enum _ _ _ _ E1) as (_ & _ & _ & K). destruct (proj1 K En) as (-> & -> & ->). now apply Ne.
  - destruct l as [|e l].
    + right. split; [reflexivity|]. intros (args & Ra & Ne & _). now apply Ne.
    + set (l0 := e :: l). destruct (list_args_cases l0) as [(va & E & HA & FI)|[E HA]]; rewrite E; cbn [mbind].
      * assert (Hv := leaves_vp va (internal_leaves _ _ FI HA)). destruct (ex_nodup o neq feq va) eqn:Ed.
        -- left. exists va, l0. split; [reflexivity|]. split; [reflexivity|]. split; [exact FI|]. split; [exact HA|]. apply ex_nodup_ok in Ed; [|exact Hv]. split.
           ++ intros _. split; [|exact Ed]. inversion FI; discriminate.
           ++ intros _. exists l0. split; [reflexivity|]. split; [discriminate|]. split; [now apply (internal_nodup _ _ FI HA) | exact HA].
        -- right. split; [reflexivity|]. intros (args & Ra & _ & ND & _). cbn in Ra. rewrite Ra in ND. apply (internal_nodup _ _ FI HA) in ND. apply (ex_nodup_ok neq feq) in ND; [|exact Hv]. congruence.
      * right. split; [reflexivity|]. intros (args & Ra & _ & _ & K). cbn in Ra. rewrite Ra in K. apply HA. exact K.
Qed.
End Args.

Section Ctor.
Context {o : nops} {nval : num o -> R} (L : nlaws o nval) (neq : num o -> num o -> bool) (feq : fid (num o) -> fid (num o) -> bool).
Local Notation ex := (expr (num o)).
Context (ug : string -> list ex -> option (list ex)) (share : list ex -> list (dag (num o))) (mode : nat -> nat -> bool).
Hypothesis Hneq : forall x y, neq x y = true -> nval x = nval y.
Hypothesis Hfeq : forall f g, feq f g = true -> f = g.
Hypothesis Hrec : recognises o feq.
Hypothesis Hun : user_gradients_uniform o ug.
Hypothesis Hug : user_gradients_closed o ug.
Hypothesis Hsh : forall l, map erase (share l) = l /\ consistent (share l).

Definition finish (names : list string) (va hr : list ex) (r : mres (@dtens ex * list ex)) : mres (var_sys o) :=
  mbind r (fun '(dt, _) => mbind (mmap (fun kv => var_entry o names va (fst kv)) (dt_map dt)) (fun ents =>
  MDone (mkVar o (combine (map snd ents) (map (fun kv => subs_ex o (look o neq feq ents) (snd kv)) (dt_map dt))) dt hr))).
Lemma names_of (sys : list (ex * ex)) names : map fst sys = map EVar names -> mmap (fun eq => var_name o (fst eq)) sys = MDone names.
Proof.
  revert names. induction sys as [|[l r] sys IH]; intros [|s names] H; try discriminate; [reflexivity|]. cbn [map fst] in H. injection H as -> H. cbn [mmap var_name fst mbind]. rewrite (IH names H). reflexivity.
Qed.
Lemma sm_of names va : mmap (fun s => mbind (dfun o s va []) (fun f => MDone (s, f))) names = MDone (smv o names va).
Proof. induction names as [|s names IH]; [reflexivity|]. cbn [mmap dfun didx_ok mbind]. unfold dfun in *. cbn [didx_ok mbind] in *. rewrite IH. reflexivity. Qed.
(* The outcome of the validation. *)
Lemma var_cases fuel sys a order :
  (exists names va hr, map fst sys = map EVar names /\ NoDup names /\ (forall s, In s names -> ~ reserved s) /\ (forall s, In s names -> String.prefix "∂" s = false) /\
     (forall e s, In e (map snd sys) -> occurs (EVar s) e -> In s names) /\ order <> 0 /\ sys <> [] /\
     var_request o sys a hr /\ Forall2 (internal o) hr va /\ (forall x, In x hr -> allowed o sys x) /\ va <> [] /\ NoDup va /\
     valid_var_system o sys /\ valid_var_request o sys a /\
     var_ode_sys o neq feq ug share mode fuel sys a order =
       finish names va hr (diff_tensors o neq feq ug share mode fuel (map (subs o (smv o names va)) (map snd sys)) (DList o va) order)) \/
  (~ (valid_var_system o sys /\ valid_var_request o sys a /\ order <> 0) /\ var_ode_sys o neq feq ug share mode fuel sys a order = MThrow).
Proof.
  unfold var_ode_sys. destruct (validate_spec o sys [] []) as [[V E]|[V E]]; rewrite E; cbn [mbind].
  2: { right. split; [|reflexivity]. intros [[V' _] _]. now apply V. }
  destruct (Nat.eqb_spec order 0) as [->|Ho]; [right; split; [tauto | reflexivity]|].
  assert (V' := V). destruct V' as (Hne & names & A & B & C & D). cbn [app] in D. rewrite app_nil_r in D. rewrite (names_of sys names A). cbn [mbind].
  destruct (existsb (String.prefix "∂") names) eqn:Ep.
  { right. split; [|reflexivity]. intros [[_ K] _]. apply existsb_exists in Ep. destruct Ep as (s & Hs & Ep). apply prefix_ex in Ep. assert (K2 : In (EVar s) (map fst sys)) by (rewrite A; now apply in_map).
    apply in_map_iff in K2. destruct K2 as ([l r] & El & Hin). cbn [fst] in El. subst l. exact (K s r Hin Ep). }
  assert (Hp : forall s, In s names -> String.prefix "∂" s = false).
  { intros s Hs. destruct (String.prefix "∂" s) eqn:E'; [|reflexivity]. exfalso. assert (existsb (String.prefix "∂") names = true); [|congruence]. apply existsb_exists. eauto. }
  assert (VS : valid_var_system o sys).
  { split; [exact V|]. intros s r Hin K. apply prefix_ex in K. apply (in_map fst) in Hin. cbn [fst] in Hin. rewrite A in Hin. apply in_map_iff in Hin. destruct Hin as (t & Et & Ht). injection Et as ->. rewrite (Hp s Ht) in K. discriminate. }
  destruct (make_vargs_cases o neq feq Hfeq Hrec sys names A C a) as [(va & hr & Em & R & FI & HA & HV)|[Em NV]]; rewrite Em; cbn [mbind].
  2: { right. split; [tauto | reflexivity]. }
  rewrite (sm_of names va). cbn [mbind].
  set (es := map (subs o (smv o names va)) (map snd sys)).
  destruct (dt_cases neq feq ug share mode fuel es (DList o va) order) as [(args & VR & Ra & _ & Na & Et)|[NV Et]].
  - cbn in Ra. subst args. left. exists names, va, hr. destruct VR as (_ & args & Ra & _ & ND & _). cbn in Ra. subst args. do 11 (split; [assumption|]). split; [exact ND|]. split; [exact VS|]. split; [now apply HV | reflexivity].
  - right. split; [|rewrite Et; reflexivity]. intros (_ & RV & _). apply NV. apply HV in RV. destruct RV as [Ne ND]. split.
    + unfold es. destruct sys; [congruence | discriminate].
    + exists va. split; [reflexivity|]. split; [exact Ne|]. split; [exact ND|]. apply var_or_par_ok. apply leaves_vp. eapply internal_leaves; eauto.
Qed.
Lemma nth_ext_e {A} (l l' : list A) : (forall i, nth_error l i = nth_error l' i) -> l = l'.
Proof.
  revert l'. induction l as [|x l IH]; intros [|y l'] H; [reflexivity | specialize (H 0); discriminate | specialize (H 0); discriminate|].
  f_equal; [specialize (H 0); cbn in H; congruence | apply IH; intros i; exact (H (S i))].
Qed.
Lemma combine_nth {A B} (l : list A) (l' : list B) i x y : nth_error l i = Some x -> nth_error l' i = Some y -> nth_error (combine l l') i = Some (x, y).
Proof. revert l' i. induction l as [|a l IH]; intros [|b l'] [|i] H H'; try discriminate; cbn in *; [congruence | now apply IH]. Qed.
Lemma nth_combine {A B} (l : list A) (l' : list B) i p : nth_error (combine l l') i = Some p -> nth_error l i = Some (fst p) /\ nth_error l' i = Some (snd p).
Proof. revert l' i. induction l as [|a l IH]; intros [|b l'] [|i] H; try discriminate; cbn in *; [injection H as <-; auto | now apply IH]. Qed.
Lemma ents_total names va order (m : list (sidx * ex)) : complete_tensor (N.of_nat (length names)) (N.of_nat (length va)) order m ->
  exists ents, mmap (fun kv => var_entry o names va (fst kv)) m = MDone ents.
Proof.
  intros Hc. apply mmap_total. intros kv Hin. apply (in_map fst) in Hin. apply (proj2 Hc) in Hin. destruct Hin as ((A1 & A2) & B & D & E).
  unfold var_entry, dfun. destruct (nth_error names (N.to_nat (fst (fst kv)))) as [s|] eqn:Es; [|apply nth_error_None in Es; lia].
  rewrite key_didx; auto. cbn [mbind]. eauto.
Qed.
(* What a successful construction consists of. *)
Lemma var_done fuel sys a order v : (N.of_nat order <= u32_max)%N -> (forall eq, In eq sys -> no_dfun o (snd eq)) ->
  var_ode_sys o neq feq ug share mode fuel sys a order = MDone v ->
  order <> 0 /\ valid_var_system o sys /\ valid_var_request o sys a /\ var_request o sys a (v_args o v) /\ variational o nval ug sys (v_args o v) order v.
Proof.
  intros Hu Hnd H. destruct (var_cases fuel sys a order) as [(names & va & hr & A & B & C & Hp & D & Ho & Hne & R & FI & HA & Nva & NDva & VS & VR & E)|[_ E]]; rewrite E in H; [|discriminate].
  unfold finish in H. apply mbind_done in H. destruct H as ([dt args] & Hd & H). apply mbind_done in H. destruct H as (ents & He & H). apply done_inj in H. subst v.
  set (es := map (subs o (smv o names va)) (map snd sys)) in *.
  destruct (diff_tensors_correct L neq feq ug share Hneq Hfeq Hun Hsh mode fuel es (DList o va) order dt args Hu Hd) as (Ra & Hna & Hc & H0 & Hs). cbn in Ra. subst args.
  assert (Len : length names = length sys) by (rewrite <- (map_length fst sys), A; now rewrite map_length).
  assert (Les : length es = length names) by (unfold es; rewrite !map_length; now symmetry).
  assert (Lhr : length va = length hr) by (symmetry; eapply Forall2_len; eauto).
  rewrite Les in Hc. apply mmap_done in He.
  assert (Hleaf : forall x, In x va -> match x with EVar _ | EPar _ => True | _ => False end) by exact (internal_leaves o sys names A _ _ FI HA).
  assert (Hcl : Forall (fun p => cl o (fun _ => False) (Qv o names va order) (snd p)) (dt_map dt)).
  { destruct (dt_cases neq feq ug share mode fuel es (DList o va) order) as [(args & _ & Ra & _ & _ & Et)|[_ Et]]; rewrite Et in Hd; [|discriminate]. cbn in Ra. subst args.
    apply mbind_done in Hd. destruct Hd as (m & Hm & Hd). apply done_inj in Hd. assert (Em : dt_map dt = m) by (injection Hd as <-; reflexivity). rewrite Em.
    refine (@tensors_cl o nval neq feq ug share mode Hsh Hug va (Qv o names va) (Qv_va o names va) Hleaf (Qv_up o names va) (Qv_bump o names va Hp) fuel es va order m _ Hm).
    unfold es. rewrite map_map. apply Forall_map. apply Forall_forall. intros eq Heq. apply orig_cl; [now apply Hnd|]. intros s Hs0. eapply D; [|exact Hs0]. now apply in_map. }
  set (dts := dt_map dt) in *. set (rs := map (fun kv : sidx * ex => subs_ex o (look o neq feq ents) (snd kv)) dts).
  set (v := mkVar o (combine (map snd ents) rs) dt hr).
  pose proof (vnames_ents o names va dts ents He) as Hvn.
  assert (Lents : length ents = length dts) by (symmetry; eapply Forall2_len; eauto).
  assert (Lv : length (v_sys o v) = length dts) by (cbn; rewrite combine_length, map_length; unfold rs; rewrite map_length; lia).
  (* the equation of a key *)
  assert (EQ : forall i c d e, nth_error dts i = Some ((c, d), e) -> exists s, nth_error names (N.to_nat c) = Some s /\ Qv o names va order s (nat_didx d) va /\
     nth_error (v_sys o v) i = Some (EVar (vn s (nat_didx d)), subs_ex o (look o neq feq ents) e)).
  { intros i c d e Hi. destruct (key_name o names va order dts Hp Hc ((c, d), e) (nth_error_In _ _ Hi)) as (s & S1 & S2 & S3). cbn [fst snd] in *. exists s. split; [exact S1|]. split; [exact S3|].
    cbn [v_sys v]. apply combine_nth.
    - rewrite Hvn. unfold vnames. rewrite map_map, nth_error_map, Hi. cbn [option_map fst snd]. now rewrite S2.
    - unfold rs. now rewrite nth_error_map, Hi. }
  assert (EQ' : forall c d lhs r, equation o v c d lhs r -> exists s i e, nth_error names (N.to_nat c) = Some s /\ Qv o names va order s (nat_didx d) va /\
     nth_error dts i = Some ((c, d), e) /\ lhs = EVar (vn s (nat_didx d)) /\ r = subs_ex o (look o neq feq ents) e).
  { intros c d lhs r (i & e & H1 & H2). change (dt_map (v_dt o v)) with dts in H1. destruct (EQ i c d e H1) as (s & S1 & S2 & S3). exists s, i, e. rewrite H2 in S3. injection S3 as -> ->. repeat (split; [assumption || reflexivity|]). reflexivity. }
  assert (Hsn : forall c s, nth_error names c = Some s -> exists r, nth_error sys c = Some (EVar s, r)).
  { intros c s Hcs. assert (K : nth_error (map fst sys) c = Some (EVar s)) by (rewrite A, nth_error_map, Hcs; reflexivity). rewrite nth_error_map in K. destruct (nth_error sys c) as [[l r]|]; [|discriminate]. cbn in K. injection K as ->. eauto. }
  (* the keys of order 0 *)
  assert (Hz : forall c eq, nth_error sys c = Some eq -> In ((N.of_nat c, []), subs o (smv o names va) (snd eq)) dts).
  { intros c eq Hq. apply H0. rewrite Nat2N.id. unfold es. now rewrite !nth_error_map, Hq. }
  assert (Zback : forall eq, In eq sys -> subs_ex o (look o neq feq ents) (subs o (smv o names va) (snd eq)) = snd eq).
  { intros eq Hq. refine (orig_back o neq feq Hfeq Hrec names va order dts ents Hp Hleaf Hc He (snd eq) (Hnd eq Hq) _). intros s Hs0. eapply D; [|exact Hs0]. now apply in_map. }
  assert (ZERO : forall i eq, nth_error sys i = Some eq -> equation o v (N.of_nat i) [] (fst eq) (snd eq)).
  { intros i eq Hq. destruct (In_nth_error _ _ (Hz i eq Hq)) as [j Hj]. exists j, (subs o (smv o names va) (snd eq)). split; [exact Hj|]. destruct (EQ j _ _ _ Hj) as (s & S1 & _ & S3). rewrite S3.
    rewrite Zback by (eapply nth_error_In; eauto). cbn [nat_didx map vn]. rewrite Nat2N.id in S1. destruct (Hsn i s S1) as (r & Hr). rewrite Hq in Hr. injection Hr as ->. reflexivity. }
  assert (ORIG : firstn (length sys) (v_sys o v) = sys).
  { assert (Kz : firstn (length sys) (map fst dts) = map (fun c => (N.of_nat c, [])) (seq 0 (length sys))).
    { assert (P0 : exists l', map fst dts = map (fun c => (N.of_nat c, [])) (seq 0 (length sys)) ++ l').
      { set (z := fun k : sidx => match snd k with [] => true | _ => false end). set (l0 := map fst dts).
        assert (SS := proj1 Hc). fold l0 in SS. assert (Hsp : forall l : list sidx, StronglySorted before l -> Forall canonical l -> l = filter z l ++ filter (fun k => negb (z k)) l).
        { clear. induction l as [|k l IH]; intros S F; [reflexivity|]. inversion S as [|? ? S1 S2]; inversion F as [|? ? F1 F2]; subst. cbn [filter]. destruct (z k) eqn:Ez; cbn [negb app]; [now rewrite <- IH|].
          assert (Hall : forall k', In k' l -> z k' = false).
          { intros k' Hk'. rewrite Forall_forall in S2. specialize (S2 k' Hk'). unfold z in *. destruct (snd k') as [|q r'] eqn:E'; [|reflexivity]. exfalso. destruct (snd k) as [|[i n] r] eqn:Ek; [discriminate|].
            destruct F1 as [_ F1]. rewrite Ek in F1. inversion F1; subst. cbn [snd] in *. unfold before in S2. rewrite Ek, E' in S2. cbn [total] in S2. lia. }
          assert (E1 : filter z l = []) by (clear - Hall; induction l; [reflexivity|]; cbn; rewrite (Hall a (or_introl eq_refl)); apply IHl; intros; apply Hall; now right).
          assert (E2 : filter (fun k => negb (z k)) l = l) by (clear - Hall; induction l; [reflexivity|]; cbn; rewrite (Hall a (or_introl eq_refl)); cbn; f_equal; apply IHl; intros; apply Hall; now right).
          now rewrite E1, E2. }
        assert (FC : Forall canonical l0) by (apply Forall_forall; intros k Hk; apply (proj2 Hc) in Hk; apply Hk).
        exists (filter (fun k => negb (z k)) l0). rewrite (Hsp l0 SS FC) at 1. f_equal.
        apply (P_Dtens.sorted_unique).
        - clear - SS. induction SS as [|k l S1 IH S2]; cbn; [constructor|]. destruct (z k); [|exact IH]. constructor; [exact IH|]. rewrite Forall_forall in *. intros x Hx. apply filter_In in Hx. now apply S2.
        - clear. generalize 0 at 1. induction (length sys) as [|n IH]; intros s; cbn [seq map]; constructor; [apply IH|]. apply Forall_forall. intros x Hx. apply in_map_iff in Hx. destruct Hx as (c & <- & Hc). apply in_seq in Hc. right. split; [reflexivity|]. left. cbn. lia.
        - intros [c d]. rewrite filter_In, in_map_iff. unfold l0. split.
          + intros [Hk Ez]. unfold z in Ez. cbn [snd] in Ez. destruct d; [|discriminate]. apply (proj2 Hc) in Hk. destruct Hk as (_ & Hk & _). cbn [fst] in Hk. exists (N.to_nat c). rewrite N2Nat.id. split; [reflexivity|]. apply in_seq. lia.
          + intros (c' & Ec & Hc'). injection Ec as <- <-. apply in_seq in Hc'. split; [|reflexivity]. apply (proj2 Hc). split; [split; constructor|]. cbn [fst snd total]. split; [lia|]. split; [constructor | lia]. }
      destruct P0 as (l' & ->). rewrite firstn_app, map_length, seq_length, Nat.sub_diag. cbn [firstn]. rewrite app_nil_r. apply firstn_all2. rewrite map_length, seq_length. lia. }
    assert (NE : forall i, i < length sys -> nth_error (firstn (length sys) (v_sys o v)) i = nth_error sys i).
    { intros i Hi. rewrite nth_error_firstn by exact Hi. destruct (nth_error sys i) as [eq|] eqn:Eq; [|apply nth_error_None in Eq; lia].
      assert (Ki : nth_error (map fst dts) i = Some (N.of_nat i, [])).
      { rewrite <- (nth_error_firstn _ (length sys)) by exact Hi. rewrite Kz, nth_error_map. rewrite (nth_error_nth' (seq 0 (length sys)) 0) by (rewrite seq_length; exact Hi). rewrite seq_nth by exact Hi. reflexivity. }
      rewrite nth_error_map in Ki. destruct (nth_error dts i) as [[k e]|] eqn:Ed; [|discriminate]. cbn in Ki. injection Ki as ->.
      destruct (EQ i _ _ _ Ed) as (s & S1 & _ & S3). rewrite S3. assert (Ee : nth_error es i = Some e) by (rewrite <- (Nat2N.id i); apply H0; eapply nth_error_In; eauto).
      unfold es in Ee. rewrite !nth_error_map, Eq in Ee. cbn in Ee. injection Ee as <-. rewrite Zback by (eapply nth_error_In; eauto). cbn [nat_didx map vn]. rewrite Nat2N.id in S1. destruct (Hsn i s S1) as (r & Hr). rewrite Eq in Hr. injection Hr as ->. reflexivity. }
    assert (Lf : length (firstn (length sys) (v_sys o v)) = length sys).
    { rewrite firstn_length, Lv. assert (length sys <= length dts); [|lia]. rewrite <- (map_length fst dts). rewrite <- (seq_length (length sys) 0), <- (map_length (fun c => (N.of_nat c, @nil (N * N))) (seq 0 (length sys))). rewrite <- Kz, firstn_length. lia. }
    revert NE Lf. generalize (firstn (length sys) (v_sys o v)). intros l NE Lf. apply nth_ext_e. intros i. destruct (Nat.lt_ge_cases i (length sys)) as [Hi|Hi]; [now apply NE|].
    rewrite (proj2 (nth_error_None l i)) by lia. symmetry. apply nth_error_None. lia. }
  assert (PL : forall eq, In eq (v_sys o v) -> no_dfun o (snd eq) /\ forall s, occurs (EVar s) (snd eq) -> In s (vnames o names dts)).
  { intros eq Hin. destruct (In_nth_error _ _ Hin) as [i Hi]. destruct (nth_combine _ _ _ _ Hi) as [_ Hr]. unfold rs in Hr. rewrite nth_error_map in Hr. destruct (nth_error dts i) as [kv|] eqn:Ek; [|discriminate]. cbn in Hr. injection Hr as <-.
    refine (back_plain o neq feq Hfeq Hrec names va order dts ents Hp Hleaf Hc He _ _). rewrite Forall_forall in Hcl. apply Hcl. eapply nth_error_In; eauto. }
  assert (Hflow : forall F, (forall c d lhs rhs, equation o v c d lhs rhs -> exists s r x, nth_error sys (N.to_nat c) = Some (EVar s, r) /\ lhs = EVar x /\ F x = Some (EFun (Fdfun s (nat_didx d)) va)) ->
     forall s d, Qv o names va order s d va -> F (vn s d) = Some (fn o va s d)).
  { intros F HF s d HQ. destruct HQ as (_ & Hs0 & Hd0 & Hdt). destruct (In_nth_error _ _ Hs0) as [c Hcs]. destruct (didx_key _ _ _ Hd0) as (Q1 & Q2 & Q3 & _).
    assert (Hk : In (N.of_nat c, N_didx d) (map fst dts)).
    { apply (proj2 Hc). assert (c < length names) by (apply nth_error_Some; congruence). split; [split; assumption|]. cbn [fst snd]. split; [lia|]. split; [exact Q3|]. rewrite total_N. lia. }
    apply in_map_iff in Hk. destruct Hk as ([k e] & Ek & Hin). cbn [fst] in Ek. subst k. destruct (In_nth_error _ _ Hin) as [i Hi]. destruct (EQ i _ _ _ Hi) as (s' & S1 & _ & S3).
    rewrite Nat2N.id in S1. assert (s' = s) by congruence. subst s'. rewrite nat_N in S3.
    destruct (HF (N.of_nat c) (N_didx d) _ _ (ex_intro _ i (ex_intro _ e (conj Hi S3)))) as (s1 & r1 & x & X1 & X2 & X3). rewrite Nat2N.id in X1. destruct (Hsn c s Hcs) as (r & Hr). rewrite Hr in X1. injection X1 as <- <-. injection X2 as <-. rewrite nat_N in X3. exact X3. }
  split; [exact Ho|]. split; [exact VS|]. split; [exact VR|]. split; [exact R|].
  constructor.
  - reflexivity.
  - cbn [v_args v]. rewrite <- Lhr, <- Len. exact Hc.
  - cbn [v_args v v_dt]. rewrite Hna. now rewrite Lhr.
  - exact Lv.
  - exact ORIG.
  - exact ZERO.
  - split; [intros E0; rewrite E0 in ORIG; rewrite firstn_nil in ORIG; congruence|]. exists (vnames o names dts). split.
    { cbn [v_sys v]. rewrite <- Hvn. assert (Lr : length (map snd ents) = length rs) by (unfold rs; rewrite !map_length; exact Lents). clear - Lr. revert Lr. generalize (map snd ents) rs. induction l as [|x l IH]; intros [|y l'] H; try discriminate; cbn; [reflexivity|]. f_equal. apply IH. now injection H. }
    split; [exact (vnames_nodup o names va order dts B Hp Hc)|]. split; [intros s Hs0; exact (vnames_plain o names va order dts Hp Hc s C Hs0)|].
    intros e s He0. rewrite app_nil_r in He0. apply in_map_iff in He0. destruct He0 as (eq & <- & Heq). apply (PL eq Heq).
  - intros eq Heq. apply (PL eq Heq).
  - exists va. cbn [v_args v]. split; [exact FI|]. split; [exact NDva|]. split.
    + exists (fun x => match find (fun p : string * sidx => String.eqb x (fst p)) (combine (vnames o names dts) (map fst dts)) with
                       | Some (_, (c, d)) => Some (fn o va (nth (N.to_nat c) names ""%string) (nat_didx d)) | None => None end).
      intros c d lhs r HE. destruct (EQ' c d lhs r HE) as (s & i & e & E1 & E2 & E3 & E4 & E5). destruct (Hsn _ _ E1) as (r0 & Hr0). exists s, r0, (vn s (nat_didx d)). split; [exact Hr0|]. split; [exact E4|].
      assert (Hx : In (vn s (nat_didx d), (c, d)) (combine (vnames o names dts) (map fst dts))).
      { apply (nth_error_In _ i). apply combine_nth; [|rewrite nth_error_map, E3; reflexivity]. unfold vnames. rewrite nth_error_map, E3. cbn [option_map fst snd]. now rewrite (nth_error_nth _ _ ""%string E1). }
      destruct (find _ _) as [[x [c1 d1]]|] eqn:Ef.
      * apply find_some in Ef. destruct Ef as [Hin Ex]. cbn [fst] in Ex. apply String.eqb_eq in Ex. subst x.
        destruct (In_nth_error _ _ Hin) as [i1 Hi1]. apply nth_combine in Hi1. cbn [fst snd] in Hi1. destruct Hi1 as [Y1 Y2]. rewrite nth_error_map in Y2. destruct (nth_error dts i1) as [[k1 e1]|] eqn:Ed1; [|discriminate]. cbn in Y2. injection Y2 as ->.
        unfold vnames in Y1. rewrite nth_error_map, Ed1 in Y1. cbn [option_map fst snd] in Y1. destruct (EQ i1 _ _ _ Ed1) as (s1 & Z1 & Z2 & _). rewrite (nth_error_nth _ _ ""%string Z1) in Y1 |- *. injection Y1 as Y1.
        apply (vn_inj names Hp) in Y1; [|eapply nth_error_In; eauto | eapply nth_error_In; eauto]. destruct Y1 as [-> ->]. reflexivity.
      * exfalso. eapply find_none in Ef; [|exact Hx]. cbn [fst] in Ef. rewrite String.eqb_refl in Ef. discriminate.
    + intros F c d' lhs' r' HF HE Hd'. specialize (Hflow F HF). destruct (EQ' _ _ _ _ HE) as (s & i & e' & E1 & E2 & E3 & E4 & E5).
      destruct (Hs c d' e' (nth_error_In _ _ E3) Hd') as (j & a0 & d & e & O1 & O2 & O3 & O4). destruct (In_nth_error _ _ O3) as [i0 Hi0]. destruct (EQ i0 _ _ _ Hi0) as (s0 & S1 & S2 & S3).
      exists j, a0, d. eexists. eexists. split; [exact O1|]. split; [exact O2|]. split; [exists i0, e; split; [exact Hi0 | exact S3]|].
      rewrite Forall_forall in Hcl. subst r'. rewrite (back_along o neq feq Hfeq Hrec names va order dts ents Hp Hleaf Hc He F e Hflow) by exact (Hcl _ (nth_error_In _ _ Hi0)).
      rewrite (back_along o neq feq Hfeq Hrec names va order dts ents Hp Hleaf Hc He F e' Hflow) by exact (Hcl _ (nth_error_In _ _ E3)). exact O4.
Qed.
(* The construction succeeds. *)
Lemma var_total sys a order : (N.of_nat order <= u32_max)%N -> valid_var_system o sys -> valid_var_request o sys a -> order <> 0 ->
  gradients_differentiable o ug -> (forall eq, In eq sys -> differentiable o ug (snd eq)) ->
  exists fuel0 v, forall fuel, fuel0 <= fuel -> var_ode_sys o neq feq ug share mode fuel sys a order = MDone v.
Proof.
  intros Hu VS VR Ho Hg Hd.
  destruct (var_cases 0 sys a order) as [(names & va & hr & A & B & C & Hp & D & _ & Hne & R & FI & HA & Nva & NDva & _)|[NV _]]; [|exfalso; apply NV; auto].
  set (es := map (subs o (smv o names va)) (map snd sys)).
  assert (Hleaf : forall x, In x va -> match x with EVar _ | EPar _ => True | _ => False end) by exact (internal_leaves o sys names A _ _ FI HA).
  destruct (diff_tensors_total L neq feq ug share Hneq Hfeq Hun Hsh mode es (DList o va) order Hu) as (f0 & [dt args] & Hf); auto.
  { split; [unfold es; destruct sys; [congruence | discriminate]|]. exists va. split; [reflexivity|]. split; [exact Nva|]. split; [exact NDva|]. apply var_or_par_ok. now apply leaves_vp. }
  { unfold es. rewrite map_map. apply Forall_map. apply Forall_forall. intros eq Heq. apply df_subs; [now apply Hd|].
    unfold smv. apply Forall_map. apply Forall_forall. intros s _. cbn [snd]. apply df_fun. split; [apply good_dfun|]. apply Forall_forall. intros x Hx. apply df_leaf. specialize (Hleaf x Hx). destruct x; auto. }
  destruct (diff_tensors_correct L neq feq ug share Hneq Hfeq Hun Hsh mode f0 es (DList o va) order dt args Hu (Hf f0 (le_n _))) as (Ra & Hna & Hc & _). cbn in Ra. subst args.
  assert (Les : length es = length names) by (unfold es; rewrite !map_length, <- (map_length fst sys), A, map_length; reflexivity). rewrite Les in Hc.
  destruct (ents_total names va _ (dt_map dt) Hc) as (ents & He).
  exists f0. eexists. intros fuel Hfu. destruct (var_cases fuel sys a order) as [(names' & va' & hr' & A' & _ & _ & _ & _ & _ & _ & R' & FI' & _ & _ & _ & _ & _ & E)|[NV _]]; [|exfalso; apply NV; auto].
  assert (names' = names) by (apply (map_evar_inj o); congruence). subst names'.
  assert (hr' = hr).
  { destruct a as [n|l]; [|cbn in R, R'; congruence]. destruct R as (v & p & t & ps & E1 & E2 & ->), R' as (v' & p' & t' & ps' & E1' & E2' & ->).
    rewrite (all_pars_unique _ _ E2), (all_pars_unique _ _ E2'). destruct (bits_enum _ _ _ _ E1) as (<- & <- & <- & _), (bits_enum _ _ _ _ E1') as (<- & <- & <- & _). reflexivity. }
  subst hr'. assert (va' = va).
  { clear - FI FI'. revert va' FI'. induction FI as [|x a hr va H HF IH]; intros va' H'; inversion H'; subst; [reflexivity|]. f_equal; [eapply internal_fun; eauto | now apply IH]. }
  subst va'. rewrite E. fold es. rewrite (Hf fuel Hfu). unfold finish. cbn [mbind]. rewrite He. cbn [mbind]. reflexivity.
Qed.
End Ctor.
