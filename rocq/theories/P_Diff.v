(* diff() computes derivatives. *)
From Coquelicot Require Import Coquelicot.
From Coq Require Import String Bool ZArith Reals List Lra Lia.
From Verif Require Import M_Expr S_Expr P_ExprSem P_Build P_Subs S_Diff P_Deriv P_Deriv2 P_Deriv3.
Import ListNotations.
Local Open Scope R_scope.

Section Diff.
Context {o : nops} {nval : num o -> R} (L : nlaws o nval).
Local Notation ex := (expr (num o)).
Local Notation ev := (eval o nval).
Context (ug : string -> list ex -> option (list ex)) (d : darg) (rho : env) (t0 : R).
Hypothesis Ht0 : dval d rho = Some t0.
Local Notation RG := (l_ring L).
Local Notation TR := (l_trans L).
Local Notation along e := (fun t => ev (upd d t rho) e).

Lemma ev_upd_const e t : ~ occurs (dex d) e -> ev (upd d t rho) e = ev rho e.
Proof.
  intros Hn. apply eval_coincide.
  - intros s Ho. destruct d as [x|i]; simpl; [|reflexivity].
    destruct (String.eqb_spec s x) as [->|]; [contradiction | reflexivity].
  - intros j Ho. destruct d as [x|i]; simpl; [reflexivity|].
    destruct (Nat.eqb_spec j i) as [->|]; [contradiction | reflexivity].
  - intros. destruct d; reflexivity.
  - intros. destruct d; reflexivity.
  - intros. destruct d; reflexivity.
Qed.
Lemma ev_upd_t0 e : ev (upd d t0 rho) e = ev rho e.
Proof.
  apply eval_coincide.
  - intros s Ho. unfold dval in Ht0. destruct d as [x|i]; simpl; [|reflexivity].
    destruct (String.eqb_spec s x) as [->|]; auto.
  - intros j Ho. unfold dval in Ht0. destruct d as [x|i]; simpl; [reflexivity|].
    destruct (Nat.eqb_spec j i) as [->|]; auto.
  - intros. destruct d; reflexivity.
  - intros. destruct d; reflexivity.
  - intros. destruct d; reflexivity.
Qed.
Lemma ssem_upd t f vs : ssem o nval (upd d t rho) f vs = ssem o nval rho f vs.
Proof. destruct d, f; reflexivity. Qed.

(* --- Numbers equal to zero -------------------------------------------------------- *)
Definition zeronum (e : ex) : Prop := exists n, e = ENum n /\ nval n = 0.
Lemma zeronum_ev r e : zeronum e -> ev r e = Some 0.
Proof. intros (n & -> & H). simpl. now rewrite H. Qed.
Lemma zeronum_dbl : zeronum (dbl o 0).
Proof. exists (n_lit o 0). split; [reflexivity | apply (l_lit RG)]. Qed.
Lemma not_one n : nval n = 0 -> n_isz o 1 n = false.
Proof.
  intros H. destruct (n_isz o 1 n) eqn:E; [|reflexivity]. apply (l_isz RG) in E. lra.
Qed.
Lemma mk_mul_zero_r g z : zeronum z -> zeronum (mk_mul o g z).
Proof.
  intros (n & -> & Hn). unfold mk_mul.
  assert (Hz : n_isz o 0 n = true) by (apply (l_isz RG); exact Hn).
  destruct g as [m|s|i|f l].
  - exists (n_mul o m n). split; [reflexivity|]. rewrite (l_mul RG), Hn. ring.
  - exists n. split; [|exact Hn]. unfold mk_prod. simpl. now rewrite (not_one n Hn), Hz.
  - exists n. split; [|exact Hn]. unfold mk_prod. simpl. now rewrite (not_one n Hn), Hz.
  - exists n. split; [|exact Hn]. unfold mk_prod. simpl. now rewrite (not_one n Hn), Hz.
Qed.
Lemma mk_mul_zero_l g z : zeronum z -> zeronum (mk_mul o z g).
Proof.
  intros (n & -> & Hn). unfold mk_mul.
  assert (Hz : n_isz o 0 n = true) by (apply (l_isz RG); exact Hn).
  destruct g as [m|s|i|f l].
  - exists (n_mul o n m). split; [reflexivity|]. rewrite (l_mul RG), Hn. ring.
  - exists n. split; [|exact Hn]. unfold mk_prod. simpl. now rewrite (not_one n Hn), Hz.
  - exists n. split; [|exact Hn]. unfold mk_prod. simpl. now rewrite (not_one n Hn), Hz.
  - exists n. split; [|exact Hn]. unfold mk_prod. simpl. now rewrite (not_one n Hn), Hz.
Qed.
Lemma mk_sum_zeros l : Forall zeronum l -> zeronum (mk_sum o l).
Proof.
  intros H. unfold mk_sum. cbn [part fst].
  assert (Ho : filter (fun e => negb (is_num o e)) l = []).
  { induction H as [|e l (n & -> & Hn) HF IH]; [reflexivity|]. simpl. exact IH. }
  rewrite Ho.
  assert (Hs : rsum (map nval (nums o l)) = 0).
  { clear Ho. induction H as [|e l (n & -> & Hn) HF IH]; [reflexivity|]. simpl. unfold rsum in *. lra. }
  destruct (nums o l) as [|n0 rest]; [apply zeronum_dbl|].
  assert (Hn : nval (fold_left (n_add o) rest n0) = 0).
  { rewrite (fold_add RG). exact Hs. }
  rewrite (proj2 (l_isz RG 0 _) Hn). exists (fold_left (n_add o) rest n0). auto.
Qed.

(* A subexpression without d has the derivative zero. *)
Lemma diff_const : forall e e', ~ occurs (dex d) e -> diff o ug d e = Some e' -> zeronum e'.
Proof.
  clear Ht0.
  induction e as [n|s|i|f args IH] using expr_ind'; intros e' Hno Hd.
  - simpl in Hd. injection Hd as <-. exists (n_zero_of o n). split; [destruct d; reflexivity | apply (l_zero RG)].
  - simpl in Hd. injection Hd as <-. destruct d as [x|i]; simpl; [|apply zeronum_dbl].
    destruct (String.eqb_spec s x) as [->|]; [|apply zeronum_dbl]. exfalso. apply Hno. constructor.
  - simpl in Hd. injection Hd as <-. destruct d as [x|j]; simpl; [apply zeronum_dbl|].
    destruct (Nat.eqb_spec i j) as [->|]; [|apply zeronum_dbl]. exfalso. apply Hno. constructor.
  - cbn [diff] in Hd. destruct (oseq (map (diff o ug d) args)) as [dargs|] eqn:E; [|discriminate].
    unfold diff_node in Hd. destruct (gradient o ug f args) as [g|]; [|discriminate]. injection Hd as <-.
    assert (HZ : Forall zeronum dargs).
    { apply oseq_forall2 in E. revert dargs E. clear g.
      assert (Hno' : forall a, In a args -> ~ occurs (dex d) a).
      { intros a Ha Ho. apply Hno. eapply occ_arg; eauto. }
      clear Hno. induction IH as [|a l Ha HF IHl]; intros dargs E; inversion E; subst; constructor.
      - apply Ha; [apply Hno'; now left | assumption].
      - apply IHl; [intros; apply Hno'; now right | assumption]. }
    apply mk_sum_zeros. clear - HZ L. revert g.
    induction HZ as [|z l Hz HF IH]; intros [|x g]; simpl; constructor; auto.
    now apply mk_mul_zero_r.
Qed.

(* --- Gradients of unary functions --------------------------------------------------- *)
Lemma ev_one : ev rho (dbl o 1) = Some 1. Proof. apply (ev_dbl RG). Qed.
Lemma pow2_ok a x : ev rho a = Some x -> ev rho (mk_pow o a (dbl o 2)) = Some (x * x).
Proof.
  intros H. apply (mk_pow_ok RG rho _ _ x 2); [exact TR | exact H | apply (ev_dbl RG) | apply rpow_2].
Qed.
Lemma inv_ok a x : ev rho a = Some x -> x <> 0 -> ev rho (mk_pow o a (dbl o (-1))) = Some (/ x).
Proof.
  intros H Hx. apply (mk_pow_ok RG rho _ _ x (-1)); [exact TR | exact H | apply (ev_dbl RG) |].
  rewrite rpow_m1. destruct (Req_EM_T x 0); [contradiction | reflexivity].
Qed.
Lemma mhalf_ok a x : ev rho a = Some x -> 0 < x ->
  ev rho (mk_pow o a (ENum (n_hlf o (-1)))) = Some (/ sqrt x).
Proof.
  intros H Hx. apply (mk_pow_ok RG rho _ _ x (-1 / 2)); [exact TR | exact H | | now apply rpow_mhalf].
  simpl. now rewrite (l_hlf RG).
Qed.
Lemma fn_ok u a x v : ev rho a = Some x -> usem u x = Some v -> ev rho (mk_fun o u a) = Some v.
Proof. intros Ha Hv. eapply mk_fun_ok; [exact TR | exact Ha | exact Hv]. Qed.
Lemma sub_ok a b x y : ev rho a = Some x -> ev rho b = Some y -> ev rho (mk_sub o a b) = Some (x - y).
Proof. apply (mk_sub_ok RG). Qed.
Lemma add_ok a b x y : ev rho a = Some x -> ev rho b = Some y -> ev rho (mk_add o a b) = Some (x + y).
Proof. apply (mk_add_ok RG). Qed.
Lemma mul_ok a b x y : ev rho a = Some x -> ev rho b = Some y -> ev rho (mk_mul o a b) = Some (x * y).
Proof. apply (mk_mul_ok RG). Qed.
Lemma neg_ok a x : ev rho a = Some x -> ev rho (mk_neg o a) = Some (- x).
Proof. apply (mk_neg_ok RG). Qed.

Lemma ugrad_ok u a x : uopen u x -> ev rho a = Some x -> ev rho (ugrad o u a) = Some (uder u x).
Proof.
  intros Hu Ha. destruct u; cbn [ugrad uder uopen] in *.
  - now apply (fn_ok Ucos a x).
  - apply neg_ok. now apply (fn_ok Usin a x).
  - apply add_ok; [apply ev_one|]. apply pow2_ok. apply (fn_ok Utan a x); auto.
    cbn. now apply guard_true.
  - now apply (fn_ok Ucosh a x).
  - now apply (fn_ok Usinh a x).
  - apply sub_ok; [apply ev_one|]. apply pow2_ok. now apply (fn_ok Utanh a x).
  - apply mhalf_ok; [|nra]. apply sub_ok; [apply ev_one | now apply pow2_ok].
  - apply neg_ok. apply mhalf_ok; [|nra]. apply sub_ok; [apply ev_one | now apply pow2_ok].
  - apply inv_ok; [|nra]. apply add_ok; [apply ev_one | now apply pow2_ok].
  - apply mhalf_ok; [|nra]. apply add_ok; [now apply pow2_ok | apply ev_one].
  - apply mhalf_ok; [|nra]. apply sub_ok; [now apply pow2_ok | apply ev_one].
  - apply inv_ok; [|nra]. apply sub_ok; [apply ev_one | now apply pow2_ok].
  - now apply (fn_ok Uexp a x).
  - apply inv_ok; auto. lra.
  - apply mul_ok.
    + apply (mk_div_ok RG); [exact TR | apply (ev_dbl RG) | |].
      * apply (mk_sqrt_ok RG); [exact TR | reflexivity | left; apply PI_RGT_0].
      * apply Rgt_not_eq, sqrt_lt_R0, PI_RGT_0.
    + apply (fn_ok Uexp _ (- (x * x))); [|reflexivity]. apply neg_ok. now apply pow2_ok.
  - apply mul_ok.
    + apply sub_ok; [apply ev_one|]. now apply (fn_ok Usigmoid a x).
    + now apply (fn_ok Usigmoid a x).
  - now apply (fn_ok Uccos a x).
  - apply neg_ok. now apply (fn_ok Ucsin a x).
Qed.

(* --- The chain rule at a node --------------------------------------------------------- *)
(* What is known about an argument: its value v, the curve c it describes when
   d varies, the derivative dd of the curve and the expression a' computing it. *)
Record arginfo (a : ex) (v : R) (c : R -> R) (dd : R) (a' : ex) : Prop := {
  ai_val : ev rho a = Some v;
  ai_at : c t0 = v;
  ai_der : is_derive c t0 dd;
  ai_loc : locally t0 (fun t => ev (upd d t rho) a = Some (c t));
  ai_ev : ev rho a' = Some dd;
  ai_const : ~ occurs (dex d) a -> (forall t, c t = v) /\ zeronum a' /\ dd = 0
}.
Inductive infos : list ex -> list R -> list (R -> R) -> list R -> list ex -> Prop :=
| in_nil : infos [] [] [] [] []
| in_cons a v c dd a' la lv lc ld la' :
    arginfo a v c dd a' -> infos la lv lc ld la' ->
    infos (a :: la) (v :: lv) (c :: lc) (dd :: ld) (a' :: la').

Definition derivable_at (e : ex) : Prop :=
  smooth o nval ug d rho t0 e -> forall e', diff o ug d e = Some e' ->
  exists v', ev rho e' = Some v' /\ hasd (along e) t0 v'.

Lemma occurs_dec (e : ex) : {occurs (dex d) e} + {~ occurs (dex d) e}.
Proof.
  set (p := fun x : ex => match x, d with
                          | EVar s, DVar t => String.eqb s t
                          | EPar i, DPar j => Nat.eqb i j
                          | _, _ => false
                          end).
  assert (Hp : forall x, p x = true <-> x = dex d).
  { intros x. unfold p. destruct x, d; simpl; split; intros H; try discriminate.
    - apply String.eqb_eq in H. now subst.
    - injection H as ->. apply String.eqb_refl.
    - apply Nat.eqb_eq in H. now subst.
    - injection H as ->. apply Nat.eqb_refl. }
  destruct (test_any o p e) eqn:E.
  - left. apply test_any_spec in E. destruct E as (x & Hx & H). apply Hp in H. now subst.
  - right. intros Ho. assert (test_any o p e = true); [|congruence].
    apply test_any_spec. exists (dex d). split; [exact Ho | now apply Hp].
Qed.

Lemma mk_arginfo a v a' : derivable_at a -> smooth o nval ug d rho t0 a -> ev rho a = Some v ->
  diff o ug d a = Some a' -> exists c dd, arginfo a v c dd a'.
Proof.
  intros Hd Hs Hv Ha'. destruct (occurs_dec a) as [Ho|Hno].
  - destruct (Hd Hs a' Ha') as (dd & Hdd & c & Hloc & Hder).
    exists c, dd. split; auto.
    + apply locally_singleton in Hloc. rewrite ev_upd_t0 in Hloc. congruence.
    + intros Hno. contradiction.
  - pose proof (diff_const a a' Hno Ha') as Hz.
    exists (fun _ => v), 0. split; auto.
    + apply is_derive_const_R.
    + apply filter_forall. intros t. now rewrite ev_upd_const.
    + now apply zeronum_ev.
Qed.
Lemma mk_infos : forall args vs dargs,
  Forall derivable_at args ->
  Forall2 (fun a v => smooth o nval ug d rho t0 a /\ ev rho a = Some v) args vs ->
  oseq (map (diff o ug d) args) = Some dargs ->
  exists cs ds, infos args vs cs ds dargs.
Proof.
  induction args as [|a l IH]; intros vs dargs HD HV HO; inversion HV; subst.
  - injection HO as <-. exists [], []. constructor.
  - cbn [map] in HO. apply oseq_cons_some in HO. destruct HO as (a' & dl & Ha' & Hdls & ->).
    inversion HD as [|? ? Hda Hdl]; subst.
    match goal with H : smooth _ _ _ _ _ _ a /\ _ |- _ => destruct H as [Hs Hv] end.
    destruct (mk_arginfo a _ a' Hda Hs Hv Ha') as (c & dd & Hi).
    edestruct IH as (cs & ds & Hr); eauto.
    exists (c :: cs), (dd :: ds). constructor; auto.
Qed.

Lemma infos_der args vs cs ds dargs : infos args vs cs ds dargs ->
  Forall2 (fun c dd => is_derive c t0 dd) cs ds.
Proof. induction 1 as [|? ? ? ? ? ? ? ? ? ? H HI IH]; constructor; auto. apply H. Qed.
Lemma infos_at args vs cs ds dargs : infos args vs cs ds dargs -> at_t cs t0 = vs.
Proof.
  induction 1 as [|? ? ? ? ? ? ? ? ? ? H HI IH]; [reflexivity|]. simpl. rewrite (ai_at _ _ _ _ _ H).
  now rewrite <- IH.
Qed.
Lemma infos_vals args vs cs ds dargs : infos args vs cs ds dargs -> oseq (map (ev rho) args) = Some vs.
Proof.
  induction 1 as [|? ? ? ? ? ? ? ? ? ? H HI IH]; [reflexivity|].
  cbn [map]. rewrite oseq_cons, (ai_val _ _ _ _ _ H), IH. reflexivity.
Qed.
Lemma infos_dvals args vs cs ds dargs : infos args vs cs ds dargs ->
  Forall2 (fun e v => ev rho e = Some v) dargs ds.
Proof. induction 1 as [|? ? ? ? ? ? ? ? ? ? H HI IH]; constructor; auto. apply H. Qed.
Lemma infos_loc args vs cs ds dargs : infos args vs cs ds dargs ->
  locally t0 (fun t => oseq (map (ev (upd d t rho)) args) = Some (at_t cs t)).
Proof.
  induction 1 as [|? ? ? ? ? ? ? ? ? ? H HI IH]; [apply filter_forall; reflexivity|].
  generalize (ai_loc _ _ _ _ _ H) IH. apply filter_imp2. intros t H1 H2.
  cbn [map at_t]. rewrite oseq_cons, H1, H2. reflexivity.
Qed.
Lemma infos_length args vs cs ds dargs : infos args vs cs ds dargs ->
  length vs = length args /\ length cs = length args.
Proof. induction 1 as [|? ? ? ? ? ? ? ? ? ? H HI IH]; simpl; lia. Qed.

(* The value of the chain rule's expression. *)
Lemma chain_value gexs gs dargs ds :
  Forall2 (fun e g => ev rho e = Some g) gexs gs ->
  Forall2 (fun e v => ev rho e = Some v) dargs ds ->
  ev rho (mk_sum o (map (fun p => mk_mul o (fst p) (snd p)) (combine gexs dargs))) = Some (dot gs ds).
Proof.
  intros Hg Hd. unfold dot. apply (mk_sum_ok RG). apply oseq_forall2.
  revert dargs ds Hd. induction Hg as [|e g gexs gs H HF IH]; intros dargs ds Hd; [constructor|].
  destruct Hd as [|a v dargs ds Hv HD]; cbn [combine map]; constructor.
  - now apply mul_ok.
  - now apply IH.
Qed.

Lemma strict_along f args vs cs ds dargs w :
  f <> Fselect -> infos args vs cs ds dargs ->
  hasd (fun t => ssem o nval rho f (at_t cs t)) t0 w ->
  hasd (along (EFun f args)) t0 w.
Proof.
  intros Hf Hi H. eapply hasd_ext; [|exact H].
  generalize (infos_loc _ _ _ _ _ Hi). apply filter_imp. intros t Ht.
  cbn [eval]. rewrite fsem_strict by assumption. rewrite Ht. symmetry. apply ssem_upd.
Qed.
Lemma node_ok f args vs cs ds dargs gexs gs e' :
  f <> Fselect -> infos args vs cs ds dargs ->
  gradient o ug f args = Some gexs ->
  Forall2 (fun e g => ev rho e = Some g) gexs gs ->
  hasd (fun t => ssem o nval rho f (at_t cs t)) t0 (dot gs ds) ->
  diff_node o ug f args dargs = Some e' ->
  exists v', ev rho e' = Some v' /\ hasd (along (EFun f args)) t0 v'.
Proof.
  intros Hf Hi Hg Hge Hd He. unfold diff_node in He. rewrite Hg in He. injection He as <-.
  exists (dot gs ds). split.
  - apply chain_value; [exact Hge | eapply infos_dvals; eassumption].
  - eapply strict_along; eassumption.
Qed.

Lemma infos1 a v cs ds dargs : infos [a] [v] cs ds dargs ->
  exists c dd a', cs = [c] /\ ds = [dd] /\ dargs = [a'] /\ arginfo a v c dd a'.
Proof. intros H. inversion H as [|? ? c dd a' ? ? ? ? ? Hi Hr]; subst. inversion Hr; subst. eauto 10. Qed.
Lemma infos2 a b v w cs ds dargs : infos [a; b] [v; w] cs ds dargs ->
  exists c dd a' c2 d2 b', cs = [c; c2] /\ ds = [dd; d2] /\ dargs = [a'; b'] /\
    arginfo a v c dd a' /\ arginfo b w c2 d2 b'.
Proof.
  intros H. inversion H as [|? ? c dd a' ? ? ? ? ? Hi Hr]; subst.
  destruct (infos1 _ _ _ _ _ Hr) as (c2 & d2 & b' & -> & -> & -> & H2). eauto 20.
Qed.
Lemma infos3 a b e v w u cs ds dargs : infos [a; b; e] [v; w; u] cs ds dargs ->
  exists c dd a' c2 d2 b' c3 d3 e', cs = [c; c2; c3] /\ ds = [dd; d2; d3] /\ dargs = [a'; b'; e'] /\
    arginfo a v c dd a' /\ arginfo b w c2 d2 b' /\ arginfo e u c3 d3 e'.
Proof.
  intros H. inversion H as [|? ? c dd a' ? ? ? ? ? Hi Hr]; subst.
  destruct (infos2 _ _ _ _ _ _ _ Hr) as (c2 & d2 & b' & c3 & d3 & e' & -> & -> & -> & H2 & H3). eauto 20.
Qed.
Lemma dot1 a x : dot [a] [x] = a * x. Proof. unfold dot, rsum. simpl. lra. Qed.
Lemma dot2 a b x y : dot [a; b] [x; y] = a * x + b * y. Proof. unfold dot, rsum. simpl. lra. Qed.
Lemma dot3 a b c x y z : dot [a; b; c] [x; y; z] = a * x + b * y + c * z.
Proof. unfold dot, rsum. simpl. lra. Qed.
Lemma arginfo_cont a v c dd a' : arginfo a v c dd a' -> continuous c t0.
Proof. intros H. eapply derive_continuous. apply H. Qed.

Lemma lib_ok f args vs cs ds dargs e' :
  infos args vs cs ds dargs -> open_dom o d f args vs ->
  diff_node o ug f args dargs = Some e' ->
  exists v', ev rho e' = Some v' /\ hasd (along (EFun f args)) t0 v'.
Proof.
  intros Hi Hdom He. pose proof (infos_vals _ _ _ _ _ Hi) as Hvals.
  pose proof (infos_at _ _ _ _ _ Hi) as Hat.
  destruct f; cbn [open_dom] in Hdom.
  - (* sum *)
    apply (node_ok Fsum args vs cs ds dargs (map (fun _ => dbl o 1) args) (map (fun _ => 1) args));
      try assumption; try discriminate; try reflexivity.
    + clear - L. induction args; simpl; constructor; auto. apply ev_one.
    + replace (dot (map (fun _ => 1) args) ds) with (rsum ds).
      * apply hasd_fun. apply is_derive_rsum. eapply infos_der; eassumption.
      * clear - Hi. induction Hi as [|? ? ? ? ? ? ? ? ? ? H HI IH]; [reflexivity|].
        cbn [map]. rewrite dot_cons, rsum_cons, IH. ring.
  - (* prod *)
    destruct (infos_length _ _ _ _ _ Hi) as [Hl1 Hl2].
    apply (node_ok Fprod args vs cs ds dargs
             (map (fun i => mk_prod o (drop_nth i args)) (seq 0 (length args)))
             (map (fun i => others i vs) (seq 0 (length args))));
      try assumption; try discriminate; try reflexivity.
    + generalize (seq 0 (length args)). intros l. induction l as [|i l IH]; cbn [map]; constructor; auto.
      apply (mk_prod_ok RG). unfold drop_nth. rewrite map_app, <- firstn_map, <- skipn_map.
      apply oseq_forall2 in Hvals. apply oseq_forall2. clear - Hvals.
      revert i. induction Hvals as [|x y l l' H HF IH]; intros [|i]; cbn [firstn skipn app].
      * constructor.
      * constructor.
      * exact HF.
      * constructor; [exact H | apply IH].
    + apply hasd_fun. rewrite <- Hl2, <- Hat. apply is_derive_rprod. eapply infos_der; eassumption.
  - (* pow *)
    destruct args as [|b [|x [|]]]; try contradiction. destruct vs as [|vb [|vx [|]]]; try contradiction.
    destruct (infos2 _ _ _ _ _ _ _ Hi) as (cb & db & b' & cx & dx & x' & -> & -> & -> & Ib & Ix).
    destruct Hdom as [Hpos|(Hno & k & Hk & Hor)].
    + apply (node_ok Fpow [b; x] [vb; vx] [cb; cx] [db; dx] [b'; x']
               [mk_mul o x (mk_pow o b (mk_sub o x (dbl o 1))); mk_mul o (mk_pow o b x) (mk_fun o Ulog b)]
               [vx * Rpower vb (vx - 1); Rpower vb vx * ln vb]);
        try assumption; try discriminate; try reflexivity.
      * constructor; [|constructor; [|constructor]].
        -- apply mul_ok; [apply Ix|]. apply (mk_pow_ok RG rho _ _ vb (vx - 1)); [exact TR | apply Ib | |].
           ++ apply sub_ok; [apply Ix | apply ev_one].
           ++ now apply rpow_pos.
        -- apply mul_ok.
           ++ apply (mk_pow_ok RG rho _ _ vb vx); [exact TR | apply Ib | apply Ix | now apply rpow_pos].
           ++ apply (fn_ok Ulog _ vb); [apply Ib|]. now apply guard_true.
      * rewrite dot2. rewrite <- (ai_at _ _ _ _ _ Ib), <- (ai_at _ _ _ _ _ Ix).
        apply (hasd_pow_pos cb cx); [rewrite (ai_at _ _ _ _ _ Ib); exact Hpos | apply Ib | apply Ix].
    + subst vx. destruct (ai_const _ _ _ _ _ Ix Hno) as (Hc & Hz & ->).
      unfold diff_node in He. cbn [gradient combine map fst snd] in He. injection He as <-.
      exists (rsum [IZR k * powerRZ vb (k - 1) * db; 0]). split.
      * apply (mk_sum_ok RG). cbn [map]. rewrite !oseq_cons.
        rewrite (mul_ok _ b' (IZR k * powerRZ vb (k - 1)) db).
        -- rewrite (zeronum_ev rho _ (mk_mul_zero_r _ _ Hz)). reflexivity.
        -- apply mul_ok; [apply Ix|].
           apply (mk_pow_ok RG rho _ _ vb (IZR k - 1)); [exact TR | apply Ib | |].
           ++ apply sub_ok; [apply Ix | apply ev_one].
           ++ now apply rpow_int_at.
        -- apply Ib.
      * eapply strict_along; [discriminate | exact Hi|].
        apply (hasd_ext (fun t => rpow (cb t) (IZR k))).
        -- apply filter_forall. intros t. cbn. now rewrite Hc.
        -- eapply hasd_eq; [|apply (hasd_pow_int k cb t0 db)].
           ++ rewrite (ai_at _ _ _ _ _ Ib). unfold rsum. simpl. ring.
           ++ rewrite (ai_at _ _ _ _ _ Ib). exact Hor.
           ++ apply Ib.
  - contradiction.
  - contradiction.
  - contradiction.
  - contradiction.
  - (* unary *)
    destruct args as [|x [|]]; try contradiction. destruct vs as [|v [|]]; try contradiction.
    destruct (infos1 _ _ _ _ _ Hi) as (c & dd & x' & -> & -> & -> & Ix).
    apply (node_ok (Fu u) [x] [v] [c] [dd] [x'] [ugrad o u x] [uder u v]);
      try assumption; try discriminate; try reflexivity.
    + constructor; [|constructor]. apply ugrad_ok; [exact Hdom | apply Ix].
    + rewrite dot1, <- (ai_at _ _ _ _ _ Ix). apply (hasd_unary u c); [|apply Ix].
      rewrite (ai_at _ _ _ _ _ Ix). exact Hdom.
  - (* atan2 *)
    destruct args as [|y [|x [|]]]; try contradiction. destruct vs as [|vy [|vx [|]]]; try contradiction.
    destruct (infos2 _ _ _ _ _ _ _ Hi) as (cy & dy & y' & cx & dx & x' & -> & -> & -> & Iy & Ix).
    assert (Hden : vx * vx + vy * vy <> 0) by (destruct Hdom; nra).
    assert (Hd1 : ev rho (mk_pow o (mk_add o (mk_pow o x (dbl o 2)) (mk_pow o y (dbl o 2))) (dbl o (-1)))
                  = Some (/ (vx * vx + vy * vy))).
    { apply inv_ok; [|exact Hden]. apply add_ok; apply pow2_ok; [apply Ix | apply Iy]. }
    apply (node_ok Fatan2 [y; x] [vy; vx] [cy; cx] [dy; dx] [y'; x']
       [mk_mul o x (mk_pow o (mk_add o (mk_pow o x (dbl o 2)) (mk_pow o y (dbl o 2))) (dbl o (-1)));
        mk_mul o (mk_neg o y) (mk_pow o (mk_add o (mk_pow o x (dbl o 2)) (mk_pow o y (dbl o 2))) (dbl o (-1)))]
       [vx * / (vx * vx + vy * vy); - vy * / (vx * vx + vy * vy)]);
      try assumption; try discriminate; try reflexivity.
    + constructor; [|constructor; [|constructor]].
      * apply mul_ok; [apply Ix | exact Hd1].
      * apply mul_ok; [apply neg_ok, Iy | exact Hd1].
    + rewrite dot2. rewrite <- (ai_at _ _ _ _ _ Iy), <- (ai_at _ _ _ _ _ Ix).
      apply (hasd_atan2 cy cx); [|apply Iy | apply Ix].
      rewrite (ai_at _ _ _ _ _ Iy), (ai_at _ _ _ _ _ Ix). exact Hdom.
  - (* relu *)
    destruct args as [|x [|]]; try contradiction. destruct vs as [|v [|]]; try contradiction.
    destruct (infos1 _ _ _ _ _ Hi) as (c & dd & x' & -> & -> & -> & Ix).
    apply (node_ok (Frelu slope) [x] [v] [c] [dd] [x'] [mk_relup o slope x] [if Rlt_dec 0 v then 1 else nval slope]);
      try assumption; try discriminate; try reflexivity.
    + constructor; [|constructor]. apply (mk_relup_ok RG). apply Ix.
    + rewrite dot1, <- (ai_at _ _ _ _ _ Ix). apply (hasd_relu (nval slope) c); [|apply Ix].
      rewrite (ai_at _ _ _ _ _ Ix). exact Hdom.
  - (* relup *)
    destruct args as [|x [|]]; try contradiction. destruct vs as [|v [|]]; try contradiction.
    destruct (infos1 _ _ _ _ _ Hi) as (c & dd & x' & -> & -> & -> & Ix).
    apply (node_ok (Frelup slope) [x] [v] [c] [dd] [x'] [dbl o 0] [0]);
      try assumption; try discriminate; try reflexivity.
    + constructor; [|constructor]. apply (ev_dbl RG).
    + rewrite dot1, Rmult_0_l. apply (hasd_relup (nval slope) c t0 dd); [|apply Ix].
      rewrite (ai_at _ _ _ _ _ Ix). exact Hdom.
  - contradiction.
  - (* relational *)
    destruct args as [|a [|b [|]]]; try contradiction. destruct vs as [|va [|vb [|]]]; try contradiction.
    destruct (infos2 _ _ _ _ _ _ _ Hi) as (ca & da & a' & cb & db & b' & -> & -> & -> & Ia & Ib).
    apply (node_ok (Frel op) [a; b] [va; vb] [ca; cb] [da; db] [a'; b'] [dbl o 0; dbl o 0] [0; 0]);
      try assumption; try discriminate; try reflexivity.
    + constructor; [|constructor; [|constructor]]; apply (ev_dbl RG).
    + rewrite dot2, !Rmult_0_l, Rplus_0_l. apply (hasd_rel op ca cb t0 da db); [|apply Ia | apply Ib].
      rewrite (ai_at _ _ _ _ _ Ia), (ai_at _ _ _ _ _ Ib). exact Hdom.
  - contradiction.
  - contradiction.
  - (* kepE *)
    destruct args as [|e [|M [|]]]; try contradiction. destruct vs as [|ve [|vM [|]]]; try contradiction.
    destruct (infos2 _ _ _ _ _ _ _ Hi) as (ce & de & e2 & cM & dM & M' & -> & -> & -> & Ie & IM).
    assert (He01 : 0 <= ve < 1) by (destruct Hdom; lra).
    assert (Hsol : exists E, kep_sol 0 (- ve) vM = Some E).
    { unfold kep_sol. destruct (Rlt_dec (0 ^ 2 + (- ve) ^ 2) 1) as [H|H]; [eauto | nra]. }
    destruct Hsol as [E HE].
    assert (HEv : ev rho (EFun FkepE [e; M]) = Some E).
    { cbn [eval map]. rewrite fsem_strict by discriminate. cbn [map] in Hvals. rewrite Hvals. cbn.
      destruct (Rle_dec 0 ve); [exact HE | lra]. }
    pose proof (kep_deriv_pos 0 (- ve) E ltac:(nra)) as Hdp.
    assert (Hden : ev rho (mk_pow o (mk_sub o (dbl o 1) (mk_mul o e (mk_fun o Ucos (EFun FkepE [e; M])))) (dbl o (-1)))
                   = Some (/ (1 - ve * cos E))).
    { apply inv_ok; [|lra]. apply sub_ok; [apply ev_one|]. apply mul_ok; [apply Ie|].
      now apply (fn_ok Ucos _ E). }
    apply (node_ok FkepE [e; M] [ve; vM] [ce; cM] [de; dM] [e2; M']
       [mk_mul o (mk_fun o Usin (EFun FkepE [e; M]))
          (mk_pow o (mk_sub o (dbl o 1) (mk_mul o e (mk_fun o Ucos (EFun FkepE [e; M])))) (dbl o (-1)));
        mk_pow o (mk_sub o (dbl o 1) (mk_mul o e (mk_fun o Ucos (EFun FkepE [e; M])))) (dbl o (-1))]
       [sin E * / (1 - ve * cos E); / (1 - ve * cos E)]);
      try assumption; try discriminate; try reflexivity.
    + constructor; [|constructor; [exact Hden | constructor]].
      apply mul_ok; [now apply (fn_ok Usin _ E) | exact Hden].
    + rewrite dot2.
      apply (hasd_ext (fun t => kep_sol 0 (- ce t) (cM t))).
      * cbn [at_t map ssem].
        assert (Hge : locally t0 (fun t => 0 <= ce t)).
        { destruct Hdom as [[Hp _]|[_ Hno]].
          - assert (Hc := arginfo_cont _ _ _ _ _ Ie).
            rewrite <- (ai_at _ _ _ _ _ Ie) in Hp.
            generalize (locally_comp ce t0 _ Hc (locally_gt 0 (ce t0) Hp)). apply filter_imp. intros t Ht. lra.
          - destruct (ai_const _ _ _ _ _ Ie Hno) as (Hc & _). apply filter_forall. intros t. rewrite Hc. lra. }
        revert Hge. apply filter_imp. intros t Ht. destruct (Rle_dec 0 (ce t)); [reflexivity | contradiction].
      * eapply hasd_eq; [|apply (hasd_kep (fun _ => 0) (fun t => - ce t) cM t0 0 (- de) dM E)].
        -- cbv beta. rewrite (ai_at _ _ _ _ _ Ie). field. lra.
        -- apply is_derive_const_R.
        -- apply is_derive_opp_R. apply Ie.
        -- apply IM.
        -- cbv beta. rewrite (ai_at _ _ _ _ _ Ie), (ai_at _ _ _ _ _ IM). exact HE.
  - (* kepF *)
    destruct args as [|h [|k [|l [|]]]]; try contradiction.
    destruct vs as [|vh [|vk [|vl [|]]]]; try contradiction.
    destruct (infos3 _ _ _ _ _ _ _ _ _ Hi)
      as (ch & dh & h' & ck & dk & k' & cl & dl & l' & -> & -> & -> & Ih & Ik & Il).
    assert (Hsol : exists E, kep_sol vh (- vk) vl = Some E).
    { unfold kep_sol. destruct (Rlt_dec (vh ^ 2 + (- vk) ^ 2) 1) as [H|H]; [eauto | nra]. }
    destruct Hsol as [E HE].
    assert (HEv : ev rho (EFun FkepF [h; k; l]) = Some E).
    { cbn [eval map]. rewrite fsem_strict by discriminate. cbn [map] in Hvals. rewrite Hvals. exact HE. }
    pose proof (kep_deriv_pos vh (- vk) E ltac:(nra)) as Hdp.
    set (F := EFun FkepF [h; k; l]) in *.
    set (den := mk_pow o (mk_sub o (mk_sub o (dbl o 1) (mk_mul o h (mk_fun o Usin F))) (mk_mul o k (mk_fun o Ucos F))) (dbl o (-1))).
    assert (Hden : ev rho den = Some (/ (1 - vh * sin E - vk * cos E))).
    { apply inv_ok; [|lra]. apply sub_ok; [apply sub_ok; [apply ev_one|]|].
      - apply mul_ok; [apply Ih | now apply (fn_ok Usin _ E)].
      - apply mul_ok; [apply Ik | now apply (fn_ok Ucos _ E)]. }
    apply (node_ok FkepF [h; k; l] [vh; vk; vl] [ch; ck; cl] [dh; dk; dl] [h'; k'; l']
       [mk_mul o (mk_neg o (mk_fun o Ucos F)) den; mk_mul o (mk_fun o Usin F) den; den]
       [- cos E * / (1 - vh * sin E - vk * cos E); sin E * / (1 - vh * sin E - vk * cos E);
        / (1 - vh * sin E - vk * cos E)]);
      try assumption; try discriminate; try reflexivity.
    + constructor; [|constructor; [|constructor; [exact Hden | constructor]]].
      * apply mul_ok; [|exact Hden]. apply neg_ok. now apply (fn_ok Ucos _ E).
      * apply mul_ok; [|exact Hden]. now apply (fn_ok Usin _ E).
    + rewrite dot3. cbn [at_t map ssem].
      eapply hasd_eq; [|apply (hasd_kep ch (fun t => - ck t) cl t0 dh (- dk) dl E)].
      * cbv beta. rewrite (ai_at _ _ _ _ _ Ih), (ai_at _ _ _ _ _ Ik). field. lra.
      * apply Ih.
      * apply is_derive_opp_R. apply Ik.
      * apply Il.
      * cbv beta. rewrite (ai_at _ _ _ _ _ Ih), (ai_at _ _ _ _ _ Ik), (ai_at _ _ _ _ _ Il). exact HE.
  - (* kepDE *)
    destruct args as [|h [|k [|l [|]]]]; try contradiction.
    destruct vs as [|vh [|vk [|vl [|]]]]; try contradiction.
    destruct (infos3 _ _ _ _ _ _ _ _ _ Hi)
      as (ch & dh & h' & ck & dk & k' & cl & dl & l' & -> & -> & -> & Ih & Ik & Il).
    assert (Hsol : exists E, kep_sol (- vh) (- vk) (vl - vh) = Some E).
    { unfold kep_sol. destruct (Rlt_dec ((- vh) ^ 2 + (- vk) ^ 2) 1) as [H|H]; [eauto | nra]. }
    destruct Hsol as [E HE].
    assert (HEv : ev rho (EFun FkepDE [h; k; l]) = Some E).
    { cbn [eval map]. rewrite fsem_strict by discriminate. cbn [map] in Hvals. rewrite Hvals. exact HE. }
    pose proof (kep_deriv_pos (- vh) (- vk) E ltac:(nra)) as Hdp.
    set (F := EFun FkepDE [h; k; l]) in *.
    set (den := mk_pow o (mk_sub o (mk_add o (dbl o 1) (mk_mul o h (mk_fun o Usin F))) (mk_mul o k (mk_fun o Ucos F))) (dbl o (-1))).
    assert (Hden : ev rho den = Some (/ (1 + vh * sin E - vk * cos E))).
    { apply inv_ok; [|lra]. apply sub_ok; [apply add_ok; [apply ev_one|]|].
      - apply mul_ok; [apply Ih | now apply (fn_ok Usin _ E)].
      - apply mul_ok; [apply Ik | now apply (fn_ok Ucos _ E)]. }
    apply (node_ok FkepDE [h; k; l] [vh; vk; vl] [ch; ck; cl] [dh; dk; dl] [h'; k'; l']
       [mk_mul o (mk_sub o (mk_fun o Ucos F) (dbl o 1)) den; mk_mul o (mk_fun o Usin F) den; den]
       [(cos E - 1) * / (1 + vh * sin E - vk * cos E); sin E * / (1 + vh * sin E - vk * cos E);
        / (1 + vh * sin E - vk * cos E)]);
      try assumption; try discriminate; try reflexivity.
    + constructor; [|constructor; [|constructor; [exact Hden | constructor]]].
      * apply mul_ok; [|exact Hden]. apply sub_ok; [now apply (fn_ok Ucos _ E) | apply ev_one].
      * apply mul_ok; [|exact Hden]. now apply (fn_ok Usin _ E).
    + rewrite dot3. cbn [at_t map ssem].
      eapply hasd_eq; [|apply (hasd_kep (fun t => - ch t) (fun t => - ck t) (fun t => cl t - ch t) t0 (- dh) (- dk) (dl - dh) E)].
      * cbv beta. rewrite (ai_at _ _ _ _ _ Ih), (ai_at _ _ _ _ _ Ik). field. lra.
      * apply is_derive_opp_R. apply Ih.
      * apply is_derive_opp_R. apply Ik.
      * apply (is_derive_minus cl ch t0 dl dh); [apply Il | apply Ih].
      * cbv beta. rewrite (ai_at _ _ _ _ _ Ih), (ai_at _ _ _ _ _ Ik), (ai_at _ _ _ _ _ Il). exact HE.
  - contradiction.
  - contradiction.
  - contradiction.
  - contradiction.
Qed.

Lemma forall2_smooth_split args vs :
  Forall2 (fun a v => smooth o nval ug d rho t0 a /\ ev rho a = Some v) args vs ->
  oseq (map (ev rho) args) = Some vs.
Proof.
  intros H. apply oseq_forall2. induction H as [|a v l l' [_ H] HF IH]; simpl; constructor; auto.
Qed.

Theorem diff_ok : forall e, derivable_at e.
Proof.
  induction e as [n|s|i|f args IH] using expr_ind'; intros Hs e' He.
  - (* number *)
    simpl in He. injection He as <-.
    exists 0. split.
    + destruct d; simpl; now rewrite (l_zero RG).
    + apply hasd_fun. apply is_derive_const_R.
  - simpl in He. injection He as <-. destruct d as [x|i]; cbn [diff_leaf].
    + destruct (String.eqb_spec s x) as [->|Hn].
      * exists 1. split; [apply ev_one|]. cbn [eval upd v_var]. rewrite String.eqb_refl.
        apply hasd_fun. apply (is_derive_id t0).
      * exists 0. split; [apply (ev_dbl RG)|]. cbn [eval upd v_var].
        destruct (String.eqb_spec s x) as [|_]; [contradiction|].
        inversion Hs as [? v Hno Hv E| | | | | |]; subst.
        -- simpl in Hv. rewrite Hv. apply hasd_fun. apply is_derive_const_R.
        -- exfalso. apply Hn. simpl in *. congruence.
    + exists 0. split; [apply (ev_dbl RG)|]. cbn [eval upd v_var].
      inversion Hs as [? v Hno Hv E| | | | | |]; subst.
      simpl in Hv. rewrite Hv. apply hasd_fun. apply is_derive_const_R.
  - simpl in He. injection He as <-. destruct d as [x|j]; cbn [diff_leaf].
    + exists 0. split; [apply (ev_dbl RG)|]. cbn [eval upd v_par].
      inversion Hs as [? v Hno Hv E| | | | | |]; subst.
      simpl in Hv. rewrite Hv. apply hasd_fun. apply is_derive_const_R.
    + destruct (Nat.eqb_spec i j) as [->|Hn].
      * exists 1. split; [apply ev_one|]. cbn [eval upd v_par]. rewrite Nat.eqb_refl.
        apply hasd_fun. apply (is_derive_id t0).
      * exists 0. split; [apply (ev_dbl RG)|]. cbn [eval upd v_par].
        destruct (Nat.eqb_spec i j) as [|_]; [contradiction|].
        inversion Hs as [? v Hno Hv E| | | | | |]; subst.
        -- simpl in Hv. rewrite Hv. apply hasd_fun. apply is_derive_const_R.
        -- exfalso. apply Hn. simpl in *. congruence.
  - pose proof He as He0. cbn [diff] in He.
    destruct (oseq (map (diff o ug d) args)) as [dargs|] eqn:Eo; [|discriminate].
    inversion Hs as [? v Hno Hv E|E|? ? vs HF Hdom|c a b x Hc Hct Ha Hb|? ? Hf Hct|? ? ? vs gs HF Hfr Hpd
                    |? ? vs gexs gs HF Hfr Hug Hge]; subst.
    + (* constant *)
      pose proof (diff_const _ _ Hno He0) as Hz. exists 0. split; [now apply zeronum_ev|].
      apply (hasd_ext (fun _ => Some v)).
      * apply filter_forall. intros t. now rewrite ev_upd_const.
      * apply hasd_fun. apply is_derive_const_R.
    + destruct d; discriminate.
    + (* library function *)
      destruct (mk_infos args vs dargs IH HF Eo) as (cs & ds & Hi).
      eapply lib_ok; eassumption.
    + (* select *)
      cbn [map] in Eo.
      apply oseq_cons_some in Eo. destruct Eo as (c' & l1 & Hc' & Eo & ->).
      apply oseq_cons_some in Eo. destruct Eo as (a' & l2 & Ha' & Eo & ->).
      apply oseq_cons_some in Eo. destruct Eo as (b' & l3 & Hb' & Eo & ->).
      injection Eo as <-.
      inversion IH as [|? ? _ IH1]; subst. inversion IH1 as [|? ? IHa IH2]; subst.
      inversion IH2 as [|? ? IHb _]; subst.
      destruct (IHa Ha a' Ha') as (da & Hda & Hga). destruct (IHb Hb b' Hb') as (db & Hdb & Hgb).
      assert (He2 : e' = mk_sum o [mk_mul o (dbl o 0) c'; mk_mul o (mk_select o c (dbl o 1) (dbl o 0)) a';
                                  mk_mul o (mk_select o c (dbl o 0) (dbl o 1)) b']).
      { unfold diff_node in He. cbn [gradient combine map fst snd] in He. congruence. }
      subst e'.
      set (y := rtrue x).
      exists (0 + ((if y then 1 else 0) * da + ((if y then 0 else 1) * db + 0))). split.
      * rewrite (mk_sum_ok RG rho _ [0; (if y then 1 else 0) * da; (if y then 0 else 1) * db]); [reflexivity|].
        cbn [map]. rewrite !oseq_cons.
        rewrite (zeronum_ev rho _ (mk_mul_zero_l c' _ zeronum_dbl)).
        rewrite (mul_ok (mk_select o c (dbl o 1) (dbl o 0)) a' (if y then 1 else 0) da); auto.
        2:{ simpl. rewrite Hc. fold y. destruct y; simpl; f_equal; apply (l_lit RG). }
        rewrite (mul_ok (mk_select o c (dbl o 0) (dbl o 1)) b' (if y then 0 else 1) db); auto.
        simpl. rewrite Hc. fold y. destruct y; simpl; f_equal; apply (l_lit RG).
      * destruct Hct as (y' & Hct). apply near_locally in Hct.
        assert (Hy : y' = y).
        { apply locally_singleton in Hct. destruct Hct as (w & Hw & <-). rewrite ev_upd_t0 in Hw.
          unfold y. congruence. }
        subst y'. destruct y.
        -- apply (hasd_ext (along a)); [|apply (hasd_eq _ _ da); [ring | exact Hga]].
           revert Hct. apply filter_imp. intros t (w & Hw & Hr). simpl. rewrite Hw, Hr. reflexivity.
        -- apply (hasd_ext (along b)); [|apply (hasd_eq _ _ db); [ring | exact Hgb]].
           revert Hct. apply filter_imp. intros t (w & Hw & Hr). simpl. rewrite Hw, Hr. reflexivity.
    + (* logical operators *)
      assert (Hz : zeronum e').
      { unfold diff_node in He.
        assert (Hg : gradient o ug f args = Some (map (fun _ => dbl o 0) args)) by (destruct Hf as [->| ->]; reflexivity).
        rewrite Hg in He. injection He as <-. apply mk_sum_zeros.
        clear - L. revert dargs. induction args as [|a l IH]; intros [|x dargs]; cbn [map combine fst snd]; constructor; auto.
        apply mk_mul_zero_l. apply zeronum_dbl. }
      exists 0. split; [now apply zeronum_ev|].
      assert (Hys : exists ys, locally t0 (fun t => exists ws,
                oseq (map (ev (upd d t rho)) args) = Some ws /\ map rtrue ws = ys)).
      { clear - Hct. induction args as [|a l IH].
        - exists []. apply filter_forall. intros t. exists []. auto.
        - destruct IH as (ys & Hys); [intros b Hb; apply Hct; now right|].
          destruct (Hct a (or_introl eq_refl)) as (y & Hy). apply near_locally in Hy.
          exists (y :: ys). generalize Hy Hys. apply filter_imp2.
          intros t (w & Hw & <-) (ws & Hws & <-). exists (w :: ws). cbn [map].
          rewrite oseq_cons, Hw, Hws. auto. }
      destruct Hys as (ys & Hys).
      destruct Hf as [->| ->].
      * apply (hasd_ext (fun _ => Some (b2r (forallb (fun y => y) ys)))); [|apply hasd_fun, is_derive_const_R].
        revert Hys. apply filter_imp. intros t (ws & Hws & <-). cbn [eval]. rewrite fsem_strict by discriminate.
        rewrite Hws. cbn [ssem]. do 2 f_equal. clear. induction ws as [|w l IH]; [reflexivity|]. simpl. now rewrite IH.
      * apply (hasd_ext (fun _ => Some (b2r (existsb (fun y => y) ys)))); [|apply hasd_fun, is_derive_const_R].
        revert Hys. apply filter_imp. intros t (ws & Hws & <-). cbn [eval]. rewrite fsem_strict by discriminate.
        rewrite Hws. cbn [ssem]. do 2 f_equal. clear. induction ws as [|w l IH]; [reflexivity|]. simpl. now rewrite IH.
    + (* dfun *)
      destruct (mk_infos args vs dargs IH HF Eo) as (cs & ds & Hi).
      pose proof (infos_at _ _ _ _ _ Hi) as Hat. destruct (infos_length _ _ _ _ _ Hi) as [Hl1 Hl2].
      apply (node_ok (Fdfun id didx) args vs cs ds dargs
               (map (fun i => EFun (Fdfun id (bump i didx)) args) (seq 0 (length args))) gs);
        try assumption; try discriminate; try reflexivity.
      * assert (Hlen : length gs = length args) by (destruct Hfr as [H _]; lia).
        assert (Hvals := infos_vals _ _ _ _ _ Hi).
        assert (Hall : forall i g, nth_error gs i = Some g -> ev rho (EFun (Fdfun id (bump i didx)) args) = Some g).
        { intros i g Hn. cbn [eval]. rewrite fsem_strict by discriminate. rewrite Hvals. cbn [ssem]. now apply Hpd. }
        rewrite <- Hlen. clear - Hall.
        assert (HG : forall l k, (forall i g, nth_error l i = Some g ->
                  ev rho (EFun (Fdfun id (bump (k + i) didx)) args) = Some g) ->
                  Forall2 (fun e g => ev rho e = Some g)
                    (map (fun i => EFun (Fdfun id (bump i didx)) args) (seq k (length l))) l).
        { induction l as [|g l IHl]; intros k Hk; [constructor|]. cbn [length seq map]. constructor.
          - specialize (Hk 0%nat g eq_refl). now rewrite Nat.add_0_r in Hk.
          - apply IHl. intros i g' Hn. specialize (Hk (S i) g' Hn). now replace (S k + i)%nat with (k + S i)%nat by lia. }
        apply HG. exact Hall.
      * apply (hasd_frechet (v_dfun rho id didx) t0 cs ds gs).
        -- eapply infos_der; eassumption.
        -- rewrite Hat. exact Hfr.
    + (* user-defined function *)
      destruct (mk_infos args vs dargs IH HF Eo) as (cs & ds & Hi).
      pose proof (infos_at _ _ _ _ _ Hi) as Hat. destruct (infos_length _ _ _ _ _ Hi) as [Hl1 Hl2].
      apply (node_ok (Fother s) args vs cs ds dargs gexs gs);
        try assumption; try discriminate.
      * cbn [gradient]. rewrite Hug.
        assert (Hlen : length gexs = length args).
        { destruct Hfr as [H _]. assert (length gexs = length gs) by (clear - Hge; induction Hge; simpl; lia). lia. }
        now rewrite Hlen, Nat.eqb_refl.
      * apply (hasd_frechet (v_user rho s) t0 cs ds gs).
        -- eapply infos_der; eassumption.
        -- rewrite Hat. exact Hfr.
Qed.
End Diff.
