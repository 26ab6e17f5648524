(* The derivative tensors of regular expressions are regular. *)
From Coquelicot Require Import Coquelicot.
From Coq Require Import String Bool ZArith NArith Reals List Lra Lia Arith Sorted Permutation Classical_Prop.
From Verif Require Import M_Expr M_Dag M_Dec S_Expr S_Dag S_Dec P_ExprSem P_Build P_Str P_Subs P_Vars P_Dec S_Diff P_Deriv P_Diff M_Dtens S_Dtens P_Dtens M_Adj S_Adj P_Adj1 P_Adj2 P_Adj4 P_Adj5 P_Adj6 P_Adj7 P_Adj8 P_Adj9 P_Adj10 S_Reg P_Reg1.
Import ListNotations.
Local Open Scope R_scope.
Set Bullet Behavior "Strict Subproofs".

Section Transfer.
Context {o : nops} {nval : num o -> R} (L : nlaws o nval).
Local Notation ex := (expr (num o)).
Local Notation ev := (eval o nval).
Local Notation reg := (regular o nval).
Local Notation rv := (rval (nval := nval)).

Definition keepnum (a a' : ex) : Prop := forall n, a = ENum n -> exists n', a' = ENum n' /\ nval n' = nval n.
Definition like (r r' : env) : Prop := v_time r = v_time r' /\ v_dfun r = v_dfun r'.
Lemma inner_keep r r' f args args' vs : like r r' -> Forall2 keepnum args args' -> inner o nval r f args vs -> inner o nval r' f args' vs.
Proof.
  intros [Ht Hd] HF Hi. destruct f; cbn [inner] in *; auto;
    repeat match type of Hi with context [match ?l with [] => _ | _ :: _ => _ end] => is_var l; destruct l; try contradiction end;
    repeat match goal with H : Forall2 keepnum [] _ |- _ => inversion H; subst; clear H | H : Forall2 keepnum (_ :: _) _ |- _ => inversion H; subst; clear H end; auto.
  - destruct Hi as [H|(n & k & -> & Hn & H)]; [now left|]. right. match goal with H : keepnum (ENum n) _ |- _ => destruct (H n eq_refl) as (n' & -> & Hn') end. exists n', k. repeat split; auto. congruence.
  - destruct Hi as [H|(H & n & ->)]; [now left|]. right. match goal with H : keepnum (ENum n) _ |- _ => destruct (H n eq_refl) as (n' & -> & Hn') end. split; [exact H | eauto].
  - now rewrite <- Ht.
  - now rewrite <- Hd.
Qed.
(* Rebuilding a node. *)
Lemma reg_rebuild r r' f args args' vs : like r r' -> Forall2 keepnum args args' -> Forall2 (rv r') args' vs -> inner o nval r f args vs -> reg r' (EFun f args').
Proof. intros Hl HK HF Hi. apply (rg_fun _ _ _ f args' vs HF). exact (inner_keep r r' f args args' vs Hl HK Hi). Qed.
Lemma like_refl r : like r r. Proof. now split. Qed.
Lemma vt_keepnum (a a' : ex) : vt (nval := nval) a = vt (nval := nval) a' -> keepnum a a'.
Proof. intros H n ->. destruct a' as [n'|s|i|f l]; cbn in H; try discriminate. injection H as H. exists n'. auto. Qed.
Lemma vt_reg r : forall e e', vt (nval := nval) e = vt (nval := nval) e' -> reg r e -> reg r e'.
Proof.
  induction e as [x|s|i|f args IH] using expr_ind'; intros e' H Hr.
  - destruct e'; cbn in H; try discriminate. constructor.
  - destruct e'; cbn in H; try discriminate. now injection H as <-.
  - destruct e'; cbn in H; try discriminate. now injection H as <-.
  - apply vt_fun in H. destruct H as (args' & -> & HF). inversion Hr as [| | |? ? vs HV Hi]; subst.
    apply (reg_rebuild r r f args args' vs (like_refl r)); [| |exact Hi].
    + clear - HF. induction HF; constructor; auto. now apply vt_keepnum.
    + clear Hr Hi. revert vs HV. induction HF as [|a a' l l' Ha HF IH2]; intros vs HV; inversion HV as [|? v ? vs' [Hra Hv] HV']; subst; constructor.
      * inversion IH as [|? ? H1 H2]; subst. split; [now apply H1 | now rewrite <- (vt_eval r _ _ Ha)].
      * inversion IH as [|? ? H1 H2]; subst. now apply IH2.
Qed.
Lemma reg_chunk r k : forall args tmp, Forall (reg r) (tmp ++ args) -> Forall (reg r) (chunk o Fprod k tmp args).
Proof.
  induction args as [|a l IH]; intros tmp H; cbn [chunk].
  - rewrite app_nil_r in H. destruct tmp as [|x [|y t]]; auto. constructor; [now apply (reg_nary r); [right|] | constructor].
  - replace (tmp ++ a :: l) with ((tmp ++ [a]) ++ l) in H by (rewrite <- app_assoc; reflexivity).
    destruct (Nat.eqb (length (tmp ++ [a])) k); [|now apply IH]. apply Forall_app in H. destruct H as [H1 H2]. constructor; [now apply (reg_nary r); [right|] | now apply IH].
Qed.
Lemma reg_split_go r k : forall fuel args, Forall (reg r) args -> reg r (split_go o fuel Fprod k args).
Proof.
  induction fuel as [|n IH]; intros args H; cbn [split_go]; [now apply (reg_nary r); [right|]|].
  destruct (Nat.leb (length args) k); [now apply (reg_nary r); [right|]|]. apply IH. now apply reg_chunk.
Qed.
Lemma reg_split r k : forall e, reg r e -> reg r (split_prods o k e).
Proof.
  induction e as [x|s|i|f args IH] using expr_ind'; auto. intros Hr. rewrite split_prods_fun. inversion Hr as [| | |? ? vs HV Hi]; subst.
  assert (HV' : Forall2 (rv r) (map (split_prods o k) args) vs).
  { clear Hr Hi. induction HV as [|a v l l' [Ha Hv] HV IH2]; cbn [map]; constructor; inversion IH as [|? ? H1 H2]; subst; [|now apply IH2]. split; [now apply H1 | now apply (split_prods_ok r k a)]. }
  assert (HK : Forall2 keepnum args (map (split_prods o k) args)).
  { clear. induction args as [|a l IH]; cbn [map]; constructor; auto. intros n ->. exists n. now split. }
  assert (K : reg r (EFun f (map (split_prods o k) args))) by exact (reg_rebuild r r f args _ vs (like_refl r) HK HV' Hi).
  destruct f; try exact K. cbn [prod_split]. apply reg_split_go. exact (rvals_regs r _ _ HV').
Qed.
(* The values of the u variables which stand for regular trees. *)
Lemma regular_values rho (sm : list (string * ex)) : exists vv : string -> option R, forall s v, vv s = Some v <-> exists t, assoc s sm = Some t /\ rv rho t v.
Proof.
  induction sm as [|[k t] m (vv & IH)].
  - exists (fun _ => None). intros s v. split; [discriminate | intros (t & H & _); discriminate H].
  - destruct (classic (reg rho t)) as [Ht|Ht].
    + destruct (reg_rval rho t Ht) as [w Hw]. exists (fun s => if String.eqb s k then Some w else vv s). intros s v. cbn [assoc].
      destruct (String.eqb s k); [|apply IH]. split; [intros E; injection E as <-; eauto|]. intros (t' & E & [_ Hv]). injection E as <-. destruct Hw. congruence.
    + exists (fun s => if String.eqb s k then None else vv s). intros s v. cbn [assoc]. destruct (String.eqb s k); [|apply IH]. split; [discriminate|].
      intros (t' & E & [Hr _]). injection E as <-. contradiction.
Qed.
Lemma reg_subs rho sm vv : (forall s v, vv s = Some v <-> exists t, assoc s sm = Some t /\ rv rho t v) ->
  forall z v, rv (with_vars vv rho) z v -> rv rho (subs o sm z) v.
Proof.
  intros Hvv. induction z as [x|s|i|f args IH] using expr_ind'; intros v [Hr Hv].
  - split; [constructor | exact Hv].
  - cbn in Hv. apply Hvv in Hv. destruct Hv as (t & E & H). cbn. rewrite E. exact H.
  - cbn in Hv. split; [econstructor; exact Hv | exact Hv].
  - inversion Hr as [| | |? ? vs HV Hi]; subst. change (subs o sm (EFun f args)) with (EFun f (map (subs o sm) args)).
    assert (HV' : Forall2 (rv rho) (map (subs o sm) args) vs).
    { clear Hr Hi Hv. induction HV as [|a w l l' Ha HV IH2]; cbn [map]; constructor; inversion IH as [|? ? H1 H2]; subst; [now apply H1 | now apply IH2]. }
    assert (HK : Forall2 keepnum args (map (subs o sm) args)).
    { clear. induction args as [|a l IH]; cbn [map]; constructor; auto. intros n ->. exists n. now split. }
    assert (Hi' : inner o nval rho f (map (subs o sm) args) vs) by (apply (inner_keep (with_vars vv rho) rho f args _ vs); [now split | exact HK | exact Hi]).
    split; [exact (rg_fun _ _ _ f _ vs HV' Hi')|]. destruct (fun_value rho f _ vs HV' Hi') as (w & Hw & E). rewrite E, <- Hv.
    cbn [eval]. rewrite fsem_strict by exact (inner_strict rho _ _ _ Hi'). rewrite (reg_args (with_vars vv rho) _ _ HV). rewrite <- Hw. destruct f; reflexivity.
Qed.
(* The partial derivatives of an elementary operation. *)
Lemma elt_adj_reg ug r f (uargs : list ex) l vs k : Forall (arg_ok k) uargs -> elt_adj o ug (EFun f uargs) = MDone l ->
  Forall2 (rv r) uargs vs -> inner o nval r f uargs vs -> forall j a, In (j, a) l -> reg r a.
Proof.
  intros Hok H HV Hi j a Hja. cbn [elt_adj] in H. destruct (reg_gradient L r ug f uargs vs HV Hi) as (g & Eg & Hlen & Hz). rewrite Eg in H. apply mmap_done in H.
  destruct (grad_map_ok (nval := nval) r (fun _ => 0) uargs g [] Hlen (SSorted_nil _)) as (_ & _ & A3 & _).
  destruct (Forall2_in_r_ex _ _ _ H _ Hja) as ([s zs] & Hin & E). cbn [fst snd] in E. destruct (uname_to_index s) as [j'|]; [|discriminate]. injection E as <- <-.
  apply reg_sum. apply Forall_forall. intros z Hzz. destruct (A3 s zs z Hin Hzz) as [(i & B1 & B2)|(l' & [] & _)]. exact (Hz i _ z B1 B2 eq_refl).
Qed.
End Transfer.

Section Deco.
Context {o : nops} {nval : num o -> R} (L : nlaws o nval) (neq : num o -> num o -> bool) (feq : fid (num o) -> fid (num o) -> bool).
Local Notation ex := (expr (num o)).
Local Notation mexp l := (map (@fst ex (list nat)) l).
Local Notation ev := (eval o nval).
Context (ug : string -> list ex -> option (list ex)).
Hypothesis Hneq : forall x y, neq x y = true -> nval x = nval y.
Hypothesis Hfeq : forall f g, feq f g = true -> f = g.
Context (es : list ex) (d : dcmp o) (T : list ex) (adj : list (list (nat * ex))).
Hypothesis HD : decomposed o neq feq es d.
Hypothesis HT : trees_of o d T.
Hypothesis HA : make_adj o ug d = MDone adj.
Local Notation ni := (length (dc_in o d)).
Local Notation nm := (length (dc_mid o d)).
Local Notation no := (length (dc_out o d)).
Local Notation tr i := (tr T i).
Context (rho : env) (vv : string -> option R).
Hypothesis Hvv : forall s v, vv s = Some v <-> exists t, assoc s (smap o T) = Some t /\ rval (nval := nval) rho t v.
Local Notation r := (with_vars vv rho).
Local Notation reg := (regular o nval).
Hypothesis Hes : Forall (reg rho) es.

Lemma out_reg k : (k < no)%nat -> reg rho (tr (ni + nm + k)).
Proof.
  intros Hk. rewrite (dd_len _ _ _ _ _ HD) in Hk. destruct (nth_error es k) as [e|] eqn:Ee; [|apply nth_error_None in Ee; lia].
  apply (vt_reg rho (split_prods o 2 e)); [symmetry; exact (out_vt neq feq ug Hneq Hfeq es d T adj HD HT HA k e Ee)|].
  apply reg_split. rewrite Forall_forall in Hes. apply Hes. eapply nth_error_In; eauto.
Qed.
Lemma not_num j n : (j < ni + nm)%nat -> tr j <> ENum n.
Proof.
  intros Hj E. pose proof (adj_len ug d adj HA) as La. destruct (kinds neq feq ug es d T adj HD HT HA j ltac:(lia)) as [p Hp Et Ea|f uargs Hr Hok Hnp Et Ea|k Hr Hk Et Ea|x Hr Et Ea]; try lia.
  - rewrite (dd_in _ _ _ _ _ HD) in Hp. apply nth_error_In, in_app_iff in Hp. destruct Hp as [Hp|Hp]; apply in_map_iff in Hp; destruct Hp as (s & <- & _); rewrite Et in E; discriminate.
  - rewrite Et in E. discriminate.
Qed.
Lemma adj_reg i j a : (i < length adj)%nat -> reg rho (tr i) -> In (j, a) (nth i adj []) -> reg r a /\ reg rho (tr j).
Proof.
  intros Hi Hr Hja. pose proof (adj_len ug d adj HA) as La.
  destruct (kinds neq feq ug es d T adj HD HT HA i Hi) as [p Hp Et Ea|f uargs Hrg Hok Hnp Et Ea|k Hrg Hk Et Ea|x Hrg Et Ea].
  - rewrite Ea in Hja. destruct Hja.
  - rewrite Et in Hr. inversion Hr as [| | |? ? vs HV Hin]; subst. rewrite Forall_forall in Hok, Hnp.
    assert (HU : Forall2 (rval (nval := nval) r) uargs vs /\ Forall2 (keepnum (nval := nval)) (map (subs o (smap o T)) uargs) uargs).
    { clear Ea Et Hin Hr. revert vs HV. induction uargs as [|u l IH]; intros vs HV; cbn [map] in HV; inversion HV as [|? v ? vs' [Hu Hv] HV']; subst.
      - split; constructor.
      - destruct (IH ltac:(intros; apply Hok; now right) ltac:(intros; apply Hnp; now right) vs' HV') as [I1 I2]. cbn [map].
        specialize (Hok u (or_introl eq_refl)). specialize (Hnp u (or_introl eq_refl)). destruct u as [x|s|q|h hl]; cbn in Hok, Hnp; try contradiction.
        + split; constructor; auto; [split; [constructor | exact Hv]|]. intros n E. injection E as ->. exists n. now split.
        + destruct Hok as (j' & Hj' & ->). split; constructor; auto.
          * assert (E : vv (uname j') = Some v). { apply Hvv. exists (tr j'). split; [rewrite smap_assoc; apply (T_tr ug d T adj HT HA); lia|]. rewrite (sub_var ug d T adj HT HA) in Hu, Hv by lia. now split. }
            split; [econstructor; exact E | exact E].
          * intros n E. exfalso. rewrite (sub_var ug d T adj HT HA) in E by lia. exact (not_num j' n ltac:(lia) E). }
    destruct HU as [HU HK].
    assert (Hin' : inner o nval r f uargs vs) by (apply (inner_keep rho r f (map (subs o (smap o T)) uargs) uargs vs); [now split | exact HK | exact Hin]).
    assert (Hok' : Forall (arg_ok i) uargs) by now apply Forall_forall. split.
    + exact (elt_adj_reg L ug r f uargs _ vs i Hok' Ea HU Hin' j a Hja).
    + destruct (elt_adj_ok (nval := nval) L ug i f uargs _ Hok' Ea) as (g & _ & _ & B & _). assert (Hj : In j (map fst (nth i adj []))) by (apply in_map_iff; exists (j, a); auto).
      apply B in Hj. destruct (Hok _ Hj) as (j' & Hj' & E). apply uname_inj in E. subst j'. apply (in_map (subs o (smap o T))) in Hj. rewrite (sub_var ug d T adj HT HA) in Hj by lia.
      apply In_nth_error in Hj. destruct Hj as [q Hq]. destruct (Forall2_nth _ _ _ HV q _ Hq) as (v & _ & [Hx _]). exact Hx.
  - rewrite Ea in Hja. destruct Hja as [E|[]]. injection E as <- <-. split; [constructor | now rewrite <- Et].
  - rewrite Ea in Hja. destruct Hja.
Qed.
Lemma adj_at_in i j a : adj_at o adj i j = Some a -> In (j, a) (nth i adj []).
Proof.
  unfold adj_at. destruct (find _ _) as [[j' a']|] eqn:E; [|discriminate]. intros H. cbn in H. injection H as <-. apply find_some in E. destruct E as [E1 E2]. cbn in E2. apply Nat.eqb_eq in E2. now subst.
Qed.
Definition dregular (D : list ex) : Prop := forall i x, nth_error D i = Some x -> reg rho (tr i) -> reg r x.
Lemma dregular_set D i x : dregular D -> (reg rho (tr i) -> reg r x) -> dregular (lset D i x).
Proof.
  intros H Hx k y Hk Hr. destruct (Nat.eq_dec k i) as [->|Hn].
  - destruct (Nat.lt_ge_cases i (length D)) as [Hi|Hi].
    + rewrite lset_same in Hk by exact Hi. injection Hk as <-. now apply Hx.
    + assert (nth_error (lset D i x) i = None) by (apply nth_error_None; now rewrite lset_length). congruence.
  - rewrite lset_other in Hk by congruence. exact (H k y Hk Hr).
Qed.
Lemma dregular_fill D b n x : reg r x -> dregular D -> dregular (fill o D b n x).
Proof.
  intros Hx. unfold fill. generalize (seq b n). intros l. revert D. induction l as [|i l IH]; intros D H; cbn [fold_left]; [exact H|]. apply IH. apply dregular_set; auto.
Qed.
Lemma fwd_reg fuel nouts input D0 D : length D0 = length adj -> dregular D0 -> fwd_pass o fuel adj nouts input D0 = MDone D -> dregular D.
Proof.
  intros HL H0 H. unfold fwd_pass in H. apply mbind_done in H. destruct H as (deps & _ & H).
  assert (K : dregular D /\ length D = length D0); [|apply K]. revert H. apply (mfold_inv (fun l => dregular l /\ length l = length D0)).
  - intros A cur A' [HA' HL'] H. unfold fwd_step in H. apply mbind_done in H. destruct H as (ts & Hts & H). injection H as <-. split; [|now rewrite lset_length].
    destruct (Nat.lt_ge_cases cur (length adj)) as [Hc|Hc].
    + apply dregular_set; [exact HA'|]. intros Hr. apply reg_sum. apply mmap_done in Hts. apply Forall_forall. intros t Ht.
      destruct (Forall2_in_r_ex _ _ _ Hts t Ht) as (j & Hj & E). unfold fwd_term in E. destruct (negb _ && negb _); [injection E as <-; constructor|].
      destruct (nth_error A j) as [x|] eqn:Ex; [|discriminate]. destruct (adj_at o adj cur j) as [a|] eqn:Ea; [|discriminate]. injection E as <-.
      apply adj_at_in in Ea. destruct (adj_reg cur j a Hc Hr Ea) as [Hra Hrj]. apply reg_mul; [exact (HA' j x Ex Hrj) | exact Hra].
    + intros k y Hk. destruct (Nat.eq_dec k cur) as [->|Hn]; [|rewrite lset_other in Hk by congruence; exact (HA' k y Hk)].
      assert (nth_error (lset A cur (mk_sum o ts)) cur = None) by (apply nth_error_None; rewrite lset_length; lia). congruence.
  - split; [|now rewrite fill_length, lset_length]. apply dregular_fill; [constructor|]. apply dregular_set; [exact H0 | constructor].
Qed.
Lemma walk_in (P : nat -> Prop) nb : (forall i, P i -> Forall P (nb i)) -> forall fuel q found l, Forall P q -> Forall P found -> walk nb fuel q found = MDone l -> Forall P l.
Proof.
  intros Hnb. induction fuel as [|n IH]; intros [|c q] found l Hq Hf H; cbn [walk] in H; try discriminate; try (injection H as <-; exact Hf).
  inversion Hq as [|? ? Hc Hq']; subst.
  assert (K : forall ys st, Forall P ys -> Forall P (fst st) -> Forall P (snd st) ->
    let st' := fold_left (fun (st : list nat * list nat) x => if memb x (snd st) then st else (fst st ++ [x], snd st ++ [x])) ys st in Forall P (fst st') /\ Forall P (snd st')).
  { induction ys as [|y ys IHy]; intros st Hy H1 H2; cbn [fold_left]; [now split|]. inversion Hy; subst. destruct (memb y (snd st)); apply IHy; auto; apply Forall_app; auto. }
  specialize (K (nb c) (q, found) (Hnb c Hc) Hq' Hf). destruct (fold_left _ (nb c) (q, found)) as [q' found']. cbn [fst snd] in K. destruct K as [K1 K2]. exact (IH q' found' l K1 K2 H).
Qed.
Lemma rev_reg fuel k D0 D : (k < no)%nat -> length D0 = length adj -> Forall (reg r) D0 -> rev_pass o fuel adj ni (ni + nm + k) D0 = MDone D -> Forall (reg r) D.
Proof.
  intros Hk HL H0 H. pose proof (adj_len ug d adj HA) as La. unfold rev_pass in H. apply mbind_done in H. destruct H as (deps & Hw & H).
  set (P := fun i => (i < length adj)%nat /\ reg rho (tr i)).
  assert (HP : forall i, P i -> Forall P (dep o adj i)).
  { intros i [Hi Hr]. apply Forall_forall. intros j Hj. split; [pose proof (h_back L neq feq ug es d T adj HD HT HA i j Hj); lia|]. unfold dep in Hj. apply in_map_iff in Hj. destruct Hj as ([j' a] & <- & Hj). now apply (adj_reg i j' a). }
  assert (Po : P (ni + nm + k)%nat) by (split; [lia | now apply out_reg]).
  assert (Hdeps : Forall P deps) by (eapply (walk_in P); [exact HP | | | exact Hw]; now apply HP).
  rewrite Forall_forall in Hdeps.
  assert (Hset : forall (A : list ex) i x, Forall (reg r) A -> reg r x -> Forall (reg r) (lset A i x)).
  { clear. induction A as [|y A IH]; intros [|i] x HF Hx; cbn [lset]; inversion HF; subst; constructor; auto. }
  revert H. apply (mfold_inv (fun l => Forall (reg r) l)).
  - intros A cur A' HA' H. unfold rev_step in H. apply mbind_done in H. destruct H as (ts & Hts & H). injection H as <-. apply Hset; [exact HA'|].
    apply reg_sum. apply mmap_done in Hts. apply Forall_forall. intros t Ht.
    destruct (Forall2_in_r_ex _ _ _ Hts t Ht) as (i & Hi & E). unfold rev_term in E. destruct (Nat.eqb i (ni + nm + k)) eqn:E1; cbn [negb andb] in E.
    + apply Nat.eqb_eq in E1. subst i. destruct (nth_error A (ni + nm + k)) as [x|] eqn:Ex; [|discriminate]. destruct (adj_at o adj (ni + nm + k) cur) as [a|] eqn:Ea; [|discriminate]. injection E as <-.
      apply adj_at_in in Ea. apply reg_mul; [rewrite Forall_forall in HA'; apply HA'; eapply nth_error_In; eauto | apply (adj_reg _ cur a (proj1 Po) (proj2 Po) Ea)].
    + destruct (memb i deps) eqn:E2; cbn [negb] in E; [|injection E as <-; constructor].
      assert (Pi : P i). { apply Hdeps. unfold memb in E2. apply existsb_exists in E2. destruct E2 as (x & Hx & E2). apply Nat.eqb_eq in E2. now subst. }
      destruct (nth_error A i) as [x|] eqn:Ex; [|discriminate]. destruct (adj_at o adj i cur) as [a|] eqn:Ea; [|discriminate]. injection E as <-.
      apply adj_at_in in Ea. apply reg_mul; [rewrite Forall_forall in HA'; apply HA'; eapply nth_error_In; eauto | apply (adj_reg _ cur a (proj1 Pi) (proj2 Pi) Ea)].
  - unfold fill. assert (HF : Forall (reg r) (lset D0 (ni + nm + k) (dbl o 1))) by (apply Hset; [exact H0 | constructor]). revert HF. generalize (lset D0 (ni + nm + k) (dbl o 1)). generalize (seq 0 ni).
    induction l as [|i l IH]; intros A HF; cbn [fold_left]; [exact HF|]. apply IH. apply Hset; [exact HF | constructor].
Qed.

Context (keys : list sidx).
Hypothesis Hlen : length keys = length es.
Lemma fwd_args_reg fuel : forall args j diffs raw, length diffs = length adj -> dregular diffs -> fwd_args o neq feq fuel d adj keys j args diffs = MDone raw ->
  forall p, In p raw -> reg r (snd p).
Proof.
  pose proof (adj_len ug d adj HA) as La. pose proof (dd_len _ _ _ _ _ HD) as Lo.
  induction args as [|a args IH]; intros j diffs raw Hd Hr H p Hp; cbn [fwd_args] in H.
  - injection H as <-. destruct Hp.
  - destruct (find_input o neq feq d a) as [input|] eqn:Ef.
    + apply mbind_done in H. destruct H as (D & HF & H). apply mbind_done in H. destruct H as (raw' & Hr' & H). injection H as <-.
      pose proof (fwd_length adj _ _ _ _ _ HF) as LD. pose proof (fwd_reg _ _ _ _ _ Hd Hr HF) as HDr. apply in_app_iff in Hp. destruct Hp as [Hp|Hp].
      * destruct p as [k' x]. apply in_combine_nth in Hp. destruct Hp as (c & _ & C2). cbn [snd]. rewrite nth_error_skipn in C2.
        assert (Hc : (length D - length keys + c < length D)%nat) by (apply nth_error_Some; congruence).
        apply (HDr _ x C2). replace (length D - length keys + c)%nat with (ni + nm + c)%nat by lia. apply out_reg. lia.
      * apply (IH (S j) D raw'); auto. congruence.
    + apply mbind_done in H. destruct H as (raw' & Hr' & H). injection H as <-. apply in_app_iff in Hp. destruct Hp as [Hp|Hp].
      * apply in_map_iff in Hp. destruct Hp as (k & <- & _). constructor.
      * now apply (IH (S j) diffs raw').
Qed.
Lemma rev_outs_reg fuel args : forall ks b diffs raw, length diffs = length adj -> Forall (reg r) diffs -> (b + length ks <= no)%nat ->
  rev_outs o neq feq fuel d adj args b ks diffs = MDone raw -> forall p, In p raw -> reg r (snd p).
Proof.
  induction ks as [|k ks IH]; intros b diffs raw Hd Hr Hb H p Hp; cbn [rev_outs] in H.
  - injection H as <-. destruct Hp.
  - cbn [length] in Hb. apply mbind_done in H. destruct H as (D & HF & H). apply mbind_done in H. destruct H as (raw' & Hr' & H). injection H as <-.
    pose proof (rev_length' adj _ _ _ _ _ HF) as LD. pose proof (rev_reg _ b _ _ ltac:(lia) Hd Hr HF) as HDr. apply in_app_iff in Hp. destruct Hp as [Hp|Hp].
    + apply in_map_iff in Hp. destruct Hp as ((i & a) & <- & _). cbn [snd fst]. unfold rev_entry. destruct (find_input o neq feq d a) as [x|]; [|constructor].
      destruct (nth_in_or_default x D (dbl o 0)) as [Hx|Hx]; [rewrite Forall_forall in HDr; now apply HDr | rewrite Hx; constructor].
    + apply (IH (S b) D raw'); auto; [congruence | lia].
Qed.
End Deco.

Section All.
Context {o : nops} {nval : num o -> R} (L : nlaws o nval) (neq : num o -> num o -> bool) (feq : fid (num o) -> fid (num o) -> bool).
Local Notation ex := (expr (num o)).
Context (ug : string -> list ex -> option (list ex)) (share : list ex -> list (dag (num o))) (mode : nat -> nat -> bool).
Hypothesis Hneq : forall x y, neq x y = true -> nval x = nval y.
Hypothesis Hfeq : forall f g, feq f g = true -> f = g.
Hypothesis Hsh : forall l, map erase (share l) = l /\ consistent (share l).
Context (rho : env).
Local Notation reg := (regular o nval).
Definition all_regular (m : list (sidx * ex)) : Prop := forall p, In p m -> reg rho (snd p).
Lemma sort_keys_in : forall l s p, sort_keys o l = Some s -> In p s -> In p l.
Proof.
  assert (K : forall p l s q, insert_key o p l = Some s -> In q s -> q = p \/ In q l).
  { intros p. induction l as [|x l IH]; intros s q H Hq; cbn [insert_key] in H.
    - injection H as <-. destruct Hq as [<-|[]]. now left.
    - destruct (sv_cmp (fst p) (fst x)) as [[|]|]; [| |discriminate].
      + injection H as <-. destruct Hq as [<-|Hq]; auto.
      + destruct (insert_key o p l) as [s'|]; [|discriminate]. injection H as <-. destruct Hq as [<-|Hq]; [right; now left|]. destruct (IH s' q eq_refl Hq); [now left | right; now right]. }
  induction l as [|x l IH]; intros s p H Hp; cbn [sort_keys] in H; [injection H as <-; exact Hp|].
  destruct (sort_keys o l) as [s'|] eqn:E; [|discriminate]. destruct (K x s' s p H Hp) as [->|Hq]; [now left | right; now apply (IH s')].
Qed.
Lemma emplace_in : forall l acc p, In p (emplace_all o acc l) -> In p acc \/ In p l.
Proof.
  induction l as [|x l IH]; intros acc p H; cbn [emplace_all] in H; [now left|]. destruct (existsb _ acc).
  - destruct (IH acc p H); [now left | right; now right].
  - destruct (IH _ p H) as [Hp|Hp]; [|right; now right]. apply in_app_iff in Hp. destruct Hp as [Hp|[<-|[]]]; [now left | right; now left].
Qed.
Lemma next_order_reg fuel args cur m m' : all_regular m -> next_order o neq feq ug share mode fuel args cur m = MDone m' -> all_regular m'.
Proof.
  intros Hm H. unfold next_order in H. destruct (search_map o m _) as [b|]; [|discriminate]. destruct (skipn b m) as [|p0 prev0] eqn:Ep; [discriminate|]. rewrite <- Ep in H. set (prev := skipn b m) in *.
  apply mbind_done in H. destruct H as (d & Hd & H). apply mbind_done in H. destruct H as (adj & HA & H).
  pose proof (diff_decompose_spec o neq feq share (map snd prev) fuel d Hsh Hd) as HD.
  destruct (make_subs_spec o d (dd_wf _ _ _ _ _ HD)) as (T & ET & HT). rewrite ET in H. apply mbind_done in H. destruct H as (raw & Hraw & H).
  destruct (sort_keys o _) as [new|] eqn:En; [|discriminate]. injection H as <-.
  assert (Hes : Forall (reg rho) (map snd prev)). { apply Forall_map, Forall_forall. intros p Hp. apply Hm. unfold prev in Hp. rewrite <- (firstn_skipn b m). apply in_app_iff. now right. }
  destruct (regular_values (nval := nval) rho (smap o T)) as (vv & Hvv).
  assert (Hr : forall p, In p raw -> reg (with_vars vv rho) (snd p)).
  { destruct (mode _ _).
    - intros p Hp. revert p Hp. eapply (fwd_args_reg L neq feq ug Hneq Hfeq (map snd prev) d T adj HD HT HA rho vv Hvv Hes (map fst prev)); [now rewrite !map_length | apply map_length | | exact Hraw].
      intros i x Hx _. apply nth_error_In, in_map_iff in Hx. destruct Hx as (? & <- & _). constructor.
    - eapply (rev_outs_reg L neq feq ug Hneq Hfeq (map snd prev) d T adj HD HT HA rho vv Hvv Hes (map fst prev)); [now rewrite !map_length | apply map_length | | | exact Hraw].
      + apply Forall_map, Forall_forall. intros; constructor.
      + rewrite (dd_len _ _ _ _ _ HD), !map_length. lia. }
  intros p Hp. apply in_app_iff in Hp. destruct Hp as [Hp|Hp]; [now apply Hm|]. apply in_map_iff in Hp. destruct Hp as (q & <- & Hq). cbn [snd].
  assert (Hq' : In q raw). { pose proof (sort_keys_in _ _ _ En Hq) as Hin. destruct cur; [exact Hin|]. apply emplace_in in Hin. destruct Hin as [[]|Hin]; exact Hin. }
  specialize (Hr q Hq'). destruct (reg_rval _ _ Hr) as [v Hv]. exact (proj1 (reg_subs rho (smap o T) vv Hvv (snd q) v Hv)).
Qed.
Lemma orders_reg fuel args : forall n cur m m', all_regular m -> orders o neq feq ug share mode fuel args cur n m = MDone m' -> all_regular m'.
Proof.
  induction n as [|n IH]; intros cur m m' Hm H; cbn [orders] in H; [injection H as <-; exact Hm|]. apply mbind_done in H. destruct H as (m1 & H1 & H2).
  apply (IH (S cur) m1 m'); [exact (next_order_reg _ _ _ _ _ Hm H1) | exact H2].
Qed.
Lemma impl_reg fuel es args order m : Forall (reg rho) es -> diff_tensors_impl o neq feq ug share mode fuel es args order = MDone m -> all_regular m.
Proof.
  intros He H. apply (orders_reg fuel args order 0 (order0 o es) m); [|exact H]. intros [[c idx] e] Hp. unfold order0 in Hp. apply in_map_iff in Hp. destruct Hp as (q & E & Hq). injection E as <- <- <-. cbn [snd].
  destruct q as [i e]. apply in_combine_r in Hq. rewrite Forall_forall in He. now apply He.
Qed.
End All.
