(* Detection of a single event, in exact arithmetic. *)
From Coq Require Import Reals Lra Lia List ZArith Bool Permutation.
From Verif Require Import M_Float M_Step M_Dag M_Taylor M_Event S_Event P_Event1 P_Event2 P_Event3.
Import ListNotations.
Local Open Scope R_scope.
Set Bullet Behavior "Strict Subproofs".

Lemma fop_app_r {A} (R : A -> A -> Prop) : forall l l', ForallOrdPairs R (l ++ l') -> ForallOrdPairs R l'.
Proof. induction l; intros l' H; auto. inversion H; subst; auto. Qed.

(* bracketed_root_find returns what the library found. *)
Section Brf.
Context {o : fops} (L : flaws o) (e : eops o) (solve : (F o -> F o) -> F o -> F o -> F o * F o * Z * bool).
Lemma brf_call p n lb ub : ffin o lb = true -> ffin o ub = true -> fval L lb < fval L ub ->
  let c := solve (fun x => poly_eval o e p x n) lb (e_next e ub lb) in
  let ret := fadd o (e_div e (fst (fst (fst c))) (e_nat e 2)) (e_div e (snd (fst (fst c))) (e_nat e 2)) in
  bracketed_root_find o e solve p n lb ub =
    if (0 <? snd (fst c))%Z then (f0 o, snd (fst c)) else if snd c then (ret, 0%Z) else (ret, (-1)%Z).
Proof.
  intros Hl Hu Hlt. unfold bracketed_root_find. rewrite Hl, Hu, (proj2 (fl_lt o L _ _ Hl Hu) Hlt). cbn [andb].
  destruct (solve _ lb (e_next e ub lb)) as [[[p1 p2] errno] within]. auto.
Qed.
Lemma brf_found p n lb ub r : ffin o lb = true -> ffin o ub = true -> fval L lb < fval L ub ->
  bracketed_root_find o e solve p n lb ub = (r, 0%Z) ->
  exists p1 p2, root_found solve (fun x => poly_eval o e p x n) lb (e_next e ub lb) p1 p2 /\
    r = fadd o (e_div e p1 (e_nat e 2)) (e_div e p2 (e_nat e 2)).
Proof.
  intros Hl Hu Hlt. rewrite (brf_call p n lb ub Hl Hu Hlt). cbv zeta. unfold root_found.
  destruct (solve _ lb (e_next e ub lb)) as [[[p1 p2] errno] within]. cbn [fst snd].
  destruct (0 <? errno)%Z eqn:Q; [intros K; injection K as _ ->; discriminate|]. apply Z.ltb_ge in Q.
  destruct within; intros K; [|discriminate]. injection K as <-. exists p1, p2. split; [exists errno; auto|auto].
Qed.
Lemma brf_finds p n lb ub p1 p2 : ffin o lb = true -> ffin o ub = true -> fval L lb < fval L ub ->
  root_found solve (fun x => poly_eval o e p x n) lb (e_next e ub lb) p1 p2 ->
  bracketed_root_find o e solve p n lb ub = (fadd o (e_div e p1 (e_nat e 2)) (e_div e p2 (e_nat e 2)), 0%Z).
Proof.
  intros Hl Hu Hlt [errno [He E]]. rewrite (brf_call p n lb ub Hl Hu Hlt). cbv zeta. rewrite E. cbn [fst snd].
  destruct (0 <? errno)%Z eqn:Q; [apply Z.ltb_lt in Q; lia|auto].
Qed.
Context (X : exact_laws L) (EL : elaws L e).
Lemma half_sum p1 p2 : ffin o p1 = true -> ffin o p2 = true ->
  is_num L (fadd o (e_div e p1 (e_nat e 2)) (e_div e p2 (e_nat e 2))) ((fval L p1 + fval L p2) / 2).
Proof.
  intros H1 H2. pose proof (num_nat L e EL 2) as N2. assert (E2 : INR 2 <> 0) by (cbn; lra).
  pose proof (num_add L X _ _ _ _ (num_div L e EL _ _ _ _ (num_self L p1 H1) N2 E2) (num_div L e EL _ _ _ _ (num_self L p2 H2) N2 E2)) as K.
  replace ((fval L p1 + fval L p2) / 2) with (fval L p1 / INR 2 + fval L p2 / INR 2) by (cbn; field). exact K.
Qed.
(* What is found by it. *)
Lemma finder_sound (FS : solver_sound L e solve) p n lb ub r : bracket L p n lb ub -> bracketed_root_find o e solve p n lb ub = (r, 0%Z) ->
  ffin o r = true /\ (peval (vals L p) (fval L lb) = 0 -> fval L r = fval L lb) /\
  (forall x, peval (vals L p) (fval L lb) <> 0 -> sign_change (vals L p) (fval L lb) x (fval L ub) -> fval L r = x).
Proof.
  intros B H. pose proof B as [_ [_ [Hl [Hu Hlt]]]]. apply brf_found in H; auto. destruct H as [p1 [p2 [H ->]]].
  destruct (FS _ _ _ _ _ _ B H) as [A1 [A2 [A3 A4]]]. destruct (half_sum _ _ A1 A2) as [N1 N2]. rewrite N2. auto.
Qed.
Lemma finder_total (FT : solver_succeeds L e solve) p n lb ub : bracket L p n lb ub ->
  (peval (vals L p) (fval L lb) = 0 \/ exists x, sign_change (vals L p) (fval L lb) x (fval L ub)) ->
  exists r, bracketed_root_find o e solve p n lb ub = (r, 0%Z).
Proof.
  intros B H. pose proof B as [_ [_ [Hl [Hu Hlt]]]]. destruct (FT _ _ _ _ B H) as [p1 [p2 K]]. eexists. apply brf_finds; eauto.
Qed.
End Brf.

Section Det.
Context {o : fops} (L : flaws o) (X : exact_laws L) (e : eops o) (EL : elaws L e).
Context (solve : (F o -> F o) -> F o -> F o -> F o * F o * Z * bool) (FS : solver_sound L e solve).
Notation F := (F o).
Notation val := (fval L).
Notation vals := (vals L).
Notation zero := (f0 o).
Notation num := (is_num L).
Local Notation get a i := (nth i a zero).
Context {Ev : Type} (emit : nat -> F -> Z -> F -> Ev).
Context (term : bool) (i : nat) (dir : Z) (a : list F) (n : nat) (h : F) (hv : R).
Context (Ha : finite a) (Hl : length a = S n) (Hn : (0 < n)%nat) (Hh : num h hv) (Hh0 : hv <> 0)
  (Hnz : exists c, In c (vals a) /\ c <> 0).

Let p1 := poly_rescale o e a h.
Let P := vals p1.
Lemma P_eval x : peval P x = peval (vals a) (hv * x).
Proof. apply (poly_rescale_num L e EL a h hv); auto. Qed.
Lemma p1_fin : finite p1.
Proof. apply (poly_rescale_num L e EL a h hv); auto. Qed.
Lemma p1_len : length p1 = S n.
Proof. rewrite <- Hl. apply (poly_rescale_num L e EL a h hv); auto. Qed.
Lemma P_nz : exists c, In c P /\ c <> 0.
Proof.
  destruct (Exists_dec (fun c => c <> 0) P) as [D|D]; [intros c; destruct (Req_EM_T c 0); [right|left]; auto| |].
  - apply Exists_exists in D. exact D.
  - exfalso. assert (Z0 : forall y, peval (vals a) y = 0).
    { intros y. replace y with (hv * (y / hv)) by (field; auto). rewrite <- P_eval. apply peval_all0.
      apply Forall_forall. intros d Hd. destruct (Req_EM_T d 0); auto. exfalso. apply D, Exists_exists. eauto. }
    destruct Hnz as [c [Hc Hc']]. apply Hc'.
    pose proof (vanish (length (vals a)) (vals a) 0 1 (le_n _) Rlt_0_1 (fun x _ => Z0 x)) as K. rewrite Forall_forall in K. auto.
Qed.

(* --- Recorded events ------------------------------------------------------------------ *)
Definition ev_of (root : F) : list Ev := add_d_event o e emit i dir a n h root [].
Lemma add_app root out : add_d_event o e emit i dir a n h root out = out ++ ev_of root.
Proof.
  unfold ev_of, add_d_event. destruct (ffin o root); cbn [negb]; [|rewrite app_nil_r; auto].
  destruct (negb (ffin o _)); [rewrite app_nil_r; auto|]. destruct (Z.eqb dir 0); [auto|]. destruct (Z.eqb _ dir); [auto|rewrite app_nil_r; auto].
Qed.
Definition at_x (x : R) (root : F) : Prop := num root (x * hv) /\ 0 <= x < 1.
Lemma ev_of_exact root x : at_x x root ->
  exists s d, is_sign (pder (vals a) (x * hv)) s /\ num d (Rabs (pder (vals a) (x * hv))) /\
    ev_of root = if Z.eqb dir 0 || Z.eqb s dir then [emit i root s d] else [].
Proof.
  intros [[F1 V1] Hx]. unfold ev_of, add_d_event. rewrite F1. cbn [negb].
  assert (K : fle o (fabs o h) (fabs o root) = false).
  { destruct (fl_abs o L h (proj1 Hh)) as [A1 A2]. destruct (fl_abs o L root F1) as [B1 B2].
    destruct (fle o (fabs o h) (fabs o root)) eqn:Q; auto. apply (fl_le o L) in Q; auto.
    rewrite A2, B2, V1, (proj2 Hh), Rabs_mult in Q. assert (0 < Rabs hv) by (apply Rabs_pos_lt; auto).
    rewrite (Rabs_pos_eq x) in Q by lra. nra. }
  rewrite K. destruct (poly_eval_1_num L X e EL a n root (x * hv) Ha Hl Hn (conj F1 V1)) as [D1 D2].
  rewrite D1. cbn [negb].
  exists (sgn o (poly_eval_1 o e a root n)), (fabs o (poly_eval_1 o e a root n)).
  split; [apply (sgn_spec L); split; auto|]. split.
  - destruct (fl_abs o L _ D1) as [A1 A2]. split; auto. rewrite A2, D2; auto.
  - destruct (Z.eqb dir 0); cbn [orb]; auto.
Qed.

(* --- Isolation -------------------------------------------------------------------------- *)
Context (off : F) (ov : R) (Hoff : num off ov) (Hov : 0 <= ov).
Definition apart (I J : F * F) : Prop := val (snd I) <= val (fst J) \/ val (snd J) <= val (fst I).
Definition disjoint (l : list (F * F)) : Prop := ForallOrdPairs apart l.
Lemma apart_sym I J : apart I J -> apart J I.
Proof. unfold apart; tauto. Qed.
Definition isolating (I : F * F) : Prop :=
  ival_ok L (fst I) (snd I) /\ ov < val (snd I) /\ exists x, sign_change P (val (fst I)) x (val (snd I)).
Definition lb_root (root : F) : Prop := exists x k m, (k < 2 ^ m)%nat /\ x = INR k / INR (2 ^ m) /\ at_x x root /\ peval P x = 0 /\ (term = true -> ov <= x).
Definition bounds (it : F * F * list F) : F * F := fst it.

Lemma isolate_spec : forall fuel wl isol out failed isol' out',
  Forall (item_ok L P n) wl -> Forall (fun it => ov < val (snd (bounds it))) wl -> disjoint (map bounds wl ++ isol) ->
  isolate o e emit term i dir a n h fuel off wl isol out = MDone (failed, isol', out') ->
  exists roots new, out' = out ++ flat_map ev_of roots /\ isol' = isol ++ new /\
    Forall lb_root roots /\ Forall isolating new /\ disjoint isol' /\
    (failed = false -> forall it x, In it wl -> val (fst (bounds it)) <= x < val (snd (bounds it)) -> ov <= x -> peval P x = 0 ->
       (exists root, In root roots /\ at_x x root) \/ exists I, In I new /\ val (fst I) < x < val (snd I)).
Proof.
  induction fuel as [|fuel IH]; intros wl isol out failed isol' out' Hw Ho Hd H; cbn [isolate] in H; [discriminate|].
  destruct wl as [|[[lb ub] q] wl]; [discriminate|].
  inversion Hw as [|? ? Hit Hw']; subst. inversion Ho as [|? ? Hob Ho']; subst. cbn [bounds fst snd] in Hob.
  pose proof Hit as Hit0. destruct Hit as [Hiv Hq].
  destruct (ival_range L lb ub Hiv) as [Flb [Fub [[L0 Llt] U1]]].
  cbn [map app] in Hd. cbv zeta in H.
  (* the event at the lower bound *)
  set (out1 := if feq o (get q 0) zero && forallb (ffin o) (tl q) then if term && flt o lb off then out else add_d_event o e emit i dir a n h (e_mul e lb h) out else out) in H.
  assert (HL : exists roots0, out1 = out ++ flat_map ev_of roots0 /\ Forall lb_root roots0 /\
     (peval P (val lb) = 0 -> ov <= val lb -> exists root, In root roots0 /\ at_x (val lb) root)).
  { assert (Fq : forallb (ffin o) (tl q) = true).
    { apply forallb_forall. intros c Hc. pose proof (proj1 Hq) as Fq. unfold finite in Fq. rewrite Forall_forall in Fq.
      apply Fq. destruct q; [destruct Hc|right; auto]. }
    pose proof (num_get L q 0 (proj1 Hq)) as Nq. pose proof (fl_eq o L _ _ (proj1 Nq) (proj1 (num_0 L))) as Eq0.
    rewrite (proj2 Nq), (proj2 (num_0 L)), (item_at_0 L P n lb ub q Hq) in Eq0.
    assert (NZ : at_x (val lb) (e_mul e lb h)).
    { split; [apply (num_mul L e EL); auto; split; auto|]. lra. }
    unfold out1. rewrite Fq, andb_true_r. destruct (feq o (get q 0) zero) eqn:E0.
    - assert (Z0 : peval P (val lb) = 0) by (apply Eq0; auto).
      destruct (term && flt o lb off) eqn:T0.
      + exists []. split; [cbn; rewrite app_nil_r; auto|]. split; [constructor|]. intros _ K.
        apply andb_true_iff in T0. destruct T0 as [_ T0]. apply (fl_lt o L) in T0; auto; [|apply Hoff].
        rewrite (proj2 Hoff) in T0. lra.
      + exists [e_mul e lb h]. split; [cbn; rewrite app_nil_r; apply add_app|]. split.
        * constructor; [|constructor]. destruct Hiv as [k [m [Hk [[_ Ek] _]]]]. exists (val lb), k, m. split; [auto|]. split; [auto|].
          split; [auto|]. split; [auto|]. intros ->. apply andb_false_iff in T0. destruct T0 as [T0|T0]; [discriminate|].
          apply Rnot_lt_le. intros K. assert (flt o lb off = true) by (apply (fl_lt o L); auto; [apply Hoff|rewrite (proj2 Hoff); auto]). congruence.
        * intros _ _. exists (e_mul e lb h). split; [left; auto|auto].
    - exists []. split; [cbn; rewrite app_nil_r; auto|]. split; [constructor|]. intros Z0. apply Eq0 in Z0. discriminate. }
  destruct HL as [roots0 [Eo [Hr0 Hlb]]].
  (* the rest of the iteration *)
  set (n_sc := poly_rtscc o e q n) in H.
  set (mid := fadd o (e_div e lb (e_nat e 2)) (e_div e ub (e_nat e 2))) in H.
  set (next := if Nat.eqb n_sc 1 then (wl, isol ++ [(lb, ub)]) else if Nat.ltb 1 n_sc then
     ((mid, ub, poly_translate_1 o e (poly_rescale_p2 o e q) n) :: (if flt o off mid then (lb, mid, poly_rescale_p2 o e q) :: wl else wl), isol)
     else (wl, isol)) in H.
  assert (HN : exists new0, snd next = isol ++ new0 /\ Forall isolating new0 /\ disjoint (map bounds (fst next) ++ snd next) /\
     Forall (item_ok L P n) (fst next) /\ Forall (fun it => ov < val (snd (bounds it))) (fst next) /\
     (forall it, In it wl -> In it (fst next)) /\
     (forall x, val lb < x < val ub -> ov <= x -> peval P x = 0 -> (exists I, In I new0 /\ val (fst I) < x < val (snd I)) \/
        exists it, In it (fst next) /\ val (fst (bounds it)) <= x < val (snd (bounds it)))).
  { unfold next. destruct (Nat.eqb n_sc 1) eqn:E1; [|destruct (Nat.ltb 1 n_sc) eqn:E2].
    - apply Nat.eqb_eq in E1. exists [(lb, ub)]. cbn [fst snd]. split; [auto|]. split.
      { constructor; [|constructor]. split; [auto|]. split; [auto|]. apply (item_one L X e EL P n lb ub q); auto. }
      split. { unfold disjoint. apply (fop_perm apart apart_sym (((lb, ub) :: map bounds wl) ++ isol)); [|exact Hd].
        cbn [app].
        rewrite app_assoc. apply Permutation_cons_append. }
      split; [auto|]. split; [auto|]. split; [auto|]. intros x Hx _ _. left. exists (lb, ub). split; [left; auto|auto].
    - destruct (item_halves L X e EL P n lb ub q Hit0) as [IL [IU Nm]]. fold mid in IL, IU, Nm.
      destruct (ival_range L lb mid (proj1 IL)) as [_ [Fm [Rl _]]]. destruct (ival_range L mid ub (proj1 IU)) as [_ [_ [Ru _]]].
      exists []. cbn [fst snd]. split; [rewrite app_nil_r; auto|]. split; [constructor|].
      inversion Hd as [|? ? Hd1 Hd2]; subst. rewrite Forall_forall in Hd1.
      assert (Dm : forall J, In J (map bounds wl ++ isol) -> apart (mid, ub) J /\ apart (lb, mid) J).
      { intros J HJ. specialize (Hd1 J HJ). unfold apart in *. cbn [fst snd bounds] in *. lra. }
      destruct (flt o off mid) eqn:Em.
      + apply (fl_lt o L) in Em; auto; [|apply Hoff]. rewrite (proj2 Hoff) in Em.
        split. { unfold disjoint. cbn [map app bounds fst]. constructor.
          - constructor; [unfold apart; cbn; lra|]. apply Forall_forall. intros J HJ. apply Dm; auto.
          - constructor; [apply Forall_forall; intros J HJ; apply Dm; auto|exact Hd2]. }
        split; [constructor; [auto|constructor; auto]|]. split; [constructor; [auto|constructor; auto]|].
        split; [intros it Hi; right; right; auto|].
        intros x Hx _ _. right. destruct (Rlt_le_dec x (val mid)) as [K|K].
        * exists (lb, mid, poly_rescale_p2 o e q). split; [right; left; auto|cbn; lra].
        * exists (mid, ub, poly_translate_1 o e (poly_rescale_p2 o e q) n). split; [left; auto|cbn; lra].
      + assert (Em' : val mid <= ov).
        { apply Rnot_lt_le. intros K. assert (flt o off mid = true) by (apply (fl_lt o L); auto; [apply Hoff|rewrite (proj2 Hoff); auto]). congruence. }
        split. { unfold disjoint. cbn [map app bounds fst]. constructor; [|exact Hd2]. apply Forall_forall. intros J HJ. apply Dm; auto. }
        split; [constructor; auto|]. split; [constructor; auto|]. split; [intros it Hi; right; auto|].
        intros x Hx Hx' _. right. exists (mid, ub, poly_translate_1 o e (poly_rescale_p2 o e q) n). split; [left; auto|cbn; lra].
    - assert (E0 : n_sc = 0%nat) by (apply Nat.eqb_neq in E1; apply Nat.ltb_ge in E2; lia).
      exists []. cbn [fst snd]. split; [rewrite app_nil_r; auto|]. split; [constructor|].
      split. { inversion Hd; subst; auto. }
      split; [auto|]. split; [auto|]. split; [auto|]. intros x Hx _ Z0. exfalso.
      apply (item_none L X e EL P n P_nz lb ub q Hq Llt E0 x Hx Z0). }
  destruct next as [wl2 isol2]. cbn [fst snd] in HN. destruct HN as [new0 [Ei [Hn0 [Hd2 [Hw2 [Ho2 [Hin Hcov]]]]]]].
  destruct (Nat.ltb 250 (length wl2) || Nat.ltb n (length isol2)) eqn:Ef.
  { injection H as <- <- <-. exists roots0, new0. split; [auto|]. split; [auto|]. split; [auto|]. split; [auto|].
    split; [eapply fop_app_r; exact Hd2|]. intros K; discriminate. }
  destruct wl2 as [|it2 wl2'].
  { injection H as <- <- <-. exists roots0, new0. split; [auto|]. split; [auto|]. split; [auto|]. split; [auto|].
    split; [exact Hd2|]. intros _ it x Hi Hx Hox Z0. destruct Hi as [<-|Hi]; [|destruct (Hin _ Hi)].
    cbn [bounds fst snd] in Hx. destruct (Req_EM_T x (val lb)) as [->|Ne]; [left; auto|].
    destruct (Hcov x ltac:(lra) Hox Z0) as [K|[it [[] _]]]. right; auto. }
  destruct (IH _ _ _ _ _ _ Hw2 Ho2 Hd2 H) as [roots1 [new1 [Eo1 [Ei1 [Hr1 [Hn1 [Hd1 Hc1]]]]]]].
  exists (roots0 ++ roots1), (new0 ++ new1).
  split; [rewrite Eo1, Eo, flat_map_app, app_assoc; auto|]. split; [rewrite Ei1, Ei, app_assoc; auto|].
  split; [apply Forall_app; auto|]. split; [apply Forall_app; auto|]. split; [auto|].
  intros Hf it x Hi Hx Hox Z0.
  assert (tail : forall it', In it' (it2 :: wl2') -> val (fst (bounds it')) <= x < val (snd (bounds it')) ->
     (exists root, In root (roots0 ++ roots1) /\ at_x x root) \/ exists I, In I (new0 ++ new1) /\ val (fst I) < x < val (snd I)).
  { intros it' Hi' Hx'. destruct (Hc1 Hf it' x Hi' Hx' Hox Z0) as [[root [K1 K2]]|[I [K1 K2]]].
    - left. exists root. split; [apply in_or_app; auto|auto].
    - right. exists I. split; [apply in_or_app; auto|auto]. }
  destruct Hi as [<-|Hi]; [|apply (tail it); auto].
  cbn [bounds fst snd] in Hx. destruct (Req_EM_T x (val lb)) as [->|Ne].
  - left. destruct (Hlb Z0 Hox) as [root [K1 K2]]. exists root. split; [apply in_or_app; auto|auto].
  - destruct (Hcov x ltac:(lra) Hox Z0) as [[I [K1 K2]]|[it' [K1 K2]]]; [|apply (tail it'); auto].
    right. exists I. split; [apply in_or_app; auto|auto].
Qed.

(* --- Root finding ----------------------------------------------------------------------- *)
(* A sign change in a part of the interval that contains the zero. *)
Lemma sign_change_left lb lb' x ub : lb <= lb' -> lb' < x -> sign_change P lb x ub -> sign_change P lb' x ub.
Proof.
  intros H1 H2 [A [B [s [C [D E]]]]]. split; [lra|]. split; [auto|]. exists s. split; [auto|]. split; intros y Hy; [apply D|apply E]; lra.
Qed.
Lemma sign_change_unique lb x ub y : sign_change P lb x ub -> lb < y < ub -> peval P y = 0 -> y = x.
Proof.
  intros [A [B [s [C [D E]]]]] Hy H. destruct (Rtotal_order y x) as [K|[K|K]]; auto.
  - specialize (D y ltac:(lra)). rewrite H in D. lra.
  - specialize (E y ltac:(lra)). rewrite H in E. lra.
Qed.
Lemma between_prod lb x ub y : sign_change P lb x ub -> lb < y < ub -> (x < ub) -> 
  peval P ub <> 0 -> peval P y <> 0 -> (peval P y * peval P ub < 0 <-> y < x).
Proof.
  intros S0 Hy Hx Nu Ny. pose proof S0 as [A [B [s [C [D E]]]]].
  (* the sign at the upper bound is that after the zero *)
  assert (U : s * peval P ub < 0).
  { apply Rnot_le_lt. intros K. assert (K' : 0 < s * peval P ub).
    { destruct K as [K|K]; auto. symmetry in K. apply Rmult_integral in K. destruct K; [lra|congruence]. }
    set (z := (x + ub) / 2). assert (Ez : s * peval P z < 0) by (apply E; unfold z; lra).
    assert (cont : continuity (fun t => s * peval P t)).
    { apply (continuity_mult (fun _ => s) (peval P)); [apply continuity_const; intros ? ?; auto|apply peval_cont]. }
    destruct (IVT (fun t => s * peval P t) z ub cont ltac:(unfold z; lra) Ez K') as [w [Hw Zw]].
    destruct (Req_EM_T w ub) as [->|Nw]; [lra|].
    assert (s * peval P w < 0) by (apply E; unfold z in Hw; lra). lra. }
  split; intros K.
  - apply Rnot_le_lt. intros Q. assert (y <> x) by congruence. specialize (E y ltac:(lra)).
    assert (0 < (s * s) * (peval P y * peval P ub)) by nra. assert (0 < s * s) by nra. nra.
  - specialize (D y ltac:(lra)). assert ((s * s) * (peval P y * peval P ub) < 0) by nra. assert (0 < s * s) by nra. nra.
Qed.

Definition found (root : F) : Prop := exists x, at_x x root /\ peval P x = 0 /\ (term = true -> ov <= x).
Lemma find_roots_spec : forall isol out, Forall isolating isol ->
  exists roots, find_roots o e solve emit term i dir a n h off p1 isol out = out ++ flat_map ev_of roots /\
    Forall found roots /\
    (solver_succeeds L e solve -> forall I x, In I isol -> val (fst I) < x < val (snd I) -> peval P x = 0 -> (term = true -> ov < x) ->
       peval P (val (fst I)) <> 0 -> peval P (val (snd I)) <> 0 -> exists root, In root roots /\ at_x x root) /\
    ((forall I, In I isol -> peval P (val (fst I)) <> 0) -> disjoint isol ->
       exists Is, NoDup Is /\ (forall k, In k Is -> (k < length isol)%nat) /\
       Forall2 (fun k root => exists I x, nth_error isol k = Some I /\ val (fst I) < x < val (snd I) /\ at_x x root) Is roots).
Proof.
  induction isol as [|[lb0 ub] isol IH]; intros out Hi; cbn [find_roots].
  { exists []. split; [cbn; rewrite app_nil_r; auto|]. split; [constructor|]. split; [intros _ I x []|].
    intros _ _. exists []. split; [constructor|]. split; [intros k []|constructor]. }
  inversion Hi as [|? ? [Hiv [Hou [x0 Sx]]] Hi']; subst. cbn [fst snd] in *.
  destruct (ival_range L lb0 ub Hiv) as [Flb [Fub [[L0 Llt] U1]]].
  pose proof p1_fin as Fp. pose proof p1_len as Lp. pose proof Sx as [Bx [Zx _]].
  set (clip := term && flt o lb0 off). set (lb := if clip then off else lb0).
  (* the case in which the interval is skipped, and the one in which it is searched *)
  assert (Hclip : clip = true -> term = true /\ val lb0 < ov).
  { unfold clip. intros K. apply andb_true_iff in K. destruct K as [K1 K2]. split; auto.
    apply (fl_lt o L) in K2; auto; [|apply Hoff]. rewrite (proj2 Hoff) in K2; auto. }
  assert (Hnclip : clip = false -> term = true -> ov <= val lb0).
  { unfold clip. intros K ->. cbn [andb] in K. apply Rnot_lt_le. intros Q.
    assert (flt o lb0 off = true) by (apply (fl_lt o L); auto; [apply Hoff|rewrite (proj2 Hoff); auto]). congruence. }
  destruct (clip && negb (flt o (e_mul e (poly_eval o e p1 lb n) (poly_eval o e p1 ub n)) zero)) eqn:Ec.
  - (* skipped *)
    apply andb_true_iff in Ec. destruct Ec as [Ec1 Ec2]. apply negb_true_iff in Ec2. destruct (Hclip Ec1) as [HT Hlo].
    destruct (IH out Hi') as [roots [E1 [E2 [E3 E4]]]]. exists roots. split; [auto|]. split; [auto|]. split.
    + intros FT I x [<-|HI] Hx Z0 Ht Nl Nu; [|eapply E3; eauto]. exfalso. cbn [fst snd] in *.
      assert (x = x0) by (eapply sign_change_unique; eauto). subst x0. specialize (Ht HT).
      assert (Np : num (e_mul e (poly_eval o e p1 lb n) (poly_eval o e p1 ub n)) (peval P ov * peval P (val ub))).
      { apply (num_mul L e EL); apply (poly_eval_num L X e EL); auto; [|split; auto]. unfold lb. rewrite Ec1. auto. }
      assert (Noff : peval P ov <> 0).
      { intros K. assert (ov = x) by (eapply sign_change_unique; [exact Sx|lra|auto]). lra. }
      assert (K : peval P ov * peval P (val ub) < 0) by (apply (between_prod (val lb0) x (val ub) ov); auto; lra).
      assert (flt o (e_mul e (poly_eval o e p1 lb n) (poly_eval o e p1 ub n)) zero = true).
      { apply (proj2 (fl_lt o L _ _ (proj1 Np) (proj1 (num_0 L)))). rewrite (proj2 Np), (proj2 (num_0 L)). auto. }
      congruence.
    + intros Nz Hd. inversion Hd as [|? ? Hd1 Hd2]; subst.
      destruct (E4 (fun I HI => Nz I (or_intror HI)) Hd2) as [Is [N1 [N2 N3]]].
      exists (map S Is). split; [apply FinFun.Injective_map_NoDup; [intros u v Q; injection Q; auto|auto]|]. split.
      * intros k Hk. apply in_map_iff in Hk. destruct Hk as [k' [<- Hk']]. specialize (N2 k' Hk'). cbn. lia.
      * clear -N3. induction N3; cbn; constructor; auto.
  - (* searched *)
    assert (Flb' : ffin o lb = true) by (unfold lb; destruct clip; auto; apply Hoff).
    assert (Bl : val lb0 <= val lb /\ val lb < val ub /\ (term = true -> ov <= val lb)).
    { unfold lb. destruct clip eqn:Q.
      - destruct (Hclip eq_refl) as [HT Hlo]. rewrite (proj2 Hoff). lra.
      - split; [lra|]. split; [lra|]. intros HT. apply Hnclip; auto. }
    destruct Bl as [Bl1 [Bl2 Bl3]].
    assert (BK : bracket L p1 n lb ub) by (split; [auto|]; split; [auto|]; split; auto).
    (* the zero that is looked for *)
    assert (HX : exists x, peval P x = 0 /\ val lb <= x < val ub /\ (peval P (val lb) <> 0 -> x = x0 /\ val lb < x0) /\
       (forall r, bracketed_root_find o e solve p1 n lb ub = (r, 0%Z) -> num r x) /\
       (solver_succeeds L e solve -> exists r, bracketed_root_find o e solve p1 n lb ub = (r, 0%Z))).
    { destruct (Req_EM_T (peval P (val lb)) 0) as [Zl|Nl].
      - exists (val lb). split; [auto|]. split; [lra|]. split; [intros K; contradiction|]. split.
        + intros r Hr. destruct (finder_sound L e solve X EL FS _ _ _ _ _ BK Hr) as [R1 [R2 _]]. split; auto.
        + intros FT. apply (finder_total L e solve FT _ _ _ _ BK). left. exact Zl.
      - assert (Lx : val lb < x0).
        { destruct clip eqn:Q.
          - cbn [andb] in Ec. apply negb_false_iff in Ec. assert (El : val lb = ov) by (unfold lb; apply Hoff).
            assert (Np : num (e_mul e (poly_eval o e p1 lb n) (poly_eval o e p1 ub n)) (peval P (val lb) * peval P (val ub))).
            { apply (num_mul L e EL); apply (poly_eval_num L X e EL); auto; split; auto. }
            apply (fl_lt o L) in Ec; [|apply Np|apply (num_0 L)]. rewrite (proj2 Np), (proj2 (num_0 L)) in Ec.
            assert (Nu : peval P (val ub) <> 0) by (intros K; rewrite K in Ec; lra).
            destruct (Hclip eq_refl) as [HT Hlo].
            apply (proj1 (between_prod (val lb0) x0 (val ub) (val lb) Sx ltac:(lra) (proj2 Bx) Nu Nl) Ec).
          - unfold lb. lra. }
        pose proof (sign_change_left _ _ _ _ Bl1 Lx Sx) as Sl.
        exists x0. split; [auto|]. split; [lra|]. split; [auto|]. split.
        + intros r Hr. destruct (finder_sound L e solve X EL FS _ _ _ _ _ BK Hr) as [R1 [_ R2]]. split; [auto|]. apply R2; auto.
        + intros FT. apply (finder_total L e solve FT _ _ _ _ BK). right. exists x0. exact Sl. }
    destruct HX as [x [Zr [Br [Ur [Hr HT]]]]]. destruct (bracketed_root_find o e solve p1 n lb ub) as [r cflag].
    destruct (Z.eqb cflag 0) eqn:Qc.
    2:{ (* the library fails *)
      destruct (IH out Hi') as [roots [E1 [E2 [E3 E4]]]]. exists roots. split; [auto|]. split; [auto|]. split.
      - intros FT. exfalso. destruct (HT FT) as [r' K]. injection K as _ ->. discriminate.
      - intros Nz Hd. inversion Hd as [|? ? Hd1 Hd2]; subst.
        destruct (E4 (fun I HI => Nz I (or_intror HI)) Hd2) as [Is [N1 [N2 N3]]].
        exists (map S Is). split; [apply FinFun.Injective_map_NoDup; [intros u v Q; injection Q; auto|auto]|]. split.
        + intros k Hk. apply in_map_iff in Hk. destruct Hk as [k' [<- Hk']]. specialize (N2 k' Hk'). cbn. lia.
        + clear -N3. induction N3; cbn; constructor; auto. }
    apply Z.eqb_eq in Qc. subst cflag. specialize (Hr r eq_refl). rename Hr into Nr. clear HT.
    assert (At : at_x x (e_mul e r h)) by (split; [apply (num_mul L e EL); auto|lra]).
    destruct (IH (add_d_event o e emit i dir a n h (e_mul e r h) out) Hi') as [roots [E1 [E2 [E3 E4]]]].
    exists (e_mul e r h :: roots). split; [rewrite E1, add_app; cbn [flat_map]; rewrite app_assoc; auto|].
    split; [constructor; [exists x; split; [auto|]; split; [auto|]; intros HT; specialize (Bl3 HT); lra|auto]|]. split.
    + intros FT I y [<-|HI] Hy Z0 Ht Nl Nu; [|destruct (E3 FT I y HI Hy Z0 Ht Nl Nu) as [root [K1 K2]]; exists root; split; [right; auto|auto]].
      cbn [fst snd] in *. assert (y = x0) by (eapply sign_change_unique; eauto). subst x0.
      assert (Nl' : peval P (val lb) <> 0).
      { unfold lb. destruct clip eqn:Q; [|auto]. rewrite (proj2 Hoff). destruct (Hclip eq_refl) as [HT Hlo]. specialize (Ht HT).
        intros K. assert (ov = y) by (eapply sign_change_unique; [exact Sx|lra|auto]). lra. }
      destruct (Ur Nl') as [-> _]. exists (e_mul e r h). split; [left; auto|auto].
    + intros Nz Hd. inversion Hd as [|? ? Hd1 Hd2]; subst.
      destruct (E4 (fun I HI => Nz I (or_intror HI)) Hd2) as [Is [N1 [N2 N3]]].
      exists (0%nat :: map S Is). split.
      { constructor; [intros K; apply in_map_iff in K; destruct K as [? [K _]]; discriminate|].
        apply FinFun.Injective_map_NoDup; [intros u v Q; injection Q; auto|auto]. }
      split.
      * intros k [<-|Hk]; [cbn; lia|]. apply in_map_iff in Hk. destruct Hk as [k' [<- Hk']]. specialize (N2 k' Hk'). cbn. lia.
      * constructor.
        { exists (lb0, ub), x. split; [auto|]. cbn [fst snd]. split; [|auto]. specialize (Nz (lb0, ub) (or_introl eq_refl)). cbn [fst] in Nz.
          destruct (Req_EM_T x (val lb0)) as [->|Ne]; [contradiction|]. lra. }
        clear -N3. induction N3; cbn; constructor; auto.
Qed.
End Det.
