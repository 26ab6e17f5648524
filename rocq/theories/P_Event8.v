(* Reported times are in the step, whatever the polynomials, in rounded arithmetic;
   cooldowns are respected. *)
From Coq Require Import Reals Lra Lia List ZArith Bool.
From Verif Require Import M_Float M_Step S_Step M_Dag M_Taylor M_Event S_Event.
Import ListNotations.
Local Open Scope R_scope.
Set Bullet Behavior "Strict Subproofs".

(* --- Properties of the reported roots ------------------------------------------------------ *)
Section Inv.
Context {o : fops} (e : eops o).
Context (solve : (F o -> F o) -> F o -> F o -> F o * F o * Z * bool).
Notation F := (F o).
Notation zero := (f0 o).
Context {Ev : Type} (emit : nat -> F -> Z -> F -> Ev).
Context (term : bool) (i : nat) (dir : Z) (a : list F) (n : nat) (h : F).
(* A property of intervals, kept by bisection, and one of roots. *)
Context (off : F) (I : F -> F -> Prop) (G : F -> Prop).
Context (HI : forall lb ub, I lb ub -> let mid := fadd o (e_div e lb (e_nat e 2)) (e_div e ub (e_nat e 2)) in I mid ub /\ (flt o off mid = true -> I lb mid)).
Context (Hlb : forall lb ub, I lb ub -> term && flt o lb off = false -> G (e_mul e lb h)).
Context (Hfind : forall p lb0 ub r, I lb0 ub -> bracketed_root_find o e solve p n (if term && flt o lb0 off then off else lb0) ub = (r, 0%Z) -> G (e_mul e r h)).
Definition from_root (ev : Ev) : Prop := exists r s d, G r /\ ev = emit i (if fle o (fabs o h) (fabs o r) then e_next e h zero else r) s d /\ ffin o r = true.
Lemma add_from_root r out : G r -> Forall from_root out -> Forall from_root (add_d_event o e emit i dir a n h r out).
Proof.
  intros HG Ho. unfold add_d_event. destruct (ffin o r) eqn:Q; cbn [negb]; auto. destruct (negb (ffin o _)); auto.
  destruct (Z.eqb dir 0); [|destruct (Z.eqb _ dir); auto]; apply Forall_app; (split; [auto|]); constructor; auto; unfold from_root; eauto 8.
Qed.
Lemma isolate_inv : forall fuel wl isol out failed isol' out', Forall (fun it => I (fst (fst it)) (snd (fst it))) wl -> Forall (fun p => I (fst p) (snd p)) isol ->
  Forall from_root out -> isolate o e emit term i dir a n h fuel off wl isol out = MDone (failed, isol', out') ->
  Forall (fun p => I (fst p) (snd p)) isol' /\ Forall from_root out'.
Proof.
  induction fuel as [|fuel IH]; intros wl isol out failed isol' out' Hw Hi Ho H; cbn [isolate] in H; [discriminate|].
  destruct wl as [|[[lb ub] q] wl]; [discriminate|]. inversion Hw as [|? ? H1 H2]; subst. cbn [fst snd] in H1. cbv zeta in H.
  set (out1 := if feq o _ _ && _ then _ else out) in H.
  assert (Ho1 : Forall from_root out1).
  { unfold out1. destruct (feq o _ _ && _); auto. destruct (term && flt o lb off) eqn:Q; auto. apply add_from_root; eauto. }
  set (next := if Nat.eqb (poly_rtscc o e q n) 1 then _ else _) in H.
  assert (Hn : Forall (fun it => I (fst (fst it)) (snd (fst it))) (fst next) /\ Forall (fun p => I (fst p) (snd p)) (snd next)).
  { unfold next. destruct (HI lb ub H1) as [M1 M2]. destruct (Nat.eqb _ 1); cbn [fst snd].
    - split; auto. apply Forall_app. split; auto.
    - destruct (Nat.ltb 1 _); cbn [fst snd]; [|auto]. split; auto. constructor; auto. destruct (flt o off _) eqn:Qm; [constructor; auto|auto]. }
  destruct Hn as [Hn1 Hn2]. destruct next as [wl' isol1]. cbn [fst snd] in *.
  destruct (_ || _); [injection H as _ <- <-; auto|]. destruct wl' as [|it wl']; [injection H as _ <- <-; auto|]. eapply IH; eauto.
Qed.
Lemma find_inv p1 : forall isol out, Forall (fun p => I (fst p) (snd p)) isol -> Forall from_root out ->
  Forall from_root (find_roots o e solve emit term i dir a n h off p1 isol out).
Proof.
  induction isol as [|[lb0 ub] isol IH]; intros out Hi Ho; cbn [find_roots]; auto. inversion Hi as [|? ? H1 H2]; subst. cbn [fst snd] in H1.
  destruct (_ && negb _); [apply IH; auto|].
  destruct (bracketed_root_find o e solve p1 n _ ub) as [r cf] eqn:Er. apply IH; auto. destruct (Z.eqb cf 0) eqn:Q; auto.
  apply Z.eqb_eq in Q. subst cf. apply add_from_root; auto. eapply Hfind; eauto.
Qed.
End Inv.

Lemma one_inv {o : fops} (e : eops o) solve {Ev} (emit : nat -> F o -> Z -> F o -> Ev) term i dir a n h cd fuel out failed out'
  (I : F o -> F o -> Prop) (G : F o -> Prop) :
  (forall off, off = lb_offset o e term h cd -> fle o (e_nat e 1) off = false ->
     (forall lb ub, I lb ub -> let mid := fadd o (e_div e lb (e_nat e 2)) (e_div e ub (e_nat e 2)) in I mid ub /\ (flt o off mid = true -> I lb mid)) /\
     I (f0 o) (e_nat e 1) /\
     (forall lb ub, I lb ub -> term && flt o lb off = false -> G (e_mul e lb h)) /\
     (forall p lb0 ub r, I lb0 ub -> bracketed_root_find o e solve p n (if term && flt o lb0 off then off else lb0) ub = (r, 0%Z) -> G (e_mul e r h))) ->
  detect_one o e solve emit term i dir a n h fuel cd out = MDone (failed, out') ->
  exists new, out' = out ++ new /\ Forall (from_root e emit i h G) new.
Proof.
  intros HG H. unfold detect_one in H.
  destruct (fex_check o e false a n h (flt o h (f0 o))) as [[|]| | |]; cbn [mbind] in H; try discriminate.
  { injection H as _ <-. exists []. rewrite app_nil_r. split; auto. }
  destruct (fle o (e_nat e 1) (lb_offset o e term h cd)) eqn:Q.
  { injection H as _ <-. exists []. rewrite app_nil_r. split; auto. }
  destruct (HG _ eq_refl Q) as [HI [H0 [G1 G2]]]. set (off := lb_offset o e term h cd) in *. cbv zeta in H.
  (* the list of the events is only extended *)
  assert (A : forall r out, exists l, forall out0, add_d_event o e emit i dir a n h r (out0 ++ out) = out0 ++ out ++ l).
  { intros r out0. unfold add_d_event. destruct (negb (ffin o r)); [exists []; intros; rewrite app_nil_r; auto|].
    destruct (negb (ffin o _)); [exists []; intros; rewrite app_nil_r; auto|].
    destruct (Z.eqb dir 0); [eexists; intros; rewrite app_assoc; reflexivity|]. destruct (Z.eqb _ dir); [eexists; intros; rewrite app_assoc; reflexivity|].
    exists []; intros; rewrite app_nil_r; auto. }
  assert (B : forall fuel wl isol out0 failed isol' out', isolate o e emit term i dir a n h fuel off wl isol (out ++ out0) = MDone (failed, isol', out') ->
     exists out1, out' = out ++ out1 /\ isolate o e emit term i dir a n h fuel off wl isol out0 = MDone (failed, isol', out1)).
  { induction fuel0 as [|fuel0 IH]; intros wl isol out0 fl isol' out1 K; cbn [isolate] in *; [discriminate|].
    destruct wl as [|[[lb ub] q] wl]; [discriminate|]. cbv zeta in *.
    destruct (A (e_mul e lb h) out0) as [l Hl]. pose proof (Hl out) as Hl1. pose proof (Hl []) as Hl2. cbn [app] in Hl2.
    rewrite Hl1 in K. rewrite Hl2.
    assert (KK : (if feq o (nth 0 q (f0 o)) (f0 o) && forallb (ffin o) (tl q) then if term && flt o lb off then out ++ out0 else out ++ out0 ++ l else out ++ out0) =
      out ++ (if feq o (nth 0 q (f0 o)) (f0 o) && forallb (ffin o) (tl q) then if term && flt o lb off then out0 else out0 ++ l else out0)).
    { destruct (_ && _); auto. destruct (_ && _); auto. }
    rewrite KK in K. destruct (if Nat.eqb (poly_rtscc o e q n) 1 then _ else _) as [wl' isol1].
    destruct (_ || _); [injection K as <- <- <-; eauto|]. destruct wl' as [|it wl']; [injection K as <- <- <-; eauto|]. apply IH in K. exact K. }
  assert (D : forall p1 isol out0, find_roots o e solve emit term i dir a n h off p1 isol (out ++ out0) = out ++ find_roots o e solve emit term i dir a n h off p1 isol out0).
  { induction isol as [|[lb0 ub] isol IH]; intros out0; cbn [find_roots]; auto. destruct (_ && negb _); auto.
    destruct (bracketed_root_find o e solve p1 n _ ub) as [r cf]. destruct (Z.eqb cf 0); auto.
    destruct (A (e_mul e r h) out0) as [l Hl]. pose proof (Hl out) as Hl1. pose proof (Hl []) as Hl2. cbn [app] in Hl2. rewrite Hl1, Hl2. apply IH. }
  rewrite <- (app_nil_r out) in H.
  destruct (isolate o e emit term i dir a n h fuel off _ [] (out ++ [])) as [[[fl isol] out1]| | |] eqn:Ei; cbn [mbind] in H; try discriminate.
  apply B in Ei. destruct Ei as [out2 [-> Ei]].
  eapply (isolate_inv e emit term i dir a n h off I G HI G1) in Ei; [|repeat constructor; auto|constructor|constructor].
  destruct Ei as [Ei1 Ei2]. destruct (_ || fl); injection H as _ <-; [eauto|]. rewrite D. eexists. split; [reflexivity|].
  apply (find_inv e solve emit term i dir a n h off I G); auto.
Qed.

(* --- All the events ------------------------------------------------------------------------- *)
Lemma run_inv {o : fops} (e : eops o) solve {Ev} (emit : nat -> F o -> Z -> F o -> Ev) term fuel jet base order h (Q : nat -> option (F o * F o) -> Ev -> Prop) :
  forall evs i fails out fails' out',
  (forall k dir cd a out failed out', nth_error evs k = Some (dir, cd) -> detect_one o e solve emit term (i + k) dir a order h fuel cd out = MDone (failed, out') ->
     exists new, out' = out ++ new /\ Forall (Q (i + k)%nat cd) new) ->
  run_detection o e solve emit term fuel jet base order h i evs fails out = MDone (fails', out') ->
  exists new, out' = out ++ new /\ Forall (fun ev => exists k dir cd, nth_error evs k = Some (dir, cd) /\ Q (i + k)%nat cd ev) new.
Proof.
  induction evs as [|[dir cd] evs IH]; intros i fails out fails' out' HQ H; cbn [run_detection] in H.
  { injection H as _ <-. exists []. rewrite app_nil_r. split; auto. }
  destruct (event_poly o jet (i + base) order) as [a| | |]; cbn [mbind] in H; try discriminate.
  destruct (detect_one o e solve emit term i dir a order h fuel cd out) as [[failed out1]| | |] eqn:Ed; cbn [mbind fst snd] in H; try discriminate.
  pose proof (HQ 0%nat dir cd a out failed out1 eq_refl) as K0. rewrite Nat.add_0_r in K0. destruct (K0 Ed) as [new [-> N1]].
  apply IH in H; [destruct H as [new' [-> N2]]|].
  2:{ intros k dir' cd' a' out2 fl out3 Hk. replace (S i + k)%nat with (i + S k)%nat by lia. apply HQ. auto. }
  exists (new ++ new'). rewrite app_assoc. split; [auto|]. apply Forall_app. split.
  - eapply Forall_impl; [|exact N1]. intros ev Hev. exists 0%nat, dir, cd. rewrite Nat.add_0_r. auto.
  - eapply Forall_impl; [|exact N2]. intros ev [k [d [c [K1 K2]]]]. exists (S k), d, c. replace (i + S k)%nat with (S i + k)%nat by lia. auto.
Qed.

(* --- Rounded arithmetic ----------------------------------------------------------------------- *)
Section Rounded.
Context {o : fops} (L : flaws o) (e : eops o) (solve : (F o -> F o) -> F o -> F o -> F o * F o * Z * bool) (R : round_laws L e solve).
Notation F := (F o).
Notation val := (fval L).
Lemma round_find p n lb ub r : ffin o lb = true -> 0 <= val lb -> bracketed_root_find o e solve p n lb ub = (r, 0%Z) -> 0 <= val r.
Proof.
  intros Hl H0. unfold bracketed_root_find. match goal with |- context [solve _ lb ?u] => set (ub' := u) end.
  destruct (solve (fun x => poly_eval o e p x n) lb ub') as [[[p1 p2] errno] within] eqn:Es.
  destruct (0 <? errno)%Z eqn:Q; [intros K; injection K as _ ->; discriminate|]. apply Z.ltb_ge in Q.
  destruct within; intros K; [|discriminate]. injection K as <-.
  destruct (rl_find _ _ _ R _ lb ub' p1 p2 Hl (ex_intro _ errno (conj Q Es))) as [A1 [A2 [B1 B2]]].
  apply (rl_mid _ _ _ R); auto; lra.
Qed.
Definition time_ok (h t : F) : Prop := ffin o t = true /\ bounded L h t /\ val t <> val h.
Lemma one_in_step {Ev} (emit : nat -> F -> Z -> F -> Ev) term i dir a n h cd fuel out failed out' : ffin o h = true -> val h <> 0 ->
  detect_one o e solve emit term i dir a n h fuel cd out = MDone (failed, out') ->
  exists new, out' = out ++ new /\ Forall (fun ev => exists t s d, ev = emit i t s d /\ time_ok h t) new.
Proof.
  intros Hh Hh0 H.
  set (I := fun lb ub : F => (ffin o lb = true /\ 0 <= val lb) /\ (ffin o ub = true /\ 0 <= val ub)).
  set (G := fun r : F => ffin o r = true -> 0 <= val r * val h).
  destruct (one_inv e solve emit term i dir a n h cd fuel out failed out' I G) with (2 := H) as [new [-> Hn]].
  - intros off -> Ho. split; [|split; [|split]].
    + intros lb ub [[A1 A2] [B1 B2]]. pose proof (rl_mid _ _ _ R lb ub A1 B1 A2 B2) as [M1 M2]. unfold I. cbv zeta in *. auto.
    + unfold I. destruct (rl_one _ _ _ R), (fl_0 o L) as [Z1 Z2]. rewrite Z2. repeat split; auto. lra.
    + intros lb ub [[A1 A2] _] _ Fm. apply (rl_mul _ _ _ R); auto.
    + intros p lb0 ub r [[A1 A2] _] Hr Fm. pose proof (rl_mul_fin _ _ _ R _ _ Fm) as Fr. apply (rl_mul _ _ _ R); auto.
      destruct (term && flt o lb0 (lb_offset o e term h cd)) eqn:Q; [|exact (round_find _ _ _ _ _ A1 A2 Hr)].
      apply andb_true_iff in Q. destruct Q as [_ Q]. destruct (rl_lt _ _ _ R _ _ A1 Q) as [Fo|Eo].
      * refine (round_find _ _ _ _ _ Fo _ Hr). apply (fl_lt o L) in Q; auto. lra.
      * rewrite Eo in Ho. rewrite (rl_le_inf _ _ _ R) in Ho. discriminate.
  - exists new. split; [auto|]. eapply Forall_impl; [|exact Hn]. intros ev [r [s [d [HG [-> Fr]]]]]. eexists _, s, d. split; [reflexivity|].
    specialize (HG Fr). destruct (fl_abs o L h Hh) as [A1 A2]. destruct (fl_abs o L r Fr) as [B1 B2].
    assert (K : forall t, ffin o t = true -> 0 <= val t * val h -> Rabs (val t) < Rabs (val h) -> time_ok h t).
    { intros t Ft St At. split; [auto|]. unfold bounded. revert At. unfold Rabs. destruct Rcase_abs, Rcase_abs; intros; repeat split; intros; try nra; lra. }
    destruct (fle o (fabs o h) (fabs o r)) eqn:Q.
    + destruct (rl_next _ _ _ R h Hh Hh0) as [N1 [N2 N3]]. apply K; auto.
    + apply K; auto. apply Rnot_le_lt. intros C. assert (fle o (fabs o h) (fabs o r) = true); [|congruence].
      apply (proj2 (fl_le o L _ _ A1 B1)). rewrite A2, B2. auto.
Qed.
Lemma events_in_step fuel tdirs cds ndirs jet h order dim g_eps r :
  detect_events o e solve fuel tdirs cds ndirs jet h order dim g_eps = MDone r ->
  (d_tes r <> [] \/ d_ntes r <> [] -> ffin o h = true) /\
  Forall (fun ev => time_ok h (te_time ev) /\ (te_idx ev < length tdirs)%nat) (d_tes r) /\
  Forall (fun ev => time_ok h (nte_time ev) /\ (nte_idx ev < length ndirs)%nat) (d_ntes r).
Proof.
  intros H. unfold detect_events in H.
  assert (E0 : forall r', MDone (mkDet [] [] [] []) = MDone r' -> r' = r -> (d_tes r <> [] \/ d_ntes r <> [] -> ffin o h = true) /\
     Forall (fun ev => time_ok h (te_time ev) /\ (te_idx ev < length tdirs)%nat) (d_tes r) /\ Forall (fun ev => time_ok h (nte_time ev) /\ (nte_idx ev < length ndirs)%nat) (d_ntes r)).
  { intros r' K <-. injection K as <-. cbn. split; [intros [[]|[]]; auto|]. split; constructor. }
  destruct (ffin o h) eqn:Fh; cbn [negb] in H; [|eauto]. destruct (ffin o g_eps); cbn [negb] in H; [|eauto].
  destruct (feq o h (f0 o)) eqn:Q; [eauto|]. clear E0.
  assert (Hh0 : val h <> 0).
  { intros K. destruct (fl_0 o L) as [Z1 Z2]. assert (feq o h (f0 o) = true); [|congruence]. apply (proj2 (fl_eq o L _ _ Fh Z1)). rewrite Z2. auto. }
  destruct (run_detection o e solve _ true fuel jet dim order h 0 (combine tdirs cds) [] []) as [[ft ot]| | |] eqn:Et; cbn [mbind] in H; try discriminate.
  destruct (run_detection o e solve _ false fuel jet (dim + length tdirs) order h 0 (map (fun d => (d, None)) ndirs) [] []) as [[fn on]| | |] eqn:En; cbn [mbind] in H; try discriminate.
  injection H as <-. cbn [d_tes d_ntes fst snd]. split; [auto|]. split.
  - apply (run_inv e solve _ true fuel jet dim order h (fun i _ ev => te_idx ev = i /\ time_ok h (te_time ev))) in Et.
    + destruct Et as [new [-> N]]. cbn [app]. eapply Forall_impl; [|exact N]. intros ev [k [d [c [K1 [K2 K3]]]]]. split; [auto|].
      assert (k < length (combine tdirs cds))%nat by (apply nth_error_Some; congruence). rewrite combine_length in *. lia.
    + intros k dir cd a out fl out' _ Hd. apply one_in_step in Hd; auto. destruct Hd as [new [-> N]]. exists new. split; [auto|].
      eapply Forall_impl; [|exact N]. intros ev [t [s [d [-> T]]]]. cbn. auto.
  - apply (run_inv e solve _ false fuel jet (dim + length tdirs) order h (fun i _ ev => nte_idx ev = i /\ time_ok h (nte_time ev))) in En.
    + destruct En as [new [-> N]]. cbn [app]. eapply Forall_impl; [|exact N]. intros ev [k [d [c [K1 [K2 K3]]]]]. split; [auto|].
      assert (k < length (map (fun d : Z => (d, @None (F * F))) ndirs))%nat by (apply nth_error_Some; congruence). rewrite map_length in *. lia.
    + intros k dir cd a out fl out' _ Hd. apply one_in_step in Hd; auto. destruct Hd as [new [-> N]]. exists new. split; [auto|].
      eapply Forall_impl; [|exact N]. intros ev [t [s [d [-> T]]]]. cbn. auto.
Qed.
End Rounded.
