(** The bisection, the location of a date and the interpolation: scalar and batch. *)
From Coq Require Import Bool ZArith Ascii String List Lia.
From Verif Require Import M_Float M_Dag M_Taylor M_Eop S_Eop.
Import ListNotations.
Set Bullet Behavior "Strict Subproofs".
Local Open Scope Z_scope.

Lemma w32_id x : 0 <= x < 2 ^ 32 -> w32 x = x.
Proof. intros H. apply Z.mod_small, H. Qed.

Section L.
Context {o : fops} (l : lops o).
Notation F := (F o).

Lemma ld_ok {A} (a : list A) i : 0 <= i < Z.of_nat (length a) -> exists x, ld a i = MDone x /\ nth_error a (Z.to_nat i) = Some x.
Proof.
  intros H. unfold ld. destruct (Z.ltb_spec i 0); [lia|].
  destruct (nth_error a (Z.to_nat i)) as [x|] eqn:E; [eauto|].
  apply nth_error_None in E. lia.
Qed.

Definition inv (n : Z) (st : Z * Z) : Prop := 0 <= fst st /\ 0 <= snd st /\ fst st + snd st <= n.

Lemma body_ok (a : list F) v st : Z.of_nat (length a) < 2 ^ 32 -> inv (Z.of_nat (length a)) st -> 0 < snd st ->
  exists x, nth_error a (Z.to_nat (fst st + snd st / 2)) = Some x /\
    0 <= snd st / 2 < snd st /\
    ub_body a v st = MDone (if fule x v then (fst st + snd st / 2 + 1, snd st - (snd st / 2 + 1)) else (fst st, snd st / 2)).
Proof.
  destruct st as [f c]; unfold inv; cbn [fst snd]; intros Hn (I1 & I2 & I3) Hc.
  assert (H : 0 <= c / 2 < c) by (split; [apply Z.div_pos|apply Z.div_lt]; lia).
  destruct (ld_ok a (f + c / 2)) as (x & E & En); [lia|].
  exists x; split; [exact En|split; [lia|]].
  unfold ub_body. rewrite (w32_id (f + c / 2)) by lia. rewrite E. cbn [mbind].
  rewrite (w32_id (f + c / 2 + 1)) by lia.
  rewrite (w32_id (c / 2 + 1)) by lia. rewrite (w32_id (c - (c / 2 + 1))) by lia. reflexivity.
Qed.

(** What is known of the rows on both sides of the current interval. *)
Definition known (a : list F) (v : F) (st : Z * Z) : Prop :=
  (forall i x, nth_error a i = Some x -> Z.of_nat i < fst st -> fule x v = true) /\
  (forall i x, nth_error a i = Some x -> fst st + snd st <= Z.of_nat i -> fule x v = false).

Definition mono (a : list F) (v : F) : Prop :=
  forall i j x y, nth_error a i = Some x -> nth_error a j = Some y -> (i <= j)%nat -> fule y v = true -> fule x v = true.

Definition upd (x v : F) (st : Z * Z) : Z * Z :=
  if fule x v then (fst st + snd st / 2 + 1, snd st - (snd st / 2 + 1)) else (fst st, snd st / 2).

Lemma upd_inv x v n st : inv n st -> 0 <= snd st / 2 < snd st ->
  inv n (upd x v st) /\ snd (upd x v st) < snd st.
Proof.
  destruct st as [f c]; unfold inv, upd; cbn [fst snd]. intros. destruct (fule x v); cbn [fst snd]; lia.
Qed.

Lemma upd_known a v st x : mono a v -> inv (Z.of_nat (length a)) st -> 0 <= snd st / 2 < snd st ->
  nth_error a (Z.to_nat (fst st + snd st / 2)) = Some x -> known a v st -> known a v (upd x v st).
Proof.
  destruct st as [f c]; unfold inv, upd, known; cbn [fst snd]. intros M I H E (K1 & K2).
  destruct (fule x v) eqn:Ex; cbn [fst snd]; split; intros i y Ey Hi.
  - eapply (M i (Z.to_nat (f + c / 2))); eauto. lia.
  - apply (K2 i y Ey). lia.
  - apply (K1 i y Ey). lia.
  - destruct (fule y v) eqn:Eq; auto. rewrite <- Ex. symmetry.
    eapply (M (Z.to_nat (f + c / 2)) i); eauto. lia.
Qed.

(** Termination and absence of out-of-range loads, for arbitrary arrays. *)
Lemma loop_ok (a : list F) v : Z.of_nat (length a) < 2 ^ 32 ->
  forall fuel st, inv (Z.of_nat (length a)) st -> snd st <= Z.of_nat fuel ->
  exists r, ub_loop fuel a v st = MDone r /\ 0 <= r <= Z.of_nat (length a) /\
    (mono a v -> known a v st -> known a v (r, 0)).
Proof.
  intros Hn. induction fuel as [|k IH]; intros st I Hf; cbn [ub_loop].
  - destruct (Z.ltb_spec 0 (snd st)); [unfold inv in I; lia|].
    exists (fst st). split; [auto|]. unfold inv in I. split; [lia|].
    intros _ K. replace (fst st, 0) with st; [auto|]. destruct st; cbn in *. f_equal. lia.
  - destruct (Z.ltb_spec 0 (snd st)).
    + destruct (body_ok a v st Hn I H) as (x & En & Hs & Eb). rewrite Eb. cbn [mbind].
      fold (upd x v st).
      destruct (upd_inv x v _ st I Hs) as (I' & Hd).
      destruct (IH (upd x v st) I') as (r & Er & Hr & Hk); [lia|].
      exists r. split; [auto|split; [auto|]]. intros M K. apply Hk; auto. apply upd_known; auto.
    + exists (fst st). split; [auto|]. unfold inv in I. split; [lia|].
      intros _ K. replace (fst st, 0) with st; [auto|]. destruct st; cbn in *. f_equal. lia.
Qed.

Lemma known0 a v n : n = Z.of_nat (length a) -> known a v (0, n).
Proof.
  intros ->. split; cbn [fst snd]; intros i x E H; [lia|].
  assert (nth_error a i <> None) by congruence. apply nth_error_Some in H0. lia.
Qed.

Lemma upper_ok (a : list F) v : Z.of_nat (length a) < 2 ^ 32 ->
  exists r, upper_bound a (Z.of_nat (length a)) v = MDone r /\ 0 <= r <= Z.of_nat (length a) /\
    (mono a v -> known a v (r, 0)).
Proof.
  intros Hn. destruct (loop_ok a v Hn (S (Z.to_nat (Z.of_nat (length a)))) (0, Z.of_nat (length a))) as (r & E & Hr & Hk).
  - unfold inv; cbn; lia.
  - cbn [snd]. lia.
  - exists r. split; [exact E|split; [exact Hr|]]. intros M. apply Hk; auto. apply known0; auto.
Qed.

(** ** Batch: each lane evolves as in scalar mode, finished lanes do not change. *)

(** An iteration leaves a finished lane unchanged. *)
Lemma lane_step (a : list F) v st : Z.of_nat (length a) < 2 ^ 32 -> inv (Z.of_nat (length a)) st ->
  (mono a v -> known a v st) -> mono a v ->
  exists st', ubb_lane a (Z.of_nat (length a)) (v, st) = MDone st' /\ inv (Z.of_nat (length a)) st' /\
    (0 < snd st -> ub_body a v st = MDone st' /\ snd st' < snd st) /\ (snd st <= 0 -> st' = st) /\ known a v st'.
Proof.
  intros Hn I K M. specialize (K M). destruct (Z.ltb_spec 0 (snd st)) as [H|H].
  - destruct (body_ok a v st Hn I H) as (x & En & Hs & Eb).
    destruct (upd_inv x v _ st I Hs) as (I' & Hd).
    exists (upd x v st). split; [|split; [auto|split; [split; auto|split; [lia|apply upd_known; auto]]]].
    destruct st as [f c]. unfold inv in I. cbn [fst snd] in *.
    unfold ubb_lane. rewrite (w32_id (f + c / 2)) by lia.
    destruct (Z.eqb_spec (f + c / 2) (Z.of_nat (length a))); [lia|]. cbn [negb].
    assert (El : ld a (f + c / 2) = MDone x).
    { unfold ld. destruct (Z.ltb_spec (f + c / 2) 0); [lia|]. rewrite En. auto. }
    rewrite El. cbn [mbind]. rewrite andb_true_r.
    rewrite (w32_id (f + c / 2 + 1)) by lia. rewrite (w32_id (c / 2 + 1)) by lia. rewrite (w32_id (c - (c / 2 + 1))) by lia.
    unfold upd; cbn [fst snd]. destruct (fule x v); auto.
  - exists st. assert (snd st = 0) by (unfold inv in I; lia).
    split; [|split; [auto|split; [lia|split; [auto|auto]]]].
    destruct st as [f c]. cbn [fst snd] in *. subst c. unfold inv in I; cbn in I.
    unfold ubb_lane. replace (0 / 2) with 0 by reflexivity. rewrite Z.add_0_r. rewrite (w32_id f) by lia.
    destruct (Z.eqb_spec f (Z.of_nat (length a))); cbn [negb].
    + cbn [mbind]. rewrite andb_false_r. auto.
    + destruct (ld_ok a f) as (x & El & En); [lia|]. rewrite El. cbn [mbind]. rewrite andb_true_r.
      destruct K as (_ & K2). rewrite (K2 (Z.to_nat f) x En); [auto|]. cbn [fst snd]. lia.
Qed.

(** Without any hypothesis on the array: every lane stays in range, and its count does not grow. *)
Lemma lane_safe (a : list F) v st : Z.of_nat (length a) < 2 ^ 32 -> inv (Z.of_nat (length a)) st ->
  exists st', ubb_lane a (Z.of_nat (length a)) (v, st) = MDone st' /\ 0 <= fst st' <= Z.of_nat (length a).
Proof.
  intros Hn I. destruct st as [f c]. unfold inv in I. cbn [fst snd] in *. unfold ubb_lane.
  assert (H : 0 <= c / 2 <= c).
  { split; [apply Z.div_pos; lia|]. apply Z.div_le_upper_bound; lia. }
  rewrite (w32_id (f + c / 2)) by lia.
  destruct (Z.eqb_spec (f + c / 2) (Z.of_nat (length a))); cbn [negb].
  - cbn [mbind]. rewrite andb_false_r. eexists; split; [reflexivity|]. cbn; lia.
  - destruct (ld_ok a (f + c / 2)) as (x & El & En); [lia|]. rewrite El. cbn [mbind]. rewrite andb_true_r.
    rewrite (w32_id (f + c / 2 + 1)) by lia.
    destruct (fule x v); eexists; (split; [reflexivity|]); cbn; lia.
Qed.

(** A finished lane, run by the scalar loop, returns its [first]; an active one takes a step. *)
Lemma loop_finished fuel (a : list F) v st : snd st <= 0 -> ub_loop fuel a v st = MDone (fst st).
Proof. intros H. destruct fuel; cbn [ub_loop]; destruct (Z.ltb_spec 0 (snd st)); auto; lia. Qed.

Lemma loop_more (a : list F) v r : forall f1 f2 st, (f1 <= f2)%nat -> ub_loop f1 a v st = MDone r -> ub_loop f2 a v st = MDone r.
Proof.
  induction f1 as [|k IH]; intros f2 st Hle E.
  - cbn [ub_loop] in E. destruct (Z.ltb_spec 0 (snd st)); [discriminate|]. injection E as <-. apply loop_finished; lia.
  - destruct f2 as [|k2]; [lia|]. cbn [ub_loop] in *. destruct (0 <? snd st); [|auto].
    destruct (ub_body a v st); cbn [mbind] in *; try discriminate. apply IH; [lia|auto].
Qed.

Lemma mseq_map_ok {A B} (f : A -> mres B) (P : A -> B -> Prop) (xs : list A) :
  Forall (fun x => exists y, f x = MDone y /\ P x y) xs -> exists ys, mseq (map f xs) = MDone ys /\ Forall2 P xs ys.
Proof.
  induction 1 as [|x xs (y & E & Hy) _ (ys & Es & Hs)]; cbn.
  - exists []. auto.
  - rewrite E; cbn [mbind]. rewrite Es; cbn [mbind]. exists (y :: ys). auto.
Qed.

Lemma Forall2_combine {A B} (P : A -> B -> Prop) xs ys : Forall2 P xs ys -> Forall (fun p => P (fst p) (snd p)) (combine xs ys).
Proof. induction 1; cbn; constructor; auto. Qed.

Lemma batch_loop (a : list F) vs : Z.of_nat (length a) < 2 ^ 32 -> Forall (mono a) vs ->
  forall fuel sts, Forall2 (fun v st => inv (Z.of_nat (length a)) st /\ known a v st) vs sts ->
    Forall (fun st => snd st <= Z.of_nat fuel) sts ->
  exists rs, ubb_loop fuel a (Z.of_nat (length a)) vs sts = MDone rs /\
    Forall2 (fun p r => ub_loop fuel a (fst p) (snd p) = MDone r) (combine vs sts) rs.
Proof.
  intros Hn M. induction fuel as [|k IH]; intros sts H2 Hf; cbn [ubb_loop].
  - assert (Ee : existsb (fun st => 0 <? snd st) sts = false).
    { destruct (existsb _ sts) eqn:E; [|auto]. apply existsb_exists in E. destruct E as (st & Hin & Hst).
      rewrite Forall_forall in Hf. specialize (Hf st Hin). apply Z.ltb_lt in Hst. cbn in Hf. lia. }
    rewrite Ee. exists (map fst sts). split; [auto|].
    clear M. induction H2 as [|v st vs sts _ _ IH2]; cbn; constructor.
    + cbn [ub_loop fst snd]. inversion Hf; subst. destruct (Z.ltb_spec 0 (snd st)); [cbn in *; lia|auto].
    + inversion Hf; subst. cbn in Ee. apply orb_false_iff in Ee. apply IH2; tauto.
  - destruct (existsb (fun st => 0 <? snd st) sts) eqn:Ee.
    + destruct (mseq_map_ok (ubb_lane a (Z.of_nat (length a)))
        (fun p st' => inv (Z.of_nat (length a)) st' /\ known a (fst p) st' /\
           (0 < snd (snd p) -> ub_body a (fst p) (snd p) = MDone st' /\ snd st' < snd (snd p)) /\
           (snd (snd p) <= 0 -> st' = snd p)) (combine vs sts)) as (sts' & Es & F2).
      { apply Forall_forall. intros (v & st) Hin.
        assert (Hm : mono a v). { rewrite Forall_forall in M. apply M. apply in_combine_l in Hin. auto. }
        apply Forall2_combine in H2. rewrite Forall_forall in H2. destruct (H2 _ Hin) as (I & K). cbn [fst snd] in *.
        destruct (lane_step a v st Hn I (fun _ => K) Hm) as (st' & E' & I' & A1 & A2 & A3).
        exists st'. cbn [fst snd]. tauto. }
      rewrite Es. cbn [mbind].
      destruct (IH sts') as (rs & Er & R2).
      * clear - F2 H2. revert sts' F2. induction H2; intros sts' F2; inversion F2; subst; constructor; cbn [fst snd] in *; [tauto|]. apply IHForall2; auto.
      * clear - F2 H2 Hf. revert sts' F2. induction H2; intros sts' F2; inversion F2; subst; constructor; cbn [fst snd] in *.
        -- inversion Hf; subst. match goal with H : inv _ _ /\ known _ _ _ /\ _ |- _ => destruct H as (I' & _ & A1 & A2) end.
           destruct (Z.ltb_spec 0 (snd y)) as [Hy|Hy]; [destruct (A1 Hy); lia|]. rewrite (A2 Hy). lia.
        -- inversion Hf; subst. apply IHForall2; auto.
      * exists rs. split; [auto|].
        clear - F2 H2 R2. revert sts' F2 rs R2. induction H2; intros sts' F2 rs R2; inversion F2; subst; cbn [combine] in R2; inversion R2; subst; cbn [combine]; constructor; cbn [fst snd] in *.
        -- cbn [ub_loop]. match goal with H : inv _ _ /\ known _ _ _ /\ _ |- _ => destruct H as (I' & _ & A1 & A2) end. destruct (Z.ltb_spec 0 (snd y)) as [Hy|Hy].
           ++ destruct (A1 Hy) as (-> & _). cbn [mbind]. auto.
           ++ rewrite (A2 Hy) in *. match goal with H : ub_loop _ _ _ _ = MDone _ |- _ => rewrite loop_finished in H by auto; exact H end.
        -- eapply IHForall2; eauto.
    + exists (map fst sts). split; [auto|].
      clear - Ee H2. induction H2 as [|v st vs sts _ _ IH2]; cbn [combine map]; constructor; cbn [existsb] in Ee; apply orb_false_iff in Ee; destruct Ee as (E1 & E2).
      * cbn [ub_loop fst snd]. rewrite E1. auto.
      * apply IH2; auto.
Qed.

Lemma upper_batch (a : list F) vs : Z.of_nat (length a) < 2 ^ 32 -> Forall (mono a) vs ->
  exists rs, upper_bound_batch a (Z.of_nat (length a)) vs = MDone rs /\
    Forall2 (fun v r => upper_bound a (Z.of_nat (length a)) v = MDone r) vs rs.
Proof.
  intros Hn M. remember (Z.of_nat (length a)) as n eqn:En.
  destruct (batch_loop a vs ltac:(lia) M (S (Z.to_nat n)) (map (fun _ => (0, n)) vs)) as (rs & E & R).
  - clear - En. induction vs; cbn; constructor; auto. split; [unfold inv; cbn; lia|]. apply known0; auto.
  - clear. apply Forall_forall. intros st H. apply in_map_iff in H. destruct H as (? & <- & _). cbn. lia.
  - exists rs. split; [unfold upper_bound_batch; rewrite En; rewrite En in E; exact E|].
    clear - R. revert rs R. induction vs; intros rs R; inversion R; subst; constructor; auto.
Qed.

(** ** Sorted tables *)
Lemma asc_le (OL : olaws o) ds : ascending o ds -> forall i j x y,
  nth_error ds i = Some x -> nth_error ds j = Some y -> (i <= j)%nat -> fle o x y = true.
Proof.
  intros (A1 & A2) i j. revert i. induction j as [|j IH]; intros i x y Ex Ey Hle.
  - assert (i = 0)%nat by lia. subst. rewrite Ex in Ey. injection Ey as <-. apply (ol_refl o OL). eauto.
  - destruct (Nat.eq_dec i (S j)) as [->|].
    + rewrite Ex in Ey. injection Ey as <-. apply (ol_refl o OL). eauto.
    + destruct (nth_error ds j) as [z|] eqn:Ez.
      * eapply (ol_trans o OL); [apply (IH i x z); auto; lia|]. eapply A2; eauto.
      * apply nth_error_None in Ez. assert (nth_error ds (S j) <> None) by congruence. apply nth_error_Some in H. lia.
Qed.

Lemma asc_mono (OL : olaws o) ds v : ascending o ds -> mono ds v.
Proof.
  intros A i j x y Ex Ey Hle. unfold fule. pose proof (asc_le OL ds A i j x y Ex Ey Hle) as H.
  destruct A as (A1 & _). rewrite (A1 i x Ex), (A1 j y Ey). destruct (fnan o v) eqn:Ev; cbn; auto.
  intros H'. eapply (ol_trans o OL); eauto.
Qed.

Section Spec.
Context (OL : olaws o) (NL : nanlaws l) (ds ys : list F).
Context (Hn : Z.of_nat (length ds) < 2 ^ 32) (Hl : length ys = length ds) (H2 : (2 <= length ds)%nat).
Notation nn := (Z.of_nat (length ds)).

Lemma sel_range r : 0 <= r <= nn -> locate_sel nn r = nn \/ (0 < r < nn /\ locate_sel nn r = r - 1).
Proof.
  clear H2 Hl.
  intros H. unfold locate_sel. destruct (Z.eqb_spec r 0).
  - rewrite Z.eqb_refl. auto.
  - destruct (Z.eqb_spec r nn); [auto|]. right. rewrite w32_id by lia. split; [lia|auto].
Qed.

(** Whatever the contents of the arrays and the date: no load out of range, and the loop ends. *)
Lemma eval_safe t : exists r, eop_eval l ds ys nn t = MDone r.
Proof.
  clear H2.
  destruct (upper_ok ds t Hn) as (r & E & Hr & _).
  unfold eop_eval, locate_date. rewrite E. cbn [mbind].
  destruct (sel_range r Hr) as [->|(Hr' & ->)].
  - rewrite Z.eqb_refl. eauto.
  - destruct (Z.eqb_spec (r - 1) nn); [lia|]. rewrite w32_id by lia.
    destruct (ld_ok ds (r - 1)) as (t0 & -> & _); [lia|]. destruct (ld_ok ds (r - 1 + 1)) as (t1 & -> & _); [lia|].
    destruct (ld_ok ys (r - 1)) as (y0 & -> & _); [lia|]. destruct (ld_ok ys (r - 1 + 1)) as (y1 & -> & _); [lia|].
    cbn [mbind]. eauto.
Qed.

Lemma interp_nan t : fnan o (fst (interp l t (lnan l) (lnan l) (lnan l) (lnan l))) = true /\
  fnan o (snd (interp l t (lnan l) (lnan l) (lnan l) (lnan l))) = true.
Proof.
  destruct NL as [N0 Ns Na Nm Nd]. unfold interp; cbn [fst snd].
  split; apply Nd; right; apply Ns; auto.
Qed.

Context (A : ascending o ds).

(** The two cases of a date: on a row, or not covered. *)
Lemma covered t : (exists i, in_row o ds t i) \/ not_covered o ds t.
Proof.
  destruct (fnan o t) eqn:Et; [right; left; auto|].
  destruct (upper_ok ds t Hn) as (r & _ & Hr & K). specialize (K (asc_mono OL ds t A)). destruct K as (K1 & K2).
  cbn [fst snd] in *.
  destruct (Z.eq_dec r 0) as [->|].
  { right. right. left. destruct (nth_error ds 0) as [t0|] eqn:E0; [|apply nth_error_None in E0; lia].
    exists t0. split; [auto|]. rewrite (ol_lt o OL) by (auto; eapply (proj1 A); eauto).
    pose proof (K2 0%nat t0 E0 ltac:(lia)) as H. unfold fule in H. rewrite Et, (proj1 A _ _ E0) in H. cbn in H. rewrite H. auto. }
  destruct (Z.eq_dec r nn) as [->|].
  { right. right. right. destruct (nth_error ds (length ds - 1)) as [t1|] eqn:E1; [|apply nth_error_None in E1; lia].
    exists t1. split; [auto|].
    pose proof (K1 _ t1 E1 ltac:(lia)) as H. unfold fule in H. rewrite Et, (proj1 A _ _ E1) in H. cbn in H. auto. }
  left. exists (Z.to_nat (r - 1)).
  destruct (nth_error ds (Z.to_nat (r - 1))) as [t0|] eqn:E0; [|apply nth_error_None in E0; lia].
  destruct (nth_error ds (S (Z.to_nat (r - 1)))) as [t1|] eqn:E1; [|apply nth_error_None in E1; lia].
  exists t0, t1. split; [auto|split; [auto|]].
  pose proof (K1 _ t0 E0 ltac:(lia)) as H. unfold fule in H. rewrite Et, (proj1 A _ _ E0) in H. cbn in H.
  pose proof (K2 _ t1 E1 ltac:(lia)) as H'. unfold fule in H'. rewrite Et, (proj1 A _ _ E1) in H'. cbn in H'.
  split; [auto|]. rewrite (ol_lt o OL) by (auto; eapply (proj1 A); eauto). rewrite H'. auto.
Qed.

Lemma eval_in t i t0 t1 y0 y1 : nth_error ds i = Some t0 -> nth_error ds (S i) = Some t1 ->
  nth_error ys i = Some y0 -> nth_error ys (S i) = Some y1 -> fle o t0 t = true -> flt o t t1 = true ->
  eop_eval l ds ys nn t = MDone (interp l t t0 t1 y0 y1).
Proof.
  intros E0 E1 Y0 Y1 Hle Hlt.
  assert (Et : fnan o t = false).
  { destruct (fnan o t) eqn:Et; auto. destruct (ol_nan o OL t0 t); [auto|congruence]. }
  pose proof (proj1 A _ _ E0) as N0. pose proof (proj1 A _ _ E1) as N1.
  destruct (upper_ok ds t Hn) as (r & E & Hr & K). specialize (K (asc_mono OL ds t A)). destruct K as (K1 & K2).
  cbn [fst snd] in *.
  assert (Hi : (S i < length ds)%nat) by (apply nth_error_Some; congruence).
  assert (r = Z.of_nat (S i)).
  { destruct (Z.lt_trichotomy r (Z.of_nat (S i))) as [H|[H|H]]; [|auto|].
    - exfalso. pose proof (K2 i t0 E0 ltac:(lia)) as Hf. unfold fule in Hf. rewrite Et, N0, Hle in Hf. discriminate.
    - exfalso. pose proof (K1 (S i) t1 E1 ltac:(lia)) as Hf. unfold fule in Hf. rewrite Et, N1 in Hf. cbn in Hf.
      rewrite (ol_lt o OL) in Hlt by auto. rewrite Hf in Hlt. discriminate. }
  subst r. unfold eop_eval, locate_date. rewrite E. cbn [mbind].
  destruct (sel_range (Z.of_nat (S i)) ltac:(lia)) as [Hs|(Hr' & ->)].
  { exfalso. revert Hs. unfold locate_sel. destruct (Z.eqb_spec (Z.of_nat (S i)) 0); [lia|].
    destruct (Z.eqb_spec (Z.of_nat (S i)) nn); [lia|]. rewrite w32_id by lia. lia. }
  replace (Z.of_nat (S i) - 1) with (Z.of_nat i) by lia.
  destruct (Z.eqb_spec (Z.of_nat i) nn); [lia|]. rewrite w32_id by lia.
  replace (Z.of_nat i + 1) with (Z.of_nat (S i)) by lia.
  assert (LD : forall (B : Type) (a : list B) k (x : B), nth_error a k = Some x -> ld a (Z.of_nat k) = MDone x).
  { intros B a k x Ek. unfold ld. destruct (Z.ltb_spec (Z.of_nat k) 0); [lia|]. rewrite Nat2Z.id, Ek. auto. }
  rewrite (LD _ _ _ _ E0), (LD _ _ _ _ E1), (LD _ _ _ _ Y0), (LD _ _ _ _ Y1). reflexivity.
Qed.

Lemma eval_out t : not_covered o ds t ->
  exists r, eop_eval l ds ys nn t = MDone r /\ fnan o (fst r) = true /\ fnan o (snd r) = true.
Proof.
  intros Ho. exists (interp l t (lnan l) (lnan l) (lnan l) (lnan l)). split; [|apply interp_nan].
  destruct (upper_ok ds t Hn) as (r & E & Hr & K). specialize (K (asc_mono OL ds t A)). destruct K as (K1 & K2).
  cbn [fst snd] in *.
  assert (r = 0 \/ r = nn).
  { destruct Ho as [Ht|[(t0 & E0 & Hlt)|(t1 & E1 & Hle)]].
    - right. destruct (Z.eq_dec r nn) as [|Hne]; auto. exfalso.
      destruct (nth_error ds (Z.to_nat r)) as [x|] eqn:Ex; [|apply nth_error_None in Ex; lia].
      pose proof (K2 _ x Ex ltac:(lia)) as H. unfold fule in H. rewrite Ht, orb_true_r in H. discriminate.
    - left. destruct (Z.eq_dec r 0) as [|Hne]; auto. exfalso.
      pose proof (K1 _ t0 E0 ltac:(lia)) as H.
      assert (Et : fnan o t = false).
      { destruct (fnan o t) eqn:Et; auto. destruct (ol_nan o OL t t0); [auto|congruence]. }
      unfold fule in H. rewrite Et, (proj1 A _ _ E0) in H. cbn in H.
      rewrite (ol_lt o OL) in Hlt by (auto; eapply (proj1 A); eauto). rewrite H in Hlt. discriminate.
    - right. destruct (Z.eq_dec r nn) as [|Hne]; auto. exfalso.
      pose proof (K2 _ t1 E1 ltac:(lia)) as H. unfold fule in H. rewrite Hle in H.
      rewrite !orb_true_r in H. discriminate. }
  unfold eop_eval, locate_date. rewrite E. cbn [mbind].
  assert (Es : locate_sel nn r = nn).
  { unfold locate_sel. destruct H as [->| ->]; [cbn; rewrite Z.eqb_refl; auto|].
    destruct (Z.eqb_spec nn 0); rewrite Z.eqb_refl; auto. }
  rewrite Es, Z.eqb_refl. reflexivity.
Qed.

Lemma lane_eval t idx : locate_date ds nn t = MDone idx -> eop_lane l ds ys nn (t, idx) = eop_eval l ds ys nn t.
Proof.
  intros E. unfold eop_eval. rewrite E. cbn [mbind]. unfold eop_lane, gather.
  destruct (Z.eqb_spec idx nn); cbn [negb mbind]; auto.
Qed.

(** Batch mode computes, for each date, what scalar mode computes. *)
Lemma eval_batch ts : exists rs, eop_eval_batch l ds ys nn ts = MDone rs /\
  Forall2 (fun t r => eop_eval l ds ys nn t = MDone r) ts rs.
Proof.
  destruct (upper_batch ds ts Hn) as (ix & E & R).
  { apply Forall_forall. intros. apply asc_mono; auto. }
  unfold eop_eval_batch, locate_date_batch. rewrite E. cbn [mbind].
  destruct (mseq_map_ok (eop_lane l ds ys nn) (fun p r => eop_eval l ds ys nn (fst p) = MDone r)
              (combine ts (map (locate_sel nn) ix))) as (rs & Es & F2).
  { apply Forall_forall. intros (t & idx) Hin.
    assert (Hd : locate_date ds nn t = MDone idx).
    { clear E. induction R as [|t' r ts ix Et _ IH]; cbn in Hin; [tauto|].
      destruct Hin as [Hin|Hin]; [|auto]. injection Hin as <- <-. unfold locate_date. rewrite Et. auto. }
    rewrite (lane_eval t idx Hd). destruct (eval_safe t) as (r & Er). exists r. cbn [fst]. auto. }
  exists rs. split; [auto|].
  clear - F2 R. revert rs F2. induction R; intros rs F2; cbn [map combine] in F2; inversion F2; subst; constructor; auto.
Qed.
End Spec.
End L.
