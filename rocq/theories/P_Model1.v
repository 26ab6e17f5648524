(* The values of the equations of the N-body problem. *)
From Coq Require Import String Bool ZArith NArith Reals List Lra Lia.
From Verif Require Import M_Expr S_Expr P_ExprSem P_Build M_Dag M_Taylor S_Diff S_Mech P_Mech1 M_Model S_Model.
Import ListNotations.
Local Open Scope R_scope.
Set Bullet Behavior "Strict Subproofs".

Lemma apart_dot (a b : vec) : apart a b -> 0 < dot (sub a b) (sub a b).
Proof.
  intros [c Hc]. unfold dot, sub.
  assert (S : forall u v, 0 <= (u - v) * (u - v)) by (intros u v; apply Rle_0_sqr).
  assert (N : 0 < (a c - b c) * (a c - b c)) by (apply Rsqr_pos_lt; lra).
  pose proof (S (a AX) (b AX)). pose proof (S (a AY) (b AY)). pose proof (S (a AZ) (b AZ)). destruct c; lra.
Qed.
Lemma apart_sym a b : apart a b -> apart b a.
Proof. intros [c H]. exists c. auto. Qed.
Lemma dot_sym a b : dot (sub a b) (sub a b) = dot (sub b a) (sub b a).
Proof. unfold dot, sub. ring. Qed.
Lemma norm_sym a b : norm (sub a b) = norm (sub b a).
Proof. unfold norm. now rewrite dot_sym. Qed.
Lemma norm_pos a b : apart a b -> 0 < norm (sub a b).
Proof. intros H. apply sqrt_lt_R0, apart_dot, H. Qed.
Lemma rpow_m32 x : 0 < x -> rpow x (-3 / 2) = Some (/ sqrt x ^ 3).
Proof.
  intros H. rewrite rpow_pos by exact H. f_equal. replace (-3 / 2) with (- (3 * / 2)) by field. rewrite Rpower_Ropp. f_equal.
  rewrite Rmult_comm, <- Rpower_mult, Rpower_sqrt by exact H. replace 3 with (INR 3) by (simpl; ring). apply Rpower_pow, sqrt_lt_R0, H.
Qed.

Section Ev.
Context {o : nops} {nval : num o -> R} (L : nlaws o nval).
Local Notation ex := (expr (num o)).
Variable rho : env.
Local Notation ev := (eval o nval rho).
Let RG := l_ring L.
Let TR := l_trans L.

Lemma e_dbl z : ev (dbl o z) = Some (IZR z).
Proof. apply (ev_dbl RG). Qed.
Lemma e_half z : ev (half o z) = Some (IZR z / 2).
Proof. cbn. now rewrite (l_hlf RG). Qed.
Lemma e_neg a x : ev a = Some x -> ev (mk_neg o a) = Some (- x).
Proof. apply (mk_neg_ok RG). Qed.
Lemma e_add a b x y : ev a = Some x -> ev b = Some y -> ev (mk_add o a b) = Some (x + y).
Proof. apply (mk_add_ok RG). Qed.
Lemma e_sub a b x y : ev a = Some x -> ev b = Some y -> ev (mk_sub o a b) = Some (x - y).
Proof. apply (mk_sub_ok RG). Qed.
Lemma e_mul a b x y : ev a = Some x -> ev b = Some y -> ev (mk_mul o a b) = Some (x * y).
Proof. apply (mk_mul_ok RG). Qed.
Lemma e_div a b x y : ev a = Some x -> ev b = Some y -> y <> 0 -> ev (mk_div o a b) = Some (x / y).
Proof. intros A B. now apply (mk_div_ok RG). Qed.
Lemma e_sq a x : ev a = Some x -> ev (sq o a) = Some (x * x).
Proof. intros A. apply (mk_pow_ok RG rho a _ x 2); [exact TR | exact A | apply e_dbl | apply rpow_2]. Qed.
Lemma e_sqrt a x : ev a = Some x -> 0 <= x -> ev (mk_sqrt o a) = Some (sqrt x).
Proof. intros A. now apply (mk_sqrt_ok RG). Qed.
Lemma e_m32 a x : ev a = Some x -> 0 < x -> ev (m32 o a) = Some (/ sqrt x ^ 3).
Proof. intros A H. apply (mk_pow_ok RG rho a _ x (-3 / 2)); [exact TR | exact A | apply e_half | now apply rpow_m32]. Qed.
Lemma e_sum l vs : Forall2 (fun e v => ev e = Some v) l vs -> ev (mk_sum o l) = Some (rsum vs).
Proof.
  intros F. apply (mk_sum_ok RG). induction F as [|e v l vs E F IH]; [reflexivity|]. cbn [map oseq]. rewrite E. fold (@oseq R). now rewrite IH.
Qed.
Lemma e_norm2 (d : axis -> ex) (D : vec) : (forall c, ev (d c) = Some (D c)) -> ev (norm2 o d) = Some (dot D D).
Proof.
  intros H. unfold norm2, axes. cbn [map]. rewrite (e_sum _ [D AX * D AX; D AY * D AY; D AZ * D AZ]).
  - unfold dot, rsum. cbn. f_equal. ring.
  - repeat constructor; apply e_sq, H.
Qed.
Lemma rsum_map_seq f : forall k a, rsum (map f (seq a k)) = sumn k (fun i => f (a + i)%nat).
Proof.
  induction k as [|k IH]; intros a; [reflexivity|]. rewrite seq_S, map_app. cbn [map sumn].
  assert (A : forall l l', rsum (l ++ l') = rsum l + rsum l') by (intros l l'; unfold rsum; induction l as [|x l IHl]; cbn; [ring | rewrite IHl; ring]).
  rewrite A, IH. f_equal. unfold rsum. cbn. ring.
Qed.
Lemma e_sum_seq (f : nat -> ex) (F : nat -> R) a k : (forall i, (a <= i)%nat -> (i < a + k)%nat -> ev (f i) = Some (F i)) ->
  ev (mk_sum o (map f (seq a k))) = Some (sumn k (fun i => F (a + i)%nat)).
Proof.
  intros H. rewrite <- (rsum_map_seq F). apply e_sum. revert a H. induction k as [|k IH]; intros a H; cbn; constructor.
  - apply H; lia.
  - apply IH. intros i Hi Hk. apply H; lia.
Qed.
End Ev.

Lemma push_len {A} : forall (v : list (list A)) i x, length (push v i x) = length v.
Proof. induction v as [|l r IH]; intros [|i] x; cbn; auto. Qed.
Lemma push_nth {A} : forall (v : list (list A)) i x k, (i < length v)%nat -> nth k (push v i x) [] = if Nat.eqb k i then nth k v [] ++ [x] else nth k v [].
Proof.
  induction v as [|l r IH]; intros i x k H; cbn in H; [lia|]. destruct i as [|i], k as [|k]; cbn; try reflexivity. apply IH. lia.
Qed.
Lemma rsum_app l l' : rsum (l ++ l') = rsum l + rsum l'.
Proof. unfold rsum. induction l as [|x l IH]; cbn; [ring | rewrite IH; ring]. Qed.
Lemma sumn_bump n f f' a c : (a < n)%nat -> (forall i, (i < n)%nat -> i <> a -> f' i = f i) -> f' a = f a + c -> sumn n f' = sumn n f + c.
Proof.
  intros H E Ea. rewrite (sumn_one n f a H), (sumn_one n f' a H), Ea.
  rewrite (sumn_ext n (fun j => if Nat.eqb j a then 0 else f' j) (fun j => if Nat.eqb j a then 0 else f j)); [ring|].
  intros i Hi. destruct (Nat.eqb_spec i a); [reflexivity | now apply E].
Qed.

Section Nbody.
Context {o : nops} {nval : num o -> R} (L : nlaws o nval).
Local Notation ex := (expr (num o)).
Variables (rho : env) (n : nat) (G : ex) (masses : list ex) (P V : nat -> vec) (g : R) (m : nat -> R).
Local Notation ev := (eval o nval rho).
Local Notation nm := (length masses).
Hypothesis Hst : bodies rho 0 n P V.
Hypothesis HG : ev G = Some g.
Hypothesis Hm : values o nval rho masses m.
Hypothesis Hnm : (nm <= n)%nat.
Hypothesis Hsep : separated P nm n.

Lemma e_mass i : (i < nm)%nat -> ev (mass o masses i) = Some (m i).
Proof. clear Hst. intros H. apply Hm. unfold mass. apply nth_error_nth'. exact H. Qed.
Lemma e_diff i j : (i < n)%nat -> (j < n)%nat -> forall c, ev (mk_sub o (pvar o j c) (pvar o i c)) = Some (sub (P j) (P i) c).
Proof. clear Hm Hnm Hsep HG. intros Hi Hj c. apply (e_sub L); cbn; apply Hst; lia. Qed.
Lemma e_rm3 i j : (i < n)%nat -> (j < n)%nat -> apart (P j) (P i) ->
  ev (m32 o (norm2 o (fun c => mk_sub o (pvar o j c) (pvar o i c)))) = Some (/ norm (sub (P j) (P i)) ^ 3).
Proof. intros Hi Hj Ha. apply (e_m32 L); [apply (e_norm2 L), e_diff; assumption | now apply apart_dot]. Qed.

(* The values of the accumulators. *)
Definition accv (A : list (list ex)) (f : nat -> R) : Prop :=
  length A = n /\ forall k, (k < n)%nat -> exists vs, Forall2 (fun e v => ev e = Some v) (nth k A []) vs /\ rsum vs = f k.
Lemma accv_push A f i e v f' : accv A f -> (i < n)%nat -> ev e = Some v -> (forall k, (k < n)%nat -> f' k = if Nat.eqb k i then f k + v else f k) -> accv (push A i e) f'.
Proof.
  intros [HL HA] Hi He Hf. split; [now rewrite push_len|]. intros k Hk. rewrite push_nth by lia. destruct (HA k Hk) as (vs & F & S). rewrite (Hf k Hk).
  destruct (Nat.eqb k i).
  - exists (vs ++ [v]). split; [apply Forall2_app; [exact F | now repeat constructor]|]. rewrite rsum_app, S. unfold rsum. cbn. ring.
  - now exists vs.
Qed.
Lemma accv_ext A f f' : (forall k, (k < n)%nat -> f k = f' k) -> accv A f -> accv A f'.
Proof. intros E [HL HA]. split; [exact HL|]. intros k Hk. rewrite <- (E k Hk). now apply HA. Qed.

(* The pairs considered before (i, j). *)
Definition before (i j a k : nat) : bool := let lo := Nat.min a k in let hi := Nat.max a k in (lo <? i) || ((lo =? i) && (hi <? j)).
Definition partial_acc (i j : nat) (c : axis) (k : nat) : R :=
  sumn nm (fun a => if Nat.eqb a k then 0 else if before i j a k then attraction g (m a) (P a) (P k) c else 0).

Lemma before_same i j a k : (a < n)%nat -> (k < n)%nat -> a <> k -> (i < j)%nat -> before i (S j) a k = before i j a k || ((a =? i) && (k =? j)) || ((a =? j) && (k =? i)).
Proof.
  intros Ha Hk N Hij. unfold before.
  destruct (Nat.ltb_spec (Nat.min a k) i), (Nat.eqb_spec (Nat.min a k) i), (Nat.ltb_spec (Nat.max a k) (S j)), (Nat.ltb_spec (Nat.max a k) j), (Nat.eqb_spec a i), (Nat.eqb_spec k j), (Nat.eqb_spec a j), (Nat.eqb_spec k i); cbn; try reflexivity; exfalso; lia.
Qed.
Lemma before_not i j : (i < j)%nat -> before i j i j = false /\ before i j j i = false.
Proof.
  intros H. unfold before. rewrite Nat.min_l, Nat.max_r, Nat.min_r, Nat.max_l by lia.
  destruct (Nat.ltb_spec i i), (Nat.ltb_spec j j); try lia.
Qed.
Lemma partial_step i j c k : (i < j)%nat -> (j < n)%nat -> (i < nm)%nat -> (k < n)%nat ->
  partial_acc i (S j) c k = partial_acc i j c k + (if Nat.eqb k j then attraction g (m i) (P i) (P j) c else if Nat.eqb k i then if Nat.ltb j nm then attraction g (m j) (P j) (P i) c else 0 else 0).
Proof.
  intros Hij Hj Hi Hk. unfold partial_acc. destruct (before_not i j Hij) as (B1 & B2).
  destruct (Nat.eqb_spec k j) as [->|Nj].
  - apply sumn_bump with (a := i); [exact Hi| |].
    + intros a Ha Na. destruct (Nat.eqb_spec a j); [reflexivity|]. rewrite before_same by lia. destruct (Nat.eqb_spec a i); [lia|]. destruct (Nat.eqb_spec a j); [lia|]. now rewrite !andb_false_l, !orb_false_r.
    + destruct (Nat.eqb_spec i j); [lia|]. rewrite before_same, B1, !Nat.eqb_refl by lia. cbn. ring.
  - destruct (Nat.eqb_spec k i) as [->|Ni].
    + destruct (Nat.ltb_spec j nm) as [Hjm|Hjm].
      * apply sumn_bump with (a := j); [exact Hjm| |].
        -- intros a Ha Na. destruct (Nat.eqb_spec a i); [reflexivity|]. rewrite before_same by lia. destruct (Nat.eqb_spec a i); [lia|]. destruct (Nat.eqb_spec a j); [lia|]. now rewrite !andb_false_l, !orb_false_r.
        -- destruct (Nat.eqb_spec j i); [lia|]. rewrite before_same, B2, !Nat.eqb_refl by lia. rewrite orb_true_r. ring.
      * rewrite Rplus_0_r. apply sumn_ext. intros a Ha. destruct (Nat.eqb_spec a i); [reflexivity|]. rewrite before_same by lia. destruct (Nat.eqb_spec a i); [lia|]. destruct (Nat.eqb_spec a j); [lia|]. now rewrite !andb_false_l, !orb_false_r.
    + rewrite Rplus_0_r. apply sumn_ext. intros a Ha. destruct (Nat.eqb_spec a k); [reflexivity|]. rewrite before_same by lia. destruct (Nat.eqb_spec k i); [lia|]. destruct (Nat.eqb_spec k j); [lia|]. now rewrite !andb_false_r, !orb_false_r.
Qed.

Lemma pair_ok i j acc : (i < j)%nat -> (j < n)%nat -> (i < nm)%nat -> (forall c, accv (acc c) (partial_acc i j c)) ->
  forall c, accv (nbody_pair o G masses i acc j c) (partial_acc i (S j) c).
Proof.
  intros Hij Hj Hi HA c. assert (Ha : apart (P j) (P i)) by (apply apart_sym, Hsep; lia).
  assert (E3 := e_rm3 i j ltac:(lia) Hj Ha). assert (Ed := e_diff i j ltac:(lia) Hj c). assert (En := norm_pos _ _ Ha).
  assert (V1 : forall x, x = attraction g (m i) (P i) (P j) c -> forall y, y = (if Nat.ltb j nm then attraction g (m j) (P j) (P i) c else 0) ->
    forall k, (k < n)%nat -> partial_acc i (S j) c k = if Nat.eqb k j then partial_acc i j c k + x else if Nat.eqb k i then partial_acc i j c k + y else partial_acc i j c k).
  { intros x -> y -> k Hk. rewrite (partial_step i j c k Hij Hj Hi Hk). destruct (Nat.eqb k j); [reflexivity|]. destruct (Nat.eqb k i); [reflexivity | ring]. }
  assert (N3 : norm (sub (P j) (P i)) ^ 3 <> 0) by (apply pow_nonzero; lra).
  unfold nbody_pair. destruct (opt_grouping o G masses j) eqn:Eo.
  - unfold opt_grouping in Eo. apply andb_prop in Eo. destruct Eo as (Hjm & Eo). destruct (mass o masses j) as [x| | |] eqn:Em; try discriminate.
    apply andb_prop in Eo. destruct Eo as (Ez & _). assert (Hjl := Hjm). apply Nat.ltb_lt in Hjl. assert (Emj := e_mass j Hjl). rewrite Em in Emj.
    assert (Nz : m j <> 0). { intros Z. cbn in Emj. injection Emj as Emj. rewrite negb_true_iff in Ez. assert (n_isz o 0 x = true) by (apply (l_isz (l_ring L)); congruence). congruence. }
    assert (Efj : ev (mk_mul o (mk_sub o (pvar o j c) (pvar o i c)) (mk_mul o (mk_mul o G (ENum x)) (m32 o (norm2 o (fun c => mk_sub o (pvar o j c) (pvar o i c)))))) = Some (attraction g (m j) (P j) (P i) c)).
    { rewrite (e_mul L rho _ _ _ _ Ed (e_mul L rho _ _ _ _ (e_mul L rho _ _ _ _ HG Emj) E3)). f_equal. unfold attraction. change (P j c - P i c) with (sub (P j) (P i) c). field. lra. }
    eapply accv_push with (f := fun k => if Nat.eqb k i then partial_acc i j c k + attraction g (m j) (P j) (P i) c else partial_acc i j c k) (v := attraction g (m i) (P i) (P j) c).
    + eapply accv_push; [apply HA | lia | exact Efj | reflexivity].
    + exact Hj.
    + rewrite push_nth by (destruct (HA c) as [-> _]; lia). rewrite Nat.eqb_refl, last_last.
      rewrite (e_mul L rho _ _ _ _ Efj (e_div L rho _ _ _ _ (e_neg L rho _ _ (e_mass i Hi)) Emj Nz)). f_equal. unfold attraction. rewrite (norm_sym (P i) (P j)). field. split; assumption || lra.
    + intros k Hk. rewrite (V1 _ eq_refl _ eq_refl k Hk), Hjm. destruct (Nat.eqb_spec k j), (Nat.eqb_spec k i); try reflexivity. lia.
  - assert (EG := e_mul L rho _ _ _ _ HG E3).
    assert (Efi : ev (mk_mul o (mk_sub o (pvar o j c) (pvar o i c)) (mk_mul o (mk_neg o (mass o masses i)) (mk_mul o G (m32 o (norm2 o (fun c => mk_sub o (pvar o j c) (pvar o i c))))))) = Some (attraction g (m i) (P i) (P j) c)).
    { rewrite (e_mul L rho _ _ _ _ Ed (e_mul L rho _ _ _ _ (e_neg L rho _ _ (e_mass i Hi)) EG)). f_equal. unfold attraction. rewrite (norm_sym (P i) (P j)). remember (norm (sub (P j) (P i))) as w. unfold sub. field. lra. }
    destruct (Nat.ltb_spec j nm) as [Hjm|Hjm].
    + assert (Efj : ev (mk_mul o (mk_sub o (pvar o j c) (pvar o i c)) (mk_mul o (mass o masses j) (mk_mul o G (m32 o (norm2 o (fun c => mk_sub o (pvar o j c) (pvar o i c))))))) = Some (attraction g (m j) (P j) (P i) c)).
      { rewrite (e_mul L rho _ _ _ _ Ed (e_mul L rho _ _ _ _ (e_mass j Hjm) EG)). f_equal. unfold attraction. change (P j c - P i c) with (sub (P j) (P i) c). field. lra. }
      eapply accv_push with (f := fun k => if Nat.eqb k j then partial_acc i j c k + attraction g (m i) (P i) (P j) c else partial_acc i j c k); [| lia | exact Efj |].
      * eapply accv_push; [apply HA | exact Hj | exact Efi | reflexivity].
      * intros k Hk. rewrite (V1 _ eq_refl _ eq_refl k Hk). destruct (Nat.eqb_spec k j), (Nat.eqb_spec k i); try reflexivity. lia.
    + eapply accv_push; [apply HA | exact Hj | exact Efi |]. intros k Hk. rewrite (V1 _ eq_refl _ eq_refl k Hk). destruct (Nat.eqb_spec k j), (Nat.eqb_spec k i); try reflexivity. ring.
Qed.

Lemma inner_ok i : (i < nm)%nat -> forall d j acc, (i < j)%nat -> (j + d = n)%nat -> (forall c, accv (acc c) (partial_acc i j c)) ->
  forall c, accv (fold_left (nbody_pair o G masses i) (seq j d) acc c) (partial_acc i n c).
Proof.
  intros Hi. induction d as [|d IH]; intros j acc Hij Hd HA c.
  - replace n with j by lia. apply HA.
  - cbn [seq fold_left]. apply IH; [lia | lia|]. apply pair_ok; [lia | lia | exact Hi | exact HA].
Qed.
Lemma partial_next i c k : (k < n)%nat -> partial_acc i n c k = partial_acc (S i) (S (S i)) c k.
Proof.
  intros Hk. apply sumn_ext. intros a Ha. destruct (Nat.eqb_spec a k); [reflexivity|].
  replace (before i n a k) with (before (S i) (S (S i)) a k); [reflexivity|]. unfold before.
  destruct (Nat.ltb_spec (Nat.min a k) i), (Nat.eqb_spec (Nat.min a k) i), (Nat.ltb_spec (Nat.max a k) n), (Nat.ltb_spec (Nat.min a k) (S i)), (Nat.eqb_spec (Nat.min a k) (S i)), (Nat.ltb_spec (Nat.max a k) (S (S i))); cbn; try reflexivity; exfalso; lia.
Qed.
Lemma partial_full i j c k : (k < n)%nat -> (k < i)%nat \/ (nm <= i)%nat -> partial_acc i j c k = newton g m P nm k c.
Proof.
  intros Hk Hi. unfold partial_acc, newton. apply sumn_ext. intros a Ha. destruct (Nat.eqb_spec a k); [reflexivity|].
  replace (before i j a k) with true; [reflexivity|]. unfold before. destruct (Nat.ltb_spec (Nat.min a k) i); [reflexivity|]. lia.
Qed.

(* The equations of the first bodies. *)
Definition eqs_upto (sys : list (ex * ex)) (d : nat) : Prop :=
  length sys = (6 * d)%nat /\
  forall k c, (k < d)%nat -> exists b,
    nth_error sys (6 * k + axis_index c) = Some (EVar (pname c k), EVar (vname c k)) /\
    nth_error sys (6 * k + 3 + axis_index c) = Some (EVar (vname c k), b) /\ ev b = Some (newton g m P nm k c).
Lemma eqs_add sys d acc : eqs_upto sys d -> (d < n)%nat -> (forall c, exists f, accv (acc c) f /\ f d = newton g m P nm d c) -> eqs_upto (sys ++ nbody_eqs o acc d) (S d).
Proof.
  intros (HL & HE) Hd HA. split; [rewrite app_length, HL; cbn; lia|]. intros k c Hk. destruct (Nat.eq_dec k d) as [->|Nk].
  - destruct (HA c) as (f & (_ & Hacc) & Hf). destruct (Hacc d Hd) as (vs & F & S). exists (mk_sum o (nth d (acc c) [])).
    split; [|split; [|rewrite (e_sum L rho _ _ F); congruence]].
    + rewrite nth_error_app2 by lia. replace (6 * d + axis_index c - length sys)%nat with (axis_index c) by lia. destruct c; reflexivity.
    + rewrite nth_error_app2 by lia. replace (6 * d + 3 + axis_index c - length sys)%nat with (3 + axis_index c)%nat by lia. destruct c; reflexivity.
  - destruct (HE k c ltac:(lia)) as (b & E1 & E2 & E3). exists b. assert (axis_index c < 3)%nat by (destruct c; cbn; lia). split; [|split; [|exact E3]]; rewrite nth_error_app1 by lia; assumption.
Qed.
Lemma massive_ok : forall d i st, (i + d = nm)%nat -> eqs_upto (fst st) i -> (forall c, accv (snd st c) (partial_acc i (S i) c)) ->
  let st' := fold_left (nbody_massive o n G masses) (seq i d) st in eqs_upto (fst st') nm /\ forall c, accv (snd st' c) (fun k => newton g m P nm k c).
Proof.
  induction d as [|d IH]; intros i st Hd HE HA.
  - cbn [seq fold_left]. split; [now replace nm with i by lia|]. intros c. eapply accv_ext; [|apply HA]. intros k Hk. apply partial_full; [exact Hk | lia].
  - cbn [seq fold_left]. assert (HA' := inner_ok i ltac:(lia) (n - S i) (S i) (snd st) ltac:(lia) ltac:(lia) HA).
    apply IH; [lia| |].
    + cbn [fst nbody_massive]. apply eqs_add; [exact HE | lia|]. intros c. eexists. split; [apply HA'|]. rewrite partial_next by lia. apply partial_full; lia.
    + intros c. cbn [snd nbody_massive]. eapply accv_ext; [|apply HA']. intros k Hk. now apply partial_next.
Qed.
Lemma massless_ok acc : (forall c, accv (acc c) (fun k => newton g m P nm k c)) -> forall d i sys, (i + d = n)%nat -> eqs_upto sys i -> eqs_upto (sys ++ flat_map (nbody_eqs o acc) (seq i d)) n.
Proof.
  intros HA. induction d as [|d IH]; intros i sys Hd HE; cbn [seq flat_map].
  - rewrite app_nil_r. now replace n with i by lia.
  - rewrite app_assoc. apply IH; [lia|]. apply eqs_add; [exact HE | lia|]. intros c. exists (fun k => newton g m P nm k c). split; [apply HA | reflexivity].
Qed.
Lemma repeat_accv c : accv (repeat [] n) (partial_acc 0 1 c).
Proof.
  split; [apply repeat_length|]. intros k Hk. exists []. assert (E : nth k (repeat (@nil ex) n) [] = []). { clear -Hk. revert k Hk. induction n as [|q IH]; intros k Hk; [lia|]. destruct k; [reflexivity|]. cbn. apply IH. lia. }
  rewrite E. split; [constructor|]. unfold rsum, partial_acc. cbn [fold_right]. symmetry. apply sumn_zero. intros a Ha. destruct (Nat.eqb_spec a k); [reflexivity|].
  unfold before. destruct (Nat.ltb_spec (Nat.min a k) 0); [lia|]. destruct (Nat.ltb_spec (Nat.max a k) 1); [lia|]. now rewrite andb_false_r.
Qed.
Lemma nbody_values sys : nbody o n G masses = MDone sys -> eqs_upto sys n.
Proof.
  unfold nbody. destruct (nbody_checks o n masses); [|discriminate].
  assert (K := massive_ok nm 0 ([], fun _ => repeat [] n) ltac:(lia)). cbn [fst snd] in K.
  specialize (K ltac:(split; [reflexivity | intros k c Hk; lia]) ltac:(intros c; apply repeat_accv)). cbn zeta in K.
  destruct (fold_left (nbody_massive o n G masses) (seq 0 nm) ([], fun _ => repeat [] n)) as [ret acc]. cbn [fst snd] in K. destruct K as (K1 & K2).
  intros E. injection E as <-. apply massless_ok; [exact K2 | lia | exact K1].
Qed.
End Nbody.
