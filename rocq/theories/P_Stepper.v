(* The stepper: memory, loops, and what is written, lane by lane. *)
From Coq Require Import String Bool Arith List Lia.
From Verif Require Import M_Expr M_Dag M_Dec S_Dec P_Dec M_Taylor S_Taylor P_Tay1 P_Tay2 P_Tay3 P_Tay4 M_Stepper.
Import ListNotations.
Local Open Scope nat_scope.
Set Bullet Behavior "Strict Subproofs".

(* --- Loops and arrays -------------------------------------------------------------- *)
Lemma for_inv {A} (P : nat -> A -> Prop) f : forall n i a, P i a ->
  (forall k x, i <= k < i + n -> P k x -> exists y, f k x = MDone y /\ P (S k) y) ->
  exists b, for_ n i f a = MDone b /\ P (i + n) b.
Proof.
  induction n as [|n IH]; intros i a H0 HS; cbn [for_].
  - exists a. rewrite Nat.add_0_r. auto.
  - destruct (HS i a) as (y & -> & Hy); [lia | exact H0|]. cbn [mbind].
    destruct (IH (S i) y Hy) as (b & Hb & HP); [intros; apply HS; [lia|assumption]|].
    exists b. split; [exact Hb|]. now replace (i + S n) with (S i + n) by lia.
Qed.
Lemma mseq_done {A B} (f : A -> mres B) (g : A -> B) : forall l, (forall x, In x l -> f x = MDone (g x)) -> mseq (map f l) = MDone (map g l).
Proof.
  induction l as [|x l IH]; intros H; cbn; [reflexivity|]. rewrite (H x) by (now left). cbn [mbind]. rewrite IH; [reflexivity|].
  intros y Hy. apply H. now right.
Qed.
Lemma mseq_done_inv {A B} (f : A -> mres B) (g : A -> B) : forall l, mseq (map f l) = MDone (map g l) -> forall x, In x l -> f x = MDone (g x).
Proof.
  induction l as [|x l IH]; intros H y Hy; [contradiction|]. cbn in H. destruct (f x) as [v| | |] eqn:Ef; try discriminate. cbn [mbind] in H.
  destruct (mseq (map f l)) as [vs| | |]; try discriminate. cbn [mbind] in H.
  assert (E1 : v = g x) by congruence. assert (E2 : vs = map g l) by congruence. destruct Hy as [<-|Hy]; [congruence|]. apply IH; congruence.
Qed.
Lemma aset_ok {A} (arr : list A) i v d : i < length arr -> exists arr', aset arr i v = MDone arr' /\ length arr' = length arr /\
  forall k, nth k arr' d = if k =? i then v else nth k arr d.
Proof.
  intros H. unfold aset. destruct (Nat.ltb_spec i (length arr)) as [_|]; [|lia]. eexists. split; [reflexivity|].
  assert (L : length (firstn i arr) = i) by (rewrite firstn_length; lia). split.
  - rewrite app_length, L. cbn [length]. rewrite skipn_length. lia.
  - intros k. destruct (Nat.eqb_spec k i) as [->|Hk].
    + rewrite app_nth2 by lia. rewrite L, Nat.sub_diag. reflexivity.
    + destruct (Nat.lt_ge_cases k i) as [Hl|Hl].
      * rewrite app_nth1 by lia. rewrite <- (firstn_skipn i arr) at 2. rewrite app_nth1 by lia. reflexivity.
      * rewrite app_nth2 by lia. rewrite L. destruct (k - i) as [|q] eqn:Eq; [lia|]. cbn [nth].
        rewrite <- (firstn_skipn (S i) arr) at 2. rewrite app_nth2 by (rewrite firstn_length; lia). f_equal. rewrite firstn_length. lia.
Qed.
Lemma aget_ok {A} (arr : list A) i d : i < length arr -> aget arr i = MDone (nth i arr d).
Proof. intros H. unfold aget. rewrite (List.nth_error_nth' arr d H). reflexivity. Qed.

Lemma prod_map {A B C} (f : A -> B -> C) (ms : list A) (is : list B) : flat_map (fun m => map (f m) is) ms = map (fun p => f (fst p) (snd p)) (list_prod ms is).
Proof.
  induction ms as [|m ms IH]; cbn; [reflexivity|]. rewrite map_app, map_map, IH. reflexivity.
Qed.
Lemma prod_nth {A} (is : list A) (d : nat * A) dd : forall n m0 m i, m < n -> i < length is ->
  nth (m * length is + i) (list_prod (seq m0 n) is) d = (m0 + m, nth i is dd).
Proof.
  induction n as [|n IH]; intros m0 m i Hm Hi; [lia|]. cbn [seq list_prod]. destruct m as [|m].
  - cbn [Nat.mul Nat.add]. rewrite app_nth1 by (now rewrite map_length). rewrite (nth_indep _ d (pair m0 dd)) by (now rewrite map_length).
    rewrite (map_nth (pair m0)). now rewrite Nat.add_0_r.
  - rewrite app_nth2; rewrite map_length; [|cbn; lia]. replace (S m * length is + i - length is) with (m * length is + i) by (cbn; lia).
    rewrite IH by lia. f_equal. lia.
Qed.
Lemma prod_len {A B} (l : list A) (l' : list B) : length (list_prod l l') = length l * length l'.
Proof. apply prod_length. Qed.

Lemma jet_nth {V} (ne : nat) sv order (tab : nat -> nat -> V) m i : m <= order -> i < ne + length sv ->
  aget (jet_of ne sv order tab) (m * (ne + length sv) + i) = MDone (tab m (nth i (seq 0 ne ++ sv) 0)).
Proof.
  intros Hm Hi. unfold jet_of. rewrite prod_map.
  assert (L : length (seq 0 ne ++ sv) = ne + length sv) by (now rewrite app_length, seq_length).
  assert (Hlt : m * (ne + length sv) + i < length (list_prod (seq 0 (S order)) (seq 0 ne ++ sv))).
  { rewrite prod_len, seq_length, L. nia. }
  rewrite (aget_ok _ _ (tab 0 0)) by (now rewrite map_length).
  change (tab 0 0) with ((fun p : nat * nat => tab (fst p) (snd p)) (0, 0)).
  rewrite (map_nth (fun p => tab (fst p) (snd p)) _ (0, 0)). pose proof (prod_nth (seq 0 ne ++ sv) (0, 0) 0 (S order) 0 m i ltac:(lia) ltac:(lia)) as HN.
  rewrite L in HN. rewrite HN. reflexivity.
Qed.

(* --- Lanes of the table of the derivatives ------------------------------------------------ *)
Section Lanes.
Context {E : Type} {o : nops} (A : nat -> alg (num o) E) (T : tops E).
Lemma pair_up_lane l : forall vs : list (vec E), map (fun v => v l) (pair_up (lane_tops T) vs) = pair_up T (map (fun v => v l) vs).
Proof.
  intros vs. remember (length vs) as n eqn:En. revert vs En. induction n as [n IH] using lt_wf_ind. intros vs En.
  destruct vs as [|a [|b r]]; [reflexivity..|]. cbn [pair_up map]. f_equal. apply (IH (length r)); [cbn in En; lia | reflexivity].
Qed.
End Lanes.
Section Pairs.
Context {V W : Type} (T : tops V) (T' : tops W) (phi : V -> W).
Hypothesis Hadd : forall a b, phi (t_add T a b) = t_add T' (phi a) (phi b).
Lemma pair_up_hom : forall vs, map phi (pair_up T vs) = pair_up T' (map phi vs).
Proof.
  intros vs. remember (length vs) as n eqn:En. revert vs En. induction n as [n IH] using lt_wf_ind. intros vs En.
  destruct vs as [|a [|b r]]; [reflexivity..|]. cbn [pair_up map]. rewrite Hadd. f_equal. apply (IH (length r)); [cbn in En; lia | reflexivity].
Qed.
Lemma pairwise_hom : forall fuel vs v, pairwise T fuel vs = MDone v -> pairwise T' fuel (map phi vs) = MDone (phi v).
Proof.
  induction fuel as [|k IH]; intros vs v H; destruct vs as [|a [|b r]]; try discriminate.
  - cbn in *. congruence.
  - cbn in *. congruence.
  - change (pairwise T k (pair_up T (a :: b :: r)) = MDone v) in H.
    change (pairwise T' k (pair_up T' (map phi (a :: b :: r))) = MDone (phi v)). rewrite <- pair_up_hom. now apply IH.
Qed.
Lemma pairv_hom vs : vs <> [] -> phi (pairv T vs) = pairv T' (map phi vs).
Proof.
  intros H. pose proof (pairwise_hom _ _ _ (pairwise_pairv T vs H)) as H1. unfold pairv at 2. rewrite map_length, H1. reflexivity.
Qed.
Lemma loopv_hom f f' : (forall j, phi (f j) = f' j) -> forall n j acc, phi (loopv T n j acc f) = loopv T' n j (phi acc) f'.
Proof. intros Hf. induction n as [|n IH]; intros j acc; cbn; [reflexivity|]. now rewrite IH, Hadd, Hf. Qed.
End Pairs.
Section LaneTab.
Context {E : Type} {o : nops} (A : nat -> alg (num o) E) (T : tops E) (l : nat).
Lemma tval_lane rd P : forall e, code_ok P e -> tval (lane_alg A) (lane_tops T) rd e l = tval (A l) T (fun m j => rd m j l) e.
Proof.
  induction e using tex_ind'; cbn [code_ok tval]; intros HO; try reflexivity.
  - cbn. unfold lift2. rewrite IHe1, IHe2; tauto.
  - cbn. unfold lift2. rewrite IHe1, IHe2; tauto.
  - cbn. unfold lift2. rewrite IHe1, IHe2; tauto.
  - cbn. unfold lift2. rewrite IHe1, IHe2; tauto.
  - cbn. unfold lift1. rewrite IHe; tauto.
  - rewrite allof_Forall in HO. cbn. rewrite map_map. f_equal. apply map_ext_in. intros a Ha. rewrite Forall_forall in *. auto.
  - cbn. rewrite IHe1, IHe2, IHe3; tauto.
  - destruct HO as [Hn HO]. rewrite allof_Forall in HO.
    rewrite (pairv_hom (lane_tops T) T (fun v : vec E => v l)); [|reflexivity|]. 2: now destruct l0.
    f_equal. rewrite map_map. apply map_ext_in. intros a Ha. rewrite Forall_forall in *. auto.
  - change (tval (lane_alg A) (lane_tops T) rd (TLoop lo hi f) l) with
      (loopv (lane_tops T) (hi - lo) lo (t_nat (lane_tops T) 0) (fun j => tval (lane_alg A) (lane_tops T) rd (f j)) l).
    assert (G : forall n j acc, lo <= j -> j + n <= Nat.max lo hi ->
      loopv (lane_tops T) n j acc (fun j => tval (lane_alg A) (lane_tops T) rd (f j)) l =
      loopv T n j (acc l) (fun j => tval (A l) T (fun m j => rd m j l) (f j))).
    { induction n as [|n IH]; intros j acc H1 H2; cbn [loopv]; [reflexivity|]. rewrite IH by lia. cbn. unfold lift2. rewrite (H j); [reflexivity|].
      apply HO. lia. }
    apply G; lia.
Qed.
Context (d : dcmp o) (sv : list nat) (sts : list (vec E)).
Hypothesis HR : jet_ready d sv.
Local Notation ne := (length (dc_in o d)).
Local Notation nu := (ne + length (dc_mid o d)).
Hypothesis Hst : length sts = ne.
Lemma table_lane C tab : is_code C -> is_table (lane_alg A) (lane_tops T) ne nu (st0 (lane_tops T) sts) (dcode d C) tab ->
  is_table (A l) T ne nu (st0 T (map (fun v => v l) sts)) (dcode d C) (fun m j => tab m j l).
Proof.
  intros HC [H0 H1]. split.
  - intros j Hj. rewrite H0 by assumption. unfold st0. symmetry.
    apply (map_nth (fun v : vec E => v l) sts (t_nat (lane_tops T) 0)).
  - intros n j c Hj I Hc. rewrite (H1 n j c Hj I Hc).
    destruct (dcode_ok d sv sts HR Hst C HC n j Hj I) as (c' & Hc' & Hok). rewrite Hc in Hc'. injection Hc' as <-.
    eapply tval_lane; exact Hok.
Qed.
End LaneTab.

(* --- Memory ---------------------------------------------------------------------------------- *)
Section Stepper.
Context {E : Type} (S0 : sops E) (bs : nat).
Local Notation T := (s_t S0).
Local Notation V := (vec E).
Local Notation z := (t_nat T 0).

Lemma vload_ok m idx : idx + bs <= length m -> vload S0 bs m idx = MDone (fun l => nth (idx + l) m z).
Proof. intros H. unfold vload. destruct (Nat.leb_spec (idx + bs) (length m)); [reflexivity | lia]. Qed.
Lemma vstore_ok m idx v : idx + bs <= length m -> exists m', vstore bs m idx v = MDone m' /\ length m' = length m /\
  forall i, nth i m' z = if (idx <=? i) && (i <? idx + bs) then v (i - idx) else nth i m z.
Proof.
  intros H. unfold vstore. destruct (Nat.leb_spec (idx + bs) (length m)) as [_|]; [|lia]. eexists. split; [reflexivity|].
  assert (L : length (firstn idx m) = idx) by (rewrite firstn_length; lia). split.
  - rewrite !app_length, L, map_length, seq_length, skipn_length. lia.
  - intros i. destruct (Nat.leb_spec idx i) as [H1|H1]; cbn [andb].
    + rewrite app_nth2 by lia. rewrite L. destruct (Nat.ltb_spec i (idx + bs)) as [H2|H2].
      * rewrite app_nth1 by (rewrite map_length, seq_length; lia). rewrite (nth_indep _ z (v 0)) by (rewrite map_length, seq_length; lia).
        rewrite map_nth, seq_nth by lia. reflexivity.
      * rewrite app_nth2 by (rewrite map_length, seq_length; lia). rewrite map_length, seq_length.
        rewrite <- (firstn_skipn (idx + bs) m) at 2. rewrite app_nth2 by (rewrite firstn_length; lia). f_equal. rewrite firstn_length. lia.
    + rewrite app_nth1 by lia. rewrite <- (firstn_skipn idx m) at 2. rewrite app_nth1 by lia. reflexivity.
Qed.

(* --- The two evaluation schemes on a lane ------------------------------------------------------ *)
Fixpoint hor (c : nat -> E) (h : E) (order k : nat) : E :=
  match k with O => c order | S k' => t_add T (c (order - k)) (t_mul T (hor c h order k') h) end.
Fixpoint cev (c : nat -> E) (h : E) (k : nat) : E * E * E :=
  match k with
  | O => (c 0, z, h)
  | S k' => let '(r, cp, ch) := cev c h k' in
            let y := t_sub T (t_mul T (c k) ch) cp in
            let t := t_add T r y in (t, t_sub T (t_sub T t r) y, t_mul T ch h)
  end.
Definition evals (ha : bool) (c : nat -> E) (h : E) (order : nat) : E :=
  if ha then fst (fst (cev c h order)) else hor c h order order.

Lemma hor_ext c c' h order k : k <= order -> (forall m, m <= order -> c m = c' m) -> hor c h order k = hor c' h order k.
Proof. intros Hk H. induction k as [|k IH]; cbn [hor]; [apply H; lia|]. rewrite IH by lia. rewrite H by lia. reflexivity. Qed.
Lemma cev_ext c c' h k : (forall m, m <= k -> c m = c' m) -> cev c h k = cev c' h k.
Proof. intros H. induction k as [|k IH]; cbn [cev]; [rewrite H by lia; reflexivity|]. rewrite IH by (intros; apply H; lia). rewrite H by lia. reflexivity. Qed.
Lemma evals_ext ha c c' h order : (forall m, m <= order -> c m = c' m) -> evals ha c h order = evals ha c' h order.
Proof. intros H. unfold evals. destruct ha; [rewrite (cev_ext c c'); auto | apply hor_ext; auto]. Qed.

Section Eval.
Context (rd : nat -> nat -> mres V) (h : V) (ne order : nat) (tab : nat -> nat -> V).
Hypothesis Hrd : forall m j, m <= order -> j < ne -> rd m j = MDone (tab m j).
Lemma multihorner_ok : exists res, multihorner S0 rd h ne order = MDone res /\ length res = ne /\
  forall j l, j < ne -> nth j res (splat z) l = hor (fun m => tab m j l) (h l) order order.
Proof.
  unfold multihorner. rewrite (mseq_done (rd order) (tab order)) by (intros j Hj; apply in_seq in Hj; apply Hrd; lia). cbn [mbind].
  destruct (for_inv (fun k (res : list V) => length res = ne /\ forall j l, j < ne -> nth j res (splat z) l = hor (fun m => tab m j l) (h l) order (k - 1))
    (fun k res => for_ ne 0 (fun j res => mbind (rd (order - k) j) (fun cf => mbind (aget res j) (fun r =>
      aset res j (lift2 (t_add T) cf (lift2 (t_mul T) r h))))) res) order 1 (map (tab order) (seq 0 ne))) as (res & E1 & E2 & E3).
  - split; [now rewrite map_length, seq_length|]. intros j l Hj. rewrite (nth_indep _ (splat z) (tab order 0)) by (now rewrite map_length, seq_length).
    rewrite map_nth, seq_nth by exact Hj. reflexivity.
  - intros k res Hk [L HP].
    destruct (for_inv (fun i (r : list V) => length r = ne /\ forall j l, j < ne -> nth j r (splat z) l =
        hor (fun m => tab m j l) (h l) order (if j <? i then k else k - 1))
      (fun j res => mbind (rd (order - k) j) (fun cf => mbind (aget res j) (fun r =>
        aset res j (lift2 (t_add T) cf (lift2 (t_mul T) r h))))) ne 0 res) as (res' & F1 & F2 & F3).
    + split; [exact L|]. intros j l Hj. now rewrite HP.
    + intros i r Hi [Lr Hr]. rewrite Hrd by lia. cbn [mbind]. rewrite (aget_ok r i (splat z)) by lia. cbn [mbind].
      destruct (aset_ok r i (lift2 (t_add T) (tab (order - k) i) (lift2 (t_mul T) (nth i r (splat z)) h)) (splat z)) as (r' & -> & L' & N'); [lia|].
      exists r'. split; [reflexivity|]. split; [lia|]. intros j l Hj. rewrite N'. destruct (Nat.eqb_spec j i) as [->|Hne].
      * unfold lift2. rewrite Hr by lia. destruct (Nat.ltb_spec i i); [lia|]. destruct (Nat.ltb_spec i (S i)); [|lia].
        destruct k as [|k]; [lia|]. cbn [hor]. now replace (S k - 1) with k by lia.
      * rewrite Hr by exact Hj. destruct (Nat.ltb_spec j i), (Nat.ltb_spec j (S i)); try reflexivity; lia.
    + exists res'. split; [exact F1|]. split; [exact F2|]. intros j l Hj. rewrite F3 by exact Hj. destruct (Nat.ltb_spec j (0 + ne)); [|lia].
      now replace (S k - 1) with k by lia.
  - exists res. split; [exact E1|]. split; [exact E2|]. intros j l Hj. rewrite E3 by exact Hj. now replace (1 + order - 1) with order by lia.
Qed.
Lemma ceval_ok : exists res, ceval S0 rd h ne order = MDone res /\ length res = ne /\
  forall j l, j < ne -> nth j res (splat z) l = fst (fst (cev (fun m => tab m j l) (h l) order)).
Proof.
  unfold ceval. rewrite (mseq_done (rd 0) (tab 0)) by (intros j Hj; apply in_seq in Hj; apply Hrd; lia). cbn [mbind].
  match goal with |- context [for_ order 1 ?f ?a] =>
    destruct (for_inv (fun k (s : list V * list V * V) => let '(res, comp, ch) := s in length res = ne /\ length comp = ne /\
      (forall j l, j < ne -> cev (fun m => tab m j l) (h l) (k - 1) = (nth j res (splat z) l, nth j comp (splat z) l, ch l)) /\
      (forall l, ch l = snd (cev (fun _ => z) (h l) (k - 1)))) f order 1 a) as ([[res comp] ch] & E1 & E2 & E3 & E4 & _) end.
  - split; [now rewrite map_length, seq_length|]. split; [apply repeat_length|]. split; [|reflexivity]. intros j l Hj.
    rewrite (nth_indep (map _ _) (splat z) (tab 0 0)) by (now rewrite map_length, seq_length).
    rewrite map_nth, seq_nth by exact Hj. rewrite nth_repeat. reflexivity.
  - intros k [[res comp] ch] Hk (L1 & L2 & HP & HC). cbv beta iota.
    match goal with |- context [for_ ne 0 ?f ?a] =>
      destruct (for_inv (fun i (s : list V * list V) => let '(r, c) := s in length r = ne /\ length c = ne /\
         forall j l, j < ne -> (nth j r (splat z) l, nth j c (splat z) l) = fst (cev (fun m => tab m j l) (h l) (if j <? i then k else k - 1)))
        f ne 0 a) as ([res' comp'] & F1 & F2 & F3 & F4) end.
    + split; [exact L1|]. split; [exact L2|]. intros j l Hj. now rewrite HP.
    + intros i [r c] Hi (Lr & Lc & Hr). cbv beta iota. rewrite Hrd by lia. cbn [mbind]. cbv zeta.
      rewrite (aget_ok c i (splat z)) by lia. cbn [mbind]. rewrite (aget_ok r i (splat z)) by lia. cbn [mbind].
      set (y := lift2 (t_sub T) (lift2 (t_mul T) (tab k i) ch) (nth i c (splat z))). set (t := lift2 (t_add T) (nth i r (splat z)) y).
      destruct (aset_ok c i (lift2 (t_sub T) (lift2 (t_sub T) t (nth i r (splat z))) y) (splat z)) as (c' & -> & Lc' & Nc); [lia|]. cbn [mbind].
      destruct (aset_ok r i t (splat z)) as (r' & -> & Lr' & Nr); [lia|]. cbn [mbind]. eexists. split; [reflexivity|]. cbv beta iota.
      split; [lia|]. split; [lia|]. intros j l Hj. rewrite Nc, Nr. destruct (Nat.eqb_spec j i) as [->|Hne].
      * destruct (Nat.ltb_spec i (S i)); [|lia]. specialize (Hr i l Hj). specialize (HP i l Hj). destruct (Nat.ltb_spec i i); [lia|].
        destruct k as [|k]; [lia|]. replace (S k - 1) with k in * by lia. cbn [cev]. rewrite HP in *. cbn [fst] in Hr |- *.
        unfold t, y, lift2. injection Hr as Hr1 Hr2. rewrite Hr1, Hr2. reflexivity.
      * rewrite Hr by exact Hj. destruct (Nat.ltb_spec j i), (Nat.ltb_spec j (S i)); try reflexivity; lia.
    + rewrite F1. cbn [mbind]. eexists. split; [reflexivity|]. cbv beta iota. cbn [fst snd].
      split; [exact F2|]. split; [exact F3|].
      assert (HS : forall c l, snd (cev c (h l) (k - 1)) = ch l -> snd (cev c (h l) (S k - 1)) = lift2 (t_mul T) ch h l).
      { intros c l Hl. replace (S k - 1) with (S (k - 1)) by lia. cbn [cev]. destruct (cev c (h l) (k - 1)) as [[a b] e]. cbn [snd] in Hl |- *. subst e. reflexivity. }
      split.
      * intros j l Hj. specialize (F4 j l Hj). destruct (Nat.ltb_spec j (0 + ne)); [|lia].
        specialize (HS (fun m => tab m j l) l). rewrite HP in HS by exact Hj. specialize (HS eq_refl). replace (S k - 1) with k in * by lia.
        destruct (cev (fun m => tab m j l) (h l) k) as [rc e]. cbn [fst snd] in *. now rewrite F4, HS.
      * intros l. symmetry. apply HS. symmetry. apply HC.
  - rewrite E1. cbn [mbind fst]. eexists. split; [reflexivity|]. split; [exact E2|]. intros j l Hj.
    specialize (E4 j l Hj). replace (1 + order - 1) with order in E4 by lia. rewrite E4. reflexivity.
Qed.
Lemma evaluate_ok (ha : bool) : exists res, (if ha then ceval S0 rd h ne order else multihorner S0 rd h ne order) = MDone res /\ length res = ne /\
  forall j l, j < ne -> nth j res (splat z) l = evals ha (fun m => tab m j l) (h l) order.
Proof. unfold evals. destruct ha; [exact ceval_ok | exact multihorner_ok]. Qed.
End Eval.

(* Writing vectors at multiples of the batch size. *)
Lemma store_state_ok new ne st : length new = ne -> ne * bs = length st -> exists st', store_state bs new ne st = MDone st' /\
  length st' = length st /\ forall j l, j < ne -> l < bs -> nth (j * bs + l) st' z = nth j new (splat z) l.
Proof.
  intros Ln Ls. unfold store_state.
  destruct (for_inv (fun k (m : list E) => length m = length st /\ forall j l, j < k -> l < bs -> nth (j * bs + l) m z = nth j new (splat z) l)
    (fun i st => mbind (aget new i) (fun v => vstore bs st (i * bs) v)) ne 0 st) as (m & E1 & E2 & E3).
  - split; [reflexivity|]. intros; lia.
  - intros k m Hk [L HP]. rewrite (aget_ok new k (splat z)) by lia. cbn [mbind].
    destruct (vstore_ok m (k * bs) (nth k new (splat z))) as (m' & -> & L' & N'); [rewrite L; nia|]. exists m'. split; [reflexivity|]. split; [lia|].
    intros j l Hj Hl. rewrite N'. destruct (Nat.leb_spec (k * bs) (j * bs + l)) as [H1|H1].
    + assert (j = k) by nia. subst j. destruct (Nat.ltb_spec (k * bs + l) (k * bs + bs)); [|lia]. cbn [andb]. f_equal. lia.
    + cbn [andb]. apply HP; [nia | exact Hl].
  - exists m. split; [exact E1|]. split; [exact E2|]. intros j l Hj Hl. apply E3; lia.
Qed.
Lemma write_row_ok rd order row tab tc : (forall k, k <= order -> rd k = MDone (tab k : V)) -> (order + 1) * bs * (row + 1) <= length tc ->
  exists tc', write_row bs rd order row tc = MDone tc' /\ length tc' = length tc /\
  forall i, nth i tc' z = if ((order + 1) * bs * row <=? i) && (i <? (order + 1) * bs * (row + 1))
                          then tab ((i - (order + 1) * bs * row) / bs) ((i - (order + 1) * bs * row) mod bs) else nth i tc z.
Proof.
  intros Hrd Hl. unfold write_row.
  destruct (for_inv (fun k (m : list E) => length m = length tc /\ forall i, nth i m z = if ((order + 1) * bs * row <=? i) && (i <? (order + 1) * bs * row + k * bs)
                          then tab ((i - (order + 1) * bs * row) / bs) ((i - (order + 1) * bs * row) mod bs) else nth i tc z)
    (fun k tc => mbind (rd k) (fun v => vstore bs tc ((order + 1) * bs * row + k * bs) v)) (order + 1) 0 tc) as (m & E1 & E2 & E3).
  - split; [reflexivity|]. intros i. cbn [Nat.mul]. rewrite Nat.add_0_r. destruct (Nat.leb_spec ((order + 1) * bs * row) i), (Nat.ltb_spec i ((order + 1) * bs * row)); try reflexivity; lia.
  - intros k m Hk [L HP]. rewrite Hrd by lia. cbn [mbind]. set (B := (order + 1) * bs * row) in *.
    destruct (vstore_ok m (B + k * bs) (tab k)) as (m' & -> & L' & N'); [rewrite L; unfold B; nia|]. exists m'. split; [reflexivity|]. split; [lia|].
    intros i. rewrite N', HP.
    destruct (Nat.leb_spec (B + k * bs) i) as [H1|H1]; cbn [andb].
    + destruct (Nat.leb_spec B i); [|lia]. destruct (Nat.ltb_spec i (B + k * bs)) as [H3|H3]; [lia|]. cbn [andb].
      destruct (Nat.ltb_spec i (B + k * bs + bs)) as [H2|H2]; destruct (Nat.ltb_spec i (B + S k * bs)) as [H4|H4]; cbn in H4; try lia; [|reflexivity].
      assert (Hb : bs <> 0) by lia. replace (i - B) with (i - (B + k * bs) + k * bs) by lia. rewrite Nat.div_add, Nat.mod_add by exact Hb.
      rewrite (Nat.div_small (i - (B + k * bs))) by lia. rewrite Nat.mod_small by lia. reflexivity.
    + destruct (Nat.leb_spec B i); cbn [andb]; [|reflexivity]. destruct (Nat.ltb_spec i (B + k * bs)); [|lia].
      destruct (Nat.ltb_spec i (B + S k * bs)) as [|H4]; [reflexivity|cbn in H4; lia].
  - exists m. split; [exact E1|]. split; [exact E2|]. intros i. rewrite E3. replace ((order + 1) * bs * row + (0 + (order + 1)) * bs) with ((order + 1) * bs * (row + 1)) by (cbn; lia). reflexivity.
Qed.
(* A row of the memory of the Taylor coefficients. *)
Definition row_is (tc : list E) (order j : nat) (tab : nat -> V) : Prop :=
  forall k l, k <= order -> l < bs -> nth ((order + 1) * bs * j + k * bs + l) tc z = tab k l.
Lemma write_row_rows rd order row tab tc n : (forall k, k <= order -> rd k = MDone (tab k : V)) -> (order + 1) * bs * n = length tc -> row < n ->
  exists tc', write_row bs rd order row tc = MDone tc' /\ length tc' = length tc /\ row_is tc' order row tab /\
    forall j t, j < n -> j <> row -> row_is tc order j t -> row_is tc' order j t.
Proof.
  intros Hrd Hl Hr. destruct (write_row_ok rd order row tab tc Hrd) as (tc' & E1 & E2 & E3); [nia|]. exists tc'. split; [exact E1|]. split; [exact E2|]. split.
  - intros k l Hk Hl'. rewrite E3. set (B := (order + 1) * bs * row).
    destruct (Nat.leb_spec B (B + k * bs + l)); [|lia]. destruct (Nat.ltb_spec (B + k * bs + l) ((order + 1) * bs * (row + 1))) as [|H1]; [|unfold B in H1; nia].
    cbn [andb]. replace (B + k * bs + l - B) with (l + k * bs) by lia. rewrite Nat.div_add, Nat.mod_add by lia. rewrite Nat.div_small, Nat.mod_small by exact Hl'. reflexivity.
  - intros j t Hj Hne Ht k l Hk Hl'. rewrite E3. rewrite <- (Ht k l Hk Hl').
    destruct (Nat.leb_spec ((order + 1) * bs * row) ((order + 1) * bs * j + k * bs + l)) as [H1|H1]; [|reflexivity].
    destruct (Nat.ltb_spec ((order + 1) * bs * j + k * bs + l) ((order + 1) * bs * (row + 1))) as [H2|H2]; [|reflexivity].
    exfalso. apply Hne. assert (Hkl : k * bs + l < (order + 1) * bs) by nia. nia.
Qed.
Section Write.
Context (ne : nat) (sv : list nat) (order : nat) (tab : nat -> nat -> V) (tc : list E).
Hypothesis Htc : (order + 1) * bs * (ne + length sv) = length tc.
Local Notation is := (seq 0 ne ++ sv).
Lemma is_nth_lo j : j < ne -> nth j is 0 = j.
Proof. intros H. rewrite app_nth1 by (now rewrite seq_length). now rewrite seq_nth. Qed.
Lemma is_nth_hi j : nth (ne + j) is 0 = nth j sv 0.
Proof. rewrite app_nth2; rewrite seq_length; [f_equal; lia | lia]. Qed.
Definition written (tc' : list E) (j0 : nat) : Prop := length tc' = length tc /\ forall j, j < j0 -> row_is tc' order j (fun k => tab k (nth j is 0)).
Lemma write_step rd row tc1 : written tc1 row -> row < ne + length sv -> (forall k, k <= order -> rd k = MDone (tab k (nth row is 0))) ->
  exists tc2, write_row bs rd order row tc1 = MDone tc2 /\ written tc2 (S row).
Proof.
  intros [L H] Hr Hrd. destruct (write_row_rows rd order row (fun k => tab k (nth row is 0)) tc1 (ne + length sv) Hrd) as (tc2 & E1 & E2 & E3 & E4); [lia | exact Hr|].
  exists tc2. split; [exact E1|]. split; [lia|]. intros j Hj. destruct (Nat.eq_dec j row) as [->|Hne]; [exact E3|]. apply E4; [lia | exact Hne|]. apply H. lia.
Qed.
Lemma write_compact_ok ld : (forall m i, m <= order -> i < ne \/ In i sv -> ld m i = MDone (tab m i)) ->
  exists tc', write_tc_compact bs ld ne sv order tc = MDone tc' /\ written tc' (ne + length sv).
Proof.
  intros Hld. unfold write_tc_compact.
  destruct (for_inv (fun k m => written m k) (fun j tc => write_row bs (fun k => ld k j) order j tc) ne 0 tc) as (tc1 & -> & H1).
  - split; [reflexivity|]. intros; lia.
  - intros k m Hk H. apply write_step; [exact H | lia|]. intros q Hq. rewrite is_nth_lo by lia. apply Hld; [exact Hq | left; lia].
  - cbn [mbind]. destruct (for_inv (fun a m => written m (ne + a)) (fun a tc => mbind (aget sv a) (fun i => write_row bs (fun k => ld k i) order (ne + a) tc)) (length sv) 0 tc1) as (tc2 & Etc & H2).
    + now rewrite Nat.add_0_r.
    + intros a m Ha H. rewrite (aget_ok sv a 0) by lia. cbn [mbind]. replace (ne + S a) with (S (ne + a)) by lia. apply write_step; [exact H | lia|].
      intros q Hq. rewrite is_nth_hi. apply Hld; [exact Hq | right; apply nth_In; lia].
    + exists tc2. auto.
Qed.
Lemma write_default_ok : exists tc', write_tc_default bs (jet_of ne sv order tab) ne (length sv) order tc = MDone tc' /\ written tc' (ne + length sv).
Proof.
  unfold write_tc_default.
  destruct (for_inv (fun k m => written m k) (fun j tc => write_row bs (fun k => aget (jet_of ne sv order tab) (k * (ne + length sv) + j)) order j tc) (ne + length sv) 0 tc) as (tc1 & -> & H1).
  - split; [reflexivity|]. intros; lia.
  - intros k m Hk H. apply write_step; [exact H | lia|]. intros q Hq. apply jet_nth; lia.
  - exists tc1. auto.
Qed.
End Write.

(* --- Norms --------------------------------------------------------------------------------------- *)
Definition maxs (a b : E) : E := if s_lt S0 a b then b else a.
(* Compact mode: one after the other; default mode: in pairs. *)
Definition norm_seq (l : list E) : E := match l with [] => z | x :: r => fold_left (fun acc y => maxs acc (s_abs S0 y)) r (s_abs S0 x) end.
Definition smax_tops : tops E := mkTops maxs maxs maxs maxs (fun x => x) (fun _ => z) z (fun x _ _ => x).
Definition norm_pair (l : list E) : E := pairv smax_tops (map (s_abs S0) l).
Lemma for_fold (ld : nat -> mres V) (g : nat -> V) : forall n i acc, (forall k, i <= k < i + n -> ld k = MDone (g k)) ->
  exists v, for_ n i (fun k acc => mbind (ld k) (fun v => MDone (step_maxabs S0 acc v))) acc = MDone v /\
  forall l, v l = fold_left (fun acc y => maxs acc (s_abs S0 y)) (map (fun k => g k l) (seq i n)) (acc l).
Proof.
  induction n as [|n IH]; intros i acc H; cbn [for_ seq map fold_left]; [exists acc; auto|]. rewrite H by lia. cbn [mbind].
  destruct (IH (S i) (step_maxabs S0 acc (g i))) as (v & -> & Hv); [intros; apply H; lia|]. exists v. split; [reflexivity|]. intros l. now rewrite Hv.
Qed.
Lemma norm_compact_ok ld ne sv m tab : 1 <= ne -> (forall i, i < ne \/ In i sv -> ld m i = MDone (tab m i : V)) ->
  exists v, norm_compact S0 ld ne sv m = MDone v /\ forall l, v l = norm_seq (map (fun i => tab m i l) (seq 0 ne ++ sv)).
Proof.
  intros Hne Hld. unfold norm_compact. rewrite Hld by lia. cbn [mbind].
  destruct (for_fold (ld m) (tab m) (ne - 1) 1 (vabs S0 (tab m 0))) as (v1 & -> & H1); [intros; apply Hld; lia|]. cbn [mbind].
  destruct (for_fold (fun a => mbind (aget sv a) (ld m)) (fun a => tab m (nth a sv 0)) (length sv) 0 v1) as (v2 & E2 & H2).
  { intros a Ha. rewrite (aget_ok sv a 0) by lia. cbn [mbind]. apply Hld. right. apply nth_In. lia. }
  exists v2. split.
  - rewrite <- E2. clear. generalize (length sv) as n, 0 as i, v1 as acc. induction n as [|n IH]; intros i acc; cbn [for_]; [reflexivity|].
    destruct (aget sv i) as [a| | |]; [|reflexivity..]. cbn [mbind]. destruct (ld m a) as [v| | |]; [|reflexivity..]. cbn [mbind]. apply IH.
  - intros l. rewrite H2, H1. rewrite map_app. destruct ne as [|ne']; [lia|]. cbn [seq map app norm_seq]. rewrite fold_left_app.
    replace (S ne' - 1) with ne' by lia. f_equal. clear. induction sv as [|a r IH] using rev_ind; [reflexivity|].
    rewrite app_length. cbn [length]. rewrite seq_app. rewrite !map_app. f_equal.
    + rewrite <- IH. apply map_ext_in. intros k Hk. apply in_seq in Hk. now rewrite app_nth1 by lia.
    + cbn. now rewrite app_nth2, Nat.sub_diag by lia.
Qed.
Lemma norm_default_ok ne sv order m tab : 1 <= ne -> m <= order ->
  exists v, norm_default S0 (jet_of ne sv order tab) ne (length sv) m = MDone v /\ forall l, v l = norm_pair (map (fun i => tab m i l) (seq 0 ne ++ sv)).
Proof.
  intros Hne Hm. unfold norm_default.
  rewrite (mseq_done _ (fun i => vabs S0 (tab m (nth i (seq 0 ne ++ sv) 0)))).
  2: { intros i Hi. apply in_seq in Hi. rewrite jet_nth by lia. reflexivity. }
  cbn [mbind]. rewrite pairwise_pairv by (destruct ne; [lia | discriminate]). eexists. split; [reflexivity|]. intros l.
  rewrite (pairv_hom (max_tops S0) smax_tops (fun v : V => v l)); [|reflexivity | destruct ne; [lia | discriminate]].
  unfold norm_pair. f_equal. rewrite !map_map. unfold vabs, lift1.
  apply nth_ext with (d := z) (d' := z).
  - now rewrite !map_length, seq_length, app_length, seq_length.
  - intros i Hi. rewrite map_length, seq_length in Hi.
    rewrite (nth_indep (map _ (seq 0 (ne + length sv))) z (s_abs S0 (tab m (nth 0 (seq 0 ne ++ sv) 0) l))) by (now rewrite map_length, seq_length).
    rewrite (map_nth (fun x => s_abs S0 (tab m (nth x (seq 0 ne ++ sv) 0) l)) _ 0), seq_nth by exact Hi.
    rewrite (nth_indep (map _ (seq 0 ne ++ sv)) z (s_abs S0 (tab m 0 l))) by (now rewrite map_length, app_length, seq_length).
    rewrite (map_nth (fun x => s_abs S0 (tab m x l)) _ 0). reflexivity.
Qed.
End Stepper.
