(* The loops used to accumulate derivatives: the traversal of the dependencies and
   the updates of the array of derivatives. *)
From Coq Require Import String Bool ZArith Arith List Lia Permutation Sorted.
From Verif Require Import M_Expr M_Dag M_Dec M_Taylor P_Kahn M_Dtens M_Adj.
Import ListNotations.
Local Open Scope nat_scope.
Set Bullet Behavior "Strict Subproofs".

Lemma memb_in i l : memb i l = true <-> In i l.
Proof. unfold memb. rewrite existsb_exists. split; [intros (x & H & E); apply Nat.eqb_eq in E; now subst | intros H; exists i; now rewrite Nat.eqb_refl]. Qed.
Lemma memb_out i l : memb i l = false <-> ~ In i l.
Proof. rewrite <- memb_in. destruct (memb i l); split; congruence. Qed.

(* --- Loops in the monad ------------------------------------------------------------- *)
Lemma mmap_done {A B} (f : A -> mres B) l ys : mmap f l = MDone ys <-> Forall2 (fun x y => f x = MDone y) l ys.
Proof.
  revert ys. induction l as [|x l IH]; intros ys; cbn [mmap].
  - split; [intros H; injection H as <-; constructor | intros H; inversion H; reflexivity].
  - split.
    + destruct (f x) as [y| | |] eqn:E; cbn [mbind]; try discriminate. destruct (mmap f l) as [ys'| | |]; cbn [mbind]; try discriminate.
      intros H. injection H as <-. constructor; [exact E | now apply IH].
    + intros H. inversion H as [|? y ? ys' H1 H2]; subst. rewrite H1. cbn [mbind]. rewrite (proj2 (IH ys') H2). reflexivity.
Qed.
Lemma mmap_total {A B} (f : A -> mres B) l : (forall x, In x l -> exists y, f x = MDone y) -> exists ys, mmap f l = MDone ys.
Proof.
  induction l as [|x l IH]; intros H; [exists []; reflexivity|]. destruct (H x (or_introl eq_refl)) as (y & Hy).
  destruct IH as (ys & Hys); [intros; apply H; now right|]. exists (y :: ys). cbn [mmap]. now rewrite Hy, Hys.
Qed.
Lemma mbind_done {A B} (m : mres A) (f : A -> mres B) b : mbind m f = MDone b <-> exists a, m = MDone a /\ f a = MDone b.
Proof. destruct m; cbn [mbind]; split; try discriminate; try (intros (x & H & _); discriminate); [eauto | intros (x & H & E); now injection H as <-]. Qed.

(* --- Arrays -------------------------------------------------------------------------- *)
Lemma lset_length {A} (l : list A) i x : length (lset l i x) = length l.
Proof. revert i. induction l as [|y l IH]; intros [|i]; cbn; auto. Qed.
Lemma lset_same {A} (l : list A) i x : i < length l -> nth_error (lset l i x) i = Some x.
Proof. revert i. induction l as [|y l IH]; intros [|i] H; cbn in *; try lia; [reflexivity | apply IH; lia]. Qed.
Lemma lset_other {A} (l : list A) i j x : i <> j -> nth_error (lset l i x) j = nth_error l j.
Proof. revert i j. induction l as [|y l IH]; intros [|i] [|j] H; cbn; try reflexivity; try congruence. apply IH. congruence. Qed.
Lemma fill_spec o (l : list (expr (num o))) b n x : length (fill o l b n x) = length l /\
  forall j, nth_error (fill o l b n x) j = if (b <=? j) && (j <? b + n) && (j <? length l) then Some x else nth_error l j.
Proof.
  unfold fill. revert l b. induction n as [|n IH]; intros l b; cbn [seq fold_left].
  - split; [reflexivity|]. intros j. replace ((b <=? j) && (j <? b + 0)) with false; [reflexivity|].
    symmetry. destruct (Nat.leb_spec b j); [|reflexivity]. cbn. apply Nat.ltb_ge. lia.
  - destruct (IH (lset l b x) (S b)) as [H1 H2]. split; [now rewrite H1, lset_length|]. intros j. rewrite H2, lset_length.
    destruct (Nat.eqb_spec b j) as [<-|Hn].
    + replace (S b <=? b) with false by (symmetry; apply Nat.leb_gt; lia). rewrite Nat.leb_refl. replace (b <? b + S n) with true by (symmetry; apply Nat.ltb_lt; lia). cbn [andb].
      destruct (Nat.ltb_spec b (length l)) as [Hb|Hb]; [now apply lset_same|]. rewrite (proj2 (nth_error_None l b)) by lia. apply nth_error_None. rewrite lset_length. lia.
    + rewrite lset_other by assumption. replace (b <=? j) with (S b <=? j); [replace (b + S n) with (S b + n) by lia; reflexivity|].
      destruct (Nat.leb_spec (S b) j), (Nat.leb_spec b j); try reflexivity; lia.
Qed.
Lemma fill_length o (l : list (expr (num o))) b n x : length (fill o l b n x) = length l.
Proof. apply fill_spec. Qed.

(* --- Sorting --------------------------------------------------------------------------- *)
Lemma insert_nat_sorted x l : StronglySorted le l -> StronglySorted le (insert_nat x l).
Proof.
  induction 1 as [|y l Hs IH HF]; cbn [insert_nat]; [repeat constructor|]. destruct (Nat.leb_spec x y) as [H|H].
  - constructor; [now constructor|]. constructor; [exact H|]. rewrite Forall_forall in *. intros z Hz. specialize (HF z Hz). lia.
  - constructor; [exact IH|]. rewrite Forall_forall in *. intros z Hz.
    assert (Hz' : z = x \/ In z l). { clear - Hz. induction l as [|w l IHl]; cbn in Hz; [destruct Hz as [->|[]]; now left|]. destruct (x <=? w); cbn in Hz; [destruct Hz as [->|Hz]; auto|]. destruct Hz as [->|Hz]; [right; now left|]. destruct (IHl Hz); [now left | right; now right]. }
    destruct Hz' as [->|Hz']; [lia | now apply HF].
Qed.
Lemma sort_nat_le l : StronglySorted le (sort_nat l).
Proof. unfold sort_nat. induction l as [|x l IH]; cbn [fold_right]; [constructor | now apply insert_nat_sorted]. Qed.
Lemma sort_nat_in x l : In x (sort_nat l) <-> In x l.
Proof. split; apply Permutation_in; [symmetry|]; apply sort_perm. Qed.
Lemma sort_nat_from x l : In x (sort_nat l) -> In x l.
Proof. apply sort_nat_in. Qed.
Lemma sort_nat_into x l : In x l -> In x (sort_nat l).
Proof. apply sort_nat_in. Qed.
Lemma sort_nat_nodup l : NoDup l -> NoDup (sort_nat l).
Proof. apply Permutation_NoDup, sort_perm. Qed.
Lemma sorted_after l l1 c l2 : StronglySorted le l -> NoDup l -> l = l1 ++ c :: l2 -> forall x, In x (c :: l2) -> c <= x.
Proof.
  intros Hs Hn ->. clear Hn. induction l1 as [|y l1 IH]; cbn [app] in *; inversion Hs as [|? ? Hs' HF]; subst; [|now apply IH].
  intros x [<-|Hx]; [lia|]. rewrite Forall_forall in HF. now apply HF.
Qed.

(* --- The traversal ----------------------------------------------------------------------- *)
Definition enq (st : list nat * list nat) (x : nat) : list nat * list nat :=
  if memb x (snd st) then st else (fst st ++ [x], snd st ++ [x]).
Lemma enq_fold l : forall q f, exists new, fold_left enq l (q, f) = (q ++ new, f ++ new) /\
  (NoDup f -> NoDup (f ++ new)) /\ (forall x, In x (f ++ new) <-> In x f \/ In x l).
Proof.
  induction l as [|x l IH]; intros q f; cbn [fold_left].
  - exists []. rewrite !app_nil_r. repeat split; auto. intros [H|[]]; exact H.
  - unfold enq at 2. cbn [fst snd]. destruct (memb x f) eqn:E.
    + destruct (IH q f) as (new & H1 & H2 & H3). exists new. repeat split; auto.
      * intros H. apply H3 in H. cbn. tauto.
      * intros [H|[->|H]]; apply H3; auto. left. now apply memb_in.
    + destruct (IH (q ++ [x]) (f ++ [x])) as (new & H1 & H2 & H3). exists (x :: new). rewrite <- !app_assoc in *. cbn [app] in *. split; [exact H1|]. split.
      * intros H. apply H2. apply memb_out in E. clear - H E. induction f as [|y f IHf]; cbn; [repeat constructor; auto|]. inversion H as [|? ? Hy Hf]; subst. constructor; [|apply IHf; [intros K; apply E; now right | exact Hf]].
        rewrite in_app_iff. intros [K|[K|[]]]; [contradiction|]. apply E. left. now symmetry.
      * intros z. rewrite H3. rewrite in_app_iff. cbn. tauto.
Qed.
Lemma walk_unfold nb k c q f : walk nb (S k) (c :: q) f =
  let '(q', f') := fold_left enq (nb c) (q, f) in walk nb k q' f'.
Proof. reflexivity. Qed.
Lemma walk_inv nb : forall fuel q f deps, walk nb fuel q f = MDone deps ->
  NoDup f -> incl q f -> (forall c x, In c f -> ~ In c q -> In x (nb c) -> In x f) ->
  NoDup deps /\ incl f deps /\ (forall c x, In c deps -> In x (nb c) -> In x deps) /\
  forall P : nat -> Prop, (forall x, In x f -> P x) -> (forall c x, P c -> In x (nb c) -> P x) -> forall x, In x deps -> P x.
Proof.
  induction fuel as [|k IH]; intros q f deps H Hn Hi Hc.
  - destruct q; [|discriminate]. cbn in H. injection H as <-. repeat split; auto; [apply incl_refl|]. intros c x Hx. apply Hc; auto.
  - destruct q as [|c q]; [cbn in H; injection H as <-; repeat split; auto; [apply incl_refl|]; intros c x Hx; apply Hc; auto|].
    rewrite walk_unfold in H. destruct (enq_fold (nb c) q f) as (new & E & E2 & E3). rewrite E in H. cbn beta iota in H.
    destruct (IH _ _ _ H) as (R1 & R2 & R3 & R4).
    + now apply E2.
    + intros x Hx. apply in_app_or in Hx. destruct Hx as [Hx|Hx]; apply in_or_app; [left; apply Hi; now right | now right].
    + intros a x Ha Hna Hx. apply E3. destruct (Nat.eq_dec a c) as [->|Hac]; [now right|]. left. apply (Hc a); auto.
      * apply in_app_or in Ha. destruct Ha as [Ha|Ha]; [exact Ha|]. exfalso. apply Hna. apply in_or_app. now right.
      * intros [->|K]; [congruence|]. apply Hna. apply in_or_app. now left.
    + repeat split; auto.
      * intros x Hx. apply R2. apply in_or_app. now left.
      * intros P P1 P2. apply R4; [|exact P2]. intros x Hx. apply E3 in Hx. destruct Hx as [Hx|Hx]; [now apply P1|]. apply (P2 c); [apply P1, Hi; now left | exact Hx].
Qed.
Lemma walk_ok nb fuel start deps : walk nb fuel start start = MDone deps -> NoDup start ->
  NoDup deps /\ incl start deps /\ (forall c x, In c deps -> In x (nb c) -> In x deps) /\
  forall P : nat -> Prop, (forall x, In x start -> P x) -> (forall c x, P c -> In x (nb c) -> P x) -> forall x, In x deps -> P x.
Proof. intros H Hn. apply (walk_inv nb fuel start start deps H Hn); [apply incl_refl|]. intros c x Hc Hnc. contradiction. Qed.
Lemma walk_mono nb : forall fuel q f r, walk nb fuel q f = MDone r -> forall fuel', fuel <= fuel' -> walk nb fuel' q f = MDone r.
Proof.
  induction fuel as [|k IH]; intros q f r H fuel' Hl; destruct q as [|c q]; try (destruct fuel'; exact H); try discriminate.
  destruct fuel' as [|k']; [lia|]. rewrite walk_unfold in *. destruct (fold_left enq (nb c) (q, f)) as [q' f']. apply (IH _ _ _ H). lia.
Qed.
Lemma walk_total nb n : (forall c x, In x (nb c) -> x < n) -> forall fuel q f, NoDup f -> (forall x, In x f -> x < n) ->
  length q + (n - length f) <= fuel -> exists r, walk nb fuel q f = MDone r.
Proof.
  intros Hb. induction fuel as [|k IH]; intros q f Hn Hf Hl.
  - destruct q; [|cbn in Hl; lia]. exists f. reflexivity.
  - destruct q as [|c q]; [exists f; reflexivity|]. rewrite walk_unfold. destruct (enq_fold (nb c) q f) as (new & E & E2 & E3). rewrite E. cbn beta iota. apply IH.
    + now apply E2.
    + intros x Hx. apply E3 in Hx. destruct Hx as [Hx|Hx]; [now apply Hf | eapply Hb; eauto].
    + assert (Hlen : length (f ++ new) <= n).
      { rewrite <- (seq_length n 0). apply NoDup_incl_length; [now apply E2|]. intros x Hx. apply in_seq. apply E3 in Hx. destruct Hx as [Hx|Hx]; [apply Hf in Hx; lia | apply Hb in Hx; lia]. }
      rewrite !app_length in *. cbn in Hl. lia.
Qed.

(* --- The updates of the array ---------------------------------------------------------------- *)
Section Updates.
Context {o : nops}.
Local Notation ex := (expr (num o)).
Context (term : list ex -> nat -> nat -> mres ex) (nbs : nat -> list nat).
Definition upd_step (D : list ex) (cur : nat) : mres (list ex) :=
  mbind (mmap (term D cur) (nbs cur)) (fun ts => MDone (lset D cur (mk_sum o ts))).
(* The terms at cur do not depend on cur and on the entries updated after it. *)
Definition independent (l : list nat) : Prop :=
  forall l1 cur l2, l = l1 ++ cur :: l2 -> forall D D', (forall x, ~ In x (cur :: l2) -> nth_error D x = nth_error D' x) ->
  forall j, In j (nbs cur) -> term D cur j = term D' cur j.
Lemma mmap_ext {A B} (f g : A -> mres B) l : (forall x, In x l -> f x = g x) -> mmap f l = mmap g l.
Proof. induction l as [|x l IH]; intros H; [reflexivity|]. cbn [mmap]. rewrite (H x (or_introl eq_refl)), IH; [reflexivity|]. intros y Hy. apply H. now right. Qed.
Lemma updates_final l : forall D0 D, NoDup l -> (forall x, In x l -> x < length D0) -> independent l -> mfold upd_step D0 l = MDone D ->
  length D = length D0 /\ (forall x, ~ In x l -> nth_error D x = nth_error D0 x) /\
  forall cur, In cur l -> exists ts, mmap (term D cur) (nbs cur) = MDone ts /\ nth_error D cur = Some (mk_sum o ts).
Proof.
  induction l as [|c l IH]; intros D0 D Hn Hb Hi H; cbn [mfold] in H.
  - injection H as <-. repeat split; auto. intros cur [].
  - apply mbind_done in H. destruct H as (D1 & H1 & H). unfold upd_step in H1. apply mbind_done in H1. destruct H1 as (ts & Hts & H1). injection H1 as <-.
    inversion Hn as [|? ? Hc Hn']; subst.
    destruct (IH (lset D0 c (mk_sum o ts)) D Hn') as (R1 & R2 & R3).
    + intros x Hx. rewrite lset_length. apply Hb. now right.
    + intros l1 cur l2 -> D' D'' HD j Hj. apply (Hi (c :: l1) cur l2 eq_refl D' D'' HD j Hj).
    + exact H.
    + rewrite lset_length in R1. split; [exact R1|]. split.
      * intros x Hx. rewrite R2 by (intros K; apply Hx; now right). apply lset_other. intros ->. apply Hx. now left.
      * intros cur [<-|Hcur]; [|now apply R3]. exists ts. split.
        -- rewrite <- Hts. apply mmap_ext. intros j Hj. apply (Hi [] c l eq_refl); [|exact Hj]. intros x Hx. rewrite R2 by (intros K; apply Hx; now right). apply lset_other. intros ->. apply Hx. now left.
        -- rewrite R2 by exact Hc. apply lset_same. apply Hb. now left.
Qed.
Lemma updates_total l : forall D0, (forall D cur j, length D = length D0 -> In cur l -> In j (nbs cur) -> exists t, term D cur j = MDone t) ->
  exists D, mfold upd_step D0 l = MDone D.
Proof.
  induction l as [|c l IH]; intros D0 H; [exists D0; reflexivity|]. cbn [mfold]. unfold upd_step at 1.
  destruct (mmap_total (term D0 c) (nbs c)) as (ts & Hts); [intros j Hj; apply H; [reflexivity | now left | exact Hj]|]. rewrite Hts. cbn [mbind].
  apply IH. intros D cur j Hl Hc Hj. rewrite lset_length in Hl. apply H; [exact Hl | now right | exact Hj].
Qed.
End Updates.
