(* The table of the derivatives, and the two ways of computing it. *)
From Coq Require Import String Bool ZArith Arith List Lia.
From Verif Require Import M_Expr M_Dag M_Dec S_Dec P_Dec M_Taylor P_Tay1 P_Tay2.
Import ListNotations.
Set Bullet Behavior "Strict Subproofs".

Lemma key_eq nu m j n i : j < nu -> i < nu -> m * nu + j = n * nu + i -> m = n /\ j = i.
Proof.
  intros Hj Hi H. destruct (Nat.lt_trichotomy m n) as [L|[->|L]]; [exfalso; nia | split; lia | exfalso; nia].
Qed.

Section Table.
Context {o : nops} {V : Type} (A : alg (num o) V) (T : tops V).
Context (ne nu : nat) (st : nat -> V) (code : nat -> nat -> option (tex (num o))).
Hypothesis Hne : ne <= nu.

(* tab n j: the derivative of order n of the u variable j. *)
Definition initial (n j : nat) : Prop := n = 0 /\ j < ne.
Definition is_table (tab : nat -> nat -> V) : Prop :=
  (forall j, j < ne -> tab 0 j = st j) /\
  forall n j c, j < nu -> ~ initial n j -> code n j = Some c -> tab n j = tval A T tab c.
Hypothesis Hcode : forall n j, j < nu -> ~ initial n j -> exists c, code n j = Some c /\ code_ok (avail nu n j) c.

Lemma initial_dec n j : {initial n j} + {~ initial n j}.
Proof. unfold initial. destruct (Nat.eq_dec n 0), (lt_dec j ne); [left; auto | right; tauto ..]. Qed.
Fixpoint tabf (fuel n j : nat) : V :=
  match fuel with
  | O => t_nat T 0
  | S k => if initial_dec n j then st j
           else match code n j with Some c => tval A T (tabf k) c | None => t_nat T 0 end
  end.
Lemma tabf_stable : forall k1 k2 n j, j < nu -> n * nu + j < k1 -> n * nu + j < k2 -> tabf k1 n j = tabf k2 n j.
Proof.
  induction k1 as [|k1 IH]; intros k2 n j Hj H1 H2; [lia|]. destruct k2 as [|k2]; [lia|]. cbn [tabf].
  destruct (initial_dec n j) as [I|I]; [reflexivity|]. destruct (Hcode n j Hj I) as (c & -> & Hc).
  apply (tval_ext A T (avail nu n j)); [|exact Hc]. intros m i Ha.
  pose proof (avail_key nu n j m i ltac:(lia) Ha). destruct Ha as [Hi _]. apply IH; lia.
Qed.
Definition tab0 (n j : nat) : V := tabf (S (n * nu + j)) n j.
Lemma table_exists : is_table tab0.
Proof.
  split.
  - intros j Hj. unfold tab0. cbn [tabf]. destruct (initial_dec 0 j) as [_|H]; [reflexivity|]. exfalso. apply H. split; auto.
  - intros n j c Hj I Hc. unfold tab0 at 1. cbn [tabf]. destruct (initial_dec n j) as [H|_]; [contradiction|]. rewrite Hc.
    destruct (Hcode n j Hj I) as (c' & Hc' & Hok). rewrite Hc in Hc'. injection Hc' as <-.
    apply (tval_ext A T (avail nu n j)); [|exact Hok]. intros m i Ha. unfold tab0.
    pose proof (avail_key nu n j m i ltac:(lia) Ha). destruct Ha as [Hi _]. apply tabf_stable; lia.
Qed.
Lemma table_unique tab tab' : is_table tab -> is_table tab' -> forall n j, j < nu -> tab n j = tab' n j.
Proof.
  intros [H0 H1] [H0' H1'] n j. remember (n * nu + j) as k eqn:Ek. revert n j Ek.
  induction k as [k IH] using lt_wf_ind. intros n j Ek Hj.
  destruct (initial_dec n j) as [[-> Hj']|I]; [rewrite H0, H0' by assumption; reflexivity|].
  destruct (Hcode n j Hj I) as (c & Hc & Hok). rewrite (H1 n j c), (H1' n j c) by assumption.
  apply (tval_ext A T (avail nu n j)); [|exact Hok]. intros m i Ha.
  pose proof (avail_key nu n j m i ltac:(lia) Ha). destruct Ha as [Hi _]. eapply IH; eauto; lia.
Qed.

Context (tab : nat -> nat -> V) (Htab : is_table tab).

(* --- Default mode --------------------------------------------------------------------- *)
Definition pre (K : nat) (arr : list V) : Prop :=
  length arr = K /\ forall m j, j < nu -> m * nu + j < K -> nth_error arr (m * nu + j) = Some (tab m j).
Lemma pre_fetch K arr m j : pre K arr -> j < nu -> m * nu + j < K -> fetch_diff nu arr m j = MDone (tab m j).
Proof. intros [_ H] Hj Hk. unfold fetch_diff. rewrite (proj2 (Nat.ltb_lt _ _) Hj), H; auto. Qed.
Lemma push_code_pre n i arr : i < nu -> ~ initial n i -> pre (n * nu + i) arr ->
  exists arr', push_code o A T nu (code n i) arr = MDone arr' /\ pre (S (n * nu + i)) arr'.
Proof.
  intros Hi I HP. destruct (Hcode n i Hi I) as (c & Hc & Hok). exists (arr ++ [tab n i]). rewrite Hc. cbn [push_code].
  rewrite (trun_tval A T (avail nu n i) (fetch_diff nu arr) tab).
  - cbn [mbind]. rewrite <- (proj2 Htab n i c Hi I Hc). split; [reflexivity|]. destruct HP as [HL HP]. split; [rewrite app_length; cbn; lia|].
    intros m j Hj Hk. destruct (Nat.eq_dec (m * nu + j) (n * nu + i)) as [E|E].
    + rewrite E, nth_error_app2, HL, Nat.sub_diag by lia. destruct (key_eq nu m j n i Hj Hi E) as [-> ->]. reflexivity.
    + rewrite nth_error_app1 by lia. apply HP; [exact Hj | lia].
  - intros m j Ha. pose proof (avail_key nu n i m j ltac:(lia) Ha). destruct Ha as [Hj _]. now apply (pre_fetch (n * nu + i)).
  - exact Hok.
Qed.

(* --- Compact mode ---------------------------------------------------------------------- *)
Definition good (K : nat) (tp : nat -> V) : Prop := forall m j, j < nu -> m * nu + j < K -> tp (m * nu + j) = tab m j.
(* codes: a group of derivatives of order n, of index i, i + 1, ..., which do not read each other. *)
Definition group (n i : nat) (codes : list (option (tex (num o)))) : Prop :=
  i + length codes <= nu /\
  forall k c, nth_error codes k = Some c -> ~ initial n (i + k) /\ code n (i + k) = c /\
    exists e, c = Some e /\ code_ok (avail nu n i) e.
Lemma group_good size n i codes tp tp' : group n i codes -> group_step o A T size nu n i codes tp tp' ->
  good (n * nu + i) tp -> good (n * nu + i + length codes) tp'.
Proof.
  intros [HL HG] (Hout & Hsz & Hst) Hgood m j Hj Hk.
  destruct (le_lt_dec (n * nu + i) (m * nu + j)) as [Hge|Hlt].
  - assert (E : exists k, k < length codes /\ m = n /\ j = i + k).
    { exists (m * nu + j - (n * nu + i)). split; [lia|]. apply (key_eq nu); lia. }
    destruct E as (k & Hk' & -> & ->).
    destruct (nth_error codes k) as [c|] eqn:Ek; [|apply nth_error_None in Ek; lia].
    destruct (Hst k c Ek) as (e & rd & -> & Hrd & Hrun). destruct (HG k _ Ek) as (I & Hc & e' & [= <-] & Hok).
    rewrite (trun_tval A T (avail nu n i) rd tab) in Hrun.
    + replace (n * nu + (i + k)) with (n * nu + i + k) by lia. injection Hrun as <-.
      symmetry. apply (proj2 Htab); [lia | exact I | exact Hc].
    + intros m' j' Ha. pose proof (avail_key nu n i m' j' ltac:(lia) Ha) as Hkey. destruct Ha as [Hj' _].
      specialize (Hsz k Hk').
      assert (E1 : load size nu tp m' j' = MDone (tab m' j')).
      { unfold load. rewrite (proj2 (Nat.ltb_lt _ _)) by lia. f_equal. now apply Hgood. }
      assert (E2 : load size nu tp' m' j' = MDone (tab m' j')).
      { unfold load. rewrite (proj2 (Nat.ltb_lt _ _)) by lia. f_equal. rewrite Hout by lia. now apply Hgood. }
      destruct (Hrd m' j') as [->| ->]; assumption.
    + exact Hok.
  - rewrite Hout by lia. now apply Hgood.
Qed.
Lemma group_progress size n i codes tp : group n i codes -> good (n * nu + i) tp -> n * nu + i + length codes <= size ->
  exists tp', group_step o A T size nu n i codes tp tp'.
Proof.
  intros [HL HG] Hgood Hsz.
  exists (fun l => if (n * nu + i <=? l) && (l <? n * nu + i + length codes) then tab n (l - n * nu) else tp l).
  split; [|split].
  - intros l Hl. destruct (Nat.leb_spec (n * nu + i) l), (Nat.ltb_spec l (n * nu + i + length codes)); cbn; auto. exfalso. lia.
  - intros k Hk. lia.
  - intros k c Hk. destruct (HG k c Hk) as (I & Hc & e & -> & Hok). exists e, (load size nu tp). split; [reflexivity|].
    split; [auto|]. assert (Hk' : k < length codes) by (apply nth_error_Some; rewrite Hk; discriminate).
    rewrite (trun_tval A T (avail nu n i) _ tab); [| |exact Hok].
    + destruct (Nat.leb_spec (n * nu + i) (n * nu + i + k)); [|lia]. destruct (Nat.ltb_spec (n * nu + i + k) (n * nu + i + length codes)); [|lia].
      cbn. replace (n * nu + i + k - n * nu) with (i + k) by lia. f_equal. symmetry. apply (proj2 Htab); [lia | exact I | exact Hc].
    + intros m j Ha. pose proof (avail_key nu n i m j ltac:(lia) Ha). destruct Ha as [Hj _].
      unfold load. rewrite (proj2 (Nat.ltb_lt _ _)) by lia. f_equal. now apply Hgood.
Qed.
(* The loads of a group are within the tape, whatever the tape contains. *)
Lemma group_safe size n i codes : group n i codes -> n * nu + i + length codes <= size ->
  forall k c e, nth_error codes k = Some c -> c = Some e -> forall rd : nat -> nat -> mres V,
    (forall m j, m * nu + j < size -> exists v, rd m j = MDone v) -> exists v, trun A T rd e = MDone v.
Proof.
  intros [HL HG] Hsz k c e Hk -> rd Hrd. destruct (HG k _ Hk) as (_ & _ & e' & [= <-] & Hok).
  exists (tval A T (fun m j => match rd m j with MDone v => v | _ => t_nat T 0 end) e).
  apply (trun_tval A T (avail nu n i)); [|exact Hok]. intros m j Ha.
  pose proof (avail_key nu n i m j ltac:(lia) Ha). destruct (Hrd m j ltac:(lia)) as [v ->]. reflexivity.
Qed.
End Table.
