(* Kahn's algorithm: it terminates, and it lists every vertex after its sources. *)
From Coq Require Import String Bool Arith List Lia Permutation.
From Verif Require Import M_Dec.
Import ListNotations.
Local Open Scope nat_scope.
Set Bullet Behavior "Strict Subproofs".

Lemma insert_perm x l : Permutation (x :: l) (insert_nat x l).
Proof.
  induction l as [|y l IH]; cbn; [reflexivity|]. destruct (x <=? y); [reflexivity|].
  rewrite perm_swap. now rewrite IH.
Qed.
Lemma sort_perm l : Permutation l (sort_nat l).
Proof. induction l as [|x l IH]; cbn; [reflexivity|]. rewrite <- insert_perm. now constructor. Qed.
Lemma insert_front x l : (forall y, In y l -> x <= y) -> insert_nat x l = x :: l.
Proof. destruct l as [|y l]; cbn; [reflexivity|]. intros H. destruct (Nat.leb_spec x y); [reflexivity|]. specialize (H y). lia. Qed.
Lemma sort_seq_app k n rest : (forall y, In y rest -> k + n <= y) -> sort_nat (seq k n ++ rest) = seq k n ++ sort_nat rest.
Proof.
  revert k. induction n as [|n IH]; intros k H; cbn [seq app sort_nat fold_right]; [reflexivity|].
  change (fold_right insert_nat [] (seq (S k) n ++ rest)) with (sort_nat (seq (S k) n ++ rest)).
  rewrite IH by (intros y Hy; specialize (H y Hy); lia). apply insert_front. intros y Hy.
  apply in_app_or in Hy. destruct Hy as [Hy|Hy]; [apply in_seq in Hy; lia|].
  apply (Permutation_in _ (Permutation_sym (sort_perm rest))) in Hy. specialize (H y Hy). lia.
Qed.

Lemma remove_edge_in s t es e : NoDup es -> In e (remove_edge s t es) <-> In e es /\ e <> (s, t).
Proof.
  induction es as [|[a b] es IH]; intros HN; cbn [remove_edge].
  - cbn. tauto.
  - inversion HN as [|? ? Hni HN']; subst. destruct (Nat.eqb_spec a s) as [->|Ha]; cbn [andb].
    + destruct (Nat.eqb_spec b t) as [->|Hb].
      * cbn [In]. split; [intros H; split; [auto | congruence]|]. intros [[H|H] Hne]; congruence.
      * cbn [In]. rewrite IH by exact HN'. split; [intros [<-|[H1 H2]]; [split; [auto | congruence] | auto]|].
        intros [[H|H] Hne]; auto.
    + cbn [In]. rewrite IH by exact HN'. split; [intros [<-|[H1 H2]]; [split; [auto | congruence] | auto]|].
      intros [[H|H] Hne]; auto.
Qed.
Lemma remove_edge_nodup s t es : NoDup es -> NoDup (remove_edge s t es).
Proof.
  induction es as [|[a b] es IH]; intros HN; cbn [remove_edge]; [constructor|].
  inversion HN as [|? ? Hni HN']; subst. destruct ((a =? s) && (b =? t)); [exact HN'|].
  constructor; [|now apply IH]. rewrite remove_edge_in by exact HN'. tauto.
Qed.

Definition edge_dec (a b : nat * nat) : {a = b} + {a <> b}.
Proof. decide equality; apply Nat.eq_dec. Defined.

Section Kahn.
Context (nv : nat) (E0 : list (nat * nat)).
Hypothesis E_nodup : NoDup E0.
Hypothesis E_lt : forall s t, In (s, t) E0 -> s < t <= nv.
Hypothesis E_src : forall t, 0 < t <= nv -> exists s, In (s, t) E0.

(* t has no source outside of res. *)
Definition ready (res : list nat) (t : nat) : bool :=
  forallb (fun e => negb (Nat.eqb (snd e) t) || existsb (Nat.eqb (fst e)) res) E0.
Lemma ready_spec res t : ready res t = true <-> forall s, In (s, t) E0 -> In s res.
Proof.
  unfold ready. rewrite forallb_forall. split.
  - intros H s Hs. specialize (H _ Hs). cbn in H. rewrite Nat.eqb_refl in H. cbn in H.
    apply existsb_exists in H. destruct H as (x & Hx & E). apply Nat.eqb_eq in E. now subst.
  - intros H [s t'] Hin. cbn. destruct (Nat.eqb_spec t' t) as [->|]; [|reflexivity]. cbn.
    apply existsb_exists. exists s. split; [now apply H | apply Nat.eqb_refl].
Qed.

Lemma fold_visit v res : ~ In v res ->
  forall T es q, NoDup T -> NoDup es ->
  (forall e, In e es <-> In e E0 /\ ~ In (fst e) res /\ (fst e = v -> In (snd e) T)) ->
  exists es', fold_left (visit_edge v) T (es, q) = (es', q ++ filter (ready (res ++ [v])) T) /\ NoDup es' /\
    forall e, In e es' <-> In e E0 /\ ~ In (fst e) (res ++ [v]).
Proof.
  intros Hv. induction T as [|t T IH]; intros es q HT HN He.
  - exists es. cbn. rewrite app_nil_r. split; [reflexivity|]. split; [exact HN|]. intros e. rewrite He, in_app_iff.
    cbn. split; [intros (H1 & H2 & H3) | intros (H1 & H2)].
    + split; [exact H1|]. intros [H|[H|[]]]; auto.
    + split; [exact H1|]. split; [tauto|]. intros <-. apply H2. auto.
  - inversion HT as [|? ? Hnt HT']; subst. cbn [fold_left]. unfold visit_edge at 2. cbn [fst snd].
    assert (He' : forall e, In e (remove_edge v t es) <-> In e E0 /\ ~ In (fst e) res /\ (fst e = v -> In (snd e) T)).
    { intros e. rewrite remove_edge_in by exact HN. rewrite He. destruct e as [s u]. cbn. split.
      - intros ((H1 & H2 & H3) & H4). split; [exact H1|]. split; [exact H2|]. intros ->.
        destruct (H3 eq_refl) as [->|H]; [congruence | exact H].
      - intros (H1 & H2 & H3). split; [auto|]. intros [= -> ->]. apply Hnt. auto. }
    assert (Hr : existsb (fun e => Nat.eqb (snd e) t) (remove_edge v t es) = negb (ready (res ++ [v]) t)).
    { destruct (ready (res ++ [v]) t) eqn:Er; cbn.
      - apply not_true_is_false. intros Hex. apply existsb_exists in Hex. destruct Hex as ([s u] & Hin & E).
        cbn in E. apply Nat.eqb_eq in E. subst u. apply He' in Hin. cbn in Hin. destruct Hin as (H1 & H2 & H3).
        pose proof (proj1 (ready_spec _ _) Er s H1) as H4. apply in_app_or in H4. destruct H4 as [H4|[<-|[]]]; [auto|].
        now apply Hnt, H3.
      - apply not_false_is_true. intros Hex.
        assert (ready (res ++ [v]) t = true); [|congruence]. apply ready_spec. intros s Hs.
        destruct (in_dec Nat.eq_dec s (res ++ [v])) as [H|H]; [exact H|exfalso].
        assert (Hin : In (s, t) (remove_edge v t es)).
        { apply He'. cbn. split; [exact Hs|]. rewrite in_app_iff in H. cbn in H. split; [tauto|]. intros ->. tauto. }
        assert (existsb (fun e => Nat.eqb (snd e) t) (remove_edge v t es) = true); [|congruence].
        apply existsb_exists. exists (s, t). split; [exact Hin | cbn; apply Nat.eqb_refl]. }
    rewrite Hr.
    destruct (IH (remove_edge v t es) (if negb (ready (res ++ [v]) t) then q else q ++ [t]) HT' (remove_edge_nodup _ _ _ HN) He')
      as (es' & E & HN' & Hes').
    exists es'. split; [|auto]. rewrite E. f_equal. cbn [filter].
    destruct (ready (res ++ [v]) t); cbn; [now rewrite <- app_assoc | reflexivity].
Qed.

Record kinv (es : list (nat * nat)) (queue res : list nat) : Prop := {
  ki_nodup : NoDup es;
  ki_es : forall e, In e es <-> In e E0 /\ ~ In (fst e) res;
  ki_all : NoDup (res ++ queue);
  ki_le : forall t, In t (res ++ queue) -> t <= nv;
  ki_0 : In 0 (res ++ queue);
  ki_rdy : forall t, t <= nv -> (In t (res ++ queue) <-> ready res t = true /\ (t = 0 \/ exists s, In s res /\ In (s, t) E0));
  ki_ord : forall l1 t l2 s, res ++ queue = l1 ++ t :: l2 -> In (s, t) E0 -> In s l1
}.

Lemma targets_in v es t : In t (sort_nat (map snd (filter (fun e => Nat.eqb (fst e) v) es))) <-> In (v, t) es.
Proof.
  split.
  - intros H. apply (Permutation_in _ (Permutation_sym (sort_perm _))) in H. apply in_map_iff in H.
    destruct H as ([s u] & <- & H). apply filter_In in H. cbn in *. destruct H as [H E]. apply Nat.eqb_eq in E. now subst.
  - intros H. apply (Permutation_in _ (sort_perm _)). apply in_map_iff. exists (v, t). split; [reflexivity|].
    apply filter_In. split; [exact H | cbn; apply Nat.eqb_refl].
Qed.
Lemma targets_nodup v es : NoDup es -> NoDup (sort_nat (map snd (filter (fun e => Nat.eqb (fst e) v) es))).
Proof.
  intros H. apply (Permutation_NoDup (sort_perm _)).
  assert (HF : NoDup (filter (fun e => Nat.eqb (fst e) v) es)) by now apply NoDup_filter.
  assert (Hv : forall e, In e (filter (fun e => Nat.eqb (fst e) v) es) -> fst e = v).
  { intros e He. apply filter_In in He. now apply Nat.eqb_eq. }
  induction HF as [|[s t] l Hni HF IH]; cbn; constructor.
  - rewrite in_map_iff. intros ([s' t'] & E & Hin). cbn in E. subst t'.
    assert (s' = v) by (apply (Hv (s', t)); now right). assert (s = v) by (apply (Hv (s, t)); now left). subst. contradiction.
  - apply IH. intros e He. apply Hv. now right.
Qed.

Lemma kahn_step es v q res : kinv es (v :: q) res ->
  exists es' q' more, fold_left (visit_edge v) (sort_nat (map snd (filter (fun e => Nat.eqb (fst e) v) es))) (es, q) = (es', q') /\
    q' = q ++ more /\ more = filter (ready (res ++ [v])) (sort_nat (map snd (filter (fun e => Nat.eqb (fst e) v) es))) /\
    kinv es' q' (res ++ [v]).
Proof.
  intros HI. set (T := sort_nat _).
  assert (HTin : forall t, In t T <-> In (v, t) E0 /\ ~ In v res).
  { intros t. unfold T. rewrite targets_in. now rewrite (ki_es _ _ _ HI). }
  assert (Hv : ~ In v res).
  { pose proof (ki_all _ _ _ HI) as H. apply NoDup_remove_2 in H. rewrite in_app_iff in H. tauto. }
  destruct (fold_visit v res Hv T es q (targets_nodup _ _ (ki_nodup _ _ _ HI)) (ki_nodup _ _ _ HI)) as (es' & E & HN & Hes).
  { intros e. rewrite (ki_es _ _ _ HI). destruct e as [s t]. cbn. rewrite HTin.
    split; [intros [H1 H2]; split; [exact H1|]; split; [exact H2|]; intros ->; auto | tauto]. }
  exists es', (q ++ filter (ready (res ++ [v])) T), (filter (ready (res ++ [v])) T).
  split; [exact E|]. split; [reflexivity|]. split; [reflexivity|].
  assert (Eapp : (res ++ [v]) ++ q ++ filter (ready (res ++ [v])) T = (res ++ v :: q) ++ filter (ready (res ++ [v])) T).
  { rewrite <- !app_assoc. reflexivity. }
  assert (HTv : forall t, In t T -> ~ In t (res ++ v :: q)).
  { intros t Ht Hin. apply HTin in Ht. destruct Ht as [Ht _]. destruct (E_lt _ _ Ht) as [_ Hle].
    apply (ki_rdy _ _ _ HI t Hle) in Hin. destruct Hin as [Hr _]. apply Hv. apply (proj1 (ready_spec _ _) Hr). exact Ht. }
  split.
  - exact HN.
  - exact Hes.
  - rewrite Eapp. assert (HNT : NoDup (filter (ready (res ++ [v])) T)).
    { apply NoDup_filter. unfold T. apply targets_nodup. exact (ki_nodup _ _ _ HI). }
    clear - HI HTv HNT. pose proof (ki_all _ _ _ HI) as H.
    assert (HD : forall t, In t (filter (ready (res ++ [v])) T) -> ~ In t (res ++ v :: q)).
    { intros t Ht. apply filter_In in Ht. now apply HTv. }
    revert H HD. generalize (filter (ready (res ++ [v])) T) as m, (res ++ v :: q) as l, HNT. clear.
    intros m l HNT H HD. induction l as [|x l IH]; cbn; [exact HNT|]. inversion H as [|? ? Hx Hl]; subst.
    constructor; [|apply IH; [exact Hl|]; intros t Ht Hc; apply (HD t Ht); now right].
    rewrite in_app_iff. intros [Hc|Hc]; [auto|]. apply (HD x Hc). now left.
  - rewrite Eapp. intros t Ht. apply in_app_or in Ht. destruct Ht as [Ht|Ht]; [now apply (ki_le _ _ _ HI)|].
    apply filter_In in Ht. destruct Ht as [Ht _]. apply HTin in Ht. destruct Ht as [Ht _]. now apply E_lt in Ht.
  - rewrite Eapp. apply in_or_app. left. exact (ki_0 _ _ _ HI).
  - intros t Hle. rewrite Eapp, in_app_iff, filter_In, (ki_rdy _ _ _ HI t Hle), HTin. split.
    + intros [[H1 H2]|[[H1 H2] H3]].
      * split; [|destruct H2 as [->|(s & Hs & Hst)]; [now left | right; exists s; split; [apply in_or_app; now left | exact Hst]]].
        apply ready_spec. intros s Hs. apply in_or_app. left. now apply (proj1 (ready_spec _ _) H1).
      * split; [exact H3|]. right. exists v. split; [apply in_or_app; right; now left | exact H1].
    + intros [H1 H2]. destruct (ready res t) eqn:Er.
      * left. split; [reflexivity|]. destruct H2 as [->|(s & Hs & Hst)]; [now left|]. right. exists s. split; [|exact Hst].
        now apply (proj1 (ready_spec _ _) Er).
      * right. split; [|exact H1]. split; [|exact Hv].
        destruct (in_dec edge_dec (v, t) E0) as [Hin|Hin]; [exact Hin|exfalso].
        assert (ready res t = true); [|congruence]. apply ready_spec. intros s Hs.
        pose proof (proj1 (ready_spec _ _) H1 s Hs) as H. apply in_app_or in H. destruct H as [H|[<-|[]]]; [exact H | contradiction].
  - rewrite Eapp. intros l1 t l2 s Hl Hs.
    assert (Hcase : forall (a b : list nat), a ++ b = l1 ++ t :: l2 ->
      (exists l2', a = l1 ++ t :: l2') \/ (exists b1, l1 = a ++ b1 /\ b = b1 ++ t :: l2)).
    { clear. induction a as [|x a IH] in l1 |- *; intros b H.
      - right. exists l1. auto.
      - destruct l1 as [|y l1]; cbn in H; injection H as -> H.
        + left. exists a. reflexivity.
        + destruct (IH l1 b H) as [(l2' & ->)|(b1 & -> & ->)]; [left; exists l2'; reflexivity | right; exists b1; auto]. }
    destruct (Hcase _ _ Hl) as [(l2' & E1)|(b1 & -> & E1)].
    + now apply (ki_ord _ _ _ HI l1 t l2' s).
    + assert (Hm : In t (filter (ready (res ++ [v])) T)) by (rewrite E1; apply in_or_app; right; now left).
      apply filter_In in Hm. destruct Hm as [_ Hr]. pose proof (proj1 (ready_spec _ _) Hr s Hs) as H.
      apply in_or_app. left. apply in_app_or in H. apply in_or_app. destruct H as [H|[<-|[]]]; [now left | right; now left].
Qed.

Lemma bounded_length l : NoDup l -> (forall t, In t l -> t <= nv) -> length l <= S nv.
Proof.
  intros HN HB. rewrite <- (seq_length (S nv) 0). apply NoDup_incl_length; [exact HN|].
  intros t Ht. apply in_seq. specialize (HB t Ht). lia.
Qed.
Lemma kahn_run fuel : forall es queue res, kinv es queue res -> S nv <= fuel + length res ->
  exists more, kahn fuel es queue res = Some (res ++ queue ++ more, []) /\ kinv [] [] (res ++ queue ++ more).
Proof.
  induction fuel as [|fuel IH]; intros es queue res HI Hf.
  - destruct queue as [|v q].
    + cbn. exists []. rewrite app_nil_r. assert (es = []) as ->; [|auto].
      assert (Hall : forall t, t <= nv -> In t res).
      { induction t as [t IHt] using lt_wf_ind. intros Ht. rewrite <- (app_nil_r res).
        apply (ki_rdy _ _ _ HI t Ht). split.
        - apply ready_spec. intros s Hs. destruct (E_lt _ _ Hs). apply IHt; lia.
        - destruct t as [|t]; [now left|]. right. destruct (E_src (S t)) as (s & Hs); [lia|]. exists s.
          split; [|exact Hs]. destruct (E_lt _ _ Hs). apply IHt; lia. }
      destruct es as [|[s t] es]; [reflexivity|exfalso].
      destruct (proj1 (ki_es _ _ _ HI (s, t)) (or_introl eq_refl)) as [H1 H2]. destruct (E_lt _ _ H1). apply H2, Hall. cbn. lia.
    + exfalso. pose proof (bounded_length _ (ki_all _ _ _ HI) (ki_le _ _ _ HI)) as H. rewrite app_length in H. cbn in H, Hf. lia.
  - destruct queue as [|v q].
    + cbn. exists []. rewrite app_nil_r. assert (es = []) as ->; [|auto].
      assert (Hall : forall t, t <= nv -> In t res).
      { induction t as [t IHt] using lt_wf_ind. intros Ht. rewrite <- (app_nil_r res).
        apply (ki_rdy _ _ _ HI t Ht). split.
        - apply ready_spec. intros s Hs. destruct (E_lt _ _ Hs). apply IHt; lia.
        - destruct t as [|t]; [now left|]. right. destruct (E_src (S t)) as (s & Hs); [lia|]. exists s.
          split; [|exact Hs]. destruct (E_lt _ _ Hs). apply IHt; lia. }
      destruct es as [|[s t] es]; [reflexivity|exfalso].
      destruct (proj1 (ki_es _ _ _ HI (s, t)) (or_introl eq_refl)) as [H1 H2]. destruct (E_lt _ _ H1). apply H2, Hall. cbn. lia.
    + cbn [kahn]. destruct (kahn_step es v q res HI) as (es' & q' & more & E & Eq & _ & HI'). rewrite E.
      destruct (IH es' q' (res ++ [v]) HI') as (more' & E' & HI''); [rewrite app_length; cbn; lia|].
      exists (more ++ more'). subst q'. rewrite E'.
      replace ((res ++ [v]) ++ (q ++ more) ++ more') with (res ++ (v :: q) ++ more ++ more') in *
        by (now rewrite <- !app_assoc). auto.
Qed.
Lemma kinv_start : kinv E0 [0] [].
Proof.
  split; cbn.
  - exact E_nodup.
  - tauto.
  - constructor; [tauto | constructor].
  - intros t [<-|[]]. lia.
  - auto.
  - intros t Ht. split.
    + intros [<-|[]]. split; [|now left]. apply ready_spec. intros s Hs. destruct (E_lt _ _ Hs). lia.
    + intros [_ [->|(s & [] & _)]]. now left.
  - intros l1 t l2 s H Hs. destruct l1 as [|x [|]]; try discriminate. injection H as <-. destruct (E_lt _ _ Hs). lia.
Qed.

(* What Kahn's algorithm computes. *)
Theorem kahn_sorts fuel : S nv <= fuel ->
  exists vs, kahn fuel E0 [0] [] = Some (0 :: vs, []) /\ Permutation vs (seq 1 nv) /\
    (forall l1 t l2 s, vs = l1 ++ t :: l2 -> In (s, t) E0 -> s = 0 \/ In s l1) /\
    (exists more, vs = filter (ready [0]) (sort_nat (map snd (filter (fun e => Nat.eqb (fst e) 0) E0))) ++ more).
Proof.
  intros Hf. destruct (kahn_step E0 0 [] [] kinv_start) as (es' & q' & more & E & -> & Em & HI). cbn [app] in *.
  destruct fuel as [|fuel]; [lia|]. cbn [kahn]. rewrite E.
  destruct (kahn_run fuel es' more [0] HI) as (more' & E' & HI'); [cbn; lia|]. cbn [app] in *.
  exists (more ++ more'). split; [exact E'|]. split; [|split].
  - assert (HN : NoDup (0 :: more ++ more')) by (rewrite <- (app_nil_r (0 :: more ++ more')); exact (ki_all _ _ _ HI')).
    apply NoDup_cons_iff in HN; destruct HN as [H0 HN']. apply NoDup_Permutation; [exact HN' | apply seq_NoDup|].
    intros t. rewrite in_seq. split.
    + intros Ht. split.
      * destruct t; [contradiction | lia].
      * assert (t <= nv); [|lia]. apply (ki_le _ _ _ HI'). rewrite app_nil_r. now right.
    + intros [H1 H2].
      assert (Hall : forall t, t <= nv -> In t (0 :: more ++ more')).
      { induction t0 as [t0 IHt] using lt_wf_ind. intros Ht. rewrite <- (app_nil_r (0 :: more ++ more')).
        apply (ki_rdy _ _ _ HI' t0 Ht). split.
        - apply ready_spec. intros s Hs. destruct (E_lt _ _ Hs). apply IHt; lia.
        - destruct t0 as [|t0]; [now left|]. right. destruct (E_src (S t0)) as (s & Hs); [lia|]. exists s.
          split; [|exact Hs]. destruct (E_lt _ _ Hs). apply IHt; lia. }
      destruct (Hall t) as [E0'|H]; [lia | lia | exact H].
  - intros l1 t l2 s Hl Hs. pose proof (ki_ord _ _ _ HI' (0 :: l1) t l2 s) as H. rewrite app_nil_r in H. cbn in H.
    rewrite Hl in H. destruct (H eq_refl Hs); auto.
  - exists more'. now rewrite Em.
Qed.
End Kahn.
