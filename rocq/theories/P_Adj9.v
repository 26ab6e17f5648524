(* The multiindices of the derivatives of one order. *)
From Coq Require Import Bool NArith Arith List Sorted Permutation Lia.
From Verif Require Import M_Expr M_Dag M_Dec M_Dtens S_Dtens P_Dtens M_Adj P_Adj2.
Import ListNotations.
Local Open Scope N_scope.
Set Bullet Behavior "Strict Subproofs".

(* --- One more derivative ---------------------------------------------------------------- *)
Lemma bump_low j i l : i < j -> Forall (fun q : N * N => i < fst q) l -> Forall (fun q : N * N => i < fst q) (bump_idx j l).
Proof.
  intros Hj H. induction H as [|[k n] l Hk HF IH]; cbn [bump_idx]; [repeat constructor; exact Hj|].
  destruct (N.eqb_spec k j); [constructor; auto|]. destruct (N.ltb j k); [constructor; [exact Hj | constructor; auto] | constructor; auto].
Qed.
Lemma canon_cons i n l : 0 < n -> Forall (fun q : N * N => i < fst q) l -> canon_l l -> canon_l ((i, n) :: l).
Proof. intros Hn HF [H1 H2]. split; constructor; auto. Qed.
Lemma bump_canon j : forall l, canon_l l -> canon_l (bump_idx j l).
Proof.
  induction l as [|[i n] l IH]; intros H; cbn [bump_idx]; [apply canon_single; lia|].
  pose proof (canon_inv _ _ _ H) as (F & P & C). destruct (N.eqb_spec i j) as [->|Hn]; [apply canon_cons; [lia | exact F | exact C]|].
  destruct (N.ltb_spec j i) as [Hl|Hl].
  - apply canon_cons; [lia | | exact H]. constructor; [exact Hl|]. eapply Forall_impl; [|exact F]. cbn. intros q Hq. lia.
  - apply canon_cons; [exact P | apply bump_low; [lia | exact F] | now apply IH].
Qed.
Lemma bump_total j : forall l, total (bump_idx j l) = total l + 1.
Proof. induction l as [|[i n] l IH]; cbn [bump_idx total]; [lia|]. destruct (N.eqb i j); [cbn [total]; lia|]. destruct (N.ltb j i); cbn [total]; [lia|]. rewrite IH. lia. Qed.
Lemma bump_ord j : forall l, canon_l l -> forall k, ord_of (bump_idx j l) k = ord_of l k + (if k =? j then 1 else 0).
Proof.
  induction l as [|[i n] l IH]; intros H k; cbn [bump_idx ord_of].
  - rewrite (N.eqb_sym j k). destruct (k =? j); reflexivity.
  - pose proof (canon_inv _ _ _ H) as (F & P & C). destruct (N.eqb_spec i j) as [->|Hn].
    + cbn [ord_of]. rewrite (N.eqb_sym k j). destruct (j =? k); lia.
    + destruct (N.ltb_spec j i) as [Hl|Hl].
      * cbn [ord_of]. destruct (N.eqb_spec j k) as [<-|Hk].
        -- rewrite N.eqb_refl. rewrite (proj2 (N.eqb_neq i j)) by lia. rewrite ord_of_lt; [lia|]. eapply Forall_impl; [|exact F]. cbn. intros q Hq. lia.
        -- rewrite (proj2 (N.eqb_neq k j)) by lia. lia.
      * cbn [ord_of]. destruct (N.eqb_spec i k) as [<-|Hk]; [rewrite (proj2 (N.eqb_neq i j)) by lia; lia|]. now apply IH.
Qed.
Lemma bump_args j n : j < n -> forall l, Forall (fun p : N * N => fst p < n) l -> Forall (fun p : N * N => fst p < n) (bump_idx j l).
Proof.
  intros Hj. induction l as [|[i m] l IH]; intros H; cbn [bump_idx]; [repeat constructor; exact Hj|]. inversion H as [|? ? H1 H2]; subst.
  destruct (N.eqb_spec i j); [constructor; auto|]. destruct (N.ltb j i); constructor; auto.
Qed.
Lemma bump_not_nil j l : bump_idx j l <> [].
Proof. destruct l as [|[i n] l]; cbn [bump_idx]; [discriminate|]. destruct (N.eqb i j); [discriminate|]. destruct (N.ltb j i); discriminate. Qed.
(* Every multiindex of positive order is obtained this way. *)
Lemma unbump n l : canon_l l -> Forall (fun p : N * N => fst p < n) l -> l <> [] ->
  exists j l', j < n /\ canon_l l' /\ Forall (fun p : N * N => fst p < n) l' /\ l = bump_idx j l'.
Proof.
  intros H HF Hne. destruct l as [|[i m] l]; [congruence|]. pose proof (canon_inv _ _ _ H) as (F & P & C). inversion HF as [|? ? Hi HF']; subst. cbn in Hi.
  exists i. assert (D : m = 1 \/ 1 < m) by lia. destruct D as [->|D].
  - exists l. split; [exact Hi|]. split; [exact C|]. split; [exact HF'|]. destruct l as [|[k q] l]; [reflexivity|]. cbn [bump_idx]. inversion F as [|? ? Hk F']; subst. cbn in Hk.
    rewrite (proj2 (N.eqb_neq k i)) by lia. rewrite (proj2 (N.ltb_lt i k)) by lia. reflexivity.
  - exists ((i, m - 1) :: l). split; [exact Hi|]. split; [apply canon_cons; [lia | exact F | exact C]|]. split; [constructor; auto|]. cbn [bump_idx]. rewrite N.eqb_refl. f_equal. f_equal. lia.
Qed.

Lemma sidx_eqb_ok k k' : sidx_eqb k k' = true <-> k = k'.
Proof.
  destruct k as [c l], k' as [c' l']. unfold sidx_eqb. cbn [fst snd]. rewrite andb_true_iff, N.eqb_eq.
  assert (K : forall l l', (fix go (l l' : list (N * N)) : bool := match l, l' with | [], [] => true | (i, n) :: r, (i', n') :: r' => N.eqb i i' && N.eqb n n' && go r r' | _, _ => false end) l l' = true <-> l = l').
  { clear. induction l as [|[i n] l IH]; intros [|[i' n'] l']; try (split; congruence). rewrite !andb_true_iff, !N.eqb_eq, IH. split; [intros ((-> & ->) & ->); reflexivity | intros E; injection E as -> -> ->; auto]. }
  rewrite K. split; [intros (-> & ->); reflexivity | intros E; injection E as -> ->; auto].
Qed.

Section Keys.
Context {o : nops}.
Local Notation ex := (expr (num o)).
Implicit Types l m : list (sidx * ex).

(* --- Sorting ------------------------------------------------------------------------------ *)
Lemma insert_key_ok p : forall l, StronglySorted before (map fst l) -> ok_keys l -> canonical (fst p) -> fits (fst p) -> ~ In (fst p) (map fst l) ->
  exists s, insert_key o p l = Some s /\ Permutation (p :: l) s /\ StronglySorted before (map fst s).
Proof.
  induction l as [|q l IH]; intros Hs Hk Cp Fp Hn; cbn [insert_key].
  - exists [p]. repeat split; auto. cbn. repeat constructor.
  - inversion Hk as [|? ? [Cq Fq] Hk']; subst. cbn [map] in Hs. inversion Hs as [|? ? Hs' HF]; subst.
    destruct (sv_cmp_some (fst p) (fst q) Cp Cq Fp Fq) as (b & -> & Hb). destruct b.
    + exists (p :: q :: l). split; [reflexivity|]. split; [reflexivity|]. assert (B : before (fst p) (fst q)) by tauto. cbn [map]. constructor; [exact Hs|]. constructor; [exact B|].
      rewrite Forall_forall in *. intros x Hx. eapply before_trans; [exact B | now apply HF].
    + destruct (IH Hs' Hk' Cp Fp) as (s & E & P & S); [intros H; apply Hn; now right|]. rewrite E. exists (q :: s). split; [reflexivity|].
      split; [rewrite perm_swap; now constructor|]. cbn [map]. constructor; [exact S|].
      assert (B : before (fst q) (fst p)).
      { destruct (before_total (fst q) (fst p) Cq Cp) as [B|[B|B]]; [exact B | exfalso; apply Hn; left; exact B | apply Hb in B; discriminate]. }
      rewrite Forall_forall in *. intros x Hx. apply in_map_iff in Hx. destruct Hx as (y & <- & Hy). apply (Permutation_in _ (Permutation_sym P)) in Hy. destruct Hy as [<-|Hy]; [exact B|]. apply HF. now apply in_map.
Qed.
Lemma sort_keys_ok : forall l, NoDup (map fst l) -> ok_keys l ->
  exists s, sort_keys o l = Some s /\ Permutation l s /\ StronglySorted before (map fst s).
Proof.
  induction l as [|p l IH]; intros Hn Hk; cbn [sort_keys].
  - exists []. repeat split; constructor.
  - inversion Hk as [|? ? [Cp Fp] Hk']; subst. cbn [map] in Hn. inversion Hn as [|? ? Hp Hn']; subst. destruct (IH Hn' Hk') as (s & -> & P & S).
    destruct (insert_key_ok p s S) as (s' & E & P' & S'); auto.
    + unfold ok_keys in *. rewrite Forall_forall in *. intros x Hx. apply Hk'. now apply (Permutation_in _ (Permutation_sym P)).
    + intros H. apply Hp. apply (Permutation_in _ (Permutation_map fst (Permutation_sym P))). exact H.
    + exists s'. split; [exact E|]. split; [|exact S']. rewrite P. exact P'.
Qed.
Lemma emplace_ok : forall l acc, NoDup (map fst acc) ->
  NoDup (map fst (emplace_all o acc l)) /\
  (forall p, In p (emplace_all o acc l) -> In p acc \/ In p l) /\
  (forall k, In k (map fst (emplace_all o acc l)) <-> In k (map fst acc) \/ In k (map fst l)).
Proof.
  induction l as [|p l IH]; intros acc Hn; cbn [emplace_all].
  - split; [exact Hn|]. split; [auto|]. intros k. cbn. tauto.
  - destruct (existsb (fun q => sidx_eqb (fst q) (fst p)) acc) eqn:E.
    + destruct (IH acc Hn) as (A1 & A2 & A3). split; [exact A1|]. split; [intros q Hq; apply A2 in Hq; cbn; tauto|]. intros k. rewrite A3. cbn [map In]. split; [tauto|].
      intros [H|[H|H]]; auto. left. apply existsb_exists in E. destruct E as (q & Hq & E). apply sidx_eqb_ok in E. rewrite <- H, <- E. now apply in_map.
    + assert (Hp : ~ In (fst p) (map fst acc)).
      { intros H. apply in_map_iff in H. destruct H as (q & E2 & Hq). assert (T : existsb (fun q => sidx_eqb (fst q) (fst p)) acc = true) by (apply existsb_exists; exists q; split; [exact Hq | now apply sidx_eqb_ok]). congruence. }
      destruct (IH (acc ++ [p])) as (A1 & A2 & A3).
      { rewrite map_app. cbn [map]. apply (Permutation_NoDup (Permutation_cons_append (map fst acc) (fst p))). now constructor. }
      split; [exact A1|]. split.
      * intros q Hq. apply A2 in Hq. rewrite in_app_iff in Hq. cbn in *. tauto.
      * intros k. rewrite A3, map_app, in_app_iff. cbn. tauto.
Qed.

(* --- The derivatives of the last order ------------------------------------------------------ *)
Lemma skipn_in {B} (l : list B) : forall n x, In x (skipn n l) -> exists i, (n <= i)%nat /\ nth_error l i = Some x.
Proof.
  induction l as [|y l IH]; intros [|n] x H; cbn [skipn] in H; try (destruct H; fail).
  - apply In_nth_error in H. destruct H as (i & Hi). exists i. split; [lia | exact Hi].
  - destruct (IH n x H) as (i & Hi & E). exists (S i). split; [lia | exact E].
Qed.
Lemma in_skipn {B} (l : list B) : forall n i x, (n <= i)%nat -> nth_error l i = Some x -> In x (skipn n l).
Proof.
  induction l as [|y l IH]; intros [|n] [|i] x Hi E; cbn [skipn]; try discriminate; try lia.
  - left. cbn in E. congruence.
  - right. eapply nth_error_In; eauto.
  - apply (IH n i); [lia | exact E].
Qed.
Lemma skipn_sorted {B} (R : B -> B -> Prop) : forall n (l : list B), StronglySorted R l -> StronglySorted R (skipn n l).
Proof. induction n as [|n IH]; intros [|x l] H; cbn [skipn]; auto. inversion H; subst. auto. Qed.
Definition pure_key (cur : nat) : sidx := (0, match cur with O => [] | _ => [(0, N.of_nat cur)] end).
Lemma pure_total cur : total (snd (pure_key cur)) = N.of_nat cur.
Proof. destruct cur; cbn [pure_key snd total]; lia. Qed.
Lemma pure_canon cur : canonical (pure_key cur).
Proof. destruct cur; [split; constructor | apply canon_single; lia]. Qed.
Lemma search_ok nouts nargs cur m : 0 < nouts -> 0 < nargs -> N.of_nat cur <= u32_max -> complete_tensor nouts nargs (N.of_nat cur) m ->
  exists b, search_map o m (pure_key cur) = Some b /\ skipn b m <> [] /\
    forall p, In p (skipn b m) <-> In p m /\ total (snd (fst p)) = N.of_nat cur.
Proof.
  intros H1 H2 H3 Hc. destruct Hc as [Hs Hi].
  assert (Hok : ok_keys m).
  { unfold ok_keys. apply Forall_forall. intros p Hp. apply (in_map fst) in Hp. apply Hi in Hp. destruct Hp as (A & _ & _ & B). split; [exact A|]. unfold fits. lia. }
  assert (Fp : fits (pure_key cur)) by (unfold fits; rewrite pure_total; exact H3).
  assert (Hin : In (pure_key cur) (map fst m)).
  { apply Hi. destruct cur; [apply in_zero; exact H1 | apply in_pure; lia]. }
  destruct (lb_loop_ok m (pure_key cur) Hs Hok (pure_canon cur) Fp (S (length m)) 0 (length m)) as (r & E & Hr & Hlo & Hhi); try lia.
  { intros i kv Hi' Hn. assert (i < length m)%nat by (apply nth_error_Some; congruence). lia. }
  apply in_map_iff in Hin. destruct Hin as (kv & Ek & Hkv). apply In_nth_error in Hkv. destruct Hkv as (i0 & Hi0).
  assert (E0 : i0 = r).
  { destruct (Nat.lt_trichotomy i0 r) as [K|[K|K]]; [|exact K|].
    - exfalso. apply (before_irrefl (fst kv)). rewrite Ek at 2. exact (Hlo i0 kv K Hi0).
    - exfalso. destruct (nth_error m r) as [kv'|] eqn:Er; [|apply nth_error_None in Er; assert (i0 < length m)%nat by (apply nth_error_Some; congruence); lia].
      apply (Hhi r kv' (le_n _) Er). rewrite <- Ek. eapply StronglySorted_nth; [exact Hs | exact K | now apply nth_map_fst | now apply nth_map_fst]. }
  subst i0. exists r. split; [|split].
  - unfold search_map. rewrite E, Hi0. assert (T : sidx_eqb (fst kv) (pure_key cur) = true) by (now apply sidx_eqb_ok). now rewrite T.
  - intros Hn. pose proof (in_skipn m r r kv (le_n _) Hi0) as H. rewrite Hn in H. destruct H.
  - intros p. split.
    + intros Hp. apply skipn_in in Hp. destruct Hp as (i & Hri & Ei). split; [eapply nth_error_In; eauto|].
      assert (Hp : In (fst p) (map fst m)) by (apply in_map; eapply nth_error_In; eauto). apply Hi in Hp. destruct Hp as (_ & _ & _ & Hle).
      destruct (N.lt_ge_cases (total (snd (fst p))) (N.of_nat cur)) as [K|K]; [|lia]. exfalso. apply (Hhi i p Hri Ei). left. now rewrite pure_total.
    + intros [Hp Ht]. apply In_nth_error in Hp. destruct Hp as (i & Ei). apply (in_skipn m r i p); [|exact Ei].
      destruct (Nat.lt_ge_cases i r) as [K|K]; [|exact K]. exfalso. pose proof (Hlo i p K Ei) as B.
      assert (Hp : In (fst p) (map fst m)) by (apply in_map; eapply nth_error_In; eauto). apply Hi in Hp. destruct Hp as (Cp & _ & _ & _).
      destruct (Nat.eq_dec cur 0) as [->|Hc0].
      * destruct B as [B|[_ [B|[_ (x & _ & Hx)]]]]; [rewrite pure_total in B; lia | cbn in B; lia|]. rewrite (total_zero _ Cp) in Hx by lia. cbn in Hx. lia.
      * destruct cur as [|cur]; [congruence|]. destruct B as [B|[_ [B|[B1 B2]]]]; [rewrite pure_total in B; lia | cbn in B; lia|].
        assert (Bk : before (fst p) (pure_key (S cur))) by (right; split; [rewrite pure_total; lia | right; split; [exact B1 | exact B2]]).
        destruct (first_is_first (snd (fst p)) (N.of_nat (S cur)) Cp Ht ltac:(lia)) as [F|F].
        -- apply (before_irrefl (fst p)). replace (fst p) with (pure_key (S cur)) at 2; [exact Bk|]. destruct (fst p) as [c l]. unfold pure_key in *. cbn [fst snd] in *. congruence.
        -- apply (before_irrefl (fst p)). eapply before_trans; [exact Bk|]. right. split; [rewrite pure_total; lia|]. right. split; [now symmetry | exact F].
Qed.
End Keys.
