(* The jets computed in default mode and in compact mode. *)
From Coq Require Import String Bool ZArith Arith List Lia.
From Verif Require Import M_Expr M_Dag M_Dec S_Dec P_Dec M_Taylor S_Taylor P_Seg P_Tay1 P_Tay2 P_Tay3.
Import ListNotations.
Set Bullet Behavior "Strict Subproofs".

Section Codes.
Context {o : nops}.
Local Notation ex := (expr (num o)).
Local Notation elt := (expr (num o) * list nat)%type.

Lemma resolve_some k (a : ex) : arg_ok k a -> exists r, resolve o a = Some r.
Proof. destruct a as [x|s|i|f l]; cbn; eauto; [|contradiction]. intros (j & _ & ->). rewrite uname_index. eauto. Qed.
Lemma resolve_const (a : ex) : constant a -> exists c, resolve o a = Some (AC c).
Proof. destruct a; cbn; eauto; contradiction. Qed.
Lemma resolve_all_some k (args : list ex) : Forall (arg_ok k) args -> exists l, resolve_all o args = Some l.
Proof.
  unfold resolve_all. induction 1 as [|a args Ha _ [l IH]]; [cbn; eauto|]. destruct (resolve_some k a Ha) as [r Hr].
  cbn. rewrite Hr, IH. eauto.
Qed.
Lemma length0 {B} (l : list B) : length l = 0 -> l = [].
Proof. destruct l; [reflexivity | discriminate]. Qed.
Ltac lens H := repeat match type of H with length ?l = _ => destruct l as [|? ?]; try discriminate H; cbn in H end.
Lemma codes_some (f : fid (num o)) (args : list ex) self deps hs k : supported f args -> Forall (arg_ok k) args ->
  hidden o f args self = Some hs -> length deps = length hs ->
  (forall n i, exists c, tdiff o f args deps n i = Some c) /\ (forall n i, exists c, cdiff o f args deps n i = Some c).
Proof.
  intros Hs Ha Hh Hl.
  assert (R : forall a, In a args -> exists r, resolve o a = Some r).
  { intros a Hin. apply (resolve_some k). rewrite Forall_forall in Ha. auto. }
  destruct (resolve_all_some k args Ha) as [l El].
  assert (L1 : forall n, exists c, t_sum o args n = Some c) by (intros; unfold t_sum; rewrite El; eauto).
  assert (L2 : forall n, exists c, t_sumsq o args n = Some c) by (intros; unfold t_sumsq; rewrite El; eauto).
  assert (L3 : forall n, exists c, c_sumsq o args n = Some c) by (intros; unfold c_sumsq; rewrite El; eauto).
  assert (L4 : forall f n, exists c, t_flat o f args n = Some c) by (intros; unfold t_flat; rewrite El; eauto).
  assert (L5 : forall n, exists c, c_sum o args n = Some c) by (intros; unfold c_sum; rewrite El; eauto).
  assert (L6 : forall f n, exists c, c_flat o f args n = Some c) by (intros; unfold c_flat; rewrite El; eauto).
  clear El.
  destruct f; cbn [supported] in Hs; try contradiction.
  all: try (match goal with |- context [Fland] => fail 1 | |- context [Flor] => fail 1 | _ => idtac end; destruct args as [|a1 [|a2 [|a3 [|a4 r]]]]; try contradiction).
  all: try match goal with H : match ?a with ENum _ => _ | _ => _ end |- _ => destruct a; try contradiction end.
  all: cbn [hidden] in Hh.
  all: try match goal with u : ufun |- _ => destruct u; cbn [hidden] in Hh end.
  all: injection Hh as <-; cbn in Hl.
  all: repeat match goal with H : length ?l = _ |- _ => destruct l as [|? ?]; try discriminate H; cbn in H; try (injection H as H) end.
  all: try match goal with H : length ?l = 0 |- _ => apply length0 in H; subst l end.
  all: repeat match goal with
       | H : forall a, In a (?x :: ?l) -> _ |- _ =>
           let E := fresh "E" in let r := fresh "r" in
           destruct (H x (or_introl eq_refl)) as [r E];
           assert (forall a, In a l -> exists r, resolve o a = Some r) by (intros; apply H; right; assumption); clear H
       end.
  all: try match goal with H : constant _ |- _ => destruct (resolve_const _ H) as [? ?] end.
  all: try (split; intros ? ?; cbn [tdiff cdiff dep0]; solve [auto]).
  all: try (split; intros ? ?; cbn [tdiff cdiff t_unary c_unary dep0 dep1];
    unfold tunary, cunary, t_prod, c_prod, t_pow, c_pow, t_sub_, c_sub_, t_div_, c_div_, t_atan2, c_atan2, t_kepE, c_kepE, t_kepF, c_kepF, t_relu, c_relu, t_select, c_select, dep1;
    repeat match goal with E : resolve o _ = Some _ |- _ => rewrite E; clear E end;
    repeat match goal with r : targ o |- _ => destruct r end; eauto).
Qed.

Lemma sum_fine_ok (f : fid (num o)) (args : list ex) : supported f args -> sum_fine o f args.
Proof. destruct f; cbn; try exact (fun _ => I); destruct args; cbn; congruence || contradiction. Qed.
(* The code of an element whose arguments are before index b. *)
Definition is_code (E : elt -> nat -> nat -> option (tex (num o))) : Prop := E = elt_code o \/ E = celt_code o.
Lemma element_code E (p : elt) nu b n s : is_code E -> ready p -> elt_ok b (fst p) -> Forall (fun d => d < nu) (snd p) ->
  b <= nu -> s < nu -> exists c, E p n s = Some c /\ code_ok (avail nu n b) c.
Proof.
  intros HE (f & args & hs & Ef & Hs & Hh & Hl) He Hd Hb Hs'. rewrite Ef in He. cbn in He.
  destruct (codes_some f args (fst p) (snd p) hs b Hs He Hh Hl) as [C1 C2].
  destruct HE as [-> | ->]; unfold elt_code, celt_code; rewrite Ef.
  - destruct (C1 n s) as [c Hc]. exists c. split; [exact Hc|]. eapply tdiff_ok; eauto. now apply sum_fine_ok.
  - destruct (C2 n s) as [c Hc]. exists c. split; [exact Hc|]. eapply cdiff_ok; eauto. now apply sum_fine_ok.
Qed.
End Codes.

Section Jets.
Context {o : nops} {V : Type} (A : alg (num o) V) (T : tops V).
Local Notation ex := (expr (num o)).
Local Notation elt := (expr (num o) * list nat)%type.
Context (d : dcmp o) (sv : list nat) (st : list V).
Let ne := length (dc_in o d).
Let mid := dc_mid o d.
Let nu := ne + length mid.
Hypothesis HR : jet_ready d sv.
Hypothesis Hst : length st = ne.

(* The code of the u variable j at order n. *)
Definition dcode (E : elt -> nat -> nat -> option (tex (num o))) (n j : nat) : option (tex (num o)) :=
  if j <? ne then match nth_error (dc_out o d) j with Some p => sv_code o (fst p) n | None => None end
  else match nth_error mid (j - ne) with Some p => E p n j | None => None end.
Definition st0 (j : nat) : V := nth j st (t_nat T 0).

Lemma mid_elt k p : nth_error mid k = Some p -> ready p /\ elt_ok (ne + k) (fst p) /\ Forall (fun j => j < nu) (snd p).
Proof.
  intros Hk. destruct HR as (_ & [HB _] & HD & HF & _). split; [|split].
  - rewrite Forall_forall in HF. apply HF. eapply nth_error_In; eauto.
  - apply HB. rewrite nth_error_map. fold mid. now rewrite Hk.
  - apply Forall_forall. intros j Hj. apply (HD k p j Hk Hj).
Qed.
Lemma sv_elt j n i : j < ne -> 1 <= n -> exists c, dcode (elt_code o) n j = Some c /\ (forall E, dcode E n j = Some c) /\ code_ok (avail nu n i) c.
Proof.
  intros Hj Hn. destruct HR as (HL & [_ HO] & _). unfold dcode. rewrite (proj2 (Nat.ltb_lt j ne) Hj).
  destruct (nth_error (dc_out o d) j) as [p|] eqn:Ep; [|apply nth_error_None in Ep; fold ne in HL; lia].
  assert (Ha : arg_ok nu (fst p)).
  { rewrite Forall_map, Forall_forall in HO. unfold nu, mid. rewrite <- (map_length fst). apply HO. eapply nth_error_In; eauto. }
  destruct (resolve_some nu (fst p) Ha) as [r Hr].
  assert (Hc : exists c, sv_code o (fst p) n = Some c) by (unfold sv_code; rewrite Hr; destruct r; eauto).
  destruct Hc as [c Hc]. exists c. split; [exact Hc|]. split; [auto|]. now apply (sv_code_ok o nu n (fst p) i).
Qed.
Lemma dcode_ok E : is_code E -> forall n j, j < nu -> ~ initial ne n j -> exists c, dcode E n j = Some c /\ code_ok (avail nu n j) c.
Proof.
  intros HE n j Hj I. destruct (lt_dec j ne) as [Hlt|Hge].
  - destruct (sv_elt j n j Hlt) as (c & _ & Hc & Hok); [unfold initial in I; lia|]. eauto.
  - unfold dcode. destruct (Nat.ltb_spec j ne); [lia|].
    destruct (nth_error mid (j - ne)) as [p|] eqn:Ep; [|apply nth_error_None in Ep; unfold nu in Hj; lia].
    destruct (mid_elt _ _ Ep) as (Hr & He & Hd). replace (ne + (j - ne)) with j in He by lia.
    apply (element_code E p nu j n j); auto; lia.
Qed.
Lemma ne_le : ne <= nu. Proof. unfold nu. lia. Qed.

(* --- Default mode --------------------------------------------------------------------- *)
Section Default.
Context (tab : nat -> nat -> V) (Htab : is_table A T ne nu st0 (dcode (elt_code o)) tab).
Let Hcode := dcode_ok (elt_code o) (or_introl eq_refl).
Local Notation pre := (pre nu tab).

Lemma push_elts_pre n : forall l i arr, ne <= i -> i + length l <= nu ->
  (forall k p, nth_error l k = Some p -> nth_error mid (i - ne + k) = Some p) ->
  pre (n * nu + i) arr -> exists arr', push_elts o A T nu n i l arr = MDone arr' /\ pre (n * nu + i + length l) arr'.
Proof.
  induction l as [|p l IH]; intros i arr Hi Hl Hn HP; cbn [push_elts length] in *.
  - exists arr. split; [reflexivity|]. now rewrite Nat.add_0_r.
  - destruct (push_code_pre A T ne nu st0 (dcode (elt_code o)) ne_le Hcode tab Htab n i arr) as (arr1 & E1 & HP1);
      [lia | unfold initial; lia | exact HP |].
    assert (Ec : dcode (elt_code o) n i = elt_code o p n i).
    { unfold dcode. destruct (Nat.ltb_spec i ne); [lia|]. pose proof (Hn 0 p eq_refl) as Hp. rewrite Nat.add_0_r in Hp. now rewrite Hp. }
    rewrite <- Ec, E1. cbn [mbind]. destruct (IH (S i) arr1) as (arr2 & E2 & HP2).
    + lia.
    + lia.
    + intros k q Hk. specialize (Hn (S k) q Hk). replace (S i - ne + k) with (i - ne + S k) by lia. exact Hn.
    + replace (n * nu + S i) with (S (n * nu + i)) by lia. exact HP1.
    + exists arr2. split; [exact E2|]. replace (n * nu + i + S (length l)) with (n * nu + S i + length l) by lia. exact HP2.
Qed.
Lemma push_svs_pre n : 1 <= n -> forall l i arr, i + length l <= ne ->
  (forall k p, nth_error l k = Some p -> nth_error (dc_out o d) (i + k) = Some p) ->
  pre (n * nu + i) arr -> exists arr', push_svs o A T nu n l arr = MDone arr' /\ pre (n * nu + i + length l) arr'.
Proof.
  intros Hn1. induction l as [|p l IH]; intros i arr Hl Hn HP; cbn [push_svs length] in *.
  - exists arr. split; [reflexivity|]. now rewrite Nat.add_0_r.
  - destruct (push_code_pre A T ne nu st0 (dcode (elt_code o)) ne_le Hcode tab Htab n i arr) as (arr1 & E1 & HP1);
      [pose proof ne_le; lia | unfold initial; lia | exact HP |].
    assert (Ec : dcode (elt_code o) n i = sv_code o (fst p) n).
    { unfold dcode. destruct (Nat.ltb_spec i ne); [|lia]. pose proof (Hn 0 p eq_refl) as Hp. rewrite Nat.add_0_r in Hp. now rewrite Hp. }
    rewrite <- Ec, E1. cbn [mbind]. destruct (IH (S i) arr1) as (arr2 & E2 & HP2).
    + lia.
    + intros k q Hk. specialize (Hn (S k) q Hk). replace (S i + k) with (i + S k) by lia. exact Hn.
    + replace (n * nu + S i) with (S (n * nu + i)) by lia. exact HP1.
    + exists arr2. split; [exact E2|]. replace (n * nu + i + S (length l)) with (n * nu + S i + length l) by lia. exact HP2.
Qed.
Lemma out_len : length (dc_out o d) = ne. Proof. apply HR. Qed.
Lemma push_orders_pre : forall k n arr, 1 <= n -> pre (n * nu) arr ->
  exists arr', push_orders o A T nu ne n k mid (dc_out o d) arr = MDone arr' /\ pre ((n + k) * nu) arr'.
Proof.
  induction k as [|k IH]; intros n arr Hn HP; cbn [push_orders].
  - exists arr. split; [reflexivity|]. now rewrite Nat.add_0_r.
  - destruct (push_svs_pre n Hn (dc_out o d) 0 arr) as (arr1 & E1 & HP1); [rewrite out_len; lia | auto | now rewrite Nat.add_0_r|].
    rewrite out_len, Nat.add_0_r in HP1. rewrite E1. cbn [mbind].
    destruct (push_elts_pre n mid ne arr1) as (arr2 & E2 & HP2); [lia | unfold nu; lia | now rewrite Nat.sub_diag | exact HP1 |].
    rewrite E2. cbn [mbind]. replace (n * nu + ne + length mid) with (S n * nu) in HP2 by (unfold nu; lia).
    destruct (IH (S n) arr2 ltac:(lia) HP2) as (arr3 & E3 & HP3). exists arr3. split; [exact E3|].
    now replace (n + S k) with (S n + k) by lia.
Qed.
Lemma max_svf_le i : In i sv -> i <= max_svf sv.
Proof. clear. induction sv as [|x l IH]; [contradiction|]. cbn. intros [->|H]; [lia | specialize (IH H); unfold max_svf in IH; lia]. Qed.
Lemma mseq_all {B C} (l : list B) (f : B -> mres C) g : (forall x, In x l -> f x = MDone (g x)) -> mseq (map f l) = MDone (map g l).
Proof. induction l as [|x l IH]; intros H; [reflexivity|]. cbn. rewrite H by now left. cbn. rewrite IH; [reflexivity|]. intros y Hy. apply H. now right. Qed.
Lemma flat_map_map {B C D} (f : B -> list C) (g : C -> D) l : flat_map (fun x => map g (f x)) l = map g (flat_map f l).
Proof. induction l as [|x l IH]; [reflexivity|]. cbn. now rewrite map_app, IH. Qed.
Lemma mseq_jet order (f : nat -> nat -> mres V) (g : nat -> nat -> V) : (forall m j, m <= order -> j < ne \/ In j sv -> f m j = MDone (g m j)) ->
  mseq (flat_map (fun m => map (f m) (seq 0 ne ++ sv)) (seq 0 (S order))) = MDone (jet_of ne sv order g).
Proof.
  intros H. set (ps := flat_map (fun m => map (fun j => (m, j)) (seq 0 ne ++ sv)) (seq 0 (S order))).
  assert (E1 : forall (C : Type) (h : nat -> nat -> C), flat_map (fun m => map (h m) (seq 0 ne ++ sv)) (seq 0 (S order)) = map (fun p => h (fst p) (snd p)) ps).
  { intros C h. unfold ps. rewrite <- flat_map_map. apply flat_map_ext. intros m. rewrite map_map. reflexivity. }
  unfold jet_of. rewrite !E1. apply mseq_all. intros [m j] Hin. unfold ps in Hin. apply in_flat_map in Hin.
  destruct Hin as (m' & Hm & Hin). apply in_map_iff in Hin. destruct Hin as (j' & [= -> ->] & Hj).
  apply in_seq in Hm. apply in_app_iff in Hj. rewrite in_seq in Hj. cbn [fst snd]. apply H; [lia|]. destruct Hj; [left; lia | right; assumption].
Qed.
Lemma default_jet order : 1 <= order -> taylor_jet o A T d sv order st = MDone (jet_of ne sv order tab).
Proof.
  intros Ho. unfold taylor_jet. cbv zeta. fold ne mid nu.
  assert (HP : pre (0 * nu + ne) st).
  { split; [exact Hst|]. intros m j Hj Hk. assert (m = 0) by (pose proof ne_le; nia). subst m. cbn in *. rewrite (proj1 Htab) by assumption.
    unfold st0. apply List.nth_error_nth'. lia. }
  destruct (push_elts_pre 0 mid ne st) as (arr0 & -> & HP0); [lia | unfold nu; lia | now rewrite Nat.sub_diag | exact HP |]. cbn [mbind].
  replace (0 * nu + ne + length mid) with (1 * nu) in HP0 by (unfold nu; lia).
  destruct (push_orders_pre (order - 1) 1 arr0 (le_n _) HP0) as (arr1 & -> & HP1). cbn [mbind].
  replace (1 + (order - 1)) with order in HP1 by lia.
  destruct (push_svs_pre order Ho (dc_out o d) 0 arr1) as (arr2 & -> & HP2); [rewrite out_len; lia | auto | now rewrite Nat.add_0_r|]. cbn [mbind].
  rewrite out_len, Nat.add_0_r in HP2.
  set (l := firstn (S (max_svf sv) - ne) mid).
  assert (Ll : length l = Nat.min (S (max_svf sv) - ne) (length mid)) by apply firstn_length.
  destruct (push_elts_pre order l ne arr2) as (arr3 & -> & HP3); [lia | unfold nu; lia | | exact HP2 |].
  { intros k p Hk. rewrite Nat.sub_diag. cbn. unfold l in Hk. rewrite <- (firstn_skipn (S (max_svf sv) - ne) mid).
    rewrite nth_error_app1; [exact Hk|]. apply nth_error_Some. rewrite Hk. discriminate. }
  cbn [mbind]. apply mseq_jet. intros m j Hm Hj.
  assert (Hju : j < nu). { destruct Hj as [Hj|Hj]; [pose proof ne_le; lia|]. destruct HR as (_ & _ & _ & _ & HS). rewrite Forall_forall in HS. apply (HS j Hj). }
  eapply pre_fetch; [exact HP3 | exact Hju |].
  destruct Hj as [Hj|Hj]; [nia|]. pose proof (max_svf_le j Hj). unfold nu in *. nia.
Qed.
End Default.

(* --- Compact mode ---------------------------------------------------------------------- *)
Section Compact.
Context (tab : nat -> nat -> V) (Htab : is_table A T ne nu st0 (dcode (celt_code o)) tab).
Let Hcode := dcode_ok (celt_code o) (or_intror eq_refl).
Local Notation good := (good nu tab).
Local Notation group := (group ne nu (dcode (celt_code o))).
Definition seg_codes (n i : nat) (seg : list elt) : list (option (tex (num o))) :=
  map (fun k => match nth_error seg k with Some p => celt_code o p n (i + k) | None => None end) (seq 0 (length seg)).
Lemma seg_group n i (seg : list elt) : ne <= i -> i + length seg <= nu -> (forall k p, nth_error seg k = Some p -> nth_error mid (i - ne + k) = Some p) ->
  Forall (fun p => elt_ok i (fst p)) seg -> group n i (seg_codes n i seg).
Proof.
  intros Hi Hl Hn HI. unfold seg_codes. split; [now rewrite map_length, seq_length|].
  intros k c Hk. rewrite nth_error_map in Hk. destruct (nth_error (seq 0 (length seg)) k) as [k'|] eqn:Ek; [|discriminate].
  assert (Hk' : k < length seg) by (rewrite <- (seq_length (length seg) 0); apply nth_error_Some; rewrite Ek; discriminate).
  assert (k' = k). { apply nth_error_nth with (d := 0) in Ek. rewrite seq_nth in Ek by exact Hk'. cbn in Ek. congruence. }
  subst k'. cbn in Hk. destruct (nth_error seg k) as [p|] eqn:Ep; [|apply nth_error_None in Ep; lia]. injection Hk as <-.
  pose proof (Hn k p Ep) as Em. destruct (mid_elt _ _ Em) as (Hr & _ & Hd).
  split; [unfold initial; lia|]. split.
  - unfold dcode. destruct (Nat.ltb_spec (i + k) ne); [lia|]. replace (i + k - ne) with (i - ne + k) by lia. now rewrite Em.
  - apply (element_code (celt_code o) p nu i n (i + k)); auto; [right; reflexivity | | lia | lia].
    rewrite Forall_forall in HI. apply HI. eapply nth_error_In; eauto.
Qed.
Lemma sv_group n : 1 <= n -> group n 0 (map (fun p : elt => sv_code o (fst p) n) (dc_out o d)).
Proof.
  intros Hn. split; [rewrite map_length, out_len; exact ne_le|]. intros k c Hk. rewrite nth_error_map in Hk.
  destruct (nth_error (dc_out o d) k) as [p|] eqn:Ep; [|discriminate]. injection Hk as <-.
  assert (Hk : k < ne) by (rewrite <- out_len; apply nth_error_Some; rewrite Ep; discriminate).
  split; [unfold initial; lia|]. destruct (sv_elt k n 0 Hk Hn) as (c & Hc & Hc' & Hok).
  specialize (Hc' (celt_code o)). cbn [Nat.add]. rewrite Hc'.
  assert (E : sv_code o (fst p) n = Some c).
  { unfold dcode in Hc. rewrite (proj2 (Nat.ltb_lt k ne) Hk), Ep in Hc. exact Hc. }
  split; [now rewrite E|]. exists c. now rewrite E.
Qed.
Definition slice (i : nat) (l : list elt) : Prop := forall k p, nth_error l k = Some p -> nth_error mid (i - ne + k) = Some p.
Lemma slice_app i (l r : list elt) : ne <= i -> slice i (l ++ r) -> slice i l /\ slice (i + length l) r.
Proof.
  intros Hi H. split; intros k p Hk.
  - apply H. rewrite nth_error_app1; [exact Hk|]. apply nth_error_Some. rewrite Hk. discriminate.
  - replace (i + length l - ne + k) with (i - ne + (length l + k)) by lia. apply H.
    rewrite nth_error_app2 by lia. now replace (length l + k - length l) with k by lia.
Qed.
Lemma segs_good size n : forall segs i tp tp', ne <= i -> i + length (concat segs) <= nu -> slice i (concat segs) -> independent i segs ->
  segs_step o A T size nu n i segs tp tp' -> good (n * nu + i) tp -> good (n * nu + i + length (concat segs)) tp'.
Proof.
  intros segs i tp tp' Hi Hl Hs HI H. revert Hi Hl Hs HI. induction H as [i tp|i seg segs tp tp1 tp2 Hg Hr IH]; intros Hi Hl Hs HI Hgood.
  - cbn. now rewrite Nat.add_0_r.
  - cbn [concat independent] in *. rewrite app_length in *. destruct HI as [HI1 HI2]. destruct (slice_app i seg _ Hi Hs) as [Hs1 Hs2].
    assert (HG : group n i (seg_codes n i seg)) by (apply seg_group; auto; lia).
    pose proof (group_good A T ne nu st0 (dcode (celt_code o)) ne_le Hcode tab Htab size n i _ tp tp1 HG Hg Hgood) as H1.
    unfold seg_codes in H1. rewrite map_length, seq_length in H1.
    rewrite Nat.add_assoc. replace (n * nu + i + length seg) with (n * nu + (i + length seg)) in H1 |- * by lia.
    apply IH; auto; lia.
Qed.
Lemma segs_progress size n : forall segs i tp, ne <= i -> i + length (concat segs) <= nu -> slice i (concat segs) -> independent i segs ->
  n * nu + i + length (concat segs) <= size -> good (n * nu + i) tp -> exists tp', segs_step o A T size nu n i segs tp tp'.
Proof.
  induction segs as [|seg segs IH]; intros i tp Hi Hl Hs HI Hz Hgood; [exists tp; constructor|].
  cbn [concat independent] in *. rewrite app_length in *. destruct HI as [HI1 HI2]. destruct (slice_app i seg _ Hi Hs) as [Hs1 Hs2].
  assert (HG : group n i (seg_codes n i seg)) by (apply seg_group; auto; lia).
  assert (Lc : length (seg_codes n i seg) = length seg) by (unfold seg_codes; now rewrite map_length, seq_length).
  destruct (group_progress A T ne nu st0 (dcode (celt_code o)) ne_le Hcode tab Htab size n i _ tp HG Hgood) as [tp1 H1]; [rewrite Lc; lia|].
  pose proof (group_good A T ne nu st0 (dcode (celt_code o)) ne_le Hcode tab Htab size n i _ tp tp1 HG H1 Hgood) as H2. rewrite Lc in H2.
  destruct (IH (i + length seg) tp1) as [tp2 H3]; auto; try lia.
  - now replace (n * nu + (i + length seg)) with (n * nu + i + length seg) by lia.
  - exists tp2. econstructor; [exact H1 | exact H3].
Qed.
Context (segs : list (list elt)) (Hseg : segment_dc o d = Some segs).
Lemma segs_facts : concat segs = mid /\ independent ne segs.
Proof.
  destruct HR as (_ & [HB _] & _ & HF & _).
  destruct (segment_dc_ok o d HB) as (s' & E & Hc & _ & HI).
  - apply Forall_map. rewrite Forall_forall in *. intros p Hp. destruct (HF p Hp) as (f & args & hs & Ef & _). rewrite Ef. exact I.
  - rewrite Hseg in E. injection E as <-. split; [exact Hc | exact HI].
Qed.
Lemma segs_slice : slice ne (concat segs).
Proof. destruct segs_facts as [-> _]. intros k p Hk. now rewrite Nat.sub_diag. Qed.
Lemma orders_good size : forall k n tp tp', 1 <= n -> orders_step o A T size nu ne segs (dc_out o d) n k tp tp' ->
  good (n * nu) tp -> good ((n + k) * nu) tp'.
Proof.
  intros k n tp tp' Hn H. revert Hn. induction H as [n tp|n k tp tp1 tp2 tp3 Hg Hs Ho IH]; intros Hn Hgood; [now rewrite Nat.add_0_r|].
  assert (H1 := group_good A T ne nu st0 (dcode (celt_code o)) ne_le Hcode tab Htab size n 0 _ tp tp1 (sv_group n Hn) Hg).
  rewrite Nat.add_0_r, map_length, out_len in H1. specialize (H1 Hgood).
  destruct segs_facts as [Hc HI].
  assert (H2 := segs_good size n segs ne tp1 tp2 (le_n _)). rewrite Hc in H2. specialize (H2 ltac:(unfold nu; lia)).
  rewrite <- Hc in H2 at 1. specialize (H2 segs_slice HI Hs H1).
  replace (n + S k) with (S n + k) by lia. apply IH; [lia|].
  now replace (S n * nu) with (n * nu + ne + length mid) by (unfold nu; lia).
Qed.
Lemma orders_progress size : forall k n tp, 1 <= n -> (n + k) * nu <= size -> good (n * nu) tp ->
  exists tp', orders_step o A T size nu ne segs (dc_out o d) n k tp tp'.
Proof.
  induction k as [|k IH]; intros n tp Hn Hz Hgood; [exists tp; constructor|].
  assert (Hz1 : n * nu + nu <= size) by nia.
  destruct (group_progress A T ne nu st0 (dcode (celt_code o)) ne_le Hcode tab Htab size n 0 _ tp (sv_group n Hn)) as [tp1 G1].
  - now rewrite Nat.add_0_r.
  - rewrite map_length, out_len. pose proof ne_le. lia.
  - assert (H1 := group_good A T ne nu st0 (dcode (celt_code o)) ne_le Hcode tab Htab size n 0 _ tp tp1 (sv_group n Hn) G1).
    rewrite Nat.add_0_r, map_length, out_len in H1. specialize (H1 Hgood). destruct segs_facts as [Hc HI].
    destruct (segs_progress size n segs ne tp1) as [tp2 G2]; auto.
    + rewrite Hc. unfold nu. lia.
    + exact segs_slice.
    + rewrite Hc. unfold nu in *. lia.
    + assert (H2 := segs_good size n segs ne tp1 tp2 (le_n _)). rewrite Hc in H2. specialize (H2 ltac:(unfold nu; lia)).
      rewrite <- Hc in H2 at 1. specialize (H2 segs_slice HI G2 H1).
      destruct (IH (S n) tp2) as [tp3 G3]; [lia | now replace (S n + k) with (n + S k) by lia | |].
      * now replace (S n * nu) with (n * nu + ne + length mid) by (unfold nu; lia).
      * exists tp3. econstructor; eauto.
Qed.
Lemma segs_until_ok : forall (l : list (list elt)) i idx, i <= idx < i + length (concat l) -> independent i l ->
  (exists r, l = segs_until o i idx l ++ r) /\ idx < i + length (concat (segs_until o i idx l)) /\ independent i (segs_until o i idx l).
Proof.
  induction l as [|s l IH]; intros i idx Hi HI; cbn [concat independent segs_until] in *; [cbn in Hi; lia|]. rewrite app_length in Hi. destruct HI as [H1 H2].
  destruct (Nat.ltb_spec idx (i + length s)).
  - split; [exists l; reflexivity|]. cbn. rewrite app_nil_r. split; [lia | auto].
  - destruct (IH (i + length s) idx) as ((r & Er) & Hl & Hi'); [lia | exact H2|]. split; [exists r; cbn; now rewrite <- Er|].
    cbn [concat independent]. rewrite app_length. split; [lia | auto].
Qed.
Definition last_segs : list (list elt) := if Nat.leb ne (max_svf sv) then segs_until o ne (max_svf sv) segs else [].
Lemma max_svf_lt : max_svf sv < nu \/ sv = [] \/ max_svf sv = 0.
Proof.
  destruct HR as (_ & _ & _ & _ & HS). fold ne mid nu in HS. clear -HS. destruct sv as [|x l]; [auto|]. left.
  assert (G : forall l' , Forall (fun i => i < nu) l' -> l' = [] \/ max_svf l' < nu).
  { induction 1 as [|y l' Hy _ IH]; [auto|]. right. cbn. fold (max_svf l'). destruct IH as [->|H]; cbn; lia. }
  destruct (G _ HS); [discriminate | assumption].
Qed.
Lemma last_facts : slice ne (concat last_segs) /\ independent ne last_segs /\ ne + length (concat last_segs) <= nu /\
  (forall j, In j sv -> j < ne + length (concat last_segs)) /\ (max_svf sv < ne -> last_segs = []).
Proof.
  destruct segs_facts as [Hc HI]. unfold last_segs. destruct (Nat.leb_spec ne (max_svf sv)) as [Hle|Hlt].
  - destruct (Nat.lt_ge_cases (max_svf sv) nu) as [Hm|Hm].
    + destruct (segs_until_ok segs ne (max_svf sv)) as ((r & Er) & Hl & Hi'); [rewrite Hc; fold nu; lia | exact HI|].
      assert (Ec : mid = concat (segs_until o ne (max_svf sv) segs) ++ concat r) by (rewrite <- concat_app, <- Er; auto).
      split; [|split; [exact Hi'|split; [|split; [|lia]]]].
      * intros k p Hk. rewrite Nat.sub_diag. cbn. rewrite Ec. rewrite nth_error_app1; [exact Hk|]. apply nth_error_Some. rewrite Hk. discriminate.
      * unfold nu. rewrite Ec, app_length. lia.
      * intros j Hj. pose proof (max_svf_le j Hj). lia.
    + assert (Hz : sv = [] /\ nu = 0 \/ max_svf sv = 0 /\ nu = 0).
      { destruct max_svf_lt as [H|[H|H]]; [lia | left | right]; split; auto; [rewrite H in Hm; cbn in Hm; lia | lia]. }
      assert (Hnu : nu = 0) by (destruct Hz as [[_ H]|[_ H]]; exact H).
      assert (Hmid : segs = [] \/ concat segs = []). { right. rewrite Hc. apply length0. unfold nu in Hnu. lia. }
      assert (Hcat : forall l i idx, concat l = [] -> concat (segs_until o i idx l) = []).
      { induction l as [|s l IH]; intros i idx H; [reflexivity|]. cbn in H. apply app_eq_nil in H. destruct H as [-> H]. cbn [segs_until length].
        destruct (idx <? i + 0); cbn [concat app]; auto. }
      assert (Hind : forall l i idx, independent i l -> independent i (segs_until o i idx l)).
      { induction l as [|s l IH]; intros i idx H; [exact H|]. cbn [independent segs_until] in *. destruct (idx <? i + length s); cbn [independent]; [tauto|]. split; [tauto|]. apply IH, H. }
      assert (Hcs : concat segs = []) by (rewrite Hc; apply length0; unfold nu in Hnu; lia).
      rewrite (Hcat segs ne (max_svf sv) Hcs). split; [intros [|k] p Hk; discriminate Hk|]. split; [now apply Hind|]. split; [unfold nu in *; cbn; lia|].
      split; [|lia]. intros j Hj. destruct HR as (_ & _ & _ & _ & HS). rewrite Forall_forall in HS. specialize (HS j Hj). fold ne mid nu in HS. lia.
  - split; [intros [|k] p Hk; discriminate Hk|]. split; [exact I|]. split; [cbn; pose proof ne_le; lia|]. split; [|auto].
    intros j Hj. pose proof (max_svf_le j Hj). lia.
Qed.
Lemma size_ok order : 1 <= order -> order * nu + ne + length (concat last_segs) <= tape_size ne nu order sv /\ order * nu <= tape_size ne nu order sv.
Proof.
  intros Ho. unfold tape_size. destruct last_facts as (_ & _ & H3 & _ & H5). destruct (Nat.ltb_spec (max_svf sv) ne); [rewrite (H5 H); cbn; lia | lia].
Qed.
Lemma initial_tape (tp0 tp1 : nat -> V) : (forall l, tp1 l = match nth_error st l with Some v => v | None => tp0 l end) -> good ne tp1.
Proof.
  intros H m j Hj Hk. assert (m = 0) by (pose proof ne_le; nia). subst m. cbn in *. rewrite H, (proj1 Htab) by assumption.
  unfold st0. rewrite (List.nth_error_nth' st (t_nat T 0)) by lia. reflexivity.
Qed.
Lemma compact_jet_good order tp0 tp : 1 <= order -> compact_jet o A T d sv order st tp0 tp ->
  tape_jet o d sv order tp = MDone (jet_of ne sv order tab).
Proof.
  intros Ho (segs' & tp1 & tp2 & tp3 & tp4 & Es & H1 & H2 & H3 & H4 & H5). rewrite Hseg in Es. injection Es as <-.
  fold ne mid in H2, H3, H4, H5. fold nu in H2, H3, H4, H5. change (if ne <=? max_svf sv then segs_until o ne (max_svf sv) segs else []) with last_segs in H5.
  destruct segs_facts as [Hc HI].
  pose proof (initial_tape tp0 tp1 H1) as G1.
  assert (G2 := segs_good (tape_size ne nu order sv) 0 segs ne tp1 tp2 (le_n _)). rewrite Hc in G2. specialize (G2 ltac:(unfold nu; lia)).
  rewrite <- Hc in G2 at 1. specialize (G2 segs_slice HI H2 G1).
  replace (0 * nu + ne + length mid) with (1 * nu) in G2 by (unfold nu; lia).
  pose proof (orders_good _ (order - 1) 1 tp2 tp3 (le_n _) H3 G2) as G3. replace (1 + (order - 1)) with order in G3 by lia.
  assert (G4 := group_good A T ne nu st0 (dcode (celt_code o)) ne_le Hcode tab Htab (tape_size ne nu order sv) order 0 _ tp3 tp4 (sv_group order Ho) H4).
  rewrite Nat.add_0_r, map_length, out_len in G4. specialize (G4 G3).
  destruct last_facts as (L1 & L2 & L3 & L4 & L5).
  pose proof (segs_good (tape_size ne nu order sv) order last_segs ne tp4 tp (le_n _) L3 L1 L2 H5 G4) as G5.
  unfold tape_jet. cbv zeta. fold ne mid nu. apply mseq_jet. intros m j Hm Hj.
  assert (Hju : j < ne + length (concat last_segs)) by (destruct Hj as [Hj|Hj]; [lia | auto]).
  destruct (size_ok order Ho) as [Z1 Z2]. unfold load. rewrite (proj2 (Nat.ltb_lt _ _)) by nia.
  f_equal. apply G5; [lia | nia].
Qed.
Lemma compact_jet_exists order tp0 : 1 <= order -> exists tp, compact_jet o A T d sv order st tp0 tp.
Proof.
  intros Ho. destruct segs_facts as [Hc HI]. destruct last_facts as (L1 & L2 & L3 & L4 & L5). destruct (size_ok order Ho) as [Z1 Z2].
  set (size := tape_size ne nu order sv) in *.
  set (tp1 := fun l => match nth_error st l with Some v => v | None => tp0 l end).
  pose proof (initial_tape tp0 tp1 (fun l => eq_refl)) as G1.
  destruct (segs_progress size 0 segs ne tp1) as [tp2 H2]; auto.
  { rewrite Hc. unfold nu. lia. } { exact segs_slice. } { rewrite Hc. unfold nu in *. nia. }
  assert (G2 := segs_good size 0 segs ne tp1 tp2 (le_n _)). rewrite Hc in G2. specialize (G2 ltac:(unfold nu; lia)).
  rewrite <- Hc in G2 at 1. specialize (G2 segs_slice HI H2 G1).
  replace (0 * nu + ne + length mid) with (1 * nu) in G2 by (unfold nu; lia).
  destruct (orders_progress size (order - 1) 1 tp2 (le_n _)) as [tp3 H3]; [|exact G2|].
  { now replace (1 + (order - 1)) with order by lia. }
  pose proof (orders_good _ (order - 1) 1 tp2 tp3 (le_n _) H3 G2) as G3. replace (1 + (order - 1)) with order in G3 by lia.
  destruct (group_progress A T ne nu st0 (dcode (celt_code o)) ne_le Hcode tab Htab size order 0 _ tp3 (sv_group order Ho)) as [tp4 H4].
  { now rewrite Nat.add_0_r. } { rewrite map_length, out_len. lia. }
  assert (G4 := group_good A T ne nu st0 (dcode (celt_code o)) ne_le Hcode tab Htab (tape_size ne nu order sv) order 0 _ tp3 tp4 (sv_group order Ho) H4).
  rewrite Nat.add_0_r, map_length, out_len in G4. specialize (G4 G3).
  destruct (segs_progress size order last_segs ne tp4) as [tp H5]; auto.
  exists tp, segs, tp1, tp2, tp3, tp4. fold ne mid nu size. change (if ne <=? max_svf sv then segs_until o ne (max_svf sv) segs else []) with last_segs.
  repeat (split; [first [assumption | reflexivity]|]). exact H5.
Qed.
End Compact.
End Jets.
