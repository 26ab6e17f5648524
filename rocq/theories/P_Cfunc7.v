(* Compiled functions: memory, single and multiple evaluations. *)
From Coq Require Import String Ascii Bool ZArith Arith List Lia Permutation.
From Verif Require Import M_Expr M_Dag M_Dec S_Expr S_Dag S_Dec P_ExprSem P_Subs P_Dag P_Dec P_Vars P_DecX P_DecP.
From Verif Require Import M_Taylor M_Adj P_Adj2 P_Cfunc1 M_Cfunc S_Cfunc P_Cfunc2 P_Cfunc3 P_Cfunc4 P_Cfunc5 P_Cfunc6.
Import ListNotations.
Local Open Scope nat_scope.
Set Bullet Behavior "Strict Subproofs".

(* --- Loads and stores ----------------------------------------------------------------------------- *)
Section Mem.
Context {T : Type} (dflt : T).
Lemma firstn_skipn_vec (a : list T) off n : off + n <= length a -> firstn n (skipn off a) = vec n (fun l => nth (off + l) a dflt).
Proof.
  intros H. unfold vec. revert off H. induction n as [|n IH]; intros off H; [reflexivity|].
  destruct (nth_error (skipn off a) 0) as [x|] eqn:E.
  - assert (Es : skipn off a = x :: skipn (S off) a).
    { clear - E. revert off E. induction a as [|y a IH]; intros [|off] E; cbn in *; try discriminate; [congruence|]. now apply IH. }
    assert (Ex : nth off a dflt = x).
    { rewrite <- (firstn_skipn off a) at 1. rewrite app_nth2; rewrite firstn_length_le by lia; [|lia]. rewrite Nat.sub_diag, Es. reflexivity. }
    rewrite Es. cbn [firstn seq map]. rewrite Nat.add_0_r, Ex. f_equal. rewrite IH by lia. rewrite <- seq_shift, map_map. apply map_ext. intros l. f_equal. lia.
  - apply nth_error_None in E. rewrite skipn_length in E. lia.
Qed.
Lemma vload_ok (a : list T) base off n : base + off + n <= length a -> vload (Some (a, base)) off n = MDone (vec n (fun l => nth (base + off + l) a dflt)).
Proof. intros H. cbn. destruct (Nat.leb_spec (base + off + n) (length a)); [|lia]. f_equal. now apply firstn_skipn_vec. Qed.

Definition covers (s : store (T := T)) (k : nat) : Prop := fst s <= k < fst s + length (snd s).
Lemma vstore_ok (a : list T) (s : store (T := T)) : fst s + length (snd s) <= length a ->
  exists a', vstore a s = MDone a' /\ length a' = length a /\
    (forall k, covers s k -> nth k a' dflt = nth (k - fst s) (snd s) dflt) /\ (forall k, ~ covers s k -> nth k a' dflt = nth k a dflt).
Proof.
  destruct s as [off v]. unfold covers. cbn [fst snd vstore]. intros H. destruct (Nat.leb_spec (off + length v) (length a)); [|lia].
  eexists. split; [reflexivity|]. split; [|split].
  - rewrite !app_length, skipn_length, firstn_length. lia.
  - intros k Hk. rewrite app_nth2; rewrite firstn_length_le by lia; [|lia]. rewrite app_nth1 by lia. reflexivity.
  - intros k Hk. assert (Hc : k < off \/ off + length v <= k) by lia. destruct Hc as [Hc|Hc].
    + rewrite app_nth1 by (rewrite firstn_length_le; lia). rewrite <- (firstn_skipn off a) at 2. rewrite app_nth1 by (rewrite firstn_length_le; lia). reflexivity.
    + rewrite app_nth2; rewrite firstn_length_le by lia; [|lia]. rewrite app_nth2 by lia.
      rewrite <- (firstn_skipn (off + length v) a) at 2. rewrite (app_nth2 (firstn (off + length v) a)); rewrite firstn_length_le by lia; [|lia]. f_equal. lia.
Qed.
Definition agrees (g : nat -> T) (n : nat) (s : store (T := T)) : Prop :=
  fst s + length (snd s) <= n /\ forall k, covers s k -> nth (k - fst s) (snd s) dflt = g k.
Lemma stores_ok g : forall ss (a : list T), Forall (agrees g (length a)) ss -> exists a', mfold vstore a ss = MDone a' /\ length a' = length a /\
  (forall k, Exists (fun s => covers s k) ss -> nth k a' dflt = g k) /\ (forall k, nth k a dflt = g k -> nth k a' dflt = g k).
Proof.
  induction ss as [|s ss IH]; intros a H; cbn [mfold].
  - exists a. split; [reflexivity|]. split; [reflexivity|]. split; [intros k Hk; inversion Hk | auto].
  - inversion H as [|? ? [Hb Hg] Hr]; subst. destruct (vstore_ok a s Hb) as (a1 & -> & L1 & C1 & C2). cbn [mbind].
    destruct (IH a1) as (a' & -> & L2 & D1 & D2); [now rewrite L1|]. exists a'. split; [reflexivity|]. split; [congruence|].
    assert (HD : forall k, covers s k \/ ~ covers s k) by (intros k; unfold covers; lia).
    split.
    + intros k Hk. inversion Hk as [? ? Hc|? ? Hc]; subst; [|now apply D1]. apply D2. rewrite C1 by exact Hc. now apply Hg.
    + intros k Hk. apply D2. destruct (HD k) as [Hc|Hc]; [rewrite C1 by exact Hc; now apply Hg | now rewrite C2].
Qed.
End Mem.

Lemma mmap_exists {X Y} (f : X -> mres Y) (Q : X -> Y -> Prop) l : (forall x, In x l -> exists y, f x = MDone y /\ Q x y) -> exists ys, mmap f l = MDone ys /\ Forall2 Q l ys.
Proof.
  induction l as [|x l IH]; intros H; [exists []; split; [reflexivity | constructor]|].
  destruct (H x (or_introl eq_refl)) as (y & E & Hy). destruct IH as (ys & E' & Hys); [intros; apply H; now right|].
  exists (y :: ys). cbn [mmap]. rewrite E. cbn [mbind]. rewrite E'. split; [reflexivity | now constructor].
Qed.
Lemma Forall2_nth_l {X Y} (Q : X -> Y -> Prop) l l' : Forall2 Q l l' -> forall x, In x l -> exists y, In y l' /\ Q x y.
Proof. induction 1 as [|a b l l' H HF IH]; intros x Hx; [destruct Hx|]. destruct Hx as [<-|Hx]; [exists b; split; [now left | exact H]|]. destruct (IH x Hx) as (y & Hy & HQ). exists y. split; [now right | exact HQ]. Qed.
Lemma Forall2_nth_r {X Y} (Q : X -> Y -> Prop) l l' : Forall2 Q l l' -> forall y, In y l' -> exists x, In x l /\ Q x y.
Proof. induction 1 as [|a b l l' H HF IH]; intros y Hy; [destruct Hy|]. destruct Hy as [<-|Hy]; [exists a; split; [now left | exact H]|]. destruct (IH y Hy) as (x & Hx & HQ). exists x. split; [now right | exact HQ]. Qed.
Lemma interleaving_perm {X} (tasks : list (list X)) l : interleaving tasks l -> Permutation l (concat tasks).
Proof.
  induction 1 as [tasks H|l1 x t l2 r H IH].
  - induction H as [|t ts Ht Hts IHt]; [reflexivity|]. subst t. exact IHt.
  - rewrite concat_app in *. cbn [concat] in *. rewrite <- app_comm_cons. rewrite <- Permutation_middle. now constructor.
Qed.

Section P.
Context (o : nops) (td : string -> bool).
Local Notation ex := (expr (num o)).
Context (lname : fid (num o) -> list ex -> string) (fname : fid (num o) -> string).
Context (neq : num o -> num o -> bool) (feq : fid (num o) -> fid (num o) -> bool) (share : list ex -> list (dag (num o))).
Hypothesis Hsh : forall l, map erase (share l) = l /\ consistent (share l).
Context (ty : string) (simd fuel : nat).
Local Notation make es vars bs compact parallel := (make_cfunc o td lname fname neq feq share ty simd fuel es vars bs compact parallel).
Context {T : Type} (A : arith o T) (dflt : T).
Hypothesis HA : carith_ok o td A neq feq.
Context (es vars : list ex) (vs : list string) (bs : nat) (compact parallel : bool) (c : cfunc o).
Hypothesis HN : compact = true -> names_ok o (used o es) lname.
Hypothesis Hm : make es vars bs compact parallel = MDone c.
Hypothesis HCV : check_vars o es vars = Some vs.
Local Notation cval := (cval o td A).

Lemma vs_len : length vars = length vs.
Proof. destruct (proj1 (check_vars_ok o es vars vs) HCV) as (_ & -> & _). apply map_length. Qed.
Lemma make_fields : cf_nvars o c = length vs /\ cf_nouts o c = length es /\ cf_nparams o c = get_param_size o es /\
  cf_td o c = existsb (is_time_dependent o td) es /\ cf_batch o c = if Nat.eqb bs 0 then simd else bs.
Proof.
  destruct (make_inv o td lname fname neq feq share ty simd fuel es vars bs compact parallel c Hm) as (vs' & d & _ & _ & E & _).
  rewrite E. cbn. rewrite vs_len. auto.
Qed.

(* --- single_eval ------------------------------------------------------------------------------------ *)
Lemma single_spec tape outputs inputs pars time : tape_ok o (cf_code o c) tape ->
  single_args_ok (length vs) (length es) (get_param_size o es) (existsb (is_time_dependent o td) es) outputs inputs pars time ->
  exists out, single_eval o td A dflt c tape outputs inputs pars time = MDone out /\ length out = length outputs /\
    forall i e, nth_error es i = Some e ->
      nth i out dflt = cval (bind dflt vs inputs) (fun p => match pars with Some l => nth p l dflt | None => dflt end) time (cfunc_passes o e).
Proof.
  intros Ht (H1 & H2 & H3 & H4). destruct make_fields as (F1 & F2 & F3 & F4 & _). unfold single_eval.
  rewrite F1, F2, F3, F4, H1, H2, !Nat.eqb_refl. cbn [negb].
  set (np := get_param_size o es) in *. set (tdb := existsb (is_time_dependent o td) es) in *.
  replace (negb (Nat.eqb np 0) && match pars with None => true | Some _ => false end) with false
    by (destruct pars; [now rewrite andb_false_r|]; rewrite H3; reflexivity).
  replace (match pars with Some p => negb (Nat.eqb (length p) np) | None => false end) with false
    by (destruct pars; [rewrite H3, Nat.eqb_refl; reflexivity | reflexivity]).
  replace (tdb && match time with None => true | Some _ => false end) with false
    by (destruct time; [now rewrite andb_false_r|]; destruct tdb; [destruct (H4 eq_refl eq_refl) | reflexivity]).
  set (xpar := fun p (_ : nat) => match pars with Some l => nth p l dflt | None => dflt end).
  destruct (call_stores o td lname fname neq feq share Hsh ty simd fuel A dflt es vars vs bs compact parallel c 1 1 (Some (inputs, 0)) (data pars)
              (data (match time with Some t => Some [t] | None => None end)) (fun i _ => nth i inputs dflt) xpar (fun _ => time) tape HA HN Hm HCV Ht) as (ss & -> & HP).
  - intros i Hi. rewrite (vload_ok dflt) by lia. f_equal. apply vec_ext. intros l Hl. f_equal. lia.
  - intros i Hi. fold np in Hi. unfold xpar. destruct pars as [l|]; [|lia]. cbn [data]. rewrite (vload_ok dflt) by lia. f_equal. apply vec_ext. intros k Hk. f_equal. lia.
  - intros E. fold tdb in E. destruct time as [t|]; [|destruct (H4 E eq_refl)]. exists (fun _ => t). split; [reflexivity | auto].
  - cbn [mbind].
    set (W := fun e => cval (bind dflt vs inputs) (fun p => xpar p 0) time (cfunc_passes o e)).
    assert (EB : forall ins : list T, length ins = length vs -> map (fun i => nth i ins dflt) (seq 0 (length vs)) = ins).
    { clear. intros ins <-. induction ins as [|x l IH]; [reflexivity|]. cbn. f_equal. rewrite <- seq_shift, map_map. exact IH. }
    assert (HS : forall s, In s ss <-> exists j e, nth_error es j = Some e /\ s = (j, [W e])).
    { intros s.
      assert (Hst : forall l k, map (fun p => (1 * fst p, vec 1 (out_val o td A dflt (fun i _ => nth i inputs dflt) xpar (fun _ => time) vs (snd p)))) (combine (seq k (length l)) l) = map (fun p => (fst p, [W (snd p)])) (combine (seq k (length l)) l)).
      { intros l k. apply map_ext. intros [j e]. cbn [fst snd]. f_equal; [lia|]. unfold vec, out_val. cbn [seq map]. now rewrite EB. }
      split.
      - intros Hs. apply (Permutation_in _ HP) in Hs. unfold stores in Hs. rewrite Hst in Hs. apply in_map_iff in Hs. destruct Hs as ([j e] & <- & Hj).
        exists j, e. split; [|reflexivity]. apply In_nth_error in Hj. destruct Hj as (n & Hn).
        assert (G : forall (l : list ex) k n, nth_error (combine (seq k (length l)) l) n = Some (j, e) -> j = k + n /\ nth_error l n = Some e).
        { clear. induction l as [|x l IH]; intros k [|n] H; cbn in *; try discriminate; [injection H as <- <-; split; [lia | reflexivity]|]. apply IH in H. destruct H. split; [lia | assumption]. }
        destruct (G es 0 n Hn) as [-> Hn']. exact Hn'.
      - intros (j & e & He & ->). apply (Permutation_in _ (Permutation_sym HP)). unfold stores. rewrite Hst. apply in_map_iff. exists (j, e). split; [reflexivity|].
        assert (G : forall (l : list ex) k n, nth_error l n = Some e -> In (k + n, e) (combine (seq k (length l)) l)).
        { clear. induction l as [|x l IH]; intros k [|n] H; cbn in *; try discriminate; [injection H as ->; left; f_equal; lia|]. right. replace (k + S n) with (S k + n) by lia. now apply IH. }
        exact (G es 0 j He). }
    destruct (stores_ok dflt (fun k => match nth_error es k with Some e => W e | None => dflt end) ss outputs) as (out & -> & L & C & _).
    + apply Forall_forall. intros s Hs. apply HS in Hs. destruct Hs as (j & e & He & ->). unfold agrees, covers. cbn [fst snd length].
      assert (j < length es) by (apply nth_error_Some; congruence). split; [lia|]. intros k Hk. replace k with j by lia. rewrite He, Nat.sub_diag. reflexivity.
    + exists out. split; [reflexivity|]. split; [congruence|]. intros i e He. rewrite C.
      * now rewrite He.
      * apply Exists_exists. exists (i, [W e]). split; [apply HS; eauto|]. unfold covers. cbn. lia.
Qed.
Lemma single_invalid tape outputs inputs pars time :
  ~ single_args_ok (length vs) (length es) (get_param_size o es) (existsb (is_time_dependent o td) es) outputs inputs pars time ->
  single_eval o td A dflt c tape outputs inputs pars time = MThrow.
Proof.
  intros H. destruct make_fields as (F1 & F2 & F3 & F4 & _). unfold single_eval. rewrite F1, F2, F3, F4. unfold single_args_ok in H.
  destruct (Nat.eqb_spec (length outputs) (length es)); cbn [negb]; [|reflexivity].
  destruct (Nat.eqb_spec (length inputs) (length vs)); cbn [negb]; [|reflexivity].
  destruct pars as [p|].
  - rewrite andb_false_r. destruct (Nat.eqb_spec (length p) (get_param_size o es)); cbn [negb]; [|reflexivity].
    destruct time; [exfalso; apply H; repeat split; auto; discriminate|]. destruct (existsb _ es); [reflexivity|]. exfalso. apply H. repeat split; auto; discriminate.
  - destruct (Nat.eqb_spec (get_param_size o es) 0); cbn [negb andb]; [|reflexivity].
    destruct time; [exfalso; apply H; repeat split; auto; discriminate|]. destruct (existsb _ es); [reflexivity|]. exfalso. apply H. repeat split; auto; discriminate.
Qed.

(* --- multi_eval --------------------------------------------------------------------------------------- *)
Section Multi.
Context (tapes : nat -> nat -> list (list T)) (outputs inputs : mat (T := T)) (pars : option (mat (T := T))) (times : option (list T)).
Hypothesis Ht : forall b off, tape_ok o (cf_code o c) (tapes b off).
Hypothesis Hargs : multi_args_ok (length vs) (length es) (get_param_size o es) (existsb (is_time_dependent o td) es) outputs inputs pars times.
Hypothesis Hmo : mat_ok outputs.
Hypothesis Hmi : mat_ok inputs.
Hypothesis Hmp : match pars with Some p => mat_ok p | None => True end.
Hypothesis Hbatch : 0 < cf_batch o c.
Local Notation nc := (m_cols outputs).
Local Notation pd := (match pars with Some p => Some (m_data p) | None => None end).
Definition W (e : ex) (k : nat) : T := cval (col_vars dflt vs inputs k) (col_pars dflt pars k) (col_time times k) (cfunc_passes o e).
Local Notation inv := (invoke o td A dflt c tapes nc (m_data inputs) pd times).
(* The stores of the evaluations at columns off, ..., off + b - 1. *)
Definition task (b off : nat) (ss : list (store (T := T))) : Prop :=
  (forall s, In s ss -> exists j e, nth_error es j = Some e /\ s = (off + nc * j, vec b (fun l => W e (off + l)))) /\
  forall j e, nth_error es j = Some e -> In (off + nc * j, vec b (fun l => W e (off + l))) ss.
Lemma invoke_ok b off : off + b <= nc -> exists ss, inv b off = MDone ss /\ task b off ss.
Proof.
  intros Hoff. destruct Hargs as (H1 & H2 & H3 & H4 & H5). destruct make_fields as (F1 & F2 & F3 & F4 & _). unfold invoke. rewrite F1, F3, F4.
  unfold mat_ok in *.
  destruct (call_stores o td lname fname neq feq share Hsh ty simd fuel A dflt es vars vs bs compact parallel c b nc
     (off_ptr (Nat.ltb 0 (length vs)) (Some (m_data inputs)) off) (off_ptr (Nat.ltb 0 (get_param_size o es)) pd off)
     (off_ptr (existsb (is_time_dependent o td) es) times off)
     (fun i l => entry dflt inputs i (off + l)) (fun i l => col_pars dflt pars (off + l) i) (fun l => col_time times (off + l)) (tapes b off) HA HN Hm HCV (Ht b off)) as (ss & -> & HP).
  - intros i Hi. destruct (Nat.ltb_spec 0 (length vs)); [|lia]. cbn [off_ptr]. assert (nc * (i + 1) <= nc * length vs) by (apply Nat.mul_le_mono_l; lia).
    rewrite (vload_ok dflt) by (rewrite Hmi, H2, H3; lia). f_equal. apply vec_ext. intros l Hl. unfold entry. f_equal. rewrite H3. lia.
  - intros i Hi. destruct (Nat.ltb_spec 0 (get_param_size o es)); [|lia]. destruct pars as [p|]; [|lia]. destruct H4 as [H4 H6]. cbn [off_ptr].
    assert (nc * (i + 1) <= nc * get_param_size o es) by (apply Nat.mul_le_mono_l; lia).
    rewrite (vload_ok dflt) by (rewrite Hmp, H4, H6; lia). f_equal. apply vec_ext. intros l Hl. unfold col_pars, entry. f_equal. rewrite H6. lia.
  - intros E. rewrite E in *. destruct times as [t|]; [|discriminate]. cbn [off_ptr]. exists (fun l => nth (off + 0 + l) t dflt). split; [apply (vload_ok dflt); lia|].
    intros l Hl. cbn [col_time]. rewrite Nat.add_0_r. apply List.nth_error_nth'. lia.
  - cbn [mbind]. eexists. split; [reflexivity|].
    assert (Hout : forall e, vec b (out_val o td A dflt (fun i l => entry dflt inputs i (off + l)) (fun i l => col_pars dflt pars (off + l) i) (fun l => col_time times (off + l)) vs e) = vec b (fun l => W e (off + l))).
    { intros e. apply vec_ext. intros l _. reflexivity. }
    split.
    + intros s Hs. apply in_map_iff in Hs. destruct Hs as (s0 & <- & Hs). apply (Permutation_in _ HP) in Hs. unfold stores in Hs. apply in_map_iff in Hs.
      destruct Hs as ([j e] & <- & Hj). exists j, e. cbn [fst snd]. split.
      * apply In_nth_error in Hj. destruct Hj as (n & Hn).
        assert (G : forall (l : list ex) k n, nth_error (combine (seq k (length l)) l) n = Some (j, e) -> j = k + n /\ nth_error l n = Some e).
        { clear. induction l as [|x l IH]; intros k [|n] H; cbn in *; try discriminate; [injection H as <- <-; split; [lia | reflexivity]|]. apply IH in H. destruct H. split; [lia | assumption]. }
        destruct (G es 0 n Hn) as [-> Hn']. exact Hn'.
      * unfold bump_store. cbn [fst snd]. now rewrite Hout.
    + intros j e He. apply in_map_iff. exists (nc * j, vec b (fun l => W e (off + l))). split; [reflexivity|]. apply (Permutation_in _ (Permutation_sym HP)).
      unfold stores. apply in_map_iff. exists (j, e). split; [cbn [fst snd]; now rewrite Hout|].
      assert (G : forall (l : list ex) k n, nth_error l n = Some e -> In (k + n, e) (combine (seq k (length l)) l)).
      { clear. induction l as [|x l IH]; intros k [|n] H; cbn in *; try discriminate; [injection H as ->; left; f_equal; lia|]. right. replace (k + S n) with (S k + n) by lia. now apply IH. }
      exact (G es 0 j He).
Qed.
Local Notation nb := (nc / cf_batch o c).
Lemma nb_le : nb * cf_batch o c <= nc.
Proof. rewrite Nat.mul_comm. apply Nat.mul_div_le. lia. Qed.
Lemma blocks_ok : exists bl, blocks o td A dflt c tapes nc (m_data inputs) pd times = MDone bl /\
  Forall2 (fun k ss => task (cf_batch o c) (k * cf_batch o c) ss) (seq 0 nb) bl.
Proof.
  unfold blocks, n_blocks. apply mmap_exists. intros k Hk. apply in_seq in Hk. apply invoke_ok. pose proof nb_le.
  assert ((k + 1) * cf_batch o c <= nb * cf_batch o c) by (apply Nat.mul_le_mono_r; lia). lia.
Qed.
Lemma remainder_ok : exists rl, remainder o td A dflt c tapes nc (m_data inputs) pd times = MDone rl /\
  Forall2 (fun k ss => task 1 k ss) (seq (nb * cf_batch o c) (nc - nb * cf_batch o c)) rl.
Proof.
  unfold remainder, n_blocks. apply mmap_exists. intros k Hk. apply in_seq in Hk. apply invoke_ok. pose proof nb_le. lia.
Qed.
Definition target_val (x : nat) : T := match nth_error es (x / nc) with Some e => W e (x mod nc) | None => dflt end.
Lemma div_mod_pos off j l b : off + b <= nc -> l < b -> (off + nc * j + l) / nc = j /\ (off + nc * j + l) mod nc = off + l.
Proof.
  intros H1 H2. assert (nc <> 0) by lia. replace (off + nc * j + l) with ((off + l) + j * nc) by lia.
  rewrite Nat.div_add, Nat.mod_add, Nat.div_small, Nat.mod_small by lia. split; lia.
Qed.
Lemma all_stores bl rl ss : Forall2 (fun k ss => task (cf_batch o c) (k * cf_batch o c) ss) (seq 0 nb) bl ->
  Forall2 (fun k ss => task 1 k ss) (seq (nb * cf_batch o c) (nc - nb * cf_batch o c)) rl ->
  Permutation ss (concat bl ++ concat rl) ->
  exists out, mfold vstore (m_data outputs) ss = MDone out /\ length out = length (m_data outputs) /\
    forall i k e, nth_error es i = Some e -> k < nc -> nth (i * nc + k) out dflt = W e k.
Proof.
  intros HB HR HP. destruct Hargs as (H1 & _). unfold mat_ok in Hmo. rewrite H1 in Hmo. pose proof nb_le as Hnb.
  assert (HT : forall s, In s ss -> exists b off j e, off + b <= nc /\ nth_error es j = Some e /\ s = (off + nc * j, vec b (fun l => W e (off + l)))).
  { intros s Hs. apply (Permutation_in _ HP) in Hs. apply in_app_iff in Hs. destruct Hs as [Hs|Hs]; apply in_concat in Hs; destruct Hs as (t & Htk & Hs).
    - destruct (Forall2_nth_r _ _ _ HB t Htk) as (k & Hk & HK). apply in_seq in Hk. destruct HK as [HK _]. destruct (HK s Hs) as (j & e & He & ->).
      exists (cf_batch o c), (k * cf_batch o c), j, e. split; [|auto]. assert ((k + 1) * cf_batch o c <= nb * cf_batch o c) by (apply Nat.mul_le_mono_r; lia). lia.
    - destruct (Forall2_nth_r _ _ _ HR t Htk) as (k & Hk & HK). apply in_seq in Hk. destruct HK as [HK _]. destruct (HK s Hs) as (j & e & He & ->).
      exists 1, k, j, e. split; [lia | auto]. }
  destruct (stores_ok dflt target_val ss (m_data outputs)) as (out & E & L & C & _).
  - apply Forall_forall. intros s Hs. destruct (HT s Hs) as (b & off & j & e & Hb & He & ->). unfold agrees, covers. cbn [fst snd]. rewrite vec_len.
    assert (Hj : j < length es) by (apply nth_error_Some; congruence). assert (nc * (j + 1) <= nc * length es) by (apply Nat.mul_le_mono_l; lia).
    split; [rewrite Hmo; lia|]. intros x Hx. unfold target_val. replace x with (off + nc * j + (x - (off + nc * j))) by lia.
    destruct (div_mod_pos off j (x - (off + nc * j)) b Hb) as [-> ->]; [lia|]. rewrite He. rewrite vec_nth by lia. f_equal. lia.
  - exists out. split; [exact E|]. split; [exact L|]. intros i k e He Hk.
    assert (Ex : target_val (i * nc + k) = W e k).
    { unfold target_val. replace (i * nc + k) with (0 + nc * i + k) by lia. destruct (div_mod_pos 0 i k nc) as [-> ->]; try lia. now rewrite He. }
    rewrite C; [exact Ex|]. apply Exists_exists. destruct (Nat.lt_ge_cases k (nb * cf_batch o c)) as [H|H].
    + assert (Hq : k / cf_batch o c < nb) by (apply Nat.div_lt_upper_bound; lia).
      destruct (Forall2_nth_l _ _ _ HB (k / cf_batch o c)) as (t & Htk & [_ HK]); [apply in_seq; lia|]. specialize (HK i e He).
      eexists. split; [apply (Permutation_in _ (Permutation_sym HP)); apply in_app_iff; left; apply in_concat; exists t; split; [exact Htk | exact HK]|].
      unfold covers. cbn [fst snd]. rewrite vec_len. pose proof (Nat.div_mod k (cf_batch o c)). pose proof (Nat.mod_upper_bound k (cf_batch o c)). lia.
    + destruct (Forall2_nth_l _ _ _ HR k) as (t & Htk & [_ HK]); [apply in_seq; lia|]. specialize (HK i e He).
      eexists. split; [apply (Permutation_in _ (Permutation_sym HP)); apply in_app_iff; right; apply in_concat; exists t; split; [exact Htk | exact HK]|].
      unfold covers. cbn [fst snd]. rewrite vec_len. lia.
Qed.
Lemma no_overlap b off j e b' off' j' e' : off + b <= nc -> off' + b' <= nc -> (off + b <= off' \/ off' + b' <= off) ->
  overlap (off + nc * j, vec b (fun l => W e (off + l))) (off' + nc * j', vec b' (fun l => W e' (off' + l))) = false.
Proof.
  intros Hb Hb' Hd. unfold overlap. cbn [fst snd]. rewrite !vec_len. apply andb_false_iff. rewrite !Nat.ltb_ge.
  destruct (Nat.lt_trichotomy j j') as [H|[->|H]]; [|lia|].
  - assert (nc * (j + 1) <= nc * j') by (apply Nat.mul_le_mono_l; lia). lia.
  - assert (nc * (j' + 1) <= nc * j) by (apply Nat.mul_le_mono_l; lia). lia.
Qed.
Lemma no_race bl rl : Forall2 (fun k ss => task (cf_batch o c) (k * cf_batch o c) ss) (seq 0 nb) bl ->
  Forall2 (fun k ss => task 1 k ss) (seq (nb * cf_batch o c) (nc - nb * cf_batch o c)) rl ->
  race (bl ++ [concat rl]) = false.
Proof.
  intros HB HR. pose proof nb_le as Hnb. set (B := cf_batch o c) in *.
  assert (G : forall n k bl, Forall2 (fun k ss => task B (k * B) ss) (seq k n) bl -> k + n = nc / B -> race (bl ++ [concat rl]) = false).
  { clear HB bl. induction n as [|n IH]; intros k bl HB Hk; inversion HB as [|? t ? ts Htk Hts]; subst.
    - cbn. rewrite orb_false_r. induction (concat rl) as [|x l IHl]; [reflexivity | exact IHl].
    - cbn [app race]. rewrite (IH (S k) ts Hts) by lia. rewrite orb_false_r.
      destruct (existsb _ t) eqn:E; [|reflexivity]. exfalso. apply existsb_exists in E. destruct E as (s & Hs & E). apply existsb_exists in E. destruct E as (t' & Ht' & E).
      apply existsb_exists in E. destruct E as (s' & Hs' & E).
      destruct (proj1 Htk s Hs) as (j & e & He & ->). assert (H1 : (k + 1) * B <= (nc / B) * B) by (apply Nat.mul_le_mono_r; lia).
      apply in_app_iff in Ht'. destruct Ht' as [Ht'|[<-|[]]].
      + destruct (Forall2_nth_r _ _ _ Hts t' Ht') as (k' & Hk' & HK'). apply in_seq in Hk'. destruct (proj1 HK' s' Hs') as (j' & e' & He' & ->).
        assert (H2 : (k' + 1) * B <= (nc / B) * B) by (apply Nat.mul_le_mono_r; lia). assert (H3 : (k + 1) * B <= k' * B) by (apply Nat.mul_le_mono_r; lia).
        rewrite no_overlap in E; [discriminate | lia..].
      + apply in_concat in Hs'. destruct Hs' as (t' & Ht' & Hs'). destruct (Forall2_nth_r _ _ _ HR t' Ht') as (k' & Hk' & HK'). apply in_seq in Hk'.
        destruct (proj1 HK' s' Hs') as (j' & e' & He' & ->). rewrite no_overlap in E; [discriminate | lia..]. }
  now apply (G (nc / B) 0 bl).
Qed.
Lemma multi_spec sched heur bp : (forall tasks, interleaving tasks (sched tasks)) ->
  exists out, multi_eval o td A dflt c tapes sched heur outputs inputs pars times bp = MDone out /\ length out = length (m_data outputs) /\
    forall i k e, nth_error es i = Some e -> k < nc -> nth (i * nc + k) out dflt = W e k.
Proof.
  intros Hsched. destruct make_fields as (F1 & F2 & F3 & F4 & _). unfold multi_eval. rewrite F1, F2, F3, F4.
  destruct Hargs as (H1 & H2 & H3 & H4 & H5). rewrite H1, H2, H3, !Nat.eqb_refl. cbn [negb].
  replace (negb (Nat.eqb (get_param_size o es) 0) && match pars with None => true | Some _ => false end) with false
    by (destruct pars; [now rewrite andb_false_r|]; rewrite H4; reflexivity).
  replace (match pars with Some p => negb (Nat.eqb (m_rows p) (get_param_size o es)) || negb (Nat.eqb (m_cols p) nc) | None => false end) with false
    by (destruct pars; [destruct H4 as [-> ->]; rewrite !Nat.eqb_refl; reflexivity | reflexivity]).
  replace (existsb (is_time_dependent o td) es && match times with None => true | Some _ => false end) with false
    by (destruct times; [now rewrite andb_false_r | rewrite H5; reflexivity]).
  replace (match times with Some t => negb (Nat.eqb (length t) nc) | None => false end) with false
    by (destruct times; [rewrite H5, Nat.eqb_refl; reflexivity | reflexivity]).
  destruct blocks_ok as (bl & EB & HB). destruct remainder_ok as (rl & ER & HR).
  destruct (match bp with Some b => b | None => heur end).
  - unfold multi_mt. rewrite EB. cbn [mbind]. rewrite ER. cbn [mbind]. rewrite (no_race bl rl HB HR).
    apply (all_stores bl rl); auto. rewrite (interleaving_perm _ _ (Hsched _)), concat_app. cbn [concat]. now rewrite app_nil_r.
  - unfold multi_st. rewrite EB. cbn [mbind]. rewrite ER. cbn [mbind]. now apply (all_stores bl rl).
Qed.
End Multi.
Lemma multi_invalid tapes sched heur outputs inputs pars times bp :
  ~ multi_args_ok (length vs) (length es) (get_param_size o es) (existsb (is_time_dependent o td) es) outputs inputs pars times ->
  multi_eval o td A dflt c tapes sched heur outputs inputs pars times bp = MThrow.
Proof.
  intros H. destruct make_fields as (F1 & F2 & F3 & F4 & _). unfold multi_eval. rewrite F1, F2, F3, F4. unfold multi_args_ok in H.
  destruct (Nat.eqb_spec (m_rows outputs) (length es)); cbn [negb]; [|reflexivity].
  destruct (Nat.eqb_spec (m_rows inputs) (length vs)); cbn [negb]; [|reflexivity].
  destruct (Nat.eqb_spec (m_cols inputs) (m_cols outputs)); cbn [negb]; [|reflexivity].
  assert (HT : ~ (match times with Some t => length t = m_cols outputs | None => existsb (is_time_dependent o td) es = false end) ->
    (if existsb (is_time_dependent o td) es && match times with None => true | Some _ => false end then MThrow
     else if match times with Some t => negb (Nat.eqb (length t) (m_cols outputs)) | None => false end then MThrow
     else if match bp with Some b => b | None => heur end
          then multi_mt o td A dflt c tapes (m_cols outputs) (m_data inputs) (match pars with Some p => Some (m_data p) | None => None end) times sched (m_data outputs)
          else multi_st o td A dflt c tapes (m_cols outputs) (m_data inputs) (match pars with Some p => Some (m_data p) | None => None end) times (m_data outputs)) = MThrow).
  { intros Hx. destruct times as [t|].
    - rewrite andb_false_r. destruct (Nat.eqb_spec (length t) (m_cols outputs)); [contradiction | reflexivity].
    - destruct (existsb _ es); [reflexivity | destruct (Hx eq_refl)]. }
  destruct pars as [p|].
  - rewrite andb_false_r. destruct (Nat.eqb_spec (m_rows p) (get_param_size o es)); cbn [negb orb]; [|reflexivity].
    destruct (Nat.eqb_spec (m_cols p) (m_cols outputs)); cbn [negb]; [|reflexivity]. apply HT. intros Hx. apply H. auto 8.
  - destruct (Nat.eqb_spec (get_param_size o es) 0); cbn [negb andb]; [|reflexivity]. apply HT. intros Hx. apply H. auto 8.
Qed.
End P.

