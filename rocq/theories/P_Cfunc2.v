(* Compiled functions: values of expressions on lanes; default mode. *)
From Coq Require Import String Bool ZArith Arith List Lia Permutation.
From Verif Require Import M_Expr M_Dag M_Dec S_Expr S_Dag S_Dec P_ExprSem P_Subs P_Dag P_Dec P_DecM P_DecF P_Cse P_Sort P_DecH P_Vars P_DecX P_DecP.
From Verif Require Import M_Taylor M_Adj P_Adj2 P_Cfunc1 M_Cfunc S_Cfunc.
Import ListNotations.
Local Open Scope nat_scope.
Set Bullet Behavior "Strict Subproofs".

Section P.
Context (o : nops) (td : string -> bool) {T : Type} (A : arith o T) (dflt : T).
Local Notation ex := (expr (num o)).
Local Notation elt := (expr (num o) * list nat)%type.
Local Notation mexp l := (map (@fst ex (list nat)) l).
Local Notation cval := (cval o td A).

(* --- An interpretation which remembers literals ---------------------------------------------------- *)
Definition info (e : ex) : palgo * bool := (pow_algo o e, is_neg1 o e).
Local Notation noinf := (PGen, false).
Definition val_algo (f : fid (num o)) (l : list (palgo * bool)) : palgo :=
  match f, l with
  | Fpow, [_; i] => fst i
  | Fprod, i :: _ :: _ => if snd i then PNegation else PGen
  | _, _ => PGen
  end.
Lemma algo_val f args : algo_of o f args = val_algo f (map info args).
Proof. destruct f; try reflexivity; destruct args as [|a [|b [|c l]]]; reflexivity. Qed.
Definition calg (pars : nat -> T) (t : option T) : alg (num o) (T * (palgo * bool)) :=
  mkAlg (fun x => (r_num o A x, info (ENum x))) (fun i => (pars i, noinf))
        (fun f vs => (lane_fun o A f (val_algo f (map snd vs)) (if fid_td o td f then t else None) (map fst vs), noinf)).
Definition inj (x : T) : T * (palgo * bool) := (x, noinf).
Lemma gval_calg pars t vars e : gval (calg pars t) (fun s => inj (vars s)) e = (cval vars pars t e, info e).
Proof.
  induction e as [x|s|i|f args IH] using expr_ind'; [reflexivity..|]. cbn [gval calg a_fun S_Cfunc.cval]. rewrite algo_val.
  assert (E : map (gval (calg pars t) (fun s => inj (vars s))) args = map (fun e => (cval vars pars t e, info e)) args) by now apply map_ext_Forall.
  rewrite E, !map_map. cbn [fst snd]. f_equal.
Qed.
Lemma calg_respects neq feq pars t : carith_ok o td A neq feq -> respects (calg pars t) neq feq.
Proof.
  intros H. split.
  - intros x y E. destruct (co_num _ _ _ _ _ H x y E) as (H1 & H2 & H3). unfold calg, info. cbn [a_num]. now rewrite H1, H2, H3.
  - intros f g l E. destruct (co_fun _ _ _ _ _ H f g E) as (H1 & H2 & H3 & H4). cbn [calg a_fun]. rewrite H3. f_equal.
    generalize (map fst l) (map snd l). intros vs is.
    assert (Hcase : f = g \/ (val_algo f is = PGen /\ val_algo g is = PGen /\
                    (forall a t, lane_fun o A f a t vs = r_fun o A f t vs) /\ forall a t, lane_fun o A g a t vs = r_fun o A g t vs)).
    { assert (HP : forall h : fid (num o), h <> Fpow -> h <> Fprod ->
        val_algo h is = PGen /\ forall a t, lane_fun o A h a t vs = r_fun o A h t vs).
      { intros h N1 N2. destruct h; try congruence; split; reflexivity. }
      destruct f; try (right; assert (N1 : g <> Fpow) by (intros ->; pose proof (proj2 H1 eq_refl); discriminate);
        assert (N2 : g <> Fprod) by (intros ->; pose proof (proj2 H2 eq_refl); discriminate); destruct (HP g N1 N2) as [E1 E2];
        split; [reflexivity|]; split; [exact E1|]; split; [reflexivity | exact E2]).
      - left. symmetry. now apply H2.
      - left. symmetry. now apply H1. }
    destruct Hcase as [->|(-> & -> & -> & ->)]; [reflexivity | apply H4].
Qed.
Lemma calg_sincos neq feq pars t : carith_ok o td A neq feq -> sincos (calg pars t).
Proof.
  intros H. split; intros l; cbn [calg a_fun]; f_equal; cbn [fid_td].
  - apply (co_sin _ _ _ _ _ H).
  - apply (co_cos _ _ _ _ _ H).
Qed.
Lemma bind_inj vs : forall ins s, bind (inj dflt) vs (map inj ins) s = inj (bind dflt vs ins s).
Proof. induction vs as [|v vs IH]; intros [|x ins] s; cbn; try reflexivity. destruct (String.eqb s v); [reflexivity | apply IH]. Qed.
Lemma gval_calg' pars t vars vars' e : (forall s, vars' s = inj (vars s)) -> gval (calg pars t) vars' e = (cval vars pars t e, info e).
Proof.
  intros H. rewrite <- gval_calg. clear - H. induction e as [x|s|i|f args IH] using expr_ind'; cbn [gval]; auto. f_equal. now apply map_ext_Forall.
Qed.

(* --- The values of the u variables --------------------------------------------------------------------- *)
Definition uenv (R : nat -> T) (s : string) : T := match uname_to_index s with Some i => R i | None => dflt end.
Lemma uenv_uname R i : uenv R (uname i) = R i.
Proof. unfold uenv. now rewrite uname_index. Qed.
Lemma run_values neq feq es vars vs share fuel d pars t ins : carith_ok o td A neq feq ->
  (forall l, map erase (share l) = l /\ consistent (share l)) ->
  check_vars o es vars = Some vs -> function_decompose o neq feq share fuel es vars = MDone d -> length ins = length vs ->
  exists R : nat -> T,
    (forall i, i < length vs -> R i = nth i ins dflt) /\
    (forall k e, nth_error (mexp (dc_mid o d)) k = Some e -> R (length vs + k) = cval (uenv R) pars t e) /\
    (forall j a e, nth_error (mexp (dc_out o d)) j = Some a -> nth_error es j = Some e ->
       cval (uenv R) pars t a = cval (bind dflt vs ins) pars t (cfunc_passes o e)).
Proof.
  intros HA Hsh HCV Hd Hl. destruct (function_decompose_correct o neq feq share es vars vs HCV Hsh) as (f0 & d' & Hd' & _ & _ & [HB HO] & HF & HV).
  assert (d' = d).
  { specialize (Hd' (Nat.max f0 fuel) (Nat.le_max_l _ _)). rewrite (function_decompose_mono o neq feq share fuel es vars d Hd) in Hd'; [|lia]. congruence. }
  subst d'. clear Hd'. specialize (HV _ (calg pars t) (inj dflt) (map inj ins) (calg_respects neq feq pars t HA) (calg_sincos neq feq pars t HA)).
  rewrite map_length in HV. specialize (HV Hl). set (mid := mexp (dc_mid o d)) in *.
  set (vals := run_mid (calg pars t) (inj dflt) (map inj ins) mid).
  assert (Lv : length vals = length vs + length mid) by (unfold vals; now rewrite run_length, map_length, Hl).
  set (R := fun i => fst (nth i vals (inj dflt))). exists R.
  assert (HS : solves (calg pars t) (inj dflt) (map inj ins) mid vals) by (apply run_solves; rewrite map_length, Hl; exact HB).
  destruct HS as [HS1 HS2]. rewrite map_length, Hl in HS1, HS2.
  assert (HI : forall i, snd (nth i vals (inj dflt)) = noinf).
  { intros i. destruct (Nat.lt_ge_cases i (length vs)) as [H|H].
    - rewrite HS1 by exact H. rewrite (map_nth inj). reflexivity.
    - destruct (nth_error mid (i - length vs)) as [e|] eqn:E.
      + pose proof (HS2 _ _ E) as H2. replace (length vs + (i - length vs)) with i in H2 by lia. rewrite H2.
        rewrite Forall_forall in HF. destruct (HF e (nth_error_In _ _ E)) as (f & args & ->). reflexivity.
      + apply nth_error_None in E. rewrite nth_overflow by lia. reflexivity. }
  assert (HU : forall s, uval (inj dflt) vals s = inj (uenv R s)).
  { intros s. unfold uval, uenv, R. destruct (uname_to_index s) as [i|]; [|reflexivity]. unfold inj at 2.
    rewrite <- (HI i). apply surjective_pairing. }
  assert (HG : forall e, elt_val (calg pars t) (inj dflt) vals e = (cval (uenv R) pars t e, info e)).
  { intros e. rewrite elt_val_gval. now apply gval_calg'. }
  split; [|split].
  - intros i Hi. unfold R. rewrite HS1 by exact Hi. rewrite (map_nth inj). reflexivity.
  - intros k e He. unfold R at 1. rewrite (HS2 _ _ He), HG. reflexivity.
  - intros j a e Ha He. unfold run_dc in HV. fold vals in HV. rewrite (map_map (cfunc_passes o)) in HV.
    assert (E : nth_error (map (elt_val (calg pars t) (inj dflt) vals) (mexp (dc_out o d))) j =
                nth_error (map (fun x => gval (calg pars t) (bind (inj dflt) vs (map inj ins)) (cfunc_passes o x)) es) j) by now rewrite HV.
    rewrite (map_nth_error _ j _ Ha), (map_nth_error _ j _ He) in E. assert (E' : forall (X : Type) (x y : X), Some x = Some y -> x = y) by (intros; congruence). apply E' in E. rewrite HG in E.
    rewrite (gval_calg' pars t (bind dflt vs ins)) in E by apply bind_inj. now injection E.
Qed.

(* --- Vectors of lanes --------------------------------------------------------------------------------------- *)
Section Lanes.
Context (batch stride nv np : nat) (tdb : bool) (K : fid (num o) -> Prop) (ip pp tp : ptr (T := T)).
Context (xin xpar : nat -> nat -> T) (xt : nat -> option T).
Definition vec (g : nat -> T) : list T := map g (seq 0 batch).
Hypothesis Hin : forall i, i < nv -> vload ip (stride * i) batch = MDone (vec (xin i)).
Hypothesis Hpar : forall i, i < np -> vload pp (stride * i) batch = MDone (vec (xpar i)).
Hypothesis Htm : tdb = true -> exists tt, vload tp 0 batch = MDone (vec tt) /\ forall l, l < batch -> xt l = Some (tt l).

Lemma vec_ext g h : (forall l, l < batch -> g l = h l) -> vec g = vec h.
Proof. intros H. apply map_ext_in. intros l Hl. apply in_seq in Hl. apply H. lia. Qed.
Lemma vec_nth g l : l < batch -> nth l (vec g) dflt = g l.
Proof.
  intros H. unfold vec. rewrite nth_indep with (d' := g 0) by (rewrite map_length, seq_length; exact H). rewrite map_nth, seq_nth by exact H. reflexivity.
Qed.
Lemma vec_len g : length (vec g) = batch.
Proof. unfold vec. now rewrite map_length, seq_length. Qed.
Lemma vec_const x : repeat x batch = vec (fun _ => x).
Proof.
  assert (H : forall b k, repeat x b = map (fun _ => x) (seq k b)); [|apply H].
  induction b as [|b IH]; intros k; cbn; [reflexivity|]. f_equal. apply IH.
Qed.
Lemma lane_vecs l (gs : list (nat -> T)) : l < batch -> lane dflt l (map vec gs) = map (fun g => g l) gs.
Proof. intros H. unfold lane. rewrite map_map. apply map_ext. intros g. now apply vec_nth. Qed.

(* The expressions whose parameters and time are available. *)
Definition pok (x : ex) : Prop := match x with EPar i => i < np | _ => True end.
Definition qok (f : fid (num o)) : Prop := K f /\ (fid_td o td f = true -> tdb = true).
Definition fine : ex -> Prop := lin o pok qok.

Lemma vfun_ok f a (gs : list (nat -> T)) : qok f ->
  vfun o td A dflt batch tp f a (map vec gs) =
  MDone (vec (fun l => lane_fun o A f a (if fid_td o td f then xt l else None) (map (fun g => g l) gs))).
Proof.
  intros HQ. unfold vfun. destruct HQ as [_ HQ]. destruct (fid_td o td f).
  - destruct (Htm (HQ eq_refl)) as (tt & -> & Ht). cbn [mbind]. f_equal. apply vec_ext. intros l Hl.
    rewrite vec_nth, lane_vecs by exact Hl. now rewrite Ht.
  - f_equal. apply vec_ext. intros l Hl. now rewrite lane_vecs.
Qed.

Context (R : nat -> nat -> T).
Definition sval (e : ex) (l : nat) : T := cval (uenv (fun i => R i l)) (fun i => xpar i l) (xt l) e.
Lemma sval_fun f args l : sval (EFun f args) l = lane_fun o A f (algo_of o f args) (if fid_td o td f then xt l else None) (map (fun a => sval a l) args).
Proof. reflexivity. Qed.

(* --- Default mode --------------------------------------------------------------------------------------------- *)
Local Notation tape m := (map (fun i => vec (R i)) (seq 0 m)).
Lemma tape_nth m i : i < m -> nth_error (tape m) i = Some (vec (R i)).
Proof.
  intros H. rewrite nth_error_map. rewrite List.nth_error_nth' with (d := 0) by (now rewrite seq_length). now rewrite seq_nth.
Qed.
Lemma nc_arg_ok m a : arg_ok m a -> fine a -> nc_arg o A batch stride pp (tape m) a = MDone (vec (sval a)).
Proof.
  intros Ha Hf. destruct a as [x|s|i|f args]; cbn [nc_arg].
  - now rewrite vec_const.
  - destruct Ha as (j & Hj & ->). rewrite uname_index, tape_nth by exact Hj. f_equal. apply vec_ext. intros l _. unfold sval. cbn [S_Cfunc.cval]. now rewrite uenv_uname.
  - apply Hpar. apply (Hf (EPar i)). constructor.
  - destruct Ha.
Qed.
Lemma mmap_map {X Y} (f : X -> mres Y) (g : X -> Y) l : (forall x, In x l -> f x = MDone (g x)) -> mmap f l = MDone (map g l).
Proof.
  intros H. apply mmap_done. induction l as [|x l IH]; cbn; constructor; [apply H; now left | apply IH; intros; apply H; now right].
Qed.
Context (mid outs : list ex).
Hypothesis HW : well_formed nv mid outs.
Hypothesis HF : Forall (isf o) mid.
Hypothesis Hfm : Forall fine mid.
Hypothesis Hfo : Forall fine outs.
Hypothesis HR1 : forall i l, i < nv -> l < batch -> R i l = xin i l.
Hypothesis HR2 : forall k e l, nth_error mid k = Some e -> l < batch -> R (nv + k) l = sval e l.

Lemma nc_elt_ok k e : nth_error mid k = Some e -> nc_elt o td A dflt batch stride pp tp (tape (nv + k)) e = MDone (tape (nv + S k)).
Proof.
  intros He. rewrite Forall_forall in HF, Hfm. destruct (HF e (nth_error_In _ _ He)) as (f & args & Ee).
  pose proof (proj1 HW k e He) as Hok. pose proof (Hfm e (nth_error_In _ _ He)) as Hfe. subst e. cbn in Hok. cbn [nc_elt].
  rewrite (mmap_map (nc_arg o A batch stride pp (tape (nv + k))) (fun a => vec (sval a))).
  2: { intros a Ha. rewrite Forall_forall in Hok. apply nc_arg_ok; [now apply Hok|]. apply lin_args in Hfe. rewrite Forall_forall in Hfe. now apply Hfe. }
  cbn [mbind]. rewrite <- (map_map sval vec). rewrite vfun_ok by exact (lin_head o pok qok _ _ Hfe). cbn [mbind]. f_equal.
  replace (nv + S k) with (S (nv + k)) by lia. rewrite seq_S, map_app. f_equal. cbn. f_equal. apply vec_ext. intros l Hl.
  rewrite (HR2 k _ l He Hl), sval_fun, map_map. reflexivity.
Qed.
Lemma nc_fold : forall r k, skipn k mid = r -> mfold (nc_elt o td A dflt batch stride pp tp) (tape (nv + k)) r = MDone (tape (nv + (k + length r))).
Proof.
  induction r as [|e r IH]; intros k E; cbn [mfold].
  - now rewrite Nat.add_0_r.
  - assert (He : nth_error mid k = Some e).
    { clear - E. revert mid E. induction k as [|k IH]; intros m E; destruct m; cbn in *; try discriminate; [congruence | auto]. }
    rewrite (nc_elt_ok k e He). cbn [mbind]. rewrite IH; [do 3 f_equal; cbn [length]; lia|].
    clear - E. revert mid E. induction k as [|k IH]; intros m E; destruct m; cbn in *; try discriminate; [congruence | auto].
Qed.
Definition store_of (p : nat * ex) : store (T := T) := (stride * fst p, vec (sval (snd p))).
Lemma nc_call_ok (d : dcmp o) : length (dc_in o d) = nv -> mexp (dc_mid o d) = mid -> mexp (dc_out o d) = outs ->
  nc_call o td A dflt batch stride ip pp tp d = MDone (map store_of (combine (seq 0 (length outs)) outs)).
Proof.
  intros E1 E2 E3. unfold nc_call. rewrite E1.
  rewrite (mmap_map _ (fun i => vec (R i))).
  2: { intros i Hi. apply in_seq in Hi. rewrite Hin by lia. f_equal. apply vec_ext. intros l Hl. symmetry. apply HR1; [lia | exact Hl]. }
  cbn [mbind]. rewrite E2.
  pose proof (nc_fold mid 0 eq_refl) as HN. rewrite Nat.add_0_r in HN. rewrite HN. cbn [mbind]. clear HN.
  rewrite <- E3. rewrite map_length. rewrite (mmap_map _ (fun p : nat * elt => store_of (fst p, fst (snd p)))).
  - f_equal. generalize (dc_out o d) as l. intros l. generalize (seq 0 (length l)) as s. revert l.
    clear. induction l as [|x l IH]; intros [|i s]; cbn; try reflexivity. f_equal. apply IH.
  - intros [i p] Hp. cbn [fst snd]. apply in_combine_r in Hp.
    assert (Hp' : In (fst p) outs) by (rewrite <- E3; now apply in_map).
    rewrite nc_arg_ok; [reflexivity| |].
    + destruct HW as [_ HO]. rewrite Forall_forall in HO. now apply HO.
    + rewrite Forall_forall in Hfo. now apply Hfo.
Qed.
End Lanes.
End P.
