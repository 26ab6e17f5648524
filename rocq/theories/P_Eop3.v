(** A module never answers a request with the arrays of another data set or of another quantity. *)
From Coq Require Import Bool ZArith Ascii String List Lia.
From Verif Require Import M_Float M_Dag M_Taylor M_Eop S_Eop P_Eop2.
Import ListNotations.
Set Bullet Behavior "Strict Subproofs".

Lemma mdone_inj {A} (a b : A) : MDone a = MDone b -> a = b.
Proof. intros H. injection H. auto. Qed.

Section Mod.
Context {d o : fops} (cst : stype -> F d -> F o) (dl : lops d) (asec masec : F d) (utc2tt : F d -> option (F d)).
Notation ds_t := (data (eop_row d) + data (sw_row d))%type.
Notation arr := (list (F o)).

Definition dsize (x : ds_t) : nat := match x with inl a => length (d_table a) | inr a => length (d_table a) end.
Definition dts (x : ds_t) : string := match x with inl a => d_ts a | inr a => d_ts a end.
Definition did (x : ds_t) : string := match x with inl a => d_id a | inr a => d_id a end.

(** The columns, and the arrays that hold them. *)
Inductive col := CDE | CPX | CPY | CDX | CDY | CDS | CAP | CF | CFA.
Definition cname (c : col) : string * string :=
  match c with
  | CDE => ("eop", "date_tt_cy_j2000") | CPX => ("eop", "pm_x") | CPY => ("eop", "pm_y") | CDX => ("eop", "dX") | CDY => ("eop", "dY")
  | CDS => ("sw", "date_tt_cy_j2000") | CAP => ("sw", "Ap_avg") | CF => ("sw", "f107") | CFA => ("sw", "f107a_center81")
  end%string.
Definition cdate {Row} (mjd : Row -> F d) ty (rows : list Row) (a : arr) : Prop :=
  Forall2 (fun r t => exists c, utc2tt (mjd r) = Some c /\ ffin d c = true /\ t = cst ty c) rows a.
Definition cval {Row} (f : Row -> F d) ty (rows : list Row) (a : arr) : Prop := Forall2 (fun r y => y = cst ty (f r)) rows a.
Definition cspec (c : col) (x : ds_t) (ty : stype) (a : arr) : Prop :=
  match c, x with
  | CDE, inl t => cdate e_mjd ty (d_table t) a
  | CPX, inl t => cval (fun r => lmul dl (e_pm_x r) asec) ty (d_table t) a
  | CPY, inl t => cval (fun r => lmul dl (e_pm_y r) asec) ty (d_table t) a
  | CDX, inl t => cval (fun r => lmul dl (e_dX r) masec) ty (d_table t) a
  | CDY, inl t => cval (fun r => lmul dl (e_dY r) masec) ty (d_table t) a
  | CDS, inr t => cdate s_mjd ty (d_table t) a
  | CAP, inr t => cval s_Ap ty (d_table t) a
  | CF, inr t => cval s_f107 ty (d_table t) a
  | CFA, inr t => cval s_f107a ty (d_table t) a
  | _, _ => False
  end.
Definition ckind (c : col) (x : ds_t) : Prop :=
  match c, x with
  | (CDE | CPX | CPY | CDX | CDY), inl _ => True
  | (CDS | CAP | CF | CFA), inr _ => True
  | _, _ => False
  end.

Lemma cname_in c : In (cname c) cols.
Proof. destruct c; cbn; tauto. Qed.
Lemma cname_inj c c' : cname c = cname c' -> c = c'.
Proof. destruct c, c'; cbv; intros E; first [reflexivity|discriminate E]. Qed.
Lemma cspec_kind c x ty a : cspec c x ty a -> ckind c x.
Proof. destruct c, x; cbn; auto. Qed.

(** All the data sets of the history. *)
Context (H : list ds_t) (Hco : forall x y, In x H -> In y H -> coherent x y) (Htag : forall x, In x H -> tags_ok x).

Lemma same_data x y c : In x H -> In y H -> ckind c x -> ckind c y -> dsize x = dsize y -> dts x = dts y -> did x = did y -> x = y.
Proof.
  intros Hx Hy Kx Ky E1 E2 E3. specialize (Hco x y Hx Hy).
  destruct c, x as [[tx sx ix]|[tx sx ix]], y as [[ty' sy iy]|[ty' sy iy]]; cbn in *; try tauto; subst;
    rewrite (Hco E1 eq_refl eq_refl); auto.
Qed.
Lemma tags x : In x H -> tag_ok (dts x) /\ tag_ok (did x).
Proof. intros Hx. specialize (Htag x Hx). destruct x; auto. Qed.

Definition gkey (c : col) (x : ds_t) (ty : stype) : string :=
  global_name (fst (cname c)) (snd (cname c)) (dsize x) (dts x) (did x) (mangle_type ty 1).
Definition fkey (c : col) (x : ds_t) (ty : stype) (b : nat) : string :=
  func_name (fst (cname c)) (snd (cname c)) (dsize x) (dts x) (did x) (mangle_type ty b).

Lemma gkey_inj c x ty c' x' ty' : In x H -> In x' H -> ckind c x -> ckind c' x' -> gkey c x ty = gkey c' x' ty' ->
  c = c' /\ x = x' /\ ty = ty'.
Proof.
  intros Hx Hx' K K' E. destruct (tags x Hx), (tags x' Hx'). unfold gkey in E.
  apply gname_inj in E; auto using cname_in. destruct E as (E1 & E2 & E3 & E4 & E5).
  apply cname_inj in E1. subst c'. apply mangle_inj in E5.
  split; [auto|split; [|tauto]]. eapply same_data; eauto.
Qed.
Lemma fkey_inj c x ty b c' x' ty' b' : In x H -> In x' H -> ckind c x -> ckind c' x' -> fkey c x ty b = fkey c' x' ty' b' ->
  c = c' /\ x = x' /\ ty = ty'.
Proof.
  intros Hx Hx' K K' E. destruct (tags x Hx), (tags x' Hx'). unfold fkey in E.
  apply fname_inj in E; auto using cname_in. destruct E as (E1 & E2 & E3 & E4 & E5).
  apply cname_inj in E1. subst c'. apply mangle_inj in E5.
  split; [auto|split; [|tauto]]. eapply same_data; eauto.
Qed.

Definition dcol (c : col) : col := match c with CDE | CPX | CPY | CDX | CDY => CDE | _ => CDS end.
Definition fspec (c : col) (x : ds_t) (ty : stype) (f : arr * arr * Z) : Prop :=
  cspec (dcol c) x ty (fst (fst f)) /\ cspec c x ty (snd (fst f)) /\ snd f = Z.of_nat (dsize x) /\ (snd f < 2 ^ 32)%Z.

Definition gl_ok (m : module (o := o)) : Prop :=
  forall k a, lookup k (m_globals m) = Some a -> exists c x ty, In x H /\ k = gkey c x ty /\ cspec c x ty a.
Definition fn_ok (m : module (o := o)) : Prop :=
  forall k f, lookup k (m_funcs m) = Some f -> exists c x ty b, In x H /\ k = fkey c x ty b /\ fspec c x ty f.

Lemma get_array_ok {Row} m (dt : data Row) (x : ds_t) ty c getter m' a :
  length (d_table dt) = dsize x -> d_ts dt = dts x -> d_id dt = did x -> In x H -> ckind c x ->
  (forall a', mseq (map getter (d_table dt)) = MDone a' -> cspec c x ty a') ->
  gl_ok m -> get_array m dt ty (snd (cname c)) (fst (cname c)) getter = MDone (m', a) ->
  gl_ok m' /\ m_funcs m' = m_funcs m /\ cspec c x ty a.
Proof.
  intros E1 E2 E3 Hx K Hg G E. unfold get_array in E. rewrite E1, E2, E3 in E. fold (gkey c x ty) in E.
  destruct (lookup (gkey c x ty) (m_globals m)) as [a0|] eqn:El.
  - apply mdone_inj in E. injection E as <- <-. split; [auto|split; [auto|]].
    destruct (G _ _ El) as (c' & x' & ty' & Hx' & Ek & Hs).
    destruct (gkey_inj c x ty c' x' ty') as (-> & -> & ->); eauto using cspec_kind.
  - destruct (Z.leb _ _); [discriminate E|].
    destruct (mseq (map getter (d_table dt))) as [a0| | |] eqn:Em; cbn [mbind] in E; try discriminate E.
    apply mdone_inj in E. injection E as <- <-. cbn [m_funcs m_globals]. split; [|split; [auto|auto]].
    intros k a1. cbn [m_globals lookup]. destruct (String.eqb_spec k (gkey c x ty)) as [->|].
    + intros Ea. injection Ea as <-. exists c, x, ty. auto.
    + apply G.
Qed.

Lemma mseq_Forall2 {A B} (f : A -> mres B) xs ys : mseq (map f xs) = MDone ys -> Forall2 (fun x y => f x = MDone y) xs ys.
Proof.
  revert ys. induction xs as [|x xs IH]; cbn; intros ys E.
  - apply mdone_inj in E. subst. constructor.
  - destruct (f x) eqn:Ef; cbn [mbind] in E; try discriminate E.
    destruct (mseq (map f xs)); cbn [mbind] in E; try discriminate E. apply mdone_inj in E. subst. constructor; auto.
Qed.
Lemma date_getter_ok {Row} (mjd : Row -> F d) ty rows a :
  mseq (map (date_getter cst utc2tt mjd ty) rows) = MDone a -> cdate mjd ty rows a.
Proof.
  intros E. apply mseq_Forall2 in E. unfold cdate. induction E as [|r t rows a E _ IH]; constructor; auto.
  unfold date_getter in E. destruct (utc2tt (mjd r)) as [c|]; [|discriminate E].
  destruct (ffin d c) eqn:Ef; [|discriminate E]. apply mdone_inj in E. exists c. auto.
Qed.
Lemma value_getter_ok {Row} (f : Row -> F d) ty rows a : mseq (map (value_getter cst f ty) rows) = MDone a -> cval f ty rows a.
Proof.
  intros E. apply mseq_Forall2 in E. unfold cval. induction E as [|r t rows a E _ IH]; constructor; auto.
  apply mdone_inj in E. auto.
Qed.

Lemma get_func_ok {Row} m (dt : data Row) (x : ds_t) ty b c (mjd vcol : Row -> F d) m' f :
  length (d_table dt) = dsize x -> d_ts dt = dts x -> d_id dt = did x -> In x H -> ckind c x ->
  fst (cname c) = fst (cname (dcol c)) ->
  (forall a', cdate mjd ty (d_table dt) a' -> cspec (dcol c) x ty a') ->
  (forall a', cval vcol ty (d_table dt) a' -> cspec c x ty a') ->
  gl_ok m -> fn_ok m ->
  get_func cst utc2tt m dt ty b (fst (cname c)) (snd (cname c)) mjd vcol = MDone (m', f) ->
  gl_ok m' /\ fn_ok m' /\ fspec c x ty f.
Proof.
  intros E1 E2 E3 Hx K En Hd Hv G Fn E. unfold get_func in E. cbn zeta in E. rewrite E2, E3 in E.
  assert (Ek : func_name (fst (cname c)) (snd (cname c)) (length (d_table dt)) (dts x) (did x) (mangle_type ty b) = fkey c x ty b)
    by (unfold fkey; rewrite E1; auto).
  rewrite Ek in E. clear Ek.
  destruct (lookup (fkey c x ty b) (m_funcs m)) as [f0|] eqn:El.
  - apply mdone_inj in E. injection E as <- <-. split; [auto|split; [auto|]].
    destruct (Fn _ _ El) as (c' & x' & ty' & b' & Hx' & Ek & Hs).
    destruct (fkey_inj c x ty b c' x' ty' b') as (-> & -> & ->); eauto. destruct Hs as (_ & Hs & _). eauto using cspec_kind.
  - destruct (get_array m dt ty "date_tt_cy_j2000" (fst (cname c)) (date_getter cst utc2tt mjd ty)) as [[m1 ds]| | |] eqn:Ea;
      cbn [mbind] in E; try discriminate E.
    destruct (get_array m1 dt ty (snd (cname c)) (fst (cname c)) (value_getter cst vcol ty)) as [[m2 ys]| | |] eqn:Eb;
      cbn [mbind] in E; try discriminate E.
    destruct (Z.leb_spec (2 ^ 32) (Z.of_nat (length (d_table dt)))) as [|Hlt]; [discriminate E|]. apply mdone_inj in E. injection E as <- <-.
    assert (Es : snd (cname (dcol c)) = "date_tt_cy_j2000"%string) by (destruct c; auto).
    rewrite <- Es, En in Ea.
    apply (get_array_ok m dt x ty (dcol c)) in Ea; auto.
    + destruct Ea as (G1 & F1 & S1).
      apply (get_array_ok m1 dt x ty c) in Eb; auto.
      * destruct Eb as (G2 & F2 & S2).
        assert (FS : fspec c x ty (ds, ys, Z.of_nat (length (d_table dt)))).
        { split; [auto|split; [auto|]]. cbn [snd]. rewrite <- E1. auto. }
        split; [intros k a; apply (G2 k a)|split; [|auto]].
        intros k f. cbn [m_funcs lookup]. destruct (String.eqb_spec k (fkey c x ty b)) as [->|].
        -- intros Ef. injection Ef as <-. exists c, x, ty, b. auto.
        -- rewrite F2, F1. apply Fn.
      * intros a' Ea'. apply Hv. apply value_getter_ok; auto.
    + destruct c, x; cbn in K |- *; auto.
    + intros a' Ea'. apply Hd. apply date_getter_ok; auto.
Qed.

Lemma serve_ok m rq ty b m' f : In (req_data rq) H -> gl_ok m -> fn_ok m ->
  serve cst dl asec masec utc2tt m rq ty b = MDone (m', f) ->
  gl_ok m' /\ fn_ok m' /\ own cst utc2tt dl asec masec rq ty f.
Proof.
  intros Hx G Fn E.
  assert (X : exists c, ckind c (req_data rq) /\ gl_ok m' /\ fn_ok m' /\ fspec c (req_data rq) ty f /\
     (fspec c (req_data rq) ty f -> own cst utc2tt dl asec masec rq ty f)).
  { destruct rq as [dt|dt|dt|dt|dt|dt|dt]; cbn [serve q_name] in E;
    [exists CPX|exists CPY|exists CDX|exists CDY|exists CAP|exists CF|exists CFA];
    (split; [exact I|]);
    match goal with |- gl_ok _ /\ fn_ok _ /\ fspec ?c ?x _ _ /\ _ =>
      apply (get_func_ok m dt x ty b c) in E; [|reflexivity|reflexivity|reflexivity|exact Hx|exact I|reflexivity|intros a' Ha; exact Ha|intros a' Ha; exact Ha|exact G|exact Fn] end;
    destruct E as (G' & F' & S'); (split; [exact G'|split; [exact F'|split; [exact S'|]]]);
    destruct f as [[ds ys] n]; intros (X1 & X2 & X3 & X4); cbn [fst snd] in *; (split; [exact X3|split; [exact X4|split; [exact X1|exact X2]]]). }
  destruct X as (c & _ & G' & F' & S' & Ho). auto.
Qed.

Lemma serve_all_ok : forall rqs m fs, Forall (fun p => In (req_data (fst p)) H) rqs -> gl_ok m -> fn_ok m ->
  serve_all cst dl asec masec utc2tt m rqs = MDone fs ->
  Forall2 (fun p f => own cst utc2tt dl asec masec (fst p) (fst (snd p)) f) rqs fs.
Proof.
  induction rqs as [|(rq & (ty & b)) rqs IH]; intros m fs Hin G Fn E; cbn [serve_all] in E.
  - apply mdone_inj in E. subst. constructor.
  - inversion Hin; subst. cbn [fst] in *.
    destruct (serve cst dl asec masec utc2tt m rq ty b) as [[m' f]| | |] eqn:Es; cbn [mbind] in E; try discriminate E.
    destruct (serve_ok m rq ty b m' f) as (G' & F' & O'); auto.
    destruct (serve_all cst dl asec masec utc2tt m' rqs) as [fs'| | |] eqn:Er; cbn [mbind] in E; try discriminate E.
    apply mdone_inj in E. subst. constructor; [exact O'|]. eapply IH; eauto.
Qed.
End Mod.

(** ** No request fails if the dates can be converted and the tables are not too large. *)
Section Total.
Context {d o : fops} (cst : stype -> F d -> F o) (dl : lops d) (asec masec : F d) (utc2tt : F d -> option (F d)).
Definition conv_ok {Row} (mjd : Row -> F d) (dt : data Row) : Prop :=
  (Z.of_nat (length (d_table dt)) < 2 ^ 32)%Z /\
  forall r, In r (d_table dt) -> exists c, utc2tt (mjd r) = Some c /\ ffin d c = true.

Lemma get_array_total {Row} (m : module (o := o)) (dt : data Row) ty arr descr getter :
  (Z.of_nat (length (d_table dt)) < 2 ^ 32)%Z -> (forall r, In r (d_table dt) -> exists v, getter r = MDone v) ->
  exists m' a, get_array m dt ty arr descr getter = MDone (m', a).
Proof.
  intros Hn Hg. unfold get_array. destruct (lookup _ _); [eauto|].
  destruct (Z.leb_spec (2 ^ 32) (Z.of_nat (length (d_table dt)))); [lia|].
  assert (X : exists a, mseq (map getter (d_table dt)) = MDone a).
  { clear Hn H. induction (d_table dt) as [|r rows IH]; cbn; [eauto|].
    destruct (Hg r) as (v & ->); [left; auto|]. destruct IH as (a & ->); [intros; apply Hg; right; auto|]. cbn. eauto. }
  destruct X as (a & ->). cbn. eauto.
Qed.
Lemma get_func_total {Row} (m : module (o := o)) (dt : data Row) ty b descr name (mjd vcol : Row -> F d) : conv_ok mjd dt ->
  exists m' f, get_func cst utc2tt m dt ty b descr name mjd vcol = MDone (m', f).
Proof.
  intros (Hn & Hc). unfold get_func. destruct (lookup _ _); [eauto|].
  destruct (get_array_total m dt ty "date_tt_cy_j2000" descr (date_getter cst utc2tt mjd ty) Hn) as (m1 & ds & ->).
  { intros r Hr. unfold date_getter. destruct (Hc r Hr) as (c & -> & ->). eauto. }
  cbn [mbind].
  destruct (get_array_total m1 dt ty name descr (value_getter cst vcol ty) Hn) as (m2 & ys & ->).
  { intros r Hr. unfold value_getter. eauto. }
  cbn [mbind]. destruct (Z.leb_spec (2 ^ 32) (Z.of_nat (length (d_table dt)))); [lia|]. eauto.
Qed.
Definition req_ok (rq : @request d) : Prop :=
  match req_data rq with inl dt => conv_ok e_mjd dt | inr dt => conv_ok s_mjd dt end.
Lemma serve_total (m : module (o := o)) rq ty b : req_ok rq -> exists m' f, serve cst dl asec masec utc2tt m rq ty b = MDone (m', f).
Proof. destruct rq; cbn; intros; apply get_func_total; auto. Qed.
Lemma serve_all_total : forall rqs (m : module (o := o)), Forall (fun p => req_ok (fst p)) rqs ->
  exists fs, serve_all cst dl asec masec utc2tt m rqs = MDone fs.
Proof.
  induction rqs as [|(rq & (ty & b)) rqs IH]; intros m Hr; cbn [serve_all]; [eauto|].
  inversion Hr; subst. destruct (serve_total m rq ty b H1) as (m' & f & ->). cbn [mbind].
  destruct (IH m' H2) as (fs & ->). cbn. eauto.
Qed.
End Total.
