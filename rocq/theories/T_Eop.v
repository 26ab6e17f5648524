(** C45: Earth orientation and space weather tables. *)
From Coq Require Import Bool ZArith Reals Lra Lia.
From Coquelicot Require Import Coquelicot.
From Flocq Require Import Core BinarySingleNaN.
From Coq Require Import Ascii String List.
From Verif Require Import M_Float M_Dfloat P_Dfl3 M_Dag M_Taylor M_Eop S_Eop P_Eop1 P_Eop2 P_Eop3 P_Eop4.
Import ListNotations.
Set Bullet Behavior "Strict Subproofs".

(** ** Construction accepts exactly the valid tables *)
Theorem eop_data_accepts : forall (d : fops), flaws d -> forall rows ts id allow dt,
  eop_make (d := d) rows ts id allow = MDone dt <->
  (dt = mkData rows ts id /\ (2 <= length rows)%nat /\ Forall (eop_row_ok d) rows /\ dated d e_mjd rows /\
   tag_ok ts /\ tag_ok id /\
   (allow = true \/ ~ starts_with "celestrak_" id /\ ~ starts_with "iers_rapid_" id /\ ~ starts_with "iers_long_term_" id)).
Proof.
  intros d FL rows ts id allow dt. unfold eop_make.
  destruct (Nat.ltb_spec (length rows) 2); [split; [discriminate|intros; lia]|].
  destruct (eop_bad rows) eqn:Eb.
  { split; [discriminate|]. intros (_ & _ & A & B & _). pose proof (proj2 (eop_bad_spec d FL rows) (conj A B)). congruence. }
  apply (eop_bad_spec d FL) in Eb.
  destruct (bad_ts_id ts id allow eop_reserved) eqn:Et.
  - split; [discriminate|]. intros (_ & _ & _ & _ & A & B & C).
    assert (bad_ts_id ts id allow eop_reserved = false); [|congruence].
    apply bad_ts_id_spec. split; [auto|split; [auto|]]. destruct C as [C|(C1 & C2 & C3)]; [auto|].
    right. cbn. intros p [<-|[<-|[<-|[]]]]; auto.
  - apply bad_ts_id_spec in Et. destruct Et as (A & B & C). split.
    + intros E. apply mdone_inj in E. split; [auto|]. destruct Eb. repeat (split; [auto|]).
      destruct C as [C|C]; [auto|]. right. repeat split; apply C; cbn; auto.
    + intros (-> & _). auto.
Qed.

Theorem sw_data_accepts : forall (d : fops), flaws d -> forall rows ts id allow dt,
  sw_make (d := d) rows ts id allow = MDone dt <->
  (dt = mkData rows ts id /\ (2 <= length rows)%nat /\ Forall (sw_row_ok d) rows /\ dated d s_mjd rows /\
   tag_ok ts /\ tag_ok id /\ (allow = true \/ ~ starts_with "celestrak_" id)).
Proof.
  intros d FL rows ts id allow dt. unfold sw_make.
  destruct (Nat.ltb_spec (length rows) 2); [split; [discriminate|intros; lia]|].
  destruct (sw_bad rows) eqn:Eb.
  { split; [discriminate|]. intros (_ & _ & A & B & _). pose proof (proj2 (sw_bad_spec d FL rows) (conj A B)). congruence. }
  apply (sw_bad_spec d FL) in Eb.
  destruct (bad_ts_id ts id allow sw_reserved) eqn:Et.
  - split; [discriminate|]. intros (_ & _ & _ & _ & A & B & C).
    assert (bad_ts_id ts id allow sw_reserved = false); [|congruence].
    apply bad_ts_id_spec. split; [auto|split; [auto|]]. destruct C as [C|C]; [auto|].
    right. cbn. intros p [<-|[]]; auto.
  - apply bad_ts_id_spec in Et. destruct Et as (A & B & C). split.
    + intros E. apply mdone_inj in E. split; [auto|]. destruct Eb. repeat (split; [auto|]).
      destruct C as [C|C]; [auto|]. right. apply C; cbn; auto.
    + intros (-> & _). auto.
Qed.

(** ** Lookup *)
(** No access outside of the tables and no endless bisection, whatever the contents of the arrays and the date. *)
Theorem eop_lookup_safe : forall (o : fops) (l : lops o) (ds ys : list (F o)) (t : F o),
  (Z.of_nat (length ds) < 2 ^ 32)%Z -> length ys = length ds ->
  exists r, eop_eval l ds ys (Z.of_nat (length ds)) t = MDone r.
Proof. intros. apply eval_safe; auto. Qed.

(** A date is either on a row or not covered by the table; in the first case the quantity is interpolated between
    that row and the next one, in the second case the result is NaN. *)
Theorem eop_lookup_interpolates : forall (o : fops) (l : lops o), olaws o -> nanlaws l -> forall (ds ys : list (F o)),
  (2 <= length ds)%nat -> (Z.of_nat (length ds) < 2 ^ 32)%Z -> length ys = length ds -> ascending o ds ->
  forall t : F o,
  (forall i t0 t1 y0 y1, nth_error ds i = Some t0 -> nth_error ds (S i) = Some t1 ->
     nth_error ys i = Some y0 -> nth_error ys (S i) = Some y1 -> fle o t0 t = true -> flt o t t1 = true ->
     eop_eval l ds ys (Z.of_nat (length ds)) t =
       MDone (ldiv l (fadd o (lmul l y0 (fsub o t1 t)) (lmul l y1 (fsub o t t0))) (fsub o t1 t0),
              ldiv l (fsub o y1 y0) (fsub o t1 t0))) /\
  (not_covered o ds t -> exists v p, eop_eval l ds ys (Z.of_nat (length ds)) t = MDone (v, p) /\
     fnan o v = true /\ fnan o p = true) /\
  ((exists i, in_row o ds t i) \/ not_covered o ds t).
Proof.
  intros o l OL NL ds ys H2 Hn Hl A t. split; [|split].
  - intros. rewrite (eval_in l OL ds ys Hn Hl H2 A t i t0 t1 y0 y1) by auto. reflexivity.
  - intros Ho. destruct (eval_out l OL NL ds ys Hn Hl H2 A t Ho) as ([v p] & E & N1 & N2). eauto.
  - eapply covered; eauto.
Qed.

(** In batch mode every date of the batch gets the result it has in scalar mode. *)
Theorem eop_batch_lookup : forall (o : fops) (l : lops o), olaws o -> forall (ds ys : list (F o)),
  (2 <= length ds)%nat -> (Z.of_nat (length ds) < 2 ^ 32)%Z -> length ys = length ds -> ascending o ds ->
  forall ts : list (F o), exists rs,
    eop_eval_batch l ds ys (Z.of_nat (length ds)) ts = MDone rs /\
    Forall2 (fun t r => eop_eval l ds ys (Z.of_nat (length ds)) t = MDone r) ts rs.
Proof. intros o l OL ds ys H2 Hn Hl A ts. apply (eval_batch l OL ds ys Hn Hl A). Qed.

(** ** Exact arithmetic: linear interpolation, its slope, its Taylor coefficients *)
Theorem eop_piecewise_linear : forall (ds ys : list R),
  (2 <= length ds)%nat -> (Z.of_nat (length ds) < 2 ^ 32)%Z -> length ys = length ds ->
  (forall i t t', nth_error ds i = Some t -> nth_error ds (S i) = Some t' -> (t <= t')%R) ->
  forall i t0 t1 y0 y1 t, nth_error ds i = Some t0 -> nth_error ds (S i) = Some t1 ->
  nth_error ys i = Some y0 -> nth_error ys (S i) = Some y1 -> (t0 <= t < t1)%R ->
  eop_eval rlops (map Fin ds) (map Fin ys) (Z.of_nat (length ds)) (Fin t)
    = MDone (Fin (y0 + (y1 - y0) / (t1 - t0) * (t - t0))%R, Fin ((y1 - y0) / (t1 - t0))%R).
Proof. intros. eapply eval_real; eauto. Qed.

(** The second result is the derivative of the first one, inside the intervals; the Taylor coefficients computed for
    the composition with a smooth function [b] of the time are those of the composition; so are those computed for the
    derivative of the quantity. *)
Theorem eop_taylor_coefficients : forall (ds ys : list R),
  (2 <= length ds)%nat -> (Z.of_nat (length ds) < 2 ^ 32)%Z -> length ys = length ds ->
  (forall i t t', nth_error ds i = Some t -> nth_error ds (S i) = Some t' -> (t <= t')%R) ->
  forall E P : R -> R, 
  (forall t v p, eop_eval rlops (map Fin ds) (map Fin ys) (Z.of_nat (length ds)) (Fin t) = MDone (Fin v, Fin p) -> E t = v /\ P t = p) ->
  forall i t0 t1 (b : R -> R) (s0 : R) (order : nat),
  nth_error ds i = Some t0 -> nth_error ds (S i) = Some t1 -> (t0 < b s0 < t1)%R -> continuous b s0 ->
  locally s0 (fun s => forall m, (m <= order)%nat -> ex_derive_n b m s) ->
  let jet := fun k => Fin (Derive_n b k s0 / INR (fact k)) in
  is_derive E (b s0) (P (b s0)) /\
  eop_taylor_diff rlops (map Fin ds) (map Fin ys) (Z.of_nat (length ds)) jet order
    = MDone (Fin (Derive_n (fun s => E (b s)) order s0 / INR (fact order))) /\
  eopp_taylor_diff rlops (map Fin ds) (map Fin ys) (Z.of_nat (length ds)) jet order
    = MDone (Fin (Derive_n (fun s => P (b s)) order s0 / INR (fact order))).
Proof.
  intros ds ys H2 Hn Hl A E P HEP i t0 t1 b s0 order E0 E1 Hb C D jet.
  destruct (nth_error ys i) as [y0|] eqn:Y0.
  2:{ apply nth_error_None in Y0. assert (nth_error ds i <> None) as Q by congruence. apply nth_error_Some in Q. lia. }
  destruct (nth_error ys (S i)) as [y1|] eqn:Y1.
  2:{ apply nth_error_None in Y1. assert (nth_error ds (S i) <> None) as Q by congruence. apply nth_error_Some in Q. lia. }
  pose proof (fun t => eval_real ds ys Hn Hl H2 A i t0 t1 y0 y1 t E0 E1 Y0 Y1) as EV.
  assert (HE : forall t p, (t0 <= t < t1)%R -> eop_eval rlops (map Fin ds) (map Fin ys) (Z.of_nat (length ds)) (Fin t) = MDone p -> fst p = Fin (E t)).
  { intros t p Ht Ep. rewrite (EV t Ht) in Ep. apply mdone_inj in Ep. subst p. cbn. f_equal. symmetry. apply (HEP t _ _ (EV t Ht)). }
  assert (HP : forall t, (t0 <= t < t1)%R -> P t = ((y1 - y0) / (t1 - t0))%R) by (intros t Ht; apply (HEP t _ _ (EV t Ht))).
  assert (Ed : forall x : R, (x / INR (fact 0) = x)%R) by (intros; cbn; field).
  assert (Hb' : (t0 <= b s0 < t1)%R) by lra.
  split; [|split].
  - rewrite HP by lra. apply (E_derive ds ys Hn Hl H2 A i t0 t1 y0 y1 E0 E1 Y0 Y1 E HE). auto.
  - destruct order as [|k]; unfold eop_taylor_diff; cbn [jet]; unfold jet; rewrite Ed; cbn [Derive_n];
      rewrite (EV (b s0) Hb'); cbn [mbind fst snd].
    + do 2 f_equal. rewrite Ed. symmetry. apply (HEP (b s0) _ _ (EV _ Hb')).
    + cbn [rlops lmul]. do 2 f_equal.
      pose proof (comp_jet ds ys Hn Hl H2 A i t0 t1 y0 y1 E0 E1 Y0 Y1 E HE b s0 (S k) Hb C D ltac:(lia)) as J.
      cbn [Derive_n] in J. rewrite J. match goal with |- ?a = ?b => change (@eq R a b) end. unfold Rdiv. ring.
  - destruct order as [|k]; unfold eopp_taylor_diff; unfold jet.
    + rewrite Ed; cbn [Derive_n]; rewrite (EV (b s0) Hb'); cbn [mbind fst snd].
      do 2 f_equal. rewrite Ed. symmetry. apply HP. lra.
    + cbn [rops ext_ops f0]. do 2 f_equal.
      rewrite (Derive_n_ext_loc _ (fun _ => ((y1 - y0) / (t1 - t0))%R)).
      * rewrite Derive_n_const. match goal with |- ?a = ?b => change (@eq R a b) end. unfold Rdiv. ring.
      * assert (L : locally (b s0) (fun y => (t0 < y < t1)%R)).
        { apply open_and; [apply open_gt|apply open_lt|auto]. }
        specialize (C _ L). unfold filtermap in C. eapply filter_imp; [|exact C]. cbn. intros s Hs. apply HP. lra.
Qed.

(** ** The data sets are not mixed up *)
(** The name of an EOP/SW quantity in an expression (used to compare expressions) determines the quantity, whether it
    is the derivative, and the size, timestamp and identifier of the data. *)
Theorem eop_expression_names : forall q p n ts id q' p' n' ts' id',
  tag_ok ts -> tag_ok id -> tag_ok ts' -> tag_ok id' ->
  q_ex_name q p n ts id = q_ex_name q' p' n' ts' id' -> q = q' /\ p = p' /\ n = n' /\ ts = ts' /\ id = id'.
Proof. exact exname_inj. Qed.

Lemma constructed_tags (d : fops) (FL : flaws d) x : constructed (d := d) x -> tags_ok x.
Proof.
  destruct x as [dt|dt]; intros (rows & ts & id & allow & E).
  - apply (eop_data_accepts d FL) in E. destruct E as (-> & _ & _ & _ & A & B & _). split; auto.
  - apply (sw_data_accepts d FL) in E. destruct E as (-> & _ & _ & _ & A & B & _). split; auto.
Qed.

(** Over any history of requests on a module, every request is answered with the converted dates and the values of its
    own data set and quantity; and no request fails if the dates can be converted. *)
Theorem eop_requests_answered : forall (d o : fops), flaws d ->
  forall (cst : stype -> F d -> F o) (dl : lops d) (asec masec : F d) (utc2tt : F d -> option (F d))
         (rqs : list (request * (stype * nat))),
  (forall p, In p rqs -> constructed (req_data (fst p))) ->
  (forall p q, In p rqs -> In q rqs -> coherent (req_data (fst p)) (req_data (fst q))) ->
  (forall fs, serve_all cst dl asec masec utc2tt mod0 rqs = MDone fs ->
     Forall2 (fun p f => own cst utc2tt dl asec masec (fst p) (fst (snd p)) f) rqs fs) /\
  ((forall p m v, In p rqs -> In (m, v) (req_rows dl asec masec (fst p)) -> exists c, utc2tt m = Some c /\ ffin d c = true) ->
   (forall p, In p rqs -> Z.of_nat (length (req_rows dl asec masec (fst p))) < 2 ^ 32)%Z ->
   exists fs, serve_all cst dl asec masec utc2tt mod0 rqs = MDone fs).
Proof.
  intros d o FL cst dl asec masec utc2tt rqs Hc Hco. split.
  - intros fs E. eapply (serve_all_ok cst dl asec masec utc2tt (map (fun p => req_data (fst p)) rqs)); [| | | | |exact E].
    + intros x y Hx Hy. apply in_map_iff in Hx, Hy. destruct Hx as (p & <- & Hp), Hy as (q & <- & Hq). auto.
    + intros x Hx. apply in_map_iff in Hx. destruct Hx as (p & <- & Hp). apply constructed_tags; auto.
    + apply Forall_forall. intros p Hp. apply in_map_iff. eauto.
    + intros k a. discriminate.
    + intros k f. discriminate.
  - intros Hv Hs. apply serve_all_total. apply Forall_forall. intros p Hp.
    specialize (Hs p Hp). pose proof (fun m v => Hv p m v Hp) as Hv'. destruct p as [rq tb]. cbn [fst] in *.
    unfold req_ok. destruct rq as [dt|dt|dt|dt|dt|dt|dt]; cbn [req_data req_rows] in *; rewrite map_length in Hs;
      (split; [exact Hs|intros r Hr; eapply Hv'; apply in_map_iff; exists r; split; [reflexivity|exact Hr]]).
Qed.

(** The whole path: tables accepted by the constructors, any history of requests, any date, scalar or batch. *)
Lemma own_rows {d o : fops} (cst : stype -> F d -> F o) utc2tt dl asec masec rq ty f :
  own cst utc2tt dl asec masec rq ty f -> own_arrays cst utc2tt fst snd ty (req_rows dl asec masec rq) f.
Proof.
  destruct f as [[ds ys] n].
  destruct rq; cbn [own req_rows own_arrays]; rewrite map_length; intros (A & B & C & D); (split; [exact A|split; [exact B|]]);
    clear A B; (split; [clear D; induction C; cbn; constructor; auto|clear C; induction D; cbn; constructor; auto]).
Qed.

Lemma Forall2_len {A B} (P : A -> B -> Prop) xs ys : Forall2 P xs ys -> length xs = length ys.
Proof. induction 1; cbn; auto. Qed.
Lemma Forall2_nth {A B} (P : A -> B -> Prop) xs ys : Forall2 P xs ys -> forall i x, nth_error xs i = Some x -> exists y, nth_error ys i = Some y /\ P x y.
Proof. induction 1; intros [|i] z E; cbn in *; try discriminate; [injection E as <-; eauto|eauto]. Qed.
Lemma Forall2_nth_r {A B} (P : A -> B -> Prop) xs ys : Forall2 P xs ys -> forall i y, nth_error ys i = Some y -> exists x, nth_error xs i = Some x /\ P x y.
Proof. induction 1; intros [|i] z E; cbn in *; try discriminate; [injection E as <-; eauto|eauto]. Qed.

Lemma constructed_dated (d : fops) (FL : flaws d) dl asec masec rq : constructed (d := d) (req_data rq) ->
  (2 <= length (req_rows dl asec masec rq))%nat /\ dated d fst (req_rows dl asec masec rq).
Proof.
  assert (X : forall (Row : Type) (mjd col : Row -> F d) rows, (2 <= length rows)%nat -> dated d mjd rows ->
    (2 <= length (map (fun r => (mjd r, col r)) rows))%nat /\ dated d fst (map (fun r => (mjd r, col r)) rows)).
  { intros Row mjd col rows H2 D. rewrite map_length. split; [auto|]. intros i r r' E E'. rewrite nth_error_map in E, E'.
    destruct (nth_error rows i) eqn:Ei; [|discriminate]. destruct (nth_error rows (S i)) eqn:Es; [|discriminate].
    injection E as <-. injection E' as <-. cbn. eapply D; eauto. }
  destruct rq as [dt|dt|dt|dt|dt|dt|dt]; cbn [req_data req_rows]; intros (rows & ts & id & allow & E);
    (apply (eop_data_accepts d FL) in E || apply (sw_data_accepts d FL) in E); destruct E as (-> & H2 & _ & D & _); apply X; auto.
Qed.

Theorem eop_quantities : forall (d o : fops) (l : lops o), flaws d -> olaws o -> nanlaws l ->
  forall (cst : stype -> F d -> F o) (dl : lops d) (asec masec : F d) (utc2tt : F d -> option (F d)),
  (* the conversion of the dates and the creation of constants respect the order *)
  (forall x y cx cy, flt d x y = true -> utc2tt x = Some cx -> utc2tt y = Some cy -> ffin d cx = true -> ffin d cy = true -> fle d cx cy = true) ->
  (forall ty x, ffin d x = true -> fnan o (cst ty x) = false) ->
  (forall ty x y, ffin d x = true -> ffin d y = true -> fle d x y = true -> fle o (cst ty x) (cst ty y) = true) ->
  forall (rqs : list (request * (stype * nat))) fs,
  (forall p, In p rqs -> constructed (req_data (fst p))) ->
  (forall p q, In p rqs -> In q rqs -> coherent (req_data (fst p)) (req_data (fst q))) ->
  serve_all cst dl asec masec utc2tt mod0 rqs = MDone fs ->
  forall k rq ty b f, nth_error rqs k = Some (rq, (ty, b)) -> nth_error fs k = Some f ->
  let rows := req_rows dl asec masec rq in
  (* between two rows *)
  (forall t i m0 v0 m1 v1 c0 c1, nth_error rows i = Some (m0, v0) -> nth_error rows (S i) = Some (m1, v1) ->
     utc2tt m0 = Some c0 -> utc2tt m1 = Some c1 ->
     let t0 := cst ty c0 in let t1 := cst ty c1 in let y0 := cst ty v0 in let y1 := cst ty v1 in
     fle o t0 t = true -> flt o t t1 = true ->
     call l f t = MDone (ldiv l (fadd o (lmul l y0 (fsub o t1 t)) (lmul l y1 (fsub o t t0))) (fsub o t1 t0),
                         ldiv l (fsub o y1 y0) (fsub o t1 t0))) /\
  (* outside of the table, or not a number *)
  (forall t, (fnan o t = true \/
              (exists m v c, nth_error rows 0 = Some (m, v) /\ utc2tt m = Some c /\ flt o t (cst ty c) = true) \/
              (exists m v c, nth_error rows (length rows - 1) = Some (m, v) /\ utc2tt m = Some c /\ fle o (cst ty c) t = true)) ->
     exists v p, call l f t = MDone (v, p) /\ fnan o v = true /\ fnan o p = true) /\
  (* batches *)
  (forall ts, exists rs, call_batch l f ts = MDone rs /\ Forall2 (fun t r => call l f t = MDone r) ts rs).
Proof.
  intros d o l FL OL NL cst dl asec masec utc2tt Mc Cn Cm rqs fs Hc Hco E k rq ty b f Ek Ef rows.
  pose proof (proj1 (eop_requests_answered d o FL cst dl asec masec utc2tt rqs Hc Hco) fs E) as Ow.
  destruct (Forall2_nth _ _ _ Ow k _ Ek) as (f' & Ef' & O1). rewrite Ef in Ef'. injection Ef' as <-. cbn [fst snd] in O1.
  apply own_rows in O1. fold rows in O1.
  destruct (constructed_dated d FL dl asec masec rq) as (H2 & D).
  { apply (Hc (rq, (ty, b))). eapply nth_error_In; eauto. }
  fold rows in H2, D. destruct f as [[ds ys] n]. destruct O1 as (En & Hn & Fd & Fy).
  pose proof (Forall2_len _ _ _ Fd) as Ld. pose proof (Forall2_len _ _ _ Fy) as Ly.
  assert (A : ascending o ds).
  { split.
    - intros i t Et. destruct (Forall2_nth_r _ _ _ Fd i t Et) as (r & _ & c & _ & Fc & ->). auto.
    - intros i t t' Et Et'. destruct (Forall2_nth_r _ _ _ Fd i t Et) as (r & Er & c & Ec & Fc & ->).
      destruct (Forall2_nth_r _ _ _ Fd (S i) t' Et') as (r' & Er' & c' & Ec' & Fc' & ->).
      apply Cm; auto. eapply Mc; eauto. }
  assert (En' : n = Z.of_nat (length ds)) by congruence. clear En.
  assert (L2 : (2 <= length ds)%nat) by congruence. assert (Ln : (Z.of_nat (length ds) < 2 ^ 32)%Z) by congruence.
  assert (Ll : length ys = length ds) by congruence.
  pose proof (eop_lookup_interpolates o l OL NL ds ys L2 Ln Ll A) as LK.
  cbn [call call_batch]. rewrite En'.
  split; [|split].
  - intros t i m0 v0 m1 v1 c0 c1 R0 R1 K0 K1 Hle Hlt.
    destruct (Forall2_nth _ _ _ Fd i _ R0) as (d0 & D0 & z0 & Z0 & _ & ->).
    destruct (Forall2_nth _ _ _ Fd (S i) _ R1) as (d1 & D1 & z1 & Z1 & _ & ->).
    destruct (Forall2_nth _ _ _ Fy i _ R0) as (w0 & W0 & ->).
    destruct (Forall2_nth _ _ _ Fy (S i) _ R1) as (w1 & W1 & ->).
    cbn [fst snd] in *. rewrite K0 in Z0. injection Z0 as <-. rewrite K1 in Z1. injection Z1 as <-.
    apply (proj1 (LK t) i); auto.
  - intros t Ho. apply (proj1 (proj2 (LK t))). destruct Ho as [Ho|[(m & v & c & R0 & K0 & Hlt)|(m & v & c & R0 & K0 & Hle)]].
    + left; auto.
    + right; left. destruct (Forall2_nth _ _ _ Fd 0%nat _ R0) as (d0 & D0 & z0 & Z0 & _ & ->). cbn [fst] in Z0.
      rewrite K0 in Z0. injection Z0 as <-. eauto.
    + right; right. rewrite <- Ld. destruct (Forall2_nth _ _ _ Fd _ _ R0) as (d0 & D0 & z0 & Z0 & _ & ->). cbn [fst] in Z0.
      rewrite K0 in Z0. injection Z0 as <-. eauto.
  - intros ts. apply eop_batch_lookup; auto.
Qed.

(** ** Concrete cases *)
(** Exact integers, which compute. *)
Definition zlops : lops zops :=
  mkLops zops
    (fun x y => match x, y with Fin a, Fin b => Fin (a * b)%Z | _, _ => NaN end)
    (fun x y => match x, y with Fin a, Fin b => if Z.eqb b 0 then NaN else Fin (a / b)%Z | _, _ => NaN end)
    NaN.
Lemma z_olaws : olaws zops.
Proof.
  constructor; cbn.
  - intros [?| | |] [?| | |] [H|H]; try discriminate H; auto.
  - intros [x| | |] [y| | |] Hx Hy; try discriminate; cbn; auto. apply Z.ltb_antisym.
  - intros [x| | |] [y| | |] [z| | |] H1 H2; cbn in *; try discriminate; auto. lia.
  - intros [x| | |] H; cbn; try discriminate; auto. lia.
Qed.
Lemma z_nanlaws : nanlaws zlops.
Proof. constructor; cbn; [auto| | | |]; intros [?| | |] [?| | |] [H|H]; try discriminate H; auto. Qed.

Definition zr (m x y : Z) : eop_row zops := @mkEop zops (Fin m) (Fin 0%Z) (Fin x) (Fin y) (Fin 0%Z) (Fin 0%Z).
Definition zs (m x y : Z) : sw_row zops := @mkSw zops (Fin m) (Fin x) (Fin y) (Fin 0%Z).
Definition zeop : data (eop_row zops) := mkData [zr 10 100 7; zr 20 200 5; zr 40 100 9] "2026" "mine".
Definition zeop' : data (eop_row zops) := mkData [zr 10 0 0; zr 20 50 0; zr 40 10 0] "2027" "mine".
Definition zsw : data (sw_row zops) := mkData [zs 10 1 2; zs 20 11 12] "2026" "mine".
Definition zrqs : list (@request zops * (stype * nat)) :=
  [(ReqPmX zeop, (TDouble, 1%nat)); (ReqPmY zeop, (TDouble, 1%nat)); (ReqAp zsw, (TDouble, 1%nat)); (ReqPmX zeop', (TDouble, 4%nat)); (ReqPmX zeop, (TFloat, 4%nat))].
Definition zserve := serve_all (d := zops) (o := zops) (fun _ x => x) zlops (Fin 1%Z) (Fin 1%Z) (fun x => Some x) mod0 zrqs.

Example zrqs_constructed : forall p, In p zrqs -> constructed (req_data (fst p)).
Proof.
  intros p [<-|[<-|[<-|[<-|[<-|[]]]]]]; cbn [fst req_data constructed].
  1,2,5: exists (d_table zeop), "2026"%string, "mine"%string, false; reflexivity.
  - exists (d_table zsw), "2026"%string, "mine"%string, false; reflexivity.
  - exists (d_table zeop'), "2027"%string, "mine"%string, false; reflexivity.
Qed.
Example zrqs_coherent : forall p q, In p zrqs -> In q zrqs -> coherent (req_data (fst p)) (req_data (fst q)).
Proof.
  intros p q [<-|[<-|[<-|[<-|[<-|[]]]]]] [<-|[<-|[<-|[<-|[<-|[]]]]]]; cbn; auto; intros _ E; discriminate E.
Qed.
Example zserve_values :
  match zserve with
  | MDone fs => map (fun f => call zlops f (Fin 25%Z)) fs
      = [MDone (Fin 175%Z, Fin (-5)%Z); MDone (Fin 6%Z, Fin 0%Z); MDone (NaN, NaN); MDone (Fin 40%Z, Fin (-2)%Z); MDone (Fin 175%Z, Fin (-5)%Z)] /\
      map (fun f => call_batch zlops f [Fin 10%Z; NaN; Fin 40%Z; Fin 15%Z; Fin 9%Z]) (firstn 1 fs)
      = [MDone [(Fin 100%Z, Fin 10%Z); (NaN, NaN); (NaN, NaN); (Fin 150%Z, Fin 10%Z); (NaN, NaN)]]
  | _ => False
  end.
Proof. vm_compute. split; reflexivity. Qed.
(** The hypotheses of [eop_quantities] hold together. *)
Example eop_quantities_applies : exists fs, zserve = MDone fs /\ forall f, nth_error fs 3 = Some f -> call zlops f (Fin 25%Z) = MDone (Fin 40%Z, Fin (-2)%Z).
Proof.
  destruct zserve as [fs| | |] eqn:E; try (vm_compute in E; discriminate E).
  exists fs. split; [auto|]. intros f Ef.
  destruct (eop_quantities zops zops zlops zlaws z_olaws z_nanlaws (fun _ x => x) zlops (Fin 1%Z) (Fin 1%Z) (fun x => Some x)) with
    (rqs := zrqs) (fs := fs) (k := 3%nat) (rq := ReqPmX zeop') (ty := TDouble) (b := 4%nat) (f := f) as (V & _).
  - intros [x| | |] [y| | |] cx cy H Ex Ey F1 F2; injection Ex as <-; injection Ey as <-; cbn in *; try discriminate. lia.
  - intros _ [x| | |] H; auto; discriminate.
  - intros _ x y _ _ H. exact H.
  - apply zrqs_constructed.
  - apply zrqs_coherent.
  - exact E.
  - reflexivity.
  - exact Ef.
  - rewrite (V (Fin 25%Z) 1%nat (Fin 20%Z) (Fin 50%Z) (Fin 40%Z) (Fin 10%Z) (Fin 20%Z) (Fin 40%Z)); reflexivity.
Qed.
(** Rejected tables: one row, unordered rows, NaN, an infinite last date, bad tags, a reserved prefix. *)
Example eop_rejections :
  eop_make [zr 1 0 0] "t" "i" false = MThrow /\ eop_make [zr 2 0 0; zr 2 0 0] "t" "i" false = MThrow /\
  eop_make [zr 2 0 0; @mkEop zops NaN (Fin 0%Z) (Fin 0%Z) (Fin 0%Z) (Fin 0%Z) (Fin 0%Z)] "t" "i" false = MThrow /\
  eop_make [zr 2 0 0; @mkEop zops PInf (Fin 0%Z) (Fin 0%Z) (Fin 0%Z) (Fin 0%Z) (Fin 0%Z)] "t" "i" false = MThrow /\
  eop_make (d_table zeop) "t.1" "i" false = MThrow /\ eop_make (d_table zeop) "t" "" false = MThrow /\
  eop_make (d_table zeop) "t" "iers_rapid_x" false = MThrow /\ sw_make (d := zops) [zs 1 2 2; zs 2 (-1) 2] "t" "i" false = MThrow /\
  (exists dt, eop_make (d_table zeop) "t" "iers_rapid_x" true = MDone dt) /\ (exists dt, sw_make (d_table zsw) "t" "iers_rapid_x" false = MDone dt).
Proof. repeat split; try reflexivity; eexists; reflexivity. Qed.
(** The laws hold of every IEEE binary format, so that the lookup theorems apply to float, double, long double, __float128. *)
Example eop_ieee_laws : forall (prec emax : Z) (Hp : Prec_gt_0 prec) (Hm : Prec_lt_emax prec emax),
  olaws (bops prec emax Hp Hm) /\ nanlaws (blops prec emax Hp Hm).
Proof. intros. split; [apply b_olaws|apply b_nanlaws]. Qed.
(** A case of [eop_taylor_coefficients]: the time itself, in the second interval. *)
Example eop_taylor_applies : forall E P : R -> R,
  (forall t v p, eop_eval rlops (map Fin [0; 1; 3]%R) (map Fin [5; 6; 2]%R) 3 (Fin t) = MDone (Fin v, Fin p) -> E t = v /\ P t = p) ->
  is_derive E 2 (-2) /\ E 2 = 4%R.
Proof.
  intros E P H.
  assert (A : forall i t t', nth_error [0; 1; 3]%R i = Some t -> nth_error [0; 1; 3]%R (S i) = Some t' -> (t <= t')%R).
  { intros [|[|[|[|i]]]] t t' E1 E2; cbn in *; try discriminate; injection E1 as <-; injection E2 as <-; lra. }
  pose proof (eop_piecewise_linear [0; 1; 3]%R [5; 6; 2]%R ltac:(cbn; lia) ltac:(reflexivity) eq_refl A 1 1 3 6 2 2 eq_refl eq_refl eq_refl eq_refl ltac:(lra)) as V.
  destruct (H _ _ _ V) as (E2 & P2).
  destruct (eop_taylor_coefficients [0; 1; 3]%R [5; 6; 2]%R ltac:(cbn; lia) ltac:(reflexivity) eq_refl A E P H 1 1 3 (fun s => s) 2 1 eq_refl eq_refl ltac:(lra)
     (continuous_id 2)) as (D & _).
  - apply filter_forall. intros s m Hm. apply (ex_derive_n_ext (fun x => (x ^ 1)%R)); [intros; ring|]. apply ex_derive_n_pow.
  - split.
    + replace (-2)%R with (P 2%R); [exact D|]. rewrite P2. field.
    + rewrite E2. field.
Qed.

Print Assumptions eop_data_accepts.
Print Assumptions sw_data_accepts.
Print Assumptions eop_lookup_safe.
Print Assumptions eop_lookup_interpolates.
Print Assumptions eop_batch_lookup.
Print Assumptions eop_piecewise_linear.
Print Assumptions eop_taylor_coefficients.
Print Assumptions eop_expression_names.
Print Assumptions eop_requests_answered.
Print Assumptions eop_quantities.
