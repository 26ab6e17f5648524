(** Construction of the tables, names, and the caching of arrays and functions in a module. *)
From Coq Require Import Bool ZArith Reals Ascii String List Lia DecimalString.
From Verif Require Import M_Float M_Dag M_Taylor M_Dec P_Dec M_Eop S_Eop.
Import ListNotations.
Set Bullet Behavior "Strict Subproofs".

(** ** Strings *)
Lemma contains_spec c s : contains c s = true <-> has_char c s.
Proof.
  induction s as [|a s IH]; cbn; split.
  - discriminate.
  - intros (i & H). destruct i; discriminate.
  - intros H. apply orb_true_iff in H. destruct H as [H|H].
    + apply Ascii.eqb_eq in H. subst. exists 0%nat. auto.
    + apply IH in H. destruct H as (i & H). exists (S i). auto.
  - intros (i & H). destruct i as [|i]; cbn in H.
    + injection H as ->. rewrite Ascii.eqb_refl. auto.
    + rewrite orb_true_iff. right. apply IH. exists i. auto.
Qed.

Lemma prefix_spec p s : prefix p s = true <-> starts_with p s.
Proof.
  revert s. induction p as [|a p IH]; intros s; split.
  - intros _. exists s. auto.
  - destruct s; auto.
  - destruct s as [|b s]; [discriminate|]. cbn [prefix]. destruct (ascii_dec a b) as [->|]; [|intros H; discriminate H].
    intros H. apply IH in H. destruct H as (r & ->). exists r. auto.
  - intros (r & ->). cbn [prefix append]. destruct (ascii_dec a a); [|congruence]. apply IH. exists r. auto.
Qed.

Lemma has_cons c a s : has_char c (String a s) <-> a = c \/ has_char c s.
Proof.
  rewrite <- !contains_spec. cbn. rewrite orb_true_iff, Ascii.eqb_eq. tauto.
Qed.

(** Two strings split at the first occurrence of a character. *)
Lemma split_char c s1 : forall s2 r1 r2, ~ has_char c s1 -> ~ has_char c s2 ->
  (s1 ++ String c r1)%string = (s2 ++ String c r2)%string -> s1 = s2 /\ r1 = r2.
Proof.
  induction s1 as [|a s1 IH]; intros [|b s2] r1 r2 N1 N2 E; cbn in E.
  - injection E as ->. auto.
  - injection E as <- _. exfalso. apply N2. apply has_cons. auto.
  - injection E as -> _. exfalso. apply N1. apply has_cons. auto.
  - injection E as <- E. rewrite has_cons in N1, N2. destruct (IH s2 r1 r2) as (-> & ->); auto.
Qed.

Lemma app_inj_head p s1 s2 : (p ++ s1)%string = (p ++ s2)%string -> s1 = s2.
Proof. induction p; cbn; auto. intros H; injection H; auto. Qed.

Lemma app_assoc_s a b c : ((a ++ b) ++ c)%string = (a ++ (b ++ c))%string.
Proof. induction a; cbn; congruence. Qed.

Lemma digits_no c n : c = "."%char \/ c = "-"%char \/ c = "_"%char -> ~ has_char c (fmt_size n).
Proof.
  intros Hc. unfold fmt_size. generalize (Nat.to_uint n). intros u.
  rewrite <- contains_spec. intros H.
  induction u; cbn [NilEmpty.string_of_uint contains] in H; try discriminate H; apply orb_true_iff in H; destruct H as [H|H]; auto;
    apply Ascii.eqb_eq in H; subst; destruct Hc as [Hc|[Hc|Hc]]; discriminate Hc.
Qed.

Lemma size_inj n m : fmt_size n = fmt_size m -> n = m.
Proof. intros H. apply uname_inj. unfold uname. unfold fmt_size in H. rewrite H. auto. Qed.

(** ** Names *)
(** The part of the names that carries the size, the timestamp, the identifier and the type. *)
Definition tail4 (n : nat) (ts id ty : string) : string :=
  (fmt_size n ++ "." ++ ts ++ "-" ++ id ++ "." ++ ty)%string.

Lemma tail4_inj n ts id ty n' ts' id' ty' : tag_ok ts -> tag_ok id -> tag_ok ts' -> tag_ok id' ->
  tail4 n ts id ty = tail4 n' ts' id' ty' -> n = n' /\ ts = ts' /\ id = id' /\ ty = ty'.
Proof.
  intros (_ & T1 & T2) (_ & I1 & I2) (_ & T1' & T2') (_ & I1' & I2') E. unfold tail4 in E.
  cbn [append] in E.
  apply split_char in E; [|apply digits_no; auto|apply digits_no; auto]. destruct E as (En & E).
  apply split_char in E; auto. destruct E as (Et & E).
  apply split_char in E; auto. destruct E as (Ei & E).
  split; [apply size_inj; auto|auto].
Qed.

(** The leading part, up to the first dot. *)
Lemma head_inj (P : list string) h h' r r' : Forall (fun s => contains "." s = false) P -> In h P -> In h' P ->
  (h ++ String "." r)%string = (h' ++ String "." r')%string -> h = h' /\ r = r'.
Proof.
  intros Hp I I' E. rewrite Forall_forall in Hp. apply split_char in E; auto.
  - rewrite <- contains_spec. rewrite (Hp _ I). discriminate.
  - rewrite <- contains_spec. rewrite (Hp _ I'). discriminate.
Qed.

(** The names of the columns of a data set: kind, array. *)
Definition cols : list (string * string) :=
  [("eop", "date_tt_cy_j2000"); ("eop", "pm_x"); ("eop", "pm_y"); ("eop", "dX"); ("eop", "dY");
   ("sw", "date_tt_cy_j2000"); ("sw", "Ap_avg"); ("sw", "f107"); ("sw", "f107a_center81")]%string.
Definition ghead (p : string * string) : string := (fst p ++ "_data_" ++ snd p)%string.
Definition fhead (p : string * string) : string := (fst p ++ "_get_" ++ snd p ++ "_" ++ snd p ++ "p")%string.

Lemma in_cases {A} (P : A -> Prop) (L : list A) : Forall P L -> forall x, In x L -> P x.
Proof. rewrite Forall_forall. auto. Qed.

Lemma ghead_inj : forall p q, In p cols -> In q cols -> ghead p = ghead q -> p = q.
Proof.
  assert (H : Forall (fun p => Forall (fun q => ghead p = ghead q -> p = q) cols) cols).
  { unfold cols. repeat (constructor; [repeat (constructor; [cbv; intros H; first [reflexivity|discriminate H]|]); constructor|]). constructor. }
  intros p q Hp Hq. exact (in_cases _ _ (in_cases _ _ H p Hp) q Hq).
Qed.
Lemma fhead_inj : forall p q, In p cols -> In q cols -> fhead p = fhead q -> p = q.
Proof.
  assert (H : Forall (fun p => Forall (fun q => fhead p = fhead q -> p = q) cols) cols).
  { unfold cols. repeat (constructor; [repeat (constructor; [cbv; intros H; first [reflexivity|discriminate H]|]); constructor|]). constructor. }
  intros p q Hp Hq. exact (in_cases _ _ (in_cases _ _ H p Hp) q Hq).
Qed.

Lemma gname_eq descr arr n ts id ty :
  global_name descr arr n ts id ty = ("heyoka." ++ (ghead (descr, arr) ++ String "." (tail4 n ts id ty)))%string.
Proof. unfold global_name, ghead, tail4; cbn [fst snd]. rewrite !app_assoc_s. reflexivity. Qed.
Lemma fname_eq descr arr n ts id ty :
  func_name descr arr n ts id ty = ("heyoka." ++ (fhead (descr, arr) ++ String "." (tail4 n ts id ty)))%string.
Proof. unfold func_name, fhead, tail4; cbn [fst snd]. rewrite !app_assoc_s. reflexivity. Qed.

Lemma gname_inj p q n ts id ty n' ts' id' ty' : In p cols -> In q cols ->
  tag_ok ts -> tag_ok id -> tag_ok ts' -> tag_ok id' ->
  global_name (fst p) (snd p) n ts id ty = global_name (fst q) (snd q) n' ts' id' ty' ->
  p = q /\ n = n' /\ ts = ts' /\ id = id' /\ ty = ty'.
Proof.
  intros Hp Hq T I T' I' E. rewrite !gname_eq, <- !surjective_pairing in E. apply app_inj_head in E.
  apply (head_inj (map ghead cols)) in E; [|repeat constructor|apply in_map; auto|apply in_map; auto].
  destruct E as (Eh & E). apply ghead_inj in Eh; auto. apply tail4_inj in E; auto.
Qed.
Lemma fname_inj p q n ts id ty n' ts' id' ty' : In p cols -> In q cols ->
  tag_ok ts -> tag_ok id -> tag_ok ts' -> tag_ok id' ->
  func_name (fst p) (snd p) n ts id ty = func_name (fst q) (snd q) n' ts' id' ty' ->
  p = q /\ n = n' /\ ts = ts' /\ id = id' /\ ty = ty'.
Proof.
  intros Hp Hq T I T' I' E. rewrite !fname_eq, <- !surjective_pairing in E. apply app_inj_head in E.
  apply (head_inj (map fhead cols)) in E; [|repeat constructor|apply in_map; auto|apply in_map; auto].
  destruct E as (Eh & E). apply fhead_inj in Eh; auto. apply tail4_inj in E; auto.
Qed.

Lemma mangle_inj t n t' n' : mangle_type t n = mangle_type t' n' -> t = t' /\ n = n'.
Proof.
  unfold mangle_type. destruct (Nat.eqb_spec n 1), (Nat.eqb_spec n' 1); destruct t, t'; cbn; intros E;
    try discriminate E; split; try reflexivity; try congruence; injection E; intros E'; apply size_inj; auto.
Qed.

(** *** Names in expressions *)
Definition exheads : list (quant * bool) :=
  flat_map (fun q => [(q, false); (q, true)]) [Qera; Qgmst82; Qpm_x; Qpm_y; QdX; QdY; QAp_avg; Qf107; Qf107a].
Definition exhead (p : quant * bool) : string :=
  (q_descr (fst p) ++ "_" ++ (if snd p then q_name (fst p) ++ "p" else q_name (fst p)) ++ "_")%string.

Lemma exhead_in p : In p exheads.
Proof. destruct p as [q b]. destruct q, b; cbn; tauto. Qed.

(** Two leading parts are the same as soon as they start the same string. *)
Fixpoint clash (a b : string) : bool :=
  match a, b with
  | String x a', String y b' => if Ascii.eqb x y then clash a' b' else false
  | _, _ => true
  end.
Lemma clash_app a : forall b r r', (a ++ r)%string = (b ++ r')%string -> clash a b = true.
Proof.
  induction a as [|x a IH]; intros [|y b] r r' E; cbn; auto.
  cbn in E. injection E as -> E. rewrite Ascii.eqb_refl. eauto.
Qed.
Lemma exhead_clash p q : clash (exhead p) (exhead q) = true -> p = q.
Proof. destruct p as [p b], q as [q b']. destruct p, b, q, b'; cbv; intros E; first [reflexivity|discriminate E]. Qed.

Lemma exname_eq q p n ts id :
  q_ex_name q p n ts id = (exhead (q, p) ++ (fmt_size n ++ String "_" (ts ++ String "-" id)))%string.
Proof. unfold q_ex_name, ex_name, exhead; cbn [fst snd]. rewrite !app_assoc_s. reflexivity. Qed.

Lemma exname_inj q p n ts id q' p' n' ts' id' : tag_ok ts -> tag_ok id -> tag_ok ts' -> tag_ok id' ->
  q_ex_name q p n ts id = q_ex_name q' p' n' ts' id' -> q = q' /\ p = p' /\ n = n' /\ ts = ts' /\ id = id'.
Proof.
  intros (_ & T1 & T2) (_ & I1 & I2) (_ & T1' & T2') (_ & I1' & I2') E. rewrite !exname_eq in E.
  pose proof (exhead_clash _ _ (clash_app _ _ _ _ E)) as H. injection H as <- <-.
  apply app_inj_head in E.
  apply split_char in E; [|apply digits_no; auto|apply digits_no; auto]. destruct E as (En & E).
  apply split_char in E; auto. destruct E as (Et & E).
  repeat split; auto. apply size_inj; auto.
Qed.

(** ** Construction *)
Section Make.
Context (d : fops) (FL : flaws d).

Lemma fin_lt x y : ffin d x = true -> ffin d y = true -> flt d x y = negb (fle d y x).
Proof.
  intros Hx Hy. destruct (fle d y x) eqn:E; cbn.
  - destruct (flt d x y) eqn:E'; auto. apply (fl_lt d FL) in E'; auto. apply (fl_le d FL) in E; auto. exfalso.
    eapply Rlt_not_le; eauto.
  - apply (fl_lt d FL); auto. apply Rnot_le_lt. intros H. apply (fl_le d FL) in H; auto. congruence.
Qed.

Lemma dated_cons {Row} (mjd : Row -> F d) r rows :
  dated d mjd (r :: rows) <-> match rows with [] => True | r' :: _ => flt d (mjd r) (mjd r') = true end /\ dated d mjd rows.
Proof.
  unfold dated. split.
  - intros H. split.
    + destruct rows as [|r' rows]; auto. apply (H 0%nat); auto.
    + intros i a b Ea Eb. apply (H (S i)); auto.
  - intros (H1 & H2) i a b Ea Eb. destruct i as [|i]; cbn in Ea, Eb.
    + injection Ea as <-. destruct rows; [discriminate|]. injection Eb as <-. auto.
    + eapply H2; eauto.
Qed.

Lemma eop_bad_spec rows : eop_bad rows = false <-> (Forall (eop_row_ok d) rows /\ dated d e_mjd rows).
Proof.
  induction rows as [|r rows IH]; cbn [eop_bad].
  - split; auto. intros _. split; [constructor|]. intros [|i]; discriminate.
  - rewrite dated_cons, Forall_cons_iff. unfold eop_row_ok at 1.
    destruct (ffin d (e_mjd r)) eqn:E1; cbn [negb]; [|split; [discriminate|intros HH; exfalso; intuition congruence]].
    destruct (ffin d (e_dut1 r)) eqn:E2; cbn [negb].
    2:{ split; [|intros HH; exfalso; intuition congruence]. destruct (match rows with [] => _ | _ => _ end); discriminate. }
    destruct (ffin d (e_pm_x r)) eqn:E3; cbn [negb].
    2:{ split; [|intros HH; exfalso; intuition congruence]. destruct (match rows with [] => _ | _ => _ end); discriminate. }
    destruct (ffin d (e_pm_y r)) eqn:E4; cbn [negb].
    2:{ split; [|intros HH; exfalso; intuition congruence]. destruct (match rows with [] => _ | _ => _ end); discriminate. }
    destruct (ffin d (e_dX r)) eqn:E5; cbn [negb].
    2:{ split; [|intros HH; exfalso; intuition congruence]. destruct (match rows with [] => _ | _ => _ end); discriminate. }
    destruct (ffin d (e_dY r)) eqn:E6; cbn [negb].
    2:{ split; [|intros HH; exfalso; intuition congruence]. destruct (match rows with [] => _ | _ => _ end); discriminate. }
    destruct rows as [|r' rows].
    + rewrite IH. tauto.
    + destruct (eop_bad (r' :: rows)) eqn:Eb.
      * destruct (fle d (e_mjd r') (e_mjd r)); split; try discriminate; intros ((_ & H1) & _ & H2);
          assert (true = false) by (apply IH; auto); discriminate.
      * destruct IH as (IH & _). specialize (IH eq_refl).
        assert (F' : ffin d (e_mjd r') = true) by (destruct IH as (IH & _); exact (proj1 (Forall_inv IH))).
        rewrite (fin_lt (e_mjd r) (e_mjd r')) by auto. destruct (fle d (e_mjd r') (e_mjd r)); cbn [negb].
        -- split; [discriminate|]. intros (_ & H & _). discriminate.
        -- tauto.
Qed.

Lemma sw_row_ok_iff r : sw_row_ok d r <-> ffin d (s_mjd r) = true /\
  (ffin d (s_Ap r) = true /\ flt d (s_Ap r) (f0 d) = false) /\ (ffin d (s_f107 r) = true /\ flt d (s_f107 r) (f0 d) = false) /\
  (ffin d (s_f107a r) = true /\ flt d (s_f107a r) (f0 d) = false).
Proof.
  unfold sw_row_ok. split.
  - intros (H1 & H2). split; [auto|]. split; [|split]; apply H2; cbn; auto.
  - intros (H1 & H2 & H3 & H4). split; [auto|]. cbn. intros x [<-|[<-|[<-|[]]]]; auto.
Qed.

Lemma sw_bad_spec rows : sw_bad rows = false <-> (Forall (sw_row_ok d) rows /\ dated d s_mjd rows).
Proof.
  induction rows as [|r rows IH]; cbn [sw_bad].
  - split; auto. intros _. split; [constructor|]. intros [|i]; discriminate.
  - rewrite dated_cons, Forall_cons_iff, sw_row_ok_iff.
    destruct (ffin d (s_mjd r)) eqn:E1; cbn [negb]; [|split; [discriminate|intros HH; exfalso; intuition congruence]].
    assert (X : forall x, negb (ffin d x) || flt d x (f0 d) = false <-> (ffin d x = true /\ flt d x (f0 d) = false)).
    { intros x. rewrite orb_false_iff, negb_false_iff. tauto. }
    rewrite <- !X.
    destruct (negb (ffin d (s_Ap r)) || flt d (s_Ap r) (f0 d)).
    1:{ split; [|intros HH; exfalso; intuition congruence]. destruct (match rows with [] => _ | _ => _ end); discriminate. }
    destruct (negb (ffin d (s_f107 r)) || flt d (s_f107 r) (f0 d)).
    1:{ split; [|intros HH; exfalso; intuition congruence]. destruct (match rows with [] => _ | _ => _ end); discriminate. }
    destruct (negb (ffin d (s_f107a r)) || flt d (s_f107a r) (f0 d)).
    1:{ split; [|intros HH; exfalso; intuition congruence]. destruct (match rows with [] => _ | _ => _ end); discriminate. }
    destruct rows as [|r' rows].
    + rewrite IH. tauto.
    + destruct (sw_bad (r' :: rows)) eqn:Eb.
      * destruct (fle d (s_mjd r') (s_mjd r)); split; try discriminate; intros ((_ & H1) & _ & H2);
          assert (true = false) by (apply IH; auto); discriminate.
      * destruct IH as (IH & _). specialize (IH eq_refl).
        assert (F' : ffin d (s_mjd r') = true) by (destruct IH as (IH & _); exact (proj1 (Forall_inv IH))).
        rewrite (fin_lt (s_mjd r) (s_mjd r')) by auto. destruct (fle d (s_mjd r') (s_mjd r)); cbn [negb].
        -- split; [discriminate|]. intros (_ & H & _). discriminate.
        -- tauto.
Qed.

Lemma bad_ts_id_spec ts id allow ps : bad_ts_id ts id allow ps = false <->
  (tag_ok ts /\ tag_ok id /\ (allow = true \/ forall p, In p ps -> ~ starts_with p id)).
Proof.
  unfold bad_ts_id, tag_ok. rewrite <- !contains_spec.
  destruct (String.eqb_spec ts ""); [split; [discriminate|intros ((? & _) & _); congruence]|].
  destruct (String.eqb_spec id ""); [split; [discriminate|intros (_ & (? & _) & _); congruence]|].
  destruct (contains "." ts); cbn [orb]; [split; [discriminate|intros ((_ & ? & _) & _); congruence]|].
  destruct (contains "-" ts); cbn [orb]; [split; [discriminate|intros ((_ & _ & ?) & _); congruence]|].
  destruct (contains "." id); cbn [orb]; [split; [discriminate|intros (_ & (_ & ? & _) & _); congruence]|].
  destruct (contains "-" id); cbn [orb]; [split; [discriminate|intros (_ & (_ & _ & ?) & _); congruence]|].
  assert (E : existsb (fun p => prefix p id) ps = false <-> forall p, In p ps -> ~ starts_with p id).
  { split.
    - intros E p Hp Hs. apply prefix_spec in Hs. rewrite <- not_true_iff_false in E. apply E. apply existsb_exists. eauto.
    - intros H. rewrite <- not_true_iff_false. intros E. apply existsb_exists in E. destruct E as (p & Hp & Hs).
      apply prefix_spec in Hs. eapply H; eauto. }
  rewrite <- E. destruct allow, (existsb (fun p => prefix p id) ps); cbn; intuition congruence.
Qed.
End Make.
