(* C39: compiled functions. *)
From Coquelicot Require Import Coquelicot.
From Coq Require Import String Ascii Bool ZArith QArith Qreals Reals Lra Arith List Lia Permutation.
From Verif Require Import M_Expr M_Dag M_Dec S_Expr S_Dag S_Dec P_ExprSem P_Subs P_Build P_Dag P_Dec P_Vars P_DecX P_DecP.
From Verif Require Import M_Taylor M_Adj P_Adj2 P_Cfunc1 M_Cfunc S_Cfunc P_Cfunc2 P_Cfunc6 P_Cfunc7 P_Cfunc8 X_Expr X_Dec T_Dec.
Import ListNotations.
Local Open Scope nat_scope.
Set Bullet Behavior "Strict Subproofs".

Section Compiled.
Context (o : nops) (td : string -> bool).
Local Notation ex := (expr (num o)).
(* The llvm names and the names of the functions, == on numbers and functions, the
   representation of expressions, the name of the floating-point type, the
   recommended batch size. *)
Context (lname : fid (num o) -> list ex -> string) (fname : fid (num o) -> string).
Context (neq : num o -> num o -> bool) (feq : fid (num o) -> fid (num o) -> bool) (share : list ex -> list (dag (num o))).
Context (ty : string) (simd fuel : nat).
Local Notation make es vars bs compact parallel := (make_cfunc o td lname fname neq feq share ty simd fuel es vars bs compact parallel).
Local Notation shares := (forall l, map erase (share l) = l /\ consistent (share l)).

(* The number of parameters and the time dependence of es. *)
Definition n_pars (es : list ex) (np : nat) : Prop :=
  (forall e i, In e es -> occurs (EPar i) e -> i < np) /\ (np = 0 \/ exists e i, In e es /\ occurs (EPar i) e /\ np = i + 1).
Definition uses_time (es : list ex) : Prop := exists e f args, In e es /\ occurs (EFun f args) e /\ fid_td o td f = true.

(* A compiled function can be made from every valid input, in both modes (in
   compact mode, provided that the names have no forbidden characters), and
   has the attributes of the input. *)
Theorem cfunc_created es vars vs bs compact :
  shares -> valid_input o es vars vs -> (compact = true -> clean_names o (used o es) lname fname) ->
  exists fuel0 c, forall fuel', fuel0 <= fuel' -> make_cfunc o td lname fname neq feq share ty simd fuel' es vars bs compact false = MDone c.
Proof. intros Hs Hi Hc. apply check_vars_ok in Hi. exact (make_total o td lname fname neq feq share Hs ty simd es vars vs bs compact Hi Hc). Qed.

Theorem cfunc_attributes es vars vs bs compact parallel c :
  valid_input o es vars vs -> make es vars bs compact parallel = MDone c ->
  cf_nvars o c = length vs /\ cf_nouts o c = length es /\ n_pars es (cf_nparams o c) /\ (cf_td o c = true <-> uses_time es) /\
  cf_batch o c = (if Nat.eqb bs 0 then simd else bs).
Proof.
  intros Hi Hm. apply check_vars_ok in Hi.
  destruct (make_fields o td lname fname neq feq share ty simd fuel es vars vs bs compact parallel c Hm Hi) as (-> & -> & -> & -> & ->).
  split; [reflexivity|]. split; [reflexivity|]. split; [apply get_param_size_ok|]. split; [|reflexivity].
  rewrite existsb_exists. split.
  - intros (e & He & Ht). unfold is_time_dependent in Ht. apply test_any_spec in Ht. destruct Ht as (x & Hx & Ht).
    destruct x as [n|s|i|f args]; try discriminate. exists e, f, args. split; [exact He|]. split; [exact Hx|]. destruct f; try discriminate; try reflexivity. exact Ht.
  - intros (e & f & args & He & Ho & Hf). exists e. split; [exact He|]. unfold is_time_dependent. apply test_any_spec. exists (EFun f args). split; [exact Ho|].
    destruct f; try discriminate; try reflexivity. exact Hf.
Qed.

(* Invalid input and the combination of compact and parallel mode are refused. *)
Theorem cfunc_rejects es vars bs compact parallel :
  (forall vs, ~ valid_input o es vars vs) \/ (compact = true /\ parallel = true) -> make es vars bs compact parallel = MThrow.
Proof.
  intros H. apply make_reject. destruct H as [H|H]; [left | now right].
  destruct (check_vars o es vars) as [vs|] eqn:E; [|reflexivity]. exfalso. apply (H vs). now apply check_vars_ok.
Qed.

(* In any arithmetic, and in both modes: a single evaluation. *)
Theorem cfunc_single_eval {T} (A : arith o T) dflt es vars vs bs compact parallel c tape outputs inputs pars time :
  shares -> carith_ok o td A neq feq -> valid_input o es vars vs -> (compact = true -> names_ok o (used o es) lname) ->
  make es vars bs compact parallel = MDone c -> tape_ok o (cf_code o c) tape ->
  single_args_ok (cf_nvars o c) (cf_nouts o c) (cf_nparams o c) (cf_td o c) outputs inputs pars time ->
  exists out, single_eval o td A dflt c tape outputs inputs pars time = MDone out /\ length out = length outputs /\
    forall i e, nth_error es i = Some e ->
      nth i out dflt = cval o td A (bind dflt vs inputs) (fun p => match pars with Some l => nth p l dflt | None => dflt end) time (cfunc_passes o e).
Proof.
  intros Hs HA Hi HN Hm Ht Ha. apply check_vars_ok in Hi.
  destruct (make_fields o td lname fname neq feq share ty simd fuel es vars vs bs compact parallel c Hm Hi) as (F1 & F2 & F3 & F4 & _).
  rewrite F1, F2, F3, F4 in Ha.
  exact (single_spec o td lname fname neq feq share Hs ty simd fuel A dflt HA es vars vs bs compact parallel c HN Hm Hi tape outputs inputs pars time Ht Ha).
Qed.

(* Many evaluations: column k of the outputs is computed from column k of the
   inputs, of the parameters and of the times, for all numbers of columns and all
   batch sizes, with or without threads, in any order of the stores and for any
   contents of the tapes. *)
Theorem cfunc_multi_eval {T} (A : arith o T) dflt es vars vs bs compact parallel c tapes sched heur outputs inputs pars times bp :
  shares -> carith_ok o td A neq feq -> valid_input o es vars vs -> (compact = true -> names_ok o (used o es) lname) ->
  make es vars bs compact parallel = MDone c -> 0 < cf_batch o c ->
  (forall b off, tape_ok o (cf_code o c) (tapes b off)) -> (forall tasks, interleaving tasks (sched tasks)) ->
  mat_ok outputs -> mat_ok inputs -> match pars with Some p => mat_ok p | None => True end ->
  multi_args_ok (cf_nvars o c) (cf_nouts o c) (cf_nparams o c) (cf_td o c) outputs inputs pars times ->
  exists out, multi_eval o td A dflt c tapes sched heur outputs inputs pars times bp = MDone out /\ length out = length (m_data outputs) /\
    forall i k e, nth_error es i = Some e -> k < m_cols outputs ->
      nth (i * m_cols outputs + k) out dflt =
      cval o td A (col_vars dflt vs inputs k) (col_pars dflt pars k) (col_time times k) (cfunc_passes o e).
Proof.
  intros Hs HA Hi HN Hm Hb Ht Hsched Mo Mi Mp Ha. apply check_vars_ok in Hi.
  destruct (make_fields o td lname fname neq feq share ty simd fuel es vars vs bs compact parallel c Hm Hi) as (F1 & F2 & F3 & F4 & _).
  rewrite F1, F2, F3, F4 in Ha.
  exact (multi_spec o td lname fname neq feq share Hs ty simd fuel A dflt HA es vars vs bs compact parallel c HN Hm Hi tapes outputs inputs pars times Ht Ha Mo Mi Mp Hb sched heur bp Hsched).
Qed.

(* Arrays of the wrong shape, missing parameters or missing times are refused. *)
Theorem cfunc_eval_rejects {T} (A : arith o T) dflt es vars vs bs compact parallel c :
  valid_input o es vars vs -> make es vars bs compact parallel = MDone c ->
  (forall tape outputs inputs pars time, ~ single_args_ok (cf_nvars o c) (cf_nouts o c) (cf_nparams o c) (cf_td o c) outputs inputs pars time ->
     single_eval o td A dflt c tape outputs inputs pars time = MThrow) /\
  (forall tapes sched heur outputs inputs pars times bp,
     ~ multi_args_ok (cf_nvars o c) (cf_nouts o c) (cf_nparams o c) (cf_td o c) outputs inputs pars times ->
     multi_eval o td A dflt c tapes sched heur outputs inputs pars times bp = MThrow).
Proof.
  intros Hi Hm. apply check_vars_ok in Hi.
  destruct (make_fields o td lname fname neq feq share ty simd fuel es vars vs bs compact parallel c Hm Hi) as (F1 & F2 & F3 & F4 & _).
  rewrite F1, F2, F3, F4. split; intros.
  - now apply (single_invalid o td lname fname neq feq share ty simd fuel A dflt es vars vs bs compact parallel c Hm Hi).
  - now apply (multi_invalid o td lname fname neq feq share ty simd fuel A dflt es vars vs bs compact parallel c Hm Hi).
Qed.

(* Two compiled functions of the same expressions return the same values, whatever
   the modes, the batch sizes, the use of threads and the tapes. *)
Theorem cfunc_modes_agree {T} (A : arith o T) (dflt : T) es vars vs bs1 compact1 parallel1 c1 bs2 compact2 parallel2 c2
  tapes1 sched1 heur1 outputs1 bp1 tapes2 sched2 heur2 outputs2 bp2 inputs pars times out1 out2 :
  shares -> carith_ok o td A neq feq -> valid_input o es vars vs -> names_ok o (used o es) lname ->
  make es vars bs1 compact1 parallel1 = MDone c1 -> make es vars bs2 compact2 parallel2 = MDone c2 -> 0 < simd ->
  (forall b off, tape_ok o (cf_code o c1) (tapes1 b off)) -> (forall tasks, interleaving tasks (sched1 tasks)) ->
  (forall b off, tape_ok o (cf_code o c2) (tapes2 b off)) -> (forall tasks, interleaving tasks (sched2 tasks)) ->
  mat_ok outputs1 -> mat_ok outputs2 -> mat_ok inputs -> match pars with Some p => mat_ok p | None => True end ->
  multi_eval o td A dflt c1 tapes1 sched1 heur1 outputs1 inputs pars times bp1 = MDone out1 ->
  multi_eval o td A dflt c2 tapes2 sched2 heur2 outputs2 inputs pars times bp2 = MDone out2 ->
  out1 = out2.
Proof.
  intros Hs HA Hi HN Hm1 Hm2 Hsimd Ht1 Hs1 Ht2 Hs2 Mo1 Mo2 Mi Mp E1 E2.
  pose proof (proj2 (check_vars_ok _ _ _ _) Hi) as HV.
  assert (HB : forall bs compact parallel c, make es vars bs compact parallel = MDone c -> 0 < cf_batch o c).
  { intros bs compact parallel c Hm. destruct (make_fields o td lname fname neq feq share ty simd fuel es vars vs bs compact parallel c Hm HV) as (_ & _ & _ & _ & ->).
    destruct (Nat.eqb_spec bs 0); lia. }
  assert (HX : forall bs compact parallel c tapes sched heur outputs bp out, make es vars bs compact parallel = MDone c ->
    (forall b off, tape_ok o (cf_code o c) (tapes b off)) -> (forall tasks, interleaving tasks (sched tasks)) -> mat_ok outputs ->
    multi_eval o td A dflt c tapes sched heur outputs inputs pars times bp = MDone out ->
    m_cols outputs = m_cols inputs /\ length out = length es * m_cols inputs /\
    forall i k e, nth_error es i = Some e -> k < m_cols inputs -> nth (i * m_cols inputs + k) out dflt =
      cval o td A (col_vars dflt vs inputs k) (col_pars dflt pars k) (col_time times k) (cfunc_passes o e)).
  { intros bs compact parallel c tapes sched heur outputs bp out Hm Ht Hsc Mo E.
    destruct (make_fields o td lname fname neq feq share ty simd fuel es vars vs bs compact parallel c Hm HV) as (F1 & F2 & F3 & F4 & _).
    assert (Ha : multi_args_ok (cf_nvars o c) (cf_nouts o c) (cf_nparams o c) (cf_td o c) outputs inputs pars times).
    { unfold multi_eval in E. unfold multi_args_ok.
      destruct (Nat.eqb_spec (m_rows outputs) (cf_nouts o c)); cbn [negb] in E; [|discriminate].
      destruct (Nat.eqb_spec (m_rows inputs) (cf_nvars o c)); cbn [negb] in E; [|discriminate].
      destruct (Nat.eqb_spec (m_cols inputs) (m_cols outputs)); cbn [negb] in E; [|discriminate].
      split; [assumption|]. split; [assumption|]. split; [assumption|].
      destruct (negb (Nat.eqb (cf_nparams o c) 0) && match pars with None => true | Some _ => false end) eqn:B1; [discriminate|].
      destruct (match pars with Some p => _ | None => false end) eqn:B2; [discriminate|].
      destruct (cf_td o c && match times with None => true | Some _ => false end) eqn:B3; [discriminate|].
      destruct (match times with Some t => _ | None => false end) eqn:B4; [discriminate|]. clear E. split.
      - destruct pars as [p|]; [|rewrite andb_true_r in B1; apply negb_false_iff, Nat.eqb_eq in B1; exact B1].
        apply orb_false_iff in B2. destruct B2 as [B2 B5]. apply negb_false_iff, Nat.eqb_eq in B2. apply negb_false_iff, Nat.eqb_eq in B5. auto.
      - destruct times as [t|]; [apply negb_false_iff, Nat.eqb_eq in B4; exact B4 | now rewrite andb_true_r in B3]. }
    destruct (cfunc_multi_eval A dflt es vars vs bs compact parallel c tapes sched heur outputs inputs pars times bp Hs HA Hi (fun _ => HN) Hm (HB _ _ _ _ Hm) Ht Hsc Mo Mi Mp Ha)
      as (out' & E' & L & H). rewrite E in E'. injection E' as <-. destruct Ha as (A1 & _ & A3 & _). unfold mat_ok in Mo. rewrite Mo, A1, F2 in L. rewrite A3. auto. }
  destruct (HX _ _ _ _ _ _ _ _ _ _ Hm1 Ht1 Hs1 Mo1 E1) as (_ & L1 & V1). destruct (HX _ _ _ _ _ _ _ _ _ _ Hm2 Ht2 Hs2 Mo2 E2) as (_ & L2 & V2).
  apply (nth_ext _ _ dflt dflt); [congruence|]. intros n Hn. rewrite L1 in Hn.
  assert (Hc : m_cols inputs <> 0) by (intros E; rewrite E in Hn; lia).
  assert (Hq : n / m_cols inputs < length es) by (apply Nat.div_lt_upper_bound; lia).
  destruct (nth_error es (n / m_cols inputs)) as [e|] eqn:Ee; [|apply nth_error_None in Ee; lia].
  pose proof (Nat.mod_upper_bound n (m_cols inputs) Hc) as Hr.
  replace n with (n / m_cols inputs * m_cols inputs + n mod m_cols inputs) by (pose proof (Nat.div_mod n (m_cols inputs) Hc); lia).
  rewrite (V1 _ _ e Ee Hr), (V2 _ _ e Ee Hr). reflexivity.
Qed.

(* With real numbers (None: no value): wherever an expression has a value, so
   has the compiled function, and it is the same. *)
Theorem cfunc_reals nval (L : nlaws o nval) (D : string -> list (nat * nat) -> list R -> option R) (U : string -> option R -> list R -> option R)
  es vars vs bs compact parallel c tapes sched heur outputs inputs pars times bp :
  (forall a z, n_oddhalf o a = Some z -> Z.odd z = true) ->
  shares -> carith_ok o td (real_arith o nval D U) neq feq -> valid_input o es vars vs -> (compact = true -> names_ok o (used o es) lname) ->
  make es vars bs compact parallel = MDone c -> 0 < cf_batch o c ->
  (forall b off, tape_ok o (cf_code o c) (tapes b off)) -> (forall tasks, interleaving tasks (sched tasks)) ->
  mat_ok outputs -> mat_ok inputs -> match pars with Some p => mat_ok p | None => True end ->
  multi_args_ok (cf_nvars o c) (cf_nouts o c) (cf_nparams o c) (cf_td o c) outputs inputs pars times ->
  exists out, multi_eval o td (real_arith o nval D U) None c tapes sched heur outputs inputs pars times bp = MDone out /\
    length out = length (m_data outputs) /\
    forall i k e w, nth_error es i = Some e -> k < m_cols outputs ->
      eval o nval (eval_env td D U (col_vars None vs inputs k) (col_pars None pars k) (col_time times k)) e = Some w ->
      nth (i * m_cols outputs + k) out None = Some w.
Proof.
  intros Hodd Hs HA Hi HN Hm Hb Ht Hsched Mo Mi Mp Ha.
  destruct (cfunc_multi_eval (real_arith o nval D U) None es vars vs bs compact parallel c tapes sched heur outputs inputs pars times bp Hs HA Hi HN Hm Hb Ht Hsched Mo Mi Mp Ha) as (out & E & Lo & H).
  exists out. split; [exact E|]. split; [exact Lo|]. intros i k e w He Hk Hw. rewrite (H i k e He Hk). destruct L as [RG TR].
  apply (cval_real o nval td D U RG Hodd). unfold cfunc_passes.
  apply split_prods_ok, prod_to_div_eval_ok, sums_to_sum_sqs_ok, split_sums_ok, sum_to_sub_ok; auto.
Qed.
End Compiled.

(* The llvm names of newly created functions meet the requirement, if the names
   of different functions differ. *)
Theorem cfunc_fresh_names o (K : fid (num o) -> Prop) base :
  (forall f g, K f -> K g -> f <> Fpow -> g <> Fpow -> base f = base g -> f = g) -> (forall f, K f -> base f <> "prod_neg"%string) ->
  (forall f s, K f -> f <> Fpow -> base f <> ("pow" ++ s)%string) -> (forall f s, K f -> base f <> ("composite|" ++ s)%string) ->
  names_ok o K (fresh_name o base).
Proof. apply fresh_ok. Qed.

(* --- Examples ------------------------------------------------------------------------------------------- *)
(* The functions of a list of expressions. *)
Fixpoint funs {N} (e : expr N) : list (fid N) :=
  match e with EFun f args => f :: concat (map funs args) | _ => [] end.
Lemma funs_occ {N} f (args : list (expr N)) : forall e, occurs (EFun f args) e -> In f (funs e).
Proof.
  induction e as [x|s|i|g l IH] using expr_ind'; intros H; try (now inversion H). inversion H as [|? ? a Ha Ho]; subst; [now left|].
  right. apply in_concat. exists (funs a). split; [now apply in_map|]. rewrite Forall_forall in IH. now apply IH.
Qed.
Lemma used_funs o es f : used o es f -> In f (concat (map funs es) ++ [Fsum; Fprod; Fpow; Fsub; Fdiv; Fsumsq; Fu Ucsin; Fu Uccos]).
Proof.
  intros [(e & args & He & Ho)|H]; apply in_app_iff; [left|now right]. apply in_concat. exists (funs e). split; [now apply in_map | now apply (funs_occ f args)].
Qed.
Definition demo_name {N} (f : fid N) : string :=
  match f with
  | Fsum => "sum" | Fprod => "prod" | Fpow => "pow" | Fsub => "sub" | Fdiv => "div" | Fsumsq => "sum_sq"
  | Fu Usin => "sin" | Fu Ucos => "cos" | Fu Ucsin => "csin" | Fu Uccos => "ccos" | Ftime => "time" | _ => "other"
  end%string.
Definition named_in {N} (l : list (fid N)) : Prop :=
  forall f, In f l -> In f [Fsum; Fprod; Fpow; Fsub; Fdiv; Fsumsq; Fu Usin; Fu Ucos; Fu Ucsin; Fu Uccos; Ftime].
Lemma demo_names_ok o es : named_in (concat (map funs es)) -> names_ok o (used o es) (fresh_name o demo_name) /\ clean_names o (used o es) (fresh_name o demo_name) demo_name.
Proof.
  intros H.
  assert (HK : forall f, used o es f -> In f [Fsum; Fprod; Fpow; Fsub; Fdiv; Fsumsq; Fu Usin; Fu Ucos; Fu Ucsin; Fu Uccos; Ftime]).
  { intros f Hf. apply used_funs in Hf. apply in_app_iff in Hf. destruct Hf as [Hf|Hf]; [now apply H|]. cbn in Hf |- *. intuition. }
  split.
  - apply cfunc_fresh_names.
    + intros f g Hf Hg Nf Ng. apply HK in Hf, Hg. cbn in Hf, Hg.
      repeat (destruct Hf as [<-|Hf]; [repeat (destruct Hg as [<-|Hg]; [first [reflexivity | discriminate | congruence]|]); destruct Hg|]). destruct Hf.
    + intros f Hf. apply HK in Hf. cbn in Hf. repeat (destruct Hf as [<-|Hf]; [discriminate|]). destruct Hf.
    + intros f s Hf Nf. apply HK in Hf. cbn in Hf. repeat (destruct Hf as [<-|Hf]; [first [congruence | discriminate]|]). destruct Hf.
    + intros f s Hf. apply HK in Hf. cbn in Hf. repeat (destruct Hf as [<-|Hf]; [discriminate|]). destruct Hf.
  - intros f args Hf. apply HK in Hf. cbn in Hf.
    assert (HD : forall p n, (forall a, p a = true -> In a ["("; ")"; "#"; "."]%char) -> has_char p (dec_string n) = false).
    { intros p n Hp. unfold dec_string. induction (Nat.to_uint n); cbn; [reflexivity|..]; rewrite IHu, orb_false_r;
        match goal with |- p ?a = false => destruct (p a) eqn:E; [apply Hp in E; cbn in E; intuition discriminate | reflexivity] end. }
    assert (HS : forall p a, (forall c, p c = true -> In c ["("; ")"; "#"; "."]%char) -> has_char p (suffix a) = false).
    { intros p a Hp. assert (HL : forall s n, has_char p s = false -> has_char p (s ++ dec_string n) = false).
      { intros s n Es. rewrite P_Cfunc3.has_char_app, Es. now apply HD. }
      destruct a; try reflexivity; cbn [suffix]; apply HL; cbn;
        repeat (apply orb_false_iff; split); try reflexivity;
        match goal with |- p ?a = false => destruct (p a) eqn:E; [apply Hp in E; cbn in E; intuition discriminate | reflexivity] end. }
    assert (P1 : forall c, forbidden c = true -> In c ["("; ")"; "#"; "."]%char).
    { intros c E. unfold forbidden in E. apply orb_prop in E. destruct E as [E|E]; [apply orb_prop in E; destruct E as [E|E]|]; apply Ascii.eqb_eq in E; subst; cbn; auto. }
    assert (P2 : forall c, Ascii.eqb "." c = true -> In c ["("; ")"; "#"; "."]%char) by (intros c E; apply Ascii.eqb_eq in E; subst; cbn; auto).
    repeat (destruct Hf as [<-|Hf]; [|]); try (destruct Hf; fail); try (split; [reflexivity|]; split; reflexivity).
    + split; [reflexivity|]. unfold fresh_name. destruct (algo_of o Fprod args); split; reflexivity.
    + split; [reflexivity|]. unfold fresh_name. rewrite !P_Cfunc3.has_char_app, !HS by assumption. split; reflexivity.
Qed.
Lemma exact_carith o td {T} (A : arith o T) (deq : forall a b : num o, {a = b} + {a <> b}) :
  (forall t vs, r_fun o A (Fu Ucsin) t vs = r_fun o A (Fu Usin) t vs) -> (forall t vs, r_fun o A (Fu Uccos) t vs = r_fun o A (Fu Ucos) t vs) ->
  carith_ok o td A (num_eqb deq) (fid_eqb deq).
Proof.
  intros H1 H2. split; [| |exact H1|exact H2].
  - intros x y. unfold num_eqb. destruct (deq x y) as [->|]; [auto | discriminate].
  - intros f g. unfold fid_eqb. destruct (fid_dec deq f g) as [->|]; [|discriminate]. intros _. split; [tauto|]. split; [tauto|]. auto.
Qed.

(* An arithmetic on integers. *)
Definition z_arith : arith qnum Z :=
  mkArith qnum (fun q => Qnum q)
    (fun f t vs => match f, vs with
                   | Fsum, _ => fold_right Z.add 0%Z vs
                   | Fprod, _ => fold_right Z.mul 1%Z vs
                   | Fsub, [a; b] => (a - b)%Z
                   | Fdiv, [a; b] => (a / b)%Z
                   | Fsumsq, _ => fold_right Z.add 0%Z (map (fun x => x * x)%Z vs)
                   | Fu Usin, [a] | Fu Ucsin, [a] => (100 + a)%Z
                   | Fu Ucos, [a] | Fu Uccos, [a] => (200 + a)%Z
                   | Ftime, _ => match t with Some x => x | None => 0%Z end
                   | _, _ => 0%Z
                   end)
    Z.mul Z.div Z.sqrt Z.opp 1%Z.
Definition no_td : string -> bool := fun _ => false.
Definition par0 : expr Q := EPar 0.
Definition tm : expr Q := EFun Ftime [].
(* x * y + sin(x), cos(x) - x**3 * par[0] + t, -y, 3, par[0] *)
Definition demo_es : list (expr Q) :=
  [mk_sum qnum [mk_mul qnum xq yq; EFun (Fu Usin) [xq]];
   mk_sum qnum [EFun (Fu Ucos) [xq]; mk_mul qnum (mk_pow qnum xq (ENum 3%Q)) par0; tm];
   mk_mul qnum (ENum (-1)%Q) yq; ENum 3%Q; par0].
Local Notation qmake lname es vars bs compact :=
  (make_cfunc qnum no_td lname demo_name (num_eqb q_dec) (fid_eqb q_dec) unshared "f64" 4 100 es vars bs compact false).
Definition demo_c (compact : bool) (bs : nat) : cfunc qnum :=
  match qmake (fresh_name qnum demo_name) demo_es [xq; yq] bs compact with MDone c => c | _ => mkCF qnum 0 0 0 false 0 (NC qnum (mkDC qnum [] [] [])) end.
Definition some_tape (c : cfunc qnum) (_ _ : nat) : list (list Z) := match cf_code qnum c with CM p => repeat [77%Z] (cp_nu qnum p) | NC _ => [] end.
Definition rev_sched (tasks : list (list (store (T := Z)))) : list (store (T := Z)) := concat (rev tasks).
Lemma rev_interleaving {X} (tasks : list (list X)) : interleaving tasks (concat (rev tasks)).
Proof.
  assert (G : forall ts es, Forall (fun t : list X => t = []) es -> interleaving (ts ++ es) (concat (rev ts))).
  { induction ts as [|t ts IH] using rev_ind; intros es He; [now constructor|]. rewrite rev_app_distr, <- app_assoc. cbn [rev app concat].
    induction t as [|x t IHt]; [apply IH; now constructor | cbn [app]; now apply il_step]. }
  rewrite <- (app_nil_r tasks) at 1. now apply G.
Qed.
Lemma demo_valid : valid_input qnum demo_es [xq; yq] ["x"; "y"]%string.
Proof. apply check_vars_ok. vm_compute. reflexivity. Qed.
Lemma demo_used : named_in (concat (map funs demo_es)).
Proof. intros f Hf. cbn in Hf |- *. intuition. Qed.
(* Two variables and three evaluations: x = 1, 2, 3, y = 10, 20, 30. *)
Definition demo_in : mat := mkMat 2 3 [1; 2; 3; 10; 20; 30]%Z.
Definition demo_out : mat := mkMat 5 3 (repeat 0%Z 15).
Definition demo_pars : option mat := Some (mkMat 1 3 [5; 6; 7]%Z).
Definition demo_times : option (list Z) := Some [1000; 2000; 3000]%Z.
Local Notation demo_run c bp :=
  (multi_eval qnum no_td z_arith 0%Z c (some_tape c) rev_sched true demo_out demo_in demo_pars demo_times bp).
Definition demo_check (compact : bool) (bs : nat) : bool :=
  match qmake (fresh_name qnum demo_name) demo_es [xq; yq] bs compact with
  | MDone c => Nat.eqb (cf_nvars qnum c) 2 && Nat.eqb (cf_nouts qnum c) 5 && Nat.eqb (cf_nparams qnum c) 1 && cf_td qnum c && Nat.ltb 0 (cf_batch qnum c)
  | _ => false
  end.
Lemma demo_checked compact bs : demo_check compact bs = true ->
  qmake (fresh_name qnum demo_name) demo_es [xq; yq] bs compact = MDone (demo_c compact bs) /\ cf_nvars qnum (demo_c compact bs) = 2 /\
  cf_nouts qnum (demo_c compact bs) = 5 /\ cf_nparams qnum (demo_c compact bs) = 1 /\ cf_td qnum (demo_c compact bs) = true /\ 0 < cf_batch qnum (demo_c compact bs).
Proof.
  unfold demo_check, demo_c. destruct (qmake (fresh_name qnum demo_name) demo_es [xq; yq] bs compact) as [c| | |]; try discriminate.
  intros H. repeat (apply andb_prop in H; destruct H as [H ?]).
  repeat match goal with H : Nat.eqb _ _ = true |- _ => apply Nat.eqb_eq in H | H : Nat.ltb _ _ = true |- _ => apply Nat.ltb_lt in H end. auto 6.
Qed.
Lemma some_tape_ok c b off : tape_ok qnum (cf_code qnum c) (some_tape c b off).
Proof. unfold tape_ok, some_tape. destruct (cf_code qnum c); [exact I | apply repeat_length]. Qed.
Definition demo_res : list Z := [111; 142; 193; 1206; 2250; 3392; -10; -20; -30; 3; 3; 3; 5; 6; 7]%Z.
Definition demo_val (compact : bool) (bs : nat) (bp : option bool) : bool :=
  match demo_run (demo_c compact bs) bp with MDone l => if list_eq_dec Z.eq_dec l demo_res then true else false | _ => false end.
Lemma demo_valued compact bs bp : demo_val compact bs bp = true -> demo_run (demo_c compact bs) bp = MDone demo_res.
Proof. unfold demo_val. destruct (demo_run (demo_c compact bs) bp); try discriminate. destruct (list_eq_dec Z.eq_dec a demo_res) as [->|]; [reflexivity | discriminate]. Qed.
Example cfunc_demo : forall compact bs, (bs = 0 \/ bs = 1 \/ bs = 2 \/ bs = 3) ->
  qmake (fresh_name qnum demo_name) demo_es [xq; yq] bs compact = MDone (demo_c compact bs) /\
  names_ok qnum (used qnum demo_es) (fresh_name qnum demo_name) /\ clean_names qnum (used qnum demo_es) (fresh_name qnum demo_name) demo_name /\
  carith_ok qnum no_td z_arith (num_eqb q_dec) (fid_eqb q_dec) /\ (forall tasks, interleaving tasks (rev_sched tasks)) /\
  0 < cf_batch qnum (demo_c compact bs) /\ (forall b off, tape_ok qnum (cf_code qnum (demo_c compact bs)) (some_tape (demo_c compact bs) b off)) /\
  mat_ok demo_out /\ mat_ok demo_in /\ match demo_pars with Some p => mat_ok p | None => True end /\
  multi_args_ok (cf_nvars qnum (demo_c compact bs)) (cf_nouts qnum (demo_c compact bs)) (cf_nparams qnum (demo_c compact bs)) (cf_td qnum (demo_c compact bs))
    demo_out demo_in demo_pars demo_times /\
  (forall bp, demo_run (demo_c compact bs) bp = MDone demo_res).
Proof.
  intros compact bs Hbs. destruct (demo_names_ok qnum demo_es demo_used) as [N1 N2].
  assert (HA : carith_ok qnum no_td z_arith (num_eqb q_dec) (fid_eqb q_dec)) by (apply exact_carith; intros t [|a [|b l]]; reflexivity).
  assert (HC : demo_check compact bs = true) by (destruct Hbs as [->|[->|[->| ->]]]; destruct compact; vm_compute; reflexivity).
  assert (HV : forall bp, demo_val compact bs bp = true) by (destruct Hbs as [->|[->|[->| ->]]]; destruct compact; intros [[]|]; vm_compute; reflexivity).
  destruct (demo_checked _ _ HC) as (E & -> & -> & -> & -> & Hb).
  split; [exact E|]. split; [exact N1|]. split; [exact N2|]. split; [exact HA|]. split; [intros; apply rev_interleaving|].
  split; [exact Hb|]. split; [intros; apply some_tape_ok|]. split; [reflexivity|]. split; [reflexivity|]. split; [reflexivity|].
  split; [unfold multi_args_ok; cbn; repeat split|]. intros bp. now apply demo_valued.
Qed.
Example cfunc_single_demo : forall compact tape, tape_ok qnum (cf_code qnum (demo_c compact 0)) tape ->
  (exists out, single_eval qnum no_td z_arith 0%Z (demo_c compact 0) tape [9; 9; 9; 9; 9]%Z [2; 20]%Z (Some [6%Z]) (Some 2000%Z) = MDone out /\
    out = [142; 2250; -20; 3; 6]%Z) /\
  single_eval qnum no_td z_arith 0%Z (demo_c compact 0) tape [9; 9; 9; 9; 9]%Z [2; 20]%Z (Some [6%Z]) None = MThrow /\
  single_eval qnum no_td z_arith 0%Z (demo_c compact 0) tape [9; 9; 9; 9; 9]%Z [2; 20]%Z None (Some 2000%Z) = MThrow /\
  single_eval qnum no_td z_arith 0%Z (demo_c compact 0) tape [9; 9; 9; 9; 9]%Z [2]%Z (Some [6%Z]) (Some 2000%Z) = MThrow.
Proof.
  intros compact tape Ht. destruct (cfunc_demo compact 0 (or_introl eq_refl)) as (E & N1 & _ & HA & _).
  destruct (demo_checked compact 0) as (_ & F1 & F2 & F3 & F4 & _); [destruct compact; vm_compute; reflexivity|].
  destruct (cfunc_eval_rejects qnum no_td (fresh_name qnum demo_name) demo_name (num_eqb q_dec) (fid_eqb q_dec) unshared "f64" 4 100 z_arith 0%Z _ _ _ _ _ _ _ demo_valid E) as [HR _].
  split; [|split; [|split]].
  - destruct (cfunc_single_eval qnum no_td (fresh_name qnum demo_name) demo_name (num_eqb q_dec) (fid_eqb q_dec) unshared "f64" 4 100 z_arith 0%Z demo_es [xq; yq] ["x"; "y"]%string
      0 compact false (demo_c compact 0) tape [9; 9; 9; 9; 9]%Z [2; 20]%Z (Some [6%Z]) (Some 2000%Z)) as (out & Eo & Lo & H).
    + apply unshared_ok.
    + exact HA.
    + exact demo_valid.
    + intros _. exact N1.
    + exact E.
    + exact Ht.
    + rewrite F1, F2, F3, F4. repeat split. discriminate.
    + exists out. split; [exact Eo|]. cbn in Lo. destruct out as [|a0 [|a1 [|a2 [|a3 [|a4 [|]]]]]]; try discriminate Lo.
      pose proof (H 0 _ eq_refl) as H0. pose proof (H 1 _ eq_refl) as H1. pose proof (H 2 _ eq_refl) as H2. pose proof (H 3 _ eq_refl) as H3. pose proof (H 4 _ eq_refl) as H4.
      cbn [nth] in H0, H1, H2, H3, H4. vm_compute in H0, H1, H2, H3, H4. congruence.
  - apply HR. rewrite F1, F2, F3, F4. intros (_ & _ & _ & H). exact (H eq_refl eq_refl).
  - apply HR. rewrite F1, F2, F3, F4. intros (_ & _ & H & _). discriminate.
  - apply HR. rewrite F1, F2, F3, F4. intros (_ & H & _). discriminate.
Qed.
Example cfunc_reject_demo :
  (forall vs, ~ valid_input qnum demo_es [xq] vs) /\
  (forall compact, qmake (fresh_name qnum demo_name) demo_es [xq] 0 compact = MThrow) /\
  make_cfunc qnum no_td (fresh_name qnum demo_name) demo_name (num_eqb q_dec) (fid_eqb q_dec) unshared "f64" 4 100 demo_es [xq; yq] 0 true true = MThrow.
Proof.
  split; [|split; [intros []; vm_compute; reflexivity | reflexivity]].
  intros vs (_ & E & _ & H). destruct vs as [|s [|s' l]]; try discriminate. injection E as <-.
  assert (Hy : In "y"%string ["x"%string]).
  { apply (H (mk_mul qnum (ENum (-1)%Q) yq)); [cbn; auto|]. apply occ_arg with (a := yq); [cbn; auto | constructor]. }
  destruct Hy as [Hy|[]]. discriminate.
Qed.
Definition is_done {X} (r : mres X) : bool := match r with MDone _ => true | _ => false end.
Lemma done_ex {X} (r : mres X) : is_done r = true -> exists x, r = MDone x.
Proof. destruct r; try discriminate. eauto. Qed.
Definition is_val (r : mres (list Z)) (l : list Z) : bool := match r with MDone x => if list_eq_dec Z.eq_dec x l then true else false | _ => false end.
Lemma val_is r l : is_val r l = true -> r = MDone l.
Proof. destruct r as [x| | |]; try discriminate. cbn. destruct (list_eq_dec Z.eq_dec x l) as [->|]; [reflexivity | discriminate]. Qed.
(* Names with forbidden characters are refused in compact mode. *)
Example cfunc_dirty_demo :
  qmake (fun _ _ => "a.b"%string) demo_es [xq; yq] 0 true = MThrow /\ qmake (fun _ _ => "f(x)"%string) demo_es [xq; yq] 0 true = MThrow /\
  exists c, qmake (fun _ _ => "a.b"%string) demo_es [xq; yq] 0 false = MDone c.
Proof. split; [vm_compute; reflexivity|]. split; [vm_compute; reflexivity|]. apply done_ex. vm_compute. reflexivity. Qed.

(* Real numbers: the function x**(1/2) * y in compact mode. *)
Definition xr : expr R := EVar "x". Definition yr : expr R := EVar "y".
Definition real_es : list (expr R) := [EFun Fprod [EFun Fpow [xr; ENum (1/2)%R]; yr]].
Definition r_dec (a b : R) : {a = b} + {a <> b} := Req_EM_T a b.
Definition noD : string -> list (nat * nat) -> list R -> option R := fun _ _ _ => None.
Definition noU : string -> option R -> list R -> option R := fun _ _ _ => None.
Example cfunc_reals_demo : exists fuel c,
  make_cfunc rnum no_td (fresh_name rnum demo_name) demo_name (num_eqb r_dec) (fid_eqb r_dec) unshared "f64" 4 fuel real_es [xr; yr] 2 true false = MDone c /\
  forall tapes, (forall b off, tape_ok rnum (cf_code rnum c) (tapes b off)) ->
  exists out, multi_eval rnum no_td (real_arith rnum (fun x => x) noD noU) None c tapes (fun ts => concat (rev ts)) true
    (mkMat 1 3 (repeat None 3)) (mkMat 2 3 [Some 4; Some 9; Some (-1); Some 1; Some 2; Some 3]%R) None None (Some true) = MDone out /\
    nth 0 out None = Some 2%R /\ nth 1 out None = Some 6%R.
Proof.
  assert (HI : valid_input rnum real_es [xr; yr] ["x"; "y"]%string).
  { split; [discriminate|]. split; [reflexivity|]. split; [repeat constructor; cbn; intuition discriminate|].
    intros e s [<-|[]] Ho. inversion Ho as [|? ? a Ha Ho']; subst. destruct Ha as [<-|[<-|[]]].
    - inversion Ho' as [|? ? b Hb Ho2]; subst. destruct Hb as [<-|[<-|[]]]; inversion Ho2; subst. cbn. auto.
    - inversion Ho'; subst. cbn. auto. }
  assert (HU : named_in (concat (map funs real_es))) by (intros f Hf; cbn in Hf |- *; intuition).
  destruct (demo_names_ok rnum real_es HU) as [N1 N2].
  destruct (cfunc_created rnum no_td (fresh_name rnum demo_name) demo_name (num_eqb r_dec) (fid_eqb r_dec) unshared "f64" 4 real_es [xr; yr] ["x"; "y"]%string 2 true unshared_ok HI (fun _ => N2)) as (fuel & c & Hc).
  specialize (Hc fuel (le_n fuel)). exists fuel, c. split; [exact Hc|]. intros tapes Ht.
  destruct (cfunc_attributes rnum no_td (fresh_name rnum demo_name) demo_name (num_eqb r_dec) (fid_eqb r_dec) unshared "f64" 4 fuel real_es _ _ _ _ _ _ HI Hc) as (F1 & F2 & F3 & F4 & F5).
  assert (Hp : forall e i, In e real_es -> ~ occurs (EPar i) e).
  { intros e i [<-|[]] Ho. inversion Ho as [|? ? a Ha Ho']; subst. destruct Ha as [<-|[<-|[]]]; [|inversion Ho'].
    inversion Ho' as [|? ? b Hb Ho2]; subst. destruct Hb as [<-|[<-|[]]]; inversion Ho2. }
  assert (E3 : cf_nparams rnum c = 0).
  { destruct F3 as [_ [E|(e & i & He & Ho & _)]]; [exact E | destruct (Hp e i He Ho)]. }
  assert (E4 : cf_td rnum c = false).
  { destruct (cf_td rnum c); [|reflexivity]. exfalso. destruct (proj1 F4 eq_refl) as (e & f & args & He & Ho & Hf).
    assert (In f (concat (map funs real_es))) by (apply in_concat; exists (funs e); split; [now apply in_map | now apply (funs_occ f args)]).
    cbn in H. destruct H as [<-|[<-|[]]]; discriminate. }
  destruct (cfunc_reals rnum no_td (fresh_name rnum demo_name) demo_name (num_eqb r_dec) (fid_eqb r_dec) unshared "f64" 4 fuel (fun x => x) rnum_laws noD noU
    real_es [xr; yr] ["x"; "y"]%string 2 true false c tapes (fun ts => concat (rev ts)) true
    (mkMat 1 3 (repeat None 3)) (mkMat 2 3 [Some 4; Some 9; Some (-1); Some 1; Some 2; Some 3]%R) None None (Some true)) as (out & Eo & _ & H).
  - intros a z. cbn. destruct (rint (2 * a)) as [w|]; [|discriminate]. destruct (Z.odd w) eqn:E; [|discriminate]. now intros [= <-].
  - apply unshared_ok.
  - apply exact_carith; reflexivity.
  - exact HI.
  - intros _. exact N1.
  - exact Hc.
  - rewrite F5. cbn. lia.
  - exact Ht.
  - intros. apply rev_interleaving.
  - reflexivity.
  - reflexivity.
  - exact I.
  - rewrite F1, F2, E3, E4. repeat split.
  - exists out. split; [exact Eo|].
    assert (Hpow : forall a, (0 < a)%R -> rpow (a * a) (1 / 2) = Some a).
    { intros a Ha. unfold rpow. replace (1 / 2)%R with (IZR 1 / 2)%R by lra. rewrite rint_oddhalf by reflexivity.
      destruct (Rlt_dec 0 (a * a)) as [_|n]; [|destruct n; now apply Rmult_lt_0_compat].
      replace (IZR 1 / 2)%R with (INR 1 / 2)%R by (cbn; lra). rewrite sqrt_pow by (now apply Rmult_lt_0_compat). cbn [pow]. rewrite sqrt_square by lra. f_equal. lra. }
    split.
    + apply (H 0 0 _ 2%R eq_refl); [cbn; lia|]. cbn -[rpow]. replace 4%R with (2 * 2)%R by lra. rewrite Hpow by lra. cbn. f_equal. lra.
    + apply (H 0 1 _ 6%R eq_refl); [cbn; lia|]. cbn -[rpow]. replace 9%R with (3 * 3)%R by lra. rewrite Hpow by lra. cbn. f_equal. lra.
Qed.

(* --- A violation --------------------------------------------------------------------------------------------- *)
(* The llvm name of a function is computed when the function is created, and kept
   when its arguments are replaced. The functions z * x and 2 * y are created, then
   -1 is substituted for z: both products are still called prod. *)
Definition created_es : list (expr Q) := [mk_mul qnum (EVar "z") xq; mk_mul qnum (ENum 2%Q) yq].
Definition substituted_es : list (expr Q) := map (subs qnum [("z"%string, ENum (-1)%Q)]) created_es.
(* The names of the products: those they had before the substitution of z. *)
Definition kept_name (f : fid Q) (args : list (expr Q)) : string :=
  fresh_name qnum demo_name f (map (fun a => match a with ENum x => if Qeq_bool x (-1) then EVar "z" else a | _ => a end) args).

(* In compact mode the second output is -y instead of 2 * y: the code of the
   first product is used for both. *)
Theorem cfunc_compact_kept_names_refuted :
  let es := substituted_es in
  es = [EFun Fprod [ENum (-1)%Q; xq]; EFun Fprod [ENum 2%Q; yq]] /\
  (forall e, In e created_es -> exists args, e = EFun Fprod args /\ fresh_name qnum demo_name Fprod args = "prod"%string) /\
  (forall e, In e es -> exists args, e = EFun Fprod args /\ kept_name Fprod args = "prod"%string) /\
  exists c c', qmake kept_name es [xq; yq] 0 false = MDone c /\ qmake kept_name es [xq; yq] 0 true = MDone c' /\
    single_eval qnum no_td z_arith 0%Z c (some_tape c 0 0) [0; 0]%Z [5; 7]%Z None None = MDone [-5; 14]%Z /\
    single_eval qnum no_td z_arith 0%Z c' (some_tape c' 0 0) [0; 0]%Z [5; 7]%Z None None = MDone [-5; -7]%Z.
Proof.
  cbv zeta. split; [reflexivity|]. split; [|split].
  - intros e [<-|[<-|[]]]; eexists; split; reflexivity.
  - intros e [<-|[<-|[]]]; eexists; split; reflexivity.
  - set (run := fun compact => mbind (qmake kept_name substituted_es [xq; yq] 0 compact)
      (fun c => single_eval qnum no_td z_arith 0%Z c (some_tape c 0 0) [0; 0]%Z [5; 7]%Z None None)).
    assert (H0 : is_val (run false) [-5; 14]%Z = true) by (vm_compute; reflexivity).
    assert (H1 : is_val (run true) [-5; -7]%Z = true) by (vm_compute; reflexivity).
    apply val_is, mbind_done in H0, H1. destruct H0 as (c & Ec & H0), H1 as (c' & Ec' & H1). exists c, c'. split; [exact Ec|]. split; [exact Ec'|]. split; [|exact H1].
    exact H0.
Qed.

Print Assumptions cfunc_created.
Print Assumptions cfunc_attributes.
Print Assumptions cfunc_rejects.
Print Assumptions cfunc_single_eval.
Print Assumptions cfunc_multi_eval.
Print Assumptions cfunc_eval_rejects.
Print Assumptions cfunc_modes_agree.
Print Assumptions cfunc_reals.
Print Assumptions cfunc_fresh_names.
Print Assumptions cfunc_compact_kept_names_refuted.
