(* Construction of integrators. *)
From Coq Require Import Reals Lra String Bool ZArith Lia List.
From Verif Require Import M_Expr S_Expr P_Subs M_Dag M_Dec M_Taylor M_Stepper P_Stepper P_Cse M_Float M_Ctor S_Ctor.
Import ListNotations.
Local Open Scope nat_scope.
Set Bullet Behavior "Strict Subproofs".

Section Sys.
Context (o : nops).
Local Notation ex := (expr (num o)).
Lemma prefix_reserved s : String.prefix "__" s = true <-> reserved s.
Proof.
  split.
  - destruct s as [|a [|b t]]; cbn [String.prefix]; intros H.
    + discriminate.
    + match type of H with context [Ascii.ascii_dec ?x ?y] => destruct (Ascii.ascii_dec x y) end; discriminate.
    + match type of H with context [Ascii.ascii_dec ?x ?y] => destruct (Ascii.ascii_dec x y) as [<-|] end; [|discriminate].
      match type of H with context [Ascii.ascii_dec ?x ?y] => destruct (Ascii.ascii_dec x y) as [<-|] end; [|discriminate]. exists t. reflexivity.
  - intros [t ->]. cbn. destruct t; auto.
Qed.
Lemma existsb_str s l : existsb (String.eqb s) l = true <-> In s l.
Proof.
  rewrite existsb_exists. split; [intros [t [H E]]; apply String.eqb_eq in E; subst; auto|]. intros H. exists s. split; [auto|apply String.eqb_refl].
Qed.
Definition lhs_ok (sys : list (ex * ex)) (seen new : list string) : Prop :=
  map fst sys = map EVar new /\ NoDup (seen ++ new) /\ forall s, In s new -> ~ reserved s.
Lemma lhs_vars_spec : forall sys seen, NoDup seen ->
  (exists new, lhs_ok sys seen new /\ lhs_vars o sys seen = MDone (seen ++ new)) \/
  (lhs_vars o sys seen = MThrow /\ forall new, ~ lhs_ok sys seen new).
Proof.
  induction sys as [|[l r] sys IH]; intros seen Hs; cbn [lhs_vars].
  { left. exists []. rewrite app_nil_r. split; [|auto]. split; [auto|]. split; [rewrite app_nil_r; auto|intros s []]. }
  assert (NV : (forall s, l <> EVar s) -> forall new, ~ lhs_ok ((l, r) :: sys) seen new).
  { intros H [|s new] [K _]; cbn in K; [discriminate|]. injection K as K _. exact (H s K). }
  destruct l as [n|s|i|f args]; try (right; split; [reflexivity|apply NV; congruence]).
  destruct (String.prefix "__" s) eqn:P.
  { right. split; [auto|]. intros [|s' new] [K [_ Q]]; cbn in K; [discriminate|]. assert (s' = s) by congruence. subst s'. apply (Q s); [left; auto|]. now apply prefix_reserved. }
  destruct (existsb (String.eqb s) seen) eqn:E.
  { apply existsb_str in E. right. split; [auto|]. intros [|s' new] [K [Q _]]; cbn in K; [discriminate|]. assert (s' = s) by congruence. subst s'.
    apply NoDup_remove_2 in Q. apply Q. apply in_or_app. auto. }
  assert (Hs' : NoDup (seen ++ [s])).
  { rewrite <- (rev_involutive (seen ++ [s])). apply NoDup_rev. rewrite rev_unit. constructor; [|apply NoDup_rev; auto].
    rewrite <- in_rev. intros K. apply existsb_str in K. congruence. }
  destruct (IH (seen ++ [s]) Hs') as [[new [[A [B C]] D]]|[D A]].
  - left. exists (s :: new). rewrite <- app_assoc in B, D. split; [|exact D]. split; [cbn; rewrite A; auto|]. split; [exact B|].
    intros t [<-|Ht]; [|auto]. intros K. apply prefix_reserved in K. congruence.
  - right. split; [auto|]. intros [|s' new] [K [Q R]]; cbn in K; [discriminate|]. assert (s' = s) by congruence. subst s'. apply (A new).
    split; [congruence|]. split; [rewrite <- app_assoc; exact Q|]. intros t Ht. apply R. right. auto.
Qed.
Lemma vars_in (es : list ex) lhs : forallb (fun v => existsb (String.eqb v) lhs) (get_variables o es) = true <-> forall e s, In e es -> occurs (EVar s) e -> In s lhs.
Proof.
  rewrite forallb_forall. destruct (get_variables_ok es) as [G _]. split.
  - intros H e s He Ho. apply existsb_str, H, G. eauto.
  - intros H s Hs. apply existsb_str. apply G in Hs. destruct Hs as [e [He Ho]]. eauto.
Qed.
Lemma map_evar_inj (l l' : list string) : map (@EVar (num o)) l = map EVar l' -> l = l'.
Proof. revert l'. induction l as [|s l IH]; intros [|s' l'] H; cbn in H; try discriminate; auto. injection H as <- H. f_equal. auto. Qed.
Lemma validate_spec (sys : list (ex * ex)) tes ntes :
  (valid_system sys (tes ++ ntes) /\ validate_ode_sys o sys tes ntes = MDone tt) \/
  (~ valid_system sys (tes ++ ntes) /\ validate_ode_sys o sys tes ntes = MThrow).
Proof.
  unfold validate_ode_sys. destruct sys as [|eq sys]; [right; split; [intros [[] _]; auto|auto]|]. set (S := eq :: sys) in *.
  destruct (lhs_vars_spec S [] (NoDup_nil _)) as [[names [[A [B C]] E]]|[E N]].
  - rewrite E. cbn [mbind app]. cbn [app] in B.
    assert (V : valid_system S (tes ++ ntes) <-> forall e s, In e (map snd S ++ tes ++ ntes) -> occurs (EVar s) e -> In s names).
    { split; [|intros H; split; [discriminate|]; exists names; auto]. intros [_ [names' [A' [_ [_ H]]]]].
      assert (names' = names) by (apply map_evar_inj; congruence). subst. auto. }
    destruct (forallb _ (get_variables o (map snd S))) eqn:Q1; cbn [negb].
    + destruct (forallb _ (get_variables o (tes ++ ntes))) eqn:Q2; cbn [negb].
      * left. split; [|auto]. apply V. intros e s He. apply in_app_or in He. rewrite vars_in in Q1, Q2. destruct He as [He|He]; eauto.
      * right. split; [|auto]. intros K. rewrite V in K. assert (forallb (fun v => existsb (String.eqb v) names) (get_variables o (tes ++ ntes)) = true); [|congruence].
        apply vars_in. intros e s He. apply K. apply in_or_app. auto.
    + right. split; [|auto]. intros K. rewrite V in K. assert (forallb (fun v => existsb (String.eqb v) names) (get_variables o (map snd S)) = true); [|congruence].
      apply vars_in. intros e s He. apply K. apply in_or_app. auto.
  - right. rewrite E. cbn [mbind]. split; [|auto]. intros [_ [names [A [B [C _]]]]]. apply (N names). split; auto.
Qed.
Lemma tot_n_pars_spec (sys : list (ex * ex)) tes ntes n : n_params (map snd sys ++ tes ++ ntes) n <-> n = tot_n_pars o sys tes ntes.
Proof.
  unfold tot_n_pars, n_params. destruct (get_param_size_ok (map snd sys ++ tes ++ ntes)) as [G1 G2]. set (m := get_param_size o _) in *. split.
  - intros [H1 H2]. apply Nat.le_antisymm; [apply H2; auto|]. destruct G2 as [->|[e [i [He [Ho ->]]]]]; [lia|]. specialize (H1 e i He Ho). lia.
  - intros ->. split; [auto|]. intros k Hk. destruct G2 as [->|[e [i [He [Ho ->]]]]]; [lia|]. specialize (Hk e i He Ho). lia.
Qed.
End Sys.

Lemma nth_skipn {A} (n i : nat) (l : list A) d : nth i (skipn n l) d = nth (n + i) l d.
Proof. revert l. induction n as [|n IH]; intros [|x l]; cbn; auto; destruct i; auto. Qed.
Lemma row_lt r bs lane k : lane < bs -> r < k -> r * bs + lane < k * bs.
Proof. intros H1 H2. nia. Qed.
Lemma row_eq r bs lane k (i : nat) : lane < bs -> (r * bs <= k * bs + lane < r * bs + bs <-> k = r) /\ (k = r -> k * bs + lane - r * bs = lane) /\ i = i.
Proof. intros H. split; [split; [intros K; nia|intros ->; lia]|]. split; [intros ->; lia|auto]. Qed.

Section Ics.
Context (o : nops) (neq : num o -> num o -> bool) (fideq : fid (num o) -> fid (num o) -> bool).
Local Notation ex := (expr (num o)).
Context (fp : fops) (one eps : F fp) (value : (string -> F fp) -> (nat -> F fp) -> F fp -> ex -> F fp).
Local Notation F := (F fp).
Local Notation zero := (f0 fp).
Context (Htime : forall f, fideq f Ftime = true <-> f = Ftime).

Lemma fill_ok bs idx (v : nat -> F) st : idx + bs <= length st ->
  exists st', fill fp bs idx v st = MDone st' /\ length st' = length st /\
  forall k, nth k st' zero = if (idx <=? k) && (k <? idx + bs) then v (k - idx) else nth k st zero.
Proof.
  intros H. unfold fill.
  destruct (for_inv (fun j s => length s = length st /\ forall k, nth k s zero = if (idx <=? k) && (k <? idx + j) then v (k - idx) else nth k st zero)
     (fun j s => aset s (idx + j) (v j)) bs 0 st) as [st' [E [Hl Hv]]].
  - split; [auto|]. intros k. destruct (Nat.leb_spec idx k), (Nat.ltb_spec k (idx + 0)); auto; lia.
  - intros j s Hj [Hl Hv]. destruct (aset_ok s (idx + j) (v j) zero) as (s' & -> & Hl' & Hv'); [lia|]. exists s'. split; [auto|]. split; [lia|].
    intros k. rewrite Hv'. destruct (Nat.eqb_spec k (idx + j)) as [->|Hk].
    + destruct (Nat.leb_spec idx (idx + j)), (Nat.ltb_spec (idx + j) (idx + S j)); try lia. cbn. f_equal. lia.
    + rewrite Hv. destruct (Nat.leb_spec idx k), (Nat.ltb_spec k (idx + j)), (Nat.ltb_spec k (idx + S j)); cbn; auto; lia.
  - exists st'. auto.
Qed.
(* Filling one row. *)
Lemma fill_row bs r (v : nat -> F) st n : length st = bs * n -> r < n ->
  exists st', fill fp bs (r * bs) v st = MDone st' /\ length st' = bs * n /\
  forall k lane, lane < bs -> nth (k * bs + lane) st' zero = if k =? r then v lane else nth (k * bs + lane) st zero.
Proof.
  intros Hl Hr. destruct (fill_ok bs (r * bs) v st) as (st' & E & Hl' & Hv); [nia|]. exists st'. split; [auto|]. split; [lia|].
  intros k lane Hlane. rewrite Hv. destruct (row_eq r bs lane k 0 Hlane) as [A [B _]].
  destruct (Nat.eqb_spec k r) as [Hk|Hk].
  - rewrite (B Hk). destruct A as [_ A]. specialize (A Hk). destruct (Nat.leb_spec (r * bs) (k * bs + lane)), (Nat.ltb_spec (k * bs + lane) (r * bs + bs)); try lia. auto.
  - destruct A as [A _]. destruct (Nat.leb_spec (r * bs) (k * bs + lane)), (Nat.ltb_spec (k * bs + lane) (r * bs + bs)); cbn; auto. exfalso. apply Hk, A. auto.
Qed.

Lemma find_time_spec (l : list ex) : match find_time o neq fideq l with
  | None => ~ In (EFun Ftime []) l
  | Some t => nth_error l t = Some (EFun Ftime []) end.
Proof.
  induction l as [|e l IH]; cbn [find_time]; [intros []|].
  assert (K : ex_eqb o neq fideq e (EFun Ftime []) = true <-> e = EFun Ftime []).
  { destruct e as [n|s|i|f args]; cbn; try (split; discriminate). rewrite andb_true_iff, Htime. destruct args; split; try (intros [_ E]; discriminate); try discriminate.
    - intros [-> _]. auto.
    - intros E. injection E as ->. auto. }
  destruct (ex_eqb _ _ _ _ _) eqn:E.
  - cbn. f_equal. apply K. auto.
  - destruct (find_time o neq fideq l) as [t|]; cbn [option_map nth_error].
    + exact IH.
    + intros [H|H]; [|auto]. apply K in H. congruence.
Qed.
Lemma lane_env_spec (names : list string) bs lane : NoDup names -> forall state k s, nth_error names k = Some s ->
  lane_env o fp (map EVar names) bs lane state s = nth (k * bs + lane) state zero.
Proof.
  induction 1 as [|x names Hx Hn IH]; intros state k s Hk; [destruct k; discriminate|]. cbn [map lane_env]. destruct k as [|k]; cbn in Hk.
  - injection Hk as ->. rewrite String.eqb_refl. auto.
  - destruct (String.eqb_spec x s) as [->|_].
    + exfalso. apply Hx. now apply nth_error_In with k.
    + rewrite (IH _ _ _ Hk), nth_skipn. f_equal. lia.
Qed.

(* --- The derivatives with respect to initial values and parameters ------------------- *)
Context (v : vsys o) (V : vsys_ok v) (bs : nat).
Let n := vs_nouts o v.
Let N := length (vs_sys o v).
Definition varpar_value (i : nat) : F :=
  match nth_error (vs_didx o v) i with
  | Some (c, [(j, ord)]) =>
      match nth_error (vs_sys o v) c, nth_error (vs_args o v) j with
      | Some (lhs, _), Some arg => if Nat.ltb 1 ord then zero else if ex_eqb o neq fideq lhs arg then one else zero
      | _, _ => zero
      end
  | _ => zero
  end.
Lemma varpar_ok state : length state = bs * n ->
  exists st, ics_varpar o neq fideq fp one v bs state = MDone st /\ length st = bs * N /\
  forall i lane, i < N -> lane < bs -> nth (i * bs + lane) st zero = if i <? n then nth (i * bs + lane) state zero else varpar_value i.
Proof.
  intros Hlen. unfold ics_varpar. fold n N. assert (HnN : n < N) by (apply (vo_more _ V)).
  set (st0 := resize fp (bs * N) zero state).
  assert (L0 : length st0 = bs * N).
  { unfold st0, resize. rewrite app_length, firstn_length, repeat_length. nia. }
  assert (V0 : forall i lane, lane < bs -> i < N -> nth (i * bs + lane) st0 zero = if i <? n then nth (i * bs + lane) state zero else zero).
  { intros i lane Hl Hi. unfold st0, resize. rewrite firstn_all2 by nia. destruct (Nat.ltb_spec i n) as [Hin|Hin].
    - rewrite app_nth1; [auto|nia].
    - rewrite app_nth2 by nia. apply nth_repeat. }
  match goal with |- exists st, for_ ?m ?k ?f ?s = _ /\ _ => destruct (for_inv (fun i st => length st = bs * N /\
    forall r lane, r < N -> lane < bs -> nth (r * bs + lane) st zero = if r <? n then nth (r * bs + lane) state zero else if r <? i then varpar_value r else zero) f m k s) as [st [E [A B]]] end.
  - split; [auto|]. intros r lane Hr Hl. rewrite V0 by auto. destruct (Nat.ltb_spec r n); auto.
  - intros i st Hi [A B]. assert (Hi' : i < length (vs_didx o v)) by (rewrite (vo_len _ V); fold N; lia).
    destruct (nth_error (vs_didx o v) i) as [[c l]|] eqn:Ed; [|apply nth_error_None in Ed; lia].
    unfold aget at 1. rewrite Ed. cbn [mbind fst snd].
    destruct (vo_pos _ V c l (nth_error_In _ _ Ed)) as [Hc Hl].
    assert (Skip : varpar_value i = zero -> exists y, MDone st = MDone y /\ length y = bs * N /\
      forall r lane, r < N -> lane < bs -> nth (r * bs + lane) y zero = if r <? n then nth (r * bs + lane) state zero else if r <? S i then varpar_value r else zero).
    { intros Z. exists st. split; [auto|]. split; [auto|]. intros r lane Hr Hlane. rewrite B by auto. destruct (Nat.ltb_spec r n); auto.
      destruct (Nat.ltb_spec r i), (Nat.ltb_spec r (S i)); auto; try lia. assert (r = i) by lia. subst. auto. }
    assert (Def : varpar_value i = match l with [(j, ord)] => match nth_error (vs_sys o v) c, nth_error (vs_args o v) j with
      | Some (lhs, _), Some arg => if Nat.ltb 1 ord then zero else if ex_eqb o neq fideq lhs arg then one else zero | _, _ => zero end | _ => zero end).
    { unfold varpar_value. rewrite Ed. destruct l as [|[j ord] [|p l]]; auto. }
    destruct l as [|[j ord] [|p l]]; try (apply Skip; exact Def).
    destruct (Hl j ord (or_introl eq_refl)) as [Hj Ho]. fold n in Hc.
    destruct (nth_error (vs_sys o v) c) as [[lhs rhs]|] eqn:Ec; [|apply nth_error_None in Ec; fold N in Ec; lia].
    unfold aget at 1. rewrite Ec. cbn [mbind fst].
    destruct (Nat.ltb 1 ord); [destruct (nth_error (vs_args o v) j); apply Skip; exact Def|].
    destruct (nth_error (vs_args o v) j) as [arg|] eqn:Ea; [|apply nth_error_None in Ea; lia].
    unfold aget at 1. rewrite Ea. cbn [mbind].
    destruct (ex_eqb o neq fideq lhs arg); [|apply Skip; exact Def].
    destruct (fill_row bs i (fun _ => one) st N A) as (st' & E & A' & B'); [lia|]. exists st'. split; [exact E|]. split; [auto|].
    intros r lane Hr Hlane. rewrite B', B by auto. destruct (Nat.eqb_spec r i) as [->|Hri].
    + destruct (Nat.ltb_spec i n); [lia|]. destruct (Nat.ltb_spec i (S i)); [auto|lia].
    + destruct (Nat.ltb_spec r n); auto. destruct (Nat.ltb_spec r i), (Nat.ltb_spec r (S i)); auto; lia.
  - exists st. split; [exact E|]. split; [auto|]. intros r lane Hr Hlane. rewrite B by auto. destruct (Nat.ltb_spec r n); auto.
    destruct (Nat.ltb_spec r (n + (N - n))); auto; lia.
Qed.

(* --- The derivatives with respect to the initial time ---------------------------------- *)
Definition t0_out (state pars times : list F) (i lane : nat) : F :=
  value (lane_env o fp (map fst (firstn n (vs_sys o v))) bs lane state) (fun p => nth (p * bs + lane) pars zero) (nth lane times zero)
    (mk_neg o (snd (nth i (firstn n (vs_sys o v)) (EVar "", EVar "")))).
Lemma t0_ok pars times state : length state = bs * N ->
  match find_time o neq fideq (vs_args o v) with
  | None => ics_t0 o neq fideq fp value v bs pars times state = MDone state
  | Some t =>
     (1 < vs_order o v /\ ics_t0 o neq fideq fp value v bs pars times state = MThrow) \/
     (vs_order o v <= 1 /\ exists st, ics_t0 o neq fideq fp value v bs pars times state = MDone st /\ length st = bs * N /\
      forall i lane, lane < bs ->
       (forall c, c < n -> i = n + c * length (vs_args o v) + t -> nth (i * bs + lane) st zero = t0_out state pars times c lane) /\
       ((forall c, c < n -> i <> n + c * length (vs_args o v) + t) -> nth (i * bs + lane) st zero = nth (i * bs + lane) state zero))
  end.
Proof.
  intros Hlen. generalize (find_time_spec (vs_args o v)). unfold ics_t0. destruct (find_time _ _ _ _) as [t|]; [|auto]. intros Ht. fold n.
  destruct (Nat.ltb_spec 1 (vs_order o v)) as [Ho|Ho]; [left; auto|]. right. split; [auto|]. fold (t0_out state pars times).
  set (nv := length (vs_args o v)). assert (Htv : t < nv) by (apply nth_error_Some; rewrite Ht; discriminate).
  match goal with |- exists st, for_ ?m ?k ?f ?s = _ /\ _ => destruct (for_inv (fun c0 st => length st = bs * N /\
    forall i lane, lane < bs -> (forall c, c < c0 -> i = n + c * nv + t -> nth (i * bs + lane) st zero = t0_out state pars times c lane) /\
       ((forall c, c < c0 -> i <> n + c * nv + t) -> nth (i * bs + lane) st zero = nth (i * bs + lane) state zero)) f m k s) as [st [E [A B]]] end.
  - split; [auto|]. intros i lane Hl. split; [lia|auto].
  - intros c st Hc [A B].
    assert (Hrow : n + c * nv + t < N).
    { assert (nth_error (vs_didx o v) (n + c * nv + t) <> None) as K; [|apply nth_error_Some in K; rewrite (vo_len _ V) in K; exact K].
      unfold n, nv. rewrite (vo_first _ V c t); [discriminate|fold n; lia|exact Htv]. }
    replace (bs * n + bs * c * nv + bs * t) with ((n + c * nv + t) * bs) by ring.
    destruct (fill_row bs (n + c * nv + t) (t0_out state pars times c) st N A Hrow) as (st' & E & A' & B'). exists st'. split; [exact E|]. split; [auto|].
    intros i lane Hl. destruct (B i lane Hl) as [B1 B2]. rewrite B' by auto. destruct (Nat.eqb_spec i (n + c * nv + t)) as [->|Hi].
    + split; [|intros K; exfalso; apply (K c); auto]. intros c' Hc' K. assert (c' * nv = c * nv) by lia. assert (c' = c) by nia. subst. auto.
    + split.
      * intros c' Hc' K. apply B1; [|auto]. assert (c' <> c); [|lia]. intros ->. auto.
      * intros K. apply B2. intros c' Hc'. apply K. lia.
  - exists st. split; [exact E|]. split; [auto|]. exact B.
Qed.
End Ics.

Section Main.
Context (o : nops) (neq : num o -> num o -> bool) (fideq : fid (num o) -> fid (num o) -> bool).
Local Notation ex := (expr (num o)).
Context (fp : fops) (L : flaws fp) (one eps : F fp) (value : (string -> F fp) -> (nat -> F fp) -> F fp -> ex -> F fp).
Local Notation F := (F fp).
Local Notation zero := (f0 fp).
Context (Htime : forall f, fideq f Ftime = true <-> f = Ftime).
Context (codegen : list (ex * ex) -> list ex -> list ex -> F -> bool -> bool -> bool -> bool).

Lemma nth_error_nth_eq {A} (l : list A) i d x : nth_error l i = Some x -> nth i l d = x.
Proof. intros H. now apply nth_error_nth. Qed.
Lemma nth_error_firstn {A} (l : list A) n i : i < n -> nth_error (firstn n l) i = nth_error l i.
Proof. revert l i. induction n as [|n IH]; intros [|x l] [|i] H; cbn; auto; try lia. apply IH. lia. Qed.
Lemma firstn_NoDup {A} (l : list A) n : NoDup l -> NoDup (firstn n l).
Proof.
  intros H. revert n. induction H as [|x l Hx Hl IH]; intros [|n]; cbn; constructor; auto. intros K. apply Hx.
  rewrite <- (firstn_skipn n l). apply in_or_app. auto.
Qed.

(* Both parts of the initial conditions. *)
Lemma ics_ok (v : vsys o) (V : vsys_ok v) bs pars times given names :
  map fst (vs_sys o v) = map EVar names -> NoDup names ->
  (forall env p t e, In e (map snd (vs_sys o v)) -> value env p t (mk_neg o e) = fneg fp (value env p t e)) ->
  length given = bs * vs_nouts o v ->
  exists st, ics_varpar o neq fideq fp one v bs given = MDone st /\ length st = bs * length (vs_sys o v) /\
  ((ics_t0 o neq fideq fp value v bs pars times st = MThrow /\ In (EFun Ftime []) (vs_args o v) /\ 1 < vs_order o v) \/
   ((In (EFun Ftime []) (vs_args o v) -> vs_order o v <= 1) /\
    exists st', ics_t0 o neq fideq fp value v bs pars times st = MDone st' /\ length st' = bs * length (vs_sys o v) /\
    (forall i lane, i < vs_nouts o v -> lane < bs -> nth (i * bs + lane) st' zero = nth (i * bs + lane) given zero) /\
    forall i lane c l, vs_nouts o v <= i -> lane < bs -> nth_error (vs_didx o v) i = Some (c, l) ->
      initial_value one value v bs lane given pars times c l (nth (i * bs + lane) st' zero))).
Proof.
  intros Hnames ND Hneg Hlen. destruct (varpar_ok o neq fideq fp one eps value v V bs given Hlen) as (st & E & Hl & Hv). exists st. split; [exact E|]. split; [exact Hl|].
  generalize (t0_ok o neq fideq fp one value Htime v V bs pars times st Hl) (find_time_spec o neq fideq Htime (vs_args o v)).
  set (n := vs_nouts o v) in *. set (N := length (vs_sys o v)) in *. set (nv := length (vs_args o v)).
  assert (HnN : n < N) by apply (vo_more _ V).
  (* the values of the first part *)
  assert (VP : forall i c j ord, nth_error (vs_didx o v) i = Some (c, [(j, ord)]) -> exists s rhs arg, nth_error (vs_sys o v) c = Some (EVar s, rhs) /\
     nth_error (vs_args o v) j = Some arg /\ 0 < ord /\ varpar_value o neq fideq fp one v i = if Nat.ltb 1 ord then zero else if ex_eqb o neq fideq (EVar s) arg then one else zero).
  { intros i c j ord Hi. destruct (vo_pos _ V _ _ (nth_error_In _ _ Hi)) as [Hc Hj]. destruct (Hj j ord (or_introl eq_refl)) as [Hj' Ho]. fold n in Hc.
    unfold varpar_value. rewrite Hi.
    destruct (nth_error (vs_sys o v) c) as [[lhs rhs]|] eqn:Ec; [|apply nth_error_None in Ec; fold N in Ec; lia].
    destruct (nth_error (vs_args o v) j) as [arg|] eqn:Ea; [|apply nth_error_None in Ea; lia].
    assert (exists s, lhs = EVar s) as [s ->].
    { assert (K : nth_error (map fst (vs_sys o v)) c = Some lhs) by (rewrite nth_error_map, Ec; auto). rewrite Hnames, nth_error_map in K.
      destruct (nth_error names c) as [s|]; [|discriminate]. exists s. cbn in K. congruence. }
    exists s, rhs, arg. auto. }
  assert (EQV : forall s (arg : ex), ex_eqb o neq fideq (EVar s) arg = true <-> arg = EVar s).
  { intros s [x|t|p|f args]; cbn; try (split; discriminate). rewrite String.eqb_eq. split; [intros ->; auto|congruence]. }
  assert (DI : forall i c l, nth_error (vs_didx o v) i = Some (c, l) -> i < N /\ c < n).
  { intros i c l Hi. split; [unfold N; rewrite <- (vo_len _ V); apply nth_error_Some; rewrite Hi; discriminate|]. apply (vo_pos _ V _ _ (nth_error_In _ _ Hi)). }
  (* without a write of the second part *)
  assert (NT : forall i lane c l, n <= i -> lane < bs -> nth_error (vs_didx o v) i = Some (c, l) ->
    (forall j, l = [(j, 1)] -> nth_error (vs_args o v) j <> Some (EFun Ftime [])) ->
    initial_value one value v bs lane given pars times c l (nth (i * bs + lane) st zero)).
  { intros i lane c l Hi Hlane Hd NT. destruct (DI _ _ _ Hd) as [HiN Hc]. rewrite Hv by auto. destruct (Nat.ltb_spec i n); [lia|].
    unfold initial_value. destruct l as [|[j ord] [|p l]].
    - unfold varpar_value. rewrite Hd. auto.
    - destruct (VP _ _ _ _ Hd) as (s & rhs & arg & Ec & Ea & Ho & ->). destruct ord as [|[|ord]]; [lia| |reflexivity]. cbn [Nat.ltb Nat.leb].
      exists (EVar s), rhs, arg. split; [auto|]. split; [auto|]. split; [|split].
      + intros K. apply EQV in K. rewrite K. auto.
      + intros ->. exfalso. apply (NT j); auto.
      + intros K _. destruct (ex_eqb o neq fideq (EVar s) arg) eqn:Q; [|auto]. apply EQV in Q. contradiction.
    - unfold varpar_value. rewrite Hd. destruct ord as [|[|ord]]; auto. }
  destruct (find_time o neq fideq (vs_args o v)) as [t|].
  - intros T0 Ht. destruct T0 as [[Ho T0]|[Ho T0]].
    + left. split; [auto|]. split; [apply nth_error_In with t; auto|auto].
    + right. split; [auto|]. destruct T0 as (st' & E' & Hl' & Hv'). exists st'. split; [exact E'|]. split; [exact Hl'|].
      assert (Htv : t < nv) by (apply nth_error_Some; rewrite Ht; discriminate).
      assert (ROW : forall i c, c < n -> i = n + c * nv + t -> nth_error (vs_didx o v) i = Some (c, [(t, 1)])).
      { intros i c Hc ->. apply (vo_first _ V); auto. }
      split.
      * intros i lane Hi Hlane. destruct (Hv' i lane Hlane) as [_ K]. rewrite K, Hv by (try lia; intros; unfold nv; lia).
        destruct (Nat.ltb_spec i n); [auto|lia].
      * intros i lane c l Hi Hlane Hd. destruct (DI _ _ _ Hd) as [HiN Hc].
        destruct (Nat.eq_dec i (n + c * nv + t)) as [Hr|Hr].
        { assert (Some (c, l) = Some (c, [(t, 1)])) as K by (rewrite <- Hd; apply ROW; auto). injection K as ->.
          destruct (Hv' i lane Hlane) as [K _]. rewrite (K c Hc Hr). cbn [initial_value].
          destruct (VP _ _ _ _ Hd) as (s & rhs & arg & Ec & Ea & _). exists (EVar s), rhs, arg. split; [auto|]. split; [auto|].
          assert (arg = EFun Ftime []) as -> by congruence. split; [discriminate|]. split; [|congruence]. intros _.
          unfold t0_out. fold n. exists (lane_env o fp (map fst (firstn n (vs_sys o v))) bs lane st). split.
          - intros k x r Hk Hx. rewrite <- firstn_map, Hnames, firstn_map.
            rewrite (lane_env_spec o fp (firstn n names) bs lane (firstn_NoDup _ _ ND) st k x).
            + rewrite Hv by lia. destruct (Nat.ltb_spec k n); [auto|lia].
            + rewrite nth_error_firstn by auto. assert (K' : nth_error (map fst (vs_sys o v)) k = Some (EVar x)) by (rewrite nth_error_map, Hx; auto).
              rewrite Hnames, nth_error_map in K'. destruct (nth_error names k); [|discriminate]. cbn in K'. congruence.
          - rewrite (nth_error_nth_eq _ c _ (EVar s, rhs)) by (rewrite nth_error_firstn by auto; exact Ec). cbn [snd]. apply Hneg.
            apply in_map_iff. exists (EVar s, rhs). split; [auto|]. apply nth_error_In with c. auto. }
        { assert (NW : forall c', c' < n -> i <> n + c' * nv + t).
          { intros c' Hc' K. assert (Q : Some (c, l) = Some (c', [(t, 1)])) by (rewrite <- Hd; apply ROW; auto). injection Q as -> _. auto. }
          destruct (Hv' i lane Hlane) as [_ K]. rewrite (K NW). apply NT; auto. intros j -> Hj. apply Hr.
          assert (j = t). { apply (proj1 (NoDup_nth_error _) (vo_args _ V)); [|congruence]. apply nth_error_Some. rewrite Hj. discriminate. }
          subst j. apply (proj1 (NoDup_nth_error _) (vo_nodup _ V)); [apply nth_error_Some; rewrite Hd; discriminate|]. rewrite Hd. symmetry. apply ROW; auto. }
  - intros T0 Ht. right. split; [contradiction|]. exists st. split; [exact T0|]. split; [exact Hl|]. split.
    + intros i lane Hi Hlane. rewrite Hv by (auto; lia). destruct (Nat.ltb_spec i n); [auto|lia].
    + intros i lane c l Hi Hlane Hd. apply NT; auto. intros j _ K. apply Ht. apply nth_error_In with j. auto.
Qed.

(* The tolerance. *)
Lemma tol_spec (a : cargs o fp) :
  (tolerance_ok L (a_tol _ _ a) /\ exists t, check_tol fp eps (parse_tol fp (a_tol _ _ a)) = MDone t /\ effective_tol L eps a t) \/
  (~ tolerance_ok L (a_tol _ _ a) /\ check_tol fp eps (parse_tol fp (a_tol _ _ a)) = MThrow).
Proof.
  unfold effective_tol. destruct (a_tol o fp a) as [x|]; cbn [tolerance_ok parse_tol].
  - destruct (fl_0 _ L) as [F0 V0]. destruct (feq fp x zero) eqn:E.
    + assert (Fx : ffin fp x = true) by (eapply (fl_eqfin _ L); eauto). apply (fl_eq _ L) in E; auto. left. rewrite V0 in E. split; [split; [auto|lra]|].
      exists eps. cbn. split; [auto|]. split; [auto|]. intros K. contradiction.
    + cbn [check_tol]. destruct (ffin fp x) eqn:Fx; cbn [negb orb]; [|right; split; [intros [K _]; discriminate|auto]].
      assert (Ne : fval L x <> 0%R) by (intros K; rewrite <- V0 in K; apply (fl_eq _ L) in K; auto; congruence).
      destruct (flt fp x zero) eqn:Lt.
      * right. split; [|auto]. apply (fl_lt _ L) in Lt; auto. intros [_ K]. lra.
      * left. split; [split; [auto|]|].
        -- destruct (Rle_lt_dec 0 (fval L x)) as [K|K]; [auto|]. rewrite <- V0 in K. apply (fl_lt _ L) in K; auto. congruence.
        -- exists x. split; [auto|]. split; [intros K; contradiction|auto].
  - left. split; [auto|]. exists eps. auto.
Qed.
Lemma effective_unique (a : cargs o fp) t t' : effective_tol L eps a t -> effective_tol L eps a t' -> t = t'.
Proof.
  unfold effective_tol. destruct (a_tol o fp a) as [x|]; [|congruence]. intros [A B] [C D]. destruct (Req_dec (fval L x) 0) as [K|K].
  - rewrite A, C; auto.
  - rewrite B, D; auto.
Qed.

(* What makes a construction succeed. *)
Definition accepted bs (a : cargs o fp) : Prop :=
  valid_args L bs a /\ time_order_ok bs a /\
  forall t, effective_tol L eps a t -> codegen (equations _ (a_sys _ _ a)) (a_tes _ _ a) (a_ntes _ _ a) t (a_ha _ _ a) (a_compact _ _ a) (a_parallel _ _ a) = true.
Lemma pars_spec n (pars : list F) :
  ((pars = [] \/ length pars = n) /\ setup_pars fp n pars = MDone (match pars with [] => repeat zero n | l => l end)) \/
  (~ (pars = [] \/ length pars = n) /\ setup_pars fp n pars = MThrow).
Proof.
  unfold setup_pars. destruct pars as [|p pars]; [left; auto|]. destruct (Nat.eqb_spec (length (p :: pars)) n) as [E|E].
  - left. auto.
  - right. split; [|auto]. intros [K|K]; [discriminate|auto].
Qed.
Lemma list_ext (l l' : list F) : length l = length l' -> (forall k, k < length l -> nth k l zero = nth k l' zero) -> l = l'.
Proof. intros H1 H2. eapply nth_ext with (d := zero) (d' := zero); auto. Qed.

Theorem construct_batch_spec bs a : system_ok value (a_sys _ _ a) ->
  (accepted bs a /\ 0 < bs /\ length (a_times _ _ a) = bs /\ exists ig, construct_batch o neq fideq fp one eps value codegen bs a = MDone ig /\
     constructed L one value eps bs a (a_times _ _ a) ig) \/
  (~ (accepted bs a /\ 0 < bs /\ length (a_times _ _ a) = bs) /\ construct_batch o neq fideq fp one eps value codegen bs a = MThrow).
Proof.
  intros OK. unfold construct_batch. set (s := a_sys o fp a) in *. set (sys := equations o s).
  destruct (validate_spec o sys (a_tes o fp a) (a_ntes o fp a)) as [[VS ->]|[VS ->]]; cbn [mbind];
    [|right; split; [intros [[[K _] _] _]; auto|auto]].
  destruct (Nat.eqb_spec bs 0) as [->|Hbs]; [right; split; [intros [_ [K _]]; lia|auto]|].
  set (P1 := a_state o fp a = [] \/ length (a_state o fp a) = bs * length sys \/ is_variational _ s = true /\ length (a_state o fp a) = bs * n_orig_sv _ s).
  assert (NP1 : ~ P1 -> ~ (accepted bs a /\ 0 < bs /\ length (a_times _ _ a) = bs)).
  { intros K [[[_ [Q _]] _] _]. apply K. exact Q. }
  destruct (Nat.eqb_spec (length (a_state o fp a) mod bs) 0) as [Hm|Hm]; cbn [negb].
  2:{ right. split; [|auto]. apply NP1. intros [K|[K|[_ K]]]; apply Hm; rewrite ?K; [apply Nat.mod_0_l; auto| |];
      rewrite Nat.mul_comm; apply Nat.mod_mul; auto. }
  assert (Eg : match a_state o fp a with [] => repeat zero (n_orig_sv o s * bs) | l => l end = given_state bs a).
  { unfold given_state. fold s. rewrite (Nat.mul_comm bs). destruct (a_state o fp a); auto. }
  rewrite Eg. set (g := given_state bs a) in *.
  assert (Hg : exists q, length g = bs * q).
  { unfold g, given_state. destruct (a_state o fp a); [rewrite repeat_length; eexists; reflexivity|]. exists (length (f :: l) / bs). apply Nat.div_exact; auto. }
  destruct Hg as [q Hq]. assert (Hdiv : length g / bs = q) by (rewrite Hq, Nat.mul_comm; apply Nat.div_mul; auto).
  assert (HP1 : P1 <-> q = length sys \/ is_variational _ s = true /\ q = n_orig_sv _ s).
  { unfold P1. revert Hq. unfold g, given_state. fold s. destruct (a_state o fp a) as [|x l].
    - rewrite repeat_length. intros K. assert (q = n_orig_sv o s) by nia. subst q. split; [intros _|auto].
      subst sys. destruct s; cbn; auto.
    - intros ->. split.
      + intros [K|[K|[K1 K2]]]; [discriminate|left; nia|right; split; [auto|nia]].
      + intros [->|[K ->]]; auto. }
  unfold setup_state. fold sys. rewrite Hdiv.
  (* the state *)
  assert (ST : (~ P1 /\ (if q =? length sys then MDone (g, false) else match s with Variational v => if q =? vs_nouts o v then mbind (ics_varpar o neq fideq fp one v bs g) (fun st => MDone (st, true)) else MThrow | Plain _ => MThrow end) = MThrow) \/
     (P1 /\ exists st auto, (if q =? length sys then MDone (g, false) else match s with Variational v => if q =? vs_nouts o v then mbind (ics_varpar o neq fideq fp one v bs g) (fun st => MDone (st, true)) else MThrow | Plain _ => MThrow end) = MDone (st, auto) /\
       forall pars times, 
         (~ time_order_ok bs a /\ finish_ics o neq fideq fp value s bs pars times st auto = MThrow) \/
         (time_order_ok bs a /\ exists st', finish_ics o neq fideq fp value s bs pars times st auto = MDone st' /\
          length st' = bs * length sys /\ firstn (length g) st' = g /\
          forall v i lane c l, s = Variational _ v -> auto_ics bs a -> vs_nouts _ v <= i -> lane < bs -> nth_error (vs_didx _ v) i = Some (c, l) ->
             initial_value one value v bs lane g pars times c l (nth (i * bs + lane) st' zero)))).
  { destruct (Nat.eqb_spec q (length sys)) as [Hqs|Hqs].
    - right. split; [apply HP1; auto|]. exists g, false. split; [auto|]. intros pars times. right.
      assert (NA : ~ auto_ics bs a) by (unfold auto_ics; fold s sys g; intros K; apply K; rewrite Hq; congruence).
      split; [unfold time_order_ok; fold s; destruct s; [auto|contradiction]|]. exists g. cbn. split; [auto|]. split; [congruence|]. split; [apply firstn_all|]. contradiction.
    - assert (AU : auto_ics bs a) by (unfold auto_ics; fold s sys g; rewrite Hq; nia).
      destruct s as [sys0|v] eqn:Es.
      + left. split; [|auto]. rewrite HP1. cbn. intros [K|[K _]]; [auto|discriminate].
      + destruct (Nat.eqb_spec q (vs_nouts o v)) as [Hqn|Hqn]; [|left; split; [rewrite HP1; cbn; intros [K|[_ K]]; auto|auto]].
        right. split; [rewrite HP1; right; split; auto|]. destruct OK as [V Hneg].
        destruct VS as [_ [names [Hnames [ND _]]]].
        assert (Lg : length g = bs * vs_nouts o v) by congruence.
        destruct (ics_ok v V bs [] [] g names Hnames ND Hneg Lg) as (st & Est & Hst & _). exists st, true. rewrite Est. cbn [mbind]. split; [auto|].
        intros pars times. cbn [finish_ics]. destruct (ics_ok v V bs pars times g names Hnames ND Hneg Lg) as (st1 & Est1 & _ & K).
        assert (st1 = st) by congruence. subst st1. clear Est1. unfold time_order_ok. fold s. rewrite Es.
        destruct K as [[K1 [K2 K3]]|[K1 (st' & K2 & K3 & K4 & K5)]].
        * left. split; [|auto]. intros Q. specialize (Q AU K2). lia.
        * right. split; [auto|]. exists st'. split; [auto|]. split; [auto|]. split.
          { apply list_ext; [rewrite firstn_length, K3; generalize (vo_more _ V); nia|]. intros k Hk. rewrite firstn_length in Hk.
            assert (Hk' : k < bs * vs_nouts o v) by lia. clear Hk.
            transitivity (nth k st' zero).
            - rewrite <- (firstn_skipn (length g) st') at 2. rewrite app_nth1; [auto|]. rewrite firstn_length, K3. generalize (vo_more _ V). nia.
            - rewrite (Nat.div_mod k bs Hbs). rewrite (Nat.mul_comm bs (k / bs)). apply K4; [apply Nat.div_lt_upper_bound; auto|apply Nat.mod_upper_bound; auto]. }
          intros v' i lane c l Hv' _ Hi Hlane Hd. injection Hv' as <-. apply K5; auto. }
  destruct ST as [[NP ->]|[P (st & auto & -> & FI)]]; cbn [mbind]; [right; split; auto|].
  destruct (Nat.eqb_spec (length (a_times o fp a)) bs) as [Ht|Ht]; cbn [negb]; [|right; split; [intros [_ [_ K]]; auto|auto]].
  destruct (tol_spec a) as [[TO (t & -> & ET)]|[NTO ->]]; cbn [mbind]; [|right; split; [intros [[[_ [_ [_ [K _]]]] _] _]; auto|auto]].
  destruct (a_parallel o fp a && negb (a_compact o fp a)) eqn:PC.
  { right. split; [|auto]. intros [[[_ [_ [_ [_ K]]]] _] _]. apply andb_prop in PC. destruct PC as [PC1 PC2]. rewrite (K PC1) in PC2. discriminate. }
  assert (PC' : a_parallel o fp a = true -> a_compact o fp a = true) by (intros K; rewrite K in PC; destruct (a_compact o fp a); auto; discriminate).
  set (np := tot_n_pars o sys (a_tes o fp a) (a_ntes o fp a)). assert (Hnp := tot_n_pars_spec o sys (a_tes o fp a) (a_ntes o fp a)). fold np in Hnp.
  rewrite (Nat.mul_comm np bs).
  destruct (pars_spec (bs * np) (a_pars o fp a)) as [[HP ->]|[HP ->]]; cbn [mbind].
  2:{ right. split; [|auto]. intros [[[_ [_ [K _]]] _] _]. apply HP. destruct K as [K|[n [K1 K2]]]; [auto|]. apply Hnp in K1. subst n. auto. }
  match goal with |- context [finish_ics o neq fideq fp value s bs ?p _ _ _] => set (pars := p) end.
  destruct (codegen sys (a_tes o fp a) (a_ntes o fp a) t (a_ha o fp a) (a_compact o fp a) (a_parallel o fp a)) eqn:CG; cbn [negb].
  2:{ right. split; [|auto]. intros [[_ [_ K]] _]. specialize (K t ET). fold s sys in K. congruence. }
  destruct (FI pars (a_times o fp a)) as [[NT ->]|[TOK (st' & -> & Ls & Fs & Is)]]; cbn [mbind]; [right; split; [intros [[_ [K _]] _]; auto|auto]|].
  left. split.
  { split; [|split; [auto|]].
    - split; [exact VS|]. split; [exact P|]. split; [|auto]. destruct HP as [HP|HP]; [auto|]. right. exists np. split; [apply Hnp; auto|auto].
    - intros t' Et'. rewrite (effective_unique a t' t Et' ET). exact CG. }
  split; [lia|]. split; [auto|]. eexists. split; [reflexivity|].
  constructor; cbn; auto.
  - exists np. split; [apply Hnp; auto|]. split; [|unfold pars; destruct (a_pars o fp a); auto]. unfold pars. destruct (a_pars o fp a) eqn:Ep; [apply repeat_length|]. destruct HP as [HP|HP]; [discriminate|auto].
Qed.

(* A scalar integrator is constructed like a batch integrator of size 1. *)
Lemma construct_is_batch (a : cargs o fp) :
  construct o neq fideq fp one eps value codegen a =
  construct_batch o neq fideq fp one eps value codegen 1
    (mkArgs o fp (a_sys _ _ a) (a_state _ _ a) (a_time _ _ a) [match a_time _ _ a with Some t => t | None => zero end] (a_tol _ _ a) (a_ha _ _ a) (a_compact _ _ a)
       (a_pars _ _ a) (a_tes _ _ a) (a_ntes _ _ a) (a_parallel _ _ a)).
Proof.
  unfold construct, construct_batch. cbn [a_sys a_state a_time a_times a_tol a_ha a_compact a_pars a_tes a_ntes a_parallel].
  destruct (validate_ode_sys _ _ _ _) as [[]| | |]; cbn [mbind]; auto. cbn [Nat.eqb]. rewrite Nat.mod_1_r. cbn [Nat.eqb negb].
  rewrite !Nat.mul_1_r. destruct (setup_state _ _ _ _ _ _ _ _) as [[st auto]| | |]; cbn [mbind]; auto. cbn [length Nat.eqb negb].
  unfold setup_pars, check_tol.
  destruct (parse_tol fp (a_tol o fp a)) as [t|].
  - destruct (negb (ffin fp t) || flt fp t zero); cbn [mbind].
    + destruct (a_pars o fp a); cbn [mbind]; auto. destruct (_ =? _); cbn [mbind]; auto.
    + destruct (a_parallel o fp a && negb (a_compact o fp a)); [|reflexivity]. destruct (a_pars o fp a); cbn [mbind]; auto. destruct (_ =? _); cbn [mbind]; auto.
  - cbn [mbind]. destruct (a_parallel o fp a && negb (a_compact o fp a)); [|reflexivity]. destruct (a_pars o fp a); cbn [mbind]; auto. destruct (_ =? _); cbn [mbind]; auto.
Qed.
End Main.
