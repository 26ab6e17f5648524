(* Compiled functions: the names of the functions in compact mode, and the
   evaluation of composite functions. *)
From Coq Require Import String Ascii Bool ZArith Arith List Lia Permutation.
From Verif Require Import M_Expr M_Dag M_Dec S_Expr S_Dag S_Dec P_ExprSem P_Subs P_Dag P_Dec P_Vars.
From Verif Require Import M_Taylor M_Adj P_Adj2 P_Cfunc1 M_Cfunc S_Cfunc P_Cfunc2.
Import ListNotations.
Local Open Scope nat_scope.
Set Bullet Behavior "Strict Subproofs".

(* --- Strings ------------------------------------------------------------------------------------ *)
Lemma append_assoc (a b c : string) : ((a ++ b) ++ c)%string = (a ++ (b ++ c))%string.
Proof. induction a; cbn; congruence. Qed.
Lemma append_inv (a b c : string) : (a ++ b)%string = (a ++ c)%string -> b = c.
Proof. induction a; cbn; [auto|]. intros [= H]. auto. Qed.
Lemma split_char c (s s' X X' : string) : has_char (Ascii.eqb c) s = false -> has_char (Ascii.eqb c) s' = false ->
  (s ++ String c X)%string = (s' ++ String c X')%string -> s = s' /\ X = X'.
Proof.
  revert s'. induction s as [|a s IH]; intros [|b s']; cbn; intros H H' E.
  - injection E as ->. auto.
  - injection E as -> _. rewrite Ascii.eqb_refl in H'. discriminate.
  - injection E as -> _. rewrite Ascii.eqb_refl in H. discriminate.
  - injection E as -> E. apply orb_false_iff in H, H'. destruct (IH s' (proj2 H) (proj2 H') E) as [-> ->]. auto.
Qed.
Lemma has_char_impl (p q : ascii -> bool) s : (forall a, p a = true -> q a = true) -> has_char q s = false -> has_char p s = false.
Proof.
  intros H. induction s as [|a s IH]; cbn; [auto|]. intros E. apply orb_false_iff in E. destruct E as [E1 E2]. rewrite (IH E2).
  destruct (p a) eqn:Ep; [|reflexivity]. rewrite (H a Ep) in E1. discriminate.
Qed.
Lemma has_char_app p (a b : string) : has_char p (a ++ b)%string = has_char p a || has_char p b.
Proof. induction a as [|c a IH]; cbn; [reflexivity|]. rewrite IH. apply orb_assoc. Qed.

Section P.
Context (o : nops).
Local Notation ex := (expr (num o)).
Context (lname : fid (num o) -> list ex -> string) (fname : fid (num o) -> string) (K : fid (num o) -> Prop).
Hypothesis HN : names_ok o K lname.

Inductive sk := SL | SN (f : fid (num o)) (a : palgo) (l : list sk).
Fixpoint skel (e : ex) : sk := match e with EFun f args => SN f (algo_of o f args) (map skel args) | _ => SL end.

Fixpoint comp_args (l : list ex) (k : nat) : string * nat :=
  match l with
  | [] => (""%string, k)
  | a :: r => let '(s1, k1) := comp_str o lname a k in
              match r with
              | [] => (s1, k1)
              | _ => let '(s2, k2) := comp_args r k1 in ((s1 ++ "," ++ s2)%string, k2)
              end
  end.
Lemma comp_str_fun f args k : comp_str o lname (EFun f args) k =
  ((lname f args ++ "(" ++ fst (comp_args args k) ++ ")")%string, snd (comp_args args k)).
Proof.
  cbn [comp_str].
  assert (E : (fix go (l : list ex) (k : nat) {struct l} : string * nat :=
           match l with
           | [] => (""%string, k)
           | a :: r => let '(s1, k1) := comp_str o lname a k in
                       match r with
                       | [] => (s1, k1)
                       | _ => let '(s2, k2) := go r k1 in ((s1 ++ "," ++ s2)%string, k2)
                       end
           end) args k = comp_args args k).
  { revert k. induction args as [|a r IH]; intros k; [reflexivity|]. cbn [comp_args]. destruct (comp_str o lname a k) as [s1 k1].
    destruct r; [reflexivity|]. now rewrite IH. }
  rewrite E. now destruct (comp_args args k).
Qed.
(* Two cases of the arguments. *)
Lemma comp_args_one a k : comp_args [a] k = comp_str o lname a k.
Proof. cbn. now destruct (comp_str o lname a k). Qed.
Lemma comp_args_more a b r k : comp_args (a :: b :: r) k =
  ((fst (comp_str o lname a k) ++ "," ++ fst (comp_args (b :: r) (snd (comp_str o lname a k))))%string, snd (comp_args (b :: r) (snd (comp_str o lname a k)))).
Proof.
  change (comp_args (a :: b :: r) k) with (let '(s1, k1) := comp_str o lname a k in let '(s2, k2) := comp_args (b :: r) k1 in ((s1 ++ "," ++ s2)%string, k2)).
  destruct (comp_str o lname a k) as [s1 k1]. cbn [fst snd]. now destruct (comp_args (b :: r) k1).
Qed.
Lemma comp_first e k s : comp_ok o lname fname e = true -> fst (comp_str o lname e k) <> (")" ++ s)%string /\
  ((forall f args, e <> EFun f args) -> exists s', fst (comp_str o lname e k) = ("#" ++ s')%string) /\
  ((exists f args, e = EFun f args) -> forall s', fst (comp_str o lname e k) <> ("#" ++ s')%string).
Proof.
  intros H. destruct e as [x|v|i|f args].
  1-3: split; [discriminate|]; split; [intros _; cbn; eauto | intros (f & args & E); discriminate].
  rewrite comp_str_fun. cbn [fst]. cbn [comp_ok] in H. apply andb_prop in H. destruct H as [H _]. apply andb_prop in H. destruct H as [_ H].
  apply negb_true_iff in H. destruct (lname f args) as [|c n]; cbn in H |- *.
  - split; [discriminate|]. split; [intros E; destruct (E f args eq_refl) | discriminate].
  - apply orb_false_iff in H. destruct H as [H _]. split; [|split; [intros E; destruct (E f args eq_refl)|]].
    + intros [= -> _]. discriminate.
    + intros _ s' [= -> _]. discriminate.
Qed.
Lemma comp_first' e k s X : comp_ok o lname fname e = true -> (fst (comp_str o lname e k) ++ X)%string <> (")" ++ s)%string.
Proof.
  intros H. assert (HX : exists c q, fst (comp_str o lname e k) = String c q).
  { destruct e as [x|v|i|f args]; [cbn; eauto..|]. rewrite comp_str_fun. cbn [fst]. destruct (lname f args); cbn; eauto. }
  destruct HX as (c & q & Eq). destruct (comp_first e k q H) as [H1 _]. rewrite Eq in *. cbn. intros [= -> _]. apply H1. reflexivity.
Qed.

Definition named (e : ex) : Prop := forall f args, occurs (EFun f args) e -> K f.
Lemma named_arg f args a : named (EFun f args) -> In a args -> named a.
Proof. intros H Ha g l Ho. apply (H g l). now apply occ_arg with (a := a). Qed.
Lemma comp_inj : forall e e' k r r', comp_ok o lname fname e = true -> comp_ok o lname fname e' = true -> named e -> named e' ->
  (fst (comp_str o lname e k) ++ r)%string = (fst (comp_str o lname e' k) ++ r')%string ->
  skel e = skel e' /\ snd (comp_str o lname e k) = snd (comp_str o lname e' k) /\ r = r'.
Proof.
  induction e as [x|v|i|f args IH] using expr_ind'; intros e' k r r' H H' N N' E.
  1-3: destruct e' as [x'|v'|i'|f' args']; try (cbn [comp_str fst snd skel] in *; split; [reflexivity|]; split; [reflexivity|]; now apply append_inv in E);
    exfalso; destruct (comp_first (EFun f' args') k (dec_string k ++ r)%string H') as (_ & _ & H3);
    destruct (fst (comp_str o lname (EFun f' args') k)) as [|c q] eqn:Eq;
    [ rewrite comp_str_fun in Eq; cbn [fst] in Eq; destruct (lname f' args'); discriminate
    | cbn in E; injection E as <- _; apply (H3 (ex_intro _ f' (ex_intro _ args' eq_refl)) q); reflexivity ].
  destruct e' as [x'|v'|i'|f' args'].
  1-3: exfalso; destruct (comp_first (EFun f args) k (dec_string k ++ r)%string H) as (_ & _ & H3);
    destruct (fst (comp_str o lname (EFun f args) k)) as [|c q] eqn:Eq;
    [ rewrite comp_str_fun in Eq; cbn [fst] in Eq; destruct (lname f args); discriminate
    | cbn in E; injection E as -> _; apply (H3 (ex_intro _ f (ex_intro _ args eq_refl)) q); reflexivity ].
  cbn [comp_ok] in H, H'. apply andb_prop in H, H'. destruct H as [Hn Ha], H' as [Hn' Ha'].
  apply andb_prop in Hn, Hn'. destruct Hn as [_ Hn], Hn' as [_ Hn']. apply negb_true_iff in Hn, Hn'.
  rewrite !comp_str_fun in *. cbn [fst snd skel] in *. rewrite !append_assoc in E.
  assert (HP : forall a, Ascii.eqb "(" a = true -> forbidden a = true).
  { intros a Ea. apply Ascii.eqb_eq in Ea. now subst. }
  destruct (split_char "(" _ _ _ _ (has_char_impl _ _ _ HP Hn) (has_char_impl _ _ _ HP Hn') E) as [En Es].
  destruct (nk_inj o K lname HN _ _ _ _ (N _ _ (occ_here _)) (N' _ _ (occ_here _)) En) as [-> Ealg]. rewrite Ealg.
  assert (NA : Forall named args) by (apply Forall_forall; intros a; now apply (named_arg f' args)).
  assert (NA' : Forall named args') by (apply Forall_forall; intros a; now apply (named_arg f' args')).
  clear N N'.
  assert (HL : map skel args = map skel args' /\ snd (comp_args args k) = snd (comp_args args' k) /\ r = r').
  { clear E En Ealg Hn Hn'. change ((fst (comp_args args k) ++ (")" ++ r))%string = (fst (comp_args args' k) ++ (")" ++ r'))%string) in Es.
    revert args' Ha' NA' k Es. induction IH as [|a l IHa IHl IHrec]; intros args' Ha' NA' k Es.
    - destruct args' as [|a' l']; [cbn in *; injection Es as ->; auto|]. exfalso. cbn in Ha'. apply andb_prop in Ha'.
      assert (EX : exists X, (fst (comp_args (a' :: l') k) ++ ")" ++ r')%string = (fst (comp_str o lname a' k) ++ X)%string).
      { destruct l' as [|b l']; [rewrite comp_args_one; eauto|]. rewrite comp_args_more. cbn [fst]. rewrite append_assoc. eauto. }
      destruct EX as (X & EX). rewrite EX in Es. symmetry in Es. exact (comp_first' a' k r X (proj1 Ha') Es).
    - cbn in Ha. apply andb_prop in Ha. destruct Ha as [Ha Hl]. destruct args' as [|a' l'].
      + exfalso. assert (EX : exists X, (fst (comp_args (a :: l) k) ++ ")" ++ r)%string = (fst (comp_str o lname a k) ++ X)%string).
        { destruct l as [|b l]; [rewrite comp_args_one; eauto|]. rewrite comp_args_more. cbn [fst]. rewrite append_assoc. eauto. }
        destruct EX as (X & EX). rewrite EX in Es. exact (comp_first' a k r' X Ha Es).
      + cbn in Ha'. apply andb_prop in Ha'. destruct Ha' as [Ha' Hl'].
        destruct l as [|b l]; destruct l' as [|b' l'].
        * rewrite !comp_args_one in *. destruct (IHa a' k _ _ Ha Ha' (Forall_inv NA) (Forall_inv NA') Es) as (E1 & E2 & E3). cbn [map]. rewrite E1, E2. injection E3 as ->. auto.
        * exfalso. rewrite comp_args_one, comp_args_more in Es. cbn [fst] in Es. rewrite append_assoc in Es.
          destruct (IHa a' k _ _ Ha Ha' (Forall_inv NA) (Forall_inv NA') Es) as (_ & _ & E3). discriminate.
        * exfalso. rewrite comp_args_one, comp_args_more in Es. cbn [fst] in Es. rewrite append_assoc in Es.
          destruct (IHa a' k _ _ Ha Ha' (Forall_inv NA) (Forall_inv NA') Es) as (_ & _ & E3). discriminate.
        * rewrite !comp_args_more in Es |- *. cbn [fst snd] in Es |- *. rewrite !append_assoc in Es.
          destruct (IHa a' k _ _ Ha Ha' (Forall_inv NA) (Forall_inv NA') Es) as (E1 & E2 & E3). apply append_inv in E3. rewrite E2 in E3 |- *.
          destruct (IHrec Hl (Forall_inv_tail NA) (b' :: l') Hl' (Forall_inv_tail NA') _ E3) as (E4 & E5 & E6). change (map skel (a :: b :: l)) with (skel a :: map skel (b :: l)).
          rewrite E1, E4, E5. auto. }
  destruct HL as (-> & -> & ->). auto.
Qed.

(* --- The elements ------------------------------------------------------------------------------------ *)
Definition leaf (e : ex) : Prop := forall f args, e <> EFun f args.
Definition same_kind (a b : ex) : Prop := kind_str o a = kind_str o b.
(* What function_dc_inline creates. *)
Inductive shaped : celt o -> Prop :=
| sh_comp e args : comp_ok o lname fname e = true -> named e -> Forall leaf args -> length args = length (dleaves o e) ->
    shaped (mkCE o e args ("composite|" ++ fst (comp_str o lname e 0))%string)
| sh_plain f args args0 : K f -> Forall leaf args -> algo_of o f args = algo_of o f args0 ->
    shaped (mkCE o (EFun f args) args (lname f args0)).

Lemma dleaves_leaves args : Forall leaf args -> concat (map (dleaves o) args) = args.
Proof.
  induction 1 as [|a l Ha Hl IH]; [reflexivity|]. cbn. rewrite IH. destruct a as [x|s|i|f r]; try reflexivity. destruct (Ha f r eq_refl).
Qed.
Lemma skel_leaves args : Forall leaf args -> map skel args = map (fun _ => SL) args.
Proof.
  induction 1 as [|a l Ha Hl IH]; [reflexivity|]. cbn. rewrite IH. destruct a as [x|s|i|f r]; try reflexivity. destruct (Ha f r eq_refl).
Qed.
Lemma shaped_skel c c' : shaped c -> shaped c' -> ce_name o c = ce_name o c' -> length (ce_args o c) = length (ce_args o c') ->
  skel (ce_ex o c) = skel (ce_ex o c').
Proof.
  intros H H' En El. destruct H as [e args Hok HK HL HD|f args args0 HK HL HA]; destruct H' as [e' args' Hok' HK' HL' HD'|f' args' args0' HK' HL' HA']; cbn [ce_name ce_args ce_ex] in *.
  - apply append_inv in En. destruct (comp_inj e e' 0 "" "" Hok Hok' HK HK') as (E & _); [now rewrite En | exact E].
  - exfalso. symmetry in En. exact (nk_comp o K lname HN _ _ _ ltac:(eassumption) En).
  - exfalso. exact (nk_comp o K lname HN _ _ _ ltac:(eassumption) En).
  - destruct (nk_inj o K lname HN _ _ _ _ HK HK' En) as [-> E]. cbn [skel]. rewrite HA, HA', E. f_equal.
    rewrite !skel_leaves by assumption. clear - El. revert args' El. induction args as [|a l IH]; intros [|a' l'] El; cbn in *; try discriminate; [reflexivity|].
    f_equal. apply IH. congruence.
Qed.
Lemma shaped_leaves c : shaped c -> Forall leaf (ce_args o c).
Proof. intros H. now destruct H. Qed.
Lemma shaped_length c : shaped c -> length (ce_args o c) = length (dleaves o (ce_ex o c)).
Proof. intros H. destruct H as [e args Hok HK HL HD|f args args0 HK HL HA]; cbn [ce_args ce_ex]; [exact HD|]. cbn [dleaves]. now rewrite dleaves_leaves. Qed.

(* --- Mangled names ------------------------------------------------------------------------------------- *)
Lemma join_inj : forall l l' : list ex, Forall leaf l -> Forall leaf l' -> join (map (kind_str o) l) = join (map (kind_str o) l') ->
  map (kind_str o) l = map (kind_str o) l'.
Proof.
  assert (HK : forall a, leaf a -> kind_str o a = "var"%string \/ kind_str o a = "num"%string \/ kind_str o a = "par"%string).
  { intros [x|s|i|f r] H; auto. destruct (H f r eq_refl). }
  assert (HJ : forall a r, join (map (kind_str o) (a :: r)) = (kind_str o a ++ match r with [] => "" | _ => "_" ++ join (map (kind_str o) r) end)%string).
  { intros a [|b r]; cbn; [|reflexivity]. induction (kind_str o a) as [|c s IH]; cbn; congruence. }
  induction l as [|a l IH]; intros [|a' l'] H H' E; [reflexivity| | |].
  - exfalso. rewrite HJ in E. inversion H'; subst. destruct (HK a' ltac:(assumption)) as [Kd|[Kd|Kd]]; rewrite Kd in E; discriminate.
  - exfalso. rewrite HJ in E. inversion H; subst. destruct (HK a ltac:(assumption)) as [Kd|[Kd|Kd]]; rewrite Kd in E; discriminate.
  - rewrite !HJ in E. inversion H as [|? ? Ha Hl]; subst. inversion H' as [|? ? Ha' Hl']; subst. cbn [map].
    assert (Ek : kind_str o a = kind_str o a' /\
      match l with [] => "" | _ => "_" ++ join (map (kind_str o) l) end%string = match l' with [] => "" | _ => "_" ++ join (map (kind_str o) l') end%string).
    { destruct (HK a Ha) as [Kd|[Kd|Kd]]; destruct (HK a' Ha') as [Kd'|[Kd'|Kd']]; rewrite Kd, Kd' in *; cbn in E; try discriminate; injection E as E; auto. }
    destruct Ek as [-> Ek]. f_equal. destruct l as [|b l]; destruct l' as [|b' l']; try discriminate; [reflexivity|].
    apply IH; auto. now injection Ek.
Qed.
Lemma kinds_clean l : has_char (Ascii.eqb ".") (join (map (kind_str o) l)) = false.
Proof.
  induction l as [|a [|b l] IH]; [reflexivity| |].
  - cbn. destruct a; reflexivity.
  - change (join (map (kind_str o) (a :: b :: l))) with (kind_str o a ++ ("_" ++ join (map (kind_str o) (b :: l))))%string.
    rewrite !has_char_app, IH. destruct a; reflexivity.
Qed.
Lemma mangle_inj ty c c' key : Forall leaf (ce_args o c) -> Forall leaf (ce_args o c') ->
  mangle o ty c = MDone key -> mangle o ty c' = MDone key ->
  ce_name o c = ce_name o c' /\ map (kind_str o) (ce_args o c) = map (kind_str o) (ce_args o c').
Proof.
  intros HL HL'. unfold mangle. destruct (has_char _ (ce_name o c)) eqn:E; [discriminate|]. destruct (has_char _ (ce_name o c')) eqn:E'; [discriminate|].
  intros [= <-] [= H]. symmetry in H.
  match type of H with (?a ++ ?b)%string = _ => change ((a ++ String "." (join (map (kind_str o) (ce_args o c)) ++ "." ++ ty))%string =
    (ce_name o c' ++ String "." (join (map (kind_str o) (ce_args o c')) ++ "." ++ ty))%string) in H end.
  destruct (split_char "." _ _ _ _ E E' H) as [En Ek]. split; [exact En|].
  apply join_inj; auto. now destruct (split_char "." _ _ _ _ (kinds_clean _) (kinds_clean _) Ek) as [Ek' _].
Qed.
End P.
Arguments SL {o}. Arguments SN {o}.

(* --- Evaluation ---------------------------------------------------------------------------------------------- *)
Section Ev.
Context (o : nops) (td : string -> bool) {T : Type} (A : arith o T) (dflt : T).
Local Notation ex := (expr (num o)).
Context (batch : nat) (tp : ptr (T := T)).
Local Notation teval := (tmpl_eval o td A dflt batch tp).
Fixpoint tlist (l : list ex) (vs : list (list T)) : mres (list (list T) * list (list T)) :=
  match l with
  | [] => MDone ([], vs)
  | a :: r => mbind (teval a vs) (fun p => mbind (tlist r (snd p)) (fun q => MDone (fst p :: fst q, snd q)))
  end.
Lemma teval_fun f args vs : teval (EFun f args) vs =
  mbind (tlist args vs) (fun p => mbind (vfun o td A dflt batch tp f (algo_of o f args) (fst p)) (fun v => MDone (v, snd p))).
Proof.
  reflexivity.
Qed.
Lemma teval_skel : forall e e' vs, skel o e = skel o e' -> teval e vs = teval e' vs.
Proof.
  induction e as [x|v|i|f args IH] using expr_ind'; intros e' vs E; destruct e' as [x'|v'|i'|f' args']; try discriminate; try reflexivity.
  cbn [skel] in E. injection E as -> Ea El. rewrite !teval_fun, Ea. f_equal. clear Ea. revert args' vs El.
  induction IH as [|a l Ha Hl IHl]; intros [|a' l'] vs El; cbn in El; try discriminate; [reflexivity|].
  injection El as E1 E2. cbn [tlist]. rewrite (Ha a' vs E1). destruct (teval a' vs) as [p| | |]; cbn [mbind]; try reflexivity.
  now rewrite (IHl l' (snd p) E2).
Qed.

Context (np : nat) (tdb : bool) (K : fid (num o) -> Prop) (xpar : nat -> nat -> T) (xt : nat -> option T).
Hypothesis Htm : tdb = true -> exists tt, vload tp 0 batch = MDone (vec batch tt) /\ forall l, l < batch -> xt l = Some (tt l).
Context (R : nat -> nat -> T).
Local Notation sv := (sval o td A dflt xpar xt R).
Local Notation fine := (fine o td np tdb K).
Lemma teval_val : forall e rest, fine e -> teval e (map (fun a => vec batch (sv a)) (dleaves o e) ++ rest) = MDone (vec batch (sv e), rest).
Proof.
  induction e as [x|v|i|f args IH] using expr_ind'; intros rest Hf; try reflexivity.
  rewrite teval_fun. cbn [dleaves]. assert (HA := lin_args o _ _ _ _ Hf).
  assert (HT : forall rest, tlist args (map (fun a => vec batch (sv a)) (concat (map (dleaves o) args)) ++ rest) = MDone (map (fun a => vec batch (sv a)) args, rest)).
  { clear Hf rest. induction IH as [|a l Ha Hl IHl]; intros rest; [reflexivity|]. inversion HA; subst. cbn [map concat tlist].
    rewrite map_app, <- app_assoc, Ha by assumption. cbn [mbind fst snd]. rewrite IHl by assumption. reflexivity. }
  rewrite HT. cbn [mbind fst snd]. rewrite <- (map_map sv (vec batch)).
  rewrite (vfun_ok o td A dflt batch tdb K tp xt Htm) by exact (lin_head o _ _ _ _ Hf). cbn [mbind]. f_equal. f_equal. apply vec_ext.
  intros l _. rewrite map_map. reflexivity.
Qed.
End Ev.
