(* What the code of the elements reads. *)
From Coq Require Import String Bool ZArith ZifyNat Arith List Lia.
From Verif Require Import M_Expr M_Dag M_Dec S_Dec P_Dec M_Taylor P_Tay1.
Import ListNotations.
Set Bullet Behavior "Strict Subproofs".
Local Opaque Nat.div.
Local Ltac Zify.zify_post_hook ::= Z.to_euclidean_division_equations.

Section Reads.
Context (o : nops).
Local Notation ex := (expr (num o)).
Local Notation elt := (expr (num o) * list nat)%type.

(* The sums of a decomposition have arguments. *)
Definition sum_fine (f : fid (num o)) (args : list ex) : Prop :=
  match f with Fsum | Fsumsq => args <> [] | _ => True end.

Lemma odd_pos n : Nat.odd n = true -> 1 <= n.
Proof. destruct n; [discriminate | lia]. Qed.
Lemma even_ge2 n : Nat.odd n = false -> n <> 0 -> 2 <= n.
Proof. destruct n as [|[|n]]; [congruence | discriminate | lia]. Qed.

Ltac step1 :=
  match goal with
  | |- True => exact I
  | |- _ /\ _ => split
  | |- code_ok _ (psum _ _ _ _) => apply psum_ok; [lia | intros ? ?]
  | |- code_ok _ (if Nat.eqb ?a ?b then _ else _) => destruct (Nat.eqb_spec a b)
  | |- code_ok _ (if Nat.ltb ?a ?b then _ else _) => destruct (Nat.ltb_spec a b)
  | |- code_ok _ (if Nat.leb ?a ?b then _ else _) => destruct (Nat.leb_spec a b)
  | |- code_ok _ (if ?b then _ else _) => destruct b eqn:?
  | |- code_ok _ (ld _ _ _) => cbn [ld code_ok]; unfold avail; lia
  | |- code_ok _ (TLd _ _) => cbn [code_ok]; unfold avail; lia
  | H : code_ok (fun _ _ => False) ?c |- code_ok _ ?c => exact (code_ok_impl (fun _ _ => False) _ (fun _ _ HF => match HF with end) c H)
  | H : code_ok (fun _ _ => False) ?c |- code_ok _ (at_ord _ ?m (AC ?c)) => cbn [at_ord]
  | |- code_ok _ (at_ord _ _ (AU _)) => cbn [at_ord code_ok]; unfold avail; lia
  | |- code_ok _ (TLoop _ _ _) => cbn [code_ok]; intros ? ?
  | |- code_ok _ _ => progress cbn [code_ok allof fold_right fac zero sq_mid sq_terms csq_acc csq_mid]
  | |- _ <> [] => discriminate
  | |- avail _ _ _ _ _ => unfold avail; lia
  | |- forall _ : nat, _ => intros ? ?
  | |- allof _ _ => cbn [allof map]
  end.
Ltac cok := repeat step1.
Ltac rsv Hi :=
  repeat match goal with
  | H : context [match resolve ?o ?x with _ => _ end] |- _ =>
      let E := fresh "E" in
      destruct (resolve o x) as [[?|?]|] eqn:E; try discriminate
  | H : context [tunary ?o ?f ?x] |- _ => unfold tunary in H
  | H : context [cunary ?o ?f ?x] |- _ => unfold cunary in H
  end.
Ltac fin := 
  repeat match goal with
  | H : resolve ?o ?x = Some ?r, Ha : arg_ok ?i ?x |- _ =>
      let nu := match goal with Hi : i <= ?nu |- _ => nu end in
      apply (resolve_ok o nu i x r) in H; [|assumption | exact Ha]
  end;
  cbn [targ_ok] in *;
  match goal with H : Some _ = Some ?c |- _ => injection H as <- end.

Section Fun.
Context (nu n i s : nat) (Hi : i <= nu).

Lemma t_unary_ok u (x : ex) deps c : arg_ok i x -> Forall (fun d => d < nu) deps -> s < nu ->
  t_unary o u x deps n s = Some c -> code_ok (avail nu n i) c.
Proof.
  intros Hx Hd Hlt H. destruct deps as [|d [|d' r]]; destruct u; cbn [t_unary dep0 dep1] in H; try discriminate;
    try (inversion Hd; subst); rsv Hi; fin;
    unfold d_exp, d_log, d_trig, d_cos, d_tan, d_tanh, d_sigmoid, d_asin, d_acos, d_atan, d_atanh, d_erf; cok.
Qed.
Lemma c_unary_ok u (x : ex) deps c : arg_ok i x -> Forall (fun d => d < nu) deps -> s < nu ->
  c_unary o u x deps n s = Some c -> code_ok (avail nu n i) c.
Proof.
  intros Hx Hd Hlt H. destruct deps as [|d [|d' r]]; destruct u; cbn [c_unary dep0 dep1] in H; try discriminate;
    try (inversion Hd; subst); rsv Hi; fin;
    unfold c_exp, c_log, c_trig, c_cos, c_tan, c_tanh, c_sigmoid, c_asin, c_acos, c_atan, c_atanh, c_erf; cok.
Qed.
Lemma pieces_ok (F : targ o -> tex (num o)) (l : list (targ o)) : (forall a, targ_ok o nu i a -> code_ok (avail nu n i) (F a)) ->
  Forall (targ_ok o nu i) l -> allof (code_ok (avail nu n i)) (map F l).
Proof. intros HF Hl. apply allof_Forall, Forall_map. rewrite Forall_forall in *. auto. Qed.
Lemma nonempty_map {B C} (F : B -> C) l : l <> [] -> map F l <> [].
Proof. destruct l; [congruence | discriminate]. Qed.
Lemma resolved (args : list ex) l : Forall (arg_ok i) args -> resolve_all o args = Some l ->
  Forall (targ_ok o nu i) l /\ (args <> [] -> l <> []).
Proof.
  intros H E. destruct (resolve_all_ok o nu i args l Hi H E) as [H1 H2]. split; [exact H1|].
  intros Hn ->. destruct args; [congruence | discriminate].
Qed.
Lemma t_sum_ok (args : list ex) c : Forall (arg_ok i) args -> args <> [] -> t_sum o args n = Some c -> code_ok (avail nu n i) c.
Proof.
  intros Ha Hn H. unfold t_sum in H. destruct (resolve_all o args) as [l|] eqn:E; [|discriminate]. injection H as <-.
  destruct (resolved args l Ha E) as [Hl Hl']. cbn [code_ok]. split; [now apply nonempty_map, Hl'|].
  apply pieces_ok; [|exact Hl]. intros a H. now apply (at_ord_ok o nu).
Qed.
Lemma t_sumsq_ok (args : list ex) c : Forall (arg_ok i) args -> args <> [] -> t_sumsq o args n = Some c -> code_ok (avail nu n i) c.
Proof.
  intros Ha Hn H. unfold t_sumsq in H. destruct (resolve_all o args) as [l|] eqn:E; [|discriminate]. injection H as <-.
  destruct (resolved args l Ha E) as [Hl Hl']. destruct (Nat.odd n) eqn:En; cbv zeta; cbn [code_ok].
  - pose proof (odd_pos n En).
    assert (G : map (sq_terms o n ((n - 1) / 2)) l <> [] /\ allof (code_ok (avail nu n i)) (map (sq_terms o n ((n - 1) / 2)) l)); [|now split].
    split; [now apply nonempty_map, Hl'|]. apply pieces_ok; [|exact Hl]. intros [j|k] H0; cbn [targ_ok] in H0; cok.
  - split; [now apply nonempty_map, Hl'|]. apply pieces_ok; [|exact Hl]. intros [j|k] H0; cbn [targ_ok] in H0; pose proof (even_ge2 n En); cok.
Qed.
Lemma c_sumsq_ok (args : list ex) c : Forall (arg_ok i) args -> args <> [] -> c_sumsq o args n = Some c -> code_ok (avail nu n i) c.
Proof.
  intros Ha Hn H. unfold c_sumsq in H. destruct (resolve_all o args) as [l|] eqn:E; [|discriminate]. injection H as <-.
  destruct (resolved args l Ha E) as [Hl Hl']. destruct (Nat.odd n) eqn:En; cbv zeta; cbn [code_ok].
  - pose proof (odd_pos n En).
    assert (G : map (csq_acc o n ((n - 1) / 2 + 1)) l <> [] /\ allof (code_ok (avail nu n i)) (map (csq_acc o n ((n - 1) / 2 + 1)) l)); [|now split].
    split; [now apply nonempty_map, Hl'|]. apply pieces_ok; [|exact Hl]. intros [j|k] H0; cbn [targ_ok] in H0; cok.
  - split; [now apply nonempty_map, Hl'|]. apply pieces_ok; [|exact Hl]. intros [j|k] H0; cbn [targ_ok] in H0; pose proof (even_ge2 n En); cok.
Qed.
Lemma t_flat_ok f (args : list ex) c : Forall (arg_ok i) args -> t_flat o f args n = Some c -> code_ok (avail nu n i) c.
Proof.
  intros Ha H. unfold t_flat in H. destruct (resolve_all o args) as [l|] eqn:E; [|discriminate]. injection H as <-.
  destruct (resolved args l Ha E) as [Hl _]. cok. apply pieces_ok; [|exact Hl]. intros a H. apply (at_ord_ok o nu); [exact H | lia].
Qed.
Lemma t_pow_ok (x y : ex) c : arg_ok i x -> arg_ok i y -> s < nu -> t_pow o x y n s = Some c -> code_ok (avail nu n i) c.
Proof.
  intros Hx Hy Hlt H. unfold t_pow in H. rsv Hi; fin; unfold d_sqrt, d_square, d_pow; cbv zeta.
  - destruct (Nat.eqb_spec n 0); [cok|]. destruct (is_sqrt o y).
    + destruct (Nat.odd n) eqn:En; [pose proof (odd_pos n En) | pose proof (even_ge2 n En)]; cok.
    + destruct (is_square o y); [|cok]. destruct (Nat.odd n) eqn:En; [pose proof (odd_pos n En) | pose proof (even_ge2 n En)]; cok.
  - cok.
Qed.
Lemma c_pow_ok (x y : ex) c : arg_ok i x -> arg_ok i y -> s < nu -> c_pow o x y n s = Some c -> code_ok (avail nu n i) c.
Proof.
  intros Hx Hy Hlt H. unfold c_pow in H. rsv Hi; fin; unfold c_sqrt, c_square, c_pow_; cbv zeta.
  - destruct (Nat.eqb_spec n 0); [cok|]. destruct (is_sqrt o y).
    + rewrite <- Nat.negb_odd. destruct (Nat.odd n) eqn:En; cbn [negb]; [pose proof (odd_pos n En) | pose proof (even_ge2 n En)]; cok.
    + destruct (is_square o y); [|cok]. destruct (Nat.odd n) eqn:En; [pose proof (odd_pos n En) | pose proof (even_ge2 n En)]; cok.
  - cok.
Qed.
Lemma t_other_ok (x y : ex) c : arg_ok i x -> arg_ok i y -> s < nu ->
  (t_prod o x y n = Some c \/ t_sub_ o x y n = Some c \/ t_div_ o x y n s = Some c) -> code_ok (avail nu n i) c.
Proof. intros Hx Hy Hlt [H|[H|H]]; [unfold t_prod in H | unfold t_sub_ in H | unfold t_div_ in H]; rsv Hi; fin; cok.
Qed.
Lemma c_other_ok (x y : ex) c : arg_ok i x -> arg_ok i y -> s < nu ->
  (c_prod o x y n = Some c \/ c_sub_ o x y n = Some c \/ c_div_ o x y n s = Some c) -> code_ok (avail nu n i) c.
Proof. intros Hx Hy Hlt [H|[H|H]]; [unfold c_prod in H | unfold c_sub_ in H | unfold c_div_ in H]; rsv Hi; fin; cok. Qed.
Lemma atan2_ok (y x : ex) deps c : arg_ok i x -> arg_ok i y -> Forall (fun d => d < nu) deps -> s < nu ->
  (t_atan2 o y x deps n s = Some c \/ c_atan2 o y x deps n s = Some c) -> code_ok (avail nu n i) c.
Proof.
  intros Hx Hy Hd Hlt H. destruct deps as [|d [|d' r]]; cbn [t_atan2 c_atan2 dep1] in H; try (destruct H; discriminate).
  inversion Hd; subst. destruct H as [H|H]; rsv Hi; fin; cbv zeta; cok.
Qed.
Lemma kepE_ok (e M : ex) deps c : arg_ok i e -> arg_ok i M -> Forall (fun d => d < nu) deps -> s < nu ->
  (t_kepE o e M deps n s = Some c \/ c_kepE o e M deps n s = Some c) -> code_ok (avail nu n i) c.
Proof.
  intros Hx Hy Hd Hlt H. destruct deps as [|d [|d' [|d'' r]]]; cbn [t_kepE c_kepE] in H; try (destruct H; discriminate).
  inversion Hd as [|? ? ? Hd1]; subst. inversion Hd1; subst. destruct H as [H|H]; rsv Hi; fin; cbv zeta; cok.
Qed.
Lemma kepF_ok (h k l : ex) deps c : arg_ok i h -> arg_ok i k -> arg_ok i l -> Forall (fun d => d < nu) deps -> s < nu ->
  (t_kepF o h k l deps n s = Some c \/ c_kepF o h k l deps n s = Some c) -> code_ok (avail nu n i) c.
Proof.
  intros Hx Hy Hz Hd Hlt H.
  destruct deps as [|d [|d' [|d'' [|d3 [|d4 r]]]]]; cbn [t_kepF c_kepF] in H; try (destruct H; discriminate).
  inversion Hd as [|? ? ? Hd1]; subst. inversion Hd1 as [|? ? ? Hd2]; subst. inversion Hd2 as [|? ? ? Hd3]; subst. inversion Hd3; subst.
  destruct H as [H|H]; rsv Hi; fin; cbv zeta; cok.
Qed.
Lemma relu_ok sl (x : ex) c : arg_ok i x -> s < nu -> (t_relu o sl x n = Some c \/ c_relu o sl x n = Some c) -> code_ok (avail nu n i) c.
Proof.
  intros Hx Hlt H. destruct H as [H|H]; unfold t_relu, c_relu in H; rsv Hi; fin; cok.
Qed.
Lemma select_ok (x y z : ex) c : arg_ok i x -> arg_ok i y -> arg_ok i z ->
  (t_select o x y z n = Some c \/ c_select o x y z n = Some c) -> code_ok (avail nu n i) c.
Proof.
  intros Hx Hy Hz H. assert (H' : t_select o x y z n = Some c) by (destruct H; assumption). clear H. unfold t_select in H'. rsv Hi; fin; cok.
Qed.
End Fun.

Ltac args2 := repeat match goal with H : Forall (arg_ok _) (_ :: _) |- _ => inversion H; subst; clear H end.
Lemma dep0_some deps k (c : tex (num o)) : dep0 o deps k = Some c -> k = Some c.
Proof. destruct deps; [auto | discriminate]. Qed.
Lemma tdiff_ok nu n i s f (args : list ex) deps c : i <= nu -> s < nu -> Forall (arg_ok i) args -> Forall (fun d => d < nu) deps ->
  sum_fine f args -> tdiff o f args deps n s = Some c -> code_ok (avail nu n i) c.
Proof.
  intros Hi' Hi Ha Hd Hs H.
  destruct f; cbn [tdiff] in H; cbn [sum_fine] in Hs.
  - apply dep0_some in H. eapply t_sum_ok; eauto.
  - destruct args as [|x [|y [|]]]; try discriminate. apply dep0_some in H. args2. eapply t_other_ok with (x := x) (y := y); eauto.
  - destruct args as [|x [|y [|]]]; try discriminate. apply dep0_some in H. args2. eapply t_pow_ok with (x := x) (y := y); eauto.
  - destruct args as [|x [|y [|]]]; try discriminate. apply dep0_some in H. args2. eapply t_other_ok with (x := x) (y := y); eauto.
  - destruct args as [|x [|y [|]]]; try discriminate. apply dep0_some in H. args2. eapply t_other_ok with (x := x) (y := y); eauto.
  - apply dep0_some in H. eapply t_sumsq_ok; eauto.
  - destruct args as [|[x| | |] [|]]; try discriminate. apply dep0_some in H. eapply t_flat_ok; eauto.
  - destruct args as [|x [|]]; try discriminate. args2. eapply t_unary_ok; eauto.
  - destruct args as [|x [|y [|]]]; try discriminate. args2. eapply (atan2_ok nu n i s Hi' x y); eauto.
  - destruct args as [|x [|]]; try discriminate. apply dep0_some in H. args2. eapply relu_ok; eauto.
  - destruct args as [|x [|]]; try discriminate. apply dep0_some in H. eapply t_flat_ok; eauto.
  - destruct args as [|x [|y [|z [|]]]]; try discriminate. apply dep0_some in H. args2. eapply (select_ok nu n i Hi' x y z); eauto.
  - destruct args as [|x [|y [|]]]; try discriminate. apply dep0_some in H. eapply t_flat_ok; eauto.
  - apply dep0_some in H. eapply t_flat_ok; eauto.
  - apply dep0_some in H. eapply t_flat_ok; eauto.
  - destruct args as [|x [|y [|]]]; try discriminate. args2. eapply (kepE_ok nu n i s Hi' x y); eauto.
  - destruct args as [|x [|y [|z [|]]]]; try discriminate. args2. eapply (kepF_ok nu n i s Hi' x y z); eauto.
  - discriminate.
  - destruct args; try discriminate. apply dep0_some in H. injection H as <-. unfold t_time. cok.
  - destruct args; try discriminate. apply dep0_some in H. eapply t_flat_ok; eauto.
  - discriminate.
  - discriminate.
Qed.
Lemma cdiff_ok nu n i s f (args : list ex) deps c : i <= nu -> s < nu -> Forall (arg_ok i) args -> Forall (fun d => d < nu) deps ->
  sum_fine f args -> cdiff o f args deps n s = Some c -> code_ok (avail nu n i) c.
Proof.
  intros Hi' Hi Ha Hd Hs H.
  destruct f; cbn [cdiff] in H; cbn [sum_fine] in Hs.
  - apply dep0_some in H. eapply t_sum_ok; eauto.
  - destruct args as [|x [|y [|]]]; try discriminate. apply dep0_some in H. args2. eapply c_other_ok with (x := x) (y := y); eauto.
  - destruct args as [|x [|y [|]]]; try discriminate. apply dep0_some in H. args2. eapply c_pow_ok with (x := x) (y := y); eauto.
  - destruct args as [|x [|y [|]]]; try discriminate. apply dep0_some in H. args2. eapply c_other_ok with (x := x) (y := y); eauto.
  - destruct args as [|x [|y [|]]]; try discriminate. apply dep0_some in H. args2. eapply c_other_ok with (x := x) (y := y); eauto.
  - apply dep0_some in H. eapply c_sumsq_ok; eauto.
  - destruct args as [|[x| | |] [|]]; try discriminate. apply dep0_some in H. eapply t_flat_ok; eauto.
  - destruct args as [|x [|]]; try discriminate. args2. eapply c_unary_ok; eauto.
  - destruct args as [|x [|y [|]]]; try discriminate. args2. eapply (atan2_ok nu n i s Hi' x y); eauto.
  - destruct args as [|x [|]]; try discriminate. apply dep0_some in H. args2. eapply relu_ok; eauto.
  - destruct args as [|x [|]]; try discriminate. apply dep0_some in H. eapply t_flat_ok; eauto.
  - destruct args as [|x [|y [|z [|]]]]; try discriminate. apply dep0_some in H. args2. eapply (select_ok nu n i Hi' x y z); eauto.
  - destruct args as [|x [|y [|]]]; try discriminate. apply dep0_some in H. eapply t_flat_ok; eauto.
  - apply dep0_some in H. eapply t_flat_ok; eauto.
  - apply dep0_some in H. eapply t_flat_ok; eauto.
  - destruct args as [|x [|y [|]]]; try discriminate. args2. eapply (kepE_ok nu n i s Hi' x y); eauto.
  - destruct args as [|x [|y [|z [|]]]]; try discriminate. args2. eapply (kepF_ok nu n i s Hi' x y z); eauto.
  - discriminate.
  - destruct args; try discriminate. apply dep0_some in H. injection H as <-. unfold c_time. cok.
  - destruct args; try discriminate. apply dep0_some in H. eapply t_flat_ok; eauto.
  - discriminate.
  - discriminate.
Qed.
Lemma sv_code_ok nu n (out : ex) i c : arg_ok nu out -> 1 <= n -> sv_code o out n = Some c -> code_ok (avail nu n i) c.
Proof.
  intros Ha Hn H. unfold sv_code in H. destruct (resolve o out) as [[j|k]|] eqn:E; [| |discriminate];
    apply (resolve_ok o nu nu out _ (le_n _) Ha) in E; injection H as <-; cbn [targ_ok] in E; cok.
Qed.
End Reads.
