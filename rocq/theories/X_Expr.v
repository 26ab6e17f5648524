(* Two concrete kinds of numbers meeting the laws of S_Expr.v, for the examples:
   real numbers (all laws) and rational numbers (computable; ring laws). *)
From Coq Require Import String Bool ZArith QArith Qreals Reals List Lra Lia.
From Verif Require Import M_Expr S_Expr P_ExprSem.
Import ListNotations.
Local Open Scope R_scope.

Definition dec2b {P : Prop} (d : {P} + {~ P}) : bool := if d then true else false.
Lemma dec2b_true {P : Prop} (d : {P} + {~ P}) : dec2b d = true <-> P.
Proof. destruct d; simpl; split; auto; discriminate. Qed.

Definition odflt (x : option R) : R := match x with Some v => v | None => 0 end.

Definition rnum : nops :=
  mkNops R IZR (fun z => IZR z / 2) Rplus Rminus Rmult Rdiv Ropp
    (fun a b => odflt (rpow a b)) (fun u a => odflt (usem u a)) ratan2
    (fun z a => dec2b (Req_EM_T a (IZR z))) (fun a => dec2b (Rlt_dec a 0)) (fun a => dec2b (Rlt_dec 0 a))
    rint (fun a => match rint (2 * a) with
                   | Some z => if Z.odd z then Some z else None
                   | None => None
                   end)
    (fun _ => 0) (fun _ => EmptyString).

Lemma rnum_laws : nlaws rnum (fun x => x).
Proof.
  split.
  - split; try reflexivity; cbn.
    + intros z a. apply dec2b_true.
    + intros a. apply dec2b_true.
    + intros a. apply dec2b_true.
    + intros a z. apply rint_some.
    + intros a z. destruct (rint (2 * a)) as [w|] eqn:E; [|discriminate].
      destruct (Z.odd w); [|discriminate]. intros H. injection H as ->.
      apply rint_some in E. lra.
  - split; try reflexivity; cbn.
    + intros a b v ->. reflexivity.
    + intros u a v ->. reflexivity.
Qed.

(* Rational numbers; the functions which leave the rationals are arbitrary. *)
Definition qint (a : Q) : option Z := if (Qden (Qred a) =? 1)%positive then Some (Qnum (Qred a)) else None.
Definition qnum : nops :=
  mkNops Q inject_Z (fun z => Qmake z 2) Qplus Qminus Qmult Qdiv Qopp
    (fun a b => match qint b with Some z => Qpower a z | None => a end)
    (fun _ a => a) (fun a _ => a)
    (fun z a => Qeq_bool a (inject_Z z)) (fun a => negb (Qle_bool 0 a)) (fun a => negb (Qle_bool a 0))
    qint (fun a => match qint (2 * a) with
                   | Some z => if Z.odd z then Some z else None
                   | None => None
                   end)
    (fun _ => 0%Q) (fun _ => EmptyString).

Lemma Q2R_inj z : Q2R (inject_Z z) = IZR z.
Proof. unfold Q2R. simpl. lra. Qed.
Lemma qint_ok a z : qint a = Some z -> Q2R a = IZR z.
Proof.
  unfold qint. destruct (Pos.eqb_spec (Qden (Qred a)) 1) as [E|]; [|discriminate].
  intros H. injection H as <-.
  rewrite <- (Qeq_eqR _ _ (Qred_correct a)). unfold Q2R. rewrite E. simpl. lra.
Qed.
Lemma qle0 a b : Qle_bool a b = true <-> Q2R a <= Q2R b.
Proof. rewrite Qle_bool_iff. split; [apply Qle_Rle | apply Rle_Qle]. Qed.
Lemma qnum_ring : nring qnum Q2R.
Proof.
  split; cbn; try reflexivity.
  - apply Q2R_inj.
  - apply Q2R_plus.
  - apply Q2R_minus.
  - apply Q2R_mult.
  - apply Q2R_opp.
  - intros z a. rewrite Qeq_bool_iff, <- Q2R_inj. split; [apply Qeq_eqR | apply eqR_Qeq].
  - intros a. rewrite negb_true_iff, <- not_true_iff_false, qle0.
    change (Q2R 0) with (Q2R (inject_Z 0)). rewrite Q2R_inj. lra.
  - intros a. rewrite negb_true_iff, <- not_true_iff_false, qle0.
    change (Q2R 0) with (Q2R (inject_Z 0)). rewrite Q2R_inj. lra.
  - apply qint_ok.
  - intros a z. destruct (qint (2 * a)) as [w|] eqn:E; [|discriminate].
    destruct (Z.odd w); [|discriminate]. intros H. injection H as ->.
    apply qint_ok in E. rewrite Q2R_mult in E. change (Q2R 2) with (Q2R (inject_Z 2)) in E.
    rewrite Q2R_inj in E. lra.
  - intros _. change (Q2R 0) with (Q2R (inject_Z 0)). apply Q2R_inj.
Qed.

(* An environment for the examples: x = 3, y = -2, par[0] = 5, t = 7. *)
Definition xenv : env :=
  mkEnv (fun s => if String.eqb s "x" then Some 3 else if String.eqb s "y" then Some (-2) else None)
        (fun i => match i with 0%nat => Some 5 | _ => None end)
        (Some 7) (fun _ _ _ => None) (fun _ _ => None).
