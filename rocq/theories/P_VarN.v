(* The names of the derivatives are distinct. *)
From Coq Require Import String Ascii Bool ZArith NArith Arith DecimalString Decimal DecimalNat List Lia.
From Verif Require Import M_Var.
Import ListNotations.
Local Open Scope nat_scope.
Set Bullet Behavior "Strict Subproofs".

(* A character is not in a string. *)
Fixpoint noc (c : ascii) (s : string) : Prop :=
  match s with EmptyString => True | String a r => a <> c /\ noc c r end.
Lemma noc_app c a b : noc c a -> noc c b -> noc c (a ++ b)%string.
Proof. induction a as [|x a IH]; cbn; [auto|]. intros [H1 H2] H. auto. Qed.
Lemma noc_app_inv c a b : noc c (a ++ b)%string -> noc c a /\ noc c b.
Proof. induction a as [|x a IH]; cbn; [auto|]. intros [H1 H2]. destruct (IH H2). auto. Qed.
(* Two strings cut at the first occurrence of a character. *)
Lemma cut c a b x y : noc c a -> noc c b -> (a ++ String c x = b ++ String c y)%string -> a = b /\ x = y.
Proof.
  revert b. induction a as [|u a IH]; intros [|w b] Ha Hb E; cbn in *.
  - injection E as ->. auto.
  - injection E as E _. destruct Hb as [Hb _]. congruence.
  - injection E as E _. destruct Ha as [Ha _]. congruence.
  - injection E as -> E. destruct (IH b (proj2 Ha) (proj2 Hb) E) as [-> ->]. auto.
Qed.
Lemma app_assoc_s (a b c : string) : ((a ++ b) ++ c = a ++ (b ++ c))%string.
Proof. induction a; cbn; [auto|]. now rewrite IHa. Qed.

Definition digit (c : ascii) : Prop := In c ["0"; "1"; "2"; "3"; "4"; "5"; "6"; "7"; "8"; "9"]%char.
Lemma noc_num c n : ~ digit c -> noc c (fmt_num n).
Proof.
  intros H. unfold fmt_num. induction (Nat.to_uint n) as [|u IH|u IH|u IH|u IH|u IH|u IH|u IH|u IH|u IH|u IH]; cbn [NilEmpty.string_of_uint noc]; auto;
    (split; [intros <-; apply H; unfold digit; cbn; tauto | exact IH]).
Qed.
Lemma num_inj n m : fmt_num n = fmt_num m -> n = m.
Proof.
  unfold fmt_num. intros E. assert (K : Some (Nat.to_uint n) = Some (Nat.to_uint m)) by (rewrite <- !NilEmpty.usu; now rewrite E).
  injection K as K. rewrite <- (Unsigned.of_to n), <- (Unsigned.of_to m). now rewrite K.
Qed.
Lemma not_digit c : c = ","%char \/ c = ")"%char \/ c = "]"%char -> ~ digit c.
Proof. intros H D. unfold digit in D. cbn in D. destruct H as [H|[H|H]]; subst c; repeat (destruct D as [D|D]; [discriminate D|]); exact D. Qed.
Lemma pair_cut p q x y : (fmt_pair p ++ x = fmt_pair q ++ y)%string -> p = q /\ x = y.
Proof.
  destruct p as [i k], q as [i' k']. unfold fmt_pair. cbn [fst snd]. rewrite !app_assoc_s. cbn [append]. intros E. injection E as E.
  change (fmt_num i ++ String "," (" " ++ fmt_num k ++ String ")" x) = fmt_num i' ++ String "," (" " ++ fmt_num k' ++ String ")" y))%string in E.
  apply cut in E; [|apply noc_num, not_digit; auto | apply noc_num, not_digit; auto]. destruct E as [E1 E]. cbn [append] in E. injection E as E.
  apply cut in E; [|apply noc_num, not_digit; auto | apply noc_num, not_digit; auto]. destruct E as [E2 ->]. apply num_inj in E1, E2. subst. auto.
Qed.
Lemma body_inj l l' : String.concat ", " (map fmt_pair l) = String.concat ", " (map fmt_pair l') -> l = l'.
Proof.
  assert (K : forall p r, String.concat ", " (map fmt_pair (p :: r)) = (fmt_pair p ++ match r with [] => "" | _ => ", " ++ String.concat ", " (map fmt_pair r) end)%string).
  { intros p [|q r]; cbn [map String.concat]; [|reflexivity]. clear. induction (fmt_pair p); cbn; congruence. }
  assert (Z : forall p r, String.concat ", " (map fmt_pair (p :: r)) <> ""%string) by (intros p r; rewrite K; discriminate).
  revert l'. induction l as [|p r IH]; intros [|q r'] E; [reflexivity | symmetry in E; now apply Z in E | now apply Z in E|].
  rewrite !K in E. apply pair_cut in E. destruct E as [-> E]. f_equal. destruct r as [|p1 r1], r' as [|q1 r2]; try reflexivity; try discriminate E.
  apply IH. cbn [append] in E. injection E as E. exact E.
Qed.
Lemma body_noc l : noc "]" (String.concat ", " (map fmt_pair l)).
Proof.
  assert (P : forall p, noc "]" (fmt_pair p)).
  { intros p. unfold fmt_pair. repeat apply noc_app; try (apply noc_num, not_digit; auto); cbn; repeat split; discriminate. }
  induction l as [|p [|q r] IH]; [exact I | exact (P p)|]. change (noc "]" (fmt_pair p ++ ", " ++ String.concat ", " (map fmt_pair (q :: r)))). apply noc_app; [apply P|]. apply noc_app; [cbn; repeat split; discriminate | exact IH].
Qed.
(* The derivative and the variable are determined by the name. *)
Lemma partial_inj d s d' s' : partial_name d s = partial_name d' s' -> d = d' /\ s = s'.
Proof.
  unfold partial_name, fmt_didx. rewrite !app_assoc_s. cbn [append]. intros E. injection E as E.
  change (String.concat ", " (map fmt_pair d) ++ String "]" s = String.concat ", " (map fmt_pair d') ++ String "]" s')%string in E.
  apply cut in E; [|apply body_noc | apply body_noc]. destruct E as [E ->]. apply body_inj in E. auto.
Qed.
Lemma prefix_app (p s : string) : String.prefix p (p ++ s) = true.
Proof. induction p as [|c p IH]; cbn; [now destruct s|]. destruct (ascii_dec c c); [exact IH | congruence]. Qed.
Lemma prefix_ex (p s : string) : String.prefix p s = true <-> exists t, s = (p ++ t)%string.
Proof.
  split; [|intros [t ->]; apply prefix_app]. revert s. induction p as [|c p IH]; intros s H; [exists s; reflexivity|].
  destruct s as [|a s]; [discriminate|]. cbn in H. destruct (ascii_dec c a) as [->|]; [|discriminate]. destruct (IH s H) as [t ->]. now exists t.
Qed.
Lemma app_inj_r (a b c : string) : (a ++ c = b ++ c)%string -> a = b.
Proof.
  assert (Ll : forall a c, String.length (a ++ c) = String.length a + String.length c) by (intros x c0; induction x; cbn; [auto|lia]).
  revert b. induction a as [|x a IH]; intros [|y b] E; [reflexivity | | |].
  - assert (K := f_equal String.length E). rewrite !Ll in K. cbn in K. lia.
  - assert (K := f_equal String.length E). rewrite !Ll in K. cbn in K. lia.
  - cbn in E. injection E as -> E. f_equal. auto.
Qed.
Lemma ic_inj s s' : ic_name s = ic_name s' -> s = s'.
Proof. unfold ic_name. cbn [append]. intros E. injection E as E. now apply app_inj_r in E. Qed.
(* The name of the initial time is that of the initial value of the variable __t, which is
   reserved. *)
Lemma ic_t0 s : ic_name s = t0_name -> s = "__t"%string.
Proof. intros E. apply ic_inj. exact E. Qed.
