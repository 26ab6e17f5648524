(* The lexicographic order on strings. *)
From Coq Require Import String Ascii Bool NArith List Lia.
Import ListNotations.

Lemma ascii_cmp_eq a b : Ascii.compare a b = Eq <-> a = b.
Proof.
  split.
  - apply Ascii.compare_eq_iff.
  - intros ->. unfold Ascii.compare. apply N.compare_refl.
Qed.
Lemma ascii_cmp_trans a b c : Ascii.compare a b = Lt -> Ascii.compare b c = Lt -> Ascii.compare a c = Lt.
Proof. unfold Ascii.compare. rewrite !N.compare_lt_iff. lia. Qed.

Lemma str_cmp_refl s : String.compare s s = Eq.
Proof.
  induction s as [|a s IH]; [reflexivity|]. simpl.
  rewrite (proj2 (ascii_cmp_eq a a) eq_refl). exact IH.
Qed.
Lemma str_cmp_eq s t : String.compare s t = Eq <-> s = t.
Proof. split; [apply String.compare_eq_iff | intros ->; apply str_cmp_refl]. Qed.
Lemma str_cmp_trans : forall s t u, String.compare s t = Lt -> String.compare t u = Lt -> String.compare s u = Lt.
Proof.
  induction s as [|a s IH]; intros [|b t] [|c u]; simpl; try discriminate; auto.
  destruct (Ascii.compare a b) eqn:E1; try discriminate.
  - apply ascii_cmp_eq in E1. subst b. destruct (Ascii.compare a c) eqn:E2; try discriminate; auto.
    apply IH.
  - intros _. destruct (Ascii.compare b c) eqn:E2; try discriminate.
    + apply ascii_cmp_eq in E2. subst c. rewrite E1. reflexivity.
    + rewrite (ascii_cmp_trans _ _ _ E1 E2). reflexivity.
Qed.

Lemma str_ltb_irrefl s : String.ltb s s = false.
Proof. unfold String.ltb. now rewrite str_cmp_refl. Qed.
Lemma str_ltb_trans s t u : String.ltb s t = true -> String.ltb t u = true -> String.ltb s u = true.
Proof.
  unfold String.ltb. destruct (String.compare s t) eqn:E1; try discriminate.
  destruct (String.compare t u) eqn:E2; try discriminate. intros _ _.
  now rewrite (str_cmp_trans _ _ _ E1 E2).
Qed.
Lemma str_ltb_total s t : String.ltb s t = false -> String.ltb t s = false -> s = t.
Proof.
  unfold String.ltb. rewrite (String.compare_antisym t s).
  destruct (String.compare s t) eqn:E; simpl; try discriminate. intros _ _. now apply str_cmp_eq.
Qed.
