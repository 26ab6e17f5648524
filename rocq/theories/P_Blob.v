(** Proofs about the blob codec. *)
From Coq Require Import List NArith Ascii Bool Lia Arith.
From Verif Require Import M_Blob.
Import ListNotations.
Local Open Scope N_scope.

Lemma bytes_eqb_eq : forall a b, bytes_eqb a b = true <-> a = b.
Proof.
  induction a as [|x a IH]; destruct b as [|y b]; simpl; split; intros H; try easy.
  - apply andb_prop in H as [H1 H2]. apply Ascii.eqb_eq in H1. apply IH in H2. congruence.
  - inversion H; subst. unfold ascii_eqb. rewrite Ascii.eqb_refl. apply IH. reflexivity.
Qed.

Lemma le_bytes_length : forall k n, length (le_bytes k n) = k.
Proof. induction k; intros; simpl; auto. Qed.

Lemma le_value_bytes : forall k n, n < 256 ^ N.of_nat k -> le_value (le_bytes k n) = n.
Proof.
  induction k as [|k IH]; intros n Hn.
  - simpl in Hn. simpl. lia.
  - cbn [le_bytes le_value]. rewrite N_ascii_embedding by (apply N.mod_lt; lia).
    rewrite IH.
    + rewrite (N.div_mod n 256) at 3 by lia. lia.
    + rewrite Nat2N.inj_succ, N.pow_succ_r' in Hn.
      apply N.div_lt_upper_bound; lia.
Qed.

(** Every string whose length fits the uint64_t prefix. *)
Definition len_ok (s : bytes) : Prop := N.of_nat (length s) < 2 ^ 64.

Lemma le_value_len : forall s, len_ok s -> le_value (le_bytes len_size (N.of_nat (length s))) = N.of_nat (length s).
Proof. intros s H. apply le_value_bytes. exact H. Qed.

Lemma ser_head : forall s vs,
  firstn len_size (ser_buf (s :: vs)) = le_bytes len_size (N.of_nat (length s)) /\
  skipn len_size (ser_buf (s :: vs)) = s ++ ser_buf vs /\
  (len_size <= length (ser_buf (s :: vs)))%nat.
Proof.
  intros s vs. cbn [ser_buf].
  assert (L := le_bytes_length len_size (N.of_nat (length s))).
  set (p := le_bytes len_size (N.of_nat (length s))) in *.
  split; [|split].
  - replace len_size with (length p) by exact L. rewrite firstn_app, Nat.sub_diag, firstn_all. change (firstn 0 (s ++ ser_buf vs)) with (@nil ascii). apply app_nil_r.
  - replace len_size with (length p) by exact L. rewrite skipn_app, Nat.sub_diag, skipn_all. reflexivity.
  - rewrite app_length, L. lia.
Qed.

Lemma firstn_len_app : forall (s t : bytes), firstn (N.to_nat (N.of_nat (length s))) (s ++ t) = s.
Proof. intros. rewrite Nat2N.id, firstn_app, Nat.sub_diag, firstn_all. simpl. apply app_nil_r. Qed.

Lemma skipn_len_app : forall (s t : bytes), skipn (N.to_nat (N.of_nat (length s))) (s ++ t) = t.
Proof. intros. rewrite Nat2N.id, skipn_app, Nat.sub_diag, skipn_all. reflexivity. Qed.

Lemma ser_cons_nonempty : forall s vs, exists c r, ser_buf (s :: vs) = c :: r.
Proof. intros. cbn [ser_buf len_size le_bytes app]. eauto. Qed.

Lemma deser_ser : forall vs fuel,
  Forall len_ok vs -> (length (ser_buf vs) <= fuel)%nat ->
  deser_loop fuel (ser_buf vs) = Ok vs.
Proof.
  induction vs as [|s vs IH]; intros fuel Hok Hf.
  - destruct fuel; reflexivity.
  - inversion Hok as [|? ? Hs Hvs]; subst.
    destruct (ser_head s vs) as (H1 & H2 & H3).
    destruct (ser_cons_nonempty s vs) as (c & r & E).
    destruct fuel as [|fuel]. { rewrite E in Hf; simpl in Hf; lia. }
    assert (Hstep : deser_loop (S fuel) (ser_buf (s :: vs)) =
      match deser_loop fuel (ser_buf vs) with Ok tl => Ok (s :: tl) | UB => UB end).
    { rewrite E. cbn [deser_loop]. rewrite <- E.
      assert (Hlt : Nat.ltb (length (ser_buf (s :: vs))) len_size = false) by (apply Nat.ltb_ge; exact H3).
      rewrite Hlt, H1, H2, (le_value_len s Hs).
      replace (N.of_nat (length (s ++ ser_buf vs)) <? N.of_nat (length s)) with false.
      2:{ symmetry. apply N.ltb_ge. rewrite app_length. lia. }
      rewrite firstn_len_app, skipn_len_app. reflexivity. }
    rewrite Hstep, IH; auto.
    cbn [ser_buf] in Hf. rewrite !app_length, le_bytes_length in Hf. unfold len_size in Hf. lia.
Qed.

Lemma matches_ser : forall vs bc,
  Forall len_ok vs ->
  exists b, vec_str_matches_blob (ser_buf vs) bc = Ok b /\ (b = true <-> vs = bc).
Proof.
  induction vs as [|s vs IH]; intros bc Hok.
  - destruct bc as [|t bc]; simpl; eexists; split; try reflexivity; split; congruence.
  - inversion Hok as [|? ? Hs Hvs]; subst.
    destruct (ser_head s vs) as (H1 & H2 & H3).
    destruct (ser_cons_nonempty s vs) as (c & r & E).
    destruct bc as [|t bc].
    + rewrite E. simpl. eexists; split; [reflexivity|]. split; congruence.
    + rewrite E. cbn [vec_str_matches_blob]. rewrite <- E.
      assert (Hlt : Nat.ltb (length (ser_buf (s :: vs))) len_size = false) by (apply Nat.ltb_ge; exact H3).
      rewrite Hlt, H1, H2, (le_value_len s Hs).
      replace (N.of_nat (length (s ++ ser_buf vs)) <? N.of_nat (length s)) with false.
      2:{ symmetry. apply N.ltb_ge. rewrite app_length. lia. }
      rewrite firstn_len_app, skipn_len_app.
      destruct (bytes_eqb t s) eqn:Et.
      * apply bytes_eqb_eq in Et. subst t.
        destruct (IH bc Hvs) as (b & Hb & Hiff). exists b. split; [exact Hb|].
        rewrite Hiff. split; congruence.
      * eexists; split; [reflexivity|]. split; [congruence|].
        intros HH. inversion HH; subst. assert (bytes_eqb t t = true) by (apply bytes_eqb_eq; reflexivity). congruence.
Qed.

Lemma ser_len_bound : forall vs, N.of_nat (length (ser_buf vs)) <= int_max -> Forall len_ok vs.
Proof.
  induction vs as [|s vs IH]; intros H; constructor.
  - cbn [ser_buf] in H. rewrite !app_length, le_bytes_length in H. unfold len_ok, len_size, int_max in *.
    assert (2147483647 < 2^64) by reflexivity. lia.
  - apply IH. cbn [ser_buf] in H. rewrite !app_length in H. lia.
Qed.

Lemma serialize_inv : forall vs b, serialize_vec_str vs = Some b -> b = ser_buf vs /\ Forall len_ok vs.
Proof.
  unfold serialize_vec_str. intros vs b H.
  destruct (N.of_nat (length (ser_buf vs)) <=? int_max) eqn:E; inversion H; subst.
  split; auto. apply ser_len_bound. apply N.leb_le. exact E.
Qed.
