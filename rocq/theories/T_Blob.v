(** C32: the cache key / value encoding.
    Specification: the codec is a partial bijection between lists of byte strings
    and blobs. *)
From Coq Require Import List NArith Ascii Bool String.
From Verif Require Import M_Blob P_Blob.
Import ListNotations.

(** Reading back what was written yields the same list, without violating any of
    the reader's assertions, for every list that the writer accepts. *)
Theorem blob_roundtrip : forall vs blob,
  serialize_vec_str vs = Some blob -> deserialize_vec_str blob = Ok vs.
Proof.
  intros vs blob H. apply serialize_inv in H as [-> Hok].
  unfold deserialize_vec_str. apply deser_ser; auto.
Qed.

(** The matcher used for key verification decides equality with the encoded list:
    it never runs into undefined behaviour on a written blob and answers [true]
    exactly for the list that was written. *)
Theorem blob_match_iff : forall vs blob bc,
  serialize_vec_str vs = Some blob ->
  exists b, vec_str_matches_blob blob bc = Ok b /\ (b = true <-> bc = vs).
Proof.
  intros vs blob bc H. apply serialize_inv in H as [-> Hok].
  destruct (matches_ser vs bc Hok) as (b & H1 & H2). exists b. split; auto.
  rewrite H2. split; congruence.
Qed.

(** Two different lists never have the same encoding. *)
Theorem blob_injective : forall vs1 vs2 blob,
  serialize_vec_str vs1 = Some blob -> serialize_vec_str vs2 = Some blob -> vs1 = vs2.
Proof.
  intros vs1 vs2 blob H1 H2. apply blob_roundtrip in H1, H2. congruence.
Qed.

(** The writer accepts a list exactly when the encoded size (8 bytes per string
    plus the contents) fits in an int. *)
Theorem blob_accepts_iff : forall vs,
  (exists blob, serialize_vec_str vs = Some blob) <->
  (N.of_nat (8 * List.length vs + List.length (List.concat vs)) <= int_max)%N.
Proof.
  intros vs. unfold serialize_vec_str.
  assert (E : List.length (ser_buf vs) = 8 * List.length vs + List.length (List.concat vs)).
  { induction vs as [|s vs IH]; auto. cbn [ser_buf List.concat]. rewrite !app_length, le_bytes_length, IH.
    cbn [List.length]. unfold len_size. rewrite !PeanoNat.Nat.mul_succ_r.
    set (a := List.length vs). set (b := List.length s). set (c := List.length (List.concat vs)). clearbody a b c. Lia.lia. }
  rewrite E. destruct (N.leb_spec (N.of_nat (8 * List.length vs + List.length (List.concat vs))) int_max); split; intros H0; auto.
  - eauto.
  - destruct H0; discriminate.
  - exfalso. apply N.lt_nge in H. contradiction.
Qed.

Local Open Scope string_scope.
Definition ex_vs : list bytes := [list_ascii_of_string "define"; []; list_ascii_of_string "ret void"].
Example blob_nonvacuous : exists blob, serialize_vec_str ex_vs = Some blob /\
  List.length blob = 38 /\ deserialize_vec_str blob = Ok ex_vs /\
  vec_str_matches_blob blob [list_ascii_of_string "define"; list_ascii_of_string "ret void"] = Ok false.
Proof. eexists. split; [vm_compute; reflexivity|]. vm_compute. auto. Qed.
(** A truncated blob is outside the reader's precondition. *)
Example blob_truncated : deserialize_vec_str (firstn 5 (ser_buf ex_vs)) = UB.
Proof. vm_compute. reflexivity. Qed.

Print Assumptions blob_roundtrip.
Print Assumptions blob_match_iff.
Print Assumptions blob_injective.
Print Assumptions blob_accepts_iff.
