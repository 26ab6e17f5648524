(** std::lower_bound / std::upper_bound on random-access ranges: the binary
    search shared by several models. *)
From Coq Require Import List Arith Bool.
Import ListNotations.

Section Search.
Context {A : Type}.

(** Binary search for the first element for which [p] is false, over the
    subrange of length [len] starting at [first]. [p] is "element < key" for
    lower_bound and "not (key < element)" for upper_bound. *)
Fixpoint bs_loop (fuel : nat) (p : A -> bool) (l : list A) (first len : nat) : nat :=
  match fuel with
  | O => first
  | S fuel' =>
      if (len =? 0)%nat then first
      else
        let half := Nat.div2 len in
        match nth_error l (first + half) with
        | None => first
        | Some x =>
            if p x then bs_loop fuel' p l (first + half + 1) (len - (half + 1))
            else bs_loop fuel' p l first half
        end
  end.

Definition partition_point (p : A -> bool) (l : list A) : nat :=
  bs_loop (S (length l)) p l 0 (length l).

End Search.
