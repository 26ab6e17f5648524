(** Specification of the ensemble propagations: what a single iteration does. *)
From Coq Require Import List Arith.
Import ListNotations.

Section Spec.
Context {Obj Cb Res Err : Type}.
Context (ta : Obj) (cb : Cb) (gen : Obj -> nat -> Obj + Err) (copy : Cb -> Cb + Err)
        (propagate : Obj -> Cb -> option ((Obj * Res) + Err)).

(** Propagating the [i]-th generated integrator, with a copy of the callback, gives [r]. *)
Definition gives (i : nat) (r : Obj * Res) : Prop :=
  exists x c, gen ta i = inl x /\ copy cb = inl c /\ propagate x c = Some (inl r).
(** Iteration [i] throws. *)
Definition throws (i : nat) (e : Err) : Prop :=
  gen ta i = inr e \/
  (exists x, gen ta i = inl x /\ copy cb = inr e) \/
  (exists x c, gen ta i = inl x /\ copy cb = inl c /\ propagate x c = Some (inr e)).
(** Iteration [i] comes to an end. *)
Definition ends (i : nat) : Prop := (exists r, gives i r) \/ (exists e, throws i e).
End Spec.
