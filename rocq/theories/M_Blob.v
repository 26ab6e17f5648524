(** Model of the blob codec of the on-disk code cache.
    Source: /repo/src/llvm_state_cache.cpp lines 1087-1208
    (serialize_vec_str, vec_str_matches_blob, deserialize_vec_str). *)
From Coq Require Import List NArith Ascii Bool.
Import ListNotations.
Local Open Scope N_scope.

(** A std::string or a char buffer: a list of bytes.
    Simplification: sizes are unbounded naturals; the two places where the code
    narrows them (uint64_t length prefix, int blob length) are explicit below. *)
Definition bytes := list ascii.

Definition ascii_eqb (a b : ascii) : bool := Ascii.eqb a b.

Fixpoint bytes_eqb (a b : bytes) : bool :=
  match a, b with
  | [], [] => true
  | x :: a', y :: b' => ascii_eqb x y && bytes_eqb a' b'
  | _, _ => false
  end.

(** The object representation of a uint64_t as [k] bytes, least significant first
    (llvm_state_cache.cpp:1107-1109, reinterpret_cast of &len).
    Simplification: little-endian order (the code only relies on writing and
    reading with the same order). *)
Fixpoint le_bytes (k : nat) (n : N) : bytes :=
  match k with
  | O => []
  | S k' => ascii_of_N (n mod 256) :: le_bytes k' (n / 256)
  end.

Fixpoint le_value (b : bytes) : N :=
  match b with
  | [] => 0
  | c :: b' => N_of_ascii c + 256 * le_value b'
  end.

(** sizeof(std::uint64_t) *)
Definition len_size : nat := 8.

(** llvm_state_cache.cpp:1101-1114 serialize_vec_str: the buffer contents. *)
Fixpoint ser_buf (vs : list bytes) : bytes :=
  match vs with
  | [] => []
  | s :: vs' => le_bytes len_size (N.of_nat (length s)) ++ s ++ ser_buf vs'
  end.

(** INT_MAX, for the boost::numeric_cast<int>(buf.size()) at line 1113. *)
Definition int_max : N := 2147483647.

(** llvm_state_cache.cpp:1101-1114: [None] is the exception thrown by
    numeric_cast when the buffer does not fit in an int. *)
Definition serialize_vec_str (vs : list bytes) : option bytes :=
  let buf := ser_buf vs in
  if N.of_nat (length buf) <=? int_max then Some buf else None.

(** Outcome of code whose preconditions are expressed by assert():
    [UB] is a violated assertion (undefined behaviour in release mode). *)
Inductive res (A : Type) : Type :=
| Ok (a : A)
| UB.
Arguments Ok {A} a.
Arguments UB {A}.

(** llvm_state_cache.cpp:1120-1169 vec_str_matches_blob.  The pair
    (blob_char, blob_rem) is the remaining suffix of the blob. *)
Fixpoint vec_str_matches_blob (blob : bytes) (bc : list bytes) : res bool :=
  match bc with
  | [] => Ok (match blob with [] => true | _ => false end)      (* line 1168 *)
  | s :: bc' =>
    match blob with
    | [] => Ok false                                            (* lines 1132-1139 *)
    | _ =>
      if Nat.ltb (length blob) len_size then UB                 (* line 1142 assert *)
      else
        let cur_blob_len := le_value (firstn len_size blob) in  (* lines 1143-1144 *)
        let rest := skipn len_size blob in                      (* lines 1147-1148 *)
        if N.of_nat (length rest) <? cur_blob_len then UB       (* line 1151 assert *)
        else
          let chunk := firstn (N.to_nat cur_blob_len) rest in
          if bytes_eqb s chunk                                  (* lines 1153-1160 *)
          then vec_str_matches_blob (skipn (N.to_nat cur_blob_len) rest) bc'
          else Ok false
    end
  end.

(** llvm_state_cache.cpp:1172-1207 deserialize_vec_str.  [fuel] bounds the while
    loop; every iteration consumes at least 8 bytes, so the length of the blob is
    enough (the theorems never see [UB] because of the fuel: see
    P_Blob.deserialize_ser). *)
Fixpoint deser_loop (fuel : nat) (blob : bytes) : res (list bytes) :=
  match blob with
  | [] => Ok []                                                 (* line 1185 *)
  | _ =>
    match fuel with
    | O => UB
    | S fuel' =>
      if Nat.ltb (length blob) len_size then UB                 (* line 1187 assert *)
      else
        let cur_blob_len := le_value (firstn len_size blob) in
        let rest := skipn len_size blob in
        if N.of_nat (length rest) <? cur_blob_len then UB       (* line 1196 assert *)
        else
          let chunk := firstn (N.to_nat cur_blob_len) rest in
          match deser_loop fuel' (skipn (N.to_nat cur_blob_len) rest) with
          | Ok tl => Ok (chunk :: tl)                           (* line 1199 *)
          | UB => UB
          end
    end
  end.

Definition deserialize_vec_str (blob : bytes) : res (list bytes) :=
  deser_loop (length blob) blob.
