(* C51: the gravity of custom spherical harmonics. *)
From Coq Require Import Bool ZArith List Lia FinFun.
From Verif Require Import M_Dag M_Taylor M_Sh S_Sh P_Sh.
Import ListNotations.
Local Open Scope Z_scope.
Set Bullet Behavior "Strict Subproofs".

(* isqrt() is the integer square root of every 32-bit number, after at most 32 iterations. *)
Theorem isqrt_exact fuel y : (32 <= fuel)%nat -> 0 <= y < 2 ^ 32 ->
  exists r, isqrt fuel y = MDone r /\ 0 <= r /\ r * r <= y < (r + 1) * (r + 1).
Proof.
  intros Hf Hy. exists (Z.sqrt y). split; [now apply isqrt_sqrt|]. split; [apply Z.sqrt_nonneg|]. exact (Z.sqrt_spec y (proj1 Hy)).
Qed.

(* A list is accepted exactly if it is complete up to some degree. Its positions and the pairs of a
   degree and an order correspond one to one, and the lookup reads the position of the pair, which
   is in the list. *)
Theorem sh_layout {cs} fuel (l : list cs) : (32 <= fuel)%nat ->
  (forall d, max_degree_of_list fuel l = MDone d <-> complete l d) /\
  (max_degree_of_list fuel l = MThrow <-> forall d, ~ complete l d) /\
  (forall d, complete l d ->
     (forall n m, 0 <= m <= n -> n <= d -> exists c, cs_get l n m = MDone c /\ nth_error l (Z.to_nat (position n m)) = Some c) /\
     (forall i, 0 <= i < Z.of_nat (length l) -> exists n m, 0 <= m <= n /\ n <= d /\ position n m = i) /\
     (forall n m n' m', 0 <= m <= n -> 0 <= m' <= n' -> position n m = position n' m' -> n = n' /\ m = m')).
Proof.
  intros Hf. destruct (degree_ok fuel l Hf) as [(d & H & E)|[H E]].
  - split; [|split].
    + intros d'. rewrite E. split; [intros X; injection X as <-; exact H|]. intros H'. f_equal. exact (complete_unique l d d' H H').
    + rewrite E. split; [discriminate|]. intros X. destruct (X d H).
    + intros d' H'. split; [intros n m A B; apply (get_ok l d'); [exact H'|lia|lia|lia]|]. split; [|apply pos_inj].
      intros i Hi. destruct (pos_surj i) as (n & m & A & B); [lia|]. exists n, m. split; [exact A|]. split; [|exact B].
      destruct (Z.le_gt_cases n d') as [K|K]; [exact K|]. exfalso. destruct H' as (H1 & H2 & H3). unfold position in B. pose proof (tri_even n). nia.
  - split; [|split].
    + intros d'. rewrite E. split; [discriminate|]. intros X. destruct (H d' X).
    + split; [intros _; exact H|intros _; exact E].
    + intros d' X. destruct (H d' X).
Qed.

Section Terms.
Context {cs vw : Type} (seed : vw) (rec1 : Z -> Z -> vw -> vw) (rec2 : Z -> Z -> vw -> vw -> vw) (diag : Z -> vw -> vw).
Local Notation H := (harmonic seed rec1 rec2 diag).

(* The table has an entry exactly for each order at most the degree, and each is the value given
   by the recursion. *)
Theorem sh_table max_n : 0 <= max_n < 2 ^ 32 - 1 -> exists t, make_rec_map seed rec1 rec2 diag max_n = MDone t /\
  forall n m, (0 <= m <= n /\ n <= max_n -> sfind (n, m) t = Some (H n m)) /\ (~ (0 <= m <= n /\ n <= max_n) -> sfind (n, m) t = None).
Proof. intros Hn. exact (map_ok seed rec1 rec2 diag max_n Hn). Qed.

(* What a term of the sums is: the coefficients of its degree and its order, and the harmonics. *)
Definition pot_term (l : list cs) (ij : Z * Z) (t : Z * Z * cs * vw) : Prop :=
  exists c, t = (ij, c, H (fst ij) (snd ij)) /\ nth_error l (Z.to_nat (position (fst ij) (snd ij))) = Some c.
Definition acc_term (l : list cs) (ij : Z * Z) (t : Z * Z * cs * (vw * option vw * vw)) : Prop :=
  let '(i, j) := ij in
  exists c, t = (ij, c, (H (i + 1) (j + 1), if Z.eqb j 0 then None else Some (H (i + 1) (j - 1)), H (i + 1) j))
            /\ nth_error l (Z.to_nat (position i j)) = Some c.
(* All the pairs of a degree up to n and an order up to m and the degree, each once. *)
Definition all_pairs (n m : Z) (ps : list (Z * Z)) : Prop :=
  NoDup ps /\ forall i j, In (i, j) ps <-> 0 <= i <= n /\ 0 <= j /\ j <= m /\ j <= i.

Lemma nodup_zseq k : NoDup (zseq k).
Proof. unfold zseq. apply Injective_map_NoDup; [intros a b E; lia|apply seq_NoDup]. Qed.
Lemma nodup_flat (f : Z -> list Z) : (forall i, NoDup (f i)) -> forall l, NoDup l -> NoDup (flat_map (fun i => map (fun j => (i, j)) (f i)) l).
Proof.
  intros Hf. induction l as [|a l IH]; intros N; [constructor|]. inversion N as [|? ? A B]; subst. cbn [flat_map].
  assert (P : NoDup (map (fun j => (a, j)) (f a))) by (apply Injective_map_NoDup; [intros x y E; now injection E|apply Hf]).
  assert (D : forall x, In x (map (fun j => (a, j)) (f a)) -> ~ In x (flat_map (fun i => map (fun j => (i, j)) (f i)) l)).
  { intros x X Y. apply in_map_iff in X. destruct X as (j & <- & _). apply in_flat_map in Y. destruct Y as (i & I & Y). apply in_map_iff in Y. destruct Y as (k & E & _). injection E as -> _. contradiction. }
  revert P D. generalize (map (fun j => (a, j)) (f a)). specialize (IH B). induction l0 as [|x l0 IH0]; intros P D; [exact IH|].
  inversion P; subst. cbn [app]. constructor; [|apply IH0; [assumption|intros; apply D; now right]].
  intros X. apply in_app_or in X. destruct X as [X|X]; [contradiction|]. exact (D x (or_introl eq_refl) X).
Qed.
Lemma degrees_all n m : all_pairs n m (degrees n m).
Proof. split; [apply (nodup_flat (fun i => zseq (Z.min m i + 1))); [intros; apply nodup_zseq|apply nodup_zseq]|]. intros i j. apply degrees_in. Qed.

(* The potential throws exactly if the list is not complete or what is asked for does not exist;
   otherwise its terms are those of all the pairs, with their coefficients and harmonics: no lookup
   throws or reads outside the list. *)
Theorem sh_pot_exact fuel (l : list cs) a b : (32 <= fuel)%nat -> opt_u32 a -> opt_u32 b ->
  (forall d n m, complete l d -> asked a b d n m -> exists ps ts,
     sh_pot_terms seed rec1 rec2 diag fuel l a b = MDone ts /\ all_pairs n m ps /\ Forall2 (pot_term l) ps ts) /\
  ((forall d n m, ~ (complete l d /\ asked a b d n m)) <-> sh_pot_terms seed rec1 rec2 diag fuel l a b = MThrow).
Proof.
  intros Hf Ha Hb. destruct (resolve_ok l fuel a b Hf Ha Hb) as [(d & n & m & C & A & N0 & M0 & E1 & E2 & E3)|[N E]].
  - assert (D : n <= d) by apply A. pose proof (complete_small l d C) as D'.
    assert (G : exists ts, sh_pot_terms seed rec1 rec2 diag fuel l a b = MDone ts /\ Forall2 (pot_term l) (degrees n m) ts).
    { unfold sh_pot_terms. rewrite E1. cbn [mbind]. rewrite E2. cbn [mbind]. rewrite E3.
      destruct (map_ok seed rec1 rec2 diag n) as (t & Et & Ht); [rewrite u32_v; lia|]. rewrite Et. cbn [mbind].
      apply mseq_ex. intros [i j] I. apply degrees_in in I. cbn [fst snd].
      destruct (get_ok l d i j C) as (c & Ec & Nc); [lia|lia|lia|]. rewrite Ec. cbn [mbind]. unfold sat. destruct (Ht i j) as [F _]. rewrite F by lia. cbn [mbind].
      eexists. split; [reflexivity|]. exists c. now split. }
    destruct G as (ts & G1 & G2). split.
    + intros d' n' m' C' A'. assert (d' = d) by exact (complete_unique l d' d C' C). subst d'.
      assert (n' = n /\ m' = m) as [-> ->]. { unfold asked in A, A'. destruct a, b; cbn in A, A'; lia. }
      exists (degrees n m), ts. split; [exact G1|]. split; [apply degrees_all|exact G2].
    + rewrite G1. split; [|discriminate]. intros X. destruct (X d n m (conj C A)).
  - split; [intros d n m C A; destruct (N d n m (conj C A))|]. split; [|intros _; exact N]. intros _.
    unfold sh_pot_terms. destruct E as [E|(d & E & [F|(n & m & F & G)])]; rewrite E; cbn [mbind]; [reflexivity| |]; rewrite F; cbn [mbind]; [reflexivity|]. now rewrite G.
Qed.

(* And the same of the acceleration, which uses the harmonics of the next degree. *)
Theorem sh_acc_exact fuel (l : list cs) a b : (32 <= fuel)%nat -> opt_u32 a -> opt_u32 b ->
  (forall d n m, complete l d -> asked a b d n m -> exists ps ts,
     sh_acc_terms seed rec1 rec2 diag fuel l a b = MDone ts /\ all_pairs n m ps /\ Forall2 (acc_term l) ps ts) /\
  ((forall d n m, ~ (complete l d /\ asked a b d n m)) <-> sh_acc_terms seed rec1 rec2 diag fuel l a b = MThrow).
Proof.
  intros Hf Ha Hb. destruct (resolve_ok l fuel a b Hf Ha Hb) as [(d & n & m & C & A & N0 & M0 & E1 & E2 & E3)|[N E]].
  - assert (D : n <= d) by apply A. pose proof (complete_small l d C) as D'.
    assert (G : exists ts, sh_acc_terms seed rec1 rec2 diag fuel l a b = MDone ts /\ Forall2 (acc_term l) (degrees n m) ts).
    { unfold sh_acc_terms. rewrite E1. cbn [mbind]. rewrite E2. cbn [mbind]. rewrite E3. rewrite mod_small32 by (rewrite u32_v; lia).
      destruct (map_ok seed rec1 rec2 diag (n + 1)) as (t & Et & Ht); [rewrite u32_v; lia|]. rewrite Et. cbn [mbind].
      apply mseq_ex. intros [i j] I. apply degrees_in in I.
      destruct (get_ok l d i j C) as (c & Ec & Nc); [lia|lia|lia|]. rewrite Ec. cbn [mbind]. unfold sat. destruct (Ht (i + 1) (j + 1)) as [F1 _]. rewrite F1 by lia. cbn [mbind].
      destruct (Ht (i + 1) j) as [F2 _]. rewrite F2 by lia. unfold acc_term.
      destruct (Z.eqb_spec j 0) as [J|J]; cbn [mbind].
      - eexists. split; [reflexivity|]. exists c. now split.
      - destruct (Ht (i + 1) (j - 1)) as [F3 _]. rewrite F3 by lia. cbn [mbind]. eexists. split; [reflexivity|]. exists c. now split. }
    destruct G as (ts & G1 & G2). split.
    + intros d' n' m' C' A'. assert (d' = d) by exact (complete_unique l d' d C' C). subst d'.
      assert (n' = n /\ m' = m) as [-> ->]. { unfold asked in A, A'. destruct a, b; cbn in A, A'; lia. }
      exists (degrees n m), ts. split; [exact G1|]. split; [apply degrees_all|exact G2].
    + rewrite G1. split; [|discriminate]. intros X. destruct (X d n m (conj C A)).
  - split; [intros d n m C A; destruct (N d n m (conj C A))|]. split; [|intros _; exact N]. intros _.
    unfold sh_acc_terms. destruct E as [E|(d & E & [F|(n & m & F & G)])]; rewrite E; cbn [mbind]; [reflexivity| |]; rewrite F; cbn [mbind]; [reflexivity|]. now rewrite G.
Qed.
End Terms.

(* Six coefficients are complete up to degree 2; degree 2 and order 1 use the first five. Five are refused. *)
Example six_complete : complete [10; 11; 12; 13; 14; 15] 2 /\ asked (Some 2) (Some 1) 2 2 1 /\
  match sh_pot_terms 0 (fun n m p => 100 * n + m) (fun n m p q => 1000 * n + m) (fun m p => 7) 32 [10; 11; 12; 13; 14; 15] (Some 2) (Some 1) with
  | MDone ts => map (fun t => snd (fst t)) ts = [10; 11; 12; 13; 14]
  | _ => False
  end.
Proof. split; [unfold complete; change (Z.of_nat (length _)) with 6; lia|]. split; [unfold asked; lia|]. vm_compute. reflexivity. Qed.
Example five_refused : max_degree_of_list 32 [10; 11; 12; 13; 14] = MThrow. Proof. vm_compute. reflexivity. Qed.

Print Assumptions isqrt_exact.
Print Assumptions sh_layout.
Print Assumptions sh_table.
Print Assumptions sh_pot_exact.
Print Assumptions sh_acc_exact.
