From Coq Require Import Bool ZArith List Lia Psatz.
From Verif Require Import M_Dag M_Taylor M_Sh S_Sh.
Import ListNotations.
Local Open Scope Z_scope.
Set Bullet Behavior "Strict Subproofs".

Lemma u32_v : u32 = 4294967296. Proof. reflexivity. Qed.
Lemma u64_v : u64 = 18446744073709551616. Proof. reflexivity. Qed.
Lemma mod_small64 z : 0 <= z < u64 -> z mod u64 = z. Proof. apply Z.mod_small. Qed.
Lemma mod_small32 z : 0 <= z < u32 -> z mod u32 = z. Proof. apply Z.mod_small. Qed.

Lemma isqrt_ok : forall k fuel y l r, (k <= fuel)%nat -> 0 <= y < u32 -> 0 <= l -> l * l <= y -> y < r * r -> l < r -> r <= y + 1 -> r - l <= 2 ^ Z.of_nat k ->
  isqrt_loop fuel y l r = MDone (Z.sqrt y).
Proof.
  induction k as [|k IH]; intros fuel y l r Hf Hy Hl Ly Hr Hlr Hr1 W.
  - change (2 ^ Z.of_nat 0) with 1 in W. assert (r = l + 1) by lia. subst r.
    assert (E : Z.sqrt y = l) by (apply Z.sqrt_unique; unfold Z.succ; lia).
    assert (B : l < u32) by nia. destruct fuel; cbn [isqrt_loop]; rewrite mod_small64 by (rewrite u64_v, u32_v in *; lia);
      replace (l + 1 - 1) with l by lia; rewrite Z.eqb_refl, mod_small32 by lia; now rewrite E.
  - assert (B : r <= u32) by lia.
    destruct fuel as [|fuel]; [lia|]. cbn [isqrt_loop]. rewrite (mod_small64 (r - 1)) by (rewrite u64_v, u32_v in *; lia).
    destruct (Z.eqb_spec l (r - 1)) as [E|E].
    + assert (F : Z.sqrt y = l) by (apply Z.sqrt_unique; unfold Z.succ; subst l; replace (r - 1 + 1) with r by lia; lia).
      rewrite mod_small32 by lia. now rewrite F.
    + rewrite (mod_small64 (l + r)) by (rewrite u64_v, u32_v in *; lia).
      set (m := (l + r) / 2). assert (M : 2 * m <= l + r < 2 * m + 2) by (unfold m; pose proof (Z.div_mod (l + r) 2); pose proof (Z.mod_pos_bound (l + r) 2); lia).
      assert (P : 2 ^ Z.of_nat (S k) = 2 * 2 ^ Z.of_nat k) by (rewrite Nat2Z.inj_succ, Z.pow_succ_r; lia).
      rewrite mod_small64 by (rewrite u64_v, u32_v in *; nia).
      destruct (Z.leb_spec (m * m) y); apply IH; try lia.
Qed.
Lemma isqrt_sqrt fuel y : (32 <= fuel)%nat -> 0 <= y < u32 -> isqrt fuel y = MDone (Z.sqrt y).
Proof.
  intros Hf Hy. unfold isqrt. rewrite mod_small64 by (rewrite u64_v, u32_v in *; lia).
  apply (isqrt_ok 32); try lia; try nia. change (2 ^ Z.of_nat 32) with 4294967296. rewrite u32_v in *. lia.
Qed.

Lemma safe32_ok z : 0 <= z < u32 -> safe32 z = MDone z.
Proof. intros H. unfold safe32. destruct (Z.leb_spec 0 z); [|lia]. destruct (Z.ltb_spec z u32); [reflexivity|lia]. Qed.
Lemma safe32_bad z : u32 <= z -> safe32 z = MThrow.
Proof. intros H. unfold safe32. destruct (Z.ltb_spec z u32); [lia|]. now rewrite Bool.andb_false_r. Qed.
Section L.
Context {cs : Type}.
Lemma degree_ok fuel (l : list cs) : (32 <= fuel)%nat ->
  (exists d, complete l d /\ max_degree_of_list fuel l = MDone d) \/ ((forall d, ~ complete l d) /\ max_degree_of_list fuel l = MThrow).
Proof.
  intros Hf. unfold max_degree_of_list, complete. set (s := Z.of_nat (length l)). assert (S0 : 0 <= s) by lia. clearbody s.
  destruct (Z.eqb_spec s 0) as [->|N]; [right; split; [intros d (A & B & C); nia|reflexivity]|].
  destruct (Z.lt_ge_cases (s) u32); [rewrite (safe32_ok (s)) by lia; cbn [mbind]|rewrite (safe32_bad (s)) by lia; right; split; [intros d (A & B & C); rewrite u32_v in *; change (2 ^ 32) with 4294967296 in C; lia|reflexivity]].
  destruct (Z.lt_ge_cases (8 * s) u32); [rewrite (safe32_ok (8 * s)) by lia; cbn [mbind]|rewrite (safe32_bad (8 * s)) by lia; right; split; [intros d (A & B & C); rewrite u32_v in *; change (2 ^ 32) with 4294967296 in C; lia|reflexivity]].
  destruct (Z.lt_ge_cases (8 * s + 1) u32); [rewrite (safe32_ok (8 * s + 1)) by lia; cbn [mbind]|rewrite (safe32_bad (8 * s + 1)) by lia; right; split; [intros d (A & B & C); rewrite u32_v in *; change (2 ^ 32) with 4294967296 in C; lia|reflexivity]].
  rewrite isqrt_sqrt by lia. cbn [mbind]. pose proof (Z.sqrt_spec (8 * s + 1)) as [Q1 Q2]; [lia|]. pose proof (Z.sqrt_nonneg (8 * s + 1)) as Q3.
  set (i := Z.sqrt (8 * s + 1)) in *. unfold Z.succ in Q2. rewrite mod_small32 by lia.
  destruct (Z.eqb_spec (i * i) (8 * s + 1)) as [E|E]; cbn [negb].
  - left. assert (Iodd : i = 2 * ((i - 1) / 2) + 1).
    { pose proof (Z.div_mod i 2). pose proof (Z.mod_pos_bound i 2). assert (i mod 2 = 1).
      { assert (K : i mod 2 = 0 \/ i mod 2 = 1) by lia. destruct K as [K|K]; [|exact K]. exfalso. set (h := i / 2) in *. assert (i = 2 * h) by lia. nia. }
      assert ((i - 1) / 2 = i / 2) by (symmetry; apply Z.div_unique with 0; lia). lia. }
    set (h := (i - 1) / 2) in *. assert (1 <= i) by nia. assert (i < u32) by (rewrite u32_v in *; nia). rewrite (mod_small32 (i - 1)) by lia. fold h.
    assert (1 <= h) by nia. rewrite mod_small32 by (rewrite u32_v in *; lia).
    exists (h - 1). split; [|reflexivity]. split; [lia|]. split; [nia|]. change (2 ^ 32) with u32. lia.
  - right. split; [|reflexivity]. intros d (A & B & C). apply E. assert (K : (2 * d + 3) * (2 * d + 3) = 8 * s + 1) by lia.
    assert (i = 2 * d + 3) by (apply Z.sqrt_unique; unfold Z.succ; nia). lia.
Qed.
Lemma tri_even n : 2 * (n * (n + 1) / 2) = n * (n + 1).
Proof.
  pose proof (Z.div_mod (n * (n + 1)) 2). pose proof (Z.mod_pos_bound (n * (n + 1)) 2). assert ((n * (n + 1)) mod 2 = 0); [|lia].
  rewrite Zmult_mod, Zplus_mod. pose proof (Z.mod_pos_bound n 2). assert (K : n mod 2 = 0 \/ n mod 2 = 1) by lia. destruct K as [->| ->]; reflexivity.
Qed.
Lemma complete_small (l : list cs) d : complete l d -> d < 32768.
Proof. intros (A & B & C). change (2 ^ 32) with 4294967296 in C. nia. Qed.
Lemma complete_unique (l : list cs) d d' : complete l d -> complete l d' -> d = d'.
Proof. intros (A & B & C) (A' & B' & C'). nia. Qed.
Lemma pos_range (l : list cs) d n m : complete l d -> 0 <= m -> m <= n -> n <= d -> 0 <= position n m < Z.of_nat (length l).
Proof. intros (A & B & C) H1 H2 H3. unfold position. pose proof (tri_even n). nia. Qed.
Lemma pos_inj n m n' m' : 0 <= m <= n -> 0 <= m' <= n' -> position n m = position n' m' -> n = n' /\ m = m'.
Proof.
  unfold position. intros A B E. pose proof (tri_even n). pose proof (tri_even n').
  assert (n = n'); [|subst; lia]. destruct (Z.lt_trichotomy n n') as [K|[K|K]]; [|exact K|]; exfalso; nia.
Qed.
Lemma pos_surj : forall i, 0 <= i -> exists n m, 0 <= m <= n /\ position n m = i.
Proof.
  intros i Hi. pattern i. apply natlike_ind; [exists 0, 0; split; [lia|reflexivity]| |exact Hi].
  clear i Hi. intros i Hi (n & m & H & E). unfold position in *. destruct (Z.eq_dec m n) as [->|N].
  - exists (n + 1), 0. split; [lia|]. pose proof (tri_even n). pose proof (tri_even (n + 1)). lia.
  - exists n, (m + 1). split; [lia|]. lia.
Qed.
Lemma get_ok (l : list cs) d n m : complete l d -> 0 <= m -> m <= n -> n <= d -> exists c, cs_get l n m = MDone c /\ nth_error l (Z.to_nat (position n m)) = Some c.
Proof.
  intros H H1 H2 H3. pose proof (pos_range l d n m H H1 H2 H3) as P. pose proof (complete_small _ _ H) as D.
  destruct (nth_error l (Z.to_nat (position n m))) as [c|] eqn:E; [|apply nth_error_None in E; lia]. exists c. split; [|reflexivity].
  unfold cs_get, safe64. rewrite u64_v.
  destruct (Z.leb_spec 0 (n + 1)); [|lia]. destruct (Z.ltb_spec (n + 1) 18446744073709551616); [|lia]. cbn [andb mbind].
  destruct (Z.leb_spec 0 (n * (n + 1))); [|nia]. destruct (Z.ltb_spec (n * (n + 1)) 18446744073709551616); [|nia]. cbn [andb mbind].
  fold (position n m). pose proof (tri_even n). unfold position in *.
  destruct (Z.leb_spec 0 (n * (n + 1) / 2 + m)); [|lia]. destruct (Z.ltb_spec (n * (n + 1) / 2 + m) 18446744073709551616); [|nia]. cbn [andb mbind].
  now rewrite E.
Qed.
End L.

(* --- the table --- *)
Section Tab.
Context {vw : Type} (seed : vw) (rec1 : Z -> Z -> vw -> vw) (rec2 : Z -> Z -> vw -> vw -> vw) (diag : Z -> vw -> vw).
Local Notation hm := (harmonic seed rec1 rec2 diag).
Definition holds (t : @smap vw) (dom : Z -> Z -> Prop) : Prop :=
  forall n m, (dom n m -> sfind (n, m) t = Some (hm n m)) /\ (~ dom n m -> sfind (n, m) t = None).
Lemma holds_iff t d d' : (forall n m, d n m <-> d' n m) -> holds t d -> holds t d'.
Proof. intros E H n m. destruct (H n m). specialize (E n m). split; intros; [apply H0|apply H1]; tauto. Qed.
Lemma semplace_ok t dom n m v : holds t dom -> ~ dom n m -> v = hm n m -> holds (semplace (n, m) v t) (fun a b => dom a b \/ (a = n /\ b = m)).
Proof.
  intros H N -> a b. unfold semplace. destruct (H n m) as [_ F]. rewrite (F N). cbn [sfind]. unfold key_eqb. cbn [fst snd].
  destruct (Z.eqb_spec a n) as [->|A]; destruct (Z.eqb_spec b m) as [->|B]; cbn [andb]; (split; intros D).
  - reflexivity.
  - exfalso. apply D. now right.
  - apply H. destruct D as [D|[_ D]]; [exact D|contradiction].
  - apply H. tauto.
  - apply H. destruct D as [D|[D _]]; [exact D|contradiction].
  - apply H. tauto.
  - apply H. destruct D as [D|[D _]]; [exact D|contradiction].
  - apply H. tauto.
Qed.
Lemma hm_rec1 m : 0 <= m -> hm (m + 1) m = rec1 (m + 1) m (hm m m).
Proof. intros H. unfold harmonic. replace (m + 1 - m) with 1 by lia. replace (m - m) with 0 by lia. change (Z.to_nat 1) with 1%nat. change (Z.to_nat 0) with 0%nat. cbn [column]. rewrite Z2Nat.id by lia. reflexivity. Qed.
Lemma hm_rec2 n m : 0 <= m -> m + 2 <= n -> hm n m = rec2 n m (hm (n - 1) m) (hm (n - 2) m).
Proof.
  intros H1 H2. unfold harmonic. set (k := Z.to_nat (n - 2 - m)). replace (Z.to_nat (n - m)) with (S (S k)) by (unfold k; lia).
  replace (Z.to_nat (n - 1 - m)) with (S k) by (unfold k; lia). cbn [column]. f_equal; unfold k; lia.
Qed.
Lemma hm_diag m : 0 <= m -> hm (m + 1) (m + 1) = diag m (hm m m).
Proof.
  intros H. unfold harmonic. rewrite !Z.sub_diag. change (Z.to_nat 0) with 0%nat. cbn [column]. replace (Z.to_nat (m + 1)) with (S (Z.to_nat m)) by lia. cbn [diagonal]. now rewrite Z2Nat.id by lia.
Qed.
Definition upto (max_n m : Z) (a b : Z) : Prop := (0 <= b < m /\ b <= a <= max_n) \/ (a = m /\ b = m).
Lemma inner_ok max_n m : 0 <= m -> forall count n t, Z.of_nat count = max_n + 1 - n -> m + 1 <= n ->
  holds t (fun a b => upto max_n m a b \/ (b = m /\ m <= a < n)) ->
  exists t', rec_inner rec1 rec2 count m n t = MDone t' /\ holds t' (fun a b => upto max_n m a b \/ (b = m /\ m <= a <= max_n)).
Proof.
  intros Hm. induction count as [|count IH]; intros n t C N H.
  - exists t. split; [reflexivity|]. eapply holds_iff; [|exact H]. intros a b. cbn beta. assert (n = max_n + 1) by lia. subst n. unfold upto. intuition lia.
  - cbn [rec_inner]. unfold sat. destruct (H (n - 1) m) as [F _]. rewrite F by (right; lia). cbn [mbind].
    assert (V : (if n =? m + 1 then MDone (rec1 n m (hm (n - 1) m)) else mbind (match sfind (n - 2, m) t with Some v => MDone v | None => MThrow end) (fun p2 => MDone (rec2 n m (hm (n - 1) m) p2))) = MDone (hm n m)).
    { destruct (Z.eqb_spec n (m + 1)) as [->|K].
      - replace (m + 1 - 1) with m by lia. now rewrite hm_rec1.
      - destruct (H (n - 2) m) as [G _]. rewrite G by (right; lia). cbn [mbind]. now rewrite <- hm_rec2 by lia. }
    rewrite V. cbn [mbind]. apply IH; [lia|lia|].
    eapply holds_iff; [|apply semplace_ok; [exact H| |reflexivity]].
    + intros a b. cbn beta. unfold upto. intuition lia.
    + unfold upto. intuition lia.
Qed.
Lemma outer_ok max_n : forall count m t, Z.of_nat count = max_n - m -> 0 <= m -> holds t (upto max_n m) ->
  exists t', rec_outer rec1 rec2 diag count max_n m t = MDone t' /\ holds t' (fun a b => 0 <= b <= a /\ a <= max_n).
Proof.
  induction count as [|count IH]; intros m t C Hm H.
  - exists t. split; [reflexivity|]. eapply holds_iff; [|exact H]. intros a b. unfold upto. assert (m = max_n) by lia. subst m. intuition lia.
  - cbn [rec_outer]. destruct (inner_ok max_n m Hm (Z.to_nat (max_n - m)) (m + 1) t) as (t' & E & H').
    + lia.
    + lia.
    + eapply holds_iff; [|exact H]. intros a b. cbn beta. unfold upto. intuition lia.
    + rewrite E. cbn [mbind]. unfold sat. destruct (H' m m) as [F _]. rewrite F by (left; right; lia). cbn [mbind]. apply IH; [lia|lia|].
      eapply holds_iff; [|apply semplace_ok; [exact H'| |now rewrite hm_diag]].
      * intros a b. cbn beta. unfold upto. intuition lia.
      * unfold upto. intuition lia.
Qed.
Lemma map_ok max_n : 0 <= max_n < u32 - 1 -> exists t, make_rec_map seed rec1 rec2 diag max_n = MDone t /\ holds t (fun a b => 0 <= b <= a /\ a <= max_n).
Proof.
  intros H. unfold make_rec_map. destruct (Z.eqb_spec max_n (u32 - 1)); [lia|]. apply outer_ok; [lia|lia|].
  intros a b. cbn [semplace sfind]. unfold key_eqb. cbn [fst snd]. unfold upto.
  destruct (Z.eqb_spec a 0) as [->|A]; destruct (Z.eqb_spec b 0) as [->|B]; cbn [andb]; (split; intros D); try reflexivity; try lia.
Qed.
End Tab.

Lemma mseq_ok {A B} (f : A -> mres B) (g : A -> B) l : (forall a, In a l -> f a = MDone (g a)) -> mseq f l = MDone (map g l).
Proof.
  induction l as [|a l IH]; intros H; [reflexivity|]. cbn [mseq map]. rewrite H by now left. cbn [mbind]. rewrite IH; [reflexivity|]. intros b Hb. apply H. now right.
Qed.
Lemma mseq_ex {A B} (f : A -> mres B) (P : A -> B -> Prop) l : (forall a, In a l -> exists b, f a = MDone b /\ P a b) ->
  exists bs, mseq f l = MDone bs /\ Forall2 P l bs.
Proof.
  induction l as [|a l IH]; intros H; [exists []; split; [reflexivity|constructor]|].
  destruct (H a (or_introl eq_refl)) as (b & E & Pb). destruct IH as (bs & F & Q); [intros; apply H; now right|].
  exists (b :: bs). cbn [mseq]. rewrite E. cbn [mbind]. rewrite F. cbn [mbind]. split; [reflexivity|now constructor].
Qed.
Lemma zseq_in k z : In z (zseq k) <-> 0 <= z < k.
Proof.
  unfold zseq. rewrite in_map_iff. split.
  - intros (i & <- & H). apply in_seq in H. lia.
  - intros H. exists (Z.to_nat z). split; [lia|]. apply in_seq. lia.
Qed.
Lemma degrees_in n m i j : In (i, j) (degrees n m) <-> 0 <= i <= n /\ 0 <= j /\ j <= m /\ j <= i.
Proof.
  unfold degrees. rewrite in_flat_map. split.
  - intros (a & A & H). apply in_map_iff in H. destruct H as (b & E & B). injection E as -> ->. apply zseq_in in A, B. lia.
  - intros H. exists i. split; [apply zseq_in; lia|]. apply in_map_iff. exists j. split; [reflexivity|]. apply zseq_in. lia.
Qed.

(* --- the terms --- *)
Lemma resolve_ok {cs} (l : list cs) fuel a b : (32 <= fuel)%nat -> opt_u32 a -> opt_u32 b ->
  (exists d n m, complete l d /\ asked a b d n m /\ 0 <= n /\ 0 <= m /\ max_degree_of_list fuel l = MDone d /\ resolve_n_m a b d = MDone (n, m) /\ common_checks n m = true)
  \/ ((forall d n m, ~ (complete l d /\ asked a b d n m)) /\
      (max_degree_of_list fuel l = MThrow \/ exists d, max_degree_of_list fuel l = MDone d /\
        (resolve_n_m a b d = MThrow \/ exists n m, resolve_n_m a b d = MDone (n, m) /\ common_checks n m = false))).
Proof.
  intros Hf Ha Hb. destruct (degree_ok fuel l Hf) as [(d & H & E)|[H E]].
  - pose proof (complete_small l d H) as D. assert (D0 : 0 <= d) by apply H.
    assert (CC : forall n m, 0 <= n <= d -> m <= n -> common_checks n m = true).
    { intros n m A B. unfold common_checks. rewrite u32_v. destruct (Z.eqb_spec n (4294967296 - 1)); [lia|]. destruct (Z.ltb_spec n m); [lia|reflexivity]. }
    assert (NC : forall n m, n < m -> common_checks n m = false).
    { intros n m A. unfold common_checks. destruct (n =? u32 - 1); [reflexivity|]. destruct (Z.ltb_spec n m); [reflexivity|lia]. }
    unfold asked, resolve_n_m. destruct a as [a|]; destruct b as [b|]; cbn [opt_u32] in Ha, Hb.
    + destruct (Z.ltb_spec d a).
      * right. split; [intros d' n m (H' & A & B & C); pose proof (complete_unique l d d' H H'); lia|]. right. exists d. split; [exact E|]. left. destruct (Z.ltb_spec d a); [reflexivity|lia].
      * destruct (Z.lt_ge_cases a b).
        -- right. split; [intros d' n m (H' & A & B & C); lia|]. right. exists d. split; [exact E|]. right. exists a, b. destruct (Z.ltb_spec d a); [lia|]. split; [reflexivity|]. apply NC. lia.
        -- left. exists d, a, b. destruct (Z.ltb_spec d a); [lia|]. split; [exact H|]. split; [lia|]. split; [lia|]. split; [lia|]. split; [exact E|]. split; [reflexivity|]. apply CC; lia.
    + destruct (Z.ltb_spec d a).
      * right. split; [intros d' n m (H' & A & B & C); pose proof (complete_unique l d d' H H'); lia|]. right. exists d. split; [exact E|]. left. destruct (Z.ltb_spec d a); [reflexivity|lia].
      * left. exists d, a, a. destruct (Z.ltb_spec d a); [lia|]. split; [exact H|]. split; [lia|]. split; [lia|]. split; [lia|]. split; [exact E|]. split; [reflexivity|]. apply CC; lia.
    + right. split; [intros d' n m (H' & A & B & C); exact A|]. right. exists d. split; [exact E|]. now left.
    + left. exists d, d, d. split; [exact H|]. split; [lia|]. split; [lia|]. split; [lia|]. split; [exact E|]. split; [reflexivity|]. apply CC; lia.
  - right. split; [intros d n m (A & _); exact (H d A)|]. now left.
Qed.
