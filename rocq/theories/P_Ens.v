(** Ensemble propagations: invariant of the executions. *)
From Coq Require Import List Arith Lia Bool Permutation.
From Verif Require Import M_Dag M_Taylor M_Stepper M_Ens S_Ens.
Import ListNotations.
Local Open Scope nat_scope.
Set Bullet Behavior "Strict Subproofs".

Section P.
Context {Obj Cb Res Err : Type}.
Context (ta : Obj) (cb : Cb) (gen : Obj -> nat -> Obj + Err) (copy : Cb -> Cb + Err)
        (propagate : Obj -> Cb -> option ((Obj * Res) + Err)) (n : nat).
Notation phase := (@phase Obj Cb Res).
Notation task := (@task Obj Cb Res).
Notation sys := (@sys Obj Cb Res Err).
Notation gives := (gives ta cb gen copy propagate).
Notation throws := (throws ta cb gen copy propagate).
Notation body := (body ta cb gen copy propagate).
Notation sched := (sched ta cb gen copy propagate).

Definition rng (p : nat * nat) : list nat := seq (fst p) (snd p - fst p).
(* iterations of a chunk that are not finished, and not begun *)
Definition todo (t : task) : list nat := seq (tk_i t) (tk_end t - tk_i t).
Definition unbegun (t : task) : list nat :=
  match tk_ph t with AtGen => todo t | _ => seq (S (tk_i t)) (tk_end t - S (tk_i t)) end.
Definition task_ok (t : task) : Prop :=
  tk_i t <= tk_end t /\
  match tk_ph t with
  | AtGen => True
  | AtCopy x => tk_i t < tk_end t /\ gen ta (tk_i t) = inl x
  | AtProp x c => tk_i t < tk_end t /\ gen ta (tk_i t) = inl x /\ copy cb = inl c
  | AtAssign x r => tk_i t < tk_end t /\ gives (tk_i t) (x, r)
  end.

Record inv (s : sys) : Prop := {
  i_w : Forall (fun p => fst p < snd p) (waiting s);
  i_t : Forall task_ok (running s);
  i_len : length (retval s) = n;
  i_done : exists D K, Permutation (D ++ K ++ flat_map rng (waiting s) ++ flat_map todo (running s)) (seq 0 n) /\
    (exc s = None -> K = []) /\
    (forall i, In i D -> exists r, nth_error (retval s) i = Some (Some r) /\ gives i r);
  i_gens : exists K, Permutation (gens s ++ K ++ flat_map rng (waiting s) ++ flat_map unbegun (running s)) (seq 0 n) /\
    (exc s = None -> K = []);
  i_exc : forall e, exc s = Some e -> exists i, i < n /\ throws i e }.

Lemma seq_cut b m e : b <= m <= e -> seq b (e - b) = seq b (m - b) ++ seq m (e - m).
Proof. intros H. replace (e - b) with ((m - b) + (e - m)) by lia. rewrite seq_app. repeat f_equal; lia. Qed.
Lemma seq_hd b e : b < e -> seq b (e - b) = b :: seq (S b) (e - S b).
Proof. intros H. replace (e - b) with (S (e - S b)) by lia. reflexivity. Qed.

Lemma aset_nth {A} (l : list A) i x : i < length l -> exists l', aset l i x = MDone l' /\ length l' = length l /\
  nth_error l' i = Some x /\ forall j, j <> i -> nth_error l' j = nth_error l j.
Proof.
  intros H. unfold aset. apply Nat.ltb_lt in H as H'. rewrite H'. eexists. split; [reflexivity|].
  assert (Hf : length (firstn i l) = i) by (rewrite firstn_length; lia).
  split; [rewrite app_length; cbn [length]; rewrite Hf, skipn_length; lia|]. split; [rewrite nth_error_app2, Hf, Nat.sub_diag by lia; reflexivity|].
  intros j Hj. destruct (Nat.lt_ge_cases j i) as [Hl|Hl].
  - rewrite nth_error_app1 by lia. rewrite <- (firstn_skipn i l) at 2. now rewrite nth_error_app1 by lia.
  - rewrite nth_error_app2 by lia. rewrite Hf. replace (j - i) with (S (j - S i)) by lia. cbn [nth_error].
    rewrite <- (firstn_skipn (S i) l) at 2. rewrite nth_error_app2; rewrite firstn_length, Nat.min_l by lia; [reflexivity | lia].
Qed.

Lemma inv_start : inv (start n).
Proof.
  unfold start. split; cbn [waiting running retval exc gens].
  - destruct n; cbn; constructor; [cbn; lia | constructor].
  - constructor.
  - apply repeat_length.
  - exists [], []. split; [|split; [auto | intros i []]]. destruct n; cbn [Nat.eqb flat_map app]; [constructor|]. rewrite !app_nil_r. apply Permutation_refl.
  - exists []. split; [|auto]. destruct n; cbn [Nat.eqb flat_map app]; [constructor|]. rewrite !app_nil_r. apply Permutation_refl.
  - discriminate.
Qed.


Definition cnt (l : list nat) (x : nat) : nat := count_occ Nat.eq_dec l x.
Lemma cnt_app l1 l2 x : cnt (l1 ++ l2) x = cnt l1 x + cnt l2 x.
Proof. apply count_occ_app. Qed.
Lemma cnt_perm l1 l2 : Permutation l1 l2 <-> forall x, cnt l1 x = cnt l2 x.
Proof. apply Permutation_count_occ. Qed.
Lemma cnt_fm {A} (f : A -> list nat) l1 a l2 x : cnt (flat_map f (l1 ++ a :: l2)) x = cnt (f a) x + cnt (flat_map f (l1 ++ l2)) x.
Proof. rewrite !flat_map_app. cbn [flat_map]. rewrite !cnt_app. lia. Qed.
Lemma cnt_cons a l x : cnt (a :: l) x = cnt [a] x + cnt l x.
Proof. apply (cnt_app [a] l). Qed.
(* Permutations by counting. *)
Ltac byc P := rewrite cnt_perm in P |- *; let x := fresh "x" in intros x; specialize (P x);
  repeat (rewrite cnt_app in P || rewrite cnt_fm in P); repeat (rewrite cnt_app || rewrite cnt_fm).

Lemma perm_in l (s : list nat) i : Permutation l s -> In i l -> In i s.
Proof. intros. eapply Permutation_in; eauto. Qed.

(* an unfinished iteration of a running chunk *)
Lemma in_todo s t l1 l2 i : inv s -> running s = l1 ++ t :: l2 -> In i (todo t) -> i < n.
Proof.
  intros I E H. destruct (i_done s I) as (D & K & P & _). assert (H0 : In i (seq 0 n)); [|apply in_seq in H0; lia].
  eapply perm_in; [exact P|]. rewrite !in_app_iff. right. right. right. rewrite E, in_flat_map. exists t. split; [|exact H].
  rewrite in_app_iff. right. now left.
Qed.

Lemma forall_mid {A} (P : A -> Prop) l1 x l2 : Forall P (l1 ++ x :: l2) <-> P x /\ Forall P (l1 ++ l2).
Proof. rewrite !Forall_app. split; [intros [H1 H2]; inversion H2; tauto | intros [H1 [H2 H3]]; split; [|constructor]; auto]. Qed.

Lemma throws_body t ret e : task_ok t -> body t ret = BThrow e -> throws (tk_i t) e /\ tk_i t < tk_end t.
Proof.
  destruct t as [i en ph]. unfold M_Ens.body, task_ok. cbn [tk_i tk_end tk_ph]. intros [H0 H] E. destruct ph as [|x|x c|x r].
  - destruct (Nat.eqb_spec i en); [discriminate|]. destruct (gen ta i) eqn:G; [discriminate|]. injection E as <-. split; [now left | lia].
  - destruct H as [H1 H2]. destruct (copy cb) eqn:G; [discriminate|]. injection E as <-. split; [right; left; eauto | lia].
  - destruct H as (H1 & H2 & H3). destruct (propagate x c) as [[[x' r]|e']|] eqn:G; try discriminate. injection E as <-. split; [right; right; eauto 6 | lia].
  - destruct (aset _ _ _); discriminate.
Qed.

(* How a statement changes its chunk. *)
Lemma body_go t ret t' ret' : task_ok t -> body t ret = BGo t' ret' ->
  tk_i t < tk_end t /\ task_ok t' /\ unbegun t = new_gen t ++ unbegun t' /\
  ((ret' = ret /\ todo t' = todo t) \/
   (exists r, gives (tk_i t) r /\ todo t = tk_i t :: todo t' /\ length ret' = length ret /\
      nth_error ret' (tk_i t) = Some (Some r) /\ forall j, j <> tk_i t -> nth_error ret' j = nth_error ret j)).
Proof.
  destruct t as [i en ph]. unfold M_Ens.body, task_ok, unbegun, todo, new_gen. cbn [tk_i tk_end tk_ph]. intros [H0 H] E. destruct ph as [|x|x c|x r].
  - destruct (Nat.eqb_spec i en) as [|Hne]; [discriminate|]. destruct (gen ta i) as [x|] eqn:G; [|discriminate]. injection E as <- <-. cbn [tk_i tk_end tk_ph].
    repeat split; try lia; auto. apply seq_hd; lia.
  - destruct H as [H1 H2]. destruct (copy cb) as [c|] eqn:G; [|discriminate]. injection E as <- <-. cbn [tk_i tk_end tk_ph]. repeat split; auto.
  - destruct H as (H1 & H2 & H3). destruct (propagate x c) as [[[x' r]|e']|] eqn:G; try discriminate. injection E as <- <-. cbn [tk_i tk_end tk_ph].
    repeat split; auto. exists x, c. auto.
  - destruct H as [H1 H2]. assert (Hl : i < length ret) by (unfold aset in E; destruct (Nat.ltb_spec i (length ret)) as [Hl|Hl]; [exact Hl | discriminate]).
    destruct (aset_nth ret i (Some (x, r)) Hl) as (l' & A1 & A2 & A3 & A4). rewrite A1 in E.
    injection E as <- <-. cbn [tk_i tk_end tk_ph]. split; [exact H1|]. split; [split; [lia | exact I]|]. split; [reflexivity|]. right. exists (x, r).
    split; [exact H2|]. split; [apply seq_hd; lia|]. auto.
Qed.

Lemma inv_step s s' : inv s -> sched s s' -> inv s'.
Proof.
  intros I H. pose proof I as I0. destruct I as [Iw It Il Id Ig Ie]. destruct H as [l1 b m e l2 run ret ex g Hm|l1 b e l2 run ret ex g|l1 b e l2 run ret x g|w l1 t l2 ret t' ret' ex g Hb|w l1 t l2 ret ex g Hb|w l1 t l2 ret e ex g Hb];
    cbn [waiting running retval exc gens] in *.
  - (* split *)
    assert (E : flat_map rng (l1 ++ (b, m) :: (m, e) :: l2) = flat_map rng (l1 ++ (b, e) :: l2)).
    { rewrite !flat_map_app. cbn [flat_map]. unfold rng at 2 3 6; cbn [fst snd]. rewrite (seq_cut b m e) by lia. now rewrite <- app_assoc. }
    split; cbn [waiting running retval exc gens]; try rewrite E; auto.
    apply forall_mid in Iw as [H1 H2]. apply forall_mid. cbn. split; [lia|]. apply forall_mid. cbn. split; [lia | exact H2].
  - (* take *)
    apply forall_mid in Iw as [H1 H2]. cbn in H1.
    split; cbn [waiting running retval exc gens]; auto.
    + constructor; [split; cbn; [lia | exact I] | exact It].
    + destruct Id as (D & K & P & Q). exists D, K. split; [|exact Q]. byc P. cbn [flat_map]. rewrite cnt_app. change (todo (MkTask b e AtGen)) with (rng (b, e)). lia.
    + destruct Ig as (K & P & Q). exists K. split; [|exact Q]. byc P. cbn [flat_map]. rewrite cnt_app. change (unbegun (MkTask b e AtGen)) with (rng (b, e)). lia.
  - (* skip *)
    apply forall_mid in Iw as [H1 H2].
    split; cbn [waiting running retval exc gens]; auto.
    + destruct Id as (D & K & P & Q1 & Q2). exists D, (K ++ rng (b, e)). split; [|split; [discriminate | exact Q2]]. byc P. lia.
    + destruct Ig as (K & P & Q1). exists (K ++ rng (b, e)). split; [|discriminate]. byc P. lia.
  - (* statement *)
    apply forall_mid in It as [T It]. destruct (body_go _ _ _ _ T Hb) as (B0 & B1 & B2 & B3).
    assert (Hi : tk_i t < n) by (eapply in_todo; [exact I0 | reflexivity|]; unfold todo; apply in_seq; lia).
    split; cbn [waiting running retval exc gens]; auto.
    + apply forall_mid. auto.
    + destruct B3 as [[-> _]|(r & _ & _ & -> & _)]; exact Il.
    + destruct Id as (D & K & P & Q1 & Q2). destruct B3 as [[-> B3]|(r & R1 & R2 & R3 & R4 & R5)].
      * exists D, K. split; [|auto]. byc P. rewrite B3. lia.
      * exists (tk_i t :: D), K. split; [|split; [exact Q1|]].
        -- byc P. rewrite cnt_cons. rewrite R2, cnt_cons in P. lia.
        -- intros j Hj. destruct (Nat.eq_dec j (tk_i t)) as [->|Hne]; [eauto|]. destruct Hj as [Hj|Hj]; [congruence|].
           rewrite R5 by exact Hne. auto.
    + destruct Ig as (K & P & Q1). exists K. split; [|auto]. byc P. rewrite B2, cnt_app in P. lia.
  - (* end *)
    apply forall_mid in It as [T It]. unfold M_Ens.body in Hb. destruct t as [i en ph]. cbn [tk_i tk_end tk_ph] in Hb. destruct ph as [|x|x c|x r].
    + destruct (Nat.eqb_spec i en) as [->|Hne]; [|destruct (gen ta i); discriminate].
      assert (E : todo (MkTask en en AtGen) = []) by (unfold todo; cbn; now rewrite Nat.sub_diag).
      split; cbn [waiting running retval exc gens]; auto.
      * destruct Id as (D & K & P & Q). exists D, K. split; [|exact Q]. byc P. rewrite E in P. cbn in P |- *. lia.
      * destruct Ig as (K & P & Q). exists K. split; [|exact Q]. byc P. change (unbegun (MkTask en en AtGen)) with (todo (MkTask en en AtGen)) in P. rewrite E in P. cbn in P |- *. lia.
    + destruct (copy cb); discriminate.
    + destruct (propagate x c) as [[[? ?]|]|]; discriminate.
    + destruct (aset _ _ _); discriminate.
  - (* throw *)
    apply forall_mid in It as [T It]. destruct (throws_body _ _ _ T Hb) as [Th Hlt].
    assert (Hi : tk_i t < n) by (eapply in_todo; [exact I0 | reflexivity|]; unfold todo; apply in_seq; lia).
    split; cbn [waiting running retval exc gens]; auto.
    + destruct Id as (D & K & P & Q1 & Q2). exists D, (K ++ todo t). split; [|split; [destruct ex; discriminate | exact Q2]]. byc P. lia.
    + destruct Ig as (K & P & Q). destruct (list_eq_dec Nat.eq_dec (new_gen t) []) as [E|E].
      * exists (K ++ unbegun t). split; [|destruct ex; discriminate]. rewrite E. byc P. cbn. lia.
      * exists (K ++ seq (S (tk_i t)) (tk_end t - S (tk_i t))). split; [|destruct ex; discriminate].
        assert (E' : unbegun t = new_gen t ++ seq (S (tk_i t)) (tk_end t - S (tk_i t))).
        { unfold unbegun, new_gen, todo in *. destruct t as [i en ph]. cbn [tk_i tk_end tk_ph] in *. destruct ph; try contradiction.
          destruct (Nat.eqb_spec i en); [contradiction|]. apply seq_hd. lia. }
        byc P. rewrite E', cnt_app in P. lia.
    + intros e' He. destruct ex as [e0|]; injection He as <-; [apply Ie; reflexivity | eauto].
Qed.

Lemma inv_execution s : execution ta cb gen copy propagate (start n) s -> inv s.
Proof. intros H. remember (start n) as s0. induction H as [|s0 s' s'' H IH H']; subst; [apply inv_start|]. eapply inv_step; eauto. Qed.

Lemma all_some (ret : list (option (Obj * Res))) : length ret = n -> (forall i, i < n -> exists r, nth_error ret i = Some (Some r) /\ gives i r) ->
  exists rs, ret = map Some rs /\ length rs = n /\ forall i r, nth_error rs i = Some r -> gives i r.
Proof.
  intros L H.
  assert (K : forall m, m <= n -> exists rs, firstn m ret = map Some rs /\ length rs = m /\ forall i r, nth_error rs i = Some r -> gives i r).
  { induction m as [|m IH]; intros Hm; [exists []; split; [reflexivity|]; split; [reflexivity|]; intros [|i] r; discriminate|].
    destruct IH as (rs & E1 & E2 & E3); [lia|]. destruct (H m ltac:(lia)) as (r & R1 & R2). exists (rs ++ [r]).
    split; [|split; [rewrite app_length; cbn; lia|]].
    - rewrite map_app, <- E1. cbn [map]. clear - R1. revert m R1. induction ret as [|x l IH]; intros [|m] R1; try discriminate.
      + cbn in R1. now injection R1 as ->.
      + cbn [nth_error] in R1. rewrite 2!firstn_cons. cbn. f_equal. now apply IH.
    - intros i x Hi. destruct (Nat.lt_ge_cases i m) as [Hl|Hl].
      + rewrite nth_error_app1 in Hi by lia. eauto.
      + rewrite nth_error_app2 in Hi by lia. destruct (i - length rs) as [|k] eqn:Ek; [|destruct k; discriminate].
        injection Hi as <-. replace i with m by lia. exact R2. }
  destruct (K n (le_n _)) as (rs & E1 & E2 & E3). exists rs. rewrite firstn_all2 in E1 by lia. auto.
Qed.

Lemma result s : execution ta cb gen copy propagate (start n) s -> ended s ->
  match returned s with
  | inl ret => (exists rs, ret = map Some rs /\ length rs = n /\ forall i r, nth_error rs i = Some r -> gives i r) /\ Permutation (gens s) (seq 0 n)
  | inr e => exists i, i < n /\ throws i e
  end.
Proof.
  intros H [E1 E2]. apply inv_execution in H as [_ _ Il Id Ig Ie]. unfold returned. rewrite E1, E2 in *. cbn [flat_map] in *. rewrite !app_nil_r in *.
  destruct (exc s) as [e|]; [auto|]. destruct Id as (D & K & P & Q1 & Q2). rewrite (Q1 eq_refl), app_nil_r in P.
  destruct Ig as (K' & P' & Q'). rewrite (Q' eq_refl), app_nil_r in P'. split; [|exact P'].
  apply all_some; [exact Il|]. intros i Hi. apply Q2. eapply Permutation_in; [symmetry; exact P|]. apply in_seq. lia.
Qed.

(* No statement writes outside of the array, and there is always something to do. *)
Lemma body_defined s t : inv s -> In t (running s) -> body t (retval s) <> BUB.
Proof.
  intros I Ht. apply in_split in Ht as (l1 & l2 & E). pose proof (i_t s I) as It. rewrite E in It. apply forall_mid in It as [T _].
  unfold M_Ens.body. destruct t as [i en ph] eqn:Et. cbn [tk_i tk_end tk_ph]. destruct ph as [|x|x c|x r].
  - destruct (i =? en); [discriminate|]. destruct (gen ta i); discriminate.
  - destruct (copy cb); discriminate.
  - destruct (propagate x c) as [[[? ?]|]|]; discriminate.
  - destruct T as [_ [T _]]. cbn in T. assert (Hi : i < n) by (eapply (in_todo s _ l1 l2); [exact I | exact E|]; unfold todo; cbn; apply in_seq; lia).
    destruct (aset_nth (retval s) i (Some (x, r))) as (l' & -> & _); [rewrite (i_len s I); exact Hi | discriminate].
Qed.
Lemma body_hangs s t : inv s -> In t (running s) -> body t (retval s) = BHang -> exists i, i < n /\ ~ ends ta cb gen copy propagate i.
Proof.
  intros I Ht Hb. apply in_split in Ht as (l1 & l2 & E). pose proof (i_t s I) as It. rewrite E in It. apply forall_mid in It as [T _].
  assert (Ht : tk_i t < tk_end t -> tk_i t < n) by (intros H; eapply (in_todo s _ l1 l2); [exact I | exact E|]; unfold todo; cbn; apply in_seq; lia).
  destruct t as [i en ph] eqn:Et. unfold M_Ens.body in Hb. cbn [tk_i tk_end tk_ph] in *. destruct ph as [|x|x c|x r].
  - destruct (i =? en); [discriminate|]. destruct (gen ta i); discriminate.
  - destruct (copy cb); discriminate.
  - destruct T as [_ (T1 & T2 & T3)]. cbn in *. exists i. split; [auto|]. destruct (propagate x c) as [[[? ?]|]|] eqn:G; try discriminate.
    intros [(r & x' & c' & G1 & G2 & G3)|(e & [G1|[(x' & G1 & G2)|(x' & c' & G1 & G2 & G3)]])]; congruence.
  - destruct (aset _ _ _); discriminate.
Qed.
Lemma progress s : inv s -> (forall i, i < n -> ends ta cb gen copy propagate i) -> ~ ended s -> exists s', sched s s'.
Proof.
  intros I He Hn. destruct s as [w run ret ex g]. unfold ended in Hn. cbn [waiting running] in Hn. destruct w as [|[b e] w].
  - destruct run as [|t run]; [tauto|]. pose proof (body_defined _ t I (or_introl eq_refl)) as U. pose proof (body_hangs _ t I (or_introl eq_refl)) as V.
    cbn [retval] in U, V. destruct (body t ret) as [|t' ret'|e| |] eqn:Eb.
    + eexists. exact (sc_end _ _ _ _ _ [] [] t run ret ex g Eb).
    + eexists. exact (sc_go _ _ _ _ _ [] [] t run ret t' ret' ex g Eb).
    + eexists. exact (sc_throw _ _ _ _ _ [] [] t run ret e ex g Eb).
    + destruct V as (i & Hi & Hx); [reflexivity|]. elim Hx. auto.
    + congruence.
  - eexists. exact (sc_take _ _ _ _ _ [] b e w run ret ex g).
Qed.

(* Termination. *)
Definition ph_left (p : phase) : nat := match p with AtGen => 3 | AtCopy _ => 2 | AtProp _ _ => 1 | AtAssign _ _ => 0 end.
Definition t_left (t : task) : nat := 5 * (tk_end t - tk_i t) + ph_left (tk_ph t) + 1.
Definition w_left (p : nat * nat) : nat := 20 * (snd p - fst p) - 1.
Definition left_ (s : sys) : nat := list_sum (map w_left (waiting s)) + list_sum (map t_left (running s)).
Lemma sum_mid {A} (f : A -> nat) l1 a l2 : list_sum (map f (l1 ++ a :: l2)) = f a + list_sum (map f (l1 ++ l2)).
Proof. rewrite !map_app, !list_sum_app. change (list_sum (map f (a :: l2))) with (f a + list_sum (map f l2)). lia. Qed.
Lemma sched_left s s' : inv s -> sched s s' -> left_ s' < left_ s.
Proof.
  intros I H. destruct I as [Iw It _ _ _ _]. destruct H as [l1 b m e l2 run ret ex g Hm|l1 b e l2 run ret ex g|l1 b e l2 run ret x g|w l1 t l2 ret t' ret' ex g Hb|w l1 t l2 ret ex g Hb|w l1 t l2 ret e ex g Hb];
    unfold left_; cbn [waiting running] in *; rewrite ?sum_mid.
  - unfold w_left; cbn [fst snd]. lia.
  - apply forall_mid in Iw as [H _]. cbn in H.
    change (list_sum (map t_left (MkTask b e AtGen :: run))) with (t_left (MkTask b e AtGen) + list_sum (map t_left run)).
    assert (t_left (MkTask b e AtGen) < w_left (b, e)) by (unfold w_left, t_left; cbn [fst snd tk_i tk_end tk_ph ph_left]; lia). lia.
  - apply forall_mid in Iw as [H _]. cbn in H. assert (0 < w_left (b, e)) by (unfold w_left; cbn [fst snd]; lia). lia.
  - apply forall_mid in It as [T _]. destruct (body_go _ _ _ _ T Hb) as (B0 & _). assert (t_left t' < t_left t); [|lia].
    unfold M_Ens.body in Hb. destruct t as [i en ph]. cbn [tk_i tk_end tk_ph] in *. unfold t_left. cbn [tk_i tk_end tk_ph]. destruct ph as [|x|x c|x r].
    + destruct (i =? en); [discriminate|]. destruct (gen ta i); [|discriminate]. injection Hb as <- <-. cbn. lia.
    + destruct (copy cb); [|discriminate]. injection Hb as <- <-. cbn. lia.
    + destruct (propagate x c) as [[[? ?]|]|]; try discriminate. injection Hb as <- <-. cbn. lia.
    + destruct (aset _ _ _); try discriminate. injection Hb as <- <-. cbn [tk_i tk_end tk_ph ph_left]. lia.
  - assert (0 < t_left t) by (unfold t_left; lia). lia.
  - assert (0 < t_left t) by (unfold t_left; lia). lia.
Qed.
End P.

Lemma nth_error_ext {A} : forall l1 l2 : list A, (forall i, nth_error l1 i = nth_error l2 i) -> l1 = l2.
Proof.
  induction l1 as [|x l1 IH]; intros [|y l2] H; [reflexivity | specialize (H 0); discriminate | specialize (H 0); discriminate|].
  pose proof (H 0) as H0. cbn in H0. injection H0 as ->. f_equal. apply IH. intros i. exact (H (S i)).
Qed.
