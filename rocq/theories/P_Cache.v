(** Proofs about histories of cache operations by several processes. *)
From Coq Require Import List NArith ZArith Ascii Bool Lia Arith Permutation.
From Verif Require Import M_Blob P_Blob M_Cache S_Cache P_MemCache P_DiskCache.
Import ListNotations.

Section WithHash.
Variable hash : list bytes -> N -> bytes -> Z.

Definition winv (I : bytes -> mkey -> mval -> Prop) (fps : N -> bytes) (w : world) : Prop :=
  (forall i, p_fp (w_procs w i) = fps i /\ mem_inv (p_mem (w_procs w i)) /\
     forall k v, map_find k (m_map (p_mem (w_procs w i))) = Some v -> I (fps i) k v) /\
  (forall j, db_ok hash I (w_dbs w j)).

Definition op_ins (fps : N -> bytes) (i : N) (o : op) (fp : bytes) (k : mkey) (v : mval) : Prop :=
  (o = OpTryInsert k v \/ exists n fp', o = OpCrashInsert n k v fp') /\ fps i = fp.

Lemma upd_same : forall {A} (f : N -> A) i a, upd f i a i = a.
Proof. intros. unfold upd. rewrite N.eqb_refl. reflexivity. Qed.
Lemma upd_other : forall {A} (f : N -> A) i j a, j <> i -> upd f i a j = f j.
Proof. intros. unfold upd. apply N.eqb_neq in H. rewrite H. reflexivity. Qed.

Lemma winv_put_mem : forall I fps w i m,
  winv I fps w -> mem_inv m -> (forall k v, map_find k (m_map m) = Some v -> I (fps i) k v) ->
  winv I fps (put_proc w i (with_mem (w_procs w i) m)).
Proof.
  intros I fps w i m [H1 H2] Hm Hv. split; auto. simpl. intros j. unfold upd.
  destruct (N.eqb_spec j i).
  - subst. simpl. destruct (H1 i) as (? & ? & ?). auto.
  - apply H1.
Qed.
Lemma winv_put_db : forall I fps w j d, winv I fps w -> db_ok hash I d -> winv I fps (put_db w j d).
Proof.
  intros I fps w j d [H1 H2] Hd. split; auto. simpl. intros j'. unfold upd. destruct (N.eqb_spec j' j); auto.
Qed.
Lemma winv_mono : forall (I J : bytes -> mkey -> mval -> Prop) fps w, (forall fp k v, I fp k v -> J fp k v) -> winv I fps w -> winv J fps w.
Proof.
  intros I J fps w H [H1 H2]. split.
  - intros i. destruct (H1 i) as (? & ? & ?). auto.
  - intros j. eapply db_ok_mono; eauto.
Qed.
Lemma winv_restart : forall I fps w i fp, winv I fps w -> winv I (upd fps i fp) (put_proc w i (MkProc mem_init false 0 fp)).
Proof.
  intros I fps w i fp [H1 H2]. split; auto. simpl. intros j. unfold upd. destruct (N.eqb_spec j i).
  - simpl. split; auto. split; [apply mem_init_inv|]. discriminate.
  - apply H1.
Qed.

Lemma insert_entries_from : forall c k v c', mem_inv c -> map_find k (m_map c) = None -> mem_insert_impl c k v = Ok c' ->
  mem_inv c' /\ forall k' v', map_find k' (m_map c') = Some v' -> (k' = k /\ v' = v) \/ map_find k' (m_map c) = Some v'.
Proof.
  intros c k v c' Hi Hn E. destruct (insert_impl_spec c k v Hi Hn) as (c2 & E2 & Hi2 & _ & HL).
  rewrite E in E2. inversion E2; subst c2. split; auto.
  intros k' v' Hf. apply (mem_entries_find c' k' v' Hi2) in Hf.
  destruct HL as [[_ HL]|(kept & ev & Hold & Hnew & _ & _)].
  - rewrite HL in Hf. destruct Hf.
  - rewrite Hnew in Hf. destruct Hf as [Hf|Hf]; [inversion Hf; auto|].
    right. apply mem_entries_find; auto. rewrite Hold. apply in_or_app. auto.
Qed.

Lemma lookup_entries_from : forall c k v c', mem_inv c -> mem_lookup c k = Some (v, c') ->
  mem_inv c' /\ map_find k (m_map c) = Some v /\ m_map c' = m_map c.
Proof.
  intros c k v c' Hi E. pose proof (lookup_spec c k Hi) as H. rewrite E in H. destruct H as [H _]. split; auto.
  unfold mem_lookup in E. destruct (map_find k (m_map c)); inversion E; subst. simpl. auto.
Qed.

Definition next_fps (fps : N -> bytes) (i : N) (o : op) : N -> bytes :=
  match o with
  | OpCrashInsert _ _ _ fp | OpCrashClear _ fp | OpRestart fp => upd fps i fp
  | _ => fps
  end.

Lemma step_inv : forall I fps w i o,
  winv I fps w ->
  exists a w', step hash w i o = Ok (a, w') /\
    winv (fun fp k v => I fp k v \/ op_ins fps i o fp k v) (next_fps fps i o) w' /\
    (forall k v, o = OpLookup k -> a = AVal (Some v) -> I (fps i) k v).
Proof.
  intros I fps w i o Hw.
  assert (HI : forall fp k v, I fp k v -> I fp k v \/ op_ins fps i o fp k v) by auto.
  set (J := fun fp k v => I fp k v \/ op_ins fps i o fp k v) in *.
  assert (HwJ : winv J fps w) by (eapply winv_mono; eauto).
  destruct Hw as [HP HD]. destruct (HP i) as (Hfp & Hmi & Hmv).
  assert (HmvJ : forall k v, map_find k (m_map (p_mem (w_procs w i))) = Some v -> J (fps i) k v) by (intros; apply HI; auto).
  destruct o as [k|k v|l| |b|dir|l| |n k v fp|n fp|fp]; cbn [step next_fps].
  - (* lookup *)
    destruct (mem_lookup (p_mem (w_procs w i)) k) as [[v m']|] eqn:El.
    + destruct (lookup_entries_from _ _ _ _ Hmi El) as (Hm' & Hf & Hmap).
      eexists _, _. split; [reflexivity|]. split.
      * apply winv_put_mem; auto. rewrite Hmap. intros; apply HI; auto.
      * intros k0 v0 Hk Hv. inversion Hk; inversion Hv; subst. auto.
    + destruct (p_enabled (w_procs w i)).
      * destruct (db_lookup_ok hash I (p_fp (w_procs w i)) (w_dbs w (p_dir (w_procs w i))) k (HD _)) as (a & d' & E & Hd' & Ha).
        rewrite E. destruct a as [v|].
        { assert (Hn : map_find k (m_map (p_mem (w_procs w i))) = None).
          { unfold mem_lookup in El. destruct (map_find k (m_map (p_mem (w_procs w i)))); [discriminate|auto]. }
          destruct (insert_impl_spec (p_mem (w_procs w i)) k v Hmi Hn) as (m' & Em & Hm' & _ & _). rewrite Em.
          destruct (insert_entries_from _ _ _ _ Hmi Hn Em) as (_ & Hfrom).
          rewrite Hfp in Ha.
          eexists _, _. split; [reflexivity|]. split.
          - change (w_procs w i) with (w_procs (put_db w (p_dir (w_procs w i)) d') i) at 2.
            apply winv_put_mem; auto.
            + apply winv_put_db; auto. eapply db_ok_mono; eauto.
            + intros k' v' Hf. apply HI. destruct (Hfrom _ _ Hf) as [[-> ->]|Hf2]; auto.
          - intros k0 v0 Hk Hv. inversion Hk; inversion Hv; subst. auto. }
        { eexists _, _. split; [reflexivity|]. split; [|intros; discriminate].
          apply winv_put_db; auto. eapply db_ok_mono; eauto. }
      * eexists _, _. split; [reflexivity|]. split; auto. intros; discriminate.
  - (* try_insert *)
    assert (HJ : J (fps i) k v) by (right; split; auto).
    assert (Hw1 : winv J fps (if p_enabled (w_procs w i)
        then put_db w (p_dir (w_procs w i)) (db_insert hash None (p_fp (w_procs w i)) (w_dbs w (p_dir (w_procs w i))) k v) else w)).
    { destruct (p_enabled (w_procs w i)); auto. apply winv_put_db; auto. apply db_insert_ok; [apply HwJ|]. rewrite Hfp. auto. }
    destruct (map_find k (m_map (p_mem (w_procs w i)))) as [v0|] eqn:Hn.
    + eexists _, _. split; [reflexivity|]. split; auto. intros; discriminate.
    + destruct (insert_impl_spec (p_mem (w_procs w i)) k v Hmi Hn) as (m' & Em & Hm' & _ & _). rewrite Em.
      destruct (insert_entries_from _ _ _ _ Hmi Hn Em) as (_ & Hfrom).
      eexists _, _. split; [reflexivity|]. split; [|intros; discriminate].
      set (w1 := if p_enabled (w_procs w i) then _ else w) in *.
      assert (Hp : w_procs w i = w_procs w1 i) by (unfold w1; destruct (p_enabled (w_procs w i)); reflexivity).
      clearbody w1. rewrite Hp.
      apply winv_put_mem; auto. intros k' v' Hf. destruct (Hfrom _ _ Hf) as [[-> ->]|Hf2]; auto.
  - eexists _, _. split; [reflexivity|]. split; [|intros; discriminate]. apply winv_put_mem; auto.
  - eexists _, _. split; [reflexivity|]. split; [|intros; discriminate]. apply winv_put_mem; auto.
    + repeat split; simpl; auto; constructor.
    + simpl. discriminate.
  - eexists _, _. split; [reflexivity|]. split; [|intros; discriminate].
    destruct HwJ as [H1 H2]. split; auto. simpl. intros j. unfold upd. destruct (N.eqb_spec j i); [subst; simpl|]; apply H1.
  - eexists _, _. split; [reflexivity|]. split; [|intros; discriminate].
    destruct HwJ as [H1 H2]. split; auto. simpl. intros j. unfold upd. destruct (N.eqb_spec j i); [subst; simpl|]; apply H1.
  - unfold db_set_limit. destruct (Z.ltb_spec l 0).
    + eexists _, _. split; [reflexivity|]. split; auto. intros; discriminate.
    + eexists _, _. split; [reflexivity|]. split; [|intros; discriminate]. apply winv_put_db; auto.
      destruct (HwJ) as [_ H2]. destruct (H2 (p_dir (w_procs w i))) as [(W1 & W2 & W3 & W4 & W5) Hr].
      split; [repeat split; auto|exact Hr].
  - eexists _, _. split; [reflexivity|]. split; [|intros; discriminate]. apply winv_put_db; auto. apply db_clear_ok. apply HwJ.
  - (* crash during insertion *)
    eexists _, _. split; [reflexivity|]. split; [|intros; discriminate].
    apply winv_restart. destruct (p_enabled (w_procs w i)); auto. apply winv_put_db; auto.
    apply db_insert_ok; [apply HwJ|]. right. split; eauto.
  - eexists _, _. split; [reflexivity|]. split; [|intros; discriminate].
    apply winv_restart. apply winv_put_db; auto. apply db_clear_ok. apply HwJ.
  - eexists _, _. split; [reflexivity|]. split; [|intros; discriminate]. apply winv_restart. auto.
Qed.

Lemma fp_of_cons : forall fps i o h, fp_of fps ((i, o) :: h) = fp_of (next_fps fps i o) h.
Proof. intros. destruct o; reflexivity. Qed.

Lemma inserted_cons : forall fps i o h fp k v,
  op_ins fps i o fp k v \/ inserted (next_fps fps i o) h fp k v -> inserted fps ((i, o) :: h) fp k v.
Proof.
  intros fps i o h fp k v [[H1 H2]|(h1 & j & o' & h2 & -> & Ho & Hf)].
  - exists [], i, o, h. auto.
  - exists ((i, o) :: h1), j, o', h2. split; auto. split; auto. rewrite fp_of_cons. auto.
Qed.

Lemma run_inv : forall h I fps w, winv I fps w ->
  exists answers w', run hash w h = Ok (answers, w') /\
    winv (fun fp k v => I fp k v \/ inserted fps h fp k v) (fp_of fps h) w' /\
    (forall h1 i k h2 v, h = h1 ++ (i, OpLookup k) :: h2 -> nth_error answers (length h1) = Some (AVal (Some v)) ->
       I (fp_of fps h1 i) k v \/ inserted fps h1 (fp_of fps h1 i) k v).
Proof.
  induction h as [|[i o] h IH]; intros I fps w Hw.
  - exists [], w. split; [reflexivity|]. split; [eapply winv_mono; [|exact Hw]; auto|].
    intros [|? ?] ? ? ? ? H; discriminate.
  - destruct (step_inv I fps w i o Hw) as (a & w1 & E1 & Hw1 & Ha).
    destruct (IH _ _ _ Hw1) as (answers & w2 & E2 & Hw2 & Hans).
    exists (a :: answers), w2. split; [cbn [run]; rewrite E1, E2; reflexivity|]. split.
    + rewrite fp_of_cons. eapply winv_mono; [|exact Hw2]. simpl. intros fp k v [[H|H]|H]; auto;
      right; apply inserted_cons; auto.
    + intros [|[i1 o1] h1] j k h2 v Heq Hn.
      * simpl in Heq. inversion Heq; subst. simpl in Hn. inversion Hn; subst. simpl. left. eapply Ha; eauto.
      * simpl in Heq. inversion Heq; subst. simpl in Hn.
        rewrite fp_of_cons. destruct (Hans h1 j k h2 v eq_refl Hn) as [[H|H]|H]; auto; right; apply inserted_cons; auto.
Qed.

Lemma winv_init : forall fps, winv (fun _ _ _ => False) fps (world_init fps).
Proof.
  intros fps. split.
  - intros i. simpl. split; auto. split; [apply mem_init_inv|]. discriminate.
  - intros j. apply db_init_ok.
Qed.

End WithHash.
