(* Compiled functions: code generation and execution in compact mode. *)
From Coq Require Import String Ascii Bool ZArith Arith List Lia Permutation.
From Verif Require Import M_Expr M_Dag M_Dec S_Expr S_Dag S_Dec P_ExprSem P_Subs P_Dag P_Dec P_Vars P_DecX.
From Verif Require Import M_Taylor M_Adj P_Adj2 P_Cfunc1 M_Cfunc S_Cfunc P_Cfunc2 P_Cfunc3 P_Cfunc4.
Import ListNotations.
Local Open Scope nat_scope.
Set Bullet Behavior "Strict Subproofs".

(* --- Names without dots ------------------------------------------------------------------------- *)
Lemma dec_dot n : has_char (Ascii.eqb ".") (dec_string n) = false.
Proof. unfold dec_string. induction (Nat.to_uint n); cbn; auto. Qed.

Section Gen.
Context (o : nops).
Local Notation ex := (expr (num o)).
Context (lname : fid (num o) -> list ex -> string) (fname : fid (num o) -> string) (K : fid (num o) -> Prop).
Local Notation shaped := (shaped o lname fname K).
Local Notation dirty := (dirty o lname fname K).

Lemma comp_dot : clean_names o K lname fname -> forall e k, named o K e -> has_char (Ascii.eqb ".") (fst (comp_str o lname e k)) = false.
Proof.
  intros HC. induction e as [x|v|i|f args IH] using expr_ind'; intros k HK.
  1-3: cbn; apply dec_dot.
  rewrite comp_str_fun. cbn [fst]. rewrite !has_char_app. destruct (HC f args (HK _ _ (occ_here _))) as (_ & _ & ->). cbn [orb].
  assert (NA : Forall (named o K) args) by (apply Forall_forall; intros a; now apply (named_arg o K f args)). clear HK.
  replace (has_char (Ascii.eqb ".") (fst (comp_args o lname args k))) with false; [reflexivity|]. symmetry.
  revert k. induction IH as [|a l Ha Hl IHl]; intros k; [reflexivity|]. destruct l as [|b l].
  - rewrite comp_args_one. apply Ha. exact (Forall_inv NA).
  - rewrite comp_args_more. cbn [fst]. rewrite !has_char_app, Ha, IHl by (now inversion NA). reflexivity.
Qed.
Lemma shaped_dot c : shaped c -> clean_names o K lname fname -> has_char (Ascii.eqb ".") (ce_name o c) = false.
Proof.
  intros HS HC. destruct HS as [e args H1 HK H2 H3|f args args0 HK H1 H2]; cbn [ce_name].
  - rewrite has_char_app, comp_dot by assumption. reflexivity.
  - now apply (HC f args0).
Qed.

(* --- Segments ----------------------------------------------------------------------------------------- *)
Definition reads (b : nat) (c : celt o) : Prop := Forall (arg_ok b) (ce_args o c).
Fixpoint seg_ok (b : nat) (segs : list (list (celt o))) : Prop :=
  match segs with
  | [] => True
  | s :: r => Forall (reads b) s /\ seg_ok (b + length s) r
  end.
Lemma indices_ok b c : reads b c -> exists idx, ce_indices o c = MDone idx /\
  forall lim, existsb (fun j => Nat.leb lim j) idx = false -> reads lim c.
Proof.
  unfold ce_indices, reads. induction (ce_args o c) as [|a l IH]; intros H.
  - exists []. split; [reflexivity|]. constructor.
  - inversion H as [|? ? Ha Hl]; subst. destruct (IH Hl) as (idx & E & Hi). apply mbind_done in E. destruct E as (ls & E & Eq). apply (f_equal (fun r => match r with MDone x => x | _ => [] end)) in Eq. cbn in Eq.
    assert (HA : exists i, match a with EVar s => match uname_to_index s with Some i => MDone [i] | None => MThrow end | ENum _ | EPar _ => MDone [] | EFun _ _ => MUB end = MDone i /\
      forall lim, existsb (fun j => Nat.leb lim j) i = false -> arg_ok lim a).
    { destruct a as [x|s|i|f args]; cbn in Ha; try (exists []; split; [reflexivity | intros; exact I]); [|destruct Ha].
      destruct Ha as (j & Hj & ->). rewrite uname_index. exists [j]. split; [reflexivity|]. intros lim. cbn. rewrite orb_false_r. destruct (Nat.leb_spec lim j); [discriminate|].
      intros _. exists j. auto. }
    destruct HA as (i & E1 & Hi1). exists (i ++ idx). split.
    + cbn [mmap]. rewrite E1. cbn [mbind]. rewrite E. cbn [mbind concat]. now rewrite Eq.
    + intros lim. rewrite existsb_app. intros Hx. apply orb_false_iff in Hx. constructor; [now apply Hi1 | now apply Hi].
Qed.
Definition curl (cur : option (list (celt o))) : list (celt o) := match cur with Some c => c | None => [] end.
Lemma cseg_ok : forall els i lim done cur, (forall m c, nth_error els m = Some c -> reads (i + m) c) ->
  Forall (reads lim) (curl cur) -> i = lim + length (curl cur) ->
  exists segs, cseg_go o i lim els done cur = MDone (done ++ segs) /\ concat segs = curl cur ++ els /\ seg_ok lim segs.
Proof.
  induction els as [|p r IH]; intros i lim done cur Hr Hc Hi; cbn [cseg_go].
  - exists (match cur with Some c => [c] | None => [] end). split; [reflexivity|]. destruct cur; cbn in *; rewrite ?app_nil_r; auto.
  - fold (curl cur). pose proof (Hr 0 p eq_refl) as Hp. destruct (indices_ok _ _ Hp) as (idx & -> & Hidx). cbn [mbind].
    assert (Hr' : forall m c, nth_error r m = Some c -> reads (S i + m) c).
    { intros m c Hm. replace (S i + m) with (i + S m) by lia. now apply Hr. }
    destruct (existsb _ idx) eqn:E.
    + destruct (IH (S i) i (done ++ [curl cur]) (Some [p])) as (segs & E1 & E2 & E3); auto.
      * cbn. rewrite Nat.add_0_r in Hp. auto.
      * cbn. lia.
      * exists (curl cur :: segs). rewrite E1, <- app_assoc. split; [reflexivity|]. cbn [concat seg_ok]. rewrite E2. split; [reflexivity|]. split; [exact Hc|]. now rewrite <- Hi.
    + destruct (IH (S i) lim done (Some (curl cur ++ [p]))) as (segs & E1 & E2 & E3); auto.
      * cbn. apply Forall_app. split; [exact Hc|]. constructor; [|constructor]. now apply Hidx.
      * cbn. rewrite app_length. cbn. lia.
      * exists segs. split; [exact E1|]. split; [|exact E3]. rewrite E2. cbn. now rewrite <- app_assoc.
Qed.

(* --- Calls ------------------------------------------------------------------------------------------------ *)
Definition callok (p : nat * celt o) (cc : ccall o) : Prop :=
  cc_u o cc = fst p /\ cc_args o cc = ce_args o (snd p) /\ shaped (cc_body o cc) /\
  ce_name o (cc_body o cc) = ce_name o (snd p) /\ map (kind_str o) (ce_args o (cc_body o cc)) = map (kind_str o) (ce_args o (snd p)).
Definition tabok (ty : string) (tab : list (string * celt o)) : Prop :=
  forall key b, assoc key tab = Some b -> mangle o ty b = MDone key /\ shaped b.
Lemma add_call_perm key c m : Permutation (concat (map snd (add_call o key c m))) (concat (map snd m) ++ [c]).
Proof.
  induction m as [|[k l] m IH]; cbn; [reflexivity|]. destruct (String.eqb key k); [|destruct (String.ltb key k)]; cbn.
  - rewrite <- !app_assoc. apply Permutation_app_head, Permutation_app_comm.
  - apply Permutation_cons_append.
  - rewrite <- app_assoc. apply Permutation_app_head. exact IH.
Qed.
Lemma mangle_cases ty c : shaped c -> (mangle o ty c = MThrow /\ dirty) \/ exists key, mangle o ty c = MDone key.
Proof.
  intros HS. unfold mangle. destruct (has_char _ (ce_name o c)) eqn:E; [|eauto]. left. split; [reflexivity|]. intros HC.
  rewrite (shaped_dot c HS HC) in E. discriminate.
Qed.
Lemma gen_seg_ok ty : forall seg u tab m, Forall shaped seg -> tabok ty tab ->
  (gen_seg o ty u seg tab m = MThrow /\ dirty) \/
  exists tab' m' calls, gen_seg o ty u seg tab m = MDone (tab', m') /\ tabok ty tab' /\
    Permutation (concat (map snd m')) (concat (map snd m) ++ calls) /\ Forall2 callok (combine (seq u (length seg)) seg) calls.
Proof.
  induction seg as [|c r IH]; intros u tab m HS HT; cbn [gen_seg].
  - right. exists tab, m, []. rewrite app_nil_r. split; [reflexivity|]. split; [exact HT|]. split; [reflexivity|]. constructor.
  - inversion HS as [|? ? Hc Hr]; subst. destruct (mangle_cases ty c Hc) as [[-> Hd]|(key & Ek)]; [left; auto|]. rewrite Ek. cbn [mbind].
    assert (HG : exists tab' b, get_func o tab key c = (tab', b) /\ tabok ty tab' /\ mangle o ty b = MDone key /\ shaped b).
    { unfold get_func. destruct (assoc key tab) as [b|] eqn:Ea.
      - exists tab, b. split; [reflexivity|]. split; [exact HT|]. now apply HT.
      - exists ((key, c) :: tab), c. split; [reflexivity|]. split; [|auto]. intros k b. cbn. destruct (String.eqb_spec k key) as [->|]; [|apply HT]. intros [= <-]. auto. }
    destruct HG as (tab' & b & -> & HT' & Hb & HSb).
    destruct (IH (S u) tab' (add_call o key (mkCC o b u (ce_args o c)) m) Hr HT') as [[-> Hd]|(tab2 & m2 & calls & -> & H1 & H2 & H3)]; [left; auto|].
    right. exists tab2, m2, (mkCC o b u (ce_args o c) :: calls). split; [reflexivity|]. split; [exact H1|]. split.
    + rewrite H2. rewrite add_call_perm, <- app_assoc. reflexivity.
    + cbn. constructor; [|exact H3].
      destruct (mangle_inj o ty b c key) as [E1 E2]; auto; try (eapply shaped_leaves; eauto).
      split; [reflexivity|]. split; [reflexivity|]. auto.
Qed.
Fixpoint segcalls (b : nat) (segs : list (list (celt o))) (calls : list (ccall o)) : Prop :=
  match segs with
  | [] => calls = []
  | s :: r => exists cs cs0 rest, calls = cs ++ rest /\ Permutation cs cs0 /\ Forall2 callok (combine (seq b (length s)) s) cs0 /\
                segcalls (b + length s) r rest
  end.
Lemma gen_segs_ok ty : forall segs u n tab, Forall (Forall shaped) segs -> tabok ty tab ->
  (gen_segs o ty u n segs tab = MThrow /\ dirty) \/ exists calls, gen_segs o ty u n segs tab = MDone calls /\ segcalls u segs calls.
Proof.
  induction segs as [|s r IH]; intros u n tab HS HT; cbn [gen_segs]; [right; exists []; split; reflexivity|].
  inversion HS as [|? ? Hs Hr]; subst.
  assert (HE : tabok ty []) by (intros k b; discriminate).
  set (tn := if Nat.ltb 100 n then ([], 0) else (tab, n)).
  assert (HT0 : tabok ty (fst tn)) by (unfold tn; now destruct (Nat.ltb 100 n)). destruct tn as [tab0 n0]. cbn [fst] in HT0.
  destruct (gen_seg_ok ty s u tab0 [] Hs HT0) as [[-> Hd]|(tab' & m' & cs & -> & H1 & H2 & H3)]; [left; auto|]. cbn [mbind fst snd].
  destruct (IH (u + length s) (n0 + length (concat (map snd m'))) tab' Hr H1) as [[-> Hd]|(rest & -> & H4)]; [left; auto|]. cbn [mbind].
  right. eexists. split; [reflexivity|]. cbn [segcalls]. exists (concat (map snd m')), cs, rest. auto.
Qed.

End Gen.

(* --- Execution ------------------------------------------------------------------------------------------------- *)
Section Run.
Context (o : nops) (td : string -> bool) {T : Type} (A : arith o T) (dflt : T).
Local Notation ex := (expr (num o)).
Context (lname : fid (num o) -> list ex -> string) (fname : fid (num o) -> string) (K : fid (num o) -> Prop).
Hypothesis HN : names_ok o K lname.
Context (batch stride nv np : nat) (tdb : bool) (ip pp tp : ptr (T := T)) (xin xpar : nat -> nat -> T) (xt : nat -> option T).
Hypothesis Hin : forall i, i < nv -> vload ip (stride * i) batch = MDone (vec batch (xin i)).
Hypothesis Hpar : forall i, i < np -> vload pp (stride * i) batch = MDone (vec batch (xpar i)).
Hypothesis Htm : tdb = true -> exists tt, vload tp 0 batch = MDone (vec batch tt) /\ forall l, l < batch -> xt l = Some (tt l).
Context (R : nat -> nat -> T).
Local Notation sv := (sval o td A dflt xpar xt R).
Local Notation fine := (fine o td np tdb K).
Local Notation vec := (vec batch).
Local Notation compiled := (compiled o td A dflt lname fname K batch np tdb xpar xt R).
Local Notation callok := (callok o lname fname K).

(* The tape holds the u variables below b. *)
Definition holds (N b : nat) (tape : list (list T)) : Prop := length tape = N /\ forall i, i < b -> nth_error tape i = Some (vec (R i)).
Lemma body_ok N b tape a p : holds N b tape -> arg_ok b a -> fine a -> kind_str o p = kind_str o a -> body_arg o A batch stride pp tape (p, a) = MDone (vec (sv a)).
Proof.
  intros [_ Ht] Ha Hf Hk. destruct a as [x|s|i|f args]; destruct p as [x'|s'|i'|f' args']; cbn in Hk; try discriminate; cbn [body_arg].
  - now rewrite vec_const.
  - destruct Ha as (j & Hj & ->). rewrite uname_index, Ht by exact Hj. f_equal. apply vec_ext. intros l _. unfold sval. cbn [S_Cfunc.cval]. now rewrite uenv_uname.
  - apply Hpar. apply (Hf (EPar i)). constructor.
  - destruct Ha.
Qed.
Lemma bodies_ok N b tape : holds N b tape -> forall args ps, Forall (arg_ok b) args -> Forall fine args -> map (kind_str o) ps = map (kind_str o) args ->
  mmap (body_arg o A batch stride pp tape) (combine ps args) = MDone (map (fun a => vec (sv a)) args).
Proof.
  intros Ht. induction args as [|a l IH]; intros [|p ps] HA Hf E; try discriminate; [reflexivity|]. cbn in E. injection E as E1 E2.
  inversion HA; inversion Hf; subst. cbn [combine mmap map]. rewrite (body_ok N b tape a p) by assumption. cbn [mbind]. rewrite IH by assumption. reflexivity.
Qed.
Lemma map_len {X Y} (f : X -> Y) l l' : map f l = map f l' -> length l = length l'.
Proof. intros E. rewrite <- (map_length f l), E. apply map_length. Qed.
Lemma run_ok N b tape u c cc : holds N b tape -> callok (u, c) cc -> compiled u c -> reads o b c -> u < N ->
  run_call o td A dflt batch stride pp tp tape cc = MDone (lset tape u (vec (R u))).
Proof.
  intros Ht (Hu & Ha & HSb & En & Ek) (HS & _ & Hf & HV) Hr HuN. cbn [fst snd] in *. unfold run_call. rewrite Ha, Hu.
  pose proof (map_len _ _ _ Ek) as El. rewrite El, Nat.eqb_refl.
  rewrite (bodies_ok N b tape Ht) by assumption. cbn [mbind].
  rewrite (teval_skel o td A dflt batch tp _ (ce_ex o c)) by (eapply shaped_skel; eauto).
  rewrite (HV tp Htm). cbn [mbind fst snd]. destruct Ht as [-> _]. destruct (Nat.ltb_spec u N); [reflexivity | lia].
Qed.

(* The calls of a segment, in any order. *)
Definition target (cc : ccall o) : nat := cc_u o cc.
Definition runs (b : nat) (cc : ccall o) : Prop := exists c, callok (target cc, c) cc /\ compiled (target cc) c /\ reads o b c.
Lemma run_seg N b : forall cs tape, holds N b tape -> Forall (fun cc => runs b cc /\ b <= target cc < N) cs ->
  exists tape', mfold (run_call o td A dflt batch stride pp tp) tape cs = MDone tape' /\ length tape' = N /\
    (forall i, i < b -> nth_error tape' i = Some (vec (R i))) /\
    forall i, (In i (map target cs) \/ nth_error tape i = Some (vec (R i))) -> nth_error tape' i = Some (vec (R i)).
Proof.
  induction cs as [|cc cs IH]; intros tape Ht HF; cbn [mfold].
  - exists tape. destruct Ht as [H1 H2]. split; [reflexivity|]. split; [exact H1|]. split; [exact H2|]. intros i [[]|H]. exact H.
  - inversion HF as [|? ? [(c & Hc & HC & Hr) Hu] HF']; subst. rewrite (run_ok N b tape (target cc) c cc) by (auto; lia). cbn [mbind].
    destruct (IH (lset tape (target cc) (vec (R (target cc))))) as (tape' & -> & H1 & H2 & H3).
    + destruct Ht as [H1 H2]. split; [now rewrite lset_length|]. intros i Hi. rewrite lset_other by lia. now apply H2.
    + exact HF'.
    + exists tape'. split; [reflexivity|]. split; [exact H1|]. split; [exact H2|]. destruct Ht as [HL _].
      intros i Hi. apply H3. destruct (Nat.eq_dec i (target cc)) as [->|Hne]; [right; apply lset_same; lia|].
      destruct Hi as [[E|Hi]|Hi]; [congruence | now left | right; now rewrite lset_other by congruence].
Qed.
Lemma run_segs N : forall segs b calls tape, seg_ok o b segs -> segcalls o lname fname K b segs calls -> holds N b tape -> b + length (concat segs) <= N ->
  (forall m c, nth_error (concat segs) m = Some c -> compiled (b + m) c) ->
  exists tape', mfold (run_call o td A dflt batch stride pp tp) tape calls = MDone tape' /\ holds N (b + length (concat segs)) tape'.
Proof.
  induction segs as [|s r IH]; intros b calls tape Hs Hc Ht HN' HV.
  - cbn in Hc. subst calls. exists tape. split; [reflexivity|]. cbn. rewrite Nat.add_0_r. exact Ht.
  - destruct Hc as (cs & cs0 & rest & -> & HP & H2 & Hrest). destruct Hs as [Hs Hsr]. cbn [concat] in *. rewrite app_length in *.
    assert (HV1 : forall m c, nth_error s m = Some c -> compiled (b + m) c).
    { intros m c Hm. apply HV. rewrite nth_error_app1; [exact Hm|]. apply nth_error_Some. congruence. }
    assert (HX : Forall (fun cc => runs b cc /\ b <= target cc < N) cs0 /\ map target cs0 = seq b (length s)).
    { assert (Hlt : b + length s <= N) by lia. clear - H2 HV1 Hs Hlt.
      assert (G : forall s k cs0, Forall2 callok (combine (seq k (length s)) s) cs0 -> (forall m c, nth_error s m = Some c -> compiled (k + m) c) -> Forall (reads o b) s -> b <= k -> k + length s <= N ->
        Forall (fun cc => runs b cc /\ b <= target cc < N) cs0 /\ map target cs0 = seq k (length s)).
      { clear. induction s as [|c s IH]; intros k cs0 H2 HV HR Hb Hk; cbn in H2; inversion H2 as [|? cc ? cs Hcc Hcs]; subst; [split; [constructor | reflexivity]|].
        inversion HR; subst. cbn in Hk. destruct (IH (S k) cs Hcs) as [I1 I2]; auto; try lia.
        { intros m c' Hm. replace (S k + m) with (k + S m) by lia. now apply HV. }
        assert (Eu : target cc = k) by (destruct Hcc as (E & _); exact E).
        split; [|cbn; now rewrite Eu, I2]. constructor; [|exact I1]. rewrite Eu. split; [|lia]. exists c. rewrite Eu. split; [exact Hcc|].
        split; [|assumption]. pose proof (HV 0 c eq_refl) as H0. now rewrite Nat.add_0_r in H0. }
      apply (G s b cs0 H2 HV1 Hs); lia. }
    destruct HX as [HF Htg].
    destruct (run_seg N b cs tape Ht) as (t1 & E1 & L1 & L2 & L3).
    { apply Forall_forall. intros cc Hcc. rewrite Forall_forall in HF. apply HF. now apply (Permutation_in _ HP). }
    assert (HM : forall (X Y : Type) (f : X -> Y -> mres X) l1 l2 a a1, mfold f a l1 = MDone a1 -> mfold f a (l1 ++ l2) = mfold f a1 l2).
    { clear. induction l1 as [|y l1 IH]; intros l2 a a1 E; cbn in *; [injection E as ->; reflexivity|]. destruct (f a y); cbn in *; try discriminate. now apply IH. }
    rewrite (HM _ _ _ _ _ _ _ E1).
    destruct (IH (b + length s) rest t1) as (t2 & E2 & Ht2); auto.
    + split; [exact L1|]. intros i Hi. destruct (Nat.lt_ge_cases i b); [now apply L2|]. apply L3. left.
      apply (Permutation_in _ (Permutation_map target (Permutation_sym HP))). rewrite Htg. apply in_seq. lia.
    + lia.
    + intros m c Hm. replace (b + length s + m) with (b + (length s + m)) by lia. apply HV. rewrite nth_error_app2 by lia. replace (length s + m - length s) with m by lia. exact Hm.
    + exists t2. split; [exact E2|]. rewrite Nat.add_assoc. exact Ht2.
Qed.

(* --- Outputs ---------------------------------------------------------------------------------------------- *)
Local Notation store_of := (store_of o td A dflt batch stride xpar xt R).
Lemma filter_all {X} (p : X -> bool) l : length (filter p l) = length l -> filter p l = l.
Proof.
  induction l as [|x l IH]; cbn; [reflexivity|]. destruct (p x); cbn; intros E.
  - f_equal. apply IH. lia.
  - exfalso. assert (H : forall (m : list X), length (filter p m) <= length m) by (clear; induction m as [|y m IH]; cbn; [lia | destruct (p y); cbn; lia]).
    specialize (H l). lia.
Qed.
Lemma filter3 {X} (p q r : X -> bool) l : (forall x, In x l -> p x = true /\ q x = false /\ r x = false \/ p x = false /\ q x = true /\ r x = false \/ p x = false /\ q x = false /\ r x = true) ->
  Permutation (filter p l ++ filter q l ++ filter r l) l.
Proof.
  induction l as [|x l IH]; intros H; cbn; [reflexivity|].
  assert (HI : Permutation (filter p l ++ filter q l ++ filter r l) l) by (apply IH; intros; apply H; now right).
  destruct (H x (or_introl eq_refl)) as [(-> & -> & ->)|[(-> & -> & ->)|(-> & -> & ->)]]; cbn.
  - now constructor.
  - rewrite <- Permutation_middle. now constructor.
  - rewrite !app_assoc, <- Permutation_middle, <- app_assoc. now constructor.
Qed.
Lemma write_ok N tape outs : holds N N tape -> Forall (arg_ok N) outs -> Forall fine outs ->
  exists ss, write_outputs o A batch stride pp tape outs = MDone ss /\ Permutation ss (map store_of (combine (seq 0 (length outs)) outs)).
Proof.
  intros Ht Ho Hf. unfold write_outputs.
  assert (HB : forall a, In a outs -> body_arg o A batch stride pp tape (a, a) = MDone (vec (sv a))).
  { intros a Ha. rewrite Forall_forall in Ho, Hf. now apply (body_ok N N tape a a Ht (Ho a Ha) (Hf a Ha)). }
  assert (HI : forall p q, In q (group o p outs) -> In (snd q) outs).
  { intros p q Hq. apply filter_In in Hq. destruct Hq as [Hq _]. destruct q. now apply in_combine_r in Hq. }
  set (gv := group o (is_var_ex o) outs).
  set (F := fun p : nat * (nat * ex) => mbind (body_arg o A batch stride pp tape (snd (snd p), snd (snd p))) (fun v => MDone (stride * (if Nat.eqb (length gv) (length outs) then fst p else fst (snd p)), v))).
  assert (E1 : mmap F (combine (seq 0 (length gv)) gv) = MDone (map store_of gv)).
  { rewrite (mmap_map F (fun p => store_of (snd p))).
    - f_equal. rewrite <- (map_map snd store_of). f_equal. generalize 0. clear. induction gv as [|x l IH]; intros k; cbn; [reflexivity|]. f_equal. apply IH.
    - intros [k [j a]] Hp. unfold F. cbn [fst snd]. rewrite HB by (apply in_combine_r in Hp; exact (HI _ _ Hp)). cbn [mbind]. unfold P_Cfunc2.store_of. cbn [fst snd]. f_equal. f_equal. f_equal.
      destruct (Nat.eqb_spec (length gv) (length outs)) as [E|]; [|reflexivity].
      assert (Eg : gv = combine (seq 0 (length outs)) outs).
      { unfold gv, group. apply filter_all. change (length gv = length (combine (seq 0 (length outs)) outs)). rewrite E, combine_length, seq_length. lia. }
      rewrite E, Eg in Hp. clear - Hp. revert Hp. generalize 0. induction outs as [|x l IH]; intros n Hp; cbn in Hp; [destruct Hp|].
      destruct Hp as [Hp|Hp]; [congruence | now apply IH in Hp]. }
  rewrite E1. cbn [mbind].
  assert (E2 : forall p, mmap (fun q : nat * ex => mbind (body_arg o A batch stride pp tape (snd q, snd q)) (fun v => MDone (stride * fst q, v))) (group o p outs) = MDone (map store_of (group o p outs))).
  { intros p. apply mmap_map. intros q Hq. rewrite HB by (eapply HI; eauto). reflexivity. }
  rewrite !E2. cbn [mbind]. eexists. split; [reflexivity|]. rewrite <- !map_app. apply Permutation_map. apply filter3.
  intros [j a] Hq. apply in_combine_r in Hq. cbn [snd]. rewrite Forall_forall in Ho. specialize (Ho a Hq).
  destruct a as [x|s|i|f args]; cbn in *; auto 6; try contradiction.
Qed.

(* --- The whole program --------------------------------------------------------------------------------------- *)
Lemma cm_ok segs calls tape outs n : seg_ok o nv segs -> segcalls o lname fname K nv segs calls -> length (concat segs) = n ->
  length tape = nv + n -> (forall m c, nth_error (concat segs) m = Some c -> compiled (nv + m) c) ->
  (forall i l, i < nv -> l < batch -> R i l = xin i l) ->
  Forall (arg_ok (nv + n)) outs -> Forall fine outs ->
  exists ss, cm_call o td A dflt batch stride ip pp tp (mkCP o nv (nv + n) calls outs) tape = MDone ss /\
    Permutation ss (map store_of (combine (seq 0 (length outs)) outs)).
Proof.
  intros Hs Hc Hn Ht HV HR1 Ho Hf. unfold cm_call. cbn [cp_nv cp_calls cp_outs].
  rewrite (mmap_map _ (fun i => vec (R i))).
  2: { intros i Hi. apply in_seq in Hi. rewrite Hin by lia. f_equal. apply vec_ext. intros l Hl. symmetry. apply HR1; [lia | exact Hl]. }
  cbn [mbind].
  assert (HL : forall k t b, length t = nv + n -> b + k = nv -> (forall i, i < b -> nth_error t i = Some (vec (R i))) ->
    exists t', mfold (fun t q => if Nat.ltb (fst q) (length t) then MDone (lset t (fst q) (snd q)) else MUB) t (combine (seq b k) (map (fun i => vec (R i)) (seq b k))) = MDone t' /\ holds (nv + n) nv t').
  { clear. induction k as [|k IH]; intros t b Hl Hb Hi; cbn [seq map combine mfold].
    - exists t. split; [reflexivity|]. split; [exact Hl|]. replace nv with b by lia. exact Hi.
    - cbn [fst snd]. destruct (Nat.ltb_spec b (length t)); [|lia]. cbn [mbind]. apply IH; [now rewrite lset_length | lia|].
      intros i Hi'. destruct (Nat.eq_dec i b) as [->|Hne]; [now apply lset_same|]. rewrite lset_other by congruence. apply Hi. lia. }
  destruct (HL nv tape 0 Ht (Nat.add_0_l nv)) as (t1 & -> & Ht1); [intros; lia|]. cbn [mbind].
  destruct (run_segs (nv + n) segs nv calls t1 Hs Hc Ht1) as (t2 & -> & Ht2); [lia | exact HV|]. cbn [mbind].
  rewrite Hn in Ht2. now apply (write_ok (nv + n)).
Qed.
End Run.
