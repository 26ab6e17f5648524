(** Model of the batch integrator: step and propagate_until/propagate_for.
    Source: /repo/src/taylor_adaptive_batch.cpp:631-1080 (step_impl, step),
    1081-1533 (propagate_for_impl, propagate_until_impl). *)
From Coq Require Import List ZArith NArith Bool.
From Verif Require Import M_Float M_Search M_Step M_Prop.
Import ListNotations.

Section Batch.
Context (o : fops).
Notation F := (F o).
(** [St], [Jt]: state and Taylor coefficients of one batch element; [Eb]: everything else
    that user callbacks can read or change. *)
Context (St Jt Eb : Type).
Notation integ := (integ o St Jt).

(** The data of the integrator, grouped by batch element: the arrays m_state, m_pars,
    m_time_hi/lo, m_last_h, m_tc and m_te_cooldowns have one column (or one element) each. *)
Definition bworld : Type := list integ * Eb.
Inductive bout (A : Type) := BRet (a : A) | BExn (w : bworld).
Arguments BRet {A} a.
Arguments BExn {A} w.

(** The parts that are fixed at construction. Simplification: the compiled functions and the
    detection of events process the batch elements independently (for the compiled stepper
    this is proved in T_Stepper.v), hence they are functions on one element here. The callbacks
    get the whole integrator and the batch index. *)
Record bcfg := {
  b_events : bool;
  b_step : St -> F -> F -> St * F * Jt;
  b_estep : St -> F -> F -> Jt * F * F;
  b_dout : St -> Jt -> F -> St;
  b_fin : St -> bool;
  b_geps : F -> F;
  b_detect : Jt -> F -> F -> list (option (F * F)) -> list (dte o) * list (dnte o);
  b_sort_te : list (dte o) -> list (dte o);
  b_sort_nte : list (dnte o) -> list (dnte o);
  b_cooldown : nat -> F;
  b_deduce : F -> F -> F;
  b_nte_cb : nat -> bworld -> F -> Z -> nat -> bout bworld;
  b_te_cb : nat -> option (bworld -> Z -> nat -> bout (bworld * bool))
}.

(** taylor_adaptive_batch.cpp:686-727: one element of the step without events. *)
Definition lane_vanilla (bc : bcfg) (wtc : bool) (g : integ) (lim : F) : (Z * F) * integ :=
  let '(s', h, tc') := b_step bc (ig_state g) (hi (ig_time g)) lim in
  let t' := d_addf (ig_time g) h in
  let g' := set_step o St Jt g s' t' h (if wtc then tc' else ig_tc g) in
  ((if negb (d_fin t') || negb (b_fin bc s') then oc_err_nf_state
    else if feq o h lim then oc_time_limit else oc_success, h), g').
(** taylor_adaptive_batch.cpp:686-727. *)
Definition bstep_vanilla (bc : bcfg) (lims : list F) (wtc : bool) (w : bworld) : list (Z * F) * bworld :=
  let l := map (fun p => lane_vanilla bc wtc (fst p) (snd p)) (combine (fst w) lims) in
  (map fst l, (map snd l, snd w)).

(** What is known of one element once the state has been updated: time at the beginning
    (m_time_copy), step, events, whether the new state is not finite (m_nf_detected), the
    original bound on the step (second half of m_delta_ts). *)
Record lane_ev := MkLev {
  le_t : dfl o; le_h : F; le_geps : F; le_tes : list (dte o); le_ntes : list (dnte o); le_nf : bool; le_lim : F }.

(** lines 728-835 for one element: stepper, error bound, coefficients, detection and sorting of
    the events, truncation of the step, new state. *)
Definition lane_prepare (bc : bcfg) (g : integ) (lim : F) : integ * lane_ev :=
  let '(jet, h0, max_abs_state) := b_estep bc (ig_state g) (hi (ig_time g)) lim in
  let g_eps := b_geps bc max_abs_state in
  let '(tes0, ntes0) := b_detect bc jet h0 g_eps (ig_cd g) in
  let tes := b_sort_te bc tes0 in
  let ntes := b_sort_nte bc ntes0 in
  let h := match tes with [] => h0 | e :: _ => te_time e end in
  let s' := b_dout bc (ig_state g) jet h in
  (set_step o St Jt g s' (ig_time g) (ig_last_h g) jet, MkLev (ig_time g) h g_eps tes ntes (negb (b_fin bc s')) lim).

(** Change of the data of one element. *)
Definition mod_lane (i : nat) (f : integ -> integ) (w : bworld) : bworld :=
  (match nth_error (fst w) i with Some g => set_nth (fst w) i (f g) | None => fst w end, snd w).

(** lines 894-918: the callbacks of the non-terminal events of element i. *)
Fixpoint brun_ntes (bc : bcfg) (i : nat) (new_time : dfl o) (last_h : F) (l : list (dnte o)) (w : bworld) : bout bworld :=
  match l with
  | [] => BRet w
  | ev :: l' =>
      match b_nte_cb bc (nte_idx ev) w (hi (d_addf (d_subf new_time last_h) (nte_time ev))) (nte_sgn ev) i with
      | BExn w' => BExn w'
      | BRet w' => brun_ntes bc i new_time last_h l' w'
      end
  end.

(** lines 837-983: one iteration of the loop over the elements. [None]: an exception was
    caught and stored (lines 909-915, 954-961). *)
Definition lane_events (bc : bcfg) (i : nat) (le : lane_ev) (w : bworld) : option (Z * F) * bworld :=
  let h := le_h le in
  let t' := d_addf (le_t le) h in
  let w1 := mod_lane i (fun g => MkInteg (ig_state g) t' h (ig_tc g) (ig_cd g)) w in
  if negb (d_fin t') || le_nf le then (Some (oc_err_nf_state, h), w1)
  else
    let w2 := mod_lane i (fun g => set_cd o St Jt g (map (update_cd h) (ig_cd g))) w1 in
    let nend := match le_tes le with
                | [] => length (le_ntes le)
                | _ => partition_point (fun ev => abs_lt (nte_time ev) h) (le_ntes le)
                end in
    match brun_ntes bc i t' h (firstn nend (le_ntes le)) w2 with
    | BExn w' => (None, w')
    | BRet w3 =>
        match le_tes le with
        | [] => (Some (if feq o h (le_lim le) then oc_time_limit else oc_success, h), w3)
        | e :: _ =>
            let cdv := if fle o (f0 o) (b_cooldown bc (te_idx e)) then b_cooldown bc (te_idx e)
                       else b_deduce bc (le_geps le) (te_der e) in
            let w3' := mod_lane i (fun g => set_cd o St Jt g (set_nth (ig_cd g) (te_idx e) (Some (f0 o, cdv)))) w3 in
            match b_te_cb bc (te_idx e) with
            | None => (Some (- Z.of_nat (te_idx e) - 1, h)%Z, w3')
            | Some cb =>
                match cb w3' (te_sgn e) i with
                | BExn w' => (None, w')
                | BRet (w4, b) => (Some (if b then Z.of_nat (te_idx e) else (- Z.of_nat (te_idx e) - 1)%Z, h), w4)
                end
            end
        end
    end.
(** lines 837-984: the loop, from element i on. *)
Fixpoint lanes_events (bc : bcfg) (i : nat) (les : list lane_ev) (w : bworld) : list (option (Z * F)) * bworld :=
  match les with
  | [] => ([], w)
  | le :: les' =>
      let '(r, w1) := lane_events bc i le w in
      let '(rs, w2) := lanes_events bc (S i) les' w1 in
      (r :: rs, w2)
  end.
Fixpoint all_some {A} (l : list (option A)) : option (list A) :=
  match l with
  | [] => Some []
  | None :: _ => None
  | Some a :: l' => match all_some l' with Some r => Some (a :: r) | None => None end
  end.
(** lines 1019-1034: no callback has changed the time of any element. *)
Definition times_kept (les : list lane_ev) (w : bworld) : bool :=
  forallb (fun p => let t' := d_addf (le_t (fst p)) (le_h (fst p)) in
                    cmp_nan_eq o (hi (ig_time (snd p))) (hi t') && cmp_nan_eq o (lo (ig_time (snd p))) (lo t'))
    (combine les (fst w)).
(** lines 728-1035. *)
Definition bstep_events (bc : bcfg) (lims : list F) (w : bworld) : bout (list (Z * F) * bworld) :=
  let l := map (fun p => lane_prepare bc (fst p) (snd p)) (combine (fst w) lims) in
  let '(rs, w') := lanes_events bc 0 (map snd l) (map fst l, snd w) in
  match all_some rs with
  | None => BExn w'
  | Some res => if times_kept (map snd l) w' then BRet (res, w') else BExn w'
  end.

(** taylor_adaptive_batch.cpp:631-1036 step_impl: the outcomes and timesteps (m_step_res) and
    the integrator. *)
Definition bstep_impl (bc : bcfg) (lims : list F) (wtc : bool) (w : bworld) : bout (list (Z * F) * bworld) :=
  if b_events bc then bstep_events bc lims w else BRet (bstep_vanilla bc lims wtc w).
(** lines 1038-1078. *)
Definition bstep_fwd (bc : bcfg) (wtc : bool) (w : bworld) := bstep_impl bc (repeat (finf o) (length (fst w))) wtc w.
Definition bstep_bwd (bc : bcfg) (wtc : bool) (w : bworld) := bstep_impl bc (repeat (fneg o (finf o)) (length (fst w))) wtc w.
Definition bstep_max (bc : bcfg) (lims : list F) (wtc : bool) (w : bworld) :=
  if negb (Nat.eqb (length lims) (length (fst w))) then BExn w
  else if existsb (fnan o) lims then BExn w
  else bstep_impl bc lims wtc w.

(** *** Propagation *)

(** step_callback_batch. *)
Record bscb := { bcb_pre : bworld -> bout bworld; bcb_call : bworld -> bout (bworld * bool) }.
Definition times (w : bworld) : list (dfl o) := map ig_time (fst w).
(** Comparison of the time vectors, lines 1367, 1489; the size does not change. *)
Definition same_times (w w' : bworld) : bool :=
  Nat.eqb (length (fst w)) (length (fst w')) && forallb (fun p => d_eq (fst p) (snd p)) (combine (times w') (times w)).
(** lines 1475-1492. *)
Definition brun_cb (cb : option bscb) (w : bworld) : bout (bworld * bool) :=
  match cb with
  | None => BRet (w, true)
  | Some c =>
      match bcb_call c w with
      | BExn w' => BExn w'
      | BRet (w', b) => if same_times w w' then BRet (w', b) else BExn w'
      end
  end.
(** lines 1356-1370. *)
Definition brun_pre (cb : option bscb) (w : bworld) : bout bworld :=
  match cb with
  | None => BRet w
  | Some c =>
      match bcb_pre c w with
      | BExn w' => BExn w'
      | BRet w' => if same_times w w' then BRet w' else BExn w'
      end
  end.

(** The data of one element in the loop: final time, bound on the timestep, direction,
    remaining time, number of steps, smallest and largest timestep (m_pfor_ts, max_delta_ts,
    m_t_dir, m_rem_time, m_ts_count, m_min_abs_h, m_max_abs_h). *)
Record lane_st := MkLane {
  ls_t : dfl o; ls_max_dt : F; ls_dir : bool; ls_rem : dfl o; ls_steps : N; ls_min : F; ls_max : F }.
(** lines 1373-1387. *)
Definition lane_lim (s : lane_st) : F := dt_limit o (ls_dir s) (ls_max_dt s) (ls_rem s).
(** lines 1403-1456: the update after a step with outcome [oc] and timestep [h] which has
    brought the time to [t]. *)
Definition lane_update (s : lane_st) (oc : Z) (h : F) (t : dfl o) : lane_st :=
  if (oc =? oc_err_nf_state)%Z then s
  else
    let steps := (ls_steps s + (if feq o h (f0 o) then 0 else 1))%N in
    let ok := (oc =? oc_success)%Z in
    let mn := if ok then f_min (ls_min s) (fabs o h) else ls_min s in
    let mx := if ok then f_max (ls_max s) (fabs o h) else ls_max s in
    let rem := if feq o h (hi (ls_rem s)) then d_of (f0 o) else d_sub (ls_t s) t in
    MkLane (ls_t s) (ls_max_dt s) (ls_dir s) rem steps mn mx.
(** line 1459: m_prop_res. *)
Definition lane_res (s : lane_st) (oc : Z) : Z * F * F * N := (oc, ls_min s, ls_max s, ls_steps s).

(** What propagate_until leaves: m_prop_res, the data of the continuous output (one row of times
    and coefficients per step; the padding of lines 1293-1299 is not modelled), the integrator. *)
Definition bcout : Type := list (list (dfl o)) * list (list Jt).
Record bpret := MkBpret { bp_res : list (Z * F * F * N); bp_cout : option bcout; bp_world : bworld }.
Inductive bpres (A : Type) := BPRet (r : A) | BPExn (w : bworld) | BPFuel.
Arguments BPRet {A} r.
Arguments BPExn {A} w.
Arguments BPFuel {A}.

(** Arguments of the loop that do not change. *)
Record bargs := { ba_max_steps : N; ba_cb : option bscb; ba_wtc : bool; ba_cout : bool }.
(** lines 1275-1314 make_c_out. *)
Definition bmake_c_out (a : bargs) (ts : list (list (dfl o))) (tcs : list (list Jt)) : option bcout :=
  if ba_cout a then (if (length ts <? 2)%nat then None else Some (ts, tcs)) else None.

(** lines 1372-1527: the loop of propagate_until_impl. *)
Fixpoint buntil_loop (fuel : nat) (bc : bcfg) (a : bargs) (w : bworld) (ls : list lane_st) (iter : N)
    (ts : list (list (dfl o))) (tcs : list (list Jt)) : bpres bpret :=
  match fuel with
  | O => BPFuel
  | S fuel' =>
      match bstep_impl bc (map lane_lim ls) (ba_wtc a || ba_cout a) w with
      | BExn w' => BPExn w'
      | BRet (res, w1) =>
          let nfs := existsb (fun r => (fst r =? oc_err_nf_state)%Z) res in
          let ste := existsb (fun r => is_ste (fst r)) res in
          let done := forallb (fun p => feq o (snd (fst p)) (hi (ls_rem (snd p)))) (combine res ls) in
          let ls' := map (fun p => lane_update (snd (fst p)) (fst (fst (fst p))) (snd (fst (fst p))) (snd p))
                       (combine (combine res ls) (times w1)) in
          let pres := map (fun p => lane_res (snd p) (fst (fst p))) (combine res ls') in
          if nfs then BPRet (MkBpret pres (bmake_c_out a ts tcs) w1)
          else
            let ts' := if ba_cout a then ts ++ [times w1] else ts in
            let tcs' := if ba_cout a then tcs ++ [map ig_tc (fst w1)] else tcs in
            let iter' := (iter + 1)%N in
            match brun_cb (ba_cb a) w1 with
            | BExn w' => BPExn w'
            | BRet (w2, false) => BPRet (MkBpret (map (fun s => lane_res s oc_cb_stop) ls') (bmake_c_out a ts' tcs') w2)
            | BRet (w2, true) =>
                if done || ste then BPRet (MkBpret pres (bmake_c_out a ts' tcs') w2)
                else if (iter' =? ba_max_steps a)%N
                then BPRet (MkBpret (map (fun s => lane_res s oc_step_limit) ls') (bmake_c_out a ts' tcs') w2)
                else buntil_loop fuel' bc a w2 ls' iter' ts' tcs'
            end
      end
  end.

(** The final times: a single value or one per element (line 1041 of taylor.hpp). *)
Inductive targets := TScalar (t : F) | TVector (l : list F) | TDouble (l : list (dfl o)).
(** lines 1170-1203. *)
Definition target_times (n : nat) (t : targets) : option (list (dfl o)) :=
  match t with
  | TScalar x => Some (repeat (d_of x) n)
  | TVector l => if Nat.eqb (length l) n then Some (map d_of l) else None
  | TDouble l => Some l
  end.

(** taylor_adaptive_batch.cpp:1136-1534 propagate_until_impl. *)
Definition bpropagate_until (fuel : nat) (bc : bcfg) (t : targets) (max_dts : list F) (a : bargs) (w : bworld) : bpres bpret :=
  let n := length (fst w) in
  match target_times n t with
  | None => BPExn w
  | Some ts =>
      let dts := match max_dts with [] => repeat (finf o) n | _ => max_dts end in
      if existsb (fun x => negb (ffin o (hi x))) (times w) || existsb (fun x => negb (ffin o (lo x))) (times w) then BPExn w
      else if existsb (fun x => negb (d_fin x)) ts then BPExn w
      else if negb (Nat.eqb (length dts) n) then BPExn w
      else if existsb (fun x => fnan o x || fle o x (f0 o)) dts then BPExn w
      else
        let rems := map (fun p => d_sub (fst p) (snd p)) (combine ts (times w)) in
        if existsb (fun x => negb (d_fin x)) rems then BPExn w
        else
          let ls := map (fun p => let '(t, dt, rem) := p in MkLane t dt (d_ge rem (d_of (f0 o))) rem 0 (finf o) (f0 o))
                      (combine (combine ts dts) rems) in
          match brun_pre (ba_cb a) w with
          | BExn w' => BPExn w'
          | BRet w1 => buntil_loop fuel bc a w1 ls 0 (if ba_cout a then [times w] else []) []
          end
  end.

(** lines 1081-1119 propagate_for_impl: a single interval or one per element. *)
Definition bpropagate_for (fuel : nat) (bc : bcfg) (dt : F + list F) (max_dts : list F) (a : bargs) (w : bworld) : bpres bpret :=
  match dt with
  | inl x => bpropagate_until fuel bc (TDouble (map (fun t => d_addf t x) (times w))) max_dts a w
  | inr l =>
      if negb (Nat.eqb (length l) (length (fst w))) then BPExn w
      else bpropagate_until fuel bc (TDouble (map (fun p => d_addf (fst p) (snd p)) (combine (times w) l))) max_dts a w
  end.
End Batch.
Arguments BRet {o St Jt Eb A} a.
Arguments BExn {o St Jt Eb A} w.
Arguments BPRet {o St Jt Eb A} r.
Arguments BPExn {o St Jt Eb A} w.
Arguments BPFuel {o St Jt Eb A}.
Arguments bp_res {o St Jt Eb} _.
Arguments bp_cout {o St Jt Eb} _.
Arguments bp_world {o St Jt Eb} _.
Arguments ba_max_steps {o St Jt Eb} _.
Arguments ba_cb {o St Jt Eb} _.
Arguments ba_wtc {o St Jt Eb} _.
Arguments ba_cout {o St Jt Eb} _.
Arguments bcb_pre {o St Jt Eb} _.
Arguments bcb_call {o St Jt Eb} _.
Arguments TScalar {o} t.
Arguments TVector {o} l.
Arguments TDouble {o} l.
