(* The ready-made dynamical models: src/model/{nbody,fixed_centres,rotating,mascon,
   cr3bp,pendulum}.cpp.

   The code repeats most statements for x, y and z: here one definition is given for all
   three axes. The overflow checks on the sizes and the 32-bit arithmetic on the indices are
   not modelled: the indices which occur are all smaller than n. *)
From Coq Require Import String Bool ZArith NArith List.
From Verif Require Import M_Expr M_Dag M_Dec M_Taylor M_Dtens M_Var.
Import ListNotations.
Local Open Scope nat_scope.

Inductive axis := AX | AY | AZ.
Definition axes : list axis := [AX; AY; AZ].
Definition aname (c : axis) : string := match c with AX => "x" | AY => "y" | AZ => "z" end.
(* The names of the state variables of body k: nbody.cpp:62-70, 247-255. *)
Definition pname (c : axis) (k : nat) : string := (aname c ++ "_" ++ fmt_num k)%string.
Definition vname (c : axis) (k : nat) : string := ("v" ++ aname c ++ "_" ++ fmt_num k)%string.

(* std::vector<std::vector<T>>: v[i].push_back(x). *)
Fixpoint push {A} (v : list (list A)) (i : nat) (x : A) : list (list A) :=
  match v, i with
  | [], _ => []
  | l :: r, O => (l ++ [x])%list :: r
  | l :: r, S k => l :: push r k x
  end.

Section Models.
Context (o : nops).
Local Notation ex := (expr (num o)).
Local Notation dbl := (dbl o).
Local Notation "a +: b" := (mk_add o a b) (at level 50, left associativity).
Local Notation "a -: b" := (mk_sub o a b) (at level 50, left associativity).
Local Notation "a *: b" := (mk_mul o a b) (at level 40, left associativity).
Local Notation "a /: b" := (mk_div o a b) (at level 40, left associativity).
Local Notation "-: a" := (mk_neg o a) (at level 35).

Definition half (z : Z) : ex := ENum (n_hlf o z).
Definition sq (e : ex) : ex := mk_pow o e (dbl 2).
(* sum({pow(d_x, 2_dbl), pow(d_y, 2_dbl), pow(d_z, 2_dbl)}). *)
Definition norm2 (d : axis -> ex) : ex := mk_sum o (map (fun c => sq (d c)) axes).
(* pow(e, -3. / 2). *)
Definition m32 (e : ex) : ex := mk_pow o e (half (-3)).

(* --- nbody.cpp ------------------------------------------------------------------------- *)
Definition pvar (k : nat) (c : axis) : ex := EVar (pname c k).
Definition vvar (k : nat) (c : axis) : ex := EVar (vname c k).
(* masses_vec[i]; never called out of range. *)
Definition mass (masses : list ex) (i : nat) : ex := nth i masses (dbl 0).
(* nbody.cpp:37-49. *)
Definition nbody_checks (n : nat) (masses : list ex) : bool := negb (n <? 2) && negb (n <? List.length masses).
(* nbody.cpp:113-116. *)
Definition opt_grouping (G : ex) (masses : list ex) (j : nat) : bool :=
  (j <? List.length masses) &&
  match mass masses j with ENum x => negb (n_isz o 0 x) && is_num o G | _ => false end.
(* The interactions between the bodies i and j: nbody.cpp:98-150. x_acc, y_acc and z_acc are
   acc AX, acc AY and acc AZ. *)
Definition nbody_pair (G : ex) (masses : list ex) (i : nat) (acc : axis -> list (list ex)) (j : nat) : axis -> list (list ex) :=
  let diff c := pvar j c -: pvar i c in
  let r_m3 := m32 (norm2 diff) in
  if opt_grouping G masses j then
    let fac_j := G *: mass masses j *: r_m3 in
    let c_ij := -: mass masses i /: mass masses j in
    fun c =>
      let acc1 := push (acc c) i (diff c *: fac_j) in
      push acc1 j (last (nth i acc1 []) (dbl 0) *: c_ij)
  else
    let G_r_m3 := G *: r_m3 in
    let fac_i := -: mass masses i *: G_r_m3 in
    fun c =>
      let acc1 := push (acc c) j (diff c *: fac_i) in
      if j <? List.length masses then
        let fac_j := mass masses j *: G_r_m3 in
        push acc1 i (diff c *: fac_j)
      else acc1.
(* The equations of body i: nbody.cpp:89-91 and 154-156, 164-170. *)
Definition nbody_eqs (acc : axis -> list (list ex)) (i : nat) : list (ex * ex) :=
  map (fun c => (pvar i c, vvar i c)) axes ++ map (fun c => (vvar i c, mk_sum o (nth i (acc c) []))) axes.
(* nbody.cpp:87-157. *)
Definition nbody_massive (n : nat) (G : ex) (masses : list ex) (st : list (ex * ex) * (axis -> list (list ex))) (i : nat)
    : list (ex * ex) * (axis -> list (list ex)) :=
  let acc := fold_left (nbody_pair G masses i) (seq (S i) (n - S i)) (snd st) in
  ((fst st ++ nbody_eqs acc i)%list, acc).
(* nbody_impl(): nbody.cpp:53-174. *)
Definition nbody (n : nat) (G : ex) (masses : list ex) : mres (list (ex * ex)) :=
  if nbody_checks n masses then
    let nm := List.length masses in
    let '(ret, acc) := fold_left (nbody_massive n G masses) (seq 0 nm) ([], fun _ => repeat [] n) in
    MDone (ret ++ flat_map (nbody_eqs acc) (seq nm (n - nm)))%list
  else MThrow.

(* nbody_potential_impl(): nbody.cpp:176-207. *)
Definition nbody_potential (n : nat) (G : ex) (masses : list ex) : mres ex :=
  if nbody_checks n masses then
    let nm := List.length masses in
    let pot := flat_map (fun i => map (fun j => mass masses i *: mass masses j /: mk_sqrt o (norm2 (fun c => pvar j c -: pvar i c)))
                                      (seq (S i) (nm - S i))) (seq 0 nm) in
    MDone (-: G *: mk_sum o pot)
  else MThrow.
(* nbody_energy_impl(): nbody.cpp:209-235. *)
Definition nbody_energy (n : nat) (G : ex) (masses : list ex) : mres ex :=
  if nbody_checks n masses then
    let nm := List.length masses in
    let kin := map (fun i => mass masses i *: norm2 (vvar i)) (seq 0 nm) in
    mbind (nbody_potential n G masses) (fun pot => MDone (half 1 *: mk_sum o kin +: pot))
  else MThrow.

(* np1body_impl(): nbody.cpp:237-340. x_vars[i] is the coordinate of body i + 1. *)
Definition np1_r3 (i : nat) (c : axis) : ex := pvar (i + 1) c *: m32 (norm2 (pvar (i + 1))).
(* nbody.cpp:298-331. *)
Definition np1_pair (G : ex) (masses : list ex) (i : nat) (c : axis) (acc : list ex) (j : nat) : list ex :=
  if j =? i then acc
  else
    let j_gt_i := i <? j in
    let diff c := if j_gt_i then pvar (j + 1) c -: pvar (i + 1) c else pvar (i + 1) c -: pvar (j + 1) c in
    let diff_rm3 := m32 (norm2 diff) in
    let cur_mu := G *: mass masses (j + 1) in
    let acc_ij := cur_mu *: (diff c *: diff_rm3) in
    let acc_app := -: cur_mu *: np1_r3 j c in
    (acc ++ [if j_gt_i then acc_ij else -: acc_ij] ++ [acc_app])%list.
(* nbody.cpp:278-337. *)
Definition np1_eqs (G : ex) (masses : list ex) (i : nat) : list (ex * ex) :=
  let nm := List.length masses in
  let m_0 := if 0 <? nm then mass masses 0 else dbl 0 in
  let m_i := if i + 1 <? nm then mass masses (i + 1) else dbl 0 in
  let mu_0i := -: G *: (m_0 +: m_i) in
  let acc c := fold_left (np1_pair G masses i c) (seq 0 (nm - 1)) [mu_0i *: np1_r3 i c] in
  map (fun c => (pvar (i + 1) c, vvar (i + 1) c)) axes ++ map (fun c => (vvar (i + 1) c, mk_sum o (acc c))) axes.
Definition np1body (n : nat) (G : ex) (masses : list ex) : mres (list (ex * ex)) :=
  if nbody_checks n masses then MDone (flat_map (np1_eqs G masses) (seq 0 (n - 1))) else MThrow.

(* np1body_potential_impl(): nbody.cpp:342-389. *)
Definition np1body_potential (n : nat) (G : ex) (masses : list ex) : mres ex :=
  if nbody_checks n masses then
    match masses with
    | [] => MDone (dbl 0)
    | _ =>
      let nm := List.length masses in
      let pot0 := map (fun i => mass masses 0 *: mass masses (i + 1) /: mk_sqrt o (norm2 (pvar (i + 1)))) (seq 0 (nm - 1)) in
      let pot := flat_map (fun i => map (fun j => mass masses (i + 1) *: mass masses (j + 1)
                                                  /: mk_sqrt o (norm2 (fun c => pvar (j + 1) c -: pvar (i + 1) c)))
                                        (seq (S i) (nm - 1 - S i))) (seq 0 (nm - 1)) in
      MDone (-: G *: mk_sum o (pot0 ++ pot))
    end
  else MThrow.
(* np1body_energy_impl(): nbody.cpp:391-445. *)
Definition np1body_energy (n : nat) (G : ex) (masses : list ex) : mres ex :=
  if nbody_checks n masses then
    match masses with
    | [] => MDone (dbl 0)
    | _ =>
      let nm := List.length masses in
      let tot_mass := mk_sum o (mass masses 0 :: map (fun i => mass masses (i + 1)) (seq 0 (nm - 1))) in
      let ud0 c := mk_sum o (map (fun i => mass masses (i + 1) *: vvar (i + 1) c) (seq 0 (nm - 1))) /: (-: tot_mass) in
      let kin := mass masses 0 *: norm2 ud0
                 :: map (fun i => mass masses (i + 1) *: norm2 (fun c => vvar (i + 1) c +: ud0 c)) (seq 0 (nm - 1)) in
      mbind (np1body_potential n G masses) (fun pot => MDone (half 1 *: mk_sum o kin +: pot))
    end
  else MThrow.

(* --- fixed_centres.cpp ------------------------------------------------------------------ *)
(* The state variables of a single particle. *)
Definition p1 (c : axis) : ex := EVar (aname c).
Definition v1 (c : axis) : ex := EVar ("v" ++ aname c)%string.
Definition axis_index (c : axis) : nat := match c with AX => 0 | AY => 1 | AZ => 2 end.
(* fixed_centres.cpp:31-48. *)
Definition centres_check (masses positions : list ex) : bool :=
  (List.length positions mod 3 =? 0) && (List.length positions / 3 =? List.length masses).
(* positions[3u * i], positions[(3u * i) + 1u], positions[(3u * i) + 2u]; never out of range. *)
Definition centre (positions : list ex) (i : nat) (c : axis) : ex := nth (3 * i + axis_index c) positions (dbl 0).
(* fixed_centres_impl(): fixed_centres.cpp:52-95. *)
Definition fixed_centres (G : ex) (masses positions : list ex) : mres (list (ex * ex)) :=
  if centres_check masses positions then
    let acc c := map (fun i => let diff c := centre positions i c -: p1 c in
                               let dist2 := norm2 diff in
                               let Mrm3 := mass masses i *: m32 dist2 in
                               diff c *: Mrm3) (seq 0 (List.length masses)) in
    MDone (map (fun c => (p1 c, v1 c)) axes ++ map (fun c => (v1 c, G *: mk_sum o (acc c))) axes)%list
  else MThrow.
(* fixed_centres_potential_impl(): fixed_centres.cpp:97-124. *)
Definition fixed_centres_potential (G : ex) (masses positions : list ex) : mres ex :=
  if centres_check masses positions then
    let pot := map (fun i => let dist := mk_sqrt o (norm2 (fun c => centre positions i c -: p1 c)) in
                             mass masses i /: dist) (seq 0 (List.length masses)) in
    MDone (-: G *: mk_sum o pot)
  else MThrow.
(* fixed_centres_energy_impl(): fixed_centres.cpp:126-136. *)
Definition fixed_centres_energy (G : ex) (masses positions : list ex) : mres ex :=
  let kin := half 1 *: norm2 v1 in
  mbind (fixed_centres_potential G masses positions) (fun pot => MDone (kin +: pot)).

(* --- rotating.cpp ----------------------------------------------------------------------- *)
(* rotating.cpp:30-37. *)
Definition omega_check (omega : list ex) : bool :=
  match omega with [] => true | _ => List.length omega =? 3 end.
(* The accelerations: rotating.cpp:53-84. *)
Definition rotating_acc (omega : list ex) (c : axis) : list ex :=
  match omega with
  | [pe; qe; re] =>
      let x := p1 AX in let y := p1 AY in let z := p1 AZ in
      let vx := v1 AX in let vy := v1 AY in let vz := v1 AZ in
      let qe_x := qe *: x in
      let re_x := re *: x in
      let qe_y := qe *: y in
      let re_z := re *: z in
      match c with
      | AX => [qe *: qe_x; re *: re_x; -: (pe *: qe_y); -: (pe *: re_z); -: dbl 2 *: (qe *: vz -: re *: vy)]
      | AY => [sq pe *: y; sq re *: y; -: (pe *: qe_x); -: (qe *: re_z); -: dbl 2 *: (re *: vx -: pe *: vz)]
      | AZ => [sq pe *: z; sq qe *: z; -: (pe *: re_x); -: (re *: qe_y); -: dbl 2 *: (pe *: vy -: qe *: vx)]
      end
  | _ => []
  end.
(* rotating_impl(): rotating.cpp:44-99. *)
Definition rotating (omega : list ex) : mres (list (ex * ex)) :=
  if omega_check omega then
    MDone (map (fun c => (p1 c, v1 c)) axes ++ map (fun c => (v1 c, mk_sum o (rotating_acc omega c))) axes)%list
  else MThrow.
(* rotating_potential_impl(): rotating.cpp:101-124. *)
Definition rotating_potential (omega : list ex) : mres ex :=
  if omega_check omega then
    match omega with
    | [pe; qe; re] =>
        let tmp := mk_sum o [pe *: p1 AX; qe *: p1 AY; re *: p1 AZ] in
        MDone (half 1 *: (sq tmp -: mk_sum o [sq pe; sq qe; sq re] *: norm2 p1))
    | _ => MDone (dbl 0)
    end
  else MThrow.
(* rotating_energy_impl(): rotating.cpp:126-132. *)
Definition rotating_energy (omega : list ex) : mres ex :=
  mbind (rotating_potential omega) (fun pot => MDone (half 1 *: norm2 v1 +: pot)).

(* --- mascon.cpp ------------------------------------------------------------------------- *)
(* mascon_impl(): mascon.cpp:24-42. *)
Definition mascon (G : ex) (masses positions omega : list ex) : mres (list (ex * ex)) :=
  mbind (fixed_centres G masses positions) (fun fc_dyn =>
  mbind (rotating omega) (fun rot_dyn =>
  MDone (firstn 3 fc_dyn ++ map (fun p => (fst (fst p), snd (fst p) +: snd (snd p)))
                                (combine (skipn 3 fc_dyn) (skipn 3 rot_dyn)))%list)).
(* mascon_energy_impl(): mascon.cpp:44-52. *)
Definition mascon_energy (G : ex) (masses positions omega : list ex) : mres ex :=
  mbind (fixed_centres_energy G masses positions) (fun fc_en =>
  mbind (rotating_potential omega) (fun rot_pot => MDone (fc_en +: rot_pot))).
(* mascon_potential_impl(): mascon.cpp:54-62. *)
Definition mascon_potential (G : ex) (masses positions omega : list ex) : mres ex :=
  mbind (fixed_centres_potential G masses positions) (fun fc_pot =>
  mbind (rotating_potential omega) (fun rot_pot => MDone (fc_pot +: rot_pot))).

(* --- cr3bp.cpp -------------------------------------------------------------------------- *)
(* cr3bp.cpp:32-47. Numbers denote real numbers here: the test for infinities and NaNs is not
   modelled. *)
Definition mu_check (mu : ex) : bool :=
  match mu with
  | ENum v => n_gt0 o v && n_gt0 o (n_sub o (n_hlf o 1) v)
  | _ => true
  end.
(* The momenta px, py, pz: cr3bp.cpp:56, 90. *)
Definition mom (c : axis) : ex := EVar ("p" ++ aname c)%string.
(* cr3bp.cpp:58-67, 92-101: x - mu, x - mu + 1, rp1**2 and rp2**2. *)
Definition x_m_mu (mu : ex) : ex := p1 AX -: mu.
Definition x_m_mu_p1 (mu : ex) : ex := x_m_mu mu +: dbl 1.
Definition rp1_2 (mu : ex) : ex := sq (x_m_mu mu) +: (sq (p1 AY) +: sq (p1 AZ)).
Definition rp2_2 (mu : ex) : ex := sq (x_m_mu_p1 mu) +: (sq (p1 AY) +: sq (p1 AZ)).
(* cr3bp_impl(): cr3bp.cpp:51-83. *)
Definition cr3bp (mu : ex) : mres (list (ex * ex)) :=
  if mu_check mu then
    let x := p1 AX in let y := p1 AY in let z := p1 AZ in
    let px := mom AX in let py := mom AY in let pz := mom AZ in
    let g1 := (dbl 1 -: mu) *: m32 (rp1_2 mu) in
    let g2 := mu *: m32 (rp2_2 mu) in
    let g1_g2 := g1 +: g2 in
    let xdot := px +: y in
    let ydot := py -: x in
    let zdot := pz in
    let pxdot := py -: g1 *: x_m_mu mu -: g2 *: x_m_mu_p1 mu in
    let pydot := -: px -: g1_g2 *: y in
    let pzdot := -: g1_g2 *: z in
    MDone [(x, xdot); (y, ydot); (z, zdot); (px, pxdot); (py, pydot); (pz, pzdot)]
  else MThrow.
(* cr3bp_jacobi_impl(): cr3bp.cpp:85-110. *)
Definition cr3bp_jacobi (mu : ex) : mres ex :=
  if mu_check mu then
    let x := p1 AX in let y := p1 AY in
    let px := mom AX in let py := mom AY in let pz := mom AZ in
    let g1 := (dbl 1 -: mu) /: mk_sqrt o (rp1_2 mu) in
    let g2 := mu /: mk_sqrt o (rp2_2 mu) in
    let kin := half 1 *: (sq px +: sq py +: sq pz) in
    MDone (kin +: y *: px -: x *: py -: g1 -: g2)
  else MThrow.

(* --- pendulum.cpp ----------------------------------------------------------------------- *)
(* pendulum_impl(): pendulum.cpp:24-29. *)
Definition pendulum (g l : ex) : list (ex * ex) :=
  let x := EVar "x"%string in let v := EVar "v"%string in
  [(x, v); (v, -: g /: l *: mk_fun o Usin x)].
(* pendulum_energy_impl(): pendulum.cpp:31-36. *)
Definition pendulum_energy (g l : ex) : ex :=
  let x := EVar "x"%string in let v := EVar "v"%string in
  half 1 *: sq l *: sq v +: g *: l *: (dbl 1 -: mk_fun o Ucos x).

End Models.
