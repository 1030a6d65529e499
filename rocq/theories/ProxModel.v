(** Model of rainbow/simulators/proximal_contact/proximal_operators.py and
    rainbow/simulators/prox_rigid_bodies/prox_operators.py.
    float64 -> R; the triples (z_s, z_t, z_tau) are [vec3]. *)
From Verif Require Import Base.
Open Scope R_scope.

(** proximal_operators.py:6-24 and prox_rigid_bodies/prox_operators.py:14-34 [prox_sphere]
    (the two are the same text). *)
Definition prox_sphere (z : vec3) (mu x_n : R) : vec3 :=
  if Rleb x_n 0 then vzero else
  let radius := mu * x_n in
  let sqr_z_norm := vx z * vx z + vy z * vy z + vz z * vz z in
  if Rleb sqr_z_norm (radius * radius) then z else
  let scale := radius / sqrt sqr_z_norm in
  mkV (vx z * scale) (vy z * scale) (vz z * scale).

(** proximal_operators.py:28-39 [prox_origin] *)
Definition prox_origin (z : vec3) (mu x_n : R) : vec3 := vzero.

(** [engine.params.ellipsoid_tolerance], [..._expansion], [..._max_iterations] *)
Record ell_params := mkEll { ell_tol : R; ell_expansion : R; ell_max_iter : nat }.

(** outcome of the call: a value, a ZeroDivisionError, or the [while] loop still running
    after the number of turns given as fuel *)
Inductive outcome := Ret (v : vec3) | ZeroDiv | Running.

(** proximal_operators.py:93-98 (and 99-104, 107-112, 119-124): the four occurrences of
    the expression for g at a parameter t *)
Definition ell_g (saa sbb scc sxx syy szz t : R) : R :=
  (saa * sxx) / ((saa + t) ^ 2) + (sbb * syy) / ((sbb + t) ^ 2) + (scc * szz) / ((scc + t) ^ 2) - 1.

(** proximal_operators.py:105-112 [while g1 > 0: t1 *= expansion] *)
Fixpoint ell_expand (g : R -> R) (expansion : R) (fuel : nat) (t1 : R) : option R :=
  if Rltb 0 (g t1) then
    match fuel with
    | O => None
    | S fuel' => ell_expand g expansion fuel' (t1 * expansion)
    end
  else Some t1.

(** proximal_operators.py:115-132 the bisection *)
Fixpoint ell_bisect (g : R -> R) (tol : R) (n : nat) (t0 t1 tk : R) : R :=
  match n with
  | O => tk
  | S n' =>
    if Rltb (Rabs (t1 - t0)) tol then tk else
    let gk := g tk in
    if Rltb (Rabs gk) tol then tk else
    let t0' := if Rltb 0 gk then tk else t0 in
    let t1' := if Rltb 0 gk then t1 else tk in
    ell_bisect g tol n' t0' t1' ((t0' + t1') * (1/2))
  end.

(** proximal_operators.py:43-140 [prox_ellipsoid].  numba compiles division with Python's
    error model: a zero denominator raises. *)
Definition prox_ellipsoid (fuel : nat) (P : ell_params) (z : vec3) (mu_s mu_t mu_tau x_n : R) : outcome :=
  if Rleb x_n 0 then Ret vzero else
  if Reqb mu_s 0 && Reqb mu_t 0 && Reqb mu_tau 0 then Ret (prox_origin z mu_s x_n) else
  if Reqb mu_s mu_t && Reqb mu_s mu_tau then Ret (prox_sphere z mu_s x_n) else
  let a := mu_s * x_n in let b := mu_t * x_n in let c := mu_tau * x_n in
  let scale := 1 / Rmax (Rmax (Rmax (Rmax (Rmax (Rmax 1 a) b) c) (Rabs (vx z))) (Rabs (vy z))) (Rabs (vz z)) in
  let sa := scale * a in let sb := scale * b in let sc := scale * c in
  let sx := scale * vx z in let sy := scale * vy z in let sz := scale * vz z in
  let saa := sa * sa in let sbb := sb * sb in let scc := sc * sc in
  let sxx := sx * sx in let syy := sy * sy in let szz := sz * sz in
  if Reqb saa 0 || Reqb sbb 0 || Reqb scc 0 then ZeroDiv else
  let f0 := sxx / saa + syy / sbb + szz / scc - 1 in
  if Rltb f0 (ell_tol P) then Ret z else
  let t0 := 0 in
  let t1 := Rmax (Rmax sa sb) sc * sqrt (sx * sx + sy * sy + sz * sz) in
  let g := ell_g saa sbb scc sxx syy szz in
  match ell_expand g (ell_expansion P) fuel t1 with
  | None => Running
  | Some t1 =>
    let tk := (t0 + t1) * (1/2) in
    let tk := ell_bisect g (ell_tol P) (ell_max_iter P) t0 t1 tk in
    let tk := tk / (scale * scale) in
    Ret (mkV ((a * a * vx z) / (a * a + tk)) ((b * b * vy z) / (b * b + tk)) ((c * c * vz z) / (c * c + tk)))
  end.
