(** Model of rainbow/simulators/prox_soft_bodies/mechanics.py and of matrix3.polar_decomposition{,_array}
    (rainbow/math/matrix3.py).  float64 -> R; a division by zero is [None] (Python raises ZeroDivisionError for its own
    floats, numpy gives inf/nan); np.linalg.eigh is a parameter. *)
From Verif Require Import Base VecModel.
Open Scope R_scope.

(** numpy arithmetic on 3-by-3 arrays: A + B, A - B, s * A, np.trace, np.tensordot(A, B) *)
Definition m3add (A B : mat3) : mat3 := mkM (m00 A + m00 B) (m01 A + m01 B) (m02 A + m02 B) (m10 A + m10 B) (m11 A + m11 B) (m12 A + m12 B) (m20 A + m20 B) (m21 A + m21 B) (m22 A + m22 B).
Definition m3sub (A B : mat3) : mat3 := mkM (m00 A - m00 B) (m01 A - m01 B) (m02 A - m02 B) (m10 A - m10 B) (m11 A - m11 B) (m12 A - m12 B) (m20 A - m20 B) (m21 A - m21 B) (m22 A - m22 B).
Definition m3scale (s : R) (A : mat3) : mat3 := mkM (s * m00 A) (s * m01 A) (s * m02 A) (s * m10 A) (s * m11 A) (s * m12 A) (s * m20 A) (s * m21 A) (s * m22 A).
Definition m3trace (A : mat3) : R := m00 A + m11 A + m22 A.
Definition m3dot (A B : mat3) : R := m00 A * m00 B + m01 A * m01 B + m02 A * m02 B + m10 A * m10 B + m11 A * m11 B + m12 A * m12 B + m20 A * m20 B + m21 A * m21 B + m22 A * m22 B.
(** np.outer(a, b) *)
Definition m3outer (a b : vec3) : mat3 := mkM (vx a * vx b) (vx a * vy b) (vx a * vz b) (vy a * vx b) (vy a * vy b) (vy a * vz b) (vz a * vx b) (vz a * vy b) (vz a * vz b).
(** a matrix with the given columns: A[:,0] = a ... *)
Definition m3cols (a b c : vec3) : mat3 := mkM (vx a) (vx b) (vx c) (vy a) (vy b) (vy c) (vz a) (vz b) (vz c).
(** np.linalg.inv: LinAlgError on a singular matrix *)
Definition m3inv (A : mat3) : option mat3 :=
  let d := mdet A in
  if Reqb d 0 then None
  else Some (m3scale (/ d) (mT (m3cols (vcross (mcol1 A) (mcol2 A)) (vcross (mcol2 A) (mcol0 A)) (vcross (mcol0 A) (mcol1 A))))).

(** mechanics.py:5-12 *)
Definition right_cauchy_strain_tensor (F : mat3) : mat3 := mmul (mT F) F.
(** mechanics.py:15-24 *)
Definition green_strain_tensor (F : mat3) : mat3 := m3scale (/ 2) (m3sub (right_cauchy_strain_tensor F) mid).
(** mechanics.py:27-39 (on stacks of matrices; one entry of the stack) *)
Definition cauchy_stress_tensor (F S : mat3) : option mat3 :=
  let j := mdet F in if Reqb j 0 then None else Some (m3scale (1 / j) (mmul F (mmul S (mT F)))).

(** mechanics.py:93-101 *)
Definition first_lame (E nu : R) : option R :=
  let d := (1 + nu) * (1 - 2 * nu) in if Reqb d 0 then None else Some (nu * E / d).
(** mechanics.py:104-112 *)
Definition second_lame (E nu : R) : option R :=
  let d := 2 * (1 + nu) in if Reqb d 0 then None else Some (E / d).

(** a constitutive model: a class with pk1_stress and energy_density *)
Record constitutive := mkConst { pk1_stress : mat3 -> R -> R -> option mat3; energy_density : mat3 -> R -> R -> option R }.

(** mechanics.py:115-163 SNH.  The log is np.log2. *)
Definition log2 (x : R) : R := ln x / ln 2.
Definition snh_alpha (mu lam : R) : R := 1 + (mu / lam) - (mu / (4 * lam)).
Definition snh_pk1 (F : mat3) (lambda_in mu_in : R) : option mat3 :=
  let mu := (4 / 3) * mu_in in
  let lam := lambda_in + (5 / 6) * mu_in in
  if Reqb lam 0 then None else
  let alpha := snh_alpha mu lam in
  let J := mdet F in
  let C := mmul (mT F) F in
  let I_C := m3trace C in
  let dJdF := m3cols (vcross (mcol1 F) (mcol2 F)) (vcross (mcol2 F) (mcol0 F)) (vcross (mcol0 F) (mcol1 F)) in
  Some (m3add (m3scale (mu * (1 - (1 / (I_C + 1)))) F) (m3scale (lam * (J - alpha)) dJdF)).
Definition snh_energy (F : mat3) (lambda_in mu_in : R) : option R :=
  let mu := (4 / 3) * mu_in in
  let lam := lambda_in + (5 / 6) * mu_in in
  if Reqb lam 0 then None else
  let alpha := snh_alpha mu lam in
  let J := mdet F in
  let I_C := m3trace (mmul (mT F) F) in
  Some (1 / 2 * mu * (I_C - 3) + 1 / 2 * lam * ((J - alpha) * (J - alpha)) - 1 / 2 * mu * log2 (I_C + 1)).
Definition SNH := mkConst snh_pk1 snh_energy.

(** mechanics.py:166-196 SVK *)
Definition svk_pk1 (F : mat3) (lambda_in mu_in : R) : option mat3 :=
  let E := green_strain_tensor F in
  let S := m3add (m3scale (lambda_in * m3trace E) mid) (m3scale (2 * mu_in) E) in
  Some (mmul F S).
Definition svk_energy (F : mat3) (lambda_in mu_in : R) : option R :=
  let E := green_strain_tensor F in
  Some (1 / 2 * lambda_in * (m3trace E * m3trace E) + mu_in * m3dot E E).
Definition SVK := mkConst svk_pk1 svk_energy.

(** matrix3.py:105-135 [polar_decomposition] *)
Definition polar_decomposition (eigh : mat3 -> vec3 * mat3) (A : mat3) : option (mat3 * mat3) :=
  let S2 := mmul (mT A) A in
  let '(d, V) := eigh S2 in
  if Rltb 0 (vx d) && Rltb 0 (vy d) && Rltb 0 (vz d) then
    let S := m3add (m3add (m3scale (sqrt (vx d)) (m3outer (mcol0 V) (mcol0 V))) (m3scale (sqrt (vy d)) (m3outer (mcol1 V) (mcol1 V))))
                   (m3scale (sqrt (vz d)) (m3outer (mcol2 V) (mcol2 V))) in
    match m3inv S with None => None | Some Si => Some (mmul A Si, S) end
  else None.
(** matrix3.py:138-168 [polar_decomposition_array] takes an n-by-3-by-3 array; As.transpose(0, 2, 1) raises ValueError for a
    single 3-by-3 array.  The argument is an array with two or with three axes. *)
Inductive np_array := Mat (A : mat3) | Stack (As : list mat3).
Fixpoint map_all {A B} (f : A -> option B) (l : list A) : option (list B) :=
  match l with [] => Some [] | x :: r => match f x, map_all f r with Some y, Some ys => Some (y :: ys) | _, _ => None end end.
Definition polar_decomposition_array (eigh : mat3 -> vec3 * mat3) (a : np_array) : option (list (mat3 * mat3)) :=
  match a with Mat _ => None | Stack As => map_all (polar_decomposition eigh) As end.

(** mechanics.py:199-229 COR.  The solver passes one 3-by-3 matrix F[e] (solver.py:378, 400), for which
    polar_decomposition_array raises.  (For a stack np.trace(S - np.eye(3)) would sum the wrong axes; no caller passes one,
    and that case is not modelled.) *)
Definition cor_pk1 (eigh : mat3 -> vec3 * mat3) (F : mat3) (lambda_in mu_in : R) : option mat3 :=
  match polar_decomposition_array eigh (Mat F) with
  | Some [(Q, U)] => Some (m3add (m3scale (lambda_in * m3trace (m3sub U mid)) Q) (m3scale (2 * mu_in) (m3sub F Q)))
  | _ => None
  end.
Definition cor_energy (eigh : mat3 -> vec3 * mat3) (F : mat3) (lambda_in mu_in : R) : option R :=
  match polar_decomposition_array eigh (Mat F) with
  | Some [(Q, U)] => Some (mu_in * m3dot (m3sub F Q) (m3sub F Q) + lambda_in / 2 * (m3trace (m3sub U mid) * m3trace (m3sub U mid)))
  | _ => None
  end.
Definition COR (eigh : mat3 -> vec3 * mat3) := mkConst (cor_pk1 eigh) (cor_energy eigh).
