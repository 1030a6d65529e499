(** Model of rainbow/simulators/prox_rigid_bodies/mass.py (update_inertia_tensor is in StepModel.v).
    float64 -> R.  A degenerate triangle has V3.unit(0) = nan (numpy warns); the nan reaches T0, [T0 > 0.0] is false and
    compute_mass_properties raises: [None].  np.linalg.eig is a parameter. *)
From Verif Require Import Base QuatModel VecModel BvhModel GridModel VolModel RigidTypes CollModel.
Open Scope R_scope.

(** v[X] and v[X] += d *)
Definition comp (v : vec3) (i : nat) : R := match i with O => vx v | 1%nat => vy v | _ => vz v end.
Definition addc (v : vec3) (i : nat) (d : R) : vec3 :=
  match i with O => mkV (vx v + d) (vy v) (vz v) | 1%nat => mkV (vx v) (vy v + d) (vz v) | _ => mkV (vx v) (vy v) (vz v + d) end.

(** the ten integrals P1 .. Pabb *)
Record face_int := mkFI { P1 : R; Pa : R; Paa : R; Paaa : R; Pb : R; Pbb : R; Pbbb : R; Pab : R; Paab : R; Pabb : R }.
(** mass.py:80-124: one turn of the loop over the edges, with v0, v1 the end points *)
Definition face_edge (X Y : nat) (f : face_int) (e : vec3 * vec3) : face_int :=
  let '(v0, v1) := e in
  let a0 := comp v0 X in let b0 := comp v0 Y in let a1 := comp v1 X in let b1 := comp v1 Y in
  let da := a1 - a0 in let db := b1 - b0 in
  let a0_2 := a0 * a0 in let a0_3 := a0_2 * a0 in let a0_4 := a0_3 * a0 in
  let b0_2 := b0 * b0 in let b0_3 := b0_2 * b0 in let b0_4 := b0_3 * b0 in
  let a1_2 := a1 * a1 in let a1_3 := a1_2 * a1 in let b1_2 := b1 * b1 in let b1_3 := b1_2 * b1 in
  let C1 := a1 + a0 in let Ca := a1 * C1 + a0_2 in let Caa := a1 * Ca + a0_3 in let Caaa := a1 * Caa + a0_4 in
  let Cb := b1 * (b1 + b0) + b0_2 in let Cbb := b1 * Cb + b0_3 in let Cbbb := b1 * Cbb + b0_4 in
  let Cab := 3 * a1_2 + 2 * a1 * a0 + a0_2 in let Kab := a1_2 + 2 * a1 * a0 + 3 * a0_2 in
  let Caab := a0 * Cab + 4 * a1_3 in let Kaab := a1 * Kab + 4 * a0_3 in
  let Cabb := 4 * b1_3 + 3 * b1_2 * b0 + 2 * b1 * b0_2 + b0_3 in
  let Kabb := b1_3 + 2 * b1_2 * b0 + 3 * b1 * b0_2 + 4 * b0_3 in
  mkFI (P1 f + db * C1) (Pa f + db * Ca) (Paa f + db * Caa) (Paaa f + db * Caaa)
       (Pb f + da * Cb) (Pbb f + da * Cbb) (Pbbb f + da * Cbbb)
       (Pab f + db * (b1 * Cab + b0 * Kab)) (Paab f + db * (b1 * Caab + b0 * Kaab)) (Pabb f + da * (a1 * Cabb + a0 * Kabb)).
(** mass.py:58-135 [__compute_projected_face_integral] *)
Definition projected_face_integral (ps : vec3 * vec3 * vec3) (X Y : nat) : face_int :=
  let '(p0, p1, p2) := ps in
  let f := fold_left (face_edge X Y) [(p0, p1); (p1, p2); (p2, p0)] (mkFI 0 0 0 0 0 0 0 0 0 0) in
  mkFI (P1 f / 2) (Pa f / 6) (Paa f / 12) (Paaa f / 20) (Pb f / -6) (Pbb f / -12) (Pbbb f / -20)
       (Pab f / 24) (Paab f / 60) (Pabb f / -60).

(** T0, T1, T2, TP *)
Record moments := mkMom { T0 : R; T1 : vec3; T2 : vec3; TP : vec3 }.
(** mass.py:158-245: one triangle *)
Definition mass_step (M : moments) (ps : vec3 * vec3 * vec3) : option moments :=
  let '(p_i, p_j, p_k) := ps in
  let d := vcross (vsub p_j p_i) (vsub p_k p_i) in
  if Reqb (vnorm d) 0 then None else
  let n := v3_unit d in
  let p_avg := vdiv (vadd (vadd p_i p_j) p_k) 3 in
  let w := - vdot n p_avg in
  let Z := v3_max_abs_component n in
  let X := Nat.modulo (Z + 1) 3 in
  let Y := Nat.modulo (X + 1) 3 in
  let nA := comp n X in let nB := comp n Y in let nC := comp n Z in
  let k1 := 1 / nC in let k2 := k1 * k1 in let k3 := k2 * k1 in let k4 := k3 * k1 in
  let f := projected_face_integral ps X Y in
  let Fa := k1 * Pa f in
  let Fb := k1 * Pb f in
  let Fc := - k2 * (nA * Pa f + nB * Pb f + w * P1 f) in
  let Faa := k1 * Paa f in
  let Fbb := k1 * Pbb f in
  let Fcc := k3 * (nA * nA * Paa f + 2 * nA * nB * Pab f + nB * nB * Pbb f + w * (2 * (nA * Pa f + nB * Pb f) + w * P1 f)) in
  let Faaa := k1 * Paaa f in
  let Fbbb := k1 * Pbbb f in
  let Fccc := - k4 * (nA * nA * nA * Paaa f + 3 * nA * nA * nB * Paab f + 3 * nA * nB * nB * Pabb f + nB * nB * nB * Pbbb f
                      + 3 * w * (nA * nA * Paa f + 2 * nA * nB * Pab f + nB * nB * Pbb f)
                      + w * w * (3 * (nA * Pa f + nB * Pb f) + w * P1 f)) in
  let Faab := k1 * Paab f in
  let Fbbc := - k2 * (nA * Pabb f + nB * Pbbb f + w * Pbb f) in
  let Fcca := k3 * (nA * nA * Paaa f + 2 * nA * nB * Paab f + nB * nB * Pabb f + w * (2 * (nA * Paa f + nB * Pab f) + w * Pa f)) in
  let t0 := if Nat.eqb X 0 then T0 M + vx n * Fa else if Nat.eqb Y 0 then T0 M + vx n * Fb else T0 M + vx n * Fc in
  let t1 := addc (addc (addc (T1 M) X (nA * Faa)) Y (nB * Fbb)) Z (nC * Fcc) in
  let t2 := addc (addc (addc (T2 M) X (nA * Faaa)) Y (nB * Fbbb)) Z (nC * Fccc) in
  let tp := addc (addc (addc (TP M) X (nA * Faab)) Y (nB * Fbbc)) Z (nC * Fcca) in
  Some (mkMom t0 t1 t2 tp).
(** the loop over the triangles; [None] also covers an index error *)
Fixpoint mass_loop (V : list vec3) (T : list tri) (M : moments) : option moments :=
  match T with
  | [] => Some M
  | (i, j, k) :: T' =>
    do p_i <- py_get V i; do p_j <- py_get V j; do p_k <- py_get V k;
    do M' <- mass_step M (p_i, p_j, p_k);
    mass_loop V T' M'
  end.

(** mass.py:12-30 [MassProperties] *)
Record mass_props := mkProps { mp_mass : R; mp_c : vec3; mp_xx : R; mp_yy : R; mp_zz : R; mp_xy : R; mp_xz : R; mp_yz : R }.
(** x if x > too_small else 0.0; x if abs(x) > too_small else 0.0 *)
Definition too_small : R := 1 / 10000000000.
Definition clamp_pos (x : R) : R := if Rltb too_small x then x else 0.
Definition clamp_abs (x : R) : R := if Rltb too_small (Rabs x) then x else 0.
(** mass.py:138-283 [compute_mass_properties] *)
Definition compute_mass_properties (V : list vec3) (T : list tri) (density : R) : option mass_props :=
  do M <- mass_loop V T (mkMom 0 vzero vzero vzero);
  let t1 := vdiv (T1 M) 2 in let t2 := vdiv (T2 M) 3 in let tp := vdiv (TP M) 2 in
  if Rltb 0 (T0 M) then
    let c := vdiv t1 (T0 M) in
    Some (mkProps (clamp_pos (density * T0 M)) (mkV (clamp_abs (vx c)) (clamp_abs (vy c)) (clamp_abs (vz c)))
            (clamp_pos (density * (vy t2 + vz t2))) (clamp_pos (density * (vz t2 + vx t2))) (clamp_pos (density * (vx t2 + vy t2)))
            (clamp_abs (- density * vx tp)) (clamp_abs (- density * vz tp)) (clamp_abs (- density * vy tp)))
  else None.

(** mass.py:328-363 [__translate_to_body_space_origin] *)
Definition translate_to_body (p : mass_props) : vec3 * mass_props :=
  let m := mp_mass p in
  let x := - vx (mp_c p) in let y := - vy (mp_c p) in let z := - vz (mp_c p) in
  (mkV x y z,
   mkProps m vzero (mp_xx p - m * (y * y + z * z)) (mp_yy p - m * (x * x + z * z)) (mp_zz p - m * (x * x + y * y))
     (clamp_abs (mp_xy p + m * (x * y))) (clamp_abs (mp_xz p + m * (x * z))) (clamp_abs (mp_yz p + m * (y * z)))).

(** mass.py:292-302: the matrix A *)
Definition inertia_matrix (p : mass_props) : mat3 :=
  mkM (mp_xx p) (mp_xy p) (mp_xz p) (mp_xy p) (mp_yy p) (mp_yz p) (mp_xz p) (mp_yz p) (mp_zz p).
(** columns of a matrix, R[:, order] *)
Definition mcol (A : mat3) (i : nat) : vec3 :=
  match i with O => mkV (m00 A) (m10 A) (m20 A) | 1%nat => mkV (m01 A) (m11 A) (m21 A) | _ => mkV (m02 A) (m12 A) (m22 A) end.
Definition from_cols (a b c : vec3) : mat3 := mkM (vx a) (vx b) (vx c) (vy a) (vy b) (vy c) (vz a) (vz b) (vz c).
(** mass.py:306-312: the first permutation that sorts d in descending order *)
Definition permutations : list (nat * nat * nat) :=
  [(0, 1, 2); (0, 2, 1); (1, 0, 2); (2, 0, 1); (1, 2, 0); (2, 1, 0)]%nat.
Definition sort_order (d : vec3) : nat * nat * nat :=
  match find (fun p => let '(a, b, c) := p in Rleb (comp d b) (comp d a) && Rleb (comp d c) (comp d b)) permutations with
  | Some p => p | None => (0, 0, 0)%nat end.
(** mass.py:286-325 [__rotate_to_model_space_orientation]; [eig] is np.linalg.eig *)
Definition rotate_to_model (eig : mat3 -> vec3 * mat3) (p : mass_props) : option (quat * vec3) :=
  let '(d, E) := eig (inertia_matrix p) in
  let '(i, j, k) := sort_order d in
  let E1 := from_cols (mcol E i) (mcol E j) (mcol E k) in
  let E2 := if Rltb (mdet E1) 0 then from_cols (vopp (mcol E1 0)) (mcol E1 1) (mcol E1 2) else E1 in
  do q <- q_from_matrix E2;
  Some (q, mkV (comp d i) (comp d j) (comp d k)).
(** mass.py:366-392 [xform_model_2_body_space]: r_bf2mf, q_bf2mf, mass, inertia *)
Definition xform_model_2_body_space (eig : mat3 -> vec3 * mat3) (p : mass_props) : option (vec3 * quat * R * vec3) :=
  let '(r, pb) := translate_to_body p in
  do qi <- rotate_to_model eig pb;
  Some (vopp r, fst qi, mp_mass p, snd qi).
(** surface_mesh.py:17-24 [translate], [rotate] and api.py:228-230: the mesh that create_shape keeps *)
Definition to_body_frame (r : vec3) (q : quat) (V : list vec3) : list vec3 :=
  q_rotate_array (q_conj q) (map (fun p => vadd p (vopp r)) V).
