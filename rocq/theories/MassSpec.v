(** Specification: mass, centre of mass and inertia of the solid bounded by a triangle mesh, as sums over the signed
    tetrahedra (origin, p_i, p_j, p_k). *)
From Verif Require Import Base VecModel BvhModel GridModel VolModel RigidTypes MassModel.
Open Scope R_scope.

(** six times the signed volume of the tetrahedron 0 a b c *)
Definition tet_det (a b c : vec3) : R := vdot a (vcross b c).
(** integrals of 1, of x_i and of x_i x_j over that tetrahedron (see C61_tetrahedron for the integrals) *)
Definition tet_volume (a b c : vec3) : R := tet_det a b c / 6.
Definition tet_first (i : nat) (a b c : vec3) : R := tet_det a b c / 24 * (comp a i + comp b i + comp c i).
Definition tet_second (i j : nat) (a b c : vec3) : R :=
  tet_det a b c / 120 * ((comp a i + comp b i + comp c i) * (comp a j + comp b j + comp c j)
                         + comp a i * comp a j + comp b i * comp b j + comp c i * comp c j).
(** sum over the triangles of a mesh *)
Definition vat (V : list vec3) (i : Z) : vec3 := match py_get V i with Some p => p | None => vzero end.
Definition mesh_sum (f : vec3 -> vec3 -> vec3 -> R) (V : list vec3) (T : list tri) : R :=
  fold_right (fun t s => let '(i, j, k) := t in f (vat V i) (vat V j) (vat V k) + s) 0 T.
Definition volume (V : list vec3) (T : list tri) : R := mesh_sum tet_volume V T.
Definition first_moment (V : list vec3) (T : list tri) (i : nat) : R := mesh_sum (tet_first i) V T.
Definition second_moment (V : list vec3) (T : list tri) (i j : nat) : R := mesh_sum (tet_second i j) V T.
(** no triangle is degenerate *)
Definition proper_triangles (V : list vec3) (T : list tri) : Prop :=
  forall i j k, In (i, j, k) T -> vcross (vsub (vat V j) (vat V i)) (vsub (vat V k) (vat V i)) <> vzero.
(** every index of every triangle names a vertex *)
Definition indices_exist (V : list vec3) (T : list tri) : Prop :=
  forall i j k, In (i, j, k) T -> py_get V i <> None /\ py_get V j <> None /\ py_get V k <> None.
(** compute_mass_properties and the transfer to the centre of mass replace numbers up to 1e-10 by zero *)
Definition pos_up_to_clamp (x y : R) : Prop := (1 / 10000000000 < x /\ y = x) \/ (x <= 1 / 10000000000 /\ y = 0).
Definition abs_up_to_clamp (x y : R) : Prop := (1 / 10000000000 < Rabs x /\ y = x) \/ (Rabs x <= 1 / 10000000000 /\ y = 0).
(** a point mass distribution: its mass, its first moments and its inertia tensor about the origin *)
Definition masses := list (R * vec3).
Definition msum (f : R -> vec3 -> R) (D : masses) : R := fold_right (fun d s => f (fst d) (snd d) + s) 0 D.
Definition shifted (c : vec3) (D : masses) : masses := map (fun d => (fst d, vsub (snd d) c)) D.
Definition d_mass (D : masses) : R := msum (fun m _ => m) D.
Definition d_first (D : masses) : vec3 := mkV (msum (fun m p => m * vx p) D) (msum (fun m p => m * vy p) D) (msum (fun m p => m * vz p) D).
Definition d_xx (D : masses) : R := msum (fun m p => m * (vy p * vy p + vz p * vz p)) D.
Definition d_yy (D : masses) : R := msum (fun m p => m * (vx p * vx p + vz p * vz p)) D.
Definition d_zz (D : masses) : R := msum (fun m p => m * (vx p * vx p + vy p * vy p)) D.
Definition d_xy (D : masses) : R := - msum (fun m p => m * (vx p * vy p)) D.
Definition d_xz (D : masses) : R := - msum (fun m p => m * (vx p * vz p)) D.
Definition d_yz (D : masses) : R := - msum (fun m p => m * (vy p * vz p)) D.
(** d, E: eigenvalues and orthonormal eigenvectors (the columns of E) of A *)
Definition eigen_basis (A : mat3) (dE : vec3 * mat3) : Prop :=
  mmul A (snd dE) = mmul (snd dE) (mdiag (fst dE)) /\ mmul (mT (snd dE)) (snd dE) = mid.
(** what numpy promises: A E = E diag(d), columns of unit length *)
Definition eigen_pairs (A : mat3) (dE : vec3 * mat3) : Prop :=
  mmul A (snd dE) = mmul (snd dE) (mdiag (fst dE)) /\ forall i, (i < 3)%nat -> vdot (mcol (snd dE) i) (mcol (snd dE) i) = 1.
Definition not_tiny (x : R) : Prop := x = 0 \/ 1 / 10000000000 < Rabs x.
(** the inertia tensor of a distribution about the origin *)
Definition d_tensor (D : masses) : mat3 := mkM (d_xx D) (d_xy D) (d_xz D) (d_xy D) (d_yy D) (d_yz D) (d_xz D) (d_yz D) (d_zz D).
(** a distribution seen from the frame with origin c and axes the columns of Q *)
Definition seen_from (c : vec3) (Q : mat3) (D : masses) : masses := map (fun d => (fst d, mvec (mT Q) (vsub (snd d) c))) D.
(** the matrix of second moments of a mesh, and its inertia tensor about the origin *)
Definition mesh_S (V : list vec3) (T : list tri) : mat3 := let s := second_moment V T in
  mkM (s 0 0)%nat (s 0 1)%nat (s 0 2)%nat (s 1 0)%nat (s 1 1)%nat (s 1 2)%nat (s 2 0)%nat (s 2 1)%nat (s 2 2)%nat.
Definition mesh_tensor (V : list vec3) (T : list tri) : mat3 := let s := second_moment V T in
  mkM (s 1%nat 1%nat + s 2%nat 2%nat) (- s 0%nat 1%nat) (- s 0%nat 2%nat) (- s 0%nat 1%nat) (s 0%nat 0%nat + s 2%nat 2%nat) (- s 1%nat 2%nat) (- s 0%nat 2%nat) (- s 1%nat 2%nat) (s 0%nat 0%nat + s 1%nat 1%nat).
