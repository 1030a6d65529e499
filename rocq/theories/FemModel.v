(** Model of the mesh-level half of rainbow/simulators/prox_soft_bodies/solver.py: ElementArrayUtil and Native
    (lines 13-458).  float64 -> R.

    An N-by-3 array of nodal values is a function [field] from node indices; the node count N is an argument where the
    code needs it.  Node indices are natural numbers and are assumed to be in range (numpy raises IndexError or wraps
    negative indices otherwise).  Arrays with one entry per tetrahedron are lists; the code indexes them with
    e in range(len(T)), here they are combined with T. *)
From Verif Require Import Base VecModel SolverModel StepModel MechModel.
Open Scope R_scope.

Definition field := nat -> vec3.
Definition fzero : field := fun _ => vzero.
Definition elem := (nat * nat * nat * nat)%type.
(** T[e, a] *)
Definition node (t : elem) (a : nat) : nat := let '(i, j, k, m) := t in match a with O => i | 1%nat => j | 2%nat => k | _ => m end.
(** y[i] += v *)
Definition fadd (y : field) (i : nat) (v : vec3) : field := fun n => if Nat.eqb n i then vadd (y n) v else y n.
(** y[3 i : 3 i + 3] += v on a flat array *)
Definition vcomp (v : vec3) (c : nat) : R := match c with O => vx v | 1%nat => vy v | _ => vz v end.
Definition slice_add (y : vec) (i : nat) (v : vec3) : vec :=
  fun n => if Nat.leb (3 * i) n && Nat.ltb n (3 * i + 3) then y n + vcomp v (n - 3 * i) else y n.
(** the two layouts of nodal values: np.reshape(x, (-1)) and np.reshape(x, (-1, 3)) *)
Definition flat (x : field) : vec := fun n => vcomp (x (n / 3)%nat) (n mod 3).
Definition unflat (x : vec) : field := fun i => mkV (x (3 * i)%nat) (x (3 * i + 1)%nat) (x (3 * i + 2)%nat).

(** the 4-by-4 array of 3-by-3 matrices of one tetrahedron *)
Definition emat := nat -> nat -> mat3.

(** ** ElementArrayUtil *)
(** solver.py:54-59 [prod_mat_vec], x given as an N-by-3 array *)
Definition prod_mat_vec (T : list elem) (A : list emat) (x : field) : field :=
  fold_left (fun y (tA : elem * emat) => let (t, Ae) := tA in
    fold_left (fun y i => fold_left (fun y j => fadd y (node t i) (mvec (Ae i j) (x (node t j)))) (seq 0 4) y) (seq 0 4) y)
    (combine T A) fzero.
(** solver.py:44-53, x given as a flat array *)
Definition prod_mat_vec_flat (T : list elem) (A : list emat) (x : vec) : vec :=
  fold_left (fun y (tA : elem * emat) => let (t, Ae) := tA in
    fold_left (fun y i => fold_left (fun y j => slice_add y (node t i) (mvec (Ae i j) (read3 x (3 * node t j)))) (seq 0 4) y) (seq 0 4) y)
    (combine T A) vzeros.
(** solver.py:70-80: the dictionary lut, in insertion order *)
Definition lut := list ((nat * nat) * mat3).
Definition nkey_eqb (a b : nat * nat) : bool := Nat.eqb (fst a) (fst b) && Nat.eqb (snd a) (snd b).
Fixpoint lut_add (l : lut) (k : nat * nat) (A : mat3) : lut :=
  match l with
  | [] => [(k, A)]
  | (k', B) :: r => if nkey_eqb k' k then (k', m3add B A) :: r else (k', B) :: lut_add r k A
  end.
Definition assembly_lut (T : list elem) (A : list emat) : lut :=
  fold_left (fun l (tA : elem * emat) => let (t, Ae) := tA in
    fold_left (fun l i => fold_left (fun l j => lut_add l (node t i, node t j) (Ae i j)) (seq 0 4) l) (seq 0 4) l)
    (combine T A) [].
(** solver.py:86-93: nine triplets for every entry *)
Definition block_triplets (ro co : nat) (A : mat3) : list triplet :=
  [(ro, co, m00 A); (ro, co + 1, m01 A); (ro, co + 2, m02 A);
   (ro + 1, co, m10 A); (ro + 1, co + 1, m11 A); (ro + 1, co + 2, m12 A);
   (ro + 2, co, m20 A); (ro + 2, co + 1, m21 A); (ro + 2, co + 2, m22 A)]%nat.
(** solver.py:61-93 [assembly_coo] *)
Definition assembly_coo (T : list elem) (A : list emat) : list triplet :=
  concat (map (fun kv : (nat * nat) * mat3 => block_triplets (3 * fst (fst kv)) (3 * snd (fst kv)) (snd kv)) (assembly_lut T A)).
(** solver.py:95-107 [assembly_csr] (the shape only matters for indices out of range, which raise) *)
Definition assembly_csr (T : list elem) (A : list emat) : mat := csr (assembly_coo T A).

(** ** Native *)
(** x[T[e]] *)
Definition corners (x : field) (t : elem) : vec3 * vec3 * vec3 * vec3 := (x (node t 0), x (node t 1), x (node t 2), x (node t 3)).
(** solver.py:121-155 [compute_outward_face_vectors]: the four columns of gradN[e] *)
Definition face_vectors (x : field) (t : elem) : vec3 * vec3 * vec3 * vec3 :=
  let '(ri, rj, rk, rm) := corners x t in
  let u_ji := vsub rj ri in
  let u_kj := vsub rk rj in
  let u_ik := vsub ri rk in
  let u_mi := vsub rm ri in
  let u_mj := vsub rm rj in
  (vscale (/ 6) (vcross u_kj u_mj), vscale (/ 6) (vcross u_ik u_mi), vscale (/ 6) (vcross u_ji u_mi), vscale (/ 6) (vcross u_kj u_ji)).
Definition compute_outward_face_vectors (x : field) (T : list elem) := map (face_vectors x) T.
(** volume_mesh.py:229-244 [compute_volumes] (modelled on lists in VolModel; here on a field) *)
Definition elem_volume (x : field) (t : elem) : R :=
  let '(ri, rj, rk, rm) := corners x t in vdot (vsub rm ri) (vcross (vsub rj ri) (vsub rk ri)) / 6.
(** solver.py:157-190 [compute_D], one tetrahedron: [None] = RuntimeError *)
Definition elem_D (x : field) (t : elem) : option mat3 :=
  let '(p0, p1, p2, p3) := corners x t in
  let u_ji := vsub p1 p0 in
  let u_ki := vsub p2 p0 in
  let u_mi := vsub p3 p0 in
  if Rleb (vdot u_mi (vcross u_ji u_ki)) 0 then None
  else Some (mkM (vx u_ji) (vx u_ki) (vx u_mi) (vy u_ji) (vy u_ki) (vy u_mi) (vz u_ji) (vz u_ki) (vz u_mi)).
Definition compute_D (x : field) (T : list elem) : option (list mat3) := map_all (elem_D x) T.
(** solver.py:192-206 [compute_inverse_D0] *)
Definition compute_inverse_D0 (x0 : field) (T : list elem) : option (list mat3) :=
  match compute_D x0 T with None => None | Some D0 => map_all m3inv D0 end.
(** solver.py:208-222 [compute_deformation_gradient] *)
Definition compute_deformation_gradient (x : field) (T : list elem) (invD0 : list mat3) : option (list mat3) :=
  match compute_D x T with None => None | Some D => Some (map (fun p : mat3 * mat3 => mmul (fst p) (snd p)) (combine D invD0)) end.

(** solver.py:237-257 and 276-296: the array NN *)
Definition NN (is_lumped : bool) : emat := fun i j =>
  if is_lumped then (if Nat.eqb i j then m3scale (/ 4) mid else mzero)
  else if Nat.eqb i j then m3scale (/ 10) mid else m3scale (/ 20) mid.
(** solver.py:224-261 [compute_mass_element_array] *)
Definition compute_mass_element_array (rho : R) (vol : list R) (is_lumped : bool) : list emat :=
  map (fun v => fun i j => m3scale v (m3scale rho (NN is_lumped i j))) vol.
(** solver.py:263-300 [compute_damping_element_array] *)
Definition compute_damping_element_array (c : R) (vol : list R) (is_lumped : bool) : list emat :=
  map (fun v => fun i j => m3scale v (m3scale c (NN is_lumped i j))) vol.

(** types.py:118-140 [TractionCondition] *)
Record traction := mkTraction { tr_i : nat; tr_j : nat; tr_k : nat; tr_load : vec3 }.
(** solver.py:302-355 [compute_traction_forces] *)
Definition compute_traction_forces (x : field) (cs : list traction) : field :=
  fold_left (fun Ft c =>
    let x_i := x (tr_i c) in let x_j := x (tr_j c) in let x_k := x (tr_k c) in
    let A_vec := vscale (/ 2) (vcross (vsub x_j x_i) (vsub x_k x_i)) in
    let A := vnorm A_vec in
    let l := mvec mid (tr_load c) in
    let Ft := fadd Ft (tr_i c) (vscale (A / 24) (vadd (vadd (vscale 2 l) l) l)) in
    let Ft := fadd Ft (tr_j c) (vscale (A / 24) (vadd (vadd l (vscale 2 l)) l)) in
    fadd Ft (tr_k c) (vscale (A / 24) (vadd (vadd l l) (vscale 2 l)))) cs fzero.

(** solver.py:376-382: one pass of the loop; [gradN] is (T[e], gradN0[e]), F is F[e] *)
Definition add_face_forces (y : field) (t : elem) (P : mat3) (g : vec3 * vec3 * vec3 * vec3) : field :=
  let '(g0, g1, g2, g3) := g in
  fadd (fadd (fadd (fadd y (node t 0) (mvec P g0)) (node t 1) (mvec P g1)) (node t 2) (mvec P g2)) (node t 3) (mvec P g3).
Fixpoint elastic_loop (T : list elem) (gradN0 : list (vec3 * vec3 * vec3 * vec3)) (F : list mat3)
    (pk1 : mat3 -> option mat3) (y : field) : option field :=
  match T, gradN0, F with
  | t :: T', g :: gradN0', Fe :: F' =>
      match pk1 Fe with None => None | Some P => elastic_loop T' gradN0' F' pk1 (add_face_forces y t P g) end
  | [], _, _ => Some y
  | _, _, _ => None
  end.
(** solver.py:357-383 [compute_elastic_forces] (the argument x only gives the array length) *)
Definition compute_elastic_forces (T : list elem) (gradN0 : list (vec3 * vec3 * vec3 * vec3)) (F : list mat3)
    (lam mu : R) (pk1 : mat3 -> R -> R -> option mat3) : option field :=
  elastic_loop T gradN0 F (fun A => pk1 A lam mu) fzero.
(** solver.py:385-402 [compute_elastic_energy] *)
Fixpoint compute_elastic_energy (vol0 : list R) (F : list mat3) (lam mu : R) (psi : mat3 -> R -> R -> option R) : option R :=
  match vol0, F with
  | v :: vol0', Fe :: F' =>
      match psi Fe lam mu, compute_elastic_energy vol0' F' lam mu psi with Some e, Some s => Some (e * v + s) | _, _ => None end
  | [], _ => Some 0
  | _, [] => None
  end.

(** solver.py:404-415 [compute_damping_forces] *)
Definition compute_damping_forces (T : list elem) (C : list emat) (u : field) : field := fun n => vopp (prod_mat_vec T C u n).
(** solver.py:417-437 [compute_gravity_forces] *)
Definition compute_gravity_forces (T : list elem) (vol0 : list R) (rho : R) (g : vec3) : field :=
  fold_left (fun Fg (tv : elem * R) => let (t, v) := tv in
    let dF := vscale (rho * v / 4) g in
    fadd (fadd (fadd (fadd Fg (node t 0) dF) (node t 1) dF) (node t 2) dF) (node t 3) dF) (combine T vol0) fzero.

(** types.py:99-114 [DirichletCondition] *)
Record dirichlet := mkDir { d_idx : nat; d_value : vec3 }.
(** solver.py:439-458 [apply_dirichlet_conditions] *)
Definition in_rows (i n : nat) : bool := Nat.leb (3 * i) n && Nat.ltb n (3 * i + 3).
Definition apply_dirichlet_conditions (cs : list dirichlet) (Ab : mat * vec) : mat * vec :=
  fold_left (fun Ab c => let (A, b) := (Ab : mat * vec) in
    ((fun i j => if in_rows (d_idx c) i then (if Nat.eqb i j then 1 else 0) else A i j),
     (fun i => if in_rows (d_idx c) i then vcomp (d_value c) (i - 3 * d_idx c) else b i))) cs Ab.

(** solver.py:855-869: the kinetic energy of one body, 889-904: its potential energy *)
Definition mid4 (x : field) (t : elem) : vec3 :=
  vscale (/ 4) (vadd (vadd (vadd (x (node t 0)) (x (node t 1))) (x (node t 2))) (x (node t 3))).
Definition kinetic_energy (T : list elem) (vol0 : list R) (rho : R) (u : field) : R :=
  fold_left (fun s (tv : elem * R) => let (t, v) := tv in s + rho * v * vdot (mid4 u t) (mid4 u t) / 2) (combine T vol0) 0.
Definition potential_energy (T : list elem) (vol0 : list R) (rho : R) (g : vec3) (x : field) : R :=
  fold_left (fun s (tv : elem * R) => let (t, v) := tv in s + rho * v * vdot (vopp g) (mid4 x t)) (combine T vol0) 0.
