(** Model of the engine half of the soft-body simulator: rainbow/simulators/prox_soft_bodies/{types,api}.py and solver.py
    461-1162.  float64 -> R, node arrays are [field]s (see FemModel).

    Simplifications.  Materials are objects shared between engine.materials and the bodies; create_material refuses
    existing names and nothing removes or replaces a material, so a body keeps the material's name here and looks the
    object up.  Bodies are a list in creation order; body.idx is the position.  The signed distance field, BVH and hash grid
    of a body only feed collision detection, which is a parameter [cd] of a step (modelled in SoftCollModel); body.Fe, Ft, Fd, Fext and body.owners/neighbors are written but not read by the simulator.  The debug
    log is left out.  Python exceptions: every function says what the engine is after the exception ([SRaised]). *)
From Verif Require Import Base VecModel ProxModel SolverModel BvhModel GridModel SurfModel VolModel RigidTypes StepModel MechModel FemModel.
Open Scope R_scope.

(** ** types.py *)
(** types.py:140-151 [MaterialDescription]; the name is the key in engine.materials *)
Record smaterial := mkMat { sm_model : constitutive; sm_c : R; sm_rho : R; sm_E : R; sm_nu : R }.
(** [eigh] is np.linalg.eigh, used by the co-rotational model *)
Definition material_init (eigh : mat3 -> vec3 * mat3) : smaterial := mkMat (COR eigh) 0 1000 100000 (3 / 10).

(** how far create_soft_body got: it registers the body first, and an exception leaves the attributes None *)
Inductive stage := Registered (* api.py:37-40 *) | Meshed (* T, x0, vol0, gradN0 set: 48-51 *) | Complete.
(** types.py:154-193 [SoftBody] *)
Record sbody := mkSBody {
  s_name : name; s_stage : stage; s_offset : nat; s_n : nat (* len(x0) = len(x) = len(u) *);
  s_T : list elem; s_surface : list (nat * nat * nat); s_x0 : field; s_vol0 : list R; s_gradN0 : list (vec3 * vec3 * vec3 * vec3);
  s_invD0 : list mat3; s_M : option (list emat); s_C : option (list emat); s_x : field; s_u : field;
  s_dirichlet : list dirichlet; s_traction : list traction; s_material : option name; s_gravity : vec3; s_lumped : bool; s_fixed : bool }.
(** types.py:159-193; [sb_registered] is the body right after api.py:37-40 *)
Definition sb_registered (nm : name) : sbody :=
  mkSBody nm Registered 0 0 [] [] fzero [] [] [] None None fzero fzero [] [] None (mkV 0 (- (982 / 100)) 0) true false.
(** types.py:61-98 [ContactPoint]; bodies by index *)
Record scontact := mkSC { sc_A : nat; sc_B : nat; sc_tetA : nat; sc_tetB : nat; sc_wA : R * R * R * R; sc_wB : R * R * R * R; sc_p : vec3; sc_n : vec3; sc_g : R }.
(** types.py:196-257 [Parameters], the ones a step reads *)
Record sparameters := mkSPar { sq_time_step : R; sq_pre : bool; sq_post : bool; sq_min_gap : R; sq_stamp : nat }.
Definition sparameters_init : sparameters := mkSPar (1 / 1000) false false (1 / 1000) 0.
(** types.py:260-292 [Engine] *)
Record sengine := mkSE {
  sg_materials : list (name * smaterial); sg_lib : library; sg_params : sparameters; sg_bodies : list sbody; sg_contacts : list scontact;
  sg_N : nat; sg_stepper : option (nat * mat) (* number of rows of W, and W *) }.
Definition soft_engine_init (eigh : mat3 -> vec3 * mat3) : sengine :=
  mkSE [(default_name, material_init eigh)] library_init sparameters_init [] [] 0 None.
(** types.py:30-38 [SurfacesInteractionLibrary.get_interaction]: no default for unknown pairs *)
Definition soft_get_interaction (L : library) (A B : name) : option interaction := lib_get L (pair_key A B).

(** ** record updates *)
Definition sb_with_x (b : sbody) (x : field) : sbody := mkSBody (s_name b) (s_stage b) (s_offset b) (s_n b) (s_T b) (s_surface b) (s_x0 b) (s_vol0 b) (s_gradN0 b) (s_invD0 b) (s_M b) (s_C b) x (s_u b) (s_dirichlet b) (s_traction b) (s_material b) (s_gravity b) (s_lumped b) (s_fixed b).
Definition sb_with_u (b : sbody) (u : field) : sbody := mkSBody (s_name b) (s_stage b) (s_offset b) (s_n b) (s_T b) (s_surface b) (s_x0 b) (s_vol0 b) (s_gradN0 b) (s_invD0 b) (s_M b) (s_C b) (s_x b) u (s_dirichlet b) (s_traction b) (s_material b) (s_gravity b) (s_lumped b) (s_fixed b).
Definition sb_with_conditions (b : sbody) (d : list dirichlet) (t : list traction) : sbody := mkSBody (s_name b) (s_stage b) (s_offset b) (s_n b) (s_T b) (s_surface b) (s_x0 b) (s_vol0 b) (s_gradN0 b) (s_invD0 b) (s_M b) (s_C b) (s_x b) (s_u b) d t (s_material b) (s_gravity b) (s_lumped b) (s_fixed b).
Definition sb_with_material (b : sbody) (m : name) (M C : list emat) : sbody := mkSBody (s_name b) (s_stage b) (s_offset b) (s_n b) (s_T b) (s_surface b) (s_x0 b) (s_vol0 b) (s_gradN0 b) (s_invD0 b) (Some M) (Some C) (s_x b) (s_u b) (s_dirichlet b) (s_traction b) (Some m) (s_gravity b) (s_lumped b) (s_fixed b).
Definition sb_with_description (b : sbody) (m : name) : sbody := mkSBody (s_name b) (s_stage b) (s_offset b) (s_n b) (s_T b) (s_surface b) (s_x0 b) (s_vol0 b) (s_gradN0 b) (s_invD0 b) (s_M b) (s_C b) (s_x b) (s_u b) (s_dirichlet b) (s_traction b) (Some m) (s_gravity b) (s_lumped b) (s_fixed b).
Definition sb_with_gravity (b : sbody) (g : vec3) : sbody := mkSBody (s_name b) (s_stage b) (s_offset b) (s_n b) (s_T b) (s_surface b) (s_x0 b) (s_vol0 b) (s_gradN0 b) (s_invD0 b) (s_M b) (s_C b) (s_x b) (s_u b) (s_dirichlet b) (s_traction b) (s_material b) g (s_lumped b) (s_fixed b).
Definition sb_with_fixed (b : sbody) (f : bool) : sbody := mkSBody (s_name b) (s_stage b) (s_offset b) (s_n b) (s_T b) (s_surface b) (s_x0 b) (s_vol0 b) (s_gradN0 b) (s_invD0 b) (s_M b) (s_C b) (s_x b) (s_u b) (s_dirichlet b) (s_traction b) (s_material b) (s_gravity b) (s_lumped b) f.
Definition sg_with_bodies (e : sengine) (bs : list sbody) : sengine := mkSE (sg_materials e) (sg_lib e) (sg_params e) bs (sg_contacts e) (sg_N e) (sg_stepper e).
Definition sg_with_contacts (e : sengine) (cs : list scontact) : sengine := mkSE (sg_materials e) (sg_lib e) (sg_params e) (sg_bodies e) cs (sg_N e) (sg_stepper e).
Definition sg_with_materials (e : sengine) (ms : list (name * smaterial)) : sengine := mkSE ms (sg_lib e) (sg_params e) (sg_bodies e) (sg_contacts e) (sg_N e) (sg_stepper e).
Definition sg_with_lib (e : sengine) (L : library) : sengine := mkSE (sg_materials e) L (sg_params e) (sg_bodies e) (sg_contacts e) (sg_N e) (sg_stepper e).
Definition sg_with_stepper (e : sengine) (W : nat * mat) : sengine := mkSE (sg_materials e) (sg_lib e) (sg_params e) (sg_bodies e) (sg_contacts e) (sg_N e) (Some W).
Definition sg_tick (e : sengine) : sengine :=
  let P := sg_params e in
  mkSE (sg_materials e) (sg_lib e) (mkSPar (sq_time_step P) (sq_pre P) (sq_post P) (sq_min_gap P) (S (sq_stamp P))) (sg_bodies e) (sg_contacts e) (sg_N e) (sg_stepper e).

(** ** lookups *)
Definition find_sbody (e : sengine) (n : name) : option sbody := find (fun b => name_eqb (s_name b) n) (sg_bodies e).
Fixpoint find_material (ms : list (name * smaterial)) (n : name) : option smaterial :=
  match ms with [] => None | (k, m) :: r => if name_eqb k n then Some m else find_material r n end.
Definition material_of (e : sengine) (b : sbody) : option smaterial :=
  match s_material b with None => None | Some n => find_material (sg_materials e) n end.
Definition upd_sbody (e : sengine) (n : name) (f : sbody -> sbody) : sengine :=
  sg_with_bodies e (map (fun b => if name_eqb (s_name b) n then f b else b) (sg_bodies e)).
Definition upd_material (e : sengine) (n : name) (f : smaterial -> smaterial) : sengine :=
  sg_with_materials e (map (fun km : name * smaterial => if name_eqb (fst km) n then (fst km, f (snd km)) else km) (sg_materials e)).

Inductive soutcome := SDone (e : sengine) | SRaised (e : sengine).

(** ** solver.py: global vectors *)
(** x[lo : lo + n] = v on a global array *)
Definition put (x : field) (lo n : nat) (v : field) : field := fun i => if Nat.leb lo i && Nat.ltb i (lo + n) then v (i - lo)%nat else x i.
Definition gather (bs : list sbody) (f : sbody -> field) : field := fold_left (fun x b => put x (s_offset b) (s_n b) (f b)) bs fzero.
(** solver.py:620-631 [get_position_vector], 633-644 [get_velocity_vector] *)
Definition get_position_vector (e : sengine) : field := gather (sg_bodies e) s_x.
Definition get_velocity_vector (e : sengine) : field := gather (sg_bodies e) s_u.
(** x[body.offset : body.offset + len(body.x)] *)
Definition view (x : field) (b : sbody) : field := fun i => x (s_offset b + i)%nat.
(** solver.py:596-606 [set_velocity_vector], 608-618 [set_position_vector] *)
Definition set_velocity_vector (u : field) (e : sengine) : sengine := sg_with_bodies e (map (fun b => sb_with_u b (view u b)) (sg_bodies e)).
Definition set_position_vector (x : field) (e : sengine) : sengine := sg_with_bodies e (map (fun b => sb_with_x b (view x b)) (sg_bodies e)).
(** x[i] = v *)
Definition fset (x : field) (i : nat) (v : vec3) : field := fun n => if Nat.eqb n i then v else x n.
(** solver.py:1000-1013 [apply_boundary_conditions_on_positions]; in x[indices] = values the last value of a repeated index wins *)
Definition bc_positions (bs : list sbody) (x : field) : field :=
  fold_left (fun x b => fold_left (fun x d => fset x (d_idx d + s_offset b) (d_value d)) (s_dirichlet b) x) bs x.
(** solver.py:1016-1028 [apply_boundary_conditions_on_velocities] *)
Definition bc_velocities (bs : list sbody) (u : field) : field :=
  fold_left (fun u b => fold_left (fun u d => fset u (d_idx d + s_offset b) vzero) (s_dirichlet b) u) bs u.

(** ** solver.py: forces of the whole world *)
(** forces = zeros; for body: forces[offset : offset + len(u)] = f(body) ; f may raise *)
Fixpoint collect (bs : list sbody) (f : sbody -> option field) (acc : field) : option field :=
  match bs with
  | [] => Some acc
  | b :: r => match f b with None => None | Some v => collect r f (put acc (s_offset b) (s_n b) v) end
  end.
(** solver.py:687-729 [compute_elastic_forces], one body *)
Definition body_elastic (e : sengine) (x : field) (b : sbody) : option field :=
  match compute_deformation_gradient (view x b) (s_T b) (s_invD0 b) with None => None | Some F =>
  match material_of e b with None => None | Some m =>
  match first_lame (sm_E m) (sm_nu m), second_lame (sm_E m) (sm_nu m) with
  | Some lam, Some mu => compute_elastic_forces (s_T b) (s_gradN0 b) F lam mu (pk1_stress (sm_model m))
  | _, _ => None
  end end end.
Definition elastic_forces (x : field) (e : sengine) : option field := collect (sg_bodies e) (body_elastic e x) fzero.
(** solver.py:731-757 [compute_traction_forces] *)
Definition traction_forces (x : field) (e : sengine) : option field := collect (sg_bodies e) (fun b => Some (compute_traction_forces (view x b) (s_traction b))) fzero.
(** solver.py:759-787 [compute_damping_forces] *)
Definition damping_forces (u : field) (e : sengine) : option field :=
  collect (sg_bodies e) (fun b => match s_C b with None => None | Some C => Some (compute_damping_forces (s_T b) C (view u b)) end) fzero.
(** solver.py:789-812 [compute_external_forces] *)
Definition external_forces (e : sengine) : option field :=
  collect (sg_bodies e) (fun b => match material_of e b with None => None | Some m => Some (compute_gravity_forces (s_T b) (s_vol0 b) (sm_rho m) (s_gravity b)) end) fzero.

(** solver.py:646-685 [compute_mass_matrix] *)
Definition shift_triplets (o : nat) (l : list triplet) : list triplet := map (fun t : triplet => let '(r, c, d) := t in ((r + 3 * o)%nat, (c + 3 * o)%nat, d)) l.
Definition soft_mass_triplets (bs : list sbody) : option (list triplet) :=
  match map_all (fun b => match s_M b with None => None | Some M => Some (shift_triplets (s_offset b) (assembly_coo (s_T b) M)) end) bs with
  | None => None | Some l => Some (concat l) end.
Definition soft_mass_matrix (e : sengine) : option mat := match soft_mass_triplets (sg_bodies e) with None => None | Some l => Some (csr l) end.
(** solver.py:814-836 [compute_inverse_mass_matrix]; [inv n M] is sparse.linalg.inv of an n-by-n matrix *)
Definition soft_inverse_mass_matrix (inv : nat -> mat -> option mat) (e : sengine) : option (nat * mat) :=
  match soft_mass_matrix e with None => None | Some M =>
  match inv (3 * sg_N e)%nat M with None => None | Some W => Some ((3 * sg_N e)%nat, W) end end.

(** ** solver.py: contacts *)
Definition w4 (w : R * R * R * R) (a : nat) : R := let '(w0, w1, w2, w3) := w in match a with O => w0 | 1%nat => w1 | 2%nat => w2 | _ => w3 end.
(** three entries of a row: a block J[i, 0..2] at columns 3 n .. 3 n + 2 *)
Definition node_entries (row n : nat) (d : vec3) : list triplet := [(row, (3 * n)%nat, vx d); (row, (3 * n + 1)%nat, vy d); (row, (3 * n + 2)%nat, vz d)].
(** solver.py:520-588: the 96 entries of contact k.  C has rows vn, vs, vt, 0; block C.dot(np.eye(3) * w) *)
Definition soft_contact_entries (bs : list sbody) (k : nat) (cp : scontact) : option (list triplet) :=
  match nth_error bs (sc_A cp), nth_error bs (sc_B cp) with
  | Some A, Some B =>
    match nth_error (s_T A) (sc_tetA cp), nth_error (s_T B) (sc_tetB cp), make_orthonormal_vectors (sc_n cp) with
    | Some tA, Some tB, Some (vs, vt, vn) =>
      let nA a := (node tA a + s_offset A)%nat in
      let nB a := (node tB a + s_offset B)%nat in
      let row i d :=
        concat (map (fun a => node_entries (4 * k + i) (nA a) (vopp (vscale (w4 (sc_wA cp) a) d))) (seq 0 4)) ++
        concat (map (fun a => node_entries (4 * k + i) (nB a) (vscale (w4 (sc_wB cp) a) d)) (seq 0 4)) in
      Some (row 0%nat vn ++ row 1%nat vs ++ row 2%nat vt ++ row 3%nat vzero)
    | _, _, _ => None
    end
  | _, _ => None
  end.
(** solver.py:496-594 [compute_jacobian_matrix] *)
Definition soft_jacobian (e : sengine) : option mat :=
  match map_all (fun kc : nat * scontact => soft_contact_entries (sg_bodies e) (fst kc) (snd kc)) (combine (seq 0 (length (sg_contacts e))) (sg_contacts e)) with
  | None => None | Some ts => Some (csr (concat ts)) end.
(** solver.py:461-479 [get_friction_coefficient_vector]: get_interaction may return None, then .mu raises *)
Definition soft_friction (e : sengine) : option vec :=
  match map_all (fun cp =>
    match nth_error (sg_bodies e) (sc_A cp), nth_error (sg_bodies e) (sc_B cp) with
    | Some A, Some B => match s_material A, s_material B with
      | Some a, Some b => match soft_get_interaction (sg_lib e) a b with Some i => Some (vx (i_mu i)) | None => None end
      | _, _ => None end
    | _, _ => None end) (sg_contacts e) with
  | None => None | Some mus => Some (fun k => nth k mus 0) end.
(** solver.py:481-494 [get_largest_penetration_error] *)
Definition soft_largest_penetration (cs : list scontact) : R := - fold_left (fun p c => Rmin p (sc_g c)) cs 0.

(** CONTACT_SOLVERS.solve: [sv K n J WJT b mu friction] is the solver for a right-hand side with 4 entries per contact; with any
    other length nb the product WJT.dot(x) of the first sweep (or, without sweeps, of the caller) raises ValueError *)
Definition ssolver := nat -> nat -> mat -> mat -> vec -> vec -> (vec3 -> R -> R -> vec3) -> option vec.
Definition contact_solve (sv : ssolver) (K n : nat) (J WJT : mat) (nb : nat) (b mu : vec) (fs : vec3 -> R -> R -> vec3) : option vec :=
  if Nat.eqb nb (4 * K) then sv K n J WJT b mu fs else None.
(** solver.py:946-997 [apply_post_stabilization]; [None] = raises.  x += delta_x adds an array of shape (3N) to one of shape (N, 3)
    (the result of np.reshape is thrown away), which raises too; it is never reached, because g has 3 entries per contact. *)
Definition post_gap (min_gap : R) (cp : scontact) : R := if Rltb (sc_g cp) (- min_gap) then sc_g cp else 0.
Definition soft_post_stabilization (sv : ssolver) (J WJT : mat) (e : sengine) : option sengine :=
  let K := length (sg_contacts e) in
  let gs := map (post_gap (sq_min_gap (sg_params e))) (sg_contacts e) in
  if forallb (fun g => Reqb g 0) gs then Some e else
  match contact_solve sv K (3 * sg_N e) J WJT (3 * K) (fun i => if Nat.eqb (i mod 3) 0 then nth (i / 3) gs 0 else 0) vzeros prox_origin with
  | None => None
  | Some sol => None
  end.

(** ** the time step *)
Definition ready (b : sbody) : bool := match s_stage b with Complete => true | _ => false end.
Definition fplus (x y : field) : field := fun n => vadd (x n) (y n).
Definition fscale (s : R) (x : field) : field := fun n => vscale s (x n).
(** W.dot(J.T), J with n columns *)
Definition mat_WJT (n : nat) (W J : mat) : mat := fun i c => rsum n (fun j => W i j * J c j).
(** solver.py:1128-1134 *)
Definition integrate (e : sengine) (dt : R) (x u_prime WPc : field) : sengine :=
  let u1 := bc_velocities (sg_bodies e) u_prime in
  let u2 := bc_velocities (sg_bodies e) (fplus u1 WPc) in
  let x2 := bc_positions (sg_bodies e) (fplus x (fscale dt u2)) in
  set_position_vector x2 (set_velocity_vector u2 e).
(** solver.py:1042-1162 [SemiImplicitStepper.step].  [cd] is collision detection (simplification: an exception in it
    leaves the contacts as they were; in the code an exception inside _contact_determination leaves those found so far) *)
Definition soft_step (cd : sengine -> option (list scontact)) (sv : ssolver) (dt : R) (e : sengine) : soutcome :=
  match sg_stepper e with None => SRaised e | Some (dimW, W) =>
  if negb (forallb ready (sg_bodies e)) then SRaised e else
  let n := (3 * sg_N e)%nat in
  let x := bc_positions (sg_bodies e) (get_position_vector e) in
  let u := bc_velocities (sg_bodies e) (get_velocity_vector e) in
  match elastic_forces x e with None => SRaised e | Some Fe =>
  match traction_forces x e with None => SRaised e | Some Ft =>
  match damping_forces u e with None => SRaised e | Some Fd =>
  match external_forces e with None => SRaised e | Some Fext =>
  let F_tot := fplus (fplus (fplus Fext Fe) Ft) Fd in
  if negb (Nat.eqb dimW n) then SRaised e else
  let u_prime : vec := fun i => flat u i + dt * mdotv n W (flat F_tot) i in
  match cd e with None => SRaised e | Some cs =>
  let e1 := sg_with_contacts e cs in
  match cs with
  | [] => SDone (sg_tick (integrate e1 dt x (unflat u_prime) fzero))
  | _ =>
    match soft_jacobian e1 with None => SRaised e1 | Some J =>
    let WJT := mat_WJT n W J in
    if sq_pre (sg_params e) then SRaised e1 else
    match soft_friction e1 with None => SRaised e1 | Some mu =>
    let K := length cs in
    match contact_solve sv K n J WJT (4 * K) (mdotv n J u_prime) mu prox_sphere with None => SRaised e1 | Some sol =>
    let e2 := integrate e1 dt x (unflat u_prime) (unflat (mdotv (4 * K) WJT sol)) in
    if sq_post (sg_params e) then
      match soft_post_stabilization sv J WJT e2 with None => SRaised e2 | Some e3 => SDone (sg_tick e3) end
    else SDone (sg_tick e2)
    end end end
  end end end end end end end.

(** ** api.py *)
(** api.py:387-404 [simulate]; [inv] is sparse.linalg.inv; fuel bounds the loop of the model, not the code's *)
Inductive ssim := SimRaised (e : sengine) | SimEnd (e : sengine) (dts : list R) | SimMore.
Fixpoint soft_loop (stp : R -> sengine -> soutcome) (fuel : nat) (T_left : R) (e : sengine) : ssim :=
  if Reqb T_left 0 then SimEnd e [] else
  match fuel with
  | O => SimMore
  | S fuel' =>
    let dt := Rmin T_left (sq_time_step (sg_params e)) in
    match stp dt e with
    | SRaised e' => SimRaised e'
    | SDone e' => match soft_loop stp fuel' (T_left - dt) e' with SimEnd e2 dts => SimEnd e2 (dt :: dts) | o => o end
    end
  end.
Definition soft_simulate (inv : nat -> mat -> option mat) (cd : sengine -> option (list scontact)) (sv : ssolver) (fuel : nat) (T : R) (e : sengine) : ssim :=
  if Rleb T 0 then SimRaised e else
  match sg_stepper e with
  | Some _ => soft_loop (soft_step cd sv) fuel T e
  | None => match soft_inverse_mass_matrix inv e with
            | None => SimRaised e
            | Some W => soft_loop (soft_step cd sv) fuel T (sg_with_stepper e W)
            end
  end.

(** rows of mesh.T after axis_sort, as tetrahedra *)
Definition elem_of_row (row : list Z) : option elem :=
  match row with [a; b; c; d] => Some (Z.to_nat a, Z.to_nat b, Z.to_nat c, Z.to_nat d) | _ => None end.
Definition tet_of_elem (t : elem) : tet := let '(a, b, c, d) := t in (Z.of_nat a, Z.of_nat b, Z.of_nat c, Z.of_nat d).
(** api.py:55-56: the surface triangles *)
Definition surface_tris (T : list elem) : list (nat * nat * nat) :=
  let Z4 := map tet_of_elem T in
  map (fun q : tri * (nat * nat) => let '(a, b, c) := fst q in (Z.to_nat a, Z.to_nat b, Z.to_nat c)) (compute_surface Z4 (compute_neighbors Z4)).
(** api.py:24-98 [create_soft_body].  [axis V] is functions.direction_of_most_variance; building the signed distance field and
    the hash-grid cell size is assumed to succeed. *)
Definition create_soft_body (axis : list vec3 -> option vec3) (e : sengine) (nm : name) (V : list vec3) (T : list (list Z)) : soutcome :=
  match find_sbody e nm with Some _ => SRaised e | None =>
  let b0 := sb_registered nm in
  let e0 := sg_with_bodies e (sg_bodies e ++ [b0]) in
  match axis V with None => SRaised e0 | Some ax =>
  match axis_sort V T ax with None => SRaised e0 | Some (V', T') =>
  match map_all elem_of_row T' with None => SRaised e0 | Some Te =>
  let x0 : field := fun n => nth n V' vzero in
  let vol0 := map (elem_volume x0) Te in
  let gradN0 := compute_outward_face_vectors x0 Te in
  match compute_inverse_D0 x0 Te with
  | None =>
    SRaised (sg_with_bodies e (sg_bodies e ++
      [mkSBody nm Meshed 0 (length V') Te [] x0 vol0 gradN0 [] None None fzero fzero [] [] None (s_gravity b0) true false]))
  | Some invD0 =>
    let b := mkSBody nm Complete (sg_N e) (length V') Te (surface_tris Te) x0 vol0 gradN0 invD0 None None x0 fzero [] [] None (s_gravity b0) true false in
    SDone (mkSE (sg_materials e) (sg_lib e) (sg_params e) (sg_bodies e ++ [b]) (sg_contacts e) (sg_N e + length V') (sg_stepper e))
  end end end end end.

(** api.py:102-120 [create_dirichlet_conditions] *)
Definition dirichlet_new (phi : vec3 -> R) (b : sbody) : list dirichlet :=
  map (fun i => mkDir i (s_x0 b i)) (filter (fun i => Rleb (phi (s_x0 b i)) 0) (seq 0 (s_n b))).
Definition create_dirichlet_conditions (e : sengine) (nm : name) (phi : vec3 -> R) : soutcome :=
  match find_sbody e nm with None => SRaised e | Some b =>
  match s_stage b with Registered => SRaised e | _ =>
  SDone (upd_sbody e nm (fun b => sb_with_conditions b (s_dirichlet b ++ dirichlet_new phi b) (s_traction b))) end end.
(** api.py:123-148 [create_traction_conditions] *)
Definition traction_new (phi : vec3 -> R) (load : vec3) (b : sbody) : list traction :=
  map (fun t : nat * nat * nat => let '(i, j, k) := t in mkTraction i j k load)
    (filter (fun t : nat * nat * nat => let '(i, j, k) := t in Rleb (phi (s_x0 b i)) 0 && Rleb (phi (s_x0 b j)) 0 && Rleb (phi (s_x0 b k)) 0) (s_surface b)).
Definition create_traction_conditions (e : sengine) (nm : name) (phi : vec3 -> R) (load : vec3) : soutcome :=
  match find_sbody e nm with None => SRaised e | Some b =>
  if ready b then SDone (upd_sbody e nm (fun b => sb_with_conditions b (s_dirichlet b) (s_traction b ++ traction_new phi load b))) else SRaised e end.
(** api.py:151-166 [set_velocity] *)
Definition soft_set_velocity (e : sengine) (nm : name) (v : vec3) : soutcome :=
  match find_sbody e nm with None => SRaised e | Some b =>
  if ready b then SDone (upd_sbody e nm (fun b => sb_with_u b (fun _ => v))) else SRaised e end.
(** api.py:169-182 [get_material_coordinates] *)
Definition get_material_coordinates (e : sengine) (nm : name) : option (nat * field) :=
  match find_sbody e nm with None => None | Some b => match s_stage b with Registered => None | _ => Some (s_n b, s_x0 b) end end.
(** api.py:185-200 [set_spatial_coordinates]; the argument has [len] rows *)
Definition set_spatial_coordinates (e : sengine) (nm : name) (len : nat) (x : field) : soutcome :=
  match find_sbody e nm with None => SRaised e | Some b =>
  if ready b && Nat.eqb len (s_n b) then SDone (upd_sbody e nm (fun b => sb_with_x b x)) else SRaised e end.
(** api.py:203-219 [set_type]; [None] is a type other than "fixed" and "free" *)
Definition soft_set_type (e : sengine) (nm : name) (fixed : option bool) : soutcome :=
  match find_sbody e nm with None => SRaised e | Some _ =>
  match fixed with None => SRaised e | Some f => SDone (upd_sbody e nm (fun b => sb_with_fixed b f)) end end.
(** api.py:222-248 [create_surfaces_interaction]; mu[0] = mu of a fresh (1, 1, 1) *)
Definition soft_create_interaction (e : sengine) (A B : name) (mu : R) : soutcome :=
  match find_material (sg_materials e) A, find_material (sg_materials e) B with
  | Some _, Some _ =>
    match soft_get_interaction (sg_lib e) A B with Some _ => SRaised e | None =>
    if Rltb mu 0 then SRaised e else SDone (sg_with_lib e (lib_set (sg_lib e) (pair_key A B) (mkInter (mkV mu 1 1) 0))) end
  | _, _ => SRaised e
  end.
(** api.py:251-263 [create_material] *)
Definition create_material (eigh : mat3 -> vec3 * mat3) (e : sengine) (m : name) : soutcome :=
  match find_material (sg_materials e) m with Some _ => SRaised e | None => SDone (sg_with_materials e (sg_materials e ++ [(m, material_init eigh)])) end.
(** api.py:266-290 [set_material] *)
Definition soft_set_material (e : sengine) (nm m : name) : soutcome :=
  match find_sbody e nm with None => SRaised e | Some b =>
  match find_material (sg_materials e) m with None => SRaised e | Some mt =>
  match s_stage b with
  | Registered => SRaised (upd_sbody e nm (fun b => sb_with_description b m)) (* assigned before vol0 = None raises *)
  | _ => SDone (upd_sbody e nm (fun b => sb_with_material b m
           (compute_mass_element_array (sm_rho mt) (s_vol0 b) (s_lumped b)) (compute_damping_element_array (sm_c mt) (s_vol0 b) (s_lumped b))))
  end end end.
(** api.py:293-311 [set_elasticity] *)
Definition set_elasticity (e : sengine) (m : name) (E nu : R) : soutcome :=
  match find_material (sg_materials e) m with None => SRaised e | Some _ =>
  if Rleb E 0 then SRaised e else if Rltb nu 0 || Rltb (1 / 2) nu then SRaised e else
  SDone (upd_material e m (fun mt => mkMat (sm_model mt) (sm_c mt) (sm_rho mt) E nu)) end.
(** api.py:314-328 [set_viscosity] *)
Definition set_viscosity (e : sengine) (m : name) (c : R) : soutcome :=
  match find_material (sg_materials e) m with None => SRaised e | Some _ =>
  if Rltb c 0 then SRaised e else SDone (upd_material e m (fun mt => mkMat (sm_model mt) c (sm_rho mt) (sm_E mt) (sm_nu mt))) end.
(** api.py:331-345 [set_mass_density] *)
Definition set_mass_density (e : sengine) (m : name) (rho : R) : soutcome :=
  match find_material (sg_materials e) m with None => SRaised e | Some _ =>
  if Rltb rho 0 then SRaised e else SDone (upd_material e m (fun mt => mkMat (sm_model mt) (sm_c mt) rho (sm_E mt) (sm_nu mt))) end.
(** api.py:348-364 [set_constitutive_model], for classes with the two functions *)
Definition set_constitutive_model (e : sengine) (m : name) (model : constitutive) : soutcome :=
  match find_material (sg_materials e) m with None => SRaised e | Some _ =>
  SDone (upd_material e m (fun mt => mkMat model (sm_c mt) (sm_rho mt) (sm_E mt) (sm_nu mt))) end.
(** api.py:367-384 [set_gravity] *)
Definition soft_set_gravity (e : sengine) (nm : name) (g : vec3) : soutcome :=
  match find_sbody e nm with None => SRaised e | Some _ => SDone (upd_sbody e nm (fun b => sb_with_gravity b g)) end.

(** the set-up interface *)
Inductive scall :=
| SCreateBody (n : name) (V : list vec3) (T : list (list Z)) | SCreateDirichlet (n : name) (phi : vec3 -> R) | SCreateTraction (n : name) (phi : vec3 -> R) (load : vec3)
| SSetVelocity (n : name) (v : vec3) | SSetCoordinates (n : name) (len : nat) (x : field) | SSetType (n : name) (fixed : option bool)
| SCreateInteraction (A B : name) (mu : R) | SCreateMaterial (m : name) | SSetMaterial (n m : name) | SSetElasticity (m : name) (E nu : R)
| SSetViscosity (m : name) (c : R) | SSetDensity (m : name) (rho : R) | SSetModel (m : name) (model : constitutive) | SSetGravity (n : name) (g : vec3).
Definition srun (eigh : mat3 -> vec3 * mat3) (axis : list vec3 -> option vec3) (c : scall) (e : sengine) : soutcome :=
  match c with
  | SCreateBody n V T => create_soft_body axis e n V T
  | SCreateDirichlet n phi => create_dirichlet_conditions e n phi
  | SCreateTraction n phi load => create_traction_conditions e n phi load
  | SSetVelocity n v => soft_set_velocity e n v
  | SSetCoordinates n len x => set_spatial_coordinates e n len x
  | SSetType n f => soft_set_type e n f
  | SCreateInteraction A B mu => soft_create_interaction e A B mu
  | SCreateMaterial m => create_material eigh e m
  | SSetMaterial n m => soft_set_material e n m
  | SSetElasticity m E nu => set_elasticity e m E nu
  | SSetViscosity m c => set_viscosity e m c
  | SSetDensity m rho => set_mass_density e m rho
  | SSetModel m md => set_constitutive_model e m md
  | SSetGravity n g => soft_set_gravity e n g
  end.
