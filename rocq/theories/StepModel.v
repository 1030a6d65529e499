(** Model of rainbow/simulators/prox_rigid_bodies/{state_storage,steppers}.py, the parts of mass.py they use,
    and constraints/{contacts,hinges,post_stabilization}.py (assembly; the sweeps are in SolverModel.v).

    Stacked arrays are [vec] (functions of the index, only the entries below the length are read), matrices
    [mat].  A float64 division by zero in 1.0 / body.inertia (numpy: inf with a warning) is [None]. *)
From Verif Require Import Base QuatModel VecModel BvhModel GridModel VolModel ProxModel SolverModel RigidTypes CollModel.
Open Scope R_scope.

(** ** mass.py *)
(** mass.py:395-452 [update_inertia_tensor] *)
Definition update_inertia_tensor (A : mat3) (B : vec3) : mat3 :=
  let w00 := m00 A * m00 A * vx B + m01 A * m01 A * vy B + m02 A * m02 A * vz B in
  let w11 := m10 A * m10 A * vx B + m11 A * m11 A * vy B + m12 A * m12 A * vz B in
  let w22 := m20 A * m20 A * vx B + m21 A * m21 A * vy B + m22 A * m22 A * vz B in
  let w10 := m10 A * m00 A * vx B + m11 A * m01 A * vy B + m12 A * m02 A * vz B in
  let w20 := m20 A * m00 A * vx B + m21 A * m01 A * vy B + m22 A * m02 A * vz B in
  let w21 := m10 A * m20 A * vx B + m11 A * m21 A * vy B + m12 A * m22 A * vz B in
  mkM w00 w10 w20 w10 w11 w21 w20 w21 w22.

(** ** state_storage.py *)
(** slices x[o:o+3], x[o:o+4]: reading and writing *)
Definition read3 (x : vec) (o : nat) : vec3 := mkV (x o) (x (o + 1)%nat) (x (o + 2)%nat).
Definition read4 (x : vec) (o : nat) : quat := mkQ (x o) (x (o + 1)%nat) (x (o + 2)%nat) (x (o + 3)%nat).
Definition write3 (x : vec) (o : nat) (v : vec3) : vec :=
  fun j => if Nat.eqb j o then vx v else if Nat.eqb j (o + 1) then vy v else if Nat.eqb j (o + 2) then vz v else x j.
Definition write4 (x : vec) (o : nat) (q : quat) : vec :=
  fun j => if Nat.eqb j o then qs q else if Nat.eqb j (o + 1) then qx q else if Nat.eqb j (o + 2) then qy q
           else if Nat.eqb j (o + 3) then qz q else x j.
(** enumerate(engine.bodies.values()) *)
Definition enum {A} (l : list A) : list (nat * A) := combine (seq 0 (length l)) l.

(** state_storage.py:70-85 [_get_position_vector] *)
Definition get_position_vector (bs : list body) : vec :=
  fold_left (fun x kb => let '(k, b) := kb in write4 (write3 x (7 * k) (b_r b)) (7 * k + 3) (b_q b)) (enum bs) vzeros.
(** state_storage.py:87-105 [_get_velocity_vector] *)
Definition get_velocity_vector (bs : list body) : vec :=
  fold_left (fun u kb => let '(k, b) := kb in write3 (write3 u (6 * k) (b_v b)) (6 * k + 3) (b_w b)) (enum bs) vzeros.
(** state_storage.py:55-68 [copy_to_engine] *)
Definition copy_to_bodies (x u : vec) (bs : list body) : list body :=
  map (fun kb => let '(k, b) := kb in
         with_pose (with_vel b (read3 u (6 * k)) (read3 u (6 * k + 3))) (read3 x (7 * k)) (read4 x (7 * k + 3))) (enum bs).

(** state_storage.py:139-155: total force and torque on one free body *)
Definition body_force (x u : vec) (k : nat) (b : body) : vec3 * vec3 :=
  let q := read4 x (7 * k + 3) in
  let v := read3 u (6 * k) in
  let w := read3 u (6 * k + 3) in
  let I_wcs := update_inertia_tensor (q_to_matrix q) (b_inertia b) in
  fold_left (fun ft f => let '(Fi, Ti) := force_compute f (b_mass b) v w in (vadd (fst ft) Fi, vadd (snd ft) Ti))
            (b_forces b) (vzero, vopp (vcross w (mvec I_wcs w))).
(** state_storage.py:108-156 [_compute_total_external_forces] *)
Definition compute_total_external_forces (x u : vec) (bs : list body) : vec :=
  fold_left (fun f kb => let '(k, b) := kb in
     if b_fixed b then f else
     let '(F, T) := body_force x u k b in write3 (write3 f (6 * k) F) (6 * k + 3) T) (enum bs) vzeros.

(** entry (i,j) of a 3x3 matrix *)
Definition ment (A : mat3) (i j : nat) : R :=
  match i, j with
  | 0, 0 => m00 A | 0, 1 => m01 A | 0, _ => m02 A
  | 1, 0 => m10 A | 1, 1 => m11 A | 1, _ => m12 A
  | _, 0 => m20 A | _, 1 => m21 A | _, _ => m22 A
  end%nat.
(** sparse.block_diag of 3x3 blocks *)
Definition block_diag3 (blocks : list mat3) : mat :=
  fun i j => if Nat.eqb (i / 3) (j / 3) then ment (nth (i / 3) blocks mzero) (i mod 3) (j mod 3) else 0.
(** state_storage.py:167-178: the two blocks of one body; [None] = ValueError (no mass) or a division by zero *)
Definition inverse_mass_blocks (x : vec) (k : nat) (b : body) : option (list mat3) :=
  if b_fixed b then Some [mzero; mzero] else
  if Reqb (b_mass b) 0 then None else
  if Reqb (vx (b_inertia b)) 0 || Reqb (vy (b_inertia b)) 0 || Reqb (vz (b_inertia b)) 0 then None else
  let A := q_to_matrix (read4 x (7 * k + 3)) in
  let I_wcs := update_inertia_tensor A (mkV (1 / vx (b_inertia b)) (1 / vy (b_inertia b)) (1 / vz (b_inertia b))) in
  let m := 1 / b_mass b in
  Some [mdiag (mkV m m m); I_wcs].
(** state_storage.py:158-185 [_compute_inverse_mass_matrix] *)
Definition compute_inverse_mass_matrix (x : vec) (bs : list body) : option mat :=
  do blocks <- map_opt (fun kb => inverse_mass_blocks x (fst kb) (snd kb)) (enum bs);
  Some (block_diag3 (concat blocks)).

(** state_storage.py:33-53 [StateStorage], [copy_from_engine] *)
Record state := mkState { s_x : vec; s_u : vec; s_W : mat; s_duext : vec }.
Definition copy_from_engine (e : engine) : option state :=
  let bs := e_bodies e in
  let x := get_position_vector bs in
  let u := get_velocity_vector bs in
  let f := compute_total_external_forces x u bs in
  do W <- compute_inverse_mass_matrix x bs;
  Some (mkState x u W (mdotv (6 * length bs) W f)).

(** state_storage.py:250-302 [position_update] *)
Definition position_update (dt : R) (bs : list body) (u : vec) (x : vec) : vec :=
  fold_left (fun x kb => let '(k, b) := kb in
    if b_fixed b then x else
    let r := read3 x (7 * k) in
    let q := read4 x (7 * k + 3) in
    let v := read3 u (6 * k) in
    let w := read3 u (6 * k + 3) in
    let r' := vadd r (vscale dt v) in
    let q' := qadd q (qscale (1 / 2) (qscale dt (q_prod (q_from_vector3 w) q))) in
    write4 (write3 x (7 * k) r') (7 * k + 3) (q_unit q')) (enum bs) x.

(** state_storage.py:219-232: the potential energy term of one free body (all gravity forces of the engine) *)
Definition gravity_sum (fs : list force) : vec3 * bool :=
  fold_left (fun G f => match f with Gravity _ g up => (vadd (fst G) (vscale g up), true) | Damping _ _ _ => G end) fs (vzero, false).
(** state_storage.py:188-237 [compute_total_energy]: kinetic, potential.  V3.unit(G) for G = 0 is NaN in numpy; the
    model then has up = 0/0 = 0, so theorems about the potential require G <> 0. *)
Definition compute_total_energy (x u : vec) (e : engine) : R * R :=
  fold_left (fun kp kb => let '(k, b) := kb in
    if b_fixed b then kp else
    let r := read3 x (7 * k) in
    let A := q_to_matrix (read4 x (7 * k + 3)) in
    let v := read3 u (6 * k) in
    let w := read3 u (6 * k + 3) in
    let m := b_mass b in
    let I_wcs := update_inertia_tensor A (b_inertia b) in
    let '(G, has_gravity) := gravity_sum (e_forces e) in
    let pot := if has_gravity : bool then m * vnorm G * vdot (v3_unit G) r else 0 in
    let wIw := vdot w (mvec I_wcs w) in
    (fst kp + 1 / 2 * (m * vdot v v + wIw), snd kp + pot)) (enum (e_bodies e)) (0, 0).

(** ** constraints *)
(** sparse.csr_matrix((data, (row, col))): entries with equal coordinates are added *)
Definition triplet := (nat * nat * R)%type.
Definition csr (l : list triplet) : mat :=
  fun i j => fold_right (fun t s => let '(r, c, d) := t in if Nat.eqb r i && Nat.eqb c j then d + s else s) 0 l.
(** contacts.py:157-181 = hinges.py:156-180: the twelve entries of row [row] *)
Definition row_entries (row idxA idxB : nat) (av aw bv bw : vec3) : list triplet :=
  [(row, 6 * idxA, vx av); (row, 6 * idxA + 1, vy av); (row, 6 * idxA + 2, vz av);
   (row, 6 * idxA + 3, vx aw); (row, 6 * idxA + 4, vy aw); (row, 6 * idxA + 5, vz aw);
   (row, 6 * idxB, vx bv); (row, 6 * idxB + 1, vy bv); (row, 6 * idxB + 2, vz bv);
   (row, 6 * idxB + 3, vx bw); (row, 6 * idxB + 4, vy bw); (row, 6 * idxB + 5, vz bw)]%nat.
(** contacts.py:131-181: the 48 entries of contact k *)
Definition contact_entries (e : engine) (k : nat) (cp : contact) : option (list triplet) :=
  do A <- find_body e (c_A cp); do B <- find_body e (c_B cp);
  let rA := vsub (c_p cp) (b_r A) in
  let rB := vsub (c_p cp) (b_r B) in
  do stn <- make_orthonormal_vectors (c_n cp);
  let '(vs, vt, vn) := stn in
  let row i d w := row_entries (4 * k + i) (b_idx A) (b_idx B)
                     (vopp d) (vopp (w rA)) d (w rB) in
  Some (row 0%nat vn (fun r => vcross r vn) ++ row 1%nat vs (fun r => vcross r vs) ++
        row 2%nat vt (fun r => vcross r vt) ++ row 3%nat vzero (fun _ => vn)).
(** contacts.py:109-186 [_compute_jacobian_matrix] *)
Definition contact_jacobian (e : engine) : option mat :=
  do ts <- map_opt (fun kc => contact_entries e (fst kc) (snd kc)) (enum (e_contacts e));
  Some (csr (concat ts)).

(** contacts.py:188-220 [_compute_error_vector]; a zero time step raises ZeroDivisionError.
    [fold_left] is the loop over the contacts. *)
Definition contact_error (P : params) (dt : R) (v : vec) (cs : list contact) : option vec :=
  if negb (p_use_pre P) then Some vzeros else
  if Reqb dt 0 then None else
  let rate := p_gap_reduction P / dt in
  let upper := - p_max_gap P / dt in
  let lower := - p_min_gap P in
  Some (fold_left (fun g kc => let '(k, cp) := kc in
          if Rltb (c_g cp) lower && Rleb (v (4 * k)%nat) 0
          then (fun j => if Nat.eqb j (4 * k) then Rmax upper (rate * c_g cp) else g j) else g) (enum cs) vzeros).
(** contacts.py:222-235 [get_largest_penetration] *)
Definition get_largest_penetration (cs : list contact) : R :=
  - fold_left (fun gap cp => Rmin gap (c_g cp)) cs 0.
(** contacts.py:237-256 [_get_friction_coefficient_vector] *)
Definition contact_behavior (e : engine) (cp : contact) : option interaction :=
  do A <- find_body e (c_A cp); do B <- find_body e (c_B cp);
  get_interaction (e_lib e) (b_material A) (b_material B).
Definition friction_vector (e : engine) : option vec :=
  do ms <- map_opt (fun cp => do i <- contact_behavior e cp; Some (vx (i_mu i))) (e_contacts e);
  Some (fun k => nth k ms 0).
(** contacts.py:258-287 [_get_restitution_vector] *)
Definition restitution_vector (e : engine) : option vec :=
  if negb (p_use_bounce (e_params e)) then Some vzeros else
  do es <- map_opt (fun cp => do i <- contact_behavior e cp; Some (i_eps i)) (e_contacts e);
  Some (fun j => if Nat.eqb (j mod 4) 0 then nth (j / 4) es 0 else 0).

(** J.T and W.dot(J.T) *)
Definition mat_WJT (n : nat) (W J : mat) : mat := fun i j => rsum n (fun l => W i l * J j l).

(** contacts.py:31-55 [Contacts.initialize] *)
Definition contacts_initialize (dt : R) (st : state) (e : engine) : option problem :=
  let N := (6 * length (e_bodies e))%nat in
  let K := length (e_contacts e) in
  do J <- contact_jacobian e;
  let WJT := mat_WJT N (s_W st) J in
  let v := mdotv N J (s_u st) in
  do g <- contact_error (e_params e) dt v (e_contacts e);
  do eps <- restitution_vector e;
  do mu <- friction_vector e;
  let b := fun i => (1 + eps i) * v i + mdotv N J (fun j => dt * s_duext st j) i + g i in
  Some (contact_problem K N J WJT b mu prox_sphere).

(** hinges.py:132-180: the 60 entries of a hinge *)
Definition hinge_entries (e : engine) (h : hinge) : option (list triplet) :=
  do sk <- h_sockets h;
  let '(sp, sc) := sk in
  do P <- find_body e (sk_body sp); do C <- find_body e (sk_body sc);
  let arm_p := q_rotate (b_q P) (sk_arm sp) in
  let arm_c := q_rotate (b_q C) (sk_arm sc) in
  do tbn <- make_orthonormal_vectors (q_rotate (b_q P) (sk_axis sp));
  let '(t_p, b_p, n_p) := tbn in
  let SA := m3_star arm_p in let SB := m3_star arm_c in
  let k := h_idx h in
  let row i := row_entries (5 * k + i) (b_idx P) (b_idx C) in
  Some (row 0%nat v3_i (vopp (mrow0 SA)) (vopp v3_i) (mrow0 SB) ++
        row 1%nat v3_j (vopp (mrow1 SA)) (vopp v3_j) (mrow1 SB) ++
        row 2%nat v3_k (vopp (mrow2 SA)) (vopp v3_k) (mrow2 SB) ++
        row 3%nat vzero t_p vzero (vopp t_p) ++ row 4%nat vzero b_p vzero (vopp b_p)).
(** hinges.py:103-185 [_compute_jacobian_matrix] *)
Definition hinge_jacobian (e : engine) : option mat :=
  do ts <- map_opt (hinge_entries e) (e_hinges e);
  Some (csr (concat ts)).
(** hinges.py:200-217: the five error entries of a hinge, before the rate *)
Definition hinge_gap (e : engine) (h : hinge) : option (vec3 * R * R) :=
  do sk <- h_sockets h;
  let '(sp, sc) := sk in
  do P <- find_body e (sk_body sp); do C <- find_body e (sk_body sc);
  let r_p := vadd (q_rotate (b_q P) (sk_arm sp)) (b_r P) in
  let r_c := vadd (q_rotate (b_q C) (sk_arm sc)) (b_r C) in
  do tbn <- make_orthonormal_vectors (q_rotate (b_q P) (sk_axis sp));
  let '(t_p, b_p, n_p) := tbn in
  let n_c := q_rotate (b_q C) (sk_axis sc) in
  let u := vcross n_p n_c in
  Some (vsub r_c r_p, vdot t_p u, vdot b_p u).
Fixpoint hinge_error_loop (e : engine) (hs : list hinge) (g : vec) : option vec :=
  match hs with
  | [] => Some g
  | h :: t =>
    do gap <- hinge_gap e h;
    let '(d, a, b) := gap in
    let o := (5 * h_idx h)%nat in
    let g1 := write3 g o d in
    hinge_error_loop e t (fun j => if Nat.eqb j (o + 3) then a else if Nat.eqb j (o + 4) then b else g1 j)
  end.
(** hinges.py:187-218 [_compute_error_vector] *)
Definition hinge_error (dt : R) (e : engine) : option vec :=
  if negb (p_use_pre (e_params e)) then Some vzeros else
  do g <- hinge_error_loop e (e_hinges e) vzeros;
  if Reqb dt 0 then None else
  let rate := p_gap_reduction (e_params e) / dt in
  Some (fun j => g j * rate).
(** hinges.py:28-48 [Hinges.initialize] *)
Definition hinges_initialize (dt : R) (st : state) (e : engine) : option problem :=
  let N := (6 * length (e_bodies e))%nat in
  let K := length (e_hinges e) in
  do J <- hinge_jacobian e;
  let WJT := mat_WJT N (s_W st) J in
  do g <- hinge_error dt e;
  let b := fun i => mdotv N J (s_u st) i + mdotv N J (fun j => dt * s_duext st j) i + g i in
  Some (mkProb 5 K N J WJT b hinge_prox).

(** post_stabilization.py:86-103 [_compute_error_vector] *)
Definition post_error (P : params) (cs : list contact) : vec :=
  fold_left (fun g kc => let '(k, cp) := kc in
     if Rltb (c_g cp) (- p_min_gap P) then (fun j => if Nat.eqb j (4 * k) then c_g cp else g j) else g) (enum cs) vzeros.
(** post_stabilization.py:17-37: the projection problem of a contact problem *)
Definition post_problem (P : params) (cs : list contact) (C : problem) : problem :=
  mkProb 4 (pK C) (pN C) (pJ C) (pWJT C) (post_error P cs) post_prox.

(** ** steppers.py *)
Definition engine_sparams (P : params) : sparams :=
  mkSP (p_max_iterations P) (p_abs_tol P) (p_rel_tol P) (p_nu_reduce P) (p_nu_increase P) (p_small_merit P).
(** SOLVER.solve: the [sol] vectors it leaves in the problems *)
Definition run_solver (P : params) (ps : list problem) : list vec :=
  map ps_sol (snd (rigid_solve (engine_sparams P) (map ps_init ps))).

(** g.any() on an array of length n *)
Definition any_nonzero (n : nat) (g : vec) : bool := existsb (fun i => negb (Reqb (g i) 0)) (seq 0 n).

(** steppers.py:47-93 [SemiImplicitStepper.step]; [solver] is [run_solver] and [cd] is
    [run_collision_detection] in [step] below, arbitrary in theorems that hold for any solver. *)
Definition step_with (solver : params -> list problem -> list vec) (cd : engine -> option engine)
    (dt : R) (e0 : engine) : option engine :=
  do st <- copy_from_engine e0;
  do e <- cd e0;
  do cprobs <- (match e_contacts e with [] => Some [] | _ => do p <- contacts_initialize dt st e; Some [p] end);
  do hprobs <- (match e_hinges e with [] => Some [] | _ => do p <- hinges_initialize dt st e; Some [p] end);
  let probs := cprobs ++ hprobs in
  let sols := match probs with [] => [] | _ => solver (e_params e) probs end in
  (* lines 64, 84-85: delta_u = dt * delta_u_ext, then += WJT.dot(sol) *)
  let delta_u := fold_left (fun d ps => fun j => d j + WJTx (fst ps) (snd ps) j) (combine probs sols) (fun j => dt * s_duext st j) in
  let u := fun j => s_u st j + delta_u j in
  let x := position_update dt (e_bodies e) u (s_x st) in
  (* lines 90-91 and 15-36 [_apply_post_stabilization] *)
  let x' :=
    match cprobs with
    | [C] =>
      if p_use_post (e_params e) then
        let Q := post_problem (e_params e) (e_contacts e) C in
        if any_nonzero (4 * pK Q) (pb Q) then
          match solver (e_params e) [Q] with
          | sol :: _ => position_update 1 (e_bodies e) (WJTx Q sol) x
          | [] => x
          end
        else x
      else x
    | _ => x
    end in
  Some (set_bodies e (copy_to_bodies x' u (e_bodies e))).
Definition step := step_with run_solver run_collision_detection.

(** api.py:676-693 [simulate]: [fuel] bounds the iterations of the while loop; [None] = still running,
    [Some None] = a step raised, [Some (Some e)] = returned.  [dts] collects the step sizes used. *)
Fixpoint sim_loop {E} (stp : R -> E -> option E) (time_step : E -> R) (fuel : nat) (T_left : R) (e : E) : option (option (E * list R)) :=
  if Reqb T_left 0 then Some (Some (e, [])) else
  match fuel with
  | O => None
  | S fuel' =>
    let dt := Rmin T_left (time_step e) in
    match stp dt e with
    | None => Some None
    | Some e' =>
      match sim_loop stp time_step fuel' (T_left - dt) e' with
      | Some (Some (e2, dts)) => Some (Some (e2, dt :: dts))
      | o => o
      end
    end
  end.
Inductive sim_result := SimRaises | SimRunning | SimDone (e : engine) (dts : list R).
Definition simulate_with (stp : R -> engine -> option engine) (fuel : nat) (T : R) (e : engine) : sim_result :=
  if Rleb T 0 then SimRaises
  else if negb (e_stepper e) then SimRaises
  else match sim_loop stp (fun e => p_time_step (e_params e)) fuel T e with
       | None => SimRunning
       | Some None => SimRaises
       | Some (Some (e', dts)) => SimDone e' dts
       end.
Definition simulate := simulate_with step.
