(** The contact law, independent of any solver: Signorini's condition, the principle of maximal dissipation, and what
    it means for an iteration to have converged. *)
From Verif Require Import Base ProxSpec SolverModel SolverSpec.
Open Scope R_scope.

(** Signorini: a force [x] that only pushes, a relative velocity [a] that does not penetrate, and no force where bodies separate *)
Definition signorini (x a : R) : Prop := 0 <= x /\ 0 <= a /\ x * a = 0.
(** [f] is admissible (no longer than mu x_n) and no admissible force takes more power out of the sliding velocity [v] *)
Definition dissipates_most (mu x_n : R) (f v : vec3) : Prop :=
  vnorm f <= mu * x_n /\ forall g, vnorm g <= mu * x_n -> vdot f v <= vdot g v.
(** componentwise product *)
Definition vmul (a b : vec3) : vec3 := mkV (vx a * vx b) (vy a * vy b) (vz a * vz b).

(** A x + b, with A = J W J^T *)
Definition residual (P : problem) (x : vec) : vec := fun i => delassus P x i + pb P i.
(** the contact law for all K contacts, the sliding velocity of contact k being weighted by [wt k] *)
Definition contact_law (wt : nat -> vec3) (K : nat) (mu : vec) (x res : vec) : Prop := forall k, (k < K)%nat ->
  signorini (normal_of x k) (normal_of res k) /\ dissipates_most (mu k) (normal_of x k) (friction_of x k) (vmul (wt k) (friction_of res k)).
(** an iterate that another sweep leaves alone *)
Definition stationary (len : nat) (sweep : vec -> vec -> vec) (r x : vec) : Prop := forall i, (i < len)%nat -> sweep r x i = x i.

(** ** at the level of bodies *)
From Verif Require Import QuatModel VecModel RigidTypes RigidSpec.
(** relative velocity, at the point p, of body B with respect to body A: the centres are those of A and B, the
    velocities those of A' and B' *)
Definition slip (A B A' B' : body) (p : vec3) : vec3 :=
  vsub (point_velocity (b_r B) (b_v B') (b_w B') p) (point_velocity (b_r A) (b_v A') (b_w A') p).
(** the velocity with which pre-stabilisation pushes a penetrating, non-separating contact apart (as a negative number) *)
Definition push_out (P : params) (dt : R) (c : contact) (vn : R) : R :=
  if p_use_pre P && Rltb (c_g c) (- p_min_gap P) && Rleb vn 0 then Rmax (- p_max_gap P / dt) (p_gap_reduction P / dt * c_g c) else 0.
(** the coefficient of restitution in force *)
Definition bounce (P : params) (i : interaction) : R := if p_use_bounce P then i_eps i else 0.

(** ** stopping early *)
(** sum of the absolute values of row i of A = J W J^T *)
Definition row_sum (P : problem) (i : nat) : R := rsum (pB P * pK P) (fun j => Rabs (rsum (pN P) (fun l => pJ P i l * pWJT P l j))).
(** the contact law up to an error of [d i] in row i *)
Definition contact_law_upto (d : vec) (wt : nat -> vec3) (K : nat) (mu : vec) (x res : vec) : Prop := forall k, (k < K)%nat ->
  0 <= normal_of x k /\ - normal_of d k <= normal_of res k /\ (0 < normal_of x k -> Rabs (normal_of res k) <= normal_of d k) /\
  vnorm (friction_of x k) <= mu k * normal_of x k /\
  forall g, vnorm g <= mu k * normal_of x k ->
    vdot (friction_of x k) (vmul (wt k) (friction_of res k)) <= vdot g (vmul (wt k) (friction_of res k)) +
      vdot (vmul (wt k) (friction_of d k)) (mkV 1 1 1) * vnorm (vsub (friction_of x k) g).

(** ** energy *)
(** kinetic energy of a free body at the pose of [b] that moves with velocity v and spin w; a fixed body counts for nothing *)
Definition energy_at (b : body) (v w : vec3) : R :=
  if b_fixed b then 0 else 1 / 2 * b_mass b * vdot v v + 1 / 2 * vdot w (mvec (world_tensor (q_to_matrix (b_q b)) (b_inertia b)) w).
(** the velocity and spin external forces alone would give the body over the time dt *)
Definition free_velocity (dt : R) (b : body) : vec3 := vadd (b_v b) (vscale (dt / b_mass b) (net_force b)).
Definition free_spin (dt : R) (b : body) : vec3 :=
  let I := world_tensor (q_to_matrix (b_q b)) (b_inertia b) in
  vadd (b_w b) (vscale dt (mvec (world_tensor (q_to_matrix (b_q b)) (vinv (b_inertia b))) (net_torque I b))).
