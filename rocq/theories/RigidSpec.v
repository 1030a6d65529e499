(** Vocabulary of the rigid body properties, independent of how the simulator computes: time steps in
    sequence, kinetic energy, momentum, velocity of a material point. *)
From Verif Require Import Base QuatModel VecModel RigidTypes SolverModel.
Open Scope R_scope.

(** performing the time steps dts one after the other *)
Fixpoint run_steps {E} (stp : R -> E -> option E) (dts : list R) (e : E) : option E :=
  match dts with [] => Some e | dt :: t => match stp dt e with Some e' => run_steps stp t e' | None => None end end.

(** sum of a list of numbers / of vectors *)
Definition lsum (l : list R) : R := fold_right Rplus 0 l.
Definition vsum (l : list vec3) : vec3 := fold_right vadd vzero l.

(** same position, orientation, linear and angular velocity *)
Definition same_motion (b b' : body) : Prop := b_r b' = b_r b /\ b_q b' = b_q b /\ b_v b' = b_v b /\ b_w b' = b_w b.

(** velocity, at the point p, of the material of a body with centre r, velocity v and spin w *)
Definition point_velocity (r v w p : vec3) : vec3 := vadd v (vcross w (vsub p r)).

(** kinetic energy: half m v.v plus half the sum of I_i omega_i^2 in the body frame *)
Definition kinetic_energy (b : body) : R :=
  let om := mvec (mT (q_to_matrix (b_q b))) (b_w b) in
  1 / 2 * b_mass b * vdot (b_v b) (b_v b) +
  1 / 2 * (vx (b_inertia b) * (vx om * vx om) + vy (b_inertia b) * (vy om * vy om) + vz (b_inertia b) * (vz om * vz om)).

(** the gravity accelerations in a list of forces *)
Definition gravities (fs : list force) : list vec3 :=
  flat_map (fun f => match f with Gravity _ g up => [vscale g up] | Damping _ _ _ => [] end) fs.

(** total linear and angular damping coefficients in a list of forces *)
Definition dampings (fs : list force) : R * R :=
  (lsum (map (fun f => match f with Damping _ a _ => a | _ => 0 end) fs), lsum (map (fun f => match f with Damping _ _ b => b | _ => 0 end) fs)).
(** force on a body: gravity and linear damping *)
Definition net_force (b : body) : vec3 :=
  vsub (vscale (- b_mass b) (vsum (gravities (b_forces b)))) (vscale (fst (dampings (b_forces b))) (b_v b)).
(** torque on a body with world inertia tensor I: gyroscopic term and angular damping *)
Definition net_torque (I : mat3) (b : body) : vec3 :=
  vsub (vopp (vcross (b_w b) (mvec I (b_w b)))) (vscale (snd (dampings (b_forces b))) (b_w b)).
(** the inertia tensor diag(B) seen from the world: R diag(B) R^T *)
Definition world_tensor (R : mat3) (B : vec3) : mat3 := mmul (mmul R (mdiag B)) (mT R).
Definition vinv (v : vec3) : vec3 := mkV (1 / vx v) (1 / vy v) (1 / vz v).
