(** Vocabulary for contacts and joints, independent of how the Jacobians are stored. *)
From Verif Require Import Base QuatModel VecModel SolverModel RigidTypes RigidSpec StepModel.
Open Scope R_scope.

(** every body / hinge carries its position in the creation order as index (see C56) *)
Definition bodies_indexed (e : engine) : Prop := forall k b, nth_error (e_bodies e) k = Some b -> b_idx b = k.
Definition hinges_indexed (e : engine) : Prop := forall k h, nth_error (e_hinges e) k = Some h -> h_idx h = k.

(** linear and angular velocity of body [b] in a stacked velocity vector *)
Definition lin (u : vec) (b : body) : vec3 := read3 u (6 * b_idx b).
Definition ang (u : vec) (b : body) : vec3 := read3 u (6 * b_idx b + 3).
(** velocity of the material point of b at p when the bodies move with u *)
Definition velocity_at (u : vec) (b : body) (p : vec3) : vec3 := point_velocity (b_r b) (lin u b) (ang u b) p.

(** a right-handed orthonormal frame whose third vector is the direction of d *)
Definition frame_along (d s t n : vec3) : Prop :=
  n = vdiv d (vnorm d) /\ vdot s s = 1 /\ vdot t t = 1 /\ vdot n n = 1 /\
  vdot s t = 0 /\ vdot t n = 0 /\ vdot n s = 0 /\ vcross s t = n.

(** world position of a socket's origin and world direction of its axis *)
Definition anchor (b : body) (s : socket) : vec3 := vadd (q_rotate (b_q b) (sk_arm s)) (b_r b).
Definition axis_w (b : body) (s : socket) : vec3 := q_rotate (b_q b) (sk_axis s).

(** the generalised impulse J^T x of n multipliers *)
Definition gen_impulse (n : nat) (J : mat) (x : vec) : vec := fun l => rsum n (fun i => J i l * x i).
(** the total linear momentum of a generalised impulse on m bodies, and its total angular momentum about the origin *)
Definition total_linear (bs : list body) (p : vec) : vec3 := vsum (map (fun k => read3 p (6 * k)) (seq 0 (length bs))).
Definition total_angular (bs : list body) (p : vec) : vec3 :=
  vsum (map (fun kb => vadd (vcross (b_r (snd kb)) (read3 p (6 * fst kb))) (read3 p (6 * fst kb + 3))) (combine (seq 0 (length bs)) bs)).
