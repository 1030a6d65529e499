(** Vocabulary for the statements about the finite-element code. *)
From Verif Require Import Base VecModel SolverModel FemModel.
Open Scope R_scope.

(** all tetrahedra refer to nodes below N *)
Definition valid_mesh (N : nat) (T : list elem) : Prop := Forall (fun t => forall a, (node t a < N)%nat) T.
(** virtual work of nodal forces f along nodal displacements h: the sum of f_n . h_n *)
Definition work (N : nat) (f h : field) : R := rsum N (fun n => vdot (f n) (h n)).
(** the vector sum of nodal values: total force, or total momentum *)
Fixpoint vtotal (N : nat) (f : field) : vec3 := match N with O => vzero | S n => vadd (vtotal n f) (f n) end.
(** the total torque of nodal forces f acting at positions x, about the origin *)
Definition torque (N : nat) (x f : field) : vec3 := vtotal N (fun n => vcross (x n) (f n)).
(** sum of a list of numbers *)
Definition sum (l : list R) : R := fold_right Rplus 0 l.
