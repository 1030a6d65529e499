(** Specification vocabulary for the contact solvers. *)
From Verif Require Import Base ProxSpec SolverModel.
Open Scope R_scope.

(** friction force and normal force of contact k in a global force vector *)
Definition normal_of (x : vec) (k : nat) : R := x (4 * k)%nat.
Definition friction_of (x : vec) (k : nat) : vec3 := mkV (x (4 * k + 1)%nat) (x (4 * k + 2)%nat) (x (4 * k + 3)%nat).
Definition cone_ok (K : nat) (mu : vec) (x : vec) : Prop :=
  forall k, (k < K)%nat -> in_cone (mu k) (normal_of x k) (friction_of x k).

(** A = J W J^T applied to x *)
Definition delassus (P : problem) (x : vec) : vec := fun i => mdotv (pN P) (pJ P) (WJTx P x) i.
(** one textbook Gauss-Seidel block update: project z_b = x_b - r_b (A x + b)_b, computed
    from the current x *)
Definition gs_block (P : problem) (r x : vec) (k : nat) : vec :=
  set_block (pB P) k x
    (pprox P k (fun i => let j := (pB P * k + i)%nat in x j - r j * (delassus P x j + pb P j))).
(** textbook Gauss-Seidel over the blocks in the given order *)
Definition gs_spec (P : problem) (r : vec) (order : list nat) (x : vec) : vec := fold_left (gs_block P r) order x.

(** replaying a recorded history: the last accepted iterate and its merit *)
Definition last_x (h : list entry) : vec := fold_left (fun s e => if it_reject e then s else it_x e) h vzeros.
Definition last_merit (h : list entry) : option R :=
  fold_left (fun s e => if it_reject e then s else Some (it_merit e)) h None.
(** largest absolute entry below len *)
Definition is_max_abs (len : nat) (v : vec) (m : R) : Prop :=
  (exists i, (i < len)%nat /\ m = Rabs (v i)) /\ forall i, (i < len)%nat -> Rabs (v i) <= m.
