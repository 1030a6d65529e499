(** Vocabulary for the statements about mechanics.py: derivatives of functions of a matrix, symmetric positive definite
    matrices, orthogonal matrices.  Nothing here refers to the model of the code, apart from the names of matrix addition,
    scaling, trace and the entrywise (Frobenius) product. *)
From Verif Require Import Base VecModel MechModel.
Open Scope R_scope.

Definition symmetric (A : mat3) : Prop := mT A = A.
Definition quad (A : mat3) (v : vec3) : R := vdot v (mvec A v).
Definition spd (A : mat3) : Prop := symmetric A /\ forall v, v <> vzero -> 0 < quad A v.
Definition orthogonal (Q : mat3) : Prop := mmul (mT Q) Q = mid.
(** [psi] is defined on the line F + t H and has derivative [d] at t = 0 *)
Definition dir_derivative (psi : mat3 -> option R) (F H : mat3) (d : R) : Prop :=
  exists e : R -> R, (forall t, psi (m3add F (m3scale t H)) = Some (e t)) /\ derivable_pt_lim e 0 d.
(** [P] is the derivative of [psi] at [F]: along every direction H the derivative is P : H *)
Definition is_gradient (psi : mat3 -> option R) (F P : mat3) : Prop := forall H, dir_derivative psi F H (m3dot P H).
(** what np.linalg.eigh promises for a symmetric matrix [A]: the columns of [V] are orthonormal and A = V diag(d) V^T *)
Definition eigen_pair (A : mat3) (dV : vec3 * mat3) : Prop :=
  orthogonal (snd dV) /\ A = mmul (mmul (snd dV) (mdiag (fst dV))) (mT (snd dV)).
