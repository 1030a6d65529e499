(** Specification vocabulary for proximal operators: closest point of a set. *)
From Verif Require Import Base.
Open Scope R_scope.

Definition dist (p q : vec3) : R := vnorm (vsub p q).
(** [p] is the closest point of [S] to [z], and the only one *)
Definition is_closest (S : vec3 -> Prop) (z p : vec3) : Prop :=
  S p /\ forall q, S q -> q <> p -> dist z p < dist z q.
Definition ball (r : R) (p : vec3) : Prop := vnorm p <= r.
Definition ellipsoid (a b c : R) (p : vec3) : Prop :=
  (vx p / a) ^ 2 + (vy p / b) ^ 2 + (vz p / c) ^ 2 <= 1.
(** value of the ellipsoid equation at p: positive outside, zero on the surface *)
Definition ell_fun (a b c : R) (p : vec3) : R :=
  (vx p / a) ^ 2 + (vy p / b) ^ 2 + (vz p / c) ^ 2 - 1.
(** the friction cone of one contact: normal force non-negative, friction (two tangential
    components and the torsional one) no larger than mu times the normal force *)
Definition in_cone (mu x_n : R) (f : vec3) : Prop := 0 <= x_n /\ vnorm f <= mu * x_n.
