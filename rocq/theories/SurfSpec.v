(** Specification vocabulary for triangle meshes *)
From Verif Require Import Base VolModel.
From Coq Require Import Permutation.
Open Scope R_scope.

(** the three directed edges of a triangle *)
Definition tri_edges (t : tri) : list (Z * Z) := let '(a, b, c) := t in [(a, b); (b, c); (c, a)].
Definition directed_edges (T : list tri) : list (Z * Z) := flat_map tri_edges T.
(** closed, consistently oriented 2-manifold edge structure: no degenerate edge, every directed edge occurs
    exactly once and so does its reverse *)
Definition closed_mesh (T : list tri) : Prop :=
  NoDup (directed_edges T) /\
  (forall a b, In (a, b) (directed_edges T) -> In (b, a) (directed_edges T)) /\
  (forall a b, In (a, b) (directed_edges T) -> a <> b).
(** all indices are in [0,n) and every vertex is used *)
Definition covers_indices (n : Z) (T : list tri) : Prop :=
  forall v, (0 <= v < n)%Z <-> exists a b, In (a, b) (directed_edges T) /\ (v = a \/ v = b).
