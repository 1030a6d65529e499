(** Specification vocabulary for tetrahedral meshes (no reference to the algorithms of volume_mesh.py). *)
From Verif Require Import Base VolModel.
From Coq Require Import Permutation.
Open Scope R_scope.

(** the four node indices of a tetrahedron *)
Definition tet_nodes (t : tet) : list Z := let '(i, j, k, m) := t in [i; j; k; m].
(** the three nodes of the face opposite local node v *)
Definition face_verts (t : tet) (v : nat) : list Z :=
  let '(i, j, k, m) := t in
  match v with 0%nat => [j; k; m] | 1%nat => [i; k; m] | 2%nat => [i; j; m] | _ => [i; j; k] end.
(** a slot (e,v) is a face of the mesh: the face of tetrahedron number e opposite its local node v *)
Definition slot := (nat * nat)%type.
Definition is_slot (T : list tet) (s : slot) : Prop := (fst s < length T)%nat /\ (snd s < 4)%nat.
Definition face_of (T : list tet) (s : slot) (f : list Z) : Prop := exists t, nth_error T (fst s) = Some t /\ (snd s < 4)%nat /\ f = face_verts t (snd s).
(** two slots carry the same face: same three nodes, in any order *)
Definition same_face (T : list tet) (s s' : slot) : Prop := exists f f', face_of T s f /\ face_of T s' f' /\ Permutation f f'.
(** no face belongs to three slots *)
Definition at_most_two (T : list tet) : Prop := forall s1 s2 s3, same_face T s1 s2 -> same_face T s1 s3 -> s1 = s2 \/ s1 = s3 \/ s2 = s3.
(** the face of a slot is on the boundary: no other slot carries it *)
Definition boundary_slot (T : list tet) (s : slot) : Prop := is_slot T s /\ forall s', same_face T s s' -> s' = s.
