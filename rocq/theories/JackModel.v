(** scenes/create_jack_lattice.py: a lattice of copies of one mesh that is read from a file.
    Simplification: [file] are the vertices and triangles that igl.read_triangle_mesh returns. *)
From Verif Require Import Base QuatModel VecModel BvhModel GridModel VolModel RigidTypes SurfModel MassModel ApiModel SceneModel FitModel.
Open Scope R_scope.

(** create_jack_lattice.py:45-74; MESH.scale fails for no cells (division by zero), before the engine is changed *)
Definition create_jack_lattice (eig : mat3 -> vec3 * mat3) (sd : list vec3 -> list tri -> vec3 -> R) (file : list vec3 * list tri)
    (fresh : nat -> name) (rnd : nat -> quat) (r : vec3) (q : quat) (w h d : R) (I J K : nat)
    (density : R) (material : name) (random : bool) (e : engine) : outcome * list name :=
  match create_mesh eig (fst file) (snd file) with
  | None => (Raised e, [])
  | Some (V, T) =>
    match fit_cell V w h d I J K (9 / 10) with
    | None => (Raised e, [])
    | Some V' =>
      match fst (create_shape eig sd e (fresh 0%nat) V' T true) with
      | Done e1 => create_lattice (fun m => fresh (S m)) rnd r q [fresh 0%nat] w h d I J K density material random None e1
      | o => (o, [])
      end
    end
  end.
