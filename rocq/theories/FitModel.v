(** scenes: the size of the meshes that the scene builders read from files.
    Simplification: a mesh of extent zero divides by zero, which gives nan or infinite coordinates in the code: [None]. *)
From Verif Require Import Base QuatModel VecModel BvhModel GridModel VolModel SurfModel.
Open Scope R_scope.

(** create_sandbox.py:46-50, create_rock_slide.py:101-105, create_glasses.py:56-60, create_funnel.py:56-60, create_jack_lattice.py:51-55 (factor 0.9) and
    create_poles.py:69-71 (factor 1): scale_to_unit and scale to the smallest side of a cell; a number of cells that is zero divides by zero *)
Definition fit_cell (V : list vec3) (w h d : R) (I J K : nat) (factor : R) : option (list vec3) :=
  if Nat.eqb I 0 || Nat.eqb J 0 || Nat.eqb K 0 then None else
  match scale_to_unit V with
  | None => None
  | Some V1 => let s := Rmin (Rmin (w / INR I) (h / INR J)) (d / INR K) * factor in Some (mesh_scale V1 s s s)
  end.
(** create_glasses.py:88-96, create_funnel.py:87-95: scale_to_unit and scale to a diameter and a height *)
Definition fit_size (V : list vec3) (radius height : R) : option (list vec3) :=
  match scale_to_unit V with
  | None => None
  | Some V1 =>
    match np_min0 V1, np_max0 V1 with
    | Some l, Some u =>
      let extends := vsub u l in
      if Reqb (vx extends) 0 || Reqb (vy extends) 0 || Reqb (vz extends) 0 then None
      else Some (mesh_scale V1 (radius * 2 / vx extends) (height / vy extends) (radius * 2 / vz extends))
    | _, _ => None
    end
  end.
