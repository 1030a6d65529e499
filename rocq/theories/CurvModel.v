(** Model of rainbow/geometry/mean_curvature.py *)
From Verif Require Import Base BvhModel GridModel.
Open Scope R_scope.

(** range(1, n - 1) *)
Definition zinner (n : Z) : list Z := map (fun m => (Z.of_nat m + 1)%Z) (seq 0 (Z.to_nat (n - 2))).
(** mean_curvature.py:32-34: the loop nest over the interior nodes, k outermost *)
Definition inner_loop (g : grid) : list (Z * Z * Z) :=
  flat_map (fun k => flat_map (fun j => map (fun i => (i, j, k)) (zinner (g_I g))) (zinner (g_J g))) (zinner (g_K g)).
(** np.clip on reals *)
Definition rclip (x lo hi : R) : R := Rmin (Rmax x lo) hi.
(** mean_curvature.py:28-29: kappa_max = 1 / np.amin(phi.spacing) *)
Definition kappa_max (g : grid) : R := 1 / Rmin (Rmin (vx (g_spacing g)) (vy (g_spacing g))) (vz (g_spacing g)).
(** mean_curvature.py:65-80: from the difference quotients to the stored number *)
Definition curvature_of (Dx Dy Dz Dxx Dyy Dzz Dxy Dxz Dyz kmax : R) : R :=
  let l := vnorm (mkV Dx Dy Dz) in
  let l := if Rltb l (1 / 2) then 1 else l in
  let num := Dxx * (Dy ^ 2 + Dz ^ 2) + Dyy * (Dx ^ 2 + Dz ^ 2) + Dzz * (Dx ^ 2 + Dy ^ 2)
             - 2 * (Dxy * Dx * Dy + Dxz * Dx * Dz + Dyz * Dy * Dz) in
  rclip (num / l ^ 3) (- kmax) kmax.
(** mean_curvature.py:35-80: the value stored for one interior node *)
Definition curvature_at (phi : grid) (i j k : Z) : option R :=
  let dx := vx (g_spacing phi) in let dy := vy (g_spacing phi) in let dz := vz (g_spacing phi) in
  do c <- get_node_value phi i j k;
  let d000 := 2 * c in
  do dp00 <- get_node_value phi (i + 1) j k;
  do dm00 <- get_node_value phi (i - 1) j k;
  do d0p0 <- get_node_value phi i (j + 1) k;
  do d0m0 <- get_node_value phi i (j - 1) k;
  do d00p <- get_node_value phi i j (k + 1);
  do d00m <- get_node_value phi i j (k - 1);
  do dpp0 <- get_node_value phi (i + 1) (j + 1) k;
  do dmp0 <- get_node_value phi (i - 1) (j + 1) k;
  do dpm0 <- get_node_value phi (i + 1) (j - 1) k;
  do dmm0 <- get_node_value phi (i - 1) (j - 1) k;
  do dp0p <- get_node_value phi (i + 1) j (k + 1);
  do dm0p <- get_node_value phi (i - 1) j (k + 1);
  do dp0m <- get_node_value phi (i + 1) j (k - 1);
  do dm0m <- get_node_value phi (i - 1) j (k - 1);
  do d0pp <- get_node_value phi i (j + 1) (k + 1);
  do d0pm <- get_node_value phi i (j + 1) (k - 1);
  do d0mp <- get_node_value phi i (j - 1) (k + 1);
  do d0mm <- get_node_value phi i (j - 1) (k - 1);
  Some (curvature_of ((dp00 - dm00) * (1 / (2 * dx))) ((d0p0 - d0m0) * (1 / (2 * dy))) ((d00p - d00m) * (1 / (2 * dz)))
          ((dp00 + dm00 - d000) * (1 / (dx * dx))) ((d0p0 + d0m0 - d000) * (1 / (dy * dy))) ((d00p + d00m - d000) * (1 / (dz * dz)))
          ((dpp0 - dmp0 - dpm0 + dmm0) * (1 / (4 * dx * dy))) ((dp0p - dm0p - dp0m + dm0m) * (1 / (4 * dx * dz)))
          ((d0pp - d0pm - d0mp + d0mm) * (1 / (4 * dy * dz))) (kappa_max phi)).
(** the loop body with its store *)
Fixpoint store_opt (f : Z * Z * Z -> option R) (ix : Z * Z * Z -> Z) (ts : list (Z * Z * Z)) (l : list R) : option (list R) :=
  match ts with [] => Some l | t :: ts' => do x <- f t; do l' <- py_set l (ix t) x; store_opt f ix ts' l' end.
(** mean_curvature.py:5-81 [create_from_sdf].  [None] = exception (the grid constructor rejects, the input has no
    values) or, when the box is flat along an axis, numpy's division by a zero spacing (not a number). *)
Definition create_from_sdf (phi : grid) : option grid :=
  do kappa <- grid_make (g_min phi) (g_max phi) (g_I phi) (g_J phi) (g_K phi);
  do vs <- g_values phi;
  if (Reqb (vx (g_spacing phi)) 0 || Reqb (vy (g_spacing phi)) 0 || Reqb (vz (g_spacing phi)) 0)%bool then None else
  do vs' <- store_opt (fun '(i, j, k) => curvature_at phi i j k) (fun '(i, j, k) => get_linear_index kappa i j k)
              (inner_loop phi) (map (fun _ => 0) vs);
  Some (mkG (g_min kappa) (g_max kappa) (g_I kappa) (g_J kappa) (g_K kappa) (g_spacing kappa) (Some vs')).
