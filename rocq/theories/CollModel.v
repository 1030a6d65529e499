(** Model of rainbow/simulators/prox_rigid_bodies/collision_detection.py.  [None] = an exception
    (missing shape or BVH, k-DOP of unequal length, bad grid, ...).  Profiling is not modelled. *)
From Verif Require Import Base QuatModel VecModel BvhModel GridModel VolModel RigidTypes.
Open Scope R_scope.

(** mesh vertices in world space: Q.rotate_array(body.q, V) + body.r (lines 32, 120) *)
Definition world_vertices (b : body) (s : shape) : list vec3 :=
  map (fun p => vadd p (b_r b)) (q_rotate_array (b_q b) (sh_V s)).

(** collision_detection.py:10-44 [_update_bvh] *)
Definition update_bvh (e : engine) : option engine :=
  do bs <- map_opt (fun b =>
      do s <- b_shape b; do t <- b_bvh b;
      do t' <- refit_bvh (world_vertices b s) (map tri_list (sh_T s)) t (p_K (e_params e)) (p_envelope (e_params e));
      Some (with_bvh b t')) (e_bodies e);
  Some (set_bodies e bs).

(** itertools.combinations(l, 2) *)
Fixpoint combinations2 {A} (l : list A) : list (A * A) :=
  match l with [] => [] | a :: t => map (fun b => (a, b)) t ++ combinations2 t end.
(** collision_detection.py:47-84 [_narrow_phase]: the dictionary as the list of its items *)
Definition narrow_phase (e : engine) : option (list ((body * body) * list (Z * Z))) :=
  do rs <- map_opt (fun ab => do tA <- b_bvh (fst ab); do tB <- b_bvh (snd ab);
                              do r <- traversal tA tB; Some (ab, r)) (combinations2 (e_bodies e));
  Some (filter (fun x => match snd x with [] => false | _ => true end) rs).

(** np.argmin of three numbers: first smallest *)
Definition argmin3 (a b c : R) : nat :=
  if Rltb b a then (if Rltb c b then 2%nat else 1%nat) else (if Rltb c a then 2%nat else 0%nat).
Definition pick3 {A} (t : A * A * A) (i : nat) : A :=
  let '(a, b, c) := t in match i with O => a | 1%nat => b | _ => c end.
(** lines 144-165: the optimisation loop from iteration [i] with [n] iterations left;
    [grad] is GRID.get_gradient(bodyB.shape.grid, .) *)
Fixpoint fw_loop (grad : vec3 -> option vec3) (tol : R) (ps : vec3 * vec3 * vec3) (n i : nat) (x : vec3) : option vec3 :=
  match n with
  | O => Some x
  | S n' =>
    do g <- grad x;
    let objs := (vdot (pick3 ps 0) g, vdot (pick3 ps 1) g, vdot (pick3 ps 2) g) in
    let v := argmin3 (pick3 objs 0) (pick3 objs 1) (pick3 objs 2) in
    let alpha := 2 / (INR i + 2) in
    let x' := vadd x (vscale alpha (vsub (pick3 ps v) x)) in
    if Rltb tol (pick3 objs v) then Some x' else fw_loop grad tol ps n' (S i) x'
  end.
(** lines 134-165: the contact point candidate of one triangle, in the frame of body B *)
Definition fw_point (grad : vec3 -> option vec3) (tol : R) (iters : nat) (ps : vec3 * vec3 * vec3) : option vec3 :=
  do g0 <- grad (pick3 ps 0); do g1 <- grad (pick3 ps 1); do g2 <- grad (pick3 ps 2);
  fw_loop grad tol ps iters 0 (pick3 ps (argmin3 (vnorm g0) (vnorm g1) (vnorm g2))).
(** line 134: V_b[T[t_a], :] *)
Definition tri_corners (V : list vec3) (T : list tri) (t : Z) : option (vec3 * vec3 * vec3) :=
  do ijk <- py_get T t;
  let '(i, j, k) := ijk in
  do p0 <- py_get V i; do p1 <- py_get V j; do p2 <- py_get V k; Some (p0, p1, p2).
(** lines 169-188: zero or one contact from the optimised point; the contact's first body is B *)
Definition contact_of_point (e : engine) (A B : body) (g : grid) (x : vec3) : option (list contact) :=
  do inside <- grid_is_inside g x (1 / 2); (* line 172 uses the default boundary=0.5 *)
  if inside then
    do phi <- get_value g x;
    if Rleb phi (p_envelope (e_params e)) then
      do n_b <- get_gradient g x;
      let n_w := q_rotate (b_q B) n_b in
      if Rltb 0 (vnorm n_w) then
        do cp <- make_contact (b_name B) (b_name A) (vadd (q_rotate (b_q B) x) (b_r B)) (v3_unit n_w) phi;
        Some [cp]
      else Some []
    else Some []
  else Some [].
(** collision_detection.py:87-201 [_compute_contacts]: the contacts appended to the engine *)
Definition compute_contacts (e : engine) (A B : body) (trianglesA : list Z) : option (list contact) :=
  do sA <- b_shape A; do sB <- b_shape B;
  let V_w := world_vertices A sA in
  let V_b := q_rotate_array (q_conj (b_q B)) (map (fun p => vsub p (b_r B)) V_w) in
  do cs <- map_opt (fun t =>
      do ps <- tri_corners V_b (sh_T sA) t;
      do x <- fw_point (get_gradient (sh_grid sB)) (p_opt_tol (e_params e)) (p_opt_iterations (e_params e)) ps;
      contact_of_point e A B (sh_grid sB) x) trianglesA;
  Some (concat cs).

(** np.unique of integers: sorted, without repetition *)
Fixpoint zinsert (x : Z) (l : list Z) : list Z :=
  match l with [] => [x] | y :: t => if (x <? y)%Z then x :: l else if (x =? y)%Z then l else y :: zinsert x t end.
Definition np_unique (l : list Z) : list Z := fold_right zinsert [] l.
(** collision_detection.py:204-252 [_contact_determination] *)
Definition contact_determination (overlaps : list ((body * body) * list (Z * Z))) (e : engine) : option engine :=
  do cs <- map_opt (fun o =>
      let '((A, B), rs) := o in
      do c1 <- compute_contacts e A B (np_unique (map fst rs));
      do c2 <- compute_contacts e B A (np_unique (map snd rs));
      Some (c1 ++ c2)) overlaps;
  Some (set_contacts e (concat cs)).

(** line 280: {cp1.bodyA, cp1.bodyB} == {cp2.bodyA, cp2.bodyB} *)
Definition set2_eqb (a b c d : name) : bool :=
  (name_eqb a c || name_eqb a d) && (name_eqb b c || name_eqb b d) &&
  (name_eqb c a || name_eqb c b) && (name_eqb d a || name_eqb d b).
(** lines 280-282 *)
Definition same_contact (c1 c2 : contact) : bool :=
  set2_eqb (c_A c1) (c_B c1) (c_A c2) (c_B c2) &&
  (Reqb (vx (c_p c1)) (vx (c_p c2)) && Reqb (vy (c_p c1)) (vy (c_p c2)) && Reqb (vz (c_p c1)) (vz (c_p c2))).
(** collision_detection.py:255-290 [_contact_reduction] *)
Definition contact_reduction (cs : list contact) : list contact :=
  fold_left (fun reduced cp1 => if existsb (same_contact cp1) reduced then reduced else reduced ++ [cp1]) cs [].

(** collision_detection.py:293-318 [run_collision_detection] *)
Definition run_collision_detection (e : engine) : option engine :=
  do e1 <- update_bvh e;
  do ov <- narrow_phase e1;
  do e2 <- contact_determination ov e1;
  Some (set_contacts e2 (contact_reduction (e_contacts e2))).
