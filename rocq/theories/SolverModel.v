(** Model of rainbow/simulators/proximal_contact/{solver_interface,gauss_seidel_solver,
    jacobi_solver}.py, rainbow/simulators/prox_rigid_bodies/gauss_seidel_solver.py and the
    [sweep] methods of prox_rigid_bodies/constraints/{contacts,hinges,post_stabilization}.py.

    A float64 array of shape (n,) is a function nat -> R of which only the entries below n
    are read; a matrix is a function of row and column; sparse storage is abstracted away.
    np.inf as a merit value is [None]. *)
From Verif Require Import Base ProxModel.
Open Scope R_scope.

Definition vec := nat -> R.
Definition mat := nat -> nat -> R.
(** sum over range(n) *)
Fixpoint rsum (n : nat) (f : nat -> R) : R := match n with O => 0 | S n' => rsum n' f + f n' end.
(** M.dot(x), M with n columns *)
Definition mdotv (n : nat) (M : mat) (x : vec) : vec := fun i => rsum n (fun j => M i j * x j).
(** np.linalg.norm(v, np.inf), v of length S n *)
Fixpoint ninf (n : nat) (v : vec) : R := match n with O => Rabs (v O) | S n' => Rmax (ninf n' v) (Rabs (v n)) end.
Definition vzeros : vec := fun _ => 0.

(** ** One block update *)
(** [block = range(B*k, B*k+B)]; [j in block] *)
Definition in_block (B k j : nat) : bool := Nat.leb (B * k) j && Nat.ltb j (B * k + B).
(** x[block] = v *)
Definition set_block (B k : nat) (x v : vec) : vec := fun j => if in_block B k j then v (j - B * k)%nat else x j.
(** z_b = x_b - np.multiply(r_b, (J.dot(w)[block] + b_b)) ; entry i of the block *)
Definition z_block (B N : nat) (J : mat) (b r x w : vec) (k : nat) : vec :=
  fun i => x (B * k + i)%nat - r (B * k + i)%nat * (mdotv N J w (B * k + i)%nat + b (B * k + i)%nat).
(** WJT[:, block].dot(x_new[block] - x_old[block]) *)
Definition delta_w (B : nat) (WJT : mat) (k : nat) (xnew xold : vec) : vec :=
  fun j => rsum B (fun i => WJT j (B * k + i)%nat * (xnew (B * k + i)%nat - xold (B * k + i)%nat)).

(** a constraint problem: block size, number of blocks, number of degrees of freedom,
    Jacobian, W J^T, right-hand side, and the proximal map of block k *)
Record problem := mkProb {
  pB : nat; pK : nat; pN : nat; pJ : mat; pWJT : mat; pb : vec; pprox : nat -> vec -> vec }.

(** the proximal map of a contact block: gauss_seidel_solver.py:33-36 / contacts.py:85-88 /
    jacobi_solver.py:29-34 : x_n = max(0, z_n), friction by [friction_solver] *)
Definition contact_prox (fs : vec3 -> R -> R -> vec3) (mu : vec) (k : nat) (z : vec) : vec :=
  let x_n := Rmax 0 (z 0%nat) in
  let f := fs (mkV (z 1%nat) (z 2%nat) (z 3%nat)) (mu k) x_n in
  fun i => match i with O => x_n | 1%nat => vx f | 2%nat => vy f | _ => vz f end.
(** post_stabilization.py:70-71 *)
Definition post_prox (k : nat) (z : vec) : vec :=
  fun i => match i with O => Rmax 0 (z 0%nat) | _ => 0 end.
(** hinges.py:87 (x = z) *)
Definition hinge_prox (k : nat) (z : vec) : vec := z.

Definition contact_problem K N J WJT b mu fs : problem := mkProb 4 K N J WJT b (contact_prox fs mu).

(** ** Gauss-Seidel: proximal_contact/gauss_seidel_solver.py:12-45 [GaussSeidelSolver.sweep],
    constraints/contacts.py:66-107, constraints/hinges.py:62-101,
    constraints/post_stabilization.py:47-83; the four loops differ in block size and prox. *)
Definition gs_step (P : problem) (r : vec) (xw : vec * vec) (k : nat) : vec * vec :=
  let '(x, w) := xw in
  let z := z_block (pB P) (pN P) (pJ P) (pb P) r x w k in
  let x' := set_block (pB P) k x (pprox P k z) in
  (x', fun j => w j + delta_w (pB P) (pWJT P) k x' x j).
Definition WJTx (P : problem) (x : vec) : vec := mdotv (pB P * pK P) (pWJT P) x.
Definition gs_sweep (P : problem) (r x : vec) : vec :=
  fst (fold_left (gs_step P r) (seq 0 (pK P)) (x, WJTx P x)).

(** ** Jacobi: jacobi_solver.py:7-38 [sweep_worker], 45-57, 68-80.  [nb.prange] runs the
    blocks in an arbitrary order [order]; each body reads and writes only its own block of x,
    so interleavings are covered by orders. *)
Definition jacobi_step (fs : vec3 -> R -> R -> vec3) (mu : vec) (hybrid : bool) (z x_old : vec) (x : vec) (k : nat) : vec :=
  let x_n := Rmax 0 (z (4 * k)%nat) in
  let x_b_0 := if hybrid then x_n else x_old (4 * k)%nat in
  let f := fs (mkV (z (4 * k + 1)%nat) (z (4 * k + 2)%nat) (z (4 * k + 3)%nat)) (mu k) x_b_0 in
  set_block 4 k x (fun i => match i with O => x_n | 1%nat => vx f | 2%nat => vy f | _ => vz f end).
Definition jacobi_sweep (K N : nat) (J WJT : mat) (b mu : vec) (fs : vec3 -> R -> R -> vec3) (hybrid : bool)
    (order : list nat) (r x : vec) : vec :=
  let w := mdotv (4 * K) WJT x in
  let z := fun i => x i - r i * (mdotv N J w i + b i) in
  fold_left (jacobi_step fs mu hybrid z x) order x.

(** ** Parallel Gauss-Seidel: gauss_seidel_solver.py:49-86 [sweep_worker] and 93-122.  A colour
    group is the list of its contact indices k = block_start // 4; [order] is the order in
    which [nb.prange] runs the blocks of a group. *)
Definition pgs_step (P : problem) (r w : vec) (xd : vec * (nat -> vec)) (k : nat) : vec * (nat -> vec) :=
  let '(x, dws) := xd in
  let z := z_block (pB P) (pN P) (pJ P) (pb P) r x w k in
  let x' := set_block (pB P) k x (pprox P k z) in
  (x', fun i => if Nat.eqb i k then delta_w (pB P) (pWJT P) k x' x else dws i).
Definition pgs_group (P : problem) (order : list nat -> list nat) (r w0 : vec) (xd : vec * (nat -> vec)) (g : list nat) : vec * (nat -> vec) :=
  match g with
  | [] => xd (* never produced by greedy_graph_coloring; color_group[0] would raise *)
  | first :: _ =>
    let w := fun j => w0 j + rsum first (fun i => snd xd i j) in
    fold_left (pgs_step P r w) (order g) xd
  end.
Definition pgs_sweep (P : problem) (order : list nat -> list nat) (groups : list (list nat)) (r x : vec) : vec :=
  fst (fold_left (pgs_group P order r (WJTx P x)) groups (x, fun _ => vzeros)).

(** ** solver_interface.py *)
Record sparams := mkSP { sp_max_iter : nat; sp_abs : R; sp_rel : R; sp_nu_reduce : R; sp_nu_increase : R; sp_small : R }.

(** solver_interface.py:43-48 [compute_initial_r_factor] (factor 0.1) and
    contacts.py:46-50 / hinges.py:42-45 / post_stabilization.py:24,34 (factor 1.0) *)
Definition delassus_diag (N : nat) (J WJT : mat) : vec := fun i => rsum N (fun j => J i j * WJT j i).
Definition initial_r (factor : R) (N : nat) (J WJT : mat) : vec :=
  fun i => let d := delassus_diag N J WJT i in factor / (if Reqb d 0 then 1 else d).

(** what [stats] records for one iteration: lambda, residuals, reject; and the r-factors in use *)
Record entry := mkEntry { it_r : vec; it_x : vec; it_merit : R; it_reject : bool }.
(** [st_hist] holds the iterations performed, in order; the rest of the preallocated arrays
    keeps its initial values *)
Record sstats := mkStats { st_hist : list entry; st_iterations : nat; st_exitcode : nat }.
Definition cons_stats (e : entry) (s : sstats) : sstats :=
  mkStats (e :: st_hist s) (st_iterations s) (st_exitcode s).

(** merit > last_merit *)
Definition worse (merit : R) (last : option R) : bool := match last with None => false | Some l => Rltb l merit end.
(** np.abs(merit - last) < rel * last; false for last = inf *)
Definition rel_conv (rel merit : R) (last : option R) : bool :=
  match last with None => false | Some l => Rltb (Rabs (merit - l)) (rel * l) end.
(** last - merit < too_small_merit_change; false for last = inf *)
Definition slow (small merit : R) (last : option R) : bool :=
  match last with None => false | Some l => Rltb (l - merit) small end.

(** solver_interface.py:50-69 and 88-147, the loop; [n] is len(b) - 1.  [it] is the iteration
    number, [fuel] the iterations left. *)
Fixpoint solve_loop (sweep : vec -> vec -> vec) (n : nat) (S : sparams) (fuel it : nat) (x sol r : vec) (last : option R)
    : vec * sstats :=
  match fuel with
  | O => (sol, mkStats [] (sp_max_iter S) 0)
  | S fuel' =>
    let x1 := sweep r x in
    let merit := ninf n (fun i => x1 i - sol i) in
    if Rltb merit (sp_abs S) then (sol, mkStats [mkEntry r x1 merit false] it 1)
    else if rel_conv (sp_rel S) merit last then (sol, mkStats [mkEntry r x1 merit false] it 2)
    else if worse merit last then
      let '(out, st) := solve_loop sweep n S fuel' (Datatypes.S it) sol sol (fun i => sp_nu_reduce S * r i) last in
      (out, cons_stats (mkEntry r x1 merit true) st)
    else
      let r' := if slow (sp_small S) merit last then (fun i => sp_nu_increase S * r i) else r in
      let '(out, st) := solve_loop sweep n S fuel' (Datatypes.S it) x1 x1 r' (Some merit) in
      (out, cons_stats (mkEntry r x1 merit false) st)
  end.

(** solver_interface.py:123-147 [solve]: [None] = ValueError (norm of an empty array) *)
Definition solve (sweep : vec -> vec -> vec) (len : nat) (S : sparams) (r0 : vec) : option (vec * sstats) :=
  match len, sp_max_iter S with
  | O, Datatypes.S _ => None
  | O, O => Some (vzeros, mkStats [] 0 0)
  | Datatypes.S n, m => Some (solve_loop sweep n S m 0 vzeros vzeros r0 None)
  end.

(** prox_solvers.py:6-38 [solve]: the four schemes *)
Inductive scheme := GaussSeidel | ParallelGaussSeidel | ParallelJacobi | ParallelJacobiHybrid.
Definition scheme_sweep (s : scheme) (K N : nat) (J WJT : mat) (b mu : vec) (fs : vec3 -> R -> R -> vec3)
    (order : list nat -> list nat) (groups : list (list nat)) : vec -> vec -> vec :=
  let P := contact_problem K N J WJT b mu fs in
  match s with
  | GaussSeidel => gs_sweep P
  | ParallelGaussSeidel => pgs_sweep P order groups
  | ParallelJacobi => jacobi_sweep K N J WJT b mu fs false (order (seq 0 K))
  | ParallelJacobiHybrid => jacobi_sweep K N J WJT b mu fs true (order (seq 0 K))
  end.
Definition prox_solve (s : scheme) (K N : nat) (J WJT : mat) (b mu : vec) (fs : vec3 -> R -> R -> vec3)
    (order : list nat -> list nat) (groups : list (list nat)) (S : sparams) : option (vec * sstats) :=
  solve (scheme_sweep s K N J WJT b mu fs order groups) (4 * K) S (initial_r (1/10) N J WJT).

(** ** prox_rigid_bodies/gauss_seidel_solver.py *)
(** problem.py:31-36: the solver state of one problem *)
Record pstate := mkPS { ps_sweep : vec -> vec -> vec; ps_n : nat; ps_x : vec; ps_sol : vec; ps_r : vec; ps_last : option R }.
(** gauss_seidel_solver.py:49-77: one problem in one iteration; the second component is the
    value the global merit is maximised with *)
Definition ps_step (S : sparams) (p : pstate) : pstate * R :=
  let x1 := ps_sweep p (ps_r p) (ps_x p) in
  let merit := ninf (ps_n p) (fun i => x1 i - ps_sol p i) in
  if worse merit (ps_last p) then
    (mkPS (ps_sweep p) (ps_n p) (ps_sol p) (ps_sol p) (fun i => sp_nu_reduce S * ps_r p i) (ps_last p),
     match ps_last p with Some l => l | None => merit end)
  else
    let r' := if slow (sp_small S) merit (ps_last p) then (fun i => sp_nu_increase S * ps_r p i) else ps_r p in
    (mkPS (ps_sweep p) (ps_n p) x1 x1 r' (Some merit), merit).
(** 46-101: the iterations; returns the recorded residuals, the exit code and the problems *)
Fixpoint rigid_loop (S : sparams) (fuel : nat) (glast : option R) (ps : list pstate) : list R * nat * list pstate :=
  match fuel with
  | O => ([], 0%nat, ps)
  | Datatypes.S fuel' =>
    let stepped := map (ps_step S) ps in
    let ps' := map fst stepped in
    let gm := fold_left (fun g p => Rmax g (snd p)) stepped 0 in
    if Rltb gm (sp_abs S) then ([gm], 1%nat, ps')
    else if rel_conv (sp_rel S) gm glast then ([gm], 2%nat, ps')
    else let '(res, code, out) := rigid_loop S fuel' (Some gm) ps' in (gm :: res, code, out)
  end.
Definition rigid_solve (S : sparams) (ps : list pstate) : list R * nat * list pstate :=
  rigid_loop S (sp_max_iter S) None ps.
(** contacts.py:31-55 etc.: a freshly initialised problem with len = S n rows *)
Definition ps_init (P : problem) : pstate :=
  mkPS (gs_sweep P) (Nat.pred (pB P * pK P)) vzeros vzeros (initial_r 1 (pN P) (pJ P) (pWJT P)) None.
