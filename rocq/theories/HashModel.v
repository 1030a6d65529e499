(** Model of rainbow/geometry/spatial_hashing.py and of the spatial-hashing narrow phase of
    rainbow/simulators/prox_soft_bodies/collision_detection.py.  Lists are Python objects: a cell holds a
    reference into a heap of lists, so that the alias returned by [insert] is visible.  Allocation appends to
    the heap; nothing is freed. *)
From Verif Require Import Base BvhModel GridModel.
Open Scope R_scope.

Section Hash.
  Context {A : Type}.   (* the stored objects: any Python value *)
  (** spatial_hashing.py:38-41 [HashCell.__init__]: time_stamp, size, object_list (a reference) *)
  Record cell := mkCell { c_stamp : Z; c_size : Z; c_ref : nat }.
  (** spatial_hashing.py:109-119 the mutable part of [HashGird]: the dictionary hash_tbale, and the heap *)
  Record hgrid := mkHG { hg_table : list (Z * cell); hg_heap : list (list A) }.
  Definition hg_empty : hgrid := mkHG [] [].
  Fixpoint dict_get (d : list (Z * cell)) (k : Z) : option cell :=
    match d with [] => None | (k', c) :: t => if (k' =? k)%Z then Some c else dict_get t k end.
  Fixpoint dict_set (d : list (Z * cell)) (k : Z) (c : cell) : list (Z * cell) :=
    match d with [] => [(k, c)] | (k', c') :: t => if (k' =? k)%Z then (k, c) :: t else (k', c') :: dict_set t k c end.
  (** list append through a reference *)
  Definition heap_append (h : list (list A)) (r : nat) (x : A) : list (list A) := list_upd h r (nth r h [] ++ [x]).
  (** spatial_hashing.py:43-57 [HashCell.add] *)
  Definition cell_add (c : cell) (h : list (list A)) (x : A) (time_stamp : Z) : cell * list (list A) :=
    let '(c1, h1) := if (c_stamp c <? time_stamp)%Z then (mkCell time_stamp 0 (length h), h ++ [[]]) else (c, h) in
    (mkCell (c_stamp c1) (c_size c1 + 1) (c_ref c1), heap_append h1 (c_ref c1) x).
  (** spatial_hashing.py:171-194 [HashGird.insert] for the cell with hash value [hv]; returns the reference to
      the returned list and the new grid *)
  Definition hg_insert (g : hgrid) (hv : Z) (x : A) (time_stamp : Z) : nat * hgrid :=
    let overlaps := length (hg_heap g) in
    let heap0 := hg_heap g ++ [[]] in
    match dict_get (hg_table g) hv with
    | None =>
        let c0 := mkCell 0 0 (length heap0) in
        let '(c, h) := cell_add c0 (heap0 ++ [[]]) x time_stamp in
        (overlaps, mkHG (dict_set (hg_table g) hv c) h)
    | Some c0 =>
        let '(c, h) := cell_add c0 heap0 x time_stamp in
        (c_ref c0, mkHG (dict_set (hg_table g) hv c) h)
    end.
  (** reading the returned list right after the call *)
  Definition hg_read (g : hgrid) (r : nat) : list A := nth r (hg_heap g) [].
End Hash.
Arguments hgrid : clear implicits.

(** spatial_hashing.py:145-169 [get_prefect_hash_value]: M0, M1 are identities, Phi the (random) offset table,
    float modulus 1e9+7; % is Python's (sign of the divisor) *)
Definition perfect_hash (size offset_size : Z) (Phi : Z -> Z -> Z -> Z) (i j k : Z) : Z :=
  let o := Phi (i mod offset_size)%Z (j mod offset_size)%Z (k mod offset_size)%Z in
  let hv x := ((x mod size + o) mod size)%Z in
  ((hv i + hv j + hv k) mod 1000000007)%Z.
(** spatial_hashing.py:197-216 [compute_optial_cell_size]; np.mean of an empty array is nan: [None] *)
Definition edge_lengths (V : list vec3) (t : Z * Z * Z) : option (list R) :=
  let '(a, b, c) := t in
  do p0 <- py_get V a; do p1 <- py_get V b; do p2 <- py_get V c;
  Some [vnorm (vsub p1 p0); vnorm (vsub p2 p1); vnorm (vsub p0 p2)].
Definition optimal_cell_size (V : list vec3) (T : list (Z * Z * Z)) : option R :=
  match T with [] => None | _ =>
  do ls <- map_opt (edge_lengths V) T;
  Some (fold_right Rplus 0 (concat ls) / INR (length (concat ls)) * (22 / 10)) end.

(** ** The narrow phase *)
Definition tri3 : Type := vec3 * vec3 * vec3.
Definition tri_vertices (t : tri3) : list vec3 := let '(a, b, c) := t in [a; b; c].
(** collision_detection.py:43-53 [_is_share_vertex]: np.intersect1d flattens both (3,3) coordinate arrays *)
Definition tri_coords (t : tri3) : list R := flat_map (fun p => [vx p; vy p; vz p]) (tri_vertices t).
Definition is_share_vertex (t1 t2 : tri3) : bool := existsb (fun x => existsb (fun y => Reqb x y) (tri_coords t2)) (tri_coords t1).
(** np.finfo(float).eps *)
Definition feps : R := / 4503599627370496.
(** collision_detection.py:56-102 [_triangle_intersection] *)
Definition triangle_intersection (t1 t2 : tri3) : bool :=
  let '(v1, v2, v3) := t1 in let '(u1, u2, u3) := t2 in
  let e1 := vsub v2 v1 in
  let e2 := vsub v3 v1 in
  let n2 := vcross (vsub u2 u1) (vsub u3 u1) in
  let a := vdot e1 n2 in
  if Rltb (- feps) a && Rltb a feps then false else
  let f := 1 / a in
  let s := vsub u1 v1 in
  let u := f * vdot s n2 in
  if Rltb u 0 || Rltb 1 u then false else
  let q := vcross s e1 in
  let v := f * vdot (vsub u2 u1) q in
  if Rltb v 0 || Rltb 1 (u + v) then false else
  let t := f * vdot e2 q in
  Rltb feps t.
(** collision_detection.py:105-119 [_is_self_collision] *)
Definition is_self_collision (t1 t2 : tri3) (b1 b2 : aabb) : bool :=
  negb (is_share_vertex t1 t2) && aabb_is_overlap b1 b2 0 && triangle_intersection t1 t2.

(** astype(int): truncation towards zero *)
Definition ztrunc (x : R) : Z := if Rltb x 0 then (- zfloor (- x))%Z else zfloor x.
(** range(lo, hi) *)
Definition zrange (lo hi : Z) : list Z := map (fun n => (lo + Z.of_nat n)%Z) (seq 0 (Z.to_nat (hi - lo))).
(** collision_detection.py:148-152 bounding box of a triangle (vectorised np.min / np.max) *)
Definition tri_box (t : tri3) : aabb :=
  let '(a, b, c) := t in mkAABB (vmin2 (vmin2 a b) c) (vmax2 (vmax2 a b) c).
(** collision_detection.py:153-159 product of the three cell ranges *)
Definition tri_cells (cs : R) (t : tri3) : list (Z * Z * Z) :=
  let b := tri_box t in
  let r f := zrange (ztrunc (f (bx_min b) / cs)) (ztrunc (f (bx_max b) / cs) + 1)%Z in
  flat_map (fun i => flat_map (fun j => map (fun k => (i, j, k)) (r vz)) (r vy)) (r vx).
(** stored object (tri_idx, body_idx, tri_aabb); reported pair (body, overlap_body, (tri, overlap_tri)) *)
Definition hobj : Type := nat * nat * aabb.
Definition report : Type := (nat * nat) * (nat * nat).
(** a body is given by its surface triangles in world coordinates, body.x[body.surface, :]; body.idx is its
    position in engine.bodies *)
Definition bodies := list (list tri3).
Definition tri_of (B : bodies) (b t : nat) : tri3 := nth t (nth b B []) (vzero, vzero, vzero).
(** collision_detection.py:166-178 the test of one returned object.  Indices of stored objects are taken to be
    valid (bodies are never removed) *)
Definition check_overlap (B : bodies) (b t : nat) (o : hobj) : list report :=
  let '(ot, ob, obox) := o in
  if Nat.eqb ob b
  then (if is_self_collision (tri_of B b t) (tri_of B ob ot) (tri_box (tri_of B b t)) obox then [((b, ob), (t, ot))] else [])
  else (if aabb_is_overlap (tri_box (tri_of B b t)) obox 0 then [((b, ob), (t, ot))] else []).
(** collision_detection.py:147-162 all (body, triangle, cell) visits in program order *)
Definition visits (cs : R) (B : bodies) : list (nat * nat * (Z * Z * Z)) :=
  flat_map (fun b => flat_map (fun t => map (fun c => (b, t, c)) (tri_cells cs (tri_of B b t))) (seq 0 (length (nth b B [])))) (seq 0 (length B)).
(** collision_detection.py:157-178 one visit *)
Definition visit_step (hash : Z -> Z -> Z -> Z) (B : bodies) (ts : Z) (st : hgrid hobj * list report) (v : nat * nat * (Z * Z * Z)) : hgrid hobj * list report :=
  let '(b, t, (i, j, k)) := v in
  let '(r, g) := hg_insert (fst st) (hash i j k) (t, b, tri_box (tri_of B b t)) ts in
  (g, snd st ++ flat_map (check_overlap B b t) (hg_read g r)).
(** collision_detection.py:122-184 [_spatial_hashing_narrow_phase]: the reported pairs (a list whose members
    are the elements of the sets) and the hash grid afterwards; [None] = ValueError *)
Definition hash_narrow_phase (hash : Z -> Z -> Z -> Z) (cs : R) (B : bodies) (ts : Z) (g : hgrid hobj) : option (hgrid hobj * list report) :=
  if Rleb cs 0 then None else Some (fold_left (visit_step hash B ts) (visits cs B) (g, [])).
