(** Model of rainbow/geometry/volume_mesh.py.  Vertex indices are [Z], tetrahedra are 4-tuples, an
    (n,4) integer array is a list of rows.  int32/int64 overflow is not modelled. *)
From Verif Require Import Base BvhModel GridModel.
Open Scope R_scope.

Definition tet := (Z * Z * Z * Z)%type.
Definition tri := (Z * Z * Z)%type.

(** volume_mesh.py:29-70: the five tetrahedra of cell (i,j,k) *)
Definition cell_tets (I J : Z) (i j k : Z) : list tet :=
  (let i000 := (k * J + j) * I + i in
   let i001 := (k * J + j) * I + (i + 1) in
   let i010 := (k * J + (j + 1)) * I + i in
   let i011 := (k * J + (j + 1)) * I + (i + 1) in
   let i100 := ((k + 1) * J + j) * I + i in
   let i101 := ((k + 1) * J + j) * I + (i + 1) in
   let i110 := ((k + 1) * J + (j + 1)) * I + i in
   let i111 := ((k + 1) * J + (j + 1)) * I + (i + 1) in
   if (((i + j + k) mod 2) =? 1)%Z then
     [(i000, i001, i010, i100); (i010, i001, i011, i111); (i100, i110, i111, i010); (i100, i111, i101, i001); (i010, i111, i100, i001)]
   else
     [(i000, i001, i011, i101); (i000, i011, i010, i110); (i100, i110, i101, i000); (i101, i110, i111, i011); (i000, i011, i110, i101)])%Z.
(** volume_mesh.py:15-71 [create_tetrahedron_array_from_cube_mesh].  The rows T[n..n+4], n += 5, are written
    in order into a preallocated array with 5(I-1)(J-1)(K-1) rows; the model appends them (C33 shows the
    count is exactly that, so no row is missing or out of range). *)
Definition create_tetrahedron_array_from_cube_mesh (I J K : Z) : list tet :=
  flat_map (fun k => flat_map (fun j => flat_map (fun i => cell_tets I J i j k) (zupto (I - 1))) (zupto (J - 1))) (zupto (K - 1)).
(** volume_mesh.py:74-105 [create_beam]; [None] = index error *)
Definition create_beam (I J K : Z) (width height depth : R) : option (list vec3 * list tet) :=
  let x0 := - width / 2 in
  let y0 := - height / 2 in
  let z0 := - depth / 2 in
  let dx := width / IZR (I - 1) in
  let dy := height / IZR (J - 1) in
  let dz := depth / IZR (K - 1) in
  do V <- store_all (fun '(i, j, k) => mkV (x0 + IZR i * dx) (y0 + IZR j * dy) (z0 + IZR k * dz))
            (fun '(i, j, k) => (i + j * I + k * I * J)%Z)
            (flat_map (fun k => flat_map (fun j => map (fun i => (i, j, k)) (zupto I)) (zupto J)) (zupto K))
            (repeat vzero (Z.to_nat (I * J * K)));
  Some (V, create_tetrahedron_array_from_cube_mesh I J K).
(** volume_mesh.py:108-120 [from_grid3d] *)
Definition from_grid3d (g : grid) : option (list vec3 * list tet * option (list R)) :=
  do V <- get_nodes_array g;
  Some (V, create_tetrahedron_array_from_cube_mesh (g_I g) (g_J g) (g_K g), g_values g).
(** volume_mesh.py:123-139 [to_triangles] *)
Definition to_triangles (T : list tet) : list tri :=
  flat_map (fun '(t0, t1, t2, t3) => [(t1, t0, t2); (t0, t1, t3); (t1, t2, t3); (t2, t0, t3)]) T.
(** volume_mesh.py:142-172 [to_tetrahedrons]: row idx of T gives vertices and faces 4*idx .. 4*idx+3 *)
Definition shrink_tet (V : list vec3) (scale : R) (t : tet) : option (list vec3) :=
  let '(a, b, c, d) := t in
  do pi <- py_get V a; do pj <- py_get V b; do pk <- py_get V c; do pm <- py_get V d;
  let ctr := vdiv (vadd (vadd (vadd pi pj) pk) pm) 4 in
  let f := fun p => vadd ctr (vscale scale (vsub p ctr)) in
  Some [f pi; f pj; f pk; f pm].
Definition local_faces (idx : Z) : list tri :=
  (let i := idx * 4 + 0 in let j := idx * 4 + 1 in let k := idx * 4 + 2 in let m := idx * 4 + 3 in
   [(j, i, k); (i, j, m); (j, k, m); (k, i, m)])%Z.
Definition to_tetrahedrons (V : list vec3) (T : list tet) (scale : R) : option (list vec3 * list tri) :=
  do vs <- map_opt (shrink_tet V scale) T;
  Some (concat vs, flat_map local_faces (zupto (Z.of_nat (length T)))).

(** volume_mesh.py:185-193 [create_midpoint].  [lut] is the dict (insertion order) from the sorted index
    pair to (idx, p). *)
Definition edge_key (i j : Z) : Z * Z := if (i <? j)%Z then (i, j) else (j, i).
Definition key_eqb (a b : Z * Z) : bool := ((fst a =? fst b) && (snd a =? snd b))%Z.
Definition lut_t := list ((Z * Z) * (Z * vec3)).
Fixpoint lut_find (lut : lut_t) (k : Z * Z) : option (Z * vec3) :=
  match lut with [] => None | (k', v) :: l => if key_eqb k' k then Some v else lut_find l k end.
Definition create_midpoint (i j : Z) (pi pj : vec3) (lut : lut_t) (offset : Z) : Z * lut_t :=
  let key := edge_key i j in
  match lut_find lut key with
  | Some (idx, _) => ((idx + offset)%Z, lut)
  | None => let idx := Z.of_nat (length lut) in
            ((idx + offset)%Z, lut ++ [(key, (idx, vdiv (vadd pi pj) 2))])
  end.
(** volume_mesh.py:200-220: one tetrahedron; returns the row that replaces T[e] and the 7 appended rows *)
Definition subdivide_tet (V : list vec3) (t : tet) (lut : lut_t) (offset : Z) : option (tet * list tet * lut_t) :=
  let '(i, j, k, m) := t in
  do pi <- py_get V i; do pj <- py_get V j; do pk <- py_get V k; do pm <- py_get V m;
  let '(ij, lut) := create_midpoint i j pi pj lut offset in
  let '(ik, lut) := create_midpoint i k pi pk lut offset in
  let '(im, lut) := create_midpoint i m pi pm lut offset in
  let '(jk, lut) := create_midpoint j k pj pk lut offset in
  let '(jm, lut) := create_midpoint j m pj pm lut offset in
  let '(km, lut) := create_midpoint k m pk pm lut offset in
  Some ((im, jm, km, m),
        [(ij, ik, im, i); (ij, jk, jm, j); (ik, km, jk, k); (ik, im, ij, jm); (ik, ij, jk, jm); (ik, jk, km, jm); (ik, km, im, jm)],
        lut).
Fixpoint subdivide_all (V : list vec3) (T : list tet) (lut : lut_t) (offset : Z) : option (list tet * list tet * lut_t) :=
  match T with
  | [] => Some ([], [], lut)
  | t :: T' => do r <- subdivide_tet V t lut offset;
               let '(h, c, lut) := r in
               do s <- subdivide_all V T' lut offset;
               let '(hs, cs, lut) := s in
               Some (h :: hs, c ++ cs, lut)
  end.
(** volume_mesh.py:221-225: P[value[0]] = value[1] *)
Fixpoint fill_midpoints (lut : lut_t) (P : list vec3) : option (list vec3) :=
  match lut with [] => Some P | (_, (idx, p)) :: l => do P' <- py_set P idx p; fill_midpoints l P' end.
(** volume_mesh.py:175-226 [create_loop_subdivision]: the K replaced rows come first, then 7 rows per input *)
Definition create_loop_subdivision (V : list vec3) (T : list tet) : option (list vec3 * list tet) :=
  do r <- subdivide_all V T [] (Z.of_nat (length V));
  let '(hs, cs, lut) := r in
  do P <- fill_midpoints lut (repeat vzero (length lut));
  Some (V ++ P, hs ++ cs).

(** volume_mesh.py:229-244 [compute_volumes] *)
Definition tet_volume (V : list vec3) (t : tet) : option R :=
  let '(i, j, k, m) := t in
  do r0 <- py_get V i; do r1 <- py_get V j; do r2 <- py_get V k; do r3 <- py_get V m;
  let u_ji := vsub r1 r0 in let u_mi := vsub r3 r0 in let u_ki := vsub r2 r0 in
  Some (vdot u_mi (vcross u_ji u_ki) / 6).
Definition compute_volumes (V : list vec3) (T : list tet) : option (list R) := map_opt (tet_volume V) T.

(** Stable sort (np.lexsort, sorted): insertion sort by a boolean order *)
Section Sort.
  Context {A : Type} (leb : A -> A -> bool).
  Fixpoint insert (x : A) (l : list A) : list A :=
    match l with [] => [x] | y :: t => if leb x y then x :: l else y :: insert x t end.
  Definition isort (l : list A) : list A := fold_right insert [] l.
End Sort.
(** volume_mesh.py:264-270: rows of face_info: sorted vertices, element, local opposite node *)
Record finfo := mkF { f_verts : list Z; f_elem : nat; f_opp : nat }.
Definition sorted3 (a b c : Z) : list Z := isort Z.leb [a; b; c].
Definition elem_faces (e : nat) (t : tet) : list finfo :=
  let '(i, j, k, m) := t in
  [mkF (sorted3 j k m) e 0; mkF (sorted3 i k m) e 1; mkF (sorted3 i j m) e 2; mkF (sorted3 i j k) e 3].
Definition face_info (T : list tet) : list finfo := concat (map (fun p => elem_faces (fst p) (snd p)) (combine (seq 0 (length T)) T)).
(** np.lexsort((f[:,0], f[:,1], f[:,2])): the last key is the primary one *)
Fixpoint lex_leb (a b : list Z) : bool :=
  match a, b with
  | x :: a', y :: b' => if (x <? y)%Z then true else if (y <? x)%Z then false else lex_leb a' b'
  | _, _ => true
  end.
Definition finfo_leb (a b : finfo) : bool := lex_leb (rev (f_verts a)) (rev (f_verts b)).
(** np.array_equal(face_info[i,0:3], face_info[i+1,0:3]) *)
Fixpoint zlist_eqb (a b : list Z) : bool :=
  match a, b with [], [] => true | x :: a', y :: b' => (x =? y)%Z && zlist_eqb a' b' | _, _ => false end.
(** volume_mesh.py:274-280.  The (len(T),4) array N is flattened row-major: N[e,v] is entry 4e+v. *)
Fixpoint link_faces (L : list finfo) (N : list Z) : list Z :=
  match L with
  | a :: ((b :: _) as L') =>
      let N := if zlist_eqb (f_verts a) (f_verts b)
               then list_upd (list_upd N (4 * f_elem a + f_opp a) (Z.of_nat (f_elem b))) (4 * f_elem b + f_opp b) (Z.of_nat (f_elem a))
               else N in
      link_faces L' N
  | _ => N
  end.
(** volume_mesh.py:247-281 [compute_neighbors] *)
Definition compute_neighbors (T : list tet) : list Z :=
  link_faces (isort finfo_leb (face_info T)) (repeat (-1)%Z (4 * length T)).
(** N[e,v] *)
Definition N_at (N : list Z) (e v : nat) : option Z := nth_error N (4 * e + v).
(** volume_mesh.py:284-334 [compute_surface]: rows of S and O, appended in loop order (S and O are
    preallocated with count_nonzero(N < 0) rows; every entry of N is -1 or >= 0, see C34). *)
Definition surface_of (N : list Z) (e : nat) (t : tet) : list (tri * (nat * nat)) :=
  let '(i, j, k, m) := t in
  let on v f := match N_at N e v with Some n => if (n =? -1)%Z then [(f, (e, v))] else [] | None => [] end in
  on 0%nat (j, k, m) ++ on 1%nat (i, m, k) ++ on 2%nat (j, m, i) ++ on 3%nat (j, i, k).
Definition compute_surface (T : list tet) (N : list Z) : list (tri * (nat * nat)) :=
  concat (map (fun p => surface_of N (fst p) (snd p)) (combine (seq 0 (length T)) T)).

(** volume_mesh.py:337-365 [VertexTetrahedronCirculator.__init__] *)
Definition v2t_rows (e : nat) (t : tet) : list (Z * Z) :=
  let '(i, j, k, m) := t in let z := Z.of_nat e in [(i, z); (j, z); (k, z); (m, z)].
Definition v2t_leb (a b : Z * Z) : bool :=
  if (fst a <? fst b)%Z then true else if (fst b <? fst a)%Z then false else (snd a <=? snd b)%Z.
Definition v2t (T : list tet) : list (Z * Z) :=
  isort v2t_leb (concat (map (fun p => v2t_rows (fst p) (snd p)) (combine (seq 0 (length T)) T))).
Record circulator := mkC { c_v2t : list (Z * Z); c_start : list Z; c_end : list Z }.
(** volume_mesh.py:356-365: the loop over idx; [prev] is the vertex of row idx-1 (-1 for idx = 0).  An
    assignment to a vertex index outside V raises IndexError: [None]. *)
Fixpoint circ_loop (L : list (Z * Z)) (prev idx : Z) (st en : list Z) : option (list Z * list Z) :=
  match L with
  | [] => Some (st, en)
  | (j, _) :: L' =>
      let k := match L' with (k, _) :: _ => k | [] => (-1)%Z end in
      do st <- (if negb (prev =? j)%Z then py_set st j idx else Some st);
      do en <- (if negb (j =? k)%Z then py_set en j (idx + 1)%Z else Some en);
      circ_loop L' j (idx + 1) st en
  end.
Definition circulator_make (V : list vec3) (T : list tet) : option circulator :=
  let L := v2t T in
  do r <- circ_loop L (-1) 0 (repeat (-1)%Z (length V)) (repeat (-1)%Z (length V));
  Some (mkC L (fst r) (snd r)).
(** Python slice a[lo:hi] (negative bounds wrap) *)
Definition py_slice {A} (l : list A) (lo hi : Z) : list A :=
  let n := Z.of_nat (length l) in
  let norm z := Z.to_nat (Z.max 0 (Z.min n (if (z <? 0)%Z then (z + n)%Z else z))) in
  firstn (norm hi - norm lo) (skipn (norm lo) l).
(** volume_mesh.py:367-376 [tetrahedra] *)
Definition circ_tetrahedra (c : circulator) (v : Z) : option (list Z) :=
  do offset <- py_get (c_start c) v;
  do e <- py_get (c_end c) v;
  Some (map snd (py_slice (c_v2t c) offset e)).
