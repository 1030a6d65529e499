(** Model of rainbow/geometry/aabb.py, kdop.py and kdop_bvh.py *)
From Verif Require Import Base.
Open Scope R_scope.

(** ** aabb.py *)
(** aabb.py:31-33 *)
Record aabb := mkAABB { bx_min : vec3; bx_max : vec3 }.
(** np.max / np.min over axis 0 of a non-empty (n,3) array; ValueError on an empty one *)
Definition vmax2 (a b : vec3) := mkV (Rmax (vx a) (vx b)) (Rmax (vy a) (vy b)) (Rmax (vz a) (vz b)).
Definition vmin2 (a b : vec3) := mkV (Rmin (vx a) (vx b)) (Rmin (vy a) (vy b)) (Rmin (vz a) (vz b)).
Definition np_max0 (l : list vec3) : option vec3 := match l with [] => None | a :: t => Some (fold_left vmax2 t a) end.
Definition np_min0 (l : list vec3) : option vec3 := match l with [] => None | a :: t => Some (fold_left vmin2 t a) end.
(** aabb.py:36-47 [create_from_vertices] *)
Definition aabb_create_from_vertices (vertices : list vec3) : option aabb :=
  match np_max0 vertices, np_min0 vertices with
  | Some max_point, Some min_point => Some (mkAABB min_point max_point)
  | _, _ => None
  end.
(** np.any(a < b) *)
Definition any_lt (a b : vec3) : bool := Rltb (vx a) (vx b) || Rltb (vy a) (vy b) || Rltb (vz a) (vz b).
Definition vaddc (a : vec3) (d : R) := mkV (vx a + d) (vy a + d) (vz a + d).
Definition vsubc (a : vec3) (d : R) := mkV (vx a - d) (vy a - d) (vz a - d).
(** aabb.py:50-72 [is_overlap] *)
Definition aabb_is_overlap (a b : aabb) (boundary : R) : bool :=
  if negb (Reqb boundary 0) then
    negb (any_lt (vaddc (bx_max a) boundary) (vsubc (bx_min b) boundary)
          || any_lt (vaddc (bx_max b) boundary) (vsubc (bx_min a) boundary))
  else negb (any_lt (bx_max a) (bx_min b) || any_lt (bx_max b) (bx_min a)).

(** ** kdop.py.  Slab bounds are floats that may be +-inf: extended reals. *)
Inductive ereal := MInf | Fin (r : R) | PInf.
Definition e_ltb (a b : ereal) : bool :=
  match a, b with
  | MInf, MInf => false | MInf, _ => true
  | _, MInf => false
  | Fin x, Fin y => Rltb x y
  | Fin _, PInf => true
  | PInf, _ => false
  end.
(** Python min(a,b) / max(a,b) *)
Definition e_min (a b : ereal) : ereal := if e_ltb b a then b else a.
Definition e_max (a b : ereal) : ereal := if e_ltb a b then b else a.
Definition e_add (a : ereal) (d : R) : ereal := match a with Fin x => Fin (x + d) | _ => a end.
(** kdop.py:9-12 [Interval] *)
Record interval := mkI { lower : ereal; upper : ereal }.
Definition interval_init : interval := mkI PInf MInf.
(** kdop.py:15-18 [KDOP]: K is the number of slabs *)
Definition kdop := list interval.
Definition kdop_init (K : nat) : kdop := repeat interval_init K.
Definition slab_disjoint (a b : interval) : bool := e_ltb (upper a) (lower b) || e_ltb (upper b) (lower a).
(** kdop.py:21-38 [overlap]; [None] = RuntimeError *)
Fixpoint slabs_overlap (A B : kdop) : bool :=
  match A, B with
  | a :: A', b :: B' => if slab_disjoint a b then false else slabs_overlap A' B'
  | _, _ => true
  end.
Definition kdop_overlap (A B : kdop) : option bool :=
  if Nat.eqb (length A) (length B) then Some (slabs_overlap A B) else None.
(** kdop.py:41-50 [get_direction_table]; other K give None (and [make] then raises) *)
Definition get_direction_table (K : nat) : option (list vec3) :=
  match K with
  | 3%nat => Some [mkV 1 0 0; mkV 0 1 0; mkV 0 0 1]
  | 4%nat => Some [mkV 1 1 1; mkV 1 1 (-1); mkV 1 (-1) 1; mkV 1 (-1) (-1)]
  | _ => None
  end.
(** kdop.py:67-74: one slab of [make] *)
Definition make_slab (d : vec3) (V : list vec3) (envelope : R) : interval :=
  let i := fold_left (fun s v => mkI (e_min (lower s) (Fin (vdot d v))) (e_max (upper s) (Fin (vdot d v)))) V interval_init in
  mkI (e_add (lower i) (- envelope)) (e_add (upper i) envelope).
(** kdop.py:53-75 [make] *)
Definition kdop_make (K : nat) (V : list vec3) (envelope : R) : option kdop :=
  match get_direction_table K with
  | None => None
  | Some table => Some (map (fun d => make_slab d V envelope) table)
  end.
(** kdop.py:78-94 [union]; [None] = RuntimeError *)
Definition slab_union (a b : interval) : interval := mkI (e_min (lower a) (lower b)) (e_max (upper a) (upper b)).
Fixpoint slabs_union (A B : kdop) : kdop :=
  match A, B with a :: A', b :: B' => slab_union a b :: slabs_union A' B' | _, _ => [] end.
Definition kdop_union (A B : kdop) : option kdop :=
  if Nat.eqb (length A) (length B) then Some (slabs_union A B) else None.

(** ** kdop_bvh.py *)
Definition UNDEFINED : Z := (-1)%Z.
(** kdop_bvh.py:6-17 [Node] *)
Record node := mkN { n_volume : option kdop; n_parent : Z; n_start : Z; n_end : Z }.
Definition node_init : node := mkN None UNDEFINED UNDEFINED UNDEFINED.
(** Python list indexing (negative indices wrap); [None] = IndexError *)
Definition py_idx {A} (l : list A) (i : Z) : option nat :=
  let j := if (i <? 0)%Z then (i + Z.of_nat (length l))%Z else i in
  if ((j <? 0) || (Z.of_nat (length l) <=? j))%Z then None else Some (Z.to_nat j).
Definition py_get {A} (l : list A) (i : Z) : option A := match py_idx l i with Some k => nth_error l k | None => None end.
Fixpoint list_upd {A} (l : list A) (k : nat) (x : A) : list A :=
  match l, k with [], _ => [] | _ :: t, O => x :: t | a :: t, S k' => a :: list_upd t k' x end.
Definition py_set {A} (l : list A) (i : Z) (x : A) : option (list A) := match py_idx l i with Some k => Some (list_upd l k x) | None => None end.
(** attribute assignments nodes[i].start = s; nodes[i].end = e  /  nodes[i].parent = p *)
Definition set_range (ns : list node) (i s e : Z) : option (list node) :=
  match py_get ns i with Some n => py_set ns i (mkN (n_volume n) (n_parent n) s e) | None => None end.
Definition set_parent (ns : list node) (i p : Z) : option (list node) :=
  match py_get ns i with Some n => py_set ns i (mkN (n_volume n) p (n_start n) (n_end n)) | None => None end.
(** kdop_bvh.py:20-23 [SubTree]; 26-29 [Tree].  [height] is the pair [_make_sub_tree] returns (line 206) *)
Record subtree := mkST { st_nodes : list node; st_height : Z * Z }.
Record tree := mkTree { tr_root : option kdop; tr_chunks : list subtree }.
(** kdop_bvh.py:40-41, 44-49 *)
Definition is_leaf (n : node) : bool := negb (n_start n =? UNDEFINED)%Z && (n_start n =? n_end n)%Z.
Definition is_undefined (n : node) : bool :=
  (n_parent n =? UNDEFINED)%Z && (n_start n =? UNDEFINED)%Z && (n_end n =? UNDEFINED)%Z.

Notation "'do' x <- e ; k" := (match e with Some x => k | None => None end) (at level 200, x pattern, e at level 100, k at level 200).

(** kdop_bvh.py:76-124 [_make_sub_tree]: returns (height, free_idx) and the mutated nodes.
    [fuel] bounds the recursion depth; [make_bvh] passes enough (theorem C20). *)
Fixpoint make_sub_tree (fuel : nat) (parent_idx free_idx first last : Z) (ns : list node) : option (Z * Z * list node) :=
  match fuel with
  | O => None
  | S fuel' =>
    let N := (last - first + 1)%Z in
    if (1 <? N)%Z then
      let left_idx := free_idx in
      let right_idx := (free_idx + 1)%Z in
      let free_idx := (free_idx + 2)%Z in
      do ns <- set_range ns parent_idx left_idx right_idx;
      do ns <- set_parent ns left_idx parent_idx;
      do ns <- set_parent ns right_idx parent_idx;
      let mid_idx := ((first + last) / 2)%Z in
      do (left_height, free_idx, ns) <- make_sub_tree fuel' left_idx free_idx first mid_idx ns;
      do (right_height, free_idx, ns) <- make_sub_tree fuel' right_idx free_idx (mid_idx + 1)%Z last ns;
      Some ((Z.max left_height right_height + 1)%Z, free_idx, ns)
    else
      do ns <- set_range ns parent_idx first first;
      Some (0%Z, free_idx, ns)
  end.

(** V[T[e]] : the vertices of element e ([None] = IndexError) *)
Fixpoint gather (V : list vec3) (el : list Z) : option (list vec3) :=
  match el with
  | [] => Some []
  | i :: el' => do v <- py_get V i; do vs <- gather V el'; Some (v :: vs)
  end.
(** kdop_bvh.py:64-73: loop body of [_refit_sub_tree] for node index i *)
Definition refit_node (V : list vec3) (T : list (list Z)) (K : nat) (envelope : R) (ns : list node) (i : nat) : option (list node) :=
  do n <- nth_error ns i;
  if is_undefined n then Some ns
  else if is_leaf n then
    do el <- py_get T (n_start n);
    do vertices <- gather V el;
    do vol <- kdop_make K vertices envelope;
    Some (list_upd ns i (mkN (Some vol) (n_parent n) (n_start n) (n_end n)))
  else
    do left_child <- py_get ns (n_start n);
    do right_child <- py_get ns (n_end n);
    do lv <- n_volume left_child;
    do rv <- n_volume right_child;
    do vol <- kdop_union lv rv;
    Some (list_upd ns i (mkN (Some vol) (n_parent n) (n_start n) (n_end n))).
(** kdop_bvh.py:52-73 [_refit_sub_tree]: for node in reversed(sub_tree.nodes) *)
Fixpoint refit_from (V : list vec3) (T : list (list Z)) (K : nat) (envelope : R) (i : nat) (ns : list node) : option (list node) :=
  match i with
  | O => Some ns
  | S j => do ns <- refit_node V T K envelope ns j; refit_from V T K envelope j ns
  end.
Definition refit_sub_tree V T K envelope (st : subtree) : option subtree :=
  do ns <- refit_from V T K envelope (length (st_nodes st)) (st_nodes st);
  Some (mkST ns (st_height st)).
Fixpoint map_opt {A B} (f : A -> option B) (l : list A) : option (list B) :=
  match l with [] => Some [] | a :: t => do b <- f a; do bs <- map_opt f t; Some (b :: bs) end.
(** kdop_bvh.py:229-231: tree.root = union(tree.root, subtree.nodes[0].volume) *)
Fixpoint root_union (acc : kdop) (chunks : list subtree) : option kdop :=
  match chunks with
  | [] => Some acc
  | st :: rest =>
    do n <- nth_error (st_nodes st) 0;
    do v <- n_volume n;
    do acc' <- kdop_union acc v;
    root_union acc' rest
  end.
(** kdop_bvh.py:215-231 [refit_bvh] *)
Definition refit_bvh (V : list vec3) (T : list (list Z)) (tr : tree) (K : nat) (envelope : R) : option tree :=
  do chunks <- map_opt (refit_sub_tree V T K envelope) (tr_chunks tr);
  do root <- root_union (kdop_init K) chunks;
  Some (mkTree (Some root) chunks).
(** kdop_bvh.py:198-208: one chunk of [make_bvh] *)
Definition make_chunk (N L M : Z) (c : nat) : option subtree :=
  let first := (Z.of_nat c * L)%Z in
  let last := Z.min (first + L - 1) (M - 1) in
  do (h, free, ns) <- make_sub_tree (S (Z.to_nat (last - first + 1))) 0 1 first last (repeat node_init (Z.to_nat N));
  Some (mkST ns (h, free)).
(** kdop_bvh.py:181-212 [make_bvh]; int((N+1)/2) and ceil(M/L) for N >= 0; L = 0 is a ZeroDivisionError *)
Definition make_bvh (X : list vec3) (T : list (list Z)) (K : nat) (N : Z) (envelope : R) : option tree :=
  let L := Z.quot (N + 1) 2 in
  let M := Z.of_nat (length T) in
  if (L =? 0)%Z then None else
  let C := (- ((- M) / L))%Z in
  do chunks <- map_opt (make_chunk N L M) (seq 0 (Z.to_nat C));
  refit_bvh X T (mkTree None chunks) K envelope.

(** range(start, end+1) *)
Definition zrange (a b : Z) : list Z := map (fun k => (a + Z.of_nat k)%Z) (seq 0 (Z.to_nat (b - a))).
Definition node_children (ns : list node) (n : node) : option (list node) := map_opt (py_get ns) (zrange (n_start n) (n_end n + 1)).
(** kdop_bvh.py:127-178 [_iterative_sub_tree_traversal]: the while loop; results are appended.
    [fuel] bounds the iterations; [traversal] passes enough (theorem C22). *)
Fixpoint traverse_loop (fuel : nat) (nsA nsB : list node) (Q : list (node * node)) (results : list (Z * Z)) : option (list (Z * Z)) :=
  match Q with
  | [] => Some results
  | (a, b) :: Q' =>
    match fuel with
    | O => None
    | S fuel' =>
      do va <- n_volume a; do vb <- n_volume b;
      do o <- kdop_overlap va vb;
      if negb o then traverse_loop fuel' nsA nsB Q' results
      else if is_leaf a && is_leaf b then traverse_loop fuel' nsA nsB Q' (results ++ [(n_start a, n_start b)])
      else if negb (is_leaf a) && negb (is_leaf b) then
        do ca <- node_children nsA a; do cb <- node_children nsB b;
        traverse_loop fuel' nsA nsB (Q' ++ flat_map (fun x => map (fun y => (x, y)) cb) ca) results
      else if negb (is_leaf a) then
        do ca <- node_children nsA a;
        traverse_loop fuel' nsA nsB (Q' ++ map (fun x => (x, b)) ca) results
      else
        do cb <- node_children nsB b;
        traverse_loop fuel' nsA nsB (Q' ++ map (fun y => (a, y)) cb) results
    end
  end.
Definition sub_tree_traversal (A B : subtree) (results : list (Z * Z)) : option (list (Z * Z)) :=
  do a <- nth_error (st_nodes A) 0;
  do b <- nth_error (st_nodes B) 0;
  traverse_loop (S (length (st_nodes A) * length (st_nodes B))) (st_nodes A) (st_nodes B) [(a, b)] results.
(** kdop_bvh.py:234-251 [traversal] *)
Fixpoint traverse_chunks (pairs : list (subtree * subtree)) (results : list (Z * Z)) : option (list (Z * Z)) :=
  match pairs with
  | [] => Some results
  | (A, B) :: rest => do r <- sub_tree_traversal A B results; traverse_chunks rest r
  end.
Definition traversal (A B : tree) : option (list (Z * Z)) :=
  do ra <- tr_root A; do rb <- tr_root B;
  do o <- kdop_overlap ra rb;
  if negb o then Some []
  else traverse_chunks (flat_map (fun a => map (fun b => (a, b)) (tr_chunks B)) (tr_chunks A)) [].
