(** Vocabulary for bounding volumes, independent of the algorithms *)
From Verif Require Import Base BvhModel.
Open Scope R_scope.

(** order on extended reals *)
Definition e_le (a b : ereal) : Prop :=
  match a, b with
  | MInf, _ => True | _, PInf => True
  | Fin x, Fin y => x <= y
  | _, _ => False
  end.
(** componentwise order and membership in a box *)
Definition v_le (a b : vec3) : Prop := vx a <= vx b /\ vy a <= vy b /\ vz a <= vz b.
Definition in_box (p : vec3) (b : aabb) : Prop := v_le (bx_min b) p /\ v_le p (bx_max b).
Definition valid_box (b : aabb) : Prop := v_le (bx_min b) (bx_max b).
Definition grow_box (b : aabb) (d : R) : aabb := mkAABB (vsub (bx_min b) (mkV d d d)) (vadd (bx_max b) (mkV d d d)).

(** the number x lies in the slab *)
Definition in_slab (x : R) (i : interval) : Prop := e_le (lower i) (Fin x) /\ e_le (Fin x) (upper i).
(** slab inclusion and k-DOP inclusion *)
Definition slab_sub (a b : interval) : Prop := e_le (lower b) (lower a) /\ e_le (upper a) (upper b).
Definition kdop_sub (A B : kdop) : Prop := Forall2 slab_sub A B.
(** point p lies in the k-DOP A with directions D *)
Definition in_kdop (D : list vec3) (p : vec3) (A : kdop) : Prop := Forall2 (fun d i => in_slab (vdot d p) i) D A.

(** binary trees over elements, and what it means for node [i] of a node array to be the root of one *)
Inductive btree := BLeaf (e : Z) | BNode (l r : btree).
Fixpoint leaves (t : btree) : list Z := match t with BLeaf e => [e] | BNode l r => leaves l ++ leaves r end.
Fixpoint bsize (t : btree) : nat := match t with BLeaf _ => 1 | BNode l r => S (bsize l + bsize r) end.
Fixpoint bheight (t : btree) : Z := match t with BLeaf _ => 0 | BNode l r => Z.max (bheight l) (bheight r) + 1 end.
(** [repr ns i t ix]: node i represents t; ix lists the indices of all nodes of t.  Leaves store the
    element twice, inner nodes have exactly two children, stored at consecutive larger indices and
    pointing back to their parent. *)
Inductive repr (ns : list node) : nat -> btree -> list nat -> Prop :=
| repr_leaf : forall i n e, nth_error ns i = Some n -> n_start n = e -> n_end n = e -> (0 <= e)%Z -> repr ns i (BLeaf e) [i]
| repr_node : forall i n l r tl tr ixl ixr nl nr,
    nth_error ns i = Some n -> n_start n = Z.of_nat l -> n_end n = Z.of_nat r ->
    (i < l)%nat -> r = S l ->
    nth_error ns l = Some nl -> n_parent nl = Z.of_nat i ->
    nth_error ns r = Some nr -> n_parent nr = Z.of_nat i ->
    repr ns l tl ixl -> repr ns r tr ixr ->
    repr ns i (BNode tl tr) (i :: ixl ++ ixr).
(** consecutive integers a, a+1, ..., a+n-1 *)
Definition zseq (a : Z) (n : nat) : list Z := map (fun k => (a + Z.of_nat k)%Z) (seq 0 n).
(** the k-DOP the API builds for element e of mesh (V,T) *)
Definition elem_kdop (V : list vec3) (T : list (list Z)) (K : nat) (env : R) (e : Z) : option kdop :=
  match py_get T e with
  | Some el => match gather V el with Some vs => kdop_make K vs env | None => None end
  | None => None
  end.
(** every element of T refers to existing vertices; K is a supported direction count *)
Definition valid_mesh (V : list vec3) (T : list (list Z)) : Prop :=
  forall el, In el T -> exists vs, gather V el = Some vs.
Definition supported_K (K : nat) : Prop := K = 3%nat \/ K = 4%nat.
(** structure of one chunk: the array's first [length ix] nodes form a binary tree rooted at 0
    (each node exactly once), the others are unused *)
Definition chunk_shape (N : Z) (st : subtree) (t : btree) : Prop :=
  length (st_nodes st) = Z.to_nat N /\
  exists ix, repr (st_nodes st) 0 t ix /\ NoDup ix /\
    (forall j, In j ix <-> (j < length ix)%nat) /\
    (forall j n, nth_error (st_nodes st) j = Some n -> ~ In j ix -> is_undefined n = true).
(** structure of the whole BVH over M elements: the chunks' leaves, left to right, are 0, 1, ..., M-1 *)
Definition bvh_shape (N : Z) (M : nat) (tr : tree) : Prop :=
  exists ts, Forall2 (chunk_shape N) (tr_chunks tr) ts /\ flat_map leaves ts = zseq 0 M.
(** volumes of a chunk are those of the current coordinates *)
Definition chunk_fitted (V : list vec3) (T : list (list Z)) (K : nat) (env : R) (st : subtree) : Prop :=
  forall j t ix, repr (st_nodes st) j t ix ->
    exists n v, nth_error (st_nodes st) j = Some n /\ n_volume n = Some v /\
      (forall e, t = BLeaf e -> elem_kdop V T K env e = Some v) /\
      (forall d nd, In d ix -> nth_error (st_nodes st) d = Some nd -> exists vd, n_volume nd = Some vd /\ kdop_sub vd v).
(** BVH objects a user can hold: built by [make_bvh], then refitted any number of times with the
    same elements T, new coordinates and envelopes; the indices are the latest coordinates/envelope *)
Inductive bvh_reach (T : list (list Z)) (K : nat) (N : Z) : tree -> list vec3 -> R -> Prop :=
| reach_make : forall X env tr, valid_mesh X T -> make_bvh X T K N env = Some tr -> bvh_reach T K N tr X env
| reach_refit : forall tr X env V env' tr', bvh_reach T K N tr X env -> valid_mesh V T ->
    refit_bvh V T tr K env' = Some tr' -> bvh_reach T K N tr' V env'.
(** p is a convex combination of the points vs *)
Fixpoint wsum (ws : list R) : R := match ws with [] => 0 | w :: t => w + wsum t end.
Fixpoint vcomb (ws : list R) (vs : list vec3) : vec3 :=
  match ws, vs with w :: ws', v :: vs' => vadd (vscale w v) (vcomb ws' vs') | _, _ => vzero end.
Definition in_hull (p : vec3) (vs : list vec3) : Prop :=
  exists ws, length ws = length vs /\ Forall (fun w => 0 <= w) ws /\ wsum ws = 1 /\ p = vcomb ws vs.
