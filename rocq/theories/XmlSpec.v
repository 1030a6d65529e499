(** Vocabulary for write_xml: how a reader of XML 1.0 understands the text of an attribute, and what a scene file says. *)
From Coq Require Import String Ascii.
From Verif Require Import Base QuatModel VecModel VolModel RigidTypes ConSpec XmlModel.
Open Scope R_scope.

(** ** reading attributes (XML 1.0, sections 2.3, 3.3.3, 4.1, 4.6): characters stand for themselves, white space for a blank,
    the five predefined entities and decimal character references for their character; < and & and the quotation mark, which
    ends the value, cannot appear *)
Definition decimal (ds : name) : nat := fold_left (fun a d => 10 * a + (d - 48))%nat ds 0%nat.
Definition is_white (c : nat) : Prop := c = 9%nat \/ c = 10%nat \/ c = 13%nat.
Inductive entity : name -> nat -> Prop :=
| ent_amp : entity (lit "amp") 38 | ent_lt : entity (lit "lt") 60 | ent_gt : entity (lit "gt") 62
| ent_quot : entity (lit "quot") 34 | ent_apos : entity (lit "apos") 39
| ent_char : forall ds, ds <> [] -> Forall (fun d => 48 <= d <= 57)%nat ds -> entity (35%nat :: ds) (decimal ds).
Inductive reads : name -> name -> Prop :=
| reads_nil : reads [] []
| reads_char : forall c r s, c <> 38%nat -> c <> 60%nat -> c <> 34%nat -> ~ is_white c -> reads r s -> reads (c :: r) (c :: s)
| reads_white : forall c r s, is_white c -> reads r s -> reads (c :: r) (32%nat :: s)
| reads_entity : forall e c r s, entity e c -> reads r s -> reads (38%nat :: e ++ 59%nat :: r) (c :: s).
(** the file, and the same tree with the values that a reader sees *)
Inductive file_reads : xml name -> xml name -> Prop :=
| file_reads_elem : forall t a b c d,
    Forall2 (fun x y => fst x = fst y /\ reads (snd x) (snd y)) a b -> Forall2 file_reads c d -> file_reads (Elem t a c) (Elem t b d).

(** ** the parts of an element *)
Definition tag {A} (x : xml A) : name := match x with Elem t _ _ => t end.
Definition attrs {A} (x : xml A) : list (name * A) := match x with Elem _ a _ => a end.
Definition children {A} (x : xml A) : list (xml A) := match x with Elem _ _ c => c end.
(** the only value of the attribute called k is v *)
Definition attr (x : xml name) (k : string) (v : name) : Prop := filter (fun kv => name_eqb (fst kv) (lit k)) (attrs x) = [(lit k, v)].
(** the only child with this tag *)
Definition part (x : xml name) (t : string) (y : xml name) : Prop := filter (fun c => name_eqb (tag c) (lit t)) (children x) = [y].

(** ** what an element says *)
Definition says_body (p : printer) (b : body) (x : xml name) : Prop :=
  tag x = lit "body" /\ attr x "name" (b_name b) /\ attr x "idx" (pr_N p (Z.of_nat (b_idx b))) /\
  (exists s, b_shape b = Some s /\ attr x "shape" (sh_name s)) /\
  attr x "pos" (pr_V p (b_r b)) /\ attr x "rot" (pr_Q p (b_q b)) /\ attr x "vel" (pr_V p (b_v b)) /\ attr x "spin" (pr_V p (b_w b)) /\
  attr x "mass" (pr_R p (b_mass b)) /\ attr x "inertia" (pr_V p (b_inertia b)) /\
  attr x "is_fixed" (lit (if b_fixed b then "True" else "False")) /\ attr x "material" (b_material b) /\
  Forall2 (fun f y => tag y = lit "apply" /\ attr y "name" (force_name f)) (b_forces b) (children x).
Definition says_force (p : printer) (f : force) (x : xml name) : Prop :=
  attr x "name" (force_name f) /\
  match f with
  | Gravity _ g up => tag x = lit "gravity" /\ attr x "g" (pr_R p g) /\ attr x "up" (pr_V p up)
  | Damping _ alpha beta => tag x = lit "damping" /\ attr x "alpha" (pr_R p alpha) /\ attr x "beta" (pr_R p beta)
  end.
(** the elements l are numbered in order and carry the values vs in the attribute k *)
Definition says_list (p : printer) (t k : string) (vs : list name) (x : xml name) : Prop :=
  attr x "count" (pr_N p (Z.of_nat (length vs))) /\ length (children x) = length vs /\
  forall i v, nth_error vs i = Some v -> exists y, nth_error (children x) i = Some y /\ tag y = lit t /\ attr y "idx" (pr_N p (Z.of_nat i)) /\ attr y k v.
Definition says_shape (p : printer) (s : shape) (x : xml name) : Prop :=
  tag x = lit "shape" /\ attr x "name" (sh_name s) /\
  (exists y, part x "vertices" y /\ says_list p "v" "p" (map (pr_V p) (sh_V s)) y) /\
  (exists y, part x "triangles" y /\ says_list p "t" "labels" (map (pr_T p) (sh_T s)) y).
Definition says_interaction (p : printer) (ki : (name * name) * interaction) (x : xml name) : Prop :=
  tag x = lit "interaction" /\ attr x "materials" (lit "('" ++ fst (fst ki) ++ lit "', '" ++ snd (fst ki) ++ lit "')") /\
  attr x "friction" (pr_V p (i_mu (snd ki))) /\ attr x "restitution" (pr_R p (i_eps (snd ki))).
(** the hinge in the world, by the anchor and the axis of its socket on the parent *)
Definition says_hinge (p : printer) (e : engine) (h : hinge) (x : xml name) : Prop :=
  exists sp sc P C, h_sockets h = Some (sp, sc) /\ In P (e_bodies e) /\ b_name P = sk_body sp /\ In C (e_bodies e) /\ b_name C = sk_body sc /\
  tag x = lit "hinge" /\ attr x "name" (h_name h) /\ attr x "parent" (b_name P) /\ attr x "parent-idx" (pr_N p (Z.of_nat (b_idx P))) /\
  attr x "child" (b_name C) /\ attr x "child-idx" (pr_N p (Z.of_nat (b_idx C))) /\
  attr x "origin" (pr_V p (anchor P sp)) /\ attr x "axis" (pr_V p (axis_w P sp)) /\ attr x "mode" (lit "world").
(** the parameters: their names, and what is written for each of them *)
Definition param_list (p : printer) (P : params) : list (string * string * name) :=
  let f n x := (n, "float"%string, pr_R p x) in let i n x := (n, "int"%string, pr_N p x) in
  let b n (x : bool) := (n, "bool"%string, if x then lit "True" else lit "False") in
  [f "time_step"%string (p_time_step P); i "max_iterations"%string (Z.of_nat (p_max_iterations P));
   b "use_bounce"%string (p_use_bounce P); b "use_pre_stabilization"%string (p_use_pre P); b "use_post_stabilization"%string (p_use_post P);
   f "gap_reduction"%string (p_gap_reduction P); f "min_gap_value"%string (p_min_gap P); f "max_gap_value"%string (p_max_gap P);
   f "absolute_tolerance"%string (p_abs_tol P); f "relative_tolerance"%string (p_rel_tol P);
   f "nu_reduce"%string (p_nu_reduce P); f "nu_increase"%string (p_nu_increase P); f "too_small_merit_change"%string (p_small_merit P);
   i "contact_optimization_max_iterations"%string (Z.of_nat (p_opt_iterations P)); f "contact_optimization_tolerance"%string (p_opt_tol P);
   i "bvh_chunk_size"%string (p_chunk P); i "K"%string (Z.of_nat (p_K P)); f "envelope"%string (p_envelope P); i "resolution"%string (p_resolution P)].
Definition says_params (p : printer) (P : params) (x : xml name) : Prop :=
  Forall (fun y => tag y = lit "param") (children x) /\ length (children x) = length (param_list p P) /\
  forall n ty v, In (n, ty, v) (param_list p P) -> exists y, In y (children x) /\ attr y "name" (lit n) /\ attr y "type" (lit ty) /\ attr y "value" v.
(** the whole file, as a reader sees it *)
Definition says_scene (p : printer) (e : engine) (x : xml name) : Prop :=
  tag x = lit "scene" /\
  (exists y, part x "bodies" y /\ Forall2 (says_body p) (e_bodies e) (children y)) /\
  (exists y, part x "forces" y /\ Forall2 (says_force p) (e_forces e) (children y)) /\
  (exists y, part x "shapes" y /\ Forall2 (says_shape p) (e_shapes e) (children y)) /\
  (exists y, part x "materials" y /\ Forall2 (says_interaction p) (e_lib e) (children y)) /\
  (exists y, part x "hinges" y /\ Forall2 (says_hinge p e) (e_hinges e) (children y)) /\
  (exists y, part x "params" y /\ says_params p (e_params e) y).

(** ** when the materials of the interactions make no trouble: printable ASCII characters without & < apostrophe, quotation mark
    and backslash *)
Definition plain_char (c : nat) : Prop := (32 <= c <= 126)%nat /\ c <> 38%nat /\ c <> 60%nat /\ c <> 39%nat /\ c <> 34%nat /\ c <> 92%nat.
Definition plain (m : name) : Prop := Forall plain_char m.
Definition plain_materials (e : engine) : Prop := Forall (fun ki => plain (fst (fst ki)) /\ plain (snd (fst ki)) ) (e_lib e).
(** a single character that XML has to escape *)
Definition bad_material (m : name) : Prop := exists c, m = [c] /\ In c [38; 60; 62; 34; 13; 10; 9]%nat.

(** ** two scenes that look the same *)
Definition same_body (b c : body) : Prop :=
  b_name b = b_name c /\ b_idx b = b_idx c /\ b_r b = b_r c /\ b_q b = b_q c /\ b_v b = b_v c /\ b_w b = b_w c /\
  b_mass b = b_mass c /\ b_inertia b = b_inertia c /\ b_fixed b = b_fixed c /\ b_material b = b_material c /\
  option_map sh_name (b_shape b) = option_map sh_name (b_shape c) /\ map force_name (b_forces b) = map force_name (b_forces c).
Definition same_shape (s t : shape) : Prop := sh_name s = sh_name t /\ sh_V s = sh_V t /\ sh_T s = sh_T t.
(** the same links, anchor on the parent and axis on the parent, in the world *)
Definition same_hinge (e1 e2 : engine) (h k : hinge) : Prop :=
  h_name h = h_name k /\
  exists sp sc P tp tc Q, h_sockets h = Some (sp, sc) /\ h_sockets k = Some (tp, tc) /\ sk_body sp = sk_body tp /\ sk_body sc = sk_body tc /\
    In P (e_bodies e1) /\ b_name P = sk_body sp /\ In Q (e_bodies e2) /\ b_name Q = sk_body tp /\
    anchor P sp = anchor Q tp /\ axis_w P sp = axis_w Q tp.
Definition same_scene (e1 e2 : engine) : Prop :=
  Forall2 same_body (e_bodies e1) (e_bodies e2) /\ e_forces e1 = e_forces e2 /\ Forall2 same_shape (e_shapes e1) (e_shapes e2) /\
  e_lib e1 = e_lib e2 /\ Forall2 (same_hinge e1 e2) (e_hinges e1) (e_hinges e2) /\ e_params e1 = e_params e2.
(** every body has a shape and every hinge has been attached *)
Definition complete (e : engine) : Prop :=
  Forall (fun b => b_shape b <> None) (e_bodies e) /\ Forall (fun h => h_sockets h <> None) (e_hinges e).
(** printing shows all there is to see of the numbers that satisfy good *)
Definition exact (p : printer) (good : R -> Prop) : Prop :=
  (forall x y, good x -> good y -> pr_R p x = pr_R p y -> x = y) /\
  (forall a b c a' b' c', good a -> good b -> good c -> good a' -> good b' -> good c' -> pr_V p (mkV a b c) = pr_V p (mkV a' b' c') -> a = a' /\ b = b' /\ c = c') /\
  (forall a b c d a' b' c' d', good a -> good b -> good c -> good d -> good a' -> good b' -> good c' -> good d' ->
     pr_Q p (mkQ a b c d) = pr_Q p (mkQ a' b' c' d') -> a = a' /\ b = b' /\ c = c' /\ d = d') /\
  (forall m n, pr_N p m = pr_N p n -> m = n) /\ (forall t u, pr_T p t = pr_T p u -> t = u).
(** the numbers of a scene *)
Definition v_all (good : R -> Prop) (v : vec3) : Prop := good (vx v) /\ good (vy v) /\ good (vz v).
Definition q_all (good : R -> Prop) (q : quat) : Prop := good (qs q) /\ good (qx q) /\ good (qy q) /\ good (qz q).
Definition numbers_are (good : R -> Prop) (e : engine) : Prop :=
  Forall (fun b => v_all good (b_r b) /\ q_all good (b_q b) /\ v_all good (b_v b) /\ v_all good (b_w b) /\ good (b_mass b) /\ v_all good (b_inertia b)) (e_bodies e) /\
  Forall (fun f => match f with Gravity _ g up => good g /\ v_all good up | Damping _ a b => good a /\ good b end) (e_forces e) /\
  Forall (fun s => Forall (v_all good) (sh_V s)) (e_shapes e) /\
  Forall (fun ki => v_all good (i_mu (snd ki)) /\ good (i_eps (snd ki))) (e_lib e) /\
  (forall h sp sc P, In h (e_hinges e) -> h_sockets h = Some (sp, sc) -> In P (e_bodies e) -> b_name P = sk_body sp -> v_all good (anchor P sp) /\ v_all good (axis_w P sp)) /\
  Forall good [p_time_step (e_params e); p_gap_reduction (e_params e); p_min_gap (e_params e); p_max_gap (e_params e); p_abs_tol (e_params e); p_rel_tol (e_params e);
    p_nu_reduce (e_params e); p_nu_increase (e_params e); p_small_merit (e_params e); p_opt_tol (e_params e); p_envelope (e_params e)].
