(** Lemmas about read_urdf: parsing, loading of links and joints, the traversal. *)
From Verif Require Import Base QuatModel QuatProofs VecModel VecProofs BvhModel GridModel VolModel RigidTypes SurfModel MassModel MassSpec ApiModel ConSpec ApiSpec ReadyProofs ApiProofs Prop_Api SceneModel SceneSpec SceneMesh SceneProofs Prop_Scene Prop_SceneChain UrdfModel UrdfSpec.
From Coq Require Import Permutation.
Open Scope R_scope.

(** * frames *)
Lemma Rx_unit t : is_unit (q_Rx t).
Proof. unfold is_unit, q_Rx, qdot; cbn. pose proof (sin2_cos2 (t / 2)) as H. unfold Rsqr in H. lra. Qed.
Lemma Rx_turn t v : q_rotate (q_Rx t) v = mkV (vx v) (vy v * cos t - vz v * sin t) (vy v * sin t + vz v * cos t).
Proof.
  assert (EC : cos t = cos (t / 2) * cos (t / 2) - sin (t / 2) * sin (t / 2)). { rewrite <- cos_plus. f_equal. field. }
  assert (ES : sin t = 2 * (sin (t / 2) * cos (t / 2))). { replace t with (2 * (t / 2)) at 1 by field. rewrite sin_2a. ring. }
  pose proof (sin2_cos2 (t / 2)) as H. unfold Rsqr in H. rewrite EC, ES. clear EC ES. unfold q_Rx. revert H. generalize (cos (t / 2)) (sin (t / 2)). intros c s H.
  rewrite q_rotate_formula. destruct v as [x y z]. unfold qvec, vadd, vscale, vdot, vcross; cbn.
  apply (f_equal3 mkV); [|ring|ring]. transitivity (x * (s * s + c * c)); [ring|rewrite H; ring].
Qed.
Lemma Rx_rotate t v : q_rotate (q_Rx t) v = mvec (m3_Rx t) v.
Proof. rewrite Rx_turn. destruct v as [x y z]. unfold mvec, m3_Rx, mrow0, mrow1, mrow2, vdot; cbn [vx vy vz m00 m01 m02 m10 m11 m12 m20 m21 m22]. apply (f_equal3 mkV); ring. Qed.
Lemma Ry_mat t v : q_rotate (q_Ry t) v = mvec (m3_Ry t) v.
Proof. rewrite Ry_rotate. destruct v as [x y z]. unfold mvec, m3_Ry, mrow0, mrow1, mrow2, vdot; cbn [vx vy vz m00 m01 m02 m10 m11 m12 m20 m21 m22]. apply (f_equal3 mkV); ring. Qed.
Lemma Rz_mat t v : q_rotate (q_Rz t) v = mvec (m3_Rz t) v.
Proof. rewrite Rz_rotate. destruct v as [x y z]. unfold mvec, m3_Rz, mrow0, mrow1, mrow2, vdot; cbn [vx vy vz m00 m01 m02 m10 m11 m12 m20 m21 m22]. apply (f_equal3 mkV); ring. Qed.
Lemma three_numbers o v : three o = Some v <-> numbers o v.
Proof.
  split.
  - destruct o as [[|a [|b [|c t]]]|]; cbn; intros H; try discriminate; injection H as <-; constructor.
  - intros []; reflexivity.
Qed.
Lemma convert_frame_is f X : convert_frame f = Some X -> is_unit (xq X) /\ numbers (f_xyz f) (xr X) /\ origin_is (Some f) (xform_point X).
Proof.
  unfold convert_frame. destruct (three (f_rpy f)) as [rpy|] eqn:E1; [|discriminate]. destruct (three (f_xyz f)) as [xyz|] eqn:E2; [|discriminate].
  intros H. injection H as <-. cbn [xr xq]. apply three_numbers in E1, E2.
  split; [apply is_unit_prod; [apply Rz_unit|apply is_unit_prod; [apply Ry_unit|apply Rx_unit]]|]. split; [auto|].
  exists rpy, xyz. split; auto. split; auto. intros p. unfold xform_point; cbn [xr xq]. rewrite !q_rotate_prod, Rx_rotate, Ry_mat, Rz_mat. reflexivity.
Qed.
Lemma no_tag_identity X : convert_frame (mkFrame None None) = Some X -> X = mkX vzero q_identity.
Proof.
  intros H. assert (E : X = mkX vzero (q_prod (q_Rz 0) (q_prod (q_Ry 0) (q_Rx 0)))) by (unfold convert_frame in H; cbn [three f_rpy f_xyz vx vy vz vzero] in H; congruence). clear H. subst X. apply f_equal. unfold q_Rx, q_Ry, q_Rz. replace (0 / 2) with 0 by field. rewrite sin_0, cos_0.
  unfold q_prod, q_identity, qvec, vadd, vscale, vcross, vdot; cbn [qs qx qy qz vx vy vz]. f_equal; ring.
Qed.
Lemma convert_origin_is o X : convert_origin o = Some X -> is_unit (xq X) /\ origin_is o (xform_point X).
Proof.
  unfold convert_origin. destruct o as [f|]; intros H.
  - apply convert_frame_is in H. tauto.
  - split; [apply convert_frame_is in H; tauto|]. apply no_tag_identity in H. subst X. intros p. unfold xform_point; cbn [xr xq]. rewrite q_rotate_id. destruct p; unfold vadd, vzero; cbn. f_equal; ring.
Qed.
Lemma numbers_fun o u v : numbers o u -> numbers o v -> u = v.
Proof. intros H1 H2. apply three_numbers in H1, H2. congruence. Qed.
Lemma origin_fun o f g : origin_is o f -> origin_is o g -> forall p, f p = g p.
Proof.
  destruct o as [t|]; cbn.
  - intros (r & x & R1 & X1 & H1) (r' & x' & R2 & X2 & H2) p. rewrite H1, H2. rewrite (numbers_fun _ _ _ R1 R2), (numbers_fun _ _ _ X1 X2). reflexivity.
  - intros H1 H2 p. rewrite H1, H2. reflexivity.
Qed.
Lemma veqb_eq a b : veqb a b = true -> a = b.
Proof. unfold veqb. destruct a, b; cbn. intros H. apply andb_prop in H as [H H3]. apply andb_prop in H as [H1 H2]. destruct (Reqb_spec vx vx0), (Reqb_spec vy vy0), (Reqb_spec vz vz0); congruence. Qed.
Lemma qeqb_eq a b : qeqb a b = true -> a = b.
Proof. unfold qeqb. destruct a, b; cbn. intros H. apply andb_prop in H as [H H4]. apply andb_prop in H as [H H3]. apply andb_prop in H as [H1 H2]. destruct (Reqb_spec qs qs0), (Reqb_spec qx qx0), (Reqb_spec qy qy0), (Reqb_spec qz qz0); congruence. Qed.
Lemma xform_id p : xform_point (mkX vzero q_identity) p = p.
Proof. unfold xform_point; cbn [xr xq]. rewrite q_rotate_id. destruct p; unfold vadd, vzero; cbn. f_equal; ring. Qed.
Lemma to_link_body_map X V : to_link_body X V = map (xform_point X) V.
Proof.
  unfold to_link_body. destruct (veqb (xr X) vzero) eqn:E1; cbn [negb orb]; auto. destruct (qeqb (xq X) q_identity) eqn:E2; cbn [negb orb]; auto.
  apply veqb_eq in E1. apply qeqb_eq in E2. destruct X as [r q]; cbn in *. subst. symmetry. rewrite <- (map_id V) at 2. apply map_ext. apply xform_id.
Qed.

(** * the parsed document *)
Lemma map_opt_f2 {A B} (f : A -> option B) l l' : map_opt f l = Some l' -> Forall2 (fun a b => f a = Some b) l l'.
Proof.
  revert l'; induction l as [|a l IH]; cbn; intros l' H; [injection H as <-; constructor|].
  destruct (f a) as [b|] eqn:E; [|discriminate]. destruct (map_opt f l) as [bs|]; [|discriminate]. injection H as <-. constructor; auto.
Qed.
Lemma parse_link_name t l : parse_link t = Some l -> k_name l = l_name t.
Proof. unfold parse_link. destruct (parse_geometry _); [|discriminate]. destruct (parse_inertial _); [|discriminate]. intros H. injection H as <-. reflexivity. Qed.
Lemma parse_link_geometry t l g : parse_link t = Some l -> k_collision l = Some g ->
  is_unit (xq (ge_origin g)) /\ exists s, has_mesh t s (ge_V g) (ge_T g) (xform_point (ge_origin g)).
Proof.
  unfold parse_link. destruct (parse_geometry (l_collision t)) as [og|] eqn:E; [|discriminate]. destruct (parse_inertial _); [|discriminate]. intros H. injection H as <-. cbn. intros ->.
  unfold parse_geometry in E. destruct (l_collision t) as [gt|] eqn:Ec; [|discriminate]. destruct (g_shapes gt) as [[|[|sup sc V T] r]|] eqn:Es; try discriminate.
  destruct (convert_origin (g_origin gt)) as [X|] eqn:Eo; [|discriminate]. destruct sup; [|discriminate]. injection E as <-. cbn.
  apply convert_origin_is in Eo as [U O]. split; auto. exists sc, gt, r. auto.
Qed.
Lemma parse_link_mesh t l s V T C : parse_link t = Some l -> has_mesh t s V T C -> exists g, k_collision l = Some g /\ ge_V g = V /\ ge_T g = T /\ (forall p, xform_point (ge_origin g) p = C p).
Proof.
  unfold parse_link. intros H (gt & r & E1 & E2 & O). rewrite E1 in H. cbn in H. rewrite E2 in H.
  destruct (convert_origin (g_origin gt)) as [X|] eqn:Eo; [|discriminate]. destruct (parse_inertial _); [|discriminate]. injection H as <-. cbn.
  eexists. split; [reflexivity|]. cbn. do 2 (split; auto). apply convert_origin_is in Eo as [U O']. apply (origin_fun _ _ _ O' O).
Qed.
Lemma parse_link_inertial t l i : parse_link t = Some l -> k_inertial l = Some i -> is_unit (xq (ia_origin i)) /\ inertial_is t (xform_point (ia_origin i)) /\
  exists it, l_inertial t = Some it /\ ia_mass i = or_zero (in_mass it) /\ ia_xx i = or_zero (in_xx it) /\ ia_yy i = or_zero (in_yy it) /\ ia_zz i = or_zero (in_zz it).
Proof.
  unfold parse_link. destruct (parse_geometry _); [|discriminate]. destruct (parse_inertial (l_inertial t)) as [oi|] eqn:E; [|discriminate]. intros H. injection H as <-. cbn. intros ->.
  unfold parse_inertial in E. destruct (l_inertial t) as [it|] eqn:Ei; [|discriminate]. destruct (convert_origin (in_origin it)) as [X|] eqn:Eo; [|discriminate]. injection E as <-. cbn.
  apply convert_origin_is in Eo as [U O]. split; auto. split; [exists it; auto|]. exists it. auto.
Qed.
Lemma inertial_fun t f g : inertial_is t f -> inertial_is t g -> forall p, f p = g p.
Proof. intros (i & E & O) (i' & E' & O'). rewrite E in E'. injection E' as <-. apply (origin_fun _ _ _ O O'). Qed.
Lemma parse_joint_is t j : parse_joint t = Some j -> jt_name j = j_name t /\ jt_type j = j_type t /\ jt_parent j = j_parent t /\ jt_child j = j_child t /\
  is_unit (xq (jt_X j)) /\ origin_is (j_origin t) (xform_point (jt_X j)) /\
  exists a, axis_is (j_axis t) a /\ ((a = vzero /\ jt_axis j = None) \/ (a <> vzero /\ jt_axis j = Some (vdiv a (vnorm a)))).
Proof.
  unfold parse_joint. destruct (convert_origin (j_origin t)) as [X|] eqn:Eo; [|discriminate].
  destruct (convert_frame _) as [A|] eqn:Ea; [|discriminate]. intros H. injection H as <-. cbn. do 4 (split; auto). apply convert_origin_is in Eo as [U O]. split; auto. split; auto.
  exists (xr A). split.
  - apply convert_frame_is in Ea as (_ & N & _). destruct (j_axis t) as [f|]; auto. cbn in *. apply (numbers_fun _ _ _ N). constructor.
  - destruct (Reqb_spec (vnorm (xr A)) 0) as [E|E].
    + left. split; auto. apply vnorm_zero_iff. auto.
    + right. split; auto. intros Z. apply E. rewrite Z. unfold vnorm, vzero, vdot; cbn. replace (0*0+0*0+0*0) with 0 by ring. apply sqrt_0.
Qed.

(** * links *)
Definition solid (ls : list link) : list link := filter (fun l => match k_collision l with Some _ => true | None => false end) ls.
Definition node_of (l : link) : node := mkNode (k_name l) (match k_inertial l with Some i => ia_origin i | None => mkX vzero q_identity end) None [].
Definition loaded_body (n : name) (idx : nat) (i : inertial) (s : shape) (t : tree) : body :=
  mkBody n idx q_identity vzero vzero vzero (ia_mass i) (mkV (ia_xx i) (ia_yy i) (ia_zz i)) (Some s) false [] default_name (Some t).
Definition loaded (eig : mat3 -> vec3 * mat3) (l : link) (b : body) : Prop :=
  exists g i s t idx, k_collision l = Some g /\ k_inertial l = Some i /\ b = loaded_body (k_name l) idx i s t /\
    create_mesh eig (map (xform_point (x_from_to (ge_origin g) (ia_origin i))) (ge_V g)) (ge_T g) = Some (sh_V s, sh_T s).
Lemma create_shape_done eig sd e n V T tb e' : fst (create_shape eig sd e n V T tb) = Done e' ->
  exists s, e' = set_shapes e (e_shapes e ++ [s]) /\ find_shape e n = None /\ sh_name s = n /\ sh_T s = T /\ (tb = false -> sh_V s = V).
Proof.
  unfold create_shape. destruct (find_shape e n); [discriminate|]. destruct (compute_mass_properties V T 1) as [p|]; [|discriminate].
  destruct (xform_model_2_body_space eig p) as [[[[r q] m] Ib]|]; [|discriminate]. destruct (shape_boundary _ _) as [bd|]; [|discriminate].
  destruct (create_signed_distance _ _ _ _ _ _) as [g|]; [|discriminate]. cbn [fst]. intros H. apply done_eq in H. subst e'. eexists. split; [reflexivity|]. cbn. do 3 (split; auto). intros ->. reflexivity.
Qed.
Lemma load_body_done eig sd n g i e e' : load_body eig sd n g i e = Done e' ->
  exists s t, e' = set_bodies (set_shapes e (e_shapes e ++ [s])) (e_bodies e ++ [loaded_body n (length (e_bodies e)) i s t]) /\ find_body e n = None /\
    create_mesh eig (map (xform_point (x_from_to (ge_origin g) (ia_origin i))) (ge_V g)) (ge_T g) = Some (sh_V s, sh_T s).
Proof.
  unfold load_body. rewrite to_link_body_map. destruct (create_mesh _ _ _) as [[V T]|]; [|discriminate]. intros H.
  apply andthen_done in H as (e1 & H1 & H). destruct (create_shape_done _ _ _ _ _ _ _ _ H1) as (s & -> & Fs & Ns & ET & EV). specialize (EV eq_refl). clear H1.
  apply andthen_done in H as (e2 & H2 & H). unfold create_rigid_body in H2. destruct (find_body _ n) eqn:Fb; [discriminate|]. apply done_eq in H2. subst e2.
  change (find_body e n = None) in Fb. cbn [set_shapes e_bodies] in H. set (e1 := set_shapes e (e_shapes e ++ [s])) in *.
  apply andthen_done in H as (e3 & H3 & H). set (e2 := set_bodies e1 _) in *.
  assert (M2 : has_mid e2 (e_bodies e) (body_init n (length (e_bodies e))) [] n). { split; [reflexivity|]. split; [apply (find_none b_name); exact Fb|]. split; [auto|reflexivity]. }
  assert (FS : find_shape e2 (n ++ shape_suffix) = Some s).
  { unfold find_shape. cbn [e2 e1 set_bodies set_shapes e_shapes]. rewrite find_app_r by (apply (find_none sh_name); exact Fs). cbn [find]. rewrite Ns, name_eqb_refl. reflexivity. }
  unfold connect_shape in H3. rewrite (found_mid _ _ _ _ _ M2), FS in H3. destruct (make_bvh _ _ _ _ _) as [t|]; [|discriminate]. apply done_eq in H3. subst e3.
  apply done_eq in H. subst e'. rewrite (upd_mid _ _ _ _ _ _ M2). unfold e2 in *. rewrite set_bodies_twice.
  pose proof (keep_mid _ _ _ _ _ (with_shape (body_init n (length (e_bodies e))) s (Some t)) M2 eq_refl) as M3. rewrite set_bodies_twice in M3.
  rewrite (upd_mid _ _ _ _ _ _ M3), set_bodies_twice. exists s, t. split; [reflexivity|]. split; [auto|]. rewrite ET, EV. reflexivity.
Qed.
Lemma set_shapes_bodies e ss bs : e_bodies (set_bodies (set_shapes e ss) bs) = bs /\ e_shapes (set_bodies (set_shapes e ss) bs) = ss.
Proof. split; reflexivity. Qed.
Lemma load_links_done eig sd : forall ls e robot e' robot', load_links eig sd ls e robot = (Done e', robot') ->
  exists bs ss, e' = set_bodies (set_shapes e (e_shapes e ++ ss)) (e_bodies e ++ bs) /\ robot' = robot ++ map node_of (solid ls) /\
    Forall2 (loaded eig) (solid ls) bs /\ NoDup (map k_name (solid ls)) /\ (forall l, In l (solid ls) -> ~ In (k_name l) (map b_name (e_bodies e))).
Proof.
  induction ls as [|l ls IH]; cbn [load_links]; intros e robot e' robot' H.
  - injection H as <- <-. exists [], []. rewrite !app_nil_r. split; [destruct e; reflexivity|]. split; [auto|]. cbn. split; [constructor|]. split; [constructor|]. intros ? [].
  - cbn [solid filter]. fold (solid ls). destruct (k_collision l) as [g|] eqn:Ec; [|apply IH; auto].
    destruct (k_inertial l) as [i|] eqn:Ei; [|discriminate]. destruct (load_body eig sd (k_name l) g i e) as [e1| |] eqn:El; try discriminate.
    destruct (load_body_done _ _ _ _ _ _ _ El) as (s & t & -> & Fb & EM). apply (find_none b_name) in Fb.
    destruct (IH _ _ _ _ H) as (bs & ss & -> & -> & F & ND & NI). clear IH H El.
    destruct (set_shapes_bodies e (e_shapes e ++ [s]) (e_bodies e ++ [loaded_body (k_name l) (length (e_bodies e)) i s t])) as [EB ES]. rewrite EB, ES in *.
    exists (loaded_body (k_name l) (length (e_bodies e)) i s t :: bs), (s :: ss). rewrite <- !app_assoc. cbn [app]. split; [reflexivity|].
    split. { cbn [map]. unfold node_of at 2. rewrite Ei. reflexivity. }
    split. { constructor; auto. exists g, i, s, t, (length (e_bodies e)). auto. }
    split.
    + cbn [map]. constructor; auto. intros Hi. apply in_map_iff in Hi as (l' & E & Hl). apply (NI l' Hl). rewrite E, map_app, in_app_iff. right. left. reflexivity.
    + intros l' [<-|Hl]; [auto|]. intros Hi. apply (NI l' Hl). rewrite map_app, in_app_iff. auto.
Qed.

(** * joints *)
Definition hinges (js : list joint) : list joint := filter (fun j => name_eqb (jt_type j) revolute) js.
Definition edges_of (hs : list joint) (n : name) : list (name * joint) := map (fun j => (jt_child j, j)) (filter (fun j => name_eqb (jt_parent j) n) hs).
Definition parent_in (hs : list joint) (n : name) (o : option name) : option name := fold_left (fun o j => if name_eqb (jt_child j) n then Some (jt_parent j) else o) hs o.
Definition joined (hs : list joint) (k : node) : node := mkNode (n_name k) (n_X k) (parent_in hs (n_name k) (n_parent k)) (n_children k ++ edges_of hs (n_name k)).
Lemma find_node_in robot n : find_node robot n <> None <-> In n (map n_name robot).
Proof. destruct (find_node robot n) eqn:E; split; intros H; auto; try congruence. - apply (find_some n_name) in E as [E <-]. apply in_map. auto. - apply (find_none n_name) in E. tauto. Qed.
Lemma joined_nil robot : map (joined []) robot = robot.
Proof. rewrite <- (map_id robot) at 2. apply map_ext. intros [n X p c]. unfold joined; cbn. rewrite app_nil_r. reflexivity. Qed.
Lemma joined_cons j hs robot : 
  map (joined hs) (upd_node (upd_node robot (jt_parent j) (fun k => mkNode (n_name k) (n_X k) (n_parent k) (n_children k ++ [(jt_child j, j)])))
                    (jt_child j) (fun k => mkNode (n_name k) (n_X k) (Some (jt_parent j)) (n_children k))) = map (joined (j :: hs)) robot.
Proof.
  unfold upd_node. rewrite !map_map. apply map_ext. intros [n X p c]. unfold joined, parent_in, edges_of. cbn [n_name n_X n_parent n_children filter fold_left].
  assert (T : forall a b : name, a = b -> name_eqb b a = true) by (intros a b ->; apply name_eqb_refl).
  destruct (name_eqb_spec n (jt_parent j)) as [E|E]; cbn [n_name n_X n_parent n_children]; (destruct (name_eqb_spec n (jt_child j)) as [E2|E2]; cbn [n_name n_X n_parent n_children]);
  try rewrite (T _ _ E); try rewrite (T _ _ E2); try rewrite (name_eqb_neq (jt_child j) n) by congruence; try rewrite (name_eqb_neq (jt_parent j) n) by congruence; cbn [map]; rewrite <- ?app_assoc; reflexivity.
Qed.
Lemma upd_node_names robot n f : (forall k, n_name (f k) = n_name k) -> map n_name (upd_node robot n f) = map n_name robot.
Proof. intros H. unfold upd_node. rewrite map_map. apply map_ext. intros k. destruct (name_eqb _ _); auto. Qed.
Lemma load_joints_done : forall js e robot e' robot', load_joints js e robot = (Done e', robot') ->
  exists news, e' = set_hinges e (e_hinges e ++ news) /\ map h_name news = map jt_name (hinges js) /\ robot' = map (joined (hinges js)) robot /\
    NoDup (map jt_name (hinges js)) /\ (forall j, In j (hinges js) -> ~ In (jt_name j) (map h_name (e_hinges e)) /\ In (jt_parent j) (map n_name robot) /\ In (jt_child j) (map n_name robot)).
Proof.
  induction js as [|j js IH]; cbn [load_joints]; intros e robot e' robot' H.
  - injection H as <- <-. exists []. rewrite app_nil_r. split; [destruct e; reflexivity|]. split; auto. split; [symmetry; apply joined_nil|]. cbn. split; [constructor|]. intros ? [].
  - cbn [hinges filter]. fold (hinges js). destruct (name_eqb (jt_type j) revolute) eqn:Et; cbn [negb] in H; [|apply IH; auto].
    destruct (create_hinge e (jt_name j)) as [e1| |] eqn:E1; try discriminate. unfold create_hinge in E1. destruct (find_hinge e (jt_name j)) eqn:Fh; [discriminate|]. apply done_eq in E1. subst e1.
    destruct (find_node robot (jt_parent j)) eqn:Fp; [|discriminate]. destruct (find_node robot (jt_child j)) eqn:Fc; [|discriminate].
    assert (Ip : In (jt_parent j) (map n_name robot)) by (apply find_node_in; congruence). assert (Ic : In (jt_child j) (map n_name robot)) by (apply find_node_in; congruence).
    destruct (IH _ _ _ _ H) as (news & -> & EN & -> & ND & HI). rewrite joined_cons. clear IH H. cbn [e_hinges set_hinges] in *.
    exists (mkHinge (jt_name j) (length (e_hinges e)) None :: news). rewrite <- app_assoc. split; [reflexivity|]. cbn [map h_name]. split; [congruence|]. split; [reflexivity|].
    apply (find_none h_name) in Fh. rewrite map_app in HI. cbn [map h_name] in HI. split.
    + constructor; auto. intros Hi. apply in_map_iff in Hi as (j' & E & Hj). destruct (HI j' Hj) as (N & _). apply N. rewrite E, in_app_iff. right. left. reflexivity.
    + intros j' [<-|Hj]; [auto|]. destruct (HI j' Hj) as (N & P & C). rewrite in_app_iff in N. rewrite !upd_node_names in P, C by auto. auto.
Qed.
Lemma find_node_joined hs robot n : find_node (map (joined hs) robot) n = option_map (joined hs) (find_node robot n).
Proof. unfold find_node. apply (find_map_named n_name). reflexivity. Qed.
Lemma parent_in_none hs n : parent_in hs n None = None <-> ~ In n (map jt_child hs).
Proof.
  assert (G : forall hs o, parent_in hs n o = None <-> o = None /\ ~ In n (map jt_child hs)); [|rewrite G; tauto].
  clear. induction hs as [|j hs IH]; intros o; cbn; [tauto|]. fold (parent_in hs n (if name_eqb (jt_child j) n then Some (jt_parent j) else o)). rewrite IH.
  destruct (name_eqb_spec (jt_child j) n); [split; [intros [? _]; discriminate|tauto]|tauto].
Qed.
