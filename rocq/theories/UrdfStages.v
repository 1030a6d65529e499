(** read_urdf, stage by stage. *)
From Verif Require Import Base QuatModel QuatProofs VecModel VecProofs BvhModel GridModel VolModel RigidTypes SurfModel MassModel MassSpec ApiModel ConSpec ApiSpec ReadyProofs ApiProofs Prop_Api SceneModel SceneSpec SceneMesh SceneProofs UrdfModel UrdfSpec UrdfProofs UrdfWalk.
From Coq Require Import Permutation.
Open Scope R_scope.

(** * poses are the only thing about bodies that the traversal changes *)
Definition moved (e e' : engine) : Prop :=
  map b_name (e_bodies e') = map b_name (e_bodies e) /\ (forall n, find_body e n = None -> find_body e' n = None) /\
  (forall n b, find_body e n = Some b -> exists r q, find_body e' n = Some (with_pose b r q)) /\
  map h_name (e_hinges e') = map h_name (e_hinges e) /\ e_forces e' = e_forces e /\ e_shapes e' = e_shapes e /\ e_contacts e' = e_contacts e /\ e_lib e' = e_lib e /\ e_params e' = e_params e /\ e_stepper e' = e_stepper e.
Lemma with_pose_self b : with_pose b (b_r b) (b_q b) = b. Proof. destruct b; reflexivity. Qed.
Lemma moved_refl e : moved e e.
Proof. repeat split; auto. intros n b F. exists (b_r b), (b_q b). rewrite with_pose_self. auto. Qed.
Lemma moved_trans a b c : moved a b -> moved b c -> moved a c.
Proof.
  intros (A1 & A2 & A3 & A4 & A5 & A6 & A7 & A8 & A9 & A10) (B1 & B2 & B3 & B4 & B5 & B6 & B7 & B8 & B9 & B10). repeat split; try congruence; auto.
  intros n x F. destruct (A3 _ _ F) as (r & q & F1). destruct (B3 _ _ F1) as (r' & q' & F2). exists r', q'. exact F2.
Qed.
Lemma only_moved e e' n r q : only_body e e' n (fun b => with_pose b (r b) (q b)) -> moved e e'.
Proof.
  intros (A1 & A2 & A3 & A4 & A5 & A6 & A7 & A8 & A9 & A10).
  assert (FB : forall m, find_body e' m = if name_eqb m n then option_map (fun b => with_pose b (r b) (q b)) (find_body e m) else find_body e m). { intros m. destruct (name_eqb_spec m n) as [->|D]; auto. }
  repeat split; auto; try congruence.
  - intros m F. rewrite FB, F. destruct (name_eqb m n); reflexivity.
  - intros m b F. rewrite FB, F. destruct (name_eqb m n); cbn; [eauto|]. exists (b_r b), (b_q b). rewrite with_pose_self. reflexivity.
Qed.
Lemma set_frame_moved e n X e' : set_frame e n X = Done e' -> moved e e'.
Proof.
  unfold set_frame. intros H. apply andthen_done in H as (e1 & H1 & H2). apply (moved_trans _ e1).
  - unfold set_position in H1. destruct (find_body e n); [|discriminate]. apply done_eq in H1. subst e1. apply (only_moved _ _ n (fun _ => xr X) (fun b => b_q b)). apply upd_only. auto.
  - unfold set_orientation in H2. destruct (find_body e1 n); [|discriminate]. apply done_eq in H2. subst e'. apply (only_moved _ _ n (fun b => b_r b) (fun _ => q_unit (xq X))). apply upd_only. auto.
Qed.
Lemma set_hinge_moved e hn pn cn o s m e' : set_hinge e hn pn cn o s m = Done e' -> moved e e'.
Proof.
  unfold set_hinge. destruct (find_hinge e hn); [|discriminate]. destruct (find_body e pn); [|discriminate]. destruct (find_body e cn); [|discriminate]. destruct (hinge_world _ _ _ _) as [[? ?]|]; [|discriminate].
  destruct (make_orthonormal_vectors _) as [[[? ?] ?]|]; [|discriminate]. destruct (q_from_matrix _); [|discriminate]. intros H. apply done_eq in H. subst e'.
  match goal with |- context [map ?f (e_hinges e)] => set (g := f) end.
  destruct (moved_refl e) as (B1 & B2 & B3 & B4 & B5 & B6 & B7 & B8 & B9 & B10). repeat split; auto. cbn. rewrite map_map. apply map_ext. intros x. unfold g. destruct (name_eqb _ _); reflexivity.
Qed.
Lemma place_children_moved : forall cs pn X e robot e' robot', place_children pn X cs e robot = (Done e', robot') -> moved e e'.
Proof.
  induction cs as [|[c j] cs IH]; cbn [place_children]; intros pn X e robot e' robot' H; [injection H as <- _; apply moved_refl|].
  destruct (find_node robot c); [|discriminate]. destruct (jt_axis j); [|discriminate]. destruct (andthen _ _) as [e1| |] eqn:E; try discriminate.
  apply andthen_done in E as (e2 & E1 & E2). eapply moved_trans; [eapply set_frame_moved; eauto|]. eapply moved_trans; [eapply set_hinge_moved; eauto|]. eapply IH; eauto.
Qed.
Lemma walk_moved : forall fuel st e robot e', walk fuel st e robot = Some (Done e') -> moved e e'.
Proof.
  induction fuel as [|f IH]; intros [|n st] e robot e' H; cbn [walk] in H; try (injection H as <-; apply moved_refl); try discriminate.
  destruct (find_node robot n) as [k|]; [|discriminate]. destruct (place_children _ _ _ _ _) as [[e1| |] r1] eqn:E; try discriminate.
  eapply moved_trans; [eapply place_children_moved; eauto|eapply IH; eauto].
Qed.

(** * the stages *)
Lemma f2_in_l {A B} (P : A -> B -> Prop) l l' a : Forall2 P l l' -> In a l -> exists b, In b l' /\ P a b.
Proof. induction 1; cbn; [tauto|]. intros [<-|H1]; [eauto|]. destruct (IHForall2 H1) as (b & ? & ?). eauto. Qed.
Lemma f2_in_r {A B} (P : A -> B -> Prop) l l' b : Forall2 P l l' -> In b l' -> exists a, In a l /\ P a b.
Proof. induction 1; cbn; [tauto|]. intros [<-|H1]; [eauto|]. destruct (IHForall2 H1) as (a & ? & ?). eauto. Qed.
Lemma parse_lists ls js links joints : parse_urdf ls js = Some (links, joints) -> Forall2 (fun t l => parse_link t = Some l) ls links /\ Forall2 (fun t j => parse_joint t = Some j) js joints.
Proof. unfold parse_urdf. destruct (map_opt parse_link ls) eqn:E1; [|discriminate]. destruct (map_opt parse_joint js) eqn:E2; [|discriminate]. intros H. injection H as <- <-. split; apply map_opt_f2; auto. Qed.
Lemma solid_in links l : In l (solid links) <-> In l links /\ exists g, k_collision l = Some g.
Proof. unfold solid. rewrite filter_In. destruct (k_collision l); split; intros [H1 H2]; split; auto; try discriminate; eauto. destruct H2; discriminate. Qed.
Lemma body_solid t l : parse_link t = Some l -> (is_body t <-> exists g, k_collision l = Some g).
Proof.
  intros P. split.
  - intros (s & V & T & C & H). destruct (parse_link_mesh _ _ _ _ _ _ P H) as (g & E & _). eauto.
  - intros (g & E). destruct (parse_link_geometry _ _ _ P E) as (_ & s & H). exists s, (ge_V g), (ge_T g), (xform_point (ge_origin g)). auto.
Qed.
Lemma hinges_tags js joints : Forall2 (fun t j => parse_joint t = Some j) js joints ->
  Forall2 (fun t j => parse_joint t = Some j) (filter (fun j => name_eqb (j_type j) revolute) js) (hinges joints).
Proof.
  induction 1 as [|t j js joints P F IH]; cbn; [constructor|]. fold (hinges joints). destruct (parse_joint_is _ _ P) as (_ & E & _). rewrite E. destruct (name_eqb (j_type t) revolute); [constructor|]; auto.
Qed.
Lemma hinge_children_tags js joints : Forall2 (fun t j => parse_joint t = Some j) js joints -> hinge_children js = map jt_child (hinges joints).
Proof. intros F. apply hinges_tags in F. unfold hinge_children. induction F as [|t j l l' P F IH]; cbn; auto. destruct (parse_joint_is _ _ P) as (_ & _ & _ & E & _). congruence. Qed.
Lemma hinge_tag_in js joints t : Forall2 (fun t j => parse_joint t = Some j) js joints -> In t js -> is_hinge t -> exists j, In j (hinges joints) /\ parse_joint t = Some j.
Proof. intros F H1 H2. destruct (f2_in_l _ _ _ _ F H1) as (j & Hj & P). exists j. split; auto. unfold hinges. apply filter_In. split; auto. destruct (parse_joint_is _ _ P) as (_ & E & _). rewrite E, H2. apply name_eqb_refl. Qed.
Lemma hinge_in_tag js joints j : Forall2 (fun t j => parse_joint t = Some j) js joints -> In j (hinges joints) -> exists t, In t js /\ is_hinge t /\ parse_joint t = Some j.
Proof. intros F H. unfold hinges in H. apply filter_In in H as [H1 H2]. destruct (f2_in_r _ _ _ _ F H1) as (t & Ht & P). exists t. split; auto. split; auto. unfold is_hinge. destruct (parse_joint_is _ _ P) as (_ & E & _). destruct (name_eqb_spec (jt_type j) revolute); congruence. Qed.

(** everything that is known when the traversal begins *)
Definition B_of (robot : list node) (n : name) : coordsys := match find_node robot n with Some k => n_X k | None => mkX vzero q_identity end.
Record stages (eig : mat3 -> vec3 * mat3) (ls : list link_tag) (js : list joint_tag) (e e2 : engine) (links : list link) (joints : list joint) : Prop := mkStages {
  g_ls : Forall2 (fun t l => parse_link t = Some l) ls links;
  g_js : Forall2 (fun t j => parse_joint t = Some j) js joints;
  g_nodup : NoDup (map k_name (solid links));
  g_hnames : NoDup (map jt_name (hinges joints));
  g_ends : forall j, In j (hinges joints) -> In (jt_parent j) (map k_name (solid links)) /\ In (jt_child j) (map k_name (solid links)) /\ In (jt_name j) (map h_name (e_hinges e2));
  g_engine : exists bs ss news, e2 = set_hinges (set_bodies (set_shapes e (e_shapes e ++ ss)) (e_bodies e ++ bs)) (e_hinges e ++ news) /\ map h_name news = map jt_name (hinges joints) /\
     Forall2 (loaded eig) (solid links) bs /\ (forall l, In l (solid links) -> ~ In (k_name l) (map b_name (e_bodies e))) /\ (forall j, In j (hinges joints) -> ~ In (jt_name j) (map h_name (e_hinges e))) }.
Lemma loaded_name eig l b : loaded eig l b -> b_name b = k_name l.
Proof. intros (g & i & s & t & idx & _ & _ & -> & _). reflexivity. Qed.
Lemma loaded_names eig ls bs : Forall2 (loaded eig) ls bs -> map b_name bs = map k_name ls.
Proof. induction 1; cbn; auto. f_equal; auto. eapply loaded_name; eauto. Qed.
Lemma node_names links : map n_name (map node_of links) = map k_name links.
Proof. rewrite map_map. reflexivity. Qed.
Lemma stages_make eig sd ls js e links joints e1 robot1 e2 robot2 : parse_urdf ls js = Some (links, joints) -> load_links eig sd links e [] = (Done e1, robot1) -> load_joints joints e1 robot1 = (Done e2, robot2) ->
  stages eig ls js e e2 links joints /\ robot2 = map (joined (hinges joints)) (map node_of (solid links)).
Proof.
  intros EP EL EJ. destruct (parse_lists _ _ _ _ EP) as [F1 F2]. destruct (load_links_done _ _ _ _ _ _ _ EL) as (bs & ss & E1 & R1 & LB & ND & NI). destruct (load_joints_done _ _ _ _ _ EJ) as (news & E2 & HN & R2 & NDh & HI).
  cbn [app] in R1. subst robot1 robot2. rewrite node_names in HI. split; [|auto].
  assert (HE : e_hinges e1 = e_hinges e) by (rewrite E1; reflexivity). rewrite HE in *.
  constructor; auto.
  - intros j Hj. destruct (HI j Hj) as (A & P & C). split; auto. split; auto. rewrite E2. cbn [e_hinges set_hinges]. rewrite map_app, HN, in_app_iff. right. apply in_map. auto.
  - exists bs, ss, news. split; [rewrite E2, E1; reflexivity|]. split; auto. split; auto. split; auto. intros j Hj. apply (HI j Hj).
Qed.
Lemma stages_ok eig sd fuel ls js e o : read_urdf eig sd fuel ls js e = Some (Done o) \/ read_urdf eig sd fuel ls js e = None ->
  exists links joints e2 root e3, stages eig ls js e e2 links joints /\ find_root (map (joined (hinges joints)) (map node_of (solid links))) = Some root /\
    set_frame e2 (n_name root) (n_X root) = Done e3 /\ read_urdf eig sd fuel ls js e = walk fuel [n_name root] e3 (map (joined (hinges joints)) (map node_of (solid links))).
Proof.
  unfold read_urdf. destruct (parse_urdf ls js) as [[links joints]|] eqn:EP; [|intros [?|?]; discriminate].
  destruct (load_links eig sd links e []) as [[e1| |] robot1] eqn:EL; try (intros [?|?]; discriminate).
  destruct (load_joints joints e1 robot1) as [[e2| |] robot2] eqn:EJ; try (intros [?|?]; discriminate). destruct (stages_make _ _ _ _ _ _ _ _ _ _ _ EP EL EJ) as [S ->].
  destruct (find_root _) as [root|] eqn:ER; [|intros [?|?]; discriminate]. destruct (set_frame e2 (n_name root) (n_X root)) as [e3| |] eqn:E3; try (intros [?|?]; discriminate).
  intros _. exists links, joints, e2, root, e3. auto.
Qed.
Lemma find_in_node (l : list node) b : NoDup (map n_name l) -> In b l -> find_node l (n_name b) = Some b.
Proof.
  intros ND HI. unfold find_node. induction l as [|a l IH]; cbn in *; [tauto|]. inversion ND; subst. destruct HI as [->|HI]; [rewrite name_eqb_refl; auto|].
  rewrite name_eqb_neq; auto. intros E. apply H1. rewrite E. apply in_map. auto.
Qed.

Lemma find_over {A} (p : A -> bool) l l' : find p (l ++ l') = match find p l with Some x => Some x | None => find p l' end.
Proof. induction l as [|a l IH]; cbn; auto. destruct (p a); auto. Qed.

Section Facts.
Variables (eig : mat3 -> vec3 * mat3) (ls : list link_tag) (js : list joint_tag) (e e2 : engine) (links : list link) (joints : list joint).
Hypothesis S : stages eig ls js e e2 links joints.
Let N := map k_name (solid links).
Let robot := map node_of (solid links).
Lemma node_of_body l : In l (solid links) -> find_node robot (k_name l) = Some (node_of l).
Proof. intros H. apply (find_in_node robot (node_of l)); [unfold robot; rewrite node_names; apply (g_nodup _ _ _ _ _ _ _ S)|apply in_map; auto]. Qed.
Lemma loaded_of l : In l (solid links) -> exists b, loaded eig l b /\ find_body e2 (k_name l) = Some b.
Proof.
  intros Hl. destruct (g_engine _ _ _ _ _ _ _ S) as (bs & ss & news & -> & _ & LB & NI & _). destruct (f2_in_l _ _ _ _ LB Hl) as (b & Hb & L). exists b. split; auto.
  unfold find_body. cbn [set_hinges set_bodies e_bodies]. rewrite (find_app_r b_name) by (apply NI; auto). pose proof (loaded_name _ _ _ L) as En. rewrite <- En.
  apply find_in_nodup; auto. rewrite (loaded_names _ _ _ LB). apply (g_nodup _ _ _ _ _ _ _ S).
Qed.
Lemma inertial_of l : In l (solid links) -> exists i, k_inertial l = Some i /\ n_X (node_of l) = ia_origin i /\ is_unit (xq (ia_origin i)).
Proof.
  intros Hl. destruct (loaded_of l Hl) as (b & (g & i & s & t & idx & E1 & E2 & _) & _). exists i. split; auto. split; [unfold node_of; rewrite E2; reflexivity|].
  apply solid_in in Hl as [Hl _]. destruct (f2_in_r _ _ _ _ (g_ls _ _ _ _ _ _ _ S) Hl) as (t' & _ & P). apply (parse_link_inertial _ _ _ P E2).
Qed.
Lemma B_unit n : is_unit (xq (B_of robot n)).
Proof.
  unfold B_of. destruct (find_node robot n) as [k|] eqn:F; [|unfold is_unit, qdot, q_identity; cbn; ring]. apply (find_some n_name) in F as [F _]. apply in_map_iff in F as (l & <- & Hl).
  destruct (inertial_of l Hl) as (i & _ & -> & U). exact U.
Qed.
Lemma axis_unit j a : In j (hinges joints) -> jt_axis j = Some a -> vdot a a = 1.
Proof.
  intros Hj Ha. destruct (hinge_in_tag _ _ _ (g_js _ _ _ _ _ _ _ S) Hj) as (t & _ & _ & P). destruct (parse_joint_is _ _ P) as (_ & _ & _ & _ & _ & _ & v & _ & [[_ Q]|[Nz Q]]); [congruence|].
  rewrite Q in Ha. injection Ha as <-. apply vdiv_norm_unit. auto.
Qed.
Lemma body_start n : In n N -> exists b, find_body e2 n = Some b /\ b_r b = vzero /\ b_q b = q_identity.
Proof. intros H. apply in_map_iff in H as (l & <- & Hl). destruct (loaded_of l Hl) as (b & (g & i & s & t & idx & _ & _ & -> & _) & F). eauto. Qed.
Lemma root_facts root : find_root (map (joined (hinges joints)) robot) = Some root ->
  In (n_name root) N /\ ~ In (n_name root) (map jt_child (hinges joints)) /\ n_X root = B_of robot (n_name root).
Proof.
  unfold find_root. intros H. apply List.find_some in H as [H1 H2]. apply in_rev in H1. apply in_map_iff in H1 as (k & <- & Hk). apply in_map_iff in Hk as (l & <- & Hl).
  cbn [joined n_name n_X n_parent node_of] in *. split; [apply in_map; auto|]. split.
  - apply parent_in_none. destruct (parent_in _ _ _); [discriminate|reflexivity].
  - unfold B_of. change (k_name l) with (n_name (node_of l)). rewrite find_in_node; [reflexivity|unfold robot; rewrite node_names; apply (g_nodup _ _ _ _ _ _ _ S)|apply in_map; auto].
Qed.
Lemma root_last root : find_root (map (joined (hinges joints)) robot) = Some root -> exists lr, is_root ls js lr /\ l_name lr = n_name root.
Proof.
  intros FR. destruct (root_facts root FR) as (R1 & R2 & _). apply in_map_iff in R1 as (l0 & E0 & H0).
  set (Q := fun l => match k_collision l with Some _ => match parent_in (hinges joints) (k_name l) None with None => true | _ => false end | None => false end).
  assert (LAST : forall l : list link, (exists x, In x l /\ Q x = true) -> exists a x b, l = a ++ x :: b /\ Q x = true /\ forall y, In y b -> Q y = false).
  { clear. induction l as [|y l IH]; intros (x & Hx & Qx); [destruct Hx|]. destruct (existsb Q l) eqn:E.
    - apply existsb_exists in E. destruct (IH E) as (a & z & b & -> & Qz & Hz). exists (y :: a), z, b. auto.
    - assert (A : forall z, In z l -> Q z = false). { intros z Hz. destruct (Q z) eqn:Ez; auto. rewrite <- E. symmetry. apply existsb_exists. eauto. }
      destruct Hx as [->|Hx]; [exists [], x, l; auto|]. rewrite (A x Hx) in Qx. discriminate. }
  destruct (LAST links) as (la & lx & lb & EL & Qx & Hb).
  { exists l0. apply solid_in in H0 as [H0 (g & Eg)]. split; auto. unfold Q. rewrite Eg. rewrite <- E0 in R2. apply parent_in_none in R2. rewrite R2. reflexivity. }
  assert (Ex : exists g, k_collision lx = Some g) by (unfold Q in Qx; destruct (k_collision lx); [eauto|discriminate]).
  assert (Px : parent_in (hinges joints) (k_name lx) None = None) by (unfold Q in Qx; destruct (k_collision lx); [|discriminate]; destruct (parent_in _ _ _); [discriminate|auto]).
  assert (ER : root = joined (hinges joints) (node_of lx)).
  { unfold robot, find_root in FR. rewrite EL in FR. unfold solid in FR. rewrite filter_app in FR. cbn [filter] in FR. destruct Ex as (g & Eg). rewrite Eg in FR. rewrite !map_app, rev_app_distr in FR. cbn [map rev] in FR.
    rewrite <- app_assoc in FR. rewrite find_over in FR. destruct (find _ (rev (map _ (map _ (filter _ lb))))) as [z|] eqn:Ez.
    - exfalso. apply List.find_some in Ez as [Z1 Z2]. apply in_rev in Z1. apply in_map_iff in Z1 as (k & <- & Z1). apply in_map_iff in Z1 as (l & <- & Z1). apply filter_In in Z1 as [Z1 Z3].
      pose proof (Hb l Z1) as Hq. unfold Q in Hq. cbn in Z2. destruct (k_collision l); [|discriminate]. destruct (parent_in _ _ _); discriminate.
    - cbn [app find] in FR. cbn [joined n_parent node_of n_name] in FR. rewrite Px in FR. injection FR as <-. reflexivity. }
  pose proof (g_ls _ _ _ _ _ _ _ S) as F. rewrite EL in F. apply Forall2_app_inv_r in F as (l1 & l2' & F1 & F2 & ->). inversion F2 as [|lr y l2 y' P F3]; subst l2' y y'.
  exists lr. split; [|rewrite ER; cbn; symmetry; apply parse_link_name; auto].
  exists l1, l2. split; auto. split; [apply (body_solid _ _ P); auto|]. split.
  - rewrite (hinge_children_tags _ _ (g_js _ _ _ _ _ _ _ S)), <- (parse_link_name _ _ P). apply parent_in_none. auto.
  - rewrite (hinge_children_tags _ _ (g_js _ _ _ _ _ _ _ S)). intros l Hl Bl. destruct (f2_in_l _ _ _ _ F3 Hl) as (k & Hk & Pk). destruct (proj1 (body_solid _ _ Pk) Bl) as (g & Eg). specialize (Hb k Hk). unfold Q in Hb. rewrite Eg in Hb.
    rewrite <- (parse_link_name _ _ Pk). destruct (in_dec (list_eq_dec Nat.eq_dec) (k_name k) (map jt_child (hinges joints))) as [|NI]; auto. apply parent_in_none in NI. rewrite NI in Hb. discriminate.
Qed.
Lemma static_start n k : find_node (map (joined (hinges joints)) robot) n = Some k -> n_children k = edges_of (hinges joints) n /\ n_X k = B_of robot n.
Proof.
  rewrite find_node_joined. destruct (find_node robot n) as [k0|] eqn:F; [|discriminate]. cbn. intros H. injection H as <-. unfold B_of. rewrite F. split; [|reflexivity].
  apply (find_some n_name) in F as [F <-]. apply in_map_iff in F as (l & <- & Hl). reflexivity.
Qed.
Lemma names_start : map n_name (map (joined (hinges joints)) robot) = N.
Proof. rewrite map_map. cbn. unfold robot. rewrite map_map. reflexivity. Qed.
End Facts.

Lemma urdf_walk eig ls js e e2 links joints root e3 fuel : NoDup (hinge_children js) -> stages eig ls js e e2 links joints ->
  find_root (map (joined (hinges joints)) (map node_of (solid links))) = Some root -> set_frame e2 (n_name root) (n_X root) = Done e3 ->
  let hs := hinges joints in let N := map k_name (solid links) in let B := B_of (map node_of (solid links)) in
  let r := walk fuel [n_name root] e3 (map (joined hs) (map node_of (solid links))) in
    (r = None /\ (fuel < length N)%nat) \/
    (exists e' robot' H', r = Some (Done e') /\ inv hs (n_name root) B N e2 H' e' robot' /\ (forall j, In j hs -> In (jt_parent j) (placed (n_name root) H') -> In j H')) \/
    (r = Some Nan /\ exists j, In j hs /\ jt_axis j = None).
Proof.
  intros ND S FR SF. cbv zeta. destruct (root_facts _ _ _ _ _ _ _ S _ FR) as (R1 & R2 & R3). rewrite R3 in SF.
  rewrite (hinge_children_tags _ _ (g_js _ _ _ _ _ _ _ S)) in ND.
  pose proof (start_inv (hinges joints) (n_name root) (B_of (map node_of (solid links))) (map k_name (solid links)) e2 (B_unit _ _ _ _ _ _ _ S) (conj R1 R2) (body_start _ _ _ _ _ _ _ S)
    _ e3 (names_start links joints) (static_start links joints) SF) as I.
  apply (walk_ok (hinges joints) (n_name root) (B_of (map node_of (solid links))) (map k_name (solid links)) e2 (B_unit _ _ _ _ _ _ _ S) ND (g_hnames _ _ _ _ _ _ _ S) (g_ends _ _ _ _ _ _ _ S)
    (axis_unit _ _ _ _ _ _ _ S) (conj R1 R2) fuel [n_name root] [] [] e3 _ I).
  - cbn. constructor; [tauto|constructor].
  - intros n. reflexivity.
  - intros j Hj. cbn. tauto.
Qed.
(** the traversal of a document whose revolute joints have different children *)
Lemma urdf_run eig sd fuel ls js e o : NoDup (hinge_children js) -> read_urdf eig sd fuel ls js e = Some (Done o) \/ read_urdf eig sd fuel ls js e = None ->
  exists links joints e2 root, let hs := hinges joints in let N := map k_name (solid links) in let B := B_of (map node_of (solid links)) in
    stages eig ls js e e2 links joints /\ In root N /\ ~ In root (map jt_child hs) /\ (exists lr, is_root ls js lr /\ l_name lr = root) /\
    ((read_urdf eig sd fuel ls js e = None /\ (fuel < length N)%nat) \/
     (exists e' robot' H', read_urdf eig sd fuel ls js e = Some (Done e') /\ inv hs root B N e2 H' e' robot' /\ (forall j, In j hs -> In (jt_parent j) (placed root H') -> In j H'))).
Proof.
  intros ND HR. destruct (stages_ok eig sd fuel ls js e o HR) as (links & joints & e2 & root & e3 & S & FR & SF & EW). exists links, joints, e2, (n_name root). cbv zeta.
  destruct (root_facts _ _ _ _ _ _ _ S _ FR) as (R1 & R2 & R3). split; auto. split; auto. split; auto. split; [apply (root_last _ _ _ _ _ _ _ S _ FR)|]. rewrite EW.
  destruct (urdf_walk _ _ _ _ _ _ _ _ _ fuel ND S FR SF) as [?|[?|[W _]]]; [left; auto|right; auto|]. rewrite EW, W in HR. destruct HR; discriminate.
Qed.
