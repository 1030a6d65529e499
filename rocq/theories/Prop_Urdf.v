(** C148-C150: read_urdf. *)
From Verif Require Import Base QuatModel QuatProofs VecModel VecProofs BvhModel GridModel VolModel RigidTypes SurfModel SurfSpec SurfProofs Prop_Surface MassModel MassSpec ApiModel ConSpec ApiSpec ReadyProofs ApiProofs Prop_Api
  SceneModel SceneSpec SceneMesh SceneShape SceneProofs UrdfModel UrdfSpec UrdfProofs UrdfWalk UrdfStages.
From Coq Require Import Permutation.
Open Scope R_scope.

(** * reordering by create_mesh, whatever the eigenvectors are *)
Lemma create_mesh_perm eig V T V' T' : plain V T -> create_mesh eig V T = Some (V', T') -> Permutation V V' /\ Permutation (corners V T) (corners V' T').
Proof.
  intros HP. unfold create_mesh. destruct (direction_of_most_variance eig V) as [axis|]; [|discriminate].
  destruct (Reqb_spec (vnorm axis) 0) as [|NZ]; [discriminate|].
  destruct (C38_axis_sort V (map RigidTypes.tri_list T) axis) as (V1 & T1 & ES & PV & _ & PT & _).
  { intros Z. apply NZ. rewrite Z. unfold vnorm, vdot, vzero; cbn. rewrite !Rmult_0_l, !Rplus_0_l. apply sqrt_0. }
  { intros row v Hr Hv. apply in_map_iff in Hr as ([[i j] k] & <- & Ht). destruct (HP i j k Ht) as (A & B & C). cbn in Hv.
    destruct Hv as [<-|[<-|[<-|[]]]]; rewrite py_get_plain by auto; discriminate. }
  rewrite ES. destruct (map_opt row_tri T1) as [T2|] eqn:E2; [|discriminate]. intros H. injection H as <- <-. split; [exact PV|].
  assert (ET : T1 = map RigidTypes.tri_list T2).
  { apply map_opt_f2 in E2. clear -E2. induction E2 as [|r t l l' H1 H2 IH]; cbn; auto. rewrite IH. f_equal. destruct r as [|a [|b [|c [|? ?]]]]; try discriminate. injection H1 as <-. reflexivity. }
  subst T1. exact PT.
Qed.

(** * what the traversal does not touch *)
Definition own (P Q : name -> Prop) (robot : list node) : Prop :=
  forall n k, find_node robot n = Some k -> P n /\ forall c j, In (c, j) (n_children k) -> Q (jt_name j).
Definition untouched (P Q : name -> Prop) (e e' : engine) : Prop := (forall n, ~ P n -> find_body e' n = find_body e n) /\ (forall h, ~ Q h -> find_hinge e' h = find_hinge e h).
Lemma untouched_refl P Q e : untouched P Q e e. Proof. split; auto. Qed.
Lemma untouched_trans P Q a b c : untouched P Q a b -> untouched P Q b c -> untouched P Q a c.
Proof. intros [A1 A2] [B1 B2]. split; intros; [rewrite B1, A1|rewrite B2, A2]; auto. Qed.
Lemma upd_untouched (P Q : name -> Prop) e n f : P n -> (forall b, b_name (f b) = b_name b) -> untouched P Q e (upd_body e n f).
Proof.
  intros HP Hf. destruct (upd_only e n f Hf) as (A1 & A2 & A3 & A4 & A5 & A6 & A7 & A8 & A9 & A10). split.
  - intros m Hm. assert (m <> n) by (intros ->; auto). auto.
  - reflexivity.
Qed.
Lemma set_frame_untouched (P Q : name -> Prop) e n X e' : P n -> set_frame e n X = Done e' -> untouched P Q e e'.
Proof.
  intros HP. unfold set_frame. intros H. apply andthen_done in H as (e1 & H1 & H2). apply (untouched_trans _ _ _ e1).
  - unfold set_position in H1. destruct (find_body e n); [|discriminate]. apply done_eq in H1. subst e1. apply upd_untouched; auto.
  - unfold set_orientation in H2. destruct (find_body e1 n); [|discriminate]. apply done_eq in H2. subst e'. apply upd_untouched; auto.
Qed.
Lemma set_hinge_untouched (P Q : name -> Prop) e hn pn cn o s m e' : Q hn -> set_hinge e hn pn cn o s m = Done e' -> untouched P Q e e'.
Proof.
  intros HQ. unfold set_hinge. destruct (find_hinge e hn); [|discriminate]. destruct (find_body e pn); [|discriminate]. destruct (find_body e cn); [|discriminate]. destruct (hinge_world _ _ _ _) as [[? ?]|]; [|discriminate].
  destruct (make_orthonormal_vectors _) as [[[? ?] ?]|]; [|discriminate]. destruct (q_from_matrix _); [|discriminate]. intros H. apply done_eq in H. subst e'. split; [reflexivity|].
  intros k Hk. unfold find_hinge. cbn [e_hinges set_hinges]. rewrite (find_map_named h_name) by (intros x; destruct (name_eqb (h_name x) hn); reflexivity).
  destruct (find _ (e_hinges e)) as [x|] eqn:F; [|reflexivity]. apply (find_some h_name) in F as [_ F]. cbn. rewrite F, name_eqb_neq; auto. intros ->. auto.
Qed.
Lemma own_upd P Q robot n X : own P Q robot -> own P Q (upd_node robot n (fun k => mkNode (n_name k) X (n_parent k) (n_children k))).
Proof.
  intros H m k F. rewrite upd_found in F by reflexivity. destruct (find_node robot m) as [k0|] eqn:F0; [|discriminate]. destruct (H m k0 F0) as [A B]. cbn in F. injection F as <-. split; auto.
  intros c j. destruct (name_eqb m n); cbn; apply B.
Qed.
Lemma place_children_untouched P Q : forall cs pn X e robot e' robot', own P Q robot -> (forall c j, In (c, j) cs -> Q (jt_name j)) ->
  place_children pn X cs e robot = (Done e', robot') -> untouched P Q e e' /\ own P Q robot'.
Proof.
  induction cs as [|[c j] cs IH]; cbn [place_children]; intros pn X e robot e' robot' HO HC H; [injection H as <- <-; split; [apply untouched_refl|auto]|].
  destruct (find_node robot c) as [k|] eqn:Fk; [|discriminate]. destruct (jt_axis j); [|discriminate]. destruct (andthen _ _) as [e1| |] eqn:E; try discriminate.
  apply andthen_done in E as (e2 & E1 & E2). apply IH in H as [H1 H2]; [|apply own_upd; auto|intros; eapply HC; right; eauto]. split; auto.
  eapply untouched_trans; [eapply set_frame_untouched; [|exact E1]; apply (HO c k Fk)|]. eapply untouched_trans; [eapply set_hinge_untouched; [|exact E2]; eapply HC; left; reflexivity|]. exact H1.
Qed.
Lemma walk_untouched P Q : forall fuel st e robot e', own P Q robot -> walk fuel st e robot = Some (Done e') -> untouched P Q e e'.
Proof.
  induction fuel as [|f IH]; intros [|n st] e robot e' HO H; cbn [walk] in H; try (injection H as <-; apply untouched_refl); try discriminate.
  destruct (find_node robot n) as [k|] eqn:Fk; [|discriminate]. destruct (place_children _ _ _ _ _) as [[e1| |] r1] eqn:E; try discriminate.
  apply (place_children_untouched P Q) in E as [H1 H2]; auto; [|apply (HO n k Fk)]. eapply untouched_trans; [exact H1|eapply IH; eauto].
Qed.

(** what is known after a run that ends *)
Lemma urdf_done eig sd fuel ls js e e' : read_urdf eig sd fuel ls js e = Some (Done e') ->
  exists links joints e2, stages eig ls js e e2 links joints /\ moved e2 e' /\ (exists lr, is_root ls js lr) /\
    untouched (fun n => In n (map k_name (solid links))) (fun h => In h (map jt_name (hinges joints))) e2 e'.
Proof.
  intros H. destruct (stages_ok eig sd fuel ls js e e' (or_introl H)) as (links & joints & e2 & root & e3 & S & FR & SF & EW). exists links, joints, e2. split; auto.
  rewrite EW in H. split; [eapply moved_trans; [eapply set_frame_moved|eapply walk_moved]; eauto|]. split; [destruct (root_last _ _ _ _ _ _ _ S _ FR) as (lr & R & _); eauto|].
  eapply untouched_trans; [eapply set_frame_untouched; [|exact SF]; apply (root_facts _ _ _ _ _ _ _ S _ FR)|]. eapply walk_untouched; [|exact H].
  intros n k F. destruct (static_start _ _ _ _ F) as [EC _]. split.
  - rewrite <- (names_start links joints). apply find_node_in. congruence.
  - intros c j Hc. rewrite EC in Hc. unfold edges_of in Hc. apply in_map_iff in Hc as (j' & E & Hc). injection E as <- <-. apply filter_In in Hc as [Hc _]. apply in_map. auto.
Qed.
Lemma or_zero_given o : given o (or_zero o). Proof. destruct o; reflexivity. Qed.
Lemma body_of_tag eig ls js e e2 links joints l : stages eig ls js e e2 links joints -> In l ls -> is_body l -> exists k, In k (solid links) /\ parse_link l = Some k /\ k_name k = l_name l.
Proof.
  intros S Hl Bl. destruct (f2_in_l _ _ _ _ (g_ls _ _ _ _ _ _ _ S) Hl) as (k & Hk & P). exists k. split; [apply solid_in; split; auto; apply (body_solid _ _ P); auto|]. split; auto. apply parse_link_name. auto.
Qed.
Lemma tag_of_body eig ls js e e2 links joints k : stages eig ls js e e2 links joints -> In k (solid links) -> exists l, In l ls /\ is_body l /\ parse_link l = Some k /\ k_name k = l_name l.
Proof.
  intros S Hk. apply solid_in in Hk as [Hk G]. destruct (f2_in_r _ _ _ _ (g_ls _ _ _ _ _ _ _ S) Hk) as (l & Hl & P). exists l. split; auto. split; [apply (body_solid _ _ P); auto|]. split; auto. apply parse_link_name. auto.
Qed.

(** ** C148 every link with a readable collision mesh becomes a body: mass and moments as written, shape = the collision mesh seen from the inertial frame *)
Theorem C148_bodies : forall eig sd fuel ls js e e', read_urdf eig sd fuel ls js e = Some (Done e') ->
  forall l s V T C, In l ls -> has_mesh l s V T C -> plain V T ->
  exists i B b sh, l_inertial l = Some i /\ origin_is (in_origin i) B /\ find_body e' (l_name l) = Some b /\ b_shape b = Some sh /\
    given (in_mass i) (b_mass b) /\ given (in_xx i) (vx (b_inertia b)) /\ given (in_yy i) (vy (b_inertia b)) /\ given (in_zz i) (vz (b_inertia b)) /\
    b_v b = vzero /\ b_w b = vzero /\ b_fixed b = false /\ b_forces b = [] /\ b_material b = default_name /\
    Permutation (map C V) (map B (sh_V sh)) /\ Permutation (corners (map C V) T) (corners (map B (sh_V sh)) (sh_T sh)).
Proof.
  intros eig sd fuel ls js e e' H l s V T C Hl HM HP. destruct (urdf_done _ _ _ _ _ _ _ H) as (links & joints & e2 & S & M & _ & _).
  destruct (body_of_tag _ _ _ _ _ _ _ _ S Hl) as (k & Hk & P & EN); [exists s, V, T, C; auto|].
  destruct (loaded_of _ _ _ _ _ _ _ S k Hk) as (b0 & (g & i & sh & t & idx & E1 & E2 & -> & EM) & F). rewrite EN in F.
  destruct M as (_ & _ & M & _). destruct (M _ _ F) as (r & q & F').
  destruct (parse_link_mesh _ _ _ _ _ _ P HM) as (g' & E1' & EV & ET & EC). rewrite E1 in E1'. injection E1' as <-.
  destruct (parse_link_inertial _ _ _ P E2) as (U & _ & it & Ei & A1 & A2 & A3 & A4).
  destruct (parse_link_geometry _ _ _ P E1) as [UG _].
  assert (O : origin_is (in_origin it) (xform_point (ia_origin i))). { destruct (parse_link_inertial _ _ _ P E2) as (_ & (it' & Ei' & O) & _). rewrite Ei in Ei'. injection Ei' as <-. exact O. }
  exists it, (xform_point (ia_origin i)), (with_pose (loaded_body (l_name l) idx i sh t) r q), sh. split; auto. split; auto. split; auto. split; [reflexivity|].
  cbn [with_pose loaded_body b_mass b_inertia b_v b_w b_fixed b_forces b_material vx vy vz]. rewrite A1, A2, A3, A4. do 4 (split; [apply or_zero_given|]). do 5 (split; [reflexivity|]).
  rewrite EV, ET in EM. apply create_mesh_perm in EM as [PV PC].
  2:{ intros a b c Hi. rewrite map_length. apply HP. auto. }
  assert (EQ : map C V = map (xform_point (ia_origin i)) (map (xform_point (x_from_to (ge_origin g) (ia_origin i))) V)).
  { rewrite map_map. apply map_ext. intros p. rewrite xform_from_to by auto. symmetry. apply EC. }
  rewrite EQ. split; [apply Permutation_map; exact PV|]. rewrite !(corners_map (xform_point (ia_origin i))). apply Permutation_map. exact PC.
Qed.
Print Assumptions C148_bodies.

(** nothing else is a new body or hinge, and what was in the engine before stays as it was *)
Theorem C148_others : forall eig sd fuel ls js e e', read_urdf eig sd fuel ls js e = Some (Done e') ->
  (exists new, map b_name (e_bodies e') = map b_name (e_bodies e) ++ new /\ NoDup new /\ (forall n, In n new <-> exists l, In l ls /\ is_body l /\ l_name l = n) /\ (forall n, In n new -> ~ In n (map b_name (e_bodies e)))) /\
  (forall n b, find_body e n = Some b -> find_body e' n = Some b) /\
  (exists new, map h_name (e_hinges e') = map h_name (e_hinges e) ++ new /\ NoDup new /\ (forall n, In n new <-> exists j, In j js /\ is_hinge j /\ j_name j = n) /\ (forall n, In n new -> ~ In n (map h_name (e_hinges e)))) /\
  (forall n h, find_hinge e n = Some h -> find_hinge e' n = Some h) /\
  e_forces e' = e_forces e /\ e_lib e' = e_lib e /\ e_params e' = e_params e /\ e_contacts e' = e_contacts e.
Proof.
  intros eig sd fuel ls js e e' H. destruct (urdf_done _ _ _ _ _ _ _ H) as (links & joints & e2 & S & M & _ & U1 & U2).
  destruct (g_engine _ _ _ _ _ _ _ S) as (bs & ss & news & E2 & HN & LB & NI & NJ). pose proof (loaded_names _ _ _ LB) as EB.
  destruct M as (M1 & M2 & M3 & M4 & M5 & M6 & M7 & M8 & M9 & M10).
  split; [|split; [|split; [|split]]].
  - exists (map k_name (solid links)). split; [rewrite M1, E2; cbn [set_hinges set_bodies e_bodies]; rewrite map_app, EB; reflexivity|]. split; [apply (g_nodup _ _ _ _ _ _ _ S)|]. split.
    + intros n. split.
      * intros Hn. apply in_map_iff in Hn as (k & <- & Hk). destruct (tag_of_body _ _ _ _ _ _ _ _ S Hk) as (l & ? & ? & _ & ?). eauto.
      * intros (l & Hl & Bl & <-). destruct (body_of_tag _ _ _ _ _ _ _ _ S Hl Bl) as (k & Hk & _ & <-). apply in_map. auto.
    + intros n Hn. apply in_map_iff in Hn as (k & <- & Hk). auto.
  - intros n b F. rewrite U1.
    + rewrite E2. unfold find_body. cbn [set_hinges set_bodies e_bodies]. rewrite find_over. unfold find_body in F. rewrite F. reflexivity.
    + intros Hn. apply in_map_iff in Hn as (k & <- & Hk). apply (NI k Hk). apply (find_some b_name) in F as [F <-]. apply in_map. auto.
  - exists (map jt_name (hinges joints)). split; [rewrite M4, E2; cbn [set_hinges e_hinges]; rewrite map_app, HN; reflexivity|]. split; [apply (g_hnames _ _ _ _ _ _ _ S)|]. split.
    + intros n. split.
      * intros Hn. apply in_map_iff in Hn as (j & <- & Hj). destruct (hinge_in_tag _ _ _ (g_js _ _ _ _ _ _ _ S) Hj) as (t & Ht & Hh & P). exists t. split; auto. split; auto. symmetry. apply (parse_joint_is _ _ P).
      * intros (t & Ht & Hh & <-). destruct (hinge_tag_in _ _ _ (g_js _ _ _ _ _ _ _ S) Ht Hh) as (j & Hj & P). rewrite <- (proj1 (parse_joint_is _ _ P)). apply in_map. auto.
    + intros n Hn. apply in_map_iff in Hn as (j & <- & Hj). auto.
  - intros n h F. rewrite U2.
    + rewrite E2. unfold find_hinge. cbn [set_hinges e_hinges]. rewrite find_over. unfold find_hinge in F. rewrite F. reflexivity.
    + intros Hn. apply in_map_iff in Hn as (j & <- & Hj). apply (NJ j Hj). apply (find_some h_name) in F as [F <-]. apply in_map. auto.
  - rewrite M5, M7, M8, M9, E2. repeat split.
Qed.
Print Assumptions C148_others.

(** the claims "the scale attribute scales the mesh" and "the products of inertia are used" are false: the reader makes no difference *)
Definition alike (l l' : link) : Prop :=
  k_name l = k_name l' /\
  match k_collision l, k_collision l' with Some g, Some g' => ge_origin g = ge_origin g' /\ ge_V g = ge_V g' /\ ge_T g = ge_T g' | None, None => True | _, _ => False end /\
  match k_inertial l, k_inertial l' with Some i, Some i' => ia_origin i = ia_origin i' /\ ia_mass i = ia_mass i' /\ ia_xx i = ia_xx i' /\ ia_yy i = ia_yy i' /\ ia_zz i = ia_zz i' | None, None => True | _, _ => False end.
Lemma drop_parse l : match parse_link l, parse_link (drop_link l) with Some k, Some k' => alike k' k | None, None => True | _, _ => False end.
Proof.
  destruct l as [n oc oi]. unfold parse_link, drop_link, alike. cbn [l_name l_collision l_inertial].
  assert (G : match parse_geometry oc, parse_geometry (option_map (fun g => mkGeometry (g_origin g) (option_map (map drop_shape) (g_shapes g))) oc) with
     | Some o, Some o' => match o', o with Some g, Some g' => ge_origin g = ge_origin g' /\ ge_V g = ge_V g' /\ ge_T g = ge_T g' | None, None => True | _, _ => False end
     | None, None => True | _, _ => False end).
  { destruct oc as [[go [[|[|sup sc V T] r]|]]|]; cbn; auto. destruct (convert_origin go); auto. destruct sup; cbn; auto. }
  assert (I : match parse_inertial oi, parse_inertial (option_map (fun i => mkInertial (in_origin i) (in_mass i) (in_xx i) (in_yy i) (in_zz i) None None None) oi) with
     | Some o, Some o' => match o', o with Some i, Some i' => ia_origin i = ia_origin i' /\ ia_mass i = ia_mass i' /\ ia_xx i = ia_xx i' /\ ia_yy i = ia_yy i' /\ ia_zz i = ia_zz i' | None, None => True | _, _ => False end
     | None, None => True | _, _ => False end).
  { destruct oi as [io|]; cbn; auto. destruct (convert_origin (in_origin io)); cbn; auto. }
  destruct (parse_geometry oc) as [og|], (parse_geometry (option_map _ oc)) as [og'|]; try tauto; destruct (parse_inertial oi) as [oi1|], (parse_inertial (option_map _ oi)) as [oi2|]; cbn [k_name k_collision k_inertial]; tauto.
Qed.
Lemma load_alike eig sd : forall l l', Forall2 alike l l' -> forall e robot, load_links eig sd l e robot = load_links eig sd l' e robot.
Proof.
  induction 1 as [|x y l l' (E1 & E2 & E3) F IH]; intros e robot; [reflexivity|]. cbn [load_links].
  destruct (k_collision x) as [g|], (k_collision y) as [g'|]; try tauto; [|apply IH].
  destruct (k_inertial x) as [i|], (k_inertial y) as [i'|]; try tauto. destruct E2 as (A1 & A2 & A3). destruct E3 as (B1 & B2 & B3 & B4 & B5).
  assert (EB : load_body eig sd (k_name x) g i e = load_body eig sd (k_name y) g' i' e). { unfold load_body. rewrite A1, A2, A3, B1, B2, B3, B4, B5, E1. reflexivity. }
  rewrite EB, B1, E1. destruct (load_body eig sd (k_name y) g' i' e); auto.
Qed.
Lemma map_opt_rel {A B} (f : A -> option B) (R : B -> B -> Prop) (d : A -> A) : (forall a, match f a, f (d a) with Some b, Some b' => R b' b | None, None => True | _, _ => False end) ->
  forall l, match map_opt f l, map_opt f (map d l) with Some bs, Some bs' => Forall2 R bs' bs | None, None => True | _, _ => False end.
Proof.
  intros H. induction l as [|a l IH]; cbn; [constructor|]. specialize (H a). destruct (f a) as [b|], (f (d a)) as [b'|]; try tauto.
  destruct (map_opt f l), (map_opt f (map d l)); try tauto. constructor; auto.
Qed.
Theorem C148_scale_and_products_refuted : forall eig sd fuel ls js e, read_urdf eig sd fuel (map drop_link ls) js e = read_urdf eig sd fuel ls js e.
Proof.
  intros. unfold read_urdf, parse_urdf. pose proof (map_opt_rel parse_link alike drop_link drop_parse ls) as R.
  destruct (map_opt parse_link ls) as [l1|], (map_opt parse_link (map drop_link ls)) as [l2|]; try tauto. destruct (map_opt parse_joint js) as [jl|]; [|reflexivity].
  rewrite (load_alike eig sd _ _ R). reflexivity.
Qed.
Print Assumptions C148_scale_and_products_refuted.

(** * the assembled robot *)
Lemma root_unique ls js l l' : is_root ls js l -> is_root ls js l' -> l = l'.
Proof.
  intros (a & b & E & B1 & N1 & H1) (a' & b' & E' & B2 & N2 & H2). rewrite E in E'. clear E ls. revert a' E'.
  induction a as [|x a IH]; intros [|y a'] E; cbn in E; injection E as E1 E2; subst; auto.
  - exfalso. apply N2. apply H1; auto. apply in_elt.
  - exfalso. apply N1. apply H2; auto. apply in_elt.
  - eapply IH; eauto.
Qed.
Lemma root_in ls js lr : is_root ls js lr -> In lr ls /\ is_body lr.
Proof. intros (a & b & -> & B1 & _). split; auto. apply in_elt. Qed.
Lemma inertial_tag eig ls js e e2 links joints l B : stages eig ls js e e2 links joints -> In l ls -> is_body l -> inertial_is l B ->
  In (l_name l) (map k_name (solid links)) /\ forall p, xform_point (B_of (map node_of (solid links)) (l_name l)) p = B p.
Proof.
  intros S Hl Bl HB. destruct (body_of_tag _ _ _ _ _ _ _ _ S Hl Bl) as (k & Hk & P & <-). split; [apply in_map; auto|].
  unfold B_of. rewrite (node_of_body _ _ _ _ _ _ _ S k Hk). destruct (inertial_of _ _ _ _ _ _ _ S k Hk) as (i & Ei & -> & U).
  destruct (parse_link_inertial _ _ _ P Ei) as (_ & HB' & _). apply (inertial_fun _ _ _ HB' HB).
Qed.
Section Frames.
Variables (eig : mat3 -> vec3 * mat3) (ls : list link_tag) (js : list joint_tag) (e e2 : engine) (links : list link) (joints : list joint).
Hypothesis S : stages eig ls js e e2 links joints.
Let B := B_of (map node_of (solid links)).
Lemma frame_lf root n F : link_frame js root n F -> exists X, lf (hinges joints) root B n X /\ forall p, xform_point X p = xform_point (B root) (F p).
Proof.
  induction 1 as [F HF|j F O G Hj Hh HF IH HO HG].
  - exists (B root). split; [constructor|]. intros p. rewrite HF. reflexivity.
  - destruct IH as (X & HX & EX). destruct (hinge_tag_in _ _ _ (g_js _ _ _ _ _ _ _ S) Hj Hh) as (k & Hk & P). destruct (parse_joint_is _ _ P) as (_ & _ & Ep & Ec & U & HO' & _).
    exists (x_concat X (jt_X k)). split; [rewrite <- Ec; constructor; auto; rewrite Ep; auto|]. intros p.
    assert (UX : is_unit (xq X)) by (apply (lf_unit (hinges joints) root B (B_unit _ _ _ _ _ _ _ S) _ _ HX)). rewrite xform_concat by auto. rewrite EX, HG. do 2 apply f_equal. apply (origin_fun _ _ _ HO' HO).
Qed.
Lemma lf_frame root n X : lf (hinges joints) root B n X -> exists F, link_frame js root n F /\ forall p, xform_point X p = xform_point (B root) (F p).
Proof.
  induction 1 as [|j X Hj HX IH].
  - exists (fun p => p). split; [constructor|]; reflexivity.
  - destruct IH as (F & HF & EF). destruct (hinge_in_tag _ _ _ (g_js _ _ _ _ _ _ _ S) Hj) as (t & Ht & Hh & P). destruct (parse_joint_is _ _ P) as (_ & _ & Ep & Ec & U & HO & _).
    exists (fun p => F (xform_point (jt_X j) p)). split; [rewrite Ec; apply (frame_child _ _ t F (xform_point (jt_X j))); auto; rewrite <- Ep; auto|].
    intros p. assert (UX : is_unit (xq X)) by (apply (lf_unit (hinges joints) root B (B_unit _ _ _ _ _ _ _ S) _ _ HX)). rewrite xform_concat by auto. apply EF.
Qed.
End Frames.
Lemma urdf_placed eig sd fuel ls js e e' lr : NoDup (hinge_children js) -> read_urdf eig sd fuel ls js e = Some (Done e') -> is_root ls js lr ->
  exists links joints e2 robot' H', let hs := hinges joints in let root := l_name lr in let B := B_of (map node_of (solid links)) in
    stages eig ls js e e2 links joints /\ inv hs root B (map k_name (solid links)) e2 H' e' robot' /\ (forall n X, lf hs root B n X -> In n (placed root H')) /\
    (forall j, In j hs -> In (jt_parent j) (placed root H') -> In j H') /\ NoDup (map jt_child hs) /\ ~ In root (map jt_child hs).
Proof.
  intros ND H HR. destruct (urdf_run eig sd fuel ls js e e' ND (or_introl H)) as (links & joints & e2 & root & S & R1 & R2 & (lr' & HR' & ER) & [[E _]|(e1 & robot' & H' & E & I & C)]); [congruence|].
  rewrite H in E. injection E as <-. rewrite (root_unique _ _ _ _ HR' HR) in ER. subst root. exists links, joints, e2, robot', H'. cbv zeta. split; auto. split; auto.
  split; [intros n X HX; eapply closed_lf; eauto|]. split; auto. split; auto. rewrite <- (hinge_children_tags _ _ (g_js _ _ _ _ _ _ _ S)). auto.
Qed.
Lemma placed_xform e n b X (M : motion) : find_body e n = Some (with_pose b (xr X) (xq X)) -> is_unit (xq X) -> (forall p, xform_point X p = M p) -> placed_by e n M.
Proof. intros F U E. exists (with_pose b (xr X) (xq X)). split; auto. Qed.

(** ** C149 where the links are after reading (every link is the child of one revolute joint at most) *)
Theorem C149_assembly : forall eig sd fuel ls js e e', NoDup (hinge_children js) -> read_urdf eig sd fuel ls js e = Some (Done e') ->
  exists lr Br, is_root ls js lr /\ inertial_is lr Br /\ placed_by e' (l_name lr) Br /\
  (forall l B F, In l ls -> is_body l -> l_name l <> l_name lr -> inertial_is l B -> link_frame js (l_name lr) (l_name l) F ->
     placed_by e' (l_name l) (fun p => Br (F (B p)))) /\
  (forall l, In l ls -> is_body l -> (forall F, ~ link_frame js (l_name lr) (l_name l) F) -> placed_by e' (l_name l) (fun p => p)).
Proof.
  intros eig sd fuel ls js e e' ND H. destruct (urdf_done _ _ _ _ _ _ _ H) as (_ & _ & _ & _ & _ & (lr & HR) & _).
  destruct (urdf_placed _ _ _ _ _ _ _ _ ND H HR) as (links & joints & e2 & robot' & H' & S & I & CL & _ & NC & NR). set (B := B_of (map node_of (solid links))) in *.
  destruct (root_in _ _ _ HR) as [Rin Rb]. destruct (body_of_tag _ _ _ _ _ _ _ _ S Rin Rb) as (kr & Hkr & Pr & Er). destruct (inertial_of _ _ _ _ _ _ _ S kr Hkr) as (ir & Eir & _ & _).
  destruct (parse_link_inertial _ _ _ Pr Eir) as (_ & HBr & _). destruct (inertial_tag _ _ _ _ _ _ _ _ _ S Rin Rb HBr) as [RN EBr]. fold B in EBr.
  exists lr, (xform_point (ia_origin ir)). split; auto. split; auto. pose proof (B_unit _ _ _ _ _ _ _ S) as HU. fold B in HU. split; [|split].
  - destruct (i_body _ _ _ _ _ _ _ _ I _ RN) as (b & X & _ & F & H1 & _). destruct H1 as (Y & _ & ->); [left; reflexivity|]. unfold pose in F. rewrite name_eqb_refl in F. eapply placed_xform; eauto.
  - intros l Bl F Hl Hb Hn HB HF. destruct (frame_lf _ _ _ _ _ _ _ S _ _ _ HF) as (X & HX & EX). fold B in HX, EX. destruct (inertial_tag _ _ _ _ _ _ _ _ _ S Hl Hb HB) as [LN EB]. fold B in EB.
    destruct (i_body _ _ _ _ _ _ _ _ I _ LN) as (b & X' & _ & F' & H1 & _). destruct H1 as (Y & HY & ->); [eapply CL; eauto|]. unfold pose in F'. rewrite name_eqb_neq in F' by auto.
    assert (Y = X) by (eapply lf_fun with (hs := hinges joints) (N := map k_name (solid links)); eauto). subst Y. assert (UX : is_unit (xq X)) by (eapply lf_unit; eauto).
    eapply placed_xform; eauto; [apply q_unit_is_unit|]. intros p. rewrite xform_concat by auto. rewrite EX, EBr, EB. reflexivity.
  - intros l Hl Hb Hn. destruct (body_of_tag _ _ _ _ _ _ _ _ S Hl Hb) as (k & Hk & _ & Ek). destruct (i_body _ _ _ _ _ _ _ _ I (l_name l)) as (b & X & _ & F & _ & H2); [rewrite <- Ek; apply in_map; auto|].
    assert (EX : X = mkX vzero q_identity). { apply H2. intros HP. destruct (placed_lf _ _ _ _ _ (g_ends _ _ _ _ _ _ _ S) (conj RN NR) _ _ _ _ I HP) as (Y & HY). destruct (lf_frame _ _ _ _ _ _ _ S _ _ _ HY) as (G & HG & _). apply (Hn G HG). }
    rewrite EX in F. apply (placed_xform _ _ _ (mkX vzero q_identity) (fun p => p) F); [|intros p; apply xform_id]. unfold is_unit, qdot, q_identity; cbn; ring.
Qed.
Print Assumptions C149_assembly.

(** * motions *)
Lemma origin_onto o f : origin_is o f -> forall y, exists x, f x = y.
Proof.
  intros H y. assert (C : exists X, convert_origin o = Some X).
  { destruct o as [t|]; cbn in H.
    - destruct H as (rpy & xyz & H1 & H2 & _). apply three_numbers in H1, H2. unfold convert_origin, convert_frame. rewrite H1, H2. eauto.
    - unfold convert_origin, convert_frame. cbn. eauto. }
  destruct C as (X & E). apply convert_origin_is in E as [U HX]. exists (xform_point (x_inverse X) y). rewrite (origin_fun _ _ _ H HX). apply xform_inverse_r. auto.
Qed.
Lemma inertial_onto l f : inertial_is l f -> forall y, exists x, f x = y.
Proof. intros (i & _ & H). apply (origin_onto _ _ H). Qed.
Lemma frame_onto js root n F : link_frame js root n F -> forall y, exists x, F x = y.
Proof.
  induction 1 as [F HF|j F O G Hj Hh HF IH HO HG]; intros y; [exists y; auto|]. destruct (IH y) as (x & <-). destruct (origin_onto _ _ HO x) as (z & <-). exists z. auto.
Qed.
Lemma frame_of_root js root F : ~ In root (hinge_children js) -> link_frame js root root F -> forall p, F p = p.
Proof.
  intros N H. remember root as n in H at 2. destruct H as [F HF|j F O G Hj Hh HF HO HG]; auto. exfalso. apply N. rewrite <- Heqn. unfold hinge_children. apply in_map, filter_In. split; auto. rewrite Hh. apply name_eqb_refl.
Qed.
Lemma placed_fun e n M M' : placed_by e n M -> placed_by e n M' -> forall p, M p = M' p.
Proof. intros (b & F & _ & H) (b' & F' & _ & H') p. rewrite F in F'. injection F' as <-. rewrite <- H, <- H'. reflexivity. Qed.
Lemma placed_ext e n (M M' : motion) : (forall p, M p = M' p) -> placed_by e n M -> placed_by e n M'.
Proof. intros E (b & F & U & H). exists b. split; auto. split; auto. intros p. rewrite <- E. auto. Qed.

(** the links are at the places the document describes (up to one common motion) exactly if the root's inertial frame is the root's link frame *)
Theorem C149_correct_iff : forall eig sd fuel ls js e e' lr Br, NoDup (hinge_children js) -> read_urdf eig sd fuel ls js e = Some (Done e') ->
  is_root ls js lr -> inertial_is lr Br -> (exists l F, In l ls /\ is_body l /\ l_name l <> l_name lr /\ link_frame js (l_name lr) (l_name l) F) ->
  ((exists W : motion, forall l B F, In l ls -> is_body l -> inertial_is l B -> link_frame js (l_name lr) (l_name l) F -> placed_by e' (l_name l) (fun p => W (F (B p))))
   <-> forall p, Br p = p).
Proof.
  intros eig sd fuel ls js e e' lr Br ND H HR HB (l & F & Hl & Hb & Hn & HF). destruct (C149_assembly _ _ _ _ _ _ _ ND H) as (lr' & Br' & HR' & HB' & PR & PC & _).
  rewrite (root_unique _ _ _ _ HR' HR) in *. clear lr' HR'. pose proof (inertial_fun _ _ _ HB' HB) as EB. destruct (root_in _ _ _ HR) as [Rin Rb].
  assert (NR : ~ In (l_name lr) (hinge_children js)) by (destruct HR as (? & ? & _ & _ & ? & _); auto).
  assert (HI : exists B, inertial_is l B).
  { destruct (urdf_done _ _ _ _ _ _ _ H) as (links & joints & e2 & S & _). destruct (body_of_tag _ _ _ _ _ _ _ _ S Hl Hb) as (k & Hk & P & _). destruct (inertial_of _ _ _ _ _ _ _ S k Hk) as (i & Ei & _). exists (xform_point (ia_origin i)). apply (parse_link_inertial _ _ _ P Ei). }
  destruct HI as (B & HBl). split.
  - intros (W & HW).
    assert (W1 : forall p, W p = p).
    { intros p. destruct (inertial_onto _ _ HB p) as (x & <-). pose proof (HW lr Br (fun p => p) Rin Rb HB (frame_root _ _ _ (fun p => eq_refl))) as P1. rewrite <- (placed_fun _ _ _ _ PR P1 x). apply EB. }
    intros p. destruct (frame_onto _ _ _ _ HF p) as (x & <-). destruct (inertial_onto _ _ HBl x) as (y & <-).
    pose proof (placed_fun _ _ _ _ (HW l B F Hl Hb HBl HF) (PC l B F Hl Hb Hn HBl HF) y) as Q. cbv beta in Q. rewrite W1, EB in Q. symmetry. exact Q.
  - intros HId. exists (fun p => p). intros l0 B0 F0 H1 H2 H3 H4. destruct (list_eq_dec Nat.eq_dec (l_name l0) (l_name lr)) as [E|E].
    + rewrite E in *. assert (EB0 : forall p, B0 p = p).
      { destruct (urdf_done _ _ _ _ _ _ _ H) as (links & joints & e2 & S & _). intros p. rewrite <- (proj2 (inertial_tag _ _ _ _ _ _ _ _ _ S H1 H2 H3) p), E, (proj2 (inertial_tag _ _ _ _ _ _ _ _ _ S Rin Rb HB) p). apply HId. }
      apply (placed_ext _ _ Br'); auto. intros p. rewrite EB, HId, (frame_of_root _ _ _ NR H4), EB0. reflexivity.
    + apply (placed_ext _ _ (fun p => Br' (F0 (B0 p)))); [|apply PC; auto]. intros p. rewrite EB. apply HId.
Qed.
Print Assumptions C149_correct_iff.

(** reading ends: as many rounds as there are links are enough *)
Theorem C149_terminates : forall eig sd fuel ls js e, NoDup (hinge_children js) -> (length ls <= fuel)%nat -> read_urdf eig sd fuel ls js e <> None.
Proof.
  intros eig sd fuel ls js e ND L H. destruct (urdf_run eig sd fuel ls js e e ND (or_intror H)) as (links & joints & e2 & root & S & _ & _ & _ & [[_ E]|(e1 & r & H' & E & _)]); [|congruence].
  rewrite map_length in E. pose proof (g_ls _ _ _ _ _ _ _ S) as F.
  assert (L1 : (length (solid links) <= length links)%nat). { unfold solid. clear. induction links as [|a l IH]; cbn; auto. destruct (k_collision a); cbn; lia. }
  assert (L2 : length ls = length links). { clear -F. induction F; cbn; auto. } lia.
Qed.
Print Assumptions C149_terminates.

(** the claim "every well-formed document is read" fails: when the joints form a loop that the root leads into, reading never succeeds *)
Lemma place_children_links : forall cs pn X e robot e' r1, place_children pn X cs e robot = (Done e', r1) -> forall m, option_map n_children (find_node r1 m) = option_map n_children (find_node robot m).
Proof.
  induction cs as [|[c j] cs IHc]; cbn [place_children]; intros pn X e robot e' r1 E m; [injection E as _ <-; reflexivity|].
  destruct (find_node robot c) as [kc|]; [|discriminate]. destruct (jt_axis j); [|discriminate]. destruct (andthen _ _) as [e2| |]; try discriminate. rewrite (IHc _ _ _ _ _ _ E).
  rewrite upd_found by reflexivity. destruct (find_node robot m); auto. cbn. destruct (name_eqb m c); reflexivity.
Qed.
Lemma walk_loop robot0 (f : nat -> name) : (forall k, exists j, In (f (S k), j) (match find_node robot0 (f k) with Some x => n_children x | None => [] end)) ->
  forall fuel st e robot e' k, (forall n, option_map n_children (find_node robot n) = option_map n_children (find_node robot0 n)) -> In (f k) st -> walk fuel st e robot <> Some (Done e').
Proof.
  intros HF. induction fuel as [|fu IH]; intros [|n st] e robot e' k HS Hk; try destruct Hk; cbn [walk]; try discriminate; destruct (find_node robot n) as [x|] eqn:Fx; try discriminate;
  destruct (place_children n (n_X x) (n_children x) e robot) as [[e1| |] r1] eqn:E; try discriminate.
  all: assert (HS1 : forall n, option_map n_children (find_node r1 n) = option_map n_children (find_node robot0 n)) by (intros m; rewrite <- HS; apply (place_children_links _ _ _ _ _ _ _ E)).
  - subst n. destruct (HF k) as (j & Hj). pose proof (HS (f k)) as Q. rewrite Fx in Q. destruct (find_node robot0 (f k)) as [y|]; [|discriminate]. cbn in Q. injection Q as Q. rewrite <- Q in Hj.
    apply (IH _ _ _ _ (S k)); auto. apply in_app_iff. left. apply in_rev. rewrite rev_involutive. apply in_map_iff. exists (f (S k), j). auto.
  - apply (IH _ _ _ _ k); auto. apply in_app_iff. right. auto.
Qed.
Theorem C149_loop_refuted : forall eig sd ls js e lr (f : nat -> name), is_root ls js lr -> f O = l_name lr ->
  (forall k, exists j, In j js /\ is_hinge j /\ j_parent j = f k /\ j_child j = f (S k)) ->
  forall fuel e', read_urdf eig sd fuel ls js e <> Some (Done e').
Proof.
  intros eig sd ls js e lr f HR H0 HF fuel e' H. destruct (stages_ok eig sd fuel ls js e e' (or_introl H)) as (links & joints & e2 & root & e3 & St & FR & SF & EW).
  destruct (root_last _ _ _ _ _ _ _ St _ FR) as (lr' & HR' & ER). rewrite (root_unique _ _ _ _ HR' HR) in ER. rewrite EW in H. revert H.
  eapply (walk_loop (map (joined (hinges joints)) (map node_of (solid links))) f) with (k := O); [|reflexivity|left; congruence].
  intros k. destruct (HF k) as (t & Ht & Hh & Ep & Ec). destruct (hinge_tag_in _ _ _ (g_js _ _ _ _ _ _ _ St) Ht Hh) as (j & Hj & P). destruct (parse_joint_is _ _ P) as (_ & _ & Ep' & Ec' & _). exists j.
  destruct (g_ends _ _ _ _ _ _ _ St j Hj) as (E1 & _). rewrite Ep', Ep in E1.
  destruct (find_node (map (joined (hinges joints)) (map node_of (solid links))) (f k)) as [x|] eqn:Fx.
  - destruct (static_start _ _ _ _ Fx) as [-> _]. unfold edges_of. apply in_map_iff. exists j. split; [congruence|]. apply filter_In. split; auto. rewrite Ep', Ep. apply name_eqb_refl.
  - exfalso. revert Fx. apply find_node_in. rewrite names_start. exact E1.
Qed.
Print Assumptions C149_loop_refuted.

(** ** C150 the hinges *)
Lemma rotate_zero q : q_rotate q vzero = vzero.
Proof. rewrite q_rotate_formula. cbn [qs qx qy qz vx vy vz vzero]. unfold vzero. apply (f_equal3 mkV); ring. Qed.
Lemma xform_diff X u : vsub (xform_point X u) (xform_point X vzero) = q_rotate (xq X) u.
Proof. unfold xform_point. rewrite rotate_zero. destruct (q_rotate (xq X) u), (xr X). unfold vsub, vadd, vzero; cbn. apply (f_equal3 mkV); ring. Qed.
Theorem C150_hinges : forall eig sd fuel ls js e e' lr Br, NoDup (hinge_children js) -> read_urdf eig sd fuel ls js e = Some (Done e') ->
  is_root ls js lr -> inertial_is lr Br ->
  forall j F O a, In j js -> is_hinge j -> link_frame js (l_name lr) (j_parent j) F -> origin_is (j_origin j) O -> axis_is (j_axis j) a ->
  a <> vzero /\ exists h sp sc P C, find_hinge e' (j_name j) = Some h /\ h_sockets h = Some (sp, sc) /\
    sk_body sp = j_parent j /\ sk_body sc = j_child j /\ find_body e' (j_parent j) = Some P /\ find_body e' (j_child j) = Some C /\
    anchor P sp = Br (F (O vzero)) /\ anchor C sc = Br (F (O vzero)) /\
    axis_w P sp = vsub (Br (F (O (vdiv a (vnorm a))))) (Br (F (O vzero))) /\ axis_w C sc = vsub (Br (F (O (vdiv a (vnorm a))))) (Br (F (O vzero))).
Proof.
  intros eig sd fuel ls js e e' lr Br ND H HR HB j F O a Hj Hh HF HO HA. destruct (urdf_placed _ _ _ _ _ _ _ _ ND H HR) as (links & joints & e2 & robot' & H' & S & I & CL & CH & NC & NR).
  set (B := B_of (map node_of (solid links))) in *. destruct (root_in _ _ _ HR) as [Rin Rb]. destruct (inertial_tag _ _ _ _ _ _ _ _ _ S Rin Rb HB) as [RN EB]. fold B in EB.
  destruct (hinge_tag_in _ _ _ (g_js _ _ _ _ _ _ _ S) Hj Hh) as (k & Hk & P). destruct (parse_joint_is _ _ P) as (En & _ & Ep & Ec & UO & HO' & a' & HA' & Hax).
  assert (a' = a). { unfold axis_is in *. destruct (j_axis j); [apply (numbers_fun _ _ _ HA' HA)|congruence]. } subst a'.
  destruct (frame_lf _ _ _ _ _ _ _ S _ _ _ HF) as (X & HX & EX). fold B in HX, EX. rewrite <- Ep in HX.
  destruct (i_hinge _ _ _ _ _ _ _ _ I k) as (h & sp & sc & Pb & C & Y & u & F1 & F2 & F3 & F4 & F5 & F6 & HY & Eu & A1 & A2 & A3 & A4); [apply CH; auto; eapply CL; eauto|].
  pose proof (B_unit _ _ _ _ _ _ _ S) as HU. fold B in HU.
  assert (Y = x_concat X (jt_X k)). { eapply lf_fun with (hs := hinges joints) (N := map k_name (solid links)); eauto. constructor; auto. } subst Y.
  assert (UX : is_unit (xq X)) by (eapply lf_unit; eauto).
  assert (EV : forall p, xform_point (x_concat X (jt_X k)) p = Br (F (O p))). { intros p. rewrite xform_concat by auto. rewrite EX, EB. do 2 apply f_equal. apply (origin_fun _ _ _ HO' HO). }
  destruct Hax as [[_ Q]|[Nz Q]]; [congruence|]. rewrite Q in Eu. injection Eu as <-. split; auto.
  exists h, sp, sc, Pb, C. rewrite <- En, <- Ep, <- Ec. rewrite <- !EV, xform_diff.
  assert (EO : xform_point (x_concat X (jt_X k)) vzero = xr (x_concat X (jt_X k))). { unfold xform_point. rewrite rotate_zero. destruct (xr (x_concat X (jt_X k))). unfold vadd, vzero; cbn. apply (f_equal3 mkV); ring. }
  rewrite EO. repeat (split; [assumption|]). assumption.
Qed.
Print Assumptions C150_hinges.
