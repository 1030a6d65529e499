(** C149: documents that read_urdf reads. *)
From Verif Require Import Base QuatModel QuatProofs VecModel VecProofs BvhModel BvhSpec GridModel VolModel RigidTypes RigidSpec Prop_Geometry SurfModel SurfSpec SurfProofs Prop_Surface MassModel MassSpec MassProofs MassProofs2 Prop_Mass Prop_Grid
  StepModel ApiModel ConSpec ApiSpec ReadyProofs ApiProofs Prop_Api Prop_Api2 SceneModel SceneSpec SceneMesh SceneProofs SceneShape SceneBox Prop_Scene UrdfModel UrdfSpec UrdfProofs UrdfWalk UrdfStages Prop_Urdf.
From Coq Require Import Permutation.
Open Scope R_scope.

(** three numbers wherever an attribute is given *)
Definition readable (o : option frame_tag) : Prop := exists f, origin_is o f.
(** a link that can be read: if it is a body, it has an inertial frame and its mesh is a proper solid in that frame *)
Definition link_ok (l : link_tag) : Prop :=
  (forall g, l_collision l = Some g -> g_shapes g <> Some [] /\ readable (g_origin g)) /\ (forall i, l_inertial l = Some i -> readable (in_origin i)) /\
  (forall s V T C, has_mesh l s V T C -> exists B W, inertial_is l B /\ map C V = map B W /\ good_stone W T).
Definition joint_ok (ls : list link_tag) (j : joint_tag) : Prop :=
  readable (j_origin j) /\ readable (j_axis j) /\
  (is_hinge j -> ~ axis_is (j_axis j) vzero /\ (exists l, In l ls /\ is_body l /\ l_name l = j_parent j) /\ (exists l, In l ls /\ is_body l /\ l_name l = j_child j)).
(** the names in the document are different from each other and from those in the engine *)
Definition names_ok (ls : list link_tag) (js : list joint_tag) (e : engine) : Prop :=
  NoDup (map l_name ls) /\ (forall l, In l ls -> ~ In (l_name l) (map b_name (e_bodies e)) /\ ~ In (l_name l ++ shape_suffix) (map sh_name (e_shapes e))) /\
  NoDup (map j_name js) /\ (forall j, In j js -> ~ In (j_name j) (map h_name (e_hinges e))).

Lemma readable_converts o : readable o -> exists X, convert_origin o = Some X.
Proof.
  intros (f & H). destruct o as [t|]; cbn in H.
  - destruct H as (rpy & xyz & H1 & H2 & _). apply three_numbers in H1, H2. unfold convert_origin, convert_frame. rewrite H1, H2. eauto.
  - unfold convert_origin, convert_frame. cbn. eauto.
Qed.
Lemma map_opt_total {A B} (f : A -> option B) l : (forall a, In a l -> exists b, f a = Some b) -> exists bs, map_opt f l = Some bs.
Proof.
  induction l as [|a l IH]; cbn; intros H; [eauto|]. destruct (H a (or_introl eq_refl)) as (b & ->). destruct IH as (bs & ->); [intros; apply H; auto|]. eauto.
Qed.
Lemma parse_link_total l : link_ok l -> exists k, parse_link l = Some k.
Proof.
  intros (HG & HI & _). unfold parse_link.
  assert (G : exists o, parse_geometry (l_collision l) = Some o).
  { destruct (l_collision l) as [g|]; cbn; [|eauto]. destruct (HG g eq_refl) as [NS RO]. destruct (g_shapes g) as [[|[|sup sc V T] r]|]; eauto; [congruence|]. destruct (readable_converts _ RO) as (X & ->). destruct sup; eauto. }
  destruct G as (o & ->). destruct (l_inertial l) as [i|]; cbn; [|eauto]. destruct (readable_converts _ (HI i eq_refl)) as (X & ->). eauto.
Qed.
Lemma parse_joint_total ls j : joint_ok ls j -> exists k, parse_joint j = Some k.
Proof.
  intros (RO & RA & _). unfold parse_joint. destruct (readable_converts _ RO) as (X & ->).
  assert (A : exists A, convert_frame (match j_axis j with Some f => f | None => mkFrame None (Some [1; 0; 0]) end) = Some A).
  { destruct (j_axis j) as [f|]; [apply (readable_converts _ RA)|]. unfold convert_frame. cbn. eauto. }
  destruct A as (A & ->). eauto.
Qed.

(** * loading a link *)
Lemma create_shape_plain eig sd e sn V T V' T' : eig_diagonal eig -> made e -> (2 <= p_resolution (e_params e))%Z -> find_shape e sn = None -> good_stone V T -> create_mesh eig V T = Some (V', T') ->
  exists s, fst (create_shape eig sd e sn V' T' false) = Done (set_shapes e (e_shapes e ++ [s])) /\ sh_name s = sn.
Proof.
  intros HE HM HN HF HG EM0. pose proof HG as (HP & ND & HL & HC & HT & HV & (d & HD) & _).
  destruct (create_mesh_ok eig V T HP HL) as (V1 & T1 & EM & PV & HP' & PC). { rewrite HD. apply HE. }
  rewrite EM in EM0. injection EM0 as <- <-.
  assert (SM : same_mesh V T V1 T1) by (split; [exact PV|split; [exact HP'|exact PC]]).
  pose proof (stone_eig eig V T V1 T1 HE HG SM) as HEG. destruct (stone_mass V T V1 T1 HG SM) as (p & EP & _). pose proof (HEG p EP) as HB. cbv zeta in HB.
  destruct (translate_to_body p) as [rt pb] eqn:ET. cbn [snd] in HB. destruct (rotate_to_model_spec eig pb HB) as (q & J & ERM & HU & _ & HJ).
  assert (EX : xform_model_2_body_space eig p = Some (vopp rt, q, mp_mass p, J)). { unfold xform_model_2_body_space. rewrite ET, ERM. reflexivity. }
  assert (NE : V1 <> []). { intros ->. apply Permutation_sym, Permutation_nil in PV. subst V. cbn in HL. lia. }
  destruct HM as ((_ & _ & HEnv) & _).
  assert (exists bd, shape_boundary V1 (e_params e) = Some bd /\ 0 < bd) as (bd & Eb & Hb).
  { unfold shape_boundary. destruct V1 as [|a t] eqn:E; [congruence|]. destruct (np_min0 (a :: t)) as [lo|] eqn:El; [|discriminate]. destruct (np_max0 (a :: t)) as [hi|] eqn:Eh; [|discriminate].
    eexists; split; [reflexivity|]. eapply Rlt_le_trans; [|apply Rmax_r]. lra. }
  destruct (C69_signed_distance_total (sd V1 T1) V1 _ _ _ bd (Rlt_le _ _ Hb) NE HN HN HN) as [g Eg].
  unfold create_shape. rewrite HF, EP, EX, Eb, Eg. eexists. split; reflexivity.
Qed.
Lemma load_body_ok eig sd n g i e : eig_diagonal eig -> made e -> (2 <= p_resolution (e_params e))%Z -> find_shape e (n ++ shape_suffix) = None -> find_body e n = None ->
  good_stone (map (xform_point (x_from_to (ge_origin g) (ia_origin i))) (ge_V g)) (ge_T g) ->
  exists e', load_body eig sd n g i e = Done e' /\ made e' /\ e_params e' = e_params e /\ map sh_name (e_shapes e') = map sh_name (e_shapes e) ++ [n ++ shape_suffix] /\ map b_name (e_bodies e') = map b_name (e_bodies e) ++ [n].
Proof.
  intros HE HM HN FS FB HG. pose proof HG as (HP & ND & HL & _ & _ & _ & (d & HD) & _).
  assert (exists e', load_body eig sd n g i e = Done e' /\ made e' /\ map sh_name (e_shapes e') = map sh_name (e_shapes e) ++ [n ++ shape_suffix]) as (e' & E & M' & N').
  { unfold load_body. rewrite to_link_body_map. destruct (create_mesh_ok eig _ _ HP HL) as (V1 & T1 & EM & _). { rewrite HD. apply HE. } rewrite EM.
    destruct (create_shape_plain eig sd e _ _ _ _ _ HE HM HN FS HG EM) as (s & ES & Ns). rewrite ES. cbn [andthen]. pose proof (create_shape_made _ _ _ _ _ _ _ _ HM ES) as M1.
    set (e1 := set_shapes e (e_shapes e ++ [s])) in *. assert (FB1 : find_body e1 n = None) by exact FB. unfold create_rigid_body. rewrite FB1. cbn [andthen].
    set (e2 := set_bodies e1 _). assert (M2 : made e2). { apply (call_made eig sd (CreateBody n) e1 e2 M1). left. cbn [run_call]. unfold create_rigid_body. rewrite FB1. reflexivity. }
    assert (FB2 : find_body e2 n <> None). { intros Q. apply (find_none b_name) in Q. apply Q. unfold e2. cbn [set_bodies e_bodies]. rewrite map_app, in_app_iff. right. left. reflexivity. }
    assert (FS2 : find_shape e2 (n ++ shape_suffix) <> None). { intros Q. apply (find_none sh_name) in Q. apply Q. unfold e2, e1. cbn [set_bodies set_shapes e_shapes]. rewrite map_app, in_app_iff. right. left. exact Ns. }
    destruct (connect_shape_cases e2 n (n ++ shape_suffix) M2) as [(b & s' & t & _ & _ & EC & _)|EC].
    - rewrite EC. cbn [andthen]. eexists. split; [reflexivity|]. split.
      + apply made_upd; [apply (call_made eig sd (ConnectShape n (n ++ shape_suffix)) e2 _ M2); left; exact EC|]. intros b0 _ Hb0. exact Hb0.
      + unfold e2, e1. cbn [upd_body set_bodies set_shapes e_shapes]. rewrite map_app. cbn. rewrite Ns. reflexivity.
    - exfalso. unfold connect_shape in EC. destruct (find_body e2 n) as [b|]; [|congruence]. destruct (find_shape e2 _) as [s'|] eqn:Es'; [|congruence].
      destruct (make_bvh _ _ _ _ _) as [t|] eqn:Et; [discriminate|]. destruct M2 as ((HK & HNc & _) & HS & _).
      assert (Hs : In s' (e_shapes e2)) by (apply (find_some sh_name) in Es'; tauto). rewrite Forall_forall in HS. destruct (HS s' Hs) as [HV _]. rewrite HK in Et.
      destruct (C20_make_bvh_shape (sh_V s') (map RigidTypes.tri_list (sh_T s')) (p_K params_init) (p_chunk (e_params e2)) (p_envelope (e_params e2))) as (t & Et' & _); auto; [left; reflexivity|]. congruence. }
  exists e'. split; auto. split; auto. destruct (load_body_done _ _ _ _ _ _ _ E) as (s & t & -> & _). split; [reflexivity|]. split; auto. cbn [set_bodies e_bodies]. rewrite map_app. reflexivity.
Qed.
Lemma suffix_inj (a b c : name) : a ++ c = b ++ c -> a = b. Proof. apply app_inv_tail. Qed.
Lemma load_links_ok eig sd : eig_diagonal eig -> forall links e robot, made e -> (2 <= p_resolution (e_params e))%Z ->
  (forall l g, In l links -> k_collision l = Some g -> exists i, k_inertial l = Some i /\ good_stone (map (xform_point (x_from_to (ge_origin g) (ia_origin i))) (ge_V g)) (ge_T g)) ->
  NoDup (map k_name links) -> (forall l, In l links -> ~ In (k_name l) (map b_name (e_bodies e)) /\ ~ In (k_name l ++ shape_suffix) (map sh_name (e_shapes e))) ->
  exists e' robot', load_links eig sd links e robot = (Done e', robot').
Proof.
  intros HE. induction links as [|l links IH]; intros e robot HM HN HL ND NI; cbn [load_links]; [eauto|]. inversion ND as [|x y N1 N2]; subst.
  destruct (k_collision l) as [g|] eqn:Eg; [|apply IH; auto; [intros l0 g0 H0; apply HL; right; auto|intros l0 H0; apply NI; right; auto]].
  destruct (HL l g (or_introl eq_refl) Eg) as (i & -> & HG). destruct (NI l (or_introl eq_refl)) as [NB NS].
  destruct (load_body_ok eig sd (k_name l) g i e HE HM HN) as (e' & -> & M' & P' & S' & B'); auto; try (apply (find_none sh_name); auto); try (apply (find_none b_name); auto).
  apply IH; auto; [rewrite P'; auto|intros l0 g0 H0; apply HL; right; auto|]. intros l0 H0. destruct (NI l0 (or_intror H0)) as [NB0 NS0].
  assert (k_name l <> k_name l0) by (intros Q; apply N1; rewrite Q; apply in_map; auto).
  rewrite B', S', !in_app_iff. split; intros [Q|[Q|[]]]; auto. apply suffix_inj in Q. auto.
Qed.
Lemma load_joints_ok : forall js e robot, (forall j, In j (hinges js) -> ~ In (jt_name j) (map h_name (e_hinges e)) /\ In (jt_parent j) (map n_name robot) /\ In (jt_child j) (map n_name robot)) ->
  NoDup (map jt_name js) -> exists e' robot', load_joints js e robot = (Done e', robot').
Proof.
  induction js as [|j js IH]; intros e robot H ND; cbn [load_joints]; [eauto|]. inversion ND as [|x y N1 N2]; subst. cbn [hinges filter] in H. fold (hinges js) in H.
  destruct (name_eqb (jt_type j) revolute); cbn [negb]; [|apply IH; auto]. destruct (H j (or_introl eq_refl)) as (A & P & C).
  unfold create_hinge. destruct (find_hinge e (jt_name j)) eqn:Fh; [exfalso; apply A; apply (find_some h_name) in Fh as [Fh <-]; apply in_map; auto|].
  destruct (find_node robot (jt_parent j)) eqn:Fp; [|exfalso; revert Fp; apply find_node_in; auto]. destruct (find_node robot (jt_child j)) eqn:Fc; [|exfalso; revert Fc; apply find_node_in; auto].
  apply IH; auto. intros j' Hj. destruct (H j' (or_intror Hj)) as (A' & P' & C'). rewrite !upd_node_names by auto. split; auto. cbn [set_hinges e_hinges]. rewrite map_app, in_app_iff. intros [Q|[Q|[]]]; auto. cbn in Q.
  apply N1. rewrite Q. apply in_map. unfold hinges in Hj. apply filter_In in Hj. tauto.
Qed.

(** ** C149 what is read: a document whose bodies are proper solids, with names of its own, hinge axes, at most one parent for every link, and a root *)
Theorem C149_reads : forall eig sd ls js e, eig_diagonal eig -> reach eig sd sane_params e -> (2 <= p_resolution (e_params e))%Z ->
  (forall l, In l ls -> link_ok l) -> (forall j, In j js -> joint_ok ls j) -> names_ok ls js e -> NoDup (hinge_children js) ->
  (exists l, In l ls /\ is_body l /\ ~ In (l_name l) (hinge_children js)) ->
  exists e', read_urdf eig sd (length ls) ls js e = Some (Done e').
Proof.
  intros eig sd ls js e HE HR HN HL HJ (NL & NLe & NJ & NJe) NC (l0 & Hl0 & Hb0 & Hc0).
  destruct (map_opt_total parse_link ls) as (links & EL); [intros l Hl; apply parse_link_total; auto|]. destruct (map_opt_total parse_joint js) as (joints & EJ); [intros j Hj; eapply parse_joint_total; eauto|].
  assert (EP : parse_urdf ls js = Some (links, joints)) by (unfold parse_urdf; rewrite EL, EJ; reflexivity).
  destruct (parse_lists _ _ _ _ EP) as [FL FJ].
  assert (EN : map k_name links = map l_name ls). { clear -FL. induction FL as [|t l a b P F IH]; cbn; auto. rewrite IH. f_equal. apply parse_link_name; auto. }
  assert (EJN : map jt_name joints = map j_name js). { clear -FJ. induction FJ as [|t l a b P F IH]; cbn; auto. rewrite IH. f_equal. apply (parse_joint_is _ _ P). }
  destruct (load_links_ok eig sd HE links e [] (reach_made _ _ _ HR) HN) as (e1 & robot1 & E1).
  { intros k g Hk Eg. destruct (f2_in_r _ _ _ _ FL Hk) as (t & Ht & P). destruct (parse_link_geometry _ _ _ P Eg) as (UG & s & HM). destruct (HL t Ht) as (_ & _ & HS). destruct (HS _ _ _ _ HM) as (B & W & HB & EW & HG).
    destruct HB as (it & Ei & HO). assert (exists i, k_inertial k = Some i) as (i & Ek).
    { unfold parse_link in P. destruct (parse_geometry _); [|discriminate]. rewrite Ei in P. cbn in P. destruct (convert_origin (in_origin it)); [|discriminate]. injection P as <-. cbn [k_inertial]. eauto. }
    exists i. split; auto. destruct (parse_link_inertial _ _ _ P Ek) as (UI & HB' & _). 
    assert (EB : forall p, xform_point (ia_origin i) p = B p) by (apply (inertial_fun t); auto; exists it; auto).
    replace (map (xform_point (x_from_to (ge_origin g) (ia_origin i))) (ge_V g)) with W; auto.
    rewrite (map_ext _ _ (fun p => eq_sym (EB p))) in EW.
    apply (f_equal (map (xform_point (x_inverse (ia_origin i))))) in EW. rewrite !map_map in EW. rewrite (map_ext (fun x => xform_point (x_inverse (ia_origin i)) (xform_point (ia_origin i) x)) (fun x => x)) in EW by (intros; apply xform_inverse_l; auto).
    rewrite map_id in EW. rewrite <- EW. apply map_ext. intros p. rewrite <- (xform_from_to (ge_origin g) (ia_origin i) p) by auto. rewrite xform_inverse_l by auto. reflexivity. }
  { rewrite EN. auto. }
  { intros k Hk. destruct (f2_in_r _ _ _ _ FL Hk) as (t & Ht & P). rewrite (parse_link_name _ _ P). auto. }
  destruct (load_links_done _ _ _ _ _ _ _ E1) as (bs & ss & Ee1 & R1 & LB & ND & NI). cbn [app] in R1.
  assert (BODY : forall l, In l ls -> is_body l -> In (l_name l) (map n_name robot1)).
  { intros l Hl Bl. destruct (f2_in_l _ _ _ _ FL Hl) as (k & Hk & P). rewrite R1, node_names. rewrite <- (parse_link_name _ _ P). apply in_map. apply solid_in. split; auto. apply (body_solid _ _ P). auto. }
  destruct (load_joints_ok joints e1 robot1) as (e2 & robot2 & E2).
  { intros j Hj. destruct (hinge_in_tag _ _ _ FJ Hj) as (t & Ht & Hh & P). destruct (parse_joint_is _ _ P) as (En & _ & Ep & Ec & _). destruct (HJ t Ht) as (_ & _ & HH). destruct (HH Hh) as (_ & (lp & L1 & L2 & L3) & (lc & L4 & L5 & L6)).
    rewrite En, Ep, Ec, <- L3, <- L6. split; [|split; auto]. rewrite Ee1. apply NJe. auto. }
  { rewrite EJN. auto. }
  destruct (stages_make _ _ _ _ _ _ _ _ _ _ _ EP E1 E2) as [S R2].
  assert (exists root, find_root robot2 = Some root) as (root & FR).
  { destruct (find_root robot2) as [r|] eqn:F; [eauto|]. exfalso. unfold find_root in F.
    destruct (body_of_tag _ _ _ _ _ _ _ _ S Hl0 Hb0) as (k & Hk & P & En).
    pose proof (List.find_none _ _ F (joined (hinges joints) (node_of k))) as Q. cbn [joined n_parent node_of n_name] in Q.
    rewrite (hinge_children_tags _ _ FJ), <- En in Hc0. apply parent_in_none in Hc0. rewrite Hc0 in Q. discriminate Q. rewrite <- in_rev, R2. apply in_map, in_map. auto. }
  subst robot2. destruct (root_facts _ _ _ _ _ _ _ S _ FR) as (RN & _ & RX). destruct (body_start _ _ _ _ _ _ _ S _ RN) as (b & Fb & _).
  destruct (set_frame_step e2 (n_name root) (n_X root) b Fb) as (e3 & E3 & _). { rewrite RX. apply (B_unit _ _ _ _ _ _ _ S). }
  assert (EW : read_urdf eig sd (length ls) ls js e = walk (length ls) [n_name root] e3 (map (joined (hinges joints)) (map node_of (solid links)))).
  { unfold read_urdf. rewrite EP, E1, E2, FR, E3. reflexivity. }
  destruct (urdf_walk _ _ _ _ _ _ _ _ _ (length ls) NC S FR E3) as [[W _]|[(e' & r' & H' & W & _)|[_ (j & Hj & Ha)]]].
  - exfalso. rewrite <- EW in W. revert W. apply C149_terminates; auto.
  - exists e'. rewrite EW. exact W.
  - exfalso. destruct (hinge_in_tag _ _ _ FJ Hj) as (t & Ht & Hh & P). destruct (parse_joint_is _ _ P) as (_ & _ & _ & _ & _ & _ & a & HA & [[-> _]|[_ Q]]); [|congruence].
    destruct (HJ t Ht) as (_ & _ & HH). destruct (HH Hh) as [Q _]. auto.
Qed.
Print Assumptions C149_reads.

(** * two boxes and a hinge; the inertial frame of the first box (the root) is moved by o *)
Definition box_link (n : name) (o : option frame_tag) : link_tag :=
  mkLink n (Some (mkGeometry o (Some [MeshTag true None (boxV 1 1 1) (boxT 1 1 1)]))) (Some (mkInertial o (Some 1) (Some 1) (Some 1) (Some 1) None None None)).
Definition two_links (o : option frame_tag) : list link_tag := [box_link [1]%nat o; box_link [2]%nat None].
Definition one_joint : list joint_tag := [mkJoint [3]%nat revolute [1]%nat [2]%nat (Some (mkFrame None (Some [2; 0; 0]))) None].
Lemma box_mesh n o C : origin_is o C -> has_mesh (box_link n o) None (boxV 1 1 1) (boxT 1 1 1) C.
Proof. intros H. eexists _, []. split; [reflexivity|]. split; [reflexivity|]. exact H. Qed.
Lemma box_body n o : readable o -> is_body (box_link n o).
Proof. intros (C & H). exists None, (boxV 1 1 1), (boxT 1 1 1), C. apply box_mesh. exact H. Qed.
Lemma box_link_ok n o : readable o -> link_ok (box_link n o).
Proof.
  intros H. split; [|split].
  - intros g E. injection E as <-. split; [discriminate|exact H].
  - intros i E. injection E as <-. exact H.
  - intros s V T C (g & r & E1 & E2 & E3). injection E1 as <-. injection E2 as <- <- <- <-. exists C, (boxV 1 1 1). split; [eexists; split; [reflexivity|exact E3]|]. split; auto. apply box_good; lra.
Qed.
Lemma none_readable : readable None. Proof. exists (fun p => p). intros p. reflexivity. Qed.
Lemma shift_readable x : readable (Some (mkFrame None (Some [x; 0; 0]))).
Proof. eexists. exists vzero, (mkV x 0 0). split; [constructor|]. split; [constructor|]. intros p. reflexivity. Qed.
Lemma two_read sd o : readable o -> exists e', read_urdf diag_eig sd 2 (two_links o) one_joint create_engine = Some (Done e').
Proof.
  intros HO. apply (C149_reads diag_eig sd (two_links o) one_joint create_engine diag_eig_diagonal).
  - apply reach_new. split; [reflexivity|]. cbn. split; [lia|lra].
  - cbn. lia.
  - intros l [<-|[<-|[]]]; apply box_link_ok; auto. apply none_readable.
  - intros j [<-|[]]. split; [apply shift_readable|]. split; [apply none_readable|]. intros _. split; [cbn; intros E; injection E; lra|].
    split; [exists (box_link [1]%nat o)|exists (box_link [2]%nat None)]; (split; [cbn; auto|]); (split; [apply box_body; auto; apply none_readable|reflexivity]).
  - split; [|split; [|split]].
    + cbn. constructor; [intros [E|[]]; discriminate|]. constructor; [intros []|constructor].
    + intros l [<-|[<-|[]]]; split; intros [].
    + cbn. constructor; [intros []|constructor].
    + intros j [<-|[]] [].
  - cbn. constructor; [intros []|constructor].
  - exists (box_link [1]%nat o). split; [left; reflexivity|]. split; [apply box_body; auto|]. cbn. intros [E|[]]; discriminate.
Qed.
Lemma two_root o : readable o -> is_root (two_links o) one_joint (box_link [1]%nat o).
Proof. intros H. exists [], [box_link [2]%nat None]. split; [reflexivity|]. split; [apply box_body; auto|]. split; [cbn; intros [E|[]]; discriminate|]. intros l [<-|[]] _. left. reflexivity. Qed.
Lemma two_child o : exists l F, In l (two_links o) /\ is_body l /\ l_name l <> l_name (box_link [1]%nat o) /\ link_frame one_joint (l_name (box_link [1]%nat o)) (l_name l) F.
Proof.
  destruct (shift_readable 2) as (O & HO). exists (box_link [2]%nat None), O. split; [right; left; reflexivity|]. split; [apply box_body; apply none_readable|]. split; [cbn; discriminate|].
  apply (frame_child one_joint [1]%nat (mkJoint [3]%nat revolute [1]%nat [2]%nat (Some (mkFrame None (Some [2; 0; 0]))) None) (fun p => p) O O); [left; reflexivity|reflexivity|constructor; reflexivity|exact HO|reflexivity].
Qed.
(** the claim "after reading, the links are where the document puts them" is false: move the inertial frame of the root by one *)
Theorem C149_assembly_refuted : forall sd, exists ls js lr e', read_urdf diag_eig sd (length ls) ls js create_engine = Some (Done e') /\ is_root ls js lr /\
  ~ exists W : motion, forall l B F, In l ls -> is_body l -> inertial_is l B -> link_frame js (l_name lr) (l_name l) F -> placed_by e' (l_name l) (fun p => W (F (B p))).
Proof.
  intros sd. set (o := Some (mkFrame None (Some [1; 0; 0]))). assert (HO : readable o) by apply shift_readable. destruct (two_read sd o HO) as (e' & E).
  exists (two_links o), one_joint, (box_link [1]%nat o), e'. split; [exact E|]. split; [apply two_root; auto|]. intros HW.
  assert (exists Br, origin_is o Br) as (Br & HB) by exact HO.
  assert (ND : NoDup (hinge_children one_joint)) by (cbn; constructor; [intros []|constructor]).
  pose proof (proj1 (C149_correct_iff diag_eig sd 2 (two_links o) one_joint create_engine e' (box_link [1]%nat o) Br ND E (two_root o HO) ltac:(eexists; split; [reflexivity|exact HB]) (two_child o)) HW vzero) as Q.
  destruct HB as (rpy & xyz & H1 & H2 & H3). rewrite H3 in Q. cbn in H1, H2. inversion H1; subst. inversion H2; subst.
  revert Q. unfold vadd, mvec, vzero, m3_Rx, m3_Ry, m3_Rz; cbn. intros Q. injection Q. intros _ _ Q1. lra.
Qed.
Print Assumptions C149_assembly_refuted.
(** the hypotheses of C148, C149 and C150 are met, and the reading is then right when the root's inertial frame is its link frame *)
Example C149_nonvacuous sd : exists e', read_urdf diag_eig sd 2 (two_links None) one_joint create_engine = Some (Done e') /\ is_root (two_links None) one_joint (box_link [1]%nat None) /\
  exists W : motion, forall l B F, In l (two_links None) -> is_body l -> inertial_is l B -> link_frame one_joint [1]%nat (l_name l) F -> placed_by e' (l_name l) (fun p => W (F (B p))).
Proof.
  destruct (two_read sd None none_readable) as (e' & E). exists e'. split; [exact E|]. split; [apply two_root, none_readable|].
  apply (C149_correct_iff diag_eig sd 2 (two_links None) one_joint create_engine e' (box_link [1]%nat None) (fun p => p)); auto.
  - cbn. constructor; [intros []|constructor].
  - apply two_root, none_readable.
  - eexists; split; [reflexivity|]. cbn. auto.
  - apply two_child.
Qed.
(** a document with a loop: 1 leads to 2, 2 to 3, and 3 back to 2 *)
Example C149_loop_nonvacuous : let ls := [box_link [1]%nat None; box_link [2]%nat None; box_link [3]%nat None] in
  let hinge n p c := mkJoint [n]%nat revolute [p]%nat [c]%nat None None in let js := [hinge 4 1 2; hinge 5 2 3; hinge 6 3 2]%nat in
  exists lr (f : nat -> name), is_root ls js lr /\ f O = l_name lr /\ forall k, exists j, In j js /\ is_hinge j /\ j_parent j = f k /\ j_child j = f (S k).
Proof.
  cbv zeta. exists (box_link [1]%nat None), (fun k => match k with O => [1]%nat | S k => if Nat.even k then [2]%nat else [3]%nat end). split; [|split; [reflexivity|]].
  - eexists [], _. split; [reflexivity|]. split; [apply box_body, none_readable|]. split; [cbn; intros [?|[?|[?|[]]]]; discriminate|]. intros l [<-|[<-|[]]] _; cbn; auto.
  - intros [|k]; [eexists; split; [left; reflexivity|]; repeat split|]. rewrite Nat.even_succ, <- Nat.negb_even. destruct (Nat.even k); cbn [negb].
    + eexists; split; [right; left; reflexivity|]; repeat split.
    + eexists; split; [right; right; left; reflexivity|]; repeat split.
Qed.
