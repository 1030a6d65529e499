(** Soft-body engine: free fall (C119). *)
From Verif Require Import Base ListProofs VecModel VecProofs ProxModel SolverModel SolverProofs BvhModel GridModel SurfModel VolModel RigidTypes StepModel MechModel MechSpec MechProofs FemModel FemSpec FemProofs FemProofs2 Prop_Fem Prop_Fem2 SoftModel SoftSpec SoftProofs SoftProofs2 SoftReach SoftProofs3 SoftProofs4 SoftFrame Prop_Soft Prop_Soft2 SoftDemo Prop_Soft3 Prop_Soft5.
Open Scope R_scope.

(** ** C119: free fall *)
(** an undeformed body, placed somewhere by a rotation Q and a translation c, moving with velocity v, free of Dirichlet conditions and tractions *)
Record undeformed (b : sbody) (Q : mat3) (c v : vec3) : Prop := mkUnd {
  un_rot : is_rotation Q;
  un_x : forall i, (i < s_n b)%nat -> s_x b i = vadd (mvec Q (s_x0 b i)) c;
  un_u : forall i, (i < s_n b)%nat -> s_u b i = v;
  un_dir : s_dirichlet b = []; un_trac : s_traction b = [] }.
(** mass matrix of density rho, damping matrix of viscosity c; every node belongs to a tetrahedron *)
Definition matter (b : sbody) (rho c : R) : Prop := 0 < rho /\ s_M b = Some (compute_mass_element_array rho (s_vol0 b) (s_lumped b)) /\
  s_C b = Some (compute_damping_element_array c (s_vol0 b) (s_lumped b)) /\ forall n, (n < s_n b)%nat -> exists t a, In t (s_T b) /\ (a < 4)%nat /\ node t a = n.

Lemma mesh_forces_ext m lam mu N x0 T x y : valid_mesh N T -> (forall i, (i < N)%nat -> x i = y i) -> mesh_forces m lam mu x0 T x = mesh_forces m lam mu x0 T y.
Proof.
  intros HT H. unfold mesh_forces. destruct (compute_inverse_D0 x0 T) as [inv|]; [|reflexivity]. assert (E : compute_deformation_gradient x T inv = compute_deformation_gradient y T inv); [|rewrite E; reflexivity].
  unfold compute_deformation_gradient. assert (E : compute_D x T = compute_D y T); [|rewrite E; reflexivity]. unfold compute_D. clear inv. induction HT as [|t T Ht HT IH]; [reflexivity|]. cbn [map_all]. rewrite IH.
  assert (E : elem_D x t = elem_D y t); [|rewrite E; reflexivity]. unfold elem_D, corners. rewrite !H by apply Ht. reflexivity.
Qed.
Lemma rest_forces m lam mu N x0 T Q c x Fe : m = SVK \/ m = SNH -> is_rotation Q -> valid_mesh N T -> (forall i, (i < N)%nat -> x i = vadd (mvec Q (x0 i)) c) ->
  mesh_forces m lam mu x0 T x = Some Fe -> forall n, (n < N)%nat -> Fe n = vzero.
Proof.
  intros Hm HQ HT HX HF. rewrite (mesh_forces_ext m lam mu N x0 T x _ HT HX) in HF. destruct Hm as [-> | ->].
  - apply (C107_rigid_motion SVK lam mu N x0 T Q c Fe); auto. apply svk_rest. apply orth_rotation. exact HQ.
  - destruct (Req_dec (lam + 5 / 6 * mu) 0) as [Z|Z]; [|apply (C107_rigid_motion SNH lam mu N x0 T Q c Fe); auto; apply snh_rest; assumption].
    assert (NN : forall F, pk1_stress SNH F lam mu = None). { intros F. cbn [pk1_stress SNH]. unfold snh_pk1. destruct (Reqb_spec (lam + 5 / 6 * mu) 0); [reflexivity|contradiction]. }
    unfold mesh_forces in HF. destruct (compute_inverse_D0 x0 T); [|discriminate]. destruct (compute_deformation_gradient _ T _) as [F|]; [|discriminate]. unfold compute_elastic_forces in HF.
    destruct T as [|t T]; [cbn in HF; injection HF as <-; reflexivity|]. cbn [compute_outward_face_vectors map elastic_loop] in HF. destruct F as [|Fe0 F]; [discriminate|]. rewrite NN in HF. discriminate.
Qed.
Lemma Forall2_in {A B} (P : A -> B -> Prop) l l' a : Forall2 P l l' -> In a l -> exists b, In b l' /\ P a b.
Proof. induction 1 as [|x y l l' H H' IH]; intros Ha; [destruct Ha|]. destruct Ha as [<-|Ha]; [exists y; split; [left; reflexivity|exact H]|]. destruct (IH Ha) as (b & Hb & HP). exists b. split; [right; exact Hb|exact HP]. Qed.
Lemma damping_mass N T vol c v n : valid_mesh N T -> (n < N)%nat -> compute_damping_forces T (compute_damping_element_array c vol true) (fun _ => v) n = vopp (compute_gravity_forces T vol c v n).
Proof. intros HT Hn. unfold compute_damping_forces. change (compute_damping_element_array c vol true) with (compute_mass_element_array c vol true). rewrite <- (C103_gravity N T vol c true v HT n Hn). reflexivity. Qed.
Lemma gravity_scale N T vol rho s g n : valid_mesh N T -> (n < N)%nat -> compute_gravity_forces T vol (s * rho) g n = compute_gravity_forces T vol rho (vscale s g) n.
Proof.
  intros HT. revert n. apply work_inj. intros h. rewrite !(gravity_work N T vol _ _ h HT). f_equal. apply map_ext. intros [t v]. cbn [fst snd]. generalize (sum4 h t). intros [p1 p2 p3]. destruct g as [g1 g2 g3]. vunf. field.
Qed.
Lemma gravity_plus N T vol rho g k n : valid_mesh N T -> (n < N)%nat -> compute_gravity_forces T vol rho (vadd g k) n = vadd (compute_gravity_forces T vol rho g n) (compute_gravity_forces T vol rho k n).
Proof.
  intros HT. revert n. apply (work_inj N _ (fun n => vadd (compute_gravity_forces T vol rho g n) (compute_gravity_forces T vol rho k n))). intros h. rewrite work_add. rewrite !(gravity_work N T vol _ _ h HT).
  induction (combine T vol) as [|[t v] l IH]; cbn [map sum fold_right]; [ring|]. unfold sum in IH. rewrite IH. cbn [fst snd].
  match goal with |- _ + (?a + ?b) = _ => generalize a b end. intros z1 z2. generalize (sum4 h t). intros [p1 p2 p3]. destruct g as [g1 g2 g3], k as [k1 k2 k3]. vunf. field.
Qed.
(** the nodal accelerations of a block solve the block's equation *)
Lemma block_solve e M W F b rho : soft_ok e -> forallb ready (sg_bodies e) = true -> soft_mass_matrix e = Some M -> is_inverse (3 * sg_N e) M W -> In b (sg_bodies e) ->
  0 < rho -> s_M b = Some (compute_mass_element_array rho (s_vol0 b) (s_lumped b)) -> (forall n, (n < s_n b)%nat -> exists t a, In t (s_T b) /\ (a < 4)%nat /\ node t a = n) ->
  forall h, (forall i, (i < s_n b)%nat -> F (s_offset b + i)%nat = prod_mat_vec (s_T b) (compute_mass_element_array rho (s_vol0 b) (s_lumped b)) h i) ->
  forall i, (i < s_n b)%nat -> unflat (mdotv (3 * sg_N e) W (flat F)) (s_offset b + i)%nat = h i.
Proof.
  intros HO HR HM HI Hb Hr HMb Hcov h HF i Hi. set (w := mdotv (3 * sg_N e) W (flat F)). assert (Bb : body_ok b) by (pose proof (so_bodies e HO) as HB; rewrite Forall_forall in HB; apply HB; exact Hb).
  assert (Rb : ready b = true) by (rewrite forallb_forall in HR; apply HR; exact Hb).
  destruct (layout_range _ _ _ (so_layout e HO) HR b Hb) as [_ LR].
  assert (E : forall k, (k < s_n b)%nat -> prod_mat_vec (s_T b) (compute_mass_element_array rho (s_vol0 b) (s_lumped b)) (view (unflat w) b) k = prod_mat_vec (s_T b) (compute_mass_element_array rho (s_vol0 b) (s_lumped b)) h k).
  { intros k Hk. rewrite <- (mass_at e M (unflat w) b _ k HO HR HM Hb HMb Hk), <- (HF k Hk).
    rewrite (unflat_ext _ (flat F)); [apply unflat_flat|]. intros j Hj. rewrite (mdotv_ext' _ M _ w) by (intros l _; apply flat_unflat). apply inverse_l; [exact HI|lia]. }
  assert (Z : forall j, (j < 3 * s_n b)%nat -> (fun j => flat (view (unflat w) b) j - flat h j) j = 0).
  { apply (C102_injective (s_n b) (s_T b) (s_vol0 b) rho (s_lumped b)); [apply (bo_mesh b Bb)|rewrite (bo_vol b Bb), map_length; reflexivity|exact Hr|rewrite (bo_vol b Bb); apply (volumes_positive _ _ _ (bo_inv b Bb Rb))|exact Hcov|].
    intros j Hj. unfold mass_matrix. set (A := compute_mass_element_array rho (s_vol0 b) (s_lumped b)) in *.
    transitivity (mdotv (3 * s_n b) (assembly_csr (s_T b) A) (flat (view (unflat w) b)) j - mdotv (3 * s_n b) (assembly_csr (s_T b) A) (flat h) j).
    { unfold mdotv. rewrite (rsum_ext _ _ (fun k => assembly_csr (s_T b) A j k * flat (view (unflat w) b) k + (-1) * (assembly_csr (s_T b) A j k * flat h k))) by (intros; ring). rewrite rsum_plus, rsum_scale. ring. }
    rewrite !(assembly_product (s_n b) _ _ _ j (bo_mesh b Bb)). unfold flat at 1 2. rewrite E by (apply Nat.div_lt_upper_bound; lia). ring. }
  rewrite <- (unflat_flat h i). change (unflat w (s_offset b + i)%nat) with (view (unflat w) b i). rewrite <- (unflat_flat (view (unflat w) b) i). apply unflat_ext. intros k Hk. specialize (Z k ltac:(lia)). cbv beta in Z. lra.
Qed.
(** one step without contacts: the body stays undeformed; its velocity changes by dt (gravity - viscous drag) *)
Definition fall (rho_now rho c : R) (g v : vec3) (dt : R) : vec3 := vadd v (vscale dt (vsub (vscale (rho_now / rho) g) (vscale (c / rho) v))).
Theorem C119_step eigh axis cd sv dt e e' b m rho c Q a v : soft_reach eigh axis e -> stepper_fresh e -> soft_step cd sv dt e = SDone e' -> sg_contacts e' = [] -> In b (sg_bodies e) ->
  undeformed b Q a v -> matter b rho c -> material_of e b = Some m -> sm_model m = SVK \/ sm_model m = SNH ->
  exists b', In b' (sg_bodies e') /\ motion b b' /\ let v' := fall (sm_rho m) rho c (s_gravity b) v dt in undeformed b' Q (vadd a (vscale dt v')) v'.
Proof.
  intros HRe (M & W & HM & HW & HI) HS HC Hb HU (Hrho & HMb & HCb & Hcov) Em Hmod. pose proof (reach_ok _ _ _ HRe) as HO.
  destruct (step_nodes cd sv dt e e' HO HS) as (W' & Fe & Ft & Fd & Fext & cs & q & HH). cbv zeta in HH. destruct HH as (H1 & HR & H3 & H4 & H5 & H6 & H7 & H8 & H9 & _ & H11).
  assert (W' = W) by congruence. subst W'. assert (cs = []) by congruence. subst cs. destruct H8 as [[_ ->]|(Hne & _)]; [|contradiction Hne; reflexivity].
  destruct (Forall2_in _ _ _ _ H11 Hb) as (b' & Hb' & x' & u' & Eb' & Hn). exists b'. split; [exact Hb'|]. split; [rewrite Eb'; eexists; eexists; reflexivity|]. cbv zeta.
  pose proof (so_layout e HO) as HL. pose proof (so_bodies e HO) as HB. assert (Bb : body_ok b) by (rewrite Forall_forall in HB; apply HB; exact Hb).
  assert (ND : forall k, is_dir b k = false) by (intros k; unfold is_dir; rewrite (un_dir _ _ _ _ HU); reflexivity).
  set (F := fplus (fplus (fplus Fext Fe) Ft) Fd) in *.
  (* the forces on the body *)
  assert (HF : forall i, (i < s_n b)%nat -> F (s_offset b + i)%nat = prod_mat_vec (s_T b) (compute_mass_element_array rho (s_vol0 b) (s_lumped b)) (fun _ => vsub (vscale (sm_rho m / rho) (s_gravity b)) (vscale (c / rho) v)) i).
  { change (forall i, (i < s_n b)%nat -> view F b i = prod_mat_vec (s_T b) (compute_mass_element_array rho (s_vol0 b) (s_lumped b)) (fun _ => vsub (vscale (sm_rho m / rho) (s_gravity b)) (vscale (c / rho) v)) i).
    assert (Hwork : forall h, work (s_n b) (view F b) h = work (s_n b) (applied_forces e b) h).
    { intros h. destruct (forces_work e Fe Ft Fd Fext b h HO HR H3 H4 H5 H6 Hb (un_dir _ _ _ _ HU)) as (fe & m' & lam & mu & Em' & EMf & HX & EW). fold F in EW. rewrite EW. assert (m' = m) by congruence. subst m'.
      rewrite (work_ext (s_n b) fe fzero h), work_fzero; [ring|]. apply (rest_forces (sm_model m) lam mu (s_n b) (s_x0 b) (s_T b) Q a (view (bc_positions (sg_bodies e) (get_position_vector e)) b) fe Hmod (un_rot _ _ _ _ HU) (bo_mesh b Bb)); [|exact EMf].
      intros i Hi. rewrite (HX i Hi). apply (un_x _ _ _ _ HU i Hi). }
    intros i Hi. rewrite (work_inj _ _ _ Hwork i Hi). rewrite (bo_lumped b Bb), <- (C103_gravity (s_n b) (s_T b) (s_vol0 b) rho true _ (bo_mesh b Bb) i Hi).
    unfold applied_forces. rewrite Em, HCb, (un_trac _ _ _ _ HU), (bo_lumped b Bb). cbn [compute_traction_forces fold_left].
    rewrite (damping_ext (s_n b) _ _ (s_u b) (fun _ => v) (bo_mesh b Bb) (un_u _ _ _ _ HU) i). rewrite (damping_mass (s_n b) _ _ c v i (bo_mesh b Bb) Hi).
    replace (sm_rho m) with (sm_rho m / rho * rho) at 1 by (field; lra). rewrite (gravity_scale (s_n b) _ _ rho _ _ i (bo_mesh b Bb) Hi).
    replace c with (c / rho * rho) at 1 by (field; lra). rewrite (gravity_scale (s_n b) _ _ rho _ _ i (bo_mesh b Bb) Hi).
    replace (vsub (vscale (sm_rho m / rho) (s_gravity b)) (vscale (c / rho) v)) with (vadd (vscale (sm_rho m / rho) (s_gravity b)) (vscale (-1) (vscale (c / rho) v))) by (destruct (s_gravity b), v; vunf; f_equal; field; lra).
    rewrite (gravity_plus (s_n b) _ _ _ _ _ i (bo_mesh b Bb) Hi). rewrite <- (gravity_scale (s_n b) _ _ rho (-1) _ i (bo_mesh b Bb) Hi).
    assert (O : compute_gravity_forces (s_T b) (s_vol0 b) (-1 * rho) (vscale (c / rho) v) i = vopp (compute_gravity_forces (s_T b) (s_vol0 b) rho (vscale (c / rho) v) i)).
    { revert i Hi. apply (work_inj (s_n b) _ (fun i => vopp (compute_gravity_forces (s_T b) (s_vol0 b) rho (vscale (c / rho) v) i))). intros h.
      transitivity (-1 * work (s_n b) (compute_gravity_forces (s_T b) (s_vol0 b) rho (vscale (c / rho) v)) h).
      - rewrite !(gravity_work (s_n b) _ _ _ _ h (bo_mesh b Bb)). induction (combine (s_T b) (s_vol0 b)) as [|[t z] l IH]; cbn [map sum fold_right]; [ring|]. unfold sum in IH. rewrite IH. cbn [fst snd]. match goal with |- context [vdot ?x ?y] => generalize (vdot x y) end. intros d. match goal with |- context [fold_right ?a ?b ?l0] => generalize (fold_right a b l0) end. intros q. field.
      - rewrite <- work_scale. apply work_ext. intros k _. generalize (compute_gravity_forces (s_T b) (s_vol0 b) rho (vscale (c / rho) v) k). intros z. vring. }
    rewrite O. unfold fzero. generalize (compute_gravity_forces (s_T b) (s_vol0 b) rho (vscale (sm_rho m / rho) (s_gravity b)) i) (compute_gravity_forces (s_T b) (s_vol0 b) rho (vscale (c / rho) v) i). intros z1 z2. vring. }
  assert (HV : forall i, (i < s_n b)%nat -> s_u b' i = fall (sm_rho m) rho c (s_gravity b) v dt).
  { intros i Hi. destruct (Hn i Hi) as [E _]. rewrite ND in E. rewrite E, (block_solve e M W F b rho HO HR HM HI Hb Hrho HMb Hcov _ HF i Hi), (un_u _ _ _ _ HU i Hi). unfold fall, fzero.
    generalize (vsub (vscale (sm_rho m / rho) (s_gravity b)) (vscale (c / rho) v)). intros z. destruct v, z. vunf. f_equal; ring. }
  constructor.
  - exact (un_rot _ _ _ _ HU).
  - assert (En : s_n b' = s_n b) by (rewrite Eb'; reflexivity). assert (E0 : s_x0 b' = s_x0 b) by (rewrite Eb'; reflexivity). rewrite En, E0. intros i Hi. destruct (Hn i Hi) as [_ E]. rewrite ND in E. rewrite E, (HV i Hi), (un_x _ _ _ _ HU i Hi).
    generalize (mvec Q (s_x0 b i)) (fall (sm_rho m) rho c (s_gravity b) v dt). intros z1 z2. destruct z1, z2, a. vunf. f_equal; ring.
  - assert (En : s_n b' = s_n b) by (rewrite Eb'; reflexivity). rewrite En. exact HV.
  - rewrite Eb'. exact (un_dir _ _ _ _ HU).
  - rewrite Eb'. exact (un_trac _ _ _ _ HU).
Qed.
(** whole simulations without contacts, the density and viscosity of the material being those of the last set_material *)
Fixpoint falling (g : vec3) (k : R) (dts : list R) (a v : vec3) : vec3 * vec3 :=
  match dts with [] => (a, v) | dt :: r => let v' := vadd v (vscale dt (vsub g (vscale k v))) in falling g k r (vadd a (vscale dt v')) v' end.
Lemma motion_matter b b' rho c : motion b b' -> matter b rho c -> matter b' rho c.
Proof. intros (x & u & ->) H. exact H. Qed.
Lemma motion_material e e' b b' : evolved e e' -> motion b b' -> material_of e' b' = material_of e b.
Proof. intros HE (x & u & ->). unfold material_of. rewrite (ev_materials _ _ HE). reflexivity. Qed.
Lemma steps_fall eigh axis cd sv dts : (forall e, cd e = Some []) -> forall e e' b m c Q a v, soft_reach eigh axis e -> stepper_fresh e -> soft_steps cd sv dts e = Some e' -> In b (sg_bodies e) ->
  undeformed b Q a v -> matter b (sm_rho m) c -> material_of e b = Some m -> sm_model m = SVK \/ sm_model m = SNH ->
  exists b', In b' (sg_bodies e') /\ motion b b' /\ let '(a', v') := falling (s_gravity b) (c / sm_rho m) dts a v in undeformed b' Q a' v'.
Proof.
  intros HC. induction dts as [|dt dts IH]; intros e e' b m c Q a v HR HF HS Hb HU HM Em Hmod; cbn [soft_steps falling] in *.
  - injection HS as <-. exists b. split; [exact Hb|]. split; [apply motion_refl|exact HU].
  - destruct (soft_step cd sv dt e) as [e1|] eqn:ES; [|discriminate]. pose proof (step_cd _ _ _ _ _ ES) as EC. rewrite HC in EC. injection EC as EC.
    destruct (C119_step eigh axis cd sv dt e e1 b m (sm_rho m) c Q a v HR HF ES (eq_sym EC) Hb HU HM Em Hmod) as (b1 & Hb1 & Mo & U1). cbv zeta in U1.
    pose proof (step_evolved cd sv dt e) as HE. rewrite ES in HE. cbn [outcome_engine] in HE.
    assert (EF : fall (sm_rho m) (sm_rho m) c (s_gravity b) v dt = vadd v (vscale dt (vsub (s_gravity b) (vscale (c / sm_rho m) v)))).
    { unfold fall. destruct HM as [Hp _]. replace (sm_rho m / sm_rho m) with 1 by (field; lra). generalize (vscale (c / sm_rho m) v) (s_gravity b). intros z g. destruct v, z, g. vunf. f_equal; ring. }
    rewrite EF in U1. assert (Eg : s_gravity b1 = s_gravity b) by (destruct Mo as (? & ? & ->); reflexivity).
    destruct (IH e1 e' b1 m c Q _ _ (reach_step eigh axis cd sv dt e e1 HR (or_introl ES)) (evolved_fresh _ _ HE HF) HS Hb1 U1 (motion_matter _ _ _ _ Mo HM) (eq_trans (motion_material _ _ _ _ HE Mo) Em) Hmod) as (b' & Hb' & Mo' & U').
    exists b'. split; [exact Hb'|]. split; [eapply motion_trans; eassumption|]. rewrite Eg in U'. exact U'.
Qed.
Theorem C119_simulate eigh axis inv cd sv fuel T e e' dts b m c Q a v : (forall e, cd e = Some []) -> soft_reach eigh axis e -> (sg_stepper e = None /\ inv_correct inv \/ stepper_fresh e) -> 0 < sq_time_step (sg_params e) ->
  soft_simulate inv cd sv fuel T e = SimEnd e' dts -> In b (sg_bodies e) -> undeformed b Q a v -> matter b (sm_rho m) c -> material_of e b = Some m -> sm_model m = SVK \/ sm_model m = SNH ->
  exists b', In b' (sg_bodies e') /\ motion b b' /\ (let '(a', v') := falling (s_gravity b) (c / sm_rho m) dts a v in undeformed b' Q a' v') /\
    (c = 0 -> forall i, (i < s_n b)%nat -> s_u b' i = vadd v (vscale T (s_gravity b))).
Proof.
  intros HC HR HF Hts HS Hb HU HM Em Hmod. destruct (C118_time inv cd sv fuel T e e' dts Hts HS) as (HT & _ & _ & _ & _ & Etot & HSt & _).
  assert (X : soft_reach eigh axis (with_first_stepper inv e) /\ stepper_fresh (with_first_stepper inv e) /\ sg_bodies (with_first_stepper inv e) = sg_bodies e /\ sg_materials (with_first_stepper inv e) = sg_materials e).
  { unfold soft_simulate in HS. unfold with_first_stepper. destruct (Rleb T 0); [discriminate|]. destruct (sg_stepper e) as [W|] eqn:EW.
    - destruct HF as [[HN _]|HF]; [discriminate|]. repeat split; assumption.
    - destruct (soft_inverse_mass_matrix inv e) as [W|] eqn:EI; [|discriminate]. assert (HV : inv_correct inv). { destruct HF as [[_ HV]|(M & W' & _ & E & _)]; [exact HV|rewrite EW in E; discriminate]. }
      split; [eapply reach_stepper; eassumption|]. split; [exact (C112_fresh_first inv e W HV EI)|]. split; reflexivity. }
  destruct X as (X1 & X2 & X3 & X4).
  destruct (steps_fall eigh axis cd sv dts HC (with_first_stepper inv e) e' b m c Q a v X1 X2 HSt ltac:(rewrite X3; exact Hb) HU HM ltac:(unfold material_of in *; rewrite X4; exact Em) Hmod) as (b' & Hb' & Mo & U').
  exists b'. split; [exact Hb'|]. split; [exact Mo|]. split; [exact U'|]. intros -> i Hi. destruct (falling _ _ dts a v) as [a' v'] eqn:EF. assert (En : s_n b' = s_n b) by (destruct Mo as (? & ? & ->); reflexivity).
  rewrite (un_u _ _ _ _ U') by (rewrite En; exact Hi). rewrite <- Etot. clear - EF. replace (0 / sm_rho m) with 0 in EF by (unfold Rdiv; ring). revert a v EF. induction dts as [|dt dts IH]; intros a v EF; cbn [falling total] in *.
  - injection EF as <- <-. destruct v, (s_gravity b). vunf. f_equal; ring.
  - rewrite (IH _ _ EF). destruct v, (s_gravity b). vunf. f_equal; ring.
Qed.
(** ** set_mass_density and set_viscosity after set_material *)
Lemma identity_rotation : is_rotation mid.
Proof. split; munf; [f_equal; ring|ring]. Qed.
Lemma demo_undeformed I0 g v : undeformed (demo_body I0 g v) mid vzero v.
Proof. constructor; [apply identity_rotation| |reflexivity|reflexivity|reflexivity]. intros i _. cbn [demo_body s_x s_x0]. generalize (demo_x0 i). intros z. unfold mid. destruct z. munf. f_equal; ring. Qed.
Lemma demo_matter I0 g v : matter (demo_body I0 g v) 1000 0.
Proof. split; [lra|]. split; [reflexivity|]. split; [reflexivity|]. apply (demo_massive I0 g v). Qed.
(** the demo engine inside simulate, after calls that change the material only *)
Lemma demo_falls eigh g v mt : sm_model mt = SVK -> sm_E mt = 100000 -> sm_nu mt = 3 / 10 -> (forall e, soft_reach eigh demo_axis e -> sg_materials e = [(default_name, demo_material)] -> soft_reach eigh demo_axis (sg_with_materials e [(default_name, mt)])) ->
  exists e W e' b b', soft_reach eigh demo_axis e /\ soft_inverse_mass_matrix demo_inv e = Some W /\ e' = sg_with_stepper e W /\ soft_reach eigh demo_axis e' /\ stepper_fresh e' /\ sg_bodies e' = [b] /\ b = demo_body (s_invD0 b) g v /\ sg_materials e' = [(default_name, demo_material)] /\
  exists e1, soft_step (fun _ => Some []) (fun _ _ _ _ _ _ _ => None) (1 / 1000) (sg_with_materials e' [(default_name, mt)]) = SDone e1 /\ sg_bodies e1 = [b'] /\
    forall i, (i < s_n b)%nat -> s_u b' i = vadd v (vscale (1 / 1000 * (sm_rho mt / 1000)) g).
Proof.
  intros M1 M2 M3 HRM. destruct (demo_stepper eigh g v) as (e & I0 & Ee & HR & W & EW & R1 & F1 & S1). exists e, W, (sg_with_stepper e W), (demo_body I0 g v).
  pose proof F1 as (M & W0 & F2 & F3 & F4). assert (EM : sg_materials (sg_with_stepper e W) = [(default_name, demo_material)]) by (rewrite Ee; reflexivity).
  set (e2 := sg_with_materials (sg_with_stepper e W) [(default_name, mt)]). assert (R2 : soft_reach eigh demo_axis e2) by (apply HRM; assumption).
  assert (F5 : stepper_fresh e2) by (exists M, W0; split; [exact F2|]; split; [exact F3|exact F4]).
  assert (S2 : steppable e2). { subst e. intros b Hb. destruct (S1 b Hb) as (A1 & A2 & A3 & m & lam & mu & A4 & A5 & A6 & A7). split; [exact A1|]. split; [exact A2|]. split; [exact A3|]. destruct Hb as [<-|[]].
    cbn in A4. injection A4 as <-. exists mt, lam, mu. split; [reflexivity|]. rewrite M1, M2, M3. repeat split; assumption. }
  destruct (C115_step_succeeds eigh demo_axis (fun _ => Some []) (fun _ _ _ _ _ _ _ => None) (1 / 1000) e2 W0 [] R2 S2) as (e1 & HS); [subst e; exact F3|reflexivity|intros H; destruct H; reflexivity|].
  pose proof (step_cd _ _ _ _ _ HS) as EC. injection EC as EC.
  destruct (C119_step eigh demo_axis _ _ (1 / 1000) e2 e1 (demo_body I0 g v) mt 1000 0 mid vzero v R2 F5 HS (eq_sym EC)) as (b' & Hb' & Mo & U'); [subst e; left; reflexivity|apply demo_undeformed|apply demo_matter|subst e; reflexivity|left; exact M1|]. cbv zeta in U'.
  pose proof (step_evolved (fun _ => Some []) (fun _ _ _ _ _ _ _ => None) (1 / 1000) e2) as HE. rewrite HS in HE. cbn [outcome_engine] in HE. pose proof (ev_bodies _ _ HE) as FB. assert (EB : sg_bodies e2 = [demo_body I0 g v]) by (subst e; reflexivity). rewrite EB in FB.
  inversion FB as [|? b2 ? l2 HM2 HN2 E1 E2]; subst. inversion HN2; subst.
  exists b2. split; [exact HR|]. split; [exact EW|]. split; [reflexivity|]. split; [exact R1|]. split; [exact F1|]. split; [reflexivity|]. split; [reflexivity|]. split; [reflexivity|]. exists e1. split; [exact HS|]. split; [symmetry; assumption|].
  match goal with H : [b2] = sg_bodies e1 |- _ => rewrite <- H in Hb' end. destruct Hb' as [<-|[]]. intros i Hi. rewrite (un_u _ _ _ _ U') by (destruct Mo as (? & ? & ->); exact Hi). unfold fall. cbn [demo_body s_gravity]. destruct g, v. vunf. f_equal; field.
Qed.
(** a density changed after set_material makes the body fall with the wrong acceleration: here twice gravity *)
Theorem C119_density_refuted eigh g v : exists e e1 e' b', soft_reach eigh demo_axis e /\ stepper_fresh e /\ (exists b, sg_bodies e = [b] /\ undeformed b mid vzero v /\ s_gravity b = g) /\
  set_mass_density e default_name 2000 = SDone e1 /\ soft_step (fun _ => Some []) (fun _ _ _ _ _ _ _ => None) (1 / 1000) e1 = SDone e' /\ sg_bodies e' = [b'] /\ forall i, (i < 4)%nat -> s_u b' i = vadd v (vscale (1 / 1000 * 2) g).
Proof.
  assert (SD : forall e, sg_materials e = [(default_name, demo_material)] -> set_mass_density e default_name 2000 = SDone (sg_with_materials e [(default_name, mkMat SVK 0 2000 100000 (3 / 10))])).
  { intros e H. unfold set_mass_density. rewrite H. cbn [find_material]. rewrite name_eqb_refl. destruct (Rltb 2000 0) eqn:E; [apply Rltb_true in E; lra|]. unfold upd_material. rewrite H. reflexivity. }
  destruct (demo_falls eigh g v (mkMat SVK 0 2000 100000 (3 / 10)) eq_refl eq_refl eq_refl) as (e0 & W & e & b & b' & H1 & H2 & H3 & H4 & H5 & H6 & H7 & H8 & e1 & H9 & H10 & H11).
  { intros e HR HM. exact (reach_done _ _ _ (SSetDensity default_name 2000) _ HR (SD e HM)). }
  exists e, (sg_with_materials e [(default_name, mkMat SVK 0 2000 100000 (3 / 10))]), e1, b'. split; [exact H4|]. split; [exact H5|]. split; [exists b; split; [exact H6|]; rewrite H7; split; [apply demo_undeformed|reflexivity]|].
  split; [apply SD; exact H8|]. split; [exact H9|]. split; [exact H10|]. intros i Hi. rewrite H11 by (rewrite H7; exact Hi). cbn [sm_rho]. do 2 f_equal. field.
Qed.
(** a viscosity changed after set_material has no effect *)
Theorem C119_viscosity_refuted eigh g v c : 0 <= c -> exists e e1 e' b', soft_reach eigh demo_axis e /\ stepper_fresh e /\ (exists b, sg_bodies e = [b] /\ undeformed b mid vzero v /\ s_gravity b = g) /\
  set_viscosity e default_name c = SDone e1 /\ soft_step (fun _ => Some []) (fun _ _ _ _ _ _ _ => None) (1 / 1000) e1 = SDone e' /\ sg_bodies e' = [b'] /\ material_of e' b' = Some (mkMat SVK c 1000 100000 (3 / 10)) /\
  forall i, (i < 4)%nat -> s_u b' i = vadd v (vscale (1 / 1000) g).
Proof.
  intros Hc. assert (SD : forall e, sg_materials e = [(default_name, demo_material)] -> set_viscosity e default_name c = SDone (sg_with_materials e [(default_name, mkMat SVK c 1000 100000 (3 / 10))])).
  { intros e H. unfold set_viscosity. rewrite H. cbn [find_material]. rewrite name_eqb_refl. destruct (Rltb c 0) eqn:E; [apply Rltb_true in E; lra|]. unfold upd_material. rewrite H. reflexivity. }
  destruct (demo_falls eigh g v (mkMat SVK c 1000 100000 (3 / 10)) eq_refl eq_refl eq_refl) as (e0 & W & e & b & b' & H1 & H2 & H3 & H4 & H5 & H6 & H7 & H8 & e1 & H9 & H10 & H11).
  { intros e HR HM. exact (reach_done _ _ _ (SSetViscosity default_name c) _ HR (SD e HM)). }
  exists e, (sg_with_materials e [(default_name, mkMat SVK c 1000 100000 (3 / 10))]), e1, b'. split; [exact H4|]. split; [exact H5|]. split; [exists b; split; [exact H6|]; rewrite H7; split; [apply demo_undeformed|reflexivity]|].
  split; [apply SD; exact H8|]. split; [exact H9|]. split; [exact H10|]. split.
  - pose proof (step_evolved (fun _ => Some []) (fun _ _ _ _ _ _ _ => None) (1 / 1000) (sg_with_materials e [(default_name, mkMat SVK c 1000 100000 (3 / 10))])) as HE. rewrite H9 in HE. cbn [outcome_engine] in HE.
    pose proof (ev_bodies _ _ HE) as FB. cbn [sg_with_materials sg_bodies] in FB. rewrite H6, H10 in FB. inversion FB as [|? ? ? ? Mo _]; subst. destruct Mo as (x & u & ->). unfold material_of. rewrite (ev_materials _ _ HE). rewrite H7. reflexivity.
  - intros i Hi. rewrite H11 by (rewrite H7; exact Hi). cbn [sm_rho]. do 2 f_equal. field.
Qed.
(** the hypotheses of C119_simulate: a tetrahedron that is thrown *)
Example C119_nonvacuous eigh : let g := mkV 0 (-10) 0 in let v := mkV 1 0 0 in exists e e' b m, soft_reach eigh demo_axis e /\ stepper_fresh e /\ 0 < sq_time_step (sg_params e) /\ soft_simulate demo_inv (fun _ => Some []) (fun _ _ _ _ _ _ _ => None) 1 (1 / 1000) e = SimEnd e' ([1 / 1000] : list R) /\ In b (sg_bodies e) /\ undeformed b mid vzero v /\ matter b (sm_rho m) 0 /\ material_of e b = Some m /\ sm_model m = SVK.
Proof.
  cbv zeta. destruct (demo_stepper eigh (mkV 0 (-10) 0) (mkV 1 0 0)) as (e & I0 & Ee & HR & W & EW & R1 & F1 & S1). exists (sg_with_stepper e W). pose proof F1 as (M & W0 & F2 & F3 & F4).
  destruct (C115_step_succeeds eigh demo_axis (fun _ => Some []) (fun _ _ _ _ _ _ _ => None) (1 / 1000) (sg_with_stepper e W) W0 [] R1 S1 F3 eq_refl) as (e' & HS). { intros H. destruct H. reflexivity. }
  exists e', (demo_body I0 (mkV 0 (-10) 0) (mkV 1 0 0)), demo_material. assert (ET : sq_time_step (sg_params (sg_with_stepper e W)) = 1 / 1000) by (rewrite Ee; reflexivity).
  split; [exact R1|]. split; [exact F1|]. split; [rewrite ET; lra|]. split.
  - unfold soft_simulate. destruct (Rleb (1 / 1000) 0) eqn:EL; [apply Rleb_true in EL; lra|]. rewrite F3. cbn [soft_loop].
    destruct (Reqb_spec (1 / 1000) 0); [lra|]. cbv zeta. rewrite ET, Rmin_left by lra. rewrite HS. destruct (Reqb_spec (1 / 1000 - 1 / 1000) 0); [reflexivity|lra].
  - subst e. split; [left; reflexivity|]. split; [apply demo_undeformed|]. split; [apply demo_matter|]. split; reflexivity.
Qed.
