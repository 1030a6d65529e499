(** Soft-body engine: set_type (C120) and boundary conditions (C121). *)
From Verif Require Import Base ListProofs VecModel VecProofs ProxModel SolverModel SolverProofs BvhModel GridModel SurfModel VolModel RigidTypes StepModel MechModel FemModel FemSpec FemProofs FemProofs2 Prop_Fem SoftModel SoftSpec SoftProofs SoftProofs2 SoftReach SoftProofs3 SoftProofs4 SoftFrame Prop_Soft Prop_Soft2 SoftDemo Prop_Soft3 Prop_Soft5 Prop_Soft6.
Open Scope R_scope.

(** ** C120: fixed bodies *)
Definition mark (nm : name) (f : bool) (b : sbody) : sbody := if name_eqb (s_name b) nm then sb_with_fixed b f else b.
Definition with_type (e : sengine) (nm : name) (f : bool) : sengine := upd_sbody e nm (fun b => sb_with_fixed b f).
Section marks.
Variables (nm : name) (f : bool).
Notation mk := (mark nm f).
Lemma mark_fields b : s_name (mk b) = s_name b /\ s_stage (mk b) = s_stage b /\ s_offset (mk b) = s_offset b /\ s_n (mk b) = s_n b /\ s_T (mk b) = s_T b /\ s_x (mk b) = s_x b /\ s_u (mk b) = s_u b /\ s_dirichlet (mk b) = s_dirichlet b /\ s_C (mk b) = s_C b /\ s_material (mk b) = s_material b.
Proof. unfold mark. destruct (name_eqb (s_name b) nm); repeat split. Qed.
Lemma mark_gather bs g : (forall b, g (mk b) = g b) -> gather (map mk bs) g = gather bs g.
Proof. intros Hg. unfold gather. generalize fzero. induction bs as [|b bs IH]; intros x; cbn [map fold_left]; [reflexivity|]. destruct (mark_fields b) as (_ & _ & E3 & E4 & _). rewrite Hg, E3, E4. apply IH. Qed.
Lemma mark_bcp bs x : bc_positions (map mk bs) x = bc_positions bs x.
Proof. unfold bc_positions. revert x. induction bs as [|b bs IH]; intros x; cbn [map fold_left]; [reflexivity|]. destruct (mark_fields b) as (_ & _ & E3 & _ & _ & _ & _ & E8 & _). rewrite E3, E8. apply IH. Qed.
Lemma mark_bcv bs x : bc_velocities (map mk bs) x = bc_velocities bs x.
Proof. unfold bc_velocities. revert x. induction bs as [|b bs IH]; intros x; cbn [map fold_left]; [reflexivity|]. destruct (mark_fields b) as (_ & _ & E3 & _ & _ & _ & _ & E8 & _). rewrite E3, E8. apply IH. Qed.
Lemma mark_collect bs g g' acc : (forall b, g' (mk b) = g b) -> collect (map mk bs) g' acc = collect bs g acc.
Proof. intros Hg. revert acc. induction bs as [|b bs IH]; intros acc; cbn [map collect]; [reflexivity|]. rewrite Hg. destruct (mark_fields b) as (_ & _ & E3 & E4 & _). destruct (g b); [|reflexivity]. rewrite E3, E4. apply IH. Qed.
Lemma mark_ready bs : forallb ready (map mk bs) = forallb ready bs.
Proof. induction bs as [|b bs IH]; cbn [map forallb]; [reflexivity|]. rewrite IH. unfold ready. destruct (mark_fields b) as (_ & E2 & _). rewrite E2. reflexivity. Qed.
Lemma mark_entries bs k cp : soft_contact_entries (map mk bs) k cp = soft_contact_entries bs k cp.
Proof.
  unfold soft_contact_entries. rewrite !nth_error_map. destruct (nth_error bs (sc_A cp)) as [A|]; [|reflexivity]. destruct (nth_error bs (sc_B cp)) as [B|]; [|reflexivity]. cbn [option_map].
  destruct (mark_fields A) as (_ & _ & E3 & _ & E5 & _), (mark_fields B) as (_ & _ & F3 & _ & F5 & _). rewrite E3, E5, F3, F5. reflexivity.
Qed.
Lemma map_all_same {A B} (g h : A -> option B) l : (forall a, g a = h a) -> map_all g l = map_all h l.
Proof. intros H. induction l as [|a l IH]; cbn; [reflexivity|]. rewrite H, IH. reflexivity. Qed.
Lemma mark_jacobian e : soft_jacobian (with_type e nm f) = soft_jacobian e.
Proof. unfold soft_jacobian. cbn [with_type upd_sbody sg_with_bodies sg_bodies sg_contacts]. rewrite (map_all_same _ (fun kc => soft_contact_entries (sg_bodies e) (fst kc) (snd kc))); [reflexivity|]. intros kc. apply mark_entries. Qed.
Lemma mark_friction e : soft_friction (with_type e nm f) = soft_friction e.
Proof.
  unfold soft_friction. cbn [with_type upd_sbody sg_with_bodies sg_bodies sg_contacts sg_lib]. f_equal. match goal with |- match ?a with _ => _ end = match ?b with _ => _ end => assert (E : a = b); [|rewrite E; reflexivity] end. apply map_all_same. intros cp. rewrite !nth_error_map.
  destruct (nth_error _ (sc_A cp)) as [A|]; [|reflexivity]. destruct (nth_error _ (sc_B cp)) as [B|]; [|reflexivity]. cbn [option_map].
  destruct (mark_fields A) as (_ & _ & _ & _ & _ & _ & _ & _ & _ & E), (mark_fields B) as (_ & _ & _ & _ & _ & _ & _ & _ & _ & F). unfold mark in E, F. rewrite E, F. reflexivity.
Qed.
Lemma mark_integrate e dt x u q : integrate (with_type e nm f) dt x u q = with_type (integrate e dt x u q) nm f.
Proof.
  unfold integrate. cbn [with_type upd_sbody sg_with_bodies sg_bodies]. change (map (fun b => if name_eqb (s_name b) nm then sb_with_fixed b f else b) (sg_bodies e)) with (map mk (sg_bodies e)). rewrite !mark_bcv, mark_bcp.
  unfold set_position_vector, set_velocity_vector, with_type, upd_sbody, sg_with_bodies. cbn [sg_materials sg_lib sg_params sg_bodies sg_contacts sg_N sg_stepper]. f_equal. rewrite !map_map. apply map_ext. intros b. unfold sb_with_x, sb_with_u, sb_with_fixed, view. destruct b; cbn. destruct (name_eqb _ nm); reflexivity.
Qed.
Lemma mark_post sv J WJT e : soft_post_stabilization sv J WJT (with_type e nm f) = option_map (fun e => with_type e nm f) (soft_post_stabilization sv J WJT e).
Proof. unfold soft_post_stabilization. cbn [with_type upd_sbody sg_with_bodies sg_contacts sg_params sg_N]. destruct (forallb _ _); [reflexivity|]. destruct (contact_solve _ _ _ _ _ _ _ _ _); reflexivity. Qed.
End marks.
Definition relabel (nm : name) (f : bool) (o : soutcome) : soutcome := match o with SDone e => SDone (with_type e nm f) | SRaised e => SRaised (with_type e nm f) end.
(** a step does the same to bodies declared fixed as to free ones *)
Theorem C120_no_effect cd sv dt e nm f : cd (with_type e nm f) = cd e -> soft_step cd sv dt (with_type e nm f) = relabel nm f (soft_step cd sv dt e).
Proof.
  intros HC. unfold soft_step. change (sg_stepper (with_type e nm f)) with (sg_stepper e). destruct (sg_stepper e) as [[dimW W]|]; [|reflexivity].
  change (sg_bodies (with_type e nm f)) with (map (mark nm f) (sg_bodies e)). rewrite mark_ready. destruct (forallb ready (sg_bodies e)); cbn [negb]; [|reflexivity]. cbv zeta.
  change (sg_N (with_type e nm f)) with (sg_N e). rewrite mark_bcp, mark_bcv.
  assert (E1 : get_position_vector (with_type e nm f) = get_position_vector e) by (apply (mark_gather nm f (sg_bodies e) s_x); intros b; apply mark_fields).
  assert (E2 : get_velocity_vector (with_type e nm f) = get_velocity_vector e) by (apply (mark_gather nm f (sg_bodies e) s_u); intros b; apply mark_fields). rewrite E1, E2.
  set (x := bc_positions (sg_bodies e) (get_position_vector e)). set (u := bc_velocities (sg_bodies e) (get_velocity_vector e)).
  assert (MF : forall b, material_of (with_type e nm f) (mark nm f b) = material_of e b) by (intros b; unfold material_of; destruct (mark_fields nm f b) as (_ & _ & _ & _ & _ & _ & _ & _ & _ & E); rewrite E; reflexivity).
  assert (E3 : elastic_forces x (with_type e nm f) = elastic_forces x e).
  { apply (mark_collect nm f (sg_bodies e) (body_elastic e x)). intros b. unfold body_elastic. rewrite MF. unfold mark, view. destruct (name_eqb (s_name b) nm); reflexivity. }
  assert (E4 : traction_forces x (with_type e nm f) = traction_forces x e) by (unfold traction_forces; apply mark_collect; intros b; unfold mark, view; destruct (name_eqb (s_name b) nm); reflexivity).
  assert (E5 : damping_forces u (with_type e nm f) = damping_forces u e) by (unfold damping_forces; apply mark_collect; intros b; unfold mark, view; destruct (name_eqb (s_name b) nm); reflexivity).
  assert (E6 : external_forces (with_type e nm f) = external_forces e).
  { unfold external_forces. apply mark_collect. intros b. rewrite MF. unfold mark. destruct (name_eqb (s_name b) nm); reflexivity. }
  rewrite E3, E4, E5, E6. destruct (elastic_forces x e) as [Fe|]; [|reflexivity]. destruct (traction_forces x e) as [Ft|]; [|reflexivity]. destruct (damping_forces u e) as [Fd|]; [|reflexivity]. destruct (external_forces e) as [Fext|]; [|reflexivity].
  destruct (negb (Nat.eqb dimW (3 * sg_N e))); [reflexivity|]. rewrite HC. destruct (cd e) as [cs|]; [|reflexivity]. change (sg_with_contacts (with_type e nm f) cs) with (with_type (sg_with_contacts e cs) nm f). rewrite mark_jacobian, mark_friction.
  change (sg_params (with_type e nm f)) with (sg_params e). destruct cs as [|c cs]; [rewrite mark_integrate; reflexivity|]. destruct (soft_jacobian _) as [J|]; [|reflexivity]. destruct (sq_pre (sg_params e)); [reflexivity|]. destruct (soft_friction _) as [mu|]; [|reflexivity].
  destruct (contact_solve _ _ _ _ _ _ _ _ _) as [sol|]; [|reflexivity]. rewrite mark_integrate, mark_post. destruct (sq_post (sg_params e)); [|reflexivity]. destruct (soft_post_stabilization _ _ _ _); reflexivity.
Qed.
(** and that is all set_type does *)
Theorem C120_set_type e nm f e' : soft_set_type e nm (Some f) = SDone e' -> e' = with_type e nm f /\ (exists b, find_sbody e nm = Some b).
Proof. unfold soft_set_type. destruct (find_sbody e nm) as [b|]; [|discriminate]. intros H. injection H as <-. split; [reflexivity|eauto]. Qed.
(** so a fixed body moves *)
Theorem C120_refuted eigh : exists e e1 e' b', soft_reach eigh demo_axis e /\ soft_set_type e demo_name (Some true) = SDone e1 /\ soft_step (fun _ => Some []) (fun _ _ _ _ _ _ _ => None) (1 / 1000) e1 = SDone e' /\
  sg_bodies e' = [b'] /\ s_fixed b' = true /\ (forall i, (i < 4)%nat -> s_u b' i = mkV 1 (- (1 / 100)) 0).
Proof.
  destruct (demo_falls eigh (mkV 0 (-10) 0) (mkV 1 0 0) demo_material eq_refl eq_refl eq_refl) as (e0 & W & e & b & b' & H1 & H2 & H3 & H4 & H5 & H6 & H7 & H8 & e1 & H9 & H10 & H11).
  { intros e HR HM. destruct e as [ms L P bs cs N st]. cbn in HM. subst ms. exact HR. }
  assert (EE : sg_with_materials e [(default_name, demo_material)] = e) by (destruct e as [ms L P bs cs N st]; cbn in H8; subst ms; reflexivity). rewrite EE in H9. clear EE.
  assert (Nb' : s_name b' = demo_name). { pose proof (step_evolved (fun _ => Some []) (fun _ _ _ _ _ _ _ => None) (1 / 1000) e) as HE. rewrite H9 in HE. pose proof (ev_bodies _ _ HE) as FB. cbn [outcome_engine] in FB. rewrite H6, H10 in FB. inversion FB as [|? ? ? ? Mo _]; subst. destruct Mo as (x & u & ->). rewrite H7. reflexivity. }
  exists e, (with_type e demo_name true), (with_type e1 demo_name true), (sb_with_fixed b' true). split; [exact H4|]. split.
  { unfold soft_set_type. assert (F : find_sbody e demo_name = Some b) by (unfold find_sbody; rewrite H6, H7; reflexivity). rewrite F. reflexivity. }
  split; [rewrite (C120_no_effect (fun _ => Some []) (fun _ _ _ _ _ _ _ => None) (1 / 1000) e demo_name true eq_refl), H9; reflexivity|].
  split; [cbn [with_type upd_sbody sg_with_bodies sg_bodies]; rewrite H10; cbn [map]; rewrite Nb'; reflexivity|]. split; [reflexivity|]. intros i Hi. change (s_u (sb_with_fixed b' true) i) with (s_u b' i). rewrite H11 by (rewrite H7; exact Hi). cbn [sm_rho demo_material]. vunf. f_equal; field.
Qed.

(** ** C121: Dirichlet and traction conditions *)
Definition other_bodies_kept (e e' : sengine) (nm : name) : Prop := sg_materials e' = sg_materials e /\ sg_lib e' = sg_lib e /\ sg_params e' = sg_params e /\ sg_contacts e' = sg_contacts e /\ sg_N e' = sg_N e /\ sg_stepper e' = sg_stepper e /\
  map s_name (sg_bodies e') = map s_name (sg_bodies e) /\ forall n, n <> nm -> find_sbody e' n = find_sbody e n.
Lemma find_upd e n f k : (forall b, s_name (f b) = s_name b) -> find_sbody (upd_sbody e n f) k = match find_sbody e k with Some b => Some (if name_eqb k n then f b else b) | None => None end.
Proof.
  intros Hf. unfold find_sbody, upd_sbody. cbn [sg_with_bodies sg_bodies]. induction (sg_bodies e) as [|b bs IH]; cbn [map find]; [reflexivity|].
  assert (E : s_name (if name_eqb (s_name b) n then f b else b) = s_name b) by (destruct (name_eqb (s_name b) n); [apply Hf|reflexivity]). rewrite E. destruct (name_eqb (s_name b) k) eqn:EK; [|exact IH]. apply name_eqb_eq in EK. subst k. reflexivity.
Qed.
Lemma upd_kept e nm f : (forall b, s_name (f b) = s_name b) -> other_bodies_kept e (upd_sbody e nm f) nm.
Proof.
  intros Hf. repeat (split; [reflexivity|]). split.
  - cbn [upd_sbody sg_with_bodies sg_bodies]. rewrite map_map. apply map_ext. intros b. destruct (name_eqb (s_name b) nm); [apply Hf|reflexivity].
  - intros n Hn. rewrite find_upd by exact Hf. destruct (find_sbody e n); [|reflexivity]. destruct (name_eqb n nm) eqn:E; [apply name_eqb_eq in E; contradiction|reflexivity].
Qed.
(** the nodes whose rest position is inside the region (phi <= 0), and only those, become Dirichlet nodes, held at their rest position; the
    conditions of earlier calls stay *)
Theorem C121_dirichlet e nm phi e' : create_dirichlet_conditions e nm phi = SDone e' -> other_bodies_kept e e' nm /\ exists b b', find_sbody e nm = Some b /\ find_sbody e' nm = Some b' /\
  b' = sb_with_conditions b (s_dirichlet b') (s_traction b) /\ (forall i, (i < s_n b)%nat -> (pinned b' i <-> pinned b i \/ phi (s_x0 b i) <= 0)) /\
  (exists new, s_dirichlet b' = s_dirichlet b ++ new /\ NoDup (map d_idx new) /\ forall d, In d new <-> (d_idx d < s_n b)%nat /\ phi (s_x0 b (d_idx d)) <= 0 /\ d_value d = s_x0 b (d_idx d)).
Proof.
  unfold create_dirichlet_conditions. destruct (find_sbody e nm) as [b|] eqn:EB; [|discriminate]. intros H.
  assert (EE : e' = upd_sbody e nm (fun b => sb_with_conditions b (s_dirichlet b ++ dirichlet_new phi b) (s_traction b))) by (destruct (s_stage b); congruence). subst e'. clear H. split; [apply upd_kept; reflexivity|].
  exists b. eexists. split; [reflexivity|]. split; [rewrite find_upd by reflexivity; rewrite EB, name_eqb_refl; reflexivity|]. split; [reflexivity|]. cbn [sb_with_conditions s_dirichlet].
  assert (NEW : forall d, In d (dirichlet_new phi b) <-> (d_idx d < s_n b)%nat /\ phi (s_x0 b (d_idx d)) <= 0 /\ d_value d = s_x0 b (d_idx d)).
  { intros d. unfold dirichlet_new. rewrite in_map_iff. split.
    - intros (i & <- & Hi). apply filter_In in Hi as [Hi Hp]. apply in_seq in Hi. apply Rleb_true in Hp. cbn. repeat split; [lia|exact Hp].
    - intros (H1 & H2 & H3). exists (d_idx d). split; [destruct d; cbn in *; congruence|]. apply filter_In. split; [apply in_seq; lia|apply Rleb_true; exact H2]. }
  split.
  - intros i Hi. unfold pinned. cbn [sb_with_conditions s_dirichlet]. split.
    + intros (d & Hd & <-). apply in_app_or in Hd as [Hd|Hd]; [left; exists d; auto|right; apply NEW in Hd; apply Hd].
    + intros [(d & Hd & E)|Hp]; [exists d; split; [apply in_or_app; left; exact Hd|exact E]|]. exists (mkDir i (s_x0 b i)). split; [|reflexivity]. apply in_or_app. right. apply NEW. cbn. auto.
  - exists (dirichlet_new phi b). split; [reflexivity|]. split; [|exact NEW]. unfold dirichlet_new. rewrite map_map. cbn [d_idx]. rewrite map_id. apply NoDup_filter, seq_NoDup.
Qed.
(** the surface triangles all of whose corners are inside the region, and only those, get the load; once each per call *)
Theorem C121_traction e nm phi load e' : create_traction_conditions e nm phi load = SDone e' -> other_bodies_kept e e' nm /\ exists b b', find_sbody e nm = Some b /\ find_sbody e' nm = Some b' /\
  b' = sb_with_conditions b (s_dirichlet b) (s_traction b') /\ exists new, s_traction b' = s_traction b ++ new /\
  (forall t, In t new <-> In (tr_i t, tr_j t, tr_k t) (s_surface b) /\ phi (s_x0 b (tr_i t)) <= 0 /\ phi (s_x0 b (tr_j t)) <= 0 /\ phi (s_x0 b (tr_k t)) <= 0 /\ tr_load t = load) /\
  (NoDup (s_surface b) -> NoDup new).
Proof.
  unfold create_traction_conditions. destruct (find_sbody e nm) as [b|] eqn:EB; [|discriminate]. destruct (ready b); [|discriminate]. intros H. injection H as <-. split; [apply upd_kept; reflexivity|].
  exists b. eexists. split; [reflexivity|]. split; [rewrite find_upd by reflexivity; rewrite EB, name_eqb_refl; reflexivity|]. split; [reflexivity|]. cbn [sb_with_conditions s_traction]. exists (traction_new phi load b). split; [reflexivity|]. split.
  - intros t. unfold traction_new. rewrite in_map_iff. split.
    + intros ([[i j] k] & <- & Hi). apply filter_In in Hi as [Hi Hp]. apply andb_true_iff in Hp as [Hp H3]. apply andb_true_iff in Hp as [H1 H2]. apply Rleb_true in H1, H2, H3. cbn. auto.
    + intros (H1 & H2 & H3 & H4 & H5). exists (tr_i t, tr_j t, tr_k t). split; [destruct t; cbn in *; congruence|]. apply filter_In. split; [exact H1|]. rewrite !Rleb_t by assumption. reflexivity.
  - intros ND. unfold traction_new. apply FinFun.Injective_map_NoDup; [|apply NoDup_filter; exact ND]. intros [[i j] k] [[i' j'] k'] E. injection E as -> -> ->. reflexivity.
Qed.
(** when they return *)
Theorem C121_returns e nm phi load b : find_sbody e nm = Some b -> (s_stage b <> Registered <-> exists e', create_dirichlet_conditions e nm phi = SDone e') /\ (s_stage b = Complete <-> exists e', create_traction_conditions e nm phi load = SDone e').
Proof.
  intros EB. unfold create_dirichlet_conditions, create_traction_conditions, ready. rewrite EB. split; destruct (s_stage b); (split; [intros H; try congruence; eauto|intros [e' H]; congruence]).
Qed.
Lemma demo_find I0 g v : find_sbody (demo_engine I0 g v) demo_name = Some (demo_body I0 g v). Proof. reflexivity. Qed.
Example C121_nonvacuous eigh : exists e e1 e2 b, soft_reach eigh demo_axis e /\ find_sbody e demo_name = Some b /\ length (s_surface b) = 4%nat /\
  create_dirichlet_conditions e demo_name (fun p => vx p - 1) = SDone e1 /\ create_traction_conditions e1 demo_name (fun p => vz p) (mkV 0 0 1) = SDone e2.
Proof.
  destruct demo_D0 as [I0 HI]. exists (demo_engine I0 vzero vzero). eexists. eexists. exists (demo_body I0 vzero vzero). split; [apply demo_reach; exact HI|]. split; [reflexivity|]. split; [|split; reflexivity].
  reflexivity.
Qed.
